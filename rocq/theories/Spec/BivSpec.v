(** Specification: the probabilities of the steps of a bivariate random walk on a two-dimensional grid. *)
From Coq Require Import List ZArith Reals Bool.
From Verif Require Import Base.RSum Spec.Kernel.
Import ListNotations.
Local Open Scope R_scope.

Definition ceilZ (x : R) : Z := (- Int_part (- x))%Z.
(** largest step along an axis (in grid points) for the standard deviation [s] (in grid points) *)
Definition bivReach (s : R) : nat := Z.to_nat (3 * ceilZ s).
(** Gaussian with standard deviations s1, s2 and correlation rho, up to a constant *)
Definition bivDensity (s1 s2 rho : R) (k l : Z) : R :=
  exp (- ((IZR k / s1) ^ 2 - 2 * rho * (IZR k / s1) * (IZR l / s2) + (IZR l / s2) ^ 2) / (2 * (1 - rho ^ 2))).
Definition bivSum (s1 s2 rho : R) : R :=
  Rsum (map (fun k => Rsum (map (bivDensity s1 s2 rho k) (steps (bivReach s2)))) (steps (bivReach s1))).
Definition within (r : nat) (k : Z) : bool := (Z.abs k <=? Z.of_nat r)%Z.
(** probability of the step (k, l) *)
Definition bivProb (s1 s2 rho : R) (k l : Z) : R :=
  if within (bivReach s1) k && within (bivReach s2) l then bivDensity s1 s2 rho k l / bivSum s1 s2 rho else 0.
(** from grid point x to grid point y; n2 = number of values of the second parameter *)
Definition Kbiv (n2 : nat) (s1 s2 rho : R) : kern := fun x y =>
  bivProb s1 s2 rho (Z.of_nat (y / n2) - Z.of_nat (x / n2)) (Z.of_nat (y mod n2) - Z.of_nat (x mod n2)).
