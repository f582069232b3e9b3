(** Specification: a stationary autoregressive process of first order and its Jeffreys prior. *)
From Coq Require Import List Reals.
From Verif Require Import Spec.ObsSpec Spec.Fisher.
Import ListNotations.
Local Open Scope R_scope.

(** y' = r y + noise with standard deviation s *)
Fixpoint follows (r s y : R) (l : list R) : R :=
  match l with [] => 1 | y' :: l => normalDensity (r * y) s y' * follows r s y' l end.
(** the first observation has the stationary distribution *)
Definition firstDensity (r s y : R) : R := normalDensity 0 (s / sqrt (1 - r ^ 2)) y.
(** joint density of consecutive observations: the exact likelihood *)
Definition arDensity (r s : R) (l : list R) : R :=
  match l with [] => 1 | y :: l => firstDensity r s y * follows r s y l end.
(** the same process in terms of the standard deviation of the observations *)
Definition scaledDensity (r s : R) (l : list R) : R := arDensity r (s * sqrt (1 - r ^ 2)) l.

(** integral over all data sets of n observations *)
Fixpoint integrals (n : nat) (f : list R -> R) (v : R) : Prop :=
  match n with
  | O => v = f []
  | S n => exists g, (forall y, integrals n (fun l => f (y :: l)) (g y)) /\ integral g v
  end.
(** Jeffreys prior for n observations: square root of the determinant of the Fisher information *)
Definition arJeffreys (n : nat) : R -> R -> R -> Prop := jeffreys2 (integrals n) (fun l => List.length l = n) arDensity.
Definition scaledJeffreys (n : nat) : R -> R -> R -> Prop := jeffreys2 (integrals n) (fun l => List.length l = n) scaledDensity.
