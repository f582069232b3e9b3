(** Specification: the steps of an alpha-stable random walk on a grid. *)
From Coq Require Import List ZArith Reals Arith.
From Verif Require Import Base.RSum Spec.Kernel.
Import ListNotations.
Local Open Scope R_scope.

(** characteristic function of the symmetric stable distribution with scale [c] and tail parameter [alpha] > 0 *)
Definition charFun (c alpha x : R) : R := if Req_EM_T (c * x) 0 then 1 else exp (- Rpower (Rabs (c * x)) alpha).
(** half the period of the steps *)
Definition halfPeriod (n : nat) : nat := (3 * n / 2)%nat.
(** Weight of a step by [d] grid points (scale [c] in grid points): inverse discrete Fourier transform of the characteristic function
    at the frequencies 2 pi k / P for -P/2 < k <= P/2, with period P = 2 * halfPeriod n *)
Definition stepStable (n : nat) (c alpha : R) (d : Z) : R :=
  let M := halfPeriod n in
  rsum (2 * M) (fun k => charFun c alpha (PI * INR (Nat.min k (2 * M - k)) / INR M) * cos (PI * IZR d * INR k / INR M)) / INR (2 * M).
(** from grid point x to grid point y of one axis *)
Definition Kstable (n : nat) (c alpha : R) : kern := fun x y => stepStable n c alpha (Z.of_nat y - Z.of_nat x).
(** two parameters with n1 and n2 values: only the parameter [ax] (0 or 1) changes *)
Definition Kaxis (n1 n2 ax : nat) (c alpha : R) : kern := fun x y =>
  match ax with
  | 0%nat => if Nat.eqb (x mod n2) (y mod n2) then Kstable n1 c alpha (x / n2)%nat (y / n2)%nat else 0
  | _ => if Nat.eqb (x / n2) (y / n2) then Kstable n2 c alpha (x mod n2)%nat (y mod n2)%nat else 0
  end.
