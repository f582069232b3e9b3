(** Specification: the probability distributions the built-in observation models stand for. *)
From Coq Require Import List Reals.
From Verif Require Import Base.Num Base.Arr Base.RSum Model.Helper Model.Tm Model.HyperParams Model.Study Spec.Kernel Spec.Marginal.
Import ListNotations.
Local Open Scope R_scope.

(** value of parameter k at grid point x, for the parameter values vs *)
Definition parAt (vs : list (list R)) (k x : nat) : R := nth (coord (map (@List.length R) vs) k x) (nth k vs []) 0.

Definition normalDensity (m s x : R) : R := exp (- (x - m) ^ 2 / (2 * s ^ 2)) / sqrt (2 * PI * s ^ 2).
Definition laplaceDensity (m b x : R) : R := exp (- Rabs (x - m) / b) / (2 * b).
Definition poissonProb (lam : R) (k : nat) : R := lam ^ k * exp (- lam) / INR (fact k).
Definition bernoulliProb (p d : R) : R := if Req_EM_T d 0 then 1 - p else p.

(** F is a distribution function with density f: f is its derivative, and it goes from zero to one *)
Definition distributionFunction (f F : R -> R) : Prop :=
  (forall x, derivable_pt_lim F x (f x)) /\
  (forall eps, 0 < eps -> exists M, forall x, x < M -> Rabs (F x) < eps) /\
  (forall eps, 0 < eps -> exists M, forall x, M < x -> Rabs (F x - 1) < eps).

(** data without infinite values; NaN = missing *)
Definition regular (x : xnum R) : Prop := match x with Fin _ | NaN => True | _ => False end.
Definition regularRaw (d : raw R) : Prop :=
  match d with Raw1 l => Forall regular l | Raw2 rows => Forall (Forall regular) rows end.
