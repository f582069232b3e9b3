(** Specification: Fisher information and Jeffreys prior of a family of distributions. *)
From Coq Require Import List Reals.
Import ListNotations.
Local Open Scope R_scope.

(** limit of F at infinity (sg = 1) or minus infinity (sg = -1) *)
Definition tends (sg : R) (F : R -> R) (a : R) : Prop := forall eps, 0 < eps -> exists M, forall x, M < sg * x -> Rabs (F x - a) < eps.
(** integral of f over the real line: F is continuous and, except at finitely many points, an antiderivative of f *)
Definition integral (f : R -> R) (v : R) : Prop :=
  exists F exc a b, (forall x, continuity_pt F x) /\ (forall x, ~ In x exc -> derivable_pt_lim F x (f x)) /\
    tends (-1) F a /\ tends 1 F b /\ v = b - a.
(** sum over the two outcomes 0 and 1, sum over all counts *)
Definition sumBits (f : R -> R) (v : R) : Prop := v = f 0 + f 1.
Definition sumCounts (f : nat -> R) (v : R) : Prop := infinite_sum f v.

Section Fisher.
  (** [total f v]: v is the sum or integral of f over all data; [X]: possible data; [good]: data for which the family is smooth *)
  Context {X : Type} (total : (X -> R) -> R -> Prop) (good : X -> Prop).

  (** score: derivative of the log-likelihood with respect to the parameter *)
  Definition score (f : R -> X -> R) (th : R) (s : X -> R) : Prop :=
    forall x, good x -> derivable_pt_lim (fun th => ln (f th x)) th (s x).
  (** one parameter: expectation of the squared score *)
  Definition fisher (f : R -> X -> R) (th v : R) : Prop :=
    exists s, score f th s /\ total (fun x => f th x * (s x) ^ 2) v.
  (** two parameters: matrix of the expectations of products of scores *)
  Definition fisher2 (f : R -> R -> X -> R) (a b g11 g12 g22 : R) : Prop :=
    exists s t, score (fun a => f a b) a s /\ score (fun b => f a b) b t /\
      total (fun x => f a b x * (s x * s x)) g11 /\ total (fun x => f a b x * (s x * t x)) g12 /\ total (fun x => f a b x * (t x * t x)) g22.
  (** Jeffreys prior (not normalised): square root of the determinant *)
  Definition jeffreys (f : R -> X -> R) (th j : R) : Prop := exists v, fisher f th v /\ j = sqrt v.
  Definition jeffreys2 (f : R -> R -> X -> R) (a b j : R) : Prop :=
    exists g11 g12 g22, fisher2 f a b g11 g12 g22 /\ j = sqrt (g11 * g22 - g12 * g12).
End Fisher.
