(** Specification: exact inference in a finite hidden Markov model by summing over all paths.

    [N] hidden states (grid points) 0..N-1, [n] observations.
    [init x]: prior probability of state x;  [trans i x y]: probability of moving from x to y between observation i and
    observation i+1;  [lik i x]: likelihood of observation i in state x. *)
From Coq Require Import List Reals.
From Verif Require Import Base.RSum.
Import ListNotations.
Local Open Scope R_scope.

(** all paths of length n through the states 0..N-1 *)
Fixpoint paths (N n : nat) : list (list nat) :=
  match n with
  | O => [[]]
  | S n' => flat_map (fun x => map (cons x) (paths N n')) (seq 0 N)
  end.

(** probability of a path together with the observations *)
Definition pathWeight (init : nat -> R) (trans : nat -> nat -> nat -> R) (lik : nat -> nat -> R) (w : list nat) : R :=
  match w with
  | [] => 1
  | x0 :: _ =>
      init x0
      * Rprod (map (fun i => trans i (nth i w O) (nth (S i) w O)) (seq 0 (length w - 1)))
      * Rprod (map (fun i => lik i (nth i w O)) (seq 0 (length w)))
  end.

(** marginal likelihood of the observations *)
Definition evidence (N n : nat) init trans lik : R :=
  Rsum (map (pathWeight init trans lik) (paths N n)).

(** joint probability of the observations and of being in state x at observation i *)
Definition jointAt (N n : nat) init trans lik (i x : nat) : R :=
  Rsum (map (pathWeight init trans lik) (filter (fun w => Nat.eqb (nth i w O) x) (paths N n))).

(** posterior probability of state x at observation i given all observations *)
Definition posterior (N n : nat) init trans lik (i x : nat) : R :=
  jointAt N n init trans lik i x / evidence N n init trans lik.

(** ** What a forward-backward pass computes if the backward step uses its own matrices
    [back i y x]: weight with which the backward pass carries value y at observation i+1 to value x at observation i. *)
(** message about observations i+1 .. i+r *)
Fixpoint message (N : nat) (back : nat -> nat -> nat -> R) (lik : nat -> nat -> R) (i r : nat) : nat -> R :=
  match r with
  | O => fun _ => 1
  | S r' => fun x => rsum N (fun y => back i y x * (lik (S i) y * message N back lik (S i) r' y))
  end.
(** filtering distribution times message *)
Definition combined (N n : nat) init trans back lik (i x : nat) : R :=
  posterior N (S i) init trans lik i x * message N back lik i (n - 1 - i) x.
Definition smoothed (N n : nat) init trans back lik (i x : nat) : R :=
  combined N n init trans back lik i x / rsum N (combined N n init trans back lik i).
(** product of the likelihoods of observations a, a+1, ..., b-1 in state x *)
Definition window (lik : nat -> nat -> R) (a b x : nat) : R := Rprod (map (fun j => lik j x) (seq a (b - a))).
