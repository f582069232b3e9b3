(** Marginal distributions of a single parameter. *)
From Coq Require Import List ZArith Reals String Bool.
From Verif Require Import Base.Num Base.Exn Base.Arr Base.RSum Model.Helper Model.Tm Model.Study Spec.Kernel Spec.Config Spec.Dist.
Import ListNotations.
Local Open Scope R_scope.

(** coordinate of grid point x along axis k *)
Definition coord (shape : list nat) (k x : nat) : nat := nth k (unravel shape x) O.
(** probability that the k-th parameter has its v-th value: sum over all grid points with that value *)
Definition marginal (shape : list nat) (k : nat) (p : nat -> R) (v : nat) : R :=
  rsum (natprod shape) (fun x => if Nat.eqb (coord shape k x) v then p x else 0).

(** A study with posterior distributions [posts] at the times [ts] for an observation model with parameter values [vs] *)
Record hasPosteriors {L} (S : study R L) (o : om R) (vs : list (list R)) (ts : list R) (posts : list (nat -> R)) : Prop := {
  hp_om : st_om S = Some o;
  hp_names : List.length (om_names o) = List.length vs;
  hp_marg : st_marg S = vs;
  hp_shape : st_shape S = map (@List.length R) vs;
  hp_lat : List.length (st_lat S) = List.length vs;
  hp_pos : Forall (fun l => 0 < l) (st_lat S);
  hp_size : (0 < gridPoints vs)%nat;
  hp_ts : st_fmtTs S = ts;
  hp_len : List.length posts = List.length ts;
  hp_post : st_post S = map (fun p => Some (arrOf (gridPoints vs) p)) posts;
  hp_dist : Forall (fun p => (forall x, (x < gridPoints vs)%nat -> 0 <= p x) /\ rsum (gridPoints vs) p = 1) posts
}.
