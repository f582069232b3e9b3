(** Specification: likelihoods that differ by constant factors. *)
From Coq Require Import List ZArith Reals String Bool.
From Verif Require Import Base.Num Base.Exn Base.Arr Base.RSum Model.Helper Model.Tm Model.HyperParams Model.Study Spec.Config.
Import ListNotations.
Local Open Scope R_scope.

Definition scaledBy (c : R) (a : list (xnum R)) : list (xnum R) := map (fun x => xmul (Fin c) x) a.

(** the i-th segment of the second list has the likelihood of the i-th segment of the first list, times the i-th factor *)
Inductive proportional (lik lik' : seg R -> list (xnum R)) : list (seg R) -> list (seg R) -> list R -> Prop :=
| pr_nil : proportional lik lik' [] [] []
| pr_cons s s' c ss ss' cs : 0 < c -> lik' s' = scaledBy c (lik s) -> proportional lik lik' ss ss' cs ->
    proportional lik lik' (s :: ss) (s' :: ss') (c :: cs).

(** two studies with the same grid, transition model, prior and time stamps (and the same stored results, if any) *)
Record sameButLikelihood (S S' : study R R) (o o' : om R) (m : tm R) (vs : list (list R)) (ts : list R) : Prop := {
  sl_first : configured S o m vs ts;
  sl_second : configured S' o' m vs ts;
  sl_names : om_names o' = om_names o;
  sl_prior : om_prior o' = om_prior o;
  sl_seglen : om_seglen o' = om_seglen o;
  sl_stored : st_post S' = st_post S /\ st_means S' = st_means S;
  sl_oracles : st_shift S' = st_shift S /\ st_aconv S' = st_aconv S /\ st_bconv S' = st_bconv S
}.
(** the likelihoods of all segments of the two studies *)
Definition likelihoodsTimes (S S' : study R R) (o o' : om R) (vs : list (list R)) (cs : list R) : Prop :=
  proportional (processedPdf o (gridPoints vs) (meshgrid vs)) (processedPdf o' (gridPoints vs) (meshgrid vs)) (segments S o) (segments S' o') cs.

(** no regime switch anywhere *)
Inductive noRegime : tm R -> Prop :=
| nr_leaf k hn vals p ms : k <> KRegime -> k <> KComb -> (forall mask, k <> KSerial mask) -> noRegime (TM k hn vals p ms)
| nr_comb hn vals p ms : Forall noRegime ms -> noRegime (TM KComb hn vals p ms)
| nr_serial mask hn vals p ms : Forall noRegime ms -> noRegime (TM (KSerial mask) hn vals p ms).
(** spline shifts and convolutions of SciPy are linear *)
Definition scalesWith (S : study R R) : Prop :=
  (forall ax x c p, 0 < c -> st_shift S ax x (scaledBy c p) = scaledBy c (st_shift S ax x p)) /\
  (forall ax x y c p, 0 < c -> st_aconv S ax x y (scaledBy c p) = scaledBy c (st_aconv S ax x y p)) /\
  (forall x y z c p, 0 < c -> st_bconv S x y z (scaledBy c p) = scaledBy c (st_bconv S x y z p)).
