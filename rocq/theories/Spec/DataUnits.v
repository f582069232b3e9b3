(** Specification: other units of the data. *)
From Coq Require Import List ZArith Reals String Bool.
From Verif Require Import Base.Num Base.Exn Base.Arr Base.RSum Model.Helper Model.Tm Model.HyperParams Model.Study Model.ObsModels Spec.Config Spec.Units Spec.Factors.
Import ListNotations.
Local Open Scope R_scope.

(** Two studies that have not been fitted before, of which the second one has the parameters (and the transition model) in units given by
    [us]; nothing is said about the data. *)
Record rescaled (us : list R) (S S' : study R R) (o o' : om R) (m : tm R) (vs : list (list R)) (ts : list R) : Prop := {
  rs_old : configured S o m vs ts;
  rs_new : configured S' o' (inUnits (om_names o) us m) (convert us vs) ts;
  rs_names : om_names o' = om_names o;
  rs_seglen : om_seglen o' = om_seglen o;
  rs_length : rawLen (st_raw S') = rawLen (st_raw S);
  rs_fresh : st_post S = [] /\ st_post S' = [] /\ st_means S = [] /\ st_means S' = [];
  rs_oracles : st_shift S' = st_shift S /\ st_aconv S' = st_aconv S /\ st_bconv S' = st_bconv S
}.
(** the likelihoods of the two studies are densities of the data in different units: they differ by the i-th factor for the i-th segment *)
Definition likelihoodsInUnits (us : list R) (S S' : study R R) (o o' : om R) (vs : list (list R)) (cs : list R) : Prop :=
  proportional (processedPdf o (gridPoints vs) (meshgrid vs)) (processedPdf o' (gridPoints vs) (convert us (meshgrid vs))) (segments S o) (segments S' o') cs.
(** the prior as a function of the parameters in the new units, up to a constant factor *)
Definition priorUpTo (us : list R) (p q : priorSpec R) : Prop :=
  priorInUnits us p q \/
  exists f f' k, p = PFun f /\ q = PFun f' /\ 0 < k /\ forall g, List.length g = List.length us -> f' (convert us g) = scaledBy k (f g).

(** ** Built-in observation models for data that have a unit. One datum in the old unit is [u] in the new unit. *)
Definition rawTimes (u : R) (d : raw R) : raw R :=
  match d with
  | Raw1 l => Raw1 (map (fun x => xmul (Fin u) x) l)
  | Raw2 rows => Raw2 (map (map (fun x => xmul (Fin u) x)) rows)
  end.
(** finite numbers or missing *)
Definition measured (x : xnum R) : Prop := x = NaN \/ exists v, x = Fin v.
Definition priorGiven (us : list R) (p q : option (priorSpec R)) : Prop :=
  match p, q with
  | None, None => True
  | Some p, Some q => priorInUnits us p q
  | _, _ => False
  end.
Definition allPositive (v : list R) : Prop := Forall (fun x => 0 < x) v.
(** [dimensional u us o o' vs d]: observation models of the same kind with the same parameter names; [us] are the conversion factors of the
    parameters if the data [d] are multiplied by [u]. Standard deviations and scales are positive, correlations of ScaledAR1 lie between -1 and 1. *)
Inductive dimensional (u : R) : list R -> om R -> om R -> list (list R) -> raw R -> Prop :=
| dim_gaussian p1 p2 v1 v2 v1' v2' pr pr' m s l : priorGiven [u; u] pr pr' -> allPositive s -> Forall measured l ->
    dimensional u [u; u] (gaussian p1 v1 p2 v2 pr) (gaussian p1 v1' p2 v2' pr') [m; s] (Raw1 l)
| dim_laplace p1 p2 v1 v2 v1' v2' pr pr' m s l : priorGiven [u; u] pr pr' -> allPositive s -> Forall measured l ->
    dimensional u [u; u] (laplace p1 v1 p2 v2 pr) (laplace p1 v1' p2 v2' pr') [m; s] (Raw1 l)
| dim_whiteNoise p v v' pr pr' s l : priorGiven [u] pr pr' -> allPositive s -> Forall measured l ->
    dimensional u [u] (whiteNoise p v pr) (whiteNoise p v' pr') [s] (Raw1 l)
| dim_ar1 p1 p2 v1 v2 v1' v2' pr pr' r s l : priorInUnits [1; u] pr pr' -> allPositive s -> Forall measured l ->
    dimensional u [1; u] (ar1 p1 v1 p2 v2 pr) (ar1 p1 v1' p2 v2' pr') [r; s] (Raw1 l)
| dim_scaledAr1 p1 p2 v1 v2 v1' v2' pr pr' r s l : priorInUnits [1; u] pr pr' -> allPositive s -> Forall (fun x => -1 < x < 1) r -> Forall measured l ->
    dimensional u [1; u] (scaledAr1 p1 v1 p2 v2 pr) (scaledAr1 p1 v1' p2 v2' pr') [r; s] (Raw1 l)
| dim_gaussianMean p v v' pr pr' m rows : priorInUnits [u] pr pr' ->
    Forall (fun row => existsb xisnan row = true \/ exists d sd, row = [Fin d; Fin sd] /\ 0 < sd) rows ->
    dimensional u [u] (gaussianMean p v pr) (gaussianMean p v' pr') [m] (Raw2 rows).
(** segments without missing values *)
Definition complete (s : seg R) : bool :=
  match s with Seg1 xs => negb (existsb xisnan xs) | Seg2 rows => negb (existsb (existsb xisnan) rows) end.
Definition observedSegments (S : study R R) (o : om R) : nat := List.length (filter complete (segments S o)).
