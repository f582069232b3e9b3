(** Specification: another origin of the data. *)
From Coq Require Import List ZArith Reals String Bool.
From Verif Require Import Base.Num Base.Exn Base.Arr Model.Helper Model.Tm Model.HyperParams Model.Study Model.ObsModels Spec.Config.
Import ListNotations.
Local Open Scope R_scope.

(** all data plus [d]; of data points with several components, the first one (the others are standard deviations, for GaussianMean) *)
Definition dataPlus (d : R) (x : raw R) : raw R :=
  match x with
  | Raw1 l => Raw1 (map (xadd (Fin d)) l)
  | Raw2 rows => Raw2 (map (fun row => match row with [] => [] | y :: r => xadd (Fin d) y :: r end) rows)
  end.
(** values of the first parameter plus [d] *)
Definition gridPlus (d : R) (vs : list (list R)) : list (list R) :=
  match vs with [] => [] | v :: r => map (Rplus d) v :: r end.
Definition meansPlus (d : R) (ms : list (list (xnum R))) : list (list (xnum R)) :=
  match ms with [] => [] | v :: r => map (xadd (Fin d)) v :: r end.
(** the prior as a function of the shifted parameter *)
Definition priorPlus (d : R) (p q : priorSpec R) : Prop :=
  match p, q with
  | PNone, PNone => True
  | PArr sh a, PArr sh' a' => sh = sh' /\ a = a'
  | PConst c, PConst c' => c = c'
  | PFun f, PFun f' => forall g, f' (gridPlus d g) = f g
  | PSym n f, PSym n' f' => n = n' /\ forall g, f' (gridPlus d g) = f g
  | _, _ => False
  end.
Definition priorArgPlus (d : R) (p q : option (priorSpec R)) : Prop :=
  match p, q with None, None => True | Some p, Some q => priorPlus d p q | _, _ => False end.
(** observation models of which the first parameter is a location *)
Inductive locates (d : R) : om R -> om R -> list (list R) -> raw R -> Prop :=
| loc_gaussian p1 p2 v1 v2 v1' v2' pr pr' m s l : priorArgPlus d pr pr' ->
    locates d (gaussian p1 v1 p2 v2 pr) (gaussian p1 v1' p2 v2' pr') [m; s] (Raw1 l)
| loc_laplace p1 p2 v1 v2 v1' v2' pr pr' m s l : priorArgPlus d pr pr' ->
    locates d (laplace p1 v1 p2 v2 pr) (laplace p1 v1' p2 v2' pr') [m; s] (Raw1 l)
| loc_gaussianMean p v v' pr pr' m rows : priorPlus d pr pr' ->
    locates d (gaussianMean p v pr) (gaussianMean p v' pr') [m] (Raw2 rows).
(** Two studies that have not been fitted before; the second one has all data and all values of the first parameter increased by [d]. *)
Record shiftedBy (d : R) (S S' : study R R) (o o' : om R) (m : tm R) (vs : list (list R)) (ts : list R) : Prop := {
  sh_old : configured S o m vs ts;
  sh_new : configured S' o' m (gridPlus d vs) ts;
  sh_data : st_raw S' = dataPlus d (st_raw S);
  sh_om : locates d o o' vs (st_raw S);
  sh_fresh : st_post S = [] /\ st_post S' = [] /\ st_means S = [] /\ st_means S' = [];
  sh_oracles : st_shift S' = st_shift S /\ st_aconv S' = st_aconv S /\ st_bconv S' = st_bconv S
}.
