(** Specification: other units of the parameters. *)
From Coq Require Import List ZArith Reals String Bool.
From Verif Require Import Base.Num Base.Exn Base.Arr Base.RSum Model.Helper Model.Tm Model.HyperParams Model.Study Spec.Kernel Spec.Config.
Import ListNotations.
Local Open Scope R_scope.

(** [us] lists the number of new units per old unit of each parameter. The values of all parameters in the new units: *)
Definition convert (us : list R) (vs : list (list R)) : list (list R) := map2 (fun u v => map (Rmult u) v) us vs.
(** the factor of the parameter with a given name *)
Fixpoint unitOf (names : list string) (us : list R) (s : string) : R :=
  match names, us with
  | n :: names', u :: us' => if String.eqb n s then u else unitOf names' us' s
  | _, _ => 1
  end.

(** values at least two, equally spaced and not all the same *)
Definition equallySpaced (v : list R) : Prop :=
  exists a h n, h <> 0 /\ v = map (fun i => a + INR i * h) (seq 0 (S (S n))).

(** hyper-parameter values are numbers or lists of numbers *)
Definition onVal (f : R -> R) (v : hval R) : hval R :=
  match v with
  | HNum x => HNum (f x)
  | HArr xs => HArr (map f xs)
  | HList xs => HList (map f xs)
  | HAll => HAll
  | HNone => HNone
  end.

(** The same transition model in the new units: widths of random walks and functions of deterministic models are lengths along one
    parameter, the floor 10^x of regime switches is a probability density. *)
Fixpoint inUnits (names : list string) (us : list R) (m : tm R) : tm R :=
  match m with
  | TM (KGRW s) hn (v :: vals) p ms => TM (KGRW s) hn (onVal (Rmult (unitOf names us s)) v :: vals) p ms
  | TM (KAlpha s) hn (v :: vals) p ms => TM (KAlpha s) hn (onVal (Rmult (unitOf names us s)) v :: vals) p ms
  | TM KBiv hn (v1 :: v2 :: vals) p ms =>
      TM KBiv hn (onVal (Rmult (nth 0 us 1)) v1 :: onVal (Rmult (nth 1 us 1)) v2 :: vals) p ms
  | TM KRegime hn (v :: vals) p ms => TM KRegime hn (onVal (fun x => x - ln (Rprod us) / ln 10) v :: vals) p ms
  | TM KNotEq hn (v :: vals) p ms => TM KNotEq hn (onVal (fun x => x - ln (Rprod us) / ln 10) v :: vals) p ms
  | TM (KDet fn s) hn vals p ms => TM (KDet (fun t ps => unitOf names us s * fn t ps) s) hn vals p ms
  | TM KComb hn vals p ms => TM KComb hn vals p (map (inUnits names us) ms)
  | TM (KSerial mask) hn vals p ms => TM (KSerial mask) hn vals p (map (inUnits names us) ms)
  | _ => m
  end.

(** no change-points *)
Inductive noChange : tm R -> Prop :=
| nc_leaf k hn vals p ms : k <> KChange -> k <> KComb -> (forall mask, k <> KSerial mask) -> noChange (TM k hn vals p ms)
| nc_comb hn vals p ms : Forall noChange ms -> noChange (TM KComb hn vals p ms)
| nc_serial mask hn vals p ms : Forall (fun b => b = false) mask -> Forall noChange ms -> noChange (TM (KSerial mask) hn vals p ms).
(** no change-points inside of other models, except those between the sub-models of a serial model *)
Inductive plainChanges : tm R -> Prop :=
| pc_none m : noChange m -> plainChanges m
| pc_change hn tc p ms : plainChanges (TM KChange hn [HNum tc] p ms)
| pc_serial mask hn bs p ms : List.length mask = List.length bs -> Forall noChange ms -> plainChanges (TM (KSerial mask) hn (map HNum bs) p ms).

(** the prior as a function of the parameters in the new units; SymPy priors are densities *)
Definition priorInUnits (us : list R) (p q : priorSpec R) : Prop :=
  match p, q with
  | PNone, PNone => True
  | PArr sh a, PArr sh' a' => sh' = sh /\ a' = a
  | PFun f, PFun f' => forall g, List.length g = List.length us -> f' (convert us g) = f g
  | PConst c, PConst c' => c' = c
  | PSym n f, PSym n' f' => n' = n /\ forall g, List.length g = List.length us -> f' (convert us g) = map (fun x => xmul (Fin (/ Rprod us)) x) (f g)
  | _, _ => False
  end.
(** the same observation model, of which the likelihood is a function of the parameters in the new units *)
Record omInUnits (us : list R) (o o' : om R) : Prop := {
  ou_names : om_names o' = om_names o;
  ou_seglen : om_seglen o' = om_seglen o;
  ou_multiply : om_multiply o' = om_multiply o;
  ou_pdf : forall g s, List.length g = List.length us -> om_pdf o' (convert us g) s = om_pdf o g s;
  ou_prior : priorInUnits us (om_prior o) (om_prior o')
}.
(** A prior that is given by its values on the grid and sums to exactly one is not taken as a density (see C11). *)
Definition notSummingToOne (o : om R) (vs : list (list R)) : Prop :=
  match om_prior o with
  | PFun f => asum (f (meshgrid vs)) <> Fin 1
  | PArr _ a => asum a <> Fin 1
  | PConst c => asum (repeat (Fin c) (natprod (map (@List.length R) vs))) <> Fin 1
  | PNone | PSym _ _ => True
  end.

(** Two studies of the same data that have not been fitted before, the second one in the new units. *)
Record studiesInUnits (us : list R) (S S' : study R R) (o o' : om R) (m : tm R) (vs : list (list R)) (ts : list R) : Prop := {
  su_old : configured S o m vs ts;
  su_new : configured S' o' (inUnits (om_names o) us m) (convert us vs) ts;
  su_raw : st_raw S' = st_raw S;
  su_fresh : st_post S = [] /\ st_post S' = [] /\ st_means S = [] /\ st_means S' = [];
  su_oracles : st_shift S' = st_shift S /\ st_aconv S' = st_aconv S /\ st_bconv S' = st_bconv S
}.
