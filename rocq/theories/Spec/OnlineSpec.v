(** Online studies: what they are compared with. *)
From Coq Require Import List Reals String Bool.
From Verif Require Import Base.Num Base.Exn Base.Arr Base.RSum Model.Helper Model.Tm Model.HyperParams Model.Study Model.Api
  Model.Getters Model.Hyper Model.Online Spec.Kernel Spec.Config Spec.Names Spec.Dist Spec.HyperSpec.
Import ListNotations.
Local Open Scope R_scope.

(** the combinations of hyper-parameter values of an added transition model; a model without hyper-parameters has one
    (empty) combination *)
Definition combos (M : tmEntry R) : list (list R) := match md_rows M with [] => [[]] | l => l end.

(** an added transition model: one value per hyper-parameter in each combination, one prior value per combination *)
Record entryOk (M : tmEntry R) (pv : list R) : Prop := {
  en_named : exists m, wellNamed m /\ noPriors (md_tm M) = noPriors m;
  en_names : md_names M = allNames (md_tm M);
  en_rows : Forall (fun row => List.length row = List.length (allNames (md_tm M))) (md_rows M);
  en_pv : md_pv M = map Fin pv;
  en_len : List.length pv = List.length (combos M);
  en_nonneg : Forall (fun p => 0 <= p) pv;
  en_pos : 0 < Rsum pv;
  en_const : Forall (fun c => 0 < c) (md_const M)
}.

(** Observation model and transition models are set, no data yet. Array priors are excluded (see C10). *)
Record onlineReady (O : online R R) (o : om R) (pvs : list (list R)) : Prop := {
  or_om : st_om (on_S O) = Some o;
  or_prior : match om_prior o with PArr _ _ => False | _ => True end;
  or_seg : (0 < om_seglen o)%nat;
  or_models : on_models O <> [];
  or_entries : Forall2 entryOk (on_models O) pvs;
  or_unique : NoDup (flat_map md_names (on_models O));
  or_tm : exists M, In M (on_models O) /\ st_tm (on_S O) = Some (md_tm M);
  or_empty : rawLen (st_raw (on_S O)) = 0%nat;
  or_first : on_first O = true
}.

(** single data points: a number, or a vector *)
Definition point (d : raw R) : Prop := rawLen d = 1%nat.

(** A study of all data that the online study has received so far, with transition model [m] and time stamps [ts] *)
Definition batch (O : online R R) (m : tm R) (ts : list R) : study R R :=
  set_tm (loadData (on_S O) (st_raw (on_S O)) (Some ts)) m (st_lat (on_S O)).
(** the same time stamp for all data points *)
Definition constantTimes (O : online R R) (t : R) : list R := repeat t (rawLen (st_raw (on_S O))).

(** [dormant m m']: at time -1 model [m] does what [m'] does at any time: change-points elsewhere do not occur, serial models are in
    their first segment, Deterministic models do not appear *)
Inductive dormant : tm R -> tm R -> Prop :=
| do_leaf k names vals p names' p' :
    match k with KChange | KDet _ _ | KComb | KSerial _ => False | _ => True end ->
    dormant (TM k names vals p []) (TM k names' vals p' [])
| do_change names t0 p : t0 <> -1 -> dormant (TM KChange names [HNum t0] p []) mkStatic
| do_comb names vals p ms ms' names' vals' p' :
    Forall2 dormant ms ms' -> dormant (TM KComb names vals p ms) (TM KComb names' vals' p' ms')
| do_serial mask names bs p m m' ms :
    Forall (fun b => -1 < b) bs -> dormant m m' -> dormant (TM (KSerial mask) names (map HNum bs) p (m :: ms)) m'.

(** models without change-points, Deterministic and serial parts *)
Inductive timeless : tm R -> Prop :=
| tl_leaf k names vals p :
    match k with KChange | KDet _ _ | KComb | KSerial _ => False | _ => True end -> timeless (TM k names vals p [])
| tl_comb names vals p ms : Forall timeless ms -> timeless (TM KComb names vals p ms).

(** has the online study processed a segment? *)
Definition started (O : online R R) (o : om R) : Prop := (om_seglen o <= rawLen (st_raw (on_S O)))%nat.

(** the forward-only fit [A] of all data so far succeeds, its log-evidence is a number and its last distribution is [p] *)
Definition filtered (N : nat) (S : study R R) (A : study R R) (p : list R) : Prop :=
  fit S true false = Ok A /\ (exists v, st_logEv A = Fin v) /\ last (st_post A) None = Some (map Fin p) /\
  List.length p = N /\ Forall (fun x => 0 <= x) p /\ Rsum p = 1.

(** A forward-only fit that the online study is compared with: model [m] with time stamp -1 for all data points, or a model that
    does at any time what [m] does at time -1 (e.g. [m] itself if it does not depend on time), with any time stamps *)
Inductive asBatch (O : online R R) (N : nat) (m : tm R) (A : study R R) (p : list R) : Prop :=
| ab_frozen : filtered N (batch O m (constantTimes O (-1))) A p -> asBatch O N m A p
| ab_dormant m' ts : dormant m m' -> List.length ts = rawLen (st_raw (on_S O)) -> filtered N (batch O m' ts) A p -> asBatch O N m A p.

(** number of grid points *)
Definition pointsOn (O : online R R) : nat := natprod (st_shape (on_S O)).
(** one fit (with its last distribution) for each combination of hyper-parameter values of an added model *)
Definition runsOf (O : online R R) (M : tmEntry R) (fs : list (study R R * list R)) : Prop :=
  Forall2 (fun row f => asBatch O (pointsOn O) (withValues (md_tm M) row) (fst f) (snd f)) (combos M) fs.
(** evidence x prior of the combinations of one model, and their sum: the evidence of the model *)
Definition weightsM (pv : list R) (fs : list (study R R * list R)) : list R := map2 (fun f p => evidenceOf (fst f) * p) fs pv.
Definition evidenceM (pv : list R) (fs : list (study R R * list R)) : R := Rsum (weightsM pv fs).
(** prior probabilities of the transition models; flat if not set *)
Definition modelPriors (O : online R R) (ps : list R) : Prop :=
  match on_tmPrior O with
  | Some a => a = map Fin ps /\ List.length ps = List.length (on_models O) /\ Forall (fun p => 0 <= p) ps /\ Rsum ps = 1
  | None => ps = repeat (1 / INR (List.length (on_models O))) (List.length (on_models O))
  end.
(** mixture of distributions *)
Definition mixture (ws : list R) (ps : list (list R)) (x : nat) : R := Rsum (map2 (fun w p => w * Rnth p x) ws ps).
(** evidences of all models *)
Definition allEvidences (pvs : list (list R)) (fss : list (list (study R R * list R))) : list R := map2 evidenceM pvs fss.
(** the distribution of one model: mixture over its combinations, weighted with evidence x prior *)
Definition mixM (N : nat) (pv : list R) (fs : list (study R R * list R)) : list R := tab N (mixture (map (fun w => w / evidenceM pv fs) (weightsM pv fs)) (map snd fs)).
(** sum over the combinations of evidence x prior x distribution at grid point [x] *)
Definition joint (pv : list R) (fs : list (study R R * list R)) (x : nat) : R := Rsum (map2 (fun w f => w * Rnth (snd f) x) (weightsM pv fs) fs).
(** data points that can be stored in one array: all numbers, or all vectors of the same length *)
Definition sameForm (a b : raw R) : Prop :=
  match a, b with
  | Raw1 _, Raw1 _ => True
  | Raw2 x, Raw2 y => Forall (fun r => List.length r = List.length (hd [] x)) y
  | _, _ => False
  end.
(** an online study whose steps cannot fail: the transition models contain no lists of values and known parameter names, a prior
    given in terms of SymPy has the right number of parameters, model probabilities fit *)
Record onlineRunnable (O : online R R) (o : om R) : Prop := {
  ou_runnable : Forall (fun M => Forall (fun row => runnable (om_names o) (withValues (md_tm M) row)) (combos M)) (on_models O);
  ou_lat : (List.length (om_names o) <= List.length (st_lat (on_S O)))%nat;
  ou_sym : match om_prior o with PSym n _ => n = List.length (om_names o) | _ => True end;
  ou_prior : match on_tmPrior O with Some ps => List.length ps = List.length (on_models O) | None => True end;
  ou_arr : on_isArr O = false
}.
(** the observation model is set with parameter values [vs] (see Config.configured) *)
Record gridOn (S : study R R) (o : om R) (vs : list (list R)) : Prop := {
  go_shape : st_shape S = map (@List.length R) vs;
  go_grid : st_grid S = meshgrid vs;
  go_lat : mapM latticeOf vs = Ok (st_lat S);
  go_names : List.length (om_names o) = List.length vs;
  go_dim : vs <> [];
  go_spacing : Forall (fun l => 0 < l) (st_lat S)
}.

(** ** Histories and waiting *)
Section History.
  Context {F L : Type} `{Num F} `{LogNum F L}.
  (** the study after each data point of a stream *)
  Fixpoint trace (O : online F L) (ds : list (raw F)) : list (online F L) :=
    match ds with
    | [] => []
    | d :: ds' => match onlineStep O d with Ok O1 => O1 :: trace O1 ds' | Err _ => [] end
    end.
  (** enough data for a segment: the last data point has changed the distributions *)
  Definition completed (O : online F L) : bool :=
    match st_om (on_S O) with Some o => Nat.leb (om_seglen o) (rawLen (st_raw (on_S O))) | None => false end.
  (** what the study shows as the current parameter distribution and mean values *)
  Definition marginalNow (O : online F L) : list (xnum F) := match on_marg O with Some a => a | None => [] end.
  Definition meansNow (O : online F L) : list (xnum F) :=
    map (fun g => asum (amul (marginalNow O) (map Fin g))) (st_grid (on_S O)).
  (** the last [k] data points *)
  Definition lastPoints (k : nat) (O : online F L) : raw F :=
    match st_raw (on_S O) with Raw1 l => Raw1 (rev (firstn k (rev l))) | Raw2 l => Raw2 (rev (firstn k (rev l))) end.
  (** the same study without a history *)
  Definition forget (O : online F L) : online F L :=
    {| on_S := on_S O; on_models := on_models O; on_tmPrior := on_tmPrior O; on_first := on_first O; on_ts := on_ts O;
       on_isArr := on_isArr O; on_logEvs := on_logEvs O; on_hyperEvs := on_hyperEvs O; on_posts := on_posts O;
       on_tmPosts := on_tmPosts O; on_marg := on_marg O; on_hpd := on_hpd O; on_tmd := on_tmd O; on_ltmd := on_ltmd O;
       on_store := false; on_hMeans := []; on_hPost := []; on_hHpd := []; on_hTmd := []; on_hLtmd := [] |}.
  (** the same distributions, evidences, probabilities *)
  Definition sameShown (O1 O2 : online F L) : Prop :=
    on_logEvs O1 = on_logEvs O2 /\ on_hyperEvs O1 = on_hyperEvs O2 /\ on_posts O1 = on_posts O2 /\ on_tmPosts O1 = on_tmPosts O2 /\
    on_marg O1 = on_marg O2 /\ on_hpd O1 = on_hpd O2 /\ on_tmd O1 = on_tmd O2 /\ on_ltmd O1 = on_ltmd O2 /\
    st_logEv (on_S O1) = st_logEv (on_S O2).
  Definition sameHistory (O1 O2 : online F L) : Prop :=
    on_hMeans O1 = on_hMeans O2 /\ on_hPost O1 = on_hPost O2 /\ on_hHpd O1 = on_hHpd O2 /\ on_hTmd O1 = on_hTmd O2 /\ on_hLtmd O1 = on_hLtmd O2.
  (** the same models and priors *)
  Definition sameModels (O1 O2 : online F L) : Prop :=
    on_models O1 = on_models O2 /\ on_tmPrior O1 = on_tmPrior O2 /\ on_first O1 = on_first O2 /\
    st_om (on_S O1) = st_om (on_S O2) /\ st_tm (on_S O1) = st_tm (on_S O2) /\ st_shape (on_S O1) = st_shape (on_S O2) /\
    st_lat (on_S O1) = st_lat (on_S O2) /\ st_grid (on_S O1) = st_grid (on_S O2) /\
    st_shift (on_S O1) = st_shift (on_S O2) /\ st_aconv (on_S O1) = st_aconv (on_S O2) /\ st_bconv (on_S O1) = st_bconv (on_S O2).
End History.

(** ** Setting up an online study *)
(** a transition model that can be added: each hyper-parameter has a number or an array as value and one hyper-prior *)
Definition addable (m : tm R) : Prop :=
  wellNamed m /\ isBreak m = false /\ ~ In HAll (map snd (assocs m)) /\ onePriorEach m /\
  exists points ws, hyperWeights [] (map snd (priorPairs m)) (map snd (assocs m)) points ws.
(** addTransitionModel for each (name, model) of a list *)
Definition addAll {F L} `{Num F} `{LogNum F L} (l : list (string * tm F)) (O : online F L) : res (online F L) :=
  fold_left (fun r m => bind r (fun O => addTM O (fst m) (snd m))) l (Ok O).
(** [M] is the entry of the added model [m]: the same model (up to normalised hyper-priors), with all combinations of the values *)
Definition added (m : string * tm R) (M : tmEntry R) : Prop :=
  md_name M = fst m /\ md_names M = allNames (snd m) /\ noPriors (md_tm M) = noPriors (snd m) /\
  forall row, In row (combos M) <->
    exists points, Forall2 (valueList []) (map snd (assocs (snd m))) points /\ Forall2 (fun v xs => In v xs) row points.
