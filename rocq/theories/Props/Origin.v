(** The origin of time: C71. *)
From Coq Require Import List ZArith QArith Qround Reals Lra Lia Arith Bool String.
From Verif Require Import Base.Num Base.Exn Base.Arr Base.RSum Base.Lift Model.Helper Model.Tm Model.HyperParams Model.Study Model.Api
  Model.Getters Model.Hyper Model.Changepoint Spec.Config Spec.Dist Spec.Names Spec.HyperSpec Spec.Origin Spec.ChangeSpec
  Proof.KernelProof Proof.NamesProof Proof.GridProof Proof.DataProof Proof.HyperProof Proof.OriginProof Proof.OriginHyper
  Props.Ex Props.ExR Props.Inference Props.HyperStudy Props.Changepoint.
Import ListNotations.
Local Open Scope R_scope.

(** ** C71 *)
(** Two studies of the same data; in the second one all time stamps, change-points and break-points are later by [d]. *)
Theorem C71_fit : forall d sh ac bc raw ts (m : tm R) o (S : study R R) fo eo, movable d false m ->
  runCalls (newStudy sh ac bc) [CLoad raw (Some ts); CSetTM m; CSetOM o] = Ok S ->
  exists S', runCalls (newStudy sh ac bc) [CLoad raw (Some (map (fun t => t + d) ts)); CSetTM (later d m); CSetOM o] = Ok S' /\
  match fit S fo eo, fit S' fo eo with
  | Ok A, Ok B => st_logEv B = st_logEv A /\ st_post B = st_post A /\ st_local B = st_local A /\ st_means B = st_means A /\
                  st_fmtTs B = map (fun t => t + d) (st_fmtTs A)
  | Err x, Err y => x = y
  | _, _ => False
  end.
Proof.
  intros d sh ac bc raw ts m o S fo eo Hm ES. exists (laterStudy d S). split; [now rewrite setup_later, ES|].
  rewrite fit_later; [destruct (fit S fo eo); cbn; auto|]. intros m1 E1.
  assert (E2 : st_tm S = Some m); [|rewrite E1 in E2; now injection E2 as ->].
  cbn [runCalls runCall bind] in ES. unfold setTM in ES. destruct (isBreak m); [discriminate|]. cbn [bind] in ES. unfold setOM in ES. destruct (mapM _ _); [|discriminate]. cbn [bind] in ES. destruct (mapM _ _); [|discriminate]. cbn [bind] in ES. now injection ES as <-.
Qed.

Lemma setup_state sh ac bc raw ts (m : tm R) o (S : study R R) :
  runCalls (newStudy sh ac bc) [CLoad raw ts; CSetTM m; CSetOM o] = Ok S -> st_tm S = Some m /\ st_sel S = [].
Proof.
  intros ES. cbn [runCalls runCall bind] in ES. unfold setTM in ES. destruct (isBreak m); [discriminate|]. cbn [bind] in ES. unfold setOM in ES. destruct (mapM _ _); [|discriminate]. cbn [bind] in ES. destruct (mapM _ _); [|discriminate]. cbn [bind] in ES.
  injection ES as <-. auto.
Qed.
(** The same for hyper-studies. The combinations of hyper-parameter values differ by [d] in the change-points and break-points; their
    distribution and all other results are the same. *)
Theorem C71_hyper : forall d sh ac bc raw ts (m : tm R) o (S : study R R) fo eo j, timesMovable d m ->
  runCalls (newStudy sh ac bc) [CLoad raw (Some ts); CSetTM m; CSetOM o] = Ok S ->
  exists S', runCalls (newStudy sh ac bc) [CLoad raw (Some (map (fun t => t + d) ts)); CSetTM (later d m); CSetOM o] = Ok S' /\
  match hyperFit (newHyper S) fo eo j, hyperFit (newHyper S') fo eo j with
  | Ok A, Ok B =>
      hy_grid B = map (laterRow d m) (hy_grid A) /\ hy_pv B = hy_pv A /\ hy_const B = hy_const A /\ hy_names B = hy_names A /\
      hy_dist B = hy_dist A /\ hy_logEvs B = hy_logEvs A /\
      st_logEv (hy_S B) = st_logEv (hy_S A) /\ st_post (hy_S B) = st_post (hy_S A) /\ st_local (hy_S B) = st_local (hy_S A) /\
      st_means (hy_S B) = st_means (hy_S A) /\ st_fmtTs (hy_S B) = map (fun t => t + d) (st_fmtTs (hy_S A))
  | Err x, Err y => x = y
  | _, _ => False
  end.
Proof.
  intros d sh ac bc raw ts m o S fo eo j T ES. destruct (setup_state _ _ _ _ _ _ _ _ ES) as [Em Es]. exists (laterStudy d S). split; [now rewrite setup_later, ES|].
  assert (E0 : newHyper (laterStudy d S) = laterHyper d m (newHyper S)) by (unfold laterHyper, laterVals; cbn; f_equal; now destruct (spots m)).
  rewrite E0, hyperFit_later by auto. destruct (hyperFit (newHyper S) fo eo j) as [A|]; cbn [rmap]; auto. cbn [laterHyper hy_grid hy_pv hy_const hy_names hy_dist hy_logEvs hy_S laterStudy st_logEv st_post st_local st_means st_fmtTs]. auto 12.
Qed.

(** The same for change-point studies, in which only the combinations in order count; and durations stay the same. *)
Theorem C71_change : forall d sh ac bc raw ts (m : tm R) o (S : study R R) fo eo j, timesMovable d m ->
  runCalls (newStudy sh ac bc) [CLoad raw (Some ts); CSetTM m; CSetOM o] = Ok S ->
  exists S', runCalls (newStudy sh ac bc) [CLoad raw (Some (map (fun t => t + d) ts)); CSetTM (later d m); CSetOM o] = Ok S' /\
  match changepointFit (newChangepoint S) fo eo j, changepointFit (newChangepoint S') fo eo j with
  | Ok A, Ok B =>
      cp_all B = map (laterRow d m) (cp_all A) /\ cp_mask B = cp_mask A /\ hy_grid (cp_H B) = map (laterRow d m) (hy_grid (cp_H A)) /\
      hy_pv (cp_H B) = hy_pv (cp_H A) /\ hy_dist (cp_H B) = hy_dist (cp_H A) /\ hy_logEvs (cp_H B) = hy_logEvs (cp_H A) /\
      st_logEv (hy_S (cp_H B)) = st_logEv (hy_S (cp_H A)) /\ st_post (hy_S (cp_H B)) = st_post (hy_S (cp_H A)) /\
      st_local (hy_S (cp_H B)) = st_local (hy_S (cp_H A)) /\ st_means (hy_S (cp_H B)) = st_means (hy_S (cp_H A)) /\
      st_fmtTs (hy_S (cp_H B)) = map (fun t => t + d) (st_fmtTs (hy_S (cp_H A))) /\
      (forall rnd na nb, In (na, true) (spots m) -> In (nb, true) (spots m) ->
         getDurationDistribution rnd B [na; nb] = getDurationDistribution rnd A [na; nb])
  | Err x, Err y => x = y
  | _, _ => False
  end.
Proof.
  intros d sh ac bc raw ts m o S fo eo j T ES. destruct (setup_state _ _ _ _ _ _ _ _ ES) as [Em Es]. exists (laterStudy d S). split; [now rewrite setup_later, ES|].
  assert (E0 : newChangepoint (laterStudy d S) = laterCp d m (newChangepoint S)) by (unfold newChangepoint, laterCp, laterHyper, laterVals; cbn; repeat f_equal; now destruct (spots m)).
  rewrite E0, cpFit_later by auto. destruct (changepointFit (newChangepoint S) fo eo j) as [A|] eqn:EA; cbn [rmap]; auto.
  destruct (cpFit_keeps d m (newChangepoint S) A fo eo j Em Es T EA) as (K & h1 & h2).
  do 11 (split; [reflexivity|]). intros rnd na nb Ia Ib. apply duration_later; auto. apply T.
Qed.

(** ** Examples *)
Lemma times_some ds o m : setup (L := R) (data ds) (Some (times ds)) o m = setup (data ds) None o m.
Proof.
  unfold setup. cbn [runCalls runCall bind]. f_equal. f_equal. unfold loadData. cbn [rawLen data]. rewrite !map_length. unfold times at 1. rewrite map_length, seq_length, Nat.eqb_refl.
  assert (E : times ds = map (fun i => fofZ (Z.of_nat i)) (seq 0 (List.length ds))) by (unfold times; apply map_ext; intros; apply INR_IZR_INZ). now rewrite E.
Qed.
(** A coin study in which a serial model changes from a random walk to a linear drift, with quadratic drift after a second change. *)
Definition drifts (a b : R) : tm R :=
  TM (KSerial [false; true]) ["a"; "b"]%string [HNum a; HNum b] None
    [TM (KDet (fun t ps => hd 0 ps * t) "p") ["v"%string] [HNum (1 / 8)] None []; Ex.comb [Ex.grw "s" "p" (1 / 8); Ex.change "c" b];
     TM (KDet (fun t ps => hd 0 ps * t * t) "p") ["w"%string] [HNum (1 / 8)] None []].
Example C71_fit_ex : forall d ds a b, movable d false (drifts a b) /\ exists S, setup (L := R) (data ds) (Some (times ds)) (coin PNone) (drifts a b) = Ok S.
Proof.
  intros d ds a b. split.
  - apply mv_serial; [apply mv_det; right; intros ps t t'; lra|]. constructor; [|constructor; [apply mv_det; now left|constructor]].
    apply mv_comb. constructor; [apply mv_leaf; discriminate|constructor; [apply mv_leaf; discriminate|constructor]].
  - rewrite times_some. destruct (coin_setup ds PNone (drifts a b) eq_refl) as (S & E & _). eauto.
Qed.
Example C71_hyper_ex : forall d (ds : list Z) fo eo j, bits ds -> (3 <= List.length ds)%nat ->
  timesMovable d walkOrChange /\
  exists S A, setup (data ds) (Some (times ds)) (coin PNone) walkOrChange = Ok S /\ hyperFit (newHyper S) fo eo j = Ok A /\
    List.length (hy_grid A) = (2 * (List.length ds - 1))%nat /\
    laterRow d walkOrChange [1 / 4; 1] = [1 / 4; 1 + d].
Proof.
  intros d ds fo eo j Hb Hd. split.
  - split; [apply walkOrChange_ok|]. split.
    + apply mv_comb. constructor; [apply mv_leaf; discriminate|constructor; [apply mv_leaf; discriminate|constructor]].
    + intros [|[|[|i]]] n; cbn; split; intros E; try discriminate; try (intros p [= <-]; exact I); destruct i; discriminate.
  - destruct (walkOrChange_fit ds fo eo j Hb Hd) as (S & H' & runs & pv & K). cbv zeta in K. destruct K as (k1 & k2 & k3 & k4 & k5 & k6 & k7 & _). exists S, H'. rewrite times_some. auto.
Qed.
Example C71_change_ex : forall d (ds : list Z) fo eo j, bits ds -> ds <> [] ->
  timesMovable d twoPoints /\ spots twoPoints = [("a", true); ("b", true)]%string /\
  exists S A, setup (data ds) (Some (times ds)) (coin PNone) twoPoints = Ok S /\ changepointFit (newChangepoint S) fo eo j = Ok A.
Proof.
  intros d ds fo eo j Hb Hd. split.
  - split; [apply twoPoints_ok|]. split.
    + apply mv_comb. constructor; [apply mv_leaf; discriminate|constructor; [apply mv_leaf; discriminate|constructor]].
    + intros [|[|[|i]]] n; cbn; split; intros E; try discriminate; try (intros p [= <-]; exact I); destruct i; discriminate.
  - split; [reflexivity|]. destruct (C33_ex ds fo eo j Hb Hd) as (S & A & pv & dist & K). cbv zeta in K. exists S, A. rewrite times_some. split; apply K.
Qed.

(** A deterministic model whose function is not linear does depend on the origin: by default, time stamps start at 0, and passing time
    stamps that start at 1 changes the result. *)
Local Open Scope Q_scope.
Definition rightBy (x : Q) (a : list (xnum Q)) : list (xnum Q) :=
  let n := Z.to_nat (Qfloor x) in (repeat (Fin 0) n ++ firstn (List.length a - n) a)%list.
Definition quadratic : tm Q := TM (KDet (fun t ps => t * t / 6) "p") [] [] None [].
Definition five : om Q := coinOM [1 # 6; 1 # 3; 1 # 2; 2 # 3; 5 # 6] PNone.
Theorem C71_deterministic_refuted : exists sh ac bc raw (ts : list Q) d m o (S S' A B : study Q Q) fo eo,
  runCalls (newStudy sh ac bc) [CLoad raw (Some ts); CSetTM m; CSetOM o] = Ok S /\
  runCalls (newStudy sh ac bc) [CLoad raw (Some (map (fun t => t + d) ts)); CSetTM m; CSetOM o] = Ok S' /\
  allNames m = [] /\ fit S fo eo = Ok A /\ fit S' fo eo = Ok B /\ st_logEv B <> st_logEv A /\ st_post B <> st_post A.
Proof.
  assert (E : (let* S0 := runCalls (L := Q) (newStudy (fun _ => rightBy) (fun _ _ _ a => a) (fun _ _ _ a => a)) [CLoad (data [1; 1]%Z) (Some [0; 1]); CSetTM quadratic; CSetOM five] in
    let* A := fit S0 true false in Ok (st_logEv A, nth 1 (st_post A) None))%res = Ok (Fin (1 # 3), Some [Fin 0; Fin (1 # 20); Fin (3 # 20); Fin (3 # 10); Fin (1 # 2)])) by (vm_compute; reflexivity).
  assert (E' : (let* S0 := runCalls (L := Q) (newStudy (fun _ => rightBy) (fun _ _ _ a => a) (fun _ _ _ a => a)) [CLoad (data [1; 1]%Z) (Some (map (fun t => t + 1) [0; 1])); CSetTM quadratic; CSetOM five] in
    let* A := fit S0 true false in Ok (st_logEv A, nth 1 (st_post A) None))%res = Ok (Fin (7 # 18), Some [Fin 0; Fin 0; Fin 0; Fin (2 # 7); Fin (5 # 7)])) by (vm_compute; reflexivity).
  run E. run E'. exists (fun _ => rightBy), (fun _ _ _ a => a), (fun _ _ _ a => a), (data [1; 1]%Z), [0; 1], 1, quadratic, five. do 6 eexists.
  repeat (split; [eassumption || reflexivity|]). split; congruence.
Qed.
