(** C35, C38, C39: online studies compared with exact filtering; histories; segments of several data points. *)
From Coq Require Import List ZArith QArith Reals Lra Lia Arith Bool String.
From Verif Require Import Base.Num Base.Exn Base.Arr Base.RSum Base.Lift Model.Helper Model.Tm Model.HyperParams Model.Study Model.Api
  Model.Getters Model.Hyper Model.Online Spec.Hmm Spec.Kernel Spec.Config Spec.Names Spec.Dist Spec.HyperSpec Spec.OnlineSpec
  Proof.HmmProof Proof.Good Proof.FitThms Proof.FitCore Proof.FitInv Proof.InferProof Proof.SetupProof Proof.NamesProof Proof.LogProof Proof.GridProof Proof.HyperProof Proof.DataProof
  Proof.OnlineProof Proof.OnlineReal Proof.OnlineHistory Props.Ex Props.ExR Props.Inference Props.Online.
Import ListNotations.
Local Open Scope R_scope.

(** ** C35 *)
(** Steps do not fail. *)
Theorem C35_succeeds : forall (O : online R R) o pvs d ds,
  onlineReady O o pvs -> onlineRunnable O o -> Forall point (d :: ds) -> Forall (sameForm d) ds ->
  exists O', onlineSteps O (d :: ds) = Ok O'.
Proof.
  intros O o pvs d ds RO RU HP HS. inversion HP as [|? ? p1 p2]; subst. destruct (first_total _ _ _ RO RU d p1) as (O1 & E1).
  destruct (stream_total _ _ _ RO RU ds O1 d (first_step _ _ _ RO _ _ p1 E1) p2 HS) as (O' & E'). exists O'. cbn [onlineSteps]. rewrite E1. exact E'.
Qed.

Lemma batch_configured (O0 O : online R R) o pvs ds vs m ts : onlineReady O0 o pvs -> Forall point ds -> onlineSteps O0 ds = Ok O -> started O o ->
  gridOn (on_S O0) o vs -> NoDup (allNames m) -> List.length ts = rawLen (st_raw (on_S O)) ->
  configured (batch O m ts) o m vs ts /\ st_raw (batch O m ts) = st_raw (on_S O) /\ st_lat (on_S O) = st_lat (on_S O0) /\ pointsOn O = gridPoints vs.
Proof.
  intros RO Hp E HS [g1 g2 g3 g4 g5 g6] ND Lt. destruct (stream_start _ _ _ _ _ RO Hp E HS) as (d & T & Hk).
  destruct (tk_setup _ _ _ _ T) as (b1 & b2 & b3 & b4 & b5 & b6 & b7). split; [|split; [reflexivity|split; [assumption|]]].
  - constructor; unfold batch; cbn [set_tm loadData st_om st_tm st_shape st_grid st_lat st_tmlat st_raw st_rawTs]; auto; try congruence.
    + rewrite b1. apply (or_om _ _ _ RO).
    + rewrite (tk_raw _ _ _ _ T). apply (tk_len _ _ _ _ T).
    + rewrite Lt, Nat.eqb_refl. reflexivity.
    + apply (or_seg _ _ _ RO).
  - unfold pointsOn, gridPoints. now rewrite b2, g1.
Qed.
Lemma steps_started (O : online R R) o m ts : (0 < om_seglen o)%nat -> started O o -> (0 < nSteps (batch O m ts) o)%nat.
Proof. intros Hk HS. unfold nSteps, segments. rewrite format_length. unfold started in HS. unfold batch. cbn [set_tm loadData st_raw]. lia. Qed.

Lemma priorIs_nonneg S vs o p rho : priorIs S vs o p rho -> nonnegPrior (gridPoints vs) o (map (@List.length R) vs) (meshgrid vs) p.
Proof.
  assert (G : forall N g, (forall x, (x < N)%nat -> 0 <= g x) -> finite N (arrOf N g)).
  { intros N g Hg. exists (tab N g). split; [reflexivity|]. split; [apply tab_length|]. apply Forall_forall. intros x Hx. unfold tab in Hx. apply in_map_iff in Hx as (i & <- & Hi).
    apply in_seq in Hi. apply Hg. lia. }
  intros [| f g E Hg | c Hc | g Hg | f g E Hg]; cbn; auto; rewrite ?E; auto; lra.
Qed.
Lemma likelihoods_finite S o vs lik : likelihoods S o vs lik -> forall s, In s (segments S o) -> finite (gridPoints vs) (processedPdf o (gridPoints vs) (meshgrid vs) s).
Proof.
  intros HL s Hs. apply In_nth_error in Hs as (i & Hi). destruct (HL i s Hi) as [-> P]. exists (tab (gridPoints vs) (lik i)). split; [reflexivity|]. split; [apply tab_length|].
  apply Forall_forall. intros x Hx. unfold tab in Hx. apply in_map_iff in Hx as (j & <- & Hj). apply in_seq in Hj. apply P. lia.
Qed.

(** The forward-only fits that online studies are compared with exist: if the likelihoods are finite, the fit of a
    combination of hyper-parameter values succeeds, and either all paths are impossible (log-evidence -inf) or its last
    distribution is a distribution. *)
Theorem C35_fits : forall (O0 O : online R R) o pvs ds vs m ts,
  onlineReady O0 o pvs -> Forall point ds -> onlineSteps O0 ds = Ok O -> started O o -> gridOn (on_S O0) o vs ->
  NoDup (allNames m) -> List.length ts = rawLen (st_raw (on_S O)) -> runnable (om_names o) m ->
  nonnegPrior (gridPoints vs) o (map (@List.length R) vs) (meshgrid vs) (om_prior o) ->
  (forall s, In s (segments (on_S O) o) -> finite (gridPoints vs) (processedPdf o (gridPoints vs) (meshgrid vs) s)) ->
  exists A, fit (batch O m ts) true false = Ok A /\ (st_logEv A = NInf \/ exists p, filtered (pointsOn O) (batch O m ts) A p).
Proof.
  intros O0 O o pvs ds vs m ts RO Hp E HS G ND Lt Run Pr Lk. destruct (batch_configured _ _ _ _ _ _ _ _ RO Hp E HS G ND Lt) as (C & Er & El & EN).
  destruct (C01_posteriors_are_distributions _ _ _ _ _ true C Run Pr) as (A & EA & HA).
  { intros s Hs. apply Lk. unfold segments in *. now rewrite Er in Hs. }
  exists A. split; auto. destruct HA as [HA|(v & posts & h1 & h2 & h3 & h4)]; [now left|right].
  assert (Hn : (0 < nSteps (batch O m ts) o)%nat) by (apply steps_started; auto; apply (or_seg _ _ _ RO)).
  destruct (exists_last (l := posts)) as (ps & a & Ea). { intros ->. cbn in h3. lia. }
  subst posts. apply Forall_app in h4 as [_ h4]. inversion h4 as [|? ? (r & r1 & r2 & r3 & r4) _]; subst a. exists r.
  split; auto. split; [eauto|]. split; [|rewrite EN; auto]. rewrite h2, map_app. cbn [map]. apply last_last.
Qed.

(** One model without lists of values: the current parameter distribution is the exact filtering distribution of the hidden
    Markov model (sums over all paths, Spec/Hmm.v) in which all transitions are those of time -1, and the log-evidence is
    the probability of the data (up to the factors of change-points, see C03). *)
Theorem C35_exact : forall (O0 O : online R R) o ds M row vs rho lik,
  onlineReady O0 o [[1]] -> Forall point ds -> onlineSteps O0 ds = Ok O -> started O o ->
  on_models O0 = [M] -> combos M = [row] -> on_tmPrior O0 = None -> gridOn (on_S O0) o vs ->
  linear (om_names o) (withValues (md_tm M) row) -> priorIs (on_S O0) vs o (om_prior o) rho ->
  stablePrior (om_prior o) \/ (usesReset (withValues (md_tm M) row) (-1) = false /\ usesReset (withValues (md_tm M) row) (-2) = false) ->
  likelihoods (on_S O) o vs lik ->
  let m := withValues (md_tm M) row in let N := gridPoints vs in let n := nSteps (on_S O) o in
  let K := transition (on_S O) o m (constantTimes O (-1)) rho in
  0 < evidence N n rho K lik ->
  on_marg O = Some (arrOf N (posterior N n rho K lik (n - 1))) /\
  exists v, st_logEv (on_S O) = Fin v /\
    exp v = evidence N n rho K lik * cellVolume (on_S O) ^ resetCount m (timeOf (constantTimes O (-1)) o) n.
Proof.
  intros O0 O o ds M row vs rho lik RO Hp E HS EM Er Ep G Lin Pr St HL m N n K HE. fold m in Lin, St. set (ts := constantTimes O (-1)) in *.
  pose proof (or_entries _ _ _ RO) as HM. rewrite EM in HM. inversion HM as [|? ? ? ? hm _]; subst.
  assert (ND : NoDup (allNames m)).
  { pose proof (or_unique _ _ _ RO) as U. rewrite EM in U. cbn in U. rewrite app_nil_r, (en_names _ _ hm) in U. unfold m, withValues. now rewrite assign_allNames. }
  assert (Lt : List.length ts = rawLen (st_raw (on_S O))) by apply repeat_length.
  destruct (batch_configured _ _ _ _ _ _ _ _ RO Hp E HS G ND Lt) as (C & Erw & El & EN). set (S := batch O m ts) in *.
  assert (Hn : (0 < nSteps S o)%nat) by (apply steps_started; auto; apply (or_seg _ _ _ RO)).
  assert (En : nSteps S o = n) by reflexivity. assert (HK : transition S o m ts rho = K) by reflexivity.
  assert (EV : cellVolume S = cellVolume (on_S O)) by reflexivity.
  assert (PR : priorIs S vs o (om_prior o) rho).
  { assert (EV0 : cellVolume S = cellVolume (on_S O0)) by (rewrite EV; unfold cellVolume; now rewrite El).
    destruct Pr; try (econstructor; eauto; fail). rewrite <- EV0. now constructor. }
  assert (LS : likelihoods S o vs lik). { intros i s Hi. apply HL. unfold segments in *. now rewrite Erw in Hi. }
  assert (T1 : forall i, (i < nSteps S o)%nat -> timeOf ts o i = -1).
  { intros i Hi. unfold timeOf, ts, constantTimes. unfold nSteps, segments in Hi. rewrite format_length, Erw in Hi. pose proof (or_seg _ _ _ RO).
    rewrite (nth_indep _ 0 (-1)) by (rewrite repeat_length; lia). apply nth_repeat. }
  assert (St' : stablePrior (om_prior o) \/ resetFree S o m ts).
  { destruct St as [St|[St1 St2]]; [now left|right]. intros i Hi. rewrite T1 by auto. replace (-1 - 1) with (-2) by lra. auto. }
  destruct (C04_filtering_is_exact S o m vs ts rho lik C Lin PR LS St' Hn) as (A & EA & HA).
  destruct (C03_evidence S o m vs ts rho lik true false C Lin PR LS St' Hn ltac:(now left)) as (A' & EA' & _ & _ & Hv). rewrite EA in EA'. inversion EA'; subst A'.
  rewrite En, HK in HA, Hv. destruct (Hv HE) as (v & Ev & Ex). rewrite EV in Ex.
  assert (Ll : (n - 1 < n)%nat) by (unfold n in *; lia). specialize (HA (n - 1)%nat Ll). replace (n - 1 + 1)%nat with n in HA by lia. specialize (HA HE). fold N in HA.
  assert (FL : exists p, filtered (pointsOn O) S A p).
  { destruct (C35_fits O0 O o _ ds vs m ts RO Hp E HS G ND Lt) as (A' & EA2 & [Bad|FA]).
    - now apply linear_runnable.
    - eapply priorIs_nonneg; eauto.
    - eapply likelihoods_finite; eauto.
    - fold S in EA2. rewrite EA in EA2. inversion EA2; subst. congruence.
    - fold S in EA2, FA. rewrite EA in EA2. inversion EA2; subst. auto. }
  destruct FL as (p & FA). destruct (C35_single O0 O o ds M row A p RO Hp E HS EM Er Ep) as (r1 & r2).
  { apply ab_frozen. exact FA. }
  rewrite r2. split; [|eauto]. rewrite r1. f_equal. destruct FA as (_ & _ & f1 & _).
  assert (Lp : List.length (st_post A) = n).
  { destruct (C01_posteriors_are_distributions S o m vs ts true C (linear_runnable _ _ Lin) (priorIs_nonneg _ _ _ _ _ PR) (likelihoods_finite _ _ _ _ LS)) as (A' & EA2 & [Bad|(v' & posts & _ & h2 & h3 & _)]);
      rewrite EA in EA2; inversion EA2; subst A'; [congruence|]. now rewrite h2, map_length. }
  destruct (exists_last (l := st_post A)) as (l & a & Ea). { intros X. rewrite X in Lp. cbn in Lp. lia. }
  rewrite Ea in *. rewrite last_last in f1. rewrite app_length in Lp. cbn in Lp. rewrite nth_error_app2 in HA by lia. replace (n - 1 - List.length l)%nat with 0%nat in HA by lia. cbn in HA. congruence.
Qed.

(** ** C38 *)
Section Carrier.
  Context {F L : Type} `{Num F} `{LogNum F L}.
  (** With storeHistory one entry per data point that completes a segment is added to each history: what the study shows as
      current after this data point. *)
  Theorem C38_history : forall (O O' : online F L) ds, onlineSteps O ds = Ok O' -> on_store O = true ->
    let done := filter completed (trace O ds) in
    on_hPost O' = (on_hPost O ++ map marginalNow done)%list /\ on_hMeans O' = (on_hMeans O ++ map meansNow done)%list /\
    on_hHpd O' = (on_hHpd O ++ map on_hpd done)%list /\ on_hTmd O' = (on_hTmd O ++ map on_tmd done)%list /\
    on_hLtmd O' = (on_hLtmd O ++ map on_ltmd done)%list.
  Proof. intros O O' ds E HS done. destruct (steps_history ds O O' E HS) as (a & b & c & d & e). auto. Qed.
  (** Without storeHistory nothing is stored, and everything else is the same, including failures. *)
  Theorem C38_independent : forall (O : online F L) ds,
    (forall O', onlineSteps O ds = Ok O' -> onlineSteps (forget O) ds = Ok (forget O')) /\
    (forall e, onlineSteps O ds = Err e -> onlineSteps (forget O) ds = Err e) /\
    (forall O', onlineSteps O ds = Ok O' -> on_store O = false -> sameHistory O' O).
  Proof.
    intros O ds. rewrite steps_forget. split; [intros O' ->; reflexivity|]. split; [intros e ->; reflexivity|].
    intros O' E. now apply steps_nohistory with ds.
  Qed.

  (** ** C39 *)
  (** A data point that does not complete a segment only is stored. *)
  Theorem C39_waits : forall (O O' : online F L) d, onlineStep O d = Ok O' -> completed O' = false ->
    sameShown O' O /\ sameHistory O' O.
  Proof. intros O O' d E HC. apply step_stores in E as [_ E]. rewrite HC in E. tauto. Qed.
  (** The results of a step depend on the models, the results of the previous step and the last data points, as many as
      a segment has. *)
  Theorem C39_window : forall (O1 O2 O1' O2' : online F L) o d1 d2,
    onlineStep O1 d1 = Ok O1' -> onlineStep O2 d2 = Ok O2' -> on_models O1 <> [] -> sameModels O1 O2 -> sameShown O1 O2 ->
    st_om (on_S O1) = Some o -> (0 < om_seglen o)%nat -> completed O1' = true -> completed O2' = true ->
    lastPoints (om_seglen o) O1' = lastPoints (om_seglen o) O2' -> sameShown O1' O2' /\ sameModels O1' O2'.
  Proof.
    intros O1 O2 O1' O2' o d1 d2 E1 E2 Hm SM SR Eo Hk C1 C2 EW. unfold onlineStep in E1, E2.
    destruct (receive O1 d1) as [P1|] eqn:R1; [|discriminate]. destruct (receive O2 d2) as [P2|] eqn:R2; [|discriminate]. cbn [bind] in E1, E2.
    apply receive_keeps in R1 as (a1 & _ & _ & a4 & a5 & a6 & a7 & a8 & a9). apply receive_keeps in R2 as (b1 & _ & _ & b4 & b5 & b6 & b7 & b8 & b9).
    assert (Hm2 : on_models O2 <> []) by (destruct SM as (<- & _); auto). specialize (a9 Hm). specialize (b9 Hm2).
    assert (Eo2 : st_om (on_S P2) = Some o). { destruct SM as (_ & _ & _ & X & _). congruence. }
    assert (Eo1 : st_om (on_S P1) = Some o) by congruence. rewrite Eo1 in E1. rewrite Eo2 in E2.
    destruct (st_rawTs (on_S P1)) as [t1|]; [|discriminate]. destruct (st_rawTs (on_S P2)) as [t2|]; [|discriminate].
    destruct (Nat.ltb_spec (rawLen (st_raw (on_S P1))) (om_seglen o)) as [H1|H1].
    { inversion E1; subst O1'. unfold completed in C1. rewrite Eo1 in C1. apply Nat.leb_le in C1. lia. }
    destruct (Nat.ltb_spec (rawLen (st_raw (on_S P2))) (om_seglen o)) as [H2|H2].
    { inversion E2; subst O2'. unfold completed in C2. rewrite Eo2 in C2. apply Nat.leb_le in C2. lia. }
    destruct (on_ts P1) as [ts1|]; [|discriminate]. destruct (on_ts P2) as [ts2|]; [|discriminate].
    destruct (on_isArr P1); [discriminate|]. destruct (on_isArr P2); [discriminate|].
    set (Q1 := with_ts P1 (on_S P1) (Some (ts1 ++ [last t1 f0])) false) in *. set (Q2 := with_ts P2 (on_S P2) (Some (ts2 ++ [last t2 f0])) false) in *.
    assert (M12 : sameModels Q1 Q2).
    { clear - SM a9 b9. unfold Q1, Q2, sameModels in *. cbn [with_ts on_models on_tmPrior on_first on_S]. repeat (match goal with X : _ /\ _ |- _ => destruct X end). repeat split; congruence. }
    assert (R12 : sameShown Q1 Q2).
    { clear - SR a1 b1. unfold Q1, Q2, sameShown in *. cbn [with_ts on_logEvs on_hyperEvs on_posts on_tmPosts on_marg on_hpd on_tmd on_ltmd on_S]. repeat (match goal with X : _ /\ _ |- _ => destruct X end). repeat split; congruence. }
    assert (W12 : lastSegment (om_seglen o) (st_raw (on_S Q1)) = lastSegment (om_seglen o) (st_raw (on_S Q2))).
    { apply update_stores in E1 as (_ & _ & _ & X1). apply update_stores in E2 as (_ & _ & _ & X2). unfold lastPoints in EW. rewrite X1, X2 in EW.
      cbn [Q1 Q2 with_ts on_S] in EW |- *. clear - EW Hk.
      assert (G : forall (A : Type) (l : list A), lastN (om_seglen o) l = rev (firstn (om_seglen o) (rev l))).
      { intros A l. unfold lastN. destruct (om_seglen o) as [|k]; [lia|]. now rewrite firstn_rev, rev_involutive. }
      destruct (st_raw (on_S P1)), (st_raw (on_S P2)); cbn [lastSegment]; rewrite ?G; congruence. }
    assert (EoQ : st_om (on_S Q1) = Some o) by exact Eo1.
    destruct (update_window Q1 Q2 o O1' M12 R12 EoQ W12 E1) as (X & EX & r1 & r2). rewrite E2 in EX. inversion EX; subst X. auto.
  Qed.
End Carrier.

(** In a stream of single data points, with segment length k: the first k-1 data points change nothing (except that they are
    stored). Each later data point adds one entry to the histories. The time stamps are the positions of the data points that
    completed a segment. *)
Lemma stream_count (O0 O : online R R) o pvs : onlineReady O0 o pvs -> forall ds, Forall point ds -> onlineSteps O0 ds = Ok O ->
  rawLen (st_raw (on_S O)) = List.length ds /\ (ds <> [] -> tracked O0 o O (st_raw (on_S O))).
Proof.
  intros RO ds HP E. destruct ds as [|d ds].
  - cbn in E. inversion E; subst. rewrite (or_empty _ _ _ RO). split; [reflexivity|congruence].
  - inversion HP as [|? ? p1 p2]; subst. cbn [onlineSteps] in E. destruct (onlineStep O0 d) as [O1|] eqn:E1; [|discriminate]. cbn [bind] in E.
    pose proof (first_step _ _ _ RO _ _ p1 E1) as T1. red in p1. cbn [List.length].
    assert (G : forall ds Oa da, tracked O0 o Oa da -> Forall point ds -> onlineSteps Oa ds = Ok O -> rawLen (st_raw (on_S O)) = (rawLen da + List.length ds)%nat /\ tracked O0 o O (st_raw (on_S O))).
    { clear d ds HP p1 p2 O1 E1 E T1. induction ds as [|d ds IH]; intros Oa da T HP E; cbn [onlineSteps] in E.
      - inversion E; subst. rewrite (tk_raw _ _ _ _ T). cbn. split; [lia|auto].
      - inversion HP as [|? ? p1 p2]; subst. destruct (onlineStep Oa d) as [Ob|] eqn:Eb; [|discriminate]. cbn [bind] in E.
        destruct (next_step _ _ _ RO _ _ _ _ T p1 Eb) as (db & Ed & Tb). destruct (IH Ob db Tb p2 E) as [i1 i2]. split; auto.
        apply rawAppend_inv in Ed as [El _]. red in p1. cbn. lia. }
    destruct (G ds O1 d T1 p2 E) as [g1 g2]. split; auto. lia.
Qed.
Lemma steps_om (O0 O : online R R) o pvs ds : onlineReady O0 o pvs -> Forall point ds -> onlineSteps O0 ds = Ok O -> st_om (on_S O) = Some o.
Proof.
  intros RO HP E. destruct (stream_count _ _ _ _ RO _ HP E) as [_ T]. destruct ds as [|d ds].
  - cbn in E. inversion E; subst. apply (or_om _ _ _ RO).
  - destruct (tk_setup _ _ _ _ (T ltac:(discriminate))) as (-> & _). apply (or_om _ _ _ RO).
Qed.
Lemma onlineSteps_app : forall {F L} `{Num F} `{LogNum F L} ds1 ds2 (O O2 : online F L), onlineSteps O (ds1 ++ ds2) = Ok O2 -> exists O1, onlineSteps O ds1 = Ok O1 /\ onlineSteps O1 ds2 = Ok O2.
Proof.
  induction ds1 as [|d ds1 IH]; intros ds2 O O2 E; cbn [app onlineSteps] in *; [eauto|]. destruct (onlineStep O d) as [Oa|]; [|discriminate]. cbn [bind] in *. now apply IH.
Qed.
Lemma trace_snoc : forall {F L} `{Num F} `{LogNum F L} ds d (O O1 O2 : online F L), onlineSteps O ds = Ok O1 -> onlineStep O1 d = Ok O2 -> trace O (ds ++ [d]) = (trace O ds ++ [O2])%list.
Proof.
  induction ds as [|x ds IH]; intros d O O1 O2 E1 E2; cbn [app onlineSteps trace] in *.
  - inversion E1; subst. now rewrite E2.
  - destruct (onlineStep O x) as [Oa|]; [|discriminate]. cbn [bind] in E1. cbn. f_equal. eapply IH; eauto.
Qed.
Lemma skipn_seq0 j b : skipn j (seq 0 b) = seq j (b - j).
Proof.
  change (seq j (b - j)) with (seq (0 + j) (b - j)). generalize 0%nat. revert b. induction j as [|j IH]; intros b a; cbn [skipn].
  - now rewrite Nat.sub_0_r, Nat.add_0_r.
  - destruct b as [|b]; [reflexivity|]. cbn [seq]. rewrite IH. f_equal; lia.
Qed.
Theorem C39_stream : forall (O0 O : online R R) o pvs ds,
  onlineReady O0 o pvs -> Forall point ds -> onlineSteps O0 ds = Ok O -> ds <> [] ->
  let k := om_seglen o in let n := List.length ds in
  rawLen (st_raw (on_S O)) = n /\
  on_ts O = Some (map INR (seq (k - 1) (n - (k - 1)))) /\
  ((n < k)%nat -> sameShown O O0 /\ sameHistory O O0) /\
  List.length (filter completed (trace O0 ds)) = (n - (k - 1))%nat.
Proof.
  intros O0 O o pvs ds RO HP E Hne k n. destruct (stream_count _ _ _ _ RO _ HP E) as [Ln T]. specialize (T Hne). pose proof (or_seg _ _ _ RO) as Hk. fold k in Hk. fold n in Ln.
  split; auto. split.
  { rewrite (tk_ts _ _ _ _ T), Ln. fold k. f_equal. rewrite skipn_map. f_equal. apply skipn_seq0. }
  clear Hne T. unfold n in *. clear n. revert O Ln E. induction ds as [|d ds IH] using rev_ind; intros O Ln E.
  - cbn in E. inversion E; subst. cbn. split; [unfold sameShown, sameHistory; auto 12|lia].
  - apply onlineSteps_app in E as (O1 & E1 & E2). cbn [onlineSteps] in E2. destruct (onlineStep O1 d) as [O2|] eqn:E3; [|discriminate]. cbn [bind] in E2. inversion E2; subst O2; clear E2.
    assert (HP' := HP). apply Forall_app in HP' as [HP1 _]. destruct (stream_count _ _ _ _ RO _ HP1 E1) as [L1 _]. destruct (IH HP1 O1 L1 E1) as [i1 i2].
    rewrite (trace_snoc _ _ _ _ _ E1 E3), filter_app, !app_length, i2. rewrite app_length in Ln. cbn [List.length filter] in *.
    assert (EC : completed O = Nat.leb k (List.length ds + 1)).
    { unfold completed. rewrite (steps_om O0 O o pvs (ds ++ [d]) RO HP), Ln; [reflexivity|].
      clear - E1 E3. revert O0 E1. induction ds as [|x ds IH]; intros O0 E1; cbn [app onlineSteps] in *; [inversion E1; subst; now rewrite E3|].
      destruct (onlineStep O0 x) as [Oa|]; [|discriminate]. cbn [bind] in *. now apply IH. }
    rewrite EC. destruct (Nat.leb_spec k (List.length ds + 1)) as [H1|H1].
    + split; [lia|]. cbn. lia.
    + split; [|cbn; lia]. intros _. destruct (C39_waits _ _ _ E3 EC) as [w1 w2]. destruct (i1 ltac:(lia)) as [j1 j2].
      unfold sameShown, sameHistory in *. repeat (match goal with X : _ /\ _ |- _ => destruct X end). repeat split; congruence.
Qed.

(** ** Concrete studies *)
Section Make.
  Context {F L : Type} `{Num F} `{LogNum F L}.
  (** observation model, then transition models with names *)
  Definition onlineSetup (o : om F) (ms : list (string * tm F)) (store : bool) : res (online F L) :=
    (let* S0 := runCalls fresh [CSetOM o] in addAll ms (newOnline S0 store))%res.
  Definition stream (l : list Z) : list (raw F) := map (fun z => data [z]) l.
  Definition walks : tm F := TM (KGRW "p") ["s"%string] [HArr [frac 1 4; frac 1 2]] (Some (Leaf (HPArr [Fin f1; Fin (fofZ 3)]))) [].
  Definition walkOne : tm F := comb [grw "r" "p" (frac 1 4); change "c" (fofZ 1)].
  Definition twoModels : list (string * tm F) := [("walks"%string, walks); ("change"%string, walkOne)].
End Make.

(** Two models: a random walk of two possible widths; a random walk with a change-point. *)
Lemma twoModels_ok : Forall addable (map snd (twoModels (F := R))) /\ NoDup (flat_map allNames (map snd (twoModels (F := R)))).
Proof.
  split; [constructor; [|constructor; [|constructor]]|].
  - split; [split; [|split; [|split]]|].
    + apply built_named, (b_grw "s" (VList [frac 1 4; frac 1 2]) (Some "p"%string) (Leaf (HPArr [Fin f1; Fin (fofZ 3)]))). reflexivity.
    + cbn. repeat constructor; cbn; intuition discriminate.
    + cbn. intuition discriminate.
    + cbn. repeat constructor.
    + split; [reflexivity|]. split; [cbn; intuition discriminate|]. split; [cbn; split; [right; eexists; split; reflexivity|exact I]|].
      exists [[1 / 4; 1 / 2]], [[1; 3]]. cbn. constructor; [reflexivity| | | | |constructor].
      * repeat constructor; cbn; intuition lra.
      * cbn. auto.
      * repeat constructor; lra.
      * cbn. lra.
  - split; [split; [|split; [|split]]|].
    + apply built_named, (b_comb [grw "r" "p" (frac 1 4); change "c" (fofZ 1)]); [|reflexivity]. constructor; [|constructor; [|constructor]].
      * apply (b_grw "r" (VNum (frac 1 4)) (Some "p"%string) (Leaf HPNone)). reflexivity.
      * apply (b_change "c" (VNum (fofZ 1)) (Leaf HPNone)).
    + cbn. repeat constructor; cbn; intuition discriminate.
    + cbn. intuition discriminate.
    + cbn. repeat constructor.
    + split; [reflexivity|]. split; [cbn; intuition discriminate|]. split; [cbn; intuition (try discriminate); right; eexists; split; reflexivity|].
      exists [[1 / 4]; [1]], [[1]; [1]]. cbn. constructor; [reflexivity| |reflexivity| | |constructor; [reflexivity| |reflexivity| | |constructor]]; try (repeat constructor; cbn; intuition lra); cbn; lra.
  - cbn. repeat constructor; cbn; intuition discriminate.
Qed.
Lemma linear_priors names (m : tm R) : forall m', noPriors m' = noPriors m -> linear names m -> linear names m'.
Proof.
  induction m as [k hn hv p ms IH] using KernelProof.tm_ind'. intros [k' hn' hv' p' ms'] E Lin. cbn in E. inversion E as [[E1 E2 E3 E4]]; subst k' hn' hv'.
  assert (G : Forall (linear names) ms -> Forall (linear names) ms').
  { clear - IH E4. revert ms' E4. induction IH as [|m ms Hm IH' IHf]; intros [|m' ms'] E4; try discriminate; constructor; inversion E4; inversion H; subst; auto. }
  assert (L : List.length ms' = List.length ms) by (apply (f_equal (@List.length _)) in E4; now rewrite !map_length in E4).
  inversion Lin; subst; try (destruct ms'; [|discriminate E4]); try constructor; auto; congruence.
Qed.
Lemma noPriors_withValues (m m' : tm R) row : noPriors m' = noPriors m -> noPriors (withValues m' row) = noPriors (withValues m row).
Proof.
  intros E. unfold withValues. rewrite !noPriors_assign, E. now rewrite <- (noPriors_names m'), E, (noPriors_names m).
Qed.
Lemma coin_online store ms : ms <> [] -> Forall addable (map snd ms) -> NoDup (flat_map allNames (map snd ms)) ->
  exists (O : online R R) pvs, onlineSetup (coin PNone) ms store = Ok O /\ onlineReady O (coin PNone) pvs /\ Forall2 added ms (on_models O) /\
    on_store O = store /\ on_tmPrior O = None /\ on_isArr O = false /\ gridOn (on_S O) (coin PNone) [quarters].
Proof.
  intros Hne HA ND. unfold onlineSetup. cbn [runCalls runCall bind]. unfold setOM. cbn [combine om_values om_names coin coinOM mapM paramValues fst snd bind].
  rewrite quarters_progression, lattice_progression by lia. cbn [bind].
  match goal with |- context [newOnline ?s store] => set (S0 := s) end.
  destruct (C37_setup S0 (coin PNone) ms store) as (O & pvs & h1 & h2 & h3 & h4 & h5 & h6 & h7 & h8 & h9 & h10); auto.
  { unfold S0, coin, coinOM. rewrite ?quarters_progression. reflexivity. }
  exists O, pvs. split; [exact h1|]. repeat (split; [assumption|]).
  assert (Lat : mapM latticeOf [progression (1 / 4) (1 / 4) 3] = Ok [Rabs (1 / 4)]) by (cbn [mapM]; rewrite lattice_progression by lia; reflexivity).
  constructor; rewrite ?h8, ?h9, ?h10; auto.
  - discriminate.
  - unfold S0. cbn. constructor; [|constructor]. rewrite Rabs_right; lra.
Qed.
Lemma received_stream : forall (l : list Z) (l0 : list Z), received (data l0) (stream l) = (data (l0 ++ l) : raw R).
Proof.
  induction l as [|z l IH]; intros l0; cbn [stream map received]; [now rewrite app_nil_r|].
  replace (rawApp (data l0) (data [z])) with (data (l0 ++ [z]) : raw R) by (unfold data; cbn; now rewrite map_app).
  fold (stream (F := R) l). rewrite IH. now rewrite <- app_assoc.
Qed.
Lemma coin_segments' (S : study R R) ds : st_raw S = data ds -> segments S (coin PNone) = map (fun d => Seg1 [Fin (IZR d)]) ds.
Proof.
  intros E. destruct (coin_setup ds PNone mkStatic eq_refl) as (S' & E' & _ & _ & _ & q4 & _). rewrite <- (coin_segments _ _ _ _ E' eq_refl). unfold segments. now rewrite E, q4.
Qed.
Lemma coin_likelihoods' (S : study R R) ds : st_raw S = data ds -> bits ds -> likelihoods S (coin PNone) [quarters] (coinLik ds) /\
  forall i x, (i < List.length ds)%nat -> (x < gridPoints [quarters])%nat -> 0 < coinLik ds i x.
Proof.
  intros E Hb. destruct (coin_setup ds PNone mkStatic eq_refl) as (S' & E' & _ & _ & _ & q4 & _). destruct (coin_likelihoods _ _ _ _ E' eq_refl Hb) as [L P]. split; auto.
  intros i s Hs. apply L. unfold segments in *. now rewrite q4, <- E.
Qed.
(** All hypotheses of the theorems about online studies are met by this study, for every stream of zeros and ones. *)
Lemma coin_runs (O0 O : online R R) pvs ms d ds : bits (d :: ds) ->
  onlineReady O0 (coin PNone) pvs -> Forall2 added ms (on_models O0) -> NoDup (flat_map allNames (map snd ms)) -> gridOn (on_S O0) (coin PNone) [quarters] ->
  onlineSteps O0 (stream (d :: ds)) = Ok O ->
  Forall (fun m => forall row, (exists points, Forall2 (valueList []) (map snd (assocs (snd m))) points /\ Forall2 (fun v xs => In v xs) row points) -> linear ["p"%string] (withValues (snd m) row)) ms ->
  st_raw (on_S O) = data (d :: ds) /\ started O (coin PNone) /\ exists fss, Forall2 (runsOf O) (on_models O0) fss.
Proof.
  intros Hb RO HA ND HG E HL.
  assert (HP : Forall point (stream (d :: ds))) by (clear; unfold stream; apply Forall_map; apply Forall_forall; intros z _; reflexivity).
  pose proof (stream_tracked O0 (coin PNone) pvs RO (data [d]) (stream ds) O HP E) as T. rewrite received_stream in T. cbn [app] in T.
  pose proof (tk_raw _ _ _ _ T) as Er. split; auto. assert (HS : started O (coin PNone)) by (unfold started; rewrite Er; cbn; lia). split; auto.
  destruct (coin_likelihoods' (on_S O) _ Er Hb) as [Lk Lp].
  assert (G : forall m, NoDup (allNames m) -> linear ["p"%string] m -> exists A p, asBatch O (pointsOn O) m A p).
  { intros m NDm Lin. set (ts := constantTimes O (-1)). assert (Lt : List.length ts = rawLen (st_raw (on_S O))) by apply repeat_length.
    destruct (C35_fits O0 O _ _ _ [quarters] m ts RO HP E HS HG NDm Lt (linear_runnable _ _ Lin) I (likelihoods_finite _ _ _ _ Lk)) as (A & EA & [Bad|(p & FA)]).
    - exfalso. destruct (batch_configured _ _ _ _ _ _ _ _ RO HP E HS HG NDm Lt) as (C & _).
      assert (PI : priorIs (batch O m ts) [quarters] (coin PNone) PNone (flat (gridPoints [quarters]))) by constructor.
      assert (Hn : nSteps (batch O m ts) (coin PNone) = List.length (d :: ds)) by (unfold nSteps; rewrite (coin_segments' _ (d :: ds)); [apply map_length|exact Er]).
      destruct (C03_evidence (batch O m ts) (coin PNone) m [quarters] ts (flat (gridPoints [quarters])) (coinLik (d :: ds)) true false C Lin PI) as (A' & EA' & _ & _ & Ev); auto.
      + left. exact I.
      + rewrite Hn. cbn. lia.
      + rewrite EA in EA'. inversion EA'; subst A'. destruct Ev as (v & Ev & _); [|congruence].
        destruct (flat_ok _ _ m _ _ C) as [F1 F2].
        assert (FE : fitEnv (batch O m ts) (coin PNone) m [quarters] ts (flat (gridPoints [quarters])) (envOf (batch O m ts) (coin PNone) PNone) (flat (gridPoints [quarters]))).
        { change PNone with (om_prior (coin PNone)) at 2. apply fitEnv_stable; auto. exact I. }
        apply evidence_pos; auto.
        * rewrite F2. lra.
        * intros i. exact (Kst (batch O m ts) (coin PNone) m [quarters] ts _ _ _ C Lin FE i).
        * intros i x Hi. apply Lp. now rewrite Hn in Hi.
    - exists A, p. now apply ab_frozen. }
  clear - HA HL ND G. assert (ND' : Forall (fun m => NoDup (allNames (snd m))) ms).
  { clear - ND. induction ms as [|m ms IH]; constructor; cbn in ND; apply NamesProof.NoDup_app_inv in ND; [apply ND|apply IH; apply ND]. }
  clear ND. induction HA as [|m M ms Ms (a1 & a2 & a3 & a4) HA IH]; [exists []; constructor|]. inversion HL as [|? ? h1 h2]; inversion ND' as [|? ? n1 n2]; subst.
  destruct (IH h2 n2) as (fss & HF). 
  assert (K : exists fs, runsOf O M fs).
  { unfold runsOf. assert (Q : Forall (fun row => exists f, asBatch O (pointsOn O) (withValues (md_tm M) row) (fst f) (snd f)) (combos M)).
    { apply Forall_forall. intros row Hr. apply a4 in Hr. specialize (h1 row Hr). destruct (G (withValues (md_tm M) row)) as (A & p & AB); [| |exists (A, p); exact AB].
      - unfold withValues. rewrite assign_allNames. rewrite <- (noPriors_names (md_tm M)), a3, noPriors_names. auto.
      - eapply linear_priors; [|exact h1]. now apply noPriors_withValues. }
    clear - Q. induction Q as [|row rows (f & Hf) Q (fs & IH)]; [exists []; constructor|exists (f :: fs); constructor; auto]. }
  destruct K as (fs & K). exists (fs :: fss). constructor; auto.
Qed.
Example C35_ex (d : Z) (ds : list Z) store : bits (d :: ds) ->
  exists O0 O pvs fss, onlineSetup (coin PNone) twoModels store = Ok O0 /\ onlineReady O0 (coin PNone) pvs /\ onlineRunnable O0 (coin PNone) /\
    Forall point (stream (d :: ds)) /\ onlineSteps O0 (stream (d :: ds)) = Ok O /\ started O (coin PNone) /\
    Forall2 (runsOf O) (on_models O0) fss /\ modelPriors O0 [1 / 2; 1 / 2] /\ gridOn (on_S O0) (coin PNone) [quarters] /\ on_store O0 = store /\
    likelihoods (on_S O) (coin PNone) [quarters] (coinLik (d :: ds)) /\ nSteps (on_S O) (coin PNone) = List.length (d :: ds).
Proof.
  intros Hb. destruct twoModels_ok as [HA ND]. destruct (coin_online store twoModels ltac:(discriminate) HA ND) as (O0 & pvs & E0 & RO & AD & h1 & h2 & h3 & HG).
  assert (HL : Forall (fun m => forall row, (exists points, Forall2 (valueList []) (map snd (assocs (snd m))) points /\ Forall2 (fun v xs => In v xs) row points) -> linear ["p"%string] (withValues (snd m) row)) (twoModels (F := R))).
  { constructor; [|constructor; [|constructor]]; cbn [snd]; intros row (points & F1 & F2); cbn in F1.
    - inversion F1 as [|a b c e K1 K2]; subst. inversion K2; subst. inversion F2 as [|s xs row' pts Hs K3]; subst. inversion K3; subst. repeat constructor.
    - inversion F1 as [|a b c e K1 K2]; subst. inversion K2 as [|a' b' c' e' K3 K4]; subst. inversion K4; subst.
      inversion F2 as [|s xs row' pts Hs K5]; subst. inversion K5 as [|s' xs' row'' pts' Hs' K6]; subst. inversion K6; subst. constructor. repeat constructor. }
  assert (RU : onlineRunnable O0 (coin PNone)).
  { constructor; auto; try exact I.
    - clear - AD HL. induction AD as [|m M ms Ms (a1 & a2 & a3 & a4) AD IH]; constructor; inversion HL as [|? ? l1 l2]; subst; auto.
      apply Forall_forall. intros row Hr. apply a4 in Hr. apply linear_runnable. eapply linear_priors; [apply noPriors_withValues; exact a3|apply l1; auto].
    - pose proof (go_lat _ _ _ HG) as X. cbn [mapM bind] in X. destruct (latticeOf quarters); [|discriminate]. cbn in X. inversion X. cbn. lia.
    - now rewrite h2. }
  assert (HP : Forall point (stream (F := R) (d :: ds))) by (clear; unfold stream; apply Forall_map; apply Forall_forall; intros z _; reflexivity).
  destruct (C35_succeeds O0 _ pvs (data [d]) (stream ds) RO RU HP) as (O & E).
  { unfold stream. apply Forall_map. apply Forall_forall. intros z _. exact I. }
  destruct (coin_runs O0 O pvs twoModels d ds Hb RO AD ND HG E HL) as (Er & HS & fss & HF). exists O0, O, pvs, fss.
  repeat (split; [assumption|]). split.
  { unfold modelPriors. rewrite h2. apply DataProof.Forall2_len in AD. rewrite <- AD. cbn. repeat (f_equal; try lra). }
  repeat (split; [assumption|]). split; [apply coin_likelihoods'; auto|]. unfold nSteps. rewrite (coin_segments' _ _ Er). apply map_length.
Qed.

(** Executed: the study above with a history, after three data points. After the first data point both models have seen the same
    evidence, but the first one has probability 4/5: the size 1/4 of its hyper-grid cells is missing (C37_hyperstudy). *)
Example C38_ex :
  (let* O0 := onlineSetup (L := Q) (coinOM quarters PNone) twoModels true in
   let* O1 := onlineSteps O0 (stream [1; 1; 0]%Z) in
   Ok (map completed (trace O0 (stream [1; 1; 0]%Z)), on_ts O1, List.length (on_hPost O1), List.length (on_hMeans O1), on_hTmd O1, on_tmd O1, on_ltmd O1,
       on_marg O1, st_logEv (on_S O1)))%res =
  Ok ([true; true; true], Some [0; 1; 2], 3%nat, 3%nat,
     [[Fin (4 # 5); Fin (1 # 5)];
      [Fin (131023376 # 164409185); Fin (33385809 # 164409185)];
      [Fin (2054739307563956 # 2565169000725755); Fin (510429693161799 # 2565169000725755)]],
     [Fin (2054739307563956 # 2565169000725755); Fin (510429693161799 # 2565169000725755)],
     [Fin (227562378312708127 # 449416012087581139); Fin (221853633774873012 # 449416012087581139)],
     Some [Fin (4837081563904701 # 10260676002903020); Fin (878828795999928 # 2565169000725755); Fin (1908279254998607 # 10260676002903020)],
     Fin (2565169000725755 # 8245662248888352))%Q.
Proof. vm_compute. reflexivity. Qed.
(** segments of two data points *)
Definition pairPdf2 (grid : list (list Q)) (s : seg Q) : list (xnum Q) :=
  match s with Seg1 [Fin a; Fin b] => map (fun p => Fin (a * p + b)%Q) (hd [] grid) | _ => aones (List.length (hd [] grid)) end.
Definition pairOM2 : om Q :=
  {| om_names := ["p"%string]; om_values := [Some quarters]; om_seglen := 2; om_multiply := true; om_prior := PNone; om_pdf := pairPdf2;
     om_estimate := fun _ _ => Err NotImplementedError |}.
Example C39_ex :
  (let* O0 := onlineSetup (L := Q) pairOM2 twoModels true in
   let* O1 := onlineSteps O0 (stream [1]%Z) in
   let* O2 := onlineSteps O0 (stream [1; 1; 2]%Z) in
   Ok (completed O1, on_ts O1, on_marg O1, on_first O1, List.length (on_hPost O1), map completed (trace O0 (stream [1; 1; 2]%Z)), on_ts O2, List.length (on_hPost O2)))%res =
  Ok (false, Some [], None, true, 0%nat, [false; true; true], Some [1; 2], 2%nat)%Q.
Proof. vm_compute. reflexivity. Qed.

(** ** What does not hold *)
(** The prior probabilities of the transition models do not influence their current probabilities. *)
Theorem C36_prior_refuted : exists (O0 Oa Oa' Ob Ob' : online Q Q),
  onlineSetup (coinOM quarters PNone) twoModels false = Ok O0 /\
  setTMPrior O0 [Fin (1 # 2); Fin (1 # 2)]%Q = Ok Oa /\ setTMPrior O0 [Fin (1 # 100); Fin (99 # 100)]%Q = Ok Ob /\
  onlineSteps Oa (stream [1; 1; 0]%Z) = Ok Oa' /\ onlineSteps Ob (stream [1; 1; 0]%Z) = Ok Ob' /\
  on_tmd Oa' = on_tmd Ob' /\ on_marg Oa' = on_marg Ob' /\ st_logEv (on_S Oa') <> st_logEv (on_S Ob').
Proof.
  assert (E : (let* O0 := onlineSetup (L := Q) (coinOM quarters PNone) twoModels false in
    let* Oa := setTMPrior O0 [Fin (1 # 2); Fin (1 # 2)]%Q in let* Ob := setTMPrior O0 [Fin (1 # 100); Fin (99 # 100)]%Q in
    let* Oa' := onlineSteps Oa (stream [1; 1; 0]%Z) in let* Ob' := onlineSteps Ob (stream [1; 1; 0]%Z) in
    Ok (on_tmd Oa', on_tmd Ob', on_marg Oa', on_marg Ob', st_logEv (on_S Oa'), st_logEv (on_S Ob')))%res =
    Ok (let t := [Fin (2054739307563956 # 2565169000725755); Fin (510429693161799 # 2565169000725755)] in
        let m := Some [Fin (4837081563904701 # 10260676002903020); Fin (878828795999928 # 2565169000725755); Fin (1908279254998607 # 10260676002903020)] in
        (t, t, m, m, Fin (2565169000725755 # 8245662248888352), Fin (52587278930582057 # 412283112444417600)))%Q) by (vm_compute; reflexivity).
  run E. exists x, x0, x2, x1, x3. repeat (split; [assumption|]). split; [congruence|]. split; [congruence|]. rewrite H0, H. discriminate.
Qed.
(** A change-point never occurs in an online study: after the same data the batch study, whose change-point occurs, has a different
    distribution and evidence. *)
Theorem C35_change_refuted : exists (O0 O1 : online Q Q) (S0 S1 : study Q Q) p,
  onlineSetup (coinOM quarters PNone) [("change"%string, change "c" 1%Q)] false = Ok O0 /\ onlineSteps O0 (stream [1; 1; 0]%Z) = Ok O1 /\
  setup (data [1; 1; 0]%Z) None (coinOM quarters PNone) (change "c" 1%Q) = Ok S0 /\ fit S0 true false = Ok S1 /\
  last (st_post S1) None = Some p /\ on_marg O1 <> Some p /\ st_logEv (on_S O1) <> st_logEv S1.
Proof.
  assert (E : (let* O0 := onlineSetup (L := Q) (coinOM quarters PNone) [("change"%string, change "c" 1%Q)] false in
    let* O1 := onlineSteps O0 (stream [1; 1; 0]%Z) in
    let* S0 := setup (L := Q) (data [1; 1; 0]%Z) None (coinOM quarters PNone) (change "c" 1%Q) in let* S1 := fit S0 true false in
    Ok (last (st_post S1) None, on_marg O1, st_logEv (on_S O1), st_logEv S1))%res =
    Ok (Some [Fin (1 # 2); Fin (1 # 3); Fin (1 # 6)], Some [Fin (3 # 20); Fin (2 # 5); Fin (9 # 20)], Fin (5 # 48), Fin (7 # 192))%Q) by (vm_compute; reflexivity).
  run E. do 4 eexists. eexists. repeat (split; [eassumption|]). split; congruence.
Qed.
(** If the data are impossible, the distributions are NaN; a batch study stops with log-evidence -inf. *)
Theorem C35_impossible_refuted : exists (O0 O1 : online Q Q) (S0 S1 : study Q Q),
  onlineSetup (coinOM [0; 1]%Q PNone) [("static"%string, static)] false = Ok O0 /\ onlineSteps O0 (stream [1; 0]%Z) = Ok O1 /\
  setup (data [1; 0]%Z) None (coinOM [0; 1]%Q PNone) static = Ok S0 /\ fit S0 true false = Ok S1 /\ st_logEv S1 = NInf /\
  on_marg O1 = Some [NaN; NaN] /\ on_tmd O1 = [NaN].
Proof.
  assert (E : (let* O0 := onlineSetup (L := Q) (coinOM [0; 1]%Q PNone) [("static"%string, static)] false in
    let* O1 := onlineSteps O0 (stream [1; 0]%Z) in
    let* S0 := setup (L := Q) (data [1; 0]%Z) None (coinOM [0; 1]%Q PNone) static in let* S1 := fit S0 true false in
    Ok (st_logEv S1, on_marg O1, on_tmd O1))%res = Ok (NInf, Some [NaN; NaN], [NaN])) by (vm_compute; reflexivity).
  run E. exists x, x0, x1, x2. repeat (split; [assumption|]). auto.
Qed.
(** Two data points in one list: both are stored, but there is one update, with the last data point. *)
Theorem C39_list_refuted : exists (O0 O1 O2 O3 : online Q Q),
  onlineSetup (coinOM quarters PNone) [("static"%string, static)] false = Ok O0 /\
  onlineStep O0 (data [1; 0]%Z) = Ok O1 /\ onlineSteps O0 (stream [0]%Z) = Ok O2 /\ onlineSteps O0 (stream [1; 0]%Z) = Ok O3 /\
  rawLen (st_raw (on_S O1)) = 2%nat /\ on_ts O1 = Some [0%Q] /\ on_marg O1 = on_marg O2 /\ on_marg O1 <> on_marg O3.
Proof.
  assert (E : (let* O0 := onlineSetup (L := Q) (coinOM quarters PNone) [("static"%string, static)] false in
    let* O1 := onlineStep O0 (data [1; 0]%Z) in let* O2 := onlineSteps O0 (stream [0]%Z) in let* O3 := onlineSteps O0 (stream [1; 0]%Z) in
    Ok (rawLen (st_raw (on_S O1)), on_ts O1, on_marg O1, on_marg O2, on_marg O3))%res =
    Ok (2%nat, Some [0], Some [Fin (1 # 2); Fin (1 # 3); Fin (1 # 6)], Some [Fin (1 # 2); Fin (1 # 3); Fin (1 # 6)], Some [Fin (3 # 10); Fin (2 # 5); Fin (3 # 10)])%Q) by (vm_compute; reflexivity).
  run E. do 4 eexists. repeat (split; [eassumption|]). split; congruence.
Qed.

(** C35_single and C35_exact: one random walk with a change-point *)
Example C35_exact_ex (d : Z) (ds : list Z) store : bits (d :: ds) ->
  exists O0 O M, onlineSetup (coin PNone) [("change"%string, walkOne)] store = Ok O0 /\ onlineReady O0 (coin PNone) [[1]] /\
    Forall point (stream (d :: ds)) /\ onlineSteps O0 (stream (d :: ds)) = Ok O /\ started O (coin PNone) /\ on_models O0 = [M] /\
    combos M = [[1 / 4; 1]] /\ on_tmPrior O0 = None /\ gridOn (on_S O0) (coin PNone) [quarters] /\
    linear ["p"%string] (withValues (md_tm M) [1 / 4; 1]) /\ likelihoods (on_S O) (coin PNone) [quarters] (coinLik (d :: ds)) /\
    0 < evidence 3 (nSteps (on_S O) (coin PNone)) (flat 3) (transition (on_S O) (coin PNone) (withValues (md_tm M) [1 / 4; 1]) (constantTimes O (-1)) (flat 3)) (coinLik (d :: ds)).
Proof.
  intros Hb. destruct twoModels_ok as [HA ND]. inversion HA as [|? ? _ HA1]; subst. clear HA ND.
  assert (ND : NoDup (flat_map allNames (map snd [("change"%string, walkOne (F := R))]))) by (cbn; repeat constructor; cbn; intuition discriminate).
  destruct (coin_online store [("change"%string, walkOne)] ltac:(discriminate) HA1 ND) as (O0 & pvs & E0 & RO & AD & h1 & h2 & h3 & HG).
  inversion AD as [|? M ? Ms (a1 & a2 & a3 & a4) AD' E1 E2]; subst. inversion AD'; subst. symmetry in E2. clear AD'. cbn [snd] in a2, a3.
  assert (HM : combos M = [[1 / 4; 1]] /\ pvs = [[1]]).
  { inversion HA1 as [|? ? A1 _]; subst. destruct A1 as (WN & _ & _ & Ho & pts & ws & HW).
    unfold onlineSetup in E0. destruct (runCalls fresh [CSetOM (coin PNone)]) as [S0|]; [|discriminate]. cbn [bind] in E0. unfold addAll in E0. cbn [fold_left bind fst snd] in E0.
    destruct (C37_grid _ _ _ _ E0 eq_refl WN) as (M' & g1 & _ & _ & _ & _ & _ & g7). cbn in g1. rewrite E2 in g1. inversion g1; subst M'.
    destruct (g7 ltac:(discriminate)) as (points & p1 & p2 & (p3 & p4) & p5 & p6).
    assert (Ep : points = [[frac 1 4]; [fofZ 1]]).
    { cbn in p1. inversion p1 as [|? ? ? ? q1 q2]; subst. inversion q2 as [|? ? ? ? q3 q4]; subst. inversion q4; subst. cbn in q1, q3. now subst. }
    assert (pts = points) as ->.
    { pose proof (weights_points _ _ _ _ _ HW) as p1'. clear - p1 p1'. cbn in *. inversion p1 as [|? ? ? ? q1 q2]; subst. inversion q2 as [|? ? ? ? q3 q4]; subst. inversion q4; subst.
      inversion p1' as [|? ? ? ? r1 r2]; subst. inversion r2 as [|? ? ? ? r3 r4]; subst. inversion r4; subst. cbn in *. now subst. }
    subst points. cbn in p3, p4. assert (Er : md_rows M = [[1 / 4; 1]]).
    { specialize (p4 0%nat ltac:(lia)). destruct (md_rows M) as [|r [|r2 rs]]; cbn in p3; try lia. cbn in p4. subst r. reflexivity. }
    split; [unfold combos; now rewrite Er|]. destruct (p6 ws Ho HW) as (pv & e1 & e2 & _).
    pose proof (or_entries _ _ _ RO) as HE. rewrite E2 in HE. inversion HE as [|? pv' ? pvs' e3 e4]; subst. inversion e4; subst.
    assert (pv' = pv) as ->.
    { pose proof (en_pv _ _ e1) as X. rewrite (en_pv _ _ e3) in X. clear - X. revert pv X. induction pv' as [|a l IH]; intros [|b m] X; try discriminate; auto. cbn in X. inversion X. f_equal; auto. }
    pose proof (en_len _ _ e1) as Lp. unfold combos in Lp. rewrite Er in Lp. destruct pv as [|q [|q2 pv]]; try discriminate Lp.
    inversion p5 as [|? c1 ? cs (_ & _ & s1) p7]; subst. inversion p7 as [|? c2 ? cs' (_ & _ & s2) p8]; subst. inversion p8; subst.
    rewrite <- H1 in e2. rewrite (s1 ltac:(cbn; lia)), (s2 ltac:(cbn; lia)) in e2. cbn in e2. do 2 f_equal. lra. }
  destruct HM as [Ec ->].
  assert (Lin : linear ["p"%string] (withValues (md_tm M) [1 / 4; 1])).
  { apply (linear_priors _ (withValues walkOne [1 / 4; 1])); [now apply noPriors_withValues|]. constructor. repeat constructor. }
  assert (RU : onlineRunnable O0 (coin PNone)).
  { constructor; auto; try exact I.
    - rewrite E2. constructor; [|constructor]. rewrite Ec. constructor; [|constructor]. now apply linear_runnable.
    - pose proof (go_lat _ _ _ HG) as X. cbn [mapM bind] in X. destruct (latticeOf quarters); [|discriminate]. cbn in X. inversion X. cbn. lia.
    - now rewrite h2. }
  assert (HP : Forall point (stream (F := R) (d :: ds))) by (clear; unfold stream; apply Forall_map; apply Forall_forall; intros z _; reflexivity).
  destruct (C35_succeeds O0 _ [[1]] (data [d]) (stream ds) RO RU HP) as (O & E).
  { unfold stream. apply Forall_map. apply Forall_forall. intros z _. exact I. }
  pose proof (stream_tracked O0 (coin PNone) _ RO (data [d]) (stream ds) O HP E) as T. rewrite received_stream in T. cbn [app] in T. pose proof (tk_raw _ _ _ _ T) as Er.
  assert (HS : started O (coin PNone)) by (unfold started; rewrite Er; cbn; lia). destruct (coin_likelihoods' (on_S O) _ Er Hb) as [Lk Lp].
  exists O0, O, M. repeat (split; [assumption|]). set (m := withValues (md_tm M) [1 / 4; 1]) in *. set (ts := constantTimes O (-1)).
  assert (NDm : NoDup (allNames m)) by (unfold m, withValues; rewrite assign_allNames, <- (noPriors_names (md_tm M)), a3, noPriors_names; repeat constructor; cbn; intuition discriminate).
  assert (Lt : List.length ts = rawLen (st_raw (on_S O))) by apply repeat_length.
  destruct (batch_configured _ _ _ _ _ _ _ _ RO HP E HS HG NDm Lt) as (C & _). destruct (flat_ok _ _ m _ _ C) as [F1 F2].
  assert (FE : fitEnv (batch O m ts) (coin PNone) m [quarters] ts (flat (gridPoints [quarters])) (envOf (batch O m ts) (coin PNone) PNone) (flat (gridPoints [quarters]))).
  { change PNone with (om_prior (coin PNone)) at 2. apply fitEnv_stable; auto; [constructor|exact I]. }
  apply evidence_pos; auto.
  - change (0 < rsum (gridPoints [quarters]) (flat (gridPoints [quarters]))). rewrite F2. lra.
  - intros i. exact (Kst (batch O m ts) (coin PNone) m [quarters] ts _ _ _ C Lin FE i).
  - intros i x Hi. apply Lp. unfold nSteps in Hi. rewrite (coin_segments' _ _ Er), map_length in Hi. exact Hi.
Qed.
