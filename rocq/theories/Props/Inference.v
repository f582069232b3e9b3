(** Properties of Study.fit: C01-C06, C12. *)
From Coq Require Import List ZArith QArith Reals Lra Lia Arith Bool String.
From Verif Require Import Base.Num Base.Exn Base.Arr Base.RSum Base.Lift Model.Helper Model.Tm Model.HyperParams Model.Study Model.Api
  Spec.Kernel Spec.Hmm Spec.Config Spec.Dist Spec.Data Proof.KernelProof Proof.HmmProof Proof.FitThms Proof.FitCore Proof.FitResults Proof.Good Proof.FitInv
  Proof.InferProof Props.Ex Props.ExR.
Import ListNotations.
Local Open Scope R_scope.

(** ** C01 *)
(** fit never raises; unless it reports the evidence zero, every stored posterior is a probability distribution. *)
Theorem C01_posteriors_are_distributions : forall S o m vs ts fo,
  configured S o m vs ts -> runnable (om_names o) m ->
  nonnegPrior (gridPoints vs) o (map (@List.length R) vs) (meshgrid vs) (om_prior o) ->
  (forall s, In s (segments S o) -> finite (gridPoints vs) (processedPdf o (gridPoints vs) (meshgrid vs) s)) ->
  exists S', fit S fo false = Ok S' /\
    (st_logEv S' = NInf \/
     exists v posts, st_logEv S' = Fin v /\ st_post S' = map Some posts /\ List.length posts = nSteps S o /\
       Forall (dist (gridPoints vs)) posts).
Proof.
  intros S o m vs ts fo C Run Pr Lk. destruct (fit_total S o m vs ts C fo false Run Pr) as [S' E].
  exists S'. split; [exact E|].
  destruct (fit_dist S o m vs ts C fo S' (runnable_basic _ _ Run) Pr Lk E) as [Z|(v & posts & h1 & h2 & h3 & h4 & _)]; [now left|].
  right. exists v, posts. auto.
Qed.

(** non-vacuity: a serial model with all kinds of sub-models *)
Definition zoo : tm R :=
  serial [true; false] ["t1"; "t2"]%string [1; 2]
    [comb [grw "s" "p" (1 / 4); TM KRegime ["r"%string] [HNum (-7)] (Some (Leaf HPNone)) []];
     TM KNotEq ["q"%string] [HNum (-7)] (Some (Leaf HPNone)) []; comb [static; change "c" 2; indep]].
Example C01_example : exists S, setup (data [1; 0; 0; 1]%Z) None (coin PNone) zoo = Ok S /\
  configured S (coin PNone) zoo [quarters] (times [1; 0; 0; 1]%Z) /\ runnable (om_names (coin PNone)) zoo /\
  nonnegPrior (gridPoints [quarters]) (coin PNone) [3%nat] (meshgrid [quarters]) (om_prior (coin PNone)) /\
  (forall s, In s (segments S (coin PNone)) -> finite (gridPoints [quarters]) (processedPdf (coin PNone) (gridPoints [quarters]) (meshgrid [quarters]) s)) /\
  nSteps S (coin PNone) = 4%nat.
Proof.
  assert (Hm : isBreak zoo = false) by reflexivity.
  assert (ND : NoDup (allNames zoo)) by (cbn; repeat constructor; cbn; intuition discriminate).
  destruct (coin_setup [1; 0; 0; 1]%Z PNone zoo Hm) as (S & E & _). exists S. split; [exact E|].
  assert (Hb : bits [1; 0; 0; 1]%Z) by (repeat constructor; auto).
  split; [now apply coin_configured|]. split; [|split; [exact I|split]].
  - apply run_serial; [reflexivity|]. repeat constructor.
  - intros s Is. destruct (coin_likelihoods _ _ _ _ E Hm Hb) as [HL _]. apply In_nth_error in Is. destruct Is as [i Ei].
    destruct (HL i s Ei) as [-> Hp]. exists (tab (gridPoints [quarters]) (coinLik [1; 0; 0; 1]%Z i)).
    split; [reflexivity|]. split; [apply tab_length|]. now apply Forall_tab.
  - exact (coin_steps _ _ _ _ E Hm).
Qed.

(** ** C02 *)
Theorem C02_smoothing_is_exact : forall S o m vs ts rho lik,
  configured S o m vs ts -> linear (om_names o) m -> priorIs S vs o (om_prior o) rho -> likelihoods S o vs lik -> unitSpaced ts \/ homogeneous m = true ->
  om_prior o = PNone \/ resetFree S o m ts ->
  (0 < nSteps S o)%nat ->
  let N := gridPoints vs in let n := nSteps S o in let K := transition S o m ts rho in
  0 < evidence N n rho K lik ->
  exists S', fit S false false = Ok S' /\
    List.length (st_post S') = n /\
    forall i, (i < n)%nat -> nth_error (st_post S') i = Some (Some (arrOf N (posterior N n rho K lik i))).
Proof.
  intros S o m vs ts rho lik C Lin P HL U Hp Hn N n K HE.
  destruct (env_sym S o m vs ts rho C Lin P Hp U) as (e' & rho' & FE & Hs).
  destruct (fit_smooth S o m vs ts rho e' rho' lik C Lin FE (rho_nonneg S o m vs ts rho C P) HL Hn Hs HE) as (S' & E & _ & Ep & _).
  exists S'. split; [exact E|]. rewrite Ep. unfold smoothPosts. rewrite !map_length, seq_length. split; [reflexivity|].
  intros i Hi. rewrite map_map, nth_error_map, (FitResults.nth_error_nth' _ i O) by now rewrite seq_length.
  rewrite seq_nth by auto. reflexivity.
Qed.
(** non-vacuity: coin, random walk with a change-point, flat prior *)
Example C02_example : exists S, setup (data [1; 0; 1]%Z) None (coin PNone) walkChange = Ok S /\
  configured S (coin PNone) walkChange [quarters] (times [1; 0; 1]%Z) /\ linear (om_names (coin PNone)) walkChange /\
  priorIs S [quarters] (coin PNone) (om_prior (coin PNone)) (flat (gridPoints [quarters])) /\
  likelihoods S (coin PNone) [quarters] (coinLik [1; 0; 1]%Z) /\ unitSpaced (times [1; 0; 1]%Z) /\
  om_prior (coin PNone) = PNone /\ nSteps S (coin PNone) = 3%nat /\
  0 < evidence (gridPoints [quarters]) (nSteps S (coin PNone)) (flat (gridPoints [quarters]))
        (transition S (coin PNone) walkChange (times [1; 0; 1]%Z) (flat (gridPoints [quarters]))) (coinLik [1; 0; 1]%Z).
Proof.
  destruct walkChange_ok as (Hm & ND & Lin).
  destruct (coin_setup [1; 0; 1]%Z PNone walkChange Hm) as (S & E & _). exists S. split; [exact E|].
  assert (Hb : bits [1; 0; 1]%Z) by (repeat constructor; auto).
  split; [now apply coin_configured|]. split; [exact Lin|]. split; [constructor|].
  split; [now apply (coin_likelihoods _ _ _ _ E Hm Hb)|]. split; [apply times_unit|]. split; [reflexivity|].
  split; [exact (coin_steps _ _ _ _ E Hm)|]. apply coin_evidence; auto. discriminate.
Qed.

(** ** C03 *)
(** -inf exactly if the marginal likelihood is zero; otherwise exp(logEvidence) = marginal likelihood x volume^resets *)
Theorem C03_evidence : forall S o m vs ts rho lik fo eo,
  configured S o m vs ts -> linear (om_names o) m -> priorIs S vs o (om_prior o) rho -> likelihoods S o vs lik ->
  stablePrior (om_prior o) \/ resetFree S o m ts ->
  (0 < nSteps S o)%nat ->
  (fo || eo = true)%bool \/ ((unitSpaced ts \/ homogeneous m = true) /\ (om_prior o = PNone \/ resetFree S o m ts)) ->
  let N := gridPoints vs in let n := nSteps S o in
  let Z := evidence N n rho (transition S o m ts rho) lik in
  exists S', fit S fo eo = Ok S' /\ 0 <= Z /\ (Z = 0 -> st_logEv S' = NInf) /\
    (0 < Z -> exists v, st_logEv S' = Fin v /\ exp v = Z * cellVolume S ^ resetCount m (timeOf ts o) n).
Proof.
  intros S o m vs ts rho lik fo eo C Lin P HL St Hn Mode N n Z.
  destruct (env_exists S o m vs ts rho C Lin P St) as (e' & rho' & FE).
  pose proof (rho_nonneg S o m vs ts rho C P) as Prho.
  assert (HZ : 0 <= Z).
  { unfold Z. rewrite <- (EvK S o m vs ts rho e' rho' lik FE) by (unfold n; lia). apply evidence_nonneg; auto.
    - intros i x y Hx Hy. now apply (Kst S o m vs ts rho e' rho' C Lin FE i).
    - intros i x Hi Hx. now apply (Pl S o vs lik HL). }
  assert (Hpos : 0 < Z -> exp (ln (Z * mvol S o m ts n)) = Z * cellVolume S ^ resetCount m (timeOf ts o) n).
  { intros Hz. rewrite exp_ln; [reflexivity|]. apply Rmult_lt_0_compat; auto. now apply (mvol_pos S o m vs ts C). }
  destruct (Req_dec Z 0) as [Z0|Z0].
  - destruct (fit_zero S o m vs ts rho e' rho' lik C Lin FE Prho HL Hn fo eo Z0) as (S' & k & locals & E & Ev & _).
    exists S'. repeat split; auto. lra.
  - assert (Hz : 0 < Z) by lra. destruct (fo || eo)%bool eqn:Hm.
    + destruct (fit_forward S o m vs ts rho e' rho' lik C Lin FE Prho HL Hn fo eo Hm Hz) as (S' & norms & E & Ev & _).
      exists S'. repeat split; auto; [lra|]. intros _. eexists. split; [exact Ev|auto].
    + destruct Mode as [Mode|[U Hp]]; [discriminate|]. destruct fo; [discriminate|]. destruct eo; [discriminate|].
      destruct (env_sym S o m vs ts rho C Lin P Hp U) as (e2 & rho2 & FE2 & Hs).
      destruct (fit_smooth S o m vs ts rho e2 rho2 lik C Lin FE2 Prho HL Hn Hs Hz) as (S' & E & Ev & _).
      exists S'. repeat split; auto; [lra|]. intros _. eexists. split; [exact Ev|auto].
Qed.
(** non-vacuity: the study of [C02_example]; one of its two transitions is a reset *)
Example C03_example : resetCount walkChange (timeOf (times [1; 0; 1]%Z) (coin PNone)) 3 = 1%nat.
Proof.
  unfold resetCount, walkChange, timeOf, times. cbn [List.length seq map coin coinOM om_seglen Nat.sub Nat.add nth filter INR].
  unfold resetAt, comb, grw, change. cbn. unfold eqR.
  destruct (Req_EM_T 0 1); [lra|]. destruct (Req_EM_T 1 1); [reflexivity|lra].
Qed.

(** ** C04 *)
Theorem C04_filtering_is_exact : forall S o m vs ts rho lik,
  configured S o m vs ts -> linear (om_names o) m -> priorIs S vs o (om_prior o) rho -> likelihoods S o vs lik ->
  stablePrior (om_prior o) \/ resetFree S o m ts ->
  (0 < nSteps S o)%nat ->
  let N := gridPoints vs in let n := nSteps S o in let K := transition S o m ts rho in
  exists S', fit S true false = Ok S' /\
    forall i, (i < n)%nat -> 0 < evidence N (i + 1) rho K lik ->
      nth_error (st_post S') i = Some (Some (arrOf N (posterior N (i + 1) rho K lik i))).
Proof.
  intros S o m vs ts rho lik C Lin P HL St Hn N n K.
  destruct (env_exists S o m vs ts rho C Lin P St) as (e' & rho' & FE).
  pose proof (rho_nonneg S o m vs ts rho C P) as Prho.
  assert (HZ : 0 <= evidence N n rho K lik).
  { rewrite <- (EvK S o m vs ts rho e' rho' lik FE) by (unfold n; lia). apply evidence_nonneg; auto.
    - intros i x y Hx Hy. now apply (Kst S o m vs ts rho e' rho' C Lin FE i).
    - intros i x Hi Hx. now apply (Pl S o vs lik HL). }
  assert (Nth : forall k i, (i < k)%nat -> nth_error (map Some (fwdPosts S o m vs ts rho lik k)) i
      = Some (Some (arrOf N (posterior N (i + 1) rho K lik i)))).
  { intros k i Hi. unfold fwdPosts. rewrite map_map, nth_error_map, (FitResults.nth_error_nth' _ i O) by now rewrite seq_length.
    rewrite seq_nth by auto. cbn [Nat.add option_map]. unfold filt. now rewrite Nat.add_1_r. }
  destruct (Req_dec (evidence N n rho K lik) 0) as [Z0|Z0].
  - destruct (fit_zero S o m vs ts rho e' rho' lik C Lin FE Prho HL Hn true false Z0)
      as (S' & k & locals & E & _ & Hk & Zk & Hpos & Epost & _).
    exists S'. split; [exact E|]. intros i Hi Hev. rewrite Epost. cbv iota.
    assert (Hik : (i < k)%nat).
    { destruct (Nat.lt_ge_cases i k) as [|Hge]; auto. exfalso.
      assert (Hmono : forall j, (k < j)%nat -> (j <= n)%nat -> evidence N j rho K lik = 0).
      { intros j H1 H2. destruct (fwd_core S o m vs ts rho e' rho' lik C Lin FE Prho HL j ltac:(lia) H2) as (w1 & Ew1 & _ & G1 & _).
        destruct (fwd_core S o m vs ts rho e' rho' lik C Lin FE Prho HL (Datatypes.S k) ltac:(lia) Hk) as (w2 & Ew2 & _ & G2 & _).
        destruct G1 as [[(_ & _ & Z1 & _)|(Hs1 & _)] _]; [exact Z1|exfalso].
        rewrite <- (firstn_skipn (Datatypes.S k) (firstn j (segments S o))) in Ew1. rewrite firstn_firstn, Nat.min_l in Ew1 by lia.
        apply fwd_prefix in Ew1. destruct Ew1 as (w3 & Ew3 & _ & B). rewrite Ew2 in Ew3. inversion Ew3; subst w3.
        destruct G2 as [[(Hs2 & _)|(_ & Hp2 & _)] _].
        - rewrite Hs1 in B. cbn in B. congruence.
        - rewrite Zk in Hp2. lra. }
      rewrite Hmono in Hev by (unfold n in *; lia). lra. }
    rewrite nth_error_app1 by (unfold fwdPosts; rewrite !map_length, seq_length; auto). now apply Nth.
  - assert (Hz : 0 < evidence N n rho K lik) by lra.
    destruct (fit_forward S o m vs ts rho e' rho' lik C Lin FE Prho HL Hn true false eq_refl Hz) as (S' & norms & E & _ & Ep & _).
    exists S'. split; [exact E|]. intros i Hi _. rewrite Ep. now apply Nth.
Qed.

Section Past.
  Context {F L : Type} `{Num F} `{LogNum F L}.
  Lemma window_firstn {A} (l : list A) k len : (0 < len)%nat -> (k <= List.length l)%nat ->
    movingWindow (firstn k l) len = firstn (k + 1 - len) (movingWindow l len).
  Proof.
    intros Hlen Hk. unfold movingWindow. rewrite firstn_length, Nat.min_l by auto.
    rewrite firstn_map. replace (firstn (k + 1 - len) (seq 0 (List.length l + 1 - len))) with (seq 0 (k + 1 - len)).
    - apply map_ext_in. intros i Hi. apply in_seq in Hi. rewrite skipn_firstn_comm, firstn_firstn. f_equal. lia.
    - replace (List.length l + 1 - len)%nat with ((k + 1 - len) + (List.length l + 1 - len - (k + 1 - len)))%nat by lia.
      rewrite seq_app, firstn_app, seq_length, Nat.sub_diag. cbn. rewrite app_nil_r. symmetry. apply firstn_all2. rewrite seq_length. lia.
  Qed.
  Lemma format_firstn (d : raw F) k len : (0 < len)%nat -> (k <= rawLen d)%nat ->
    formatData (rawFirstn k d) len = firstn (k + 1 - len) (formatData d len).
  Proof. intros Hlen Hk. destruct d; cbn [rawFirstn formatData rawLen] in *; rewrite window_firstn by auto; symmetry; apply firstn_map. Qed.

  (** Replacing, removing or appending data after the first k points changes neither the filtering distributions nor the
      local evidences of the steps that end within the first k points: any model, any prior, any numbers. *)
  Theorem C04_future_is_irrelevant : forall (S1 S1' S2' : study F L) o ts1 d2 ts2 k,
    st_om S1 = Some o -> (0 < om_seglen o)%nat -> st_rawTs S1 = Some ts1 -> List.length ts1 = rawLen (st_raw S1) ->
    List.length ts2 = rawLen d2 ->
    (k <= rawLen (st_raw S1))%nat -> (k <= rawLen d2)%nat ->
    rawFirstn k (st_raw S1) = rawFirstn k d2 -> firstn k ts1 = firstn k ts2 ->
    fit S1 true false = Ok S1' -> fit (loadData S1 d2 (Some ts2)) true false = Ok S2' ->
    forall i, (i + om_seglen o <= k)%nat ->
      nth_error (st_post S1') i = nth_error (st_post S2') i /\ nth_error (st_local S1') i = nth_error (st_local S2') i.
  Proof.
    intros S1 S1' S2' o ts1 d2 ts2 k Eo Hlen Et1 Lt1 Lt2 K1 K2 Ed Ets F1 F2 i Hi.
    destruct (fit_inv _ _ _ _ F1) as (o1 & m1 & t1 & w1 & FP1 & O1).
    destruct (fit_inv _ _ _ _ F2) as (o2 & m2 & t2 & w2 & FP2 & O2).
    destruct FP1 as [C1 (r1 & Er1 & ->) (a1 & p1 & al1 & EP1 & W1)].
    destruct FP2 as [C2 (r2 & Er2 & ->) (a2 & p2 & al2 & EP2 & W2)].
    rewrite Et1 in Er1. inversion Er1; subst r1.
    cbn [loadData st_rawTs] in Er2. rewrite Lt2, Nat.eqb_refl in Er2. inversion Er2; subst r2.
    assert (CC : o1 = o /\ o2 = o /\ m2 = m1).
    { unfold checkConsistency in C1, C2. cbn [loadData st_om st_tm st_raw] in C2. rewrite Eo in C1, C2.
      destruct (Nat.eqb (rawLen (st_raw S1)) 0); [discriminate|]. destruct (Nat.eqb (rawLen d2) 0); [discriminate|].
      destruct (st_tm S1) as [mm|]; [|discriminate]. destruct (hasDup _); [discriminate|]. inversion C1; inversion C2; subst; auto. }
    destruct CC as (-> & -> & ->).
    change (envOf (loadData S1 d2 (Some ts2)) o (om_prior o)) with (envOf S1 o (om_prior o)) in *.
    rewrite EP1 in EP2. inversion EP2; subst a2 p2 al2. clear EP2.
    cbn [loadData st_raw] in W2.
    set (len := om_seglen o) in *. set (q := (k + 1 - len)%nat).
    assert (Common : forall d ts w, (k <= rawLen d)%nat -> List.length ts = rawLen d ->
      fwdLoop (envOf S1 o (om_prior o)) o m1 (formatData d len) (formatTimestamps ts len) a1 al1 p1 (Fin l0) = Ok w ->
      exists w', fwdLoop (envOf S1 o (om_prior o)) o m1 (formatData (rawFirstn k d) len) (formatTimestamps (firstn k ts) len) a1 al1 p1 (Fin l0) = Ok w' /\
        fw_steps w' = firstn q (fw_steps w)).
    { intros d ts w Kd Ld W. rewrite <- (firstn_skipn q (formatData d len)) in W. apply fwd_prefix in W.
      destruct W as (w' & W' & S' & _). exists w'.
      assert (Lq : List.length (firstn q (formatData d len)) = q).
      { rewrite firstn_length. unfold q. destruct d; cbn [formatData rawLen] in *; unfold movingWindow; rewrite !map_length, seq_length; lia. }
      rewrite Lq in S'. split; [|exact S']. rewrite format_firstn by auto. fold q. rewrite <- W'.
      assert (Et : exists r, formatTimestamps ts len = formatTimestamps (firstn k ts) len ++ r).
      { unfold formatTimestamps. eexists. etransitivity; [exact (f_equal (skipn (len - 1)) (eq_sym (firstn_skipn k ts)))|]. apply skipn_app. }
      destruct Et as [r ->]. symmetry. apply fwd_ts_prefix. rewrite Lq. unfold formatTimestamps. rewrite skipn_length, firstn_length. unfold q. lia. }
    destruct (Common _ _ _ K1 Lt1 W1) as (wa & Wa & Sa). destruct (Common _ _ _ K2 Lt2 W2) as (wb & Wb & Sb).
    rewrite Ed, Ets, Wb in Wa. inversion Wa; subst wb. rewrite Sa in Sb.
    assert (Hq : (i < q)%nat) by (unfold q; lia).
    assert (Steps : nth_error (fw_steps w1) i = nth_error (fw_steps w2) i).
    { assert (G : forall (l : list (list (xnum F) * xnum F)), nth_error l i = nth_error (firstn q l) i).
      { revert Hq. generalize q as j. clear. induction i as [|i IH]; intros [|j] Hj l; try lia; destruct l; cbn; auto. apply IH. lia. }
      rewrite (G (fw_steps w1)), (G (fw_steps w2)). now rewrite Sb. }
    assert (Post : forall (S0 : study F L) d w S' ts, st_raw S0 = d -> (k <= rawLen d)%nat ->
       (List.length (fw_steps w) <= List.length (formatData d len))%nat -> fitOut S0 o m1 ts w true false S' ->
       nth_error (st_post S') i = Some (nth_error (map fst (fw_steps w)) i) /\
       nth_error (st_local S') i = Some (nth_error (map (fun s => xmul (snd s) (Fin (fprod (st_lat S0)))) (fw_steps w)) i)).
    { intros S0 d w S' ts Er Kd Lw O.
      assert (Hn : (i < List.length (formatData d len))%nat).
      { destruct d; cbn [formatData rawLen] in *; unfold movingWindow; rewrite !map_length, seq_length; lia. }
      remember true as fo eqn:Hfo in O. remember false as eo eqn:Heo in O.
      destruct O; subst; try discriminate; cbn [st_post st_local set_results]; unfold segsOf; fold len;
        (split; apply padNone_nth; rewrite ?map_length; unfold fwdLocals; rewrite ?map_length; auto). }
    assert (Lw : forall segs ts w, fwdLoop (envOf S1 o (om_prior o)) o m1 segs ts a1 al1 p1 (Fin l0) = Ok w -> (List.length (fw_steps w) <= List.length segs)%nat).
    { intros segs ts w W. apply fwd_steps_len in W. destruct W as [A B]. destruct (fw_stop w); [destruct (B eq_refl); lia|rewrite A; auto]. }
    destruct (Post S1 _ _ _ _ eq_refl K1 (Lw _ _ _ W1) O1) as [P1 Q1].
    destruct (Post (loadData S1 d2 (Some ts2)) d2 _ _ _ eq_refl K2 (Lw _ _ _ W2) O2) as [P2 Q2].
    cbn [loadData st_lat] in Q2.
    rewrite P1, P2, Q1, Q2, !nth_error_map, Steps. auto.
  Qed.
End Past.
(** non-vacuity: three data points are replaced by four other ones that share the first two *)
Definition shaky : tm Q := comb [change "c" 0%Q; TM KRegime ["r"%string] [HNum (-3)%Q] (Some (Leaf HPNone)) []].
Example C04_example :
  (let* S0 := setup (L := Q) (data [1; 0; 1]%Z) (Some [0; 1; 2]%Q) (coinOM quarters PNone) shaky in
   let* S1 := fit S0 true false in
   let* S2 := fit (loadData S0 (data [1; 0; 0; 0]%Z) (Some [0; 1; 5; 6]%Q)) true false in
   Ok (nth_error (st_post S1) 1, nth_error (st_post S2) 1, nth_error (st_post S1) 2, nth_error (st_post S2) 2))%res
  = Ok (Some (Some [Fin (1 # 2); Fin (1 # 3); Fin (1 # 6)]), Some (Some [Fin (1 # 2); Fin (1 # 3); Fin (1 # 6)]),
        Some (Some [Fin (3 # 10); Fin (2 # 5); Fin (3 # 10)]), Some (Some [Fin (9 # 14); Fin (2 # 7); Fin (1 # 14)]))%Q.
Proof. vm_compute. reflexivity. Qed.

Lemma rev_eq_cons {A} (l : list A) x k : rev l = x :: k -> l = rev k ++ [x].
Proof. intros E. rewrite <- (rev_involutive l), E. reflexivity. Qed.

(** The last step of a full fit is the last step of a forward-only fit. *)
Theorem C04_last_step : forall S o m vs ts Sf Sb,
  configured S o m vs ts -> runnable (om_names o) m ->
  nonnegPrior (gridPoints vs) o (map (@List.length R) vs) (meshgrid vs) (om_prior o) ->
  (forall s, In s (segments S o) -> finite (gridPoints vs) (processedPdf o (gridPoints vs) (meshgrid vs) s)) ->
  fit S true false = Ok Sf -> fit S false false = Ok Sb ->
  nth_error (st_post Sb) (nSteps S o - 1) = nth_error (st_post Sf) (nSteps S o - 1).
Proof.
  intros S o m vs ts Sf Sb C Run Pr Lk E1 E2.
  destruct (fit_inv _ _ _ _ E1) as (o1 & m1 & t1 & w & FP & O1). destruct (fwdPart_cfg S o m vs ts C _ _ _ _ FP) as (-> & -> & ->).
  destruct (fit_inv _ _ _ _ E2) as (o2 & m2 & t2 & w2 & FP2 & O2).
  destruct (fwdPart_fun _ _ _ _ _ _ _ _ _ FP FP2) as (-> & -> & -> & ->). clear FP2.
  destruct (fwdPart_good S o m vs ts C w (runnable_basic _ _ Run) Pr Lk FP) as (G1 & _ & _).
  assert (Len : fw_stop w = false -> List.length (fw_steps w) = nSteps S o).
  { destruct FP as [_ _ (a0 & p0 & al0 & EP & EW)]. intros Hs. now apply (fwd_steps_len _ _ _ _ _ _ _ _ _ _ EW). }
  assert (Last : forall out stop, fw_stop w = false ->
    bwdLoop (with_prior (envOf S o (om_prior o)) (fw_prior w)) o m (itemsOf S o (formatTimestamps ts (om_seglen o)) w) (betaStart S o) = Ok (out, stop) ->
    nth_error (map Some (rev (map fst out))) (nSteps S o - 1) =
    nth_error (padNone (List.length (segsOf S o)) (map fst (fw_steps w))) (nSteps S o - 1)).
  { intros out stop Hs EB. specialize (Len Hs).
    assert (Lo : List.length out = nSteps S o).
    { rewrite (bwd_length _ _ _ _ _ _ _ EB). unfold itemsOf, segsOf.
      rewrite rev_length, !combine_length, map_length, Len, (cfg_ts_len S o m vs ts C). unfold nSteps, segments. lia. }
    rewrite padNone_full by (rewrite map_length, Len; reflexivity).
    destruct (nSteps S o) as [|n'] eqn:En.
    { destruct out; [|discriminate]. destruct (fw_steps w); [|discriminate]. reflexivity. }
    cbn [Nat.sub]. rewrite Nat.sub_0_r.
    assert (Ls : exists st0 st, fw_steps w = st0 ++ [st]).
    { destruct (rev (fw_steps w)) as [|x l] eqn:Er.
      - apply (f_equal (@rev _)) in Er. rewrite rev_involutive in Er. rewrite Er in Len. discriminate.
      - exists (rev l), x. now apply rev_eq_cons. }
    destruct Ls as (st0 & st & Es).
    assert (Lst : List.length st0 = n').
    { rewrite Es, app_length in Len. cbn in Len. lia. }
    assert (Items : exists s t its, itemsOf S o (formatTimestamps ts (om_seglen o)) w = (fst st, s, t) :: its).
    { unfold itemsOf. rewrite Es, map_app. cbn [map].
      assert (Lsg : List.length (segsOf S o) = Datatypes.S n') by exact En.
      assert (Lts : List.length (formatTimestamps ts (om_seglen o)) = Datatypes.S n') by (rewrite (cfg_ts_len S o m vs ts C); exact En).
      destruct (rev (segsOf S o)) as [|s l] eqn:Er; [apply (f_equal (@List.length _)) in Er; rewrite rev_length in Er; cbn in Er; lia|].
      apply rev_eq_cons in Er. rewrite Er in Lsg |- *. rewrite app_length in Lsg. cbn in Lsg.
      destruct (rev (formatTimestamps ts (om_seglen o))) as [|t l'] eqn:Et; [apply (f_equal (@List.length _)) in Et; rewrite rev_length in Et; cbn in Et; lia|].
      apply rev_eq_cons in Et. rewrite Et in Lts |- *. rewrite app_length in Lts. cbn in Lts.
      assert (CA : forall {A B} (l1 : list A) (l2 : list B) a b, List.length l1 = List.length l2 -> combine (l1 ++ [a]) (l2 ++ [b]) = combine l1 l2 ++ [(a, b)]).
      { induction l1 as [|y l1 IH]; destruct l2; cbn; intros; try lia; auto. rewrite IH by lia. reflexivity. }
      rewrite CA by (rewrite map_length; lia). rewrite CA by (rewrite combine_length, map_length; lia).
      rewrite rev_app_distr. cbn. eauto. }
    destruct Items as (s & t & its & EI). rewrite EI in EB. cbn [bwdLoop] in EB.
    assert (D : dist (gridPoints vs) (fst st)).
    { rewrite Forall_forall in G1. apply (G1 st). rewrite Es. apply in_or_app. right. now left. }
    destruct D as (r & Er & Lr & Pr' & Sr). rewrite Er in EB.
    pose proof (cfg_npos S o m vs ts C) as HN. pose proof (Npos S o m vs ts C) as HNR.
    assert (Eb : betaStart S o = fin (repeat (/ INR (gridPoints vs)) (gridPoints vs))).
    { unfold betaStart, normalise. rewrite (cfg_size S o m vs ts C), aones_fin, asum_fin, Rsum_rones, adivs_fin by lra.
      f_equal. unfold rdivs, rones. generalize (INR (gridPoints vs)) as c. generalize (gridPoints vs) as k. clear. intros k c. induction k; cbn; auto. f_equal; auto. apply Rmult_1_l. }
    assert (Ep : amul (fin r) (betaStart S o) = fin (map (fun x => x * / INR (gridPoints vs)) r)).
    { rewrite Eb, amul_fin. f_equal. rewrite <- Lr. clear. generalize (/ INR (Datatypes.length r)). intros c. unfold rmul.
      induction r; cbn; auto. f_equal. auto. }
    rewrite Ep, asum_fin, Rsum_scal_r, Sr in EB.
    assert (Hb : xltb (Fin f0) (Fin (1 * / INR (gridPoints vs))) = true).
    { apply xltb_fin. cbn. rewrite Rmult_1_l. now apply Rinv_0_lt_compat. }
    rewrite Hb in EB. destruct (computeBackwardPrior _ _ _ _ _) as [b'|]; [|discriminate]. cbn [bind] in EB.
    destruct (bwdLoop _ _ _ its _) as [[out' stop']|]; [|discriminate]. cbn in EB. inversion EB; subst out. clear EB.
    cbn [map fst rev] in *. rewrite !map_app. cbn [map].
    assert (L1 : List.length (map Some (rev (map fst out'))) = n') by (rewrite !map_length, rev_length, map_length; cbn in Lo; lia).
    rewrite nth_error_app2 by lia. rewrite L1, Nat.sub_diag. cbn [nth_error].
    assert (E3 : adivs (fin (map (fun x : R => x * / INR (gridPoints vs)) r)) (Fin (1 * / INR (gridPoints vs))) = fin r).
    { rewrite adivs_fin by (rewrite Rmult_1_l; apply Rinv_neq_0_compat; lra). f_equal. unfold rdivs. rewrite map_map.
      rewrite <- (map_id r) at 2. apply map_ext. intros x. field. lra. }
    rewrite E3. rewrite Es, map_app, map_app. cbn [map]. rewrite Er.
    rewrite nth_error_app2 by (rewrite !map_length; lia). rewrite !map_length, Lst, Nat.sub_diag. reflexivity. }
  inversion O1; inversion O2; try congruence; cbn [st_post set_results]; eauto.
Qed.
(** non-vacuity: [C01_example] and [C01_posteriors_are_distributions] for both modes *)
