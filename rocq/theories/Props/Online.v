(** C35-C39: online studies. *)
From Coq Require Import List ZArith QArith Reals Lra Lia Arith Bool String.
From Verif Require Import Base.Num Base.Exn Base.Arr Base.RSum Base.Lift Model.Helper Model.Tm Model.HyperParams Model.Study Model.Api
  Model.Getters Model.Hyper Model.Online Spec.Hmm Spec.Kernel Spec.Config Spec.Names Spec.Dist Spec.HyperSpec Spec.OnlineSpec
  Proof.FitThms Proof.FitCore Proof.FitInv Proof.SetupProof Proof.NamesProof Proof.LogProof Proof.GridProof Proof.HyperProof Proof.DataProof Proof.OnlineProof Proof.OnlineReal
  Props.Ex Props.ExR Props.HyperStudy.
Import ListNotations.
Local Open Scope R_scope.

Lemma stream_start O0 o pvs ds O : onlineReady O0 o pvs -> Forall point ds -> onlineSteps O0 ds = Ok O -> started O o ->
  exists d, tracked O0 o O d /\ (om_seglen o <= rawLen d)%nat.
Proof.
  intros RO Hp E HS. destruct ds as [|d ds].
  - cbn in E. inversion E; subst O. unfold started in HS. rewrite (or_empty _ _ _ RO) in HS. pose proof (or_seg _ _ _ RO). lia.
  - pose proof (stream_tracked O0 o pvs RO d ds O Hp E) as T. exists (received d ds). split; auto. unfold started in HS. now rewrite (tk_raw _ _ _ _ T) in HS.
Qed.

(** ** C35 *)
(** After any stream of single data points the distribution and the log-evidence of every combination of hyper-parameter
    values of every transition model are those of the last step of a forward-only fit of all data so far. *)
Theorem C35_batch : forall (O0 O : online R R) o pvs ds fss,
  onlineReady O0 o pvs -> Forall point ds -> onlineSteps O0 ds = Ok O -> started O o ->
  Forall2 (runsOf O) (on_models O0) fss ->
  on_posts O = map (map (fun f => map Fin (snd f))) fss /\
  on_logEvs O = map (map (fun f => st_logEv (fst f))) fss.
Proof.
  intros O0 O o pvs ds fss RO Hp E HS HF. destruct (stream_start _ _ _ _ _ RO Hp E HS) as (d & T & Hk).
  assert (C : current O0 o (formatData d (om_seglen o)) O) by (eapply is_current; eauto).
  destruct (cu_results _ _ _ _ C) as (a0 & css & olds & c1 & c2 & c3 & c4 & _).
  pose proof (runs_css O0 o pvs O d RO a0 T Hk c1 _ _ _ HF c2) as ->. rewrite c3, c4, !map_map. split; apply map_ext; intros fs; unfold cellsOf; rewrite map_map; reflexivity.
Qed.
(** one model with one combination of values (no lists of values) *)
Theorem C35_single : forall (O0 O : online R R) o ds M row A p,
  onlineReady O0 o [[1]] -> Forall point ds -> onlineSteps O0 ds = Ok O -> started O o ->
  on_models O0 = [M] -> combos M = [row] -> on_tmPrior O0 = None ->
  asBatch O (pointsOn O) (withValues (md_tm M) row) A p ->
  on_marg O = Some (map Fin p) /\ st_logEv (on_S O) = st_logEv A.
Proof.
  intros O0 O o ds M row A p RO Hp E HS EM Er Ep AB. destruct (stream_start _ _ _ _ _ RO Hp E HS) as (d & T & Hk).
  assert (HF : Forall2 (runsOf O) (on_models O0) [[(A, p)]]).
  { rewrite EM. constructor; [|constructor]. unfold runsOf. rewrite Er. constructor; [|constructor]. exact AB. }
  destruct (asBatch_chain _ _ _ RO _ _ _ _ _ _ T Hk AB) as (a0 & _ & _ & g1 & g2 & g3 & g4 & g5).
  assert (MP : modelPriors O0 [1]).
  { unfold modelPriors. rewrite Ep, EM. cbn. f_equal. lra. }
  destruct (real_results _ _ _ RO _ _ _ T Hk HF _ MP) as (_ & _ & _ & _ & _ & _ & r7 & r8 & _). rewrite r7, r8, g1.
  unfold allEvidences, evidenceM, weightsM, mixM, mixture. cbn [map2 map fst snd Rsum rdivs fold_right].
  split.
  - f_equal. f_equal. rewrite <- g3. unfold mixture. cbn [map2 map fst snd Rsum rdivs fold_right]. symmetry. apply list_eq_nth with (d := 0).
    + now rewrite tab_length.
    + intros x Hx. rewrite tab_nth by auto. unfold evidenceM, weightsM. cbn [map2 map fst snd Rsum fold_right]. unfold Rnth. rewrite tab_nth by auto. field. lra.
  - f_equal. unfold evidenceM, weightsM. cbn [map2 map fst snd Rsum fold_right]. ring.
Qed.

(** ** C36 *)
(** The probabilities of the transition models are their evidences, normalised. Their prior probabilities are only used in
    the log-evidence of the study, which is the logarithm of the prior-weighted mean of the evidences. *)
Theorem C36_models : forall (O0 O : online R R) o pvs ds fss ps,
  onlineReady O0 o pvs -> Forall point ds -> onlineSteps O0 ds = Ok O -> started O o ->
  Forall2 (runsOf O) (on_models O0) fss -> modelPriors O0 ps ->
  let Zs := allEvidences pvs fss in
  exists qs, on_tmd O = map Fin qs /\ List.length qs = List.length (on_models O0) /\
    (forall i, (i < List.length qs)%nat -> 0 < Rnth Zs i /\ Rnth qs i = Rnth Zs i / Rsum Zs) /\ Rsum qs = 1 /\
    st_logEv (on_S O) = Fin (ln (Rsum (map2 Rmult ps Zs))).
Proof.
  intros O0 O o pvs ds fss ps RO Hp E HS HF MP Zs. destruct (stream_start _ _ _ _ _ RO Hp E HS) as (d & T & Hk).
  destruct (real_results _ _ _ RO _ _ _ T Hk HF _ MP) as (_ & _ & _ & _ & _ & r6 & _ & r8 & r9).
  destruct (Zs_good _ _ _ RO _ _ _ T Hk HF) as (z1 & z2 & z3 & z4 & z5). change (allEvidences pvs fss) with Zs in z1, z2, z3, z4, z5, r6, r8, r9. exists (rdivs Zs (Rsum Zs)). split; auto.
  assert (L : List.length (rdivs Zs (Rsum Zs)) = List.length Zs) by apply map_length. split; [congruence|]. split; [|split].
  - intros i Hi. rewrite L in Hi. split. { rewrite Forall_forall in z1. apply z1. apply nth_In; auto. }
    unfold Rnth, rdivs. rewrite (nth_indep _ 0 (0 / Rsum Zs)) by (rewrite map_length; auto). now rewrite (map_nth (fun x => x / Rsum Zs)).
  - rewrite Rsum_rdivs. field. lra.
  - rewrite r8. now apply lg_pos.
Qed.

(** Local probabilities of the transition models: how much this data point changes the evidence of the models, times their
    prior probabilities. At the first completed step the evidences before are one. *)
Theorem C36_local : forall (O0 O1 O : online R R) o pvs ds d fss1 fss ps,
  onlineReady O0 o pvs -> Forall point (ds ++ [d]) -> onlineSteps O0 ds = Ok O1 -> onlineStep O1 d = Ok O -> started O o ->
  (started O1 o -> Forall2 (runsOf O1) (on_models O0) fss1) ->
  Forall2 (runsOf O) (on_models O0) fss -> modelPriors O0 ps ->
  let before i := if Nat.leb (om_seglen o) (rawLen (st_raw (on_S O1))) then Rnth (allEvidences pvs fss1) i else 1 in
  let w i := Rnth ps i * (Rnth (allEvidences pvs fss) i / before i) in
  let n := List.length (on_models O0) in
  exists qs, on_ltmd O = map Fin qs /\ List.length qs = n /\
    (forall i, (i < n)%nat -> Rnth qs i = w i / rsum n w) /\ Rsum qs = 1.
Proof.
  intros O0 O1 O o pvs ds d fss1 fss ps RO Hp E1 E2 HS HF1 HF MP before w n.
  assert (Hd : point d) by (rewrite Forall_forall in Hp; apply Hp; apply in_or_app; right; now left).
  assert (Hds : Forall point ds) by (apply Forall_app in Hp; tauto).
  pose proof (or_seg _ _ _ RO) as Ps.
  assert (G : exists dd, tracked O0 o O dd /\ (om_seglen o <= rawLen dd)%nat /\
     match removelast (formatData dd (om_seglen o)) with
     | [] => Nat.leb (om_seglen o) (rawLen (st_raw (on_S O1))) = false
     | b => started O1 o /\ exists d1, tracked O0 o O1 d1 /\ (om_seglen o <= rawLen d1)%nat /\ formatData d1 (om_seglen o) = b
     end).
  { destruct ds as [|x xs].
    - cbn in E1. inversion E1; subst O1.
      assert (E : onlineSteps O0 [d] = Ok O) by (cbn; now rewrite E2).
      pose proof (stream_tracked O0 o pvs RO d [] O ltac:(now constructor) E) as T. exists d. split; auto.
      unfold started in HS. rewrite (tk_raw _ _ _ _ T) in HS. cbn [received] in HS. split; auto.
      pose proof (format_length d (om_seglen o)) as L. red in Hd. destruct (formatData d (om_seglen o)) as [|s1 [|s2 l]]; cbn [removelast].
      + rewrite (or_empty _ _ _ RO). apply Nat.leb_gt. lia.
      + rewrite (or_empty _ _ _ RO). apply Nat.leb_gt. lia.
      + cbn in L. lia.
    - pose proof (stream_tracked O0 o pvs RO x xs O1 Hds E1) as T1. set (d1 := received x xs) in *.
      destruct (next_step _ _ _ RO _ _ _ _ T1 Hd E2) as (dd & Ed & T). exists dd. split; auto.
      unfold started in HS. rewrite (tk_raw _ _ _ _ T) in HS. split; auto.
      rewrite (format_snoc d1 d dd _ Ps Hd Ed). replace (Nat.ltb (rawLen dd) (om_seglen o)) with false by (symmetry; apply Nat.ltb_ge; auto).
      rewrite removelast_last. rewrite (tk_raw _ _ _ _ T1). pose proof (format_length d1 (om_seglen o)) as L.
      destruct (formatData d1 (om_seglen o)) as [|s1 l] eqn:Ef; cbn in L.
      + apply Nat.leb_gt. lia.
      + assert (Hk1 : (om_seglen o <= rawLen d1)%nat) by lia. unfold started. rewrite (tk_raw _ _ _ _ T1). split; auto. exists d1. auto. }
  destruct G as (dd & T & Hk & G). pose proof (Zs_good _ _ _ RO _ _ _ T Hk HF) as (z1 & z2 & z3 & z4 & z5).
  destruct (priors_fin _ _ (or_models _ _ _ RO) MP) as (_ & q2 & q3 & q4).
  set (Zs := allEvidences pvs fss) in *. set (Zo := tab n before).
  assert (GZ : Forall (fun z => 0 < z) Zo /\ match removelast (formatData dd (om_seglen o)) with
    | [] => Zo = map (fun _ => 1) Zs
    | b => exists O1 d1 fss1, tracked O0 o O1 d1 /\ (om_seglen o <= rawLen d1)%nat /\ formatData d1 (om_seglen o) = b /\
        Forall2 (runsOf O1) (on_models O0) fss1 /\ Zo = allEvidences pvs fss1
    end).
  { destruct (removelast (formatData dd (om_seglen o))) as [|s1 l] eqn:Er.
    - assert (Ez : Zo = map (fun _ => 1) Zs).
      { unfold Zo, before. rewrite G. unfold tab, n. rewrite <- z3. clear. generalize 0%nat. induction Zs as [|z zs IH]; intros j; cbn; auto. f_equal. apply IH. }
      split; auto. rewrite Ez. apply Forall_forall. intros y I. apply in_map_iff in I as (? & <- & _). lra.
    - destruct G as (S1 & d1 & T1 & Hk1 & Ef). specialize (HF1 S1). pose proof (Zs_good _ _ _ RO _ _ _ T1 Hk1 HF1) as (y1 & y2 & y3 & _).
      assert (Ez : Zo = allEvidences pvs fss1).
      { unfold Zo, before. unfold started in S1. apply Nat.leb_le in S1. rewrite S1. unfold n. rewrite <- y3. symmetry. apply list_eq_nth with (d := 0); [now rewrite tab_length|].
        intros x Hx. now rewrite tab_nth by auto. }
      split; [now rewrite Ez|]. exists O1, d1, fss1. repeat (split; [assumption|]). assumption. }
  destruct GZ as [Pz GZ].
  assert (Lo : List.length Zo = List.length Zs) by (unfold Zo, n; rewrite tab_length; congruence).
  pose proof (real_local _ _ _ RO _ _ _ T Hk HF ps Zo MP Lo Pz GZ) as RL. fold Zs in RL.
  set (ww := map2 Rmult ps (map2 Rdiv Zs Zo)) in *.
  assert (Ew : ww = tab n w).
  { apply list_eq_nth with (d := 0). { unfold ww. rewrite !map2_length, tab_length. unfold n. lia. }
    intros x Hx. unfold ww in *. rewrite !map2_length in Hx. rewrite tab_nth by (unfold n; lia).
    rewrite (map2_nth _ _ _ _ 0 0) by (rewrite ?map2_length; lia). rewrite (map2_nth _ _ _ _ 0 0) by lia. unfold w, Zo. rewrite tab_nth by (unfold n; lia). reflexivity. }
  exists (rdivs ww (Rsum ww)). split; auto.
  assert (Pw : 0 < Rsum ww).
  { apply weighted_pos; auto; [rewrite map2_length; lia|lra|]. now apply div_pos. }
  split; [unfold rdivs; rewrite map_length, Ew, tab_length; auto|]. split.
  - intros i Hi. unfold rdivs, Rnth. rewrite (nth_indep _ 0 (0 / Rsum ww)) by (rewrite map_length, Ew, tab_length; auto). rewrite (map_nth (fun x => x / Rsum ww)).
    rewrite Ew. rewrite tab_nth by auto. rewrite Rsum_tab; reflexivity.
  - rewrite Rsum_rdivs. field. lra.
Qed.

(** ** C37 *)
Lemma map2_combine_nth {A B C D} (g : A -> B * C -> D) ms bs cs i m b c :
  nth_error ms i = Some m -> nth_error bs i = Some b -> nth_error cs i = Some c -> nth_error (map2 g ms (combine bs cs)) i = Some (g m (b, c)).
Proof.
  revert bs cs i. induction ms as [|m0 ms IH]; intros [|b0 bs] [|c0 cs] [|i] H1 H2 H3; try discriminate; cbn in *.
  - inversion H1; inversion H2; inversion H3; subst; auto.
  - auto.
Qed.
Lemma map2_nth_error {A B C} (g : A -> B -> C) l r i a b : nth_error l i = Some a -> nth_error r i = Some b -> nth_error (map2 g l r) i = Some (g a b).
Proof. revert r i. induction l as [|x l IH]; intros [|y r] [|i] H1 H2; try discriminate; cbn in *; [congruence|auto]. Qed.
Lemma Forall2_nth_error {A B} (P : A -> B -> Prop) l r i a b : Forall2 P l r -> nth_error l i = Some a -> nth_error r i = Some b -> P a b.
Proof. intros HF. revert i. induction HF as [|x y l r h1 h2 IH]; intros [|i] E1 E2; try discriminate; cbn in *; [congruence|eauto]. Qed.
Lemma joint_mix pv fs x N : 0 < evidenceM pv fs -> (x < N)%nat -> List.length pv = List.length fs ->
  Rnth (mixM N pv fs) x = joint pv fs x / evidenceM pv fs.
Proof.
  intros HZ Hx L. unfold mixM, Rnth, mixture. rewrite tab_nth by auto. unfold joint. generalize dependent (evidenceM pv fs). intros z HZ. generalize (weightsM pv fs). clear L.
  induction fs as [|f fs IH]; intros [|w ws]; cbn [map map2 Rsum fold_right]; try lra. change (fold_right Rplus 0) with Rsum.
  rewrite IH. unfold Rnth. field. lra.
Qed.
Lemma joint_sum pv fs N : List.length pv = List.length fs -> Forall (fun f : study R R * list R => List.length (snd f) = N /\ Rsum (snd f) = 1) fs ->
  rsum N (joint pv fs) = evidenceM pv fs.
Proof.
  intros L HF. unfold evidenceM, joint, weightsM. revert pv L. induction HF as [|f fs [h1 h2] HF IH]; intros [|p pv] L; try discriminate; cbn [map2 Rsum fold_right].
  - apply rsum_0. auto.
  - change (fold_right Rplus 0) with Rsum.
    assert (Ef : rsum N (fun x => Rnth (snd f) x) = 1) by (rewrite <- Rsum_tab, <- h1; change (fun x => Rnth (snd f) x) with (Rnth (snd f)); now rewrite tab_Rnth).
    rewrite rsum_plus, (rsum_scal N (evidenceOf (fst f) * p) (fun x => Rnth (snd f) x)), Ef. rewrite (IH pv) by (cbn in L; lia). ring.
Qed.

(** The probability density of the combinations of hyper-parameter values of a model is proportional to evidence x prior and
    integrates to one; the evidence of the model is the sum. *)
Theorem C37_hyper : forall (O0 O : online R R) o pvs ds i M pv fs,
  onlineReady O0 o pvs -> Forall point ds -> onlineSteps O0 ds = Ok O -> started O o ->
  nth_error (on_models O0) i = Some M -> nth_error pvs i = Some pv -> runsOf O M fs ->
  let Z := evidenceM pv fs in
  nth_error (on_hyperEvs O) i = Some (Fin (ln Z)) /\ 0 < Z /\
  exists h, nth_error (on_hpd O) i = Some (map Fin h) /\ List.length h = List.length (combos M) /\
    (forall j, (j < List.length h)%nat ->
       Rnth h j * Rprod (md_const M) = evidenceOf (nth j (map fst fs) (on_S O)) * Rnth pv j / Z) /\
    Rsum h * Rprod (md_const M) = 1.
Proof.
  intros O0 O o pvs ds i M pv fs RO Hp E HS N1 N2 HF Z. destruct (stream_start _ _ _ _ _ RO Hp E HS) as (d & T & Hk).
  pose proof (Forall2_nth_error _ _ _ _ _ _ (or_entries _ _ _ RO) N1 N2) as hm.
  assert (hg1 : List.length fs = List.length (combos M)) by (symmetry; eapply DataProof.Forall2_len; exact HF).
  pose proof (runs_good _ _ _ RO _ _ _ _ T Hk HF) as hg2.
  destruct (is_current _ _ _ RO _ _ T Hk) as [C Hn].
  destruct (cu_results _ _ _ _ C) as (a0 & css & olds & c1 & c2 & c3 & c4 & c5 & c6 & _).
  destruct (nth_error css i) as [cs|] eqn:N4.
  2:{ exfalso. apply nth_error_None in N4. apply DataProof.Forall2_len in c2. assert (i < List.length (on_models O0))%nat by (apply nth_error_Some; congruence). lia. }
  pose proof (Forall2_nth_error _ _ _ _ _ _ c2 N1 N4) as HR. apply (runs_results O0 o pvs RO O d M fs a0 cs T Hk HF c1) in HR. subst cs.
  pose proof (Z_pos _ _ _ _ hm hg1 hg2) as PZ. fold Z in PZ.
  split. { rewrite c5, (map2_nth_error _ _ _ _ _ _ N1 N4). rewrite (hev_eq _ _ _ _ hm hg2). f_equal. now apply lg_pos. }
  split; auto. exists (map (fun w => w / Z / Rprod (md_const M)) (weightsM pv fs)). pose proof (Rprod_pos _ (en_const _ _ hm)) as Pc.
  pose proof (len_ws _ _ _ hm hg1) as Lw.
  split. { rewrite c6, (map2_nth_error _ _ _ _ _ _ N1 N4). f_equal. now apply (hpd_eq _ _ _ _ hm hg1 hg2). }
  split; [rewrite map_length; congruence|]. split.
  - intros j Hj. rewrite map_length in Hj. unfold Rnth. rewrite (nth_indep _ 0 (0 / Z / Rprod (md_const M))) by (rewrite map_length; auto).
    rewrite (map_nth (fun w => w / Z / Rprod (md_const M))). unfold weightsM in *. rewrite map2_length in Hj.
    rewrite (map2_nth (fun f p => evidenceOf (fst f) * p) fs pv j (on_S O, []) 0 0) by lia.
    change (on_S O) with (fst (on_S O, @nil R)) at 2. rewrite (map_nth fst). field. lra.
  - rewrite <- (map_map (fun w => w / Z) (fun w => w / Rprod (md_const M))). rewrite !Rsum_div. change (Rsum (weightsM pv fs)) with Z. field. lra.
Qed.

(** The distributions of the models are the mixtures over their combinations, the marginal distribution is the mixture over
    all combinations of all models; both sum to one. *)
Theorem C37_mixture : forall (O0 O : online R R) o pvs ds fss ps,
  onlineReady O0 o pvs -> Forall point ds -> onlineSteps O0 ds = Ok O -> started O o ->
  Forall2 (runsOf O) (on_models O0) fss -> modelPriors O0 ps ->
  let N := pointsOn O in
  (forall i pv fs, nth_error pvs i = Some pv -> nth_error fss i = Some fs ->
     exists p, nth_error (on_tmPosts O) i = Some (map Fin p) /\ List.length p = N /\ Rsum p = 1 /\
       forall x, (x < N)%nat -> Rnth p x = joint pv fs x / evidenceM pv fs) /\
  exists p, on_marg O = Some (map Fin p) /\ List.length p = N /\ Rsum p = 1 /\
    forall x, (x < N)%nat -> 0 <= Rnth p x /\ Rnth p x = Rsum (map2 (fun pv fs => joint pv fs x) pvs fss) / Rsum (allEvidences pvs fss).
Proof.
  intros O0 O o pvs ds fss ps RO Hp E HS HF MP N. destruct (stream_start _ _ _ _ _ RO Hp E HS) as (d & T & Hk).
  destruct (real_results _ _ _ RO _ _ _ T Hk HF _ MP) as (_ & _ & _ & _ & r5 & r6 & r7 & _).
  pose proof (runs_goodRuns _ _ _ _ _ RO _ T Hk HF) as HG. pose proof (or_entries _ _ _ RO) as HM.
  destruct (Zs_good _ _ _ RO _ _ _ T Hk HF) as (z1 & z2 & z3 & z4 & z5).
  assert (HP : Forall2 (fun pv fs => 0 < evidenceM pv fs /\ List.length pv = List.length fs /\ nonneg (weightsM pv fs) /\
     Forall (fun f : study R R * list R => List.length (snd f) = N /\ Rsum (snd f) = 1 /\ nonneg (snd f)) fs) pvs fss).
  { clear - HG HM. revert fss HG. induction HM as [|M pv Ms pvs hm hms IH]; intros fss HG; inversion HG as [|? fs ? fss' hg hgs]; subst; constructor; [|now apply IH].
    destruct hg as [hg1 hg2]. split; [eapply Z_pos; eauto|]. split; [rewrite (en_len _ _ hm); auto|]. split; [eapply ws_nonneg; eauto|].
    eapply Forall_impl; [|exact hg2]. intros f (_ & _ & f3 & f4 & f5). auto. }
  assert (JN : forall pv fs x, (x < N)%nat -> nonneg (weightsM pv fs) -> Forall (fun f : study R R * list R => List.length (snd f) = N /\ Rsum (snd f) = 1 /\ nonneg (snd f)) fs -> 0 <= joint pv fs x).
  { intros pv fs x Hx Hw Hf. unfold joint. apply Rsum_nonneg. generalize dependent (weightsM pv fs). intros ws Hw. revert ws Hw. induction Hf as [|f fs (f1 & f2 & f3) Hf IH]; intros ws Hw; inversion Hw; subst; cbn; constructor; auto.
    apply Rmult_le_pos; auto. rewrite Forall_forall in f3. apply f3. apply nth_In. lia. }
  assert (JS : forall pv fs, List.length pv = List.length fs -> Forall (fun f : study R R * list R => List.length (snd f) = N /\ Rsum (snd f) = 1 /\ nonneg (snd f)) fs -> rsum N (joint pv fs) = evidenceM pv fs).
  { intros pv fs L Hf. apply joint_sum; auto. eapply Forall_impl; [|exact Hf]. cbn. tauto. }
  split.
  - intros i pv fs N2 N3. destruct (Forall2_nth_error _ _ _ _ _ _ HP N2 N3) as (h1 & h2 & h3 & h4). exists (mixM N pv fs).
    split. { rewrite r5, nth_error_map. fold N. rewrite (map2_nth_error _ _ _ _ _ _ N2 N3). reflexivity. }
    split; [apply tab_length|]. split; [|intros; now apply joint_mix].
    rewrite <- (tab_Rnth (mixM N pv fs)). unfold mixM at 1. rewrite tab_length, Rsum_tab.
    rewrite (rsum_ext N _ (fun x => joint pv fs x * / evidenceM pv fs)) by (intros x Hx; now apply joint_mix). rewrite rsum_scal_r, JS by auto. field. lra.
  - set (p := tab N (mixture (rdivs (allEvidences pvs fss) (Rsum (allEvidences pvs fss))) (map2 (mixM N) pvs fss))) in *.
    assert (G : forall x, (x < N)%nat -> Rnth p x = Rsum (map2 (fun pv fs => joint pv fs x) pvs fss) / Rsum (allEvidences pvs fss)).
    { intros x Hx. unfold p, Rnth. rewrite tab_nth by auto. unfold mixture. generalize (Rsum (allEvidences pvs fss)) z5. intros z Hz. clear - HP Hx Hz. unfold allEvidences.
      induction HP as [|pv fs pvs fss (h1 & h2 & _) h3 IH]; cbn [map2 rdivs map Rsum fold_right]; [unfold Rdiv; ring|]. change (fold_right Rplus 0) with Rsum. unfold rdivs in IH. rewrite IH.
      rewrite joint_mix by auto. field. lra. }
    exists p. split; auto. split; [apply tab_length|]. split.
    + rewrite <- (tab_Rnth p). unfold p at 1. rewrite tab_length, Rsum_tab. rewrite (rsum_ext N _ _ G). unfold Rdiv. rewrite rsum_scal_r.
      assert (Es : rsum N (fun x => Rsum (map2 (fun pv fs => joint pv fs x) pvs fss)) = Rsum (allEvidences pvs fss)); [|rewrite Es; field; lra].
      clear - HP JS. unfold allEvidences. induction HP as [|pv fs pvs fss (h1 & h2 & h3 & h4) hs IH]; cbn [map2 Rsum fold_right]; [now apply rsum_0|].
      change (fold_right Rplus 0) with Rsum. rewrite rsum_plus, IH. rewrite JS by auto. reflexivity.
    + intros x Hx. split; [|auto]. rewrite G by auto. apply Rmult_le_pos; [|apply Rlt_le, Rinv_0_lt_compat; auto]. apply Rsum_nonneg.
      clear - HP JN Hx. induction HP as [|pv fs pvs fss (h1 & h2 & h3 & h4) hs IH]; cbn; constructor; auto.
Qed.

(** Adding a transition model prepares its hyper-grid and hyper-prior like a HyperStudy does (C27). *)
Theorem C37_grid : forall (O : online R R) name m O',
  addTM O name m = Ok O' -> on_ts O = None -> wellNamed m ->
  exists M, on_models O' = (on_models O ++ [M])%list /\ md_name M = name /\ md_names M = allNames m /\
    noPriors (md_tm M) = noPriors m /\ st_tm (on_S O') = Some (md_tm M) /\
    (allNames m = [] -> md_tm M = m /\ md_rows M = [] /\ entryOk M [1]) /\
    (allNames m <> [] -> exists points : list (list R),
       Forall2 (valueList []) (map snd (assocs m)) points /\
       (forall row, In row (md_rows M) <-> Forall2 (fun v xs => In v xs) row points) /\
       (let shape := map (@List.length R) points in
        List.length (md_rows M) = natprod shape /\
        forall x, (x < natprod shape)%nat -> nth x (md_rows M) [] = gridPoint points (unravel shape x)) /\
       Forall2 spacing points (md_const M) /\
       forall ws, onePriorEach m -> hyperWeights [] (map snd (priorPairs m)) (map snd (assocs m)) points ws ->
       exists pv, entryOk M pv /\ Rsum pv * Rprod (md_const M) = 1 /\
         forall x, (x < List.length (md_rows M))%nat -> Rnth pv x = gridPrior ws (md_const M) (unravel (map (@List.length R) points) x)).
Proof.
  intros O name m O' E Ets WN. unfold addTM in E. destruct (setTM (on_S O) m) as [S1|] eqn:ES; [|discriminate]. cbn [bind] in E. rewrite Ets in E.
  destruct (existsb isAll (allValues m)); [discriminate|]. destruct (createHyperGrid m []) as [[[[[vals rows] cs] pvx] m']|] eqn:EG; [|discriminate]. cbn [bind] in E.
  inversion E; subst O'; clear E. eexists. split; [reflexivity|]. cbn [md_name md_names md_tm md_rows md_const with_models with_S on_S set_tm st_tm].
  assert (Em : noPriors m' = noPriors m).
  { clear - EG. unfold createHyperGrid in EG. cbv zeta in EG. destruct (mapM pointsOf _); [|discriminate]. cbn [bind] in EG. destruct (allNames m); [inversion EG; auto|].
    destruct (_ && _); [|discriminate]. destruct (priorsOf _); [|discriminate]. cbn [bind] in EG. inversion EG; subst. apply noPriors_put. }
  do 4 (split; [auto|]). split.
  - intros En. unfold createHyperGrid in EG. cbv zeta in EG. rewrite En in EG. destruct (mapM pointsOf _) as [pts|] eqn:Ep; [|discriminate]. cbn [bind] in EG. inversion EG; subst. split; auto. split; auto.
    assert (Ev : allValues m' = []).
    { destruct WN as (b & _ & _ & pl). rewrite assocs_values by auto. destruct (assocs m') eqn:Ea; auto. exfalso. apply assocs_names in b. rewrite Ea, En in b. discriminate b. }
    rewrite Ev in Ep. cbn in Ep. inversion Ep; subst. constructor; cbn [md_tm md_names md_rows md_pv md_const map]; auto.
    + eauto.
    + repeat constructor; lra.
    + cbn. lra.
  - intros Hne. destruct (grid_points m [] vals rows cs pvx m' WN Hne EG) as (points & p1 & p2 & p3 & p4 & p5). exists points.
    repeat (split; [assumption|]). intros ws Ho HW. destruct (grid_prior _ _ _ _ _ _ _ points ws WN Ho Hne HW EG) as (pv & g1 & g2 & g3 & g4 & g5 & g6).
    exists pv. split; [|split; [exact g4|]]. 2:{ intros x Hx. now apply g3. }
    assert (Hr : rows <> []).
    { intros ->. destruct pv; [|discriminate g2]. cbn in g4. lra. }
    assert (Pp : 0 < Rsum pv).
    { apply Rprod_pos in g6. pose proof (Rsum_nonneg _ g5). destruct (Req_dec (Rsum pv) 0) as [X|X]; [rewrite X in g4; lra|lra]. }
    assert (En : allNames m' = allNames m) by (rewrite <- noPriors_names, Em; apply noPriors_names).
    constructor; cbn [md_tm md_names md_rows md_pv md_const]; auto.
    + eauto.
    + rewrite En. apply Forall_forall. intros row I. apply p2 in I. apply DataProof.Forall2_len in I. rewrite I. apply DataProof.Forall2_len in p1. rewrite <- p1, map_length.
      rewrite <- (map_length fst (assocs m)). f_equal. apply assocs_names. apply WN.
    + unfold combos. cbn [md_rows]. destruct rows; [congruence|auto].
Qed.

Lemma no_all ts ts' m : existsb isAll (allValues (F := R) m) = false -> map (replaceAll ts) (allValues m) = map (replaceAll ts') (allValues m).
Proof. generalize (allValues m). induction l as [|v l IH]; intros E; cbn in *; auto. apply orb_false_iff in E as [E1 E2]. rewrite (IH E2). f_equal. now destruct v. Qed.
Lemma no_all_grid ts ts' m : existsb isAll (allValues (F := R) m) = false -> createHyperGrid m ts = createHyperGrid m ts'.
Proof. intros E. unfold createHyperGrid. now rewrite (no_all ts ts' m E). Qed.

(** Every set-up of this kind leads to a study to which the theorems of this file apply. *)
Lemma weights_points ts ps vs points ws : hyperWeights ts ps vs points ws -> Forall2 (valueList ts) vs points.
Proof. induction 1; constructor; auto. Qed.
Lemma addTM_ok (O : online R R) name m : on_ts O = None -> addable m -> exists O', addTM O name m = Ok O'.
Proof.
  intros Ets (WN & Hb & Ha & Ho & points & ws & HW). unfold addTM, setTM. rewrite Hb. cbn [bind]. rewrite Ets.
  assert (Nm : named m) by apply WN. assert (Pl : Forall plain (map snd (assocs m))) by apply WN.
  assert (EA : existsb isAll (allValues m) = false).
  { rewrite assocs_values by auto. apply not_true_is_false. intros X. apply existsb_exists in X as (v & Hv & X). destruct v; try discriminate. auto. }
  rewrite EA. destruct (list_eq_dec string_dec (allNames m) []) as [En|En].
  - assert (Ev : allValues m = []).
    { rewrite assocs_values by auto. pose proof (assocs_names _ Nm) as X. rewrite En in X. destruct (assocs m); [reflexivity|discriminate]. }
    unfold createHyperGrid. rewrite En, Ev. cbn. eauto.
  - rewrite (grid_weights m [] points ws Nm Pl Ho En HW). cbn [bind]. eauto.
Qed.
Lemma addTM_same (O O' : online R R) name m : addTM O name m = Ok O' ->
  sameSetup (on_S O) (on_S O') /\ st_raw (on_S O') = st_raw (on_S O) /\ on_first O' = on_first O /\ on_tmPrior O' = on_tmPrior O /\ on_ts O' = on_ts O /\ on_store O' = on_store O /\ on_isArr O' = on_isArr O /\ st_sel (on_S O') = st_sel (on_S O).
Proof.
  unfold addTM, setTM. destruct (isBreak m); [discriminate|]. cbn [bind]. intros E.
  destruct (on_ts O) as [ts|] eqn:Ets; [|destruct (existsb _ _); [discriminate|]];
    (destruct (createHyperGrid m _) as [[[[[vals rows] cs] pv] m']|]; [|discriminate]; cbn [bind] in E; inversion E; subst O'; unfold sameSetup; cbn; rewrite Ets; auto 20).
Qed.
Lemma addAll_ok : forall ms (O : online R R), on_ts O = None -> Forall addable (map snd ms) ->
  exists O' Ms pvs, addAll ms O = Ok O' /\ on_models O' = (on_models O ++ Ms)%list /\ Forall2 entryOk Ms pvs /\ Forall2 added ms Ms /\
    (ms <> [] -> exists M, In M Ms /\ st_tm (on_S O') = Some (md_tm M)) /\
    sameSetup (on_S O) (on_S O') /\ st_raw (on_S O') = st_raw (on_S O) /\ on_first O' = on_first O /\ on_tmPrior O' = on_tmPrior O /\ on_ts O' = on_ts O /\ on_store O' = on_store O /\ on_isArr O' = on_isArr O /\ st_sel (on_S O') = st_sel (on_S O).
Proof.
  induction ms as [|[nm m] ms IH]; intros O Ets HA.
  - exists O, [], []. rewrite app_nil_r. unfold sameSetup. repeat (split; [solve [auto 12 | constructor | congruence]|]). auto.
  - cbn in HA. inversion HA as [|? ? A1 A2]; subst. unfold addAll. cbn [fold_left bind fst snd].
    destruct (addTM_ok O nm m Ets A1) as (O1 & E1). rewrite E1. fold (addAll ms O1).
    destruct (addTM_same _ _ _ _ E1) as (s1 & s2 & s3 & s4 & s5 & s6 & s7 & s8).
    destruct (IH O1 ltac:(congruence) A2) as (O' & Ms & pvs & i1 & i2 & i3 & i4 & i5 & i6 & i7 & i8 & i9 & i10 & i11 & i12 & i13).
    destruct A1 as (WN & Hb & Ha & Ho & points & ws & HW). destruct (C37_grid _ _ _ _ E1 Ets WN) as (M & g1 & g2 & g3 & g4 & g5 & g6 & g7).
    assert (Nm : named m) by apply WN.
    assert (HE : exists pv, entryOk M pv /\ added (nm, m) M).
    { destruct (list_eq_dec string_dec (allNames m) []) as [En|En].
      - destruct (g6 En) as (q1 & q2 & q3). exists [1]. split; auto. unfold added. cbn [fst snd]. repeat (split; [assumption|]). unfold combos. rewrite q2.
        assert (Ea : assocs m = []). { pose proof (assocs_names _ Nm) as X. rewrite En in X. destruct (assocs m); [reflexivity|discriminate]. }
        rewrite Ea. intros row. split.
        + intros [<-|[]]. exists []. split; constructor.
        + intros (pts & F1 & F2). inversion F1; subst. inversion F2; subst. now left.
      - destruct (g7 En) as (pts & p1 & p2 & _ & _ & p5).
        assert (pts = points) as ->.
        { pose proof (weights_points _ _ _ _ _ HW) as p1'. clear - p1 p1'. revert points p1'. induction p1 as [|v xs l pts Hv p1 IH]; intros points p1'; inversion p1' as [|? ys ? ? Hy]; subst; auto. f_equal; auto.
          destruct v; cbn in *; solve [congruence | contradiction]. }
        destruct (p5 ws Ho HW) as (pv & q1 & q2 & _). exists pv. split; auto. unfold added. cbn [fst snd]. repeat (split; [assumption|]). unfold combos.
        assert (Hr : md_rows M <> []).
        { intros X. pose proof (en_len _ _ q1) as Lp. unfold combos in Lp. rewrite X in Lp. cbn in Lp. clear - p2 X HW. assert (G : exists row, Forall2 (fun v xs => In v xs) row points).
          { clear - HW. induction HW as [|p ps v vs xs points w ws F1 F2 F3 F4 F5 HW [row IH]]; [exists []; constructor|]. destruct xs as [|x xs].
            - exfalso. assert (w = []) as ->; [|cbn in F5; lra]. destruct p; cbn in F3; try contradiction; [now subst| |].
              + destruct F3 as [_ F3]. symmetry in F3. now apply map_eq_nil in F3.
              + destruct F3 as (_ & _ & F3). destruct w; [auto|discriminate F3].
            - exists (x :: row). constructor; [now left|auto]. }
          destruct G as (row & G). apply p2 in G. rewrite X in G. destruct G. }
        intros row. destruct (md_rows M) as [|r rs] eqn:Er; [congruence|]. rewrite p2. split; [eauto|]. intros (pts & F1 & F2).
        assert (pts = points) as ->; [|auto].
        { clear - p1 F1. revert pts F1. induction p1 as [|v xs l pts Hv p1 IH]; intros points p1'; inversion p1' as [|? ys ? ? Hy]; subst; auto. f_equal; auto.
          destruct v; cbn in *; solve [congruence | contradiction]. } }
    destruct HE as (pv & e1 & e2). exists O', (M :: Ms), (pv :: pvs). split; [exact i1|]. split; [rewrite i2, g1, <- app_assoc; reflexivity|]. split; [constructor; auto|]. split; [constructor; auto|].
    split; [|split; [|repeat split; congruence]].
    + intros _. destruct ms as [|x ms].
      * cbn in i1. inversion i1; subst O'. exists M. split; [now left|auto].
      * destruct (i5 ltac:(discriminate)) as (M' & J1 & J2). exists M'. split; [now right|auto].
    + unfold sameSetup in *. repeat (match goal with X : _ /\ _ |- _ => destruct X end). repeat split; congruence.
Qed.
Theorem C37_setup : forall (S : study R R) o ms store,
  st_om S = Some o -> match om_prior o with PArr _ _ => False | _ => True end -> (0 < om_seglen o)%nat -> rawLen (st_raw S) = 0%nat ->
  ms <> [] -> Forall addable (map snd ms) -> NoDup (flat_map allNames (map snd ms)) ->
  exists O pvs, addAll ms (newOnline S store) = Ok O /\ onlineReady O o pvs /\ Forall2 added ms (on_models O) /\
    on_store O = store /\ on_tmPrior O = None /\ on_isArr O = false /\ on_ts O = None /\
    st_shape (on_S O) = st_shape S /\ st_grid (on_S O) = st_grid S /\ st_lat (on_S O) = st_lat S.
Proof.
  intros S o ms store Eo Hp Hk Hr Hms HA ND. destruct (addAll_ok ms (newOnline S store) eq_refl HA) as (O & Ms & pvs & i1 & i2 & i3 & i4 & i5 & i6 & i7 & i8 & i9 & i10 & i11 & i12 & i13).
  cbn in i2, i7, i8, i9, i10, i11, i12. destruct i6 as (j1 & j2 & j3 & j4 & _). cbn in j1, j2, j3, j4. exists O, pvs. split; auto. split; [|rewrite i2; auto 12].
  constructor; auto; rewrite ?i2; auto; try congruence.
  - intros X. rewrite X in i4. inversion i4; subst. congruence.
  - replace (flat_map md_names Ms) with (flat_map allNames (map snd ms)); auto. clear - i4. induction i4 as [|m M ms Ms (_ & h & _) _ IH]; cbn; auto. now rewrite h, IH.
Qed.

(** Compared with a forward-only HyperStudy of the same data: the same distribution of hyper-parameters, but the evidence of
    the HyperStudy is multiplied by the cell volume of the hyper-grid. *)
Theorem C37_hyperstudy : forall (O0 O Oa Ob : online R R) o pvs ds i name m M pv (H H' : hyper R R) ts j fs,
  onlineReady O0 o pvs -> Forall point ds -> onlineSteps O0 ds = Ok O -> started O o ->
  addTM Oa name m = Ok Ob -> on_ts Oa = None -> on_models Ob = (on_models Oa ++ [M])%list -> wellNamed m -> timeless m ->
  nth_error (on_models O0) i = Some M -> nth_error pvs i = Some pv ->
  hy_S H = batch O m ts -> List.length ts = rawLen (st_raw (on_S O)) -> st_sel (on_S O) = [] ->
  hyperFit H true false j = Ok H' -> (1 < List.length (hy_grid H'))%nat ->
  Forall2 (fun row f => filtered (pointsOn O) (batch O (withValues m row) ts) (fst f) (snd f)) (hy_grid H') fs ->
  Forall (proper false (stepsH H o) (pointsH H)) (map fst fs) ->
  exists Z, nth_error (on_hyperEvs O) i = Some (Fin (ln Z)) /\ 0 < Z /\
    st_logEv (hy_S H') = Fin (ln (Z * Rprod (md_const M))) /\
    hy_dist H' = nth_error (on_hpd O) i.
Proof.
  intros O0 O Oa Ob o pvs ds i name m M pv H H' ts j fs RO Hp E HS EA Ets EMs WN TL N1 N2 EH Lts Esel EF H1 HF HP.
  destruct (stream_start _ _ _ _ _ RO Hp E HS) as (d & T & Hk).
  pose proof (Forall2_nth_error _ _ _ _ _ _ (or_entries _ _ _ RO) N1 N2) as hm.
  unfold addTM in EA. destruct (setTM (on_S Oa) m) as [S1|] eqn:ES; [|discriminate]. cbn [bind] in EA. rewrite Ets in EA.
  destruct (existsb isAll (allValues m)) eqn:EAll; [discriminate|]. destruct (createHyperGrid m []) as [[[[[vals rows] cs] pvx] m']|] eqn:EG; [|discriminate]. cbn [bind] in EA.
  inversion EA; subst Ob; clear EA. cbn [with_models on_models] in EMs. apply app_inj_tail in EMs as [_ EM]. 
  destruct (tk_setup _ _ _ _ T) as (b1 & _).
  assert (HR : hyperReady H o m (formatTimestamps ts (om_seglen o))).
  { constructor; rewrite ?EH; cbn [batch set_tm loadData st_om st_tm st_rawTs st_sel]; auto.
    - rewrite b1. apply (or_om _ _ _ RO).
    - rewrite Lts, Nat.eqb_refl. eauto.
    - apply (or_prior _ _ _ RO). }
  destruct (fit_grid_inv _ _ _ _ _ _ _ _ HR EF) as (m2 & EG2 & _). rewrite (no_all_grid _ [] m EAll), EG in EG2. inversion EG2; subst m2. clear EG2.
  assert (Em : noPriors m' = noPriors m).
  { clear - EG. unfold createHyperGrid in EG. cbv zeta in EG. destruct (mapM pointsOf _); [|discriminate]. cbn [bind] in EG. destruct (allNames m); [inversion EG; auto|].
    destruct (_ && _); [|discriminate]. destruct (priorsOf _); [|discriminate]. cbn [bind] in EG. inversion EG; subst. apply noPriors_put. }
  assert (En : allNames m' = allNames m) by (rewrite <- noPriors_names, Em; apply noPriors_names).
  assert (Er : md_rows M = hy_grid H') by (subst M; cbn; congruence).
  assert (Ec : md_const M = hy_const H') by (subst M; cbn; congruence).
  assert (Ep : hy_pv H' = map Fin pv) by (rewrite <- (en_pv _ _ hm); subst M; cbn; congruence).
  assert (Ecb : combos M = hy_grid H') by (unfold combos; rewrite Er; destruct (hy_grid H'); [cbn in H1; lia|auto]).
  assert (HF' : runsOf O M fs).
  { unfold runsOf. rewrite Ecb. clear - HF TL Em En EM Lts. induction HF as [|row f l fs h hs IH]; constructor; auto. apply ab_dormant with (m' := withValues m row) (ts := ts); auto.
    unfold withValues. subst M. cbn [md_tm]. rewrite En. now apply timeless_dormant. }
  assert (Hs : Forall2 (single H m true false) (hy_grid H') (map fst fs)).
  { clear - HF EH. induction HF as [|row f l fs' h hs IH]; cbn; constructor; auto. unfold single. rewrite EH. apply h. }
  destruct (C37_hyper O0 O o pvs ds i M pv fs RO Hp E HS N1 N2 HF') as (g1 & g2 & h & g3 & g4 & g5 & g6). set (Z := evidenceM pv fs) in *.
  pose proof (en_len _ _ hm) as Lp. rewrite Ecb in Lp. pose proof (DataProof.Forall2_len _ _ _ HF) as Lf.
  assert (EZ : rsum (List.length (map fst fs)) (fun i => evidenceOf (nth i (map fst fs) (hy_S H)) * Rnth pv i) = Z).
  { unfold Z, evidenceM. rewrite <- Rsum_tab. f_equal. apply list_eq_nth with (d := 0). { unfold weightsM. rewrite tab_length, map2_length, map_length. lia. }
    intros x Hx. rewrite tab_length, map_length in Hx. rewrite tab_nth by (rewrite map_length; auto). unfold weightsM.
    rewrite (map2_nth (fun f p => evidenceOf (fst f) * p) fs pv x (hy_S H, []) 0 0) by lia. change (hy_S H) with (fst (hy_S H, @nil R)) at 1. now rewrite (map_nth fst). }
  destruct (C28_bayes H o m _ true false j H' pv (map fst fs) HR EF H1 Ep (en_nonneg _ _ hm) ltac:(rewrite <- Ec; apply (en_const _ _ hm)) Hs HP) as (k1 & (dist & k2 & k3 & k4 & k5 & k6) & k7).
  { rewrite EZ. exact g2. }
  rewrite EZ in k4, k7. exists Z. split; auto. split; auto. split; [now rewrite Ec|]. rewrite k2, g3. f_equal. f_equal.
  pose proof (Rprod_pos _ (en_const _ _ hm)) as Pc. rewrite <- Ec in *.
  apply list_eq_nth with (d := 0). { rewrite k3, g4, Ecb. reflexivity. }
  intros x Hx. rewrite k3 in Hx. assert (Hx1 : (x < List.length (map fst fs))%nat) by (rewrite map_length; lia).
  assert (Hx2 : (x < List.length h)%nat) by (rewrite g4, Ecb; auto). specialize (k4 x Hx1). specialize (g5 x Hx2). unfold Rnth in *. rewrite k4.
  rewrite (nth_indep _ (hy_S H) (on_S O)) by auto. rewrite <- g5. field. lra.
Qed.
