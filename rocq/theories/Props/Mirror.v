(** Reversing time: C68. *)
From Coq Require Import List ZArith QArith Reals Lra Lia Arith Bool String Permutation.
From Verif Require Import Base.Num Base.Exn Base.Arr Base.RSum Base.Lift Model.Helper Model.Tm Model.HyperParams Model.Study Model.Api
  Spec.Kernel Spec.Hmm Spec.Config Spec.Dist Spec.Data Spec.Mirror
  Proof.HmmProof Proof.FitThms Proof.InferProof Proof.FitCore Proof.FitResults Proof.StaticProof Proof.DataProof Proof.SplitProof Proof.MirrorProof
  Props.Ex Props.ExR Props.Batch.
Import ListNotations.
Local Open Scope R_scope.

Lemma fit_whole S o m vs ts lik : configured S o m vs ts -> linear (om_names o) m -> om_prior o = PNone -> likelihoods S o vs lik ->
  (0 < nSteps S o)%nat -> unitSpaced ts \/ homogeneous m = true ->
  let N := gridPoints vs in let n := nSteps S o in let rho := flat N in let K := transition S o m ts rho in let Ev := evidence N n rho K lik in
  exists S', fit S false false = Ok S' /\ 0 <= Ev /\ (Ev = 0 -> st_logEv S' = NInf) /\
    (0 < Ev -> st_logEv S' = Fin (ln (Ev * cellVolume S ^ resetCount m (timeOf ts o) n)) /\
       st_post S' = map Some (smoothPosts S o m vs ts rho lik) /\
       st_means S' = meanValues (meshgrid vs) (smoothPosts S o m vs ts rho lik) /\
       st_local S' = map (fun i => Some (localOf S o m vs ts rho lik i)) (seq 0 n)).
Proof.
  intros C Lin HP HL Hn U N n rho K Ev. assert (P : priorIs S vs o (om_prior o) rho) by (rewrite HP; constructor).
  pose proof (rho_nonneg S o m vs ts rho C P) as Prho.
  destruct (env_sym S o m vs ts rho C Lin P (or_introl HP) U) as (e' & rho' & FE & Hs).
  assert (HZ : 0 <= Ev).
  { unfold Ev, K. rewrite <- (EvK S o m vs ts rho e' rho' lik FE) by (unfold n; lia). apply evidence_nonneg; auto.
    - intros i x y Hx Hy. now apply (Kst S o m vs ts rho e' rho' C Lin FE i).
    - intros i x Hi Hx. now apply (FitCore.Pl S o vs lik HL). }
  destruct (Req_dec Ev 0) as [Z0|Z0].
  - destruct (fit_zero S o m vs ts rho e' rho' lik C Lin FE Prho HL Hn false false Z0) as (S' & k & locals & E & Ez & _).
    exists S'. repeat split; auto; lra.
  - assert (Hz : 0 < Ev) by lra.
    destruct (fit_smooth S o m vs ts rho e' rho' lik C Lin FE Prho HL Hn Hs Hz) as (S' & E & Ez & Ep & Em & El).
    exists S'. repeat split; auto; lra.
Qed.

(** ** C68 *)
(** With the flat prior, the analysis of the data in reverse order with the mirrored transition model is the analysis of the data
    read backwards: same evidence, and every posterior distribution, mean value and local evidence at the mirrored step. *)
Theorem C68_reversal : forall S o m vs ts,
  configured S o m vs ts -> linear (om_names o) m -> om_prior o = PNone -> finiteLik S o vs -> om_seglen o = 1%nat ->
  (unitSpaced ts /\ mirrorable (nth 0 ts 0) m) \/ homogeneous m = true ->
  let T := nth 0 ts 0 + nth (List.length ts - 1) ts 0 - 1 in
  let S2 := set_tm (loadData S (rawRev (st_raw S)) (Some ts)) (mirror T m) (st_lat S) in
  exists A B, fit S false false = Ok A /\ fit S2 false false = Ok B /\ st_logEv B = st_logEv A /\
    (st_logEv A <> NInf -> st_post B = rev (st_post A) /\ st_means B = map (@rev _) (st_means A) /\ st_local B = rev (st_local A)).
Proof.
  intros S o m vs ts C Lin HP HF Hs U T S2.
  assert (Ln : nSteps S o = List.length ts) by (unfold nSteps; rewrite segments_points, points_length by auto; now rewrite (cf_ts_len _ _ _ _ _ C)).
  assert (Hn : (0 < nSteps S o)%nat) by (rewrite Ln, (cf_ts_len _ _ _ _ _ C); apply (cf_data _ _ _ _ _ C)).
  assert (U1 : unitSpaced ts \/ homogeneous m = true) by tauto.
  assert (U2 : unitSpaced ts \/ homogeneous (mirror T m) = true) by (destruct U as [[]|Hh]; auto; right; now rewrite mirror_homogeneous).
  assert (Lin2 : linear (om_names o) (mirror T m)) by (destruct U as [[_ Mi]|Hh]; [eapply mirror_linear; eauto|now rewrite mirror_homogeneous]).
  assert (C2 : configured S2 o (mirror T m) vs ts).
  { unfold S2. change (st_lat S) with (st_lat (loadData S (rawRev (st_raw S)) (Some ts))). eapply configured_tm.
    - eapply configured_load; [exact C| |]; rewrite rawRev_len; [apply (cf_data _ _ _ _ _ C)|apply (cf_ts_len _ _ _ _ _ C)].
    - eapply Permutation_NoDup; [apply Permutation_sym, names_mirror|apply (cf_unique _ _ _ _ _ C)]. }
  assert (Sg : segments S2 o = rev (segments S o)) by (rewrite !segments_points by auto; apply points_rev).
  assert (Hn2 : nSteps S2 o = nSteps S o) by (unfold nSteps; now rewrite Sg, rev_length).
  assert (HF2 : finiteLik S2 o vs) by (intros s I; apply HF; rewrite Sg in I; now apply in_rev).
  pose proof (segLik_likelihoods S o vs HF) as HL. pose proof (segLik_likelihoods S2 o vs HF2) as HL2.
  set (lik := fun i => segLik o vs (nth i (segments S o) (Seg1 []))) in *. set (lik2 := fun i => segLik o vs (nth i (segments S2 o) (Seg1 []))) in *.
  destruct (fit_whole S o m vs ts lik C Lin HP HL Hn U1) as (A & EA & HZ & A0 & A1).
  destruct (fit_whole S2 o (mirror T m) vs ts lik2 C2 Lin2 HP HL2 ltac:(now rewrite Hn2) U2) as (B & EB & _ & B0 & B1).
  rewrite Hn2 in *. set (n := nSteps S o) in *. set (N := gridPoints vs) in *.
  assert (HK : forall i x y, (Datatypes.S i < n)%nat -> (x < N)%nat -> (y < N)%nat ->
     transition S2 o (mirror T m) ts (flat N) i x y = transition S o m ts (flat N) (n - 2 - i) y x).
  { intros i x y Hi Hx Hy. unfold transition. rewrite !timeOf_1 by auto. change (spaceS S2 o (flat N)) with (spaceS S o (flat N)).
    unfold T. rewrite <- Ln. rewrite (step_kernel ts m n) by auto. now apply (flat_symmetric S o m vs ts). }
  assert (Hl : forall i x, (i < n)%nat -> (x < N)%nat -> lik2 i x = lik (n - 1 - i)%nat x).
  { intros i x Hi Hx. unfold lik2, lik. rewrite Sg, rev_nth by exact Hi. f_equal. f_equal. unfold n, nSteps. lia. }
  assert (EE : evidence N n (flat N) (transition S2 o (mirror T m) ts (flat N)) lik2 = evidence N n (flat N) (transition S o m ts (flat N)) lik).
  { apply (evidence_rev N n (1 / INR N) _ _ _ _ HK Hl). }
  assert (ER : resetCount (mirror T m) (timeOf ts o) n = resetCount m (timeOf ts o) n).
  { unfold resetCount.
    rewrite (filter_ext_in _ (fun i => resetAt m (timeOf ts o (n - 1 - 1 - i)))).
    - exact (count_mirror (n - 1) (fun i => resetAt m (timeOf ts o i))).
    - intros i Hi. apply in_seq in Hi. rewrite !timeOf_1 by auto. unfold T. rewrite <- Ln. rewrite (step_reset ts m n) by (auto; lia). f_equal. f_equal. lia. }
  rewrite EE in *. exists A, B. split; [exact EA|]. split; [exact EB|].
  destruct (Req_dec (evidence N n (flat N) (transition S o m ts (flat N)) lik) 0) as [Z|Z].
  - rewrite A0, B0 by auto. split; [reflexivity|congruence].
  - destruct A1 as (A1 & A2 & A3 & A4); [lra|]. destruct B1 as (B1 & B2 & B3 & B4); [lra|].
    rewrite A1, A2, A3, A4, B1, B2, B3, B4, ER. split; [reflexivity|]. intros _.
    assert (EP : smoothPosts S2 o (mirror T m) vs ts (flat N) lik2 = rev (smoothPosts S o m vs ts (flat N) lik)).
    { unfold smoothPosts. rewrite Hn2. fold n N. apply map_seq_rev. intros i Hi. unfold arrOf. f_equal. apply tab_ext. intros x Hx.
      apply (posterior_rev N n (1 / INR N) _ _ _ _ HK Hl i x Hi). }
    rewrite EP. split; [apply map_rev|]. split.
    + unfold meanValues. rewrite map_map. apply map_ext. intros g. apply map_rev.
    + apply map_seq_rev. intros i Hi. f_equal. unfold localOf. rewrite Hn2. fold n N. change (cellVolume S2) with (cellVolume S).
      assert (E1 : arrOf N (posterior N n (flat N) (transition S2 o (mirror T m) ts (flat N)) lik2 i) = arrOf N (posterior N n (flat N) (transition S o m ts (flat N)) lik (n - 1 - i))).
      { unfold arrOf. f_equal. apply tab_ext. intros x Hx. apply (posterior_rev N n (1 / INR N) _ _ _ _ HK Hl i x Hi). }
      assert (E2 : arrOf N (lik2 i) = arrOf N (lik (n - 1 - i)%nat)) by (unfold arrOf; f_equal; apply tab_ext; intros x Hx; auto).
      now rewrite E1, E2.
Qed.

(** non-vacuity: a random walk that stops and a change-point, in both ways of composing models; the data have positive evidence *)
Definition stopping : tm R := comb [serial [false] ["b"%string] [2] [grw "s" "p" (1 / 4); static]; change "c" 1].
Lemma stopping_ok : isBreak stopping = false /\ NoDup (allNames stopping) /\ linear ["p"%string] stopping /\ mirrorable 0 stopping.
Proof.
  split; [reflexivity|]. split; [cbn; repeat constructor; cbn; intuition discriminate|]. split.
  - constructor. constructor; [|constructor; constructor]. apply (lin_serial _ _ _ _ [2]); [reflexivity|].
    constructor; [constructor; now left|constructor; constructor].
  - constructor. constructor; [|constructor; constructor]. apply (mi_serial 0 _ _ _ [2]); [reflexivity| |repeat constructor|].
    + constructor; [|constructor]. exists 2%Z. lra.
    + constructor; [constructor|constructor; constructor].
Qed.
Example C68_example : exists S, setup (data [1; 0; 0; 1; 1]%Z) None (coin PNone) stopping = Ok S /\
  configured S (coin PNone) stopping [quarters] (times [1; 0; 0; 1; 1]%Z) /\ linear (om_names (coin PNone)) stopping /\
  om_prior (coin PNone) = PNone /\ finiteLik S (coin PNone) [quarters] /\ om_seglen (coin PNone) = 1%nat /\
  unitSpaced (times [1; 0; 0; 1; 1]%Z) /\ mirrorable (nth 0 (times [1; 0; 0; 1; 1]%Z) 0) stopping /\
  (exists A, fit S false false = Ok A /\ st_logEv A <> NInf) /\
  mirror 3 stopping = comb [serial [false] ["b"%string] [3 + 1 - 2] [static; grw "s" "p" (1 / 4)]; change "c" (3 - 1)].
Proof.
  destruct stopping_ok as (Hm & ND & Lin & Mi).
  destruct (coin_setup [1; 0; 0; 1; 1]%Z PNone stopping Hm) as (S & E & _). exists S. split; [exact E|].
  assert (Hb : bits [1; 0; 0; 1; 1]%Z) by (repeat constructor; auto).
  assert (C : configured S (coin PNone) stopping [quarters] (times [1; 0; 0; 1; 1]%Z)) by now apply coin_configured.
  split; [exact C|]. split; [exact Lin|]. split; [reflexivity|].
  destruct (coin_likelihoods _ _ _ _ E Hm Hb) as [HL Pos].
  assert (U : unitSpaced (times [1; 0; 0; 1; 1]%Z)) by apply times_unit.
  assert (St : nSteps S (coin PNone) = 5%nat) by exact (coin_steps _ _ _ _ E Hm).
  split.
  { intros s Is. apply In_nth_error in Is. destruct Is as [i Ei].
    destruct (HL i s Ei) as [-> Hp]. exists (tab (gridPoints [quarters]) (coinLik [1; 0; 0; 1; 1]%Z i)).
    split; [reflexivity|]. split; [apply tab_length|]. now apply Forall_tab. }
  split; [reflexivity|]. split; [exact U|]. split; [exact Mi|]. split; [|reflexivity].
  destruct (fit_whole S (coin PNone) stopping [quarters] (times [1; 0; 0; 1; 1]%Z) (coinLik [1; 0; 0; 1; 1]%Z)) as (A & EA & _ & _ & A1); auto.
  { rewrite St. lia. }
  exists A. split; [exact EA|]. destruct A1 as (-> & _); [|discriminate]. apply coin_evidence; auto. discriminate.
Qed.

(** The condition on the time stamps is needed: with unequal distances the mirrored change-point falls between other data points
    (data 1 1 0 at times 0 1 3, change-point after time 1; evidences 7/192 and 5/192). *)
Theorem C68_spacing_refuted : exists (S A B : study Q Q) o ts,
  st_om S = Some o /\ om_prior o = PNone /\ st_rawTs S = Some ts /\ st_tm S = Some (change "c" 1%Q) /\
  fit S false false = Ok A /\
  fit (set_tm (loadData S (rawRev (st_raw S)) (Some ts)) (change "c" (hd 0 ts + last ts 0 - 1 - 1)%Q) (st_lat S)) false false = Ok B /\
  st_logEv A = Fin (7 # 192)%Q /\ st_logEv B = Fin (5 # 192)%Q.
Proof.
  assert (E : (let* S0 := setup (L := Q) (data [1; 1; 0]%Z) (Some [0; 1; 3]%Q) (coinOM quarters PNone) (change "c" 1%Q) in
    let* A := fit S0 false false in
    let* B := fit (set_tm (loadData S0 (rawRev (st_raw S0)) (Some [0; 1; 3]%Q)) (change "c" (hd 0 [0; 1; 3] + last [0; 1; 3] 0 - 1 - 1)%Q) (st_lat S0)) false false in
    Ok (st_om S0, st_rawTs S0, st_tm S0, st_logEv A, st_logEv B))%res =
    Ok (Some (coinOM quarters PNone), Some [0; 1; 3]%Q, Some (change "c" 1%Q), Fin (7 # 192)%Q, Fin (5 # 192)%Q)) by (vm_compute; reflexivity).
  run E. do 5 eexists. split; [eassumption|]. split; [reflexivity|]. repeat (split; [eassumption|]). eauto.
Qed.
(** So is linearity: RegimeSwitch depends on the direction of time (the posterior of the first step in reversed order differs from
    that of the last step in the given order, although the evidences agree). *)
Theorem C68_regime_refuted : exists (S A B : study Q Q) o ts,
  st_om S = Some o /\ om_prior o = PNone /\ st_rawTs S = Some ts /\
  st_tm S = Some (TM KRegime ["r"%string] [HNum (-1)%Q] (Some (Leaf HPNone)) []) /\
  fit S false false = Ok A /\ fit (loadData S (rawRev (st_raw S)) (Some ts)) false false = Ok B /\
  st_logEv B = st_logEv A /\ nth_error (st_post B) 0 <> nth_error (rev (st_post A)) 0.
Proof.
  assert (E : (let* S0 := setup (L := Q) (data [1; 1; 1; 0]%Z) None (coinOM quarters PNone) (TM KRegime ["r"%string] [HNum (-1)%Q] (Some (Leaf HPNone)) []) in
    let* A := fit S0 false false in
    let* B := fit (loadData S0 (rawRev (st_raw S0)) (Some [0; 1; 2; 3]%Q)) false false in
    Ok (st_om S0, st_rawTs S0, st_tm S0, st_logEv A, st_logEv B, nth_error (st_post B) 0, nth_error (rev (st_post A)) 0))%res =
    Ok (Some (coinOM quarters PNone), Some [0; 1; 2; 3]%Q, Some (TM KRegime ["r"%string] [HNum (-1)%Q] (Some (Leaf HPNone)) []), Fin (23 # 384)%Q, Fin (23 # 384)%Q,
      Some (Some [Fin (21 # 236); Fin (20 # 59); Fin (135 # 236)]%Q), Some (Some [Fin (3 # 46); Fin (8 # 23); Fin (27 # 46)]%Q))) by (vm_compute; reflexivity).
  run E. do 5 eexists. split; [eassumption|]. split; [reflexivity|]. repeat (split; [eassumption|]). split; [congruence|]. intros X. cbn [nth_error] in X. congruence.
Qed.
