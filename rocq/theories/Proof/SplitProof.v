(** A reset cuts a hidden Markov model into two independent ones. *)
From Coq Require Import List ZArith Reals Lra Lia Arith Bool String.
From Verif Require Import Base.Num Base.Exn Base.Arr Base.RSum Base.Lift Model.Helper Model.Tm Model.HyperParams Model.Study
  Spec.Kernel Spec.Hmm Spec.Config Spec.Dist Spec.Data Proof.HmmProof Proof.KernelProof Proof.FitThms Proof.FitCore Proof.FitResults
  Proof.InferProof Proof.StaticProof Proof.DataProof.
Import ListNotations.
Local Open Scope R_scope.

Lemma tot_split N K r Ls2 : Ls2 <> [] -> forall Ls1 v i, Ls1 <> [] ->
  (forall x y, (x < N)%nat -> (y < N)%nat -> K (i + List.length Ls1 - 1)%nat x y = r y) ->
  HmmProof.tot N K v i (Ls1 ++ Ls2) = HmmProof.tot N K v i Ls1 * HmmProof.tot N K r (i + List.length Ls1) Ls2.
Proof.
  intros H2. induction Ls1 as [|L Ls1 IH]; intros v i H1 HK; [congruence|]. destruct Ls1 as [|L' Ls1].
  - cbn [app HmmProof.tot List.length] in *. replace (i + 1 - 1)%nat with i in HK by lia. rewrite Nat.add_1_r.
    rewrite <- rsum_scal_r. apply rsum_ext. intros x Hx. rewrite (tot_ext N K Ls2 (S i) (K i x) r) by (intros; now apply HK). ring.
  - change ((L :: L' :: Ls1) ++ Ls2) with (L :: (L' :: Ls1) ++ Ls2). cbn [HmmProof.tot]. rewrite <- rsum_scal_r. apply rsum_ext. intros x Hx.
    fold (HmmProof.tot N K (K i x) (S i) (L' :: Ls1)). 
    change (rsum N (fun x0 => K i x x0 * L' x0 * HmmProof.tot N K (K (S i) x0) (S (S i)) Ls1)) with (HmmProof.tot N K (K i x) (S i) (L' :: Ls1)).
    change (rsum N (fun x0 => K i x x0 * L' x0 * HmmProof.tot N K (K (S i) x0) (S (S i)) (Ls1 ++ Ls2))) with (HmmProof.tot N K (K i x) (S i) ((L' :: Ls1) ++ Ls2)).
    rewrite IH; [|discriminate|].
    + replace (S i + List.length (L' :: Ls1))%nat with (i + List.length (L :: L' :: Ls1))%nat by (cbn; lia). ring.
    + intros a b Ha Hb. rewrite <- (HK a b Ha Hb). f_equal. cbn. lia.
Qed.
Lemma tot_shift N K k Ls : forall v i, HmmProof.tot N K v (k + i) Ls = HmmProof.tot N (fun j => K (k + j)%nat) v i Ls.
Proof.
  induction Ls as [|L Ls IH]; intros v i; cbn [HmmProof.tot]; auto. apply rsum_ext. intros x _. now rewrite <- IH, Nat.add_succ_r.
Qed.
Lemma evidence_split N n k rho r K lik : (0 < k)%nat -> (k < n)%nat ->
  (forall x y, (x < N)%nat -> (y < N)%nat -> K (k - 1)%nat x y = r y) ->
  evidence N n rho K lik = evidence N k rho K lik * evidence N (n - k) r (fun i => K (k + i)%nat) (fun i => lik (k + i)%nat).
Proof.
  intros H1 H2 HK. rewrite !evidence_tot. replace n with (k + (n - k))%nat at 1 by lia. rewrite seq_app, map_app. cbn [Nat.add].
  rewrite (tot_split N K r).
  - rewrite map_length, seq_length. f_equal. rewrite Nat.add_0_l. replace k with (k + 0)%nat at 1 by lia. rewrite tot_shift.
    f_equal. rewrite <- (Nat.add_0_r k) at 1. generalize 0%nat as j. generalize (n - k)%nat as q. induction q as [|q IH]; intros j; cbn; auto.
    f_equal. rewrite <- Nat.add_succ_r. apply IH.
  - destruct (n - k)%nat eqn:E; [lia|discriminate].
  - destruct k; [lia|discriminate].
  - intros x y Hx Hy. rewrite map_length, seq_length. replace (0 + k - 1)%nat with (k - 1)%nat by lia. now apply HK.
Qed.
Lemma evidence_lik_ext N n rho K lik lik' : (forall i x, (i < n)%nat -> (x < N)%nat -> lik i x = lik' i x) ->
  evidence N n rho K lik = evidence N n rho K lik'.
Proof.
  intros E. rewrite !evidence_tot. apply tot_ext_lik. 
  assert (G : forall l, (forall i, In i l -> (i < n)%nat) -> Forall2 (fun f g : nat -> R => forall x, (x < N)%nat -> f x = g x) (map lik l) (map lik' l)).
  { induction l as [|j l IH]; intros Hl; cbn; constructor.
    - intros x Hx. apply E; auto. apply Hl. now left.
    - apply IH. intros; apply Hl; now right. }
  apply G. intros i Hi. apply in_seq in Hi. lia.
Qed.
Lemma joint_lik_ext N n rho K lik lik' i x : (i < n)%nat -> (forall i x, (i < n)%nat -> (x < N)%nat -> lik i x = lik' i x) ->
  jointAt N n rho K lik i x = jointAt N n rho K lik' i x.
Proof.
  intros Hi E. rewrite !joint_only by auto. apply evidence_lik_ext. intros j y Hj Hy. unfold only. now rewrite E.
Qed.
Lemma joint_split_before N n k rho r K lik i x : (i < k)%nat -> (k < n)%nat ->
  (forall x y, (x < N)%nat -> (y < N)%nat -> K (k - 1)%nat x y = r y) ->
  jointAt N n rho K lik i x = jointAt N k rho K lik i x * evidence N (n - k) r (fun i => K (k + i)%nat) (fun i => lik (k + i)%nat).
Proof.
  intros Hi Hk HK. rewrite !joint_only by lia. rewrite (evidence_split N n k rho r) by (auto; lia). f_equal.
  apply evidence_lik_ext. intros j y Hj Hy. unfold only. destruct (Nat.eqb_spec (k + j) i); [lia|reflexivity].
Qed.
Lemma joint_split_after N n k rho r K lik i x : (0 < k)%nat -> (k + i < n)%nat ->
  (forall x y, (x < N)%nat -> (y < N)%nat -> K (k - 1)%nat x y = r y) ->
  jointAt N n rho K lik (k + i) x =
  evidence N k rho K lik * jointAt N (n - k) r (fun i => K (k + i)%nat) (fun i => lik (k + i)%nat) i x.
Proof.
  intros Hi Hk HK. rewrite !joint_only by lia. rewrite (evidence_split N n k rho r) by (auto; lia). f_equal.
  - apply evidence_lik_ext. intros j y Hj Hy. unfold only. destruct (Nat.eqb_spec j (k + i)); [lia|reflexivity].
  - apply evidence_lik_ext. intros j y Hj Hy. unfold only. destruct (Nat.eqb_spec (k + j) (k + i)), (Nat.eqb_spec j i); try lia; reflexivity.
Qed.

(** evidence and posteriors of a fit *)
Definition modeOk (S : study R R) (o : om R) (m : tm R) (ts : list R) (fo : bool) : Prop :=
  fo = true \/ ((unitSpaced ts \/ homogeneous m = true) /\ (om_prior o = PNone \/ resetFree S o m ts)).
Lemma fit_any S o m vs ts rho lik fo : configured S o m vs ts -> linear (om_names o) m -> priorIs S vs o (om_prior o) rho ->
  likelihoods S o vs lik -> stablePrior (om_prior o) \/ resetFree S o m ts -> (0 < nSteps S o)%nat -> modeOk S o m ts fo ->
  let N := gridPoints vs in let n := nSteps S o in let K := transition S o m ts rho in let Ev := evidence N n rho K lik in
  exists S', fit S fo false = Ok S' /\ 0 <= Ev /\ (Ev = 0 -> st_logEv S' = NInf) /\
    (0 < Ev -> st_logEv S' = Fin (ln (Ev * mvol S o m ts n)) /\
       st_post S' = map (fun i => Some (arrOf N (posterior N (if fo then Datatypes.S i else n) rho K lik i))) (seq 0 n)).
Proof.
  intros C Lin P HL St Hn Mode N n K Ev. pose proof (rho_nonneg S o m vs ts rho C P) as Prho.
  destruct (env_exists S o m vs ts rho C Lin P St) as (e' & rho' & FE).
  assert (HZ : 0 <= Ev).
  { unfold Ev, K. rewrite <- (EvK S o m vs ts rho e' rho' lik FE) by (unfold n; lia). apply evidence_nonneg; auto.
    - intros i x y Hx Hy. now apply (Kst S o m vs ts rho e' rho' C Lin FE i).
    - intros i x Hi Hx. now apply (FitCore.Pl S o vs lik HL). }
  destruct (Req_dec Ev 0) as [Z0|Z0].
  - destruct (fit_zero S o m vs ts rho e' rho' lik C Lin FE Prho HL Hn fo false Z0) as (S' & k & locals & E & Ez & _).
    exists S'. repeat split; auto; lra.
  - assert (Hz : 0 < Ev) by lra. destruct fo.
    + destruct (fit_forward S o m vs ts rho e' rho' lik C Lin FE Prho HL Hn true false eq_refl Hz) as (S' & norms & E & Ez & Ep & _).
      exists S'. repeat split; auto; [lra|]. rewrite Ep. unfold fwdPosts. now rewrite map_map.
    + destruct Mode as [|[U Hp]]; [discriminate|].
      destruct (env_sym S o m vs ts rho C Lin P Hp U) as (e2 & rho2 & FE2 & Hs).
      destruct (fit_smooth S o m vs ts rho e2 rho2 lik C Lin FE2 Prho HL Hn Hs Hz) as (S' & E & Ez & Ep & _).
      exists S'. repeat split; auto; [lra|]. rewrite Ep. unfold smoothPosts. now rewrite map_map.
Qed.

(** setting another transition model *)
Lemma configured_tm S o m m' vs ts : configured S o m vs ts -> NoDup (allNames m') -> configured (set_tm S m' (st_lat S)) o m' vs ts.
Proof. intros [c1 c2 c3 c4 c5 c6 c7 c8 c9 c10 c11 c12 c13 c14] Hd. constructor; auto. Qed.
Lemma priorIs_tm S o vs p rho m l : priorIs S vs o p rho -> priorIs (set_tm S m l) vs o p rho.
Proof. intros [| | | |]; try (constructor; auto; fail). apply (pri_sym (set_tm S m l) vs o f g); auto. Qed.
Lemma points_firstn k d : points (rawFirstn k d) = firstn k (points d).
Proof. destruct d; cbn; symmetry; apply firstn_map. Qed.
Lemma points_skipn k d : points (rawSkipn k d) = skipn k (points d).
Proof. destruct d; cbn; symmetry; apply skipn_map. Qed.
Lemma rawFirstn_len {F} k (d : raw F) : (k <= rawLen d)%nat -> rawLen (rawFirstn k d) = k.
Proof. destruct d; cbn; intros; rewrite firstn_length; lia. Qed.
Lemma rawSkipn_len {F} k (d : raw F) : rawLen (rawSkipn k d) = (rawLen d - k)%nat.
Proof. destruct d; cbn; rewrite skipn_length; lia. Qed.
Lemma timeOf_1 ts (o : om R) i : om_seglen o = 1%nat -> timeOf ts o i = nth i ts 0.
Proof. intros E. unfold timeOf. rewrite E. f_equal. lia. Qed.
Lemma nth_firstn {A} (l : list A) k i d : (i < k)%nat -> nth i (firstn k l) d = nth i l d.
Proof. revert l i; induction k as [|k IH]; intros [|a l] [|i] Hi; cbn; try lia; auto. apply IH. lia. Qed.
Lemma nth_error_firstn' {A} (l : list A) k i : (i < k)%nat -> nth_error (firstn k l) i = nth_error l i.
Proof. revert l i; induction k as [|k IH]; intros [|a l] [|i] Hi; cbn; try lia; auto. apply IH. lia. Qed.
Lemma nth_error_skipn' {A} (l : list A) k i : nth_error (skipn k l) i = nth_error l (k + i).
Proof. revert l i; induction k as [|k IH]; intros [|a l] i; cbn; auto. now destruct i. Qed.
Lemma unit_increasing ts : unitSpaced ts -> increasing ts.
Proof.
  intros U i j Hij Hj. assert (E : forall d, (i + d < List.length ts)%nat -> nth (i + d) ts 0 = nth i ts 0 + INR d).
  { induction d as [|d IH]; intros Hd; [rewrite Nat.add_0_r; cbn; lra|]. rewrite Nat.add_succ_r, U by lia. rewrite IH by lia. rewrite S_INR. lra. }
  specialize (E (j - i)%nat ltac:(lia)). replace (i + (j - i))%nat with j in E by lia. rewrite E.
  assert (0 < INR (j - i)) by (apply lt_0_INR; lia). lra.
Qed.
Lemma unit_firstn k ts : unitSpaced ts -> unitSpaced (firstn k ts).
Proof.
  intros U i Hi. rewrite firstn_length in Hi. rewrite !nth_firstn by lia. apply U. lia.
Qed.
Lemma unit_skipn k ts : unitSpaced ts -> unitSpaced (skipn k ts).
Proof.
  intros U i Hi. rewrite skipn_length in Hi. rewrite !nth_skipn. apply U. lia.
Qed.

Section Split.
  Variables (S : study R R) (o : om R) (m m1 m2 : tm R) (vs : list (list R)) (ts : list R) (rho : nat -> R) (lik : nat -> nat -> R) (k : nat) (fo : bool).
  Hypothesis C : configured S o m vs ts.
  Hypothesis P : priorIs S vs o (om_prior o) rho.
  Hypothesis HL : likelihoods S o vs lik.
  Hypothesis Hs : om_seglen o = 1%nat.
  Hypothesis Lin : linear (om_names o) m.
  Hypothesis Lin1 : linear (om_names o) m1.
  Hypothesis Lin2 : linear (om_names o) m2.
  Hypothesis U1 : NoDup (allNames m1).
  Hypothesis U2 : NoDup (allNames m2).
  Hypothesis Hk : (0 < k)%nat.
  Hypothesis Hkn : (k < rawLen (st_raw S))%nat.
  Hypothesis St : stablePrior (om_prior o).
  Hypothesis Mode : fo = true \/ (unitSpaced ts /\ om_prior o = PNone).
  Notation N := (gridPoints vs).
  Notation n := (nSteps S o).
  Hypothesis K1 : forall i, (i < k - 1)%nat -> transition S o m ts rho i = transition S o m1 ts rho i /\ resetAt m (timeOf ts o i) = resetAt m1 (timeOf ts o i).
  Hypothesis K0 : transition S o m ts rho (k - 1) = Kreset rho /\ resetAt m (timeOf ts o (k - 1)) = true.
  Hypothesis K2 : forall i, (k <= i)%nat -> (i < n)%nat -> transition S o m ts rho i = transition S o m2 ts rho i /\ resetAt m (timeOf ts o i) = resetAt m2 (timeOf ts o i).
  Let S1 := set_tm (loadData S (rawFirstn k (st_raw S)) (Some (firstn k ts))) m1 (st_lat S).
  Let S2 := set_tm (loadData S (rawSkipn k (st_raw S)) (Some (skipn k ts))) m2 (st_lat S).

  Lemma split_n : n = rawLen (st_raw S).
  Proof. rewrite (formatData_length S o). lia. Qed.
  Lemma split_tl : List.length ts = rawLen (st_raw S).
  Proof. exact (cf_ts_len _ _ _ _ _ C). Qed.
  Lemma split_c1 : configured S1 o m1 vs (firstn k ts).
  Proof.
    apply (configured_tm (loadData S (rawFirstn k (st_raw S)) (Some (firstn k ts))) o m m1); auto. apply (configured_load S o m vs ts); auto.
    - rewrite rawFirstn_len; lia.
    - rewrite rawFirstn_len, firstn_length, split_tl; lia.
  Qed.
  Lemma split_c2 : configured S2 o m2 vs (skipn k ts).
  Proof.
    apply (configured_tm (loadData S (rawSkipn k (st_raw S)) (Some (skipn k ts))) o m m2); auto. apply (configured_load S o m vs ts); auto.
    - rewrite rawSkipn_len; lia.
    - rewrite rawSkipn_len, skipn_length, split_tl; lia.
  Qed.
  Lemma split_n1 : nSteps S1 o = k.
  Proof. rewrite (formatData_length S1 o). cbn [S1 st_raw set_tm loadData]. rewrite rawFirstn_len by lia. lia. Qed.
  Lemma split_n2 : nSteps S2 o = (n - k)%nat.
  Proof. rewrite (formatData_length S2 o), split_n. cbn [S2 st_raw set_tm loadData]. rewrite rawSkipn_len. lia. Qed.
  Lemma split_l1 : likelihoods S1 o vs lik.
  Proof.
    intros i s E. rewrite (segments_points _ _ Hs) in E. cbn [S1 st_raw set_tm loadData] in E. rewrite points_firstn in E.
    assert (Hi : (i < k)%nat).
    { assert (Hl : (i < List.length (firstn k (points (st_raw S))))%nat) by (apply nth_error_Some; congruence). rewrite firstn_length in Hl. lia. }
    rewrite nth_error_firstn' in E by auto. apply HL. now rewrite (segments_points _ _ Hs).
  Qed.
  Lemma split_l2 : likelihoods S2 o vs (fun i => lik (k + i)%nat).
  Proof.
    intros i s E. rewrite (segments_points _ _ Hs) in E. cbn [S2 st_raw set_tm loadData] in E. rewrite points_skipn, nth_error_skipn' in E.
    apply HL. now rewrite (segments_points _ _ Hs).
  Qed.
  Notation K := (transition S o m ts rho).
  Notation Ka := (transition S1 o m1 (firstn k ts) rho).
  Notation Kb := (transition S2 o m2 (skipn k ts) rho).
  Lemma split_K1 i : (i < k - 1)%nat -> K i = Ka i.
  Proof.
    intros Hi. rewrite (proj1 (K1 i Hi)). unfold transition. rewrite !timeOf_1, nth_firstn by (auto; lia). reflexivity.
  Qed.
  Lemma split_K2 i : (k + i < n)%nat -> K (k + i) = Kb i.
  Proof.
    intros Hi. rewrite (proj1 (K2 (k + i) ltac:(lia) Hi)). unfold transition. rewrite !timeOf_1, nth_skipn by auto. rewrite (Nat.add_comm i). reflexivity.
  Qed.
  Lemma split_K0 x y : (x < N)%nat -> (y < N)%nat -> K (k - 1) x y = rho y.
  Proof. intros _ _. now rewrite (proj1 K0). Qed.
  Lemma split_ev : evidence N n rho K lik = evidence N k rho Ka lik * evidence N (n - k) rho Kb (fun i => lik (k + i)%nat).
  Proof.
    rewrite (evidence_split N n k rho rho K lik Hk) by (rewrite ?split_n; auto using split_K0). f_equal.
    - apply evidence_trans. intros i x y Hi _ _. now rewrite split_K1 by lia.
    - apply evidence_trans. intros i x y Hi _ _. now rewrite split_K2 by lia.
  Qed.
  Lemma split_resets j : (k < j)%nat -> (j <= n)%nat ->
    resetCount m (timeOf ts o) j = (1 + resetCount m1 (timeOf (firstn k ts) o) k + resetCount m2 (timeOf (skipn k ts) o) (j - k))%nat.
  Proof.
    intros Hj1 Hj2. unfold resetCount. replace (j - 1)%nat with ((k - 1) + Datatypes.S (j - k - 1))%nat by lia. rewrite seq_app, filter_app, app_length. cbn [seq filter].
    cbn [Nat.add]. rewrite (proj2 K0). cbn [List.length].
    assert (F : forall (f g : nat -> bool) l, (forall i, In i l -> f i = g i) -> filter f l = filter g l).
    { intros f g l E. induction l as [|a l IH]; cbn; auto. rewrite (E a (or_introl eq_refl)), IH; auto. intros; apply E; now right. }
    rewrite (F (fun i => resetAt m (timeOf ts o i)) (fun i => resetAt m1 (timeOf (firstn k ts) o i)) (seq 0 (k - 1))).
    2:{ intros i Hi. apply in_seq in Hi. rewrite (proj2 (K1 i ltac:(lia))), !timeOf_1, nth_firstn by (auto; lia). reflexivity. }
    rewrite Nat.add_succ_r. f_equal. f_equal. replace (Datatypes.S (k - 1)) with (k + 0)%nat by lia. 
    assert (H2 : forall q a, (k + a + q <= n)%nat -> List.length (filter (fun i => resetAt m (timeOf ts o i)) (seq (k + a) q)) = List.length (filter (fun i => resetAt m2 (timeOf (skipn k ts) o i)) (seq a q))).
    { induction q as [|q IH]; intros a Hq; [reflexivity|]. cbn [seq filter]. rewrite (proj2 (K2 (k + a) ltac:(lia) ltac:(lia))).
      rewrite !timeOf_1, nth_skipn by auto. rewrite (Nat.add_comm a k). specialize (IH (Datatypes.S a) ltac:(lia)). rewrite Nat.add_succ_r in IH.
      destruct (resetAt m2 _); cbn [List.length]; now rewrite IH. }
    apply H2. lia.
  Qed.

  Lemma split_fit : exists A A1 A2, fit S fo false = Ok A /\ fit S1 fo false = Ok A1 /\ fit S2 fo false = Ok A2 /\
    (forall v1 v2, st_logEv A1 = Fin v1 -> st_logEv A2 = Fin v2 ->
       st_logEv A = Fin (v1 + v2 + ln (cellVolume S)) /\ st_post A = st_post A1 ++ st_post A2) /\
    (st_logEv A1 = NInf \/ st_logEv A2 = NInf -> st_logEv A = NInf).
  Proof.
    pose proof split_n as En. pose proof split_tl as Et.
    assert (M0 : modeOk S o m ts fo). { destruct Mode as [->|[U Hp]]; [now left|]. right. auto. }
    assert (M1 : modeOk S1 o m1 (firstn k ts) fo). { destruct Mode as [->|[U Hp]]; [now left|]. right. split; [left; now apply unit_firstn|auto]. }
    assert (M2 : modeOk S2 o m2 (skipn k ts) fo). { destruct Mode as [->|[U Hp]]; [now left|]. right. split; [left; now apply unit_skipn|auto]. }
    assert (P1 : priorIs S1 vs o (om_prior o) rho) by (unfold S1; apply priorIs_tm, priorIs_load, P).
    assert (P2 : priorIs S2 vs o (om_prior o) rho) by (unfold S2; apply priorIs_tm, priorIs_load, P).
    destruct (fit_any S o m vs ts rho lik fo C Lin P HL (or_introl St) ltac:(lia) M0) as (A & EA & P0 & Z0 & F0).
    destruct (fit_any S1 o m1 vs _ rho lik fo split_c1 Lin1 P1 split_l1 (or_introl St) ltac:(rewrite split_n1; lia) M1) as (A1 & EA1 & P1' & Z1 & F1).
    destruct (fit_any S2 o m2 vs _ rho _ fo split_c2 Lin2 P2 split_l2 (or_introl St) ltac:(rewrite split_n2; lia) M2) as (A2 & EA2 & P2' & Z2 & F2).
    rewrite split_n1 in P1', Z1, F1. rewrite split_n2 in P2', Z2, F2.
    rewrite split_ev in P0, Z0, F0.
    exists A, A1, A2. split; [exact EA|]. split; [exact EA1|]. split; [exact EA2|].
    set (E1 := evidence N k rho Ka lik) in *. set (E2 := evidence N (n - k) rho Kb (fun i => lik (k + i)%nat)) in *.
    split.
    - intros v1 v2 V1 V2.
      assert (H1 : 0 < E1) by (destruct P1' as [|Z]; auto; rewrite Z1 in V1 by auto; discriminate).
      assert (H2 : 0 < E2) by (destruct P2' as [|Z]; auto; rewrite Z2 in V2 by auto; discriminate).
      destruct (F1 H1) as [L1 Q1]. destruct (F2 H2) as [L2 Q2]. destruct (F0 ltac:(now apply Rmult_lt_0_compat)) as [L0 Q0].
      rewrite L1 in V1. rewrite L2 in V2. inversion V1; subst v1. inversion V2; subst v2. rewrite L0, Q0, Q1, Q2. clear L0 L1 L2 V1 V2 Q0 Q1 Q2.
      pose proof (cfg_volpos S o m vs ts C) as VP.
      assert (Hv : mvol S o m ts n = cellVolume S * mvol S1 o m1 (firstn k ts) k * mvol S2 o m2 (skipn k ts) (n - k)).
      { unfold mvol. rewrite split_resets by lia. change (cellVolume S1) with (cellVolume S). change (cellVolume S2) with (cellVolume S).
        rewrite !pow_add. cbn [pow]. ring. }
      pose proof (mvol_pos S1 o m1 vs _ split_c1 k) as W1. pose proof (mvol_pos S2 o m2 vs _ split_c2 (n - k)) as W2.
      split.
      + rewrite Hv. f_equal. rewrite <- !ln_mult; try (repeat apply Rmult_lt_0_compat; assumption). f_equal. ring.
      + transitivity (map (fun i => Some (arrOf N (posterior N (if fo then Datatypes.S i else n) rho K lik i))) (seq 0 (k + (n - k)))).
        { f_equal. f_equal. lia. }
        rewrite seq_app, map_app. f_equal.
        * apply map_ext_in. intros i Hi. apply in_seq in Hi. f_equal. unfold arrOf. f_equal. apply tab_ext. intros x Hx. destruct fo.
          -- unfold posterior. rewrite (jointAt_trans N (Datatypes.S i) rho K Ka), (evidence_trans N (Datatypes.S i) rho K Ka); auto; intros j a b Hj _ _; rewrite split_K1 by lia; reflexivity.
          -- unfold posterior. rewrite split_ev. rewrite (joint_split_before N n k rho rho K lik i x) by (auto using split_K0; lia).
             rewrite (evidence_trans N (n - k) rho (fun i => K (k + i)%nat) Kb) by (intros j a b Hj _ _; rewrite split_K2 by lia; reflexivity).
             fold E2. rewrite (jointAt_trans N k rho K Ka) by (intros j a b Hj _ _; rewrite split_K1 by lia; reflexivity).
             fold E1. field. lra.
        * cbn [Nat.add]. replace k with (k + 0)%nat at 1 by lia. 
          assert (G : forall q a, (k + a + q <= n)%nat ->
            map (fun i => Some (arrOf N (posterior N (if fo then Datatypes.S i else n) rho K lik i))) (seq (k + a) q) =
            map (fun i => Some (arrOf N (posterior N (if fo then Datatypes.S i else (n - k)%nat) rho Kb (fun i => lik (k + i)%nat) i))) (seq a q)).
          2:{ apply G. lia. }
          induction q as [|q IH]; intros a Hq; [reflexivity|]. cbn [seq map]. f_equal; [|rewrite <- Nat.add_succ_r; apply IH; lia].
          f_equal. unfold arrOf. f_equal. apply tab_ext. intros x Hx.
          assert (Gen : forall q', (a < q' - k)%nat -> (k < q')%nat -> (q' <= n)%nat -> posterior N q' rho K lik (k + a) x = posterior N (q' - k) rho Kb (fun i => lik (k + i)%nat) a x).
          { intros q' Hq1 Hq2 Hq3. unfold posterior. rewrite (joint_split_after N q' k rho rho K lik a x) by (auto using split_K0; lia).
            rewrite (evidence_split N q' k rho rho K lik) by (auto using split_K0).
            rewrite (evidence_trans N (q' - k) rho (fun i => K (k + i)%nat) Kb) by (intros j a' b Hj _ _; rewrite split_K2 by lia; reflexivity).
            rewrite (jointAt_trans N (q' - k) rho (fun i => K (k + i)%nat) Kb) by (intros j a' b Hj _ _; rewrite split_K2 by lia; reflexivity).
            rewrite (evidence_trans N k rho K Ka) by (intros j a' b Hj _ _; rewrite split_K1 by lia; reflexivity). fold E1.
            unfold Rdiv. rewrite Rinv_mult. generalize (/ evidence N (q' - k) rho Kb (fun i => lik (k + i)%nat)). intros w. field. lra. }
          destruct fo; [replace (Datatypes.S a) with (Datatypes.S (k + a) - k)%nat by lia|]; apply Gen; lia.
    - intros Hz. apply Z0. destruct Hz as [Hz|Hz].
      + destruct P1' as [H1|H1]; [destruct (F1 H1) as [L1 _]; congruence|]. rewrite <- H1. ring.
      + destruct P2' as [H1|H1]; [destruct (F2 H1) as [L1 _]; congruence|]. rewrite <- H1. ring.
  Qed.
End Split.
