(** Full fits with arbitrary time stamps and priors: change-points and the Independent model. *)
From Coq Require Import List ZArith Reals Lra Lia Arith Bool String.
From Verif Require Import Base.Num Base.Exn Base.Arr Base.RSum Base.Lift Model.Helper Model.Tm Model.HyperParams Model.Study
  Spec.Kernel Spec.Hmm Spec.Config Spec.Dist Spec.Data Proof.HmmProof Proof.KernelProof Proof.FitThms Proof.FitCore Proof.FitResults
  Proof.InferProof Proof.StaticProof Proof.DataProof Proof.BwdGeneral Proof.SplitProof.
Import ListNotations.
Local Open Scope R_scope.

(** what a full fit with finite evidence computed *)
Lemma fit_full_inv S o m vs ts rho lik : configured S o m vs ts -> linear (om_names o) m -> priorIs S vs o (om_prior o) rho ->
  likelihoods S o vs lik -> stablePrior (om_prior o) \/ resetFree S o m ts -> (0 < nSteps S o)%nat ->
  let N := gridPoints vs in let n := nSteps S o in let K := transition S o m ts rho in
  let back i := kernel (spaceS S o rho) m (timeOf ts o (Datatypes.S i) - 1) in
  forall S' v, fit S false false = Ok S' -> st_logEv S' = Fin v ->
  0 < evidence N n rho K lik /\ v = ln (evidence N n rho K lik * mvol S o m ts n) /\
  (forall i, (i < n)%nat -> 0 < rsum N (combined N n rho K back lik i)) /\
  st_post S' = map (fun i => Some (arrOf N (smoothed N n rho K back lik i))) (seq 0 n).
Proof.
  intros C Lin P HL St Hn N n K back S' v E Ev. pose proof (rho_nonneg S o m vs ts rho C P) as Prho.
  destruct (env_back S o m vs ts rho C Lin P St) as (e' & rho' & FE & HB).
  assert (HZ : 0 <= evidence N n rho K lik).
  { unfold K. rewrite <- (EvK S o m vs ts rho e' rho' lik FE) by (unfold n; lia). apply evidence_nonneg; auto.
    - intros i x y Hx Hy. now apply (Kst S o m vs ts rho e' rho' C Lin FE i).
    - intros i x Hi Hx. now apply (FitCore.Pl S o vs lik HL). }
  destruct (Req_dec (evidence N n rho K lik) 0) as [Z0|Z0].
  { destruct (fit_zero S o m vs ts rho e' rho' lik C Lin FE Prho HL Hn false false Z0) as (S2 & k & l & F1 & F2 & _).
    rewrite E in F1. inversion F1; subst. congruence. }
  assert (H0 : 0 < evidence N n rho K lik) by lra. split; [exact H0|].
  assert (CB : forall i x, (i < n)%nat -> (x < N)%nat ->
    combined N n rho K (fun i => kernel (spaceOf e' rho') m (timeOf ts o (Datatypes.S i) - 1)) lik i x = combined N n rho K back lik i x).
  { intros i x Hi Hx. unfold combined. f_equal. apply message_ext; auto. intros j y z Hj1 Hj2 _ _. unfold back. rewrite HB; auto. lia. }
  destruct (fit_general S o m vs ts rho e' rho' lik C Lin FE Prho HL Hn H0) as (S2 & F1 & [(F2 & F3 & F4)|(F2 & _)]);
    rewrite E in F1; inversion F1; subst S2; [|congruence].
  rewrite F2 in Ev. inversion Ev. split; [reflexivity|]. split.
  - intros i Hi. rewrite <- (rsum_ext N _ _ (fun x Hx => CB i x Hi Hx)). now apply F3.
  - rewrite F4. apply map_ext_in. intros i Hi. apply in_seq in Hi. f_equal. unfold arrOf. f_equal. apply tab_ext. intros x Hx.
    unfold smoothed. rewrite CB by (auto; lia). f_equal. apply rsum_ext. intros y Hy. apply CB; auto; lia.
Qed.

Lemma smoothed_scal N n init trans back lik i c g : (forall x, (x < N)%nat -> combined N n init trans back lik i x = c * g x) ->
  0 < rsum N (combined N n init trans back lik i) -> forall x, (x < N)%nat -> smoothed N n init trans back lik i x = normalised N g x.
Proof.
  intros E H x Hx. unfold smoothed, normalised. rewrite (rsum_ext N _ (fun x => c * g x)) in H |- * by auto.
  rewrite rsum_scal in H |- *. rewrite E by auto. assert (c <> 0) by (intros ->; lra). assert (rsum N g <> 0) by (intros Z; rewrite Z in H; lra).
  field. auto.
Qed.

Lemma window_S lik a b x : (a <= b)%nat -> window lik a (Datatypes.S b) x = window lik a b x * lik b x.
Proof.
  intros H. unfold window. replace (Datatypes.S b - a)%nat with ((b - a) + 1)%nat by lia. rewrite seq_app, map_app, Rprod_app. f_equal.
  cbn. replace (a + (b - a))%nat with b by lia. ring.
Qed.
Lemma window_nil lik a x : window lik a a x = 1.
Proof. unfold window. rewrite Nat.sub_diag. reflexivity. Qed.
Lemma window_join lik a b c x : (a <= b)%nat -> (b <= c)%nat -> window lik a b x * window lik b c x = window lik a c x.
Proof.
  intros H1 H2. unfold window. replace (c - a)%nat with ((b - a) + (c - b))%nat by lia. rewrite seq_app, map_app, Rprod_app. do 2 f_equal. do 2 f_equal. lia.
Qed.
Lemma window_cons lik a b x : (a < b)%nat -> window lik a b x = lik a x * window lik (Datatypes.S a) b x.
Proof.
  intros H. unfold window. replace (b - a)%nat with (Datatypes.S (b - Datatypes.S a)) by lia. reflexivity.
Qed.

Lemma rsum_Kid N f x : (x < N)%nat -> rsum N (fun y => Kid y x * f y) = f x.
Proof.
  intros Hx. rewrite (rsum_ext N _ (fun y => if Nat.eqb y x then f y else 0)).
  - now apply rsum_delta.
  - intros y _. unfold Kid. destruct (Nat.eqb y x); ring.
Qed.
Lemma message_id N back lik : forall r1 r2 i x, (x < N)%nat ->
  (forall j y z, (i <= j)%nat -> (j < i + r1)%nat -> (y < N)%nat -> (z < N)%nat -> back j y z = Kid y z) ->
  message N back lik i (r1 + r2) x = window lik (i + 1) (i + 1 + r1) x * message N back lik (i + r1) r2 x.
Proof.
  induction r1 as [|r IH]; intros r2 i x Hx HB.
  - rewrite !Nat.add_0_r, window_nil. cbn [Nat.add]. ring.
  - cbn [Nat.add message]. rewrite (rsum_ext N _ (fun y => Kid y x * (lik (Datatypes.S i) y * message N back lik (Datatypes.S i) (r + r2) y))).
    2:{ intros y Hy. rewrite HB by (auto; lia). reflexivity. }
    rewrite (rsum_Kid N (fun y => lik (Datatypes.S i) y * message N back lik (Datatypes.S i) (r + r2) y)) by auto.
    rewrite (IH r2 (Datatypes.S i) x Hx) by (intros; apply HB; auto; lia).
    rewrite (window_cons lik (i + 1)) by lia.
    replace (Datatypes.S (i + 1)) with (Datatypes.S i + 1)%nat by lia. replace (i + 1 + Datatypes.S r)%nat with (Datatypes.S i + 1 + r)%nat by lia.
    replace (i + Datatypes.S r)%nat with (Datatypes.S i + r)%nat by lia. replace (i + 1)%nat with (Datatypes.S i) by lia. ring.
Qed.
Lemma message_id_all N back lik r i x : (x < N)%nat ->
  (forall j y z, (i <= j)%nat -> (j < i + r)%nat -> (y < N)%nat -> (z < N)%nat -> back j y z = Kid y z) ->
  message N back lik i r x = window lik (i + 1) (i + 1 + r) x.
Proof. intros Hx HB. replace r with (r + 0)%nat at 1 by lia. rewrite (message_id N back lik r 0 i x Hx HB). cbn [message]. ring. Qed.
Lemma message_reset N back lik rho r i x : (x < N)%nat ->
  (forall y z, (y < N)%nat -> (z < N)%nat -> back i y z = rho z) ->
  message N back lik i (Datatypes.S r) x = rho x * rsum N (fun y => lik (Datatypes.S i) y * message N back lik (Datatypes.S i) r y).
Proof. intros Hx HB. cbn [message]. rewrite <- rsum_scal. apply rsum_ext. intros y Hy. now rewrite HB. Qed.

(** the filtering distributions around a single reset *)
Section Reset.
  Variables (N n k : nat) (rho : nat -> R) (K : nat -> nat -> nat -> R) (lik : nat -> nat -> R).
  Hypothesis Hk : (0 < k)%nat.
  Hypothesis Hkn : (k < n)%nat.
  Hypothesis KI : forall i x y, i <> (k - 1)%nat -> (i < n)%nat -> (x < N)%nat -> (y < N)%nat -> K i x y = Kid x y.
  Hypothesis KR : forall x y, (x < N)%nat -> (y < N)%nat -> K (k - 1)%nat x y = rho y.
  Let cut i : nat -> nat -> R := if (i <? n)%nat then K i else Kid.

  Lemma ev_id r L q : (0 < q)%nat -> (forall i x y, (Datatypes.S i < q)%nat -> (x < N)%nat -> (y < N)%nat -> L i x y = Kid x y) ->
    forall lk, evidence N q r L lk = rsum N (fun x => r x * window lk 0 q x).
  Proof.
    intros Hq HL lk. rewrite (evidence_trans N q r L (fun _ => Kid)) by auto. rewrite evidence_static by auto.
    apply rsum_ext. intros x _. unfold window. now rewrite Nat.sub_0_r.
  Qed.
  Lemma joint_id r L q i x lk : (i < q)%nat -> (x < N)%nat -> (forall i x y, (Datatypes.S i < q)%nat -> (x < N)%nat -> (y < N)%nat -> L i x y = Kid x y) ->
    jointAt N q r L lk i x = r x * window lk 0 q x.
  Proof.
    intros Hq Hx HL. rewrite (jointAt_trans N q r L (fun _ => Kid)) by auto. rewrite joint_static by auto.
    unfold window. now rewrite Nat.sub_0_r.
  Qed.
  Lemma window_shift q x : window (fun i => lik (k + i)%nat) 0 q x = window lik k (k + q) x.
  Proof.
    unfold window. rewrite Nat.sub_0_r. replace (k + q - k)%nat with q by lia. f_equal.
    assert (G : forall q a, map (fun j => lik (k + j)%nat x) (seq a q) = map (fun j => lik j x) (seq (k + a) q)).
    { clear. induction q as [|q IH]; intros a; cbn; auto. f_equal. rewrite <- Nat.add_succ_r. apply IH. }
    rewrite G, Nat.add_0_r. reflexivity.
  Qed.
  Lemma ev_before q : (0 < q)%nat -> (q <= k)%nat -> evidence N q rho K lik = rsum N (fun x => rho x * window lik 0 q x).
  Proof. intros H1 H2. apply ev_id; auto. intros i x y Hi Hx Hy. apply KI; auto; lia. Qed.
  Lemma ev_after q : (k < q)%nat -> (q <= n)%nat ->
    evidence N q rho K lik = rsum N (fun x => rho x * window lik 0 k x) * rsum N (fun x => rho x * window lik k q x).
  Proof.
    intros H1 H2. rewrite (evidence_split N q k rho rho K lik Hk H1 KR). rewrite ev_before by lia. f_equal.
    rewrite ev_id by (try (intros i x y Hi Hx Hy; apply KI; auto; lia); lia). apply rsum_ext. intros x _. rewrite window_shift. do 2 f_equal. lia.
  Qed.
  Lemma filt_before i x : (i < k)%nat -> (x < N)%nat ->
    posterior N (Datatypes.S i) rho K lik i x = rho x * window lik 0 (Datatypes.S i) x / rsum N (fun x => rho x * window lik 0 (Datatypes.S i) x).
  Proof.
    intros Hi Hx. unfold posterior. rewrite ev_before by lia. rewrite joint_id; auto. intros j y z Hj Hy Hz. apply KI; auto; lia.
  Qed.
  Lemma filt_after i x : (k <= i)%nat -> (i < n)%nat -> (x < N)%nat -> 0 < rsum N (fun x => rho x * window lik 0 k x) ->
    posterior N (Datatypes.S i) rho K lik i x = rho x * window lik k (Datatypes.S i) x / rsum N (fun x => rho x * window lik k (Datatypes.S i) x).
  Proof.
    intros Hi Hn Hx HE. unfold posterior. rewrite ev_after by lia. replace i with (k + (i - k))%nat at 2 by lia.
    rewrite (joint_split_after N (Datatypes.S i) k rho rho K lik (i - k) x) by (auto; lia). rewrite ev_before by lia.
    rewrite joint_id; [|lia|auto|intros j y z Hj Hy Hz; apply KI; auto; lia].
    rewrite window_shift. replace (k + (Datatypes.S i - k))%nat with (Datatypes.S i) by lia.
    unfold Rdiv. rewrite Rinv_mult. generalize (/ rsum N (fun x => rho x * window lik k (Datatypes.S i) x)). intros w. field. lra.
  Qed.
End Reset.

(** a single change-point *)
Section Change.
  Variables (S : study R R) (o : om R) (hn : list string) (hp : option (nl (hprior R))) (vs : list (list R)) (ts : list R)
            (rho : nat -> R) (lik : nat -> nat -> R) (k : nat) (c : R).
  Let m := TM KChange hn [HNum c] hp [].
  Hypothesis C : configured S o m vs ts.
  Hypothesis P : priorIs S vs o (om_prior o) rho.
  Hypothesis HL : likelihoods S o vs lik.
  Hypothesis Hs : om_seglen o = 1%nat.
  Hypothesis Hk : (0 < k)%nat.
  Hypothesis Hkn : (k < rawLen (st_raw S))%nat.
  Hypothesis Inc : increasing ts.
  Hypothesis Hc : nth (k - 1) ts 0 = c.
  Hypothesis St : stablePrior (om_prior o).
  Notation N := (gridPoints vs).
  Notation n := (nSteps S o).
  Notation K := (transition S o m ts rho).
  Lemma chg_n : n = rawLen (st_raw S).
  Proof. rewrite (formatData_length S o). lia. Qed.
  Lemma chg_tl : List.length ts = n.
  Proof. rewrite chg_n. exact (cf_ts_len _ _ _ _ _ C). Qed.
  Lemma chg_lin : linear (om_names o) m.
  Proof. constructor. Qed.
  Lemma eqR_eq a b : a = b -> eqR a b = true.
  Proof. unfold eqR. destruct (Req_EM_T a b); congruence. Qed.
  Lemma eqR_neq a b : a <> b -> eqR a b = false.
  Proof. unfold eqR. destruct (Req_EM_T a b); congruence. Qed.
  Lemma chg_neq i : i <> (k - 1)%nat -> (i < n)%nat -> nth i ts 0 <> c.
  Proof.
    intros Hi Hin. rewrite <- Hc. destruct (Nat.lt_total i (k - 1)) as [H|[H|H]]; [|congruence|].
    - pose proof (Inc i (k - 1)%nat H ltac:(rewrite chg_tl, chg_n; lia)). lra.
    - pose proof (Inc (k - 1)%nat i H ltac:(rewrite chg_tl; lia)). lra.
  Qed.
  Lemma chg_K0 i : i <> (k - 1)%nat -> (i < n)%nat -> K i = Kid.
  Proof. intros Hi Hin. unfold transition. cbn. rewrite timeOf_1, eqR_neq by (auto using chg_neq). reflexivity. Qed.
  Lemma chg_K1 : K (k - 1)%nat = Kreset rho.
  Proof. unfold transition. cbn. rewrite timeOf_1, eqR_eq by auto. reflexivity. Qed.
  Lemma chg_count : resetCount m (timeOf ts o) n = 1%nat.
  Proof.
    unfold resetCount. replace (n - 1)%nat with ((k - 1) + Datatypes.S (n - k - 1))%nat by (rewrite chg_n; lia). rewrite seq_app, filter_app, app_length.
    assert (F : forall a q, (forall i, (a <= i)%nat -> (i < a + q)%nat -> i <> (k - 1)%nat /\ (i < n)%nat) -> List.length (filter (fun i => resetAt m (timeOf ts o i)) (seq a q)) = 0%nat).
    { intros a q; revert a; induction q as [|q IH]; intros a H; [reflexivity|]. cbn [seq filter]. destruct (H a ltac:(lia) ltac:(lia)) as [H1 H2].
      unfold resetAt at 1. cbn. rewrite timeOf_1, eqR_neq by (auto using chg_neq). apply IH. intros; apply H; lia. }
    rewrite F by (intros; rewrite chg_n; lia). cbn [Nat.add seq filter]. unfold resetAt at 1. cbn [resetBy hd numOf m]. rewrite timeOf_1, eqR_eq by auto. cbn [List.length].
    rewrite F; [reflexivity|]. intros i H1 H2. rewrite chg_n in *. lia.
  Qed.

  Lemma change_full S' v : fit S false false = Ok S' -> st_logEv S' = Fin v ->
    let early := rsum N (fun x => rho x * window lik 0 k x) in let late := rsum N (fun x => rho x * window lik k n x) in
    0 < early /\ 0 < late /\ v = ln (early * late * cellVolume S) /\
    (nth k ts 0 = c + 1 -> st_post S' = map (fun i => Some (arrOf N (normalised N (fun x =>
       if Nat.ltb i k then rho x * rho x * window lik 0 k x else rho x * window lik k n x)))) (seq 0 n)) /\
    ((forall j, (j < n)%nat -> nth j ts 0 <> c + 1) -> st_post S' = map (fun i => Some (arrOf N (normalised N (fun x =>
       if Nat.ltb i k then rho x * window lik 0 n x else rho x * window lik k n x)))) (seq 0 n)).
  Proof.
    intros E Ev early late. pose proof (chg_n) as En. pose proof (rho_nonneg S o m vs ts rho C P) as Prho.
    destruct (fit_full_inv S o m vs ts rho lik C chg_lin P HL (or_introl St) ltac:(lia) S' v E Ev) as (HE & EV & HC & EP).
    assert (KI : forall i x y, i <> (k - 1)%nat -> (i < n)%nat -> (x < N)%nat -> (y < N)%nat -> K i x y = Kid x y).
    { intros i x y H1 H2 _ _. now rewrite chg_K0. }
    assert (KR : forall x y, (x < N)%nat -> (y < N)%nat -> K (k - 1)%nat x y = rho y).
    { intros x y _ _. now rewrite chg_K1. }
    assert (Hkn' : (k < n)%nat) by lia.
    assert (EA : evidence N n rho K lik = early * late) by (apply (ev_after N n k rho K lik); auto).
    rewrite EA in HE, EV.
    assert (Pe : 0 <= early).
    { apply rsum_nonneg. intros x Hx. apply Rmult_le_pos; auto. apply Rprod_nonneg, Forall_map, Forall_forall. intros j Hj. apply in_seq in Hj.
      apply (FitCore.Pl S o vs lik HL); auto. lia. }
    assert (H1 : 0 < early) by (destruct Pe as [|Z]; auto; rewrite <- Z in HE; lra).
    assert (H2 : 0 < late) by (apply (Rmult_lt_reg_l early); auto; lra).
    split; [exact H1|]. split; [exact H2|]. split; [rewrite EV; unfold mvol; rewrite chg_count; cbn [pow]; f_equal; ring|].
    set (back := fun i => kernel (spaceS S o rho) m (timeOf ts o (Datatypes.S i) - 1)) in *.
    assert (Back : forall j, (Datatypes.S j < n)%nat -> nth (Datatypes.S j) ts 0 <> c + 1 -> back j = Kid).
    { intros j Hj Hn. unfold back. cbn. rewrite timeOf_1, eqR_neq; auto. lra. }
    split; intros HT; rewrite EP; apply map_ext_in; intros i Hi; apply in_seq in Hi; f_equal; unfold arrOf; f_equal; apply tab_ext; intros x0 Hx0;
      destruct (Nat.ltb_spec i k) as [Hik|Hik]; (eapply smoothed_scal; [|apply HC; lia|exact Hx0]); intros x Hx; unfold combined.
    - rewrite (filt_before N n k rho K lik) by (auto; lia).
      replace (n - 1 - i)%nat with ((k - 1 - i) + Datatypes.S (n - 1 - k))%nat by lia. rewrite message_id; auto.
      2:{ intros j y z H3 H4 _ _. rewrite Back; auto; [lia|]. pose proof (Inc (Datatypes.S j) k ltac:(lia) ltac:(rewrite chg_tl; lia)). lra. }
      replace (i + (k - 1 - i))%nat with (k - 1)%nat by lia. rewrite (message_reset N back lik rho); auto.
      2:{ intros y z _ _. unfold back. replace (Datatypes.S (k - 1)) with k by lia. cbn. rewrite timeOf_1, eqR_eq by (auto; lra). reflexivity. }
      replace (i + 1 + (k - 1 - i))%nat with k by lia. replace (i + 1)%nat with (Datatypes.S i) by lia.
      rewrite <- (window_join lik 0 (Datatypes.S i) k x) by lia.
      instantiate (1 := rsum N (fun y => lik (Datatypes.S (k - 1)) y * message N back lik (Datatypes.S (k - 1)) (n - 1 - k) y) / rsum N (fun x => rho x * window lik 0 (Datatypes.S i) x)). unfold Rdiv. ring.
    - rewrite (filt_after N n k rho K lik) by (auto; lia). rewrite message_id_all; auto.
      2:{ intros j y z H3 H4 _ _. rewrite Back; auto; [lia|]. pose proof (Inc k (Datatypes.S j) ltac:(lia) ltac:(rewrite chg_tl; lia)). lra. }
      replace (i + 1 + (n - 1 - i))%nat with n by lia. replace (i + 1)%nat with (Datatypes.S i) by lia.
      rewrite <- (window_join lik k (Datatypes.S i) n x) by lia.
      instantiate (1 := 1 / rsum N (fun x => rho x * window lik k (Datatypes.S i) x)). unfold Rdiv. ring.
    - rewrite (filt_before N n k rho K lik) by (auto; lia). rewrite message_id_all; auto.
      2:{ intros j y z H3 H4 _ _. rewrite Back; auto; [lia|]. apply HT. lia. }
      replace (i + 1 + (n - 1 - i))%nat with n by lia. replace (i + 1)%nat with (Datatypes.S i) by lia.
      rewrite <- (window_join lik 0 (Datatypes.S i) n x) by lia.
      instantiate (1 := 1 / rsum N (fun x => rho x * window lik 0 (Datatypes.S i) x)). unfold Rdiv. ring.
    - rewrite (filt_after N n k rho K lik) by (auto; lia). rewrite message_id_all; auto.
      2:{ intros j y z H3 H4 _ _. rewrite Back; auto; [lia|]. apply HT. lia. }
      replace (i + 1 + (n - 1 - i))%nat with n by lia. replace (i + 1)%nat with (Datatypes.S i) by lia.
      rewrite <- (window_join lik k (Datatypes.S i) n x) by lia.
      instantiate (1 := 1 / rsum N (fun x => rho x * window lik k (Datatypes.S i) x)). unfold Rdiv. ring.
  Qed.
End Change.
