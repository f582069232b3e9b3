(** Change-points, the Independent model and time stamps: C09, C17, C22. *)
From Coq Require Import List ZArith QArith Reals Lra Lia Arith Bool String.
From Verif Require Import Base.Num Base.Exn Base.Arr Base.RSum Base.Lift Model.Helper Model.Tm Model.HyperParams Model.Study Model.Api
  Spec.Kernel Spec.Hmm Spec.Config Spec.Dist Spec.Data Proof.KernelProof Proof.HmmProof Proof.FitThms Proof.FitCore Proof.FitResults
  Proof.InferProof Proof.StaticProof Proof.SplitProof Proof.SmoothProof Proof.IndepProof Props.Ex Props.ExR.
Import ListNotations.
Local Open Scope R_scope.

Lemma nth_error_map_seq {A} (f : nat -> A) n i : (i < n)%nat -> nth_error (map f (seq 0 n)) i = Some (f i).
Proof.
  intros Hi. rewrite nth_error_map. rewrite (List.nth_error_nth' _ O) by now rewrite seq_length. rewrite seq_nth by auto. reflexivity.
Qed.

(** ** C09 *)
(** [A] combines the results [A1] and [A2] of two studies of the same grid *)
Definition joins (vol : R) (A A1 A2 : study R R) : Prop :=
  (forall v1 v2, st_logEv A1 = Fin v1 -> st_logEv A2 = Fin v2 ->
     st_logEv A = Fin (v1 + v2 + ln vol) /\ st_post A = st_post A1 ++ st_post A2) /\
  (st_logEv A1 = NInf \/ st_logEv A2 = NInf -> st_logEv A = NInf).

(** A change-point right after the k-th data point: the fit is that of two separate Static studies, of the first k data
    points and of the others.  Forward-only fits: any prior that is stable under resets. Full fits: flat prior. *)
Theorem C09_change_point : forall S o hn hp c vs ts rho lik k fo S1 S2,
  configured S o (TM KChange hn [HNum c] hp []) vs ts -> priorIs S vs o (om_prior o) rho -> likelihoods S o vs lik ->
  om_seglen o = 1%nat -> (0 < k)%nat -> (k < rawLen (st_raw S))%nat -> increasing ts -> nth (k - 1) ts 0 = c ->
  stablePrior (om_prior o) -> fo = true \/ (unitSpaced ts /\ om_prior o = PNone) ->
  runCalls S [CLoad (rawFirstn k (st_raw S)) (Some (firstn k ts)); CSetTM mkStatic] = Ok S1 ->
  runCalls S [CLoad (rawSkipn k (st_raw S)) (Some (skipn k ts)); CSetTM mkStatic] = Ok S2 ->
  exists A A1 A2, fit S fo false = Ok A /\ fit S1 fo false = Ok A1 /\ fit S2 fo false = Ok A2 /\ joins (cellVolume S) A A1 A2.
Proof.
  intros S o hn hp c vs ts rho lik k fo S1 S2 C P HL Hs Hk Hkn Inc Hc St Mode E1 E2. cbn in E1, E2. inversion E1; subst S1. inversion E2; subst S2.
  pose proof (chg_n S o k Hs Hk Hkn) as En.
  apply (split_fit S o _ mkStatic mkStatic vs ts rho lik k fo C P HL Hs); auto; try apply lin_static; try apply lin_change; try apply NoDup_nil.
  - intros i Hi. unfold transition, resetAt. cbn. rewrite timeOf_1, eqR_neq by (auto; apply (chg_neq S o hn hp vs ts k c C Hs Hk Hkn Inc Hc); lia). auto.
  - unfold transition, resetAt. cbn. rewrite timeOf_1, eqR_eq by auto. auto.
  - intros i Hi Hin. unfold transition, resetAt. cbn. rewrite timeOf_1, eqR_neq by (auto; apply (chg_neq S o hn hp vs ts k c C Hs Hk Hkn Inc Hc); lia). auto.
Qed.

(** The same for a serial model [m1, ChangePoint c, m2] with arbitrary linear sub-models *)
Theorem C09_serial : forall S o hn hp c m1 m2 vs ts rho lik k fo S1 S2,
  configured S o (TM (KSerial [true]) hn [HNum c] hp [m1; m2]) vs ts -> priorIs S vs o (om_prior o) rho -> likelihoods S o vs lik ->
  linear (om_names o) m1 -> linear (om_names o) m2 -> NoDup (allNames m1) -> NoDup (allNames m2) ->
  om_seglen o = 1%nat -> (0 < k)%nat -> (k < rawLen (st_raw S))%nat -> increasing ts -> nth (k - 1) ts 0 = c ->
  stablePrior (om_prior o) -> fo = true \/ (unitSpaced ts /\ om_prior o = PNone) ->
  runCalls S [CLoad (rawFirstn k (st_raw S)) (Some (firstn k ts)); CSetTM m1] = Ok S1 ->
  runCalls S [CLoad (rawSkipn k (st_raw S)) (Some (skipn k ts)); CSetTM m2] = Ok S2 ->
  exists A A1 A2, fit S fo false = Ok A /\ fit S1 fo false = Ok A1 /\ fit S2 fo false = Ok A2 /\ joins (cellVolume S) A A1 A2.
Proof.
  intros S o hn hp c m1 m2 vs ts rho lik k fo S1 S2 C P HL L1 L2 N1 N2 Hs Hk Hkn Inc Hc St Mode E1 E2.
  assert (B1 : isBreak m1 = false) by (destruct L1; reflexivity). assert (B2 : isBreak m2 = false) by (destruct L2; reflexivity).
  cbn [runCalls runCall bind] in E1, E2. unfold setTM in E1, E2. rewrite B1 in E1. rewrite B2 in E2. cbn [bind] in E1, E2.
  inversion E1; subst S1. inversion E2; subst S2. clear E1 E2.
  pose proof (chg_n S o k Hs Hk Hkn) as En.
  assert (Tl : List.length ts = rawLen (st_raw S)) by exact (cf_ts_len _ _ _ _ _ C).
  set (m := TM (KSerial [true]) hn [HNum c] hp [m1; m2]) in *.
  assert (before : forall t sp, t < c -> kernel sp m t = kernel sp m1 t /\ resetAt m t = resetAt m1 t).
  { intros t sp Ht. unfold resetAt at 1, m. cbn [kernel resetBy]. cbn [map numOf changeTimes combine filter snd fst existsb]. rewrite eqR_neq by lra. cbn [orb].
    unfold breaksBefore. cbn [filter]. destruct (Rle_dec c t); [lra|]. cbn. auto. }
  assert (after : forall t sp, c < t -> kernel sp m t = kernel sp m2 t /\ resetAt m t = resetAt m2 t).
  { intros t sp Ht. unfold resetAt at 1, m. cbn [kernel resetBy]. cbn [map numOf changeTimes combine filter snd fst existsb]. rewrite eqR_neq by lra. cbn [orb].
    unfold breaksBefore. cbn [filter]. destruct (Rle_dec c t); [|lra]. cbn. auto. }
  apply (split_fit S o m m1 m2 vs ts rho lik k fo C P HL Hs); auto.
  - apply (lin_serial (om_names o) hn hp [true] [c] [m1; m2]); auto.
  - intros i Hi. unfold transition. rewrite !timeOf_1 by auto. apply before.
    pose proof (Inc i (k - 1)%nat Hi ltac:(lia)). lra.
  - unfold transition. rewrite timeOf_1, Hc by auto. unfold resetAt, m. cbn [kernel resetBy]. cbn [map numOf changeTimes combine filter snd fst existsb].
    rewrite eqR_eq by auto. cbn. auto.
  - intros i Hi Hin. unfold transition. rewrite !timeOf_1 by auto. apply after.
    pose proof (Inc (k - 1)%nat i ltac:(lia) ltac:(lia)). lra.
Qed.

(** Full fit with a non-flat prior: the prior appears twice in the posteriors before the change-point *)
Theorem C09_prior_twice : forall S o hn hp c vs ts rho lik k S' v,
  configured S o (TM KChange hn [HNum c] hp []) vs ts -> priorIs S vs o (om_prior o) rho -> likelihoods S o vs lik ->
  om_seglen o = 1%nat -> (0 < k)%nat -> (k < rawLen (st_raw S))%nat -> increasing ts -> nth (k - 1) ts 0 = c -> nth k ts 0 = c + 1 ->
  stablePrior (om_prior o) ->
  fit S false false = Ok S' -> st_logEv S' = Fin v ->
  let N := gridPoints vs in let n := rawLen (st_raw S) in
  exp v = rsum N (fun x => rho x * window lik 0 k x) * rsum N (fun x => rho x * window lik k n x) * cellVolume S /\
  (forall i, (i < k)%nat -> nth_error (st_post S') i = Some (Some (arrOf N (normalised N (fun x => rho x * rho x * window lik 0 k x))))) /\
  (forall i, (k <= i)%nat -> (i < n)%nat -> nth_error (st_post S') i = Some (Some (arrOf N (normalised N (fun x => rho x * window lik k n x))))).
Proof.
  intros S o hn hp c vs ts rho lik k S' v C P HL Hs Hk Hkn Inc Hc Hc1 St E Ev N n. pose proof (chg_n S o k Hs Hk Hkn) as En.
  destruct (change_full S o hn hp vs ts rho lik k c C P HL Hs Hk Hkn Inc Hc St S' v E Ev) as (H1 & H2 & EV & EP & _). rewrite En in H2, EV, EP. fold n N in H1, H2, EV, EP.
  specialize (EP Hc1). split.
  - rewrite EV, exp_ln; [reflexivity|]. repeat apply Rmult_lt_0_compat; auto. exact (cfg_volpos S o _ vs ts C).
  - rewrite EP. split; intros i Hi; [|intros Hin]; rewrite nth_error_map_seq by lia; do 4 f_equal; destruct (Nat.ltb_spec i k); try lia; reflexivity.
Qed.

(** non-vacuity of C09_change_point and C09_serial: five tosses, change after the second *)
Definition walkThenStatic : tm R := serial [true] ["c"%string] [1] [grw "s" "p" (1 / 4); indep].
Example C09_example : exists S, setup (data [1; 0; 0; 1; 1]%Z) None (coin PNone) walkThenStatic = Ok S /\
  configured S (coin PNone) walkThenStatic [quarters] (times [1; 0; 0; 1; 1]%Z) /\
  priorIs S [quarters] (coin PNone) (om_prior (coin PNone)) (flat (gridPoints [quarters])) /\
  likelihoods S (coin PNone) [quarters] (coinLik [1; 0; 0; 1; 1]%Z) /\ unitSpaced (times [1; 0; 0; 1; 1]%Z) /\
  increasing (times [1; 0; 0; 1; 1]%Z) /\ nth (2 - 1) (times [1; 0; 0; 1; 1]%Z) 0 = 1 /\
  linear (om_names (coin PNone)) (grw "s" "p" (1 / 4)) /\ linear (om_names (coin PNone)) indep /\ (2 < rawLen (st_raw S))%nat.
Proof.
  assert (Hm : isBreak walkThenStatic = false) by reflexivity.
  assert (ND : NoDup (allNames walkThenStatic)) by (cbn; repeat constructor; cbn; intuition discriminate).
  destruct (coin_setup [1; 0; 0; 1; 1]%Z PNone walkThenStatic Hm) as (S & E & _ & _ & _ & Er & _). exists S. split; [exact E|].
  assert (Hb : bits [1; 0; 0; 1; 1]%Z) by (repeat constructor; auto).
  split; [now apply coin_configured|]. split; [constructor|].
  split; [now apply (coin_likelihoods _ _ _ _ E Hm Hb)|]. split; [apply times_unit|]. split; [apply unit_increasing, times_unit|].
  split; [reflexivity|]. split; [repeat constructor|]. split; [constructor|]. rewrite Er. cbn. lia.
Qed.
(** executed: the study with change-point and the two separate studies *)
Example C09_executed :
  (let* S0 := setup (L := Q) (data [1; 0; 0; 1; 1]%Z) None (coinOM quarters PNone) (change "c" 1%Q) in
   let* S1 := setup (L := Q) (data [1; 0]%Z) (Some [0; 1]%Q) (coinOM quarters PNone) static in
   let* S2 := setup (L := Q) (data [0; 1; 1]%Z) (Some [2; 3; 4]%Q) (coinOM quarters PNone) static in
   let* A := fit S0 false false in let* A1 := fit S1 false false in let* A2 := fit S2 false false in
   Ok (st_logEv A, st_logEv A1, st_logEv A2, (nth 0 (st_post A) None, nth 0 (st_post A1) None), (nth 2 (st_post A) None, nth 0 (st_post A2) None)))%res
  = Ok (Fin (25 # 4608), Fin (5 # 24), Fin (5 # 48),
        (Some [Fin (3 # 10); Fin (2 # 5); Fin (3 # 10)], Some [Fin (3 # 10); Fin (2 # 5); Fin (3 # 10)]),
        (Some [Fin (3 # 20); Fin (2 # 5); Fin (9 # 20)], Some [Fin (3 # 20); Fin (2 # 5); Fin (9 # 20)]))%Q.
Proof. vm_compute. reflexivity. Qed.

(** a prior that is not flat: p itself *)
Lemma slope_prior S : priorIs S [quarters] (coin slope) (om_prior (coin slope)) (normalised 3 (fun x => nth x quarters 0)).
Proof.
  apply (pri_fun S [quarters] (coin slope) (fun g => map Fin (hd [] g)) (fun x => nth x quarters 0)).
  - reflexivity.
  - intros x Hx. cbn in Hx. destruct x as [|[|[|x]]]; [| | |lia]; unfold quarters, frac; cbn; lra.
  - unfold quarters, frac, rsum, tab. cbn. lra.
  - unfold quarters, frac, rsum, tab. cbn. lra.
Qed.
(** the prior is 1:2:3, one head before the change-point has likelihoods 1:2:3: with the prior counted twice 1:8:27 *)
Example C09_twice_example :
  (let* S0 := setup (L := Q) (data [1; 0]%Z) None (coinOM quarters slope) (change "c" 0%Q) in let* A := fit S0 false false in Ok (st_logEv A, st_post A))%res
  = Ok (Fin (35 # 576), [Some [Fin (1 # 36); Fin (2 # 9); Fin (3 # 4)]; Some [Fin (3 # 10); Fin (2 # 5); Fin (3 # 10)]])%Q.
Proof. vm_compute. reflexivity. Qed.
(** so a separate study of the first data point disagrees *)
Theorem C09_nonflat_refuted : exists S S1 A A1 : study Q Q,
  setup (data [1; 0]%Z) None (coinOM quarters slope) (change "c" 0%Q) = Ok S /\
  setup (data [1]%Z) None (coinOM quarters slope) static = Ok S1 /\
  fit S false false = Ok A /\ fit S1 false false = Ok A1 /\ nth 0 (st_post A) None <> nth 0 (st_post A1) None.
Proof.
  assert (E : (let* S0 := setup (L := Q) (data [1; 0]%Z) None (coinOM quarters slope) (change "c" 0%Q) in
     let* S1 := setup (L := Q) (data [1]%Z) None (coinOM quarters slope) static in
     let* A := fit S0 false false in let* A1 := fit S1 false false in Ok (nth 0 (st_post A) None, nth 0 (st_post A1) None))%res
     = Ok (Some [Fin (1 # 36); Fin (2 # 9); Fin (3 # 4)], Some [Fin (1 # 14); Fin (2 # 7); Fin (9 # 14)])%Q) by (vm_compute; reflexivity).
  run E. do 4 eexists. repeat (split; [eassumption|]). congruence.
Qed.

(** ** C17 *)
(** forward-only fit: every datum on its own *)
Theorem C17_filtering : forall S o hn hp vs ts rho lik,
  configured S o (TM KIndep hn [] hp []) vs ts -> priorIs S vs o (om_prior o) rho -> likelihoods S o vs lik ->
  stablePrior (om_prior o) -> (0 < nSteps S o)%nat ->
  let N := gridPoints vs in let n := nSteps S o in
  let evidences := map (fun i => rsum N (fun x => rho x * lik i x)) (seq 0 n) in
  exists S', fit S true false = Ok S' /\
    (Rprod evidences = 0 -> st_logEv S' = NInf) /\
    (Rprod evidences <> 0 -> st_logEv S' = Fin (ln (Rprod evidences)) /\
      st_post S' = map (fun i => Some (arrOf N (normalised N (fun x => rho x * lik i x)))) (seq 0 n)).
Proof.
  intros S o hn hp vs ts rho lik C P HL St Hn N n evidences.
  destruct (indep_fwd S o hn hp vs ts rho lik C P HL St Hn) as (S' & E & H1 & H2 & H3). exists S'. split; [exact E|]. split; [exact H2|].
  intros Z. apply H3. destruct H1 as [|H1]; auto. exfalso. apply Z. symmetry. exact H1.
Qed.
(** full fit: every posterior but the last contains the prior twice *)
Theorem C17_full_fit : forall S o hn hp vs ts rho lik S' v,
  configured S o (TM KIndep hn [] hp []) vs ts -> priorIs S vs o (om_prior o) rho -> likelihoods S o vs lik ->
  stablePrior (om_prior o) -> (0 < nSteps S o)%nat -> fit S false false = Ok S' -> st_logEv S' = Fin v ->
  let N := gridPoints vs in let n := nSteps S o in
  v = ln (Rprod (map (fun i => rsum N (fun x => rho x * lik i x)) (seq 0 n))) /\
  (forall i, (i + 1 < n)%nat -> nth_error (st_post S') i = Some (Some (arrOf N (normalised N (fun x => rho x * rho x * lik i x))))) /\
  nth_error (st_post S') (n - 1) = Some (Some (arrOf N (normalised N (fun x => rho x * lik (n - 1)%nat x)))).
Proof.
  intros S o hn hp vs ts rho lik S' v C P HL St Hn E Ev N n.
  destruct (indep_full S o hn hp vs ts rho lik C P HL St Hn S' v E Ev) as (EV & EP). split; [exact EV|]. rewrite EP.
  split; [intros i Hi|]; rewrite nth_error_map_seq by (unfold n in *; lia); do 4 f_equal.
  - destruct (Nat.eqb_spec (i + 1) (nSteps S o)); unfold n in *; try lia; reflexivity.
  - destruct (Nat.eqb_spec (n - 1 + 1) (nSteps S o)); unfold n in *; try lia; reflexivity.
Qed.
Example C17_example : exists S, setup (data [1; 0; 1]%Z) None (coin slope) indep = Ok S /\
  configured S (coin slope) indep [quarters] (times [1; 0; 1]%Z) /\
  priorIs S [quarters] (coin slope) (om_prior (coin slope)) (normalised 3 (fun x => nth x quarters 0)) /\
  likelihoods S (coin slope) [quarters] (coinLik [1; 0; 1]%Z) /\ stablePrior (om_prior (coin slope)) /\ nSteps S (coin slope) = 3%nat.
Proof.
  assert (Hm : isBreak indep (F := R) = false) by reflexivity.
  assert (ND : NoDup (allNames (F := R) indep)) by constructor.
  destruct (coin_setup [1; 0; 1]%Z slope indep Hm) as (S & E & _). exists S. split; [exact E|].
  assert (Hb : bits [1; 0; 1]%Z) by (repeat constructor; auto).
  split; [now apply coin_configured|]. split; [apply slope_prior|].
  split; [now apply (coin_likelihoods _ _ _ _ E Hm Hb)|]. split; [exact I|exact (coin_steps _ _ _ _ E Hm)].
Qed.
Example C17_executed :
  (let* S0 := setup (L := Q) (data [1; 1]%Z) None (coinOM quarters slope) indep in let* A := fit S0 true false in let* B := fit S0 false false in
   Ok (st_post A, st_logEv A, st_post B, st_logEv B))%res
  = Ok ([Some [Fin (1 # 14); Fin (2 # 7); Fin (9 # 14)]; Some [Fin (1 # 14); Fin (2 # 7); Fin (9 # 14)]], Fin (49 # 144),
        [Some [Fin (1 # 36); Fin (2 # 9); Fin (3 # 4)]; Some [Fin (1 # 14); Fin (2 # 7); Fin (9 # 14)]], Fin (49 # 144))%Q.
Proof. vm_compute. reflexivity. Qed.

(** ** C22 *)
(** A change-point at time c such that no time stamp equals c+1: the forward pass resets (the evidence is that of two
    separate studies), the backward pass does not: posteriors before the change-point use all data, as if there was no
    change-point. *)
Theorem C22_change_point_skipped : forall S o hn hp c vs ts rho lik k S' v,
  configured S o (TM KChange hn [HNum c] hp []) vs ts -> priorIs S vs o (om_prior o) rho -> likelihoods S o vs lik ->
  om_seglen o = 1%nat -> (0 < k)%nat -> (k < rawLen (st_raw S))%nat -> increasing ts -> nth (k - 1) ts 0 = c ->
  (forall t, In t ts -> t <> c + 1) ->
  stablePrior (om_prior o) -> fit S false false = Ok S' -> st_logEv S' = Fin v ->
  let N := gridPoints vs in let n := rawLen (st_raw S) in
  exp v = rsum N (fun x => rho x * window lik 0 k x) * rsum N (fun x => rho x * window lik k n x) * cellVolume S /\
  (forall i, (i < k)%nat -> nth_error (st_post S') i = Some (Some (arrOf N (normalised N (fun x => rho x * window lik 0 n x))))) /\
  (forall i, (k <= i)%nat -> (i < n)%nat -> nth_error (st_post S') i = Some (Some (arrOf N (normalised N (fun x => rho x * window lik k n x))))).
Proof.
  intros S o hn hp c vs ts rho lik k S' v C P HL Hs Hk Hkn Inc Hc Hc1 St E Ev N n. pose proof (chg_n S o k Hs Hk Hkn) as En.
  pose proof (chg_tl S o hn hp vs ts k c C Hs Hk Hkn) as Tl.
  destruct (change_full S o hn hp vs ts rho lik k c C P HL Hs Hk Hkn Inc Hc St S' v E Ev) as (H1 & H2 & EV & _ & EP).
  specialize (EP ltac:(intros j Hj; apply Hc1, nth_In; lia)). rewrite En in H2, EV, EP. fold n N in H1, H2, EV, EP. split.
  - rewrite EV, exp_ln; [reflexivity|]. repeat apply Rmult_lt_0_compat; auto. exact (cfg_volpos S o _ vs ts C).
  - rewrite EP. split; intros i Hi; [|intros Hin]; rewrite nth_error_map_seq by lia; do 4 f_equal; destruct (Nat.ltb_spec i k); try lia; reflexivity.
Qed.
(** Full fits of linear models with arbitrary time stamps and stable priors: what is computed.  The forward pass uses the
    transition at the time stamp t_i, the backward pass applies the transition of time t_(i+1) - 1 (backwards in time, but
    in forward direction).  With unit-spaced time stamps both are taken at the same time. *)
Theorem C22_full_fit : forall S o m vs ts rho lik S' v,
  configured S o m vs ts -> linear (om_names o) m -> priorIs S vs o (om_prior o) rho -> likelihoods S o vs lik ->
  stablePrior (om_prior o) \/ resetFree S o m ts -> (0 < nSteps S o)%nat ->
  fit S false false = Ok S' -> st_logEv S' = Fin v ->
  let N := gridPoints vs in let n := nSteps S o in
  let step t := kernel (spaceS S o rho) m t in let time := timeOf ts o in
  let fwd i := step (time i) in let bwd i := step (time (i + 1)%nat - 1) in
  exp v = evidence N n rho fwd lik * cellVolume S ^ resetCount m time n /\
  st_post S' = map (fun i => Some (arrOf N (smoothed N n rho fwd bwd lik i))) (seq 0 n) /\
  (unitSpaced ts -> forall i, (i + 1 < n)%nat -> bwd i = fwd i).
Proof.
  intros S o m vs ts rho lik S' v C Lin P HL St Hn E Ev N n step time fwd bwd.
  destruct (fit_full_inv S o m vs ts rho lik C Lin P HL St Hn S' v E Ev) as (HE & EV & HC & EP). split; [|split].
  - rewrite EV, exp_ln; [reflexivity|]. apply Rmult_lt_0_compat; auto. apply (mvol_pos S o m vs ts C).
  - rewrite EP. unfold bwd, step, time. apply map_ext_in. intros i Hi. apply in_seq in Hi. f_equal. unfold arrOf. f_equal. apply tab_ext. intros x Hx.
    assert (X : forall j y, (j < n)%nat -> (y < N)%nat -> combined N n rho fwd (fun i => kernel (spaceS S o rho) m (timeOf ts o (Datatypes.S i) - 1)) lik j y
        = combined N n rho fwd (fun i => kernel (spaceS S o rho) m (timeOf ts o (i + 1) - 1)) lik j y).
    { intros j y Hj Hy. unfold combined. f_equal. apply BwdGeneral.message_ext; auto. intros q a b _ _ _ _. rewrite Nat.add_1_r. reflexivity. }
    unfold smoothed. f_equal; [apply X; auto; unfold n; lia|]. apply rsum_ext. intros y Hy. apply X; auto; unfold n; lia.
  - intros U i Hi. unfold bwd, fwd, step, time. f_equal. rewrite Nat.add_1_r. rewrite (cfg_unit S o m vs ts C U i) by (unfold n in Hi; lia). lra.
Qed.
(** Time stamps 0, 2: the same first toss, different second tosses after the change-point *)
Theorem C22_depends_on_future_refuted : exists S1 S2 A1 A2 : study Q Q,
  setup (data [1; 0]%Z) (Some [0; 2]%Q) (coinOM quarters PNone) (change "c" 0%Q) = Ok S1 /\
  setup (data [1; 1]%Z) (Some [0; 2]%Q) (coinOM quarters PNone) (change "c" 0%Q) = Ok S2 /\
  fit S1 false false = Ok A1 /\ fit S2 false false = Ok A2 /\ nth 0 (st_post A1) None <> nth 0 (st_post A2) None.
Proof.
  assert (E : (let* S1 := setup (L := Q) (data [1; 0]%Z) (Some [0; 2]%Q) (coinOM quarters PNone) (change "c" 0%Q) in
     let* S2 := setup (L := Q) (data [1; 1]%Z) (Some [0; 2]%Q) (coinOM quarters PNone) (change "c" 0%Q) in
     let* A1 := fit S1 false false in let* A2 := fit S2 false false in Ok (nth 0 (st_post A1) None, nth 0 (st_post A2) None))%res
     = Ok (Some [Fin (3 # 10); Fin (2 # 5); Fin (3 # 10)], Some [Fin (1 # 14); Fin (2 # 7); Fin (9 # 14)])%Q) by (vm_compute; reflexivity).
  run E. do 4 eexists. repeat (split; [eassumption|]). congruence.
Qed.
(** with time stamps 0, 1 they agree *)
Example C22_unit_example :
  (let* S1 := setup (L := Q) (data [1; 0]%Z) (Some [0; 1]%Q) (coinOM quarters PNone) (change "c" 0%Q) in
   let* S2 := setup (L := Q) (data [1; 1]%Z) (Some [0; 1]%Q) (coinOM quarters PNone) (change "c" 0%Q) in
   let* A1 := fit S1 false false in let* A2 := fit S2 false false in Ok (nth 0 (st_post A1) None, nth 0 (st_post A2) None))%res
  = Ok (Some [Fin (1 # 6); Fin (1 # 3); Fin (1 # 2)], Some [Fin (1 # 6); Fin (1 # 3); Fin (1 # 2)])%Q.
Proof. vm_compute. reflexivity. Qed.
