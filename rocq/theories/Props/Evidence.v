(** Properties of Study.fit: C05, C06, C12. *)
From Coq Require Import List ZArith QArith Reals Lra Lia Arith Bool String.
From Verif Require Import Base.Num Base.Exn Base.Arr Base.RSum Base.Lift Model.Helper Model.Tm Model.HyperParams Model.Study Model.Api
  Spec.Kernel Spec.Hmm Spec.Config Spec.Dist Proof.KernelProof Proof.HmmProof Proof.FitThms Proof.FitCore Proof.FitResults Proof.Good Proof.FitInv
  Proof.InferProof Props.Ex Props.ExR Props.Inference.
Import ListNotations.
Local Open Scope R_scope.

(** ** C05 *)
Section Modes.
  Context {F L : Type} `{Num F} `{LogNum F L}.
  (** evidence-only and forward-only fits: both raise the same exception, or both report the same evidence and local
      evidences; the evidence-only fit keeps the stored posteriors and (unless it stopped early) clears the mean values. *)
  Theorem C05_evidence_only : forall (S : study F L) fo,
    match fit S true false, fit S fo true with
    | Ok A, Ok B => st_logEv B = st_logEv A /\ st_local B = st_local A /\ st_warn B = st_warn A /\
                    st_post B = st_post S /\ (st_means B = if Nat.eqb (st_warn B) (st_warn S) then [] else st_means S)
    | Err x, Err y => x = y
    | _, _ => False
    end.
  Proof.
    intros S fo. unfold fit. destruct (checkConsistency S) as [[o m]|]; [|reflexivity]. cbn [bind].
    destruct (st_rawTs S); [|reflexivity]. destruct (computePrior _) as [[[a p] al]|]; [|reflexivity]. cbn [bind].
    destruct (fwdLoop _ _ _ _ _ _ _ _ _) as [w|]; [|reflexivity]. cbn [bind].
    assert (Nz : forall n, Nat.eqb (Datatypes.S n) n = false) by (intros; apply Nat.eqb_neq; lia).
    destruct (fw_stop w); cbn [st_logEv st_local st_warn st_post st_means set_results Nat.add]; rewrite ?Nat.eqb_refl, ?Nz; auto 6.
  Qed.
  (** a full fit reports the same evidence as the forward-only fit, or it reports -inf together with a warning *)
  Theorem C05_full_fit : forall (S : study F L),
    match fit S true false, fit S false false with
    | Ok A, Ok B => (st_warn B = st_warn A /\ st_logEv B = st_logEv A) \/
                    (st_warn B = Datatypes.S (st_warn A) /\ st_logEv B = NInf)
    | Err x, Err y => x = y
    | Err _, Ok _ => False
    | Ok A, Err _ => st_warn A = st_warn S        (* only the backward pass can raise in addition *)
    end.
  Proof.
    intros S. unfold fit. destruct (checkConsistency S) as [[o m]|]; [|reflexivity]. cbn [bind].
    destruct (st_rawTs S); [|reflexivity]. destruct (computePrior _) as [[[a p] al]|]; [|reflexivity]. cbn [bind].
    destruct (fwdLoop _ _ _ _ _ _ _ _ _) as [w|]; [|reflexivity]. cbn [bind].
    destruct (fw_stop w); [cbn; auto|]. destruct (bwdLoop _ _ _ _ _) as [[out [|]]|]; cbn; auto.
  Qed.
End Modes.
(** over the reals: with an admissible model, full and forward-only fits agree whenever the full fit reports a finite evidence *)
Theorem C05_evidence_agrees : forall S o m vs ts fo1 eo1 fo2 eo2 S1 S2 v,
  configured S o m vs ts -> runnable (om_names o) m ->
  nonnegPrior (gridPoints vs) o (map (@List.length R) vs) (meshgrid vs) (om_prior o) ->
  fit S fo1 eo1 = Ok S1 -> fit S fo2 eo2 = Ok S2 -> st_logEv S1 = Fin v ->
  st_logEv S2 = Fin v \/ ((fo2 || eo2)%bool = false /\ st_logEv S2 = NInf).
Proof.
  intros S o m vs ts fo1 eo1 fo2 eo2 S1 S2 v C Run Pr E1 E2 Ev.
  assert (Ref : forall fo eo S', fit S fo eo = Ok S' -> exists A, fit S true false = Ok A /\
    (st_logEv S' = st_logEv A \/ ((fo || eo)%bool = false /\ st_logEv S' = NInf))).
  { intros fo eo S' E. pose proof (C05_evidence_only S fo) as HE. pose proof (C05_full_fit S) as HF.
    destruct (fit_total S o m vs ts C true false Run Pr) as [A EA]. exists A. split; [exact EA|]. rewrite EA in HE, HF.
    destruct eo.
    - rewrite E in HE. left. apply HE.
    - destruct fo.
      + rewrite EA in E. inversion E; subst. now left.
      + rewrite E in HF. destruct HF as [[_ HF]|[_ HF]]; auto. }
  destruct (Ref _ _ _ E1) as (A & EA & [R1|[_ R1]]); [|congruence].
  destruct (Ref _ _ _ E2) as (A' & EA' & [R2|[R2 R3]]); [|now right].
  rewrite EA in EA'. inversion EA'; subst A'. left. congruence.
Qed.
(** non-vacuity: an evidence-only fit after a full fit; the full fit of a change-point model finds the same evidence *)
Example C05_example :
  (let* S0 := setup (L := Q) (data [1; 0; 1]%Z) None (coinOM quarters PNone) shaky in
   let* S1 := fit S0 false false in let* S2 := fit S1 false true in let* S3 := fit S1 true false in
   Ok (st_logEv S1, st_logEv S2, st_logEv S3, (nth 1 (st_post S1) None, nth 1 (st_post S2) None, nth 1 (st_post S3) None), st_means S2))%res
  = Ok (Fin (5 # 48), Fin (5 # 48), Fin (5 # 48),
        (Some [Fin (3 # 10); Fin (2 # 5); Fin (3 # 10)], Some [Fin (3 # 10); Fin (2 # 5); Fin (3 # 10)],
         Some [Fin (1 # 2); Fin (1 # 3); Fin (1 # 6)]), [])%Q.
Proof. vm_compute. reflexivity. Qed.
(** The backward pass can contradict the forward pass: coin with possible biases 0 and 1, heads at time 0, a change-point
    at time 0, tails at time 2.  The forward pass finds a positive evidence; the backward pass looks for the change-point
    at time 1, misses it, and the full fit reports -inf. *)
Theorem C05_full_fit_stops_refuted : exists S S1 S2 : study Q Q,
  setup (data [1; 0]%Z) (Some [0; 2]%Q) (coinOM [0; 1]%Q PNone) (change "c" 0%Q) = Ok S /\
  fit S true false = Ok S1 /\ fit S false false = Ok S2 /\ st_logEv S1 = Fin (1#4)%Q /\ st_logEv S2 = NInf.
Proof.
  assert (E : (let* S0 := setup (L := Q) (data [1; 0]%Z) (Some [0; 2]%Q) (coinOM [0; 1]%Q PNone) (change "c" 0%Q) in
     let* S1 := fit S0 true false in let* S2 := fit S0 false false in Ok (st_logEv S1, st_logEv S2))%res = Ok (Fin (1#4)%Q, NInf)) by (vm_compute; reflexivity).
  run E. do 3 eexists. repeat (split; [eassumption|]). assumption.
Qed.

(** ** C06 *)
(** linear models: the fit stops at the first datum that makes the data impossible *)
Theorem C06_stop : forall S o m vs ts rho lik fo eo,
  configured S o m vs ts -> linear (om_names o) m -> priorIs S vs o (om_prior o) rho -> likelihoods S o vs lik ->
  stablePrior (om_prior o) \/ resetFree S o m ts ->
  (0 < nSteps S o)%nat ->
  let N := gridPoints vs in let n := nSteps S o in let K := transition S o m ts rho in
  evidence N n rho K lik = 0 ->
  exists S' k locals, fit S fo eo = Ok S' /\ (k < n)%nat /\
    evidence N (k + 1) rho K lik = 0 /\ (forall i, (i <= k)%nat -> 0 < evidence N i rho K lik) /\
    st_logEv S' = NInf /\
    st_post S' = (if eo then st_post S
                  else map (fun i => Some (arrOf N (posterior N (i + 1) rho K lik i))) (seq 0 k) ++ repeat None (n - k)) /\
    st_local S' = map Some locals ++ repeat None (n - k) /\ List.length locals = k /\
    st_means S' = st_means S.
Proof.
  intros S o m vs ts rho lik fo eo C Lin P HL St Hn N n K HE.
  destruct (env_exists S o m vs ts rho C Lin P St) as (e' & rho' & FE).
  pose proof (rho_nonneg S o m vs ts rho C P) as Prho.
  destruct (fit_zero S o m vs ts rho e' rho' lik C Lin FE Prho HL Hn fo eo HE)
      as (S' & k & locals & E & Ev & Hk & Zk & Hpos & Epost & Em & El & Ll & _).
  exists S', k, locals. rewrite Nat.add_1_r. repeat split; auto.
  rewrite Epost. destruct eo; auto. f_equal. unfold fwdPosts. rewrite map_map. apply map_ext. intros i. unfold filt. rewrite Nat.add_1_r. reflexivity.
Qed.
(** all models: a forward-only fit that reports -inf stores filtering distributions for the first k < n steps only *)
Theorem C06_stop_any_model : forall S o m vs ts S',
  configured S o m vs ts -> runnable (om_names o) m ->
  nonnegPrior (gridPoints vs) o (map (@List.length R) vs) (meshgrid vs) (om_prior o) ->
  (forall s, In s (segments S o) -> finite (gridPoints vs) (processedPdf o (gridPoints vs) (meshgrid vs) s)) ->
  fit S true false = Ok S' -> st_logEv S' = NInf ->
  exists posts locals, (List.length posts < nSteps S o)%nat /\ Forall (dist (gridPoints vs)) posts /\
    st_post S' = map Some posts ++ repeat None (nSteps S o - List.length posts) /\
    List.length locals = List.length posts /\ Forall (fun x => 0 < x) locals /\
    st_local S' = map (fun x => Some (Fin x)) locals ++ repeat None (nSteps S o - List.length posts) /\
    st_means S' = st_means S /\ st_warn S' = Datatypes.S (st_warn S).
Proof.
  intros S o m vs ts S' C Run Pr Lk E Ev.
  destruct (fit_inv _ _ _ _ E) as (o' & m' & ts' & w & FP & O). destruct (fwdPart_cfg S o m vs ts C _ _ _ _ FP) as (-> & -> & ->).
  destruct (fwdPart_good S o m vs ts C w (runnable_basic _ _ Run) Pr Lk FP) as (G1 & _ & G3).
  assert (Hstop : fw_stop w = true).
  { destruct (fw_stop w) eqn:Hs; auto. destruct G3 as [v Gv]. inversion O; subst; try congruence.
    cbn [st_logEv set_results] in Ev. unfold evOf in Ev. rewrite Gv in Ev. unfold volOf in Ev.
    pose proof (cfg_volpos S o m vs ts C) as Hv. pose proof (cfg_vol S o (om_prior o)) as EV. unfold e_vol in EV. cbn [e_lat envOf] in EV.
    rewrite EV in Ev. unfold xln in Ev. assert (B : fltb (F := R) f0 (cellVolume S) = true) by (apply Rltb_true; exact Hv). rewrite B in Ev. discriminate. }
  assert (Lw : (List.length (fw_steps w) < nSteps S o)%nat).
  { destruct FP as [_ _ (a0 & p0 & al0 & EP & EW)]. now apply (fwd_steps_len _ _ _ _ _ _ _ _ _ _ EW). }
  set (cs := map (fun s => match snd s with Fin c => c * cellVolume S | _ => 0 end) (fw_steps w)).
  exists (map fst (fw_steps w)), cs.
  assert (Ecs : fwdLocals S w = map Fin cs).
  { unfold fwdLocals, cs. rewrite map_map. apply map_ext_in. intros s Hs. rewrite Forall_forall in G1.
    destruct (G1 s Hs) as (_ & c & -> & _). cbn. unfold volOf. pose proof (cfg_vol S o (om_prior o)) as EV. unfold e_vol in EV. cbn [e_lat envOf] in EV. now rewrite EV. }
  rewrite map_length. split; [exact Lw|]. split.
  { apply Forall_map. eapply Forall_impl; [|exact G1]. now intros s [D _]. }
  inversion O; subst; try congruence. cbn [st_post st_local st_means st_warn set_results].
  unfold padNone. rewrite Ecs, !map_length, !map_map. unfold cs at 1. rewrite map_length. repeat split; auto.
  - apply Forall_map. eapply Forall_impl; [|exact G1]. intros s (_ & c & -> & Hc). apply Rmult_lt_0_compat; auto. exact (cfg_volpos S o m vs ts C).
  - unfold cs. rewrite map_length. reflexivity.
Qed.
(** non-vacuity: possible biases 0 and 1; after tails, heads in the third toss is impossible *)
Example C06_example :
  (let* S0 := setup (L := Q) (data [0; 0; 1; 0]%Z) None (coinOM [0; 1]%Q PNone) static in let* S' := fit S0 false false in
   Ok (st_logEv S', st_post S'))%res = Ok (NInf, [Some [Fin 1; Fin 0]; Some [Fin 1; Fin 0]; None; None]%Q).
Proof. vm_compute. reflexivity. Qed.

(** ** C12 *)
(** full fit, positive likelihoods: local evidence x cell volume = P(datum i | all other data) *)
Theorem C12_full_fit : forall S o m vs ts rho lik,
  configured S o m vs ts -> linear (om_names o) m -> priorIs S vs o (om_prior o) rho -> likelihoods S o vs lik -> unitSpaced ts \/ homogeneous m = true ->
  om_prior o = PNone \/ resetFree S o m ts ->
  (0 < nSteps S o)%nat ->
  let N := gridPoints vs in let n := nSteps S o in let K := transition S o m ts rho in
  let E := evidence N n rho K lik in
  0 < E ->
  exists S', fit S false false = Ok S' /\
    forall i, (i < n)%nat ->
      let Eloo := evidence N n rho K (without i lik) in     (* evidence of the data without datum i *)
      ((forall x, (x < N)%nat -> 0 < lik i x) ->
        0 < Eloo /\ exists l, nth_error (st_local S') i = Some (Some (Fin l)) /\ l * cellVolume S = E / Eloo) /\
      ((exists x, (x < N)%nat /\ lik i x = 0) -> nth_error (st_local S') i = Some (Some NaN)).
Proof.
  intros S o m vs ts rho lik C Lin P HL U Hp Hn N n K E HE.
  destruct (env_sym S o m vs ts rho C Lin P Hp U) as (e' & rho' & FE & Hs).
  destruct (fit_smooth S o m vs ts rho e' rho' lik C Lin FE (rho_nonneg S o m vs ts rho C P) HL Hn Hs HE) as (S' & F1 & _ & _ & _ & El).
  exists S'. split; [exact F1|]. intros i Hi Eloo.
  assert (Nl : nth_error (st_local S') i = Some (Some (localOf S o m vs ts rho lik i))).
  { rewrite El, nth_error_map, (FitResults.nth_error_nth' _ i O) by now rewrite seq_length. rewrite seq_nth by auto. reflexivity. }
  rewrite Nl. pose proof (cfg_volpos S o m vs ts C) as Hv.
  assert (Joint : forall x, jointAt N n rho K lik i x = lik i x * jointAt N n rho K (without i lik) i x) by (intros; now apply joint_without).
  split.
  - intros Pl. assert (Sum : rsum N (fun x => posterior N n rho K lik i x / lik i x) = Eloo / E).
    { unfold Eloo. rewrite <- (joint_sum N n rho K (without i lik) i Hi). unfold Rdiv at 2. rewrite <- rsum_scal_r. apply rsum_ext. intros x Hx.
      unfold posterior. fold E. rewrite Joint. specialize (Pl x Hx). field. split; lra. }
    assert (Hloo : 0 < Eloo).
    { assert (HEs : rsum N (jointAt N n rho K lik i) = E) by now apply joint_sum.
      destruct (rsum_pos_ex N (jointAt N n rho K lik i)) as (x & Hx & Px); [lra|].
      unfold Eloo. rewrite <- (joint_sum N n rho K (without i lik) i Hi). apply rsum_pos.
      - intros y Hy. rewrite <- (JvK S o m vs ts rho e' rho' (without i lik) FE) by (unfold n; lia). apply joint_nonneg.
        + exact (rho_nonneg S o m vs ts rho C P).
        + intros j a b Ha Hb. now apply (Kst S o m vs ts rho e' rho' C Lin FE j).
        + intros j a Hj Ha. unfold without. destruct (Nat.eqb j i); [lra|]. now apply (FitCore.Pl S o vs lik HL).
      - exists x. split; auto. rewrite Joint in Px. specialize (Pl x Hx). destruct (Rle_or_lt (jointAt N n rho K (without i lik) i x) 0); auto. nra. }
    split; [exact Hloo|]. exists (E / Eloo / cellVolume S). split; [|field; lra]. do 2 f_equal. unfold localOf, arrOf.
    rewrite adiv_fin by (apply Forall_tab; intros x Hx; specialize (Pl x Hx); lra).
    rewrite map2_tab, asum_fin, Rsum_tab. fold N n K. rewrite Sum. cbn [xmul]. rewrite xdiv_fin.
    + f_equal. cbn. field. lra.
    + cbn. apply Rmult_integral_contrapositive. split; [|lra]. unfold Rdiv. apply Rmult_integral_contrapositive. split; [lra|]. apply Rinv_neq_0_compat. lra.
  - intros (x & Hx & Zx). do 2 f_equal. unfold localOf. rewrite asum_nan; [reflexivity|].
    unfold arrOf, adiv. rewrite map2_map, map2_tab. apply in_map_iff. exists x. split; [|apply in_seq; lia].
    assert (Pz : posterior N n rho K lik i x = 0) by (unfold posterior; rewrite Joint, Zx; lra). fold N n K. rewrite Pz, Zx.
    unfold xdiv. cbn. unfold Reqb. destruct (Req_EM_T 0 0); [reflexivity|lra].
Qed.

(** forward-only (or evidence-only) fit: local evidence of step i = cell volume x one-step predictive norm, i.e. (up to the
    volume factors of resets) x P(data 0..i) / P(data 0..i-1); the product of all is the evidence x volume^(n-1) *)
Theorem C12_forward_fit : forall S o m vs ts rho lik fo eo,
  configured S o m vs ts -> linear (om_names o) m -> priorIs S vs o (om_prior o) rho -> likelihoods S o vs lik ->
  stablePrior (om_prior o) \/ resetFree S o m ts ->
  (0 < nSteps S o)%nat -> (fo || eo = true)%bool ->
  let N := gridPoints vs in let n := nSteps S o in let K := transition S o m ts rho in let vol := cellVolume S in
  let Z k := evidence N k rho K lik * vol ^ resetCount m (timeOf ts o) k in
  0 < evidence N n rho K lik ->
  exists S' ls v, fit S fo eo = Ok S' /\ st_local S' = map (fun l => Some (Fin l)) ls /\ List.length ls = n /\
    st_logEv S' = Fin v /\ Rprod ls = exp v * vol ^ (n - 1) /\
    nth 0 ls 0 = evidence N 1 rho K lik /\
    (forall i, (0 < i)%nat -> (i < n)%nat -> 0 < Z i /\ nth i ls 0 = vol * (Z (i + 1)%nat / Z i)).
Proof.
  intros S o m vs ts rho lik fo eo C Lin P HL St Hn Hm N n K vol Z HE.
  destruct (env_exists S o m vs ts rho C Lin P St) as (e' & rho' & FE).
  pose proof (rho_nonneg S o m vs ts rho C P) as Prho. pose proof (cfg_volpos S o m vs ts C) as Hv. fold vol in Hv.
  destruct (fit_forward S o m vs ts rho e' rho' lik C Lin FE Prho HL Hn fo eo Hm HE) as (S' & cs & E & Ev & _ & _ & El & Lc & Pc & Hc).
  exists S', (map (fun c => c * vol) cs). eexists. split; [exact E|]. rewrite map_map. split; [exact El|]. rewrite map_length. split; [exact Lc|].
  split; [exact Ev|]. fold N n K vol in Hc, Ev. fold n in Lc, Hn.
  assert (HZ : forall k, (0 < k)%nat -> (k <= n)%nat -> Rprod (firstn k cs) = Z k / vol).
  { intros k H0 Hk. rewrite (Hc k H0 Hk). unfold mvol, Z. fold vol. field. lra. }
  assert (ZP : forall k, (0 < k)%nat -> (k <= n)%nat -> 0 < Z k).
  { intros k H0 Hk. assert (0 < Z k / vol).
    { rewrite <- HZ by auto. apply Rprod_pos. apply Forall_forall. intros x Ix. rewrite Forall_forall in Pc. apply Pc. rewrite <- (firstn_skipn k cs). apply in_or_app. now left. }
    replace (Z k) with (Z k / vol * vol) by (field; lra). now apply Rmult_lt_0_compat. }
  assert (Pm : forall l, Rprod (map (fun c => c * vol) l) = Rprod l * vol ^ List.length l).
  { induction l as [|a l IH]; cbn; [lra|]. fold (Rprod (map (fun c => c * vol) l)) (Rprod l). rewrite IH. ring. }
  split; [|split].
  - rewrite Pm, Lc. rewrite exp_ln by (apply ZP; unfold n; lia). fold (Z n).
    pose proof (HZ n Hn (le_n _)) as E1. rewrite firstn_all2 in E1 by lia. rewrite E1. assert (Ep : vol ^ n = vol * vol ^ (n - 1)) by (rewrite (tech_pow_Rmult vol (n - 1)); f_equal; lia). rewrite Ep. change (evidence (gridPoints vs) (nSteps S o) rho (transition S o m ts rho) lik * mvol S o m ts (nSteps S o)) with (Z n). field. lra.
  - pose proof (HZ 1%nat ltac:(lia) Hn) as E1. destruct cs as [|c cs]; [cbn in Lc; unfold n in *; lia|]. cbn in E1 |- *.
    assert (E2 : c * vol = Z 1%nat) by (replace (Z 1%nat) with (Z 1%nat / vol * vol) by (field; lra); rewrite <- E1; ring). rewrite E2. unfold Z, resetCount. cbn. ring.
  - intros i H0 Hi. split; [apply ZP; lia|].
    pose proof (HZ i H0 ltac:(lia)) as E1. pose proof (HZ (i + 1)%nat ltac:(lia) ltac:(lia)) as E2.
    assert (Split : forall (l : list R) j, (j < List.length l)%nat -> Rprod (firstn (j + 1) l) = Rprod (firstn j l) * nth j l 0).
    { induction l as [|a l IH]; intros [|j] Hj; cbn in *; try lia; [lra|]. fold (Rprod (firstn (j + 1) l)) (Rprod (firstn j l)). rewrite IH by lia. ring. }
    rewrite Split in E2 by lia. rewrite E1 in E2.
    rewrite (nth_indep _ 0 (0 * vol)) by (rewrite map_length; lia). rewrite (map_nth (fun c => c * vol)).
    pose proof (ZP i H0 ltac:(lia)) as Zi. assert (E3 : nth i cs 0 = Z (i + 1)%nat / Z i).
    { replace (Z (i + 1)%nat) with (Z (i + 1)%nat / vol * vol) by (field; lra). rewrite <- E2. field. lra. }
    rewrite E3. ring.
Qed.
(** non-vacuity: [C02_example] meets all hypotheses of both theorems (the likelihoods are positive); a study with a zero
    likelihood and NaN as local evidence: *)
Example C12_example :
  (let* S0 := setup (L := Q) (data [1; 0]%Z) None (coinOM [0; 1#2]%Q PNone) static in let* S' := fit S0 false false in
   Ok (st_logEv S', st_local S'))%res = Ok (Fin (1#8)%Q, [Some NaN; Some (Fin 1)]%Q).
Proof. vm_compute. reflexivity. Qed.
