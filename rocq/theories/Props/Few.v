(** Change-point studies with at most one admissible combination: C33. *)
From Coq Require Import List ZArith QArith Reals Lra Lia Arith Bool String Sorted.
From Verif Require Import Base.Num Base.Exn Base.Arr Base.RSum Base.Lift Model.Helper Model.Tm Model.HyperParams Model.Study Model.Api
  Model.Getters Model.Hyper Model.Changepoint Spec.Kernel Spec.Config Spec.Dist Spec.Names Spec.HyperSpec Spec.ChangeSpec
  Proof.KernelProof Proof.FitInv Proof.FitThms Proof.SetupProof Proof.DataProof Proof.PriorProof Proof.TransProof Proof.Good Proof.SplitProof Proof.NamesProof Proof.LogProof
  Proof.GridProof Proof.MarginalProof Proof.HyperProof Proof.HyperFit Proof.HyperMarg Proof.ChangeProof Proof.InferProof Proof.FitCore Props.Ex Props.ExR Props.Inference Props.HyperStudy Props.Changepoint.
Import ListNotations.
Local Open Scope R_scope.

Lemma spread_nan (mask : list bool) i : (i < List.length mask)%nat ->
  nth i (spread mask (repeat (@NaN R) (List.length (filter (fun b => b) mask)))) (Fin 0) = if nth i mask false then NaN else Fin 0.
Proof.
  revert i. induction mask as [|[] mask IH]; intros [|i] Hi; cbn in *; try lia; auto; apply IH; lia.
Qed.
Lemma spread_len (mask : list bool) (X : list (xnum R)) : List.length (spread mask X) = List.length mask.
Proof. revert X. induction mask as [|[] mask IH]; intros [|x X]; cbn; auto. Qed.

(** If at most one combination of values is admissible (for example, if all times are fixed), [fit] is the analysis of the
    transition model as it is. The reported probabilities are then not numbers for the admissible combination and zero for the
    others. *)
Theorem C33_few : forall (C : cpstudy R R) o m ts fo eo j C',
  hyperReady (cp_H C) o m ts -> hy_dist (cp_H C) = None -> changepointFit C fo eo j = Ok C' -> (List.length (hy_grid (cp_H C')) <= 1)%nat ->
  (exists A, fit (hy_S (cp_H C)) fo eo = Ok A /\ st_logEv (hy_S (cp_H C')) = st_logEv A /\ st_local (hy_S (cp_H C')) = st_local A /\
     (eo = false -> st_post (hy_S (cp_H C')) = st_post A)) /\
  exists d, hy_dist (cp_H C') = Some d /\ List.length d = List.length (cp_all C') /\
    forall i, (i < List.length (cp_all C'))%nat ->
      (ordered m (nth i (cp_all C') []) -> nth i d (Fin 0) = NaN) /\ (~ ordered m (nth i (cp_all C') []) -> nth i d (Fin 0) = Fin 0).
Proof.
  intros C o m ts fo eo j C' HR Hd E Hl.
  destruct (cpFit_inv C o m ts HR _ _ _ _ E) as (vals & rows & cs & pv & m' & H2 & d & Hs & K & EG & EF & ED & -> & k1 & k2 & k3 & k4 & k5).
  cbn [cpResult cp_all cp_H with_dist with_grid hy_grid hy_S hy_dist] in *. rewrite k3 in Hl.
  unfold hyperFitGrid, cpGrid in EF. cbn [withGrid hy_S hy_grid] in EF. destruct (checkConsistency _) as [om_tm|]; [|discriminate]. cbn [bind] in EF.
  destruct (Nat.ltb_spec 1 (List.length (pick (orderMask (allNames m) (thePoints m) rows) rows))) as [X|_]; [lia|].
  destruct (fit _ fo eo) as [S1|] eqn:Ef; [|discriminate]. cbn [bind] in EF. inversion EF; subst H2. clear EF. cbn [hy_S hy_dist] in *.
  assert (NP : noPriors m' = noPriors m).
  { destruct rows as [|r rows]; [|eapply grid_shape; eauto; discriminate].
    pose proof (hr_names _ _ _ _ HR) as W. pose proof (points_names _ K) as NE. unfold createHyperGrid in EG. cbv zeta in EG.
    destruct (mapM pointsOf _) as [pts|]; [|discriminate]. cbn [bind] in EG. destruct (allNames m) as [|n0 ns]; [congruence|].
    destruct (_ && _); [|discriminate]. destruct (priorsOf _) as [pr|]; [|discriminate]. cbn [bind] in EG. inversion EG; subst. apply noPriors_put. }
  split.
  - unfold prepared in Ef. destruct (fit_noPriors (set_format (hy_S (cp_H C)) (fmtH (cp_H C) o) ts) (hy_S (cp_H C)) m' m (st_tmlat (hy_S (cp_H C))) (st_tmlat (hy_S (cp_H C))) fo eo S1) as (B & EB & b1 & b2 & b3); auto.
    { constructor; reflexivity. }
    assert (set_tm (hy_S (cp_H C)) m (st_tmlat (hy_S (cp_H C))) = hy_S (cp_H C)) as ES.
    { pose proof (hr_tm _ _ _ _ HR) as h. destruct (hy_S (cp_H C)); cbn in *; now rewrite h. }
    rewrite ES in EB. exists B. split; auto. split; auto. split; auto. intros Ee. symmetry. auto.
  - exists d. split; auto. cbn [withGrid hy_dist] in ED. rewrite Hd in ED. cbn [spreadDist] in ED. inversion ED; subst d. split; [now rewrite spread_len, mask_length|].
    intros i Hi. rewrite spread_nan by now rewrite mask_length.
    assert (Sp : nth i (orderMask (allNames m) (thePoints m) rows) false = true <-> ordered m (nth i rows [])).
    { apply cp_mask_spec; auto; [apply (hr_names _ _ _ _ HR)|]. destruct rows; [cbn in Hi; lia|]. eapply grid_shape; eauto. discriminate. }
    destruct (nth i _ false); split; auto; intros Ho; exfalso; [apply Ho|apply Sp in Ho; discriminate]. now apply Sp.
Qed.

(** Two change-points at fixed times that are not in order are nevertheless analysed: [fit] succeeds and gives the results of the
    ordinary analysis; the only sign is a probability of zero. *)
Theorem C33_unordered_refuted : exists (S A : study Q Q) C',
  setup (data [1; 1; 0; 0]%Z) None (coinOM quarters PNone) (comb [change "a" 2%Q; change "b" 1%Q]) = Ok S /\
  changepointFit (newChangepoint S) true false 1 = Ok C' /\ fit S true false = Ok A /\
  cp_all C' = [[2; 1]]%Q /\ hy_grid (cp_H C') = [] /\ hy_dist (cp_H C') = Some [Fin 0%Q] /\
  st_logEv (hy_S (cp_H C')) = st_logEv A /\ st_post (hy_S (cp_H C')) = st_post A /\ st_logEv A <> NInf.
Proof.
  assert (E : (let* S0 := setup (L := Q) (data [1; 1; 0; 0]%Z) None (coinOM quarters PNone) (comb [change "a" 2%Q; change "b" 1%Q]) in
    let* C1 := changepointFit (newChangepoint S0) true false 1 in let* A := fit S0 true false in
    Ok (cp_all C1, hy_grid (cp_H C1), hy_dist (cp_H C1), match st_logEv A with NInf => true | _ => false end))%res = Ok ([[2; 1]]%Q, [], Some [Fin 0%Q], false)) by (vm_compute; reflexivity).
  assert (E2 : (let* S0 := setup (L := Q) (data [1; 1; 0; 0]%Z) None (coinOM quarters PNone) (comb [change "a" 2%Q; change "b" 1%Q]) in
    let* C1 := changepointFit (newChangepoint S0) true false 1 in Ok (st_logEv (hy_S (cp_H C1)), st_post (hy_S (cp_H C1))))%res =
    (let* S0 := setup (L := Q) (data [1; 1; 0; 0]%Z) None (coinOM quarters PNone) (comb [change "a" 2%Q; change "b" 1%Q]) in
    let* A := fit S0 true false in Ok (st_logEv A, st_post A))%res) by (vm_compute; reflexivity).
  destruct (setup _ _ _ _) as [S|]; [|discriminate]. cbn [bind] in E, E2. destruct (changepointFit _ _ _ _) as [C1|] eqn:F1; [|discriminate]. cbn [bind] in E, E2.
  destruct (fit S true false) as [A|] eqn:F2; [|discriminate]. cbn [bind] in E, E2. injection E as e1 e2 e3 e4. injection E2 as e5 e6.
  exists S, A, C1. repeat (split; [auto; fail|]). intros Z. rewrite Z in e4. discriminate.
Qed.

(** non-vacuity of C33_few: two change-points at fixed times, in order or not *)
Definition fixedPoints (a b : R) : tm R := comb [change "a" a; change "b" b].
Lemma fixedPoints_ok a b : wellNamed (fixedPoints a b).
Proof.
  unfold wellNamed. split; [|split; [|split]].
  - apply built_named, (b_comb [change "a" a; change "b" b]); [|reflexivity].
    constructor; [apply (b_change "a" (VNum a) (Leaf HPNone))|constructor; [apply (b_change "b" (VNum b) (Leaf HPNone))|constructor]].
  - cbn. repeat constructor; cbn; intuition discriminate.
  - cbn. intuition discriminate.
  - cbn. repeat constructor.
Qed.
Example C33_few_ex (ds : list Z) a b fo eo j : bits ds -> ds <> [] ->
  exists S C', setup (data ds) None (coin PNone) (fixedPoints a b) = Ok S /\
    hyperReady (newHyper S) (coin PNone) (fixedPoints a b) (times ds) /\ hy_dist (newHyper S) = None /\
    changepointFit (newChangepoint S) fo eo j = Ok C' /\ (List.length (hy_grid (cp_H C')) <= 1)%nat /\ cp_all C' = [[a; b]].
Proof.
  intros Hb Hd. set (m := fixedPoints a b). destruct (coin_setup ds PNone m eq_refl) as (S & E & q1 & q2 & q3 & q4 & q5 & q6).
  assert (Sel : st_sel S = []).
  { unfold setup in E. cbn [runCalls runCall bind] in E. unfold setTM in E. change (isBreak m) with false in E. cbn [bind] in E.
    unfold setOM in E. cbn [combine om_values om_names coin coinOM mapM paramValues fst snd bind] in E.
    rewrite quarters_progression, lattice_progression in E by lia. cbn [bind] in E. inversion E. reflexivity. }
  set (C := newChangepoint S). pose proof (fixedPoints_ok a b) as W.
  assert (HR : hyperReady (cp_H C) (coin PNone) m (times ds)).
  { constructor; auto; [|exact I]. exists (times ds). split; auto. }
  assert (ND : NoDup (allNames m)) by apply W.
  pose proof (coin_configured _ _ _ _ E eq_refl Hd ND) as Cf. destruct (coin_likelihoods _ _ _ _ E eq_refl Hb) as [Lk Lp].
  destruct (Inference.C03_evidence S (coin PNone) m [quarters] (times ds) (flat (gridPoints [quarters])) (coinLik ds) fo eo Cf) as (A & EA & _); auto.
  { constructor; repeat constructor. } { constructor. } { left. exact I. }
  { change (0 < nSteps S (coin PNone))%nat. rewrite (coin_steps _ _ _ _ E eq_refl). destruct ds; [congruence|cbn; lia]. }
  { right. split; [left; apply times_unit|now left]. }
  assert (K : oneKind m) by (split; [now right|discriminate]).
  assert (Sc : (serialCount m <= 1)%nat) by (cbn; lia).
  pose proof (cpFit_unfold C _ _ _ HR fo eo j Sc K) as U.
  assert (EG : exists cs pv m', createHyperGrid m (times ds) = Ok ([HNum a; HNum b], [[a; b]], cs, pv, m') /\ noPriors m' = noPriors m /\ checkConsistency (prepared (cp_H C) (coin PNone) (times ds) m') = Ok (coin PNone, m')).
  { eexists. eexists. eexists. split; [reflexivity|]. split; [reflexivity|].
    unfold checkConsistency, prepared, C. cbn [set_tm set_format st_raw st_om st_tm cp_H newChangepoint newHyper hy_S]. rewrite q1, q4. clear - Hd. destruct ds; [congruence|]. reflexivity. }
  destruct EG as (cs & pv & m' & EG & NP & CC). rewrite EG in U. cbn [bind] in U. cbv zeta in U.
  set (mask := orderMask (allNames m) (thePoints m) [[a; b]]) in *.
  assert (Lm : (List.length (pick mask [[a; b]]) <= 1)%nat).
  { unfold mask, orderMask. cbn [map]. unfold pick. cbn [combine filter fst]. destruct (increasing _); cbn; lia. }
  destruct (fit_noPriors S (prepared (cp_H C) (coin PNone) (times ds) m) m m' (st_tmlat S) (st_tmlat S) fo eo A) as (B & EB & _).
  { constructor; reflexivity. } { reflexivity. } { now symmetry. }
  { assert (set_tm S m (st_tmlat S) = S) as ->; [|exact EA]. clear - q2. destruct S; cbn in *; now rewrite q2. }
  assert (EF : hyperFitGrid (cpGrid C (coin PNone) m (times ds) [HNum a; HNum b] [[a; b]] cs pv m') fo eo j =
    Ok {| hy_S := B; hy_vals := [HNum a; HNum b]; hy_names := allNames m; hy_grid := pick mask [[a; b]]; hy_const := cs; hy_pv := rescaled mask pv; hy_dist := None; hy_logEvs := [] |}).
  { unfold hyperFitGrid, cpGrid. cbv zeta. fold mask. cbn [withGrid hy_S hy_grid]. rewrite CC. cbn [bind].
    destruct (Nat.ltb_spec 1 (List.length (pick mask [[a; b]]))) as [X|_]; [lia|]. change (prepared (cp_H C) (coin PNone) (times ds) m') with (set_tm (prepared (cp_H C) (coin PNone) (times ds) m) m' (st_tmlat S)).
    rewrite EB. reflexivity. }
  rewrite EF in U. cbn [bind hy_dist spreadDist] in U. eexists S, _. split; auto. split; [exact HR|]. split; [reflexivity|]. split; [exact U|]. cbn [cpResult cp_H cp_all with_dist with_grid hy_grid]. auto.
Qed.
