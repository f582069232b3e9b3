(** Repeated fits of a hyper-study: C69. *)
From Coq Require Import List ZArith QArith Reals Lra Lia Arith Bool String.
From Verif Require Import Base.Num Base.Exn Base.Arr Base.RSum Base.Lift Model.Helper Model.Tm Model.HyperParams Model.Study Model.Api
  Model.Getters Model.Hyper Spec.Config Spec.Dist Spec.Names Spec.HyperSpec
  Proof.KernelProof Proof.NamesProof Proof.GridProof Proof.HyperProof Proof.HyperFit Proof.ClashProof Props.Ex Props.ExR Props.Inference Props.HyperStudy Props.Setting.
Import ListNotations.
Local Open Scope R_scope.

(** ** auxiliary *)
Lemma assign_pairs f (m : tm R) : priorPairs (assign f m) = priorPairs m.
Proof.
  induction m as [k names vals p ms IH] using tm_ind'. cbn [assign priorPairs]. f_equal.
  induction IH as [|x l Hx Hl IHl]; [reflexivity|]. cbn. now rewrite Hx, IHl.
Qed.
Lemma assign_one f (m : tm R) : onePriorEach m -> onePriorEach (assign f m).
Proof.
  induction m as [k names vals p ms IH] using tm_ind'. cbn [assign]. rewrite !onePriorEach_TM. intros [W1 W2]. split; auto.
  apply Forall_map. rewrite Forall_forall in *. auto.
Qed.
Lemma densities_eq w c : densities w c = map (fun x => x / Rsum w / c) w.
Proof. unfold densities, rdivs. now rewrite map_map. Qed.
Lemma densities_sum w c : c <> 0 -> Rsum w <> 0 -> Rsum (densities w c) = / c.
Proof.
  intros Hc Hw. rewrite densities_eq. rewrite (map_ext _ (fun x => / (Rsum w * c) * x)) by (intros; field; auto).
  rewrite (Rsum_map_scal (/ (Rsum w * c)) (fun x => x) w), map_id. field. auto.
Qed.
Lemma densities_twice w c : c <> 0 -> Rsum w <> 0 -> densities (densities w c) c = densities w c.
Proof.
  intros Hc Hw. rewrite (densities_eq (densities w c)), densities_sum by auto. rewrite <- (map_id (densities w c)) at 2. apply map_ext. intros x. field. auto.
Qed.
(** the prior weights after a fit *)
Definition afterW (p : hprior R) (w : list R) (c : R) : list R := match p with HPArr _ => densities w c | _ => w end.
Lemma again_weights ts ps vs points ws : hyperWeights ts ps vs points ws ->
  let cs := map gridConstant points in
  let ws2 := map2 (fun p wc => afterW p (fst wc) (snd wc)) ps (combine ws cs) in
  hyperWeights ts (map2 (fun p wc => normPrior p (fst wc) (snd wc)) ps (combine ws cs)) (map (replaceAll ts) vs) points ws2 /\
  map2 densities ws2 cs = map2 densities ws cs.
Proof.
  induction 1 as [|p ps v vs xs points w ws Hv ND Hw Hn Hs HW [IH1 IH2]]; cbn; [split; [constructor|reflexivity]|].
  assert (Hc : 0 < gridConstant xs) by (eapply spacing_pos; [apply gridConstant_spacing|auto]).
  split.
  - constructor; auto.
    + destruct v; cbn in *; auto.
    + destruct p as [|f|a|f|q]; cbn in *; auto; try (destruct v; cbn in *; tauto).
      destruct Hw as (M & Ea & El). split; [destruct v; cbn in *; tauto|]. split; [reflexivity|]. unfold densities. now rewrite !rdivs_length.
    + destruct p; cbn; auto. rewrite densities_eq. apply Forall_map. eapply Forall_impl; [|exact Hn]. cbn. intros x Hx.
      unfold Rdiv. repeat apply Rmult_le_pos; auto; left; now apply Rinv_0_lt_compat.
    + destruct p; cbn; auto. rewrite densities_sum by lra. now apply Rinv_0_lt_compat.
  - f_equal; auto. destruct p; cbn; auto. apply densities_twice; lra.
Qed.

Lemma assign_points f (m : tm R) : unpackChangepointNames (assign f m) = unpackChangepointNames m /\ unpackBreakpointNames (assign f m) = unpackBreakpointNames m.
Proof.
  induction m as [k names vals prior ms IH] using tm_ind'. cbn [assign unpackChangepointNames unpackBreakpointNames]. rewrite !map_map.
  assert (E1 : map (fun x => unpackChangepointNames (assign f x)) ms = map unpackChangepointNames ms) by (apply map_ext_in; rewrite Forall_forall in IH; intros; now apply IH).
  assert (E2 : map (fun x => unpackBreakpointNames (assign f x)) ms = map unpackBreakpointNames ms) by (apply map_ext_in; rewrite Forall_forall in IH; intros; now apply IH).
  rewrite E1, E2. auto.
Qed.
Lemma pointClash_assign f (m : tm R) rows : pointClash (assign f m) rows = pointClash m rows.
Proof. unfold pointClash, changepointNames, breakpointNames. destruct (assign_points f m) as [-> ->]. now rewrite assign_allNames. Qed.
Section Again.
  Variables (H : hyper R R) (o : om R) (m : tm R) (ts : list R) (fo eo : bool) (j : nat) (H' : hyper R R) (points ws : list (list R)) (runs : list (study R R)).
  Hypothesis HR : hyperReady H o m ts.
  Hypothesis Ho : onePriorEach m.
  Hypothesis HW : hyperWeights ts (map snd (priorPairs m)) (map snd (assocs m)) points ws.
  Hypothesis E : hyperFit H fo eo j = Ok H'.
  Hypothesis Hm : (1 < List.length (hy_grid H'))%nat.
  Hypothesis HF : Forall2 (single H m fo eo) (hy_grid H') runs.
  Hypothesis HP : Forall (proper eo (stepsH H o) (pointsH H)) runs.
  Let cs := map gridConstant points.
  Let pv := map Rprod (cart (map2 densities ws cs)).
  Let m' := fst (putPriors m (map2 (fun p wc => normPrior p (fst wc) (snd wc)) (map snd (priorPairs m)) (combine ws cs))).
  Let vals := map (replaceAll ts) (map snd (assocs m)).

  Lemma names_ne : allNames m <> [].
  Proof.
    intros E0. destruct (fit_grid_inv _ _ _ _ _ _ _ _ HR E) as (m1 & EG & En & Ec). unfold createHyperGrid in EG. rewrite E0 in EG.
    destruct (mapM _ _); [|discriminate]. cbn in EG. inversion EG as [[E1 E2 E3 E4 E5]]. rewrite <- E2 in Hm. cbn in Hm. lia.
  Qed.
  Lemma first_grid : createHyperGrid m ts = Ok (vals, cart points, cs, fin pv, m').
  Proof. destruct (hr_names _ _ _ _ HR) as (n1 & n2 & n3 & n4). exact (grid_weights m ts points ws n1 n4 Ho names_ne HW). Qed.
  Lemma first_parts : hy_vals H' = vals /\ hy_grid H' = cart points /\ hy_const H' = cs /\ hy_pv H' = fin pv /\ pointClash m' (cart points) = Ok false.
  Proof.
    destruct (fit_grid_inv _ _ _ _ _ _ _ _ HR E) as (m1 & EG & En & Ec). rewrite first_grid in EG. inversion EG as [[E1 E2 E3 E4 E5]]. rewrite <- E2, <- E5 in Ec. auto.
  Qed.
  Lemma pv_nonneg : Forall (fun p => 0 <= p) pv.
  Proof.
    destruct (HyperStudy.C27_prior H o m ts fo eo j H' points ws HR E names_ne Ho HW) as (pv' & E1 & _ & _ & _ & P & _).
    destruct first_parts as (_ & _ & _ & E2 & _). rewrite E2 in E1. apply fin_inj in E1. now rewrite E1.
  Qed.

  Let m2 := restored m vals m'.
  Lemma m'_facts : noPriors m' = noPriors m /\ allNames m' = allNames m /\ named m' /\ onePriorEach m' /\
    priorPairs m' = combine (allNames m) (map2 (fun p wc => normPrior p (fst wc) (snd wc)) (map snd (priorPairs m)) (combine ws cs)).
  Proof.
    destruct (hr_names _ _ _ _ HR) as (n1 & n2 & n3 & n4). assert (NP : noPriors m' = noPriors m) by apply noPriors_put.
    destruct (hyperWeights_parts _ _ _ _ _ HW) as (h1 & h2 & h3 & _). apply DataProof.Forall2_len in h3.
    destruct (putPriors_pairs m Ho (map2 (fun p wc => normPrior p (fst wc) (snd wc)) (map snd (priorPairs m)) (combine ws cs)) []) as (_ & P2 & P3).
    { rewrite <- assocs_names by auto. rewrite map2_length, combine_length. unfold cs. rewrite !map_length in *. lia. }
    rewrite app_nil_r in P2, P3. fold m' in P2, P3.
    split; auto. split; [now apply names_m'|]. split; [eapply named_m'; eauto|]. auto.
  Qed.
  Lemma m2_facts : allNames m2 = allNames m /\ named m2 /\ onePriorEach m2 /\ map snd (assocs m2) = vals /\
    map snd (priorPairs m2) = map2 (fun p wc => normPrior p (fst wc) (snd wc)) (map snd (priorPairs m)) (combine ws cs) /\ wellNamed m2 /\
    forall row, In row (cart points) -> noPriors (withValues m2 row) = noPriors (withValues m row).
  Proof.
    destruct (hr_names _ _ _ _ HR) as (n1 & n2 & n3 & n4). destruct m'_facts as (f1 & f2 & f3 & f4 & f5).
    destruct (hyperWeights_parts _ _ _ _ _ HW) as (h1 & h2 & h3 & _). apply DataProof.Forall2_len in h3.
    assert (Lv : List.length vals = List.length (allNames m)) by (unfold vals; rewrite <- assocs_names by auto; now rewrite !map_length).
    assert (Ea : allNames m2 = allNames m) by (unfold m2, restored; now rewrite assign_allNames).
    assert (Nm : named m2) by (unfold m2, restored; now apply assign_named).
    assert (As : assocs m2 = combine (allNames m) vals) by (apply restored_assocs; auto).
    assert (Sv : map snd (assocs m2) = vals) by (rewrite As; apply snd_combine; auto).
    split; auto. split; auto. split; [now apply assign_one|]. split; auto. split; [|split].
    - unfold m2, restored. rewrite assign_pairs, f5. apply snd_combine. rewrite map2_length, combine_length. unfold cs. rewrite <- assocs_names by auto. rewrite !map_length in *. lia.
    - split; auto. rewrite Ea, Sv. split; auto. split; auto. unfold vals. apply Forall_map. eapply Forall_impl; [|exact n4]. intros v. destruct v; cbn; auto.
    - intros row Hr. apply SetupProof.cart_In in Hr. apply DataProof.Forall2_len in Hr.
      rewrite <- (withValues_m' m m' row f1). unfold withValues. rewrite Ea, f2. f_equal. unfold m2, restored. rewrite assign_assign by auto. apply assign_ext. intros n In_.
      assert (Lr : List.length row = List.length (allNames m)) by (rewrite <- assocs_names by auto; rewrite !map_length in *; lia).
      rewrite f2 in In_. clear - In_ Lr. assert (G : exists x, lookup (combine (allNames m) (map (@HNum R) row)) n = Some x); [|destruct G as [x ->]; reflexivity].
      revert row Lr. induction (allNames m) as [|a l IH]; [destruct In_|]. intros [|r row] Lr; [discriminate|]. cbn. destruct (String.eqb_spec a n); [eauto|].
      destruct In_ as [->|In_]; [congruence|]. apply IH; auto.
  Qed.
  Lemma after : st_tm (hy_S H') = Some m2 /\ sameInputs (hy_S H) (hy_S H') /\
    hy_logEvs H' = map st_logEv runs /\
    hy_dist H' = Some (hyperDistribution (logWeights (map st_logEv runs) (fin pv) cs) cs) /\
    st_logEv (hy_S H') = xlogsumexp (F := R) (logWeights (map st_logEv runs) (fin pv) cs) /\
    st_local (hy_S H') = localSum (map st_local runs) (fin pv) (stepsH H o) /\
    (eo = false -> st_post (hy_S H') = map Some (averagePosterior (lgm (stepsH H o) (pointsH H) (mixed (combine runs pv)))) /\
                   st_means (hy_S H') = meanValues (st_grid (hy_S H)) (averagePosterior (lgm (stepsH H o) (pointsH H) (mixed (combine runs pv))))) /\
    checkConsistency (prepared H o ts m') = Ok (o, m').
  Proof.
    destruct first_parts as (p1 & p2 & p3 & p4 & p5). pose proof Hm as Hm1. pose proof HF as HF1. rewrite p2 in Hm1, HF1.
    destruct (fit_runs H o m ts HR _ _ _ _ _ first_grid Hm1 fo eo j H' E) as (_ & EC & _).
    destruct (fit_spec H o m ts HR _ _ _ _ _ first_grid Hm1 pv_nonneg fo eo j runs p5 EC HF1 HP) as (H'' & E' & h1 & h2 & h3 & h4 & h5 & h6 & h7 & h8 & h9 & h10 & h11 & h12).
    rewrite E in E'. inversion E'; subst H''. auto 10.
  Qed.
  Lemma ready_again : hyperReady H' o m2 ts.
  Proof.
    destruct after as (a1 & a2 & _). destruct m2_facts as (_ & _ & _ & _ & _ & W & _). destruct a2. destruct HR as [h1 h2 (rts & h3 & h4) h5 h6 h7]. constructor; auto; try congruence.
    exists rts. split; [congruence|auto].
  Qed.
  Lemma fit_again j2 : exists H2, hyperFit H' fo eo j2 = Ok H2 /\
    hy_vals H2 = hy_vals H' /\ hy_names H2 = hy_names H' /\ hy_grid H2 = hy_grid H' /\ hy_const H2 = hy_const H' /\ hy_pv H2 = hy_pv H' /\
    hy_logEvs H2 = hy_logEvs H' /\ hy_dist H2 = hy_dist H' /\
    st_logEv (hy_S H2) = st_logEv (hy_S H') /\ st_local (hy_S H2) = st_local (hy_S H') /\ st_post (hy_S H2) = st_post (hy_S H') /\
    (eo = false -> st_means (hy_S H2) = st_means (hy_S H')).
  Proof.
    destruct first_parts as (p1 & p2 & p3 & p4 & p5). destruct after as (a1 & a2 & a3 & a4 & a5 & a6 & a7 & a8).
    destruct m2_facts as (f1 & f2 & f3 & f4 & f5 & f6 & f7). pose proof ready_again as HR2.
    destruct (hr_names _ _ _ _ HR) as (n1 & n2 & n3 & n4).
    destruct (again_weights _ _ _ _ _ HW) as [HW2 ED]. fold cs in HW2, ED. fold vals in HW2. rewrite <- f5 in HW2.
    assert (EV : map (replaceAll ts) vals = vals). { unfold vals. rewrite map_map. apply map_ext. intros []; reflexivity. }
    assert (HW3 : hyperWeights ts (map snd (priorPairs m2)) (map snd (assocs m2)) points (map2 (fun p wc => afterW p (fst wc) (snd wc)) (map snd (priorPairs m)) (combine ws cs))) by (rewrite f4; exact HW2).
    pose proof (grid_weights m2 ts points _ f2 (proj2 (proj2 (proj2 f6))) f3 ltac:(rewrite f1; exact names_ne) HW3) as EG2. cbv zeta in EG2. fold cs in EG2. rewrite f4, EV, ED in EG2. fold pv in EG2.
    match type of EG2 with _ = Ok (_, _, _, _, ?q) => set (m3 := q) in EG2 end.
    pose proof Hm as Hm1. pose proof HF as HF1. rewrite p2 in Hm1, HF1.
    assert (NP3 : noPriors m3 = noPriors m2) by apply noPriors_put.
    assert (PC : pointClash m3 (cart points) = Ok false).
    { rewrite (pointClash_noPriors m3 m2 _ NP3). unfold m2, restored. rewrite pointClash_assign. exact p5. }
    assert (EC2 : checkConsistency (prepared H' o ts m3) = Ok (o, m3)).
    { destruct a2. unfold checkConsistency in *. cbn [prepared set_tm st_om st_tm set_format st_raw] in *. rewrite si_om. rewrite (hr_om _ _ _ _ HR) in *.
      rewrite si_raw. destruct (Nat.eqb _ _); [discriminate|]. rewrite (names_m' m2 m3 NP3), f1. destruct m'_facts as (_ & f2' & _). rewrite f2' in a8. destruct (hasDup _); [discriminate|reflexivity]. }
    assert (SG : forall row A, In row (cart points) -> single H m fo eo row A -> exists B, single H' m2 fo eo row B /\ agree eo A B).
    { intros row A Ir EA. apply (fit_noPriors _ _ (withValues m row) (withValues m2 row) _ _ fo eo A a2 (eq_sym (si_tmlat _ _ a2))); [symmetry; auto|exact EA]. }
    assert (RR : exists runs2, Forall2 (single H' m2 fo eo) (cart points) runs2 /\ Forall2 (agree eo) runs runs2).
    { clear - HF1 SG. induction HF1 as [|row A rows rs s1 F1 IH]; [exists []; split; constructor|].
      destruct (SG row A (or_introl eq_refl) s1) as (B & b1 & b2). destruct IH as (r2 & i1 & i2); [intros; apply SG; auto; now right|]. exists (B :: r2). split; constructor; auto. }
    destruct RR as (runs2 & HF2 & AG).
    assert (EN : stepsH H' o = stepsH H o) by (destruct a2; unfold stepsH; congruence).
    assert (EP : pointsH H' = pointsH H) by (destruct a2; unfold pointsH; congruence).
    assert (HP2 : Forall (proper eo (stepsH H' o) (pointsH H')) runs2).
    { rewrite EN, EP. clear - HP AG. induction AG; inversion HP; subst; constructor; auto. eapply agree_proper; eauto. }
    destruct (agree_map _ _ _ AG) as [M1 M2].
    destruct (fit_spec H' o m2 ts HR2 _ _ _ _ _ EG2 Hm1 pv_nonneg fo eo j2 runs2 PC EC2 HF2 HP2) as (H2 & E2 & h1 & h2 & h3 & h4 & h5 & h6 & h7 & h8 & h9 & h10 & h11 & h12).
    assert (hn : hy_names H' = allNames m) by now destruct (fit_grid_inv _ _ _ _ _ _ _ _ HR E) as (? & _ & nm & _).
    exists H2. split; auto. rewrite M1 in h6, h7, h8. rewrite M2 in h9. rewrite EN in *. rewrite EP in *.
    do 9 (split; [congruence|]).
    assert (EM : lgm (stepsH H o) (pointsH H) (mixed (combine runs2 pv)) = lgm (stepsH H o) (pointsH H) (mixed (combine runs pv)) \/ eo = true).
    { destruct eo; [now right|left]. apply lgm_ext. intros j0 x _ _. now apply agree_mixed. }
    assert (SGr : st_grid (hy_S H') = st_grid (hy_S H)) by (destruct a2; congruence).
    split.
    - destruct EM as [EM|Et]; [|rewrite Et in *; now apply (proj1 (C67_keeps fo j2) _ _ E2)].
      destruct eo; [now apply (proj1 (C67_keeps fo j2) _ _ E2)|]. destruct (h12 eq_refl) as [-> _]. destruct (a7 eq_refl) as [-> _]. now rewrite EM.
    - intros Ef. destruct EM as [EM|Et]; [|congruence]. destruct (h12 Ef) as [_ ->]. destruct (a7 Ef) as [_ ->]. now rewrite EM, SGr.
  Qed.
  Lemma left_priors : exists m2, st_tm (hy_S H') = Some m2 /\ map fst (priorPairs m2) = map fst (priorPairs m) /\
    forall i n p w c, nth_error (priorPairs m) i = Some (n, p) -> nth_error ws i = Some w -> nth_error (hy_const H') i = Some c ->
      nth_error (priorPairs m2) i = Some (n, match p with HPArr _ => HPArr (map (fun x => Fin (x / Rsum w / c)) w) | _ => p end).
  Proof.
    destruct after as (a1 & _). destruct m'_facts as (f1 & f2 & f3 & f4 & f5). destruct first_parts as (p1 & p2 & p3 & p4 & p5).
    destruct (hyperWeights_parts _ _ _ _ _ HW) as (h1 & h2 & h3 & _). apply DataProof.Forall2_len in h3.
    exists m2. split; [exact a1|]. unfold m2, restored. rewrite assign_pairs, f5, p3.
    assert (En : map fst (priorPairs m) = allNames m).
    { symmetry. now apply priorPairs_spec. }
    assert (Len : List.length (map snd (priorPairs m)) = List.length (combine ws cs)) by (unfold cs; rewrite combine_length; rewrite !map_length in *; lia).
    split.
    - rewrite fst_combine; [now rewrite En|]. rewrite map2_length, Len, Nat.min_id, <- Len. now rewrite <- En, !map_length.
    - intros i n p w c Ei Ew Ec. rewrite <- En.
      clear - Ei Ew Ec. revert Ei Ew Ec. generalize cs as cs0. generalize (priorPairs m) as l. generalize ws as ws0. 
      induction i as [|i IH]; intros [|w0 ws0] [|[n0 p0] l] [|c0 cs0] Ei Ew Ec; try discriminate; cbn [nth_error] in *.
      + injection Ei as -> ->. injection Ew as ->. injection Ec as ->. cbn [map combine map2 fst snd nth_error]. unfold normPrior. destruct p; auto. now rewrite densities_eq, map_map.
      + cbn [map combine map2 fst snd nth_error]. auto.
  Qed.
End Again.

(** ** C69 *)
(** Fitting a hyper-study a second time (with any number of processes) gives what the first fit gave: the values and prior probabilities
    of the combinations, the evidences, the distribution of the hyper-parameters, the average posterior and its means. This although the
    first fit replaced the hyper-parameters and normalised array priors in place. *)
Theorem C69_again : forall (H : hyper R R) o m ts fo eo j H' points ws runs j2,
  hyperReady H o m ts -> onePriorEach m ->
  hyperWeights ts (map snd (priorPairs m)) (map snd (assocs m)) points ws ->
  hyperFit H fo eo j = Ok H' -> (1 < List.length (hy_grid H'))%nat ->
  Forall2 (single H m fo eo) (hy_grid H') runs -> Forall (proper eo (stepsH H o) (pointsH H)) runs ->
  exists H2, hyperFit H' fo eo j2 = Ok H2 /\
    hy_vals H2 = hy_vals H' /\ hy_names H2 = hy_names H' /\ hy_grid H2 = hy_grid H' /\ hy_const H2 = hy_const H' /\ hy_pv H2 = hy_pv H' /\
    hy_logEvs H2 = hy_logEvs H' /\ hy_dist H2 = hy_dist H' /\
    st_logEv (hy_S H2) = st_logEv (hy_S H') /\ st_local (hy_S H2) = st_local (hy_S H') /\ st_post (hy_S H2) = st_post (hy_S H') /\
    (eo = false -> st_means (hy_S H2) = st_means (hy_S H')).
Proof. intros. eapply fit_again; eauto. Qed.

(** What a fit leaves of the hyper-priors: a prior given as array has been replaced by the array of its densities, i.e. of its weights,
    divided by their sum and by the distance of the values; the other priors are kept. (For the values see C31_values.) *)
Theorem C69_priors : forall (H : hyper R R) o m ts fo eo j H' points ws runs,
  hyperReady H o m ts -> onePriorEach m ->
  hyperWeights ts (map snd (priorPairs m)) (map snd (assocs m)) points ws ->
  hyperFit H fo eo j = Ok H' -> (1 < List.length (hy_grid H'))%nat ->
  Forall2 (single H m fo eo) (hy_grid H') runs -> Forall (proper eo (stepsH H o) (pointsH H)) runs ->
  exists m2, st_tm (hy_S H') = Some m2 /\ map fst (priorPairs m2) = map fst (priorPairs m) /\
    forall i n p w c, nth_error (priorPairs m) i = Some (n, p) -> nth_error ws i = Some w -> nth_error (hy_const H') i = Some c ->
      nth_error (priorPairs m2) i = Some (n, match p with HPArr _ => HPArr (map (fun x => Fin (x / Rsum w / c)) w) | _ => p end).
Proof.
  intros. eapply left_priors; eauto.
Qed.

(** ** Examples *)
(** weights 1 and 3 for the widths of a random walk, and a change-point at any time *)
Example C69_example : forall (ds : list Z) fo eo j j2, bits ds -> (3 <= List.length ds)%nat ->
  exists S H' H2 runs,
    setup (data ds) None (coin PNone) walkOrChange = Ok S /\
    hyperReady (newHyper S) (coin PNone) walkOrChange (times ds) /\ onePriorEach walkOrChange /\
    hyperWeights (times ds) (map snd (priorPairs walkOrChange)) (map snd (assocs walkOrChange))
      [[1 / 4; 1 / 2]; removelast (times ds)] [[1; 3]; map (fun _ => 1) (removelast (times ds))] /\
    hyperFit (newHyper S) fo eo j = Ok H' /\ (1 < List.length (hy_grid H'))%nat /\
    Forall2 (single (newHyper S) walkOrChange fo eo) (hy_grid H') runs /\
    Forall (proper eo (stepsH (newHyper S) (coin PNone)) (pointsH (newHyper S))) runs /\
    hyperFit H' fo eo j2 = Ok H2 /\ hy_dist H2 = hy_dist H' /\ hy_logEvs H2 = hy_logEvs H' /\ st_post (hy_S H2) = st_post (hy_S H').
Proof.
  intros ds fo eo j j2 Hb Hd. destruct (walkOrChange_fit ds fo eo j Hb Hd) as (S & H' & runs & pv & K). cbv zeta in K.
  destruct K as (k1 & k2 & k3 & k4 & k5 & k6 & k7 & k8 & k9 & k10 & k11 & k12 & k13 & _).
  destruct (C69_again _ _ _ _ _ _ _ _ _ _ _ j2 k2 k4 k5 k6 k8 k12 k13) as (H2 & e1 & _ & _ & _ & _ & _ & e2 & e3 & _ & _ & e4 & _).
  exists S, H', H2, runs. auto 15.
Qed.
(** The array 2, 6, 2 becomes 1/5, 3/5, 1/5; the second fit gives the same. *)
Example C69_run :
  (let* S0 := setup (L := Q) (data [1; 1; 0; 0]%Z) None (coinOM Ex.quarters PNone) (anyTime (HPArr [Fin 2; Fin 6; Fin 2]%Q)) in
   let* H1 := hyperFit (newHyper S0) true false 2 in
   let* H2 := hyperFit H1 true false 1 in
   Ok (option_map priorPairs (st_tm (hy_S H1)), hy_pv H1, hy_dist H1, option_map priorPairs (st_tm (hy_S H2)), hy_pv H2, hy_dist H2))%res =
  Ok (Some [("c"%string, HPArr [Fin (1 # 5); Fin (3 # 5); Fin (1 # 5)])], [Fin (1 # 5); Fin (3 # 5); Fin (1 # 5)], Some [Fin (10 # 69); Fin (49 # 69); Fin (10 # 69)],
      Some [("c"%string, HPArr [Fin (1 # 5); Fin (3 # 5); Fin (1 # 5)])], [Fin (1 # 5); Fin (3 # 5); Fin (1 # 5)], Some [Fin (10 # 69); Fin (49 # 69); Fin (10 # 69)])%Q.
Proof. vm_compute. reflexivity. Qed.
