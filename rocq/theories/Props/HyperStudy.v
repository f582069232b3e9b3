(** HyperStudy.fit: C27, C28, C29, C30, C31. *)
From Coq Require Import List ZArith QArith Reals Lra Lia Arith Bool String.
From Verif Require Import Base.Num Base.Exn Base.Arr Base.RSum Base.Lift Model.Helper Model.Tm Model.HyperParams Model.Study Model.Api
  Model.Getters Model.Hyper Spec.Kernel Spec.Config Spec.Dist Spec.Names Spec.HyperSpec
  Proof.KernelProof Proof.FitInv Proof.FitThms Proof.SetupProof Proof.DataProof Proof.PriorProof Proof.TransProof Proof.Good Proof.SplitProof Proof.NamesProof Proof.LogProof
  Proof.GridProof Proof.MarginalProof Proof.HyperProof Proof.HyperFit Proof.ClashProof Proof.InferProof Proof.FitCore Props.Ex Props.ExR Props.Inference.
Import ListNotations.
Local Open Scope R_scope.

(** ** auxiliary *)
Lemma fit_grid_inv (H : hyper R R) o m ts fo eo j H' : hyperReady H o m ts -> hyperFit H fo eo j = Ok H' ->
  exists m', createHyperGrid m ts = Ok (hy_vals H', hy_grid H', hy_const H', hy_pv H', m') /\ hy_names H' = allNames m /\ pointClash m' (hy_grid H') = Ok false.
Proof.
  intros HR E. rewrite (hyperFit_unfold H o m ts HR) in E. destruct (createHyperGrid m ts) as [[[[[vals rows] cs] pv] m']|] eqn:EG; [|discriminate]. cbn [bind] in E.
  destruct (pointClash m' rows) as [[|]|] eqn:Ec; [discriminate| |discriminate]. cbn [bind] in E. exists m'.
  unfold hyperFitGrid in E. destruct (checkConsistency _) as [om_tm|]; [|discriminate]. cbn [bind withGrid hy_grid hy_S hy_pv hy_const hy_vals hy_names] in E.
  destruct (Nat.ltb 1 _).
  - destruct (runAnalyses _ _ _ _ _ _ _) as [[[[S1 evs] locs] avg]|]; [|discriminate]. cbn [bind] in E. destruct (st_tm S1) as [m1|]; [|discriminate].
    destruct (setAll m1 vals) as [m2 [e|]]; [discriminate|]. inversion E; subst. cbn. auto.
  - destruct (fit _ fo eo) as [S1|]; [|discriminate]. cbn [bind] in E. inversion E; subst. cbn. auto.
Qed.
Lemma createHyperGrid_eq m ts n ns : allNames m = n :: ns -> createHyperGrid (F := R) m ts =
  (let vals := map (replaceAll ts) (allValues m) in
   let* pts := mapM pointsOf vals in
   if Nat.leb (List.length vals) (List.length (allPriors m)) && Nat.eqb (List.length (allNames m)) (List.length vals)
   then
     let* pr := priorsOf (combine (combine (allPriors m) vals) (map gridConstant pts)) in
     Ok (vals, cart pts, map gridConstant pts, map xprod (cart (map fst pr)), fst (putPriors m (map snd pr)))
   else Err ValueError)%res.
Proof. intros E. unfold createHyperGrid. rewrite E. reflexivity. Qed.
Lemma hyperWeights_parts ts ps vs points ws : hyperWeights ts ps vs points ws ->
  List.length ps = List.length vs /\ List.length ws = List.length vs /\ Forall2 (valueList ts) vs points /\
  Forall2 (fun pv xw => weights (fst pv) (snd pv) (fst xw) (snd xw)) (combine ps vs) (combine points ws) /\
  Forall (fun w => Rsum w <> 0) ws /\ Forall (fun c => 0 < c) (map gridConstant points) /\ Forall (fun w => Forall (fun x => 0 <= x) w) ws /\
  map (@List.length R) ws = map (@List.length R) points /\ Forall (fun w => 0 < Rsum w) ws.
Proof.
  induction 1 as [|p ps v vs xs points w ws Hv ND Hw Hn Hs HW (h1 & h2 & h3 & h4 & h5 & h6 & h7 & h8 & h9)]; [repeat split; constructor|].
  assert (Hc : 0 < gridConstant xs) by (eapply spacing_pos; [apply gridConstant_spacing|auto]).
  cbn [List.length combine map]. repeat split; try (constructor; auto); auto; [lra|]. f_equal; auto. eapply weights_length; eauto.
Qed.
Lemma Rprod_nonneg l : nonneg l -> 0 <= Rprod l.
Proof. induction 1; cbn; [lra|]. fold (Rprod l). now apply Rmult_le_pos. Qed.
Lemma grid_weights m ts points ws : named m -> Forall plain (map snd (assocs m)) -> onePriorEach m -> allNames m <> [] ->
  hyperWeights ts (map snd (priorPairs m)) (map snd (assocs m)) points ws ->
  let cs := map gridConstant points in
  createHyperGrid m ts = Ok (map (replaceAll ts) (map snd (assocs m)), cart points, cs, fin (map Rprod (cart (map2 densities ws cs))),
    fst (putPriors m (map2 (fun p wc => normPrior p (fst wc) (snd wc)) (map snd (priorPairs m)) (combine ws cs)))).
Proof.
  intros Hn Hp Ho Hne HW cs. destruct (priorPairs_spec m Ho) as [P1 P2]. destruct (allNames m) as [|nm nms] eqn:En; [congruence|].
  rewrite (createHyperGrid_eq _ _ _ _ En). rewrite assocs_values by auto. rewrite P2. cbv zeta.
  destruct (hyperWeights_parts _ _ _ _ _ HW) as (h1 & h2 & h3 & h4 & h5 & h6 & h7 & h8 & _).
  assert (Ep : mapM pointsOf (map (replaceAll ts) (map snd (assocs m))) = Ok points) by now apply points_iff. rewrite Ep. cbn [bind].
  assert (El : (Nat.leb (List.length (map (replaceAll ts) (map snd (assocs m)))) (List.length (map snd (priorPairs m))) &&
     Nat.eqb (List.length (allNames m)) (List.length (map (replaceAll ts) (map snd (assocs m))))) = true).
  { apply andb_true_iff. rewrite map_length, h1. split; [apply Nat.leb_refl|]. apply Nat.eqb_eq. rewrite <- assocs_names by auto. now rewrite !map_length. }
  rewrite El. fold cs. assert (Lc : List.length cs = List.length (map snd (assocs m))).
  { unfold cs. rewrite map_length. symmetry. apply (DataProof.Forall2_len _ _ _ h3). }
  rewrite (priorsOf_weights ts _ _ points ws cs h3 h1 h4 h2 Lc h5).
  2:{ eapply Forall_impl; [|exact h6]. cbn. intros; lra. }
  cbn [bind]. do 2 f_equal.
  - f_equal. rewrite fst_combine; [|rewrite !map2_length, combine_length, h1, h2, Lc; lia].
    assert (Ef : map2 (fun w c => fin (densities w c)) ws cs = map (map (@Fin R)) (map2 densities ws cs)) by (rewrite map2_map_l; reflexivity).
    rewrite Ef, cart_map, !map_map. apply map_ext. intros row. apply xprod_fin.
  - do 2 f_equal. apply snd_combine. rewrite !map2_length, combine_length, h1, h2, Lc. lia.
Qed.

Lemma grid_points m ts vals rows cs pv m' : wellNamed m -> allNames m <> [] -> createHyperGrid m ts = Ok (vals, rows, cs, pv, m') ->
  exists points : list (list R),
    Forall2 (valueList ts) (map snd (assocs m)) points /\
    (forall row, In row rows <-> Forall2 (fun v xs => In v xs) row points) /\
    (Forall (@NoDup R) points -> NoDup rows) /\
    (let shape := map (@List.length R) points in
     List.length rows = natprod shape /\
     forall x, (x < natprod shape)%nat -> nth x rows [] = gridPoint points (unravel shape x)) /\
    Forall2 spacing points cs.
Proof.
  intros (n1 & n2 & n3 & n4) Hne EG.
  destruct (allNames m) as [|nm nms] eqn:Ena; [congruence|]. rewrite (createHyperGrid_eq _ _ _ _ Ena), assocs_values in EG by auto.
  cbv zeta in EG. destruct (mapM pointsOf _) as [pts|] eqn:Ep; [|discriminate]. cbn [bind] in EG. destruct (_ && _); [|discriminate].
  destruct (priorsOf _) as [pr|]; [|discriminate]. cbn [bind] in EG. inversion EG as [[Ev Eg Ec Epv Em]]. clear EG.
  apply points_iff in Ep. exists pts. split; auto. split; [intros row; apply cart_In|]. split; [apply cart_NoDup|]. split.
  - split; [apply cart_length|]. intros x Hx. apply (cart_nth 0). exact Hx.
  - clear. induction pts; constructor; auto. apply gridConstant_spacing.
Qed.
Lemma grid_prior m ts vals rows cs' pvx m' points ws : wellNamed m -> onePriorEach m -> allNames m <> [] ->
  hyperWeights ts (map snd (priorPairs m)) (map snd (assocs m)) points ws -> createHyperGrid m ts = Ok (vals, rows, cs', pvx, m') ->
  exists pv,
    pvx = map Fin pv /\ List.length pv = List.length rows /\
    (let shape := map (@List.length R) points in
     forall x, (x < List.length rows)%nat ->
       nth x rows [] = gridPoint points (unravel shape x) /\
       Rnth pv x = gridPrior ws cs' (unravel shape x)) /\
    Rsum pv * Rprod cs' = 1 /\
    Forall (fun p => 0 <= p) pv /\ Forall (fun c => 0 < c) cs'.
Proof.
  intros (n1 & n2 & n3 & n4) Ho Hne HW EG.
  rewrite (grid_weights m ts points ws n1 n4 Ho Hne HW) in EG. inversion EG as [[Ev Eg Ec Epv Em]]. clear EG.
  destruct (hyperWeights_parts _ _ _ _ _ HW) as (h1 & h2 & h3 & h4 & h5 & h6 & h7 & h8 & h9).
  set (cs := map gridConstant points) in *. subst vals rows cs' m' pvx. set (qs := map2 densities ws cs).
  assert (Lcs : List.length cs = List.length ws).
  { unfold cs. rewrite map_length, h2. symmetry. apply (DataProof.Forall2_len _ _ _ h3). }
  assert (Lq : map (@List.length R) qs = map (@List.length R) points).
  { rewrite <- h8. unfold qs. clear - Lcs. revert Lcs. generalize cs. induction ws; intros [|c cs0] El; cbn in *; try discriminate; auto. rewrite densities_length, IHws; auto. }
  exists (map Rprod (cart qs)). split; auto. split; [rewrite map_length, !cart_length; congruence|]. split; [|split; [|split]].
  - intros shape x Hx. rewrite cart_length in Hx. split; [apply (cart_nth 0); auto|]. unfold Rnth.
    rewrite (nth_indep _ 0 (Rprod [])) by (rewrite map_length, cart_length, Lq; auto). rewrite map_nth, (cart_nth 0) by (rewrite Lq; auto). rewrite Lq. fold shape.
    fold (gridPoint qs (unravel shape x)). unfold qs. apply gridPrior_eq; auto.
    + rewrite unravel_length. unfold shape. rewrite <- h8. apply map_length.
    + pose proof (unravel_lt shape x Hx) as U. unfold shape in *. rewrite <- h8 in U |- *. revert U. generalize (unravel (map (@List.length R) ws) x). clear.
      induction ws; intros l U; inversion U; subst; constructor; auto.
  - rewrite cart_prod. apply Rprod_densities; auto. eapply Forall_impl; [|exact h6]. cbn. intros; lra.
  - apply Forall_map. apply Forall_forall. intros row Hrow. apply cart_In in Hrow. apply Rprod_nonneg.
    assert (Nq : Forall (fun q => Forall (fun x => 0 <= x) q) qs).
    { unfold qs. clear - h7 h9 h6. fold cs in h6. revert h6. generalize cs as c0. induction ws as [|w ws IH]; intros [|c cs0] h6; cbn [map2]; constructor.
      - inversion h7; inversion h9; inversion h6; subst. unfold densities. apply nonneg_rdivs; auto. apply nonneg_rdivs; auto.
      - inversion h7; inversion h9; inversion h6; subst. apply IH; auto. }
    clear - Hrow Nq. induction Hrow; inversion Nq; subst; constructor; auto. rewrite Forall_forall in H2. auto.
  - exact h6.
Qed.

(** ** C27 *)
(** After [fit] the attribute hyperGridValues lists every combination of the hyper-parameter values exactly once, in
    row-major order, and hyperGridConstant the spacings. *)
Theorem C27_grid : forall (H : hyper R R) o m ts fo eo j H',
  hyperReady H o m ts -> hyperFit H fo eo j = Ok H' -> allNames m <> [] ->
  exists points : list (list R),
    Forall2 (valueList ts) (map snd (assocs m)) points /\
    (forall row, In row (hy_grid H') <-> Forall2 (fun v xs => In v xs) row points) /\
    (Forall (@NoDup R) points -> NoDup (hy_grid H')) /\
    (let shape := map (@List.length R) points in
     List.length (hy_grid H') = natprod shape /\
     forall x, (x < natprod shape)%nat -> nth x (hy_grid H') [] = gridPoint points (unravel shape x)) /\
    Forall2 spacing points (hy_const H') /\
    hy_names H' = allNames m.
Proof.
  intros H o m ts fo eo j H' HR E Hne. destruct (fit_grid_inv _ _ _ _ _ _ _ _ HR E) as (m' & EG & En & _).
  destruct (grid_points _ _ _ _ _ _ _ (hr_names _ _ _ _ HR) Hne EG) as (points & p1 & p2 & p3 & p4 & p5). exists points. repeat (split; [assumption|]). assumption.
Qed.

(** The prior value of a combination is the product of the normalised priors of its values, as densities with respect to
    the grid constants, so that prior times cell volume sums to one. *)
Theorem C27_prior : forall (H : hyper R R) o m ts fo eo j H' points ws,
  hyperReady H o m ts -> hyperFit H fo eo j = Ok H' -> allNames m <> [] -> onePriorEach m ->
  hyperWeights ts (map snd (priorPairs m)) (map snd (assocs m)) points ws ->
  exists pv,
    hy_pv H' = map Fin pv /\ List.length pv = List.length (hy_grid H') /\
    (let shape := map (@List.length R) points in
     forall x, (x < List.length (hy_grid H'))%nat ->
       nth x (hy_grid H') [] = gridPoint points (unravel shape x) /\
       Rnth pv x = gridPrior ws (hy_const H') (unravel shape x)) /\
    Rsum pv * Rprod (hy_const H') = 1 /\
    Forall (fun p => 0 <= p) pv /\ Forall (fun c => 0 < c) (hy_const H').
Proof.
  intros H o m ts fo eo j H' points ws HR E Hne Ho HW. destruct (fit_grid_inv _ _ _ _ _ _ _ _ HR E) as (m' & EG & En & _).
  exact (grid_prior _ _ _ _ _ _ _ _ _ (hr_names _ _ _ _ HR) Ho Hne HW EG).
Qed.

(** ** C28 *)
Lemma fit_known (H : hyper R R) o m ts fo eo j H' pv runs :
  hyperReady H o m ts -> hyperFit H fo eo j = Ok H' -> (1 < List.length (hy_grid H'))%nat ->
  hy_pv H' = map Fin pv -> Forall (fun p => 0 <= p) pv ->
  Forall2 (single H m fo eo) (hy_grid H') runs -> Forall (proper eo (stepsH H o) (pointsH H)) runs ->
  List.length runs = List.length pv /\
  hy_logEvs H' = map st_logEv runs /\
  hy_dist H' = Some (hyperDistribution (logWeights (map st_logEv runs) (fin pv) (hy_const H')) (hy_const H')) /\
  st_logEv (hy_S H') = xlogsumexp (F := R) (logWeights (map st_logEv runs) (fin pv) (hy_const H')) /\
  st_local (hy_S H') = localSum (map st_local runs) (fin pv) (stepsH H o) /\
  (exists m', noPriors m' = noPriors m /\ allNames m' = allNames m /\ named m' /\ st_tm (hy_S H') = Some (restored m (hy_vals H') m')) /\
  sameInputs (hy_S H) (hy_S H') /\
  (eo = false -> st_post (hy_S H') = map Some (averagePosterior (lgm (stepsH H o) (pointsH H) (mixed (combine runs pv)))) /\
                 st_means (hy_S H') = meanValues (st_grid (hy_S H)) (averagePosterior (lgm (stepsH H o) (pointsH H) (mixed (combine runs pv))))).
Proof.
  intros HR E Hm Epv Hpv HF HP. destruct (fit_grid_inv _ _ _ _ _ _ _ _ HR E) as (m' & EG & En & Ec). rewrite Epv in EG.
  destruct (fit_runs H o m ts HR _ _ _ _ _ EG Hm fo eo j H' E) as (_ & EC & _).
  destruct (fit_spec H o m ts HR _ _ _ _ _ EG Hm Hpv fo eo j runs Ec EC HF HP) as (H'' & E' & h1 & h2 & h3 & h4 & h5 & h6 & h7 & h8 & h9 & h10 & h11 & h12).
  rewrite E in E'. inversion E'; subst H''. assert (Hne : hy_grid H' <> []) by (intros E0; rewrite E0 in Hm; cbn in Hm; lia).
  destruct (grid_shape _ _ _ _ _ _ _ EG Hne) as (g1 & g2 & g3 & g4 & g5). rewrite map_length in g1.
  repeat split; auto; try (apply h12; auto; fail); try (apply h11; fail).
  - rewrite <- (SetupProof.Forall2_len _ _ _ HF). auto.
  - exists m'. split; auto. split; [|split; auto].
    + apply (names_m' m _ g4).
    + eapply named_m'; eauto.
Qed.

(** Every combination of hyper-parameter values is analysed once, by the ordinary fit with the hyper-parameters set to
    these values. *)
Theorem C28_analyses : forall (H : hyper R R) o m ts fo eo j H' pv,
  hyperReady H o m ts -> hyperFit H fo eo j = Ok H' -> (1 < List.length (hy_grid H'))%nat ->
  hy_pv H' = map Fin pv -> Forall (fun p => 0 <= p) pv ->
  exists runs, Forall2 (single H m fo eo) (hy_grid H') runs /\
    (Forall (proper eo (stepsH H o) (pointsH H)) runs -> hy_logEvs H' = map st_logEv runs).
Proof.
  intros H o m ts fo eo j H' pv HR E Hm Epv Hpv. destruct (fit_grid_inv _ _ _ _ _ _ _ _ HR E) as (m' & EG & En & Ec). rewrite Epv in EG.
  destruct (fit_runs H o m ts HR _ _ _ _ _ EG Hm fo eo j H' E) as (_ & EC & runs & HF).
  exists runs. split; auto. intros HP. apply (fit_known H o m ts fo eo j H' pv runs); auto.
Qed.

Lemma map2_nth' l r i : (i < List.length l)%nat -> (i < List.length r)%nat -> nth i (map2 Rmult l r) 0 = nth i l 0 * nth i r 0.
Proof. revert r i. induction l; intros [|b r] [|i] H1 H2; cbn in *; try lia; auto. apply IHl; lia. Qed.

Lemma bayes_known (d0 : study R R) eo n N cs pv runs :
  List.length runs = List.length pv -> Forall (fun p => 0 <= p) pv -> Forall (fun c => 0 < c) cs -> Forall (proper eo n N) runs ->
  let ev i := evidenceOf (nth i runs d0) in
  let Z := rsum (List.length runs) (fun i => ev i * Rnth pv i) in
  let cell := Rprod cs in
  0 < Z ->
  (exists dist,
     hyperDistribution (logWeights (map st_logEv runs) (fin pv) cs) cs = fin dist /\ List.length dist = List.length runs /\
     (forall i, (i < List.length runs)%nat -> Rnth dist i = ev i * Rnth pv i / Z / cell) /\
     (forall i, (i < List.length runs)%nat -> st_logEv (nth i runs d0) = NInf -> Rnth dist i = 0) /\
     Rsum dist * cell = 1) /\
  xlogsumexp (F := R) (logWeights (map st_logEv runs) (fin pv) cs) = Fin (ln (Z * cell)).
Proof.
  intros k1 Hpv Hc HP ev Z cell HZ.
  set (evs := map evidenceOf runs).
  assert (Nev : nonneg evs) by (unfold evs; apply Forall_map; apply Forall_forall; intros; apply evidenceOf_nonneg).
  assert (El : map st_logEv runs = map lg evs).
  { unfold evs. rewrite map_map. apply map_ext_in. intros A HA. rewrite Forall_forall in HP. eapply evidenceOf_lg; apply HP; auto. }
  rewrite El, logWeights_lg by auto. set (ws := weightsOf evs pv) in *.
  assert (Lw : List.length ws = List.length runs) by (unfold ws, weightsOf; rewrite map2_length; unfold evs; rewrite map_length; lia).
  assert (Nw : nonneg ws) by now apply map2_mult_nonneg.
  assert (Wi : forall i, (i < List.length runs)%nat -> Rnth ws i = ev i * Rnth pv i).
  { intros i Hi. unfold ws, weightsOf, Rnth. rewrite map2_nth' by (unfold evs; rewrite ?map_length; lia). f_equal. unfold evs, ev.
    rewrite (nth_indep _ 0 (evidenceOf d0)) by (rewrite map_length; lia). apply map_nth. }
  assert (EZ : Rsum ws = Z). { rewrite Rsum_rnth, Lw. apply rsum_ext. exact Wi. }
  rewrite hyperDistribution_eq by (auto; lra). rewrite logEv_eq by (auto; lra). rewrite EZ. pose proof (Rprod_pos _ Hc) as Pc. fold cell in Pc |- *.
  split; auto. eexists. split; [reflexivity|].
  assert (Di : forall i, (i < List.length runs)%nat -> Rnth (map (fun w => w / Z / cell) ws) i = ev i * Rnth pv i / Z / cell).
  { intros i Hi. unfold Rnth at 1. rewrite (nth_indep _ 0 ((fun w => w / Z / cell) 0)) by (rewrite map_length; lia). rewrite (map_nth (fun w => w / Z / cell)).
    fold (Rnth ws i). now rewrite Wi. }
  split; [rewrite map_length, Lw; auto|]. split; [exact Di|]. split.
  - intros i Hi Ei. rewrite Di by auto. unfold ev, evidenceOf. rewrite Ei. unfold Rdiv. ring.
  - rewrite Rsum_rnth, map_length, Lw. rewrite (rsum_ext _ _ (fun i => (/ Z * / cell) * (ev i * Rnth pv i))) by (intros i Hi; rewrite Di by auto; unfold Rdiv; ring).
    rewrite rsum_scal. fold Z. field. lra.
Qed.

(** The distribution of the hyper-parameters is proportional to evidence times prior and integrates to one; the evidence of
    the hyper-study is the prior-weighted sum of the single evidences. *)
Theorem C28_bayes : forall (H : hyper R R) o m ts fo eo j H' pv runs,
  hyperReady H o m ts -> hyperFit H fo eo j = Ok H' -> (1 < List.length (hy_grid H'))%nat ->
  hy_pv H' = map Fin pv -> Forall (fun p => 0 <= p) pv -> Forall (fun c => 0 < c) (hy_const H') ->
  Forall2 (single H m fo eo) (hy_grid H') runs -> Forall (proper eo (stepsH H o) (pointsH H)) runs ->
  let ev i := evidenceOf (nth i runs (hy_S H)) in
  let Z := rsum (List.length runs) (fun i => ev i * Rnth pv i) in
  let cell := Rprod (hy_const H') in
  0 < Z ->
  hy_logEvs H' = map st_logEv runs /\
  (exists dist,
     hy_dist H' = Some (map Fin dist) /\ List.length dist = List.length (hy_grid H') /\
     (forall i, (i < List.length runs)%nat -> Rnth dist i = ev i * Rnth pv i / Z / cell) /\
     (forall i, (i < List.length runs)%nat -> st_logEv (nth i runs (hy_S H)) = NInf -> Rnth dist i = 0) /\
     Rsum dist * cell = 1) /\
  st_logEv (hy_S H') = Fin (ln (Z * cell)).
Proof.
  intros H o m ts fo eo j H' pv runs HR E Hm Epv Hpv Hc HF HP ev Z cell HZ.
  destruct (fit_known H o m ts fo eo j H' pv runs HR E Hm Epv Hpv HF HP) as (k1 & k2 & k3 & k4 & _).
  destruct (bayes_known (hy_S H) eo _ _ (hy_const H') pv runs k1 Hpv Hc HP HZ) as ((dist & e1 & e2 & e3 & e4 & e5) & e6).
  split; auto. rewrite k3, k4, e1. split; auto. exists dist. split; auto. split; [|auto].
  rewrite e2. symmetry. apply (SetupProof.Forall2_len _ _ _ HF).
Qed.

(** Whenever the single analyses are those of a configured study with a non-negative prior and likelihoods and combinations of the
    transition models covered by C12, they are proper. *)
Theorem C28_proper : forall (H : hyper R R) o m vs rts fo eo row A,
  configured (hy_S H) o m vs rts -> named m ->
  runnable (om_names o) (withValues m row) ->
  nonnegPrior (gridPoints vs) o (map (@List.length R) vs) (meshgrid vs) (om_prior o) ->
  (forall s, In s (segments (hy_S H) o) -> finite (gridPoints vs) (processedPdf o (gridPoints vs) (meshgrid vs) s)) ->
  single H m fo eo row A ->
  pointsH H = gridPoints vs /\ proper eo (stepsH H o) (gridPoints vs) A /\
  (eo = false -> 0 < evidenceOf A -> exists posts, st_post A = map Some posts /\ Forall (dist (gridPoints vs)) posts).
Proof.
  intros H o m vs rts fo eo row A C Hn Run Pr Lk E. unfold single in E. split; [unfold pointsH; now rewrite (cf_shape _ _ _ _ _ C)|].
  rewrite (cf_tmlat _ _ _ _ _ C) in E.
  assert (C' : configured (set_tm (hy_S H) (withValues m row) (st_lat (hy_S H))) o (withValues m row) vs rts).
  { apply (configured_tm _ _ m); auto. unfold withValues. rewrite assign_allNames by auto. exact (cf_unique _ _ _ _ _ C). }
  assert (Ba : Good.basic (withValues m row)) by (eapply runnable_basic; eauto).
  destruct eo.
  - split; [|discriminate]. destruct (fit_inv _ _ _ _ E) as (o' & m1 & ts' & w & FP & O). destruct (fwdPart_cfg _ _ _ _ _ C' _ _ _ _ FP) as (-> & -> & ->).
    destruct (fwdPart_good _ _ _ _ _ C' w Ba Pr Lk FP) as (G1 & G2 & G3).
    remember true as eo eqn:Heo in O. destruct O as [fo eo ES|fo ES|ES|out ES EB|out ES EB]; try discriminate Heo; cbn [st_logEv set_results].
    + now left.
    + right. split; [|discriminate]. rewrite ES in G3. destruct G3 as [v Ev]. cbn [st_logEv set_results]. unfold evOf. rewrite Ev. unfold volOf. rewrite fprod_R.
      pose proof (cfg_volpos _ _ _ _ _ C') as VP. unfold cellVolume in VP. apply Rltb_true in VP. cbn in VP |- *. rewrite VP. cbn. eauto.
  - destruct (fit_dist _ _ _ _ _ C' fo A Ba Pr Lk E) as [En|(v & posts & e1 & e2 & e3 & e4 & e5)].
    + split; [now left|]. intros _. unfold evidenceOf. rewrite En. lra.
    + split; [|intros _ _; eauto]. right. split; eauto. intros _. exists posts. split; auto. split; [exact e3|].
      eapply Forall_impl; [|exact e4]. cbn. intros a (r & r1 & r2 & r3 & _). exists r. auto.
Qed.

(** Under these conditions the hyper-study is also defined. (If a combination of values gives two change- or break-points the same
    time, it is rejected, see C53.) *)
Lemma pointClash_noPriors (q m : tm R) rows : noPriors q = noPriors m -> pointClash q rows = pointClash m rows.
Proof.
  intros Eq. unfold pointClash. assert (G : forall a : tm R, changepointNames (noPriors a) = changepointNames a /\ breakpointNames (noPriors a) = breakpointNames a).
  { intros a. unfold changepointNames, breakpointNames.
    assert (unpackChangepointNames (noPriors a) = unpackChangepointNames a /\ unpackBreakpointNames (noPriors a) = unpackBreakpointNames a) as [-> ->]; [|auto].
    induction a as [k names vals prior ms IH] using tm_ind'. cbn [noPriors unpackChangepointNames unpackBreakpointNames].
    rewrite map_map. rewrite map_map.
    assert (E1 : map (fun x => unpackChangepointNames (noPriors x)) ms = map unpackChangepointNames ms) by (apply map_ext_in; rewrite Forall_forall in IH; intros; now apply IH).
    assert (E2 : map (fun x => unpackBreakpointNames (noPriors x)) ms = map unpackBreakpointNames ms) by (apply map_ext_in; rewrite Forall_forall in IH; intros; now apply IH).
    rewrite ?E1, ?E2. destruct k; auto. }
  destruct (G q) as [<- <-]. destruct (G m) as [<- <-]. rewrite (names_m' m q Eq), Eq. reflexivity.
Qed.
Lemma few_points (m : tm R) points : NoDup (allNames m) -> (List.length (changepointNames m ++ breakpointNames m) <= 1)%nat -> ~ clash m points.
Proof.
  intros ND Hl (row & i & k & ni & nk & _ & Hik & Ei & Ek & Pi & Pk & _). apply points_isPoint in Pi, Pk. apply Hik.
  assert (ni = nk) by (destruct (changepointNames m ++ breakpointNames m) as [|a [|b l]]; cbn in *; try lia; try contradiction; intuition congruence). subst nk.
  rewrite NoDup_nth_error in ND. apply ND; [|congruence]. apply nth_error_Some. congruence.
Qed.
Theorem C28_succeeds : forall (H : hyper R R) o m vs rts fo eo j points ws,
  let ts := formatTimestamps rts (om_seglen o) in
  configured (hy_S H) o m vs rts -> hyperReady H o m ts -> onePriorEach m ->
  ~ clash m points ->
  hyperWeights ts (map snd (priorPairs m)) (map snd (assocs m)) points ws ->
  (1 < natprod (map (@List.length R) points))%nat ->
  (forall row, Forall2 (fun v xs => In v xs) row points -> runnable (om_names o) (withValues m row)) ->
  nonnegPrior (gridPoints vs) o (map (@List.length R) vs) (meshgrid vs) (om_prior o) ->
  (forall s, In s (segments (hy_S H) o) -> finite (gridPoints vs) (processedPdf o (gridPoints vs) (meshgrid vs) s)) ->
  exists H', hyperFit H fo eo j = Ok H' /\ (1 < List.length (hy_grid H'))%nat /\
    exists runs, Forall2 (single H m fo eo) (hy_grid H') runs /\ Forall (proper eo (stepsH H o) (pointsH H)) runs.
Proof.
  intros H o m vs rts fo eo j points ws ts C HR Ho Hp HW Hmany Run Pr Lk.
  destruct (hr_names _ _ _ _ HR) as (n1 & n2 & n3 & n4).
  assert (Hne : allNames m <> []).
  { intros E0. destruct (hyperWeights_parts _ _ _ _ _ HW) as (h1 & h2 & h3 & _). apply DataProof.Forall2_len in h3.
    rewrite map_length, <- (map_length fst), assocs_names, E0 in h3 by auto. cbn in h3. destruct points; cbn in *; lia. }
  pose proof (grid_weights m ts points ws n1 n4 Ho Hne HW) as EG. cbv zeta in EG. set (m' := fst (putPriors m _)) in EG.
  set (pv := map Rprod _) in EG.
  assert (Hm2 : (1 < List.length (cart points))%nat) by now rewrite cart_length.
  assert (Hrows : cart points <> []) by (intros E0; rewrite E0 in Hm2; cbn in Hm2; lia).
  destruct (grid_shape _ _ _ _ _ _ _ EG Hrows) as (g1 & g2 & g3 & g4 & g5).
  assert (Npv : nonneg pv).
  { unfold pv. apply Forall_map. apply Forall_forall. intros row Hrow. apply cart_In in Hrow. apply Rprod_nonneg.
    destruct (hyperWeights_parts _ _ _ _ _ HW) as (h1 & h2 & h3 & h4 & h5 & h6 & h7 & h8 & h9).
    assert (Nq : Forall (fun q => Forall (fun x => 0 <= x) q) (map2 densities ws (map gridConstant points))).
    { clear - h7 h9 h6. revert h6. generalize (map gridConstant points) as c0. induction ws as [|w ws IH]; intros [|c cs0] h6; cbn [map2]; constructor.
      - inversion h7; inversion h9; inversion h6; subst. unfold densities. apply nonneg_rdivs; auto. apply nonneg_rdivs; auto.
      - inversion h7; inversion h9; inversion h6; subst. apply IH; auto. }
    clear - Hrow Nq. induction Hrow; inversion Nq; subst; constructor; auto. rewrite Forall_forall in H2. auto. }
  assert (HF : exists runs, Forall2 (single H m fo eo) (cart points) runs /\ Forall (proper eo (stepsH H o) (pointsH H)) runs).
  { assert (G : forall row, In row (cart points) -> exists A, single H m fo eo row A /\ proper eo (stepsH H o) (pointsH H) A).
    { intros row Hrow. apply cart_In in Hrow. specialize (Run row Hrow).
      assert (C' : configured (set_tm (hy_S H) (withValues m row) (st_lat (hy_S H))) o (withValues m row) vs rts).
      { apply (configured_tm _ _ m); auto. unfold withValues. rewrite assign_allNames by auto. exact (cf_unique _ _ _ _ _ C). }
      destruct (fit_total _ _ _ _ _ C' fo eo Run Pr) as (A & EA). rewrite <- (cf_tmlat _ _ _ _ _ C) in EA. exists A. split; [exact EA|].
      destruct (C28_proper H o m vs rts fo eo row A C n1 Run Pr Lk EA) as (-> & PA & _). exact PA. }
    clear - G. induction (cart points) as [|row rows IH]; [exists []; split; constructor|].
    destruct (G row) as (A & SA & PA); [now left|]. destruct IH as (runs & F1 & F2); [intros; apply G; now right|]. exists (A :: runs). split; constructor; auto. }
  destruct HF as (runs & HF & HP).
  assert (Ec : pointClash m' (cart points) = Ok false).
  { rewrite (pointClash_noPriors m' m _ g4). destruct (pointClash_spec m points n2) as (b & -> & Hb). destruct b; auto. exfalso. apply Hp. now apply Hb. }
  assert (EC : checkConsistency (prepared H o ts m') = Ok (o, m')).
  { pose proof (cfg_check _ _ _ _ _ C) as CC. unfold checkConsistency in *. cbn [prepared set_tm st_om st_tm set_format st_raw].
    destruct (Nat.eqb _ _); [discriminate|]. rewrite (cf_om _ _ _ _ _ C), (cf_tm _ _ _ _ _ C) in CC. rewrite (cf_om _ _ _ _ _ C).
    rewrite (names_m' m _ g4). destruct (hasDup _); [discriminate|]. reflexivity. }
  destruct (fit_spec H o m ts HR _ _ _ _ _ EG Hm2 Npv fo eo j runs Ec EC HF HP) as (H' & E' & h1 & h2 & h3 & _).
  exists H'. split; auto. rewrite h3. split; auto. exists runs. auto.
Qed.

(** ** C53 *)
(** A hyper-study is rejected if and only if some combination of values gives two change- or break-points the same time; nothing is analysed
    then. *)
Theorem C53_rejects : forall (H : hyper R R) o m ts fo eo j points ws, hyperReady H o m ts -> onePriorEach m ->
  hyperWeights ts (map snd (priorPairs m)) (map snd (assocs m)) points ws -> allNames m <> [] ->
  clash m points -> hyperFit H fo eo j = Err ConfigurationError.
Proof.
  intros H o m ts fo eo j points ws HR Ho HW Hne HC. destruct (hr_names _ _ _ _ HR) as (n1 & n2 & n3 & n4).
  pose proof (grid_weights m ts points ws n1 n4 Ho Hne HW) as EG. cbv zeta in EG.
  rewrite (hyperFit_unfold H o m ts HR), EG. cbn [bind].
  match goal with |- context [pointClash ?q _] => rewrite (pointClash_noPriors q m) by apply noPriors_put end.
  destruct (pointClash_spec m points n2) as (b & -> & Hb). apply Hb in HC. subst b. reflexivity.
Qed.

(** ** C29 *)
Lemma average_known (d0 : study R R) n N cell Z pv runs dist :
  List.length runs = List.length pv -> Forall (fun p => 0 <= p) pv -> 0 < cell ->
  Z = rsum (List.length runs) (fun i => evidenceOf (nth i runs d0) * Rnth pv i) -> 0 < Z ->
  (forall i, (i < List.length runs)%nat -> Rnth dist i = evidenceOf (nth i runs d0) * Rnth pv i / Z / cell) ->
  (0 < n)%nat -> (0 < N)%nat ->
  let mix t x := rsum (List.length runs) (fun i => Rnth dist i * floored (postAt (nth i runs d0) t x)) in
  exists posts,
    averagePosterior (F := R) (lgm n N (mixed (combine runs pv))) = map (map Fin) posts /\ List.length posts = n /\
    forall t, (t < n)%nat ->
      List.length (nth t posts []) = N /\
      Rsum (nth t posts []) = 1 /\
      forall x, (x < N)%nat -> Rnth (nth t posts []) x = mix t x / rsum N (mix t).
Proof.
  intros k1 Hpv Pc EZ HZ Di Hn HN mix. set (M := mixed (combine runs pv)) in *.
  assert (Mi : forall t x, M t x = Z * cell * mix t x).
  { intros t x. unfold mix. rewrite <- rsum_scal. unfold M, mixed.
    rewrite Rsum_rnth, map_length, combine_length. rewrite k1, Nat.min_id, <- k1. apply rsum_ext. intros i Hi. rewrite Di by auto.
    unfold Rnth at 1. rewrite (nth_indep _ 0 ((fun ap => term (fst ap) (snd ap) t x) (d0, 0))) by (rewrite map_length, combine_length; lia).
    rewrite (map_nth (fun ap => term (fst ap) (snd ap) t x)). rewrite combine_nth by auto. cbn [fst snd]. unfold term. fold (Rnth pv i). field. lra. }
  assert (Mp : forall t x, 0 < M t x).
  { intros t x. rewrite Mi. apply Rmult_lt_0_compat; [nra|]. unfold mix.
    assert (Dn : forall i, (i < List.length runs)%nat -> 0 <= Rnth dist i).
    { intros i Hi. rewrite Di by auto. repeat apply Rmult_le_pos; try (apply evidenceOf_nonneg); try (left; now apply Rinv_0_lt_compat).
      rewrite Forall_forall in Hpv. apply Hpv. apply nth_In. lia. }
    destruct (Rle_lt_dec (rsum (List.length runs) (fun i => Rnth dist i * floored (postAt (nth i runs d0) t x))) 0) as [L0|]; auto. exfalso.
    assert (A0 : forall i, (i < List.length runs)%nat -> Rnth dist i * floored (postAt (nth i runs d0) t x) = 0).
    { apply rsum_zero_all; [|apply Rle_antisym; auto; apply rsum_nonneg]; intros i Hi; apply Rmult_le_pos; auto; left; apply floored_pos. }
    assert (Z0 : Z = 0); [|lra]. rewrite EZ. apply rsum_0. intros i Hi. specialize (A0 i Hi).
    apply Rmult_integral in A0 as [A0|A0]; [|pose proof (floored_pos (postAt (nth i runs d0) t x)); lra]. rewrite Di in A0 by auto.
    unfold Rdiv in A0. apply Rmult_integral in A0 as [A0|A0]; [|apply Rinv_0_lt_compat in Pc; lra]. apply Rmult_integral in A0 as [A0|A0]; [|apply Rinv_0_lt_compat in HZ; lra]. exact A0. }
  pose proof (averagePosterior_eq n N M Hn HN (fun t x _ _ => Mp t x)) as kp.
  assert (Ms : forall t, rsum N (M t) = Z * cell * rsum N (mix t)). { intros t. rewrite <- rsum_scal. apply rsum_ext. intros; apply Mi. }
  assert (Sp : forall t, 0 < rsum N (M t)). { intros t. apply rsum_pos; [intros; left; apply Mp|]. exists O. split; [lia|apply Mp]. }
  exists (tab n (fun t => tab N (fun x => M t x / rsum N (M t)))). split; [rewrite kp; f_equal; now rewrite map_tab|]. split; [apply tab_length|].
  intros t Ht. rewrite tab_nth by auto. split; [apply tab_length|]. split.
  - rewrite Rsum_rnth, tab_length. rewrite (rsum_ext _ _ (fun x => / rsum N (M t) * M t x)).
    + rewrite rsum_scal. apply Rinv_l. pose proof (Sp t). lra.
    + intros x Hx. rewrite Rnth_tab by auto. unfold Rdiv. ring.
  - intros x Hx. rewrite Rnth_tab by auto. rewrite Ms, Mi. pose proof (Sp t) as Spt. rewrite Ms in Spt.
    assert (0 < rsum N (mix t)). { apply (Rmult_lt_reg_l (Z * cell)); [nra|]. rewrite Rmult_0_r. exact Spt. }
    field. lra.
Qed.

(** The posterior sequence of the hyper-study is the average of the single posterior sequences, weighted with the
    distribution of the hyper-parameters; values below 1e-300 are replaced by 1e-300 and the result is normalised for
    each time step. Combinations without evidence do not contribute. *)
Theorem C29_average : forall (H : hyper R R) o m ts fo j H' pv runs dist,
  hyperReady H o m ts -> hyperFit H fo false j = Ok H' -> (1 < List.length (hy_grid H'))%nat ->
  hy_pv H' = map Fin pv -> Forall (fun p => 0 <= p) pv -> Forall (fun c => 0 < c) (hy_const H') ->
  Forall2 (single H m fo false) (hy_grid H') runs -> Forall (proper false (stepsH H o) (pointsH H)) runs ->
  0 < rsum (List.length runs) (fun i => evidenceOf (nth i runs (hy_S H)) * Rnth pv i) ->
  (0 < stepsH H o)%nat -> (0 < pointsH H)%nat ->
  hy_dist H' = Some (map Fin dist) ->
  let mix t x := rsum (List.length runs) (fun i => Rnth dist i * floored (postAt (nth i runs (hy_S H)) t x)) in
  exists posts,
    st_post (hy_S H') = map Some (map (map Fin) posts) /\ List.length posts = stepsH H o /\
    forall t, (t < stepsH H o)%nat ->
      List.length (nth t posts []) = pointsH H /\
      Rsum (nth t posts []) = 1 /\
      forall x, (x < pointsH H)%nat -> Rnth (nth t posts []) x = mix t x / rsum (pointsH H) (mix t).
Proof.
  intros H o m ts fo j H' pv runs dist HR E Hm Epv Hpv Hc HF HP HZ Hn HN Ed mix.
  destruct (fit_known H o m ts fo false j H' pv runs HR E Hm Epv Hpv HF HP) as (k1 & k2 & k3 & k4 & k5 & k6 & k7 & k8).
  destruct (C28_bayes H o m ts fo false j H' pv runs HR E Hm Epv Hpv Hc HF HP HZ) as (_ & (dist' & Ed' & Ld & Di & _) & _).
  rewrite Ed in Ed'. assert (dist' = dist) as ->.
  { inversion Ed' as [Ef]. clear - Ef. revert dist' Ef. induction dist as [|a d IH]; intros [|b d'] Ef; try discriminate; auto. cbn in Ef. inversion Ef. f_equal; auto. }
  destruct (k8 eq_refl) as [kp _].
  destruct (average_known (hy_S H) (stepsH H o) (pointsH H) (Rprod (hy_const H')) _ pv runs dist k1 Hpv (Rprod_pos _ Hc) eq_refl HZ Di Hn HN) as (posts & a1 & a2 & a3).
  exists posts. rewrite kp, a1. auto.
Qed.

(** Without values below 1e-300 and with normalised single posteriors this is the mixture of the single posteriors. *)
Theorem C29_mixture : forall (H : hyper R R) o m ts fo j H' pv runs dist,
  hyperReady H o m ts -> hyperFit H fo false j = Ok H' -> (1 < List.length (hy_grid H'))%nat ->
  hy_pv H' = map Fin pv -> Forall (fun p => 0 <= p) pv -> Forall (fun c => 0 < c) (hy_const H') ->
  Forall2 (single H m fo false) (hy_grid H') runs -> Forall (proper false (stepsH H o) (pointsH H)) runs ->
  0 < rsum (List.length runs) (fun i => evidenceOf (nth i runs (hy_S H)) * Rnth pv i) ->
  (0 < stepsH H o)%nat -> (0 < pointsH H)%nat ->
  hy_dist H' = Some (map Fin dist) ->
  (forall A t, In A runs -> 0 < evidenceOf A -> (t < stepsH H o)%nat ->
     rsum (pointsH H) (postAt A t) = 1 /\ forall x, (x < pointsH H)%nat -> Rpower 10 (-300) <= postAt A t x) ->
  exists posts,
    st_post (hy_S H') = map Some (map (map Fin) posts) /\
    forall t x, (t < stepsH H o)%nat -> (x < pointsH H)%nat ->
      Rnth (nth t posts []) x =
        rsum (List.length runs) (fun i => Rnth dist i * Rprod (hy_const H') * postAt (nth i runs (hy_S H)) t x).
Proof.
  intros H o m ts fo j H' pv runs dist HR E Hm Epv Hpv Hc HF HP HZ Hn HN Ed Hex.
  destruct (C29_average H o m ts fo j H' pv runs dist HR E Hm Epv Hpv Hc HF HP HZ Hn HN Ed) as (posts & e1 & e2 & e3).
  destruct (C28_bayes H o m ts fo false j H' pv runs HR E Hm Epv Hpv Hc HF HP HZ) as (_ & (dist' & Ed' & Ld & Di & Dz & Ds) & _).
  rewrite Ed in Ed'. assert (dist' = dist) as ->.
  { inversion Ed' as [Ef]. clear - Ef. revert dist' Ef. induction dist as [|a d IH]; intros [|b d'] Ef; try discriminate; auto. cbn in Ef. inversion Ef. f_equal; auto. }
  exists posts. split; auto. intros t x Ht Hx. destruct (e3 t Ht) as (_ & _ & e4). rewrite e4 by auto. pose proof (Rprod_pos _ Hc) as Pc. set (cell := Rprod (hy_const H')) in *.
  assert (Lr : List.length dist = List.length runs) by (rewrite Ld; apply (SetupProof.Forall2_len _ _ _ HF)).
  assert (Fl : forall y i, (y < pointsH H)%nat -> (i < List.length runs)%nat -> Rnth dist i * floored (postAt (nth i runs (hy_S H)) t y) = Rnth dist i * postAt (nth i runs (hy_S H)) t y).
  { intros y i Hy Hi. destruct (Rlt_le_dec 0 (evidenceOf (nth i runs (hy_S H)))) as [Pe|Ne].
    - destruct (Hex _ t (nth_In runs (hy_S H) Hi) Pe Ht) as [_ Hl]. f_equal. unfold floored. apply Rmax_left. auto.
    - rewrite Di by auto. assert (evidenceOf (nth i runs (hy_S H)) = 0) as ->; [|unfold Rdiv; ring]. pose proof (evidenceOf_nonneg (nth i runs (hy_S H))). lra. }
  assert (Sm : rsum (pointsH H) (fun y => rsum (List.length runs) (fun i => Rnth dist i * floored (postAt (nth i runs (hy_S H)) t y))) = / cell).
  { rewrite (rsum_ext _ _ (fun y => rsum (List.length runs) (fun i => Rnth dist i * postAt (nth i runs (hy_S H)) t y))) by (intros y Hy; apply rsum_ext; intros i Hi; now apply Fl).
    rewrite rsum_swap. rewrite (rsum_ext _ _ (Rnth dist)).
    - rewrite <- Lr, <- Rsum_rnth. apply (Rmult_eq_reg_r cell); [|lra]. rewrite Ds. field. lra.
    - intros i Hi. rewrite rsum_scal. destruct (Rlt_le_dec 0 (evidenceOf (nth i runs (hy_S H)))) as [Pe|Ne].
      + destruct (Hex _ t (nth_In runs (hy_S H) Hi) Pe Ht) as [-> _]. ring.
      + rewrite Di by auto. assert (evidenceOf (nth i runs (hy_S H)) = 0) as ->; [|unfold Rdiv; ring]. pose proof (evidenceOf_nonneg (nth i runs (hy_S H))). lra. }
  rewrite Sm. rewrite (rsum_ext _ _ (fun i => Rnth dist i * postAt (nth i runs (hy_S H)) t x)) by (intros i Hi; now apply Fl).
  rewrite (rsum_ext (List.length runs) (fun i => Rnth dist i * cell * postAt (nth i runs (hy_S H)) t x) (fun i => cell * (Rnth dist i * postAt (nth i runs (hy_S H)) t x))) by (intros; ring).
  rewrite rsum_scal. field. lra.
Qed.

(** ** C30 *)
(** The number of jobs does not matter. *)
Theorem C30_jobs : forall (H : hyper R R) o m ts fo eo j j' H' pv runs,
  hyperReady H o m ts -> hyperFit H fo eo j = Ok H' -> (1 < List.length (hy_grid H'))%nat ->
  hy_pv H' = map Fin pv -> Forall (fun p => 0 <= p) pv ->
  Forall2 (single H m fo eo) (hy_grid H') runs -> Forall (proper eo (stepsH H o) (pointsH H)) runs ->
  exists H'', hyperFit H fo eo j' = Ok H'' /\
    hy_grid H'' = hy_grid H' /\ hy_pv H'' = hy_pv H' /\ hy_const H'' = hy_const H' /\
    hy_logEvs H'' = hy_logEvs H' /\ hy_dist H'' = hy_dist H' /\
    st_logEv (hy_S H'') = st_logEv (hy_S H') /\ st_local (hy_S H'') = st_local (hy_S H') /\
    st_tm (hy_S H'') = st_tm (hy_S H') /\
    (eo = false -> st_post (hy_S H'') = st_post (hy_S H') /\ st_means (hy_S H'') = st_means (hy_S H')).
Proof.
  intros H o m ts fo eo j j' H' pv runs HR E Hm Epv Hpv HF HP. destruct (fit_grid_inv _ _ _ _ _ _ _ _ HR E) as (m' & EG & En & Ec). rewrite Epv in EG.
  destruct (fit_runs H o m ts HR _ _ _ _ _ EG Hm fo eo j H' E) as (_ & EC & _).
  destruct (fit_spec H o m ts HR _ _ _ _ _ EG Hm Hpv fo eo j runs Ec EC HF HP) as (H1 & E' & h1 & h2 & h3 & h4 & h5 & h6 & h7 & h8 & h9 & h10 & h11 & h12).
  rewrite E in E'. inversion E'; subst H1.
  destruct (fit_spec H o m ts HR _ _ _ _ _ EG Hm Hpv fo eo j' runs Ec EC HF HP) as (H'' & E'' & i1 & i2 & i3 & i4 & i5 & i6 & i7 & i8 & i9 & i10 & i11 & i12).
  exists H''. split; auto. repeat (split; [congruence|]). intros Ee; destruct (h12 Ee), (i12 Ee); split; congruence.
Qed.

(** ** C31 *)
Lemma restored_assocs m vals m' : named m' -> allNames m' = allNames m -> NoDup (allNames m) -> List.length vals = List.length (allNames m) ->
  assocs (restored m vals m') = combine (allNames m) vals.
Proof.
  intros Hn En ND El. unfold restored. rewrite assocs_assign. rewrite <- (combine_eta (assocs m')). rewrite assocs_names, En by auto.
  rewrite lookup_combine_map with (d := fun v => v); auto. rewrite map_length, <- (map_length fst (assocs m')), assocs_names, En by auto. reflexivity.
Qed.
Lemma assign_same f (m : tm R) : named m -> Forall (fun nv => match f (fst nv) with Some x => x = snd nv | None => True end) (assocs m) -> assign f m = m.
Proof.
  induction m as [k names vals p ms IH] using tm_ind'. intros W E. apply named_TM in W. destruct W as [Wl Ws]. cbn [assocs] in E. apply Forall_app in E as [E1 E2].
  cbn [assign]. f_equal.
  - clear - Wl E2. revert vals Wl E2. induction names as [|n names IHn]; intros [|v vals] Wl E; cbn in *; try discriminate; auto.
    inversion E; subst. cbn in *. rewrite IHn; auto. f_equal. destruct (f n); auto.
  - clear E2. induction IH as [|x l Hx Hl IHl]; [reflexivity|]. cbn. inversion Ws; subst. cbn in E1. apply Forall_app in E1 as [Ea Eb]. rewrite Hx, IHl; auto.
Qed.

(** After [fit] all hyper-parameters have the values they had before, except that 'all' has been replaced by the time stamps
    (without the last one). *)
Theorem C31_values : forall (H : hyper R R) o m ts fo eo j H' pv runs,
  hyperReady H o m ts -> hyperFit H fo eo j = Ok H' -> (1 < List.length (hy_grid H'))%nat ->
  hy_pv H' = map Fin pv -> Forall (fun p => 0 <= p) pv ->
  Forall2 (single H m fo eo) (hy_grid H') runs -> Forall (proper eo (stepsH H o) (pointsH H)) runs ->
  exists m2, st_tm (hy_S H') = Some m2 /\
    assocs m2 = map (fun nv => (fst nv, match snd nv with HAll => HArr (removelast ts) | v => v end)) (assocs m) /\
    (Forall (fun nv => snd nv <> HAll) (assocs m) -> noPriors m2 = noPriors m).
Proof.
  intros H o m ts fo eo j H' pv runs HR E Hm Epv Hpv HF HP.
  destruct (fit_known H o m ts fo eo j H' pv runs HR E Hm Epv Hpv HF HP) as (k1 & k2 & k3 & k4 & k5 & (m' & q1 & q2 & q3 & q4) & _).
  destruct (fit_grid_inv _ _ _ _ _ _ _ _ HR E) as (m1 & EG & En & Ec). destruct (hr_names _ _ _ _ HR) as (n1 & n2 & n3 & n4).
  assert (Hne : hy_grid H' <> []) by (intros E0; rewrite E0 in Hm; cbn in Hm; lia).
  destruct (grid_shape _ _ _ _ _ _ _ EG Hne) as (g1 & g2 & g3 & g4 & g5).
  exists (restored m (hy_vals H') m'). split; auto.
  assert (Ea : assocs (restored m (hy_vals H') m') = map (fun nv => (fst nv, match snd nv with HAll => HArr (removelast ts) | v => v end)) (assocs m)).
  { rewrite restored_assocs by (auto; lia). rewrite g5. rewrite assocs_values by auto. rewrite <- (assocs_names m) by auto. clear. induction (assocs m) as [|[a v] l IH]; cbn; auto. rewrite IH. destruct v; reflexivity. }
  split; auto. intros Ha. unfold restored. rewrite noPriors_assign, q1. rewrite <- noPriors_assign. f_equal. apply assign_same; auto.
  apply Forall_forall. intros [nm v] Hv. cbn [fst snd]. destruct (lookup (combine (allNames m) (hy_vals H')) nm) as [x|] eqn:El; auto.
  assert (Ev : hy_vals H' = map snd (assocs m)).
  { rewrite g5, assocs_values by auto. rewrite <- (map_id (map snd (assocs m))) at 2. apply map_ext_in. intros v0 Hv0. apply in_map_iff in Hv0 as ([a b] & <- & Hab).
    rewrite Forall_forall in Ha. specialize (Ha _ Hab). cbn in *. destruct b; auto; congruence. }
  rewrite Ev, <- (assocs_names m), combine_eta in El by auto.
  assert (In (nm, x) (assocs m)).
  { clear - El. induction (assocs m) as [|[a b] l IH]; [discriminate|]. cbn in El. destruct (String.eqb_spec a nm); [inversion El; subst; now left|right; auto]. }
  eapply assocs_unique; eauto.
Qed.

(** Another fit after loading other data uses the time stamps of the first fit. *)
Theorem C31_reused : forall (H : hyper R R) o m ts fo eo j H' pv runs d ts2 H2 o2 m2 ts2' fo2 eo2 j2 H2',
  hyperReady H o m ts -> hyperFit H fo eo j = Ok H' -> (1 < List.length (hy_grid H'))%nat ->
  hy_pv H' = map Fin pv -> Forall (fun p => 0 <= p) pv ->
  Forall2 (single H m fo eo) (hy_grid H') runs -> Forall (proper eo (stepsH H o) (pointsH H)) runs ->
  H2 = with_study H' (loadData (hy_S H') d ts2) -> hyperReady H2 o2 m2 ts2' ->
  hyperFit H2 fo2 eo2 j2 = Ok H2' ->
  hy_vals H2' = hy_vals H' /\ hy_grid H2' = hy_grid H' /\ hy_const H2' = hy_const H'.
Proof.
  intros H o m ts fo eo j H' pv runs d ts2 H2 o2 m2 ts2' fo2 eo2 j2 H2' HR E Hm Epv Hpv HF HP -> HR2 E2.
  destruct (C31_values H o m ts fo eo j H' pv runs HR E Hm Epv Hpv HF HP) as (m3 & Em & Ea & _).
  assert (m2 = m3) as ->. { pose proof (hr_tm _ _ _ _ HR2) as T. cbn in T. rewrite Em in T. congruence. }
  destruct (fit_grid_inv _ _ _ _ _ _ _ _ HR E) as (m1 & EG & En & Ec). destruct (hr_names _ _ _ _ HR) as (n1 & n2 & n3 & n4).
  destruct (fit_grid_inv _ _ _ _ _ _ _ _ HR2 E2) as (m1' & EG2 & En2 & Ec2). destruct (hr_names _ _ _ _ HR2) as (p1 & p2 & p3 & p4).
  assert (Ena : allNames m3 = allNames m). { rewrite <- !assocs_names by auto. rewrite Ea, map_map. reflexivity. }
  assert (Va : map (replaceAll ts2') (allValues m3) = map (replaceAll ts) (allValues m)).
  { rewrite !assocs_values by auto. rewrite Ea, !map_map. apply map_ext. intros [a v]. cbn. destruct v; reflexivity. }
  destruct (allNames m) as [|nm nms] eqn:Enm.
  { exfalso. unfold createHyperGrid in EG. rewrite Enm in EG. destruct (mapM _ _); [|discriminate]. cbn in EG. inversion EG as [[E0 E1 E3 E4 E5]]. rewrite <- E1 in Hm. cbn in Hm. lia. }
  rewrite (createHyperGrid_eq _ _ _ _ Enm) in EG. rewrite (createHyperGrid_eq _ _ _ _ Ena) in EG2. cbv zeta in EG, EG2. rewrite Va in EG2.
  destruct (mapM pointsOf _) as [pts|]; [|discriminate]. cbn [bind] in *.
  destruct (_ && _) in EG; [|discriminate]. destruct (_ && _) in EG2; [|discriminate].
  destruct (priorsOf _) in EG; [|discriminate]. destruct (priorsOf _) in EG2; [|discriminate]. cbn [bind] in *. inversion EG; inversion EG2; subst. auto.
Qed.

(** ** Examples *)
(** A coin study with a random walk of two possible widths (prior weights 1 and 3) and a change-point at any time. *)
Definition walkOrChange : tm R :=
  TM KComb [] [] None
    [TM (KGRW "p") ["s"%string] [HArr [1 / 4; 1 / 2]] (Some (Leaf (HPArr [Fin 1; Fin 3]))) [];
     TM KChange ["c"%string] [HAll] (Some (Leaf HPNone)) []].
Lemma walkOrChange_ok : wellNamed walkOrChange /\ onePriorEach walkOrChange.
Proof.
  split; [split; [|split; [|split]]|].
  - apply built_named, (b_comb [TM (KGRW "p") ["s"%string] [HArr [1 / 4; 1 / 2]] (Some (Leaf (HPArr [Fin 1; Fin 3]))) []; TM KChange ["c"%string] [HAll] (Some (Leaf HPNone)) []]).
    + constructor; [|constructor; [|constructor]].
      * apply (b_grw "s" (VList [1 / 4; 1 / 2]) (Some "p"%string) (Leaf (HPArr [Fin 1; Fin 3]))). reflexivity.
      * apply (b_change "c" VAll (Leaf HPNone)).
    + reflexivity.
  - cbn. repeat constructor; cbn; intuition discriminate.
  - cbn. intuition discriminate.
  - cbn. repeat constructor.
  - cbn. intuition (try discriminate); right; eexists; split; reflexivity.
Qed.
Lemma times_points ds : NoDup (removelast (times ds)) /\ List.length (removelast (times ds)) = (List.length ds - 1)%nat.
Proof.
  assert (N : NoDup (times ds)) by (unfold times; apply FinFun.Injective_map_NoDup; [exact INR_eq|apply seq_NoDup]).
  assert (L : List.length (times ds) = List.length ds) by (unfold times; now rewrite map_length, seq_length).
  split; [|rewrite removelast_firstn_len, firstn_length, L; lia].
  rewrite removelast_firstn_len. rewrite <- (firstn_skipn (Nat.pred (List.length (times ds))) (times ds)) in N.
  apply NoDup_app_inv in N. apply N.
Qed.
Lemma walkOrChange_weights ds : (2 <= List.length ds)%nat ->
  hyperWeights (times ds) (map snd (priorPairs walkOrChange)) (map snd (assocs walkOrChange))
    [[1 / 4; 1 / 2]; removelast (times ds)] [[1; 3]; map (fun _ => 1) (removelast (times ds))].
Proof.
  intros Hd. destruct (times_points ds) as [N L]. cbn. constructor; [reflexivity| | | | |constructor; [reflexivity|exact N|reflexivity| | |constructor]].
  - repeat constructor; cbn; intuition lra.
  - cbn. auto.
  - repeat constructor; lra.
  - cbn. lra.
  - apply Forall_map. apply Forall_forall. intros; lra.
  - destruct (removelast (times ds)) as [|a l]; [cbn in L; lia|]. cbn. fold (Rsum (map (fun _ => 1) l)).
    assert (0 <= Rsum (map (fun _ => 1) l)); [|lra]. apply Rsum_nonneg. apply Forall_map. apply Forall_forall. intros; lra.
Qed.

Lemma walkOrChange_fit (ds : list Z) fo eo j : bits ds -> (3 <= List.length ds)%nat ->
  exists S H' runs pv,
    let H := newHyper S in
    setup (data ds) None (coin PNone) walkOrChange = Ok S /\
    hyperReady H (coin PNone) walkOrChange (times ds) /\ allNames walkOrChange <> [] /\ onePriorEach walkOrChange /\
    hyperWeights (times ds) (map snd (priorPairs walkOrChange)) (map snd (assocs walkOrChange))
      [[1 / 4; 1 / 2]; removelast (times ds)] [[1; 3]; map (fun _ => 1) (removelast (times ds))] /\
    hyperFit H fo eo j = Ok H' /\
    List.length (hy_grid H') = (2 * (List.length ds - 1))%nat /\ (1 < List.length (hy_grid H'))%nat /\
    hy_pv H' = map Fin pv /\ Forall (fun p => 0 <= p) pv /\ Forall (fun c => 0 < c) (hy_const H') /\
    Forall2 (single H walkOrChange fo eo) (hy_grid H') runs /\
    Forall (proper eo (stepsH H (coin PNone)) (pointsH H)) runs /\
    0 < rsum (List.length runs) (fun i => evidenceOf (nth i runs S) * Rnth pv i) /\
    stepsH H (coin PNone) = List.length ds /\ pointsH H = 3%nat /\ Forall (fun A => 0 < evidenceOf A) runs.
Proof.
  intros Hb Hd. destruct (coin_setup ds PNone walkOrChange eq_refl) as (S & E & q1 & q2 & q3 & q4 & q5 & q6).
  assert (Hd0 : ds <> []) by (destruct ds; [cbn in Hd; lia|discriminate]). destruct walkOrChange_ok as [W1 W2].
  assert (ND : NoDup (allNames walkOrChange)) by apply W1.
  pose proof (coin_configured _ _ _ _ E eq_refl Hd0 ND) as C. set (H := newHyper S).
  assert (Sel : st_sel S = []).
  { unfold setup in E. cbn [runCalls runCall bind] in E. unfold setTM in E. change (isBreak walkOrChange) with false in E. cbn [bind] in E.
    unfold setOM in E. cbn [combine om_values om_names coin coinOM mapM paramValues fst snd bind] in E.
    rewrite quarters_progression, lattice_progression in E by lia. cbn [bind] in E. inversion E. reflexivity. }
  assert (Fts : formatTimestamps (times ds) (om_seglen (coin PNone)) = times ds) by reflexivity.
  assert (HR : hyperReady H (coin PNone) walkOrChange (times ds)).
  { constructor; auto; [|exact I]. exists (times ds). split; auto. }
  pose proof (walkOrChange_weights ds ltac:(lia)) as HW. destruct (times_points ds) as [TN TL].
  assert (Shape : natprod (map (@List.length R) [[1 / 4; 1 / 2]; removelast (times ds)]) = (2 * (List.length ds - 1))%nat) by (cbn [map natprod fold_right List.length]; rewrite TL; lia).
  assert (Two : forall row, Forall2 (fun v xs => In v xs) row [[1 / 4; 1 / 2]; removelast (times ds)] ->
     exists s c, row = [s; c] /\ withValues walkOrChange row = comb [TM (KGRW "p") ["s"%string] [HNum s] (Some (Leaf (HPArr [Fin 1; Fin 3]))) []; change "c" c]).
  { intros row HF. inversion HF as [|s xs row' pts Hs HF' E1 E2]; subst. inversion HF' as [|c xs row'' pts Hc HF'' E1 E2]; subst. inversion HF''; subst. exists s, c. split; reflexivity. }
  destruct (coin_likelihoods _ _ _ _ E eq_refl Hb) as [Lk Lp].
  assert (Pr : nonnegPrior (gridPoints [quarters]) (coin PNone) (map (@List.length R) [quarters]) (meshgrid [quarters]) (om_prior (coin PNone))) by exact I.
  assert (LkF : forall s, In s (segments S (coin PNone)) -> finite (gridPoints [quarters]) (processedPdf (coin PNone) (gridPoints [quarters]) (meshgrid [quarters]) s)).
  { intros s Hs. apply In_nth_error in Hs as (i & Hs). destruct (Lk i s Hs) as [-> Hp]. exists (tab (gridPoints [quarters]) (coinLik ds i)).
    split; [reflexivity|]. split; [apply tab_length|]. unfold tab. apply Forall_map. apply Forall_forall. intros x Hx. apply in_seq in Hx. apply Hp. lia. }
  assert (Run : forall row, Forall2 (fun v xs => In v xs) row [[1 / 4; 1 / 2]; removelast (times ds)] -> runnable (om_names (coin PNone)) (withValues walkOrChange row)).
  { intros row HF. destruct (Two row HF) as (s & c & _ & ->). constructor. repeat constructor. }
  destruct (C28_succeeds H (coin PNone) walkOrChange [quarters] (times ds) fo eo j _ _ C HR W2 (few_points _ _ ND ltac:(cbn; lia)) HW ltac:(lia) Run Pr LkF) as (H' & EH & Hm & runs & HF & HP).
  assert (Hne : allNames walkOrChange <> []) by discriminate.
  destruct (C27_prior H (coin PNone) walkOrChange (times ds) fo eo j H' _ _ HR EH Hne W2 HW) as (pv & p1 & p2 & p3 & p4 & p5 & p6).
  destruct (C27_grid H (coin PNone) walkOrChange (times ds) fo eo j H' HR EH Hne) as (points & g1 & g2 & g3 & (g4 & g5) & g6 & g7).
  assert (points = [[1 / 4; 1 / 2]; removelast (times ds)]) as ->.
  { inversion g1 as [|a b c d F1 F2]; subst. inversion F2 as [|a' b' c' d' F3 F4]; subst. inversion F4; subst. cbn in F1, F3. now subst. }
  exists S, H', runs, pv. cbv zeta. fold H. repeat (split; [auto; fail|]).
  assert (Ns : stepsH H (coin PNone) = List.length ds) by exact (coin_steps _ _ _ _ E eq_refl).
  assert (Np : pointsH H = 3%nat) by (unfold pointsH; cbn [hy_S H newHyper]; rewrite (cf_shape _ _ _ _ _ C); reflexivity).
  split; [rewrite g4, <- Shape; reflexivity|]. repeat (split; [auto; fail|]).
  assert (Pe : forall A, In A runs -> 0 < evidenceOf A).
  { intros A HA. assert (exists row, In row (hy_grid H') /\ single H walkOrChange fo eo row A) as (row & Hrow & SA).
    { clear - HF HA. induction HF as [|r B rows l HB HF IH]; [destruct HA|]. destruct HA as [->|HA]; [exists r; split; [now left|auto]|]. destruct (IH HA) as (r' & h1 & h2). exists r'. split; [now right|auto]. }
    apply g2 in Hrow. destruct (Two row Hrow) as (s & c & _ & Ew). unfold single in SA. rewrite Ew in SA. set (mm := comb _) in SA. cbn [H newHyper hy_S] in SA.
    rewrite (cf_tmlat _ _ _ _ _ C) in SA. set (S2 := set_tm S mm (st_lat S)) in SA.
    assert (Lin : linear ["p"%string] mm) by (constructor; repeat constructor).
    assert (ND2 : NoDup (allNames mm)) by exact ND.
    pose proof (configured_tm S _ _ mm _ _ C ND2 : configured S2 (coin PNone) mm [quarters] (times ds)) as C2.
    assert (PI : priorIs S2 [quarters] (coin PNone) PNone (flat (gridPoints [quarters]))) by constructor.
    destruct (Inference.C03_evidence S2 (coin PNone) mm [quarters] (times ds) (flat (gridPoints [quarters])) (coinLik ds) fo eo C2 Lin PI Lk) as (A' & EA & _ & _ & EvA).
    - left. exact I.
    - change (0 < nSteps S (coin PNone))%nat. rewrite (coin_steps _ _ _ _ E eq_refl). lia.
    - right. split; [left; apply times_unit|now left].
    - rewrite EA in SA. inversion SA; subst A'. destruct EvA as (v & Ev & _); [|unfold evidenceOf; rewrite Ev; apply exp_pos].
      destruct (flat_ok S2 _ mm _ _ C2) as [F1 F2].
      assert (FE : FitCore.fitEnv S2 (coin PNone) mm [quarters] (times ds) (flat (gridPoints [quarters])) (envOf S2 (coin PNone) PNone) (flat (gridPoints [quarters]))).
      { change PNone with (om_prior (coin PNone)) at 2. apply fitEnv_stable; auto. }
      apply evidence_pos; auto.
      + rewrite F2. lra.
      + intros i. exact (FitCore.Kst S2 (coin PNone) mm [quarters] (times ds) _ _ _ C2 Lin FE i).
      + intros i x Hi. apply Lp. change (i < nSteps S (coin PNone))%nat in Hi. now rewrite (coin_steps _ _ _ _ E eq_refl) in Hi. }
  split; [|split; [auto|split; [auto|apply Forall_forall; exact Pe]]]. apply InferProof.rsum_pos.
  - intros i Hi. apply Rmult_le_pos; [apply evidenceOf_nonneg|]. rewrite Forall_forall in p5. destruct (Nat.lt_ge_cases i (List.length pv)); [apply p5; now apply nth_In|]. unfold Rnth. rewrite nth_overflow by auto. lra.
  - assert (Lr : List.length runs = List.length pv) by (rewrite p2; symmetry; apply (SetupProof.Forall2_len _ _ _ HF)).
    assert (Sp : 0 < rsum (List.length pv) (Rnth pv)).
    { rewrite <- Rsum_rnth. pose proof (Rprod_pos _ p6). apply (Rmult_lt_reg_r (Rprod (hy_const H'))); auto. lra. }
    apply rsum_pos_ex in Sp as (i & Hi & Pi). exists i. rewrite Lr. split; auto. apply Rmult_lt_0_compat; auto. apply Pe. apply nth_In. lia.
Qed.

(** All hypotheses of C27-C31 are met by this study. *)
Example C28_ex (ds : list Z) fo eo j : bits ds -> (3 <= List.length ds)%nat ->
  exists S H' runs pv,
    let H := newHyper S in
    setup (data ds) None (coin PNone) walkOrChange = Ok S /\
    hyperReady H (coin PNone) walkOrChange (times ds) /\ allNames walkOrChange <> [] /\ onePriorEach walkOrChange /\
    hyperWeights (times ds) (map snd (priorPairs walkOrChange)) (map snd (assocs walkOrChange))
      [[1 / 4; 1 / 2]; removelast (times ds)] [[1; 3]; map (fun _ => 1) (removelast (times ds))] /\
    hyperFit H fo eo j = Ok H' /\
    List.length (hy_grid H') = (2 * (List.length ds - 1))%nat /\ (1 < List.length (hy_grid H'))%nat /\
    hy_pv H' = map Fin pv /\ Forall (fun p => 0 <= p) pv /\ Forall (fun c => 0 < c) (hy_const H') /\
    Forall2 (single H walkOrChange fo eo) (hy_grid H') runs /\
    Forall (proper eo (stepsH H (coin PNone)) (pointsH H)) runs /\
    0 < rsum (List.length runs) (fun i => evidenceOf (nth i runs S) * Rnth pv i) /\
    stepsH H (coin PNone) = List.length ds /\ pointsH H = 3%nat.
Proof.
  intros Hb Hd. destruct (walkOrChange_fit ds fo eo j Hb Hd) as (S & H' & runs & pv & K). exists S, H', runs, pv. cbv zeta in *. intuition.
Qed.

(** The other cases, executed. *)
Definition anyTime (prior : hprior Q) : tm Q := TM KChange ["c"%string] [HAll] (Some (Leaf prior)) [].
Example C28_run :
  (let* S0 := setup (L := Q) (data [1; 1; 0; 0]%Z) None (coinOM quarters PNone) (anyTime HPNone) in
   let* H1 := hyperFit (newHyper S0) true false 2 in
   Ok (hy_grid H1, hy_pv H1, hy_const H1, hy_dist H1, hy_logEvs H1, st_logEv (hy_S H1), nth 3 (st_post (hy_S H1)) None))%res =
  Ok ([[0]; [1]; [2]], [Fin (1 # 3); Fin (1 # 3); Fin (1 # 3)], [1],
      Some [Fin (30 # 109); Fin (49 # 109); Fin (30 # 109)],
      [Fin (5 # 384); Fin (49 # 2304); Fin (5 # 384)], Fin (109 # 6912),
      Some [Fin (60 # 109); Fin (36 # 109); Fin (13 # 109)])%Q.
Proof. vm_compute. reflexivity. Qed.

(** SymPy priors are not normalised over the values: the prior of the grid need not integrate to one. *)
Definition halfThird (t : Q) : xnum Q := if Qltb t (1 # 2)%Q then Fin (1 # 2)%Q else Fin (1 # 3)%Q.
Theorem C27_symbolic_refuted : exists (S : study Q Q) H' (p : hprior Q),
  setup (data [1; 1; 0]%Z) None (coinOM quarters PNone) (anyTime p) = Ok S /\
  hyperFit (newHyper S) true true 1 = Ok H' /\ hy_const H' = [1%Q] /\ asum (hy_pv H') <> Fin 1%Q.
Proof.
  assert (E : (let* S0 := setup (L := Q) (data [1; 1; 0]%Z) None (coinOM quarters PNone) (anyTime (HPRV halfThird)) in
    let* H1 := hyperFit (newHyper S0) true true 1 in Ok (hy_const H1, asum (hy_pv H1)))%res = Ok ([1], Fin (5 # 6))%Q) by (vm_compute; reflexivity).
  run E. do 2 eexists. exists (HPRV halfThird). repeat (split; [eassumption|]). intros E1. rewrite E1 in *. discriminate.
Qed.

(** Data that are impossible for every combination leave a distribution of NaN. *)
Theorem C28_impossible_refuted : exists (S : study Q Q) H',
  setup (data [1; 0; 1; 0]%Z) None (coinOM [0; 1]%Q PNone) (anyTime HPNone) = Ok S /\
  hyperFit (newHyper S) true true 1 = Ok H' /\ hy_logEvs H' = [NInf; NInf; NInf] /\ st_logEv (hy_S H') = NInf /\
  hy_dist H' = Some [NaN; NaN; NaN].
Proof.
  assert (E : (let* S0 := setup (L := Q) (data [1; 0; 1; 0]%Z) None (coinOM [0; 1]%Q PNone) (anyTime HPNone) in
    let* H1 := hyperFit (newHyper S0) true true 1 in Ok (hy_logEvs H1, st_logEv (hy_S H1), hy_dist H1))%res = Ok ([NInf; NInf; NInf], NInf, Some [NaN; NaN; NaN])) by (vm_compute; reflexivity).
  run E. do 2 eexists. repeat (split; [eassumption|]). assumption.
Qed.

(** With a single combination, [fit] is the ordinary fit and does not use the values of the grid: with 'all' and two time
    stamps the change-point is ignored although the only combination explains the data. *)
Theorem C28_single_refuted : exists (S S2 A : study Q Q) H',
  setup (data [1; 0]%Z) None (coinOM [0; 1]%Q PNone) (anyTime HPNone) = Ok S /\
  hyperFit (newHyper S) true true 1 = Ok H' /\ hy_grid H' = [[0%Q]] /\ st_logEv (hy_S H') = NInf /\
  setup (data [1; 0]%Z) None (coinOM [0; 1]%Q PNone) (change "c" 0%Q) = Ok S2 /\
  fit S2 true true = Ok A /\ st_logEv A = Fin (1 # 4)%Q.
Proof.
  assert (E : (let* S0 := setup (L := Q) (data [1; 0]%Z) None (coinOM [0; 1]%Q PNone) (anyTime HPNone) in
    let* H1 := hyperFit (newHyper S0) true true 1 in
    let* S2 := setup (L := Q) (data [1; 0]%Z) None (coinOM [0; 1]%Q PNone) (change "c" 0%Q) in
    let* A := fit S2 true true in
    Ok (hy_grid H1, st_logEv (hy_S H1), st_logEv A))%res = Ok ([[0]], NInf, Fin (1 # 4))%Q) by (vm_compute; reflexivity).
  run E. do 4 eexists. repeat (split; [eassumption|]). assumption.
Qed.

Example C31_run :
  (let* S0 := setup (L := Q) (data [1; 0; 0; 1]%Z) None (coinOM quarters PNone) (anyTime HPNone) in
   let* H1 := hyperFit (newHyper S0) true true 1 in
   let H2 := with_study H1 (loadData (hy_S H1) (data [1; 0; 0; 1; 1; 1]%Z) None) in
   let* H3 := hyperFit H2 true true 3 in
   Ok (st_tm (hy_S H1), hy_grid H1, hy_grid H3))%res =
  Ok (Some (TM KChange ["c"%string] [HArr [0; 1; 2]] (Some (Leaf HPNone)) []), [[0]; [1]; [2]], [[0]; [1]; [2]])%Q.
Proof. vm_compute. reflexivity. Qed.

(** Two change-points whose values overlap: the hypotheses of C53 *)
Local Open Scope R_scope.
Definition twoChanges : tm R :=
  TM KComb [] [] None [TM KChange ["a"%string] [HArr [1; 2]] (Some (Leaf HPNone)) []; TM KChange ["b"%string] [HArr [2; 3]] (Some (Leaf HPNone)) []].
Example C53_ex (ds : list Z) : ds <> [] ->
  exists S ws, setup (data ds) None (coin PNone) twoChanges = Ok S /\ hyperReady (newHyper S) (coin PNone) twoChanges (times ds) /\ onePriorEach twoChanges /\
    hyperWeights (times ds) (map snd (priorPairs twoChanges)) (map snd (assocs twoChanges)) [[1; 2]; [2; 3]] ws /\ allNames twoChanges <> [] /\ clash twoChanges [[1; 2]; [2; 3]].
Proof.
  intros Hd. destruct (coin_setup ds PNone twoChanges eq_refl) as (S & E & q1 & q2 & q3 & q4 & q5 & q6). exists S, [[1; 1]; [1; 1]]. split; auto.
  assert (Sel : st_sel S = []).
  { unfold setup in E. cbn [runCalls runCall bind] in E. unfold setTM in E. change (isBreak twoChanges) with false in E. cbn [bind] in E.
    unfold setOM in E. cbn [combine om_values om_names coin coinOM mapM paramValues fst snd bind] in E.
    rewrite quarters_progression, lattice_progression in E by lia. cbn [bind] in E. inversion E. reflexivity. }
  split; [|split; [|split; [|split]]].
  - constructor; auto; [|split; [|split; [|split]]|exact I].
    + exists (times ds). split; auto.
    + apply built_named, (b_comb [TM KChange ["a"%string] [HArr [1; 2]] (Some (Leaf HPNone)) []; TM KChange ["b"%string] [HArr [2; 3]] (Some (Leaf HPNone)) []]); [|reflexivity].
      constructor; [apply (b_change "a" (VList [1; 2]) (Leaf HPNone))|constructor; [apply (b_change "b" (VList [2; 3]) (Leaf HPNone))|constructor]].
    + cbn. repeat constructor; cbn; intuition discriminate.
    + cbn. intuition discriminate.
    + cbn. repeat constructor.
  - cbn. intuition (try discriminate); right; eexists; split; reflexivity.
  - cbn. constructor; [reflexivity|repeat constructor; cbn; intuition lra|reflexivity|repeat constructor; lra|cbn; lra|].
    constructor; [reflexivity|repeat constructor; cbn; intuition lra|reflexivity|repeat constructor; lra|cbn; lra|constructor].
  - discriminate.
  - exists [2; 2], 0%nat, 1%nat, "a"%string, "b"%string. split; [constructor; [cbn; auto|constructor; [cbn; auto|constructor]]|]. split; [discriminate|]. repeat (split; [reflexivity|]).
    split; [|split; [|reflexivity]]; [eapply ip_sub; [left; reflexivity|]|eapply ip_sub; [right; left; reflexivity|]]; apply ip_change; left; reflexivity.
Qed.

(** ** C58 *)
(** The local evidence of the average model at step [t]: the local evidences of all analyses, weighted with the prior values. If one of the analyses
    stopped before step [t] (its evidence is zero), the result is not determined: it is computed from a cell that was never written. *)
Lemma allSome_known {A} (l : list A) : allSome (map Some l) = Some l.
Proof. induction l as [|a l IH]; cbn; auto. now rewrite IH. Qed.
Lemma allSome_missing {A} (l : list (option A)) : In None l -> allSome l = None.
Proof. induction l as [|a l IH]; intros I; [destruct I|]. destruct I as [->|I]; cbn; auto. rewrite IH by auto. now destruct a. Qed.
Theorem C58_local : forall (H : hyper R R) o m ts fo eo j H' pv runs d0 t,
  hyperReady H o m ts -> hyperFit H fo eo j = Ok H' -> (1 < List.length (hy_grid H'))%nat ->
  hy_pv H' = map Fin pv -> Forall (fun p => 0 <= p) pv ->
  Forall2 (single H m fo eo) (hy_grid H') runs -> Forall (proper eo (stepsH H o) (pointsH H)) runs -> (t < stepsH H o)%nat ->
  (forall loc : nat -> R, (forall i, (i < List.length runs)%nat -> nth t (st_local (nth i runs d0)) None = Some (Fin (loc i))) ->
     nth t (st_local (hy_S H')) None = Some (Fin (rsum (List.length runs) (fun i => loc i * Rnth pv i)))) /\
  ((exists A, In A runs /\ nth t (st_local A) None = None) -> nth t (st_local (hy_S H')) None = None).
Proof.
  intros H o m ts fo eo j H' pv runs d0 t HR E Hm Epv Hpv HF HP Ht.
  destruct (fit_known H o m ts fo eo j H' pv runs HR E Hm Epv Hpv HF HP) as (k1 & _ & _ & _ & -> & _). unfold localSum.
  assert (G : forall (f : nat -> option (xnum R)) n, (t < n)%nat -> nth t (map f (seq 0 n)) None = f t).
  { intros f n Hn. rewrite (nth_indep _ None (f 0%nat)) by (rewrite map_length, seq_length; auto). rewrite map_nth, seq_nth by auto. reflexivity. }
  rewrite G by auto. rewrite map_map. split.
  - intros loc El. assert (Em : map (fun x => nth t (st_local x) None) runs = map Some (map Fin (tab (List.length runs) loc))).
    { clear - El. unfold tab. rewrite !map_map. revert loc El. induction runs as [|A runs IH]; intros loc El; [reflexivity|]. cbn [map List.length seq]. f_equal.
      - apply (El 0%nat). cbn. lia.
      - rewrite <- seq_shift, map_map. apply (IH (fun i => loc (Datatypes.S i))). intros i Hi. apply (El (Datatypes.S i)). cbn. lia. }
    rewrite Em, allSome_known. do 2 f_equal. change (map Fin (tab (List.length runs) loc)) with (fin (tab (List.length runs) loc)). rewrite <- (tab_Rnth pv) at 1. rewrite <- k1, amul_fin, rmul_tab, asum_fin, Rsum_tab. reflexivity.
  - intros (A & IA & EA). rewrite allSome_missing; auto. apply in_map_iff. exists A. auto.
Qed.
(** If all analyses agree about the local evidence, the result is this value divided by the size of the cells of the hyper-grid. *)
Theorem C58_agreement : forall (H : hyper R R) o m ts fo eo j H' points ws runs d0 t l,
  hyperReady H o m ts -> hyperFit H fo eo j = Ok H' -> (1 < List.length (hy_grid H'))%nat -> onePriorEach m ->
  hyperWeights ts (map snd (priorPairs m)) (map snd (assocs m)) points ws ->
  Forall2 (single H m fo eo) (hy_grid H') runs -> Forall (proper eo (stepsH H o) (pointsH H)) runs -> (t < stepsH H o)%nat ->
  (forall i, (i < List.length runs)%nat -> nth t (st_local (nth i runs d0)) None = Some (Fin l)) ->
  nth t (st_local (hy_S H')) None = Some (Fin (l / Rprod (hy_const H'))).
Proof.
  intros H o m ts fo eo j H' points ws runs d0 t l HR E Hm Ho HW HF HP Ht El.
  assert (Hne : allNames m <> []).
  { intros E0. destruct (fit_grid_inv _ _ _ _ _ _ _ _ HR E) as (m' & EG & _). unfold createHyperGrid in EG. cbv zeta in EG. destruct (mapM pointsOf _) as [pts|]; [|discriminate]. cbn [bind] in EG.
    rewrite E0 in EG. inversion EG as [[e1 e2 e3 e4 e5]]. rewrite <- e2 in Hm. cbn in Hm. lia. }
  destruct (C27_prior H o m ts fo eo j H' points ws HR E Hne Ho HW) as (pv & p1 & p2 & _ & p3 & p4 & p5).
  destruct (C58_local H o m ts fo eo j H' pv runs d0 t HR E Hm p1 p4 HF HP Ht) as [L _]. rewrite (L (fun _ => l) El). do 2 f_equal.
  destruct (fit_known H o m ts fo eo j H' pv runs HR E Hm p1 p4 HF HP) as (k1 & _).
  assert (Pc : 0 < Rprod (hy_const H')) by now apply Rprod_pos.
  rewrite rsum_scal, k1. replace (rsum (List.length pv) (Rnth pv)) with (Rsum pv).
  - apply (Rmult_eq_reg_r (Rprod (hy_const H'))); [|lra]. transitivity (l * (Rsum pv * Rprod (hy_const H'))); [ring|]. rewrite p3. field. lra.
  - rewrite <- (tab_Rnth pv) at 1. apply Rsum_tab.
Qed.

Local Open Scope Q_scope.
(** Executed: two step widths 1/4 and 1/2, three data points, forward pass; the local evidences of the average model. For the first data point both analyses give 1/2. *)
Definition twoWidths : tm Q := TM (KGRW "p") ["s"%string] [HArr [1 # 4; 1 # 2]] (Some (Leaf (HPArr [Fin 1; Fin 3]))) [].
Example C58_ex :
  (let* S0 := setup (L := Q) (data [1; 1; 0]%Z) None (coinOM quarters PNone) twoWidths in
   let* H' := hyperFit (newHyper S0) true false 1 in Ok (st_local (hy_S H'), hy_const H', st_logEv (hy_S H'), hy_pv H'))%res = Ok ([Some (Fin 2); Some (Fin (8188961 # 16052319)); Some (Fin (1592536184606386 # 3259709163086703))], [1 # 4], Fin (513684826890989 # 4122831124444176), [Fin 1; Fin 3]).
Proof. vm_compute. reflexivity. Qed.

(** The local evidence of the average model is not an average: here both analyses have the local evidence 1/2 for the first data point, but the average model has 2. *)
Theorem C58_average_refuted : exists (S0 : study Q Q) (H' : hyper Q Q) A B,
  setup (data [1; 1; 0]%Z) None (coinOM quarters PNone) twoWidths = Ok S0 /\ hyperFit (newHyper S0) true false 1 = Ok H' /\
  fit (set_tm S0 (grw "s" "p" (1 # 4)) (st_tmlat S0)) true false = Ok A /\ fit (set_tm S0 (grw "s" "p" (1 # 2)) (st_tmlat S0)) true false = Ok B /\ hy_grid H' = [[1 # 4]; [1 # 2]] /\
  nth 0 (st_local A) None = Some (Fin (1 # 2)) /\ nth 0 (st_local B) None = Some (Fin (1 # 2)) /\ nth 0 (st_local (hy_S H')) None = Some (Fin 2).
Proof.
  assert (E : (let* S0 := setup (L := Q) (data [1; 1; 0]%Z) None (coinOM quarters PNone) twoWidths in let* H' := hyperFit (newHyper S0) true false 1 in
     let* A := fit (set_tm S0 (grw "s" "p" (1 # 4)) (st_tmlat S0)) true false in let* B := fit (set_tm S0 (grw "s" "p" (1 # 2)) (st_tmlat S0)) true false in
     Ok (hy_grid H', nth 0 (st_local A) None, nth 0 (st_local B) None, nth 0 (st_local (hy_S H')) None))%res = Ok ([[1 # 4]; [1 # 2]], Some (Fin (1 # 2)), Some (Fin (1 # 2)), Some (Fin 2))) by (vm_compute; reflexivity).
  run E. do 4 eexists. repeat (split; [eassumption|]). assumption.
Qed.

(** A combination with zero evidence makes the local evidence of the average model undetermined, although the evidence of the average model is positive: here a coin with
    probability 0 or 1 shows 1 and then 0, and changes after the first or after the second toss. *)
Definition oneChange : tm Q := TM KChange ["c"%string] [HArr [0; 1]] (Some (Leaf HPNone)) [].
Theorem C58_undetermined_refuted : exists (S0 : study Q Q) (H' : hyper Q Q) v,
  setup (data [1; 0; 0]%Z) None (coinOM [0; 1] PNone) oneChange = Ok S0 /\ hyperFit (newHyper S0) true false 1 = Ok H' /\
  st_logEv (hy_S H') = Fin v /\ 0 < v /\ nth 2 (st_local (hy_S H')) None = None.
Proof.
  assert (E : (let* S0 := setup (L := Q) (data [1; 0; 0]%Z) None (coinOM [0; 1] PNone) oneChange in let* H' := hyperFit (newHyper S0) true false 1 in
     Ok (st_logEv (hy_S H'), nth 2 (st_local (hy_S H')) None))%res = Ok (Fin (1 # 8), None)) by (vm_compute; reflexivity).
  run E. do 3 eexists. repeat (split; [eassumption|]). split; [reflexivity|assumption].
Qed.
