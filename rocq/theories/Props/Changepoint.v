(** ChangepointStudy: C33, C34. *)
From Coq Require Import List ZArith QArith Reals Lra Lia Arith Bool String Sorted.
From Verif Require Import Base.Num Base.Exn Base.Arr Base.RSum Base.Lift Model.Helper Model.Tm Model.HyperParams Model.Study Model.Api
  Model.Getters Model.Hyper Model.Changepoint Spec.Kernel Spec.Config Spec.Dist Spec.Names Spec.HyperSpec Spec.ChangeSpec
  Proof.KernelProof Proof.FitInv Proof.FitThms Proof.SetupProof Proof.DataProof Proof.PriorProof Proof.TransProof Proof.Good Proof.SplitProof Proof.NamesProof Proof.LogProof
  Proof.GridProof Proof.MarginalProof Proof.HyperProof Proof.HyperFit Proof.HyperMarg Proof.ChangeProof Proof.Duration Proof.InferProof Proof.FitCore Props.Ex Props.ExR Props.Inference Props.HyperStudy.
Import ListNotations.
Local Open Scope R_scope.

(** ** auxiliary *)
Lemma cp_mask_spec (m : tm R) rows i : oneKind m -> wellNamed m -> Forall (fun row => (List.length (allNames m) <= List.length row)%nat) rows ->
  (i < List.length rows)%nat -> nth i (orderMask (allNames m) (thePoints m) rows) false = true <-> ordered m (nth i rows []).
Proof.
  intros K (_ & ND & _) HF Hi. rewrite mask_nth by auto. apply ordered_iff; auto. rewrite Forall_forall in HF. apply HF. now apply nth_In.
Qed.
Lemma points_names m : oneKind m -> allNames m <> [].
Proof.
  intros [_ K] E. apply K. destruct (points_subseq m) as [P1 P2]. rewrite E in P1, P2. unfold pointNames. inversion P1; inversion P2. reflexivity.
Qed.
Lemma pick_ne {A} mask (l : list A) : (1 < List.length (pick mask l))%nat -> l <> [].
Proof. intros Hl ->. rewrite pick_nil in Hl. cbn in Hl. lia. Qed.

Lemma map2_at {A B D} (f : A -> B -> D) l r i d d1 d2 : (i < List.length l)%nat -> List.length l = List.length r -> nth i (map2 f l r) d = f (nth i l d1) (nth i r d2).
Proof. revert r i. induction l as [|a l IH]; intros [|b r] [|i] Hi E; cbn in *; try lia; auto. apply IH; lia. Qed.

Lemma rescaled_fin mask pv0 : 0 < Rsum (pick mask pv0) -> rescaled mask (fin pv0) = fin (pick mask (map (fun p => p * (Rsum pv0 / Rsum (pick mask pv0))) pv0)).
Proof.
  intros Hp. unfold rescaled. rewrite pick_fin, !asum_fin. set (part := Rsum (pick mask pv0)) in *. cbn [xdiv]. change (@fdiv R _) with Rdiv. change (feqb part f0) with (Reqb part 0).
  destruct (Reqb part 0) eqn:E0; [apply Reqb_true in E0; lra|]. unfold amuls. rewrite pick_map', !map_map. reflexivity.
Qed.

(** ** C33 *)
(** A combination of hyper-parameter values is analysed if and only if the times of the change-points (or break-points) are
    strictly increasing. *)
Theorem C33_combinations : forall (C : cpstudy R R) o m ts fo eo j C',
  hyperReady (cp_H C) o m ts -> changepointFit C fo eo j = Ok C' ->
  exists points : list (list R),
    Forall2 (valueList ts) (map snd (assocs m)) points /\
    (forall row, In row (cp_all C') <-> Forall2 (fun v xs => In v xs) row points) /\
    (forall row, In row (hy_grid (cp_H C')) <-> Forall2 (fun v xs => In v xs) row points /\ ordered m row) /\
    (Forall (@NoDup R) points -> NoDup (cp_all C') /\ NoDup (hy_grid (cp_H C'))) /\
    (changepointNames m = [] \/ breakpointNames m = []) /\ pointNames m <> [].
Proof.
  intros C o m ts fo eo j C' HR E. destruct (cpFit_inv C o m ts HR _ _ _ _ E) as (vals & rows & cs & pv & m' & H2 & d & Hs & K & EG & EF & ED & -> & k1 & k2 & k3 & k4 & k5).
  pose proof (hr_names _ _ _ _ HR) as W. destruct (grid_points _ _ _ _ _ _ _ W (points_names _ K) EG) as (points & p1 & p2 & p3 & p4 & p5).
  exists points. split; auto. cbn [cpResult cp_all cp_H with_dist with_grid hy_grid]. split; auto. rewrite k3. split; [|split; [|exact K]].
  - intros row. rewrite (pick_In _ _ _ []) by apply mask_length. rewrite <- p2. split.
    + intros (i & Hi & Ei & <-). split; [now apply nth_In|]. apply cp_mask_spec in Ei; auto. destruct rows; [cbn in Hi; lia|]. eapply grid_shape; eauto. discriminate.
    + intros [Hin Ho]. apply (In_nth _ _ []) in Hin as (i & Hi & <-). exists i. split; auto. split; auto. apply cp_mask_spec; auto. destruct rows; [cbn in Hi; lia|]. eapply grid_shape; eauto. discriminate.
  - intros ND. split; auto. apply pick_NoDup. auto.
Qed.

(** everything that is known about the result *)
Lemma cp_known C o m ts fo eo C' pv : cpFitted C o m ts fo eo C' pv ->
  let mask := cp_mask C' in
  let all := cp_all C' in
  let n := stepsH (cp_H C) o in
  let N := pointsH (cp_H C) in
  let cs := hy_const (cp_H C') in
  let d0 := hy_S (cp_H C) in
  exists As : list (study R R),
    List.length mask = List.length all /\ List.length As = List.length all /\ List.length pv = List.length all /\
    (forall i, (i < List.length all)%nat -> nth i mask false = true <-> ordered m (nth i all [])) /\
    (forall i, nth i mask false = false -> Rnth pv i = 0) /\
    (forall i, nth i mask false = true -> single (cp_H C) m fo eo (nth i all []) (nth i As d0)) /\
    hy_grid (cp_H C') = pick mask all /\
    Forall2 (single (cp_H C) m fo eo) (pick mask all) (pick mask As) /\ Forall (proper eo n N) (pick mask As) /\
    hy_logEvs (cp_H C') = map st_logEv (pick mask As) /\
    st_logEv (hy_S (cp_H C')) = xlogsumexp (F := R) (logWeights (map st_logEv (pick mask As)) (fin (pick mask pv)) cs) /\
    spreadDist mask (Some (hyperDistribution (logWeights (map st_logEv (pick mask As)) (fin (pick mask pv)) cs) cs)) = match hy_dist (cp_H C') with Some d => Ok d | None => Err ValueError end /\
    (exists m2, st_tm (hy_S (cp_H C')) = Some m2 /\ allNames m2 = allNames m) /\
    hy_names (cp_H C') = allNames m /\
    hy_vals (cp_H C') = map (replaceAll ts) (map snd (assocs m)) /\
    sameInputs (hy_S (cp_H C)) (hy_S (cp_H C')) /\
    (eo = false -> st_post (hy_S (cp_H C')) = map Some (averagePosterior (lgm n N (mixed (combine (pick mask As) (pick mask pv)))))).
Proof.
  intros [HR [j E] Hm Epv Hpv Hc HP Hpos] mask all n N cs d0.
  destruct (cpFit_inv C o m ts HR _ _ _ _ E) as (vals & rows & cs' & pvx & m' & H2 & d & Hs & K & EG & EF & ED & EC' & k1 & k2 & k3 & k4 & k5).
  set (mask' := orderMask (allNames m) (thePoints m) rows) in *.
  assert (Emask : mask = mask') by (unfold mask; now rewrite EC'). assert (Eall : all = rows) by (unfold all; now rewrite EC').
  assert (Ecs : cs = cs') by (unfold cs; now rewrite EC'). clearbody mask all cs. subst mask all cs. 
  rewrite EC' in *. cbn [cpResult cp_H with_dist with_grid hy_grid hy_pv hy_const hy_logEvs hy_S hy_names hy_vals hy_dist cp_all cp_mask] in *.
  pose proof (hr_names _ _ _ _ HR) as W. rewrite k3 in Hm. pose proof (pick_ne _ _ Hm) as Hne.
  destruct (grid_shape _ _ _ _ _ _ _ EG Hne) as (g1 & g2 & g3 & g4 & g5).
  assert (Lm : List.length mask' = List.length rows) by apply mask_length.
  assert (Lr : List.length (rescaled mask' pvx) = count mask'). { unfold rescaled, amuls. rewrite map_length. apply pick_length. lia. }
  rewrite k5 in Epv. destruct (spread_inv _ _ _ Lr Epv) as [E1 E2].
  assert (Lpv : List.length pv = List.length rows) by (rewrite <- E2, spreadR_length; auto).
  assert (Lp : List.length (pick mask' rows) = List.length (pick mask' pv)) by (rewrite !pick_length by lia; auto).
  unfold cpGrid in EF. fold mask' in EF. cbv zeta in EF. fold mask' in EF. rewrite E1 in EF.
  assert (g2' : Forall (fun row => (List.length (allNames m) <= List.length row)%nat) (pick mask' rows)) by now apply pick_Forall.
  destruct (rows_runs _ o m ts HR vals (pick mask' rows) cs' (pick mask' pv) m' Lp g2' g3 g4 Hm fo eo j H2 EF) as (EC & runs & HF).
  assert (HPr : Forall (proper eo n N) runs).
  { rewrite k3 in HP. clear - HF HP. induction HF as [|row A l r HA HF IH]; constructor; [apply (HP row); auto; now left|]. apply IH. intros row' A' Hin. apply HP. now right. }
  destruct (rows_spec _ o m ts HR vals (pick mask' rows) cs' (pick mask' pv) m' Lp g2' g3 g4 Hm (pick_Forall _ _ _ Hpv) fo eo j runs EC HF HPr)
    as (H'' & E'' & h1 & h2 & h3 & h4 & h5 & h6 & h7 & h8 & h9 & h10 & h11 & h12).
  rewrite EF in E''. inversion E''; subst H''. clear E''.
  assert (Lruns : List.length runs = count mask') by (rewrite <- (SetupProof.Forall2_len _ _ _ HF); apply pick_length; lia).
  exists (fill d0 mask' runs). rewrite (pick_fill d0 mask' runs) by auto. rewrite fill_length.
  repeat (split; [congruence|]). split; [intros i Hi; now apply cp_mask_spec|]. split; [intros i Hi; rewrite <- E2; now apply spreadR_false|].
  split.
  { apply (pick_Forall2_nth (single (cp_H C) m fo eo)); auto; [now rewrite fill_length|]. now rewrite (pick_fill d0 mask' runs). }
  split; [exact k3|]. split; [exact HF|]. split; [exact HPr|]. split; [exact h6|]. split; [exact h8|]. split; [rewrite <- h7; exact ED|].
  split. { exists (restored m vals m'). split; auto. unfold restored. rewrite assign_allNames by (eapply named_m'; eauto). now apply names_m'. }
  split; [exact k2|]. split; [rewrite k1, g5; f_equal; apply assocs_values; [apply W|apply W]|]. split; [exact h11|]. intros Ee. apply h12; auto.
Qed.

(** The prior of the combinations that are not admissible is zero. The prior of the others is multiplied by a common
    factor, such that the total prior mass is the same as before, one. *)
Theorem C33_prior : forall (C : cpstudy R R) o m ts fo eo j C' points ws,
  hyperReady (cp_H C) o m ts -> changepointFit C fo eo j = Ok C' -> onePriorEach m ->
  hyperWeights ts (map snd (priorPairs m)) (map snd (assocs m)) points ws ->
  let all := cp_all C' in
  let shape := map (@List.length R) points in
  let prior i := gridPrior ws (hy_const (cp_H C')) (unravel shape i) in
  (exists i, (i < List.length all)%nat /\ ordered m (nth i all []) /\ 0 < prior i) ->
  exists pv c,
    hy_pv (cp_H C') = map Fin pv /\ List.length pv = List.length all /\ 0 < c /\
    (forall i, (i < List.length all)%nat -> nth i all [] = gridPoint points (unravel shape i)) /\
    (forall i, (i < List.length all)%nat -> ordered m (nth i all []) -> Rnth pv i = c * prior i) /\
    (forall i, (i < List.length all)%nat -> ~ ordered m (nth i all []) -> Rnth pv i = 0) /\
    Forall (fun p => 0 <= p) pv /\ Forall (fun x => 0 < x) (hy_const (cp_H C')) /\
    (exists pv0, cp_allPv C' = map Fin pv0 /\ Rsum pv = Rsum pv0) /\
    Rsum pv * Rprod (hy_const (cp_H C')) = 1.
Proof.
  intros C o m ts fo eo j C' points ws HR E Ho HW all shape prior (i0 & Hi0 & Oi0 & Pi0).
  destruct (cpFit_inv C o m ts HR _ _ _ _ E) as (vals & rows & cs' & pvx & m' & H2 & d & Hs & K & EG & EF & ED & EC' & k1 & k2 & k3 & k4 & k5).
  set (mask := orderMask (allNames m) (thePoints m) rows) in *.
  assert (Eall : all = rows) by (unfold all; now rewrite EC'). assert (Ec : hy_const (cp_H C') = cs') by now rewrite EC'.
  assert (Ev : hy_pv (cp_H C') = spread mask (hy_pv H2)) by now rewrite EC'. assert (Eap : cp_allPv C' = pvx) by now rewrite EC'.
  assert (Pe : forall i, prior i = gridPrior ws cs' (unravel shape i)) by (intros; unfold prior; now rewrite Ec).
  rewrite Ec, Ev, Eap. clear EC' Ec Ev Eap. clearbody all prior. subst all.
  pose proof (hr_names _ _ _ _ HR) as W.
  destruct (grid_prior _ _ _ _ _ _ _ _ _ W Ho (points_names _ K) HW EG) as (pv0 & -> & q2 & q3 & q4 & q5 & q6).
  assert (Hne : rows <> []) by (intros E0; rewrite E0 in Hi0; cbn in Hi0; lia).
  destruct (grid_shape _ _ _ _ _ _ _ EG Hne) as (g1 & g2 & g3 & g4 & g5).
  assert (Lm : List.length mask = List.length rows) by apply mask_length.
  assert (Ms : forall i, (i < List.length rows)%nat -> nth i mask false = true <-> ordered m (nth i rows [])) by (intros; now apply cp_mask_spec).
  set (part := Rsum (pick mask pv0)).
  assert (Hpart : 0 < part).
  { unfold part. rewrite Rsum_pick by lia. apply rsum_pos.
    - intros i Hi. destruct (nth i mask false); [|lra]. rewrite Forall_forall in q5. apply q5. now apply nth_In.
    - exists i0. split; [lia|]. apply Ms in Oi0; auto. rewrite Oi0. destruct (q3 i0 Hi0) as [_ E0]. rewrite E0. now rewrite Pe in Pi0. }
  assert (Htot : 0 < Rsum pv0).
  { pose proof (Rprod_pos _ q6). apply (Rmult_lt_reg_r (Rprod cs')); auto. rewrite q4. lra. }
  set (c := Rsum pv0 / part).
  assert (Hc : 0 < c) by (unfold c; apply Rmult_lt_0_compat; auto; now apply Rinv_0_lt_compat).
  assert (Er : rescaled mask (fin pv0) = fin (pick mask (map (fun p => p * c) pv0))).
  { now apply rescaled_fin. }
  set (scaled := map (fun p => p * c) pv0) in *.
  assert (Ls : List.length scaled = List.length rows) by (unfold scaled; rewrite map_length; auto).
  assert (Si : forall i, Rnth scaled i = Rnth pv0 i * c).
  { intros i. unfold scaled, Rnth. replace 0 with ((fun p => p * c) 0) at 1 by ring. apply (map_nth (fun p => p * c)). }
  exists (spreadR mask (pick mask scaled)), c. split; [rewrite k5, Er; apply spread_fin|]. split; [rewrite spreadR_length; auto|]. split; auto.
  assert (Sum : Rsum (spreadR mask (pick mask scaled)) = Rsum pv0).
  { rewrite Rsum_spread by (apply pick_length; lia). unfold scaled. rewrite pick_map'. rewrite Rsum_rnth, map_length.
    rewrite (rsum_ext _ _ (fun i => c * Rnth (pick mask pv0) i)).
    - rewrite rsum_scal, <- Rsum_rnth. fold part. unfold c. field. lra.
    - intros i Hi. unfold Rnth. rewrite (nth_indep _ 0 ((fun p => p * c) 0)) by (rewrite map_length; auto). rewrite (map_nth (fun p => p * c)). ring. }
  split; [intros i Hi; apply q3; auto|]. split; [|split; [|split; [|split; [auto|split]]]].
  - intros i Hi Oi. rewrite spread_pick by (try lia; apply Ms; auto). rewrite Si. destruct (q3 i Hi) as [_ ->]. rewrite Pe. unfold shape. ring.
  - intros i Hi Oi. apply spreadR_false. destruct (nth i mask false) eqn:Ei; auto. apply Ms in Ei; auto. contradiction.
  - apply Forall_forall. intros x Hx. apply (In_nth _ _ 0) in Hx as (i & Hi & <-). fold (Rnth (spreadR mask (pick mask scaled)) i). rewrite spreadR_length in Hi.
    destruct (nth i mask false) eqn:Ei; [|rewrite spreadR_false; auto; lra]. rewrite spread_pick by (auto; lia). rewrite Si. apply Rmult_le_pos; [|lra].
    rewrite Forall_forall in q5. apply q5. apply nth_In. lia.
  - exists pv0. auto.
  - rewrite Sum. exact q4.
Qed.

Lemma cp_bayes C o m ts fo eo C' pv : cpFitted C o m ts fo eo C' pv ->
  let all := cp_all C' in
  let mask := cp_mask C' in
  let cell := Rprod (hy_const (cp_H C')) in
  let d0 := hy_S (cp_H C) in
  exists As dv, let runs := pick mask As in
    let Z := rsum (List.length runs) (fun i => evidenceOf (nth i runs d0) * Rnth (pick mask pv) i) in
    List.length mask = List.length all /\ List.length As = List.length all /\ List.length pv = List.length all /\
    (forall i, (i < List.length all)%nat -> nth i mask false = true <-> ordered m (nth i all [])) /\
    (forall i, nth i mask false = true -> single (cp_H C) m fo eo (nth i all []) (nth i As d0)) /\
    hy_dist (cp_H C') = Some (fin (spreadR mask dv)) /\ List.length dv = List.length runs /\ List.length dv = count mask /\
    st_logEv (hy_S (cp_H C')) = Fin (ln (Z * cell)) /\ 0 < Z /\ 0 < cell /\
    (forall i, (i < List.length runs)%nat -> Rnth dv i = evidenceOf (nth i runs d0) * Rnth (pick mask pv) i / Z / cell) /\
    (forall i, (i < List.length all)%nat -> nth i mask false = true -> Rnth (spreadR mask dv) i = evidenceOf (nth i As d0) * Rnth pv i / Z / cell) /\
    Rsum dv * cell = 1 /\
    (eo = false -> st_post (hy_S (cp_H C')) = map Some (averagePosterior (lgm (stepsH (cp_H C) o) (pointsH (cp_H C)) (mixed (combine runs (pick mask pv)))))).
Proof.
  intros CF all mask0 cell0 d00.
  unfold mask0, cell0, d00. clear mask0 cell0 d00.
  destruct (cp_known C o m ts fo eo C' pv CF) as (As & l1 & l2 & l3 & Ms & Pz & Sg & Eg & HF & HP & e1 & e2 & e3 & e4 & e5 & e6 & e7 & e8).
  set (mask := cp_mask C') in *. fold all in l1, l2, l3, Ms, Sg, Eg, HF. set (cs := hy_const (cp_H C')) in *. set (d0 := hy_S (cp_H C)) in *.
  destruct CF as [HR _ Hm Epv Hpv Hc _ (i0 & A0 & Hi0 & Oi0 & Sg0 & Pe0 & Pp0)]. fold all in Hi0, Oi0, Sg0. fold cs in Hc.
  set (runs := pick mask As) in *. set (pvv := pick mask pv) in *.
  set (num := map2 (fun A p => evidenceOf A * p) As pv).
  assert (Lr : List.length runs = List.length pvv) by (unfold runs, pvv; rewrite !pick_length by lia; auto).
  assert (Npv : Forall (fun p => 0 <= p) pvv) by now apply pick_Forall.
  assert (Ni : forall i, (i < List.length all)%nat -> Rnth num i = evidenceOf (nth i As d0) * Rnth pv i).
  { intros i Hi. unfold num, Rnth. rewrite (map2_at _ _ _ _ _ d0 0) by lia. reflexivity. }
  assert (Nz : rsum (List.length runs) (fun i => evidenceOf (nth i runs d0) * Rnth pvv i) = Rsum (pick mask num)).
  { unfold num. rewrite pick_map2 by lia. fold runs pvv. rewrite Rsum_rnth, map2_length, <- Lr, Nat.min_id. apply rsum_ext. intros i Hi.
    unfold Rnth. rewrite (map2_at _ _ _ _ _ d0 0) by lia. reflexivity. }
  assert (Ln : List.length num = List.length all) by (unfold num; rewrite map2_length; lia).
  assert (HZ : 0 < Rsum (pick mask num)).
  { rewrite Rsum_pick by lia. apply rsum_pos.
    - intros i Hi. destruct (nth i mask false); [|lra]. rewrite Ni by lia. apply Rmult_le_pos; [apply evidenceOf_nonneg|]. rewrite Forall_forall in Hpv. apply Hpv. apply nth_In. lia.
    - exists i0. split; [lia|]. apply Ms in Oi0; auto. rewrite Oi0. rewrite Ni by auto. specialize (Sg i0 Oi0). unfold single in Sg, Sg0. rewrite Sg0 in Sg. inversion Sg as [EA]. rewrite <- EA. apply Rmult_lt_0_compat; auto. }
  rewrite <- Nz in HZ. destruct (bayes_known d0 eo _ _ cs pvv runs Lr Npv Hc HP HZ) as ((dv & b1 & b2 & b3 & b4 & b5) & b6).
  rewrite Nz in *. set (Z := Rsum (pick mask num)) in *. set (cell := Rprod cs) in *. pose proof (Rprod_pos _ Hc) as Pc. fold cell in Pc.
  assert (Hd : hy_dist (cp_H C') = Some (fin (spreadR mask dv))).
  { rewrite b1 in e3. unfold spreadDist in e3. fold (count mask) in e3.
    assert (Ld : List.length dv = count mask) by (rewrite b2; unfold runs; apply pick_length; lia).
    assert (Lm : (1 < List.length dv)%nat). { rewrite b2. unfold runs. rewrite pick_length by lia. rewrite Eg, pick_length in Hm by lia. auto. }
    destruct (hy_dist (cp_H C')) as [d|].
    - destruct dv as [|x [|y dv]]; cbn in Lm; try lia. cbn [map] in e3. cbn [List.length] in e3. rewrite map_length in e3. cbn [List.length] in Ld. rewrite Ld, Nat.eqb_refl in e3.
      inversion e3 as [Ed]. f_equal. change (Fin x :: Fin y :: fin dv) with (fin (x :: y :: dv)). symmetry. rewrite <- spread_fin. reflexivity.
    - destruct dv as [|x [|y dv]]; cbn in Lm; try lia. cbn [map] in e3. cbn [List.length] in e3. rewrite map_length in e3. cbn [List.length] in Ld. rewrite Ld, Nat.eqb_refl in e3. discriminate. }
  set (full := map (fun x => x / Z / cell) num).
  assert (Edv : dv = pick mask full).
  { unfold full. rewrite pick_map'. unfold num. rewrite pick_map2 by lia. fold runs pvv. apply (list_eq_nth 0).
    - rewrite map_length, map2_length, b2. lia.
    - intros i Hi. fold (Rnth dv i). rewrite b3 by lia. rewrite b2 in Hi. rewrite (nth_indep _ 0 ((fun x => x / Z / cell) 0)) by (rewrite map_length, map2_length; lia). rewrite (map_nth (fun x => x / Z / cell)), (map2_at _ _ _ _ _ d0 0) by lia. reflexivity. }
  assert (Fi : forall i, (i < List.length all)%nat -> nth i mask false = true -> Rnth (spreadR mask dv) i = evidenceOf (nth i As d0) * Rnth pv i / Z / cell).
  { intros i Hi Mi. rewrite Edv, spread_pick by (auto; unfold full; rewrite map_length; lia). unfold full, Rnth.
    rewrite (nth_indep _ 0 ((fun x => x / Z / cell) 0)) by (rewrite map_length; lia). rewrite (map_nth (fun x => x / Z / cell)). fold (Rnth num i). now rewrite Ni. }
  exists As, dv. cbv zeta. fold mask cs cell d0 runs pvv. rewrite Nz. fold Z.
  assert (Ldc : List.length dv = count mask) by (rewrite b2; unfold runs; apply pick_length; lia).
  repeat (split; [assumption || (rewrite e2; exact b6)|]). exact e8.
Qed.

(** Among the admissible combinations the distribution of the hyper-parameters is proportional to evidence times prior; all others
    have probability zero. The distribution integrates to one. *)
Theorem C33_bayes : forall (C : cpstudy R R) o m ts fo eo C' pv,
  cpFitted C o m ts fo eo C' pv ->
  let all := cp_all C' in
  exists dist v,
    hy_dist (cp_H C') = Some (map Fin dist) /\ List.length dist = List.length all /\ st_logEv (hy_S (cp_H C')) = Fin v /\
    (forall i A, (i < List.length all)%nat -> ordered m (nth i all []) -> single (cp_H C) m fo eo (nth i all []) A ->
       Rnth dist i = evidenceOf A * Rnth pv i / exp v) /\
    (forall i, (i < List.length all)%nat -> ~ ordered m (nth i all []) -> Rnth dist i = 0) /\
    Forall (fun p => 0 <= p) dist /\
    Rsum dist * Rprod (hy_const (cp_H C')) = 1.
Proof.
  intros C o m ts fo eo C' pv CF all.
  destruct (cp_bayes C o m ts fo eo C' pv CF) as (As & dv & l1 & l2 & l3 & Ms & Sg & Hd & b2 & b2' & b6 & HZ & Pc & b3 & Fi & b5 & _).
  pose proof (cf_nonneg _ _ _ _ _ _ _ _ CF) as Hpv. set (mask := cp_mask C') in *. fold all in l1, l2, l3, Ms, Sg, Fi. set (cell := Rprod (hy_const (cp_H C'))) in *.
  set (d0 := hy_S (cp_H C)) in *. set (Z := rsum _ _) in *.
  exists (spreadR mask dv), (ln (Z * cell)). split; auto. split; [rewrite spreadR_length; auto|]. split; [exact b6|]. split; [|split; [|split]].
  - intros i A Hi Oi SA. apply Ms in Oi; auto. rewrite Fi by auto. specialize (Sg i Oi). unfold single in Sg, SA. rewrite Sg in SA. inversion SA as [EA].
    rewrite exp_ln by nra. field. lra.
  - intros i Hi Oi. apply spreadR_false. destruct (nth i mask false) eqn:Ei; auto. apply Ms in Ei; auto. contradiction.
  - apply Forall_forall. intros x Hx. apply (In_nth _ _ 0) in Hx as (i & Hi & <-). fold (Rnth (spreadR mask dv) i). rewrite spreadR_length in Hi.
    destruct (nth i mask false) eqn:Ei; [|rewrite spreadR_false; auto; lra]. rewrite Fi by (auto; lia). rewrite Forall_forall in Hpv.
    repeat apply Rmult_le_pos; try apply evidenceOf_nonneg; try (left; now apply Rinv_0_lt_compat). apply Hpv. apply nth_In. lia.
  - rewrite Rsum_spread by auto. exact b5.
Qed.

(** The posterior sequence is the average of the single analyses, weighted with this distribution (values below 1e-300
    are replaced, see C29). *)
Theorem C33_average : forall (C : cpstudy R R) o m ts fo C' pv dist (An : nat -> study R R),
  cpFitted C o m ts fo false C' pv -> hy_dist (cp_H C') = Some (map Fin dist) ->
  (0 < stepsH (cp_H C) o)%nat -> (0 < pointsH (cp_H C))%nat ->
  let all := cp_all C' in
  (forall i, (i < List.length all)%nat -> ordered m (nth i all []) -> single (cp_H C) m fo false (nth i all []) (An i)) ->
  let mix t x := rsum (List.length all) (fun i => Rnth dist i * floored (postAt (An i) t x)) in
  exists posts,
    st_post (hy_S (cp_H C')) = map Some (map (map Fin) posts) /\ List.length posts = stepsH (cp_H C) o /\
    forall t, (t < stepsH (cp_H C) o)%nat ->
      List.length (nth t posts []) = pointsH (cp_H C) /\
      Rsum (nth t posts []) = 1 /\
      forall x, (x < pointsH (cp_H C))%nat -> Rnth (nth t posts []) x = mix t x / rsum (pointsH (cp_H C)) (mix t).
Proof.
  intros C o m ts fo C' pv dist An CF Ed Hn HN all HA mix.
  destruct (cp_bayes C o m ts fo false C' pv CF) as (As & dv & l1 & l2 & l3 & Ms & Sg & Hd & b2 & b2' & b6 & HZ & Pc & b3 & Fi & b5 & Hpost).
  pose proof (cf_nonneg _ _ _ _ _ _ _ _ CF) as Hpv. set (mask := cp_mask C') in *. fold all in l1, l2, l3, Ms, Sg, Fi. set (cell := Rprod (hy_const (cp_H C'))) in *.
  set (d0 := hy_S (cp_H C)) in *. rewrite Ed in Hd. assert (dist = spreadR mask dv) as ->.
  { inversion Hd as [Ef]. clear - Ef. revert Ef. generalize (spreadR mask dv) as d'. induction dist as [|a d IH]; intros [|b d'] Ef; try discriminate; auto. cbn in Ef. inversion Ef. f_equal; auto. }
  assert (Lr : List.length (pick mask As) = List.length (pick mask pv)) by (rewrite !pick_length by lia; auto).
  destruct (average_known d0 (stepsH (cp_H C) o) (pointsH (cp_H C)) cell _ (pick mask pv) (pick mask As) dv Lr (pick_Forall _ _ _ Hpv) Pc eq_refl HZ b3 Hn HN) as (posts & a1 & a2 & a3).
  exists posts. rewrite (Hpost eq_refl). split; [now rewrite a1|]. split; auto.
  assert (Em : forall t x, rsum (List.length (pick mask As)) (fun i => Rnth dv i * floored (postAt (nth i (pick mask As) d0) t x)) = mix t x).
  { intros t x. set (g := fun A => floored (postAt A t x)).
    transitivity (Rsum (pick mask (map2 (fun A p => p * g A) As (spreadR mask dv)))).
    - rewrite pick_map2 by (rewrite spreadR_length; lia). rewrite pick_spread by auto. rewrite Rsum_rnth, map2_length, b2, Nat.min_id. apply rsum_ext. intros i Hi.
      unfold Rnth at 2. rewrite (map2_at _ _ _ _ _ d0 0) by lia. reflexivity.
    - rewrite Rsum_pick by (rewrite map2_length, spreadR_length; lia). rewrite map2_length, spreadR_length, l1, l2, Nat.min_id. unfold mix. apply rsum_ext. intros i Hi.
      destruct (nth i mask false) eqn:Ei; [|rewrite spreadR_false by auto; ring]. unfold Rnth at 1. rewrite (map2_at _ _ _ _ _ d0 0) by (rewrite ?spreadR_length; lia). unfold Rnth, g. do 3 f_equal.
      specialize (Sg i Ei). apply Ms in Ei; auto. specialize (HA i Hi Ei). unfold single in Sg, HA. congruence. }
  intros t Ht. destruct (a3 t Ht) as (c1 & c2 & c3). split; auto. split; auto. intros x Hx. rewrite c3 by auto. rewrite Em. f_equal. apply rsum_ext. intros; apply Em.
Qed.

(** The marginal distributions of the change-points can be queried as in a hyper-study (C32). *)
Theorem C33_fitted : forall (C : cpstudy R R) o m ts fo eo C' pv,
  cpFitted C o m ts fo eo C' pv -> exists m2 dist,
    hyperFitted (cp_H C') m2 (Rnth dist) /\ hy_dist (cp_H C') = Some (map Fin dist) /\
    hy_names (cp_H C') = allNames m /\ hy_vals (cp_H C') = map (replaceAll ts) (map snd (assocs m)).
Proof.
  intros C o m ts fo eo C' pv CF.
  destruct (C33_bayes C o m ts fo eo C' pv CF) as (dist & v & d1 & d2 & d3 & d4 & d5 & d6 & d7).
  destruct (cp_known C o m ts fo eo C' pv CF) as (As & l1 & l2 & l3 & Ms & Pz & Sg & Eg & HF & HP & e1 & e2 & e3 & (m2 & e4 & e4') & e5 & e6 & e7 & e8).
  destruct CF as [HR [j E] Hm Epv Hpv Hc HPr Hpos].
  destruct (cpFit_inv C o m ts HR _ _ _ _ E) as (vals & rows & cs' & pvx & m' & H2 & d & Hs & K & EG & EF & ED & EC' & k1 & k2 & k3 & k4 & k5).
  pose proof (hr_names _ _ _ _ HR) as W. destruct (grid_points _ _ _ _ _ _ _ W (points_names _ K) EG) as (points & p1 & p2 & p3 & (p4 & _) & p5).
  assert (Eall : cp_all C' = rows) by now rewrite EC'.
  assert (Sh : natprod (shapeH (cp_H C')) = List.length (cp_all C')).
  { rewrite Eall, p4. f_equal. unfold shapeH. rewrite e6. clear - p1. induction p1 as [|u xs vs pts Hv HF IH]; cbn [map]; auto. rewrite IH. f_equal. destruct u; cbn in Hv |- *; try contradiction; now subst. }
  exists m2, dist. split; [|auto]. constructor; auto.
  - congruence.
  - rewrite e5. apply W.
  - rewrite e5, e6, !map_length. rewrite <- assocs_names by apply W. now rewrite map_length.
  - rewrite Sh, Eg. unfold pick. rewrite map_length. clear.
    assert (G : forall (mask : list bool) (l : list (list R)), (List.length (filter fst (combine mask l)) <= List.length l)%nat); [|apply G].
    induction mask as [|b mask IH]; intros [|a l]; cbn; try lia. destruct b; cbn; specialize (IH l); lia.
  - rewrite d1. f_equal. unfold arrOf. f_equal. rewrite Sh, <- d2. symmetry. apply tab_Rnth.
  - rewrite Sh, <- d2, <- Rsum_rnth. exact d7.
Qed.

(** [fit] succeeds for the models covered by C12 if at least two combinations are admissible. *)
Theorem C33_succeeds : forall (C : cpstudy R R) o m vs rts fo eo j points ws row1 row2,
  let H := cp_H C in
  let ts := formatTimestamps rts (om_seglen o) in
  configured (hy_S H) o m vs rts -> hyperReady H o m ts -> onePriorEach m ->
  (serialCount m <= 1)%nat -> (changepointNames m = [] \/ breakpointNames m = []) -> pointNames m <> [] ->
  hyperWeights ts (map snd (priorPairs m)) (map snd (assocs m)) points ws ->
  (Forall2 (fun v xs => In v xs) row1 points /\ ordered m row1) ->
  (Forall2 (fun v xs => In v xs) row2 points /\ ordered m row2) -> row1 <> row2 ->
  (let shape := map (@List.length R) points in
   exists i, (i < natprod shape)%nat /\ ordered m (gridPoint points (unravel shape i)) /\
     forall cs, Forall2 spacing points cs -> 0 < gridPrior ws cs (unravel shape i)) ->
  (forall row, Forall2 (fun v xs => In v xs) row points -> ordered m row -> runnable (om_names o) (withValues m row)) ->
  nonnegPrior (gridPoints vs) o (map (@List.length R) vs) (meshgrid vs) (om_prior o) ->
  (forall s, In s (segments (hy_S H) o) -> finite (gridPoints vs) (processedPdf o (gridPoints vs) (meshgrid vs) s)) ->
  exists C', changepointFit C fo eo j = Ok C' /\ (1 < List.length (hy_grid (cp_H C')))%nat /\
    forall row, In row (hy_grid (cp_H C')) ->
      (exists A, single H m fo eo row A) /\ (forall A, single H m fo eo row A -> proper eo (stepsH H o) (pointsH H) A).
Proof.
  intros C o m vs rts fo eo j points ws row1 row2 H ts CF HR Ho Hs K0 K1 HW [A1 O1] [A2 O2] Hneq (i0 & Hi0 & Oi0 & Pi0) Run Pr Lk.
  assert (K : oneKind m) by (split; auto). pose proof (hr_names _ _ _ _ HR) as W. destruct W as (n1 & n2 & n3 & n4). pose proof n1 as n1'.
  pose proof (points_names _ K) as Hne.
  pose proof (grid_weights m ts points ws n1' n4 Ho Hne HW) as EG. cbv zeta in EG. set (vals := map (replaceAll ts) _) in EG. set (m' := fst (putPriors m _)) in EG. set (pvx := fin _) in EG.
  destruct (grid_prior _ _ _ _ _ _ _ _ _ (conj n1 (conj n2 (conj n3 n4))) Ho Hne HW EG) as (pv0 & Epv & q2 & q3 & q4 & q5 & q6). rewrite Epv in EG. clearbody pvx. subst pvx.
  set (rows := cart points) in *. set (cs := map gridConstant points) in *.
  assert (In1 : In row1 rows) by now apply cart_In. assert (In2 : In row2 rows) by now apply cart_In.
  assert (Hrows : rows <> []) by (intros E0; rewrite E0 in In1; contradiction).
  destruct (grid_shape _ _ _ _ _ _ _ EG Hrows) as (g1 & g2 & g3 & g4 & g5). rewrite map_length in g1.
  set (mask := orderMask (allNames m) (thePoints m) rows).
  assert (Lm : List.length mask = List.length rows) by apply mask_length.
  assert (Ms : forall i, (i < List.length rows)%nat -> nth i mask false = true <-> ordered m (nth i rows [])).
  { intros i Hi. apply cp_mask_spec; auto. split; auto. }
  assert (Ad : forall row, In row (pick mask rows) <-> In row rows /\ ordered m row).
  { intros row. rewrite (pick_In _ _ _ []) by auto. split.
    - intros (i & Hi & Ei & <-). split; [now apply nth_In|]. now apply Ms.
    - intros [Hin Hor]. apply (In_nth _ _ []) in Hin as (i & Hi & <-). exists i. split; auto. split; auto. now apply Ms. }
  assert (Hmany : (1 < List.length (pick mask rows))%nat).
  { assert (B1 : In row1 (pick mask rows)) by (apply Ad; auto). assert (B2 : In row2 (pick mask rows)) by (apply Ad; auto).
    destruct (pick mask rows) as [|a [|b l]]; cbn in *; try lia; try tauto. destruct B1 as [<-|[]], B2 as [<-|[]]. now contradiction Hneq. }
  assert (Lrows : List.length rows = natprod (map (@List.length R) points)) by apply cart_length.
  assert (Hpart : 0 < Rsum (pick mask pv0)).
  { rewrite Rsum_pick by lia. apply rsum_pos.
    - intros i Hi. destruct (nth i mask false); [|lra]. rewrite Forall_forall in q5. apply q5. now apply nth_In.
    - exists i0. split; [lia|]. assert (Hi0' : (i0 < List.length rows)%nat) by lia. destruct (q3 i0 Hi0') as [Q1 Q2]. rewrite <- Q1 in Oi0. apply Ms in Oi0; auto. rewrite Oi0, Q2.
      apply Pi0. unfold cs. clear. induction points; constructor; auto. apply gridConstant_spacing. }
  set (c := Rsum pv0 / Rsum (pick mask pv0)).
  assert (Hc : 0 <= c).
  { unfold c. apply Rmult_le_pos; [|left; now apply Rinv_0_lt_compat]. pose proof (Rprod_pos _ q6). apply (Rmult_le_reg_r (Rprod cs)); auto. rewrite q4. lra. }
  set (pvv := pick mask (map (fun p => p * c) pv0)).
  assert (Npv : nonneg pvv).
  { apply pick_Forall. apply Forall_map. eapply Forall_impl; [|exact q5]. cbn. intros. now apply Rmult_le_pos. }
  assert (Lp : List.length (pick mask rows) = List.length pvv) by (unfold pvv; rewrite !pick_length by (rewrite ?map_length; lia); auto).
  assert (g2' : Forall (fun row => (List.length (allNames m) <= List.length row)%nat) (pick mask rows)) by now apply pick_Forall.
  assert (G : forall row, In row (pick mask rows) -> (exists A, single H m fo eo row A) /\ (forall A, single H m fo eo row A -> proper eo (stepsH H o) (pointsH H) A)).
  { intros row Hrow. apply Ad in Hrow as [Hrow Hor]. apply cart_In in Hrow. specialize (Run row Hrow Hor).
    assert (C' : configured (set_tm (hy_S H) (withValues m row) (st_lat (hy_S H))) o (withValues m row) vs rts).
    { apply (configured_tm _ _ m); auto. unfold withValues. rewrite assign_allNames by auto. exact (cf_unique _ _ _ _ _ CF). }
    destruct (fit_total _ _ _ _ _ C' fo eo Run Pr) as (A & EA). rewrite <- (cf_tmlat _ _ _ _ _ CF) in EA. split; [exists A; exact EA|]. intros B EB.
    destruct (C28_proper H o m vs rts fo eo row B CF n1' Run Pr Lk EB) as (-> & PA & _). exact PA. }
  assert (HF : exists runs, Forall2 (single H m fo eo) (pick mask rows) runs /\ Forall (proper eo (stepsH H o) (pointsH H)) runs).
  { clear - G. induction (pick mask rows) as [|row l IH]; [exists []; split; constructor|].
    destruct (G row) as ((A & SA) & PA); [now left|]. destruct IH as (runs & F1 & F2); [intros; apply G; now right|]. exists (A :: runs). split; constructor; auto. }
  destruct HF as (runs & HF & HP).
  assert (EC : checkConsistency (prepared H o ts m') = Ok (o, m')).
  { pose proof (cfg_check _ _ _ _ _ CF) as CC. unfold checkConsistency in *. cbn [prepared set_tm st_om st_tm set_format st_raw].
    destruct (Nat.eqb _ _); [discriminate|]. rewrite (cf_om _ _ _ _ _ CF), (cf_tm _ _ _ _ _ CF) in CC. rewrite (cf_om _ _ _ _ _ CF).
    rewrite (names_m' m _ g4). destruct (hasDup _); [discriminate|]. reflexivity. }
  destruct (rows_spec H o m ts HR vals (pick mask rows) cs pvv m' Lp g2' g3 g4 Hmany Npv fo eo j runs EC HF HP) as (H2 & E2 & h1 & h2 & h3 & h4 & h5 & h6 & h7 & h8 & _).
  assert (ED : exists d, spreadDist mask (hy_dist H2) = Ok d).
  { rewrite h7. set (dd := hyperDistribution _ _).
    assert (Ld : List.length dd = List.length (pick mask rows)).
    { unfold dd, hyperDistribution, adivs, normalise, logWeights. rewrite map_length. unfold adivs. rewrite !map_length, map2_length, !map_length, <- (SetupProof.Forall2_len _ _ _ HF), <- Lp. apply Nat.min_id. }
    unfold spreadDist. rewrite (pick_length mask rows) in Ld by auto. rewrite (pick_length mask rows) in Hmany by auto. fold (count mask). clearbody dd.
    destruct dd as [|x [|y dd]]; cbn [List.length] in *; try lia. rewrite Ld, Nat.eqb_refl. eauto. }
  destruct ED as (d & ED).
  exists (cpResult rows (fin pv0) mask H2 d). split; [|split; [|]].
  - rewrite (cpFit_unfold C o m ts HR) by auto. rewrite EG. cbn [bind]. cbv zeta. fold mask. unfold cpGrid. cbv zeta. fold mask. rewrite rescaled_fin by auto. fold c pvv. fold H. rewrite E2. cbn [bind]. rewrite ED. reflexivity.
  - cbn. rewrite h3. exact Hmany.
  - cbn [cpResult cp_H with_dist with_grid hy_grid]. rewrite h3. exact G.
Qed.

(** ** C34 *)
Section Durations.
  Variables (C : cpstudy R R) (o : om R) (m : tm R) (ts : list R) (fo eo : bool) (C' : cpstudy R R) (pv : list R).
  Hypothesis CF : cpFitted C o m ts fo eo C' pv.
  Variables (na nb : string) (l1 l2 l3 : list string).
  Hypothesis Hp : pointNames m = (l1 ++ na :: l2 ++ nb :: l3)%list.
  Notation gap row := (timeIn m row nb - timeIn m row na).

  Lemma cp_rows : exists i j, (i < j)%nat /\ nth_error (allNames m) i = Some na /\ nth_error (allNames m) j = Some nb /\
    (forall row, In row (cp_all C') -> timeIn m row na = nth i row 0 /\ timeIn m row nb = nth j row 0) /\
    (forall row, In row (hy_grid (cp_H C')) -> In row (cp_all C') /\ 0 < gap row) /\
    (forall k, (k < List.length (cp_all C'))%nat -> ordered m (nth k (cp_all C') []) -> In (nth k (cp_all C') []) (hy_grid (cp_H C'))).
  Proof.
    destruct CF as [HR [jj E] Hm Epv Hpv Hc HPr Hpos].
    destruct (cpFit_inv C o m ts HR _ _ _ _ E) as (vals & rows & cs' & pvx & m' & H2 & d & Hs & K & EG & EF & ED & EC' & k1 & k2 & k3 & k4 & k5).
    pose proof (hr_names _ _ _ _ HR) as W. pose proof W as (n1 & n2 & n3 & n4).
    assert (Eall : cp_all C' = rows) by now rewrite EC'.
    destruct (C33_combinations C o m ts fo eo jj C' HR E) as (points & p1 & p2 & p3 & _).
    assert (Sub : subseq (pointNames m) (allNames m)).
    { destruct (points_subseq m) as [S1 S2]. rewrite <- thePoints_eq by auto. unfold thePoints. destruct (changepointNames m); auto. }
    assert (Ina : In na (allNames m)) by (apply (subseq_incl _ _ Sub); rewrite Hp; apply in_or_app; right; now left).
    assert (Inb : In nb (allNames m)) by (apply (subseq_incl _ _ Sub); rewrite Hp; apply in_or_app; right; right; apply in_or_app; right; now left).
    apply In_nth_error in Ina as (i & Ei). apply In_nth_error in Inb as (j & Ej). rewrite Hp in Sub. exists i, j.
    split; [eapply subseq_order; eauto|]. split; auto. split; auto. split; [|split].
    - intros row Hin. rewrite Eall in Hin. assert (Hne : rows <> []) by (intros E0; rewrite E0 in Hin; contradiction).
      destruct (grid_shape _ _ _ _ _ _ _ EG Hne) as (_ & g2 & _). rewrite Forall_forall in g2. unfold timeIn. split; apply lookup_nth; auto.
    - intros row Hin. apply p3 in Hin as [I1 I2]. split; [now apply p2|]. unfold ordered in I2. rewrite Hp, map_app in I2. cbn [map] in I2. rewrite map_app in I2. cbn [map] in I2.
      apply sorted_app_lt in I2. lra.
    - intros k Hk Hor. apply p3. split; auto. apply p2. now apply nth_In.
  Qed.

  Lemma Rsum_map2_nth {A} (f : A -> R -> R) (rows : list A) (d : list R) d0 : List.length d = List.length rows ->
    Rsum (map2 f rows d) = rsum (List.length rows) (fun i => f (nth i rows d0) (Rnth d i)).
  Proof.
    intros El. rewrite Rsum_rnth, map2_length, El, Nat.min_id. apply rsum_ext. intros i Hi. unfold Rnth at 1. apply map2_at; lia.
  Qed.

  Lemma durations_eq rnd dist : hy_dist (cp_H C') = Some (map Fin dist) ->
    (forall r1 r2, In r1 (hy_grid (cp_H C')) -> In r2 (hy_grid (cp_H C')) -> rnd (gap r1) = rnd (gap r2) -> gap r1 = gap r2) ->
    (forall row, In row (cp_all C') -> 0 < gap row -> exists row', In row' (hy_grid (cp_H C')) /\ gap row' = gap row) ->
    exists ds q,
      getDurationDistribution rnd C' [na; nb] = Ok (ds, map Fin q) /\
      getDurationDistribution rnd C' [nb; na] = Ok (ds, map Fin q) /\
      StronglySorted Rlt ds /\
      (forall d, In d ds <-> exists row, In row (hy_grid (cp_H C')) /\ gap row = d) /\
      List.length q = List.length ds /\
      (forall k, (k < List.length ds)%nat ->
         Rnth q k = Rprod (hy_const (cp_H C')) *
           rsum (List.length (cp_all C')) (fun i => if Req_EM_T (gap (nth i (cp_all C') [])) (nth k ds 0) then Rnth dist i else 0)) /\
      Rsum q = 1.
  Proof.
    intros Ed Inj Cov. destruct cp_rows as (i & j & Hij & Ei & Ej & T & G & Gk).
    destruct (C33_bayes C o m ts fo eo C' pv CF) as (dist' & v & d1 & d2 & d3 & d4 & d5 & d6 & d7).
    assert (dist' = dist) as ->.
    { rewrite Ed in d1. inversion d1 as [Ef]. clear - Ef. revert dist' Ef. induction dist as [|a d IH]; intros [|b d'] Ef; try discriminate; auto. cbn in Ef. inversion Ef. f_equal; auto. }
    destruct (cp_known C o m ts fo eo C' pv CF) as (As & _ & _ & _ & _ & _ & _ & Eg & _ & _ & _ & _ & _ & (m2 & e4 & e4') & _).
    pose proof CF as [HR _ Hm _ _ Hc _ _]. destruct (hr_names _ _ _ _ HR) as (n1 & n2 & n3 & n4).
    set (all := cp_all C') in *. set (grid := hy_grid (cp_H C')) in *. set (cell := Rprod (hy_const (cp_H C'))) in *. pose proof (Rprod_pos _ Hc) as Pc. fold cell in Pc.
    set (ds := unique (map (fun row => nth j row 0 - nth i row 0) grid)).
    assert (Gi : forall row, In row grid -> nth j row 0 - nth i row 0 = gap row) by (intros row Hr; destruct (T row) as [-> ->]; auto; now apply G).
    assert (Ds : forall d, In d ds <-> exists row, In row grid /\ gap row = d).
    { intros d. unfold ds. rewrite unique_In, in_map_iff. split; intros (row & I1 & I2).
      - exists row. rewrite <- I1. split; auto. symmetry. now apply Gi.
      - exists row. rewrite Gi; auto. }
    assert (Ss : StronglySorted Rlt ds) by apply unique_sorted. pose proof (sorted_NoDup _ Ss) as ND.
    assert (Inj' : forall x y, In x ds -> In y ds -> rnd x = rnd y -> x = y).
    { intros x y Hx Hy Exy. apply Ds in Hx as (r1 & R1 & <-). apply Ds in Hy as (r2 & R2 & <-). now apply Inj. }
    assert (Hin : forall row, In row all -> nth i row 0 < nth j row 0 -> In (nth j row 0 - nth i row 0) ds).
    { intros row Hr Lt. destruct (T row Hr) as [Ta Tb]. rewrite <- Ta, <- Tb. apply Ds. apply Cov; auto. rewrite Ta, Tb. lra. }
    assert (Hall : all <> []).
    { intros E0. assert (E1 : grid = []) by (transitivity (pick (cp_mask C') all); [exact Eg|rewrite E0; apply pick_nil]). rewrite E1 in Hm. cbn in Hm. lia. }
    assert (Dpos : forall d, In d ds -> 0 < d) by (intros d Hd; apply Ds in Hd as (row & Hr & <-); now apply G).
    set (mass := fun k => durationMass i j all dist (nth k ds 0)).
    assert (Mk : forall k, (k < List.length ds)%nat -> mass k = rsum (List.length all) (fun x => if Req_EM_T (gap (nth x all [])) (nth k ds 0) then Rnth dist x else 0)).
    { intros k Hk. unfold mass, durationMass. rewrite (Rsum_map2_nth _ _ _ []) by auto. apply rsum_ext. intros x Hx. destruct (T (nth x all [])) as [Ta Tb]; [now apply nth_In|]. rewrite <- Ta, <- Tb.
      specialize (Dpos (nth k ds 0) (nth_In _ _ Hk)). unfold Reqb. destruct (Req_EM_T (gap (nth x all [])) (nth k ds 0)) as [Eq|Ne].
      - rewrite (proj2 (Rltb_true _ _)); auto. lra.
      - now destruct (Rltb _ _). }
    assert (Tot : rsum (List.length ds) mass = Rsum dist).
    { unfold mass. rewrite durationMass_total by auto. rewrite (Rsum_map2_nth _ _ _ []) by auto. rewrite Rsum_rnth, d2. apply rsum_ext. intros x Hx.
      destruct (Rltb (nth i (nth x all []) 0) (nth j (nth x all []) 0)) eqn:El; auto. apply Rltb_false in El. symmetry. apply d5; auto. intros Hor. apply (Gk x Hx) in Hor. apply G in Hor as [Ha Hg].
      destruct (T _ Ha) as [Ta Tb]. rewrite Ta, Tb in Hg. lra. }
    assert (Ps : 0 < Rsum dist). { apply (Rmult_lt_reg_r cell); auto. rewrite d7. lra. }
    exists ds, (tab (List.length ds) (fun k => mass k / Rsum dist)).
    assert (Eq : forall a b, (if Nat.ltb a b then (a, b) else (b, a)) = (i, j) ->
      (let '(i, j) := (if Nat.ltb a b then (a, b) else (b, a)) in
       match all with
       | [] => Err TypeError
       | _ :: _ =>
           let ds := unique (map (fun row => fsub (nth j row f0) (nth i row f0)) grid) in
           match hy_dist (cp_H C') with
           | None => Err TypeError
           | Some d => let* q := durationLoop rnd i j ds all d (repeat (Fin f0) (List.length ds)) in Ok (ds, adivs q (asum q))
           end
       end)%res = Ok (ds, fin (tab (List.length ds) (fun k => mass k / Rsum dist)))).
    { intros a b ->.
      assert (Em : forall X : res (list R * list (xnum R)), match all with [] => Err TypeError | _ :: _ => X end = X) by (clear - Hall; clearbody all; destruct all; [congruence|reflexivity]).
      rewrite Em. cbv zeta. rewrite Ed.
      change (unique (map (fun row => fsub (nth j row f0) (nth i row f0)) grid)) with ds.
      assert (Er : repeat (Fin (@f0 R _)) (List.length ds) = fin (repeat 0 (List.length ds))) by (clear; generalize (List.length ds) as n; induction n as [|k IH]; [reflexivity|]; cbn [repeat map]; f_equal; exact IH).
      rewrite Er, durationLoop_eq; [|auto|auto|auto|auto|apply repeat_length]. cbn [bind]. do 2 f_equal.
      assert (Et : tab (List.length ds) (fun k => Rnth (repeat 0 (List.length ds)) k + durationMass i j all dist (nth k ds 0)) = tab (List.length ds) mass).
      { apply tab_ext. intros k Hk. fold (mass k). assert (Rnth (repeat 0 (List.length ds)) k = 0) as ->; [|ring]. unfold Rnth. apply nth_repeat. }
      rewrite Et, asum_fin. rewrite Rsum_rnth, tab_length. rewrite (rsum_ext _ _ mass) by (intros k Hk; now apply Rnth_tab). rewrite Tot. rewrite adivs_fin by lra. f_equal. unfold rdivs. rewrite map_tab. reflexivity. }
    assert (Hia : hyperParameterIndex m2 na = Ok i) by (unfold hyperParameterIndex; rewrite e4', (nameIndex_nth _ i na); auto).
    assert (Hib : hyperParameterIndex m2 nb = Ok j) by (unfold hyperParameterIndex; rewrite e4', (nameIndex_nth _ j nb); auto).
    split; [|split; [|split; [exact Ss|split; [exact Ds|split; [apply tab_length|split]]]]].
    - unfold getDurationDistribution. rewrite e4, Hia, Hib. cbn [bind]. apply Eq. now rewrite (proj2 (Nat.ltb_lt i j)).
    - unfold getDurationDistribution. rewrite e4, Hia, Hib. cbn [bind]. apply Eq. assert (Nat.ltb j i = false) as ->; auto. apply Nat.ltb_ge. lia.
    - intros k Hk. rewrite Rnth_tab by auto. rewrite <- Mk by auto. apply (Rmult_eq_reg_r (Rsum dist)); [|lra].
      transitivity (mass k); [field; lra|]. transitivity (mass k * (Rsum dist * cell)); [rewrite d7; ring|ring].
    - rewrite Rsum_rnth, tab_length. rewrite (rsum_ext _ _ (fun k => / Rsum dist * mass k)) by (intros k Hk; rewrite Rnth_tab by auto; unfold Rdiv; ring). rewrite rsum_scal, Tot. field. lra.
  Qed.
End Durations.

(** C34. The probability of a duration is the probability of the admissible combinations with that duration, for any two of any
    number of points, provided that the duration of every combination in which the two points are in order also occurs in
    an admissible combination. *)
Theorem C34_durations : forall (C : cpstudy R R) o m ts fo eo C' pv na nb l1 l2 l3 rnd dist,
  cpFitted C o m ts fo eo C' pv -> pointNames m = (l1 ++ na :: l2 ++ nb :: l3)%list ->
  hy_dist (cp_H C') = Some (map Fin dist) ->
  let gap row := timeIn m row nb - timeIn m row na in
  let all := cp_all C' in
  (forall r1 r2, In r1 (hy_grid (cp_H C')) -> In r2 (hy_grid (cp_H C')) -> rnd (gap r1) = rnd (gap r2) -> gap r1 = gap r2) ->
  (forall row, In row all -> 0 < gap row -> exists row', In row' (hy_grid (cp_H C')) /\ gap row' = gap row) ->
  exists ds q,
    getDurationDistribution rnd C' [na; nb] = Ok (ds, map Fin q) /\
    getDurationDistribution rnd C' [nb; na] = Ok (ds, map Fin q) /\
    StronglySorted Rlt ds /\ (forall d, In d ds <-> exists row, In row (hy_grid (cp_H C')) /\ gap row = d) /\
    List.length q = List.length ds /\
    (forall k, (k < List.length ds)%nat ->
       Rnth q k = Rprod (hy_const (cp_H C')) *
         rsum (List.length all) (fun i => if Req_EM_T (gap (nth i all [])) (nth k ds 0) then Rnth dist i else 0)) /\
    Rsum q = 1.
Proof. intros. eapply durations_eq; eauto. Qed.

(** With two points there is nothing else to assume. *)
Theorem C34_two_points : forall (C : cpstudy R R) o m ts fo eo C' pv na nb rnd dist,
  cpFitted C o m ts fo eo C' pv -> pointNames m = [na; nb] ->
  hy_dist (cp_H C') = Some (map Fin dist) ->
  let gap row := timeIn m row nb - timeIn m row na in
  let all := cp_all C' in
  (forall r1 r2, In r1 all -> In r2 all -> rnd (gap r1) = rnd (gap r2) -> gap r1 = gap r2) ->
  exists ds q,
    getDurationDistribution rnd C' [na; nb] = Ok (ds, map Fin q) /\
    getDurationDistribution rnd C' [nb; na] = Ok (ds, map Fin q) /\
    StronglySorted Rlt ds /\ (forall d, In d ds <-> 0 < d /\ exists row, In row all /\ gap row = d) /\
    List.length q = List.length ds /\
    (forall k, (k < List.length ds)%nat ->
       Rnth q k = Rprod (hy_const (cp_H C')) *
         rsum (List.length all) (fun i => if Req_EM_T (gap (nth i all [])) (nth k ds 0) then Rnth dist i else 0)) /\
    Rsum q = 1.
Proof.
  intros C o m ts fo eo C' pv na nb rnd dist CF Hp Ed gap all Inj.
  destruct (cp_rows C o m ts fo eo C' pv CF na nb [] [] [] Hp) as (i & j & _ & _ & _ & _ & G & Gk).
  assert (Cov : forall row, In row all -> 0 < gap row -> In row (hy_grid (cp_H C'))).
  { intros row Hr Hg. apply In_nth with (d := []) in Hr as (k & Hk & <-). apply Gk; auto. unfold ordered. rewrite Hp. cbn [map].
    repeat constructor. unfold gap, all in Hg. lra. }
  destruct (C34_durations C o m ts fo eo C' pv na nb [] [] [] rnd dist CF Hp Ed) as (ds & q & a1 & a2 & a3 & a4 & a5 & a6 & a7).
  - intros r1 r2 H1 H2. apply Inj; now apply G.
  - intros row Hr Hg. exists row. split; auto.
  - exists ds, q. repeat (split; [assumption|]). split; [|auto]. intros d. rewrite a4. split.
    + intros (row & Hr & <-). apply G in Hr as [h1 h2]. split; auto. exists row. auto.
    + intros (Hd & row & Hr & <-). exists row. split; auto.
Qed.

(** Otherwise the query raises an IndexError. *)
Theorem C34_missing : forall (C : cpstudy R R) o m ts fo eo C' pv na nb l1 l2 l3 rnd row,
  cpFitted C o m ts fo eo C' pv -> pointNames m = (l1 ++ na :: l2 ++ nb :: l3)%list ->
  let gap row := timeIn m row nb - timeIn m row na in
  In row (cp_all C') -> 0 < gap row ->
  (forall row', In row' (hy_grid (cp_H C')) -> rnd (gap row') <> rnd (gap row)) ->
  getDurationDistribution rnd C' [na; nb] = Err IndexError /\ getDurationDistribution rnd C' [nb; na] = Err IndexError.
Proof.
  intros C o m ts fo eo C' pv na nb l1 l2 l3 rnd row CF Hp gap Hr Hg Hn.
  destruct (cp_rows C o m ts fo eo C' pv CF na nb l1 l2 l3 Hp) as (i & j & Hij & Ei & Ej & T & G & Gk).
  destruct (C33_bayes C o m ts fo eo C' pv CF) as (dist & v & d1 & _).
  destruct (cp_known C o m ts fo eo C' pv CF) as (As & _ & _ & _ & _ & _ & _ & Eg & _ & _ & _ & _ & _ & (m2 & e4 & e4') & _).
  pose proof CF as [HR _ _ _ _ _ _ _]. destruct (hr_names _ _ _ _ HR) as (n1 & n2 & n3 & n4).
  assert (Hia : hyperParameterIndex m2 na = Ok i) by (unfold hyperParameterIndex; rewrite e4', (nameIndex_nth _ i na); auto).
  assert (Hib : hyperParameterIndex m2 nb = Ok j) by (unfold hyperParameterIndex; rewrite e4', (nameIndex_nth _ j nb); auto).
  assert (Ml : forall d acc, durationLoop rnd i j (unique (map (fun row => fsub (nth j row f0) (nth i row f0)) (hy_grid (cp_H C')))) (cp_all C') d acc = Err IndexError).
  { apply durationLoop_missing. exists row. split; auto. destruct (T row Hr) as [Ta Tb]. unfold gap in Hg. rewrite Ta, Tb in Hg. split; [lra|].
    intros x Hx. apply unique_In, in_map_iff in Hx as (row' & <- & Hr'). specialize (Hn row' Hr'). unfold gap in Hn. destruct (G row' Hr') as [Ha _].
    destruct (T row' Ha) as [Ta' Tb']. rewrite Ta, Tb, Ta', Tb' in Hn. exact Hn. }
  assert (Em : forall X : res (list R * list (xnum R)), match cp_all C' with [] => Err TypeError | _ :: _ => X end = X) by (clear - Hr; destruct (cp_all C'); [contradiction|reflexivity]).
  unfold getDurationDistribution. rewrite e4, Hia, Hib. cbn [bind].
  rewrite (proj2 (Nat.ltb_lt i j)) by auto. assert (Nat.ltb j i = false) as -> by (apply Nat.ltb_ge; lia).
  rewrite !Em. cbv zeta. rewrite d1, Ml. split; reflexivity.
Qed.

(** ** Examples *)
(** two change-points with two possible times each; three of the four combinations are in order *)
Definition twoPoints : tm R :=
  TM KComb [] [] None
    [TM KChange ["a"%string] [HArr [0; 1]] (Some (Leaf HPNone)) []; TM KChange ["b"%string] [HArr [1; 2]] (Some (Leaf HPNone)) []].
Lemma twoPoints_ok : wellNamed twoPoints /\ onePriorEach twoPoints.
Proof.
  split; [split; [|split; [|split]]|].
  - apply built_named, (b_comb [TM KChange ["a"%string] [HArr [0; 1]] (Some (Leaf HPNone)) []; TM KChange ["b"%string] [HArr [1; 2]] (Some (Leaf HPNone)) []]).
    + constructor; [|constructor; [|constructor]].
      * apply (b_change "a" (VList [0; 1]) (Leaf HPNone)).
      * apply (b_change "b" (VList [1; 2]) (Leaf HPNone)).
    + reflexivity.
  - cbn. repeat constructor; cbn; intuition discriminate.
  - cbn. intuition discriminate.
  - cbn. repeat constructor.
  - cbn. intuition (try discriminate); right; eexists; split; reflexivity.
Qed.
Lemma twoPoints_weights ts :
  hyperWeights ts (map snd (priorPairs twoPoints)) (map snd (assocs twoPoints)) [[0; 1]; [1; 2]] [[1; 1]; [1; 1]].
Proof.
  cbn. constructor; [reflexivity| |reflexivity| | |constructor; [reflexivity| |reflexivity| | |constructor]].
  - repeat constructor; cbn; intuition lra.
  - repeat constructor; lra.
  - cbn. lra.
  - repeat constructor; cbn; intuition lra.
  - repeat constructor; lra.
  - cbn. lra.
Qed.
Lemma twoPoints_ordered s t : ordered twoPoints [s; t] <-> s < t.
Proof.
  unfold ordered. change (map (timeIn twoPoints [s; t]) (pointNames twoPoints)) with [s; t]. split.
  - intros O1. inversion O1 as [|? ? ? F]; subst. now inversion F.
  - intros Lt. repeat constructor. exact Lt.
Qed.

(** This study meets the hypotheses of C33 and C34. *)
Example C33_ex (ds : list Z) fo eo j : bits ds -> ds <> [] ->
  exists S C' pv dist,
    let C := newChangepoint S in
    setup (data ds) None (coin PNone) twoPoints = Ok S /\ changepointFit C fo eo j = Ok C' /\
    hyperReady (cp_H C) (coin PNone) twoPoints (times ds) /\ onePriorEach twoPoints /\
    (exists i, (i < List.length (cp_all C'))%nat /\ ordered twoPoints (nth i (cp_all C') []) /\
       0 < gridPrior [[1; 1]; [1; 1]] (hy_const (cp_H C')) (unravel [2; 2]%nat i)) /\
    cpFitted C (coin PNone) twoPoints (times ds) fo eo C' pv /\ hy_dist (cp_H C') = Some (map Fin dist) /\
    pointNames twoPoints = ["a"; "b"]%string /\
    List.length (cp_all C') = 4%nat /\ In [1; 1] (cp_all C') /\ ~ In [1; 1] (hy_grid (cp_H C')) /\ In [0; 2] (hy_grid (cp_H C')).
Proof.
  intros Hb Hd0. destruct (coin_setup ds PNone twoPoints eq_refl) as (S & E & q1 & q2 & q3 & q4 & q5 & q6). destruct twoPoints_ok as [W1 W2].
  assert (ND : NoDup (allNames twoPoints)) by apply W1.
  pose proof (coin_configured _ _ _ _ E eq_refl Hd0 ND) as Cf. set (C := newChangepoint S).
  assert (Sel : st_sel S = []).
  { unfold setup in E. cbn [runCalls runCall bind] in E. unfold setTM in E. change (isBreak twoPoints) with false in E. cbn [bind] in E.
    unfold setOM in E. cbn [combine om_values om_names coin coinOM mapM paramValues fst snd bind] in E.
    rewrite quarters_progression, lattice_progression in E by lia. cbn [bind] in E. inversion E. reflexivity. }
  assert (Fts : formatTimestamps (times ds) (om_seglen (coin PNone)) = times ds) by reflexivity.
  assert (HR : hyperReady (cp_H C) (coin PNone) twoPoints (times ds)).
  { constructor; auto; [|exact I]. exists (times ds). split; auto. }
  pose proof (twoPoints_weights (times ds)) as HW.
  assert (Two : forall row, Forall2 (fun v xs => In v xs) row [[0; 1]; [1; 2]] ->
     exists s t, row = [s; t] /\ withValues twoPoints row = comb [change "a" s; change "b" t]).
  { intros row HF. inversion HF as [|s xs row' pts Hs HF' E1 E2]; subst. inversion HF' as [|c xs row'' pts Hc HF'' E1 E2]; subst. inversion HF''; subst. exists s, c. split; reflexivity. }
  destruct (coin_likelihoods _ _ _ _ E eq_refl Hb) as [Lk Lp].
  assert (Pr : nonnegPrior (gridPoints [quarters]) (coin PNone) (map (@List.length R) [quarters]) (meshgrid [quarters]) (om_prior (coin PNone))) by exact I.
  assert (LkF : forall s, In s (segments S (coin PNone)) -> finite (gridPoints [quarters]) (processedPdf (coin PNone) (gridPoints [quarters]) (meshgrid [quarters]) s)).
  { intros s Hs. apply In_nth_error in Hs as (i & Hs). destruct (Lk i s Hs) as [-> Hp]. exists (tab (gridPoints [quarters]) (coinLik ds i)).
    split; [reflexivity|]. split; [apply tab_length|]. unfold tab. apply Forall_map. apply Forall_forall. intros x Hx. apply in_seq in Hx. apply Hp. lia. }
  assert (Run : forall row, Forall2 (fun v xs => In v xs) row [[0; 1]; [1; 2]] -> ordered twoPoints row -> runnable (om_names (coin PNone)) (withValues twoPoints row)).
  { intros row HF _. destruct (Two row HF) as (s & c & _ & ->). constructor. repeat constructor. }
  assert (In2 : forall s t, (s = 0 \/ s = 1) -> (t = 1 \/ t = 2) -> Forall2 (fun v xs => In v xs) [s; t] [[0; 1]; [1; 2]]).
  { intros s t Hs Ht. constructor; [cbn; intuition|constructor; [cbn; intuition|constructor]]. }
  assert (Sp : forall cs, Forall2 spacing [[0; 1]; [1; 2]] cs -> 0 < gridPrior [[1; 1]; [1; 1]] cs (unravel [2; 2]%nat 0%nat)).
  { intros cs HF. inversion HF as [|x1 c1 l1 r1 (s1 & _) F1]; subst. inversion F1 as [|x2 c2 l2 r2 (s2 & _) F2]; subst. inversion F2; subst.
    rewrite s1, s2; cbn; auto; try (intros i Hi; cbn in Hi; lia). unfold density, Rnth. cbn. rewrite !Rabs_right by lra.
    repeat apply Rmult_lt_0_compat; try lra; apply Rinv_0_lt_compat; lra. }
  destruct (C33_succeeds C (coin PNone) twoPoints [quarters] (times ds) fo eo j [[0; 1]; [1; 2]] [[1; 1]; [1; 1]] [0; 1] [0; 2] Cf HR W2) as (C' & EC & Hm & Hruns); auto.
  { cbn. discriminate. }
  { split; [apply In2; auto|apply twoPoints_ordered; lra]. } { split; [apply In2; auto|apply twoPoints_ordered; lra]. }
  { intros E0. inversion E0. lra. }
  { exists 0%nat. split; [cbn; lia|]. split; [apply (twoPoints_ordered 0 1); lra|exact Sp]. }
  destruct (C33_combinations C (coin PNone) twoPoints (times ds) fo eo j C' HR EC) as (points & p1 & p2 & p3 & p4 & _).
  assert (Hpts : forall pts, Forall2 (valueList (times ds)) (map snd (assocs twoPoints)) pts -> pts = [[0; 1]; [1; 2]]).
  { intros pts F0. inversion F0 as [|a b c d F1 F2]; subst. inversion F2 as [|a' b' c' d' F3 F4]; subst. inversion F4; subst. cbn in F1, F3. now subst. }
  rewrite (Hpts _ p1) in *. clear p1.
  assert (Gp : List.length (cp_all C') = 4%nat /\ (forall x, (x < 4)%nat -> nth x (cp_all C') [] = gridPoint [[0; 1]; [1; 2]] (unravel [2; 2]%nat x)) /\ Forall2 spacing [[0; 1]; [1; 2]] (hy_const (cp_H C'))).
  { destruct (cpFit_inv C _ _ _ HR _ _ _ _ EC) as (vals & rows & cs' & pvx & m' & H2 & d & Hs & K & EG & EF & ED & EC' & k1 & k2 & k3 & k4 & k5).
    destruct (grid_points _ _ _ _ _ _ _ W1 ltac:(discriminate) EG) as (pts & g1 & g2 & g3 & (g4 & g5) & g6). rewrite (Hpts _ g1) in *.
    rewrite EC'. cbn [cpResult cp_all cp_H hy_const with_dist with_grid]. rewrite k4. repeat (split; auto). }
  destruct Gp as (Lall & Gp & Spc).
  assert (R0 : nth 0 (cp_all C') [] = [0; 1]) by (rewrite Gp by lia; reflexivity).
  assert (Ex0 : exists i, (i < List.length (cp_all C'))%nat /\ ordered twoPoints (nth i (cp_all C') []) /\
       0 < gridPrior [[1; 1]; [1; 1]] (hy_const (cp_H C')) (unravel [2; 2]%nat i)).
  { exists 0%nat. rewrite Lall, R0. split; [lia|]. split; [apply twoPoints_ordered; lra|now apply Sp]. }
  destruct (C33_prior C _ _ _ _ _ _ _ _ _ HR EC W2 HW Ex0) as (pv & c & v1 & v2 & v3 & v4 & v5 & v6 & v7 & v8 & v9 & v10).
  assert (CF : cpFitted C (coin PNone) twoPoints (times ds) fo eo C' pv).
  { constructor; auto; [exists j; exact EC|intros row A Hr; now apply Hruns|].
    assert (Hg0 : In [0; 1] (hy_grid (cp_H C'))) by (apply p3; split; [apply In2; auto|apply twoPoints_ordered; lra]).
    destruct (Hruns _ Hg0) as [[A SA] _]. exists 0%nat, A. rewrite R0. split; [lia|]. split; [apply twoPoints_ordered; lra|]. split; auto.
    split; [|rewrite v5; [apply Rmult_lt_0_compat; auto; now apply Sp|lia|rewrite R0; apply twoPoints_ordered; lra]].
    unfold single in SA. change (withValues twoPoints [0; 1]) with (comb [change "a" 0; change "b" 1]) in SA. set (mm := comb _) in SA. cbn [C newChangepoint cp_H newHyper hy_S] in SA.
    rewrite (cf_tmlat _ _ _ _ _ Cf) in SA. set (S2 := set_tm S mm (st_lat S)) in SA.
    assert (Lin : linear ["p"%string] mm) by (constructor; repeat constructor).
    assert (ND2 : NoDup (allNames mm)) by exact ND.
    pose proof (configured_tm S _ _ mm _ _ Cf ND2 : configured S2 (coin PNone) mm [quarters] (times ds)) as C2.
    assert (PI : priorIs S2 [quarters] (coin PNone) PNone (flat (gridPoints [quarters]))) by constructor.
    destruct (Inference.C03_evidence S2 (coin PNone) mm [quarters] (times ds) (flat (gridPoints [quarters])) (coinLik ds) fo eo C2 Lin PI Lk) as (A' & EA & _ & _ & EvA).
    - left. exact I.
    - change (0 < nSteps S (coin PNone))%nat. rewrite (coin_steps _ _ _ _ E eq_refl). destruct ds; [congruence|cbn; lia].
    - right. split; [left; apply times_unit|now left].
    - rewrite EA in SA. inversion SA; subst A'. destruct EvA as (v & Ev & _); [|unfold evidenceOf; rewrite Ev; apply exp_pos].
      destruct (flat_ok S2 _ mm _ _ C2) as [F1 F2].
      assert (FE : FitCore.fitEnv S2 (coin PNone) mm [quarters] (times ds) (flat (gridPoints [quarters])) (envOf S2 (coin PNone) PNone) (flat (gridPoints [quarters]))).
      { change PNone with (om_prior (coin PNone)) at 2. apply fitEnv_stable; auto. }
      apply evidence_pos; auto.
      + rewrite F2. lra.
      + intros i. exact (FitCore.Kst S2 (coin PNone) mm [quarters] (times ds) _ _ _ C2 Lin FE i).
      + intros i x Hi. apply Lp. change (i < nSteps S (coin PNone))%nat in Hi. now rewrite (coin_steps _ _ _ _ E eq_refl) in Hi. }
  destruct (C33_bayes _ _ _ _ _ _ _ _ CF) as (dist & v & d1 & _).
  exists S, C', pv, dist. cbv zeta. fold C. repeat (split; [assumption|]). split; [reflexivity|]. split; [exact Lall|].
  split; [apply p2, In2; auto|]. split.
  - intros Hin. apply p3 in Hin as [_ Hin]. apply twoPoints_ordered in Hin. lra.
  - apply p3. split; [apply In2; auto|apply twoPoints_ordered; lra].
Qed.

(** The same study, and one with three points, executed. *)
Section Runs.
  Local Open Scope Q_scope.
  Definition pointsAt (ns : list (string * hval Q)) : tm Q :=
    comb (map (fun nv => TM KChange [fst nv] [snd nv] (Some (Leaf HPNone)) []) ns).
  Example C33_run :
    (let* S0 := setup (L := Q) (data [1; 1; 0; 0]%Z) None (coinOM quarters PNone) (pointsAt [("a"%string, HAll); ("b"%string, HArr [1; 2])]) in
     let* C1 := changepointFit (newChangepoint S0) true false 2 in
     let* dd := getDurationDistribution (fun x => x) C1 ["b"; "a"]%string in
     Ok (cp_all C1, hy_grid (cp_H C1), hy_pv (cp_H C1), hy_dist (cp_H C1), dd))%res =
    Ok ([[0; 1]; [0; 2]; [1; 1]; [1; 2]; [2; 1]; [2; 2]], [[0; 1]; [0; 2]; [1; 2]],
        [Fin (1 # 3); Fin (1 # 3); Fin 0; Fin (1 # 3); Fin 0; Fin 0],
        Some [Fin (7 # 19); Fin (5 # 19); Fin 0; Fin (7 # 19); Fin 0; Fin 0],
        ([1; 2], [Fin (14 # 19); Fin (5 # 19)])).
  Proof. vm_compute. reflexivity. Qed.

  (** three points: the duration 4 from "a" to "b" is only possible if "b" comes after "c" *)
  Theorem C34_missing_refuted : exists (S : study Q Q) C',
    setup (data [1; 1; 0; 0; 1; 1]%Z) None (coinOM quarters PNone)
      (pointsAt [("a"%string, HNum 1); ("b"%string, HArr [2; 5]); ("c"%string, HArr [3; 4])]) = Ok S /\
    changepointFit (newChangepoint S) true false 1 = Ok C' /\
    getDurationDistribution (fun x => x) C' ["a"; "b"]%string = Err IndexError /\
    getDurationDistribution (fun x => x) C' ["a"; "c"]%string = Ok ([2; 3], [Fin (7 # 12); Fin (5 # 12)]).
  Proof.
    assert (E : (let* S0 := setup (L := Q) (data [1; 1; 0; 0; 1; 1]%Z) None (coinOM quarters PNone)
        (pointsAt [("a"%string, HNum 1); ("b"%string, HArr [2; 5]); ("c"%string, HArr [3; 4])]) in
      let* C1 := changepointFit (newChangepoint S0) true false 1 in
      Ok (getDurationDistribution (fun x => x) C1 ["a"; "b"]%string, getDurationDistribution (fun x => x) C1 ["a"; "c"]%string))%res =
      Ok (Err IndexError, Ok ([2; 3], [Fin (7 # 12); Fin (5 # 12)]))) by (vm_compute; reflexivity).
    run E. exists x, x0. split; [exact Run|]. split; [exact Run0|]. split; [exact H0|exact H].
  Qed.

  (** If only one combination is in order, [fit] fails, although this combination could be analysed; a single change-point at a
      fixed time gives NaN as its probability. *)
  Theorem C33_single_refuted : exists (S1 S2 : study Q Q) A C2,
    setup (data [1; 1; 0; 0]%Z) None (coinOM quarters PNone) (pointsAt [("a"%string, HArr [1; 2]); ("b"%string, HArr [1; 2])]) = Ok S1 /\
    changepointFit (newChangepoint S1) true false 1 = Err ValueError /\
    fit (set_tm S1 (pointsAt [("a"%string, HNum 1); ("b"%string, HNum 2)]) (st_tmlat S1)) true false = Ok A /\
    setup (data [1; 1; 0; 0]%Z) None (coinOM quarters PNone) (pointsAt [("a"%string, HNum 1)]) = Ok S2 /\
    changepointFit (newChangepoint S2) true false 1 = Ok C2 /\ hy_dist (cp_H C2) = Some [NaN].
  Proof.
    assert (E1 : (let* S0 := setup (L := Q) (data [1; 1; 0; 0]%Z) None (coinOM quarters PNone) (pointsAt [("a"%string, HArr [1; 2]); ("b"%string, HArr [1; 2])]) in
      let* A0 := fit (set_tm S0 (pointsAt [("a"%string, HNum 1); ("b"%string, HNum 2)]) (st_tmlat S0)) true false in
      Ok (match changepointFit (newChangepoint S0) true false 1 with Err e => Some e | Ok _ => None end))%res = Ok (Some ValueError)) by (vm_compute; reflexivity).
    assert (E2 : (let* S0 := setup (L := Q) (data [1; 1; 0; 0]%Z) None (coinOM quarters PNone) (pointsAt [("a"%string, HNum 1)]) in
      let* C1 := changepointFit (newChangepoint S0) true false 1 in Ok (hy_dist (cp_H C1)))%res = Ok (Some [NaN])) by (vm_compute; reflexivity).
    run E1. run E2. destruct (changepointFit (newChangepoint x) true false 1) eqn:E3; [discriminate|]. injection H as ->.
    exists x, x1, x0, x2. repeat (split; [assumption|]). assumption.
  Qed.
End Runs.
