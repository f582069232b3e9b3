(** Marginal distributions of hyper-parameters: C32. *)
From Coq Require Import List ZArith QArith Reals Lra Lia Arith Bool String.
From Verif Require Import Base.Num Base.Exn Base.Arr Base.RSum Base.Lift Model.Helper Model.Tm Model.HyperParams Model.Study Model.Api
  Model.Getters Model.Hyper Spec.Kernel Spec.Config Spec.Dist Spec.Names Spec.Marginal Spec.HyperSpec
  Proof.KernelProof Proof.SetupProof Proof.DataProof Proof.MarginalProof Proof.NamesProof Proof.GridProof Proof.HyperProof Proof.HyperFit Proof.HyperMarg Props.Ex Props.ExR Props.HyperStudy.
Import ListNotations.
Local Open Scope R_scope.

(** C28 gives the distribution the following theorems start from. *)
Theorem C32_fitted : forall (H : hyper R R) o m ts fo eo j H' pv runs,
  hyperReady H o m ts -> hyperFit H fo eo j = Ok H' -> (1 < List.length (hy_grid H'))%nat ->
  hy_pv H' = map Fin pv -> Forall (fun p => 0 <= p) pv -> Forall (fun c => 0 < c) (hy_const H') ->
  Forall2 (single H m fo eo) (hy_grid H') runs -> Forall (proper eo (stepsH H o) (pointsH H)) runs ->
  0 < rsum (List.length runs) (fun i => evidenceOf (nth i runs (hy_S H)) * Rnth pv i) ->
  exists m2 p, hyperFitted H' m2 p /\ hy_names H' = allNames m /\
    hy_vals H' = map (fun v => match v with HAll => HArr (removelast ts) | _ => v end) (map snd (assocs m)).
Proof.
  intros H o m ts fo eo j H' pv runs HR E Hm Epv Hpv Hc HF HP HZ.
  destruct (fit_known H o m ts fo eo j H' pv runs HR E Hm Epv Hpv HF HP) as (k1 & k2 & k3 & k4 & k5 & (m' & q1 & q2 & q3 & q4) & _).
  destruct (C28_bayes H o m ts fo eo j H' pv runs HR E Hm Epv Hpv Hc HF HP HZ) as (_ & (dist & Ed & Ld & Di & _ & Ds) & _).
  destruct (fit_grid_inv _ _ _ _ _ _ _ _ HR E) as (m1 & EG & En & Ec). destruct (hr_names _ _ _ _ HR) as (n1 & n2 & n3 & n4).
  assert (Hne : hy_grid H' <> []) by (intros E0; rewrite E0 in Hm; cbn in Hm; lia).
  destruct (grid_shape _ _ _ _ _ _ _ EG Hne) as (g1 & g2 & g3 & g4 & g5).
  assert (Ev : hy_vals H' = map (replaceAll ts) (map snd (assocs m))) by (now rewrite g5, assocs_values).
  assert (Hna : allNames m <> []).
  { intros E0. unfold createHyperGrid in EG. rewrite E0 in EG. destruct (mapM _ _); [|discriminate]. cbn in EG. inversion EG as [[E1 E2 E3 E4 E5]]. now rewrite <- E2 in Hne. }
  destruct (C27_grid H o m ts fo eo j H' HR E Hna) as (points & p1 & _ & _ & (p2 & _) & _).
  assert (Sh : map (@List.length R) points = shapeH H').
  { unfold shapeH. rewrite Ev, map_map. clear - p1. induction p1 as [|v xs vs pts Hv HF IH]; cbn; auto. rewrite IH. f_equal. destruct v; cbn in Hv |- *; try contradiction; now subst. }
  exists (restored m (hy_vals H') m'), (Rnth dist). split; [|split; [exact En|exact Ev]]. constructor; auto.
  - rewrite En. unfold restored. now rewrite assign_allNames.
  - now rewrite En.
  - rewrite En. lia.
  - rewrite <- Sh. lia.
  - rewrite Ed. f_equal. unfold arrOf. f_equal. rewrite <- Sh, <- p2, <- Ld. symmetry. apply tab_Rnth.
  - rewrite <- Sh, <- p2, <- Ld, <- Rsum_rnth. exact Ds.
Qed.

Section Query.
  Variables (H : hyper R R) (m : tm R) (p : nat -> R).
  Hypothesis HF : hyperFitted H m p.
  Notation shape := (shapeH H).
  Notation cell := (Rprod (hy_const H)).
  Lemma shape_len : List.length shape = List.length (hy_names H).
  Proof. unfold shapeH. rewrite map_length. apply (hf_vals _ _ _ HF). Qed.
  Lemma size_pos : (0 < natprod shape)%nat.
  Proof. pose proof (hf_size _ _ _ HF). pose proof (hf_many _ _ _ HF). lia. Qed.
  Lemma shape_nth k v : nth_error (hy_vals H) k = Some v -> nth k shape O = stepsOf v.
  Proof. intros E. unfold shapeH. apply nth_error_nth. rewrite nth_error_map, E. reflexivity. Qed.
  Lemma fitted_get k name v : nth_error (hy_names H) k = Some name -> nth_error (hy_vals H) k = Some v ->
    let marg := arrOf (nth k shape O) (fun i => marginal shape k p i * cell) in
    getHyperParameterDistribution H name = (match otherAxes (List.length (hy_names H)) k with [] => with_dist H (Some marg) | _ => H end, Ok (v, marg)).
  Proof.
    intros En Ev marg. unfold getHyperParameterDistribution. destruct (Nat.ltb (List.length (hy_grid H)) 2) eqn:El; [apply Nat.ltb_lt in El; pose proof (hf_many _ _ _ HF); lia|].
    rewrite (hf_tm _ _ _ HF). unfold hyperParameterIndex. rewrite (hf_names _ _ _ HF), (nameIndex_nth _ k name) by (auto; apply (hf_nodup _ _ _ HF)).
    rewrite (hf_dist _ _ _ HF), Ev. change (map stepsOf (hy_vals H)) with shape. rewrite arrOf_length, Nat.eqb_refl.
    assert (Em : amuls (sumAxes shape (otherAxes (List.length (hy_names H)) k) (arrOf (natprod shape) p)) (Fin (fprod (hy_const H))) = marg).
    { rewrite <- shape_len, marginalize_fin; [|rewrite shape_len; apply nth_error_Some; congruence|apply size_pos]. rewrite fprod_R. apply amuls_arrOf. }
    rewrite Em. reflexivity.
  Qed.
  Lemma fitted_joint a b na nb x y : a <> b -> nth_error (hy_names H) a = Some na -> nth_error (hy_names H) b = Some nb ->
    nth_error (hy_vals H) a = Some x -> nth_error (hy_vals H) b = Some y -> isIterable x = true -> isIterable y = true ->
    exists H1, getJointHyperParameterDistribution H [na; nb] = (H1, Ok (x, y, arrOf (nth a shape O * nth b shape O) (fun q => joint shape a b p (q / nth b shape O) (q mod nth b shape O) * cell))) /\
      ((3 <= List.length (hy_names H))%nat -> H1 = H) /\
      ((a < b)%nat -> List.length (hy_names H) = 2%nat -> H1 = with_dist H (Some (arrOf (natprod shape) (fun q => p q * cell)))).
  Proof.
    intros Hab Ea Eb Ex Ey Ix Iy. unfold getJointHyperParameterDistribution. destruct (Nat.ltb (List.length (hy_grid H)) 2) eqn:El; [apply Nat.ltb_lt in El; pose proof (hf_many _ _ _ HF); lia|].
    rewrite (hf_tm _ _ _ HF). unfold hyperParameterIndex. pose proof (hf_nodup _ _ _ HF) as ND. rewrite (hf_names _ _ _ HF), (nameIndex_nth _ a na), (nameIndex_nth _ b nb) by auto.
    assert (Eab : Nat.eqb a b = false) by now apply Nat.eqb_neq. rewrite Eab. cbv zeta.
    assert (La : (a < List.length (hy_names H))%nat) by (apply nth_error_Some; congruence). assert (Lb : (b < List.length (hy_names H))%nat) by (apply nth_error_Some; congruence).
    rewrite (hf_dist _ _ _ HF). change (map stepsOf (hy_vals H)) with shape. rewrite arrOf_length, Nat.eqb_refl.
    assert (Em : forall c d, (c < d)%nat -> (d < List.length (hy_names H))%nat ->
      amuls (sumAxes shape (otherAxes2 (List.length (hy_names H)) c d) (arrOf (natprod shape) p)) (Fin (fprod (hy_const H))) =
      arrOf (nth c shape O * nth d shape O) (fun q => joint shape c d p (q / nth d shape O) (q mod nth d shape O) * cell)).
    { intros c d Hcd Hd. rewrite <- shape_len, joint_fin; [|auto|rewrite shape_len; auto|apply size_pos]. rewrite fprod_R. apply amuls_arrOf. }
    assert (Hax : forall c d, (3 <= List.length (hy_names H))%nat -> otherAxes2 (List.length (hy_names H)) c d <> []).
    { intros a' b' H3 E0. assert (G : exists c, (c < 3)%nat /\ c <> a' /\ c <> b').
      { destruct (Nat.eq_dec a' 0), (Nat.eq_dec b' 0), (Nat.eq_dec a' 1), (Nat.eq_dec b' 1); try lia; try (exists 0%nat; lia); try (exists 1%nat; lia); exists 2%nat; lia. }
      destruct G as (c & c1 & c2 & c3). assert (I : In c (otherAxes2 (List.length (hy_names H)) a' b')).
      { unfold otherAxes2. apply filter_In. rewrite in_seq. split; [lia|]. apply andb_true_iff. rewrite !negb_true_iff, !Nat.eqb_neq. lia. }
      now rewrite E0 in I. }
    fold (otherAxes2 (List.length (hy_names H)) (Nat.min a b) (Nat.max a b)).
    destruct (Nat.lt_ge_cases a b) as [Hlt|Hge].
    - assert (Nat.min a b = a /\ Nat.max a b = b) as [-> ->] by lia. rewrite Ex, Ey, Em by auto. rewrite Ix, Iy. cbn [andb].
      assert (Nat.ltb a b = true) as -> by now apply Nat.ltb_lt. eexists. split; [reflexivity|]. split.
      + intros H3. specialize (Hax a b H3). destruct (otherAxes2 _ a b); congruence.
      + intros _ H2. assert (a = 0 /\ b = 1)%nat as [Za Zb] by lia. subst a b. rewrite H2. cbn [otherAxes2 seq filter Nat.eqb negb andb]. f_equal. f_equal.
        pose proof shape_len as Ls. rewrite H2 in Ls.
        destruct shape as [|s1 [|s2 [|]]]; cbn in Ls; try discriminate. cbn [nth]. unfold natprod. cbn [fold_right]. rewrite Nat.mul_1_r. apply arrOf_ext. intros q Hq. f_equal.
        assert (s2 <> 0)%nat by nia. assert (Hi : (q / s2 < s1)%nat) by (apply Nat.div_lt_upper_bound; lia). assert (Hj : (q mod s2 < s2)%nat) by now apply Nat.mod_upper_bound.
        unfold joint. unfold natprod. cbn [fold_right]. rewrite Nat.mul_1_r.
        assert (U : forall z, (z < s1 * s2)%nat -> unravel [s1; s2] z = [(z / s2)%nat; (z mod s2)%nat]).
        { intros z Hz. cbn [unravel]. unfold natprod. cbn [fold_right]. rewrite Nat.mul_1_r, Nat.div_1_r. f_equal. }
        rewrite (rsum_ext _ _ (fun z => if Nat.eqb z q then p z else 0)).
        * now rewrite rsum_delta.
        * intros z Hz. unfold coord. rewrite U by auto. cbn [nth]. destruct (Nat.eqb_spec z q) as [->|Hzq]; [now rewrite !Nat.eqb_refl|].
          destruct (Nat.eqb_spec (z / s2) (q / s2)) as [e1|]; cbn; auto. destruct (Nat.eqb_spec (z mod s2) (q mod s2)) as [e2|]; auto.
          exfalso. apply Hzq. rewrite (Nat.div_mod z s2), (Nat.div_mod q s2) by auto. congruence.
    - assert (Nat.min a b = b /\ Nat.max a b = a) as [-> ->] by lia. rewrite Ex, Ey, Em by (auto; lia). rewrite Ix, Iy. cbn [andb].
      assert (Nat.ltb a b = false) as -> by (apply Nat.ltb_ge; lia). rewrite <- (shape_nth a x), <- (shape_nth b y) by auto.
      eexists. split; [|split; [|intros; lia]].
      + do 3 f_equal. rewrite (transpose_arrOf (nth b shape O) (nth a shape O) (fun i j => joint shape b a p i j * cell)). apply arrOf_ext. intros q Hq. now rewrite joint_swap.
      + intros H3. specialize (Hax b a H3). destruct (otherAxes2 _ b a); congruence.
  Qed.
End Query.

(** The marginal distribution of a hyper-parameter sums the distribution over all others and sums to one; if there are
    other hyper-parameters, the study is not changed. *)
Theorem C32_marginal : forall (H : hyper R R) m p k name v,
  hyperFitted H m p -> nth_error (hy_names H) k = Some name -> nth_error (hy_vals H) k = Some v ->
  let shape := shapeH H in
  let prob i := marginal shape k p i * Rprod (hy_const H) in
  exists H1, getHyperParameterDistribution H name = (H1, Ok (v, arrOf (valueCount v) prob)) /\
    rsum (valueCount v) prob = 1 /\
    ((2 <= List.length (hy_names H))%nat -> H1 = H).
Proof.
  intros H m p k name v HF En Ev shape prob. rewrite (fitted_get H m p HF k name v En Ev).
  change (valueCount v) with (stepsOf v). rewrite <- (shape_nth H k v Ev). eexists. split; [reflexivity|].
  assert (Lk : (k < List.length (hy_names H))%nat) by (apply nth_error_Some; congruence). split.
  - unfold prob. rewrite rsum_scal_r, marginal_sum; [exact (hf_norm _ _ _ HF)|]. unfold shape; now rewrite (shape_len H m p HF).
  - intros H2. assert (exists c, (c < 2)%nat /\ c <> k) as (c & c1 & c2) by (destruct k; [exists 1%nat|exists 0%nat]; lia).
    assert (I : In c (otherAxes (List.length (hy_names H)) k)) by (unfold otherAxes; apply filter_In; rewrite in_seq, negb_true_iff, Nat.eqb_neq; lia).
    destruct (otherAxes _ k); [destruct I|reflexivity].
Qed.

(** The joint distribution of two hyper-parameters, in the order of the names given; the axes belong to the names. *)
Theorem C32_joint : forall (H : hyper R R) m p a b na nb x y,
  hyperFitted H m p -> a <> b -> nth_error (hy_names H) a = Some na -> nth_error (hy_names H) b = Some nb ->
  nth_error (hy_vals H) a = Some (HArr x) -> nth_error (hy_vals H) b = Some (HArr y) ->
  let prob i j := joint (shapeH H) a b p i j * Rprod (hy_const H) in
  exists H1 J, getJointHyperParameterDistribution H [na; nb] = (H1, Ok (HArr x, HArr y, J)) /\
    List.length J = (List.length x * List.length y)%nat /\
    (forall i j, (i < List.length x)%nat -> (j < List.length y)%nat -> nth (i * List.length y + j) J NaN = Fin (prob i j)) /\
    rsum (List.length x) (fun i => rsum (List.length y) (prob i)) = 1 /\
    ((3 <= List.length (hy_names H))%nat -> H1 = H).
Proof.
  intros H m p a b na nb x y HF Hab Ea Eb Ex Ey prob.
  destruct (fitted_joint H m p HF a b na nb _ _ Hab Ea Eb Ex Ey eq_refl eq_refl) as (H1 & E & E3 & _). rewrite (shape_nth H a _ Ex), (shape_nth H b _ Ey) in E. cbn [stepsOf] in E.
  assert (La : (a < List.length (shapeH H))%nat) by (rewrite (shape_len H m p HF); apply nth_error_Some; congruence). assert (Lb : (b < List.length (shapeH H))%nat) by (rewrite (shape_len H m p HF); apply nth_error_Some; congruence).
  exists H1. eexists. split; [exact E|]. split; [apply arrOf_length|]. split; [|split; auto].
  - intros i j Hi Hj. rewrite arrOf_nth by nia. unfold prob. do 3 f_equal.
    + rewrite Nat.div_add_l by lia. rewrite Nat.div_small; lia.
    + rewrite Nat.add_comm, Nat.mod_add by lia. rewrite Nat.mod_small; lia.
  - rewrite (rsum_ext _ _ (fun i => marginal (shapeH H) a p i * Rprod (hy_const H))).
    + rewrite rsum_scal_r. pose proof (marginal_sum (shapeH H) a p La) as M. rewrite (shape_nth H a _ Ex) in M. cbn [stepsOf] in M. rewrite M. exact (hf_norm _ _ _ HF).
    + intros i _. unfold prob. rewrite rsum_scal_r. pose proof (joint_sum (shapeH H) a b p i Lb) as M. rewrite (shape_nth H b _ Ey) in M. cbn [stepsOf] in M. now rewrite M.
Qed.

(** number at a position of an array *)
Definition entry (x : list (xnum R)) (i : nat) : R := match nth i x NaN with Fin v => v | _ => 0 end.

(** Summing the joint distribution gives the marginal distribution; swapping the names transposes it. *)
Theorem C32_consistent : forall (H : hyper R R) m p a b na nb x y,
  hyperFitted H m p -> a <> b -> nth_error (hy_names H) a = Some na -> nth_error (hy_names H) b = Some nb ->
  nth_error (hy_vals H) a = Some (HArr x) -> nth_error (hy_vals H) b = Some (HArr y) ->
  exists J J' M,
    snd (getJointHyperParameterDistribution H [na; nb]) = Ok (HArr x, HArr y, J) /\
    snd (getJointHyperParameterDistribution H [nb; na]) = Ok (HArr y, HArr x, J') /\
    snd (getHyperParameterDistribution H na) = Ok (HArr x, M) /\
    forall i, (i < List.length x)%nat ->
      entry M i = rsum (List.length y) (fun j => entry J (i * List.length y + j)) /\
      forall j, (j < List.length y)%nat -> entry J' (j * List.length x + i) = entry J (i * List.length y + j).
Proof.
  intros H m p a b na nb x y HF Hab Ea Eb Ex Ey.
  destruct (C32_joint H m p a b na nb x y HF Hab Ea Eb Ex Ey) as (H1 & J & e1 & e2 & e3 & e4 & _).
  destruct (C32_joint H m p b a nb na y x HF (not_eq_sym Hab) Eb Ea Ey Ex) as (H2 & J' & f1 & f2 & f3 & f4 & _).
  destruct (C32_marginal H m p a na _ HF Ea Ex) as (H3 & g1 & g2 & _). cbn [valueCount] in g1.
  assert (Lb : (b < List.length (shapeH H))%nat) by (rewrite (shape_len H m p HF); apply nth_error_Some; congruence).
  exists J, J'. eexists. rewrite e1, f1, g1. split; [reflexivity|]. split; [reflexivity|]. split; [reflexivity|]. intros i Hi. split.
  - unfold entry at 1. rewrite arrOf_nth by auto. rewrite (rsum_ext _ _ (fun j => joint (shapeH H) a b p i j * Rprod (hy_const H))).
    + rewrite rsum_scal_r. pose proof (joint_sum (shapeH H) a b p i Lb) as M. rewrite (shape_nth H b _ Ey) in M. cbn [stepsOf] in M. now rewrite M.
    + intros j Hj. unfold entry. now rewrite e3.
  - intros j Hj. unfold entry. rewrite e3, f3 by auto. now rewrite joint_swap.
Qed.

(** The joint distribution is refused if one of the two hyper-parameters has a single number as value or if both names are
    the same (the marginal distribution is not, see C32_marginal). *)
Theorem C32_number : forall (H : hyper R R) m p a b na nb va vb,
  hyperFitted H m p -> nth_error (hy_names H) a = Some na -> nth_error (hy_names H) b = Some nb ->
  nth_error (hy_vals H) a = Some va -> nth_error (hy_vals H) b = Some vb ->
  a = b \/ (exists x, va = HNum x) \/ (exists x, vb = HNum x) ->
  snd (getJointHyperParameterDistribution H [na; nb]) = Err ValueError.
Proof.
  intros H m p a b na nb va vb HF Ea Eb Ex Ey C. unfold getJointHyperParameterDistribution.
  destruct (Nat.ltb (List.length (hy_grid H)) 2) eqn:El; [apply Nat.ltb_lt in El; pose proof (hf_many _ _ _ HF); lia|].
  rewrite (hf_tm _ _ _ HF). unfold hyperParameterIndex. pose proof (hf_nodup _ _ _ HF) as ND. rewrite (hf_names _ _ _ HF), (nameIndex_nth _ a na), (nameIndex_nth _ b nb) by auto.
  destruct (Nat.eqb_spec a b) as [|Nab]; [reflexivity|]. cbv zeta. rewrite (hf_dist _ _ _ HF). change (map stepsOf (hy_vals H)) with (shapeH H). rewrite arrOf_length, Nat.eqb_refl.
  destruct C as [C|C]; [contradiction|].
  destruct (Nat.lt_ge_cases a b) as [Hlt|Hge].
  - assert (Nat.min a b = a /\ Nat.max a b = b) as [-> ->] by lia. rewrite Ex, Ey.
    destruct C as [[x ->]|[x ->]]; cbn [isIterable]; rewrite ?andb_false_r; reflexivity.
  - assert (Nat.min a b = b /\ Nat.max a b = a) as [-> ->] by lia. rewrite Ex, Ey.
    destruct C as [[x ->]|[x ->]]; cbn [isIterable]; rewrite ?andb_false_r; reflexivity.
Qed.

(** Any number of queries with at least three hyper-parameters leaves the study as it is, so that each query can be repeated
    with the same result. *)
Inductive query := Marg (name : string) | Joint (na nb : string).
Definition ask (H : hyper R R) (q : query) : hyper R R :=
  match q with
  | Marg name => fst (getHyperParameterDistribution H name)
  | Joint na nb => fst (getJointHyperParameterDistribution H [na; nb])
  end.
Theorem C32_repeatable : forall (H : hyper R R) m p qs,
  hyperFitted H m p -> (3 <= List.length (hy_names H))%nat -> fold_left ask qs H = H.
Proof.
  intros H m p qs HF H3. induction qs as [|q qs IH]; auto. cbn [fold_left]. assert (ask H q = H) as ->; [|exact IH].
  destruct q as [name|na nb]; cbn [ask].
  - unfold getHyperParameterDistribution. destruct (Nat.ltb _ 2); auto. destruct (st_tm (hy_S H)); auto. destruct (hyperParameterIndex t name) as [k|]; auto.
    destruct (hy_dist H); auto. destruct (nth_error (hy_vals H) k); auto. destruct (Nat.eqb _ _); auto.
    assert (exists c, (c < 2)%nat /\ c <> k) as (c & c1 & c2) by (destruct k; [exists 1%nat|exists 0%nat]; lia).
    assert (I : In c (otherAxes (List.length (hy_names H)) k)) by (unfold otherAxes; apply filter_In; rewrite in_seq, negb_true_iff, Nat.eqb_neq; lia).
    destruct (otherAxes _ k); [destruct I|reflexivity].
  - unfold getJointHyperParameterDistribution. destruct (Nat.ltb _ 2); auto. destruct (st_tm (hy_S H)); auto. destruct (hyperParameterIndex t na) as [a|]; auto.
    destruct (hyperParameterIndex t nb) as [b|]; auto. destruct (Nat.eqb a b); auto. cbv zeta.
    destruct (hy_dist H); auto. destruct (nth_error (hy_vals H) _); auto. destruct (nth_error (hy_vals H) _); auto. destruct (Nat.eqb _ _); auto.
    fold (otherAxes2 (List.length (hy_names H)) (Nat.min a b) (Nat.max a b)).
    assert (G : exists c, (c < 3)%nat /\ c <> a /\ c <> b).
    { destruct (Nat.eq_dec a 0), (Nat.eq_dec b 0), (Nat.eq_dec a 1), (Nat.eq_dec b 1); try lia; try (exists 0%nat; lia); try (exists 1%nat; lia); exists 2%nat; lia. }
    destruct G as (c & c1 & c2 & c3). assert (I : In c (otherAxes2 (List.length (hy_names H)) (Nat.min a b) (Nat.max a b))).
    { unfold otherAxes2. apply filter_In. rewrite in_seq. split; [lia|]. apply andb_true_iff. rewrite !negb_true_iff, !Nat.eqb_neq. lia. }
    destruct (otherAxes2 _ _ _); [destruct I|]. destruct (_ && _); reflexivity.
Qed.

(** With exactly one hyper-parameter every query multiplies the stored distribution with the grid constant: the n-th query
    (counted from zero) returns numbers that sum to the n-th power of the grid constant. *)
Theorem C32_rescaled : forall (H : hyper R R) m p name v n,
  hyperFitted H m p -> hy_names H = [name] -> nth_error (hy_vals H) 0 = Some v ->
  let cell := Rprod (hy_const H) in
  let Hn := Nat.iter n (fun H0 => fst (getHyperParameterDistribution H0 name)) H in
  snd (getHyperParameterDistribution Hn name) = Ok (v, arrOf (valueCount v) (fun i => p i * cell ^ S n)) /\
  rsum (valueCount v) (fun i => p i * cell ^ S n) = cell ^ n.
Proof.
  intros H m p name v n HF En Ev cell Hn.
  assert (Es : shapeH H = [stepsOf v]).
  { pose proof (shape_len H m p HF) as L. rewrite En in L. unfold shapeH in *. rewrite map_length in L. destruct (hy_vals H) as [|v' [|]]; cbn in L; try discriminate. cbn in Ev. inversion Ev; subst. reflexivity. }
  assert (G : Hn = with_dist H (Some (arrOf (stepsOf v) (fun i => p i * cell ^ n)))).
  { unfold Hn. clear Hn. induction n as [|n IH].
    - cbn [Nat.iter nat_rect pow]. rewrite (arrOf_ext _ _ p) by (intros; lra). destruct H as [h1 h2 h3 h4 h5 h6 h7 h8]. unfold with_dist. cbn in *. f_equal.
      pose proof (hf_dist _ _ _ HF) as D. cbn in D. rewrite D. unfold shapeH in *. cbn in *. rewrite Es. cbn. now rewrite Nat.mul_1_r.
    - cbn [Nat.iter nat_rect]. unfold Nat.iter in IH. rewrite IH. set (q := fun i => p i * cell ^ n) in *.
      unfold getHyperParameterDistribution. cbn [with_dist hy_grid hy_S hy_dist hy_vals hy_names hy_const].
      destruct (Nat.ltb (List.length (hy_grid H)) 2) eqn:El; [apply Nat.ltb_lt in El; pose proof (hf_many _ _ _ HF); lia|].
      rewrite (hf_tm _ _ _ HF). unfold hyperParameterIndex. rewrite (hf_names _ _ _ HF), En. cbn [nameIndex]. rewrite String.eqb_refl. rewrite Ev.
      change (map stepsOf (hy_vals H)) with (shapeH H). rewrite Es. unfold natprod. cbn [fold_right]. rewrite arrOf_length, Nat.mul_1_r, Nat.eqb_refl.
      cbn [List.length otherAxes seq filter Nat.eqb negb sumAxes]. cbn [fst with_dist hy_S hy_vals hy_names hy_grid hy_const hy_pv hy_logEvs]. rewrite fprod_R, amuls_arrOf. unfold with_dist. f_equal. f_equal.
      cbn [hy_S hy_vals hy_names hy_grid hy_const hy_pv hy_logEvs]. apply arrOf_ext. intros i _. unfold q. fold cell. cbn [pow]. ring. }
  rewrite G. split.
  - unfold getHyperParameterDistribution. cbn [with_dist hy_grid hy_S hy_dist hy_vals hy_names hy_const].
    destruct (Nat.ltb (List.length (hy_grid H)) 2) eqn:El; [apply Nat.ltb_lt in El; pose proof (hf_many _ _ _ HF); lia|].
    rewrite (hf_tm _ _ _ HF). unfold hyperParameterIndex. rewrite (hf_names _ _ _ HF), En. cbn [nameIndex]. rewrite String.eqb_refl. rewrite Ev.
    change (map stepsOf (hy_vals H)) with (shapeH H). rewrite Es. unfold natprod. cbn [fold_right]. rewrite arrOf_length, Nat.mul_1_r, Nat.eqb_refl.
    cbn [List.length otherAxes seq filter Nat.eqb negb sumAxes snd]. rewrite fprod_R, amuls_arrOf. do 2 f_equal. apply arrOf_ext. intros i _. fold cell. cbn [pow]. ring.
  - rewrite rsum_scal_r. pose proof (hf_norm _ _ _ HF) as Nm. rewrite Es in Nm. unfold natprod in Nm. cbn [fold_right] in Nm. rewrite Nat.mul_1_r in Nm. fold cell in Nm. change (valueCount v) with (stepsOf v).
    cbn [pow]. rewrite <- Rmult_assoc, Nm. ring.
Qed.

(** With exactly two hyper-parameters the same holds for the joint distribution. *)
Theorem C32_rescaled_joint : forall (H : hyper R R) m p na nb x y,
  hyperFitted H m p -> hy_names H = [na; nb] -> hy_vals H = [HArr x; HArr y] ->
  let cell := Rprod (hy_const H) in
  exists J, getJointHyperParameterDistribution H [na; nb] = (with_dist H (Some J), Ok (HArr x, HArr y, J)) /\
    J = arrOf (List.length x * List.length y) (fun q => p q * cell).
Proof.
  intros H m p na nb x y HF En Ev cell. assert (Hs : shapeH H = [List.length x; List.length y]) by (unfold shapeH; rewrite Ev; reflexivity).
  destruct (fitted_joint H m p HF 0 1 na nb (HArr x) (HArr y)) as (H1 & E & _ & E2); auto; try (rewrite En; reflexivity); try (rewrite Ev; reflexivity).
  rewrite E2 in E by (auto; rewrite En; reflexivity). eexists. rewrite E, Hs. unfold natprod. cbn [fold_right nth]. rewrite Nat.mul_1_r. split; [|reflexivity]. do 3 f_equal.
  apply arrOf_ext. intros q Hq. f_equal. set (s1 := List.length x) in *. set (s2 := List.length y) in *.
  assert (s2 <> 0)%nat by nia. unfold joint, natprod. cbn [fold_right]. rewrite Nat.mul_1_r.
  assert (U : forall z, (z < s1 * s2)%nat -> unravel [s1; s2] z = [(z / s2)%nat; (z mod s2)%nat]).
  { intros z Hz. cbn [unravel]. unfold natprod. cbn [fold_right]. rewrite Nat.mul_1_r, Nat.div_1_r. f_equal. }
  rewrite (rsum_ext _ _ (fun z => if Nat.eqb z q then p z else 0)).
  - now rewrite rsum_delta.
  - intros z Hz. unfold coord. rewrite U by auto. cbn [nth]. destruct (Nat.eqb_spec z q) as [->|Hzq]; [now rewrite !Nat.eqb_refl|].
    destruct (Nat.eqb_spec (z / s2) (q / s2)) as [e1|]; cbn; auto. destruct (Nat.eqb_spec (z mod s2) (q mod s2)) as [e2|]; auto.
    exfalso. apply Hzq. rewrite (Nat.div_mod z s2), (Nat.div_mod q s2) by auto. congruence.
Qed.

(** the study of C28_ex *)
Example C32_ex (ds : list Z) fo eo j : bits ds -> (3 <= List.length ds)%nat ->
  exists S H' m p,
    setup (data ds) None (coin PNone) walkOrChange = Ok S /\ hyperFit (newHyper S) fo eo j = Ok H' /\
    hyperFitted H' m p /\ hy_names H' = ["s"; "c"]%string /\
    hy_vals H' = [HArr [1 / 4; 1 / 2]; HArr (removelast (times ds))].
Proof.
  intros Hb Hd. destruct (C28_ex ds fo eo j Hb Hd) as (S & H' & runs & pv & e1 & e2 & e3 & e4 & e5 & e6 & e7 & e8 & e9 & e10 & e11 & e12 & e13 & e14 & _).
  destruct (C32_fitted (newHyper S) (coin PNone) walkOrChange (times ds) fo eo j H' pv runs e2 e6 e8 e9 e10 e11 e12 e13 e14) as (m2 & p & f1 & f2 & f3).
  exists S, H', m2, p. repeat (split; [assumption|]). exact f3.
Qed.

(** queries, executed: a Regime-switch model with values in steps of two; the second query is twice as large *)
Definition twoRates : tm Q := TM KRegime ["r"%string] [HArr [-2; -4]%Q] (Some (Leaf HPNone)) [].
Theorem C32_query_refuted : exists (S : study Q Q) H1 H2 H3 v d1 d2,
  setup (data [1; 1; 0]%Z) None (coinOM quarters PNone) twoRates = Ok S /\
  hyperFit (newHyper S) true true 1 = Ok H1 /\
  getHyperParameterDistribution H1 "r" = (H2, Ok (v, d1)) /\ asum d1 = Fin 1%Q /\
  getHyperParameterDistribution H2 "r" = (H3, Ok (v, d2)) /\ asum d2 = Fin 2%Q.
Proof.
  assert (E : (let* S0 := setup (L := Q) (data [1; 1; 0]%Z) None (coinOM quarters PNone) twoRates in
    let* H1 := hyperFit (newHyper S0) true true 1 in
    let* r1 := snd (getHyperParameterDistribution H1 "r") in
    let* r2 := snd (getHyperParameterDistribution (fst (getHyperParameterDistribution H1 "r")) "r") in
    Ok (fst r1, fst r2, asum (snd r1), asum (snd r2)))%res = Ok (HArr [-2; -4], HArr [-2; -4], Fin 1, Fin 2)%Q) by (vm_compute; reflexivity).
  run E. rename x into S0, x0 into Hy, x1 into r1, x2 into r2. destruct (getHyperParameterDistribution Hy "r") as [Hy2 q1] eqn:E1. cbn [fst snd] in *. destruct (getHyperParameterDistribution Hy2 "r") as [Hy3 q2] eqn:E2. cbn [fst snd] in *. subst q1 q2.
  destruct r1 as [v1 d1], r2 as [v2 d2]. cbn [fst snd] in *. subst v1. subst v2. exists S0, Hy, Hy2, Hy3. do 3 eexists. repeat (split; [eassumption|]). assumption.
Qed.
