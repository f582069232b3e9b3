(** HyperStudy.fit as a whole. *)
From Coq Require Import List ZArith Reals Lra Lia Arith Bool String.
From Verif Require Import Base.Num Base.Exn Base.Arr Base.RSum Base.Lift Model.Helper Model.Tm Model.HyperParams Model.Study
  Model.Getters Model.Hyper Spec.Kernel Spec.Config Spec.Dist Spec.Names Spec.HyperSpec
  Proof.KernelProof Proof.FitInv Proof.FitThms Proof.SetupProof Proof.DataProof Proof.PriorProof Proof.TransProof Proof.Good Proof.NamesProof Proof.LogProof
  Proof.GridProof Proof.HyperProof.
Import ListNotations.
Local Open Scope R_scope.

(** ** hyper-priors do not matter for a fit *)
Lemma noPriors_returns (m : tm R) : forall t, returnsArgument (noPriors m) t = returnsArgument m t.
Proof.
  induction m as [k names vals prior ms IH] using tm_ind'. intros t. cbn [noPriors]. destruct k; try reflexivity.
  - cbn [returnsArgument]. destruct (mapM scalarOf vals) as [bs|]; auto. f_equal.
    generalize (breaksUpTo bs t) as i. induction IH as [|m ms Hm Hms IHms]; intros [|i]; cbn [map]; auto.
Qed.
Lemma fit_noPriors (S S2 : study R R) m m' l l2 fo eo A : sameInputs S S2 -> l = l2 -> noPriors m = noPriors m' ->
  fit (set_tm S m l) fo eo = Ok A -> exists B, fit (set_tm S2 m' l2) fo eo = Ok B /\ agree eo A B.
Proof.
  intros I El Em E. subst l2.
  assert (I2 : sameInputs (set_tm S m l) (set_tm S2 m l)) by (destruct I; constructor; auto).
  destruct (fit_inputs _ _ _ _ _ I2 eq_refl E) as (B & EB & a1 & a2 & a3).
  assert (G : sameOutcome (fit (set_tm S2 m l) fo eo) (fit (set_tm S2 m' l) fo eo)).
  { apply fit_sameSteps.
    - intros e off p t1 t t'. rewrite <- (noPriors_step e m), Em. apply noPriors_step.
    - intros t. rewrite <- noPriors_returns, Em. apply noPriors_returns.
    - rewrite <- (noPriors_names m), Em. now rewrite noPriors_names. }
  rewrite EB in G. destruct (fit (set_tm S2 m' l) fo eo) as [B'|]; cbn in G; [|contradiction].
  exists B'. split; auto. destruct G as (g1 & g2 & g3 & _ & _).
  split; [congruence|]. split; [congruence|]. intros Ee. rewrite <- g2. auto.
Qed.

(** ** shape of the hyper-grid *)
Lemma priorOf_length (p : hprior R) v c q p' xs : priorOf p v c = Ok (q, p') -> pointsOf v = Ok xs -> List.length q = List.length xs.
Proof.
  intros E Ev. unfold priorOf, adivs in E. destruct p as [|f|a|f|x].
  - rewrite Ev in E. cbn in E. inversion E; subst. rewrite !map_length. unfold aones. apply repeat_length.
  - destruct v; inversion E; inversion Ev; subst. now rewrite !map_length.
  - destruct v; try discriminate. destruct (Nat.eqb_spec (List.length a) (List.length xs0)); inversion E; inversion Ev; subst. now rewrite !map_length.
  - rewrite Ev in E. cbn in E. inversion E; subst. now rewrite map_length.
  - discriminate.
Qed.
Lemma priorsOf_lengths (ps : list (hprior R)) : forall vs cs pts r, mapM pointsOf vs = Ok pts -> (List.length vs <= List.length ps)%nat -> List.length cs = List.length vs ->
  priorsOf (combine (combine ps vs) cs) = Ok r -> map (@List.length _) (map fst r) = map (@List.length _) pts.
Proof.
  induction ps as [|p ps IH]; intros [|v vs] [|c cs] pts r Em Lp Lc E; cbn in Lp, Lc; try lia; cbn [mapM] in Em; cbn [combine priorsOf] in E.
  - inversion E; inversion Em; subst. reflexivity.
  - inversion E; inversion Em; subst. reflexivity.
  - destruct (pointsOf v) as [xs|] eqn:Ev; [|discriminate]. cbn [bind] in Em. destruct (mapM pointsOf vs) as [pts'|] eqn:Em'; [|discriminate]. inversion Em; subst.
    destruct (priorOf p v c) as [[q p']|] eqn:Eq; [|discriminate]. cbn [bind] in E. destruct (priorsOf _) as [r'|] eqn:Er; [|discriminate]. inversion E; subst.
    cbn [map fst]. f_equal; [eapply priorOf_length; eauto|]. eapply (IH vs cs pts' r'); auto; lia.
Qed.
Lemma grid_shape m ts vals rows cs pv m' : createHyperGrid (F := R) m ts = Ok (vals, rows, cs, pv, m') -> rows <> [] ->
  List.length rows = List.length pv /\ Forall (fun row => (List.length (allNames m) <= List.length row)%nat) rows /\
  List.length vals = List.length (allNames m) /\ noPriors m' = noPriors m /\ vals = map (replaceAll ts) (allValues m).
Proof.
  intros E Hr. unfold createHyperGrid in E. cbv zeta in E. destruct (mapM pointsOf _) as [pts|] eqn:Ep; [|discriminate]. cbn [bind] in E.
  destruct (allNames m) as [|n ns] eqn:En; [inversion E; subst; congruence|].
  destruct (_ && _) eqn:Ec; [|discriminate]. apply andb_true_iff in Ec as [Ec1 Ec2]. apply Nat.leb_le in Ec1. apply Nat.eqb_eq in Ec2.
  destruct (priorsOf _) as [pr|] eqn:Er; [|discriminate]. cbn [bind] in E. inversion E; subst. clear E.
  assert (Lp : List.length pts = List.length (map (replaceAll ts) (allValues m))) by (eapply mapM_length'; eauto).
  split; [|split; [|split; [|split]]].
  - rewrite map_length, !cart_length. f_equal. symmetry. eapply priorsOf_lengths; [exact Ep|exact Ec1| |exact Er]. now rewrite map_length.
  - apply Forall_forall. intros row Hrow. apply cart_In in Hrow. apply SetupProof.Forall2_len in Hrow. rewrite Hrow, Lp. cbn in Ec2 |- *. lia.
  - symmetry. exact Ec2.
  - apply noPriors_put.
  - reflexivity.
Qed.

Section Fit.
  Variables (H : hyper R R) (o : om R) (m : tm R) (ts : list R).
  Hypothesis HR : hyperReady H o m ts.
  Notation S0 := (hy_S H).
  Notation n := (stepsH H o).
  Notation N := (pointsH H).
  Definition fmtH : list (seg R) := formatData (st_raw S0) (om_seglen o).
  (** the study after the grid has been created *)
  Definition prepared (m' : tm R) : study R R := set_tm (set_format S0 fmtH ts) m' (st_tmlat S0).
  Definition withGrid vals rows cs pv m' : hyper R R :=
    {| hy_S := prepared m'; hy_vals := vals; hy_names := allNames m; hy_grid := rows; hy_const := cs; hy_pv := pv; hy_dist := hy_dist H; hy_logEvs := hy_logEvs H |}.

  Lemma hyperFit_unfold fo eo j : hyperFit H fo eo j =
    (let* g := createHyperGrid m ts in
     let '(vals, rows, cs, pv, m') := g in
     let* clash := pointClash m' rows in
     if clash then Err ConfigurationError else hyperFitGrid (withGrid vals rows cs pv m') fo eo j)%res.
  Proof.
    destruct HR as [h1 h2 (rts & h3 & h4) _ _ _]. unfold hyperFit, formatStudy. rewrite h1, h3, <- h4. cbn [bind]. unfold withHyperGrid. cbn [with_study hy_S st_tm set_format]. rewrite h2.
    cbn [st_fmtTs set_format]. destruct (createHyperGrid m _) as [[[[[vals rows] cs] pv] m']|]; reflexivity.
  Qed.
  Lemma prepared_inputs m' : sameInputs S0 (prepared m').
  Proof. constructor; reflexivity. Qed.
  Lemma named_m' m' : noPriors m' = noPriors m -> named m'.
  Proof. intros E. apply noPriors_named. rewrite E. apply noPriors_named. apply (hr_names _ _ _ _ HR). Qed.
  Lemma names_m' m' : noPriors m' = noPriors m -> allNames m' = allNames m.
  Proof. intros E. rewrite <- noPriors_names, E. apply noPriors_names. Qed.
  Lemma withValues_m' m' row : noPriors m' = noPriors m -> noPriors (withValues m' row) = noPriors (withValues m row).
  Proof. intros E. unfold withValues. rewrite !noPriors_assign, E, (names_m' _ E). reflexivity. Qed.
  Lemma one_single m' fo eo row A : noPriors m' = noPriors m -> one (prepared m') m' fo eo row A -> exists B, single H m fo eo row B /\ agree eo A B.
  Proof.
    intros E HA. eapply fit_noPriors; [apply sameInputs_sym; apply (prepared_inputs m')|reflexivity|apply withValues_m'; exact E|exact HA].
  Qed.
  Lemma single_one m' fo eo row A : noPriors m' = noPriors m -> single H m fo eo row A -> exists B, one (prepared m') m' fo eo row B /\ agree eo A B.
  Proof.
    intros E HA. eapply fit_noPriors; [apply (prepared_inputs m')|reflexivity|symmetry; apply withValues_m'; exact E|exact HA].
  Qed.
  Lemma Forall2_ex {X Y} (P Q : X -> Y -> Prop) (R' : Y -> Y -> Prop) l r : (forall x a, P x a -> exists b, Q x b /\ R' a b) ->
    Forall2 P l r -> exists r', Forall2 Q l r' /\ Forall2 R' r r'.
  Proof.
    intros G. induction 1 as [|x a l r Ha HF (r' & F1 & F2)]; [exists []; auto|]. destruct (G x a Ha) as (b & Hb & Hab). exists (b :: r'). auto.
  Qed.
  Lemma agree_proper eo n' N' A B : agree eo A B -> proper eo n' N' A -> proper eo n' N' B.
  Proof.
    intros (a1 & _ & a3) [E|[E P]]; [left; congruence|right]. rewrite a1. split; auto. intros Ee. rewrite (a3 Ee). auto.
  Qed.
  Lemma agree_map eo runs runs' : Forall2 (agree (F := R) (L := R) eo) runs runs' -> map st_logEv runs' = map st_logEv runs /\ map st_local runs' = map st_local runs.
  Proof. induction 1 as [|A B l l' (a1 & a2 & _) HF [IH1 IH2]]; cbn; auto. split; congruence. Qed.
  Lemma agree_mixed runs runs' pv : Forall2 (agree (F := R) (L := R) false) runs runs' -> forall j x, mixed (combine runs' pv) j x = mixed (combine runs pv) j x.
  Proof.
    intros HF j x. unfold mixed. revert pv. induction HF as [|A B l l' (a1 & _ & a3) HF IH]; intros [|p pv]; cbn [combine map Rsum fold_right fst snd]; auto.
    fold (Rsum (map (fun ap => term (fst ap) (snd ap) j x) (combine l' pv))). fold (Rsum (map (fun ap => term (fst ap) (snd ap) j x) (combine l pv))).
    rewrite IH. f_equal. unfold term, evidenceOf, postAt. now rewrite a1, a3.
  Qed.

  (** ** the analyses of any list of combinations *)
  Section Rows.
  Variables (vals : list (hval R)) (rows : list (list R)) (cs : list R) (pv : list R) (m' : tm R).
  Hypothesis g1 : List.length rows = List.length pv.
  Hypothesis g2 : Forall (fun row => (List.length (allNames m) <= List.length row)%nat) rows.
  Hypothesis g3 : List.length vals = List.length (allNames m).
  Hypothesis g4 : noPriors m' = noPriors m.
  Hypothesis Hmany : (1 < List.length rows)%nat.
  Definition restored : tm R := assign (lookup (combine (allNames m) vals)) m'.

  Lemma rows_runs fo eo j H' : hyperFitGrid (withGrid vals rows cs (fin pv) m') fo eo j = Ok H' ->
    checkConsistency (prepared m') = Ok (o, m') /\ exists runs, Forall2 (single H m fo eo) rows runs.
  Proof.
    unfold hyperFitGrid. cbn [withGrid hy_S hy_grid].
    destruct (checkConsistency (prepared m')) as [[o' m'']|] eqn:EC; [|discriminate]. cbn [bind].
    assert (o' = o /\ m'' = m') as [-> ->].
    { unfold checkConsistency in EC. destruct (Nat.eqb _ _); [discriminate|]. cbn [prepared set_tm st_om st_tm set_format] in EC. rewrite (hr_om _ _ _ _ HR) in EC.
      destruct (hasDup _); inversion EC; auto. }
    destruct (Nat.ltb 1 (List.length rows)) eqn:El; [|apply Nat.ltb_ge in El; lia].
    destruct (runAnalyses _ _ _ _ _ _ _) as [r|] eqn:Er; [|discriminate]. intros _. split; auto.
    destruct (hr_names _ _ _ _ HR) as (n1 & n2 & n3 & n4).
    destruct (run_inv (prepared m') o m' fo eo (hr_om _ _ _ _ HR) (hr_prior _ _ _ _ HR)) with (rows := rows) (pv := pv) (nJobs := j) (avg := repeat (repeat (NInf (F := R)) (natprod (st_shape (prepared m')))) (List.length (st_fmt (prepared m')))) (r := r) as (runs & HF); auto.
    - apply named_m'; auto.
    - rewrite (names_m' _ g4). auto.
    - rewrite (names_m' _ g4). auto.
    - exact (hr_sel _ _ _ _ HR).
    - now rewrite (names_m' _ g4).
    - destruct (Forall2_ex _ (single H m fo eo) (agree eo) _ _ (fun row A => one_single m' fo eo row A g4) HF) as (runs' & HF' & _). eauto.
  Qed.

  Hypothesis Hpv : nonneg pv.
  Lemma rows_spec fo eo j runs : checkConsistency (prepared m') = Ok (o, m') ->
    Forall2 (single H m fo eo) rows runs -> Forall (proper eo n N) runs ->
    exists H', hyperFitGrid (withGrid vals rows cs (fin pv) m') fo eo j = Ok H' /\
      hy_vals H' = vals /\ hy_names H' = allNames m /\ hy_grid H' = rows /\ hy_const H' = cs /\ hy_pv H' = fin pv /\
      hy_logEvs H' = map st_logEv runs /\
      hy_dist H' = Some (hyperDistribution (logWeights (map st_logEv runs) (fin pv) cs) cs) /\
      st_logEv (hy_S H') = xlogsumexp (F := R) (logWeights (map st_logEv runs) (fin pv) cs) /\
      st_local (hy_S H') = localSum (map st_local runs) (fin pv) n /\
      st_tm (hy_S H') = Some restored /\
      sameInputs S0 (hy_S H') /\
      (eo = false -> st_post (hy_S H') = map Some (averagePosterior (lgm n N (mixed (combine runs pv)))) /\
                     st_means (hy_S H') = meanValues (st_grid S0) (averagePosterior (lgm n N (mixed (combine runs pv))))).
  Proof.
    intros EC HF HP. destruct (hr_names _ _ _ _ HR) as (n1 & n2 & n3 & n4).
    destruct (Forall2_ex _ (one (prepared m') m' fo eo) (agree eo) _ _ (fun row A => single_one m' fo eo row A g4) HF) as (runs' & HF' & Hag).
    assert (HP' : Forall (proper eo n N) runs').
    { clear - HP Hag. induction Hag; inversion HP; subst; constructor; auto. eapply agree_proper; eauto. }
    destruct (run_total (prepared m') o m' fo eo n N (hr_om _ _ _ _ HR) (hr_prior _ _ _ _ HR)) with (rows := rows) (pv := pv) (nJobs := j) (runs := runs') as (S1 & f' & I1 & T1 & E1); auto.
    - apply named_m'; auto.
    - rewrite (names_m' _ g4). auto.
    - rewrite (names_m' _ g4). auto.
    - exact (hr_sel _ _ _ _ HR).
    - now rewrite (names_m' _ g4).
    - destruct (agree_map _ _ _ Hag) as [M1 M2]. rewrite M1, M2 in E1.
      assert (Es : setAll (assign f' m') vals = (restored, None)).
      { unfold setAll, restored. rewrite setLoop_assign'; rewrite ?assign_allNames, ?(names_m' _ g4); auto using incl_refl; try lia.
        - rewrite assign_assign by now apply named_m'. f_equal. apply assign_ext. intros nm Hnm. rewrite (names_m' _ g4) in Hnm.
          destruct (lookup_some (allNames m) vals nm) as (x & ->); auto. lia.
        - apply assign_named. now apply named_m'. }
      eexists. split; [|split; [|split; [|split; [|split; [|split; [|split; [|split; [|split; [|split; [|split; [|split]]]]]]]]]]].
      + unfold hyperFitGrid. cbn [withGrid hy_S hy_grid hy_pv hy_const hy_vals hy_names].
        rewrite EC. cbn [bind]. destruct (Nat.ltb 1 (List.length rows)) eqn:El; [|apply Nat.ltb_ge in El; lia].
        change (List.length (st_fmt (prepared m'))) with n. change (natprod (st_shape (prepared m'))) with N. rewrite E1. cbn [bind]. rewrite T1, Es. reflexivity.
      + reflexivity.
      + reflexivity.
      + reflexivity.
      + reflexivity.
      + reflexivity.
      + reflexivity.
      + reflexivity.
      + reflexivity.
      + reflexivity.
      + reflexivity.
      + cbn [hy_S]. eapply sameInputs_trans; [apply (prepared_inputs m')|]. eapply sameInputs_trans; [exact I1|]. constructor; reflexivity.
      + intros ->. cbn [hy_S set_average st_post st_means].
        assert (Ev : lgm n N (contrib false (combine runs' pv)) = lgm n N (mixed (combine runs pv))).
        { apply lgm_ext. intros j0 x _ _. unfold contrib. now apply agree_mixed. }
        rewrite Ev. split; auto. rewrite (si_grid _ _ I1). reflexivity.
  Qed.
  End Rows.

  Variables (vals : list (hval R)) (rows : list (list R)) (cs : list R) (pv : list R) (m' : tm R).
  Hypothesis HG : createHyperGrid m ts = Ok (vals, rows, cs, fin pv, m').
  Hypothesis Hmany : (1 < List.length rows)%nat.
  Hypothesis Hpv : nonneg pv.

  Lemma rows_ne : rows <> []. Proof. intros ->. cbn in Hmany. lia. Qed.

  Lemma fit_runs fo eo j H' : hyperFit H fo eo j = Ok H' ->
    pointClash m' rows = Ok false /\ checkConsistency (prepared m') = Ok (o, m') /\ exists runs, Forall2 (single H m fo eo) rows runs.
  Proof.
    rewrite hyperFit_unfold, HG. cbn [bind]. destruct (pointClash m' rows) as [[|]|] eqn:Ec; [discriminate| |discriminate]. cbn [bind].
    destruct (grid_shape _ _ _ _ _ _ _ HG rows_ne) as (g1 & g2 & g3 & g4 & g5). rewrite map_length in g1.
    intros E. split; auto. eapply rows_runs; eauto.
  Qed.
  Lemma fit_spec fo eo j runs : pointClash m' rows = Ok false -> checkConsistency (prepared m') = Ok (o, m') ->
    Forall2 (single H m fo eo) rows runs -> Forall (proper eo n N) runs ->
    exists H', hyperFit H fo eo j = Ok H' /\
      hy_vals H' = vals /\ hy_names H' = allNames m /\ hy_grid H' = rows /\ hy_const H' = cs /\ hy_pv H' = fin pv /\
      hy_logEvs H' = map st_logEv runs /\
      hy_dist H' = Some (hyperDistribution (logWeights (map st_logEv runs) (fin pv) cs) cs) /\
      st_logEv (hy_S H') = xlogsumexp (F := R) (logWeights (map st_logEv runs) (fin pv) cs) /\
      st_local (hy_S H') = localSum (map st_local runs) (fin pv) n /\
      st_tm (hy_S H') = Some (restored vals m') /\
      sameInputs S0 (hy_S H') /\
      (eo = false -> st_post (hy_S H') = map Some (averagePosterior (lgm n N (mixed (combine runs pv)))) /\
                     st_means (hy_S H') = meanValues (st_grid S0) (averagePosterior (lgm n N (mixed (combine runs pv))))).
  Proof.
    intros Ec EC HF HP. destruct (grid_shape _ _ _ _ _ _ _ HG rows_ne) as (g1 & g2 & g3 & g4 & g5). rewrite map_length in g1.
    rewrite hyperFit_unfold, HG. cbn [bind]. rewrite Ec. cbn [bind]. apply rows_spec; auto.
  Qed.
End Fit.
