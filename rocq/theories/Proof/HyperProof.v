(** The analyses of a hyper-study. *)
From Coq Require Import List ZArith Reals Lra Lia Arith Bool String.
From Verif Require Import Base.Num Base.Exn Base.Arr Base.RSum Base.Lift Model.Helper Model.Tm Model.HyperParams Model.Study
  Model.Getters Model.Hyper Spec.Kernel Spec.Config Spec.Dist Spec.Names Spec.HyperSpec
  Proof.KernelProof Proof.FitInv Proof.SetupProof Proof.DataProof Proof.PriorProof Proof.TransProof Proof.Good Proof.NamesProof Proof.LogProof Proof.GridProof.
Import ListNotations.
Local Open Scope R_scope.

(** ** fits of studies that differ in earlier results only *)
Section Stale.
  Context {F L : Type} `{Num F} `{LogNum F L}.
  Record sameInputs (S S2 : study F L) : Prop := {
    si_om : st_om S2 = st_om S; si_shape : st_shape S2 = st_shape S; si_lat : st_lat S2 = st_lat S; si_tmlat : st_tmlat S2 = st_tmlat S;
    si_grid : st_grid S2 = st_grid S; si_raw : st_raw S2 = st_raw S; si_rawTs : st_rawTs S2 = st_rawTs S; si_sel : st_sel S2 = st_sel S;
    si_shift : st_shift S2 = st_shift S; si_aconv : st_aconv S2 = st_aconv S; si_bconv : st_bconv S2 = st_bconv S;
    si_marg : st_marg S2 = st_marg S }.
  Lemma sameInputs_refl S : sameInputs S S. Proof. constructor; reflexivity. Qed.
  Lemma sameInputs_sym S S2 : sameInputs S S2 -> sameInputs S2 S. Proof. intros []. constructor; auto. Qed.
  Lemma sameInputs_trans S S2 S3 : sameInputs S S2 -> sameInputs S2 S3 -> sameInputs S S3.
  Proof. intros [] []. constructor; congruence. Qed.
  Lemma sameInputs_tm S m l : l = st_tmlat S -> sameInputs S (set_tm S m l). Proof. intros ->. constructor; reflexivity. Qed.
  Lemma sameInputs_post S p : sameInputs S (with_post S p). Proof. constructor; reflexivity. Qed.
  Lemma sameInputs_format S f ts : sameInputs S (set_format S f ts). Proof. constructor; reflexivity. Qed.

  Definition agree (eo : bool) (A B : study F L) : Prop :=
    st_logEv B = st_logEv A /\ st_local B = st_local A /\ (eo = false -> st_post B = st_post A).

  Lemma fwdPart_inputs S S2 o m ts w : sameInputs S S2 -> st_tm S2 = st_tm S -> fwdPart S o m ts w -> fwdPart S2 o m ts w.
  Proof.
    intros I ET [EC (rts & ER & ->) (a0 & p0 & al0 & EP & EW)]. destruct I. constructor.
    - unfold checkConsistency in *. rewrite si_raw0, si_om0, ET. exact EC.
    - exists rts. rewrite si_rawTs0. auto.
    - assert (Ee : envOf S2 o (om_prior o) = envOf S o (om_prior o)).
      { unfold envOf. rewrite si_shape0, si_lat0, si_tmlat0, si_grid0, si_shift0, si_aconv0, si_bconv0. reflexivity. }
      exists a0, p0, al0. rewrite Ee, si_raw0. auto.
  Qed.
  Lemma fit_inputs S S2 fo eo A : sameInputs S S2 -> st_tm S2 = st_tm S -> fit S fo eo = Ok A ->
    exists B, fit S2 fo eo = Ok B /\ agree eo A B.
  Proof.
    intros I ET E. apply fit_inv in E as (o & m & ts & w & FP & O). pose proof (fwdPart_inputs _ _ _ _ _ _ I ET FP) as FP2.
    assert (Ee : forall p, envOf S2 o p = envOf S o p).
    { intros p. destruct I. unfold envOf. rewrite si_shape0, si_lat0, si_tmlat0, si_grid0, si_shift0, si_aconv0, si_bconv0. reflexivity. }
    assert (Es : segsOf S2 o = segsOf S o) by (unfold segsOf; now rewrite (si_raw _ _ I)).
    assert (Ev : volOf S2 = volOf S) by (unfold volOf; now rewrite (si_lat _ _ I)).
    assert (El : fwdLocals S2 w = fwdLocals S w) by (unfold fwdLocals; now rewrite Ev).
    assert (Eb : betaStart S2 o = betaStart S o) by (unfold betaStart; now rewrite Ee).
    assert (Ei : itemsOf S2 o ts w = itemsOf S o ts w) by (unfold itemsOf; now rewrite Es).
    destruct O as [fo eo ES|fo ES|ES|out ES EB|out ES EB].
    - eexists. split; [eapply fit_intro; [exact FP2|now apply fo_stop]|]. rewrite El, Es. repeat split. intros ->. reflexivity.
    - eexists. split; [eapply fit_intro; [exact FP2|now apply fo_evidence]|]. unfold agree, evOf. cbn [st_logEv st_local st_post set_results]. rewrite El, Es, Ev. repeat split. discriminate.
    - eexists. split; [eapply fit_intro; [exact FP2|now apply fo_forward]|]. unfold agree, evOf. cbn [st_logEv st_local st_post set_results]. rewrite El, Es, Ev. repeat split.
    - eexists. split; [eapply fit_intro; [exact FP2|apply fo_full; auto]|].
      + rewrite Ee, Ei, Eb. exact EB.
      + unfold agree, evOf, mergeLocals. cbn [st_logEv st_local st_post set_results]. rewrite El, Ev. repeat split.
    - eexists. split; [eapply fit_intro; [exact FP2|apply fo_bstop; auto]|].
      + rewrite Ee, Ei, Eb. exact EB.
      + unfold agree, evOf, mergeLocals. cbn [st_logEv st_local st_post set_results]. rewrite El. repeat split.
  Qed.
  (** without an array prior a fit changes results only *)
  Lemma fit_sameInputs S o fo eo S' : st_om S = Some o -> notArray (om_prior o) -> fit S fo eo = Ok S' -> sameInputs S S' /\ st_tm S' = st_tm S.
  Proof.
    intros Eo NA E. pose proof (fit_keeps _ _ _ _ E) as (k1 & k2 & k3 & k4 & k5 & k6 & k7 & k8 & k9 & k10 & k11 & k12 & _).
    apply fit_inv in E as (o' & m & ts & w & FP & O).
    assert (o' = o).
    { destruct FP as [EC _ _]. unfold checkConsistency in EC. destruct (Nat.eqb _ _); [discriminate|]. rewrite Eo in EC.
      destruct (st_tm S); [|discriminate]. destruct (hasDup _); [discriminate|]. now inversion EC. }
    subst o'. split; auto. constructor; auto. rewrite Eo.
    pose proof (fwdPart_prior _ _ _ _ _ FP NA) as Ep.
    destruct O; cbn [st_om set_results]; rewrite Ep, om_set_same; reflexivity.
  Qed.
  Lemma fit_om S fo eo A : fit S fo eo = Ok A -> exists o, st_om S = Some o.
  Proof. intros E. apply fit_keeps in E. destruct E as (_ & _ & _ & _ & _ & _ & _ & _ & _ & _ & _ & _ & o & p & Eo & _). eauto. Qed.
End Stale.

(** ** the loop over all combinations *)
Section Loop.
  Variables (S : study R R) (o : om R) (m : tm R) (fo eo : bool).
  Hypothesis Hom : st_om S = Some o.
  Hypothesis Hpr : notArray (om_prior o).
  Hypothesis Hnamed : named m.
  Hypothesis Hdup : NoDup (allNames m).
  Hypothesis Hblank : ~ In " "%string (allNames m).
  Hypothesis Hsel : st_sel S = [].
  Notation K := (List.length (allNames m)).
  Definition one (row : list R) (A : study R R) : Prop := fit (set_tm S (withValues m row) (st_tmlat S)) fo eo = Ok A.

  Definition addRun (avg : list (list (xnum R))) (A : study R R) (pv : xnum R) : list (list (xnum R)) :=
    if negb eo && xisfinite (st_logEv A)
    then match allSome (st_post A) with
         | Some ps => addLog avg (map (afloor (Fin tiny)) ps) (st_logEv A) pv
         | None => avg
         end
    else avg.
  Fixpoint addRuns (avg : list (list (xnum R))) (l : list (study R R * xnum R)) : list (list (xnum R)) :=
    match l with [] => avg | (A, pv) :: l' => addRuns (addRun avg A pv) l' end.

  Lemma lookup_some {A} l (xs : list A) n : (List.length l <= List.length xs)%nat -> In n l -> exists x, lookup (combine l xs) n = Some x.
  Proof.
    revert xs. induction l as [|a l IH]; intros [|x xs] E I; cbn in *; try tauto; [lia|].
    destruct (String.eqb_spec a n); [eauto|]. destruct I as [I|I]; [contradiction|]. apply IH; auto. lia.
  Qed.
  Lemma with_any f row : (K <= List.length row)%nat ->
    assign (lookup (combine (allNames m) (map HNum row))) (assign f m) = withValues m row.
  Proof.
    intros E. rewrite assign_assign by auto. unfold withValues. apply assign_ext. intros n Hn.
    destruct (lookup_some (allNames m) (map HNum row) n) as (x & ->); auto. now rewrite map_length.
  Qed.
  Lemma set_any f row : (K <= List.length row)%nat -> setSelected [] (assign f m) (map HNum row) = (withValues m row, None).
  Proof.
    intros E. unfold setSelected, setAll. rewrite setLoop_assign'; rewrite ?assign_allNames; auto using assign_named, incl_refl.
    - now rewrite with_any.
    - now rewrite map_length.
  Qed.

  Lemma hyperLoop_step row pv items S2 avg f : sameInputs S S2 -> st_tm S2 = Some (assign f m) -> (K <= List.length row)%nat ->
    forall A, one row A ->
    exists S3 A2, agree eo A A2 /\ sameInputs S S3 /\ st_tm S3 = Some (withValues m row) /\
    hyperLoop fo eo ((row, pv) :: items) S2 avg =
    (let* r := hyperLoop fo eo items S3 (addRun avg A pv) in
     let '(S4, evs, locs, avg2) := r in Ok (S4, st_logEv A :: evs, st_local A :: locs, avg2))%res.
  Proof.
    intros I ET HK A HA. unfold one in HA.
    assert (I2 : sameInputs (set_tm S (withValues m row) (st_tmlat S)) (set_tm S2 (withValues m row) (st_tmlat S2))).
    { destruct I. constructor; auto. }
    destruct (fit_inputs _ _ _ _ _ I2 eq_refl HA) as (B & EB & AB).
    assert (IB : sameInputs S B /\ st_tm B = Some (withValues m row)).
    { destruct (fit_sameInputs _ o _ _ _ (eq_trans (si_om _ _ I) Hom : st_om (set_tm S2 _ _) = Some o) Hpr EB) as [IB TB]. split; [|exact TB].
      eapply sameInputs_trans; [exact I|]. eapply sameInputs_trans; [apply sameInputs_tm; reflexivity|exact IB]. }
    destruct IB as [IB TB]. destruct AB as (A1 & A2 & A3).
    assert (Ead : addRun avg B pv = addRun avg A pv).
    { unfold addRun. destruct eo; cbn; auto. rewrite A1, A3 by auto. reflexivity. }
    cbn [hyperLoop]. rewrite ET, (si_sel _ _ I), Hsel, set_any by auto. rewrite EB. cbn [bind]. unfold addRun in Ead |- *.
    destruct (negb eo && xisfinite (st_logEv B)) eqn:Ef.
    - rewrite <- A1, Ef. destruct (allSome (st_post B)) as [ps|] eqn:Ep.
      + exists (with_post B (map Some (map (afloor (Fin tiny)) ps))), B. split; [repeat split; auto|]. split; [|split].
        * eapply sameInputs_trans; [exact IB|apply sameInputs_post].
        * exact TB.
        * assert (Ps : allSome (st_post A) = Some ps).
          { rewrite <- A3, Ep; auto. destruct eo; auto; discriminate. }
          rewrite Ps, A2. destruct (hyperLoop _ _ _ _ _) as [[[[? ?] ?] ?]|]; reflexivity.
      + exists B, B. split; [repeat split; auto|]. split; [|split]; auto.
        assert (Ps : allSome (st_post A) = None).
        { rewrite <- A3, Ep; auto. destruct eo; auto; discriminate. }
        rewrite Ps, A2. reflexivity.
    - rewrite <- A1, Ef. exists B, B. split; [repeat split; auto|]. split; [|split]; auto. rewrite A2. reflexivity.
  Qed.
  Lemma hyperLoop_total : forall items runs S2 avg f, sameInputs S S2 -> st_tm S2 = Some (assign f m) ->
    Forall (fun it => (K <= List.length (fst it))%nat) items -> Forall2 (fun it A => one (fst it) A) items runs ->
    exists S3 f', sameInputs S S3 /\ st_tm S3 = Some (assign f' m) /\
    hyperLoop fo eo items S2 avg = Ok (S3, map st_logEv runs, map st_local runs, addRuns avg (combine runs (map snd items))).
  Proof.
    induction items as [|[row pv] items IH]; intros runs S2 avg f I ET HK HF; inversion HF as [|? A ? runs' HA HF']; subst.
    - exists S2, f. auto.
    - inversion HK; subst. cbn [fst] in *. destruct (hyperLoop_step row pv items S2 avg f I ET H1 A HA) as (S3 & A2 & _ & I3 & T3 & E3).
      destruct (IH runs' S3 (addRun avg A pv) _ I3 T3 H2 HF') as (S4 & f' & I4 & T4 & E4).
      exists S4, f'. split; auto. split; auto. rewrite E3, E4. reflexivity.
  Qed.
  Lemma hyperLoop_inv : forall items S2 avg f r, sameInputs S S2 -> st_tm S2 = Some (assign f m) ->
    Forall (fun it => (K <= List.length (fst it))%nat) items -> hyperLoop fo eo items S2 avg = Ok r ->
    exists runs, Forall2 (fun it A => one (fst it) A) items runs.
  Proof.
    induction items as [|[row pv] items IH]; intros S2 avg f r I ET HK E; [exists []; constructor|].
    inversion HK as [|? ? HK1 HK2]; subst. cbn [fst] in *.
    assert (HA : exists A, one row A).
    { cbn [hyperLoop] in E. rewrite ET, (si_sel _ _ I), Hsel, set_any in E by auto.
      destruct (fit _ fo eo) as [B|] eqn:EB; [|discriminate].
      assert (I2 : sameInputs (set_tm S2 (withValues m row) (st_tmlat S2)) (set_tm S (withValues m row) (st_tmlat S))).
      { apply sameInputs_sym in I. destruct I. constructor; auto. }
      destruct (fit_inputs _ _ _ _ _ I2 eq_refl EB) as (A & EA & _). eauto. }
    destruct HA as (A & HA). destruct (hyperLoop_step row pv items S2 avg f I ET HK1 A HA) as (S3 & A2 & _ & I3 & T3 & E3).
    rewrite E3 in E. destruct (hyperLoop fo eo items S3 (addRun avg A pv)) as [r'|] eqn:E4; [|discriminate].
    destruct (IH S3 _ _ _ I3 T3 HK2 E4) as (runs & HF). exists (A :: runs). constructor; auto.
  Qed.
End Loop.

(** ** array_split *)
Lemma splitSizes_concat {A} (sizes : list nat) : forall l : list A, fold_right Nat.add O sizes = List.length l -> List.concat (splitSizes l sizes) = l.
Proof.
  induction sizes as [|s sizes IH]; intros l E; cbn in *.
  - destruct l; [reflexivity|discriminate].
  - rewrite IH; [apply firstn_skipn|]. rewrite skipn_length. lia.
Qed.
Lemma fold_add_app l m : fold_right Nat.add O (l ++ m) = (fold_right Nat.add O l + fold_right Nat.add O m)%nat.
Proof. induction l; cbn; lia. Qed.
Lemma fold_add_repeat a n : fold_right Nat.add O (repeat a n) = (n * a)%nat.
Proof. induction n; cbn; lia. Qed.
Lemma array_split_concat {A} (l : list A) k : (0 < k)%nat -> List.concat (array_split l k) = l.
Proof.
  intros Hk. unfold array_split. apply splitSizes_concat. rewrite fold_add_app, !fold_add_repeat.
  pose proof (Nat.div_mod (List.length l) k ltac:(lia)) as E. pose proof (Nat.mod_upper_bound (List.length l) k ltac:(lia)) as B.
  set (q := (List.length l / k)%nat) in *. set (r := (List.length l mod k)%nat) in *. nia.
Qed.
Lemma splitSizes_combine {A B} (sizes : list nat) : forall (l : list A) (r : list B), List.length l = List.length r ->
  map (fun p => combine (fst p) (snd p)) (combine (splitSizes l sizes) (splitSizes r sizes)) = splitSizes (combine l r) sizes.
Proof.
  induction sizes as [|s sizes IH]; intros l r E; cbn; auto. rewrite IH by (rewrite !skipn_length; lia). f_equal.
  - symmetry. apply combine_firstn.
  - f_equal. clear. revert l r. induction s as [|s IH]; intros [|a l] [|b r]; cbn; auto. now destruct (skipn s l).
Qed.
Lemma array_split_combine {A B} (l : list A) (r : list B) k : List.length l = List.length r ->
  map (fun p => combine (fst p) (snd p)) (combine (array_split l k) (array_split r k)) = array_split (combine l r) k.
Proof.
  intros E. unfold array_split. rewrite <- E, combine_length, <- E, Nat.min_id. apply splitSizes_combine. auto.
Qed.

(** ** the average in log-space *)
Definition lgm (n N : nat) (V : nat -> nat -> R) : list (list (xnum R)) := tab n (fun j => tab N (fun x => lg (V j x))).
Lemma lgm_ext n N V W : (forall j x, (j < n)%nat -> (x < N)%nat -> V j x = W j x) -> lgm n N V = lgm n N W.
Proof. intros E. apply tab_ext. intros j Hj. apply tab_ext. intros x Hx. now rewrite E. Qed.
Lemma lgm_add n N V W : (forall j x, 0 <= V j x) -> (forall j x, 0 <= W j x) ->
  map2 (map2 (xlogaddexp (F := R))) (lgm n N V) (lgm n N W) = lgm n N (fun j x => V j x + W j x).
Proof.
  intros HV HW. unfold lgm. rewrite map2_tab. apply tab_ext. intros j _. rewrite map2_tab. apply tab_ext. intros x _. apply lg_logaddexp; auto.
Qed.
Lemma lgm_0 n N : repeat (repeat NInf N) n = lgm n N (fun _ _ => 0).
Proof. rewrite repeat_tab. apply tab_ext. intros j _. rewrite repeat_tab. apply tab_ext. intros x _. symmetry. apply lg_0. Qed.

Lemma evidenceOf_lg n N eo A : proper eo n N A -> st_logEv A = lg (evidenceOf A).
Proof.
  unfold proper, evidenceOf. intros [->|[(v & ->) _]]; [now rewrite lg_0|]. rewrite lg_pos by apply exp_pos. now rewrite ln_exp.
Qed.
Lemma evidenceOf_nonneg A : 0 <= evidenceOf A.
Proof. unfold evidenceOf. destruct (st_logEv A); try lra. left. apply exp_pos. Qed.
Lemma tiny_eq : tiny (F := R) = Rpower 10 (-300).
Proof. reflexivity. Qed.
Lemma floored_pos x : 0 < floored x.
Proof. unfold floored. eapply Rlt_le_trans; [|apply Rmax_r]. apply exp_pos. Qed.
Lemma floored_if x : (if Rltb x (tiny (F := R)) then tiny (F := R) else x) = floored x.
Proof.
  unfold floored. rewrite <- tiny_eq. destruct (Rltb x tiny) eqn:E.
  - apply Rltb_true in E. rewrite Rmax_right; lra.
  - apply Rltb_false in E. rewrite Rmax_left; lra.
Qed.
Lemma finite_tab N a : finite N a -> a = tab N (fun x => match nth x a NaN with Fin v => Fin v | _ => Fin 0 end).
Proof.
  intros (r & -> & Lr & _). apply (list_eq_nth NaN); rewrite ?tab_length, ?map_length; auto. intros i Hi. rewrite tab_nth by lia.
  rewrite (nth_indep _ NaN (Fin 0)) by (rewrite map_length; lia). rewrite (map_nth (@Fin R) r 0). reflexivity.
Qed.
Lemma allSome_map {A} (l : list A) : allSome (map Some l) = Some l.
Proof. induction l as [|a l IH]; cbn; auto. now rewrite IH. Qed.
Lemma proper_posts n N A : proper false n N A -> 0 < evidenceOf A ->
  allSome (st_post A) = Some (tab n (fun j => tab N (fun x => Fin (postAt A j x)))).
Proof.
  intros [E|[_ P]]; [unfold evidenceOf; rewrite E; lra|]. intros _. destruct (P eq_refl) as (posts & Ep & Ln & HF).
  rewrite Ep, allSome_map. f_equal. apply (list_eq_nth []); rewrite ?tab_length; auto. intros j Hj. rewrite tab_nth by lia.
  assert (Fj : finite N (nth j posts [])) by (rewrite Forall_forall in HF; apply HF; now apply nth_In).
  rewrite (finite_tab N (nth j posts [])) by auto. apply tab_ext. intros x Hx. unfold postAt. rewrite Ep.
  rewrite (nth_indep _ None (Some [])) by (rewrite map_length; lia). rewrite (map_nth Some). destruct (nth x (nth j posts []) NaN); reflexivity.
Qed.
Lemma finite_evidence n N eo A : proper eo n N A -> xisfinite (st_logEv A) = Rltb 0 (evidenceOf A).
Proof. intros P. rewrite (evidenceOf_lg _ _ _ _ P). apply lg_finite. apply evidenceOf_nonneg. Qed.

(** contribution of an analysis to the average *)
Definition term (A : study R R) (p : R) (j x : nat) : R := evidenceOf A * p * floored (postAt A j x).
Lemma term_nonneg A p j x : 0 <= p -> 0 <= term A p j x.
Proof.
  intros Hp. unfold term. apply Rmult_le_pos; [apply Rmult_le_pos; auto; apply evidenceOf_nonneg|]. left. apply floored_pos.
Qed.
Lemma addRun_lgm n N V A p : (forall j x, 0 <= V j x) -> 0 <= p -> proper false n N A ->
  addRun false (lgm n N V) A (Fin p) = lgm n N (fun j x => V j x + term A p j x).
Proof.
  intros HV Hp PA. unfold addRun. cbn [negb andb]. rewrite (finite_evidence _ _ _ _ PA). destruct (Rltb 0 (evidenceOf A)) eqn:Ee.
  - apply Rltb_true in Ee. rewrite (proper_posts _ _ _ PA Ee). unfold addLog, lgm. rewrite map_tab, map2_tab. apply tab_ext. intros j _.
    unfold afloor. rewrite map_tab, map2_tab. apply tab_ext. intros x _.
    replace (if xltb (Fin (postAt A j x)) (Fin tiny) then Fin tiny else Fin (postAt A j x)) with (Fin (floored (postAt A j x))).
    2:{ rewrite <- floored_if. change (xltb (Fin (postAt A j x)) (Fin tiny)) with (Rltb (postAt A j x) tiny). destruct (Rltb (postAt A j x) tiny); reflexivity. }
    rewrite (evidenceOf_lg _ _ _ _ PA). pose proof (evidenceOf_nonneg A). pose proof (floored_pos (postAt A j x)).
    fold (lg (floored (postAt A j x))). fold (lg p). rewrite lg_add by lra. rewrite lg_add by (auto; nra).
    rewrite lg_logaddexp; [f_equal; unfold term; ring|auto|]. apply Rmult_le_pos; auto. nra.
  - apply Rltb_false in Ee. pose proof (evidenceOf_nonneg A). apply lgm_ext. intros j x _ _. unfold term. replace (evidenceOf A) with 0 by lra. ring.
Qed.
Definition mixed (l : list (study R R * R)) (j x : nat) : R := Rsum (map (fun ap => term (fst ap) (snd ap) j x) l).
Lemma mixed_nonneg l j x : nonneg (map snd l) -> 0 <= mixed l j x.
Proof.
  intros Hl. apply Rsum_nonneg. rewrite Forall_map in *. eapply Forall_impl; [|exact Hl]. cbn. intros. now apply term_nonneg.
Qed.
Lemma addRuns_lgm n N : forall runs pv V, (forall j x, 0 <= V j x) -> nonneg pv -> Forall (proper false n N) runs -> List.length runs = List.length pv ->
  addRuns false (lgm n N V) (combine runs (fin pv)) = lgm n N (fun j x => V j x + mixed (combine runs pv) j x).
Proof.
  induction runs as [|A runs IH]; intros [|p pv] V HV Hp HA E; try discriminate E.
  - cbn [combine addRuns]. apply lgm_ext. intros. cbn. lra.
  - inversion Hp; inversion HA; subst. cbn [map combine addRuns]. rewrite addRun_lgm by auto.
    rewrite IH; auto. 2:{ intros j x. apply Rplus_le_le_0_compat; auto. now apply term_nonneg. }
    apply lgm_ext. intros j x _ _. cbn [mixed map Rsum fold_right fst snd combine]. unfold mixed. fold (Rsum (map (fun ap => term (fst ap) (snd ap) j x) (combine runs pv))).
    cbn [map Rsum fold_right fst snd]. fold (Rsum (map (fun ap => term (fst ap) (snd ap) j x) (combine runs pv))). ring.
Qed.
Lemma addRuns_true avg l : addRuns true avg l = avg.
Proof. revert avg. induction l as [|[A p] l IH]; intros avg; cbn; auto. Qed.

(** ** all analyses, in one or several processes *)
Section Run.
  Variables (S : study R R) (o : om R) (m : tm R) (fo eo : bool) (n N : nat).
  Hypothesis Hom : st_om S = Some o.
  Hypothesis Hpr : notArray (om_prior o).
  Hypothesis Hnamed : named m.
  Hypothesis Hdup : NoDup (allNames m).
  Hypothesis Hblank : ~ In " "%string (allNames m).
  Hypothesis Hsel : st_sel S = [].
  Hypothesis Htm : st_tm S = Some m.
  Notation K := (List.length (allNames m)).
  Definition contrib (l : list (study R R * R)) (j x : nat) : R := if eo then 0 else mixed l j x.
  Definition item (rp : list R * R) : list R * xnum R := (fst rp, Fin (snd rp)).
  Lemma tm_assign : st_tm S = Some (assign (fun _ => None) m).
  Proof. rewrite assign_id; auto. Qed.
  Lemma contrib_nonneg l j x : nonneg (map snd l) -> 0 <= contrib l j x.
  Proof. intros. unfold contrib. destruct eo; [lra|]. now apply mixed_nonneg. Qed.

  Lemma loop_total items runs V : (forall j x, 0 <= V j x) -> nonneg (map snd items) ->
    Forall (fun it => (K <= List.length (fst it))%nat) items -> Forall2 (fun it A => one S m fo eo (fst it) A) items runs ->
    Forall (proper eo n N) runs ->
    exists S3 f', sameInputs S S3 /\ st_tm S3 = Some (assign f' m) /\
    hyperLoop fo eo (map item items) S (lgm n N V) =
    Ok (S3, map st_logEv runs, map st_local runs, lgm n N (fun j x => V j x + contrib (combine runs (map snd items)) j x)).
  Proof.
    intros HV Hp HK HF HP.
    destruct (hyperLoop_total S o m fo eo Hom Hpr Hnamed Hdup Hblank Hsel (map item items) runs S (lgm n N V) _ (sameInputs_refl S) tm_assign) as (S3 & f' & I3 & T3 & E3).
    - rewrite Forall_map. exact HK.
    - apply Forall2_map_l. exact HF.
    - exists S3, f'. split; auto. split; auto. rewrite E3. do 2 f_equal. rewrite map_map.
      assert (Es : map (fun x => snd (item x)) items = fin (map snd items)) by (rewrite map_map; reflexivity). rewrite Es. clear Es.
      unfold contrib. destruct eo.
      + rewrite addRuns_true. apply lgm_ext. intros; lra.
      + apply addRuns_lgm; auto. rewrite map_length. symmetry. apply (Forall2_len _ _ _ HF).
  Qed.
  Lemma contrib_app l l' j x : contrib (l ++ l') j x = contrib l j x + contrib l' j x.
  Proof. unfold contrib, mixed. destruct eo; [lra|]. now rewrite map_app, Rsum_app. Qed.
  Lemma Forall2_app_split {A B} (P : A -> B -> Prop) l1 l2 r : Forall2 P (l1 ++ l2) r -> exists r1 r2, r = r1 ++ r2 /\ Forall2 P l1 r1 /\ Forall2 P l2 r2.
  Proof. intros HF. apply Forall2_app_inv_l in HF as (r1 & r2 & H1 & H2 & ->). eauto. Qed.
  Lemma parts_total : forall parts runs, nonneg (map snd (List.concat parts)) ->
    Forall (fun it => (K <= List.length (fst it))%nat) (List.concat parts) -> Forall2 (fun it A => one S m fo eo (fst it) A) (List.concat parts) runs ->
    Forall (proper eo n N) runs ->
    exists rs, mapM (fun part => hyperLoop fo eo part S (lgm n N (fun _ _ => 0))) (map (map item) parts) = Ok rs /\
    forall V, (forall j x, 0 <= V j x) ->
      merge (lgm n N V) rs = (map st_logEv runs, map st_local runs, lgm n N (fun j x => V j x + contrib (combine runs (map snd (List.concat parts))) j x)).
  Proof.
    induction parts as [|part parts IH]; intros runs Hp HK HF HP; cbn [List.concat] in *.
    - inversion HF; subst. exists []. split; [reflexivity|]. intros V HV. cbn [merge map]. f_equal. apply lgm_ext. intros j x _ _. unfold contrib, mixed. cbn. destruct eo; lra.
    - rewrite map_app in Hp. apply Forall_app in Hp as [Hp1 Hp2]. apply Forall_app in HK as [HK1 HK2].
      apply Forall2_app_split in HF as (r1 & r2 & -> & HF1 & HF2). apply Forall_app in HP as [HP1 HP2].
      destruct (loop_total part r1 (fun _ _ => 0) (fun _ _ => Rle_refl 0) Hp1 HK1 HF1 HP1) as (S3 & f' & _ & _ & E3).
      destruct (IH r2 Hp2 HK2 HF2 HP2) as (rs & Ers & Em).
      eexists. split; [cbn [map mapM]; rewrite E3; cbn [bind]; rewrite Ers; reflexivity|].
      intros V HV. cbn [merge].
      assert (C1 : forall j x, 0 <= contrib (combine r1 (map snd part)) j x).
      { intros j x. apply contrib_nonneg. rewrite snd_combine; auto. rewrite map_length. symmetry. apply (Forall2_len _ _ _ HF1). }
      rewrite lgm_add; auto. 2:{ intros j x. rewrite Rplus_0_l. apply C1. }
      rewrite Em. 2:{ intros j x. apply Rplus_le_le_0_compat; auto. rewrite Rplus_0_l. apply C1. }
      rewrite !map_app. f_equal. apply lgm_ext. intros j x _ _. rewrite combine_app, contrib_app; [lra|]. rewrite map_length. symmetry. apply (Forall2_len _ _ _ HF1).
  Qed.
  Lemma splitSizes_map {A B} (f : A -> B) sizes : forall l, splitSizes (map f l) sizes = map (map f) (splitSizes l sizes).
  Proof. induction sizes as [|s sizes IH]; intros l; cbn; auto. rewrite firstn_map, skipn_map, IH. reflexivity. Qed.
  Lemma array_split_map {A B} (f : A -> B) l k : array_split (map f l) k = map (map f) (array_split l k).
  Proof. unfold array_split. rewrite map_length. apply splitSizes_map. Qed.
  Lemma combine_fin rows pv : combine rows (fin pv) = map item (combine rows pv).
  Proof. revert pv. induction rows as [|r rows IH]; intros [|p pv]; cbn; auto. now rewrite IH. Qed.
  Lemma Forall_combine_fst {A B} (P : A -> Prop) (l : list A) (r : list B) : Forall P l -> Forall (fun x => P (fst x)) (combine l r).
  Proof. intros HF. revert r. induction HF; intros [|b r]; cbn; constructor; auto. Qed.
  Lemma Forall2_combine_fst {A B C} (P : A -> C -> Prop) (l : list A) (r : list B) c : List.length l = List.length r -> Forall2 P l c -> Forall2 (fun x => P (fst x)) (combine l r) c.
  Proof. intros E HF. revert r E. induction HF; intros [|b r] E; cbn in *; try discriminate; constructor; auto. Qed.

  Variables (rows : list (list R)) (pv : list R).
  Hypothesis Hlen : List.length rows = List.length pv.
  Hypothesis Hrows : Forall (fun row => (K <= List.length row)%nat) rows.
  Hypothesis Hpv : nonneg pv.

  Lemma run_total nJobs runs : Forall2 (one S m fo eo) rows runs -> Forall (proper eo n N) runs ->
    exists S1 f', sameInputs S S1 /\ st_tm S1 = Some (assign f' m) /\
    runAnalyses fo eo nJobs rows (fin pv) S (repeat (repeat NInf N) n) =
    Ok (S1, map st_logEv runs, map st_local runs, lgm n N (contrib (combine runs pv))).
  Proof.
    intros HF HP. rewrite lgm_0. unfold runAnalyses.
    assert (F1 : Forall (fun it => (K <= List.length (fst it))%nat) (combine rows pv)) by (apply (Forall_combine_fst (fun row => (K <= List.length row)%nat)); auto).
    assert (F2 : Forall2 (fun it A => one S m fo eo (fst it) A) (combine rows pv) runs) by (apply (Forall2_combine_fst (one S m fo eo)); auto).
    assert (Es : map snd (combine rows pv) = pv) by (apply snd_combine; auto).
    destruct (Nat.ltb 1 nJobs) eqn:Ej.
    - apply Nat.ltb_lt in Ej. rewrite array_split_combine by now rewrite map_length. rewrite combine_fin, array_split_map.
      destruct (parts_total (array_split (combine rows pv) nJobs) runs) as (rs & Ers & Em); rewrite ?array_split_concat; try lia; auto.
      { now rewrite Es. }
      rewrite Ers. cbn [bind]. rewrite Em by (intros; lra). rewrite array_split_concat, Es by lia.
      exists S, (fun _ => None). split; [apply sameInputs_refl|]. split; [apply tm_assign|]. do 2 f_equal. apply lgm_ext. intros; lra.
    - rewrite combine_fin. destruct (loop_total (combine rows pv) runs (fun _ _ => 0)) as (S3 & f' & I3 & T3 & E3); auto.
      { intros; lra. }
      { now rewrite Es. }
      exists S3, f'. split; auto. split; auto. rewrite E3, Es. do 2 f_equal. apply lgm_ext. intros; lra.
  Qed.
  Lemma mapM_parts (parts : list (list (list R * xnum R))) avg rs :
    Forall (fun it => (K <= List.length (fst it))%nat) (List.concat parts) ->
    mapM (fun part => hyperLoop fo eo part S avg) parts = Ok rs -> exists runs, Forall2 (fun it A => one S m fo eo (fst it) A) (List.concat parts) runs.
  Proof.
    revert rs. induction parts as [|part parts IH]; intros rs HK E; [exists []; constructor|]. cbn [List.concat] in *. apply Forall_app in HK as [HK1 HK2].
    cbn [mapM] in E. destruct (hyperLoop fo eo part S avg) as [r|] eqn:E1; [|discriminate]. cbn [bind] in E.
    destruct (mapM _ parts) as [rs'|] eqn:E2; [|discriminate].
    destruct (hyperLoop_inv S o m fo eo Hom Hpr Hnamed Hdup Hblank Hsel part S avg _ _ (sameInputs_refl S) tm_assign HK1 E1) as (r1 & F1).
    destruct (IH rs' HK2 eq_refl) as (r2 & F2). exists (r1 ++ r2). now apply Forall2_app.
  Qed.
  Lemma run_inv nJobs avg r : runAnalyses fo eo nJobs rows (fin pv) S avg = Ok r -> exists runs, Forall2 (one S m fo eo) rows runs.
  Proof.
    intros E. assert (G : exists runs, Forall2 (fun it A => one S m fo eo (fst it) A) (combine rows (fin pv)) runs).
    { assert (F1 : Forall (fun it => (K <= List.length (fst it))%nat) (combine rows (fin pv))) by (apply (Forall_combine_fst (fun row => (K <= List.length row)%nat)); auto).
      unfold runAnalyses in E. destruct (Nat.ltb 1 nJobs) eqn:Ej.
      - apply Nat.ltb_lt in Ej. rewrite array_split_combine in E by now rewrite map_length.
        destruct (mapM _ _) as [rs|] eqn:E1 in E; [|discriminate].
        rewrite <- (array_split_concat (combine rows (fin pv)) nJobs) by lia.
        eapply mapM_parts; [|exact E1]. rewrite array_split_concat by lia. exact F1.
      - eapply (hyperLoop_inv S o m fo eo); eauto using sameInputs_refl, tm_assign. }
    destruct G as (runs & HF). exists runs.
    assert (EL : List.length rows = List.length (fin pv)) by now rewrite map_length. revert EL HF. generalize (fin pv) as q. clear.
    revert runs. induction rows as [|row rows' IH]; intros runs [|p q] EL HF; cbn in *; try discriminate; inversion HF; subst; constructor; auto. eapply IH; [|eassumption]. lia.
  Qed.
End Run.

(** ** from log-space to distributions *)
Lemma lsum_lg cs : Forall (fun c => 0 < c) cs -> lsum (F := R) (map (fun c => lg c) cs) = lg (Rprod cs).
Proof.
  intros Hc. unfold lsum. change (Fin (F := R) l0) with (Fin (F := R) 0). rewrite <- ln_1, <- lg_pos by lra.
  rewrite <- (Rmult_1_l (Rprod cs)). assert (H1 : 0 < 1) by lra. revert H1. generalize 1 as a. induction Hc as [|c cs Hc Hcs IH]; intros a Ha; cbn [map fold_left Rprod fold_right].
  - now rewrite Rmult_1_r.
  - rewrite lg_add by lra. rewrite IH by nra. f_equal. fold (Rprod cs). ring.
Qed.
Lemma Rprod_pos cs : Forall (fun c => 0 < c) cs -> 0 < Rprod cs.
Proof. induction 1; cbn; [lra|]. fold (Rprod l). nra. Qed.
Definition weightsOf (evs pv : list R) : list R := map2 Rmult evs pv.
Lemma logWeights_lg evs pv cs : nonneg evs -> nonneg pv -> Forall (fun c => 0 < c) cs ->
  logWeights (map lg evs) (fin pv) cs = map lg (map (fun w => w * Rprod cs) (weightsOf evs pv)).
Proof.
  intros He Hp Hc. unfold logWeights. cbv zeta. change (map (fun x => xln (Fin x)) cs) with (map (fun c => lg c) cs). rewrite lsum_lg by auto.
  pose proof (Rprod_pos _ Hc) as Pc. unfold weightsOf. revert pv Hp. induction He as [|e evs He Hevs IH]; intros [|p pv] Hp; cbn [map map2]; auto.
  inversion Hp; subst. fold (lg p). rewrite lg_add by auto. rewrite lg_add by nra. f_equal. apply IH. auto.
Qed.
Lemma map2_mult_nonneg evs pv : nonneg evs -> nonneg pv -> nonneg (weightsOf evs pv).
Proof. intros He. revert pv. induction He; intros [|p pv] Hp; cbn; constructor; inversion Hp; subst; auto. nra. Qed.
Lemma scaled_nonneg l c : nonneg l -> 0 <= c -> nonneg (map (fun w => w * c) l).
Proof. intros Hl Hc. rewrite Forall_map. eapply Forall_impl; [|exact Hl]. cbn. intros. nra. Qed.
Lemma normalise_fin r : Rsum r <> 0 -> normalise (fin r) = fin (rdivs r (Rsum r)).
Proof. intros E. unfold normalise. rewrite asum_fin, adivs_fin by auto. reflexivity. Qed.
Lemma normalise_scaled r c : Rsum r <> 0 -> 0 < c -> normalise (fin (rdivs r c)) = fin (rdivs r (Rsum r)).
Proof.
  intros E Hc. rewrite normalise_fin.
  - f_equal. unfold rdivs. rewrite map_map. apply map_ext. intros x. rewrite Rsum_div. field. lra.
  - rewrite Rsum_rdivs. intros Z. apply E. unfold Rdiv in Z. apply Rmult_integral in Z as [Z|Z]; auto. exfalso. apply (Rinv_neq_0_compat c); lra.
Qed.
Lemma hyperDistribution_eq ws cs : nonneg ws -> 0 < Rsum ws -> Forall (fun c => 0 < c) cs ->
  hyperDistribution (map lg (map (fun w => w * Rprod cs) ws)) cs = fin (map (fun w => w / Rsum ws / Rprod cs) ws).
Proof.
  intros Hw Hs Hc. pose proof (Rprod_pos _ Hc) as Pc. unfold hyperDistribution. set (ws' := map (fun w => w * Rprod cs) ws).
  assert (Hw' : nonneg ws') by (apply scaled_nonneg; auto; lra).
  assert (Es : Rsum ws' = Rsum ws * Rprod cs) by apply Rsum_scal_r.
  assert (Hs' : 0 < Rsum ws') by (rewrite Es; nra).
  cbv zeta. rewrite lg_max; auto. 2:{ intros E. rewrite E in Hs'. cbn in Hs'. lra. }
  pose proof (rmax_pos _ Hs') as Pm. rewrite lg_scaled by auto. rewrite normalise_scaled by (auto; lra). rewrite fprod_R, adivs_fin by lra. f_equal.
  unfold ws', rdivs. rewrite !map_map. apply map_ext. intros w. rewrite Rsum_scal_r. field. lra.
Qed.
Lemma logEv_eq ws cs : nonneg ws -> 0 < Rsum ws -> Forall (fun c => 0 < c) cs ->
  xlogsumexp (F := R) (map lg (map (fun w => w * Rprod cs) ws)) = Fin (ln (Rsum ws * Rprod cs)).
Proof.
  intros Hw Hs Hc. pose proof (Rprod_pos _ Hc) as Pc. rewrite lg_logsumexp by (apply scaled_nonneg; auto; lra). rewrite Rsum_scal_r. apply lg_pos. nra.
Qed.
Lemma averagePosterior_eq n N V : (0 < n)%nat -> (0 < N)%nat -> (forall j x, (j < n)%nat -> (x < N)%nat -> 0 < V j x) ->
  averagePosterior (lgm n N V) = tab n (fun j => fin (tab N (fun x => V j x / rsum N (V j)))).
Proof.
  intros Hn HN HV. unfold averagePosterior. cbv zeta.
  assert (Ec : List.concat (lgm n N V) = map lg (List.concat (tab n (fun j => tab N (V j))))).
  { unfold lgm. rewrite concat_map, map_tab. f_equal. apply tab_ext. intros j _. now rewrite map_tab. }
  set (all := List.concat (tab n (fun j => tab N (V j)))) in *.
  assert (Pa : forall v, In v all -> 0 < v).
  { intros v Hv. apply in_concat in Hv as (l & Hl & Hv). unfold tab in Hl. apply in_map_iff in Hl as (j & <- & Hj). apply in_seq in Hj.
    unfold tab in Hv. apply in_map_iff in Hv as (x & <- & Hx). apply in_seq in Hx. apply HV; lia. }
  assert (I0 : In (V 0%nat 0%nat) all).
  { apply in_concat. exists (tab N (V 0%nat)). split; unfold tab; apply in_map_iff; [exists 0%nat|exists 0%nat]; (split; [reflexivity|apply in_seq; lia]). }
  assert (Na : nonneg all) by (apply Forall_forall; intros v Hv; left; auto).
  rewrite Ec, lg_max; auto. 2:{ intros E. rewrite E in I0. destruct I0. }
  assert (Pm : 0 < rmax all).
  { eapply Rlt_le_trans; [apply (Pa _ I0)|]. apply fold_Rmax_in. exact I0. }
  unfold lgm. rewrite map_tab. apply tab_ext. intros j Hj.
  assert (El : tab N (fun x => lg (V j x)) = map lg (tab N (V j))) by now rewrite map_tab. rewrite El.
  assert (Nj : nonneg (tab N (V j))) by (apply Forall_tab; intros x Hx; left; now apply HV).
  rewrite lg_scaled by auto. assert (Ps : 0 < Rsum (tab N (V j))).
  { rewrite Rsum_tab. eapply Rlt_le_trans; [apply (HV j 0%nat Hj HN)|]. apply (rsum_ge_term N (V j) 0%nat); auto. intros x Hx. left. now apply HV. }
  rewrite normalise_scaled by (auto; lra). f_equal. rewrite Rsum_tab. unfold rdivs. apply map_tab.
Qed.
