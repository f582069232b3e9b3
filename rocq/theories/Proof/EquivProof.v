(** Exchangeable transition models. *)
From Coq Require Import List ZArith Reals Lra Lia Arith Bool String.
From Verif Require Import Base.Num Base.Exn Base.Arr Base.RSum Base.Lift Model.Helper Model.Tm Model.HyperParams Model.Study
  Spec.Kernel Spec.Config Spec.Trans Spec.Dist Spec.Equiv
  Proof.KernelProof Proof.FitInv Proof.FitThms Proof.SetupProof Proof.DataProof Proof.TransProof Proof.Good.
Import ListNotations.
Local Open Scope R_scope.

Lemma equiv_ind' (names : list string) (T : R -> Prop) (P : tm R -> tm R -> Prop) :
  (forall m, runnable names m -> P m m) ->
  (forall m m', P m m' -> P m' m) ->
  (forall m m' m'', P m m' -> P m' m'' -> P m m'') ->
  (forall k hn hn' vals p p' ms, runnable names (TM k hn vals p ms) -> P (TM k hn vals p ms) (TM k hn' vals p' ms)) ->
  (forall ms ms', Forall2 P ms ms' -> P (comb ms) (comb ms')) ->
  (forall mask bs ms ms', List.length ms = S (List.length bs) -> Forall2 P ms ms' -> P (serial mask bs ms) (serial mask bs ms')) ->
  (forall s w, In s names -> w <= 0 -> P (TM (KGRW s) [] [HNum w] None []) static) ->
  (forall tc, ~ T tc -> P (change tc) static) ->
  P (comb []) static ->
  (forall m, runnable names m -> P (comb [m]) m) ->
  (forall a b c, Forall (runnable names) (a ++ b ++ c) -> P (comb (a ++ comb b :: c)) (comb (a ++ b ++ c))) ->
  (forall a, Forall (runnable names) a -> P (comb (a ++ [indep])) indep) ->
  (forall tc, P (comb [change tc; change tc]) (change tc)) ->
  (forall tc tc', P (comb [change tc; change tc']) (comb [change tc'; change tc])) ->
  (forall mask bs ms i m, List.length ms = S (List.length bs) -> Forall (runnable names) ms ->
    (forall t, T t -> reached bs t = i) -> nth_error ms i = Some m -> P (serial mask bs ms) (comb (m :: map change (changeTimes mask bs)))) ->
  (forall mask bs m, runnable names m -> P (serial mask bs (repeat m (S (List.length bs)))) (comb (m :: map change (changeTimes mask bs)))) ->
  forall m m', equiv names T m m' -> P m m'.
Proof.
  intros H1 H2 H3 H4 H5 H6 H7 H8 H9 H10 H11 H12 H13 H14 H15 H16. fix IH 3. intros m m' E. destruct E; auto.
  - eapply H3; eauto.
  - apply H5. induction H; constructor; auto.
  - apply H6; auto. clear H. induction H0; constructor; auto.
  - eapply H15; eauto.
Qed.

Lemma runnable_static names : runnable names static. Proof. constructor. Qed.
Lemma runnable_change names tc : runnable names (change tc). Proof. constructor. Qed.
Lemma runnable_changes names l : Forall (runnable names) (map change l).
Proof. apply Forall_map, Forall_forall. intros. constructor. Qed.
Lemma equiv_runnable names T m m' : equiv names T m m' -> runnable names m /\ runnable names m'.
Proof.
  intros E. revert m m' E. apply (equiv_ind' names T (fun m m' => runnable names m /\ runnable names m')); intros; auto using runnable_static, runnable_change.
  - tauto.
  - tauto.
  - split; auto. inversion H; subst; constructor; auto.
  - split; constructor; (induction H; constructor; tauto).
  - split; constructor; try (now rewrite <- (Forall2_len _ _ _ H0)); auto; (clear H; induction H0; constructor; tauto).
  - split; constructor; auto.
  - split; [constructor; constructor|constructor].
  - split; auto. constructor. auto.
  - rewrite !Forall_app in H. destruct H as (Ha & Hb & Hc). split; constructor; rewrite ?Forall_app; repeat split; auto. constructor; auto. now constructor.
  - split; [constructor|constructor]. apply Forall_app. split; auto. repeat constructor.
  - split; [constructor|apply runnable_change]. repeat constructor.
  - split; constructor; repeat constructor.
  - split; constructor; auto. constructor; [|apply runnable_changes]. rewrite Forall_forall in H0. eapply H0, nth_error_In; eauto.
  - split; constructor; auto using runnable_changes.
    + apply repeat_length.
    + apply Forall_forall. intros x Hx. apply repeat_spec in Hx. now subst.
Qed.

(** the offset of times does not matter without Deterministic models *)
Lemma step_off (e : env R) t1 t t' m : runnable (e_names e) m -> forall off off' p, step e m off p t1 t t' = step e m off' p t1 t t'.
Proof.
  intros Run. revert m Run. apply (runnable_ind' (e_names e) (fun m => forall off off' p, step e m off p t1 t t' = step e m off' p t1 t t')); intros; try reflexivity.
  rewrite !step_comb. revert p0. induction H0 as [|m ms Hm Hms IH]; intros q; cbn [map inOrder]; auto. inversion H; subst.
  rewrite (Hm off off'). destruct (step e m off' q t1 t t'); cbn [bind]; auto.
Qed.
Lemma reached_eq bs t : breaksUpTo bs t = reached bs t.
Proof.
  unfold breaksUpTo, reached. f_equal. apply filter_ext. intros b. destruct (Rle_dec b t) as [h|h].
  - now apply fleb_R.
  - destruct (fleb b t) eqn:E; auto. now apply fleb_R in E.
Qed.
Lemma maskSel_eq (bs : list R) mask : maskSel bs mask = changeTimes mask bs.
Proof. unfold changeTimes. revert mask. induction bs as [|b bs IH]; intros [|[] mask]; cbn; auto. now rewrite IH. Qed.

(** the changes of a serial model, one after the other *)
Lemma changes_step (e : env R) off t1 t t' l : forall p,
  inOrder (map (fun m q => step e m off q t1 t t') (map change l)) p = Ok (if existsb (fun b => feqb t1 b) l then changeReset e else p).
Proof.
  induction l as [|b l IH]; intros p; cbn [map inOrder existsb]; auto. cbn [step leafStep change index nth_error bind eqTime]. cbn [bind]. rewrite IH.
  destruct (feqb t1 b); cbn [orb]; auto. now destruct (existsb _ l).
Qed.
Lemma serial_step (e : env R) mask bs ms off p t1 t t' m : nth_error ms (reached bs t1) = Some m -> runnable (e_names e) m ->
  step e (serial mask bs ms) off p t1 t t' = step e (comb (m :: map change (changeTimes mask bs))) off p t1 t t'.
Proof.
  intros En Run. unfold serial, comb. rewrite (step_serial e mask [] _ None ms off p t1 t t' bs m (mapM_scalar bs)) by now rewrite reached_eq.
  rewrite step_comb. cbn [map inOrder]. rewrite (step_off e t1 t t' m Run _ off). destruct (step e m off p t1 t t') as [q|]; cbn [bind]; auto.
  rewrite changes_step. unfold changeCheck. now rewrite maskSel_eq.
Qed.
Lemma indep_step (e : env R) a off p t1 t t' : Forall (runnable (e_names e)) a -> (List.length (e_names e) <= List.length (e_tmlat e))%nat ->
  step e (comb (a ++ [indep])) off p t1 t t' = Ok (resetPrior e).
Proof.
  intros HF Hl. unfold comb. rewrite step_comb, map_app, inOrder_app.
  assert (G : exists q, inOrder (map (fun m q => step e m off q t1 t t') a) p = Ok q).
  { revert p. induction HF as [|m a Hm HF IH]; intros p; cbn [map inOrder]; eauto. destruct (step_total e t1 t t' m Hm Hl off p) as [q ->]. apply IH. }
  destruct G as [q ->]. reflexivity.
Qed.

Section Steps.
  Variables (names : list string) (T : R -> Prop).
  Definition envFor (e : env R) : Prop := e_names e = names /\ (List.length names <= List.length (e_tmlat e))%nat /\ Forall (fun l => 0 < l) (e_tmlat e).
  Definition same (m m' : tm R) : Prop := runnable names m /\ runnable names m' /\
    forall e off p t1 t t', envFor e -> T t1 -> step e m off p t1 t t' = step e m' off p t1 t t'.

  Lemma inOrder_same e off t1 t t' ms ms' : envFor e -> T t1 -> Forall2 same ms ms' -> forall p,
    inOrder (map (fun m q => step e m off q t1 t t') ms) p = inOrder (map (fun m q => step e m off q t1 t t') ms') p.
  Proof.
    intros He Ht. induction 1 as [|m m' ms ms' (_ & _ & Hm) HF IH]; intros p; cbn [map inOrder]; auto. rewrite (Hm e off p t1 t t' He Ht). destruct (step e m' off p t1 t t'); cbn [bind]; auto.
  Qed.
  Lemma equiv_same m m' : equiv names T m m' -> same m m'.
  Proof.
    intros E. pose proof E as E0. unfold same. destruct (equiv_runnable _ _ _ _ E0) as [R1 R2]. split; auto. split; auto. clear E0 R1 R2.
    assert (G : same m m'); [|apply G]. revert m m' E. 
    apply (equiv_ind' names T same).
    - intros m Hm. split; auto.
    - intros m m' (r1 & r2 & r3). split; auto. split; auto. intros. symmetry. auto.
    - intros m m' m'' (r1 & r2 & r3) (s1 & s2 & s3). split; auto. split; auto. intros. rewrite r3; auto.
    - intros k hn hn' vals p p' ms Hr. split; auto. split; [now destruct (equiv_runnable names T _ _ (eq_labels names T k hn hn' vals p p' ms Hr))|].
      intros. destruct k; reflexivity.
    - intros ms ms' HF. split; [constructor; clear - HF; induction HF as [|? ? ? ? h]; constructor; auto; apply h|]. split; [constructor; clear - HF; induction HF as [|? ? ? ? h]; constructor; auto; apply h|].
      intros. unfold comb. rewrite !step_comb. now apply inOrder_same.
    - intros mask bs ms ms' Hl HF. pose proof (Forall2_len _ _ _ HF) as L2. 
      assert (R1 : Forall (runnable names) ms) by (clear - HF; induction HF as [|? ? ? ? h]; constructor; auto; apply h).
      assert (R2 : Forall (runnable names) ms') by (clear - HF; induction HF as [|? ? ? ? h]; constructor; auto; apply h).
      split; [constructor; auto|]. split; [constructor; auto; congruence|]. intros e off p t1 t t' He Ht.
      assert (Hi : (reached bs t1 < List.length ms)%nat) by (rewrite <- reached_eq, Hl; pose proof (breaksUpTo_le bs t1); lia).
      destruct (nth_error ms (reached bs t1)) as [m|] eqn:E1; [|apply nth_error_None in E1; lia].
      destruct (nth_error ms' (reached bs t1)) as [m'|] eqn:E2; [|apply nth_error_None in E2; lia].
      assert (Hm : same m m').
      { clear - HF E1 E2. revert E1 E2. generalize (reached bs t1) as i. induction HF; intros [|i] E1 E2; cbn in *; try discriminate; [congruence|eauto]. }
      destruct Hm as (r1 & r2 & r3). destruct He as (He & Hx). rewrite <- He in r1, r2. rewrite (serial_step e mask bs ms off p t1 t t' m E1 r1), (serial_step e mask bs ms' off p t1 t t' m' E2 r2).
      unfold comb. rewrite !step_comb. cbn [map inOrder]. rewrite r3 by (auto; split; auto). reflexivity.
    - intros s w Hs Hw. split; [now constructor|]. split; [constructor|]. intros e off p t1 t t' (En & Hl & Hp) Ht. cbn [step leafStep static]. rewrite <- En in Hs. destruct (nameIndex_posOf _ _ Hs) as [-> Ln]. cbn [bind index nth_error scalarOf].
      unfold index. destruct (nth_error (e_tmlat e) _) as [lc|] eqn:El; [|apply nth_error_None in El; rewrite <- En in Hl; lia]. cbn [bind].
      assert (0 < lc) by (rewrite Forall_forall in Hp; eapply Hp, nth_error_In; eauto).
      change (fltb f0 (fdiv w lc)) with (Rltb 0 (w / lc)). replace (Rltb 0 (w / lc)) with false; auto. symmetry. apply Rltb_false.
      unfold Rdiv. assert (0 < / lc) by now apply Rinv_0_lt_compat. nra.
    - intros tc Hn. split; [constructor|]. split; [constructor|]. intros e off p t1 t t' He Ht. cbn [step leafStep change static index nth_error bind eqTime]. change (feqb t1 tc) with (Reqb t1 tc).
      replace (Reqb t1 tc) with false; auto. symmetry. apply Reqb_false. intros ->. contradiction.
    - split; [constructor; constructor|]. split; [constructor|]. reflexivity.
    - intros m Hm. split; [constructor; auto|]. split; auto. intros. unfold comb. rewrite step_comb. cbn [map inOrder]. now destruct (step e m off p t1 t t').
    - intros a b c HF. pose proof HF as HF0. rewrite !Forall_app in HF. destruct HF as (Ha & Hb & Hc). split; [|split]; [constructor; apply Forall_app; split; auto; constructor; auto; now constructor|now constructor|].
      intros e off p t1 t t' He Ht. unfold comb at 1 3. rewrite !step_comb, !map_app, !inOrder_app. destruct (inOrder _ p) as [q|]; cbn [bind]; auto.
      cbn [map inOrder]. unfold comb. rewrite step_comb, inOrder_app. now destruct (inOrder _ q).
    - intros a HF. split; [constructor; apply Forall_app; split; auto; repeat constructor|]. split; [constructor|]. intros e off p t1 t t' (He & Hl & _) Ht.
      rewrite indep_step; [reflexivity|now rewrite He|now rewrite He].
    - intros tc. split; [constructor; repeat constructor|]. split; [constructor|]. intros e off p t1 t t' He Ht. unfold comb. rewrite step_comb. rewrite (changes_step e off t1 t t' [tc; tc]).
      cbn [step leafStep change index nth_error bind eqTime existsb]. now destruct (feqb t1 tc).
    - intros tc tc'. split; [constructor; repeat constructor|]. split; [constructor; repeat constructor|]. intros e off p t1 t t' He Ht. unfold comb. rewrite !step_comb.
      rewrite (changes_step e off t1 t t' [tc; tc']), (changes_step e off t1 t t' [tc'; tc]). cbn [existsb]. destruct (feqb t1 tc), (feqb t1 tc'); reflexivity.
    - intros mask bs ms i m Hl HF Hr Hi. rewrite Forall_forall in HF. pose proof (HF m (nth_error_In _ _ Hi)) as Rm. rewrite <- Forall_forall in HF.
      split; [constructor; auto|]. split; [constructor; constructor; auto using runnable_changes|]. intros e off p t1 t t' (He & _) Ht.
      apply serial_step; [now rewrite (Hr t1 Ht)|now rewrite He].
    - intros mask bs m Rm. split; [constructor; [apply repeat_length|apply Forall_forall; intros x Hx; apply repeat_spec in Hx; now subst]|]. split; [constructor; constructor; auto using runnable_changes|].
      intros e off p t1 t t' (He & _) Ht. apply serial_step; [|now rewrite He].
      rewrite <- reached_eq. pose proof (breaksUpTo_le bs t1) as Hb. revert Hb. generalize (breaksUpTo bs t1) as i. generalize (List.length bs) as k. clear.
      induction k as [|k IH]; intros [|i] Hi; try lia; auto. cbn [repeat nth_error]. apply (IH i). lia.
  Qed.
End Steps.

Section Fits.
  Variables (names : list string) (T : R -> Prop) (m m' : tm R) (e : env R) (o : om R).
  Hypothesis Sm : same names T m m'.
  Hypothesis He : envFor names e.
  Lemma envFor_prior q : envFor names (with_prior e q). Proof. exact He. Qed.
  Lemma step_both q off p t1 t t' : exists a b, step (with_prior e q) m off p t1 t t' = Ok a /\ step (with_prior e q) m' off p t1 t t' = Ok b.
  Proof.
    destruct Sm as (r1 & r2 & _). destruct He as (e1 & e2 & _). rewrite <- e1 in r1, r2, e2.
    destruct (step_total (with_prior e q) t1 t t' m r1 e2 off p) as [a Ea]. destruct (step_total (with_prior e q) t1 t t' m' r2 e2 off p) as [b Eb]. eauto.
  Qed.
  Lemma fwd_equiv : forall segs ts a p (lev : xnum R), (forall i, (S i < List.length segs)%nat -> T (nth i ts 0)) ->
    fwdLoop e o m segs ts a false p lev = fwdLoop e o m' segs ts a false p lev.
  Proof.
    induction segs as [|s segs IH]; intros ts a p lev HT; cbn [fwdLoop]; auto. destruct (xltb _ _); auto. destruct ts as [|t ts]; auto. cbn [overwrite andb].
    unfold computeForwardPrior. destruct segs as [|s' segs].
    - match goal with |- context [step (with_prior e ?q) m ?off ?p ?t1 ?t ?t'] => destruct (step_both q off p t1 t t') as (x & y & -> & ->) end. reflexivity.
    - destruct Sm as (_ & _ & r3). rewrite r3 by (auto using envFor_prior; apply (HT 0%nat); cbn; lia). destruct (step _ m' _ _ _ _ _); cbn [bind]; auto.
      rewrite IH; auto. intros i Hi. apply (HT (S i)). cbn in *. lia.
  Qed.
  Lemma bwd_equiv q : forall its b, (forall pre it post, its = pre ++ it :: post -> post <> [] -> T (snd it - 1)) ->
    bwdLoop (with_prior e q) o m its b = bwdLoop (with_prior e q) o m' its b.
  Proof.
    induction its as [|[[a s] t] its IH]; intros b HT; cbn [bwdLoop]; auto. destruct (xltb _ _); auto. unfold computeBackwardPrior. destruct its as [|it its].
    - match goal with |- context [step (with_prior e ?q) m ?off ?p ?t1 ?t ?t'] => destruct (step_both q off p t1 t t') as (x & y & -> & ->) end. reflexivity.
    - destruct Sm as (_ & _ & r3). rewrite r3.
      + destruct (step _ m' _ _ _ _ _); cbn [bind]; auto. rewrite IH; auto. intros pre it0 post E. apply (HT ((a, s, t) :: pre)). now rewrite E.
      + apply envFor_prior.
      + apply (HT [] (a, s, t) (it :: its)); [reflexivity|discriminate].
  Qed.
End Fits.

Lemma fit_equiv (S : study R R) o m m' vs rts fo eo : configured S o m vs rts -> NoDup (allNames m') ->
  match om_prior o with PArr _ _ => False | _ => True end ->
  equiv (om_names o) (transitionTime (formatTimestamps rts (om_seglen o))) m m' ->
  sameOutcome (fit S fo eo) (fit (set_tm S m' (st_tmlat S)) fo eo).
Proof.
  intros C ND HP E. set (T := transitionTime _) in E. apply equiv_same in E.
  pose proof (cfg_check _ _ _ _ _ C) as CC. pose proof (cfg_ts_len _ _ _ _ _ C) as Lts.
  assert (He : envFor (om_names o) (envOf S o (om_prior o))).
  { split; [reflexivity|]. split; [exact (env_names S o m vs rts C)|exact (env_lat S o m vs rts C)]. }
  assert (HT1 : forall i, (Datatypes.S i < List.length (formatData (st_raw S) (om_seglen o)))%nat -> T (nth i (formatTimestamps rts (om_seglen o)) 0)).
  { intros i Hi. exists i. split; [|now left]. rewrite Lts. exact Hi. }
  unfold fit. rewrite CC. cbn [bind].
  assert (CC' : checkConsistency (set_tm S m' (st_tmlat S)) = Ok (o, m')).
  { unfold checkConsistency in *. cbn [set_tm st_raw st_om st_tm]. destruct (Nat.eqb _ _); [discriminate|]. rewrite (cf_om _ _ _ _ _ C). destruct (hasDup (allNames m')) eqn:Ed; auto.
    rewrite hasDup_NoDup in Ed by auto. discriminate. }
  rewrite CC'. cbn [bind set_tm st_rawTs st_raw]. rewrite (cf_ts _ _ _ _ _ C). change (envOf (set_tm S m' (st_tmlat S)) o) with (envOf S o).
  destruct (computePrior _) as [[[a0 p0] al0]|] eqn:EP; [|reflexivity]. cbn [bind].
  assert (al0 = false) as ->.
  { unfold computePrior in EP. cbn [envOf e_prior] in EP. destruct (om_prior o); try contradiction; try (inversion EP; reflexivity). destruct (Nat.eqb _ _); inversion EP; reflexivity. }
  rewrite (fwd_equiv (om_names o) T m m' _ o E He _ _ _ _ _ HT1).
  destruct (fwdLoop _ _ m' _ _ _ _ _ _) as [w|]; [|reflexivity]. cbn [bind].
  destruct (fw_stop w); [repeat split|]. destruct eo; [repeat split|]. destruct fo; [repeat split|].
  rewrite (bwd_equiv (om_names o) T m m' _ o E He).
  - change (st_grid (set_tm S m' (st_tmlat S))) with (st_grid S).
    destruct (bwdLoop _ _ m' _ _) as [[out stop]|]; [|reflexivity]. cbn [bind]. destruct stop; repeat split.
  - intros pre it post Ei Hp. apply (f_equal (@rev _)) in Ei. rewrite rev_involutive, rev_app_distr in Ei. cbn [rev] in Ei. rewrite <- app_assoc in Ei. cbn [app] in Ei.
    assert (Lp : exists k, List.length (rev post) = Datatypes.S k) by (rewrite rev_length; destruct post; [congruence|cbn; eauto]). destruct Lp as [k Lk].
    assert (Hn : nth_error (combine (combine (map fst (fw_steps w)) (formatData (st_raw S) (om_seglen o))) (formatTimestamps rts (om_seglen o))) (Datatypes.S k) = Some it).
    { rewrite Ei, nth_error_app2 by lia. now rewrite Lk, Nat.sub_diag. }
    assert (Ht : nth_error (formatTimestamps rts (om_seglen o)) (Datatypes.S k) = Some (snd it)).
    { clear - Hn. revert Hn. generalize (combine (map fst (fw_steps w)) (formatData (st_raw S) (om_seglen o))) as l. generalize (formatTimestamps rts (om_seglen o)) as l2. generalize (Datatypes.S k) as i.
      induction i as [|i IH]; intros [|b l2] [|a l] Hn; cbn in *; try discriminate; [now inversion Hn|eauto]. }
    exists k. split; [eapply nth_error_Some; congruence|]. right. f_equal. symmetry. now apply nth_error_nth.
Qed.
