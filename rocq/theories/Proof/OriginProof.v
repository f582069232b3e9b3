(** The origin of time does not matter. *)
From Coq Require Import List ZArith Reals Lra Lia Arith Bool String.
From Verif Require Import Base.Num Base.Exn Base.Arr Base.RSum Base.Lift Model.Helper Model.Tm Model.HyperParams Model.Study
  Spec.Origin Proof.DataProof.
Import ListNotations.
Local Open Scope R_scope.

Lemma movable_ind' (d : R) (P : bool -> tm R -> Prop) :
  (forall b k names vals p ms, (forall fn s, k <> KDet fn s) -> k <> KComb -> (forall mask, k <> KSerial mask) -> P b (TM k names vals p ms)) ->
  (forall b fn s names vals p ms, b = true \/ evenIncrements d fn -> P b (TM (KDet fn s) names vals p ms)) ->
  (forall b names vals p ms, Forall (P b) ms -> P b (TM KComb names vals p ms)) ->
  (forall b mask names vals p m ms, P false m -> Forall (P true) ms -> P b (TM (KSerial mask) names vals p (m :: ms))) ->
  forall b m, movable d b m -> P b m.
Proof.
  intros H1 H2 H3 H4. fix IH 3. intros b m Hm. destruct Hm; auto.
  - apply H3. induction H; constructor; auto.
  - apply H4; auto. clear Hm. induction H; constructor; auto.
Qed.

Lemma eqb_later d x y : feqb (F := R) (x + d) (y + d) = feqb x y.
Proof.
  change (Reqb (x + d) (y + d) = Reqb x y). destruct (Reqb x y) eqn:E.
  - apply Reqb_true in E. apply Reqb_true. lra.
  - apply Reqb_false in E. apply Reqb_false. lra.
Qed.
Lemma leb_later d x y : fleb (F := R) (x + d) (y + d) = fleb x y.
Proof.
  destruct (fleb x y) eqn:E.
  - rewrite fleb_R in *. lra.
  - apply not_true_iff_false. rewrite fleb_R. intros C. apply not_true_iff_false in E. apply E. rewrite fleb_R. lra.
Qed.
Lemma ltb_later d x y : fltb (F := R) (x + d) (y + d) = fltb x y.
Proof.
  change (Rltb (x + d) (y + d) = Rltb x y). destruct (Rltb x y) eqn:E.
  - apply Rltb_true in E. apply Rltb_true. lra.
  - apply Rltb_false in E. apply Rltb_false. lra.
Qed.

Section Later.
  Variable d : R.
  Lemma scalarOf_later v : scalarOf (laterVal d v) = match scalarOf v with Ok x => Ok (x + d) | Err x => Err x end.
  Proof. destruct v as [x|[|x [|y xs]]|xs| |]; reflexivity. Qed.
  Lemma scalars_later vs : mapM scalarOf (map (laterVal d) vs) = match mapM scalarOf vs with Ok l => Ok (map (fun x => x + d) l) | Err x => Err x end.
  Proof.
    induction vs as [|v vs IH]; cbn [map mapM]; auto. rewrite scalarOf_later, IH. destruct (scalarOf v); cbn [bind]; auto. destruct (mapM scalarOf vs); auto.
  Qed.
  Lemma eqTime_later t v : eqTime (t + d) (laterVal d v) = eqTime t v.
  Proof. destruct v as [x|[|x [|y xs]]|xs| |]; cbn [eqTime laterVal map]; auto; now rewrite eqb_later. Qed.
  Lemma breaks_later bs t : breaksUpTo (map (fun x => x + d) bs) (t + d) = breaksUpTo bs t.
  Proof. unfold breaksUpTo. induction bs as [|b bs IH]; cbn [map filter]; auto. rewrite leb_later. destruct (fleb b t); cbn [List.length]; auto. Qed.
  Lemma maskSel_map {A B} (f : A -> B) l mask : maskSel (map f l) mask = map f (maskSel l mask).
  Proof. revert mask. induction l as [|a l IH]; intros [|[] mask]; cbn; auto. now rewrite IH. Qed.
  Lemma hit_later bs mask t : existsb (fun b => feqb (t + d) b) (maskSel (map (fun x => x + d) bs) mask) = existsb (fun b => feqb t b) (maskSel bs mask).
  Proof. rewrite maskSel_map. induction (maskSel bs mask) as [|b l IH]; cbn [map existsb]; auto. rewrite IH. f_equal. apply eqb_later. Qed.
  Lemma offset_later bs i : (i <= List.length bs)%nat -> offsetOf (map (fun x => x + d) bs) i = offsetOf bs i + (match i with O => 0 | _ => d end).
  Proof. destruct i as [|j]; cbn [offsetOf]; intros H; [cbn; ring|]. change (@f0 R _) with 0. rewrite (nth_indep _ 0 (0 + d)) by (rewrite map_length; lia). now rewrite map_nth with (d := 0). Qed.
  Lemma breaks_le bs (t : R) : (breaksUpTo bs t <= List.length bs)%nat.
  Proof. unfold breaksUpTo. induction bs as [|b bs IH]; cbn; auto. destruct (fleb b t); cbn; lia. Qed.

  Definition stepLater (b : bool) (m : tm R) : Prop := forall e off p t1 t t',
    step e (later d m) (off + (if b then d else 0)) p (t1 + d) (t + d) (t' + d) = step e m off p t1 t t'.
  Lemma comb_later b ms : Forall (stepLater b) ms -> forall e off p t1 t t' n v q n' v' q',
    step e (TM KComb n v q (map (later d) ms)) (off + (if b then d else 0)) p (t1 + d) (t + d) (t' + d) = step e (TM KComb n' v' q' ms) off p t1 t t'.
  Proof.
    intros HF e off p t1 t t' n v q n' v' q'. cbn [step]. revert p. induction HF as [|m ms Hm HF IH]; intros p; cbn [map]; auto. rewrite Hm. destruct (step e m off p t1 t t'); auto.
  Qed.
  Lemma step_later b m : movable d b m -> stepLater b m.
  Proof.
    revert b m. apply (movable_ind' d stepLater).
    - intros b k names vals p ms Nd Nc Ns e off a t1 t t'. destruct k; try reflexivity; try (exfalso; eapply Nd; reflexivity); try (exfalso; eapply Ns; reflexivity); try congruence.
      cbn [later step leafStep]. destruct vals as [|v vals]; [reflexivity|]. cbn [map]. cbn [index nth_error bind]. now rewrite eqTime_later.
    - intros b fn s names vals p ms Hb e off a t1 t t'. cbn [later step leafStep]. destruct (nameIndex _ _); cbn [bind]; auto. destruct (mapM scalarOf vals) as [ps|]; cbn [bind]; auto.
      destruct (index _ _); cbn [bind]; auto. unfold detShift. change (@fsub R _) with Rminus. change (@fdiv R _) with Rdiv. do 4 f_equal.
      destruct b.
      + f_equal; f_equal; ring.
      + destruct Hb as [|Hb]; [discriminate|]. replace (t' + d - (off + 0)) with ((t' - off) + d) by ring. replace (t + d - (off + 0)) with ((t - off) + d) by ring. apply Hb.
    - intros b names vals p ms HF e off a t1 t t'. cbn [later]. now apply comb_later.
    - intros b mask names vals p m ms Hm HF e off a t1 t t'. cbn [later step]. rewrite scalars_later. destruct (mapM scalarOf vals) as [bs|]; cbn [bind]; auto.
      rewrite breaks_later. unfold changeCheck. rewrite hit_later. pose proof (breaks_le bs t1) as Hi. rewrite offset_later by auto. destruct (breaksUpTo bs t1) as [|i]; cbn [map].
      + specialize (Hm e (offsetOf bs 0) a t1 t t'). cbn [offsetOf] in *. change (if false then d else 0) with 0 in Hm. rewrite Hm. reflexivity.
      + f_equal. generalize (offsetOf bs (S i)) as off'. clear Hi. revert i. induction HF as [|x ms Hx HF IH]; intros i off'; cbn [map]; auto.
        destruct i as [|i]; [apply Hx|apply IH].
  Qed.
  Lemma returns_later m t : returnsArgument (later d m) (t + d) = returnsArgument m t.
  Proof.
    revert m. fix IH 1. intros [k names vals p ms]. cbn [later]. destruct k; try reflexivity.
    - destruct vals as [|v vals]; [reflexivity|]. cbn. now rewrite eqTime_later.
    - cbn [returnsArgument]. rewrite scalars_later. destruct (mapM scalarOf vals) as [bs|]; auto. rewrite hit_later, breaks_later. f_equal.
      generalize (breaksUpTo bs t) as i. induction ms as [|m ms IHm]; intros i; cbn [map]; auto. destruct i; auto.
  Qed.
  Lemma later_names m : unpackNames (later d m) = unpackNames m.
  Proof.
    revert m. fix IH 1. intros [k names vals p ms]. cbn [later unpackNames]. f_equal. f_equal.
    induction ms as [|m ms IHm]; cbn [map]; auto. now rewrite IH, IHm.
  Qed.
End Later.

Section Loops.
  Variables (d : R) (m : tm R) (o : om R).
  Hypothesis Hm : movable d false m.
  Notation up := (map (fun t => t + d)).
  Lemma step0 e p t1 t t' : step e (later d m) f0 p (t1 + d) (t + d) (t' + d) = step e m f0 p t1 t t'.
  Proof. pose proof (step_later d false m Hm e 0 p t1 t t') as E. change (if false then d else 0) with 0 in E. now rewrite Rplus_0_r in E. Qed.
  Lemma fwd_later e : forall segs ts a al p (lev : xnum R), fwdLoop e o (later d m) segs (up ts) a al p lev = fwdLoop e o m segs ts a al p lev.
  Proof.
    induction segs as [|s segs IH]; intros ts a al p lev; cbn [fwdLoop]; auto. destruct (xltb _ _); auto. destruct ts as [|t ts]; cbn [map]; auto.
    unfold computeForwardPrior. change (fadd (t + d) f1) with (t + d + 1). replace (t + d + 1) with ((t + 1) + d) by ring. rewrite step0, returns_later. change (t + 1) with (fadd t f1).
    destruct (step _ m _ _ _ _ _); cbn [bind]; auto. now rewrite IH.
  Qed.
  Lemma bwd_later e : forall its b, bwdLoop e o (later d m) (map (fun it => (fst it, snd it + d)) its) b = bwdLoop e o m its b.
  Proof.
    induction its as [|[[a s] t] its IH]; intros b; cbn [bwdLoop map fst snd]; auto. destruct (xltb _ _).
    - unfold computeBackwardPrior. change (fsub (t + d) f1) with (t + d - 1). replace (t + d - 1) with ((t - 1) + d) by ring. rewrite step0. change (t - 1) with (fsub t f1).
      destruct (step _ m _ _ _ _ _); cbn [bind]; auto. now rewrite IH.
    - now rewrite map_map.
  Qed.
End Loops.

Lemma combine_mapr {A B C} (f : B -> C) (l : list A) (r : list B) : combine l (map f r) = map (fun it => (fst it, f (snd it))) (combine l r).
Proof. revert r. induction l as [|a l IH]; intros [|b r]; cbn; auto. now rewrite IH. Qed.
Definition rmap {A B} (f : A -> B) (r : res A) : res B := match r with Ok a => Ok (f a) | Err e => Err e end.
(** the same study with later times *)
Definition laterStudy (d : R) (S : study R R) : study R R :=
  {| st_om := st_om S; st_tm := option_map (later d) (st_tm S); st_marg := st_marg S; st_shape := st_shape S; st_lat := st_lat S; st_tmlat := st_tmlat S;
     st_grid := st_grid S; st_raw := st_raw S; st_rawTs := option_map (map (fun t => t + d)) (st_rawTs S); st_fmt := st_fmt S;
     st_fmtTs := map (fun t => t + d) (st_fmtTs S); st_post := st_post S; st_means := st_means S; st_logEv := st_logEv S; st_local := st_local S;
     st_sel := st_sel S; st_warn := st_warn S; st_shift := st_shift S; st_aconv := st_aconv S; st_bconv := st_bconv S |}.
Lemma format_later d rts n : formatTimestamps (map (fun t => t + d) rts) n = map (fun t => t + d) (formatTimestamps rts n).
Proof. unfold formatTimestamps. now rewrite skipn_map. Qed.
Lemma check_later d (S : study R R) : checkConsistency (laterStudy d S) = rmap (fun x => (fst x, later d (snd x))) (checkConsistency S).
Proof.
  unfold checkConsistency. cbn [laterStudy st_raw st_om st_tm]. destruct (Nat.eqb _ _); [reflexivity|]. destruct (st_om S) as [o|]; [|reflexivity].
  destruct (st_tm S) as [m|]; [|reflexivity]. cbn [option_map]. unfold allNames. rewrite later_names. now destruct (hasDup _).
Qed.
Lemma fit_later d (S : study R R) fo eo : (forall m, st_tm S = Some m -> movable d false m) ->
  fit (laterStudy d S) fo eo = rmap (laterStudy d) (fit S fo eo).
Proof.
  intros Hm. unfold fit. rewrite check_later. destruct (checkConsistency S) as [[o m]|] eqn:EC; [|reflexivity]. cbn [rmap bind fst snd].
  assert (Em : st_tm S = Some m) by (unfold checkConsistency in EC; destruct (Nat.eqb _ _); [discriminate|]; destruct (st_om S); [|discriminate]; destruct (st_tm S); [|discriminate]; destruct (hasDup _); [discriminate|]; congruence).
  specialize (Hm m Em). cbn [laterStudy st_rawTs st_raw]. destruct (st_rawTs S) as [rts|]; [|reflexivity]. cbn [option_map].
  change (envOf (laterStudy d S) o) with (envOf S o). destruct (computePrior _) as [[[a0 p0] al0]|]; [|reflexivity]. cbn [bind]. rewrite format_later.
  rewrite (fwd_later d m o Hm). destruct (fwdLoop _ _ m _ _ _ _ _ _) as [w|]; [|reflexivity]. cbn [bind].
  destruct (fw_stop w); [reflexivity|]. destruct eo; [reflexivity|]. destruct fo; [reflexivity|].
  rewrite combine_mapr, <- map_rev, (bwd_later d m o Hm). destruct (bwdLoop _ _ m _ _) as [[out stop]|]; [|reflexivity]. cbn [bind]. destruct stop; reflexivity.
Qed.
