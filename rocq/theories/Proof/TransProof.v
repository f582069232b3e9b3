(** Steps and construction of serial and combined transition models. *)
From Coq Require Import List ZArith Reals Lra Lia Arith Bool String.
From Verif Require Import Base.Num Base.Exn Base.Arr Base.RSum Base.Lift Model.Helper Model.Tm Model.HyperParams Model.Study
  Spec.Hmm Spec.Kernel Spec.Config Spec.Trans Proof.KernelProof Proof.FitInv Proof.DataProof.
Import ListNotations.
Local Open Scope R_scope.

Section Generic.
  Context {F L : Type} `{Num F} `{LogNum F L}.
  Lemma step_serial e mask ns vals pr ms off p t1 t t' bs mi :
    mapM scalarOf vals = Ok bs -> nth_error ms (breaksUpTo bs t1) = Some mi ->
    step (F := F) e (TM (KSerial mask) ns vals pr ms) off p t1 t t' =
    bind (step e mi (offsetOf bs (breaksUpTo bs t1)) p t1 t t') (fun q => Ok (changeCheck e bs mask q t1)).
  Proof.
    intros Eb En. cbn [step]. rewrite Eb. cbn [bind]. f_equal. generalize (offsetOf bs (breaksUpTo bs t1)) as off'. intros off'.
    revert En. generalize (breaksUpTo bs t1) as i. revert ms. induction ms as [|m ms IH]; intros [|i] En; cbn in En; try discriminate.
    - now inversion En.
    - now apply IH.
  Qed.
  Lemma step_comb e ns vals pr ms off p t1 t t' :
    step (F := F) e (TM KComb ns vals pr ms) off p t1 t t' = inOrder (map (fun m q => step e m off q t1 t t') ms) p.
  Proof.
    cbn [step]. revert p. induction ms as [|m ms IH]; intros p; cbn [map inOrder]; auto. destruct (step e m off p t1 t t'); auto.
  Qed.
  Lemma inOrder_app {A} (fs gs : list (A -> res A)) x : inOrder (fs ++ gs) x = bind (inOrder fs x) (inOrder gs).
  Proof. revert x. induction fs as [|f fs IH]; intros x; cbn; auto. destruct (f x); auto. Qed.
  Lemma step_flatten1 e ns vals pr ms off p t1 t t' ns' vals' pr' :
    step (F := F) e (TM KComb ns vals pr ms) off p t1 t t' = step e (TM KComb ns' vals' pr' (flatten1 ms)) off p t1 t t'.
  Proof.
    rewrite !step_comb. revert p. induction ms as [|m ms IH]; intros p; auto. unfold flatten1. cbn [map inOrder flat_map]. fold (flatten1 ms).
    rewrite map_app, inOrder_app. destruct m as [k n v q l]. cbn [tmKind tmModels].
    assert (G : inOrder (map (fun m0 q0 => step e m0 off q0 t1 t t') match k with KComb => l | _ => [TM k n v q l] end) p = step e (TM k n v q l) off p t1 t t').
    { destruct k; cbn [map inOrder]; try (now destruct (step e _ off p t1 t t')). now rewrite step_comb. }
    rewrite G. destruct (step e (TM k n v q l) off p t1 t t'); cbn [bind]; auto.
  Qed.

  Lemma collect_spec args : serialCollect (F := F) args =
    (map structName (filter isStruct args), map structValue (filter isStruct args),
     map (fun m => match tmPrior m with Some q => q | None => Leaf HPNone end) (filter isStruct args),
     map isChange (filter isStruct args), subModels args).
  Proof.
    induction args as [|[k n v p l] args IH]; auto. cbn [serialCollect]. rewrite IH. unfold subModels, isStruct, isBreak, isChange. cbn [filter tmKind].
    destruct k; reflexivity.
  Qed.

  (** fits with transition models that do the same *)
  Definition sameSteps (m m' : tm F) : Prop := forall e off p t1 t t', step e m off p t1 t t' = step e m' off p t1 t t'.
  Definition sameReturn (m m' : tm F) : Prop := forall t, returnsArgument m t = returnsArgument m' t.
  Lemma fwd_sameSteps e o m m' : sameSteps m m' -> sameReturn m m' -> forall segs ts al b p (ev : xnum L),
    fwdLoop e o m segs ts al b p ev = fwdLoop e o m' segs ts al b p ev.
  Proof.
    intros E R. induction segs as [|s segs IH]; intros ts al b p ev; cbn [fwdLoop]; auto. destruct (xltb _ _); auto. destruct ts as [|t ts]; auto.
    unfold computeForwardPrior. rewrite E. destruct (step _ m' _ _ _ _ _); auto. cbn [bind]. now rewrite IH, R.
  Qed.
  Lemma bwd_sameSteps e o m m' : sameSteps m m' -> forall its b, bwdLoop e o m its b = bwdLoop e o m' its b.
  Proof.
    intros E. induction its as [|[[a s] t] its IH]; intros b; cbn [bwdLoop]; auto. destruct (xltb _ _); auto.
    unfold computeBackwardPrior. rewrite E. destruct (step _ m' _ _ _ _ _); auto. cbn [bind]. now rewrite IH.
  Qed.
  Lemma fit_sameSteps (S : study F L) m m' lat fo eo : sameSteps m m' -> sameReturn m m' -> hasDup (allNames m) = hasDup (allNames m') ->
    sameOutcome (fit (set_tm S m lat) fo eo) (fit (set_tm S m' lat) fo eo).
  Proof.
    intros E R D. unfold fit, checkConsistency. cbn [set_tm st_raw st_om st_tm]. destruct (Nat.eqb _ _); [reflexivity|].
    destruct (st_om S) as [o|]; [|reflexivity]. cbn [bind]. rewrite D. destruct (hasDup (allNames m')); [cbn; reflexivity|]. cbn [bind]. cbn [set_tm st_rawTs].
    destruct (st_rawTs S) as [rts|]; [|reflexivity]. change (envOf (set_tm S m' lat) o) with (envOf (set_tm S m lat) o).
    destruct (computePrior _) as [[[a0 p0] al0]|]; [|reflexivity]. cbn [bind]. rewrite (fwd_sameSteps _ o m m' E R).
    destruct (fwdLoop _ _ m' _ _ _ _ _ _) as [w|]; [|reflexivity]. cbn [bind].
    destruct (fw_stop w); [repeat split|]. destruct eo; [repeat split|]. destruct fo; [repeat split|].
    rewrite (bwd_sameSteps _ o m m' E). change (st_grid (set_tm S m' lat)) with (st_grid (set_tm S m lat)).
    destruct (bwdLoop _ _ m' _ _) as [[out stop]|]; [|reflexivity]. cbn [bind]. destruct stop; repeat split.
  Qed.
  Lemma flatten_Node_app {A} (l l' : list (nl A)) : flatten (Node (l ++ l')) = flatten (Node l) ++ flatten (Node l').
  Proof. cbn. induction l as [|a l IH]; cbn; auto. rewrite IH. apply app_assoc. Qed.
  Lemma flatten_Node_cons {A} (a : nl A) l : flatten (Node (a :: l)) = flatten a ++ flatten (Node l).
  Proof. reflexivity. Qed.
  Lemma allNames_flatten1 ms : (forall m, In m ms -> tmKind m = KComb -> tmNames m = []) ->
    flatten (Node (map (unpackNames (F := F)) (flatten1 ms))) = flatten (Node (map unpackNames ms)).
  Proof.
    induction ms as [|m ms IH]; intros Hn; auto. unfold flatten1. cbn [flat_map map]. fold (flatten1 ms). rewrite map_app, flatten_Node_app, flatten_Node_cons, IH by (intros; apply Hn; auto; now right).
    f_equal. destruct m as [k n v q l]. specialize (Hn _ (or_introl eq_refl)). cbn [tmKind tmNames tmModels] in *.
    destruct k; cbn [map]; try (rewrite flatten_Node_cons; cbn [flatten]; apply app_nil_r). cbn [unpackNames].
    rewrite (Hn eq_refl). cbn [map]. now rewrite app_nil_r.
  Qed.
End Generic.

(** ** order of the break times *)
Lemma firstValue_usable v : usable (F := R) v -> firstValue v = Ok (match first v with Some x => FVal x | None => FAll end).
Proof. destruct v as [x|[|x l]|[|x l]| |]; cbn; tauto. Qed.
Lemma mapM_first vs : Forall (usable (F := R)) vs -> mapM firstValue vs = Ok (map (fun v => match first v with Some x => FVal x | None => FAll end) vs).
Proof. induction 1 as [|v vs Hv HF IH]; cbn [mapM map]; auto. now rewrite firstValue_usable, IH by auto. Qed.
Lemma firstOrdered_spec l : exists b, firstOrdered (map (fun o : option R => match o with Some x => FVal x | None => FAll end) l) = Ok b /\ (b = true <-> neighboursIncrease l).
Proof.
  induction l as [|[a|] [|[b|] l] IH]; try (exists true; split; [reflexivity|cbn; tauto]); destruct IH as (c & E & Hc); cbn [map] in *.
  - cbn [firstOrdered]. change (fltb a b) with (Rltb a b). destruct (Rltb a b) eqn:Eab.
    + apply Rltb_true in Eab. exists c. split; auto. rewrite Hc. cbn [neighboursIncrease]. tauto.
    + apply Rltb_false in Eab. exists false. split; auto. split; [discriminate|]. cbn [neighboursIncrease]. intros [? _]. lra.
  - exists c. split; auto.
  - exists c. split; auto.
  - exists c. split; auto.
Qed.

(** ** which sub-model *)
Lemma passed_le bs t : (List.length (passed bs t) <= List.length bs)%nat.
Proof. unfold passed. induction bs as [|b bs IH]; cbn; auto. destruct (Rle_dec b t); cbn; lia. Qed.
Lemma incr_tail b bs : strictlyIncreasing (b :: bs) -> strictlyIncreasing bs.
Proof. intros H i j Hij Hj. apply (H (S i) (S j)); cbn; lia. Qed.
Lemma passed_none bs t : (forall b, In b bs -> t < b) -> passed bs t = [].
Proof. intros H. unfold passed. induction bs as [|b bs IH]; cbn; auto. destruct (Rle_dec b t) as [E|E]; [specialize (H b (or_introl eq_refl)); lra|]. apply IH. intros; apply H; now right. Qed.
Lemma incr_head b bs x : strictlyIncreasing (b :: bs) -> In x bs -> b < x.
Proof. intros H I. apply In_nth with (d := 0) in I as (i & Hi & <-). apply (H O (S i)); cbn; lia. Qed.
Lemma passed_firstn bs t : strictlyIncreasing bs -> passed bs t = firstn (List.length (passed bs t)) bs.
Proof.
  induction bs as [|b bs IH]; intros H; auto. unfold passed. cbn [filter]. destruct (Rle_dec b t) as [E|E].
  - fold (passed bs t). cbn [List.length firstn]. f_equal. apply IH. eapply incr_tail; eauto.
  - fold (passed bs t). rewrite passed_none; auto. intros x I. pose proof (incr_head _ _ _ H I). lra.
Qed.
Lemma passed_spec bs t j : strictlyIncreasing bs -> (j <= List.length bs)%nat ->
  (List.length (passed bs t) = j <-> ((j <> O)%nat -> nth (j - 1) bs 0 <= t) /\ ((j < List.length bs)%nat -> t < nth j bs 0)).
Proof.
  revert j. induction bs as [|b bs IH]; intros j H Hj.
  - cbn in *. split; intros; [split; intros; lia|lia].
  - unfold passed. cbn [filter]. destruct (Rle_dec b t) as [E|E]; fold (passed bs t).
    + cbn [List.length]. destruct j as [|j].
      * split; [discriminate|]. intros [_ A]. specialize (A ltac:(cbn; lia)). cbn in A. lra.
      * cbn in Hj. specialize (IH j (incr_tail _ _ H) ltac:(lia)). rewrite (Nat.eq_sym_iff (S _)). split.
        -- intros X. injection X as X. symmetry in X. apply IH in X as [A B]. split.
           ++ intros _. destruct j as [|j]; cbn; auto. cbn in A. rewrite Nat.sub_0_r in *. apply A. lia.
           ++ intros Hl. apply B. cbn in Hl. lia.
        -- intros [A B]. f_equal. symmetry. apply IH. split.
           ++ intros Hn. specialize (A ltac:(lia)). destruct j as [|j]; [lia|]. cbn in A |- *. now rewrite Nat.sub_0_r.
           ++ intros Hl. apply (B ltac:(cbn; lia)).
    + rewrite passed_none by (intros x I; pose proof (incr_head _ _ _ H I); lra). cbn [List.length]. destruct j as [|j].
      * split; auto. intros _. split; [lia|]. intros _. cbn. lra.
      * split; [discriminate|]. intros [A _]. specialize (A ltac:(lia)). cbn in A. rewrite Nat.sub_0_r in A. cbn in Hj.
        destruct j as [|j]; [lra|]. pose proof (incr_head b bs (nth j bs 0) H ltac:(apply nth_In; lia)). lra.
Qed.
Lemma last_firstn (bs : list R) k d : (k < List.length bs)%nat -> last (firstn (S k) bs) d = nth k bs d.
Proof.
  revert k. induction bs as [|b bs IH]; intros k Hk; cbn in Hk; [lia|]. destruct k as [|k]; [reflexivity|].
  change (firstn (S (S k)) (b :: bs)) with (b :: firstn (S k) bs). cbn [nth]. rewrite <- IH by lia. destruct bs; [cbn in Hk; lia|]. reflexivity.
Qed.

Lemma change_existsb args bs t : map structValue (filter isStruct args) = map (HNum (F := R)) bs ->
  existsb (fun b => Reqb t b) (maskSel bs (map isChange (filter isStruct args))) = true <-> In t (changePoints args).
Proof.
  intros E. assert (G : maskSel bs (map isChange (filter isStruct args)) = changePoints args).
  { unfold changePoints. revert bs E. induction args as [|m args IH]; intros bs E.
    - destruct bs; [reflexivity|discriminate].
    - cbn [filter] in *. destruct (isStruct m) eqn:Es.
      + destruct bs as [|b bs]; [discriminate|]. cbn [map] in E. injection E as E1 E2. cbn [map maskSel]. destruct (isChange m) eqn:Ec; cbn [map].
        * f_equal; [now rewrite E1|now apply IH].
        * now apply IH.
      + unfold isStruct in Es. apply orb_false_iff in Es as [_ ->]. now apply IH. }
  rewrite G. rewrite existsb_exists. split.
  - intros (x & I & Ex). apply Reqb_true in Ex. now subst.
  - intros I. exists t. split; auto. now apply Reqb_true.
Qed.
Lemma changeReset_values e g : priorValues e g -> Rsum g <> 0 -> changeReset e = map Fin (map (fun x => x / Rsum g * Rprod (e_lat e)) g).
Proof.
  unfold priorValues, changeReset, resetPrior, e_vol. intros Hp Hg. rewrite fprod_R.
  assert (G : forall a, a = fin g -> amuls (adivs a (asum a)) (Fin (Rprod (e_lat e))) = map Fin (map (fun x => x / Rsum g * Rprod (e_lat e)) g)).
  { intros a ->. rewrite asum_fin, adivs_fin by auto. rewrite amuls_fin. f_equal. unfold rdivs. rewrite map_map. reflexivity. }
  destruct (e_prior e); try tauto; subst; apply G; auto; apply aones_fin.
Qed.
