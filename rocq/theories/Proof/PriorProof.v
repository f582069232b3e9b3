(** How a fit depends on the prior, and what it does to it. *)
From Coq Require Import List ZArith Reals Lra Lia Arith Bool String.
From Verif Require Import Base.Num Base.Exn Base.Arr Base.RSum Base.Lift Model.Helper Model.Tm Model.HyperParams Model.Study
  Spec.Kernel Spec.Hmm Spec.Config Spec.Dist Spec.Data Proof.KernelProof Proof.FitInv Proof.DataProof.
Import ListNotations.
Local Open Scope R_scope.

Section Generic.
  Context {F L : Type} `{Num F} `{LogNum F L}.
  Notation arr := (list (xnum F)).

  Definition notArray (p : priorSpec F) : Prop := match p with PArr _ _ => False | _ => True end.
  Lemma overwrite_id p al a : notArray p -> overwrite al p a = p.
  Proof. destruct p, al; cbn; tauto. Qed.
  Lemma fwd_prior_same e o m : forall segs ts a al p lev w, notArray p \/ al = false ->
    fwdLoop (L := L) e o m segs ts a al p lev = Ok w -> fw_prior w = p.
  Proof.
    induction segs as [|s segs IH]; intros ts a al p lev w Hp E; cbn [fwdLoop] in E; [inversion E; reflexivity|].
    assert (O : forall x, overwrite al p x = p) by (intros x; destruct Hp as [Hp| ->]; [now apply overwrite_id|now destruct p]).
    destruct (xltb _ _); [|inversion E; cbn; apply O]. destruct ts as [|t ts]; [discriminate|].
    destruct (computeForwardPrior _ _ _ _ _); [|discriminate]. cbn [bind] in E. unfold fw_cons in E.
    match type of E with bind ?r _ = _ => destruct r as [w0|] eqn:E0; [|discriminate] end. cbn [bind] in E. inversion E; subst. cbn [fw_prior].
    rewrite <- (O (adivs (amul a (processedPdf o (e_size e) (e_grid e) s)) (asum (amul a (processedPdf o (e_size e) (e_grid e) s))))).
    eapply IH; [|exact E0]. rewrite O. destruct Hp as [Hp| ->]; auto.
  Qed.
  Lemma computePrior_same e a p al : computePrior e = Ok (a, p, al) -> notArray (e_prior e) -> p = e_prior e /\ al = false.
  Proof. unfold computePrior. destruct (e_prior e); cbn; try tauto; intros E _; try (inversion E; auto). destruct (Nat.eqb _ _); inversion E; auto. Qed.
  Lemma fwdPart_prior S o m ts w : fwdPart (L := L) S o m ts w -> notArray (om_prior o) -> fw_prior w = om_prior o.
  Proof.
    intros [_ _ (a0 & p0 & al0 & EP & EW)] Hp. destruct (computePrior_same _ _ _ _ EP Hp) as [-> ->].
    eapply fwd_prior_same; [|exact EW]. now right.
  Qed.
  Lemma om_set_same (o : om F) : om_set_prior o (om_prior o) = o.
  Proof. destruct o; reflexivity. Qed.
  Lemma om_set_set (o : om F) p q : om_set_prior (om_set_prior o p) q = om_set_prior o q.
  Proof. destruct o; reflexivity. Qed.
  Lemma fitOut_again S o m ts w fo eo S1 : fwdPart (L := L) S o m ts w -> fitOut S o m ts w fo eo S1 -> fw_prior w = om_prior o ->
    fwdPart S1 o m ts w.
  Proof.
    intros [EC ET EL] O Hp.
    assert (G : forall post means ev loc wn, fwdPart (set_results S (om_set_prior o (fw_prior w)) (segsOf S o) ts post means ev loc wn) o m ts w).
    { intros. rewrite Hp, om_set_same. constructor.
      - unfold checkConsistency in *. cbn [st_raw st_om st_tm set_results]. destruct (Nat.eqb _ _); [discriminate|].
        destruct (st_om S) as [o'|]; [|discriminate]. destruct (st_tm S) as [m'|]; [|discriminate].
        destruct (hasDup (allNames m')) eqn:HD; [discriminate|]. inversion EC; subst. reflexivity.
      - exact ET.
      - exact EL. }
    destruct O; apply G.
  Qed.
End Generic.

(** Two fits whose priors have the same shape *)
Section Shape.
  Context {F L : Type} `{Num F} `{LogNum F L}.
  Notation arr := (list (xnum F)).
  Lemma step_prior m : forall e p q off a t1 t t', resetPrior (with_prior e p) = resetPrior (with_prior e q) ->
    step (with_prior e p) m off a t1 t t' = step (with_prior e q) m off a t1 t t'.
  Proof.
    induction m as [k nms vals prior ms IH] using tm_ind'. intros e p q off a t1 t t' ER.
    assert (EC : changeReset (with_prior e p) = changeReset (with_prior e q)) by (unfold changeReset; now rewrite ER).
    destruct k; try reflexivity.
    - cbn [step leafStep]. rewrite EC. reflexivity.
    - cbn [step leafStep]. rewrite ER. reflexivity.
    - revert a. induction IH as [|m ms Hm Hms IHms]; intros a; [reflexivity|]. cbn [step]. rewrite (Hm e p q off a t1 t t' ER).
      destruct (step _ _ _ _ _ _ _); [|reflexivity]. cbn [step] in IHms. apply IHms.
    - cbn [step]. destruct (mapM scalarOf vals) as [bs|]; [|reflexivity]. cbn [bind].
      unfold changeCheck. rewrite EC. f_equal. generalize (offsetOf bs (breaksUpTo bs t1)). generalize (breaksUpTo bs t1).
      clear EC. induction IH as [|m ms Hm Hms IHms]; intros [|i] off'; cbn; auto.
  Qed.
  (** forward pass: start arrays that agree after the first multiplication and normalisation *)
  Lemma fwd_shape e o m p q : resetPrior (with_prior e p) = resetPrior (with_prior e q) -> notArray p -> notArray q ->
    forall segs ts a lev,
    fwdLoop (L := L) (with_prior e p) o m segs ts a false p lev =
    (let* w := fwdLoop (L := L) (with_prior e q) o m segs ts a false q lev in
     Ok {| fw_steps := fw_steps w; fw_logEv := fw_logEv w; fw_prior := p; fw_stop := fw_stop w |})%res.
  Proof.
    intros ER Hp Hq. induction segs as [|s segs IH]; intros ts a lev; cbn [fwdLoop]; [reflexivity|]. cbn [overwrite].
    destruct (xltb _ _); [|reflexivity]. destruct ts as [|t ts]; [reflexivity|].
    unfold computeForwardPrior. cbn [with_prior]. 
    change (with_prior (with_prior e p) p) with (with_prior e p). change (with_prior (with_prior e q) q) with (with_prior e q).
    rewrite (step_prior m e p q) by auto. destruct (step _ _ _ _ _ _ _); [|reflexivity]. cbn [bind]. cbn [andb]. rewrite IH.
    destruct (fwdLoop _ _ _ _ _ _ _ _ _); reflexivity.
  Qed.
  Lemma bwd_shape e o m p q : resetPrior (with_prior e p) = resetPrior (with_prior e q) -> forall items b,
    bwdLoop (with_prior e p) o m items b = bwdLoop (with_prior e q) o m items b.
  Proof.
    intros ER. induction items as [|[[a s] t] items IH]; intros b; cbn [bwdLoop]; auto. destruct (xltb _ _); auto.
    unfold computeBackwardPrior. rewrite (step_prior m e p q) by auto. destruct (step _ _ _ _ _ _ _); [|reflexivity]. cbn [bind]. now rewrite IH.
  Qed.
End Shape.

(** ** scaling arrays of extended reals by a positive number *)
Section Scale.
  Variable k : R.
  Hypothesis Hk : 0 < k.
  Notation sc := (xmul (Fin k)).
  Lemma eqb0 a : Reqb (k * a) 0 = Reqb a 0.
  Proof. destruct (Reqb a 0) eqn:E; [apply Reqb_true in E; subst; apply Reqb_true; lra|]. apply Reqb_false in E. apply Reqb_false. intros Z. apply E. apply Rmult_integral in Z. lra. Qed.
  Lemma ltb0 a : Rltb (k * a) 0 = Rltb a 0.
  Proof.
    destruct (Rltb a 0) eqn:E.
    - apply Rltb_true in E. apply Rltb_true. nra.
    - apply Rltb_false in E. apply Rltb_false. nra.
  Qed.
  Lemma ltb0' a : Rltb 0 (k * a) = Rltb 0 a.
  Proof.
    destruct (Rltb 0 a) eqn:E.
    - apply Rltb_true in E. apply Rltb_true. nra.
    - apply Rltb_false in E. apply Rltb_false. nra.
  Qed.
  Lemma kne : Reqb k 0 = false. Proof. apply Reqb_false. lra. Qed.
  Lemma kge : Rltb k 0 = false. Proof. apply Rltb_false. lra. Qed.
  Lemma kgt : Rltb 0 k = true. Proof. apply Rltb_true. lra. Qed.
  Ltac sgn := cbn; rewrite ?kne, ?kge, ?kgt, ?eqb0, ?ltb0, ?ltb0'; cbn; try reflexivity.
  Lemma sc_mul a b : xmul (sc a) b = sc (xmul a b).
  Proof.
    destruct a as [a| | |], b as [b| | |]; sgn; try (f_equal; ring);
    (destruct (Reqb _ 0); sgn; destruct (Rltb _ _); sgn).
  Qed.
  Lemma sc_add a b : xadd (sc a) (sc b) = sc (xadd a b).
  Proof. destruct a as [a| | |], b as [b| | |]; sgn; f_equal; ring. Qed.
  Lemma sc_div a b : xdiv (sc a) (sc b) = xdiv a b.
  Proof.
    destruct a as [a| | |], b as [b| | |]; sgn; [|change (fltb (fmul k b) f0) with (Rltb (k * b) 0); now rewrite ltb0..].
    destruct (Reqb b 0) eqn:E; [reflexivity|]. apply Reqb_false in E. f_equal. field. lra.
  Qed.
  Lemma sc_ltb a : xltb (Fin 0) (sc a) = xltb (Fin 0) a.
  Proof. destruct a; sgn. Qed.
  Lemma sc_sum' a : forall z, fold_left xadd (map sc a) (sc z) = sc (fold_left xadd a z).
  Proof. induction a as [|x a IH]; intros z; cbn [map fold_left]; auto. rewrite sc_add. apply IH. Qed.
  Lemma sc_sum a : asum (map sc a) = sc (asum a).
  Proof. unfold asum. rewrite <- sc_sum'. f_equal. cbn. f_equal. ring. Qed.
  Lemma sc_adivs a s : adivs (map sc a) (sc s) = adivs a s.
  Proof. unfold adivs. rewrite map_map. apply map_ext. intros x. apply sc_div. Qed.
  Lemma sc_amul a b : amul (map sc a) b = map sc (amul a b).
  Proof. revert b. induction a as [|x a IH]; intros [|y b]; cbn; auto. f_equal; [apply sc_mul|apply IH]. Qed.
  Lemma sc_ln a : xltb (Fin 0) a = true -> xln (L := R) (sc a) = xladd (xln a) (Fin (ln k)).
  Proof.
    destruct a as [a| | |]; try discriminate; [|sgn]. intros E. cbn [xmul xln]. change (fltb f0 (fmul k a)) with (Rltb 0 (k * a)). rewrite ltb0'.
    change (xltb (Fin 0) (Fin a)) with (Rltb 0 a) in E. change (fltb f0 a) with (Rltb 0 a). rewrite E. apply Rltb_true in E. cbn. f_equal.
    rewrite ln_mult by lra. ring.
  Qed.
End Scale.

(** ** priors that differ by a factor *)
Section Scaled.
  Notation env := (env R).
  Lemma resetPrior_scaled (e : env) p q k a b : 0 < k -> sameSort p q -> notArray p ->
    match p with PFun f => f (e_grid e) | PConst c => repeat (Fin c) (e_size e) | _ => [] end = a ->
    match q with PFun f => f (e_grid e) | PConst c => repeat (Fin c) (e_size e) | _ => [] end = b ->
    (e_size e <> O) -> b = map (xmul (Fin k)) a -> resetPrior (with_prior e p) = resetPrior (with_prior e q).
  Proof.
    intros Hk SS NA Ea Eb HN Es. unfold resetPrior. cbn [e_prior with_prior e_grid].
    change (e_size (with_prior e p)) with (e_size e). change (e_size (with_prior e q)) with (e_size e).
    destruct p, q; cbn in SS, NA; try tauto.
    - rewrite Ea, Eb, Es. cbn zeta. rewrite sc_sum, sc_adivs by auto. reflexivity.
    - f_equal. rewrite <- (sc_div k Hk (Fin c) (Fin c)). subst a b. destruct (e_size e) as [|n]; [congruence|].
      cbn in Es. inversion Es as [[E1 E2]]. reflexivity.
  Qed.
  Lemma priorDensity_scaled (e : env) k a : 0 < k -> asum a <> Fin 1 -> asum (map (xmul (Fin k)) a) <> Fin 1 ->
    priorDensity e (map (xmul (Fin k)) a) = priorDensity e a.
  Proof.
    intros Hk H1 H2. unfold priorDensity.
    assert (N1 : forall x : xnum R, x <> Fin 1 -> xeqb x (Fin f1) = false).
    { intros [x| | |] Hx; cbn; auto. apply Reqb_false. congruence. }
    rewrite !N1 by auto. rewrite sc_sum, sc_adivs by auto. reflexivity.
  Qed.
  Lemma fwd_env (e : env) (o : om R) m p q : forall segs ts a al r (lev : xnum R),
    fwdLoop (with_prior e p) o m segs ts a al r lev = fwdLoop (with_prior e q) o m segs ts a al r lev.
  Proof.
    induction segs as [|s segs IH]; intros ts a al r lev; cbn [fwdLoop]; [reflexivity|].
    change (e_size (with_prior e p)) with (e_size e). change (e_size (with_prior e q)) with (e_size e).
    destruct (xltb _ _); [|reflexivity]. destruct ts as [|t ts]; [reflexivity|].
    change (with_prior (with_prior e p) (overwrite al r (adivs (amul a (processedPdf o (e_size e) (e_grid (with_prior e p)) s)) (asum (amul a (processedPdf o (e_size e) (e_grid (with_prior e p)) s))))))
      with (with_prior (with_prior e q) (overwrite al r (adivs (amul a (processedPdf o (e_size e) (e_grid (with_prior e q)) s)) (asum (amul a (processedPdf o (e_size e) (e_grid (with_prior e q)) s)))))).
    change (e_grid (with_prior e p)) with (e_grid (with_prior e q)).
    destruct (computeForwardPrior _ _ _ _ _); [|reflexivity]. cbn [bind]. now rewrite IH.
  Qed.

  Lemma envOf_prior (S : study R R) o p q : envOf (replacePrior S q) (om_set_prior o q) p = with_prior (envOf S o (om_prior o)) p.
  Proof. destruct o; reflexivity. Qed.
  Lemma processed_prior (o : om R) q : processedPdf (om_set_prior o q) = processedPdf o.
  Proof. destruct o; reflexivity. Qed.
  Lemma fwd_om_prior (e : env) (o : om R) m q : forall segs ts a al r (lev : xnum R),
    fwdLoop e (om_set_prior o q) m segs ts a al r lev = fwdLoop e o m segs ts a al r lev.
  Proof.
    induction segs as [|s segs IH]; intros ts a al r lev; cbn [fwdLoop]; [reflexivity|]. rewrite processed_prior.
    destruct (xltb _ _); [|reflexivity]. destruct ts as [|t ts]; [reflexivity|].
    destruct (computeForwardPrior _ _ _ _ _); [|reflexivity]. cbn [bind]. now rewrite IH.
  Qed.
  Lemma bwd_om_prior (e : env) (o : om R) m q : forall items b, bwdLoop e (om_set_prior o q) m items b = bwdLoop e o m items b.
  Proof.
    induction items as [|[[a s] t] items IH]; intros b; cbn [bwdLoop]; [reflexivity|]. rewrite processed_prior.
    destruct (xltb _ _); [|reflexivity]. destruct (computeBackwardPrior _ _ _ _ _); [|reflexivity]. cbn [bind]. now rewrite IH.
  Qed.

  (** fits of two studies that differ in the prior only *)
  Lemma fit_two (S : study R R) o m ts rts q fo eo : st_om S = Some o -> st_tm S = Some m -> st_rawTs S = Some rts ->
    ts = formatTimestamps rts (om_seglen o) ->
    let e := envOf S o (om_prior o) in
    forall a al p' a' al' q' w w',
    computePrior e = Ok (a, p', al) -> computePrior (with_prior e q) = Ok (a', q', al') ->
    fwdLoop e o m (segsOf S o) ts a al p' (Fin 0) = Ok w -> fwdLoop (with_prior e q) o m (segsOf S o) ts a' al' q' (Fin 0) = Ok w' ->
    fw_steps w = fw_steps w' -> fw_logEv w = fw_logEv w' -> fw_stop w = fw_stop w' ->
    (forall items b, bwdLoop (with_prior e (fw_prior w)) o m items b = bwdLoop (with_prior e (fw_prior w')) o m items b) ->
    sameOutcome (fit S fo eo) (fit (replacePrior S q) fo eo).
  Proof.
    intros Ho Hm Ht -> e a al p' a' al' q' w w' EP EP' EW EW' E1 E2 E3 EB.
    unfold fit, checkConsistency. cbn [replacePrior st_om st_raw st_tm]. rewrite Ho, Hm. cbn [option_map]. destruct (Nat.eqb _ _); [reflexivity|].
    destruct (hasDup _); [reflexivity|]. cbn [bind st_rawTs replacePrior]. rewrite Ht. rewrite envOf_prior.
    replace (om_prior (om_set_prior o q)) with q by (destruct o; reflexivity).
    replace (om_seglen (om_set_prior o q)) with (om_seglen o) by (destruct o; reflexivity).
    fold e. rewrite EP, EP'. cbn [bind]. rewrite fwd_om_prior. unfold segsOf in *. change f0 with 0 in *. change l0 with 0.
    rewrite EW, EW'. cbn [bind]. rewrite <- E1, <- E2, <- E3.
    destruct (fw_stop w); [cbn; repeat split; reflexivity|]. destruct eo; [cbn; repeat split; reflexivity|].
    destruct fo; [cbn; repeat split; reflexivity|]. rewrite bwd_om_prior. change (with_prior (with_prior e q) (fw_prior w')) with (with_prior e (fw_prior w')).
    rewrite <- EB. change (e_size (with_prior e q)) with (e_size e).
    destruct (bwdLoop _ _ _ _ _) as [[out stop]|]; [|reflexivity]. cbn [bind]. destruct stop; cbn; repeat split; reflexivity.
  Qed.
End Scaled.

(** ** starting from a multiple of an array *)
Section Start.
  Variable k : R.
  Hypothesis Hk : 0 < k.
  Notation sc := (xmul (Fin k)).
  Definition scaleHead (l : list (list (xnum R) * xnum R)) := match l with [] => [] | (a, n) :: r => (a, sc n) :: r end.
  Lemma xladd_swap (a b : xnum R) d : xladd (F := R) (L := R) (xladd (F := R) (L := R) a (Fin d)) b = xladd (F := R) (L := R) (xladd (F := R) (L := R) a b) (Fin d).
  Proof. destruct a, b; cbn; auto. f_equal. ring. Qed.
  Lemma xladd_right (a b : xnum R) d : xladd (F := R) (L := R) a (xladd (F := R) (L := R) b (Fin d)) = xladd (F := R) (L := R) (xladd (F := R) (L := R) a b) (Fin d).
  Proof. destruct a, b; cbn; auto. f_equal. ring. Qed.
  Lemma fwd_shift (e : env R) (o : om R) m d : forall segs ts a al p lev w,
    fwdLoop e o m segs ts a al p lev = Ok w ->
    fwdLoop e o m segs ts a al p (xladd lev (Fin d)) =
    Ok {| fw_steps := fw_steps w; fw_logEv := xladd (fw_logEv w) (Fin d); fw_prior := fw_prior w; fw_stop := fw_stop w |}.
  Proof.
    induction segs as [|s segs IH]; intros ts a al p lev w E; cbn [fwdLoop] in *; [inversion E; reflexivity|].
    destruct (xltb _ _); [|inversion E; reflexivity]. destruct ts as [|t ts]; [discriminate|].
    destruct (computeForwardPrior _ _ _ _ _); [|discriminate]. cbn [bind] in *. rewrite xladd_swap. unfold fw_cons in *.
    destruct (fwdLoop _ _ _ _ _ _ _ _ (xladd lev (xln _))) as [w0|] eqn:E0; [|discriminate]. erewrite IH; [|exact E0].
    cbn in *. inversion E; subst. reflexivity.
  Qed.
  Lemma fwd_start (e : env R) (o : om R) m s segs ts a p q al (lev : xnum R) w :
    (al = true /\ exists sh x, p = PArr sh x /\ exists y, q = PArr sh y) \/
    (al = false /\ notArray p /\ notArray q /\ resetPrior (with_prior e p) = resetPrior (with_prior e q)) ->
    fwdLoop (with_prior e q) o m (s :: segs) ts a al q lev = Ok w ->
    exists w', fwdLoop (with_prior e p) o m (s :: segs) ts (map sc a) al p lev = Ok w' /\
      fw_steps w' = scaleHead (fw_steps w) /\ fw_logEv w' = xladd (fw_logEv w) (Fin (ln k)) /\ fw_stop w' = fw_stop w /\
      (fw_stop w = false -> forall items b, bwdLoop (with_prior e (fw_prior w')) o m items b = bwdLoop (with_prior e (fw_prior w)) o m items b).
  Proof.
    intros HP E. cbn [fwdLoop] in *.
    change (e_size (with_prior e p)) with (e_size e) in *. change (e_size (with_prior e q)) with (e_size e) in *.
    change (e_grid (with_prior e p)) with (e_grid e) in *. change (e_grid (with_prior e q)) with (e_grid e) in *.
    set (lk := processedPdf o (e_size e) (e_grid e) s) in *. rewrite sc_amul by auto. rewrite sc_sum by auto.
    change (Fin f0) with (Fin 0) in *. rewrite sc_ltb by auto. destruct (xltb (Fin 0) (asum (amul a lk))) eqn:EN.
    - destruct ts as [|t ts]; [discriminate|]. rewrite sc_adivs by auto. rewrite (sc_ln k Hk _ EN). rewrite xladd_right.
      set (a2 := adivs (amul a lk) (asum (amul a lk))) in *.
      destruct HP as [(-> & sh & x & -> & y & ->)|(-> & Np & Nq & ER)].
      + cbn [overwrite] in *. change (with_prior (with_prior e (PArr sh x)) (PArr sh a2)) with (with_prior e (PArr sh a2)).
        change (with_prior (with_prior e (PArr sh y)) (PArr sh a2)) with (with_prior e (PArr sh a2)) in E.
        destruct (computeForwardPrior _ _ _ _ _) as [a3|]; [|discriminate]. cbn [bind] in *.
        rewrite (fwd_env e o m (PArr sh y) (PArr sh x)) in E. unfold fw_cons in *.
        destruct (fwdLoop _ _ _ _ _ _ _ _ _) as [w0|] eqn:E0; [|discriminate]. eapply fwd_shift in E0. rewrite E0.
        cbn in E. inversion E; subst. eexists. split; [reflexivity|]. cbn. repeat split; auto.
      + rewrite !overwrite_id in * by auto. change (with_prior (with_prior e p) p) with (with_prior e p). change (with_prior (with_prior e q) q) with (with_prior e q) in E.
        unfold computeForwardPrior in *. rewrite (step_prior m e p q) by auto. destruct (step _ _ _ _ _ _ _) as [a3|]; [|discriminate]. cbn [bind andb] in *.
        unfold fw_cons in *. rewrite (fwd_shape e o m p q ER Np Nq).
        destruct (fwdLoop (with_prior e q) _ _ _ _ _ _ _ _) as [w0|] eqn:E0; [|discriminate].
        pose proof (fwd_prior_same _ o m _ _ _ _ _ _ _ (or_introl Nq) E0) as Hq. eapply fwd_shift in E0. rewrite E0.
        cbn in E. inversion E; subst. eexists. split; [reflexivity|]. cbn. repeat split; auto. intros _ items b. cbn. now apply bwd_shape.
    - inversion E; subst. eexists. split; [reflexivity|]. cbn. repeat split; auto. discriminate.
  Qed.
End Start.

(** ** array priors after a fit *)
Section Array.
  Context {F L : Type} `{Num F} `{LogNum F L}.
  (** number of steps during which alpha remains the array observationModel.prior *)
  Fixpoint heldFor (m : tm F) (ts : list F) : nat :=
    match ts with [] => O | t :: ts' => if returnsArgument m t then Datatypes.S (heldFor m ts') else O end.
  Lemma fwd_array e (o : om F) m sh : forall segs ts a x lev w s,
    fwdLoop (L := L) e o m (s :: segs) ts a true (PArr sh x) lev = Ok w -> fw_stop w = false ->
    exists y, nth_error (map fst (fw_steps w)) (Nat.min (heldFor m ts) (List.length segs)) = Some y /\ fw_prior w = PArr sh y.
  Proof.
    induction segs as [|s' segs IH]; intros ts a x lev w s E Hs; cbn [fwdLoop] in E.
    - destruct (xltb _ _); [|inversion E; subst; discriminate]. destruct ts as [|t ts]; [discriminate|].
      destruct (computeForwardPrior _ _ _ _ _); [|discriminate]. cbn [bind fw_cons overwrite] in E. inversion E; subst. cbn.
      rewrite Nat.min_0_r. cbn. eauto.
    - fold (fwdLoop (L := L) e o m) in E. destruct (xltb _ _); [|inversion E; subst; discriminate]. destruct ts as [|t ts]; [discriminate|].
      cbn [overwrite andb] in E. destruct (computeForwardPrior _ _ _ _ _) as [a3|]; [|discriminate]. cbn [bind] in E. cbn [heldFor].
      destruct (returnsArgument m t).
      + change (fw_cons (adivs (amul a (processedPdf o (e_size e) (e_grid e) s)) (asum (amul a (processedPdf o (e_size e) (e_grid e) s))), asum (amul a (processedPdf o (e_size e) (e_grid e) s)))
          (fwdLoop (L := L) e o m (s' :: segs) ts a3 true (PArr sh (adivs (amul a (processedPdf o (e_size e) (e_grid e) s)) (asum (amul a (processedPdf o (e_size e) (e_grid e) s)))))
             (xladd lev (xln (asum (amul a (processedPdf o (e_size e) (e_grid e) s)))))) = Ok w) in E.
        unfold fw_cons in E. destruct (fwdLoop _ _ _ _ _ _ _ _ _) as [w0|] eqn:E0; [|discriminate]. cbn [bind] in E. inversion E; subst. cbn in Hs.
        destruct (IH _ _ _ _ _ _ E0 Hs) as (y & Ey & Ep). exists y. split; [exact Ey|exact Ep].
      + match type of E with fw_cons _ ?r = _ => assert (ER : exists w0, r = Ok w0) by (destruct r as [w0|]; [eauto|discriminate]) end.
        destruct ER as [w0 E0].
        rewrite E0 in E. unfold fw_cons in E. cbn [bind] in E. inversion E; subst. cbn.
        assert (EP : fw_prior w0 = PArr sh (adivs (amul a (processedPdf o (e_size e) (e_grid e) s)) (asum (amul a (processedPdf o (e_size e) (e_grid e) s))))).
        { eapply (fwd_prior_same e o m (s' :: segs)); [right; reflexivity|]. exact E0. }
        rewrite EP. eauto.
  Qed.
End Array.

(** two fits, the first of which starts from a multiple of the start of the second *)
Lemma fit_scaled_start (S : study R R) o m ts rts q fo eo k B : st_om S = Some o -> st_tm S = Some m -> st_rawTs S = Some rts ->
  ts = formatTimestamps rts (om_seglen o) ->
  let e := envOf S o (om_prior o) in
  forall a al p' a' al' q',
  computePrior e = Ok (a, p', al) -> computePrior (with_prior e q) = Ok (a', q', al') ->
  (forall w, fwdLoop (with_prior e q) o m (segsOf S o) ts a' al' q' (Fin 0) = Ok w ->
    exists w', fwdLoop e o m (segsOf S o) ts a al p' (Fin 0) = Ok w' /\
      fw_steps w' = scaleHead k (fw_steps w) /\ fw_logEv w' = xladd (fw_logEv w) (Fin (ln k)) /\ fw_stop w' = fw_stop w /\
      (fw_stop w = false -> forall items b, bwdLoop (with_prior e (fw_prior w')) o m items b = bwdLoop (with_prior e (fw_prior w)) o m items b)) ->
  fit (replacePrior S q) fo eo = Ok B ->
  exists A, fit S fo eo = Ok A /\ st_post A = st_post B /\ st_means A = st_means B /\ st_fmtTs A = st_fmtTs B /\
    st_logEv A = xladd (st_logEv B) (Fin (ln k)) /\ tl (st_local A) = tl (st_local B) /\ st_warn A = st_warn B.
Proof.
  intros Ho Hm Ht -> e a al p' a' al' q' EP EP' HW EB.
  unfold fit, checkConsistency in *. cbn [replacePrior st_om st_raw st_tm] in *. rewrite Ho, Hm in *. cbn [option_map] in EB. destruct (Nat.eqb _ _); [discriminate|].
  destruct (hasDup _); [discriminate|]. cbn [bind st_rawTs replacePrior] in *. rewrite Ht in *. rewrite envOf_prior in EB.
  replace (om_prior (om_set_prior o q)) with q in EB by (destruct o; reflexivity).
  replace (om_seglen (om_set_prior o q)) with (om_seglen o) in EB by (destruct o; reflexivity).
  fold e in EB |- *. rewrite EP. rewrite EP' in EB. cbn [bind] in *. rewrite fwd_om_prior in EB. unfold segsOf in *. change l0 with 0 in *.
  change (st_raw (replacePrior S q)) with (st_raw S) in EB. change (st_grid (replacePrior S q)) with (st_grid S) in EB.
  change (e_vol (with_prior e q)) with (e_vol e) in EB. change (e_size (with_prior e q)) with (e_size e) in EB.
  destruct (fwdLoop (with_prior e q) _ _ _ _ _ _ _ _) as [w|] eqn:EW; [|discriminate]. cbn [bind] in EB.
  destruct (HW _ eq_refl) as (w' & EW' & E1 & E2 & E3 & E4). rewrite EW'. cbn [bind]. rewrite E3, E2.
  assert (M1 : map fst (fw_steps w') = map fst (fw_steps w)) by (rewrite E1; destruct (fw_steps w) as [|[? ?] ?]; reflexivity).
  assert (T1 : forall n (g : xnum R -> xnum R), tl (padNone n (map (fun s => g (snd s)) (fw_steps w'))) = tl (padNone n (map (fun s => g (snd s)) (fw_steps w)))).
  { intros n g. rewrite E1. unfold padNone. destruct (fw_steps w) as [|[x y] r]; [reflexivity|]. cbn. rewrite !map_length. reflexivity. }
  assert (C : forall v : xnum R, xladd (F := R) (L := R) (xladd (F := R) (L := R) (fw_logEv w) (Fin (ln k))) v = xladd (F := R) (L := R) (xladd (F := R) (L := R) (fw_logEv w) v) (Fin (ln k))) by (intros; apply xladd_swap).
  change (st_om (replacePrior S q)) with (option_map (fun o => om_set_prior o q) (st_om S)) in *.
  destruct (fw_stop w) eqn:ES.
  { inversion EB; subst. eexists. split; [reflexivity|]. cbn [st_post st_means st_fmtTs st_logEv st_local st_warn set_results]. rewrite M1. repeat split; auto. apply (T1 _ (fun x => xmul x (Fin (e_vol e)))). }
  destruct eo.
  { inversion EB; subst. eexists. split; [reflexivity|]. cbn [st_post st_means st_fmtTs st_logEv st_local st_warn set_results]. rewrite C. repeat split; auto.
    apply (T1 _ (fun x => xmul x (Fin (e_vol e)))). }
  destruct fo.
  { inversion EB; subst. eexists. split; [reflexivity|]. cbn [st_post st_means st_fmtTs st_logEv st_local st_warn set_results]. rewrite C, M1. repeat split; auto.
    apply (T1 _ (fun x => xmul x (Fin (e_vol e)))). }
  rewrite E4, M1 by auto. rewrite bwd_om_prior in EB. change (with_prior (with_prior e q) (fw_prior w)) with (with_prior e (fw_prior w)) in EB.
  destruct (bwdLoop _ _ _ _ _) as [[out stop]|]; [|discriminate]. cbn [bind] in *.
  assert (T2 : forall l : list (option (xnum R)), tl (map2 (fun old new => match new with Some x => Some x | None => Some old end) (map (fun s => xmul (snd s) (Fin (e_vol e))) (fw_steps w')) l)
    = tl (map2 (fun old new => match new with Some x => Some x | None => Some old end) (map (fun s => xmul (snd s) (Fin (e_vol e))) (fw_steps w)) l)).
  { intros l. rewrite E1. destruct (fw_steps w) as [|[x y] r]; [reflexivity|]. destruct l; reflexivity. }
  destruct stop; inversion EB; subst; (eexists; split; [reflexivity|]; cbn [st_post st_means st_fmtTs st_logEv st_local st_warn set_results]; rewrite ?C; repeat split; auto; apply T2).
Qed.
Lemma rescale_vol v (a : list (xnum R)) : 0 < v -> map (xmul (Fin v)) (adivs (adivs a (Fin 1)) (Fin v)) = a.
Proof.
  intros Hv. unfold adivs. rewrite !map_map. rewrite <- (map_id a) at 2. apply map_ext. intros x.
  assert (E1 : Reqb 1 0 = false) by (apply Reqb_false; lra). assert (Ev : Reqb v 0 = false) by (apply Reqb_false; lra).
  assert (L1 : Rltb 1 0 = false) by (apply Rltb_false; lra). assert (Lv : Rltb v 0 = false) by (apply Rltb_false; lra).
  assert (Lv' : Rltb 0 v = true) by (apply Rltb_true; lra).
  destruct x; cbn; rewrite ?E1, ?L1; cbn; rewrite ?Ev, ?Lv; cbn; rewrite ?Ev, ?Lv, ?Lv'; auto. f_equal. field. lra.
Qed.
