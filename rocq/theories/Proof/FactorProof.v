(** Likelihoods that differ by constant factors. *)
From Coq Require Import List ZArith Reals Lra Lia Arith Bool String.
From Verif Require Import Base.Num Base.Exn Base.Arr Base.RSum Base.Lift Model.Helper Model.Tm Model.HyperParams Model.Study
  Spec.Kernel Spec.Config Spec.Units Spec.Factors Proof.DataProof Proof.KernelProof Proof.PriorProof Proof.OriginProof Proof.FitThms Proof.FitInv Proof.UnitsProof.
Import ListNotations.
Local Open Scope R_scope.
Notation sc k := (xmul (Fin k)).
Notation scl k := (map (fun x => xmul (Fin k) x)).

Lemma noRegime_ind' (P : tm R -> Prop) :
  (forall k hn vals p ms, k <> KRegime -> k <> KComb -> (forall mask, k <> KSerial mask) -> P (TM k hn vals p ms)) ->
  (forall hn vals p ms, Forall P ms -> P (TM KComb hn vals p ms)) ->
  (forall mask hn vals p ms, Forall P ms -> P (TM (KSerial mask) hn vals p ms)) ->
  forall m, noRegime m -> P m.
Proof.
  intros H1 H2 H3. fix IH 2. intros m Hm. destruct Hm; auto.
  - apply H2. induction H; constructor; auto.
  - apply H3; auto. induction H; constructor; auto.
Qed.

Section Scale.
  Context (k : R) (Hk : 0 < k).
  Let E1 : Reqb k 0 = false. Proof. apply Reqb_false; lra. Qed.
  Let E2 : Rltb k 0 = false. Proof. apply Rltb_false; lra. Qed.
  Let E3 : Rltb 0 k = true. Proof. apply Rltb_true; lra. Qed.
  Lemma sc_ltb2 (a b : xnum R) : xltb (sc k a) (sc k b) = xltb a b.
  Proof.
    destruct a as [a| | |], b as [b| | |]; cbn; rewrite ?E1, ?E2, ?E3; cbn; auto.
    destruct (Rltb a b) eqn:E; [apply Rltb_true in E; apply Rltb_true; nra|apply Rltb_false in E; apply Rltb_false; nra].
  Qed.
  Lemma sc_sub (a b : xnum R) : xsub (sc k a) (sc k b) = sc k (xsub a b).
  Proof. destruct a as [a| | |], b as [b| | |]; cbn; rewrite ?E1, ?E2, ?E3; cbn; rewrite ?E1, ?E2, ?E3; cbn; auto; f_equal; ring. Qed.
  Lemma sc_max2 (a b : xnum R) : xmax2 (sc k a) (sc k b) = sc k (xmax2 a b).
  Proof.
    assert (G : forall a b : xnum R, a <> NaN -> b <> NaN -> xmax2 a b = if xltb a b then b else a) by (intros [] [] ? ?; try congruence; reflexivity).
    assert (N : forall x : xnum R, x <> NaN -> sc k x <> NaN) by (intros [x| | |] Hx; cbn; rewrite ?E1, ?E2, ?E3; cbn; congruence).
    assert (NN : forall x : xnum R, x = NaN \/ x <> NaN) by (intros []; auto; right; discriminate).
    destruct (NN a) as [-> |Ha]; [reflexivity|]. destruct (NN b) as [-> |Hb]; [destruct (sc k a) eqn:?, a; reflexivity|].
    rewrite !G by auto. rewrite sc_ltb2. now destruct (xltb a b).
  Qed.
  Lemma amax_sc (a : list (xnum R)) : amax (scl k a) = sc k (amax a).
  Proof.
    destruct a as [|x a]; [reflexivity|]. cbn [map amax]. revert x. induction a as [|y a IH]; intros x; [reflexivity|]. cbn [map fold_left]. rewrite sc_max2. apply IH.
  Qed.
  Lemma sc_amul_r (a b : list (xnum R)) : amul a (scl k b) = scl k (amul a b).
  Proof.
    revert b. induction a as [|x a IH]; intros [|y b]; cbn [map]; auto. unfold amul in *. cbn [map2 map]. rewrite IH. f_equal. rewrite (xmul_comm x), sc_mul by auto. now rewrite xmul_comm with (a := y).
  Qed.
  Lemma sc_mul_r (a b : xnum R) : xmul a (sc k b) = sc k (xmul a b).
  Proof. rewrite (xmul_comm a), sc_mul by auto. now rewrite xmul_comm with (a := b). Qed.
  Lemma sc_div_l (j : R) (a b : xnum R) : 0 < j -> xdiv (sc j a) b = sc j (xdiv a b).
  Proof.
    intros Hj. assert (F1 : Reqb j 0 = false) by (apply Reqb_false; lra). assert (F2 : Rltb j 0 = false) by (apply Rltb_false; lra). assert (F3 : Rltb 0 j = true) by (apply Rltb_true; lra).
    pose proof (ltb0 j Hj) as L0. pose proof (eqb0 j Hj) as Q0.
    destruct a as [a| | |].
    - destruct b as [b| | |]; cbn; auto; try (f_equal; ring). change (feqb (j * a) 0) with (Reqb (j * a) 0). change (fltb (j * a) 0) with (Rltb (j * a) 0).
      rewrite Q0, L0. destruct (Reqb b 0); [|cbn; f_equal; unfold Rdiv; ring]. destruct (Reqb a 0); [reflexivity|]. destruct (Rltb a 0); cbn; rewrite ?F1, ?F2, ?F3; reflexivity.
    - cbn. rewrite F1, F2. cbn. destruct b as [b| | |]; cbn; auto. destruct (Rltb b 0); cbn; rewrite ?F1, ?F2, ?F3; reflexivity.
    - cbn. rewrite F1, F3. cbn. destruct b as [b| | |]; cbn; auto. destruct (Rltb b 0); cbn; rewrite ?F1, ?F2, ?F3; reflexivity.
    - reflexivity.
  Qed.
  Lemma sc_div_r (a b : xnum R) : xdiv a (sc k b) = sc (/ k) (xdiv a b).
  Proof.
    assert (HI : 0 < / k) by (now apply Rinv_0_lt_compat). rewrite <- sc_div_l by auto.
    replace a with (sc k (sc (/ k) a)) at 1 by (rewrite sc_sc by auto; rewrite Rinv_r by lra; apply sc_one). now rewrite sc_div by auto.
  Qed.
  Lemma sc_adiv_r (a b : list (xnum R)) : adiv a (scl k b) = scl (/ k) (adiv a b).
  Proof. revert b. induction a as [|x a IH]; intros [|y b]; cbn [map]; auto. unfold adiv in *. cbn [map2 map]. rewrite IH. f_equal. apply sc_div_r. Qed.
  Lemma nth_sc i (a : list (xnum R)) : nth i (scl k a) NaN = sc k (nth i a NaN).
  Proof. change (@NaN R) with (sc k (@NaN R)) at 1. apply (map_nth (fun x => xmul (Fin k) x)). Qed.
  Lemma flat_sc {A} (f g : A -> list (xnum R)) l : (forall x, f x = scl k (g x)) -> flat_map f l = scl k (flat_map g l).
  Proof. intros H. induction l as [|a l IH]; cbn; auto. now rewrite map_app, H, IH. Qed.
  Lemma filter_sc pre n post r w (a : list (xnum R)) : filterAxis pre n post r w (scl k a) = scl k (filterAxis pre n post r w a).
  Proof.
    unfold filterAxis. apply flat_sc. intros p. apply flat_sc. intros i. rewrite map_map. apply map_ext. intros q.
    rewrite <- sc_sum by auto. rewrite map_map. f_equal. apply map_ext. intros z. rewrite nth_sc. apply sc_mul_r.
  Qed.
  Lemma notEq_sc limit (a : list (xnum R)) : notEqStep limit (scl k a) = notEqStep limit a.
  Proof.
    unfold notEqStep. rewrite amax_sc.
    replace (map (fun x => xsub (sc k (amax a)) x) (scl k a)) with (scl k (map (fun x => xsub (amax a) x) a)) by (rewrite !map_map; apply map_ext; intros; now rewrite sc_sub).
    rewrite sc_sum, sc_adivs by auto. reflexivity.
  Qed.
End Scale.

(** one step of a transition model *)
Definition linearEnv (e : env R) : Prop :=
  (forall ax x c p, 0 < c -> e_shift e ax x (scl c p) = scl c (e_shift e ax x p)) /\
  (forall ax x y c p, 0 < c -> e_aconv e ax x y (scl c p) = scl c (e_aconv e ax x y p)) /\
  (forall x y z c p, 0 < c -> e_bconv e x y z (scl c p) = scl c (e_bconv e x y z p)).
Definition homog (f : list (xnum R) -> res (list (xnum R))) : Prop := forall c p, 0 < c -> exists k, 0 < k /\ f (scl c p) = rmap (scl k) (f p).
Lemma leaf_homog e k vals off t1 t t' : linearEnv e -> k <> KRegime -> homog (fun p => leafStep e k vals off p t1 t t').
Proof.
  intros (L1 & L2 & L3) Nk c p Hc. destruct k; cbn [leafStep]; try congruence.
  - exists c; auto.
  - destruct (nameIndex _ _); cbn [bind]; [|exists 1; split; [lra|reflexivity]]. destruct (index vals 0); cbn [bind]; [|exists 1; split; [lra|reflexivity]].
    destruct (scalarOf _); cbn [bind]; [|exists 1; split; [lra|reflexivity]]. destruct (index (e_tmlat e) _); cbn [bind]; [|exists 1; split; [lra|reflexivity]].
    exists c. split; auto. destruct (fltb _ _); cbn [rmap]; auto. unfold gaussianFilter1d. now rewrite filter_sc.
  - exists 1. split; [lra|]. destruct (index vals 0); cbn [bind]; [|reflexivity]. destruct (scalarOf _); cbn [bind]; [|reflexivity]. destruct (index vals 1); cbn [bind]; [|reflexivity].
    destruct (scalarOf _); cbn [bind]; [|reflexivity]. destruct (nameIndex _ _); cbn [bind]; [|reflexivity]. destruct (index (e_tmlat e) _); cbn [bind]; [|reflexivity].
    destruct (Nat.ltb _ _); [reflexivity|]. destruct (_ && _)%bool; [reflexivity|]. rewrite L2, normalise_sc by auto. cbn [rmap]. now rewrite scl_one.
  - destruct (index vals 0); cbn [bind]; [|exists 1; split; [lra|reflexivity]]. destruct (eqTime _ _) as [[|]|]; cbn [bind].
    + exists 1. split; [lra|]. cbn [rmap]. now rewrite scl_one.
    + exists c. auto.
    + exists 1. split; [lra|reflexivity].
  - exists 1. split; [lra|]. cbn [rmap]. now rewrite scl_one.
  - exists 1. split; [lra|]. destruct (index vals 0); cbn [bind]; [|reflexivity]. destruct (scalarOf _); cbn [bind]; [|reflexivity]. rewrite notEq_sc by auto. cbn [rmap]. now rewrite scl_one.
  - exists 1. split; [lra|]. destruct (nameIndex _ _); cbn [bind]; [|reflexivity]. destruct (mapM _ _); cbn [bind]; [|reflexivity]. destruct (index (e_tmlat e) _); cbn [bind]; [|reflexivity].
    rewrite L1, normalise_sc by auto. cbn [rmap]. now rewrite scl_one.
  - exists c. auto.
  - exists c. auto.
  - exists 1. split; [lra|reflexivity].
  - exists 1. split; [lra|]. destruct (index vals 0); cbn [bind]; [|reflexivity]. destruct (scalarOf _); cbn [bind]; [|reflexivity]. destruct (index vals 1); cbn [bind]; [|reflexivity].
    destruct (scalarOf _); cbn [bind]; [|reflexivity]. destruct (index vals 2); cbn [bind]; [|reflexivity]. destruct (scalarOf _); cbn [bind]; [|reflexivity].
    destruct (index (e_tmlat e) 0); cbn [bind]; [|reflexivity]. destruct (index (e_tmlat e) 1); cbn [bind]; [|reflexivity]. destruct (Nat.eqb _ _); [|reflexivity].
    rewrite L3, normalise_sc by auto. cbn [rmap]. now rewrite scl_one.
Qed.
Lemma step_homog e m : linearEnv e -> noRegime m -> forall off t1 t t', homog (fun p => step e m off p t1 t t').
Proof.
  intros L Hm. induction Hm as [k hn vals p0 ms N1 N2 N3|hn vals p0 ms HF|mask hn vals p0 ms HF] using noRegime_ind'; intros off t1 t t'.
  - intros c p Hc. destruct (leaf_homog e k vals off t1 t t' L N1 c p Hc) as (j & Hj & E). exists j. split; auto. destruct k; try exact E; [congruence|exfalso; now eapply N3].
  - cbn [step]. induction HF as [|m ms Hm HF IH]; intros c p Hc; [exists c; auto|].
    destruct (Hm off t1 t t' c p Hc) as (j & Hj & E). rewrite E. destruct (step e m off p t1 t t') as [p'|x0]; cbn [rmap]; [|exists 1; split; [lra|reflexivity]]. exact (IH j p' Hj).
  - intros c p Hc. cbn [step]. destruct (mapM scalarOf vals) as [bs|x0]; cbn [bind]; [|exists 1; split; [lra|reflexivity]].
    generalize (breaksUpTo bs t1) as i0. intros i0. generalize (offsetOf bs i0) as off'. intros off'.
    match goal with |- exists k, 0 < k /\ bind (?f ms i0) _ = _ => set (F := f) end.
    match goal with |- context [rmap _ (bind (?f ms i0) _)] => set (G := f) end.
    assert (E : exists k, 0 < k /\ F ms i0 = rmap (scl k) (G ms i0)).
    { clear - HF Hc. revert i0. induction HF as [|m ms Hm HF IH]; intros i0; [exists 1; split; [lra|reflexivity]|]. destruct i0 as [|i0]; cbn; [exact (Hm off' t1 t t' c p Hc)|apply IH]. }
    destruct E as (j & Hj & ->). destruct (G ms i0) as [q|x0]; cbn [rmap bind]; [|exists 1; split; [lra|reflexivity]]. unfold changeCheck. destruct (existsb _ _).
    + exists 1. split; [lra|]. now rewrite scl_one.
    + exists j. auto.
Qed.

(** ** forward pass *)
Lemma prop_len lik lik' ss ss' cs : proportional lik lik' ss ss' cs -> List.length ss' = List.length ss /\ List.length cs = List.length ss.
Proof. induction 1; cbn; lia. Qed.
Section Pass.
  Context (e : env R) (o o' : om R) (m : tm R).
  Notation pdf := (processedPdf o (e_size e) (e_grid e)).
  Notation pdf' := (processedPdf o' (e_size e) (e_grid e)).
  Lemma fwd_factor : forall segs segs' cs, proportional pdf pdf' segs segs' cs -> forall ts a al p (lev : xnum R) d,
    match fwdLoop e o m segs ts a al p lev, fwdLoop e o' m segs' ts a al p (xladd (F := R) lev (Fin d)) with
    | Ok w, Ok w' => map fst (fw_steps w') = map fst (fw_steps w) /\ map snd (fw_steps w') = map2 (fun c n => sc c n) cs (map snd (fw_steps w)) /\
        fw_stop w' = fw_stop w /\ (List.length (fw_steps w) <= List.length cs)%nat /\
        (fw_stop w = false -> fw_prior w' = fw_prior w /\ List.length (fw_steps w) = List.length cs /\
           fw_logEv w' = xladd (F := R) (fw_logEv w) (Fin (d + Rsum (map ln cs))))
    | Err x, Err y => x = y
    | _, _ => False
    end.
  Proof.
    induction 1 as [|s s' c ss ss' cs Hc El HP IH]; intros ts a al p lev d; cbn [fwdLoop].
    - cbn [fw_steps fw_stop fw_logEv fw_prior map map2 Rsum fold_right List.length]. do 3 (split; [reflexivity|]). split; [lia|]. intros _. do 2 (split; [reflexivity|]). f_equal. f_equal. ring.
    - rewrite El. unfold scaledBy. rewrite sc_amul_r, sc_sum, sc_ltb by auto. change (@f0 R NumR) with 0. destruct (xltb (Fin 0) (asum (amul a (pdf s)))) eqn:Ep.
      + rewrite sc_adivs by auto. destruct ts as [|t ts]; [exact eq_refl|].
        destruct (computeForwardPrior _ m _ _ t) as [a3|x0]; cbn [bind]; [|exact eq_refl].
        assert (EL : xladd (F := R) (xladd (F := R) lev (Fin d)) (xln (sc c (asum (amul a (pdf s))))) = xladd (F := R) (xladd (F := R) lev (xln (asum (amul a (pdf s))))) (Fin (d + ln c))).
        { rewrite sc_ln by auto. destruct lev as [x| | |]; destruct (xln (L := R) (asum (amul a (pdf s)))) as [y| | |]; cbn; auto. f_equal. ring. }
        rewrite EL.
        specialize (IH ts a3 (al && returnsArgument m t)%bool (overwrite al p (adivs (amul a (pdf s)) (asum (amul a (pdf s))))) (xladd (F := R) lev (xln (asum (amul a (pdf s))))) (d + ln c)).
        unfold fw_cons.
        destruct (fwdLoop e o m ss ts a3 _ _ _) as [w|x0]; destruct (fwdLoop e o' m ss' ts a3 _ _ _) as [w'|x1]; cbn [bind]; auto.
        destruct IH as (I1 & I2 & I3 & I4 & I5). cbn [fw_steps fw_stop fw_logEv fw_prior map map2 fst snd List.length]. rewrite I1, I2. do 2 (split; [reflexivity|]). split; [exact I3|]. split; [lia|].
        intros Hs. destruct (I5 Hs) as (J1 & J2 & ->). split; [exact J1|]. split; [lia|]. f_equal. f_equal. cbn [Rsum fold_right]. unfold Rsum. ring.
      + cbn [fw_steps fw_stop fw_logEv fw_prior map map2 List.length]. do 3 (split; [reflexivity|]). split; [lia|discriminate].
  Qed.

  (** backward pass *)
  Inductive itemsRel : list (list (xnum R) * seg R * R) -> list (list (xnum R) * seg R * R) -> list R -> Prop :=
  | ir_nil : itemsRel [] [] []
  | ir_cons a s s' t c l l' cs : 0 < c -> pdf' s' = scaledBy c (pdf s) -> itemsRel l l' cs -> itemsRel ((a, s, t) :: l) ((a, s', t) :: l') (c :: cs).
  Lemma items_app l1 l1' c1 l2 l2' c2 : itemsRel l1 l1' c1 -> itemsRel l2 l2' c2 -> itemsRel (l1 ++ l2) (l1' ++ l2') (c1 ++ c2).
  Proof. induction 1; cbn; intros; auto. constructor; auto. Qed.
  Lemma items_rev l l' cs : itemsRel l l' cs -> itemsRel (rev l) (rev l') (rev cs).
  Proof. induction 1; cbn; [constructor|]. apply items_app; auto. constructor; auto. constructor. Qed.
  Lemma items_of ss ss' cs : proportional pdf pdf' ss ss' cs -> forall xs ts, List.length xs = List.length ss -> List.length ts = List.length ss ->
    itemsRel (combine (combine xs ss) ts) (combine (combine xs ss') ts) cs.
  Proof. induction 1; intros [|x xs] [|t ts] L1 L2; try discriminate; cbn; constructor; auto. Qed.
  Hypothesis Hv : 0 < e_vol e.
  Lemma bwd_factor p : linearEnv e -> noRegime m -> forall l l' cs, itemsRel l l' cs -> forall b,
    match bwdLoop (with_prior e p) o m l b, bwdLoop (with_prior e p) o' m l' b with
    | Ok (out, st), Ok (out', st') => st' = st /\ map fst out' = map fst out /\ map snd out' = map2 (fun c x => option_map (fun y => sc c y) x) cs (map snd out)
    | Err x, Err y => x = y
    | _, _ => False
    end.
  Proof.
    intros L Hm. induction 1 as [|a s s' t c l l' cs Hc El HI IH]; intros b; cbn [bwdLoop]; [auto|].
    change (processedPdf o (e_size (with_prior e p)) (e_grid (with_prior e p))) with pdf. change (processedPdf o' (e_size (with_prior e p)) (e_grid (with_prior e p))) with pdf'.
    change (e_vol (with_prior e p)) with (e_vol e). rewrite El. unfold scaledBy.
    destruct (xltb (Fin f0) (asum (amul a b))) eqn:Ep.
    - rewrite sc_amul_r, sc_adiv_r by auto. unfold computeBackwardPrior.
      assert (L' : linearEnv (with_prior e p)) by exact L.
      destruct (step_homog (with_prior e p) m L' Hm f0 (fsub t f1) t (fsub t f1) c (amul b (pdf s)) Hc) as (j & Hj & ->).
      destruct (step (with_prior e p) m f0 (amul b (pdf s)) (fsub t f1) t (fsub t f1)) as [b'|x0]; cbn [rmap bind]; [|reflexivity]. rewrite normalise_sc by auto. specialize (IH (normalise b')).
      destruct (bwdLoop _ o m l _) as [[out st]|x0]; destruct (bwdLoop _ o' m l' _) as [[out' st']|x1]; cbn [bind fst snd]; auto.
      destruct IH as (I1 & I2 & I3). split; [exact I1|]. cbn [map map2 fst snd option_map]. rewrite I2, I3. split; [reflexivity|]. f_equal. f_equal.
      pose proof (Rinv_0_lt_compat _ Hc) as Hi. rewrite sc_sum, sc_mul by auto.
      replace (sc (/ c) (xmul (asum (adiv (adivs (amul a b) (asum (amul a b))) (pdf s))) (Fin (e_vol e)))) with (xmul (asum (adiv (adivs (amul a b) (asum (amul a b))) (pdf s))) (Fin (/ c * e_vol e))).
      + change (@f1 R NumR) with 1. rewrite inv_units by auto. now rewrite Rinv_inv.
      + change (Fin (/ c * e_vol e)) with (sc (/ c) (Fin (e_vol e))). now rewrite sc_mul_r.
    - split; [reflexivity|]. cbn [map map2 fst snd option_map]. clear IH. split; f_equal.
      + clear - HI. induction HI; cbn; auto. now f_equal.
      + clear - HI. induction HI; cbn; auto. now f_equal.
  Qed.
End Pass.

Lemma map2_rev {A B D} (f : A -> B -> D) a b : List.length a = List.length b -> rev (map2 f a b) = map2 f (rev a) (rev b).
Proof.
  assert (App : forall a b c d, List.length a = List.length b -> map2 f (a ++ c) (b ++ d) = map2 f a b ++ map2 f c d).
  { clear a b. induction a as [|x a IH]; intros [|y b] c d E; cbn in *; try discriminate; auto. f_equal. apply IH. lia. }
  revert b. induction a as [|x a IH]; intros [|y b] E; cbn in *; try discriminate; auto. rewrite IH by lia. rewrite App by (rewrite !rev_length; lia). reflexivity.
Qed.
Lemma pad_factor cs (l : list (xnum R)) n : (List.length l <= List.length cs)%nat -> n = List.length cs ->
  padNone n (map2 (fun c x => sc c x) cs l) = map2 (fun c x => option_map (fun y => sc c y) x) cs (padNone n l).
Proof.
  intros Hl ->. unfold padNone. revert l Hl. induction cs as [|c cs IH]; intros [|x l] Hl; cbn [map2 map List.length app] in *; [reflexivity|exfalso; inversion Hl| |].
  - cbn [Nat.sub repeat map2 option_map]. f_equal. specialize (IH [] (Nat.le_0_l _)). destruct cs as [|c' cs]; [reflexivity|]. cbn [map2 map List.length app Nat.sub] in IH. exact IH.
  - cbn [Nat.sub option_map]. f_equal. apply IH. lia.
Qed.

(** ** the whole fit *)
Section Fit.
  Variables (S S' : study R R) (o o' : om R) (m : tm R) (vs : list (list R)) (ts cs : list R).
  Hypothesis SL : sameButLikelihood S S' o o' m vs ts.
  Hypothesis LT : likelihoodsTimes S S' o o' vs cs.
  Let C := sl_first _ _ _ _ _ _ _ SL.
  Let C' := sl_second _ _ _ _ _ _ _ SL.
  Notation e := (envOf S o (om_prior o)).
  Lemma env_factor : envOf S' o' (om_prior o') = e.
  Proof.
    destruct (sl_oracles _ _ _ _ _ _ _ SL) as (O1 & O2 & O3). unfold envOf.
    rewrite O1, O2, O3, (sl_names _ _ _ _ _ _ _ SL), (sl_prior _ _ _ _ _ _ _ SL), (cf_shape _ _ _ _ _ C), (cf_shape _ _ _ _ _ C'), (cf_grid _ _ _ _ _ C), (cf_grid _ _ _ _ _ C'), (cf_tmlat _ _ _ _ _ C), (cf_tmlat _ _ _ _ _ C').
    pose proof (cf_lat _ _ _ _ _ C) as El. rewrite (cf_lat _ _ _ _ _ C') in El. injection El as ->. reflexivity.
  Qed.
  Lemma vol_pos' : 0 < e_vol e.
  Proof. unfold e_vol. cbn [e_lat envOf]. rewrite fprod_R. apply Rprod_pos. exact (cf_spacing _ _ _ _ _ C). Qed.
  Definition resultsTimes (A B : study R R) : Prop :=
    st_post B = st_post A /\ st_means B = st_means A /\ st_fmtTs B = st_fmtTs A /\
    st_logEv B = xladd (F := R) (st_logEv A) (Fin (Rsum (map ln cs))) /\
    st_local B = map2 (fun c x => option_map (fun y => sc c y) x) cs (st_local A) /\ List.length (st_local A) = List.length cs.
  Lemma fit_factor fo eo : (fo || eo = true)%bool \/ noRegime m /\ scalesWith S ->
    match fit S fo eo, fit S' fo eo with
    | Ok A, Ok B => resultsTimes A B
    | Err x, Err y => x = y
    | _, _ => False
    end.
  Proof.
    intros HB. unfold fit. rewrite (cfg_check S o m vs ts C), (cfg_check S' o' m vs ts C'). cbn [bind].
    rewrite (cf_ts _ _ _ _ _ C), (cf_ts _ _ _ _ _ C'), env_factor, (sl_seglen _ _ _ _ _ _ _ SL). destruct (sl_stored _ _ _ _ _ _ _ SL) as (Q1 & Q2). rewrite Q1, Q2.
    assert (EG : st_grid S' = st_grid S) by (now rewrite (cf_grid _ _ _ _ _ C), (cf_grid _ _ _ _ _ C')). rewrite EG.
    destruct (computePrior e) as [[[a0 p0] al0]|x0]; cbn [bind]; [|reflexivity].
    assert (LT' : proportional (processedPdf o (e_size e) (e_grid e)) (processedPdf o' (e_size e) (e_grid e)) (formatData (st_raw S) (om_seglen o)) (formatData (st_raw S') (om_seglen o)) cs).
    { unfold likelihoodsTimes, segments, gridPoints in LT. rewrite (sl_seglen _ _ _ _ _ _ _ SL) in LT. unfold e_size. cbn [e_shape e_grid envOf]. now rewrite (cf_shape _ _ _ _ _ C), (cf_grid _ _ _ _ _ C). }
    destruct (prop_len _ _ _ _ _ LT') as [Ls Lc].
    assert (Lts : List.length (formatTimestamps ts (om_seglen o)) = List.length (formatData (st_raw S) (om_seglen o))) by apply (cfg_ts_len S o m vs ts C).
    pose proof (fwd_factor e o o' m _ _ _ LT' (formatTimestamps ts (om_seglen o)) a0 al0 p0 (Fin 0) 0) as HF.
    change (xladd (F := R) (Fin 0) (Fin 0)) with (Fin (0 + 0)) in HF. rewrite !Rplus_0_l in HF. change (@Fin R (@l0 R R _)) with (@Fin R 0).
    destruct (fwdLoop e o m _ _ a0 al0 p0 _) as [w|x0]; destruct (fwdLoop e o' m _ _ a0 al0 p0 _) as [w'|x1]; cbn [bind]; auto; try contradiction.
    destruct HF as (H1 & H2 & H3 & H4 & H5). rewrite H3, H1, Ls.
    assert (EF : map (fun s => xmul (snd s) (Fin (e_vol e))) (fw_steps w') = map2 (fun c x => sc c x) cs (map (fun s => xmul (snd s) (Fin (e_vol e))) (fw_steps w))).
    { rewrite <- !(map_map snd (fun n => xmul n (Fin (e_vol e)))), H2. assert (PC : Forall (fun c => 0 < c) cs) by (clear - LT'; induction LT'; constructor; auto).
      clear - PC. generalize (map snd (fw_steps w)) as l. induction PC as [|c cs Hc PC IH]; intros [|x l]; cbn [map map2]; auto. rewrite sc_mul by auto. f_equal. apply IH. }
    assert (EL : padNone (List.length (formatData (st_raw S) (om_seglen o))) (map (fun s => xmul (snd s) (Fin (e_vol e))) (fw_steps w')) =
      map2 (fun c x => option_map (fun y => sc c y) x) cs (padNone (List.length (formatData (st_raw S) (om_seglen o))) (map (fun s => xmul (snd s) (Fin (e_vol e))) (fw_steps w)))).
    { rewrite EF. apply pad_factor; [now rewrite map_length|auto]. }
    assert (EV : fw_stop w = false -> xladd (F := R) (fw_logEv w') (xln (Fin (e_vol e))) = xladd (F := R) (xladd (F := R) (fw_logEv w) (xln (Fin (e_vol e)))) (Fin (Rsum (map ln cs)))).
    { intros Hs. destruct (H5 Hs) as (_ & _ & ->). apply xladd_swap. }
    assert (LL : List.length (padNone (List.length (formatData (st_raw S) (om_seglen o))) (map (fun s => xmul (snd s) (Fin (e_vol e))) (fw_steps w))) = List.length cs).
    { unfold padNone. rewrite app_length, repeat_length, !map_length. lia. }
    destruct (fw_stop w) eqn:Es.
    { unfold resultsTimes. cbn [set_results st_post st_means st_fmtTs st_logEv st_local]. do 4 (split; [reflexivity|]). split; [exact EL|exact LL]. }
    specialize (EV eq_refl). destruct (H5 eq_refl) as (HW & Lw & _).
    destruct eo.
    { unfold resultsTimes. cbn [set_results st_post st_means st_fmtTs st_logEv st_local]. do 3 (split; [reflexivity|]). split; [exact EV|]. split; [exact EL|exact LL]. }
    destruct fo.
    { unfold resultsTimes. cbn [set_results st_post st_means st_fmtTs st_logEv st_local]. do 3 (split; [reflexivity|]). split; [exact EV|]. split; [exact EL|exact LL]. }
    destruct HB as [HB|[Nr (B1 & B2 & B3)]]; [discriminate|]. rewrite HW.
    assert (LE : linearEnv e). { split; [|split]; cbn; auto. }
    assert (HI : itemsRel e o o' (rev (combine (combine (map fst (fw_steps w)) (formatData (st_raw S) (om_seglen o))) (formatTimestamps ts (om_seglen o))))
      (rev (combine (combine (map fst (fw_steps w)) (formatData (st_raw S') (om_seglen o))) (formatTimestamps ts (om_seglen o)))) (rev cs)).
    { apply items_rev. apply items_of; auto. rewrite map_length. lia. }
    pose proof (bwd_factor e o o' m vol_pos' (fw_prior w) LE Nr _ _ _ HI (normalise (aones (e_size e)))) as HX.
    destruct (bwdLoop _ o m _ _) as [[out st]|x0] eqn:EQ; destruct (bwdLoop _ o' m _ _) as [[out' st']|x1]; cbn [bind]; auto; try contradiction.
    destruct HX as (-> & X1 & X2). rewrite X1, X2.
    assert (Lo : List.length out = List.length cs).
    { rewrite (bwd_length _ _ _ _ _ _ _ EQ), rev_length, !combine_length, map_length. lia. }
    assert (EZ : map2 (fun old new => match new with Some x => Some x | None => Some old end) (map (fun s => xmul (snd s) (Fin (e_vol e))) (fw_steps w'))
        (rev (map2 (fun c x => option_map (fun y => sc c y) x) (rev cs) (map snd out))) =
      map2 (fun c x => option_map (fun y => sc c y) x) cs (map2 (fun (old : xnum R) new => match new with Some x => Some x | None => Some old end) (map (fun s => xmul (snd s) (Fin (e_vol e))) (fw_steps w)) (rev (map snd out)))).
    { rewrite map2_rev by (rewrite rev_length, map_length; auto). rewrite rev_involutive, EF. clear.
      generalize (map (fun s => xmul (snd s) (Fin (e_vol e))) (fw_steps w)) as l. generalize (rev (map snd out)) as q. induction cs as [|c cs' IH]; intros [|x q] [|y l]; cbn [map2]; auto.
      f_equal; [now destruct x|apply IH]. }
    destruct st; unfold resultsTimes; cbn [set_results st_post st_means st_fmtTs st_logEv st_local]; do 3 (split; [reflexivity|]); (split; [|split; [exact EZ|rewrite Lift.map2_length, rev_length, !map_length; lia]]); [reflexivity|exact EV].
  Qed.
End Fit.
