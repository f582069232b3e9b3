(** Other units of the parameters. *)
From Coq Require Import List ZArith Reals Lra Lia Arith Bool String.
From Verif Require Import Base.Num Base.Exn Base.Arr Base.RSum Base.Lift Model.Helper Model.Tm Model.HyperParams Model.Study
  Spec.Kernel Spec.Config Spec.Units Proof.DataProof Proof.KernelProof Proof.PriorProof Proof.OriginProof Proof.FitThms Proof.FitInv Proof.SetupProof.
Import ListNotations.
Local Open Scope R_scope.

Notation sc k := (xmul (Fin k)).
Notation scl k := (map (fun x => xmul (Fin k) x)).

Lemma noChange_ind' (P : tm R -> Prop) :
  (forall k hn vals p ms, k <> KChange -> k <> KComb -> (forall mask, k <> KSerial mask) -> P (TM k hn vals p ms)) ->
  (forall hn vals p ms, Forall P ms -> P (TM KComb hn vals p ms)) ->
  (forall mask hn vals p ms, Forall (fun b => b = false) mask -> Forall P ms -> P (TM (KSerial mask) hn vals p ms)) ->
  forall m, noChange m -> P m.
Proof.
  intros H1 H2 H3. fix IH 2. intros m Hm. destruct Hm; auto.
  - apply H2. induction H; constructor; auto.
  - apply H3; auto. clear H. induction H0; constructor; auto.
Qed.

Lemma Rprod_map2 us lat : List.length us = List.length lat -> Rprod (map2 Rmult us lat) = Rprod us * Rprod lat.
Proof. revert lat. induction us as [|u us IH]; intros [|l lat] E; cbn in *; try discriminate; [ring|]. rewrite IH by lia. fold (Rprod us) (Rprod lat). ring. Qed.
Lemma Rprod_pos us : Forall (fun u => 0 < u) us -> 0 < Rprod us.
Proof. induction 1; cbn; [lra|]. fold (Rprod l). nra. Qed.

Lemma sc_one (x : xnum R) : sc 1 x = x.
Proof.
  destruct x as [x| | |]; cbn; auto; [f_equal; ring| |].
  - change (feqb 1 f0) with (Reqb 1 0). replace (Reqb 1 0) with false by (symmetry; apply Reqb_false; lra). change (fltb 1 f0) with (Rltb 1 0).
    replace (Rltb 1 0) with false by (symmetry; apply Rltb_false; lra). reflexivity.
  - change (feqb 1 f0) with (Reqb 1 0). replace (Reqb 1 0) with false by (symmetry; apply Reqb_false; lra). change (fltb f0 1) with (Rltb 0 1).
    replace (Rltb 0 1) with true by (symmetry; apply Rltb_true; lra). reflexivity.
Qed.
Lemma scl_one (a : list (xnum R)) : scl 1 a = a.
Proof. rewrite <- (map_id a) at 2. apply map_ext. apply sc_one. Qed.

Section Units.
  Variables (us : list R) (names : list string).
  Hypothesis Hus : Forall (fun u => 0 < u) us.
  Notation U := (Rprod us).
  Lemma U_pos : 0 < U. Proof. now apply Rprod_pos. Qed.

  (** the environment in the new units *)
  Definition unitEnv (e : env R) (q : priorSpec R) : env R :=
    {| e_shape := e_shape e; e_lat := map2 Rmult us (e_lat e); e_tmlat := map2 Rmult us (e_tmlat e); e_names := e_names e;
       e_grid := convert us (e_grid e); e_prior := q; e_shift := e_shift e; e_aconv := e_aconv e; e_bconv := e_bconv e |}.

  Lemma index_units lat ax : List.length us = List.length lat ->
    index (map2 Rmult us lat) ax = rmap (fun l => nth ax us 1 * l) (index lat ax).
  Proof.
    revert lat ax. induction us as [|u us' IH]; intros [|l lat] ax E; try discriminate; [now destruct ax|].
    destruct ax as [|ax]; [reflexivity|]. specialize (IH ltac:(now inversion Hus) lat ax ltac:(now injection E)). exact IH.
  Qed.
  Lemma unitOf_index nms s ax : nameIndex nms s = Ok ax -> unitOf nms us s = nth ax us 1.
  Proof.
    clear Hus. revert us ax. induction nms as [|n nms IH]; intros us' ax E; [discriminate|]. cbn [nameIndex unitOf] in *.
    destruct (String.eqb n s); [injection E as <-; now destruct us'|]. destruct (nameIndex nms s) as [i|] eqn:Ei; [|discriminate]. cbn in E. injection E as <-.
    destruct us' as [|u us']; [reflexivity|]. cbn [nth]. now apply IH.
  Qed.
  Lemma index_0 {A} (a : A) l : index (a :: l) 0 = Ok a. Proof. reflexivity. Qed.
  Lemma index_S {A} (a : A) l i : index (a :: l) (S i) = index l i. Proof. reflexivity. Qed.
  Lemma index_ok {A} (l : list A) i a : index l i = Ok a -> In a l.
  Proof. unfold index. destruct (nth_error l i) eqn:E; [|discriminate]. intros X. injection X as <-. eapply nth_error_In; eauto. Qed.
  Lemma nth_unit_pos i : 0 < nth i us 1.
  Proof. revert i. clear names. induction Hus; intros [|i]; cbn; auto; lra. Qed.
  Lemma scalarOf_onVal f v : scalarOf (onVal f v) = rmap f (scalarOf v).
  Proof. destruct v as [x|[|x [|y xs]]|xs| |]; reflexivity. Qed.
  Lemma pow10_units x P : fmul (fpow10 (x - ln U / ln 10)) (U * P) = fmul (fpow10 x) P.
  Proof.
    cbn. pose proof U_pos as HU. unfold Rpower. assert (L : ln 10 <> 0) by (rewrite <- ln_1; intros E; apply ln_inv in E; lra).
    replace ((x - ln U / ln 10) * ln 10) with (x * ln 10 + - ln U) by (field; auto). rewrite exp_plus, exp_Ropp, exp_ln by auto. field. lra.
  Qed.

  Variable e : env R.
  Hypothesis Hnames : e_names e = names.
  Hypothesis Hlen : List.length us = List.length (e_tmlat e).
  Hypothesis Hlen' : List.length us = List.length (e_lat e).
  Hypothesis Hlat : Forall (fun l => l <> 0) (e_tmlat e).
  Lemma vol_units q : e_vol (unitEnv e q) = U * e_vol e.
  Proof. unfold e_vol. cbn [unitEnv e_lat]. rewrite !fprod_R. now apply Rprod_map2. Qed.
  Lemma tmvol_units : fprod (map2 Rmult us (e_tmlat e)) = U * fprod (e_tmlat e).
  Proof. rewrite !fprod_R. now apply Rprod_map2. Qed.

  Lemma leaf_units k hn vals pr ms q off p t1 t t' : k <> KChange -> k <> KComb -> (forall mask, k <> KSerial mask) ->
    resetPrior (unitEnv e q) = resetPrior e ->
    step (unitEnv e q) (inUnits names us (TM k hn vals pr ms)) off p t1 t t' = step e (TM k hn vals pr ms) off p t1 t t'.
  Proof.
    intros N1 N2 N3 HR. destruct k as [|s|s| | | | |fn s| | |mask|]; try congruence; try (exfalso; eapply N3; reflexivity); try reflexivity.
    - destruct vals as [|v vals]; [reflexivity|]. cbn [inUnits step leafStep unitEnv e_names e_tmlat e_shape]. rewrite Hnames.
      destruct (nameIndex names s) as [ax|] eqn:Ea; [|reflexivity]. cbn [bind index nth_error]. rewrite scalarOf_onVal. destruct (scalarOf v) as [x|]; [|reflexivity].
      cbn [rmap bind]. rewrite index_units by auto. destruct (index (e_tmlat e) ax) as [l|] eqn:El; [|reflexivity]. cbn [rmap bind].
      rewrite (unitOf_index _ _ _ Ea). pose proof (nth_unit_pos ax) as Hu. assert (Hl : l <> 0) by (rewrite Forall_forall in Hlat; apply Hlat; eapply index_ok; eauto).
      replace (fdiv (nth ax us 1 * x) (nth ax us 1 * l)) with (fdiv x l) by (cbn; field; lra). reflexivity.
    - destruct vals as [|v vals]; [reflexivity|]. cbn [inUnits step leafStep unitEnv e_names e_tmlat e_shape e_aconv]. cbn [bind index nth_error]. rewrite scalarOf_onVal.
      destruct (scalarOf v) as [x|]; [|reflexivity]. cbn [rmap bind]. change (index (onVal (Rmult (unitOf names us s)) v :: vals) 1) with (index vals 0). change (index (v :: vals) 1) with (index vals 0).
      destruct (index vals 0) as [v2|]; [|reflexivity]. cbn [bind]. destruct (scalarOf v2) as [al|]; [|reflexivity]. cbn [bind]. rewrite Hnames.
      destruct (nameIndex names s) as [ax|] eqn:Ea; [|reflexivity]. cbn [bind]. rewrite index_units by auto. destruct (index (e_tmlat e) ax) as [l|] eqn:El; [|reflexivity]. cbn [rmap bind].
      rewrite (unitOf_index _ _ _ Ea). pose proof (nth_unit_pos ax) as Hu. assert (Hl : l <> 0) by (rewrite Forall_forall in Hlat; apply Hlat; eapply index_ok; eauto).
      replace (fdiv (nth ax us 1 * x) (nth ax us 1 * l)) with (fdiv x l) by (cbn; field; lra). reflexivity.
    - cbn [inUnits step leafStep]. now rewrite HR.
    - destruct vals as [|v vals]; [reflexivity|]. cbn [inUnits step leafStep unitEnv e_tmlat]. cbn [bind index nth_error]. rewrite scalarOf_onVal. destruct (scalarOf v) as [x|]; [|reflexivity].
      cbn [rmap bind]. rewrite tmvol_units, pow10_units. reflexivity.
    - destruct vals as [|v vals]; [reflexivity|]. cbn [inUnits step leafStep unitEnv e_tmlat]. cbn [bind index nth_error]. rewrite scalarOf_onVal. destruct (scalarOf v) as [x|]; [|reflexivity].
      cbn [rmap bind]. rewrite tmvol_units, pow10_units. reflexivity.
    - cbn [inUnits step leafStep unitEnv e_names e_tmlat e_shift]. rewrite Hnames. destruct (nameIndex names s) as [ax|] eqn:Ea; [|reflexivity]. cbn [bind].
      destruct (mapM scalarOf vals) as [ps|]; [|reflexivity]. cbn [bind]. rewrite index_units by auto. destruct (index (e_tmlat e) ax) as [l|] eqn:El; [|reflexivity]. cbn [rmap bind].
      rewrite (unitOf_index _ _ _ Ea). pose proof (nth_unit_pos ax) as Hu. assert (Hl : l <> 0) by (rewrite Forall_forall in Hlat; apply Hlat; eapply index_ok; eauto).
      unfold detShift. cbn [fdiv fsub NumR]. do 3 f_equal. field. lra.
    - destruct vals as [|v1 [|v2 vals]]; [reflexivity| |].
      + cbn. destruct (scalarOf v1); reflexivity.
      + cbn [inUnits step leafStep unitEnv e_tmlat e_shape e_bconv]. rewrite !index_S, !index_0. cbn [bind]. rewrite !scalarOf_onVal. destruct (scalarOf v1) as [x|]; [|reflexivity]. cbn [rmap bind].
        destruct (scalarOf v2) as [y|]; [|reflexivity]. cbn [rmap bind]. destruct (index vals 0) as [v3|]; [|reflexivity]. cbn [bind]. destruct (scalarOf v3) as [rho|]; [|reflexivity]. cbn [bind].
        rewrite !index_units by auto. destruct (index (e_tmlat e) 0) as [l0|] eqn:E0; [|reflexivity]. destruct (index (e_tmlat e) 1) as [l1|] eqn:E1; [|reflexivity]. cbn [rmap bind].
        pose proof (nth_unit_pos 0) as Hu0. pose proof (nth_unit_pos 1) as Hu1.
        assert (Hl0 : l0 <> 0) by (rewrite Forall_forall in Hlat; apply Hlat; eapply index_ok; eauto).
        assert (Hl1 : l1 <> 0) by (rewrite Forall_forall in Hlat; apply Hlat; eapply index_ok; eauto).
        replace (fdiv (nth 0 us 1 * x) (nth 0 us 1 * l0)) with (fdiv x l0) by (cbn [fdiv NumR]; field; lra).
        replace (fdiv (nth 1 us 1 * y) (nth 1 us 1 * l1)) with (fdiv y l1) by (cbn [fdiv NumR]; field; lra). reflexivity.
  Qed.
  Lemma maskSel_false {A} (l : list A) mask : Forall (fun b => b = false) mask -> maskSel l mask = [].
  Proof. intros H. revert l. induction H as [|b mask Hb H IH]; intros [|a l]; cbn; auto. subst b. apply IH. Qed.
  Lemma step_noChange q : resetPrior (unitEnv e q) = resetPrior e -> forall m, noChange m -> forall off p t1 t t',
    step (unitEnv e q) (inUnits names us m) off p t1 t t' = step e m off p t1 t t'.
  Proof.
    intros HR. apply (noChange_ind' (fun m => forall off p t1 t t', step (unitEnv e q) (inUnits names us m) off p t1 t t' = step e m off p t1 t t')).
    - intros. now apply leaf_units.
    - intros hn vals pr ms HF off p t1 t t'. cbn [inUnits step]. revert p. induction HF as [|m ms Hm HF IH]; intros p; cbn [map]; auto. rewrite Hm. destruct (step e m off p t1 t t'); auto.
    - intros mask hn vals pr ms Hmask HF off p t1 t t'. cbn [inUnits step]. destruct (mapM scalarOf vals) as [bs|]; [|reflexivity]. cbn [bind].
      unfold changeCheck. rewrite (maskSel_false _ _ Hmask). cbn [existsb]. f_equal. generalize (offsetOf bs (breaksUpTo bs t1)) as off'. generalize (breaksUpTo bs t1) as i.
      induction HF as [|m ms Hm HF IH]; intros i off'; cbn [map]; auto. destruct i as [|i]; [apply Hm|apply IH].
  Qed.
  Lemma reset_noChange m t : noChange m -> forall b, resetBy m t b = true -> b = true.
  Proof.
    revert m. apply (noChange_ind' (fun m => forall b, resetBy m t b = true -> b = true)).
    - intros k hn vals p ms N1 N2 N3 b. destruct k; cbn [resetBy]; auto; try congruence; try (exfalso; eapply N3; reflexivity).
    - intros hn vals p ms HF b. cbn [resetBy]. revert b. induction HF as [|m ms Hm HF IH]; intros b; cbn [map fold_left]; auto.
    - intros mask hn vals p ms Hmask HF b. cbn [resetBy].
      replace (changeTimes (map numOf vals) mask) with (@nil R).
      2:{ unfold changeTimes. generalize (map numOf vals) as l. induction Hmask as [|x mask Hx Hmask IH]; intros [|a l]; cbn; auto. subst x. apply IH. }
      cbn [existsb]. generalize (breaksBefore (map numOf vals) t) as i. induction HF as [|m ms Hm HF IH]; intros [|i]; cbn [map nth]; auto. intros E. exact (IH i E).
  Qed.
  (** factor of the distribution after the step at time t *)
  Definition factor (m : tm R) (t : R) : R := if resetAt m t then U else 1.
  Lemma factor_pos m t : 0 < factor m t.
  Proof. unfold factor. destruct (resetAt m t); [apply U_pos|lra]. Qed.
  Lemma reset_units q : resetPrior (unitEnv e q) = resetPrior e -> changeReset (unitEnv e q) = scl U (changeReset e).
  Proof.
    intros HR. unfold changeReset. rewrite HR, vol_units. unfold amuls. rewrite map_map. apply map_ext. intros x. rewrite !(xmul_comm x).
    rewrite <- (sc_mul U U_pos). reflexivity.
  Qed.
  Lemma eqR_feqb a b : feqb (F := R) a b = eqR a b.
  Proof. unfold eqR. destruct (Req_EM_T a b) as [E|E]; [now apply Reqb_true|now apply Reqb_false]. Qed.
  Lemma rmap_id {A} (f : A -> A) (r : res A) : (forall a, f a = a) -> rmap f r = r.
  Proof. intros E. destruct r; cbn; auto. now rewrite E. Qed.
  Lemma maskSel_changes (bs : list R) mask : maskSel bs mask = changeTimes bs mask.
  Proof. unfold changeTimes. revert mask. induction bs as [|b bs IH]; intros [|[] mask]; cbn; auto. now rewrite IH. Qed.
  Lemma scalars_num (bs : list R) : mapM scalarOf (map HNum bs) = Ok bs.
  Proof. induction bs as [|b bs IH]; cbn; auto. now rewrite IH. Qed.
  Lemma step_units q m : resetPrior (unitEnv e q) = resetPrior e -> plainChanges m -> forall p t1 t t',
    step (unitEnv e q) (inUnits names us m) f0 p t1 t t' = rmap (scl (factor m t1)) (step e m f0 p t1 t t').
  Proof.
    intros HR Hm p t1 t t'. destruct Hm as [m Hm|hn tc pr ms|mask hn bs pr ms Hl HF].
    - rewrite step_noChange by auto. unfold factor, resetAt. destruct (resetBy m t1 false) eqn:E; [apply reset_noChange in E; auto; discriminate|].
      symmetry. apply rmap_id. apply scl_one.
    - cbn [inUnits step leafStep]. rewrite index_0. cbn [bind eqTime]. unfold factor, resetAt. cbn [resetBy hd numOf]. rewrite eqR_feqb. destruct (eqR t1 tc); cbn [rmap].
      + now rewrite reset_units.
      + now rewrite scl_one.
    - cbn [inUnits step]. rewrite scalars_num. cbn [bind]. unfold changeCheck. rewrite maskSel_changes.
      assert (Ev : existsb (fun b => feqb t1 b) (changeTimes bs mask) = existsb (eqR t1) (changeTimes bs mask)).
      { induction (changeTimes bs mask) as [|b l IH]; cbn [existsb]; auto. }
      rewrite Ev.
      assert (Es : forall i off', (fix sel (ms : list (tm R)) (j : nat) {struct ms} : res (list (xnum R)) :=
             match ms, j with
             | [], _ => Err IndexError
             | m' :: _, O => step (unitEnv e q) m' off' p t1 t t'
             | _ :: ms', S j' => sel ms' j'
             end) (map (inUnits names us) ms) i = (fix sel (ms : list (tm R)) (j : nat) {struct ms} : res (list (xnum R)) :=
             match ms, j with
             | [], _ => Err IndexError
             | m' :: _, O => step e m' off' p t1 t t'
             | _ :: ms', S j' => sel ms' j'
             end) ms i).
      { induction HF as [|m ms Hm HF IH]; intros i off'; cbn [map]; auto. destruct i as [|i]; [now apply step_noChange|apply IH]. }
      rewrite Es. destruct ((fix sel (ms : list (tm R)) (j : nat) {struct ms} : res (list (xnum R)) := _) ms _) as [a|]; [|reflexivity]. cbn [bind rmap]. f_equal.
      unfold factor, resetAt. cbn [resetBy]. rewrite map_map. cbn [numOf]. rewrite map_id. destruct (existsb (eqR t1) (changeTimes bs mask)); [now apply reset_units|].
      replace (nth _ _ _ false) with false; [now rewrite scl_one|]. symmetry. generalize (breaksBefore bs t1) as i. clear Es Hl Ev. induction HF as [|m ms Hm HF IH]; intros [|i]; cbn [map nth]; auto.
      destruct (resetBy m t1 false) eqn:E; auto. apply reset_noChange in E; auto.
  Qed.
End Units.
Lemma returns_units names us m t : returnsArgument (inUnits names us m) t = returnsArgument m t.
Proof.
  revert m. fix IH 1. intros [k hn vals p ms]. destruct k; try reflexivity; try (destruct vals as [|v1 [|v2 vals]]; reflexivity).
  cbn [inUnits returnsArgument]. destruct (mapM scalarOf vals) as [bs|]; auto. f_equal.
  generalize (breaksUpTo bs t) as i. induction ms as [|m ms IHm]; intros i; cbn [map]; auto. destruct i; auto.
Qed.
Lemma names_units names us m : unpackNames (inUnits names us m) = unpackNames m.
Proof.
  revert m. fix IH 1. intros [k hn vals p ms].
  assert (E : map unpackNames (map (inUnits names us) ms) = map unpackNames ms) by (induction ms as [|m ms IHm]; cbn [map]; auto; now rewrite IH, IHm).
  destruct k; try reflexivity; try (destruct vals as [|v1 [|v2 vals]]; reflexivity); cbn [inUnits unpackNames]; now rewrite E.
Qed.

Lemma processed_units us o o' n g s : omInUnits us o o' -> List.length g = List.length us ->
  processedPdf o' n (convert us g) s = processedPdf o n g s.
Proof.
  intros [_ _ Hm Hp _] Hg. unfold processedPdf.
  assert (E : forall xs, processed1 o' n (convert us g) xs = processed1 o n g xs) by (intros xs; unfold processed1; now rewrite Hp).
  destruct s as [xs|rows]; auto. rewrite Hm. destruct (om_multiply o); [now rewrite (map_ext _ _ E)|now rewrite Hp].
Qed.
Lemma normalise_sc k (a : list (xnum R)) : 0 < k -> normalise (scl k a) = normalise a.
Proof. intros Hk. unfold normalise. rewrite sc_sum by auto. now apply sc_adivs. Qed.
Lemma inv_units (U v : R) (s : xnum R) : 0 < U -> 0 < v -> xdiv (Fin 1) (xmul s (Fin (U * v))) = sc (/ U) (xdiv (Fin 1) (xmul s (Fin v))).
Proof.
  intros HU Hv. assert (E1 : Reqb (U * v) 0 = false) by (apply Reqb_false; nra). assert (E2 : Reqb v 0 = false) by (apply Reqb_false; lra).
  assert (E3 : Rltb (U * v) 0 = false) by (apply Rltb_false; nra). assert (E4 : Rltb v 0 = false) by (apply Rltb_false; lra).
  assert (E5 : Rltb 0 (U * v) = true) by (apply Rltb_true; nra). assert (E6 : Rltb 0 v = true) by (apply Rltb_true; lra).
  destruct s as [s| | |]; cbn; rewrite ?E1, ?E2, ?E3, ?E4, ?E5, ?E6; cbn; try reflexivity; try (f_equal; ring).
  assert (Ez : Reqb (s * (U * v)) 0 = Reqb (s * v) 0).
  { destruct (Reqb (s * v) 0) eqn:E; [apply Reqb_true in E; apply Reqb_true; replace (s * (U * v)) with (U * (s * v)) by ring; rewrite E; ring|].
    apply Reqb_false in E. apply Reqb_false. intros Z. apply E. replace (s * (U * v)) with (U * (s * v)) in Z by ring. apply Rmult_integral in Z. lra. }
  rewrite Ez. destruct (Reqb (s * v) 0) eqn:E.
  - replace (Reqb 1 0) with false by (symmetry; apply Reqb_false; lra). replace (Rltb 1 0) with false by (symmetry; apply Rltb_false; lra).
    pose proof (Rinv_0_lt_compat U HU). cbn. replace (Reqb (/ U) 0) with false by (symmetry; apply Reqb_false; lra). replace (Rltb (/ U) 0) with false by (symmetry; apply Rltb_false; lra). reflexivity.
  - apply Reqb_false in E. cbn. f_equal. assert (s <> 0 /\ v <> 0) by (split; intros ->; apply E; ring). field. lra.
Qed.
Lemma div_units (U v : R) (x : xnum R) : 0 < U -> 0 < v -> xdiv x (Fin (U * v)) = sc (/ U) (xdiv x (Fin v)).
Proof.
  intros HU Hv. assert (E1 : Reqb (U * v) 0 = false) by (apply Reqb_false; nra). assert (E2 : Reqb v 0 = false) by (apply Reqb_false; lra).
  assert (E3 : Rltb (U * v) 0 = false) by (apply Rltb_false; nra). assert (E4 : Rltb v 0 = false) by (apply Rltb_false; lra).
  pose proof (Rinv_0_lt_compat U HU) as HI. assert (E5 : Reqb (/ U) 0 = false) by (apply Reqb_false; lra). assert (E6 : Rltb (/ U) 0 = false) by (apply Rltb_false; lra).
  assert (E7 : Rltb 0 (/ U) = true) by (apply Rltb_true; lra).
  destruct x as [x| | |]; cbn; rewrite ?E1, ?E2, ?E3, ?E4; cbn; rewrite ?E5, ?E6, ?E7; auto. f_equal. field. lra.
Qed.

Section Loops.
  Variables (us : list R) (e : env R) (o o' : om R) (m : tm R) (q0 : priorSpec R).
  Hypothesis Hus : Forall (fun u => 0 < u) us.
  Hypothesis Ho : omInUnits us o o'.
  Hypothesis Hlen : List.length us = List.length (e_tmlat e).
  Hypothesis Hlen' : List.length us = List.length (e_lat e).
  Hypothesis Hlat : Forall (fun l => l <> 0) (e_tmlat e).
  Hypothesis Hgrid : List.length (e_grid e) = List.length us.
  Hypothesis Hvol : 0 < e_vol e.
  Hypothesis Hm : plainChanges m.
  Notation U := (Rprod us).
  Notation m' := (inUnits (e_names e) us m).
  Definition samePriors (p p' : priorSpec R) : Prop :=
    resetPrior (unitEnv us e p') = resetPrior (with_prior e p) /\ ((notArray p /\ notArray p') \/ exists sh a, p = PArr sh a /\ p' = PArr sh a).
  Definition okPriors (al : bool) (p p' : priorSpec R) : Prop :=
    samePriors p p' \/ (al = true /\ exists sh a a', p = PArr sh a /\ p' = PArr sh a').
  Lemma overwritten al p p' a : okPriors al p p' -> samePriors (overwrite al p a) (overwrite al p' a).
  Proof.
    intros [[HR [[N1 N2]|(sh & x & -> & ->)]]|(-> & sh & x & x' & -> & ->)].
    - rewrite !overwrite_id by auto. split; auto.
    - destruct al; split; auto; try (right; do 2 eexists; split; reflexivity).
    - cbn [overwrite]. split; auto. right; do 2 eexists; split; reflexivity.
  Qed.
  Lemma units_step p p' a t1 t t' : samePriors p p' ->
    step (with_prior (unitEnv us e q0) p') m' f0 a t1 t t' = rmap (scl (factor us m t1)) (step (with_prior e p) m f0 a t1 t t').
  Proof. intros [HR _]. exact (step_units us (e_names e) Hus (with_prior e p) eq_refl Hlen Hlen' Hlat p' m HR Hm a t1 t t'). Qed.

  Definition fwdUnits (p p' : priorSpec R) (k d : R) (n : nat) (ts : list R) (r r' : res (fwd R R)) : Prop :=
    match r, r' with
    | Ok w, Ok w' =>
        map fst (fw_steps w') = map fst (fw_steps w) /\
        map snd (fw_steps w') = map2 (fun k n => sc k n) (k :: map (factor us m) ts) (map snd (fw_steps w)) /\ fw_stop w' = fw_stop w /\
        (fw_stop w = false ->
          fw_logEv w' = xladd (F := R) (fw_logEv w) (Fin (d + Rsum (map ln (firstn n (k :: map (factor us m) ts))))) /\
          (fw_steps w = [] \/ samePriors (fw_prior w) (fw_prior w')) /\ (samePriors p p' -> samePriors (fw_prior w) (fw_prior w')))
    | Err x, Err y => x = y
    | _, _ => False
    end.
  Lemma fwd_units : forall segs ts k a al p p' (lev : xnum R) d, 0 < k -> okPriors al p p' ->
    fwdUnits p p' k d (List.length segs) ts (fwdLoop e o m segs ts a al p lev)
      (fwdLoop (unitEnv us e q0) o' m' segs ts (scl k a) al p' (xladd (F := R) lev (Fin d))).
  Proof.
    induction segs as [|s segs IH]; intros ts k a al p p' lev d Hk HP; cbn [fwdLoop].
    - cbn. do 3 (split; [reflexivity|]). intros _. rewrite Rplus_0_r. auto.
    - change (e_size (unitEnv us e q0)) with (e_size e). change (e_grid (unitEnv us e q0)) with (convert us (e_grid e)).
      rewrite (processed_units us o o') by auto. rewrite sc_amul by auto. rewrite sc_sum by auto. rewrite (sc_ltb k Hk).
      set (lik := processedPdf o (e_size e) (e_grid e) s). change (@Fin R f0) with (@Fin R 0). destruct (xltb (Fin 0) (asum (amul a lik))) eqn:En.
      2:{ cbn. do 3 (split; [reflexivity|]). discriminate. }
      rewrite sc_adivs by auto. set (a2 := adivs (amul a lik) (asum (amul a lik))). destruct ts as [|t ts]; [reflexivity|].
      pose proof (overwritten al p p' a2 HP) as HP2. unfold computeForwardPrior. rewrite (units_step _ _ _ _ _ _ HP2), returns_units.
      destruct (step (with_prior e (overwrite al p a2)) m f0 a2 t t (fadd t f1)) as [a3|x]; [|reflexivity]. cbn [rmap bind].
      rewrite sc_ln, xladd_swap by auto. rewrite xladd_right.
      specialize (IH ts (factor us m t) a3 (al && returnsArgument m t)%bool _ _ (xladd (F := R) lev (xln (asum (amul a lik)))) (d + ln k) (factor_pos us Hus m t) (or_introl HP2)).
      replace (xladd (F := R) (xladd (F := R) (xladd (F := R) lev (xln (asum (amul a lik)))) (Fin (ln k))) (Fin d)) with
        (xladd (F := R) (xladd (F := R) lev (xln (asum (amul a lik)))) (Fin (d + ln k))).
      2:{ generalize (xladd (F := R) lev (xln (asum (amul a lik)))). intros [x| | |]; cbn; auto. f_equal. ring. }
      destruct (fwdLoop e o m segs ts _ _ _ _) as [w|]; destruct (fwdLoop (unitEnv us e q0) o' m' segs ts _ _ _ _) as [w'|]; cbn in IH |- *; auto; try contradiction.
      destruct IH as (I1 & I2 & I3 & I4). split; [now rewrite I1|]. split; [f_equal; exact I2|]. split; [exact I3|]. intros Hs. destruct (I4 Hs) as (I5 & I6 & I7). split; [|auto].
      rewrite I5. f_equal. f_equal. apply Rplus_assoc.
  Qed.
  Lemma bwd_units p p' : samePriors p p' -> forall items b,
    bwdLoop (with_prior (unitEnv us e q0) p') o' m' items b =
    rmap (fun r => (map (fun x => (fst x, option_map (fun y => sc (/ U) y) (snd x))) (fst r), snd r)) (bwdLoop (with_prior e p) o m items b).
  Proof.
    intros HP. induction items as [|[[a s] t] items IH]; intros b; cbn [bwdLoop]; [reflexivity|].
    change (e_size (with_prior (unitEnv us e q0) p')) with (e_size e). change (e_grid (with_prior (unitEnv us e q0) p')) with (convert us (e_grid e)).
    change (e_size (with_prior e p)) with (e_size e). change (e_grid (with_prior e p)) with (e_grid e).
    change (e_vol (with_prior e p)) with (e_vol e).
    replace (e_vol (with_prior (unitEnv us e q0) p')) with (U * e_vol e) by (symmetry; exact (vol_units us e Hlen' q0)).
    rewrite (processed_units us o o') by auto. destruct (xltb (Fin f0) (asum (amul a b))).
    2:{ cbn [rmap fst snd map option_map]. do 3 f_equal. rewrite map_map. reflexivity. }
    unfold computeBackwardPrior. rewrite (units_step _ _ _ _ _ _ HP). destruct (step (with_prior e p) m f0 _ _ _ _) as [x|]; [|reflexivity]. cbn [rmap bind].
    rewrite normalise_sc by now apply factor_pos. rewrite IH. destruct (bwdLoop (with_prior e p) o m items (normalise x)) as [[out stop]|]; [|reflexivity]. cbn [rmap bind fst snd map option_map].
    change (@f1 R _) with 1. rewrite inv_units by (auto using U_pos). reflexivity.
  Qed.
  (** the start of the analysis *)
  Lemma prior_units : e_prior e = om_prior o -> q0 = om_prior o' -> 
    match om_prior o with
    | PFun f => asum (f (e_grid e)) <> Fin 1
    | PArr _ a => asum a <> Fin 1
    | PConst c => asum (repeat (Fin c) (e_size e)) <> Fin 1
    | PNone | PSym _ _ => True
    end ->
    match computePrior e, computePrior (unitEnv us e q0) with
    | Ok (a, p, al), Ok (a', p', al') => a' = scl (/ U) a /\ al' = al /\ okPriors al p p'
    | Err x, Err y => x = y
    | _, _ => False
    end.
  Proof.
    intros E1 E2 Hs. pose proof (ou_prior us o o' Ho) as HP. rewrite <- E2 in HP. unfold computePrior. rewrite E1. cbn [unitEnv e_prior].
    change (e_size (unitEnv us e q0)) with (e_size e). change (e_grid (unitEnv us e q0)) with (convert us (e_grid e)). change (e_shape (unitEnv us e q0)) with (e_shape e).
    change (e_names (unitEnv us e q0)) with (e_names e).
    assert (DV : forall a, adivs a (Fin (e_vol (unitEnv us e q0))) = scl (/ U) (adivs a (Fin (e_vol e)))).
    { intros a. rewrite (vol_units us e Hlen' q0). unfold adivs. rewrite map_map. apply map_ext. intros x. apply div_units; auto using U_pos. }
    assert (PD : forall a, asum a <> Fin 1 -> priorDensity (unitEnv us e q0) a = scl (/ U) (priorDensity e a)).
    { intros a Ha. unfold priorDensity. replace (xeqb (asum a) (Fin f1)) with false; [apply DV|]. destruct (asum a) as [x| | |]; auto. symmetry. apply Reqb_false. intros ->. now apply Ha. }
    destruct (om_prior o) as [|sh a|f|c|n f] eqn:Eo, q0 as [|sh' a'|f'|c'|n' f'] eqn:Eq; cbn [priorInUnits] in HP; try contradiction.
    - split; [apply DV|]. split; [reflexivity|]. left. split; [reflexivity|]. left. cbn. tauto.
    - destruct HP as [-> ->]. destruct (list_eq_dec Nat.eq_dec sh (e_shape e)); [|reflexivity]. split; [now apply PD|]. split; [reflexivity|]. right. split; auto. do 3 eexists. split; reflexivity.
    - rewrite HP by auto. split; [now apply PD|]. split; [reflexivity|]. left. split; [|left; cbn; tauto]. unfold resetPrior. cbn [unitEnv with_prior e_prior e_grid]. now rewrite HP.
    - subst c'. split; [now apply PD|]. split; [reflexivity|]. left. split; [reflexivity|left; cbn; tauto].
    - destruct HP as [-> HP]. destruct (Nat.eqb _ _); [|reflexivity]. rewrite HP by auto. split; [reflexivity|]. split; [reflexivity|]. left. split; [reflexivity|left; cbn; tauto].
  Qed.
End Loops.

(** ** Grids *)
Lemma lattice_even v : equallySpaced v -> exists h, h <> 0 /\ latticeOf v = Ok (Rabs h) /\ forall u, 0 < u -> latticeOf (map (Rmult u) v) = Ok (u * Rabs h).
Proof.
  intros (a & h & n & Hh & ->).
  assert (G : forall a h, latticeOf (F := R) (map (fun i => a + INR i * h) (seq 0 (S (S n)))) = Ok (Rabs h)) by (intros; apply lattice_progression; lia).
  exists h. split; auto. split; [apply G|]. intros u Hu. rewrite map_map.
  replace (u * Rabs h) with (Rabs (u * h)) by (rewrite Rabs_mult, (Rabs_right u) by lra; reflexivity). rewrite <- (G (u * a)). f_equal. apply map_ext. intros i. ring.
Qed.
Lemma lattices_units us vs lat : Forall (fun u => 0 < u) us -> Forall equallySpaced vs -> List.length us = List.length vs ->
  mapM latticeOf vs = Ok lat -> mapM latticeOf (convert us vs) = Ok (map2 Rmult us lat).
Proof.
  intros Hu Hv. revert us lat Hu. induction Hv as [|v vs Hv HF IH]; intros [|u us] lat Hu Hl E; try discriminate; [injection E as <-; reflexivity|].
  cbn [convert map2]. fold (convert us vs). cbn [mapM] in *. destruct (lattice_even v Hv) as (h & _ & E1 & E2). rewrite E1 in E. cbn [bind] in E.
  destruct (mapM latticeOf vs) as [l|] eqn:El; [|discriminate]. injection E as <-. inversion Hu; subst. rewrite E2 by auto. cbn [bind]. rewrite (IH us l); auto.
Qed.
Lemma cart_units us vs : List.length us = List.length vs -> cart (convert us vs) = map (map2 Rmult us) (cart vs).
Proof.
  revert us. induction vs as [|v vs IH]; intros [|u us] E; try discriminate; [reflexivity|]. cbn [convert map2]. fold (convert us vs). cbn [cart]. rewrite IH by (cbn in E; lia).
  clear E. induction v as [|a v IHv]; cbn [map flat_map]; auto. rewrite map_app, IHv. f_equal. rewrite !map_map. reflexivity.
Qed.
Lemma nth_map2_mult us pt k : (k < List.length us)%nat -> nth k (map2 Rmult us pt) 0 = nth k us 1 * nth k pt 0.
Proof.
  revert pt k. induction us as [|u us IH]; intros [|x pt] [|k] Hk; cbn in *; try lia; try ring. apply IH. lia.
Qed.
Lemma map2_seq {A} (f : R -> A -> A) g us a : map2 f us (map g (seq a (List.length us))) = map (fun i => f (nth (i - a) us 1) (g i)) (seq a (List.length us)).
Proof.
  revert a. induction us as [|u us IH]; intros a; [reflexivity|]. cbn [List.length seq map map2]. rewrite Nat.sub_diag. f_equal. rewrite IH. apply map_ext_in. intros i Hi.
  apply in_seq in Hi. replace (i - a)%nat with (S (i - S a)) by lia. reflexivity.
Qed.
Lemma meshgrid_units us vs : List.length us = List.length vs -> meshgrid (convert us vs) = convert us (meshgrid vs).
Proof.
  intros E. assert (El : List.length (convert us vs) = List.length us) by (unfold convert; rewrite map2_length; lia).
  unfold meshgrid. rewrite El, <- E, cart_units by auto. unfold convert. rewrite map2_seq. apply map_ext_in. intros k Hk. apply in_seq in Hk.
  rewrite !map_map, Nat.sub_0_r. apply map_ext. intros pt. apply nth_map2_mult. lia.
Qed.
Lemma shape_units us vs : List.length us = List.length vs -> map (@List.length R) (convert us vs) = map (@List.length R) vs.
Proof.
  revert us. induction vs as [|v vs IH]; intros [|u us] E; try discriminate; auto. cbn [convert map2 map]. fold (convert us vs). rewrite map_length, IH by (cbn in E; lia). reflexivity.
Qed.
Lemma means_units us grid post : Forall (fun u => 0 < u) us ->
  meanValues (convert us grid) post = map2 (fun u row => scl u row) us (meanValues grid post).
Proof.
  intros Hu. unfold meanValues, convert. revert grid. induction Hu as [|u us Hu HF IH]; intros [|g grid]; cbn [map map2]; auto. rewrite IH. f_equal.
  clear IH. induction post as [|p post IHp]; cbn [map]; auto. rewrite IHp. f_equal. rewrite <- sc_sum by auto. f_equal.
  transitivity (amul p (scl u (map Fin g))); [f_equal; rewrite !map_map; reflexivity|]. unfold amul. rewrite !(map2_comm xmul p) by apply xmul_comm. now apply sc_amul.
Qed.
Lemma log_factors us m ts : 0 < Rprod us -> Rsum (map ln (map (factor us m) ts)) = INR (List.length (filter (resetAt m) ts)) * ln (Rprod us).
Proof.
  intros Hu. induction ts as [|t ts IH]; cbn [map Rsum fold_right filter]; [cbn; ring|]. fold (Rsum (map ln (map (factor us m) ts))). rewrite IH. unfold factor at 1.
  destruct (resetAt m t); cbn [List.length]; [rewrite S_INR; ring|rewrite ln_1; ring].
Qed.
Lemma firstn_nth (l : list R) n : (n <= List.length l)%nat -> firstn n l = map (fun i => nth i l 0) (seq 0 n).
Proof.
  revert l. induction n as [|n IH]; intros [|a l] Hn; cbn in Hn |- *; auto; [lia|]. f_equal. rewrite IH by lia. rewrite <- seq_shift, map_map. reflexivity.
Qed.
Lemma filter_map {A B} (f : A -> B) p (l : list A) : List.length (filter p (map f l)) = List.length (filter (fun x => p (f x)) l).
Proof. induction l as [|a l IH]; cbn; auto. destruct (p (f a)); cbn; now rewrite IH. Qed.

Lemma bwd_alive e (o : om R) m : forall items b out, bwdLoop e o m items b = Ok (out, false) -> exists locs, map snd out = map Some locs.
Proof.
  induction items as [|[[a s] t] items IH]; intros b out E; cbn [bwdLoop] in E; [injection E as <-; exists []; reflexivity|].
  destruct (xltb _ _); [|discriminate]. destruct (computeBackwardPrior _ _ _ _ _); [|discriminate]. cbn [bind] in E.
  destruct (bwdLoop _ _ _ items _) as [[out' stop]|] eqn:E1; [|discriminate]. cbn in E. injection E as <- ->. destruct (IH _ _ E1) as (l & El). eexists (_ :: l). cbn. now rewrite El.
Qed.
Lemma sc_sc j k (x : xnum R) : 0 < j -> 0 < k -> sc j (sc k x) = sc (j * k) x.
Proof. intros Hj Hk. change (Fin (j * k)) with (sc j (Fin k)). symmetry. now apply sc_mul. Qed.
Lemma local_first us v : 0 < Rprod us -> forall (x : xnum R), xmul (sc (/ Rprod us) x) (Fin (Rprod us * v)) = xmul x (Fin v) /\ xmul (sc 1 x) (Fin (Rprod us * v)) = sc (Rprod us) (xmul x (Fin v)).
Proof.
  intros HU x. pose proof (Rinv_0_lt_compat _ HU) as HI. split.
  - rewrite sc_mul by auto. rewrite (xmul_comm x), <- !sc_mul by auto.
    change (Fin (Rprod us * v)) with (sc (Rprod us) (Fin v)). rewrite sc_sc by auto. replace (/ Rprod us * Rprod us) with 1 by (field; lra). rewrite sc_one. apply xmul_comm.
  - rewrite sc_one, !(xmul_comm x). rewrite <- sc_mul by auto. reflexivity.
Qed.

Lemma map_repeat' {A B} (f : A -> B) a n : map f (repeat a n) = repeat (f a) n.
Proof. induction n; cbn; auto. now rewrite IHn. Qed.
Section Fit.
  Variables (us : list R) (S S' : study R R) (o o' : om R) (m : tm R) (vs : list (list R)) (ts : list R).
  Hypothesis SU : studiesInUnits us S S' o o' m vs ts.
  Hypothesis Hus : Forall (fun u => 0 < u) us.
  Hypothesis Hlen : List.length us = List.length vs.
  Hypothesis Hvs : Forall equallySpaced vs.
  Hypothesis Ho : omInUnits us o o'.
  Hypothesis Hsum : notSummingToOne o vs.
  Hypothesis Hm : plainChanges m.
  Hypothesis Hn : (0 < nSteps S o)%nat.
  Notation U := (Rprod us).
  Notation m' := (inUnits (om_names o) us m).
  Let C := su_old _ _ _ _ _ _ _ _ SU.
  Let C' := su_new _ _ _ _ _ _ _ _ SU.
  Notation e := (envOf S o (om_prior o)).
  Lemma mapM_len {A B} (f : A -> res B) l r : mapM f l = Ok r -> List.length r = List.length l.
  Proof.
    revert r. induction l as [|a l IH]; intros r E; cbn in E; [now injection E as <-|]. destruct (f a); [|discriminate]. cbn in E.
    destruct (mapM f l); [|discriminate]. cbn in E. injection E as <-. cbn. now rewrite IH.
  Qed.
  Lemma lat_len : List.length us = List.length (st_lat S).
  Proof. rewrite (mapM_len _ _ _ (cf_lat _ _ _ _ _ C)). exact Hlen. Qed.
  Lemma env_units : envOf S' o' (om_prior o') = unitEnv us e (om_prior o').
  Proof.
    destruct (su_oracles _ _ _ _ _ _ _ _ SU) as (O1 & O2 & O3). unfold envOf, unitEnv. cbn [e_shape e_lat e_tmlat e_names e_grid e_shift e_aconv e_bconv].
    rewrite O1, O2, O3, (ou_names us o o' Ho), (cf_shape _ _ _ _ _ C), (cf_shape _ _ _ _ _ C'), shape_units by auto.
    rewrite (cf_grid _ _ _ _ _ C), (cf_grid _ _ _ _ _ C'), meshgrid_units by auto. rewrite (cf_tmlat _ _ _ _ _ C), (cf_tmlat _ _ _ _ _ C').
    pose proof (lattices_units us vs (st_lat S) Hus Hvs Hlen (cf_lat _ _ _ _ _ C)) as El. rewrite (cf_lat _ _ _ _ _ C') in El. injection El as ->. reflexivity.
  Qed.
  Lemma grid_len : List.length (e_grid e) = List.length us.
  Proof. cbn. rewrite (cf_grid _ _ _ _ _ C). unfold meshgrid. rewrite map_length, seq_length. auto. Qed.
  Lemma vol_pos : 0 < e_vol e.
  Proof. unfold e_vol. cbn [e_lat envOf]. rewrite fprod_R. apply Rprod_pos. exact (cf_spacing _ _ _ _ _ C). Qed.
  Lemma lat_ne : Forall (fun l => l <> 0) (e_tmlat e).
  Proof. cbn. rewrite (cf_tmlat _ _ _ _ _ C). eapply Forall_impl; [|exact (cf_spacing _ _ _ _ _ C)]. cbn. intros. lra. Qed.
  Lemma start_units :
    match computePrior e, computePrior (unitEnv us e (om_prior o')) with
    | Ok (a, p, al), Ok (a', p', al') => a' = scl (/ U) a /\ al' = al /\ okPriors us e al p p'
    | Err x, Err y => x = y
    | _, _ => False
    end.
  Proof.
    apply (prior_units us e o o' (om_prior o')); auto using lat_len, grid_len, vol_pos.
    unfold notSummingToOne in Hsum. cbn [e_grid envOf]. unfold e_size. cbn [e_shape envOf]. rewrite (cf_grid _ _ _ _ _ C), (cf_shape _ _ _ _ _ C). destruct (om_prior o); auto.
  Qed.
  Definition resultsInUnits (fo eo : bool) (A B : study R R) : Prop :=
    st_post B = st_post A /\ st_means B = map2 (fun u row => scl u row) us (st_means A) /\ st_fmtTs B = st_fmtTs A /\
    st_logEv B = xladd (F := R) (st_logEv A) (Fin (INR (resetCount m (timeOf ts o) (nSteps S o)) * ln U)) /\
    (noChange m -> (fo || eo = true)%bool -> st_local B = match st_local A with [] => [] | x :: l => x :: map (option_map (fun y => sc U y)) l end) /\
    ((fo || eo = false)%bool -> st_logEv A <> NInf -> st_local B = map (option_map (fun y => sc (/ U) y)) (st_local A)).
  Lemma fit_units fo eo :
    match fit S fo eo, fit S' fo eo with
    | Ok A, Ok B => resultsInUnits fo eo A B
    | Err x, Err y => x = y
    | _, _ => False
    end.
  Proof.
    unfold fit. rewrite (cfg_check S o m vs ts C), (cfg_check S' o' m' (convert us vs) ts C'). cbn [bind].
    rewrite (cf_ts _ _ _ _ _ C), (cf_ts _ _ _ _ _ C'), env_units, (ou_seglen us o o' Ho), (su_raw _ _ _ _ _ _ _ _ SU). pose proof start_units as HS.
    destruct (su_fresh _ _ _ _ _ _ _ _ SU) as (F1 & F2 & F3 & F4). rewrite F1, F2, F3, F4. clear F1 F2 F3 F4.
    destruct (computePrior e) as [[[a0 p0] al0]|x0]; destruct (computePrior (unitEnv us e (om_prior o'))) as [[[a0' p0'] al0']|x1]; cbn [bind]; auto; try contradiction.
    destruct HS as (-> & -> & HP). pose proof (U_pos us Hus) as HU. pose proof (Rinv_0_lt_compat _ HU) as HI.
    pose proof (fwd_units us e o o' m (om_prior o') Hus Ho (eq_trans lat_len (f_equal (@List.length R) (eq_sym (cf_tmlat _ _ _ _ _ C)))) lat_len lat_ne grid_len Hm
      (formatData (st_raw S) (om_seglen o)) (formatTimestamps ts (om_seglen o)) (/ U) a0 al0 p0 p0' (Fin 0) 0 HI HP) as HF.
    change (xladd (F := R) (Fin 0) (Fin 0)) with (Fin (0 + 0)) in HF. rewrite Rplus_0_l in HF. change (e_names e) with (om_names o) in HF.
    change (@Fin R (@l0 R R _)) with (@Fin R 0).
    unfold fwdUnits in HF.
    destruct (fwdLoop e o m _ _ a0 al0 p0 _) as [w|x0] eqn:EW; destruct (fwdLoop (unitEnv us e (om_prior o')) o' m' _ _ _ al0 p0' _) as [w'|x1]; cbn [bind]; auto; try contradiction.
    destruct HF as (H1 & H2 & H3 & H4). rewrite H3, H1. rewrite (vol_units us e lat_len).
    assert (EL : noChange m -> padNone (List.length (formatData (st_raw S) (om_seglen o))) (map (fun s => xmul (snd s) (Fin (U * e_vol e))) (fw_steps w')) =
      match padNone (List.length (formatData (st_raw S) (om_seglen o))) (map (fun s => xmul (snd s) (Fin (e_vol e))) (fw_steps w)) with [] => [] | x :: l => x :: map (option_map (fun y => sc U y)) l end).
    { intros Nm. replace (map (factor us m) (formatTimestamps ts (om_seglen o))) with (map (fun _ : R => 1) (formatTimestamps ts (om_seglen o))) in H2.
      2:{ apply map_ext. intros t. unfold factor, resetAt. destruct (resetBy m t false) eqn:E; auto. apply reset_noChange in E; auto. discriminate. }
      pose proof (f_equal (@List.length _) H1) as Hl. rewrite !map_length in Hl.
      assert (G : forall l : list (xnum R), map (fun n => xmul n (Fin (U * e_vol e))) (map (fun n => sc 1 n) l) = map (fun y => sc U y) (map (fun n => xmul n (Fin (e_vol e))) l)).
      { intros l. rewrite !map_map. apply map_ext. intros x. apply (local_first us (e_vol e) HU x). }
      rewrite <- !(map_map snd (fun n => xmul n _)). rewrite H2. unfold padNone. rewrite !map_length, <- H2, map_length, Hl, H2.
      assert (Hlt : (List.length (fw_steps w) <= Datatypes.S (List.length (formatTimestamps ts (om_seglen o))))%nat).
      { pose proof (f_equal (@List.length _) H2) as E. rewrite map2_length in E. cbn [List.length] in E. rewrite !map_length in E. lia. }
      destruct (fw_steps w) as [|[x y] steps]; cbn [map map2 fst snd].
      - cbn [app]. destruct (List.length (formatData (st_raw S) (om_seglen o)) - List.length [])%nat; cbn [repeat]; auto. f_equal. rewrite map_repeat'. reflexivity.
      - destruct (local_first us (e_vol e) HU y) as [-> _]. cbn [map app]. f_equal. rewrite map_app, map_repeat'. cbn [option_map]. f_equal.
        replace (map2 (fun (k : R) (n : xnum R) => sc k n) (map (fun _ : R => 1) (formatTimestamps ts (om_seglen o))) (map snd steps)) with (map (fun n : xnum R => sc 1 n) (map snd steps)).
        + rewrite G. now rewrite !map_map.
        + cbn [List.length] in Hlt. symmetry. apply Nat.succ_le_mono in Hlt. rewrite <- (map_length snd) in Hlt. revert Hlt. generalize (map snd steps) as l. generalize (formatTimestamps ts (om_seglen o)) as l'.
          induction l' as [|t l' IH]; intros [|n l] Hl'; cbn in *; auto; try lia. f_equal. apply IH. lia. }
    assert (EV : fw_stop w = false -> xladd (F := R) (fw_logEv w') (xln (Fin (U * e_vol e))) = xladd (F := R) (xladd (F := R) (fw_logEv w) (xln (Fin (e_vol e)))) (Fin (INR (resetCount m (timeOf ts o) (nSteps S o)) * ln U))).
    { intros Hs. destruct (H4 Hs) as (-> & _). pose proof vol_pos as HV. change (Fin (U * e_vol e)) with (sc U (Fin (e_vol e))). rewrite sc_ln; auto; [|now apply Rltb_true].
      assert (EN : Rsum (map ln (firstn (List.length (formatData (st_raw S) (om_seglen o))) (/ U :: map (factor us m) (formatTimestamps ts (om_seglen o))))) = - ln U + INR (resetCount m (timeOf ts o) (nSteps S o)) * ln U).
      { change (List.length (formatData (st_raw S) (om_seglen o))) with (nSteps S o). destruct (nSteps S o) as [|n] eqn:En; [lia|]. cbn [firstn map Rsum fold_right]. rewrite ln_Rinv by auto. f_equal.
        rewrite firstn_map. fold (Rsum (map ln (map (factor us m) (firstn n (formatTimestamps ts (om_seglen o)))))). rewrite log_factors by auto. f_equal. f_equal. unfold resetCount. replace (Datatypes.S n - 1)%nat with n by lia.
        rewrite firstn_nth by (rewrite (cfg_ts_len S o m vs ts C), En; lia). rewrite filter_map. f_equal. apply filter_ext. intros i. now rewrite cfg_ts_nth. }
      rewrite EN. destruct (fw_logEv w) as [x| | |]; destruct (xln (L := R) (Fin (e_vol e))) as [y| | |]; cbn; auto. f_equal. ring. }
    assert (M0 : map2 (fun u row => scl u row) us (@nil (list (xnum R))) = []) by (destruct us; reflexivity).
    assert (EG : st_grid S' = convert us (st_grid S)) by (rewrite (cf_grid _ _ _ _ _ C), (cf_grid _ _ _ _ _ C'); now apply meshgrid_units).
    destruct (fw_stop w) eqn:Es.
    { unfold resultsInUnits. cbn [set_results st_post st_means st_fmtTs st_logEv st_local]. rewrite M0. do 4 (split; [reflexivity|]). split; [intros Nm _; now apply EL|]. intros _ X. now elim X. }
    specialize (EV eq_refl). destruct (H4 eq_refl) as (_ & HW & _).
    destruct eo.
    { unfold resultsInUnits. cbn [set_results st_post st_means st_fmtTs st_logEv st_local]. rewrite M0. do 3 (split; [reflexivity|]). split; [exact EV|]. split; [intros Nm _; now apply EL|]. rewrite orb_true_r. discriminate. }
    destruct fo.
    { unfold resultsInUnits. cbn [set_results st_post st_means st_fmtTs st_logEv st_local]. rewrite EG, means_units by auto. do 3 (split; [reflexivity|]). split; [exact EV|]. split; [intros Nm _; now apply EL|]. discriminate. }
    change (e_size (unitEnv us e (om_prior o'))) with (e_size e).
    set (items := rev (combine (combine (map fst (fw_steps w)) (formatData (st_raw S) (om_seglen o))) (formatTimestamps ts (om_seglen o)))).
    set (beta := normalise (aones (e_size e))).
    assert (EB : bwdLoop (with_prior (unitEnv us e (om_prior o')) (fw_prior w')) o' m' items beta =
      rmap (fun r => (map (fun x => (fst x, option_map (fun y => sc (/ U) y) (snd x))) (fst r), snd r)) (bwdLoop (with_prior e (fw_prior w)) o m items beta)).
    { destruct HW as [HW|HW].
      - unfold items. rewrite HW. reflexivity.
      - refine (bwd_units us e o o' m (om_prior o') Hus Ho (eq_trans lat_len (f_equal (@List.length R) (eq_sym (cf_tmlat _ _ _ _ _ C)))) lat_len lat_ne grid_len vol_pos Hm _ _ HW _ _). }
    rewrite EB. destruct (bwdLoop (with_prior e (fw_prior w)) o m items beta) as [[out stop]|x0] eqn:EQ; [|reflexivity]. cbn [rmap bind fst snd].
    assert (E1 : map fst (map (fun x : list (xnum R) * option (xnum R) => (fst x, option_map (fun y => sc (/ U) y) (snd x))) out) = map fst out) by (rewrite map_map; reflexivity).
    rewrite E1. destruct stop.
    { unfold resultsInUnits. cbn [set_results st_post st_means st_fmtTs st_logEv st_local]. rewrite M0. do 4 (split; [reflexivity|]). split; [discriminate|]. intros _ X. now elim X. }
    unfold resultsInUnits. cbn [set_results st_post st_means st_fmtTs st_logEv st_local]. rewrite EG, means_units by auto. do 3 (split; [reflexivity|]). split; [exact EV|]. split; [discriminate|].
    intros _ _. destruct (bwd_alive _ _ _ _ _ _ EQ) as (locs & EO).
    assert (E2 : map snd (map (fun x : list (xnum R) * option (xnum R) => (fst x, option_map (fun y => sc (/ U) y) (snd x))) out) = map Some (map (fun y => sc (/ U) y) locs)).
    { rewrite map_map. cbn [snd]. rewrite <- (map_map snd (option_map (fun y => sc (/ U) y))), EO, !map_map. reflexivity. }
    rewrite E2, EO, <- !map_rev. pose proof (f_equal (@List.length _) H1) as Hl. rewrite !map_length in Hl.
    assert (G : forall (l l' : list (list (xnum R) * xnum R)) f g r, List.length l = List.length l' ->
      map2 (fun old new => match new with Some x => Some x | None => Some old end) (map f l) (map Some (map (fun y => sc (/ U) y) r)) =
      map (option_map (fun y => sc (/ U) y)) (map2 (fun (old : xnum R) new => match new with Some x => Some x | None => Some old end) (map g l') (map Some r))).
    { induction l as [|x l IH]; intros [|x' l'] f g [|y r] El; cbn in *; try discriminate; auto. f_equal. apply IH. lia. }
    now apply G.
  Qed.
End Fit.
