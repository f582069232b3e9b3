(** Lemmas about change-point studies. *)
From Coq Require Import List ZArith Reals Lra Lia Arith Bool String Sorted.
From Verif Require Import Base.Num Base.Exn Base.Arr Base.RSum Base.Lift Model.Helper Model.Tm Model.HyperParams Model.Study
  Model.Getters Model.Hyper Model.Changepoint Spec.Kernel Spec.Config Spec.Dist Spec.Names Spec.HyperSpec Spec.ChangeSpec
  Proof.KernelProof Proof.SetupProof Proof.DataProof Proof.NamesProof Proof.LogProof Proof.GridProof Proof.HyperProof Proof.HyperFit.
Import ListNotations.
Local Open Scope R_scope.

(** ** names of the points *)
Inductive subseq {A} : list A -> list A -> Prop :=
| ss_nil : subseq [] []
| ss_skip a l L : subseq l L -> subseq l (a :: L)
| ss_take a l L : subseq l L -> subseq (a :: l) (a :: L).
Lemma subseq_app {A} (l1 L1 l2 L2 : list A) : subseq l1 L1 -> subseq l2 L2 -> subseq (l1 ++ l2) (L1 ++ L2).
Proof. intros A1 A2. induction A1; cbn; [exact A2|now apply ss_skip|now apply ss_take]. Qed.
Lemma subseq_refl {A} (l : list A) : subseq l l.
Proof. induction l; [constructor|]. now apply ss_take. Qed.
Lemma subseq_none {A} (l : list A) : subseq [] l.
Proof. induction l; [constructor|]. now apply ss_skip. Qed.
Lemma subseq_incl {A} (l L : list A) : subseq l L -> incl l L.
Proof. induction 1 as [|a l L HS IH|a l L HS IH]; intros x Hx; [contradiction|right; auto|]. destruct Hx as [->|Hx]; [now left|right; auto]. Qed.
Lemma existsb_In (l : list string) n : existsb (String.eqb n) l = true <-> In n l.
Proof.
  rewrite existsb_exists. split; [intros (x & Hx & E); apply String.eqb_eq in E; now subst|]. intros Hn. exists n. split; auto. apply String.eqb_refl.
Qed.
Lemma subseq_filter (l L : list string) : subseq l L -> NoDup L -> filter (fun n => existsb (String.eqb n) l) L = l.
Proof.
  induction 1 as [|a l L HS IH|a l L HS IH]; intros ND; [reflexivity| |]; inversion ND as [|? ? Na ND']; subst; cbn [filter].
  - destruct (existsb (String.eqb a) l) eqn:E; auto. apply existsb_In in E. apply (subseq_incl _ _ HS) in E. contradiction.
  - cbn [existsb]. rewrite String.eqb_refl. cbn [orb]. f_equal. transitivity (filter (fun n => existsb (String.eqb n) l) L); [|auto]. apply filter_ext_in. intros n Hn.
    destruct (String.eqb_spec n a) as [->|]; [contradiction|reflexivity].
Qed.
Lemma points_subseq (m : tm R) : subseq (changepointNames m) (allNames m) /\ subseq (breakpointNames m) (allNames m).
Proof.
  unfold changepointNames, breakpointNames, allNames.
  induction m as [k names vals prior ms IH] using tm_ind'. cbn [unpackChangepointNames unpackBreakpointNames unpackNames flatten].
  rewrite !flat_map_app. split; apply subseq_app.
  1,3: clear - IH; induction IH as [|m ms [H1 H2] HF IHms]; cbn; [constructor|]; apply subseq_app; auto.
  - destruct k; try apply subseq_none. apply subseq_refl.
  - destruct k; try apply subseq_none. apply subseq_refl.
Qed.

(** ** selecting columns and rows *)
Lemma pick_map {A B} (f : A -> bool) (l : list A) (r : list B) : pick (map f l) r = map snd (filter (fun p => f (fst p)) (combine l r)).
Proof. unfold pick. revert r. induction l; intros [|b r]; cbn; auto. destruct (f a); cbn; now rewrite IHl. Qed.
Lemma pick_nil {A} mask : pick mask (@nil A) = [].
Proof. unfold pick. now destruct mask. Qed.
Lemma pick_cons {A} b mask (a : A) l : pick (b :: mask) (a :: l) = if b then a :: pick mask l else pick mask l.
Proof. unfold pick. cbn. now destruct b. Qed.
Lemma lookup_times f names (row : list R) : NoDup names -> (List.length names <= List.length row)%nat ->
  map (fun n => match lookup (combine names row) n with Some t => t | None => 0 end) (filter f names) = map snd (filter (fun p => f (fst p)) (combine names row)).
Proof.
  intros ND. revert row. induction ND as [|n names Hn ND IH]; intros [|r row] El; cbn in El; try lia; auto.
  cbn [combine filter fst]. assert (E : map (fun n0 => match lookup ((n, r) :: combine names row) n0 with Some t => t | None => 0 end) (filter f names) =
    map (fun n0 => match lookup (combine names row) n0 with Some t => t | None => 0 end) (filter f names)).
  { apply map_ext_in. intros a Ha. apply filter_In in Ha as [Ha _]. cbn [lookup]. destruct (String.eqb_spec n a) as [->|]; [contradiction|reflexivity]. }
  destruct (f n); cbn [map snd]; [cbn [lookup]; rewrite String.eqb_refl; f_equal|]; rewrite <- IH by lia; exact E.
Qed.
Lemma increasing_iff (l : list R) : increasing l = true <-> StronglySorted Rlt l.
Proof.
  induction l as [|a l IH]; [split; auto; constructor|]. destruct l as [|b l].
  - split; auto. intros _. repeat constructor.
  - change (increasing (a :: b :: l)) with (Rltb a b && increasing (b :: l)). rewrite andb_true_iff, IH, Rltb_true. split.
    + intros [H1 H2]. constructor; auto. inversion H2 as [|? ? SS FA]; subst. constructor; auto. eapply Forall_impl; [|exact FA]. cbn. intros; lra.
    + intros HS. inversion HS as [|? ? SS FA]; subst. inversion FA; subst. auto.
Qed.

(** ** one kind of points only *)
Definition thePoints (m : tm R) : list string := match changepointNames m with [] => breakpointNames m | cps => cps end.
Definition oneKind (m : tm R) : Prop := (changepointNames m = [] \/ breakpointNames m = []) /\ pointNames m <> [].
Lemma thePoints_eq m : oneKind m -> thePoints m = pointNames m.
Proof. intros [[E|E] _]; unfold thePoints, pointNames; rewrite E; auto. rewrite app_nil_r. now destruct (changepointNames m). Qed.
Lemma ordered_iff (m : tm R) row : oneKind m -> NoDup (allNames m) -> (List.length (allNames m) <= List.length row)%nat ->
  increasing (firstn (List.length (thePoints m)) (pick (pointMask (allNames m) (thePoints m)) row)) = true <-> ordered m row.
Proof.
  intros K ND El. rewrite increasing_iff. unfold ordered. rewrite <- (thePoints_eq m K).
  assert (E : pick (pointMask (allNames m) (thePoints m)) row = map (timeIn m row) (thePoints m)).
  { unfold pointMask. rewrite pick_map. etransitivity; [symmetry; exact (lookup_times (fun n => existsb (String.eqb n) (thePoints m)) (allNames m) row ND El)|]. unfold timeIn. f_equal. apply subseq_filter; auto. unfold thePoints. destruct (points_subseq m) as [P1 P2].
    destruct (changepointNames m); auto. }
  rewrite E, firstn_all2 by (rewrite map_length; lia). tauto.
Qed.
Lemma mask_length names points (rows : list (list R)) : List.length (orderMask names points rows) = List.length rows.
Proof. unfold orderMask. apply map_length. Qed.
Lemma mask_nth names points (rows : list (list R)) i : (i < List.length rows)%nat ->
  nth i (orderMask names points rows) false = increasing (firstn (List.length points) (pick (pointMask names points) (nth i rows []))).
Proof.
  intros Hi. unfold orderMask. rewrite (nth_indep _ false ((fun row : list R => increasing (firstn (List.length points) (pick (pointMask names points) row))) [])) by now rewrite map_length.
  apply (map_nth (fun row : list R => increasing (firstn (List.length points) (pick (pointMask names points) row)))).
Qed.

(** ** spreading *)
Definition count (mask : list bool) : nat := List.length (filter (fun b => b) mask).
Lemma pick_length {A} mask (l : list A) : List.length mask = List.length l -> List.length (pick mask l) = count mask.
Proof. unfold pick, count. revert l. induction mask as [|b mask IH]; intros [|a l] E; cbn in *; try discriminate; auto. destruct b; cbn; rewrite IH; auto. Qed.
Lemma pick_fin mask l : pick mask (fin l) = fin (pick mask l).
Proof. revert mask. induction l as [|a l IH]; intros [|b mask]; cbn [map]; auto. rewrite !pick_cons. destruct b; cbn; now rewrite IH. Qed.
(** numbers at the places of the mask, zero elsewhere *)
Fixpoint spreadR (mask : list bool) (vals : list R) : list R :=
  match mask with
  | [] => []
  | true :: mask' => match vals with v :: vals' => v :: spreadR mask' vals' | [] => 0 :: spreadR mask' [] end
  | false :: mask' => 0 :: spreadR mask' vals
  end.
Lemma spread_fin mask l : spread mask (fin l) = fin (spreadR mask l).
Proof. revert l. induction mask as [|[|] mask IH]; intros l; cbn; auto; [destruct l; cbn; rewrite <- IH; auto|now rewrite IH]. Qed.
Lemma spreadR_length mask l : List.length (spreadR mask l) = List.length mask.
Proof. revert l. induction mask as [|[|] mask IH]; intros l; cbn; auto. destruct l; cbn; auto. Qed.
Lemma spreadR_false mask l i : nth i mask false = false -> Rnth (spreadR mask l) i = 0.
Proof.
  revert l i. induction mask as [|b mask IH]; intros l [|i] E; cbn in E |- *; auto; unfold Rnth in *.
  - subst. reflexivity.
  - destruct b; [destruct l|]; cbn; apply IH; auto.
Qed.
Lemma spread_pick mask l : List.length mask = List.length l -> forall i, nth i mask false = true -> Rnth (spreadR mask (pick mask l)) i = Rnth l i.
Proof.
  revert l. induction mask as [|b mask IH]; intros [|a l] E i Hi; cbn in E; try discriminate; [destruct i; discriminate|].
  rewrite pick_cons. destruct i as [|i]; cbn in Hi.
  - subst. reflexivity.
  - destruct b; cbn [spreadR]; unfold Rnth; cbn [nth]; apply (IH l); auto.
Qed.
Lemma pick_spread mask l : List.length l = count mask -> pick mask (spreadR mask l) = l.
Proof.
  unfold count. revert l. induction mask as [|b mask IH]; intros l E; cbn in E; [destruct l; try discriminate; apply pick_nil|].
  destruct b; cbn [spreadR]; [destruct l as [|a l]; cbn in E; try discriminate|]; rewrite pick_cons; [f_equal|]; apply IH; cbn in E; lia.
Qed.
Lemma Rsum_spread mask l : List.length l = count mask -> Rsum (spreadR mask l) = Rsum l.
Proof.
  unfold count. revert l. induction mask as [|b mask IH]; intros l E; cbn in E; [destruct l; try discriminate; reflexivity|].
  destruct b; cbn [spreadR]; [destruct l as [|a l]; cbn in E; try discriminate|]; cbn [Rsum fold_right]; fold (Rsum l); rewrite <- (IH l) by lia; fold (Rsum (spreadR mask l)); lra.
Qed.
(** the sum over the picked entries as a sum over all *)
Lemma Rsum_pick mask l : List.length mask = List.length l -> Rsum (pick mask l) = rsum (List.length l) (fun i => if nth i mask false then Rnth l i else 0).
Proof.
  intros E. rewrite <- (Rsum_spread mask) by now apply pick_length. rewrite Rsum_rnth, spreadR_length, E. apply rsum_ext. intros i Hi.
  destruct (nth i mask false) eqn:Ei; [now apply spread_pick|now apply spreadR_false].
Qed.
Lemma pick_In {A} mask (l : list A) x d : List.length mask = List.length l -> In x (pick mask l) <-> exists i, (i < List.length l)%nat /\ nth i mask false = true /\ nth i l d = x.
Proof.
  revert l. induction mask as [|b mask IH]; intros [|a l] E; cbn in E; try discriminate.
  - rewrite pick_nil. split; [contradiction|]. intros (i & Hi & _). cbn in Hi. lia.
  - rewrite pick_cons. assert (IH' := IH l ltac:(lia)). destruct b.
    + cbn [In]. rewrite IH'. split.
      * intros [->|(i & Hi & E1 & E2)]; [exists O; cbn; auto with arith|exists (S i); cbn; auto with arith].
      * intros ([|i] & Hi & E1 & E2); cbn in *; [now left|right]. exists i. auto with arith.
    + rewrite IH'. split.
      * intros (i & Hi & E1 & E2). exists (S i). cbn. auto with arith.
      * intros ([|i] & Hi & E1 & E2); cbn in *; [discriminate|]. exists i. auto with arith.
Qed.
Lemma pick_NoDup {A} mask (l : list A) : NoDup l -> NoDup (pick mask l).
Proof.
  intros ND. revert mask. induction ND as [|a l Ha ND IH]; intros [|b mask]; try (rewrite pick_nil; constructor).
  - unfold pick. constructor.
  - rewrite pick_cons. destruct b; auto. constructor; auto. intros Hin. apply Ha. clear - Hin. unfold pick in Hin. apply in_map_iff in Hin as ([b x] & <- & Hx).
    apply filter_In in Hx as [Hx _]. eapply in_combine_r; eauto.
Qed.
Lemma pick_Forall {A} (P : A -> Prop) mask l : Forall P l -> Forall P (pick mask l).
Proof.
  intros HF. apply Forall_forall. intros x Hx. unfold pick in Hx. apply in_map_iff in Hx as ([b y] & <- & Hx). apply filter_In in Hx as [Hx _].
  rewrite Forall_forall in HF. apply HF. eapply in_combine_r; eauto.
Qed.
Lemma pick_Forall2 {A B} (P : A -> B -> Prop) mask l r : Forall2 P l r -> Forall2 P (pick mask l) (pick mask r).
Proof.
  intros HF. revert mask. induction HF; intros [|b mask]; try (rewrite ?pick_nil; constructor); try (unfold pick; constructor).
  rewrite !pick_cons. destruct b; auto.
Qed.

(** ** fit *)
Lemma hyperFitGrid_keeps (H0 : hyper R R) fo eo j H' : hyperFitGrid H0 fo eo j = Ok H' ->
  hy_vals H' = hy_vals H0 /\ hy_names H' = hy_names H0 /\ hy_grid H' = hy_grid H0 /\ hy_const H' = hy_const H0 /\ hy_pv H' = hy_pv H0.
Proof.
  unfold hyperFitGrid. destruct (checkConsistency _) as [om_tm|]; [|discriminate]. cbn [bind]. destruct (Nat.ltb 1 _).
  - destruct (runAnalyses _ _ _ _ _ _ _) as [[[[S1 evs] locs] avg]|]; [|discriminate]. cbn [bind]. destruct (st_tm S1) as [m1|]; [|discriminate].
    destruct (setAll m1 _) as [m2 [e|]]; [discriminate|]. intros E. inversion E; subst. cbn. auto.
  - destruct (fit _ fo eo) as [S1|]; [|discriminate]. cbn [bind]. intros E. inversion E; subst. cbn. auto.
Qed.

Section Fit.
  Variables (C : cpstudy R R) (o : om R) (m : tm R) (ts : list R).
  Notation H := (cp_H C).
  Hypothesis HR : hyperReady H o m ts.
  Definition rescaled (mask : list bool) (pv : list (xnum R)) : list (xnum R) := amuls (pick mask pv) (xdiv (asum pv) (asum (pick mask pv))).
  Definition cpGrid vals rows cs pv m' : hyper R R :=
    let mask := orderMask (allNames m) (thePoints m) rows in withGrid H o m ts vals (pick mask rows) cs (rescaled mask pv) m'.
  Definition cpResult rows pv mask (H2 : hyper R R) (d : list (xnum R)) : cpstudy R R :=
    {| cp_H := with_dist (with_grid H2 (hy_grid H2) (spread mask (hy_pv H2))) (Some d); cp_all := rows; cp_allPv := pv; cp_mask := mask |}.

  Lemma cpFit_unfold fo eo j : (serialCount m <= 1)%nat -> oneKind m ->
    changepointFit C fo eo j =
    (let* g := createHyperGrid m ts in
     let '(vals, rows, cs, pv, m') := g in
     let mask := orderMask (allNames m) (thePoints m) rows in
     let* H2 := hyperFitGrid (cpGrid vals rows cs pv m') fo eo j in
     let* d := spreadDist mask (hy_dist H2) in
     Ok (cpResult rows pv mask H2 d))%res.
  Proof.
    intros Hs K. destruct HR as [h1 h2 (rts & h3 & h4) _ _ _]. unfold changepointFit, formatStudy. rewrite h1, h3, <- h4. cbn [bind]. cbn [st_tm set_format]. rewrite h2.
    destruct (Nat.ltb 1 (serialCount m)) eqn:El; [apply Nat.ltb_lt in El; lia|].
    fold (thePoints m). unfold withHyperGrid. cbn [with_study hy_S st_tm set_format st_fmtTs]. rewrite h2. destruct K as [K0 K1]. unfold pointNames in K1.
    destruct (createHyperGrid m ts) as [[[[[vals rows] cs] pv] m']|]; cbn [bind];
      destruct (changepointNames m), (breakpointNames m); try reflexivity; try (exfalso; apply K1; reflexivity); destruct K0; discriminate.
  Qed.
  Lemma cpFit_kind fo eo j C' : changepointFit C fo eo j = Ok C' -> (serialCount m <= 1)%nat /\ oneKind m.
  Proof.
    destruct HR as [h1 h2 (rts & h3 & h4) _ _ _]. unfold changepointFit, formatStudy. rewrite h1, h3. cbn [bind]. cbn [st_tm set_format]. rewrite h2.
    destruct (Nat.ltb 1 (serialCount m)) eqn:El; [discriminate|]. apply Nat.ltb_ge in El. intros E. split; auto. unfold oneKind, pointNames.
    destruct (changepointNames m), (breakpointNames m); try discriminate; split; auto; discriminate.
  Qed.
  Lemma cpFit_inv fo eo j C' : changepointFit C fo eo j = Ok C' ->
    exists vals rows cs pv m' H2 d,
      (serialCount m <= 1)%nat /\ oneKind m /\ createHyperGrid m ts = Ok (vals, rows, cs, pv, m') /\
      hyperFitGrid (cpGrid vals rows cs pv m') fo eo j = Ok H2 /\
      spreadDist (orderMask (allNames m) (thePoints m) rows) (hy_dist H2) = Ok d /\
      C' = cpResult rows pv (orderMask (allNames m) (thePoints m) rows) H2 d /\
      hy_vals H2 = vals /\ hy_names H2 = allNames m /\ hy_grid H2 = pick (orderMask (allNames m) (thePoints m) rows) rows /\
      hy_const H2 = cs /\ hy_pv H2 = rescaled (orderMask (allNames m) (thePoints m) rows) pv.
  Proof.
    intros E. destruct (cpFit_kind _ _ _ _ E) as [Hs K]. rewrite cpFit_unfold in E by auto.
    destruct (createHyperGrid m ts) as [[[[[vals rows] cs] pv] m']|] eqn:EG; [|discriminate]. cbn [bind] in E. cbv zeta in E.
    destruct (hyperFitGrid _ fo eo j) as [H2|] eqn:EF; [|discriminate]. cbn [bind] in E. destruct (spreadDist _ _) as [d|] eqn:ED; [|discriminate]. cbn [bind] in E.
    inversion E; subst C'. destruct (hyperFitGrid_keeps _ _ _ _ _ EF) as (k1 & k2 & k3 & k4 & k5).
    exists vals, rows, cs, pv, m', H2, d. repeat (split; [auto; fail|]). exact k5.
  Qed.
End Fit.

Lemma spread_inv mask (X : list (xnum R)) pv : List.length X = count mask -> spread mask X = fin pv -> X = fin (pick mask pv) /\ spreadR mask (pick mask pv) = pv.
Proof.
  unfold count. revert X pv. induction mask as [|b mask IH]; intros X pv EL E; cbn in EL.
  - destruct X; [|discriminate]. destruct pv; [|discriminate]. split; reflexivity.
  - destruct b; cbn [spread] in E.
    + destruct X as [|x X]; cbn in EL; [discriminate|]. destruct pv as [|p pv]; cbn in E; [discriminate|]. inversion E as [[E1 E2]]. destruct (IH X pv) as [I1 I2]; auto.
      rewrite pick_cons. cbn [spreadR map]. split; f_equal; auto.
    + destruct pv as [|p pv]; cbn in E; [discriminate|]. inversion E as [[E1 E2]]. destruct (IH X pv) as [I1 I2]; auto. rewrite pick_cons. cbn [spreadR]. split; auto. f_equal; auto.
Qed.
Lemma pick_map' {A B} (f : A -> B) mask (l : list A) : pick mask (map f l) = map f (pick mask l).
Proof. revert mask. induction l as [|a l IH]; intros [|b mask]; auto; cbn [map]; rewrite !pick_cons. destruct b; cbn; now rewrite IH. Qed.
Lemma pick_map2 {A B D} (f : A -> B -> D) mask (l : list A) (r : list B) : List.length l = List.length r -> pick mask (map2 f l r) = map2 f (pick mask l) (pick mask r).
Proof.
  revert mask r. induction l as [|a l IH]; intros [|b mask] [|c r] E; cbn in E; try discriminate; auto. cbn [map2]. rewrite !pick_cons. destruct b; cbn [map2]; rewrite IH by lia; auto.
Qed.
Lemma count_all mask {A} (l : list A) : List.length (pick mask l) = List.length (pick mask (repeat tt (List.length l))).
Proof. revert mask. induction l as [|a l IH]; intros [|b mask]; cbn [repeat List.length]; auto. rewrite !pick_cons. destruct b; cbn; auto. Qed.

(** like [spreadR] for other types *)
Fixpoint fill {A} (d : A) (mask : list bool) (l : list A) : list A :=
  match mask with
  | [] => []
  | true :: mask' => match l with v :: l' => v :: fill d mask' l' | [] => d :: fill d mask' [] end
  | false :: mask' => d :: fill d mask' l
  end.
Lemma fill_length {A} (d : A) mask l : List.length (fill d mask l) = List.length mask.
Proof. revert l. induction mask as [|[|] mask IH]; intros l; cbn; auto. destruct l; cbn; auto. Qed.
Lemma pick_fill {A} (d : A) mask l : List.length l = count mask -> pick mask (fill d mask l) = l.
Proof.
  unfold count. revert l. induction mask as [|b mask IH]; intros l E; cbn in E; [destruct l; try discriminate; apply pick_nil|].
  destruct b; cbn [fill]; [destruct l as [|a l]; cbn in E; try discriminate|]; rewrite pick_cons; [f_equal|]; apply IH; cbn in E; lia.
Qed.
Lemma pick_Forall2_nth {A B} (P : A -> B -> Prop) mask l r d d' : List.length mask = List.length l -> List.length mask = List.length r ->
  Forall2 P (pick mask l) (pick mask r) -> forall i, nth i mask false = true -> P (nth i l d) (nth i r d').
Proof.
  revert l r. induction mask as [|b mask IH]; intros [|a l] [|c r] E1 E2 HF i Hi; cbn in E1, E2; try discriminate; [destruct i; discriminate|].
  rewrite !pick_cons in HF. destruct i as [|i]; cbn in Hi |- *.
  - subst. now inversion HF.
  - apply IH; auto. destruct b; auto. now inversion HF.
Qed.
Lemma pick_nth_Forall2 {A B} (P : A -> B -> Prop) mask l r d d' : List.length mask = List.length l -> List.length mask = List.length r ->
  (forall i, nth i mask false = true -> P (nth i l d) (nth i r d')) -> Forall2 P (pick mask l) (pick mask r).
Proof.
  revert l r. induction mask as [|b mask IH]; intros [|a l] [|c r] E1 E2 HP; cbn in E1, E2; try discriminate; [unfold pick; constructor|].
  rewrite !pick_cons. assert (G : Forall2 P (pick mask l) (pick mask r)) by (apply IH; auto; intros i Hi; apply (HP (S i)); exact Hi).
  destruct b; auto. constructor; auto. apply (HP O). reflexivity.
Qed.

(** ** positions of names *)
Lemma lookup_nth (names : list string) (row : list R) i n : NoDup names -> nth_error names i = Some n -> (List.length names <= List.length row)%nat ->
  match lookup (combine names row) n with Some t => t | None => 0 end = nth i row 0.
Proof.
  intros ND. revert row i. induction ND as [|a names Ha ND IH]; intros [|r row] [|i] E El; cbn in E, El; try discriminate; try lia.
  - inversion E; subst. cbn. now rewrite String.eqb_refl.
  - cbn [combine lookup nth]. destruct (String.eqb_spec a n) as [->|]; [apply nth_error_In in E; contradiction|]. apply IH; auto. lia.
Qed.
Lemma subseq_order (l1 l2 l3 L : list string) na nb i j : subseq (l1 ++ na :: l2 ++ nb :: l3) L -> NoDup L ->
  nth_error L i = Some na -> nth_error L j = Some nb -> (i < j)%nat.
Proof.
  remember (l1 ++ na :: l2 ++ nb :: l3) as l eqn:El. intros HS. revert l1 El i j. induction HS as [|a l L HS IH|a l L HS IH]; intros l1 El i j ND Ei Ej.
  - destruct l1; discriminate.
  - inversion ND; subst. pose proof (subseq_incl _ _ HS) as Hi. destruct i as [|i]; cbn in Ei.
    { inversion Ei; subst. exfalso. apply H1. apply Hi. apply in_or_app. right. now left. }
    destruct j as [|j]; cbn in Ej.
    { inversion Ej; subst. exfalso. apply H1. apply Hi. apply in_or_app. right. right. apply in_or_app. right. now left. }
    apply -> Nat.succ_lt_mono. eapply IH; eauto.
  - inversion ND; subst. pose proof (subseq_incl _ _ HS) as Hi. destruct l1 as [|b l1]; cbn in El; inversion El; subst.
    + assert (In nb L) by (apply Hi; apply in_or_app; right; now left). destruct j as [|j]; cbn in Ej; [inversion Ej; subst; contradiction|].
      destruct i as [|i]; [lia|]. cbn in Ei. apply nth_error_In in Ei. contradiction.
    + assert (In na L) by (apply Hi; apply in_or_app; right; now left).
      assert (In nb L) by (apply Hi; apply in_or_app; right; right; apply in_or_app; right; now left).
      destruct i as [|i]; cbn in Ei; [inversion Ei; subst; contradiction|]. destruct j as [|j]; cbn in Ej; [inversion Ej; subst; contradiction|].
      apply -> Nat.succ_lt_mono. eapply IH; eauto.
Qed.
Lemma sorted_app_lt (l1 l2 l3 : list R) a b : StronglySorted Rlt (l1 ++ a :: l2 ++ b :: l3) -> a < b.
Proof.
  induction l1 as [|x l1 IH]; cbn; intros HS; inversion HS as [|? ? SS FA]; subst; auto. rewrite Forall_forall in FA. apply FA. apply in_or_app. right. now left.
Qed.
