(** The hyper-grid. *)
From Coq Require Import List ZArith Reals Lra Lia Arith Bool String.
From Verif Require Import Base.Num Base.Exn Base.Arr Base.RSum Base.Lift Model.Helper Model.Tm Model.HyperParams Model.Study
  Model.Hyper Spec.Kernel Spec.Names Spec.HyperSpec Proof.KernelProof Proof.SetupProof Proof.NamesProof Proof.LogProof.
Import ListNotations.
Local Open Scope R_scope.

Lemma valueList_points ts v xs : valueList ts v xs <-> pointsOf (replaceAll ts v) = Ok xs.
Proof.
  destruct v; cbn; (split; [intros E; subst; try reflexivity; tauto|intros E; try (inversion E; reflexivity); discriminate]).
Qed.
Lemma mapM_Forall2 {A B} (f : A -> res B) l r : mapM f l = Ok r <-> Forall2 (fun a b => f a = Ok b) l r.
Proof.
  split.
  - revert r. induction l as [|a l IH]; intros r E; cbn in E; [inversion E; constructor|].
    destruct (f a) as [b|] eqn:Ea; [|discriminate]. cbn in E. destruct (mapM f l) as [r'|]; [|discriminate]. cbn in E. inversion E; subst. constructor; auto.
  - induction 1 as [|a b l r Ea HF IH]; cbn; auto. rewrite Ea. cbn. now rewrite IH.
Qed.
Lemma Forall2_map_l {A B C} (f : A -> B) (P : B -> C -> Prop) l r : Forall2 P (map f l) r <-> Forall2 (fun a => P (f a)) l r.
Proof.
  split.
  - revert r. induction l as [|a l IH]; intros r E; inversion E; subst; constructor; auto.
  - induction 1; cbn; constructor; auto.
Qed.
Lemma Forall2_iff {A B} (P Q : A -> B -> Prop) l r : (forall a b, P a b <-> Q a b) -> Forall2 P l r <-> Forall2 Q l r.
Proof. intros E. split; induction 1; constructor; auto; now apply E. Qed.
Lemma points_iff ts vs pts : mapM pointsOf (map (replaceAll ts) vs) = Ok pts <-> Forall2 (valueList ts) vs pts.
Proof.
  rewrite mapM_Forall2, Forall2_map_l. apply Forall2_iff. intros. symmetry. apply valueList_points.
Qed.

Lemma diff_nth : forall (v : list R) i, (i + 1 < List.length v)%nat -> nth_error (diff (F := R) v) i = Some (nth (i + 1) v 0 - nth i v 0).
Proof.
  induction v as [|a v IH]; intros i Hi; [simpl in Hi; lia|]. destruct v as [|b v]; [simpl in Hi; lia|].
  cbn [diff]. destruct i; [reflexivity|]. cbn [nth_error]. rewrite IH by (simpl in *; lia). reflexivity.
Qed.
Lemma diff_length (v : list R) : List.length (diff (F := R) v) = (List.length v - 1)%nat.
Proof.
  induction v as [|a v IH]; [reflexivity|]. destruct v as [|b v]; [reflexivity|]. cbn [diff List.length] in *. rewrite IH. lia.
Qed.
Lemma evenly_forallb xs : forallb (fun d => fltb (fabs d) (tol10 (F := R))) (diff (F := R) (diff (F := R) xs)) = true <-> evenly xs.
Proof.
  assert (T : tol10 (F := R) = / 10000000000) by (unfold tol10; cbn; unfold Rdiv; lra).
  assert (G : forall i, (i + 2 < List.length xs)%nat -> nth_error (diff (F := R) (diff (F := R) xs)) i = Some ((nth (i + 2) xs 0 - nth (i + 1) xs 0) - (nth (i + 1) xs 0 - nth i xs 0))).
  { intros i Hi. rewrite diff_nth by (rewrite diff_length; lia). f_equal.
    rewrite (nth_error_nth _ _ _ (diff_nth xs (i + 1)%nat ltac:(lia))), (nth_error_nth _ _ _ (diff_nth xs i ltac:(lia))).
    replace (i + 1 + 1)%nat with (i + 2)%nat by lia. reflexivity. }
  rewrite forallb_forall. split.
  - intros A i Hi. specialize (A _ (nth_error_In _ _ (G i Hi))). rewrite fabs_R, T in A. now apply Rltb_true in A.
  - intros E d Id. apply In_nth_error in Id as (i & Ei).
    assert (Hi : (i < List.length (diff (F := R) (diff (F := R) xs)))%nat) by (apply nth_error_Some; congruence). rewrite !diff_length in Hi.
    rewrite G in Ei by lia. inversion Ei; subst. rewrite fabs_R, T. apply Rltb_true. apply E. lia.
Qed.
Lemma gridConstant_spacing xs : spacing xs (gridConstant xs).
Proof.
  unfold gridConstant. destruct xs as [|a [|b xs]].
  - repeat split; cbn; intros; try lia; auto.
  - repeat split; cbn; intros; try lia; auto.
  - pose proof (evenly_forallb (a :: b :: xs)) as [X Y]. destruct (forallb _ _).
    + repeat split; cbn; intros; try lia.
      * apply fabs_R.
      * exfalso. auto.
    + repeat split; cbn; intros; try lia; auto. specialize (Y H0). discriminate.
Qed.
Lemma spacing_fun xs c c' : spacing xs c -> spacing xs c' -> c = c'.
Proof.
  intros (A & B & C) (A' & B' & C'). destruct (le_lt_dec (List.length xs) 1); [now rewrite C, C'|].
  destruct (Classical_Prop.classic (evenly xs)) as [E|E]; [rewrite A, A'|rewrite B, B']; auto.
Qed.
Lemma spacing_nonneg xs c : spacing xs c -> 0 <= c.
Proof.
  intros (A & B & C). destruct (le_lt_dec (List.length xs) 1); [rewrite C by auto; lra|].
  destruct (Classical_Prop.classic (evenly xs)) as [E|E]; [rewrite A by auto; apply Rabs_pos|rewrite B by auto; lra].
Qed.
Lemma spacing_pos xs c : spacing xs c -> NoDup xs -> 0 < c.
Proof.
  intros (A & B & C) N. destruct (le_lt_dec (List.length xs) 1); [rewrite C by auto; lra|].
  destruct (Classical_Prop.classic (evenly xs)) as [E|E]; [|rewrite B by auto; lra]. rewrite A by auto. apply Rabs_pos_lt.
  intros X. assert (1%nat = 0%nat); [|lia]. apply (proj1 (NoDup_nth xs 0) N); try lia. lra.
Qed.

(** ** prior values *)
Lemma rdivs_twice w s c : rdivs (rdivs w s) c = map (fun x => x / s / c) w.
Proof. unfold rdivs. rewrite map_map. reflexivity. Qed.
Definition densities (w : list R) (c : R) : list R := rdivs (rdivs w (Rsum w)) c.
Definition normPrior (p : hprior R) (w : list R) (c : R) : hprior R := match p with HPArr _ => HPArr (fin (densities w c)) | _ => p end.
Lemma many_replace ts v : manyValued v -> exists xs, replaceAll ts v = HArr xs.
Proof. destruct v; cbn; intros Hm; try tauto; eauto. Qed.
Lemma weights_length p v xs w : weights p v xs w -> List.length w = List.length xs.
Proof.
  destruct p; cbn; try tauto.
  - intros ->. apply map_length.
  - intros (_ & E). apply (f_equal (@List.length _)) in E. rewrite !map_length in E. auto.
Qed.
Lemma priorOf_weights ts p v xs w c : valueList ts v xs -> weights p v xs w -> Rsum w <> 0 -> c <> 0 ->
  priorOf p (replaceAll ts v) c = Ok (fin (densities w c), normPrior p w c).
Proof.
  intros Hv Hw Hs Hc. apply valueList_points in Hv. unfold densities.
  destruct p as [|f|a|f|x]; cbn [weights] in Hw; try tauto; cbn [priorOf normPrior].
  - rewrite Hv. cbn [bind]. rewrite aones_fin, asum_fin.
    assert (E : rones (List.length xs) = w) by (subst w; unfold rones; clear; induction xs; cbn; congruence).
    rewrite E, adivs_fin, adivs_fin by auto. reflexivity.
  - destruct Hw as (Hm & Hf). destruct (many_replace ts v Hm) as (ys & Ey). rewrite Ey in Hv |- *. inversion Hv; subst ys.
    rewrite Hf, asum_fin, adivs_fin, adivs_fin by auto. reflexivity.
  - destruct Hw as (Hm & -> & Hl). destruct (many_replace ts v Hm) as (ys & Ey). rewrite Ey in Hv |- *. inversion Hv; subst ys.
    rewrite map_length, Hl, Nat.eqb_refl. rewrite asum_fin, adivs_fin, adivs_fin by auto. reflexivity.
Qed.

Lemma xprod_fin l : xprod (fin l) = Fin (Rprod l).
Proof.
  unfold xprod. change (Fin (F := R) f1) with (Fin (F := R) 1). rewrite <- (Rmult_1_l (Rprod l)). generalize 1 as a.
  induction l as [|x l IH]; intros a; cbn [map fold_left Rprod fold_right]; [now rewrite Rmult_1_r|].
  change (xmul (Fin a) (Fin x)) with (Fin (a * x)). rewrite IH. f_equal. fold (Rprod l). ring.
Qed.
Lemma cart_map {A B} (f : A -> B) ls : cart (map (map f) ls) = map (map f) (cart ls).
Proof.
  induction ls as [|l ls IH]; [reflexivity|]. cbn [map cart]. rewrite IH. clear IH.
  induction l as [|a l IH]; [reflexivity|]. cbn [map flat_map]. rewrite map_app, <- IH. f_equal. rewrite !map_map. reflexivity.
Qed.
Lemma cart_prod qs : Rsum (map Rprod (cart qs)) = Rprod (map Rsum qs).
Proof.
  induction qs as [|q qs IH]; [cbn; lra|]. cbn [cart map Rprod fold_right]. fold (Rprod (map Rsum qs)). rewrite <- IH. clear IH.
  induction q as [|a q IH]; [cbn; lra|]. cbn [flat_map]. rewrite map_app, Rsum_app, IH, map_map. cbn [Rsum fold_right]. fold (Rsum q).
  change (fun x => Rprod (a :: x)) with (fun x => a * Rprod x). rewrite Rsum_map_scal. ring.
Qed.
Lemma gridPrior_eq ws : forall cs idx, List.length cs = List.length ws -> List.length idx = List.length ws ->
  Forall2 (fun i w => (i < List.length w)%nat) idx ws ->
  Rprod (gridPoint (map2 densities ws cs) idx) = gridPrior ws cs idx.
Proof.
  induction ws as [|w ws IH]; intros [|c cs] [|i idx] Hc Hi HF; cbn in Hc, Hi; try discriminate; auto.
  inversion HF; subst. cbn [map2 gridPrior].
  change (Rprod (gridPoint (densities w c :: map2 densities ws cs) (i :: idx))) with (nth i (densities w c) 0 * Rprod (gridPoint (map2 densities ws cs) idx)).
  rewrite IH by auto. f_equal.
  change (nth i (densities w c) 0) with (Rnth (densities w c) i). unfold densities. rewrite !Rnth_rdivs. reflexivity.
Qed.
Lemma unravel_lt shape : forall x, (x < natprod shape)%nat -> Forall2 (fun i n => (i < n)%nat) (unravel shape x) shape.
Proof.
  induction shape as [|n s IH]; intros x Hx; [constructor|]. cbn [unravel natprod fold_right] in *. fold (natprod s) in *.
  assert (natprod s <> 0)%nat by (intros E; rewrite E, Nat.mul_0_r in Hx; lia). constructor.
  - apply Nat.div_lt_upper_bound; lia.
  - apply IH. apply Nat.mod_upper_bound. auto.
Qed.
Lemma densities_length w c : List.length (densities w c) = List.length w.
Proof. unfold densities. now rewrite !rdivs_length. Qed.
Lemma map2_map_l {A B C D} (f : C -> D) (g : A -> B -> C) l m : map f (map2 g l m) = map2 (fun a b => f (g a b)) l m.
Proof. revert m. induction l; intros [|b m]; cbn; auto. now rewrite IHl. Qed.
Lemma map2_const {A B C} (f : A -> C) (l : list A) (m : list B) : List.length l = List.length m -> map2 (fun a _ => f a) l m = map f l.
Proof. revert m. induction l; intros [|b m] E; cbn in *; try discriminate; auto. now rewrite IHl by lia. Qed.
Lemma densities_sum w c : Rsum w <> 0 -> Rsum (densities w c) = 1 / c.
Proof. intros Hs. unfold densities. rewrite Rsum_rdivs, Rsum_rdivs. unfold Rdiv. rewrite Rinv_r by auto. reflexivity. Qed.
Lemma Rprod_densities ws : forall cs, List.length cs = List.length ws -> Forall (fun w => Rsum w <> 0) ws -> Forall (fun c => c <> 0) cs ->
  Rprod (map Rsum (map2 densities ws cs)) * Rprod cs = 1.
Proof.
  induction ws as [|w ws IH]; intros [|c cs] E Hw Hc; cbn in E; try discriminate; [cbn; lra|].
  inversion Hw; inversion Hc; subst. cbn [map2 map Rprod fold_right]. fold (Rprod (map Rsum (map2 densities ws cs))). fold (Rprod cs).
  rewrite densities_sum by auto. specialize (IH cs ltac:(lia) H2 H6).
  replace (1 / c * Rprod (map Rsum (map2 densities ws cs)) * (c * Rprod cs)) with (c / c * (Rprod (map Rsum (map2 densities ws cs)) * Rprod cs)) by (unfold Rdiv; ring).
  rewrite IH. field. auto.
Qed.

Lemma priorsOf_weights ts ps : forall vs pts ws cs, Forall2 (valueList ts) vs pts -> List.length ps = List.length vs ->
  Forall2 (fun pv xw => weights (fst pv) (snd pv) (fst xw) (snd xw)) (combine ps vs) (combine pts ws) -> List.length ws = List.length vs -> List.length cs = List.length vs ->
  Forall (fun w => Rsum w <> 0) ws -> Forall (fun c => c <> 0) cs ->
  priorsOf (combine (combine ps (map (replaceAll ts) vs)) cs) =
  Ok (combine (map2 (fun w c => fin (densities w c)) ws cs) (map2 (fun p wc => normPrior p (fst wc) (snd wc)) ps (combine ws cs))).
Proof.
  induction ps as [|p ps IH]; intros vs pts ws cs Hv Lp Hw Lw Lc Hs Hc.
  - destruct vs; [|discriminate]. destruct ws; [|discriminate]. destruct cs; [|discriminate]. reflexivity.
  - destruct vs as [|v vs]; [discriminate|]. destruct ws as [|w ws]; [discriminate|]. destruct cs as [|c cs]; [discriminate|].
    inversion Hv as [|v' xs vs' pts' Hv1 Hv2]; subst. cbn [combine] in Hw. inversion Hw as [|? ? ? ? Hw1 Hw2]; subst. cbn [fst snd] in *.
    inversion Hs; inversion Hc; subst. cbn [map combine priorsOf map2]. rewrite (priorOf_weights ts p v xs w c) by auto. cbn [bind].
    rewrite (IH vs pts' ws cs) by (cbn in *; auto). reflexivity.
Qed.

(** ** priors changed in place *)
Section Put.
  Context {F : Type}.
  Definition putNls {A} := fix go (l : list (nl A)) (ps : list A) : list (nl A) * list A :=
     match l with
     | [] => ([], ps)
     | x :: l0 => let '(x', ps1) := putNl x ps in let '(l', ps2) := go l0 ps1 in (x' :: l', ps2)
     end.
  Lemma putNl_Node {A} (l : list (nl A)) ps : putNl (Node l) ps = (let '(l', ps') := putNls l ps in (Node l', ps')).
  Proof. reflexivity. Qed.
  Lemma putNl_flatten {A} (t : nl A) : forall ps qs, List.length ps = List.length (flatten t) ->
    snd (putNl t (ps ++ qs)) = qs /\ flatten (fst (putNl t (ps ++ qs))) = ps.
  Proof.
    induction t as [a|l IH] using nl_ind'; intros ps qs E.
    - destruct ps as [|p [|? ?]]; cbn in E; try discriminate. cbn. auto.
    - rewrite putNl_Node. cbn [flatten] in E |- *.
      assert (G : forall l, Forall (fun t : nl A => forall ps qs, List.length ps = List.length (flatten t) ->
        snd (putNl t (ps ++ qs)) = qs /\ flatten (fst (putNl t (ps ++ qs))) = ps) l -> forall ps qs, List.length ps = List.length (flat_map flatten l) ->
        snd (putNls l (ps ++ qs)) = qs /\ flat_map flatten (fst (putNls l (ps ++ qs))) = ps).
      { clear. induction 1 as [|t l Ht Hl IHl]; intros ps qs E.
        - destruct ps; [|discriminate]. cbn. auto.
        - cbn [flat_map] in E. rewrite app_length in E.
          assert (Es : ps = firstn (List.length (flatten t)) ps ++ skipn (List.length (flatten t)) ps) by (symmetry; apply firstn_skipn).
          rewrite Es, <- app_assoc. cbn [putNls].
          destruct (Ht (firstn (List.length (flatten t)) ps) (skipn (List.length (flatten t)) ps ++ qs)) as [A1 A2]; [rewrite firstn_length; lia|].
          destruct (putNl t _) as [t' r]. cbn [fst snd] in A1, A2. subst r.
          destruct (IHl (skipn (List.length (flatten t)) ps) qs) as [B1 B2]; [rewrite skipn_length; lia|].
          destruct (putNls l _) as [l' r']. cbn [fst snd] in *. subst r'. split; auto. cbn [flat_map]. rewrite A2, B2. auto. }
      specialize (G l IH ps qs). destruct (putNls l (ps ++ qs)). cbn in *. apply G. exact E.
  Qed.
  Definition putAll := fix go (l : list (tm F)) (ps : list (hprior F)) : list (tm F) * list (hprior F) :=
     match l with
     | [] => ([], ps)
     | x :: l0 => let '(x', ps1) := putPriors x ps in let '(l', ps2) := go l0 ps1 in (x' :: l', ps2)
     end.
  Lemma putPriors_TM k names vals prior ms ps : putPriors (TM k names vals prior ms) ps =
    let '(ms', ps1) := putAll ms ps in
    match prior, names, k with
    | None, _, _ => (TM k names vals None ms', ps1)
    | Some p, [], KBreak _ _ => let '(p', ps2) := putNl p ps1 in (TM k names vals (Some p') ms', ps2)
    | Some p, [], _ => (TM k names vals (Some p) ms', ps1)
    | Some p, _ :: _, _ => let '(p', ps2) := putNl p ps1 in (TM k names vals (Some p') ms', ps2)
    end.
  Proof. reflexivity. Qed.
  Lemma noPriors_put (m : tm F) : forall ps, noPriors (fst (putPriors m ps)) = noPriors m.
  Proof.
    induction m as [k names vals prior ms IH] using tm_ind'. intros ps. rewrite putPriors_TM.
    assert (G : map noPriors (fst (putAll ms ps)) = map noPriors ms).
    { revert ps. induction IH as [|m ms Hm Hms IHms]; intros ps; [reflexivity|]. cbn [putAll]. specialize (Hm ps).
      destruct (putPriors m ps) as [m' ps1]. specialize (IHms ps1). destruct (putAll ms ps1) as [ms' ps2]. cbn in *. congruence. }
    destruct (putAll ms ps) as [ms' ps1]. cbn [fst] in G.
    destruct prior as [p|]; [|cbn [fst noPriors]; congruence].
    destruct names as [|n names]; [destruct k|]; try destruct (putNl p ps1) as [p' ps2]; cbn [fst noPriors]; congruence.
  Qed.
  Lemma putPriors_pairs (m : tm F) : onePriorEach m -> forall ps qs, List.length ps = List.length (allNames m) ->
    snd (putPriors m (ps ++ qs)) = qs /\ onePriorEach (fst (putPriors m (ps ++ qs))) /\
    priorPairs (fst (putPriors m (ps ++ qs))) = combine (allNames m) ps.
  Proof.
    induction m as [k names vals prior ms IH] using tm_ind'. intros W. apply onePriorEach_TM in W. destruct W as [Wp Ws]. intros ps qs E.
    rewrite allNames_TM, app_length in E. rewrite putPriors_TM, allNames_TM.
    set (n1 := List.length (flat_map allNames ms)) in *.
    assert (G : forall ms, Forall (fun m => onePriorEach m -> forall ps qs, List.length ps = List.length (allNames m) ->
       snd (putPriors m (ps ++ qs)) = qs /\ onePriorEach (fst (putPriors m (ps ++ qs))) /\
       priorPairs (fst (putPriors m (ps ++ qs))) = combine (allNames m) ps) ms -> Forall onePriorEach ms -> forall ps qs, List.length ps = List.length (flat_map allNames ms) ->
       snd (putAll ms (ps ++ qs)) = qs /\ Forall onePriorEach (fst (putAll ms (ps ++ qs))) /\
       flat_map priorPairs (fst (putAll ms (ps ++ qs))) = combine (flat_map allNames ms) ps).
    { clear. induction 1 as [|m ms Hm Hms IHms]; intros W ps qs E.
      - destruct ps; [|discriminate]. cbn. auto.
      - inversion W as [|? ? W1 W2]; subst. cbn [flat_map] in E |- *. rewrite app_length in E.
        assert (Es : ps = firstn (List.length (allNames m)) ps ++ skipn (List.length (allNames m)) ps) by (symmetry; apply firstn_skipn).
        rewrite Es at 1 2 3. rewrite <- app_assoc. cbn [putAll].
        destruct (Hm W1 (firstn (List.length (allNames m)) ps) (skipn (List.length (allNames m)) ps ++ qs)) as (A1 & A2 & A3); [rewrite firstn_length; lia|].
        destruct (putPriors m _) as [m' r]. cbn [fst snd] in *. subst r.
        destruct (IHms W2 (skipn (List.length (allNames m)) ps) qs) as (B1 & B2 & B3); [rewrite skipn_length; lia|].
        destruct (putAll ms _) as [ms' r']. cbn [fst snd] in *. subst r'. repeat split; auto.
        cbn [flat_map]. rewrite A3, B3, <- combine_app by (rewrite firstn_length; lia). rewrite firstn_skipn. reflexivity. }
    assert (Es : ps = firstn n1 ps ++ skipn n1 ps) by (symmetry; apply firstn_skipn).
    specialize (G ms IH Ws (firstn n1 ps) (skipn n1 ps ++ qs)). rewrite app_assoc, firstn_skipn in G.
    assert (L1 : List.length (firstn n1 ps) = n1) by (rewrite firstn_length; lia).
    destruct (G L1) as (A1 & A2 & A3). clear G.
    destruct (putAll ms (ps ++ qs)) as [ms' r]. cbn [fst snd] in *. subst r.
    assert (Ec : combine (flat_map allNames ms ++ names) ps = combine (flat_map allNames ms) (firstn n1 ps) ++ combine names (skipn n1 ps)).
    { rewrite <- combine_app by (symmetry; exact L1). now rewrite firstn_skipn. }
    rewrite Ec, <- A3.
    assert (Lk : List.length (skipn n1 ps) = List.length names) by (rewrite skipn_length; lia).
    destruct Wp as [[-> Nk]|(q & -> & Lq)].
    - destruct (skipn n1 ps); [|discriminate].
      assert (R : forall pr, snd (TM k [] vals pr ms', qs) = qs /\ onePriorEach (fst (TM k [] vals pr ms', qs)) /\ priorPairs (fst (TM k [] vals pr ms', qs)) = flat_map priorPairs ms' ++ combine [] (@nil (hprior F))).
      { intros pr. cbn [fst snd]. split; [reflexivity|split]; [apply onePriorEach_TM; auto|cbn; auto]. }
      destruct prior; [|apply R]. destruct k; try apply R. exfalso. eapply Nk. reflexivity.
    - destruct names as [|n names].
      + destruct (skipn n1 ps); [|discriminate]. cbn [app]. destruct (flatten q) as [|? ?] eqn:Eq; [|discriminate].
        destruct (putNl_flatten q [] qs) as [B1 B2]; [rewrite Eq; reflexivity|]. cbn [app] in B1, B2.
        assert (R : snd (TM k [] vals (Some q) ms', qs) = qs /\ onePriorEach (fst (TM k [] vals (Some q) ms', qs)) /\ priorPairs (fst (TM k [] vals (Some q) ms', qs)) = flat_map priorPairs ms' ++ combine [] (@nil (hprior F))).
        { cbn [fst snd]. split; [reflexivity|split]; [|cbn; auto]. apply onePriorEach_TM. split; auto. right. exists q. now rewrite Eq. }
        destruct k; try exact R. destruct (putNl q qs) as [q' r]. cbn [fst snd] in *. subst r. split; [reflexivity|split]; [|cbn; auto].
        apply onePriorEach_TM. split; auto. right. exists q'. now rewrite B2.
      + destruct (putNl_flatten q (skipn n1 ps) qs) as [B1 B2]; [lia|].
        destruct (putNl q _) as [q' r]. cbn [fst snd] in *. subst r. split; [reflexivity|split].
        * apply onePriorEach_TM. split; auto. right. exists q'. rewrite B2. auto.
        * cbn [priorPairs]. rewrite B2. reflexivity.
  Qed.
End Put.

Section NoPriors.
  Context {F : Type} `{Num F}.
  Lemma noPriors_names (m : tm F) : allNames (noPriors m) = allNames m.
  Proof.
    induction m as [k names vals prior ms IH] using tm_ind'. cbn [noPriors]. rewrite !allNames_TM. f_equal. rewrite flat_map_map.
    apply flat_map_ext_Forall. exact IH.
  Qed.
  Lemma noPriors_assocs (m : tm F) : assocs (noPriors m) = assocs m.
  Proof.
    induction m as [k names vals prior ms IH] using tm_ind'. cbn [noPriors assocs]. f_equal. rewrite flat_map_map.
    apply flat_map_ext_Forall. exact IH.
  Qed.
  Lemma noPriors_unpackNames (m : tm F) : unpackNames (noPriors m) = unpackNames m.
  Proof.
    induction m as [k names vals prior ms IH] using tm_ind'. cbn. do 2 f_equal. rewrite map_map. apply map_ext_in. rewrite Forall_forall in IH. auto.
  Qed.
  Lemma noPriors_unpackVals (m : tm F) : unpackVals (noPriors m) = unpackVals m.
  Proof.
    induction m as [k names vals prior ms IH] using tm_ind'. cbn. do 2 f_equal. rewrite map_map. apply map_ext_in. rewrite Forall_forall in IH. auto.
  Qed.
  Lemma noPriors_assign f (m : tm F) : noPriors (assign f m) = assign f (noPriors m).
  Proof.
    induction m as [k names vals prior ms IH] using tm_ind'. cbn. f_equal. rewrite !map_map. apply map_ext_in. rewrite Forall_forall in IH. auto.
  Qed.
  Lemma noPriors_named (m : tm F) : named (noPriors m) <-> named m.
  Proof.
    induction m as [k names vals prior ms IH] using tm_ind'. cbn [noPriors]. rewrite !named_TM. apply and_iff_compat_l.
    rewrite Forall_map. rewrite !Forall_forall in *. split; intros A x Hx; apply IH; auto.
  Qed.
  Lemma noPriors_step e (m : tm F) : forall off p t1 t t', step e (noPriors m) off p t1 t t' = step e m off p t1 t t'.
  Proof.
    induction m as [k names vals prior ms IH] using tm_ind'. intros off p t1 t t'. cbn [noPriors].
    destruct k; try reflexivity.
    - cbn [step]. revert p. induction IH as [|m ms Hm Hms IHms]; intros p; cbn [map]; auto. rewrite Hm.
      destruct (step e m off p t1 t t'); auto.
    - cbn [step]. destruct (mapM scalarOf vals) as [bs|]; auto. cbn [bind]. f_equal. generalize (offsetOf bs (breaksUpTo bs t1)) as off'.
      generalize (breaksUpTo bs t1) as i. induction IH as [|m ms Hm Hms IHms]; intros [|i] off'; cbn [map]; auto.
  Qed.
End NoPriors.
