(** Lemmas for getDurationDistribution. *)
From Coq Require Import List ZArith Reals Lra Lia Arith Bool String Sorted.
From Verif Require Import Base.Num Base.Exn Base.Arr Base.RSum Base.Lift Model.Helper Model.Tm Model.HyperParams Model.Study
  Model.Getters Model.Hyper Model.Changepoint Spec.Kernel Proof.SetupProof.
Import ListNotations.
Local Open Scope R_scope.

Lemma insertU_In x (l : list R) y : In y (insertU x l) <-> y = x \/ In y l.
Proof.
  induction l as [|a l IH]; cbn [insertU]; [cbn; intuition|]. change (fltb x a) with (Rltb x a). change (feqb x a) with (Reqb x a).
  destruct (Rltb x a); [cbn; intuition|]. destruct (Reqb x a) eqn:E; [apply Reqb_true in E; subst; cbn; intuition|]. cbn [In]. rewrite IH. intuition.
Qed.
Lemma insertU_sorted x (l : list R) : StronglySorted Rlt l -> StronglySorted Rlt (insertU x l).
Proof.
  induction 1 as [|a l SS IH FA]; cbn [insertU]; [repeat constructor|]. change (fltb x a) with (Rltb x a). change (feqb x a) with (Reqb x a).
  destruct (Rltb x a) eqn:E1; [apply Rltb_true in E1; constructor; [constructor; auto|]; constructor; auto; eapply Forall_impl; [|exact FA]; cbn; intros; lra|].
  destruct (Reqb x a) eqn:E2; [constructor; auto|]. constructor; auto. apply Forall_forall. intros y Hy. apply insertU_In in Hy as [->|Hy].
  - destruct (Rlt_le_dec x a) as [L|[L|L]]; auto; [apply Rltb_true in L; congruence|subst; rewrite (proj2 (Reqb_true x x) eq_refl) in E2; discriminate].
  - rewrite Forall_forall in FA. auto.
Qed.
Lemma unique_In (l : list R) y : In y (unique l) <-> In y l.
Proof. induction l as [|a l IH]; [tauto|]. cbn [unique fold_right]. fold (unique l). rewrite insertU_In, IH. cbn. intuition. Qed.
Lemma unique_sorted (l : list R) : StronglySorted Rlt (unique l).
Proof. induction l as [|a l IH]; [constructor|]. cbn [unique fold_right]. fold (unique l). now apply insertU_sorted. Qed.
Lemma sorted_NoDup (l : list R) : StronglySorted Rlt l -> NoDup l.
Proof.
  induction 1 as [|a l SS IH FA]; constructor; auto. intros Hin. rewrite Forall_forall in FA. specialize (FA a Hin). lra.
Qed.
(** equal lists of members are equal, so the order of the rows does not matter *)
Lemma findIndex_nth (rnd : R -> R) ds k : NoDup ds -> (forall x y, In x ds -> In y ds -> rnd x = rnd y -> x = y) -> (k < List.length ds)%nat ->
  findIndex rnd ds (nth k ds 0) = Ok k.
Proof.
  revert k. induction ds as [|a ds IH]; intros k ND Inj Hk; cbn in Hk; [lia|]. inversion ND; subst. cbn [findIndex]. change (feqb ?x ?y) with (Reqb x y).
  destruct k as [|k]; cbn [nth].
  - rewrite (proj2 (Reqb_true _ _) eq_refl). reflexivity.
  - destruct (Reqb (rnd a) (rnd (nth k ds 0))) eqn:E.
    + apply Reqb_true in E. apply Inj in E; [|now left|right; apply nth_In; lia]. subst. contradiction H1. apply nth_In. lia.
    + rewrite IH; [reflexivity|auto| |lia]. intros; apply Inj; auto; now right.
Qed.
Lemma findIndex_In (rnd : R -> R) ds d : NoDup ds -> (forall x y, In x ds -> In y ds -> rnd x = rnd y -> x = y) -> In d ds ->
  exists k, (k < List.length ds)%nat /\ nth k ds 0 = d /\ findIndex rnd ds d = Ok k.
Proof.
  intros ND Inj Hd. apply (In_nth _ _ 0) in Hd as (k & Hk & <-). exists k. split; auto. split; auto. now apply findIndex_nth.
Qed.

Lemma lset_fin (acc : list R) k v : lset (fin acc) k (Fin v) = fin (lset acc k v).
Proof. revert k. induction acc as [|a acc IH]; intros [|k]; cbn; auto. now rewrite IH. Qed.
Lemma lset_len {A} (acc : list A) k v : List.length (lset acc k v) = List.length acc.
Proof. revert k. induction acc as [|a acc IH]; intros [|k]; cbn; auto. Qed.
Lemma lset_Rnth (acc : list R) k v i : (k < List.length acc)%nat -> Rnth (lset acc k v) i = if Nat.eqb i k then v else Rnth acc i.
Proof. unfold Rnth. revert k i. induction acc as [|a acc IH]; intros [|k] [|i] Hk; cbn in *; try lia; auto. apply IH. lia. Qed.

(** probability of a duration *)
Definition durationMass (i j : nat) (rows : list (list R)) (d : list R) (x : R) : R :=
  Rsum (map2 (fun row p => if Rltb (nth i row 0) (nth j row 0) then if Reqb (nth j row 0 - nth i row 0) x then p else 0 else 0) rows d).

Lemma durationLoop_eq (rnd : R -> R) i j ds rows : NoDup ds -> (forall x y, In x ds -> In y ds -> rnd x = rnd y -> x = y) ->
  (forall row, In row rows -> nth i row 0 < nth j row 0 -> In (nth j row 0 - nth i row 0) ds) ->
  forall d acc, List.length d = List.length rows -> List.length acc = List.length ds ->
  durationLoop rnd i j ds rows (fin d) (fin acc) = Ok (fin (tab (List.length ds) (fun k => Rnth acc k + durationMass i j rows d (nth k ds 0)))).
Proof.
  intros ND Inj. induction rows as [|row rows IH]; intros Hin [|p d] acc Ld La; cbn in Ld; try lia.
  - cbn [durationLoop]. do 2 f_equal. rewrite <- (tab_Rnth acc) at 1. rewrite La. apply tab_ext. intros k Hk. unfold durationMass. cbn. lra.
  - cbn [durationLoop map]. change (@f0 R _) with 0. change (fltb ?a ?b) with (Rltb a b). unfold durationMass. cbn [map2 Rsum fold_right].
    set (a := nth i row 0). set (b := nth j row 0).
    assert (IHr : forall d acc, List.length d = List.length rows -> List.length acc = List.length ds ->
      durationLoop rnd i j ds rows (fin d) (fin acc) = Ok (fin (tab (List.length ds) (fun k => Rnth acc k + durationMass i j rows d (nth k ds 0))))) by (apply IH; intros; apply Hin; auto; now right).
    destruct (Rltb a b) eqn:E.
    + apply Rltb_true in E. destruct (findIndex_In rnd ds (b - a)) as (k & Hk & Ek & Ef); auto; [apply Hin; auto; now left|]. change (fsub b a) with (b - a). rewrite Ef. cbn [bind].
      assert (Ex : xadd (nth k (fin acc) NaN) (Fin p) = Fin (Rnth acc k + p)).
      { rewrite (nth_indep _ NaN (Fin 0)) by (rewrite map_length; lia). rewrite map_nth. reflexivity. }
      rewrite Ex, lset_fin, IHr by (rewrite ?lset_len; lia). do 2 f_equal. apply tab_ext. intros k' Hk'. rewrite lset_Rnth by lia.
      fold (durationMass i j rows d (nth k' ds 0)).
      destruct (Nat.eqb_spec k' k) as [->|Hne].
      * rewrite Ek, (proj2 (Reqb_true (b - a) (b - a)) eq_refl). unfold durationMass, Rsum. lra.
      * destruct (Reqb (b - a) (nth k' ds 0)) eqn:E'; [|unfold durationMass, Rsum; lra]. apply Reqb_true in E'. rewrite <- Ek in E'. exfalso. apply Hne.
        apply (proj1 (NoDup_nth ds 0) ND); auto.
    + rewrite IHr by lia. do 2 f_equal. apply tab_ext. intros k' Hk'. unfold durationMass, Rsum. lra.
Qed.

(** total mass *)
Lemma durationMass_total i j rows d ds : NoDup ds -> List.length d = List.length rows ->
  (forall row, In row rows -> nth i row 0 < nth j row 0 -> In (nth j row 0 - nth i row 0) ds) ->
  rsum (List.length ds) (fun k => durationMass i j rows d (nth k ds 0)) = Rsum (map2 (fun row p => if Rltb (nth i row 0) (nth j row 0) then p else 0) rows d).
Proof.
  intros ND. revert d. induction rows as [|row rows IH]; intros [|p d] Ld Hin; cbn in Ld; try lia.
  - rewrite (rsum_ext _ _ (fun _ => 0)) by (intros; reflexivity). cbn. apply rsum_0. auto.
  - unfold durationMass. cbn [map2 Rsum fold_right].
    rewrite (rsum_ext _ _ (fun k => (if Rltb (nth i row 0) (nth j row 0) then if Reqb (nth j row 0 - nth i row 0) (nth k ds 0) then p else 0 else 0) + durationMass i j rows d (nth k ds 0))) by (intros; reflexivity).
    rewrite rsum_plus, IH by (auto; intros; apply Hin; auto; now right). fold (Rsum (map2 (fun row p => if Rltb (nth i row 0) (nth j row 0) then p else 0) rows d)). f_equal.
    destruct (Rltb (nth i row 0) (nth j row 0)) eqn:E; [|apply rsum_0; auto]. apply Rltb_true in E.
    destruct (In_nth ds (nth j row 0 - nth i row 0) 0) as (k0 & Hk0 & Ek0); [apply Hin; auto; now left|].
    transitivity (rsum (List.length ds) (fun k => if Nat.eqb k k0 then p else 0)); [|apply (rsum_delta (List.length ds) k0 (fun _ => p)); auto]. apply rsum_ext. intros k Hk. rewrite <- Ek0.
    destruct (Nat.eqb_spec k k0) as [->|Hne]; [rewrite (proj2 (Reqb_true (nth k0 ds 0) (nth k0 ds 0)) eq_refl); reflexivity|].
    destruct (Reqb (nth k0 ds 0) (nth k ds 0)) eqn:E'; auto. apply Reqb_true in E'. exfalso. apply Hne. apply (proj1 (NoDup_nth ds 0) ND); auto.
Qed.

(** a duration that is missing *)
Lemma findIndex_missing (rnd : R -> R) ds d : (forall x, In x ds -> rnd x <> rnd d) -> findIndex rnd ds d = Err IndexError.
Proof.
  induction ds as [|a ds IH]; intros Hn; [reflexivity|]. cbn [findIndex]. change (feqb ?x ?y) with (Reqb x y).
  destruct (Reqb (rnd a) (rnd d)) eqn:E; [apply Reqb_true in E; exfalso; apply (Hn a); [now left|auto]|]. rewrite IH; [reflexivity|]. intros; apply Hn; now right.
Qed.
Lemma findIndex_cases (rnd : R -> R) ds d : (exists k, findIndex rnd ds d = Ok k) \/ findIndex rnd ds d = Err IndexError.
Proof.
  induction ds as [|a ds IH]; [now right|]. cbn [findIndex]. destruct (feqb _ _); [left; eauto|]. destruct IH as [(k & ->)| ->]; cbn; [left; eauto|now right].
Qed.
Lemma durationLoop_missing (rnd : R -> R) i j ds rows : (exists row, In row rows /\ nth i row 0 < nth j row 0 /\ forall x, In x ds -> rnd x <> rnd (nth j row 0 - nth i row 0)) ->
  forall d acc, durationLoop rnd i j ds rows d acc = Err IndexError.
Proof.
  induction rows as [|row rows IH]; intros (r & Hr & Lt & Hn) d acc; [contradiction|]. cbn [durationLoop]. change (@f0 R _) with 0. change (fltb ?a ?b) with (Rltb a b).
  destruct Hr as [->|Hr].
  - rewrite (proj2 (Rltb_true _ _) Lt). destruct d; [reflexivity|]. change (fsub (nth j r 0) (nth i r 0)) with (nth j r 0 - nth i r 0). rewrite findIndex_missing by auto. reflexivity.
  - destruct d as [|p d]; destruct (Rltb _ _); try reflexivity; try (apply IH; eauto).
    destruct (findIndex_cases rnd ds (fsub (nth j row 0) (nth i row 0))) as [(k & ->)| ->]; cbn [bind]; [apply IH; eauto|reflexivity].
Qed.
