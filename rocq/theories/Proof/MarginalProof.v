(** Summing out all axes but one. *)
From Coq Require Import List ZArith Reals Lra Lia Arith Bool String.
From Verif Require Import Base.Num Base.Exn Base.Arr Base.RSum Base.Lift Model.Helper Model.Tm Model.HyperParams Model.Study Model.Getters
  Spec.Hmm Spec.Kernel Spec.Config Spec.Dist Spec.Marginal Proof.Gauss.
Import ListNotations.
Local Open Scope R_scope.

Lemma natprod_app s1 s2 : natprod (s1 ++ s2) = (natprod s1 * natprod s2)%nat.
Proof. induction s1 as [|n s1 IH]; [symmetry; apply Nat.mul_1_l|]. cbn [app]. change (natprod (n :: s1 ++ s2)) with (n * natprod (s1 ++ s2))%nat. change (natprod (n :: s1)) with (n * natprod s1)%nat. rewrite IH. lia. Qed.
Lemma natprod_cons n s : natprod (n :: s) = (n * natprod s)%nat.
Proof. reflexivity. Qed.
Lemma unravel_app s1 s2 p q : (p < natprod s1)%nat -> (q < natprod s2)%nat -> unravel (s1 ++ s2) (p * natprod s2 + q) = unravel s1 p ++ unravel s2 q.
Proof.
  revert p q. induction s1 as [|n s1 IH]; intros p q Hp Hq; cbn [app unravel].
  - cbn in Hp. assert (p = O) as -> by lia. reflexivity.
  - rewrite natprod_app. rewrite natprod_cons in Hp. assert (H1 : (natprod s1 <> 0)%nat) by nia. assert (H2 : (natprod s2 <> 0)%nat) by lia.
    assert (E : (p * natprod s2 + q = p / natprod s1 * (natprod s1 * natprod s2) + ((p mod natprod s1) * natprod s2 + q))%nat).
    { rewrite (Nat.div_mod p (natprod s1)) at 1 by auto. ring. }
    assert (Hm : (p mod natprod s1 < natprod s1)%nat) by now apply Nat.mod_upper_bound.
    assert (Hr : ((p mod natprod s1) * natprod s2 + q < natprod s1 * natprod s2)%nat) by nia.
    f_equal.
    + rewrite E. rewrite Nat.div_add_l by nia. rewrite (Nat.div_small _ _ Hr). lia.
    + rewrite E. rewrite Nat.add_comm, Nat.mod_add by nia. rewrite (Nat.mod_small _ _ Hr). now apply IH.
Qed.
Lemma split_at {A} (l : list A) a d : (a < List.length l)%nat -> l = firstn a l ++ nth a l d :: skipn (S a) l.
Proof.
  revert a. induction l as [|x l IH]; intros [|a] Ha; cbn in *; try lia; auto. f_equal. apply IH. lia.
Qed.
Lemma lset_split {A} (l : list A) a v : (a < List.length l)%nat -> lset l a v = firstn a l ++ v :: skipn (S a) l.
Proof. revert a. induction l as [|x l IH]; intros [|a] Ha; cbn in *; try lia; auto. f_equal. apply IH. lia. Qed.
Lemma unravel_length s : forall x, List.length (unravel s x) = List.length s.
Proof. induction s; intros; cbn; auto. Qed.

Definition weighted (shape : list nat) (r : list R) (h : list nat -> R) : R := rsum (natprod shape) (fun x => Rnth r x * h (unravel shape x)).
Definition rsumAxis (shape : list nat) (a : nat) (r : list R) : list R :=
  let n := nth a shape O in let post := natprod (skipn (S a) shape) in
  tab (natprod (firstn a shape) * post) (fun y => rsum n (fun i => Rnth r ((y / post * n + i) * post + y mod post)%nat)).

  Lemma unravel_three s1 m s3 p i q : (p < natprod s1)%nat -> (i < m)%nat -> (q < natprod s3)%nat ->
    unravel (s1 ++ m :: s3) ((p * m + i) * natprod s3 + q) = unravel s1 p ++ i :: unravel s3 q.
  Proof.
    intros Hp Hi Hq. replace ((p * m + i) * natprod s3 + q)%nat with (p * natprod (m :: s3) + (i * natprod s3 + q))%nat by (rewrite natprod_cons; ring).
    rewrite unravel_app by (auto; rewrite natprod_cons; nia). f_equal. cbn [unravel]. f_equal.
    - rewrite Nat.div_add_l by lia. rewrite Nat.div_small by auto. lia.
    - rewrite Nat.add_comm, Nat.mod_add by lia. now rewrite Nat.mod_small.
  Qed.

Section Axis.
  Variables (shape : list nat) (a : nat).
  Hypothesis Ha : (a < List.length shape)%nat.
  Hypothesis HN : (0 < natprod shape)%nat.
  Notation pre := (natprod (firstn a shape)).
  Notation n := (nth a shape O).
  Notation post := (natprod (skipn (S a) shape)).
  Lemma shape_eq : natprod shape = (pre * n * post)%nat.
  Proof. rewrite (split_at shape a O Ha) at 1. rewrite natprod_app, natprod_cons. lia. Qed.
  Lemma lset_eq : natprod (lset shape a 1%nat) = (pre * post)%nat.
  Proof. rewrite lset_split by auto. rewrite natprod_app, natprod_cons. lia. Qed.
  Lemma post_pos : (0 < post)%nat. Proof. pose proof shape_eq. destruct post; [rewrite Nat.mul_0_r in *; lia|lia]. Qed.
  Lemma sumAxis_fin r : List.length r = natprod shape -> sumAxis shape a (fin r) = fin (rsumAxis shape a r).
  Proof.
    intros Lr. unfold sumAxis, rsumAxis, tab. cbv zeta. rewrite map_map. apply map_ext_in. intros y Hy. apply in_seq in Hy. destruct Hy as [_ Hy]. cbn [Nat.add] in Hy.
    pose proof post_pos as Hp. pose proof shape_eq as HS.
    rewrite (map_ext_in _ (fun i => Fin (Rnth r ((y / post * n + i) * post + y mod post)%nat))).
    - rewrite <- (map_map (fun i => Rnth r ((y / post * n + i) * post + y mod post)%nat) Fin).
      rewrite asum_fin, Rsum_seq. reflexivity.
    - intros i Hi. apply in_seq in Hi. unfold Rnth.
      assert (Hb : ((y / post * n + i) * post + y mod post < List.length r)%nat).
      { rewrite Lr, HS. assert (y / post < pre)%nat by (apply Nat.div_lt_upper_bound; lia). assert (y mod post < post)%nat by (apply Nat.mod_upper_bound; lia).
        assert (y / post * n + i + 1 <= pre * n)%nat by nia. nia. }
      rewrite (nth_indep _ NaN (Fin 0)) by (rewrite map_length; auto). now rewrite (map_nth Fin).
  Qed.
  Lemma rsumAxis_length r : List.length (rsumAxis shape a r) = natprod (lset shape a 1%nat).
  Proof. unfold rsumAxis. rewrite tab_length, lset_eq. reflexivity. Qed.
  Lemma weighted_sumAxis r h : (forall c, h (lset c a O) = h c) -> weighted (lset shape a 1%nat) (rsumAxis shape a r) h = weighted shape r h.
  Proof.
    intros Hh. unfold weighted. rewrite lset_eq, shape_eq. pose proof post_pos as Hp.
    rewrite (rsum_mult pre post), (rsum_mult (pre * n) post), (rsum_mult pre n). apply rsum_ext. intros p Hpp.
    rewrite rsum_swap. apply rsum_ext. intros q Hq.
    assert (Ly : (p * post + q < pre * post)%nat) by nia.
    unfold rsumAxis. rewrite Rnth_tab by auto. rewrite Nat.div_add_l by lia. rewrite (Nat.div_small q) by auto. rewrite Nat.add_0_r.
    rewrite (Nat.add_comm (p * post) q), Nat.mod_add by lia. rewrite (Nat.mod_small q) by auto. rewrite <- rsum_scal_r. apply rsum_ext. intros i Hi. f_equal.
    rewrite lset_split by auto. rewrite (Nat.add_comm q). replace (p * post + q)%nat with ((p * 1 + 0) * post + q)%nat by lia.
    rewrite unravel_three by (auto; lia). rewrite (split_at shape a O Ha) at 3. rewrite unravel_three by auto.
    rewrite <- (Hh (unravel (firstn a shape) p ++ i :: _)). f_equal.
    assert (El : List.length (unravel (firstn a shape) p) = a) by (rewrite unravel_length, firstn_length; lia).
    rewrite lset_split by (rewrite app_length; cbn; lia). rewrite firstn_app, El, Nat.sub_diag, firstn_O, app_nil_r, (firstn_all2 (unravel _ _)) by lia. f_equal. f_equal.
    rewrite skipn_app, El. rewrite (skipn_all2 (unravel _ _)) by lia. replace (S a - a)%nat with 1%nat by lia. reflexivity.
  Qed.
End Axis.

(** all axes of a list *)
Fixpoint shapeAfter (shape axes : list nat) : list nat := match axes with [] => shape | a :: l => shapeAfter (lset shape a 1%nat) l end.
Lemma lset_length {A} (l : list A) a v : List.length (lset l a v) = List.length l.
Proof. revert a. induction l as [|x l IH]; intros [|a]; cbn; auto. Qed.
Lemma natprod_lset1 shape a : (0 < natprod shape)%nat -> (0 < natprod (lset shape a 1%nat))%nat.
Proof. revert a. induction shape as [|n s IH]; intros [|a] H; auto; cbn [lset]; rewrite natprod_cons in *; [lia|]. specialize (IH a). assert (n <> 0)%nat by (intros ->; lia). assert (0 < natprod s)%nat by nia. specialize (IH H1). nia. Qed.
Lemma sumAxes_fin axes : forall shape r, Forall (fun a => (a < List.length shape)%nat) axes -> (0 < natprod shape)%nat -> List.length r = natprod shape ->
  exists q, sumAxes shape axes (fin r) = fin q /\ List.length q = natprod (shapeAfter shape axes) /\
    forall h, (forall a c, In a axes -> h (lset c a O) = h c) -> weighted (shapeAfter shape axes) q h = weighted shape r h.
Proof.
  induction axes as [|a axes IH]; intros shape r HF HN Lr.
  - exists r. cbn. auto.
  - inversion HF as [|? ? Ha HF']; subst. cbn [sumAxes shapeAfter]. rewrite sumAxis_fin by auto.
    destruct (IH (lset shape a 1%nat) (rsumAxis shape a r)) as (q & E & Lq & W).
    + eapply Forall_impl; [|exact HF']. intros b Hb. cbn in *. now rewrite lset_length.
    + now apply natprod_lset1.
    + now apply rsumAxis_length.
    + exists q. split; auto. split; auto. intros h Hh. rewrite W by (intros; apply Hh; now right). apply weighted_sumAxis; auto. intros c. apply Hh. now left.
Qed.
Lemma nth_lset_eq {A} (l : list A) a v d : (a < List.length l)%nat -> nth a (lset l a v) d = v.
Proof. revert a. induction l as [|x l IH]; intros [|a] Ha; cbn in *; try lia; auto. apply IH. lia. Qed.
Lemma nth_lset_neq {A} (l : list A) a b v d : a <> b -> nth b (lset l a v) d = nth b l d.
Proof. revert a b. induction l as [|x l IH]; intros [|a] [|b] Hab; cbn in *; auto; try congruence. Qed.
Lemma shapeAfter_length axes : forall shape, List.length (shapeAfter shape axes) = List.length shape.
Proof. induction axes; intros; cbn; auto. rewrite IHaxes. apply lset_length. Qed.
Lemma shapeAfter_nth axes : forall shape b, (forall a, In a axes -> (a < List.length shape)%nat) ->
  nth b (shapeAfter shape axes) 1%nat = if in_dec Nat.eq_dec b axes then 1%nat else nth b shape 1%nat.
Proof.
  induction axes as [|a axes IH]; intros shape b HF; cbn [shapeAfter]; auto. rewrite IH by (intros; rewrite lset_length; apply HF; now right).
  destruct (in_dec Nat.eq_dec b axes) as [I|I]; destruct (in_dec Nat.eq_dec b (a :: axes)) as [J|J]; auto.
  - exfalso. apply J. now right.
  - destruct J as [->|J]; [|tauto]. apply nth_lset_eq. apply HF. now left.
  - apply nth_lset_neq. intros ->. apply J. now left.
Qed.
Lemma natprod_ones s : (forall b, nth b s 1%nat = 1%nat) -> natprod s = 1%nat.
Proof. induction s as [|n s IH]; intros H; auto. rewrite natprod_cons, IH by (intros b; apply (H (S b))). specialize (H O). cbn in H. lia. Qed.
Lemma nth_firstn_or {A} (l : list A) k b d : nth b (firstn k l) d = nth b l d \/ nth b (firstn k l) d = d.
Proof. revert k b. induction l as [|x l IH]; intros [|k] [|b]; cbn; auto. Qed.
Lemma nth_skipn' {A} (l : list A) k b d : nth b (skipn k l) d = nth (k + b) l d.
Proof. revert l. induction k as [|k IH]; intros [|x l]; cbn; auto. now destruct b. Qed.
Lemma nth_firstn_lt {A} (l : list A) k b d : (b < k)%nat -> nth b (firstn k l) d = nth b l d.
Proof. revert k b. induction l as [|x l IH]; intros [|k] [|b] Hb; cbn; auto; try lia. apply IH. lia. Qed.
Lemma ones_except s k : (k < List.length s)%nat -> (forall b, b <> k -> nth b s 1%nat = 1%nat) ->
  natprod s = nth k s 1%nat /\ forall v, (v < nth k s 1)%nat -> coord s k v = v.
Proof.
  intros Hk H. assert (E := split_at s k 1%nat Hk).
  assert (E1 : natprod (firstn k s) = 1%nat).
  { apply natprod_ones. intros b. destruct (Nat.lt_ge_cases b k); [rewrite nth_firstn_lt by auto; apply H; lia|]. apply nth_overflow. rewrite firstn_length. lia. }
  assert (E2 : natprod (skipn (S k) s) = 1%nat) by (apply natprod_ones; intros b; rewrite nth_skipn'; apply H; lia).
  split; [rewrite E at 1; rewrite natprod_app, natprod_cons, E1, E2; lia|]. intros v Hv. unfold coord. rewrite E.
  replace v with ((0 * nth k s 1 + v) * natprod (skipn (S k) s) + 0)%nat at 1 by (rewrite E2; lia).
  rewrite unravel_three by (auto; lia). rewrite app_nth2; rewrite unravel_length, firstn_length; [|lia]. replace (k - Nat.min k (List.length s))%nat with O by lia. reflexivity.
Qed.

Lemma nth_lset_ign {A} (c : list A) a k v d : a <> k -> nth k (lset c a v) d = nth k c d.
Proof. intros. now apply nth_lset_neq. Qed.
Theorem marginalize_fin shape k p : (k < List.length shape)%nat -> (0 < natprod shape)%nat ->
  sumAxes shape (otherAxes (List.length shape) k) (arrOf (natprod shape) p) = arrOf (nth k shape O) (marginal shape k p).
Proof.
  intros Hk HN. unfold arrOf at 1. destruct (sumAxes_fin (otherAxes (List.length shape) k) shape (tab (natprod shape) p)) as (q & E & Lq & W); auto.
  - apply Forall_forall. intros a I. unfold otherAxes in I. apply filter_In in I as [I _]. apply in_seq in I. lia.
  - apply tab_length.
  - rewrite E. unfold arrOf. f_equal.
    set (s := shapeAfter shape (otherAxes (List.length shape) k)) in *.
    assert (Ia : forall a, In a (otherAxes (List.length shape) k) <-> (a < List.length shape)%nat /\ a <> k).
    { intros a. unfold otherAxes. rewrite filter_In, in_seq. destruct (Nat.eqb_spec a k); cbn; split; intros; try lia; destruct H; try discriminate; lia. }
    assert (Hs : forall b, nth b s 1%nat = if Nat.eqb b k then nth k shape 1%nat else 1%nat).
    { intros b. unfold s. rewrite shapeAfter_nth by (intros a I; now apply Ia). destruct (in_dec Nat.eq_dec b _) as [I|I].
      - apply Ia in I as [_ I]. apply Nat.eqb_neq in I. now rewrite I.
      - destruct (Nat.eqb_spec b k) as [->|Hb]; auto. apply nth_overflow. destruct (Nat.le_gt_cases (List.length shape) b); auto. exfalso. apply I, Ia. auto. }
    assert (Ls : (k < List.length s)%nat) by (unfold s; rewrite shapeAfter_length; auto).
    destruct (ones_except s k Ls) as [N1 C1]; [intros b Hb; rewrite Hs; apply Nat.eqb_neq in Hb; now rewrite Hb|].
    rewrite Hs, Nat.eqb_refl in N1, C1. rewrite (nth_indep shape 0%nat 1%nat) by auto. rewrite N1 in Lq.
    rewrite <- (tab_Rnth q), Lq. apply tab_ext. intros v Hv.
    specialize (W (fun c => if Nat.eqb (nth k c O) v then 1 else 0)). unfold weighted in W. rewrite N1 in W.
    assert (W' := W ltac:(intros a c I; apply Ia in I as [_ I]; now rewrite nth_lset_ign by auto)). clear W.
    transitivity (rsum (nth k shape 1%nat) (fun x => Rnth q x * (if Nat.eqb (nth k (unravel s x) O) v then 1 else 0))).
    + rewrite (rsum_ext _ _ (fun x => if Nat.eqb x v then Rnth q x else 0)).
      * rewrite rsum_delta by auto. reflexivity.
      * intros x Hx. fold (coord s k x). rewrite C1 by auto. destruct (Nat.eqb x v); lra.
    + rewrite W'. unfold marginal. apply rsum_ext. intros x Hx. rewrite Rnth_tab by auto. unfold coord. destruct (Nat.eqb _ v); lra.
Qed.

Lemma coord_lt shape k x : (k < List.length shape)%nat -> (x < natprod shape)%nat -> (coord shape k x < nth k shape O)%nat.
Proof.
  intros Hk Hx. pose proof (unravel_valid shape x Hx) as V. unfold coord. clear Hx. revert k Hk. induction V; intros k Hk; cbn in *; [lia|].
  destruct k; auto. apply IHV. lia.
Qed.
(** expectations are expectations under the marginal *)
Lemma marginal_expect shape k p g : (k < List.length shape)%nat ->
  rsum (nth k shape O) (fun v => marginal shape k p v * g v) = rsum (natprod shape) (fun x => p x * g (coord shape k x)).
Proof.
  intros Hk. unfold marginal. rewrite (rsum_ext _ _ (fun v => rsum (natprod shape) (fun x => (if Nat.eqb (coord shape k x) v then p x else 0) * g v))) by (intros; now rewrite rsum_scal_r).
  rewrite rsum_swap. apply rsum_ext. intros x Hx. rewrite (rsum_ext _ _ (fun v => if Nat.eqb (coord shape k x) v then p x * g v else 0)) by (intros v _; destruct (Nat.eqb _ v); lra).
  apply (rsum_delta' (nth k shape O) (coord shape k x) (fun v => p x * g v)). now apply coord_lt.
Qed.
Lemma marginal_sum shape k p : (k < List.length shape)%nat -> rsum (nth k shape O) (marginal shape k p) = rsum (natprod shape) p.
Proof.
  intros Hk. rewrite <- (rsum_ext _ (fun v => marginal shape k p v * 1)) by (intros; lra). rewrite (marginal_expect shape k p (fun _ => 1)) by auto. apply rsum_ext. intros. lra.
Qed.
Lemma marginal_nonneg shape k p v : (forall x, (x < natprod shape)%nat -> 0 <= p x) -> 0 <= marginal shape k p v.
Proof. intros H. apply rsum_nonneg. intros x Hx. destruct (Nat.eqb _ v); [auto|lra]. Qed.
