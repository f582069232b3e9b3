(** The reflecting Gaussian filter as a symmetric Markov kernel. *)
From Coq Require Import List ZArith Reals Lra Lia Arith Bool Permutation FunctionalExtensionality.
From Verif Require Import Base.Num Base.Arr Base.RSum Base.Lift Model.Helper Model.Tm Spec.Kernel.
Import ListNotations.
Local Open Scope R_scope.

(** ** coordinates *)
Definition valid (shape c : list nat) : Prop := Forall2 (fun n i => (i < n)%nat) shape c.

Lemma natprod_cons n s : natprod (n :: s) = (n * natprod s)%nat.
Proof. reflexivity. Qed.
Lemma natprod_app s1 s2 : natprod (s1 ++ s2) = (natprod s1 * natprod s2)%nat.
Proof. induction s1; simpl; [lia|]. unfold natprod in *. simpl. rewrite IHs1. lia. Qed.

Lemma ravel_lt shape : forall c, valid shape c -> (ravel shape c < natprod shape)%nat.
Proof.
  induction shape as [|n s IH]; intros c V; inversion V as [|? i ? c' Hi Vc]; subst.
  - cbn. lia.
  - cbn [ravel]. rewrite natprod_cons. specialize (IH _ Vc). nia.
Qed.
Lemma unravel_valid shape : forall x, (x < natprod shape)%nat -> valid shape (unravel shape x).
Proof.
  induction shape as [|n s IH]; intros x Hx; [constructor|].
  rewrite natprod_cons in Hx. cbn [unravel].
  assert (natprod s <> 0)%nat by (intro E; rewrite E in Hx; lia).
  constructor.
  - apply Nat.div_lt_upper_bound; lia.
  - apply IH. now apply Nat.mod_upper_bound.
Qed.
Lemma ravel_unravel shape : forall x, (x < natprod shape)%nat -> ravel shape (unravel shape x) = x.
Proof.
  induction shape as [|n s IH]; intros x Hx.
  - cbn in *. lia.
  - rewrite natprod_cons in Hx. cbn [unravel ravel].
    assert (natprod s <> 0)%nat by (intro E; rewrite E in Hx; lia).
    rewrite IH by now apply Nat.mod_upper_bound. rewrite (Nat.div_mod x (natprod s)) at 3 by auto. lia.
Qed.
Lemma unravel_ravel shape : forall c, valid shape c -> unravel shape (ravel shape c) = c.
Proof.
  induction shape as [|n s IH]; intros c V; inversion V as [|? i ? c' Hi Vc]; subst; auto.
  cbn [ravel unravel]. pose proof (ravel_lt _ _ Vc).
  assert (natprod s <> 0)%nat by lia.
  rewrite (Nat.add_comm (i * _)), Nat.div_add, Nat.mod_add by auto.
  rewrite Nat.div_small, Nat.mod_small by auto. simpl. f_equal. now apply IH.
Qed.

Lemma lset_length {A} (l : list A) i v : length (lset l i v) = length l.
Proof. revert i; induction l; destruct i; simpl; auto. Qed.
Lemma lset_nth {A} (l : list A) i v d : (i < length l)%nat -> nth i (lset l i v) d = v.
Proof. revert i; induction l; destruct i; simpl; intros; auto; try lia. apply IHl; lia. Qed.
Lemma lset_nth_neq {A} (l : list A) i j v d : i <> j -> nth j (lset l i v) d = nth j l d.
Proof. revert i j; induction l; destruct i, j; simpl; intros; auto; try lia. Qed.
Lemma lset_lset {A} (l : list A) i v w : lset (lset l i v) i w = lset l i w.
Proof. revert i; induction l; destruct i; simpl; intros; auto. now rewrite IHl. Qed.
Lemma lset_comm {A} (l : list A) i j v w : i <> j -> lset (lset l i v) j w = lset (lset l j w) i v.
Proof. revert i j; induction l; destruct i, j; simpl; intros; auto; try lia. f_equal. apply IHl. lia. Qed.
Lemma lset_id {A} (l : list A) i d : lset l i (nth i l d) = l.
Proof. revert i; induction l; destruct i; simpl; intros; auto. now rewrite IHl. Qed.

Lemma valid_length shape c : valid shape c -> length c = length shape.
Proof. induction 1; simpl; auto. Qed.
Lemma valid_nth shape : forall c a, valid shape c -> (a < length shape)%nat -> (nth a c O < nth a shape O)%nat.
Proof.
  induction shape as [|n s IH]; intros c a V Ha; [simpl in Ha; lia|].
  inversion V; subst. destruct a; simpl; auto. apply IH; auto. simpl in Ha. lia.
Qed.
Lemma valid_lset shape : forall c a j, valid shape c -> (j < nth a shape O)%nat -> valid shape (lset c a j).
Proof.
  induction shape as [|n s IH]; intros c a j V Ha; inversion V; subst; [constructor|].
  destruct a; simpl in *; constructor; auto. now apply IH.
Qed.

(** ** reflection *)
Lemma refl_reflect n i : refl n i = reflect n i.
Proof. unfold refl, reflect. destruct (_ <? _)%Z; reflexivity. Qed.
Lemma reflect_lt n i : (0 < n)%nat -> (reflect n i < n)%nat.
Proof.
  intros Hn. unfold reflect. pose proof (Z.mod_pos_bound i (2 * Z.of_nat n) ltac:(lia)).
  destruct (Z.ltb_spec (i mod (2 * Z.of_nat n)) (Z.of_nat n)); lia.
Qed.
Lemma reflect_small n i : (i < n)%nat -> reflect n (Z.of_nat i) = i.
Proof.
  intros Hi. unfold reflect. rewrite Z.mod_small by lia. destruct (Z.ltb_spec (Z.of_nat i) (Z.of_nat n)); lia.
Qed.
Lemma reflect_congr n i j : (0 < n)%nat -> (i mod (2 * Z.of_nat n) = j mod (2 * Z.of_nat n))%Z -> reflect n i = reflect n j.
Proof. intros _ E. unfold reflect. now rewrite E. Qed.
Lemma mod_opp_one n i : (0 < n)%Z -> ((-1 - i) mod n = n - 1 - i mod n)%Z.
Proof.
  intros Hn. pose proof (Z.mod_pos_bound i n Hn). pose proof (Z.div_mod i n ltac:(lia)).
  symmetry. apply Z.mod_unique with (q := (- (i / n) - 1)%Z); [lia|nia].
Qed.
Lemma reflect_neg n i : (0 < n)%nat -> reflect n (-1 - i) = reflect n i.
Proof.
  intros Hn. unfold reflect. rewrite mod_opp_one by lia.
  pose proof (Z.mod_pos_bound i (2 * Z.of_nat n) ltac:(lia)).
  destruct (Z.ltb_spec (2 * Z.of_nat n - 1 - i mod (2 * Z.of_nat n)) (Z.of_nat n));
  destruct (Z.ltb_spec (i mod (2 * Z.of_nat n)) (Z.of_nat n)); lia.
Qed.
(** position modulo 2n of a reflected index *)
Lemma reflect_cases n i : (0 < n)%nat ->
  (Z.of_nat (reflect n i) mod (2 * Z.of_nat n) = i mod (2 * Z.of_nat n))%Z \/
  (Z.of_nat (reflect n i) mod (2 * Z.of_nat n) = (-1 - i) mod (2 * Z.of_nat n))%Z.
Proof.
  intros Hn. pose proof (reflect_lt n i Hn) as HR. rewrite mod_opp_one by lia.
  rewrite (Z.mod_small (Z.of_nat (reflect n i))) by lia. unfold reflect in *.
  pose proof (Z.mod_pos_bound i (2 * Z.of_nat n) ltac:(lia)).
  destruct (Z.ltb_spec (i mod (2 * Z.of_nat n)) (Z.of_nat n)); lia.
Qed.

(** ** sums over symmetric ranges *)
Definition zsum (r : nat) (f : Z -> R) : R := Rsum (map f (steps r)).
Lemma zrange_steps r : zrange r = steps r.
Proof. reflexivity. Qed.
Lemma steps_opp r : Permutation (steps r) (map Z.opp (steps r)).
Proof.
  assert (E : map Z.opp (steps r) = rev (steps r)).
  { unfold steps. rewrite map_map, <- map_rev.
    apply (list_eq_nth 0%Z).
    - now rewrite !map_length, rev_length.
    - rewrite map_length, seq_length. intros i Hi.
      rewrite nth_indep with (d' := (- (Z.of_nat O - Z.of_nat r))%Z) by (rewrite map_length, seq_length; auto).
      rewrite (map_nth (fun x => (- (Z.of_nat x - Z.of_nat r))%Z)).
      rewrite (nth_indep (map _ (rev _)) 0%Z (Z.of_nat O - Z.of_nat r)%Z) by (rewrite map_length, rev_length, seq_length; auto).
      rewrite (map_nth (fun x => (Z.of_nat x - Z.of_nat r)%Z)).
      rewrite rev_nth by (rewrite seq_length; auto).
      rewrite seq_length, !seq_nth by lia. lia. }
  rewrite E. apply Permutation_rev.
Qed.
Lemma zsum_opp r f : zsum r (fun k => f (- k)%Z) = zsum r f.
Proof.
  unfold zsum. rewrite (Rsum_perm (map f (steps r)) (map f (map Z.opp (steps r)))).
  - now rewrite map_map.
  - apply Permutation_map, steps_opp.
Qed.
Lemma zsum_ext r f g : (forall k, f k = g k) -> zsum r f = zsum r g.
Proof. intros E. unfold zsum. apply Rsum_map_ext. auto. Qed.
Lemma zsum_swap r s f : zsum r (fun k => zsum s (f k)) = zsum s (fun l => zsum r (fun k => f k l)).
Proof. apply Rsum_swap. Qed.
Lemma zsum_scal r c f : zsum r (fun k => c * f k) = c * zsum r f.
Proof. apply Rsum_map_scal. Qed.
Lemma zsum_scal_r r c f : zsum r (fun k => f k * c) = zsum r f * c.
Proof. rewrite Rmult_comm, <- zsum_scal. apply zsum_ext. intros; ring. Qed.
Lemma zsum_rsum r n f : zsum r (fun k => rsum n (f k)) = rsum n (fun i => zsum r (fun k => f k i)).
Proof. unfold zsum. rewrite (rsum_Rsum n (fun i k => f k i)). reflexivity. Qed.

(** reflecting twice is like reflecting once, under an even weight *)
Lemma zsum_reflect_twice r (w : Z -> R) n a (phi : nat -> R) : (0 < n)%nat -> (forall k, w (- k)%Z = w k) ->
  zsum r (fun l => w l * phi (reflect n (Z.of_nat (reflect n a) + l))) = zsum r (fun l => w l * phi (reflect n (a + l))).
Proof.
  intros Hn We. destruct (reflect_cases n a Hn) as [E|E].
  - apply zsum_ext. intros l. do 2 f_equal. apply reflect_congr; auto.
    rewrite Z.add_mod, E, <- Z.add_mod by lia. reflexivity.
  - rewrite <- (zsum_opp r (fun l => w l * phi (reflect n (a + l)))).
    apply zsum_ext. intros l. rewrite We. do 2 f_equal.
    rewrite <- (reflect_neg n (a + - l)) by auto.
    apply reflect_congr; auto. rewrite Z.add_mod, E, <- Z.add_mod by lia. f_equal. lia.
Qed.

Lemma reflect_eqb n i j : (0 < n)%nat -> (j < n)%nat ->
  (if Nat.eqb (reflect n i) j then 1 else 0) =
  (if ((i - Z.of_nat j) mod (2 * Z.of_nat n) =? 0)%Z then 1 else 0)
  + (if ((i + Z.of_nat j + 1) mod (2 * Z.of_nat n) =? 0)%Z then 1 else 0).
Proof.
  intros Hn Hj. unfold reflect.
  pose proof (Z.mod_pos_bound i (2 * Z.of_nat n) ltac:(lia)) as Hm.
  pose proof (Z.div_mod i (2 * Z.of_nat n) ltac:(lia)) as Hd.
  set (m := (i mod (2 * Z.of_nat n))%Z) in *. set (q := (i / (2 * Z.of_nat n))%Z) in *.
  assert (E1 : ((i - Z.of_nat j) mod (2 * Z.of_nat n) =? 0)%Z = (m =? Z.of_nat j)%Z).
  { replace (i - Z.of_nat j)%Z with ((m - Z.of_nat j) + q * (2 * Z.of_nat n))%Z by lia.
    rewrite Z.mod_add by lia.
    destruct (Z.eqb_spec m (Z.of_nat j)) as [->|NE].
    - rewrite Z.sub_diag, Z.mod_0_l by lia. reflexivity.
    - apply Z.eqb_neq. intros E. apply Z.mod_divide in E; [|lia]. destruct E as [c E].
      assert (c = 0)%Z by nia. nia. }
  assert (E2 : ((i + Z.of_nat j + 1) mod (2 * Z.of_nat n) =? 0)%Z = (m =? 2 * Z.of_nat n - 1 - Z.of_nat j)%Z).
  { replace (i + Z.of_nat j + 1)%Z with ((m + Z.of_nat j + 1) + q * (2 * Z.of_nat n))%Z by lia.
    rewrite Z.mod_add by lia.
    destruct (Z.eqb_spec m (2 * Z.of_nat n - 1 - Z.of_nat j)) as [->|NE].
    - replace (2 * Z.of_nat n - 1 - Z.of_nat j + Z.of_nat j + 1)%Z with (1 * (2 * Z.of_nat n))%Z by lia.
      rewrite Z.mod_mul by lia. reflexivity.
    - apply Z.eqb_neq. intros E. apply Z.mod_divide in E; [|lia]. destruct E as [c E].
      assert (c = 1)%Z by nia. nia. }
  rewrite E1, E2.
  destruct (Z.ltb_spec m (Z.of_nat n));
  match goal with |- (if (?A =? ?B)%nat then _ else _) = _ => destruct (Nat.eqb_spec A B) end;
  destruct (Z.eqb_spec m (Z.of_nat j)); destruct (Z.eqb_spec m (2 * Z.of_nat n - 1 - Z.of_nat j)); try lra; lia.
Qed.

Lemma zsum_plus r f g : zsum r (fun k => f k + g k) = zsum r f + zsum r g.
Proof. apply Rsum_map_plus. Qed.

(** one-dimensional reversibility *)
Lemma reflect_sym r (w : Z -> R) n i j : (i < n)%nat -> (j < n)%nat -> (forall k, w (- k)%Z = w k) ->
  zsum r (fun k => w k * (if Nat.eqb (reflect n (Z.of_nat i + k)) j then 1 else 0))
  = zsum r (fun k => w k * (if Nat.eqb (reflect n (Z.of_nat j + k)) i then 1 else 0)).
Proof.
  intros Hi Hj We.
  erewrite zsum_ext; [|intros k; rewrite reflect_eqb by lia; rewrite Rmult_plus_distr_l; reflexivity].
  rewrite zsum_plus.
  rewrite (zsum_ext r (fun k => w k * (if Nat.eqb (reflect n (Z.of_nat j + k)) i then 1 else 0))
     (fun k => w k * (if ((Z.of_nat j + k - Z.of_nat i) mod (2 * Z.of_nat n) =? 0)%Z then 1 else 0)
             + w k * (if ((Z.of_nat j + k + Z.of_nat i + 1) mod (2 * Z.of_nat n) =? 0)%Z then 1 else 0)))
    by (intros k; rewrite reflect_eqb by lia; ring).
  rewrite zsum_plus. f_equal.
  - rewrite <- zsum_opp. apply zsum_ext. intros k. rewrite We. f_equal.
    replace (Z.of_nat i + - k - Z.of_nat j)%Z with (- (Z.of_nat j + k - Z.of_nat i))%Z by lia.
    destruct (Z.eqb_spec ((Z.of_nat j + k - Z.of_nat i) mod (2 * Z.of_nat n)) 0) as [E|E].
    + rewrite Z.mod_opp_l_z by (auto; lia). reflexivity.
    + rewrite Z.mod_opp_l_nz by (auto; lia).
      pose proof (Z.mod_pos_bound (Z.of_nat j + k - Z.of_nat i) (2 * Z.of_nat n) ltac:(lia)).
      match goal with |- (if ?b then _ else _) = _ => destruct b eqn:EE end; auto. apply Z.eqb_eq in EE. lia.
  - apply zsum_ext. intros k. f_equal.
    replace (Z.of_nat i + k + Z.of_nat j + 1)%Z with (Z.of_nat j + k + Z.of_nat i + 1)%Z by lia. reflexivity.
Qed.

(** ** moves on the grid *)
Section Moves.
  Variable shape : list nat.
  Notation N := (natprod shape).

  Lemma dim_pos a x : (x < N)%nat -> (a < length shape)%nat -> (0 < nth a shape O)%nat.
  Proof. intros Hx Ha. pose proof (valid_nth _ _ _ (unravel_valid _ _ Hx) Ha). lia. Qed.

  Lemma move_valid a k x : (x < N)%nat -> (a < length shape)%nat ->
    valid shape (lset (unravel shape x) a (reflect (nth a shape O) (Z.of_nat (nth a (unravel shape x) O) + k))).
  Proof.
    intros Hx Ha. apply valid_lset; [now apply unravel_valid|]. apply reflect_lt. eapply dim_pos; eauto.
  Qed.
  Lemma move_lt a k x : (x < N)%nat -> (a < length shape)%nat -> (move shape a k x < N)%nat.
  Proof. intros. unfold move. apply ravel_lt. now apply move_valid. Qed.
  Lemma unravel_move a k x : (x < N)%nat -> (a < length shape)%nat ->
    unravel shape (move shape a k x)
    = lset (unravel shape x) a (reflect (nth a shape O) (Z.of_nat (nth a (unravel shape x) O) + k)).
  Proof. intros. unfold move. apply unravel_ravel. now apply move_valid. Qed.

  Lemma move_comm a b k l x : a <> b -> (x < N)%nat -> (a < length shape)%nat -> (b < length shape)%nat ->
    move shape b l (move shape a k x) = move shape a k (move shape b l x).
  Proof.
    intros NE Hx Ha Hb. unfold move at 1 3. f_equal. rewrite !unravel_move by auto.
    rewrite !lset_nth_neq by auto. now apply lset_comm.
  Qed.
  Lemma move_move a k l x : (x < N)%nat -> (a < length shape)%nat ->
    move shape a l (move shape a k x)
    = ravel shape (lset (unravel shape x) a
        (reflect (nth a shape O) (Z.of_nat (reflect (nth a shape O) (Z.of_nat (nth a (unravel shape x) O) + k)) + l))).
  Proof.
    intros Hx Ha. unfold move at 1. rewrite !unravel_move by auto. f_equal.
    rewrite lset_lset. f_equal. rewrite lset_nth; auto.
    rewrite (valid_length shape); auto. now apply unravel_valid.
  Qed.

  Lemma zsum_move_twice r s (w v : Z -> R) a x (phi : nat -> R) : (x < N)%nat -> (a < length shape)%nat ->
    (forall k, v (- k)%Z = v k) ->
    zsum r (fun k => w k * zsum s (fun l => v l * phi (move shape a l (move shape a k x))))
    = zsum r (fun k => zsum s (fun l => w k * v l * phi (ravel shape (lset (unravel shape x) a
        (reflect (nth a shape O) (Z.of_nat (nth a (unravel shape x) O) + k + l)))))).
  Proof.
    intros Hx Ha Ve. apply zsum_ext. intros k.
    erewrite zsum_ext; [|intros l; rewrite move_move by auto; reflexivity].
    rewrite (zsum_reflect_twice s v (nth a shape O) (Z.of_nat (nth a (unravel shape x) O) + k)
               (fun i => phi (ravel shape (lset (unravel shape x) a i)))); auto.
    2:{ eapply dim_pos; eauto. }
    rewrite <- zsum_scal. apply zsum_ext. intros l. ring.
  Qed.

  (** walk operators on one axis or two axes commute *)
  Lemma walks_commute r s (w v : Z -> R) a b x (phi : nat -> R) :
    (x < N)%nat -> (a < length shape)%nat -> (b < length shape)%nat ->
    (forall k, w (- k)%Z = w k) -> (forall k, v (- k)%Z = v k) ->
    zsum r (fun k => w k * zsum s (fun l => v l * phi (move shape b l (move shape a k x))))
    = zsum s (fun l => v l * zsum r (fun k => w k * phi (move shape a k (move shape b l x)))).
  Proof.
    intros Hx Ha Hb We Ve. destruct (Nat.eq_dec a b) as [->|NE].
    - rewrite !zsum_move_twice by auto. rewrite zsum_swap. apply zsum_ext. intros l. apply zsum_ext. intros k.
      replace (Z.of_nat (nth b (unravel shape x) O) + k + l)%Z with (Z.of_nat (nth b (unravel shape x) O) + l + k)%Z by lia.
      ring.
    - erewrite zsum_ext; [|intros k; rewrite <- zsum_scal; reflexivity].
      rewrite zsum_swap. apply zsum_ext. intros l. rewrite <- zsum_scal. apply zsum_ext. intros k.
      rewrite move_comm by auto. ring.
  Qed.

  Lemma move_eq_iff a k x y : (x < N)%nat -> (y < N)%nat -> (a < length shape)%nat ->
    (move shape a k x = y <->
     lset (unravel shape x) a O = lset (unravel shape y) a O /\
     reflect (nth a shape O) (Z.of_nat (nth a (unravel shape x) O) + k) = nth a (unravel shape y) O).
  Proof.
    intros Hx Hy Ha. split.
    - intros <-. rewrite unravel_move by auto. rewrite lset_lset, lset_nth; auto.
      rewrite (valid_length shape); auto. now apply unravel_valid.
    - intros [E1 E2]. rewrite <- (ravel_unravel shape y) by auto. unfold move. f_equal. rewrite E2.
      rewrite <- (lset_lset _ _ O), E1, lset_lset. apply lset_id.
  Qed.

  Lemma move_sym r (w : Z -> R) a x y : (x < N)%nat -> (y < N)%nat -> (a < length shape)%nat ->
    (forall k, w (- k)%Z = w k) ->
    zsum r (fun k => if Nat.eqb (move shape a k x) y then w k else 0)
    = zsum r (fun k => if Nat.eqb (move shape a k y) x then w k else 0).
  Proof.
    intros Hx Hy Ha We.
    assert (G : forall x y, (x < N)%nat -> (y < N)%nat ->
      zsum r (fun k => if Nat.eqb (move shape a k x) y then w k else 0)
      = if list_eq_dec Nat.eq_dec (lset (unravel shape x) a O) (lset (unravel shape y) a O)
        then zsum r (fun k => w k * (if Nat.eqb (reflect (nth a shape O) (Z.of_nat (nth a (unravel shape x) O) + k)) (nth a (unravel shape y) O) then 1 else 0))
        else 0).
    { clear x y Hx Hy. intros x y Hx Hy.
      destruct (list_eq_dec _ _ _) as [E|NE].
      - apply zsum_ext. intros k.
        destruct (Nat.eqb_spec (move shape a k x) y) as [M|M]; rewrite move_eq_iff in M by auto;
        destruct (Nat.eqb_spec (reflect (nth a shape O) (Z.of_nat (nth a (unravel shape x) O) + k)) (nth a (unravel shape y) O)); try lra; tauto.
      - unfold zsum. apply Rsum_map_0. intros k _.
        destruct (Nat.eqb_spec (move shape a k x) y) as [M|M]; auto. rewrite move_eq_iff in M by auto. tauto. }
    rewrite !G by auto.
    destruct (list_eq_dec _ (lset (unravel shape x) _ _) _) as [E|NE];
    destruct (list_eq_dec _ (lset (unravel shape y) _ _) _) as [E'|NE']; try congruence.
    apply reflect_sym; auto; eapply valid_nth; auto; now apply unravel_valid.
  Qed.
End Moves.

(** ** Gaussian weights *)
Lemma gDensity_pos sd k : 0 < gDensity sd k.
Proof. apply exp_pos. Qed.
Lemma gDensity_even sd k : gDensity sd (- k) = gDensity sd k.
Proof. unfold gDensity. rewrite opp_IZR. do 2 f_equal. ring. Qed.
Lemma steps_nonempty r : exists k l, steps r = k :: l.
Proof. unfold steps. rewrite Nat.add_1_r. simpl. eauto. Qed.
Lemma Rsum_pos_map {A} (f : A -> R) l : l <> [] -> (forall x, 0 < f x) -> 0 < Rsum (map f l).
Proof.
  intros NE P. destruct l as [|a l]; [tauto|]. simpl. pose proof (P a).
  assert (0 <= Rsum (map f l)). { apply Rsum_nonneg. apply Forall_map, Forall_forall. intros x _. left. apply P. }
  lra.
Qed.
Lemma gNorm_pos sd : 0 < Rsum (map (gDensity sd) (steps (gRadius sd))).
Proof.
  apply Rsum_pos_map; [|apply gDensity_pos]. destruct (steps_nonempty (gRadius sd)) as (k & l & ->). discriminate.
Qed.
Lemma gProb_pos sd k : 0 < gProb sd k.
Proof. unfold gProb. apply Rdiv_lt_0_compat; [apply gDensity_pos|apply gNorm_pos]. Qed.
Lemma gProb_even sd k : gProb sd (- k) = gProb sd k.
Proof. unfold gProb. now rewrite gDensity_even. Qed.
Lemma gProb_sum sd : zsum (gRadius sd) (gProb sd) = 1.
Proof.
  unfold zsum, gProb. unfold Rdiv.
  rewrite (Rsum_map_ext _ (fun k => / Rsum (map (gDensity sd) (steps (gRadius sd))) * gDensity sd k)) by (intros; ring).
  rewrite Rsum_map_scal. apply Rinv_l. pose proof (gNorm_pos sd). lra.
Qed.

(** the weights of the code are these *)
Lemma fsum_R l : fsum (F := R) l = Rsum l.
Proof.
  unfold fsum. assert (forall a, fold_left Rplus l a = a + Rsum l).
  { induction l as [|x l IH]; intros a; simpl; [lra|]. rewrite IH. lra. }
  cbn. rewrite H. lra.
Qed.
Lemma gaussPhi_R sd k : sd <> 0 -> gaussPhi (F := R) sd k = gDensity sd k.
Proof.
  intros. unfold gaussPhi, gDensity, fneg, two. cbn. f_equal. field. auto.
Qed.
Lemma gaussRadius_R sd : 0 < sd -> gaussRadius (F := R) sd = gRadius sd.
Proof.
  intros. unfold gaussRadius, gRadius, two. cbn. unfold Rtrunc.
  replace ((1 + 1 + (1 + 1)) * sd + 1 / (1 + 1)) with (4 * sd + / 2) by lra.
  destruct (Rlt_dec (4 * sd + / 2) 0); [lra|reflexivity].
Qed.
Lemma gaussWeight_R sd k : 0 < sd -> gaussWeight (F := R) sd k = gProb sd k.
Proof.
  intros. unfold gaussWeight, gProb. rewrite fsum_R, gaussRadius_R, zrange_steps by auto.
  cbn [fdiv NumR]. rewrite gaussPhi_R by lra. do 2 f_equal. apply map_ext. intros; apply gaussPhi_R; lra.
Qed.

(** ** the filter of the code *)
Lemma nth_flat_map_blocks {A} (f : nat -> list A) b d : (forall k, length (f k) = b) ->
  forall m s k j, (k < m)%nat -> (j < b)%nat -> nth (k * b + j) (flat_map f (seq s m)) d = nth j (f (s + k)%nat) d.
Proof.
  intros Hb. induction m as [|m IH]; intros s k j Hk Hj; [lia|].
  cbn [seq flat_map]. destruct k as [|k].
  - cbn [Nat.mul Nat.add]. rewrite app_nth1 by (rewrite Hb; auto). now rewrite Nat.add_0_r.
  - rewrite app_nth2 by (rewrite Hb; lia). rewrite Hb. replace (S k * b + j - b)%nat with (k * b + j)%nat by lia.
    rewrite IH by lia. do 2 f_equal. lia.
Qed.
Lemma flat_map_blocks_length {A} (f : nat -> list A) b : (forall k, length (f k) = b) ->
  forall m s, length (flat_map f (seq s m)) = (m * b)%nat.
Proof.
  intros Hb. induction m as [|m IH]; intros s; [reflexivity|]. cbn [seq flat_map]. rewrite app_length, Hb, IH. lia.
Qed.

Lemma filterAxis_length (pre n post r : nat) (w : Z -> R) x : length (filterAxis pre n post r w x) = (pre * (n * post))%nat.
Proof.
  unfold filterAxis. rewrite (flat_map_blocks_length _ (n * post)); auto.
  intros p. rewrite (flat_map_blocks_length _ post); auto. intros i. now rewrite map_length, seq_length.
Qed.
Lemma filterAxis_nth (pre n post r : nat) (w : Z -> R) x p i q d : (p < pre)%nat -> (i < n)%nat -> (q < post)%nat ->
  nth ((p * n + i) * post + q) (filterAxis pre n post r w x) d
  = asum (map (fun k => xmul (Fin (w k)) (nth ((p * n + refl n (Z.of_nat i + k)) * post + q)%nat x NaN)) (zrange r)).
Proof.
  intros Hp Hi Hq. unfold filterAxis.
  replace ((p * n + i) * post + q)%nat with (p * (n * post) + (i * post + q))%nat by lia.
  rewrite (nth_flat_map_blocks _ (n * post)); auto; try nia.
  2:{ intros p'. rewrite (flat_map_blocks_length _ post); auto. intros i'. now rewrite map_length, seq_length. }
  rewrite (nth_flat_map_blocks _ post); auto.
  2:{ intros i'. now rewrite map_length, seq_length. }
  cbn [Nat.add].
  apply (tab_nth post (fun q => asum (map (fun k => xmul (Fin (w k))
           (nth ((p * n + refl n (Z.of_nat i + k)) * post + q)%nat x NaN)) (zrange r)))); auto.
Qed.

Lemma skipn_cons_nth {A} (d : A) : forall a l, (a < length l)%nat -> skipn a l = nth a l d :: skipn (S a) l.
Proof.
  induction a as [|a IH]; destruct l as [|x l]; intros Ha; try (simpl in Ha; lia); [reflexivity|].
  change (skipn (S a) (x :: l)) with (skipn a l). change (skipn (S (S a)) (x :: l)) with (skipn (S a) l).
  apply IH. simpl in Ha. lia.
Qed.
Lemma natprod_split shape a : (a < length shape)%nat ->
  natprod shape = (natprod (firstn a shape) * (nth a shape O * natprod (skipn (S a) shape)))%nat.
Proof.
  intros Ha. rewrite <- (firstn_skipn a shape) at 1. rewrite natprod_app. f_equal.
  rewrite (skipn_cons_nth O) by auto. reflexivity.
Qed.

Lemma split_index shape : forall a x, (a < length shape)%nat -> (x < natprod shape)%nat ->
  exists p q, (p < natprod (firstn a shape))%nat /\ (q < natprod (skipn (S a) shape))%nat /\
  forall j, ravel shape (lset (unravel shape x) a j)
            = ((p * nth a shape O + j) * natprod (skipn (S a) shape) + q)%nat.
Proof.
  induction shape as [|n s IH]; intros a x Ha Hx; [simpl in Ha; lia|].
  rewrite natprod_cons in Hx.
  assert (P0 : natprod s <> 0%nat) by (intro E; rewrite E in Hx; lia).
  assert (Hm : (x mod natprod s < natprod s)%nat) by now apply Nat.mod_upper_bound.
  destruct a as [|a].
  - exists 0%nat, (x mod natprod s)%nat. split; [cbn; lia|]. split; [exact Hm|].
    intros j. cbn [unravel lset ravel nth skipn]. rewrite ravel_unravel by auto. lia.
  - destruct (IH a (x mod natprod s)%nat) as (p & q & Hp & Hq & E); [simpl in Ha; lia|auto|].
    exists ((x / natprod s) * natprod (firstn a s) + p)%nat, q.
    change (firstn (S a) (n :: s)) with (n :: firstn a s). change (skipn (S (S a)) (n :: s)) with (skipn (S a) s).
    cbn [nth]. rewrite natprod_cons.
    assert (x / natprod s < n)%nat by (apply Nat.div_lt_upper_bound; lia).
    split; [nia|]. split; [exact Hq|].
    intros j. cbn [unravel lset ravel]. rewrite E.
    assert (S1 : natprod s = (natprod (firstn a s) * (nth a s O * natprod (skipn (S a) s)))%nat).
    { apply natprod_split. simpl in Ha; lia. }
    rewrite S1. ring.
Qed.

Lemma nth_fin p i : (i < length p)%nat -> nth i (fin p) NaN = Fin (Rnth p i).
Proof.
  intros. rewrite nth_indep with (d' := Fin 0) by (rewrite map_length; auto). apply (map_nth (@Fin R)).
Qed.

Lemma gaussianFilter1d_fin shape a sd p : (a < length shape)%nat -> 0 < sd -> length p = natprod shape ->
  gaussianFilter1d shape a sd (fin p)
  = fin (tab (natprod shape) (fun y => zsum (gRadius sd) (fun k => gProb sd k * Rnth p (move shape a k y)))).
Proof.
  intros Ha Hsd Hp. unfold gaussianFilter1d.
  apply (list_eq_nth NaN).
  - rewrite filterAxis_length, map_length, tab_length. symmetry. now apply natprod_split.
  - rewrite filterAxis_length, <- natprod_split by auto. intros y Hy.
    rewrite nth_fin by (rewrite tab_length; auto). rewrite Rnth_tab by auto.
    destruct (split_index shape a y Ha Hy) as (u & q & Hu & Hq & E).
    set (i := nth a (unravel shape y) O).
    assert (Hi : (i < nth a shape O)%nat) by (apply valid_nth; auto; now apply unravel_valid).
    assert (Ey : y = ((u * nth a shape O + i) * natprod (skipn (S a) shape) + q)%nat).
    { rewrite <- E. unfold i. rewrite lset_id. symmetry. now apply ravel_unravel. }
    rewrite Ey at 1. rewrite filterAxis_nth by auto. rewrite gaussRadius_R, zrange_steps by auto.
    rewrite (map_ext_in _ (fun k => Fin (gProb sd k * Rnth p (move shape a k y)))).
    + rewrite <- (map_map (fun k => gProb sd k * Rnth p (move shape a k y)) (@Fin R)), asum_fin. reflexivity.
    + intros k _. rewrite refl_reflect, <- E. fold i.
      change (ravel shape (lset (unravel shape y) a (reflect (nth a shape O) (Z.of_nat i + k)))) with (move shape a k y).
      rewrite nth_fin by (rewrite Hp; apply move_lt; auto).
      cbn [xmul]. rewrite gaussWeight_R by auto. reflexivity.
Qed.
