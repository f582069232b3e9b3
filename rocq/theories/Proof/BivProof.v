(** The bivariate random walk. *)
From Coq Require Import List ZArith Reals Lra Lia Arith Bool String.
From Verif Require Import Base.Num Base.Exn Base.Arr Base.RSum Base.Lift Model.Helper Model.Tm Model.Bivariate
  Spec.Kernel Spec.Config Spec.BivSpec Proof.Gauss.
Import ListNotations.
Local Open Scope R_scope.

Lemma steps_NoDup r : NoDup (steps r).
Proof.
  unfold steps. apply FinFun.Injective_map_NoDup; [intros a b E; lia|apply seq_NoDup].
Qed.
Lemma steps_In r k : In k (steps r) <-> within r k = true.
Proof.
  unfold steps, within. rewrite in_map_iff, Z.leb_le. split.
  - intros (i & E & Hi). apply in_seq in Hi. lia.
  - intros E. exists (Z.to_nat (k + Z.of_nat r)). split; [lia|]. apply in_seq. lia.
Qed.
Lemma Rsum_delta_Z (l : list Z) c (h : Z -> R) : NoDup l ->
  Rsum (map (fun k => if Z.eqb k c then h k else 0) l) = if in_dec Z.eq_dec c l then h c else 0.
Proof.
  induction l as [|a l IH]; intros N; [reflexivity|]. inversion N; subst. cbn [map Rsum fold_right]. fold (Rsum (map (fun k => if Z.eqb k c then h k else 0) l)).
  rewrite IH by auto. destruct (Z.eqb_spec a c) as [->|Ne].
  - destruct (in_dec Z.eq_dec c l); [contradiction|]. destruct (in_dec Z.eq_dec c (c :: l)) as [|X]; [lra|exfalso; apply X; left; auto].
  - destruct (in_dec Z.eq_dec c l) as [i|i]; destruct (in_dec Z.eq_dec c (a :: l)) as [j|j]; try lra.
    + exfalso; apply j; right; auto.
    + exfalso. destruct j; auto.
Qed.
Lemma zsum_delta r c h : zsum r (fun k => if Z.eqb k c then h k else 0) = if within r c then h c else 0.
Proof.
  unfold zsum. rewrite Rsum_delta_Z by apply steps_NoDup.
  destruct (in_dec Z.eq_dec c (steps r)) as [i|i]; rewrite steps_In in i; [now rewrite i|].
  destruct (within r c); [exfalso; auto|auto].
Qed.
Definition inRange (n : nat) (i : Z) : bool := (Z.leb 0 i && Z.ltb i (Z.of_nat n))%bool.

(** a convolution with a kernel of finite reach is a sum over the grid *)
Lemma zsum_rsum_shift r n i (P : Z -> nat -> R) :
  zsum r (fun k => if inRange n (i - k) then P k (Z.to_nat (i - k)) else 0) =
  rsum n (fun i' => if within r (i - Z.of_nat i') then P (i - Z.of_nat i')%Z i' else 0).
Proof.
  transitivity (zsum r (fun k => rsum n (fun i' => if Z.eqb k (i - Z.of_nat i') then P k i' else 0))).
  - apply zsum_ext. intros k. unfold inRange. destruct (Z.leb_spec 0 (i - k)); destruct (Z.ltb_spec (i - k) (Z.of_nat n)); cbn [andb].
    + rewrite <- (rsum_delta n (Z.to_nat (i - k)) (fun i' => P k i')) by lia. apply rsum_ext. intros j Hj.
      destruct (Nat.eqb_spec j (Z.to_nat (i - k))); destruct (Z.eqb_spec k (i - Z.of_nat j)); auto; lia.
    + symmetry. apply rsum_0. intros j Hj. destruct (Z.eqb_spec k (i - Z.of_nat j)); auto; lia.
    + symmetry. apply rsum_0. intros j Hj. destruct (Z.eqb_spec k (i - Z.of_nat j)); auto; lia.
    + symmetry. apply rsum_0. intros j Hj. destruct (Z.eqb_spec k (i - Z.of_nat j)); auto; lia.
  - rewrite zsum_rsum. apply rsum_ext. intros j Hj. apply (zsum_delta r (i - Z.of_nat j)%Z (fun k => P k j)).
Qed.

Lemma flat_map_tab {A} (G : nat -> nat -> A) n1 n2 :
  flat_map (fun i => map (G i) (seq 0 n2)) (seq 0 n1) = tab (n1 * n2) (fun y => G (y / n2)%nat (y mod n2)%nat).
Proof.
  destruct n2 as [|m].
  { rewrite Nat.mul_0_r. cbn. induction (seq 0 n1); auto. }
  set (n2 := Datatypes.S m) in *. assert (P : (0 < n2)%nat) by (unfold n2; lia). clearbody n2.
  induction n1 as [|n1 IH]; [reflexivity|].
  rewrite seq_S, flat_map_app, IH. cbn [flat_map]. rewrite app_nil_r. unfold tab.
  replace (Datatypes.S n1 * n2)%nat with (n1 * n2 + n2)%nat by lia. rewrite seq_app, map_app. f_equal. cbn.
  assert (E : forall m' z, (z + m' <= n2)%nat -> map (G n1) (seq z m') = map (fun y => G (y / n2)%nat (y mod n2)%nat) (seq (n1 * n2 + z) m')).
  { induction m' as [|m' IHm]; intros z Hz; [reflexivity|]. cbn [seq map]. f_equal.
    - f_equal; [rewrite Nat.div_add_l, Nat.div_small by lia; lia|rewrite Nat.add_comm, Nat.mod_add, Nat.mod_small by lia; auto].
    - rewrite IHm by lia. replace (n1 * n2 + Datatypes.S z)%nat with (Datatypes.S (n1 * n2 + z)) by lia. reflexivity. }
  rewrite (E n2 0%nat) by lia. rewrite Nat.add_0_r. reflexivity.
Qed.

(** ** scipy.signal.convolve2d *)
Section Conv.
  Variables (n1 n2 r1 r2 : nat) (w : Z -> Z -> R) (f : nat -> R).
  Notation N := (n1 * n2)%nat.
  Definition cut (k l : Z) : R := if within r1 k && within r2 l then w k l else 0.

  Lemma padded_fin i j :
    padded n1 n2 (arrOf N f) i j = Fin (if inRange n1 i then if inRange n2 j then f (Z.to_nat i * n2 + Z.to_nat j)%nat else 0 else 0).
  Proof.
    unfold padded, inRange. destruct (Z.leb_spec 0 i); destruct (Z.ltb_spec i (Z.of_nat n1)); cbn [andb]; auto.
    destruct (Z.leb_spec 0 j); destruct (Z.ltb_spec j (Z.of_nat n2)); cbn [andb]; auto.
    unfold arrOf. rewrite map_tab, tab_nth; auto. nia.
  Qed.

  Lemma convolve2d_fin : convolve2d n1 n2 r1 r2 w (arrOf N f) =
    arrOf N (fun y => rsum N (fun x => f x * cut (Z.of_nat (y / n2) - Z.of_nat (x / n2)) (Z.of_nat (y mod n2) - Z.of_nat (x mod n2)))).
  Proof.
    unfold convolve2d. rewrite flat_map_tab. unfold arrOf at 2. rewrite map_tab. apply tab_ext. intros y Hy.
    set (i := (y / n2)%nat). set (j := (y mod n2)%nat).
    transitivity (asum (map (fun k => Fin (zsum r2 (fun l => w k l * (if inRange n1 (Z.of_nat i - k) then if inRange n2 (Z.of_nat j - l)
      then f (Z.to_nat (Z.of_nat i - k) * n2 + Z.to_nat (Z.of_nat j - l))%nat else 0 else 0)))) (steps r1))).
    { rewrite zrange_steps. f_equal. apply map_ext. intros k. unfold zsum. rewrite <- asum_fin, map_map. f_equal.
      apply map_ext. intros l. rewrite padded_fin. reflexivity. }
    rewrite <- (map_map _ Fin), asum_fin. f_equal. fold (zsum r1 (fun k => zsum r2 (fun l => w k l * (if inRange n1 (Z.of_nat i - k) then if inRange n2 (Z.of_nat j - l)
      then f (Z.to_nat (Z.of_nat i - k) * n2 + Z.to_nat (Z.of_nat j - l))%nat else 0 else 0)))).
    transitivity (zsum r1 (fun k => if inRange n1 (Z.of_nat i - k) then (fun k i' => zsum r2 (fun l => if inRange n2 (Z.of_nat j - l)
      then (fun l j' => w k l * f (i' * n2 + j')%nat) l (Z.to_nat (Z.of_nat j - l)) else 0)) k (Z.to_nat (Z.of_nat i - k)) else 0)).
    { apply zsum_ext. intros k. destruct (inRange n1 (Z.of_nat i - k)).
      - apply zsum_ext. intros l. destruct (inRange n2 (Z.of_nat j - l)); ring.
      - unfold zsum. apply Rsum_map_0. intros; ring. }
    rewrite (zsum_rsum_shift r1 n1 _ (fun k i' => zsum r2 (fun l => if inRange n2 (Z.of_nat j - l) then w k l * f (i' * n2 + Z.to_nat (Z.of_nat j - l))%nat else 0))).
    rewrite rsum_mult. apply rsum_ext. intros i' Hi.
    transitivity (rsum n2 (fun j' => if within r1 (Z.of_nat i - Z.of_nat i') then
        (if within r2 (Z.of_nat j - Z.of_nat j') then w (Z.of_nat i - Z.of_nat i')%Z (Z.of_nat j - Z.of_nat j')%Z * f (i' * n2 + j')%nat else 0) else 0)).
    - destruct (within r1 (Z.of_nat i - Z.of_nat i')).
      + apply (zsum_rsum_shift r2 n2 _ (fun l j' => w (Z.of_nat i - Z.of_nat i')%Z l * f (i' * n2 + j')%nat)).
      + symmetry. apply rsum_0. auto.
    - apply rsum_ext. intros j' Hj. unfold cut.
      rewrite Nat.div_add_l, (Nat.div_small j') by lia. rewrite Nat.add_0_r.
      replace ((i' * n2 + j') mod n2)%nat with j' by (rewrite Nat.add_comm, Nat.mod_add, Nat.mod_small; lia).
      destruct (within r1 _); destruct (within r2 _); cbn [andb]; ring.
  Qed.
End Conv.

(** ** the kernel *)
Lemma Int_part_spec x z : IZR z <= x -> x < IZR z + 1 -> Int_part x = z.
Proof.
  intros A B. destruct (base_Int_part x) as [C D].
  assert (IZR (Int_part x) < IZR z + 1) by lra. assert (IZR z < IZR (Int_part x) + 1) by lra.
  rewrite <- plus_IZR in *. apply lt_IZR in H, H0. lia.
Qed.
Lemma fceil_R (x : R) : 0 <= x -> fceil x = ceilZ x.
Proof.
  intros P. unfold fceil, ceilZ. cbn [ftrunc fltb fofZ NumR]. unfold Rtrunc. destruct (Rlt_dec x 0) as [|_]; [lra|].
  destruct (base_Int_part x) as [C D]. destruct (Rltb (IZR (Int_part x)) x) eqn:E.
  - apply Rltb_true in E. rewrite (Int_part_spec (- x) (- Int_part x - 1)); [lia| |]; rewrite minus_IZR, opp_IZR; lra.
  - apply Rltb_false in E. rewrite (Int_part_spec (- x) (- Int_part x)); [lia| |]; rewrite opp_IZR; lra.
Qed.
Lemma bivRadius_R s : 0 <= s -> bivRadius s = bivReach s.
Proof. intros. unfold bivRadius, bivReach. now rewrite fceil_R. Qed.
Lemma bivPhi_R s1 s2 rho k l : bivPhi s1 s2 rho k l = bivDensity s1 s2 rho k l.
Proof.
  unfold bivPhi, bivDensity. cbn [fexp fdiv fneg fadd fsub fmul fofZ f0 f1 NumR]. unfold fneg, two. cbn [fsub fadd f0 f1 NumR]. f_equal. unfold Rdiv. f_equal; [|f_equal]; ring.
Qed.
Lemma bivTotal_R s1 s2 rho : 0 <= s1 -> 0 <= s2 -> bivTotal s1 s2 rho = bivSum s1 s2 rho.
Proof.
  intros P1 P2. unfold bivTotal, bivSum. rewrite !bivRadius_R, fsum_R, !zrange_steps by auto. apply Rsum_map_ext. intros k _.
  rewrite fsum_R. apply Rsum_map_ext. intros l _. apply bivPhi_R.
Qed.
Lemma bivDensity_pos s1 s2 rho k l : 0 < bivDensity s1 s2 rho k l.
Proof. apply exp_pos. Qed.
Lemma steps_0 r : In 0%Z (steps r).
Proof. apply steps_In. unfold within. apply Z.leb_le. lia. Qed.
Lemma Rsum_steps_pos r (h : Z -> R) : (forall k, 0 < h k) -> 0 < Rsum (map h (steps r)).
Proof.
  intros P. apply Rlt_le_trans with (h 0%Z); [apply P|]. apply Rsum_In_le; [|apply in_map, steps_0].
  apply Forall_forall. intros x Hx. apply in_map_iff in Hx. destruct Hx as (k & <- & _). apply Rlt_le, P.
Qed.
Lemma bivSum_pos s1 s2 rho : 0 < bivSum s1 s2 rho.
Proof.
  unfold bivSum. apply Rsum_steps_pos. intros k. apply Rsum_steps_pos. intros. apply bivDensity_pos.
Qed.
Lemma bivProb_nonneg s1 s2 rho k l : 0 <= bivProb s1 s2 rho k l.
Proof.
  unfold bivProb. destruct (_ && _); [|lra]. apply Rlt_le, Rdiv_lt_0_compat; [apply bivDensity_pos|apply bivSum_pos].
Qed.
Lemma bivConv_R n1 n2 s1 s2 rho f : 0 <= s1 -> 0 <= s2 ->
  bivConv [n1; n2] s1 s2 rho (arrOf (n1 * n2) f) = arrOf (n1 * n2) (fun y => rsum (n1 * n2) (fun x => f x * Kbiv n2 s1 s2 rho x y)).
Proof.
  intros P1 P2. unfold bivConv. rewrite convolve2d_fin. unfold arrOf. f_equal. apply tab_ext. intros y _. apply rsum_ext. intros x _. f_equal.
  unfold cut, Kbiv, bivProb. rewrite !bivRadius_R by auto. destruct (_ && _); auto. unfold bivKernel. cbn [fdiv NumR].
  rewrite bivPhi_R, bivTotal_R by auto. reflexivity.
Qed.
