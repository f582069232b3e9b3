(** The weights of the alpha-stable random walk. *)
From Coq Require Import List ZArith Reals Lra Lia Arith.
From Verif Require Import Base.Num Base.RSum Base.Lift Spec.Kernel Spec.AlphaSpec.
Import ListNotations.
Local Open Scope R_scope.

Lemma cos_turn x z : cos (x + 2 * IZR z * PI) = cos x.
Proof.
  destruct z as [|p|p].
  - f_equal. ring.
  - rewrite <- (cos_period x (Pos.to_nat p)). f_equal. rewrite INR_IZR_INZ, positive_nat_Z. ring.
  - rewrite <- (cos_period (x + 2 * IZR (Z.neg p) * PI) (Pos.to_nat p)). f_equal. rewrite INR_IZR_INZ, positive_nat_Z.
    change (Z.neg p) with (- Z.pos p)%Z. rewrite opp_IZR. ring.
Qed.

Section Series.
  Variable M : nat.
  Hypothesis HM : (0 < M)%nat.
  Let RM : 0 < INR M. Proof. now apply lt_0_INR. Qed.
  Notation P := (2 * M)%nat.
  Definition wave (d : Z) (k : nat) : R := cos (PI * IZR d * INR k / INR M).

  Lemma wave_period d k : wave d (k + P) = wave d k.
  Proof.
    unfold wave. rewrite <- (cos_turn (PI * IZR d * INR k / INR M) d). f_equal. rewrite plus_INR, mult_INR. change (INR 2) with 2. field. lra.
  Qed.
  Lemma wave_shift d z k : wave (d + z * Z.of_nat P) k = wave d k.
  Proof.
    unfold wave. rewrite <- (cos_turn (PI * IZR d * INR k / INR M) (z * Z.of_nat k)). f_equal.
    rewrite plus_IZR, !mult_IZR, <- !INR_IZR_INZ, mult_INR. change (INR 2) with 2. field. lra.
  Qed.
  Lemma wave_even d k : wave (- d) k = wave d k.
  Proof. unfold wave. rewrite opp_IZR. rewrite <- cos_neg. f_equal. field. lra. Qed.
  Lemma wave_mirror d k : (k <= P)%nat -> wave d (P - k) = wave d k.
  Proof.
    intros Hk. unfold wave. rewrite minus_INR by auto. rewrite <- (cos_neg (PI * IZR d * INR k / INR M)), <- (cos_turn (- (PI * IZR d * INR k / INR M)) d).
    f_equal. rewrite mult_INR. change (INR 2) with 2. field. lra.
  Qed.
  Lemma wave_0 d : wave d 0 = 1.
  Proof. unfold wave. replace (PI * IZR d * INR 0 / INR M) with 0 by (cbn; field; lra). apply cos_0. Qed.
  Lemma wave_half d : wave d M = cos (PI * IZR d).
  Proof. unfold wave. f_equal. field. lra. Qed.
  Lemma wave_rec d k : wave d k + wave d (k + 2) = 2 * wave d 1 * wave d (k + 1).
  Proof.
    unfold wave. rewrite !plus_INR. change (INR 2) with 2. change (INR 1) with 1.
    replace (PI * IZR d * INR k / INR M) with (PI * IZR d * (INR k + 1) / INR M - PI * IZR d / INR M) by (field; lra).
    replace (PI * IZR d * (INR k + 2) / INR M) with (PI * IZR d * (INR k + 1) / INR M + PI * IZR d / INR M) by (field; lra).
    replace (PI * IZR d * 1 / INR M) with (PI * IZR d / INR M) by (field; lra). rewrite cos_plus, cos_minus. ring.
  Qed.
  Lemma wave_le d k : -1 <= wave d k <= 1.
  Proof. apply COS_bound. Qed.
  (** only multiples of the period do not turn *)
  Lemma wave_one d : (0 < Z.abs d < Z.of_nat P)%Z -> wave d 1 < 1.
  Proof.
    intros Hd. assert (G : forall d, (0 < d < Z.of_nat P)%Z -> wave d 1 < 1).
    { clear d Hd. intros d Hd. unfold wave. rewrite <- cos_0. change (INR 1) with 1.
      assert (0 < IZR d) by (apply IZR_lt; lia). assert (IZR d < 2 * INR M).
      { rewrite INR_IZR_INZ, <- mult_IZR. apply IZR_lt. lia. }
      pose proof PI_RGT_0 as HP. set (x := PI * IZR d * 1 / INR M).
      assert (X0 : 0 < x). { unfold x. apply Rdiv_lt_0_compat; auto. rewrite Rmult_1_r. now apply Rmult_lt_0_compat. }
      assert (X1 : x < 2 * PI). { unfold x. apply Rmult_lt_reg_r with (INR M); auto. replace (PI * IZR d * 1 / INR M * INR M) with (PI * IZR d) by (field; lra). nra. }
      destruct (Rle_lt_dec x PI) as [Hx|Hx].
      - apply cos_decreasing_1; lra.
      - replace (cos x) with (cos (2 * PI - x)). 2:{ rewrite <- (cos_neg x). rewrite <- (cos_turn (- x) 1). f_equal. cbn. ring. }
        apply cos_decreasing_1; lra. }
    destruct (Z_lt_le_dec 0 d); [apply G; lia|]. rewrite <- wave_even. apply G. lia.
  Qed.

  (** sums over one period *)
  Lemma rsum_rotate n (g : nat -> R) : g n = g 0%nat -> rsum n (fun k => g (k + 1)%nat) = rsum n g.
  Proof.
    intros E. assert (X : rsum (S n) g = rsum n g + g n) by (replace (S n) with (n + 1)%nat by lia; rewrite rsum_app; cbn; rewrite Nat.add_0_r; ring).
    rewrite rsum_Sl in X. rewrite E in X. assert (Y : rsum n (fun k => g (k + 1)%nat) = rsum n (fun i => g (S i))) by (apply rsum_ext; intros; f_equal; lia). lra.
  Qed.

  Variable a : nat -> R.
  Hypothesis Pa : forall k, a (k + P)%nat = a k.
  Definition series (d : Z) : R := rsum P (fun k => a k * wave d k).
  Definition curve (k : nat) : R := a (k + 2)%nat - 2 * a (k + 1)%nat + a k.

  Lemma rotateP (g : nat -> R) : (forall k, g (k + P)%nat = g k) -> rsum P (fun k => g (k + 1)%nat) = rsum P g.
  Proof. intros E. apply rsum_rotate. now rewrite <- (E 0%nat). Qed.
  Lemma curve_total : rsum P curve = 0.
  Proof.
    unfold curve. rewrite (rsum_ext P _ (fun k => (a (k + 2)%nat + -2 * a (k + 1)%nat) + a k)) by (intros; ring). rewrite !rsum_plus, rsum_scal.
    rewrite (rsum_ext P (fun k => a (k + 2)%nat) (fun k => (fun k => a (k + 1)%nat) (k + 1)%nat)) by (intros; f_equal; lia).
    rewrite (rotateP (fun k => a (k + 1)%nat)) by (intros; rewrite <- (Pa (k + 1)); f_equal; lia). rewrite (rotateP a) by auto. ring.
  Qed.
  Lemma curve_series d : rsum P (fun k => curve k * wave d (k + 1)) = (2 * wave d 1 - 2) * series d.
  Proof.
    assert (T1 : rsum P (fun k => a (k + 2)%nat * wave d (k + 1)%nat) = rsum P (fun k => a (k + 1)%nat * wave d k)).
    { rewrite <- (rotateP (fun k => a (k + 1)%nat * wave d k)) by (intros; rewrite wave_period, <- (Pa (k + 1)); do 2 f_equal; lia). apply rsum_ext. intros; do 2 f_equal; lia. }
    assert (T2 : rsum P (fun k => a (k + 1)%nat * wave d (k + 1)%nat) = series d).
    { unfold series. rewrite <- (rotateP (fun k => a k * wave d k)) by (intros; now rewrite wave_period, Pa). reflexivity. }
    assert (T3 : rsum P (fun k => a k * wave d (k + 1)%nat) = rsum P (fun k => a (k + 1)%nat * wave d (k + 2)%nat)).
    { rewrite <- (rotateP (fun k => a k * wave d (k + 1)%nat)). - apply rsum_ext; intros; do 2 f_equal; lia. - intros k. rewrite Pa. f_equal. replace (k + P + 1)%nat with (k + 1 + P)%nat by lia. apply wave_period. }
    transitivity (rsum P (fun k => a (k + 2)%nat * wave d (k + 1)%nat) + -2 * rsum P (fun k => a (k + 1)%nat * wave d (k + 1)%nat) + rsum P (fun k => a k * wave d (k + 1)%nat)).
    { rewrite <- rsum_scal, <- !rsum_plus. apply rsum_ext. intros k _. unfold curve. ring. }
    rewrite T1, T3. transitivity (-2 * series d + rsum P (fun k => a (k + 1)%nat * (wave d k + wave d (k + 2)%nat))).
    { rewrite (rsum_ext P (fun k => a (k + 1)%nat * (wave d k + wave d (k + 2)%nat)) (fun k => a (k + 1)%nat * wave d k + a (k + 1)%nat * wave d (k + 2)%nat)) by (intros; ring).
      rewrite rsum_plus, T2. ring. }
    rewrite (rsum_ext P _ (fun k => 2 * wave d 1 * (a (k + 1)%nat * wave d (k + 1)%nat))) by (intros; rewrite wave_rec; ring).
    rewrite rsum_scal, T2. ring.
  Qed.
  (** A sequence that is convex except at 0 (mod P) has a non-negative transform. *)
  Lemma series_nonneg d : (forall k, (k < P)%nat -> 0 <= a k) -> (forall k, (k + 1 < P)%nat -> 0 <= curve k) -> (Z.abs d < Z.of_nat P)%Z -> 0 <= series d.
  Proof.
    intros H0 Hc Hd. destruct (Z.eq_dec d 0) as [->|Nd].
    - unfold series. apply rsum_nonneg. intros k Hk. unfold wave. replace (PI * 0 * INR k / INR M) with 0 by (field; lra). rewrite cos_0, Rmult_1_r. auto.
    - assert (H1 : wave d 1 < 1) by (apply wave_one; lia).
      assert (H2 : 0 <= rsum P (fun k => curve k * (1 - wave d (k + 1)))).
      { apply rsum_nonneg. intros k Hk. destruct (Nat.eq_dec (k + 1) P) as [E|E].
        - rewrite E. replace (wave d P) with (wave d 0) by (rewrite <- (wave_period d 0); reflexivity). rewrite wave_0. lra.
        - apply Rmult_le_pos; [apply Hc; lia|]. pose proof (wave_le d (k + 1)). lra. }
      rewrite (rsum_ext P _ (fun k => curve k + -1 * (curve k * wave d (k + 1)%nat))) in H2 by (intros; ring).
      rewrite rsum_plus, rsum_scal, curve_total, curve_series in H2.
      destruct (Rle_lt_dec 0 (series d)); auto. exfalso. assert (0 < (2 - 2 * wave d 1) * - series d) by (apply Rmult_lt_0_compat; lra). nra.
  Qed.
End Series.

(** ** the characteristic function *)
Lemma exp_convex p y : 0 <= p <= 1 -> exp (p * y) <= 1 + p * (exp y - 1).
Proof.
  intros Hp. assert (T : forall z m, exp m * (1 + (z - m)) <= exp z).
  { intros z m. replace z with (m + (z - m)) at 2 by ring. rewrite exp_plus. apply Rmult_le_compat_l; [left; apply exp_pos|apply exp_ineq1_le]. }
  pose proof (T y (p * y)) as T1. pose proof (T 0 (p * y)) as T2. rewrite exp_0 in T2. set (E := exp (p * y)) in *. set (Y := exp y) in *.
  assert (p * (E * (1 + (y - p * y))) <= p * Y) by (apply Rmult_le_compat_l; lra).
  assert ((1 - p) * (E * (1 + (0 - p * y))) <= (1 - p) * 1) by (apply Rmult_le_compat_l; lra). nra.
Qed.
(** Bernoulli's inequality *)
Lemma bernoulli t al : -1 < t -> 0 < al <= 1 -> Rpower (1 + t) al <= 1 + al * t.
Proof. intros Ht Ha. unfold Rpower. pose proof (exp_convex al (ln (1 + t)) ltac:(lra)) as X. rewrite exp_ln in X by lra. lra. Qed.
Lemma Rpower_scale x y al : 0 < x -> 0 < y -> Rpower (x * y) al = Rpower x al * Rpower y al.
Proof. intros. now rewrite Rpower_mult_distr. Qed.
Lemma Rpower_pos x y : 0 < Rpower x y.
Proof. apply exp_pos. Qed.
Lemma power_concave j al : (1 < j)%nat -> 0 < al <= 1 -> Rpower (INR (j - 1)) al + Rpower (INR (j + 1)) al <= 2 * Rpower (INR j) al.
Proof.
  intros Hj Ha. assert (J : 1 < INR j) by (apply (lt_INR 1); auto). rewrite minus_INR, plus_INR by lia. change (INR 1) with 1.
  replace (INR j - 1) with (INR j * (1 + - / INR j)) by (field; lra). replace (INR j + 1) with (INR j * (1 + / INR j)) by (field; lra).
  assert (0 < / INR j < 1). { split; [apply Rinv_0_lt_compat; lra|]. rewrite <- Rinv_1. apply Rinv_lt_contravar; lra. }
  rewrite !Rpower_scale by lra. pose proof (bernoulli (- / INR j) al ltac:(lra) Ha). pose proof (bernoulli (/ INR j) al ltac:(lra) Ha). pose proof (Rpower_pos (INR j) al). nra.
Qed.
Lemma exp_mid u v w : u + v <= 2 * w -> 2 * exp (- w) <= exp (- u) + exp (- v).
Proof.
  intros H. assert (E1 : exp (- w) <= exp (- ((u + v) / 2))).
  { destruct (Req_dec w ((u + v) / 2)) as [->|N]; [lra|]. left. apply exp_increasing. lra. }
  assert (E2 : exp (- u) = exp (- u / 2) * exp (- u / 2)) by (rewrite <- exp_plus; f_equal; field).
  assert (E3 : exp (- v) = exp (- v / 2) * exp (- v / 2)) by (rewrite <- exp_plus; f_equal; field).
  assert (E4 : exp (- ((u + v) / 2)) = exp (- u / 2) * exp (- v / 2)) by (rewrite <- exp_plus; f_equal; field).
  set (x := exp (- u / 2)) in *. set (y := exp (- v / 2)) in *. pose proof (Rle_0_sqr (x - y)). unfold Rsqr in *. nra.
Qed.

Section Phi.
  Variables (M : nat) (c al : R).
  Hypothesis HM : (0 < M)%nat.
  Let RM : 0 < INR M. Proof. now apply lt_0_INR. Qed.
  Definition phi (j : nat) : R := charFun c al (PI * INR j / INR M).

  Lemma phi_zero : phi 0 = 1.
  Proof. unfold phi, charFun. destruct (Req_EM_T _ _) as [|N]; auto. exfalso. apply N. change (INR 0) with 0. field. lra. Qed.
  Lemma phi_noscale j : c = 0 -> phi j = 1.
  Proof. intros E. unfold phi, charFun. destruct (Req_EM_T _ _) as [|N]; auto. exfalso. apply N. rewrite E. apply Rmult_0_l. Qed.
  Definition sc : R := Rabs c * PI / INR M.
  Lemma sc_pos : c <> 0 -> 0 < sc.
  Proof. intros Hc. unfold sc. apply Rdiv_lt_0_compat; auto. apply Rmult_lt_0_compat; [now apply Rabs_pos_lt|apply PI_RGT_0]. Qed.
  Lemma phi_pos_arg j : c <> 0 -> (0 < j)%nat -> phi j = exp (- (Rpower sc al * Rpower (INR j) al)).
  Proof.
    intros Hc Hj. assert (J : 0 < INR j) by now apply lt_0_INR. pose proof PI_RGT_0. unfold phi, charFun. destruct (Req_EM_T _ _) as [E|N].
    - exfalso. apply Rmult_integral in E as [E|E]; auto. assert (0 < PI * INR j / INR M) by (apply Rdiv_lt_0_compat; auto; nra). lra.
    - f_equal. f_equal. rewrite <- Rpower_scale; auto using sc_pos. f_equal. rewrite Rabs_mult. rewrite (Rabs_right (PI * INR j / INR M)).
      + unfold sc. field. lra.
      + apply Rle_ge. left. apply Rdiv_lt_0_compat; auto. nra.
  Qed.
  Lemma phi_pos j : 0 < phi j.
  Proof. unfold phi, charFun. destruct (Req_EM_T _ _); [lra|apply exp_pos]. Qed.
  Lemma phi_le1 j : phi j <= 1.
  Proof.
    unfold phi, charFun. destruct (Req_EM_T _ _); [lra|]. rewrite <- exp_0. left. apply exp_increasing. pose proof (Rpower_pos (Rabs (c * (PI * INR j / INR M))) al). lra.
  Qed.
  Lemma phi_decreasing j : 0 < al -> phi (j + 1) <= phi j.
  Proof.
    intros Ha. destruct (Req_dec c 0) as [E|Hc]; [rewrite !phi_noscale by auto; lra|]. destruct j as [|j]; [rewrite phi_zero; apply phi_le1|].
    rewrite !phi_pos_arg by (auto; lia). assert (J : 0 < INR (S j) < INR (S j + 1)) by (split; [apply lt_0_INR|apply lt_INR]; lia).
    left. apply exp_increasing. pose proof (Rpower_pos sc al).
    assert (Rpower (INR (S j)) al < Rpower (INR (S j + 1)) al) by (unfold Rpower; apply exp_increasing, Rmult_lt_compat_l; auto; apply ln_increasing; lra). nra.
  Qed.
  Lemma phi_convex j : 0 < al <= 1 -> (0 < j)%nat -> 2 * phi j <= phi (j - 1) + phi (j + 1).
  Proof.
    intros Ha Hj. destruct (Req_dec c 0) as [E|Hc]; [rewrite !phi_noscale by auto; lra|]. pose proof (Rpower_pos sc al).
    destruct (Nat.eq_dec j 1) as [->|N1].
    - cbn [Nat.sub Nat.add]. rewrite phi_zero, !phi_pos_arg by (auto; lia). assert (E0 : exp (- 0) = 1) by (rewrite Ropp_0; apply exp_0). rewrite <- E0. apply exp_mid.
      change (INR 1) with 1. change (INR 2) with 2. pose proof (bernoulli 1 al ltac:(lra) Ha) as B. replace (1 + 1) with 2 in B by ring. assert (B1 : Rpower 1 al = 1) by (unfold Rpower; rewrite ln_1, Rmult_0_r; apply exp_0). rewrite B1. nra.
    - rewrite !phi_pos_arg by (auto; lia). apply exp_mid. pose proof (power_concave j al ltac:(lia) Ha). nra.
  Qed.

  (** periodic extension *)
  Definition phiP (k : nat) : R := let r := (k mod (2 * M))%nat in phi (Nat.min r (2 * M - r)).
  Lemma phiP_period k : phiP (k + 2 * M) = phiP k.
  Proof. unfold phiP. replace ((k + 2 * M) mod (2 * M))%nat with (k mod (2 * M))%nat; auto. replace (k + 2 * M)%nat with (k + 1 * (2 * M))%nat by lia. rewrite Nat.mod_add; lia. Qed.
  Lemma phiP_low k : (k <= M)%nat -> phiP k = phi k.
  Proof. intros Hk. unfold phiP. rewrite Nat.mod_small by lia. f_equal. lia. Qed.
  Lemma phiP_high k : (M <= k <= 2 * M)%nat -> phiP k = phi (2 * M - k).
  Proof.
    intros Hk. destruct (Nat.eq_dec k (2 * M)) as [->|N].
    - replace (2 * M)%nat with (0 + 2 * M)%nat at 1 by lia. rewrite phiP_period, phiP_low by lia. f_equal. lia.
    - unfold phiP. rewrite Nat.mod_small by lia. f_equal. lia.
  Qed.
  Lemma phiP_curve k : 0 < al <= 1 -> (k + 1 < 2 * M)%nat -> 0 <= curve phiP k.
  Proof.
    intros Ha Hk. unfold curve. destruct (le_lt_dec (k + 2) M) as [L|L].
    - rewrite !phiP_low by lia. pose proof (phi_convex (k + 1) Ha ltac:(lia)) as X. replace (k + 1 - 1)%nat with k in X by lia. replace (k + 1 + 1)%nat with (k + 2)%nat in X by lia. lra.
    - destruct (Nat.eq_dec (k + 1) M) as [E|N].
      + rewrite (phiP_high (k + 2)), (phiP_low (k + 1)), (phiP_low k) by lia. replace (2 * M - (k + 2))%nat with k by lia. pose proof (phi_decreasing k ltac:(lra)). lra.
      + rewrite !phiP_high by lia. pose proof (phi_convex (2 * M - (k + 1)) Ha ltac:(lia)) as X.
        replace (2 * M - (k + 1) - 1)%nat with (2 * M - (k + 2))%nat in X by lia. replace (2 * M - (k + 1) + 1)%nat with (2 * M - k)%nat in X by lia. lra.
  Qed.
End Phi.

(** ** the weights *)
Section Weights.
  Variables (n : nat).
  Hypothesis Hn : (0 < n)%nat.
  Notation M := (halfPeriod n).
  Lemma half_pos : (0 < M)%nat.
  Proof. unfold halfPeriod. apply Nat.div_str_pos. lia. Qed.
  Lemma half_ge : (n <= M)%nat.
  Proof. unfold halfPeriod. apply Nat.div_le_lower_bound; lia. Qed.
  Let HM := half_pos.
  Let RM : 0 < INR M. Proof. apply lt_0_INR, half_pos. Qed.
  Let RP : INR (2 * M) = 2 * INR M. Proof. rewrite mult_INR. reflexivity. Qed.

  Lemma step_series c al d : stepStable n c al d = series M (phiP M c al) d / INR (2 * M).
  Proof.
    unfold stepStable, series. cbv zeta. f_equal. apply rsum_ext. intros k Hk. unfold wave, phiP, phi. now rewrite Nat.mod_small by lia.
  Qed.
  Lemma step_even c al d : stepStable n c al (- d) = stepStable n c al d.
  Proof. rewrite !step_series. f_equal. unfold series. apply rsum_ext. intros k _. now rewrite wave_even by apply half_pos. Qed.
  Lemma step_shift c al d z : stepStable n c al (d + z * Z.of_nat (2 * M)) = stepStable n c al d.
  Proof. rewrite !step_series. f_equal. unfold series. apply rsum_ext. intros k _. now rewrite wave_shift by apply half_pos. Qed.
  Lemma step_center c al : 0 < stepStable n c al 0.
  Proof.
    rewrite step_series. apply Rdiv_lt_0_compat; [|rewrite RP; lra]. unfold series.
    rewrite (rsum_ext _ _ (fun k => phiP M c al k)). 2:{ intros k _. unfold wave. replace (PI * 0 * INR k / INR M) with 0 by (field; lra). rewrite cos_0. ring. }
    apply Rlt_le_trans with (phiP M c al 0); [apply phi_pos|]. apply (rsum_ge_term (2 * M) (phiP M c al) 0); [pose proof half_pos; lia|]. intros; left; apply phi_pos.
  Qed.
  Lemma step_nonneg c al d : 0 < al <= 1 -> (Z.abs d < Z.of_nat (2 * M))%Z -> 0 <= stepStable n c al d.
  Proof.
    intros Ha Hd. rewrite step_series. apply Rmult_le_pos; [|left; apply Rinv_0_lt_compat; rewrite RP; lra]. apply series_nonneg; auto using half_pos.
    - intros k. apply phiP_period, half_pos.
    - intros k _. left. apply phi_pos.
    - intros k Hk. apply phiP_curve; auto using half_pos.
  Qed.
  Lemma dirichlet d : (0 < Z.abs d < Z.of_nat (2 * M))%Z -> rsum (2 * M) (wave M d) = 0.
  Proof.
    intros Hd. pose proof (curve_series M half_pos (fun _ => 1) ltac:(reflexivity) d) as X. rewrite rsum_0 in X by (intros; unfold curve; ring).
    pose proof (wave_one M half_pos d Hd). symmetry in X. apply Rmult_integral in X as [X|X]; [lra|]. unfold series in X. rewrite <- X. apply rsum_ext. intros; ring.
  Qed.
  Lemma step_noscale al d : (Z.abs d < Z.of_nat (2 * M))%Z -> stepStable n 0 al d = if Z.eqb d 0 then 1 else 0.
  Proof.
    intros Hd. rewrite step_series. unfold series. rewrite (rsum_ext _ _ (wave M d)). 2:{ intros k _. unfold phiP. cbv zeta. rewrite phi_noscale by auto. ring. }
    destruct (Z.eqb_spec d 0) as [->|N].
    - rewrite (rsum_ext _ _ (fun _ => 1)). 2:{ intros k _. unfold wave. replace (PI * 0 * INR k / INR M) with 0 by (field; lra). apply cos_0. }
      rewrite rsum_const, RP. field. lra.
    - rewrite dirichlet by lia. unfold Rdiv. ring.
  Qed.
  (** all steps of one period *)
  Lemma step_total c al : rsum (2 * M) (fun d => stepStable n c al (Z.of_nat d)) = 1.
  Proof.
    rewrite (rsum_ext _ _ (fun d => rsum (2 * M) (fun k => phiP M c al k * wave M (Z.of_nat d) k) * / INR (2 * M))) by (intros; rewrite step_series; reflexivity).
    rewrite rsum_scal_r, rsum_swap.
    rewrite (rsum_ext _ _ (fun k => if Nat.eqb k 0 then (fun _ => INR (2 * M)) k else 0)).
    - rewrite rsum_delta by (pose proof half_pos; lia). rewrite RP. field. lra.
    - intros k Hk. rewrite rsum_scal.
      assert (E : rsum (2 * M) (fun d => wave M (Z.of_nat d) k) = rsum (2 * M) (wave M (Z.of_nat k))).
      { apply rsum_ext. intros d _. unfold wave. f_equal. rewrite <- !INR_IZR_INZ. field. lra. }
      rewrite E. destruct (Nat.eqb_spec k 0) as [->|N].
      + rewrite phiP_low by lia. rewrite phi_zero by apply half_pos. rewrite (rsum_ext _ _ (fun _ => 1)); [rewrite rsum_const; ring|].
        intros j _. unfold wave. change (Z.of_nat 0) with 0%Z. replace (PI * 0 * INR j / INR M) with 0 by (field; lra). apply cos_0.
      + rewrite dirichlet by lia. ring.
  Qed.
  (** the Fourier coefficients of the weights *)
  Lemma wave_swap (d k : nat) : wave M (Z.of_nat d) k = wave M (Z.of_nat k) d.
  Proof. unfold wave. f_equal. rewrite <- !INR_IZR_INZ. field. lra. Qed.
  Lemma wave_sum (z : Z) : (Z.abs z <= Z.of_nat (2 * M))%Z -> rsum (2 * M) (wave M z) = if Z.eqb (z mod Z.of_nat (2 * M)) 0 then INR (2 * M) else 0.
  Proof.
    intros Hz. pose proof half_pos. set (q := Z.of_nat (2 * M)) in *. assert (Q : (0 < q)%Z) by (unfold q; lia).
    assert (E : rsum (2 * M) (wave M z) = rsum (2 * M) (wave M (z mod q))).
    { apply rsum_ext. intros k _. rewrite (Z.div_mod z q) at 1 by lia. rewrite Z.add_comm, Z.mul_comm. unfold q. now apply wave_shift. }
    rewrite E. pose proof (Z.mod_pos_bound z q Q). destruct (Z.eqb_spec (z mod q) 0) as [->|N].
    - rewrite (rsum_ext _ _ (fun _ => 1)); [rewrite rsum_const; ring|]. intros k _. unfold wave. replace (PI * 0 * INR k / INR M) with 0 by (field; lra). apply cos_0.
    - apply dirichlet. unfold q in *. lia.
  Qed.
  Lemma wave_prod (a b : Z) k : wave M a k * wave M b k = (wave M (a - b) k + wave M (a + b) k) / 2.
  Proof.
    unfold wave. set (x := PI * IZR a * INR k / INR M). set (y := PI * IZR b * INR k / INR M).
    replace (PI * IZR (a - b) * INR k / INR M) with (x - y) by (unfold x, y; rewrite minus_IZR; field; lra).
    replace (PI * IZR (a + b) * INR k / INR M) with (x + y) by (unfold x, y; rewrite plus_IZR; field; lra).
    rewrite cos_minus, cos_plus. lra.
  Qed.
  Lemma small_multiple (z q : Z) : (0 < q)%Z -> (- q < z < q)%Z -> z <> 0%Z -> Z.eqb (z mod q) 0 = false.
  Proof. intros Q Hz N. apply Z.eqb_neq. intros X. apply Z.mod_divide in X as [u X]; [|lia]. assert (u = 0 \/ u <= -1 \/ 1 <= u)%Z as [-> | [|]] by lia; nia. Qed.
  Lemma step_fourier c al j : (j <= M)%nat ->
    rsum (2 * M) (fun d => stepStable n c al (Z.of_nat d) * cos (PI * INR d * INR j / INR M)) = charFun c al (PI * INR j / INR M).
  Proof.
    intros Hj. pose proof half_pos as HP. set (q := Z.of_nat (2 * M)).
    rewrite (rsum_ext _ _ (fun d => rsum (2 * M) (fun k => phiP M c al k * / INR (2 * M) * (wave M (Z.of_nat k) d * wave M (Z.of_nat j) d)))).
    2:{ intros d Hd. rewrite step_series. unfold series, Rdiv. rewrite !Rmult_assoc, <- rsum_scal_r. apply rsum_ext. intros k Hk.
        rewrite (wave_swap d k). replace (cos _) with (wave M (Z.of_nat j) d); [ring|]. rewrite <- wave_swap. unfold wave. f_equal. rewrite <- INR_IZR_INZ. field. lra. }
    rewrite rsum_swap.
    rewrite (rsum_ext _ _ (fun k => (if Nat.eqb k j then (fun k => phiP M c al k / 2) k else 0) + (if Nat.eqb k ((2 * M - j) mod (2 * M)) then (fun k => phiP M c al k / 2) k else 0))).
    - rewrite rsum_plus, !rsum_delta by (try apply Nat.mod_upper_bound; lia). rewrite phiP_low by lia.
      destruct (Nat.eq_dec j 0) as [->|Nj].
      + rewrite Nat.sub_0_r, Nat.mod_same by lia. rewrite phiP_low by lia. unfold phi. lra.
      + rewrite Nat.mod_small by lia. rewrite phiP_high by lia. replace (2 * M - (2 * M - j))%nat with j by lia. unfold phi. lra.
    - intros k Hk. rewrite rsum_scal.
      rewrite (rsum_ext _ _ (fun d => / 2 * wave M (Z.of_nat k - Z.of_nat j) d + / 2 * wave M (Z.of_nat k + Z.of_nat j) d)) by (intros; rewrite wave_prod; field).
      assert (A1 : rsum (2 * M) (wave M (Z.of_nat k - Z.of_nat j)) = if Nat.eqb k j then INR (2 * M) else 0).
      { rewrite wave_sum by lia. assert (X : Z.eqb ((Z.of_nat k - Z.of_nat j) mod Z.of_nat (2 * M)) 0 = Nat.eqb k j).
        { destruct (Nat.eqb_spec k j) as [->|N]; [now rewrite Z.sub_diag, Z.mod_0_l by lia|]. apply small_multiple; lia. }
        now rewrite X. }
      assert (A2 : rsum (2 * M) (wave M (Z.of_nat k + Z.of_nat j)) = if Nat.eqb k ((2 * M - j) mod (2 * M)) then INR (2 * M) else 0).
      { assert (E : rsum (2 * M) (wave M (Z.of_nat k + Z.of_nat j)) = rsum (2 * M) (wave M (Z.of_nat k + Z.of_nat j - Z.of_nat (2 * M)))).
        { apply rsum_ext. intros d _. rewrite <- (wave_shift M HP (Z.of_nat k + Z.of_nat j - Z.of_nat (2 * M)) 1). f_equal. lia. }
        rewrite E, wave_sum by lia.
        assert (X : Z.eqb ((Z.of_nat k + Z.of_nat j - Z.of_nat (2 * M)) mod Z.of_nat (2 * M)) 0 = Nat.eqb k ((2 * M - j) mod (2 * M))).
        { destruct (Nat.eq_dec j 0) as [->|Nj].
          - rewrite Nat.sub_0_r, Nat.mod_same by lia. destruct (Nat.eqb_spec k 0) as [->|N].
            + apply Z.eqb_eq. apply Z.mod_divide; [lia|]. exists (-1)%Z. lia.
            + rewrite <- (Z.mod_add _ 1) by lia. apply small_multiple; lia.
          - rewrite Nat.mod_small by lia. destruct (Nat.eqb_spec k (2 * M - j)) as [->|N].
            + apply Z.eqb_eq. apply Z.mod_divide; [lia|]. exists 0%Z. lia.
            + apply small_multiple; lia. }
        now rewrite X. }
      rewrite rsum_plus, !rsum_scal, A1, A2. destruct (Nat.eqb k j), (Nat.eqb k ((2 * M - j) mod (2 * M))); rewrite ?RP; field; lra.
  Qed.
End Weights.
