(** The Gaussian integral: exp(-x^2) has an antiderivative that goes from - sqrt(pi) / 2 to sqrt(pi) / 2. *)
From Coq Require Import Reals Lra.
From Coquelicot Require Import Coquelicot.
Local Open Scope R_scope.

Ltac real := match goal with |- @eq _ ?a ?b => change (@eq R a b) end.

Definition bell (x : R) : R := exp (- x ^ 2).
Definition area (x : R) : R := RInt bell 0 x.
Definition slice (x t : R) : R := exp (- x ^ 2 * (1 + t ^ 2)) / (1 + t ^ 2).
Definition slices (x : R) : R := RInt (fun t => slice x t) 0 1.

Lemma smooth (f : R -> R) x : ex_derive f x -> continuous f x.
Proof. exact (@ex_derive_continuous R_AbsRing R_NormedModule f x). Qed.
Lemma integrable (f : R -> R) a b : (forall x, continuous f x) -> ex_RInt f a b.
Proof. intros H. apply (@ex_RInt_continuous R_CompleteNormedModule). auto. Qed.
Lemma bell_continuous x : continuous bell x.
Proof. apply smooth. unfold bell. auto_derive. auto. Qed.
Lemma bell_int a b : ex_RInt bell a b.
Proof. apply integrable. intros. apply bell_continuous. Qed.
Lemma area_derive x : is_derive area x (bell x).
Proof.
  apply (@is_derive_RInt R_NormedModule bell area 0 x); [|apply bell_continuous].
  apply filter_forall. intros y. apply (@RInt_correct R_CompleteNormedModule), bell_int.
Qed.
Lemma one_sq t : 0 < 1 + t ^ 2.
Proof. pose proof (pow2_ge_0 t). lra. Qed.
Lemma slice_derive (x t : R) : is_derive (fun u => slice u t) x (- 2 * x * exp (- x ^ 2 * (1 + t ^ 2))).
Proof.
  unfold slice. pose proof (one_sq t). auto_derive; [lra|]. change (t * (t * 1)) with (t ^ 2). change (x * (x * 1)) with (x ^ 2). set (e := exp _). field. lra.
Qed.
Lemma slice_Derive (x t : R) : Derive (fun u : R => slice u t) x = - 2 * x * exp (- x ^ 2 * (1 + t ^ 2)).
Proof. exact (is_derive_unique _ _ _ (slice_derive x t)). Qed.
Lemma slice_int x : ex_RInt (fun t => slice x t) 0 1.
Proof.
  apply integrable. intros t. apply (smooth (fun t => slice x t)). unfold slice. pose proof (one_sq t). auto_derive. lra.
Qed.
Lemma slices_derive (x : R) : is_derive slices x (- 2 * bell x * area x).
Proof.
  assert (E : RInt (fun t => Derive (fun u => slice u t) x) 0 1 = - 2 * bell x * area x).
  { rewrite (RInt_ext _ (fun t => (- 2 * exp (- x ^ 2)) * (x * bell (x * t + 0)))).
    2:{ intros t _. rewrite slice_Derive. unfold bell. replace (- x ^ 2 * (1 + t ^ 2)) with (- x ^ 2 + - (x * t + 0) ^ 2) by ring. rewrite exp_plus. real. ring. }
    assert (C : RInt (fun t : R => x * bell (x * t + 0)) 0 1 = RInt bell (x * 0 + 0) (x * 1 + 0)) by exact (@RInt_comp_lin R_CompleteNormedModule bell x 0 0 1 (bell_int _ _)).
    replace (x * 0 + 0) with 0 in C by ring. replace (x * 1 + 0) with x in C by ring.
    rewrite (RInt_scal (V := R_CompleteNormedModule) (fun t => x * bell (x * t + 0))).
    2:{ apply integrable. intros t. apply (smooth (fun t => x * bell (x * t + 0))). unfold bell. auto_derive. auto. }
    rewrite C. reflexivity. }
  rewrite <- E. apply (is_derive_RInt_param slice 0 1 x).
  - apply filter_forall. intros u t _. eexists. apply slice_derive.
  - intros t _. apply continuity_2d_pt_ext with (fun u v => (- 2 * u) * exp ((- (u * u)) * (1 + v * v))).
    { intros u v. symmetry. rewrite slice_Derive. f_equal. f_equal. ring. }
    assert (Ci : continuity_2d_pt (fun u v => u) x t) by apply continuity_2d_pt_id1.
    assert (Cj : continuity_2d_pt (fun u v => v) x t) by apply continuity_2d_pt_id2.
    assert (Cc : forall c, continuity_2d_pt (fun u v => c) x t) by (intros; apply continuity_2d_pt_const).
    apply continuity_2d_pt_mult; [apply continuity_2d_pt_mult; auto|].
    apply continuity_1d_2d_pt_comp with (f := exp); [apply derivable_continuous_pt, derivable_pt_exp|].
    apply continuity_2d_pt_mult; [apply continuity_2d_pt_opp, continuity_2d_pt_mult; auto|]. apply continuity_2d_pt_plus; auto. apply continuity_2d_pt_mult; auto.
  - apply filter_forall. intros y. apply slice_int.
Qed.
Lemma slices_0 : slices 0 = PI / 4.
Proof.
  unfold slices. rewrite (RInt_ext _ (fun t => / (1 + t ^ 2))).
  2:{ intros t _. unfold slice. replace (- 0 ^ 2 * (1 + t ^ 2)) with 0 by ring. rewrite exp_0. real. field. pose proof (one_sq t). lra. }
  replace (PI / 4) with (minus (atan 1) (atan 0)) by (rewrite atan_1, atan_0; unfold minus, plus, opp; cbn; lra).
  apply (@is_RInt_unique R_CompleteNormedModule), (@is_RInt_derive R_CompleteNormedModule).
  - intros t _. pose proof (one_sq t). auto_derive; auto. unfold Rsqr. field. lra.
  - intros t _. apply (smooth (fun t => / (1 + t ^ 2))). pose proof (one_sq t). auto_derive. lra.
Qed.
Lemma area_slices x : area x ^ 2 + slices x = PI / 4.
Proof.
  assert (D : forall y, is_derive (fun y => area y ^ 2 + slices y) y 0).
  { intros y. evar_last. apply @is_derive_plus; [apply (is_derive_pow area 2 y _ (area_derive y))|apply slices_derive].
    unfold plus. cbn. ring. }
  assert (Z : area 0 ^ 2 + slices 0 = PI / 4) by (unfold area; rewrite RInt_point, slices_0; unfold zero; cbn; ring).
  destruct (Rtotal_order x 0) as [H|[->|H]]; auto; rewrite <- Z.
  - apply (eq_is_derive (fun y => area y ^ 2 + slices y) x 0); auto.
  - symmetry. apply (eq_is_derive (fun y => area y ^ 2 + slices y) 0 x); auto.
Qed.
Lemma slices_bound x : 0 <= slices x <= exp (- x ^ 2).
Proof.
  unfold slices. split.
  - apply RInt_ge_0; [lra|apply slice_int|]. intros t _. unfold slice. pose proof (one_sq t). left. apply Rdiv_lt_0_compat; [apply exp_pos|auto].
  - replace (exp (- x ^ 2)) with (RInt (fun _ => exp (- x ^ 2)) 0 1) by (rewrite RInt_const; unfold scal; cbn; unfold mult; cbn; ring).
    apply RInt_le; [lra|apply slice_int|apply ex_RInt_const|]. intros t _. unfold slice. pose proof (one_sq t). pose proof (pow2_ge_0 t). pose proof (pow2_ge_0 x).
    apply Rle_trans with (exp (- x ^ 2) / 1).
    + unfold Rdiv. apply Rmult_le_compat; [left; apply exp_pos|left; apply Rinv_0_lt_compat; auto| |apply Rinv_le_contravar; lra].
      destruct (Req_dec (- x ^ 2 * (1 + t ^ 2)) (- x ^ 2)) as [->|N]; [lra|]. left. apply exp_increasing. nra.
    + lra.
Qed.
Lemma area_odd x : area (- x) = - area x.
Proof.
  assert (D : forall y, is_derive (fun y => area (- y) + area y) y 0).
  { intros y. evar_last. apply @is_derive_plus; [|apply area_derive]. apply (is_derive_comp area Ropp); [apply area_derive|]. auto_derive; auto.
    unfold plus, scal, bell. cbn. unfold mult. cbn. rewrite ?Rmult_1_r. replace (- y * - y) with (y * y) by ring. ring. }
  assert (Z : area (- 0) + area 0 = 0) by (rewrite Ropp_0; unfold area; rewrite RInt_point; unfold zero; cbn; ring).
  assert (E : area (- x) + area x = 0); [|lra].
  destruct (Rtotal_order x 0) as [H|[->|H]]; auto; rewrite <- Z.
  - apply (eq_is_derive (fun y => area (- y) + area y) x 0); auto.
  - symmetry. apply (eq_is_derive (fun y => area (- y) + area y) 0 x); auto.
Qed.
Lemma area_pos x : 0 <= x -> 0 <= area x.
Proof. intros H. apply RInt_ge_0; auto; [apply bell_int|]. intros t _. left. apply exp_pos. Qed.

(** exp(-x^2) < eps for large x *)
Lemma bell_small eps : 0 < eps -> exists M, 1 <= M /\ forall x, M < x -> exp (- x ^ 2) < eps.
Proof.
  intros H. exists (Rmax 1 (- ln eps)). split; [apply Rmax_l|]. intros x Hx.
  assert (1 < x) by (eapply Rle_lt_trans; [apply Rmax_l|exact Hx]). assert (- ln eps < x) by (eapply Rle_lt_trans; [apply Rmax_r|exact Hx]).
  rewrite <- (exp_ln eps H). apply exp_increasing. nra.
Qed.
Lemma area_limit eps : 0 < eps -> exists M, forall x, M < x -> Rabs (area x - sqrt PI / 2) < eps.
Proof.
  intros H. pose proof PI_RGT_0 as P. assert (Q : 0 < sqrt PI / 2) by (apply Rdiv_lt_0_compat; [apply sqrt_lt_R0; auto|lra]).
  destruct (bell_small (eps * (sqrt PI / 2))) as (M & M1 & HM); [nra|]. exists M. intros x Hx. specialize (HM x Hx).
  pose proof (area_slices x) as E. pose proof (slices_bound x) as B. pose proof (area_pos x ltac:(lra)) as A.
  replace (PI / 4) with ((sqrt PI / 2) ^ 2) in E. 2:{ unfold Rdiv. rewrite Rpow_mult_distr. rewrite <- Rsqr_pow2, Rsqr_sqrt by lra. lra. }
  set (c := sqrt PI / 2) in *. assert (c <> area x \/ c = area x) as [N|N] by (destruct (Req_dec c (area x)); auto).
  2:{ rewrite <- N. unfold Rminus. rewrite Rplus_opp_r, Rabs_R0. auto. }
  apply Rmult_lt_reg_r with c; auto. rewrite <- (Rabs_pos_eq c) at 2 by lra. rewrite <- Rabs_mult.
  apply Rle_lt_trans with (Rabs ((area x - c) * (area x + c))).
  { rewrite !Rabs_mult. apply Rmult_le_compat_l; [apply Rabs_pos|]. rewrite !Rabs_pos_eq; lra. }
  replace ((area x - c) * (area x + c)) with (- slices x) by (ring_simplify; lra). rewrite Rabs_Ropp, Rabs_pos_eq by lra. lra.
Qed.
Theorem gauss_antiderivative : exists G, (forall x, derivable_pt_lim G x (exp (- x ^ 2))) /\
  (forall x, G (- x) = - G x) /\
  (forall eps, 0 < eps -> exists M, forall x, M < x -> Rabs (G x - sqrt PI / 2) < eps).
Proof.
  exists area. split; [|split]; [|exact area_odd|exact area_limit]. intros x. apply is_derive_Reals, area_derive.
Qed.
