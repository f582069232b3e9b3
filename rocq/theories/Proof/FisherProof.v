(** Limits, integrals, Fisher information of the normal, Laplace, Poisson and Bernoulli distributions *)
From Coq Require Import List Reals Lra Lia.
From Coquelicot Require Import Coquelicot.
From Verif Require Import Base.Num Spec.ObsSpec Spec.Fisher Proof.GaussInt.
Import ListNotations.
Local Open Scope R_scope.

(** ** The integral is unique *)
Lemma flat_on (D : R -> R) exc : (forall x, continuity_pt D x) -> forall a b, a <= b -> (forall x, a < x < b -> ~ In x exc -> derivable_pt_lim D x 0) -> D a = D b.
Proof.
  intros C. induction exc as [|e exc IH]; intros a b Hab H.
  - destruct (Req_dec a b) as [->|N]; auto. assert (L : a < b) by lra.
    assert (pr : forall c, a < c < b -> derivable_pt D c) by (intros c Hc; exists 0; apply H; auto).
    assert (pi : forall c, a < c < b -> derivable_pt id c) by (intros; apply derivable_pt_id).
    destruct (MVT D id a b pr pi L) as (c & P & E); auto. { intros. apply derivable_continuous_pt, derivable_pt_id. }
    rewrite (derive_pt_eq_0 D c 0 (pr c P)) in E by (apply H; auto). rewrite (derive_pt_eq_0 id c 1 (pi c P)) in E by apply derivable_pt_lim_id.
    unfold id in E. lra.
  - assert (K : (a < e < b) \/ ~ (a < e < b)) by (destruct (Rlt_dec a e), (Rlt_dec e b); lra). destruct K as [K|K].
    + transitivity (D e); apply IH; try lra; intros x Hx Ni; apply H; try lra; intros [->|I]; auto; lra.
    + apply IH; auto. intros x Hx Ni. apply H; auto. intros [->|I]; auto.
Qed.
Lemma tends_unique sg F a b : (sg = 1 \/ sg = -1) -> tends sg F a -> tends sg F b -> a = b.
Proof.
  intros Hs Ha Hb. destruct (Req_dec a b) as [|N]; auto. exfalso. assert (P : 0 < Rabs (a - b) / 2) by (apply Rdiv_lt_0_compat; [apply Rabs_pos_lt; lra|lra]).
  destruct (Ha _ P) as (M & HM). destruct (Hb _ P) as (M' & HM'). set (y := Rmax M M' + 1).
  assert (M < sg * (sg * y) /\ M' < sg * (sg * y)) as [A B].
  { replace (sg * (sg * y)) with y by (destruct Hs as [->| ->]; ring). pose proof (Rmax_l M M'). pose proof (Rmax_r M M'). unfold y. lra. }
  specialize (HM _ A). specialize (HM' _ B). revert HM HM' P. unfold Rabs. repeat destruct Rcase_abs; lra.
Qed.
Lemma tends_plus sg F G a b : tends sg F a -> tends sg G b -> tends sg (fun x => F x + G x) (a + b).
Proof.
  intros HF HG eps He. destruct (HF (eps / 2)) as (M & HM); [lra|]. destruct (HG (eps / 2)) as (M' & HM'); [lra|]. exists (Rmax M M'). intros x Hx.
  assert (M < sg * x) by (eapply Rle_lt_trans; [apply Rmax_l|exact Hx]). assert (M' < sg * x) by (eapply Rle_lt_trans; [apply Rmax_r|exact Hx]).
  replace (F x + G x - (a + b)) with ((F x - a) + (G x - b)) by ring. eapply Rle_lt_trans; [apply Rabs_triang|]. specialize (HM x). specialize (HM' x). lra.
Qed.
Lemma tends_scal sg F a c : tends sg F a -> tends sg (fun x => c * F x) (c * a).
Proof.
  intros HF eps He. destruct (Req_dec c 0) as [->|N].
  - exists 0. intros x _. replace (0 * F x - 0 * a) with 0 by ring. rewrite Rabs_R0. auto.
  - assert (P : 0 < Rabs c) by (apply Rabs_pos_lt; auto). destruct (HF (eps / Rabs c)) as (M & HM); [apply Rdiv_lt_0_compat; auto|]. exists M. intros x Hx.
    replace (c * F x - c * a) with (c * (F x - a)) by ring. rewrite Rabs_mult. specialize (HM x Hx).
    apply Rmult_lt_compat_l with (r := Rabs c) in HM; auto. replace (Rabs c * (eps / Rabs c)) with eps in HM by (field; lra). auto.
Qed.
Lemma tends_ext sg F G a b : (forall x, F x = G x) -> a = b -> tends sg F a -> tends sg G b.
Proof. intros E -> H eps He. destruct (H eps He) as (M & HM). exists M. intros. rewrite <- E. auto. Qed.
Lemma integral_unique f v w : integral f v -> integral f w -> v = w.
Proof.
  intros (F & ex & a & b & C & D & Ta & Tb & ->) (G & ex' & a' & b' & C' & D' & Ta' & Tb' & ->).
  set (H := fun x => F x - G x). assert (Hc : forall x y, x <= y -> H x = H y).
  { intros x y L. apply (flat_on H (ex ++ ex')); auto.
    - intros z. apply continuity_pt_minus; auto.
    - intros z _ Ni. rewrite in_app_iff in Ni. replace 0 with (f z - f z) by ring. apply derivable_pt_lim_minus; [apply D|apply D']; tauto. }
  assert (Hk : forall x, H x = H 0) by (intros x; destruct (Rle_dec x 0); [apply Hc; auto|symmetry; apply Hc; lra]).
  assert (T : forall sg c c', sg = 1 \/ sg = -1 -> tends sg F c -> tends sg G c' -> c - c' = H 0).
  { intros sg c c' Hs T T'. apply (tends_unique sg H); auto.
    - apply (tends_ext sg (fun x => F x + (-1) * G x) _ (c + (-1) * c')); [intros; unfold H; ring|ring|]. apply tends_plus; auto. now apply tends_scal.
    - intros eps He. exists 0. intros x _. rewrite Hk. unfold Rminus. rewrite Rplus_opp_r, Rabs_R0. auto. }
  pose proof (T (-1) a a' (or_intror eq_refl) Ta Ta'). pose proof (T 1 b b' (or_introl eq_refl) Tb Tb'). lra.
Qed.

(** ** Tails *)
Lemma exp_bound y : 0 < y -> exp (- y) <= 256 / y ^ 4.
Proof.
  intros H. assert (E : y ^ 4 / 256 <= exp y).
  { replace (exp y) with (exp (y / 4) ^ 4). 2:{ cbn. rewrite Rmult_1_r, <- !exp_plus. f_equal. field. }
    replace (y ^ 4 / 256) with ((y / 4) ^ 4) by field. apply pow_incr. pose proof (exp_ineq1_le (y / 4)). lra. }
  assert (0 < y ^ 4) by (apply pow_lt; auto). rewrite exp_Ropp. replace (256 / y ^ 4) with (/ (y ^ 4 / 256)) by (field; lra). apply Rinv_le_contravar; auto. lra.
Qed.
Lemma exp_tail2 eps : 0 < eps -> exists M, 1 <= M /\ forall u, M < u -> u ^ 2 * exp (- u) < eps /\ u * exp (- u) < eps /\ exp (- u) < eps.
Proof.
  intros H. exists (Rmax 1 (256 / eps)). split; [apply Rmax_l|]. intros u Hu.
  assert (U1 : 1 < u) by (eapply Rle_lt_trans; [apply Rmax_l|exact Hu]). assert (U2 : 256 / eps < u) by (eapply Rle_lt_trans; [apply Rmax_r|exact Hu]).
  pose proof (exp_bound u ltac:(lra)) as B. pose proof (exp_pos (- u)) as P.
  assert (K : u ^ 2 * exp (- u) < eps).
  { apply Rle_lt_trans with (u ^ 2 * (256 / u ^ 4)); [apply Rmult_le_compat_l; [nra|auto]|].
    replace (u ^ 2 * (256 / u ^ 4)) with (256 / u ^ 2) by (field; lra). apply Rmult_lt_reg_r with (u ^ 2); [nra|]. unfold Rdiv. rewrite Rmult_assoc, Rinv_l by nra.
    apply Rmult_lt_compat_r with (r := eps) in U2; auto. replace (256 / eps * eps) with 256 in U2 by (field; lra). nra. }
  assert (K1 : exp (- u) < u * exp (- u)) by (rewrite <- (Rmult_1_l (exp (- u))) at 1; apply Rmult_lt_compat_r; lra).
  assert (K2 : u * exp (- u) < u ^ 2 * exp (- u)) by (apply Rmult_lt_compat_r; [lra|nra]). lra.
Qed.
Lemma bell_tail eps : 0 < eps -> exists M, 1 <= M /\ forall z, M < Rabs z -> Rabs (z ^ 3 * exp (- z ^ 2 / 2)) < eps /\ Rabs (z * exp (- z ^ 2 / 2)) < eps /\ Rabs (z ^ 2 * exp (- z ^ 2 / 2)) < eps /\ exp (- z ^ 2 / 2) < eps.
Proof.
  intros H. destruct (exp_tail2 (eps / 4)) as (M & M1 & HM); [lra|]. exists (2 * M). split; [lra|]. intros z Hz.
  assert (Z2 : z ^ 2 = Rabs z ^ 2) by (rewrite <- !Rsqr_pow2; apply Rsqr_abs). set (a := Rabs z) in *.
  destruct (HM (a ^ 2 / 2)) as (A & B & C); [nra|]. replace (- (a ^ 2 / 2)) with (- a ^ 2 / 2) in * by field.
  rewrite Z2. set (e := exp (- a ^ 2 / 2)) in *. assert (P : 0 < e) by apply exp_pos. rewrite !Rabs_mult, !(Rabs_pos_eq e) by lra. rewrite <- RPow_abs. fold a.
  rewrite (Rabs_pos_eq (a ^ 2)) by nra. assert (1 < a) by lra.
  replace ((a ^ 2 / 2) ^ 2) with (a ^ 4 / 4) in A by field.
  assert (K : forall k, (k <= 4)%nat -> a ^ k * e < eps).
  { intros k Hk. apply Rle_lt_trans with (a ^ 4 * e); [|lra]. apply Rmult_le_compat_r; [lra|]. apply Rle_pow; [lra|auto]. }
  pose proof (K 0%nat ltac:(lia)). pose proof (K 1%nat ltac:(lia)). pose proof (K 2%nat ltac:(lia)). pose proof (K 3%nat ltac:(lia)). rewrite pow_1, pow_O, Rmult_1_l in *. auto.
Qed.

(** ** Normal distribution *)
Lemma tends_fun sg (m s : R) g c : (sg = 1 \/ sg = -1) -> 0 < s -> tends sg g c -> tends sg (fun x => g ((x - m) / s)) c.
Proof.
  intros Hs Ps Hg eps He. destruct (Hg eps He) as (M & HM). exists (sg * m + s * M). intros x Hx. apply HM.
  apply Rmult_lt_reg_l with s; auto. replace (s * (sg * ((x - m) / s))) with (sg * x - sg * m) by (field; lra). lra.
Qed.
Lemma tends_small sg g : (sg = 1 \/ sg = -1) -> (forall eps, 0 < eps -> exists M, forall z, M < Rabs z -> Rabs (g z) < eps) -> tends sg g 0.
Proof.
  intros Hs H eps He. destruct (H eps He) as (M & HM). exists M. intros x Hx. rewrite Rminus_0_r. apply HM.
  eapply Rlt_le_trans; [exact Hx|]. eapply Rle_trans; [apply Rle_abs|]. rewrite Rabs_mult. destruct Hs as [->| ->]; rewrite ?(Rabs_left (-1)), ?Rabs_R1; lra.
Qed.

Lemma normalDensity_z m s x : 0 < s -> normalDensity m s x = exp (- ((x - m) / s) ^ 2 / 2) / (s * sqrt (2 * PI)).
Proof.
  intros H. unfold normalDensity. pose proof PI_RGT_0. rewrite sqrt_mult_alt by lra. rewrite (sqrt_pow2 s) by lra.
  rewrite (Rmult_comm (sqrt (2 * PI))). f_equal. f_equal. field. lra.
Qed.
Theorem normal_normalised m s : s <> 0 -> exists F, distributionFunction (normalDensity m s) F.
Proof.
  assert (K : forall s, 0 < s -> exists F, distributionFunction (normalDensity m s) F).
  { clear s. intros s Hs. destruct gauss_antiderivative as (G & D & Od & Lim). pose proof PI_RGT_0 as Pp. pose proof (sqrt_lt_R0 _ Pp) as Ps. assert (S2 : 0 < sqrt 2) by (apply sqrt_lt_R0; lra).
    assert (T1 : tends 1 G (sqrt PI / 2)) by (intros eps He; destruct (Lim eps He) as (M & HM); exists M; intros; apply HM; lra).
    assert (T2 : tends (-1) G (- (sqrt PI / 2))).
    { intros eps He. destruct (Lim eps He) as (M & HM). exists M. intros x Hx. replace (G x) with (- G (- x)) by (rewrite Od; ring).
      replace (- G (- x) - - (sqrt PI / 2)) with (- (G (- x) - sqrt PI / 2)) by ring. rewrite Rabs_Ropp. apply HM. lra. }
    exists (fun x => / sqrt PI * G ((x - m) / (s * sqrt 2)) + / 2). split; [|split].
    - intros x. apply is_derive_Reals. assert (E : normalDensity m s x = / sqrt PI * (exp (- ((x - m) / (s * sqrt 2)) ^ 2) * / (s * sqrt 2))).
      { rewrite normalDensity_z by auto. rewrite sqrt_mult by lra. replace (- ((x - m) / (s * sqrt 2)) ^ 2) with (- ((x - m) / s) ^ 2 / 2). 2:{ replace (((x - m) / (s * sqrt 2)) ^ 2) with (((x - m) / s) ^ 2 / sqrt 2 ^ 2) by (field; split; lra). rewrite pow2_sqrt by lra. field. lra. }
        field. repeat split; lra. }
      rewrite E. evar_last. apply @is_derive_plus; [apply @is_derive_scal; apply (is_derive_comp G (fun x => (x - m) / (s * sqrt 2)) x (exp (- ((x - m) / (s * sqrt 2)) ^ 2)) (/ (s * sqrt 2)))|apply @is_derive_const].
      + apply is_derive_Reals, D.
      + auto_derive; [auto|field; repeat split; lra].
      + unfold plus, scal, zero. cbn. unfold mult. cbn. ring.
    - intros eps He. assert (T : tends (-1) (fun x => / sqrt PI * G ((x - m) / (s * sqrt 2)) + / 2) (/ sqrt PI * - (sqrt PI / 2) + / 2)).
      { apply tends_plus; [apply tends_scal; apply (tends_fun (-1) m (s * sqrt 2) G); auto; nra|]. intros e Pe. exists 0. intros. unfold Rminus. rewrite Rplus_opp_r, Rabs_R0. auto. }
      destruct (T eps He) as (M & HM). exists (- M). intros x Hx. specialize (HM x ltac:(lra)). match type of HM with Rabs ?a < _ => replace (/ sqrt PI * G ((x - m) / (s * sqrt 2)) + / 2) with a by (field; lra) end. auto.
    - intros eps He. assert (T : tends 1 (fun x => / sqrt PI * G ((x - m) / (s * sqrt 2)) + / 2) (/ sqrt PI * (sqrt PI / 2) + / 2)).
      { apply tends_plus; [apply tends_scal; apply (tends_fun 1 m (s * sqrt 2) G); auto; nra|]. intros e Pe. exists 0. intros. unfold Rminus. rewrite Rplus_opp_r, Rabs_R0. auto. }
      destruct (T eps He) as (M & HM). exists M. intros x Hx. specialize (HM x ltac:(lra)). match type of HM with Rabs ?a < _ => replace (/ sqrt PI * G ((x - m) / (s * sqrt 2)) + / 2 - 1) with a by (field; lra) end. auto. }
  intros Ns. destruct (Rlt_dec 0 s) as [P|N]; [auto|]. destruct (K (- s)) as (F & HF); [lra|]. exists F.
  assert (E : forall x, normalDensity m (- s) x = normalDensity m s x) by (intros; unfold normalDensity; now replace ((- s) ^ 2) with (s ^ 2) by ring).
  destruct HF as (D & T). split; auto. intros x. rewrite <- E. auto.
Qed.

Lemma df_tends f F : distributionFunction f F -> tends (-1) F 0 /\ tends 1 F 1.
Proof.
  intros (D & A & B). split; intros eps He.
  - destruct (A eps He) as (M & HM). exists (- M). intros x Hx. rewrite Rminus_0_r. apply HM. lra.
  - destruct (B eps He) as (M & HM). exists M. intros x Hx. apply HM. lra.
Qed.
Lemma df_continuous f F : distributionFunction f F -> forall x, continuity_pt F x.
Proof. intros (D & _) x. apply derivable_continuous_pt. eexists. apply D. Qed.
(** an antiderivative made of a multiple of the distribution function and a smooth part that vanishes at infinity *)
Lemma integral_parts f F c (h h' : R -> R) exc g : distributionFunction f F -> (forall x, continuity_pt h x) -> (forall x, ~ In x exc -> is_derive h x (h' x)) ->
  tends (-1) h 0 -> tends 1 h 0 -> (forall x, ~ In x exc -> g x = c * f x + h' x) -> integral g c.
Proof.
  intros HF Hc Hd T1 T2 E. destruct (df_tends _ _ HF) as [L1 L2]. exists (fun x => c * F x + h x), exc, (c * 0 + 0), (c * 1 + 0). split; [|split; [|split; [|split]]].
  - intros x. apply continuity_pt_plus; auto. apply continuity_pt_scal with (a := c) (f := F). eapply df_continuous; eauto.
  - intros x Hx. rewrite E by auto. apply derivable_pt_lim_plus; [|apply is_derive_Reals; auto]. apply (derivable_pt_lim_scal F c). apply HF.
  - apply tends_plus; auto. now apply tends_scal.
  - apply tends_plus; auto. now apply tends_scal.
  - ring.
Qed.
Lemma is_derive_cont h x l : is_derive h x l -> continuity_pt h x.
Proof. intros D. apply derivable_continuous_pt. exists l. now apply is_derive_Reals. Qed.

Section Normal.
  Variables (m s : R).
  Hypothesis Hs : 0 < s.
  Let k := / (s * sqrt (2 * PI)).
  Let z x := (x - m) / s.
  Let e x := exp (- (z x) ^ 2 / 2).
  Lemma dens x : normalDensity m s x = k * e x.
  Proof. rewrite normalDensity_z by auto. unfold k, e, z, Rdiv. ring. Qed.
  Lemma poly_tends sg (p : R -> R) : (sg = 1 \/ sg = -1) ->
    (forall eps, 0 < eps -> exists M, forall t, M < Rabs t -> Rabs (p t * exp (- t ^ 2 / 2)) < eps) -> forall c, tends sg (fun x => c * (p (z x) * e x)) 0.
  Proof.
    intros Hsg Hp c. replace 0 with (c * 0) by ring. apply tends_scal. apply (tends_fun sg m s (fun t => p t * exp (- t ^ 2 / 2))); auto. now apply tends_small.
  Qed.
  Lemma small_1 eps : 0 < eps -> exists M, forall t, M < Rabs t -> Rabs (t * exp (- t ^ 2 / 2)) < eps.
  Proof. intros H. destruct (bell_tail eps H) as (M & _ & HM). exists M. intros t Ht. now apply HM. Qed.
  Lemma small_2 eps : 0 < eps -> exists M, forall t, M < Rabs t -> Rabs ((t ^ 2 + 1) * exp (- t ^ 2 / 2)) < eps.
  Proof.
    intros H. destruct (bell_tail (eps / 2)) as (M & _ & HM); [lra|]. exists M. intros t Ht. destruct (HM t Ht) as (_ & _ & A & B).
    rewrite Rmult_plus_distr_r. eapply Rle_lt_trans; [apply Rabs_triang|]. rewrite Rmult_1_l, (Rabs_pos_eq (exp _)) by (left; apply exp_pos). lra.
  Qed.
  Lemma small_3 eps : 0 < eps -> exists M, forall t, M < Rabs t -> Rabs ((t ^ 3 + t) * exp (- t ^ 2 / 2)) < eps.
  Proof.
    intros H. destruct (bell_tail (eps / 2)) as (M & _ & HM); [lra|]. exists M. intros t Ht. destruct (HM t Ht) as (A & B & _).
    rewrite Rmult_plus_distr_r. eapply Rle_lt_trans; [apply Rabs_triang|]. lra.
  Qed.

  Lemma normal_score_m : score (fun _ => True) (fun m => normalDensity m s) m (fun x => z x / s).
  Proof.
    intros x _. apply is_derive_Reals. apply is_derive_ext with (fun m => - (x - m) ^ 2 / (2 * s ^ 2) - ln (sqrt (2 * PI * s ^ 2))).
    - intros t. unfold normalDensity. pose proof PI_RGT_0. rewrite ln_div; [now rewrite ln_exp|apply exp_pos|apply sqrt_lt_R0, Rmult_lt_0_compat; [lra|now apply pow_lt]].
    - unfold z. auto_derive; auto. field. lra.
  Qed.
  Lemma normal_score_s : score (fun _ => True) (fun s => normalDensity m s) s (fun x => (z x ^ 2 - 1) / s).
  Proof.
    intros x _. apply is_derive_Reals. apply is_derive_ext_loc with (fun s => - (x - m) ^ 2 / (2 * s ^ 2) - (ln s + ln (sqrt (2 * PI)))).
    - exists (mkposreal s Hs). intros t Ht. cbn in Ht. unfold ball in Ht. cbn in Ht. unfold AbsRing_ball in Ht. unfold abs, minus, plus, opp in Ht. cbn in Ht. apply Rabs_def2 in Ht. assert (Pt : 0 < t) by lra.
      rewrite normalDensity_z by auto. pose proof PI_RGT_0. assert (0 < sqrt (2 * PI)) by (apply sqrt_lt_R0; nra). rewrite ln_div; [|apply exp_pos|nra]. rewrite ln_exp, ln_mult by auto. f_equal. field. lra.
    - unfold z. auto_derive; [repeat split; auto; nra|]. field. lra.
  Qed.

  Lemma normal_fisher2 : fisher2 integral (fun _ => True) normalDensity m s (/ s ^ 2) 0 (2 / s ^ 2).
  Proof.
    destruct (normal_normalised m s) as (F & HF); [lra|]. exists (fun x => z x / s), (fun x => (z x ^ 2 - 1) / s).
    split; [exact normal_score_m|]. split; [exact normal_score_s|].
    assert (D1 : forall x, is_derive (fun x => - (k / s) * (z x * e x)) x ((z x ^ 2 - 1) / s * (k * e x) / s)).
    { intros x. unfold e, z. auto_derive; auto. set (E := exp _). field. lra. }
    assert (D2 : forall x, is_derive (fun x => - (k / s) * ((z x ^ 2 + 1) * e x)) x ((z x ^ 3 - z x) / s * (k * e x) / s)).
    { intros x. unfold e, z. auto_derive; auto. set (E := exp _). field. lra. }
    assert (D3 : forall x, is_derive (fun x => - (k / s) * ((z x ^ 3 + z x) * e x)) x ((z x ^ 4 - 2 * z x ^ 2 - 1) / s * (k * e x) / s)).
    { intros x. unfold e, z. auto_derive; auto. set (E := exp _). field. lra. }
    repeat split.
    - apply (integral_parts _ F (/ s ^ 2) _ _ [] _ HF (fun x => is_derive_cont _ _ _ (D1 x)) (fun x _ => D1 x)).
      + apply (poly_tends (-1) (fun t => t)); auto. apply small_1.
      + apply (poly_tends 1 (fun t => t)); auto. apply small_1.
      + intros x _. rewrite dens. field. lra.
    - apply (integral_parts _ F 0 _ _ [] _ HF (fun x => is_derive_cont _ _ _ (D2 x)) (fun x _ => D2 x)).
      + apply (poly_tends (-1) (fun t => t ^ 2 + 1)); auto. apply small_2.
      + apply (poly_tends 1 (fun t => t ^ 2 + 1)); auto. apply small_2.
      + intros x _. rewrite dens. field. lra.
    - apply (integral_parts _ F (2 / s ^ 2) _ _ [] _ HF (fun x => is_derive_cont _ _ _ (D3 x)) (fun x _ => D3 x)).
      + apply (poly_tends (-1) (fun t => t ^ 3 + t)); auto. apply small_3.
      + apply (poly_tends 1 (fun t => t ^ 3 + t)); auto. apply small_3.
      + intros x _. rewrite dens. field. lra.
  Qed.
  Lemma noise_fisher : fisher integral (fun _ => True) (fun s => normalDensity m s) s (2 / s ^ 2).
  Proof.
    destruct (normal_normalised m s) as (F & HF); [lra|]. exists (fun x => (z x ^ 2 - 1) / s). split; [exact normal_score_s|].
    assert (D3 : forall x, is_derive (fun x => - (k / s) * ((z x ^ 3 + z x) * e x)) x ((z x ^ 4 - 2 * z x ^ 2 - 1) / s * (k * e x) / s)).
    { intros x. unfold e, z. auto_derive; auto. set (E := exp _). field. lra. }
    apply (integral_parts _ F (2 / s ^ 2) _ _ [] _ HF (fun x => is_derive_cont _ _ _ (D3 x)) (fun x _ => D3 x)).
    + apply (poly_tends (-1) (fun t => t ^ 3 + t)); auto. apply small_3.
    + apply (poly_tends 1 (fun t => t ^ 3 + t)); auto. apply small_3.
    + intros x _. rewrite dens. field. lra.
  Qed.
End Normal.

(** ** Laplace distribution *)
Section Laplace.
  Variables (m b : R).
  Hypothesis Hb : 0 < b.
  Let a x := Rabs (x - m).
  Let e x := exp (- a x / b).
  Lemma lapl x : laplaceDensity m b x = e x / (2 * b).
  Proof. reflexivity. Qed.
  Lemma a_continuous x : continuity_pt a x.
  Proof. apply (continuity_pt_comp (fun x => x - m) Rabs); [|apply Rcontinuity_abs]. apply continuity_pt_minus; [apply derivable_continuous_pt, derivable_pt_id|apply continuity_pt_const; intros ? ?; reflexivity]. Qed.
  Lemma e_continuous x : continuity_pt e x.
  Proof.
    apply (continuity_pt_comp (fun x => - a x / b) exp); [|apply derivable_continuous_pt, derivable_pt_exp].
    apply continuity_pt_mult; [apply continuity_pt_opp, a_continuous|apply continuity_pt_const; intros ? ?; reflexivity].
  Qed.
  Lemma away x : ~ In x [m] -> x - m <> 0.
  Proof. cbn. intros H E. apply H. left. lra. Qed.
  Lemma sgn2 x : x - m <> 0 -> sign (x - m) * sign (x - m) = 1.
  Proof. intros H. destruct (Rlt_dec 0 (x - m)); [rewrite sign_eq_1 by auto; lra|rewrite sign_eq_m1 by lra; lra]. Qed.
  Lemma sgn_abs x : sign (x - m) * (x - m) = a x.
  Proof. unfold a. destruct (Rtotal_order (x - m) 0) as [H|[H|H]]; [rewrite sign_eq_m1, Rabs_left by auto; lra|rewrite H, Rabs_R0; lra|rewrite sign_eq_1, Rabs_pos_eq by lra; lra]. Qed.
  Lemma a_derive x : x - m <> 0 -> is_derive a x (sign (x - m)).
  Proof.
    intros H. unfold a. replace (sign (x - m)) with (sign (x - m) * 1) by ring. apply (is_derive_Rabs (fun x => x - m)); auto. auto_derive; auto.
  Qed.
  Lemma e_derive x : x - m <> 0 -> is_derive e x (- sign (x - m) / b * e x).
  Proof.
    intros H. unfold e. evar_last. apply (is_derive_comp exp (fun x => - a x / b)); [apply is_derive_exp|].
    apply (is_derive_ext (fun x => (- / b) * a x)); [intros; unfold Rdiv; real; ring|]. apply is_derive_scal, a_derive, H.
    unfold scal. cbn. unfold mult. cbn. unfold Rdiv. ring.
  Qed.
  Lemma laplace_tends sg (p : R -> R) : (sg = 1 \/ sg = -1) ->
    (forall eps, 0 < eps -> exists M, forall u, M < u -> Rabs (p u * exp (- u)) < eps) -> forall c, tends sg (fun x => c * (p (a x / b) * e x)) 0.
  Proof.
    intros Hsg Hp c. replace 0 with (c * 0) by ring. apply tends_scal.
    apply (tends_ext sg (fun x => (fun t => p (Rabs t) * exp (- Rabs t)) ((x - m) / b)) _ 0); auto.
    - intros x. cbv beta. unfold e, a. rewrite Rabs_div, (Rabs_pos_eq b) by lra. do 2 f_equal. unfold Rdiv. ring.
    - apply (tends_fun sg m b (fun t => p (Rabs t) * exp (- Rabs t))); auto. apply tends_small; auto. intros eps He. destruct (Hp eps He) as (M & HM). exists M. auto.
  Qed.
  Lemma smallL_1 eps : 0 < eps -> exists M, forall u, M < u -> Rabs (u * exp (- u)) < eps.
  Proof. intros H. destruct (exp_tail2 eps H) as (M & M1 & HM). exists M. intros u Hu. pose proof (exp_pos (- u)). rewrite Rabs_pos_eq by nra. now apply HM. Qed.
  Lemma smallL_2 eps : 0 < eps -> exists M, forall u, M < u -> Rabs (u ^ 2 * exp (- u)) < eps.
  Proof. intros H. destruct (exp_tail2 eps H) as (M & M1 & HM). exists M. intros u Hu. pose proof (exp_pos (- u)). rewrite Rabs_pos_eq; [now apply HM|]. apply Rmult_le_pos; [nra|lra]. Qed.

  Lemma laplace_score_m : score (fun x => x <> m) (fun m => laplaceDensity m b) m (fun x => sign (x - m) / b).
  Proof.
    intros x Hx. apply is_derive_Reals. apply is_derive_ext with (fun m => - Rabs (x - m) / b - ln (2 * b)).
    - intros t. unfold laplaceDensity. rewrite ln_div; [now rewrite ln_exp|apply exp_pos|lra].
    - assert (D : is_derive (fun m => Rabs (x - m)) m (- sign (x - m))).
      { replace (- sign (x - m)) with (sign (x - m) * - (1)) by ring. apply (is_derive_Rabs (fun m => x - m)); [|lra]. auto_derive; auto. }
      evar_last. apply @is_derive_minus; [|apply @is_derive_const]. apply (is_derive_ext (fun m => (- / b) * Rabs (x - m))); [intros; unfold Rdiv; real; ring|]. apply is_derive_scal, D.
      unfold minus, plus, opp, zero. cbn. unfold Rdiv. ring.
  Qed.
  Lemma laplace_score_b : score (fun x => x <> m) (fun b => laplaceDensity m b) b (fun x => (a x / b - 1) / b).
  Proof.
    intros x Hx. apply is_derive_Reals. apply is_derive_ext_loc with (fun b => - Rabs (x - m) / b - (ln 2 + ln b)).
    - exists (mkposreal b Hb). intros t Ht. cbn in Ht. unfold ball in Ht. cbn in Ht. unfold AbsRing_ball in Ht. unfold abs, minus, plus, opp in Ht. cbn in Ht. apply Rabs_def2 in Ht.
      unfold laplaceDensity. rewrite ln_div; [|apply exp_pos|lra]. rewrite ln_exp, ln_mult by lra. reflexivity.
    - unfold a. auto_derive; [repeat split; auto; lra|]. field. lra.
  Qed.
  Lemma laplace_fisher2 F : distributionFunction (laplaceDensity m b) F -> fisher2 integral (fun x => x <> m) laplaceDensity m b (/ b ^ 2) 0 (/ b ^ 2).
  Proof.
    intros HF. exists (fun x => sign (x - m) / b), (fun x => (a x / b - 1) / b). split; [exact laplace_score_m|]. split; [exact laplace_score_b|].
    assert (C1 : forall x, continuity_pt (fun x => - / (2 * b ^ 2) * (a x / b * e x)) x).
    { intros x. apply continuity_pt_scal with (f := fun x => a x / b * e x). apply continuity_pt_mult; [|apply e_continuous]. apply continuity_pt_mult; [apply a_continuous|apply continuity_pt_const; intros ? ?; reflexivity]. }
    assert (D1 : forall x, ~ In x [m] -> is_derive (fun x => - / (2 * b ^ 2) * (a x / b * e x)) x (sign (x - m) * (a x / b - 1) / (2 * b ^ 3) * e x)).
    { intros x Hx. apply away in Hx. evar_last. apply is_derive_scal. apply (is_derive_mult (fun x => a x / b) e); [|apply e_derive; auto|intros; apply Rmult_comm].
      apply (is_derive_ext (fun x => / b * a x)); [intros; unfold Rdiv; real; ring|]. apply is_derive_scal, a_derive, Hx. unfold plus, mult. cbn. field. lra. }
    assert (C2 : forall x, continuity_pt (fun x => - / (2 * b ^ 2) * ((x - m) / b * (a x / b * e x))) x).
    { intros x. apply continuity_pt_scal with (f := fun x => (x - m) / b * (a x / b * e x)). apply continuity_pt_mult.
      - apply continuity_pt_mult; [apply continuity_pt_minus; [apply derivable_continuous_pt, derivable_pt_id|]|]; apply continuity_pt_const; intros ? ?; reflexivity.
      - apply continuity_pt_mult; [|apply e_continuous]. apply continuity_pt_mult; [apply a_continuous|apply continuity_pt_const; intros ? ?; reflexivity]. }
    assert (D2 : forall x, ~ In x [m] -> is_derive (fun x => - / (2 * b ^ 2) * ((x - m) / b * (a x / b * e x))) x (((a x / b) ^ 2 - 2 * (a x / b)) / (2 * b ^ 3) * e x)).
    { intros x Hx. apply away in Hx. evar_last. apply is_derive_scal. apply (is_derive_mult (fun x => (x - m) / b) (fun x => a x / b * e x)); [|apply (is_derive_mult (fun x => a x / b) e); [|apply e_derive; auto|intros; apply Rmult_comm]|intros; apply Rmult_comm].
      - auto_derive; [auto|reflexivity].
      - apply (is_derive_ext (fun x => / b * a x)); [intros; unfold Rdiv; real; ring|]. apply is_derive_scal, a_derive, Hx.
      - unfold plus, mult. cbn. rewrite <- (sgn_abs x). pose proof (sgn2 x Hx) as G. set (sg := sign (x - m)) in *. set (y := x - m) in *.
        transitivity (- / (2 * b ^ 2) * (e x * (sg * y * / b ^ 2 + sg * y / b ^ 2 - (sg * sg) * y ^ 2 / b ^ 3))); [field; lra|]. transitivity (((sg * sg) * y ^ 2 / b ^ 2 - 2 * (sg * y / b)) / (2 * b ^ 3) * e x); [rewrite G; field; lra|]. field. lra. }
    repeat split.
    - apply (integral_parts _ F (/ b ^ 2) (fun _ => 0) (fun _ => 0) [m] _ HF); [intros; apply continuity_pt_const; intros ? ?; reflexivity|intros; apply (@is_derive_const R_AbsRing R_NormedModule)| | |].
      + intros eps He. exists 0. intros. rewrite Rminus_0_r, Rabs_R0. auto.
      + intros eps He. exists 0. intros. rewrite Rminus_0_r, Rabs_R0. auto.
      + intros x Hx. apply away in Hx. transitivity (laplaceDensity m b x * (sign (x - m) * sign (x - m)) / b ^ 2); [field; lra|]. rewrite sgn2 by auto. field. lra.
    - apply (integral_parts _ F 0 _ _ [m] _ HF C1 D1).
      + apply (laplace_tends (-1) (fun u => u)); auto. apply smallL_1.
      + apply (laplace_tends 1 (fun u => u)); auto. apply smallL_1.
      + intros x Hx. rewrite lapl. field. lra.
    - apply (integral_parts _ F (/ b ^ 2) _ _ [m] _ HF C2 D2).
      + apply (tends_ext (-1) (fun x => (- / (2 * b ^ 2)) * (fun t => t * (Rabs t * exp (- Rabs t))) ((x - m) / b)) _ ((- / (2 * b ^ 2)) * 0)); [|ring|].
        * intros x. unfold e, a. rewrite Rabs_div, (Rabs_pos_eq b) by lra. do 4 f_equal. unfold Rdiv. ring.
        * apply tends_scal, (tends_fun (-1) m b (fun t => t * (Rabs t * exp (- Rabs t)))); auto. apply tends_small; auto. intros eps He. destruct (smallL_2 eps He) as (M & HM). exists M. intros t Ht. specialize (HM _ Ht). rewrite !Rabs_mult, Rabs_Rabsolu in *. rewrite <- RPow_abs, Rabs_Rabsolu in HM. eapply Rle_lt_trans; [|exact HM]. right. ring.
      + apply (tends_ext 1 (fun x => (- / (2 * b ^ 2)) * (fun t => t * (Rabs t * exp (- Rabs t))) ((x - m) / b)) _ ((- / (2 * b ^ 2)) * 0)); [|ring|].
        * intros x. unfold e, a. rewrite Rabs_div, (Rabs_pos_eq b) by lra. do 4 f_equal. unfold Rdiv. ring.
        * apply tends_scal, (tends_fun 1 m b (fun t => t * (Rabs t * exp (- Rabs t)))); auto. apply tends_small; auto. intros eps He. destruct (smallL_2 eps He) as (M & HM). exists M. intros t Ht. specialize (HM _ Ht). rewrite !Rabs_mult, Rabs_Rabsolu in *. rewrite <- RPow_abs, Rabs_Rabsolu in HM. eapply Rle_lt_trans; [|exact HM]. right. ring.
      + intros x Hx. rewrite lapl. field. lra.
  Qed.
End Laplace.

(** ** Poisson distribution *)
Section Poisson.
  Variable lam : R.
  Hypothesis Hl : 0 < lam.
  Lemma poisson_next n : poissonProb lam (S n) = lam / INR (S n) * poissonProb lam n.
  Proof.
    unfold poissonProb. rewrite fact_simpl, mult_INR. pose proof (INR_fact_lt_0 n). pose proof (lt_0_INR (S n) ltac:(lia)). cbn [pow]. field. lra.
  Qed.
  Lemma poisson_partial n : sum_f_R0 (fun k => poissonProb lam k * (INR k / lam - 1) ^ 2) n =
    sum_f_R0 (poissonProb lam) n / lam + poissonProb lam n * (1 - INR (S n) / lam).
  Proof.
    induction n as [|n IH].
    - cbn [sum_f_R0]. rewrite S_INR. cbn [INR]. field. lra.
    - cbn [sum_f_R0]. rewrite IH, poisson_next. pose proof (lt_0_INR (S n) ltac:(lia)). rewrite (S_INR (S n)). field. lra.
  Qed.
  Lemma poisson_fisher : sumCounts (poissonProb lam) 1 -> fisher sumCounts (fun _ => True) poissonProb lam (/ lam).
  Proof.
    intros Hs. exists (fun k => INR k / lam - 1). split.
    - intros k _. apply is_derive_Reals. apply is_derive_ext_loc with (fun l => INR k * ln l - l - ln (INR (fact k))).
      + exists (mkposreal lam Hl). intros t Ht. cbn in Ht. unfold ball in Ht. cbn in Ht. unfold AbsRing_ball in Ht. unfold abs, minus, plus, opp in Ht. cbn in Ht. apply Rabs_def2 in Ht.
        assert (Pt : 0 < t) by lra. unfold poissonProb. pose proof (INR_fact_lt_0 k). assert (0 < t ^ k) by (apply pow_lt; auto). pose proof (exp_pos (- t)).
        rewrite ln_div; [|nra|auto]. rewrite ln_mult, ln_exp, ln_pow by auto. real. ring.
      + auto_derive; auto. field. lra.
    - assert (Cs : Un_cv (sum_f_R0 (poissonProb lam)) 1) by (intros eps He; destruct (Hs eps He) as (N & HN); exists N; intros; apply HN; auto).
      assert (Cp : Un_cv (fun n => poissonProb lam (S n)) 0).
      { replace 0 with (1 - 1) by ring. intros eps He. destruct (Cs (eps / 2)) as (N & HN); [lra|]. exists N. intros n Hn. pose proof (HN n Hn) as A. pose proof (HN (S n) ltac:(lia)) as B. cbn [sum_f_R0] in B.
        unfold R_dist in *. revert A B. unfold Rabs. repeat destruct Rcase_abs; lra. }
      assert (Cq : Un_cv (fun n => poissonProb lam (S n) * (1 - INR (S (S n)) / lam)) 0).
      { replace 0 with ((1 - / lam) * 0 - 0) by ring. intros eps He.
        assert (Cm : Un_cv (fun n => poissonProb lam n) 0). { intros d Hd. destruct (Cp d Hd) as (N & HN). exists (S N). intros n Hn. destruct n; [lia|]. apply HN. lia. }
        destruct (CV_minus (fun n => (1 - / lam) * poissonProb lam (S n)) (fun n => poissonProb lam n) ((1 - / lam) * 0) 0) with (eps := eps) as (N & HN); auto.
        - apply CV_mult; auto. intros d Hd. exists 0%nat. intros. unfold R_dist, Rminus. rewrite Rplus_opp_r, Rabs_R0. auto.
        - exists N. intros n Hn. specialize (HN n Hn). cbv beta in HN. unfold R_dist in *. replace (poissonProb lam (S n) * (1 - INR (S (S n)) / lam)) with ((1 - / lam) * poissonProb lam (S n) - poissonProb lam n); auto.
          rewrite poisson_next. pose proof (lt_0_INR (S n) ltac:(lia)). rewrite (S_INR (S n)). field. lra. }
      assert (Ct : Un_cv (fun n => sum_f_R0 (poissonProb lam) (S n) / lam + poissonProb lam (S n) * (1 - INR (S (S n)) / lam)) (1 * / lam + 0)).
      { apply CV_plus; auto. apply CV_mult. { intros d Hd. destruct (Cs d Hd) as (N & HN). exists N. intros. apply HN. lia. } intros d Hd. exists 0%nat. intros. unfold R_dist, Rminus. rewrite Rplus_opp_r, Rabs_R0. auto. }
      intros eps He. destruct (Ct eps He) as (N & HN). exists (S N). intros n Hn. destruct n as [|n]; [lia|]. specialize (HN n ltac:(lia)). rewrite poisson_partial. replace (/ lam) with (1 * / lam + 0) by ring. exact HN.
  Qed.
End Poisson.

(** ** Bernoulli distribution *)
Lemma bernoulli_fisher p : 0 < p < 1 -> fisher sumBits (fun d => d = 0 \/ d = 1) bernoulliProb p (/ (p * (1 - p))).
Proof.
  intros Hp. exists (fun d => if Req_EM_T d 0 then - / (1 - p) else / p). split.
  - intros d Hd. unfold bernoulliProb. destruct (Req_EM_T d 0); apply is_derive_Reals; auto_derive; try lra; field; lra.
  - unfold sumBits, bernoulliProb. destruct (Req_EM_T 0 0); [|lra]. destruct (Req_EM_T 1 0); [lra|]. field. lra.
Qed.

(** ** The Jeffreys prior is determined by the family *)
Lemma integral_ext exc f g v : (forall x, ~ In x exc -> f x = g x) -> integral f v -> integral g v.
Proof.
  intros E (F & ex & a & b & C & D & T). exists F, (exc ++ ex), a, b. split; auto. split; auto. intros x Hx. rewrite in_app_iff in Hx. rewrite <- E by tauto. apply D. tauto.
Qed.
Section Unique.
  Context {X : Type} (total : (X -> R) -> R -> Prop) (good : X -> Prop).
  Hypothesis U : forall f g v w, (forall x, good x -> f x = g x) -> total f v -> total g w -> v = w.
  Lemma score_unique f th s s' : score good f th s -> score good f th s' -> forall x, good x -> s x = s' x.
  Proof. intros A B x Hx. eapply uniqueness_limite; [apply A|apply B]; auto. Qed.
  Lemma jeffreys_unique f th j j' : jeffreys total good f th j -> jeffreys total good f th j' -> j = j'.
  Proof.
    intros (v & (s & Hs & Hv) & ->) (w & (s' & Hs' & Hw) & ->). f_equal. eapply U; [|exact Hv|exact Hw]. intros x Hx. cbv beta. now rewrite (score_unique f th s s' Hs Hs' x Hx).
  Qed.
  Lemma jeffreys2_unique f a b j j' : jeffreys2 total good f a b j -> jeffreys2 total good f a b j' -> j = j'.
  Proof.
    intros (g1 & g2 & g3 & (s & t & S1 & T1 & A1 & B1 & C1) & ->) (h1 & h2 & h3 & (s' & t' & S2 & T2 & A2 & B2 & C2) & ->).
    assert (Es := score_unique _ _ _ _ S1 S2). assert (Et := score_unique _ _ _ _ T1 T2).
    assert (g1 = h1) by (eapply U; [|exact A1|exact A2]; intros x Hx; cbv beta; now rewrite (Es x Hx)).
    assert (g2 = h2) by (eapply U; [|exact B1|exact B2]; intros x Hx; cbv beta; now rewrite (Es x Hx), (Et x Hx)).
    assert (g3 = h3) by (eapply U; [|exact C1|exact C2]; intros x Hx; cbv beta; now rewrite (Et x Hx)). subst. reflexivity.
  Qed.
End Unique.
Lemma integral_total exc f g v w : (forall x, ~ In x exc -> f x = g x) -> integral f v -> integral g w -> v = w.
Proof. intros E A B. eapply integral_unique; [|exact B]. eapply integral_ext; eauto. Qed.
Lemma counts_total f g v w : (forall k : nat, True -> f k = g k) -> sumCounts f v -> sumCounts g w -> v = w.
Proof.
  intros E A B. assert (B' : infinite_sum f w).
  { intros eps He. destruct (B eps He) as (N & HN). exists N. intros n Hn. specialize (HN n Hn). unfold R_dist in *. now rewrite (sum_eq f g) by (intros; auto). }
  eapply uniqueness_sum; eauto.
Qed.
Lemma bits_total f g v w : (forall d, d = 0 \/ d = 1 -> f d = g d) -> sumBits f v -> sumBits g w -> v = w.
Proof. unfold sumBits. intros E -> ->. now rewrite !E by auto. Qed.
