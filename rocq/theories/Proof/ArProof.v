(** Fisher information of a stationary autoregressive process. *)
From Coq Require Import List Reals Lra Lia.
From Coquelicot Require Import Coquelicot.
From Verif Require Import Spec.Marginal Spec.ObsSpec Spec.Fisher Spec.ArSpec Proof.GaussInt Proof.FisherProof.
Import ListNotations.
Local Open Scope R_scope.

(** ** moments of a normal distribution *)
Lemma tends_ext0 sg f g v : (forall x, f x = g x) -> tends sg f v -> tends sg g v.
Proof. intros E. now apply tends_ext. Qed.
Lemma mono_tends m s sg c0 c1 c2 c3 : 0 < s -> (sg = 1 \/ sg = -1) ->
  tends sg (fun x => (c0 + c1 * ((x - m) / s) + c2 * ((x - m) / s) ^ 2 + c3 * ((x - m) / s) ^ 3) * exp (- ((x - m) / s) ^ 2 / 2)) 0.
Proof.
  intros Hs Hsg. set (E := fun x => exp (- ((x - m) / s) ^ 2 / 2)).
  assert (B : forall p : R -> R, (forall eps, 0 < eps -> exists M, forall t, M < Rabs t -> Rabs (p t * exp (- t ^ 2 / 2)) < eps) -> forall c, tends sg (fun x => c * (p ((x - m) / s) * E x)) 0).
  { intros p Hp c. replace 0 with (c * 0) by ring. apply tends_scal. apply (tends_fun sg m s (fun t => p t * exp (- t ^ 2 / 2))); auto. now apply tends_small. }
  assert (P0 := B (fun _ => 1)). assert (P1 := B (fun t => t)). assert (P2 := B (fun t => t ^ 2)). assert (P3 := B (fun t => t ^ 3)).
  apply tends_ext with (F := fun x => c0 * (1 * E x) + (c1 * ((x - m) / s * E x) + (c2 * (((x - m) / s) ^ 2 * E x) + c3 * (((x - m) / s) ^ 3 * E x)))) (a := 0 + (0 + (0 + 0))).
  - intros x. unfold E. ring.
  - ring.
  - repeat apply tends_plus; [apply P0|apply P1|apply P2|apply P3]; intros eps He; destruct (bell_tail eps He) as (M & _ & HM); exists M; intros t Ht; destruct (HM t Ht) as (A3 & A1 & A2 & A0); auto.
    rewrite Rmult_1_l, Rabs_pos_eq by (left; apply exp_pos). exact A0.
Qed.
(** integral of the density times a polynomial of degree four *)
Lemma normal_moments m s a b c d e : 0 < s -> forall g,
  (forall x, g x = normalDensity m s x * (a + b * ((x - m) / s) + c * ((x - m) / s) ^ 2 + d * ((x - m) / s) ^ 3 + e * ((x - m) / s) ^ 4)) ->
  integral g (a + c + 3 * e).
Proof.
  intros Hs g Hg. destruct (normal_normalised m s) as (F & HF); [lra|].
  set (k := / (s * sqrt (2 * PI))).
  assert (De : forall x, normalDensity m s x = k * exp (- ((x - m) / s) ^ 2 / 2)).
  { intros x. rewrite normalDensity_z by auto. unfold k, Rdiv. ring. }
  set (h := fun x => - (k * s) * ((b + 2 * d + (c + 3 * e) * ((x - m) / s) + d * ((x - m) / s) ^ 2 + e * ((x - m) / s) ^ 3) * exp (- ((x - m) / s) ^ 2 / 2))).
  assert (D : forall x, is_derive h x (k * exp (- ((x - m) / s) ^ 2 / 2) * (b * ((x - m) / s) + c * (((x - m) / s) ^ 2 - 1) + d * ((x - m) / s) ^ 3 + e * (((x - m) / s) ^ 4 - 3)))).
  { intros x. unfold h. auto_derive; auto. set (E := exp _). field. lra. }
  apply (integral_parts _ F (a + c + 3 * e) h _ [] g HF (fun x => is_derive_cont _ _ _ (D x)) (fun x _ => D x)).
  - replace 0 with (- (k * s) * 0) by ring. apply tends_scal. apply mono_tends; auto.
  - replace 0 with (- (k * s) * 0) by ring. apply tends_scal. apply mono_tends; auto.
  - intros x _. rewrite Hg, De. ring.
Qed.

(** ** iterated integrals *)
Lemma integral_scal f v c : integral f v -> integral (fun x => c * f x) (c * v).
Proof.
  intros (F & exc & a & b & C & D & A & B & ->). exists (fun x => c * F x), exc, (c * a), (c * b). split; [|split; [|split; [|split]]].
  - intros x. apply continuity_pt_scal with (a := c) (f := F). auto.
  - intros x Hx. apply (derivable_pt_lim_scal F c). auto.
  - now apply tends_scal.
  - now apply tends_scal.
  - ring.
Qed.
Lemma integrals_scal n : forall f v c, integrals n f v -> integrals n (fun l => c * f l) (c * v).
Proof.
  induction n as [|n IH]; intros f v c; cbn [integrals]; [now intros ->|]. intros (g & Hg & I). exists (fun y => c * g y). split; [|now apply integral_scal].
  intros y. now apply IH.
Qed.
Lemma integrals_ext n : forall f g v w, (forall l, List.length l = n -> f l = g l) -> v = w -> integrals n f v -> integrals n g w.
Proof.
  induction n as [|n IH]; intros f g v w E ->; cbn [integrals].
  - intros ->. now apply E.
  - intros (h & Hh & I). exists h. split; [|exact I]. intros y. eapply IH; [|reflexivity|apply Hh]. intros l L. apply E. cbn. now rewrite L.
Qed.
Lemma integrals_total n : forall f g v w, (forall l, List.length l = n -> f l = g l) -> integrals n f v -> integrals n g w -> v = w.
Proof.
  induction n as [|n IH]; intros f g v w E; cbn [integrals].
  - intros -> ->. now apply E.
  - intros (h & Hh & I) (h' & Hh' & I'). apply (integral_total [] h h'); auto. intros y _. eapply IH; [|apply Hh|apply Hh']. intros l L. apply E. cbn. now rewrite L.
Qed.

(** ** scores: [al], [be] are the derivatives of r and s along a path *)
Fixpoint scores (r s al be y : R) (l : list R) : R :=
  match l with
  | [] => 0
  | y' :: l => al * (y * ((y' - r * y) / s) / s) + be * ((((y' - r * y) / s) ^ 2 - 1) / s) + scores r s al be y' l
  end.
Definition firstScore (r s al be y : R) : R := al * (y ^ 2 * r / s ^ 2 - r / (1 - r ^ 2)) + be * (y ^ 2 * (1 - r ^ 2) / s ^ 3 - 1 / s).
Definition fullScore (r s al be : R) (l : list R) : R :=
  match l with [] => 0 | y :: l => firstScore r s al be y + scores r s al be y l end.

(** ** expectations of products of scores *)
Section Expect.
  Variables (r s : R).
  Hypotheses (Hs : 0 < s) (Hr : r ^ 2 < 1).
  Fixpoint cn (n : nat) : R := match n with O => 0 | S n => / s ^ 2 + cn n * r ^ 2 end.
  Fixpoint dn (n : nat) : R := match n with O => 0 | S n => cn n * s ^ 2 + dn n end.
  Lemma cn_dn n : cn n * (s ^ 2 / (1 - r ^ 2)) + dn n = INR n / (1 - r ^ 2).
  Proof.
    induction n as [|n IH]; [cbn; field; lra|]. rewrite S_INR. cbn [cn dn].
    replace ((INR n + 1) / (1 - r ^ 2)) with (INR n / (1 - r ^ 2) + / (1 - r ^ 2)) by (field; lra). rewrite <- IH. field. lra.
  Qed.
  Lemma chain_products al be ga de n : forall y A B,
    integrals n (fun l => follows r s y l * ((A + scores r s al be y l) * (B + scores r s ga de y l)))
      (A * B + al * ga * (cn n * y ^ 2 + dn n) + be * de * (2 * INR n / s ^ 2)).
  Proof.
    induction n as [|n IH]; intros y A B.
    - cbn. field. lra.
    - cbn [integrals]. set (z := fun y' => (y' - r * y) / s).
      exists (fun y' => normalDensity (r * y) s y' *
        ((A + (al * (y * z y' / s) + be * ((z y' ^ 2 - 1) / s))) * (B + (ga * (y * z y' / s) + de * ((z y' ^ 2 - 1) / s))) + al * ga * (cn n * y' ^ 2 + dn n) + be * de * (2 * INR n / s ^ 2))).
      split.
      + intros y'. eapply integrals_ext; [| |apply integrals_scal with (c := normalDensity (r * y) s y'), (IH y' (A + (al * (y * z y' / s) + be * ((z y' ^ 2 - 1) / s))) (B + (ga * (y * z y' / s) + de * ((z y' ^ 2 - 1) / s))))].
        * intros l _. cbn [follows scores]. fold (z y'). ring.
        * reflexivity.
      + rewrite S_INR. cbn [cn dn].
        set (a0 := A - be / s). set (a1 := al * y / s). set (a2 := be / s). set (b0 := B - de / s). set (b1 := ga * y / s). set (b2 := de / s). set (C := al * ga * cn n).
        replace (A * B + al * ga * ((/ s ^ 2 + cn n * r ^ 2) * y ^ 2 + (cn n * s ^ 2 + dn n)) + be * de * (2 * (INR n + 1) / s ^ 2)) with
          ((a0 * b0 + C * (r * y) ^ 2 + al * ga * dn n + be * de * (2 * INR n / s ^ 2)) + (a0 * b2 + a1 * b1 + a2 * b0 + C * s ^ 2) + 3 * (a2 * b2)) by (unfold a0, a1, a2, b0, b1, b2, C; field; lra).
        apply (normal_moments (r * y) s _ (a0 * b1 + a1 * b0 + C * (2 * r * y * s)) _ (a1 * b2 + a2 * b1) _ Hs).
        intros y'. f_equal. unfold a0, a1, a2, b0, b1, b2, C, z. field. lra.
  Qed.
  (** mean of the product of two scores of n+1 observations *)
  Definition info (al be ga de : R) (n : nat) : R :=
    2 * (al * r / (1 - r ^ 2) + be / s) * (ga * r / (1 - r ^ 2) + de / s) + al * ga * (INR n / (1 - r ^ 2)) + be * de * (2 * INR n / s ^ 2).
  Lemma score_products al be ga de n :
    integrals (S n) (fun l => arDensity r s l * (fullScore r s al be l * fullScore r s ga de l)) (info al be ga de n).
  Proof.
    cbn [integrals]. set (w := sqrt (1 - r ^ 2)). assert (Hw : 0 < w) by (apply sqrt_lt_R0; lra). assert (W2 : w ^ 2 = 1 - r ^ 2) by (unfold w; apply pow2_sqrt; lra).
    exists (fun y => firstDensity r s y * (firstScore r s al be y * firstScore r s ga de y + al * ga * (cn n * y ^ 2 + dn n) + be * de * (2 * INR n / s ^ 2))). split.
    - intros y. eapply integrals_ext; [| |apply integrals_scal with (c := firstDensity r s y), (chain_products al be ga de n y (firstScore r s al be y) (firstScore r s ga de y))].
      + intros l _. cbn [arDensity fullScore]. ring.
      + reflexivity.
    - unfold info. rewrite <- (cn_dn n). rewrite <- W2 in *.
      set (p := al * r / w ^ 2 + be / s). set (q := ga * r / w ^ 2 + de / s).
      replace (2 * p * q + al * ga * (cn n * (s ^ 2 / w ^ 2) + dn n) + be * de * (2 * INR n / s ^ 2)) with
        ((p * q + al * ga * dn n + be * de * (2 * INR n / s ^ 2)) + (- 2 * (p * q) + al * ga * cn n * (s ^ 2 / w ^ 2)) + 3 * (p * q)) by ring.
      assert (Hp : 0 < s / w) by now apply Rdiv_lt_0_compat.
      apply (normal_moments 0 (s / w) _ 0 _ 0 _ Hp). intros y. unfold firstDensity. fold w. f_equal.
      assert (F : forall al be, firstScore r s al be y = (al * r / w ^ 2 + be / s) * (((y - 0) / (s / w)) ^ 2 - 1)).
      { intros a b. unfold firstScore. rewrite <- W2. field. lra. }
      rewrite !F. fold p q. field. lra.
  Qed.
End Expect.

(** ** the scores are the derivatives of the log-likelihood *)
Lemma lnNormal m s x : 0 < s -> ln (normalDensity m s x) = - (x - m) ^ 2 / (2 * s ^ 2) - (ln s + ln (sqrt (2 * PI))).
Proof.
  intros Hs. rewrite normalDensity_z by auto. pose proof PI_RGT_0. assert (0 < sqrt (2 * PI)) by (apply sqrt_lt_R0; nra).
  rewrite ln_div; [|apply exp_pos|nra]. rewrite ln_exp, ln_mult by auto. f_equal. field. lra.
Qed.
Lemma normal_pos m s x : 0 < s -> 0 < normalDensity m s x.
Proof.
  intros Hs. rewrite normalDensity_z by auto. pose proof PI_RGT_0. assert (0 < sqrt (2 * PI)) by (apply sqrt_lt_R0; nra). apply Rdiv_lt_0_compat; [apply exp_pos|nra].
Qed.
Section Path.
  Variables (rho sigma : R -> R) (t al be : R).
  Hypotheses (Dr : is_derive rho t al) (Ds : is_derive sigma t be) (Hs : 0 < sigma t) (Hr : rho t ^ 2 < 1).
  Lemma Er : Derive (fun x : R => rho x) t = al.
  Proof. now apply is_derive_unique. Qed.
  Lemma Es : Derive (fun x : R => sigma x) t = be.
  Proof. now apply is_derive_unique. Qed.
  Lemma near : locally t (fun u => 0 < sigma u /\ 0 < 1 - rho u ^ 2).
  Proof.
    apply filter_and.
    - assert (C : continuous sigma t) by (apply (ex_derive_continuous (V := R_NormedModule)); exists be; exact Ds).
      apply (C (fun y => 0 < y)). apply (open_gt 0 (sigma t)). exact Hs.
    - assert (C : continuous (fun u => 1 - rho u ^ 2) t).
      { apply (ex_derive_continuous (V := R_NormedModule)). exists (- (2 * rho t * al)). auto_derive; [solve [exists al; exact Dr|split; [exists al; exact Dr|auto]]|]. rewrite Er. real. ring. }
      apply (C (fun y => 0 < y)). apply (open_gt 0 (1 - rho t ^ 2)). lra.
  Qed.
  Lemma step_score y y' : is_derive (fun u => ln (normalDensity (rho u * y) (sigma u) y')) t (al * (y * ((y' - rho t * y) / sigma t) / sigma t) + be * ((((y' - rho t * y) / sigma t) ^ 2 - 1) / sigma t)).
  Proof.
    apply is_derive_ext_loc with (fun u => - (y' - rho u * y) ^ 2 / (2 * sigma u ^ 2) - (ln (sigma u) + ln (sqrt (2 * PI)))).
    - eapply filter_imp; [|exact near]. intros u [Hu _]. symmetry. now apply lnNormal.
    - auto_derive.
      + repeat split; auto; try (eexists; eassumption). apply Rgt_not_eq. nra.
      + rewrite Er, Es. field. lra.
  Qed.
  Lemma first_score y : is_derive (fun u => ln (firstDensity (rho u) (sigma u) y)) t (firstScore (rho t) (sigma t) al be y).
  Proof.
    apply is_derive_ext_loc with (fun u => - y ^ 2 * (1 - rho u ^ 2) / (2 * sigma u ^ 2) - (ln (sigma u) - / 2 * ln (1 - rho u ^ 2) + ln (sqrt (2 * PI)))).
    - eapply filter_imp; [|exact near]. intros u [Hu Hv]. unfold firstDensity. set (w := sqrt (1 - rho u ^ 2)). assert (Hw : 0 < w) by now apply sqrt_lt_R0.
      assert (W2 : w ^ 2 = 1 - rho u ^ 2) by (unfold w; apply pow2_sqrt; lra). rewrite lnNormal by now apply Rdiv_lt_0_compat. rewrite <- W2.
      assert (L : ln (w ^ 2) = 2 * ln w) by (replace (w ^ 2) with (w * w) by ring; rewrite ln_mult by auto; ring). rewrite L, ln_div by auto. real. field. lra.
    - unfold firstScore. auto_derive.
      + repeat split; auto; try (eexists; eassumption); try (apply Rgt_not_eq; nra). lra.
      + rewrite Er, Es. field. nra.
  Qed.
  Lemma follows_score l : forall y, (forall u, 0 < sigma u -> 0 < follows (rho u) (sigma u) y l) /\ is_derive (fun u => ln (follows (rho u) (sigma u) y l)) t (scores (rho t) (sigma t) al be y l).
  Proof.
    induction l as [|y' l IH]; intros y; cbn [follows scores].
    - split; [intros; lra|]. apply is_derive_ext with (fun _ => 0); [intros; now rewrite ln_1|]. auto_derive; auto.
    - destruct (IH y') as [P D]. split; [intros u Hu; apply Rmult_lt_0_compat; [now apply normal_pos|auto]|].
      apply is_derive_ext_loc with (fun u => ln (normalDensity (rho u * y) (sigma u) y') + ln (follows (rho u) (sigma u) y' l)).
      + eapply filter_imp; [|exact near]. intros u [Hu _]. symmetry. apply ln_mult; [now apply normal_pos|auto].
      + apply (is_derive_plus (V := R_NormedModule)); [apply step_score|exact D].
  Qed.
  Lemma path_score l : l <> [] -> is_derive (fun u => ln (arDensity (rho u) (sigma u) l)) t (fullScore (rho t) (sigma t) al be l).
  Proof.
    destruct l as [|y l]; [easy|]. intros _. cbn [arDensity fullScore]. destruct (follows_score l y) as [P D].
    apply is_derive_ext_loc with (fun u => ln (firstDensity (rho u) (sigma u) y) + ln (follows (rho u) (sigma u) y l)).
    - eapply filter_imp; [|exact near]. intros u [Hu Hv]. symmetry. apply ln_mult; [|auto]. apply normal_pos. apply Rdiv_lt_0_compat; [auto|now apply sqrt_lt_R0].
    - apply (is_derive_plus (V := R_NormedModule)); [apply first_score|exact D].
  Qed.
End Path.

(** ** Fisher information of n+1 observations *)
Lemma ar_fisher n r s : 0 < s -> r ^ 2 < 1 ->
  fisher2 (integrals (S n)) (fun l => List.length l = S n) arDensity r s (info r s 1 0 1 0 n) (info r s 1 0 0 1 n) (info r s 0 1 0 1 n).
Proof.
  intros Hs Hr. exists (fullScore r s 1 0), (fullScore r s 0 1). split; [|split; [|split; [|split]]]; try now apply score_products.
  - intros l L. apply is_derive_Reals. apply (path_score (fun u => u) (fun _ => s) r 1 0); auto; [apply (is_derive_id (K := R_AbsRing))|apply (is_derive_const (K := R_AbsRing) (V := R_NormedModule))|destruct l; discriminate].
  - intros l L. apply is_derive_Reals. apply (path_score (fun _ => r) (fun u => u) s 0 1); auto; [apply (is_derive_const (K := R_AbsRing) (V := R_NormedModule))|apply (is_derive_id (K := R_AbsRing))|destruct l; discriminate].
Qed.
Lemma scaled_fisher n r s : 0 < s -> r ^ 2 < 1 -> let w := sqrt (1 - r ^ 2) in
  fisher2 (integrals (S n)) (fun l => List.length l = S n) scaledDensity r s
    (info r (s * w) 1 (- (s * r / w)) 1 (- (s * r / w)) n) (info r (s * w) 1 (- (s * r / w)) 0 w n) (info r (s * w) 0 w 0 w n).
Proof.
  intros Hs Hr w. assert (Hw : 0 < w) by (apply sqrt_lt_R0; lra). assert (Hsw : 0 < s * w) by now apply Rmult_lt_0_compat.
  exists (fullScore r (s * w) 1 (- (s * r / w))), (fullScore r (s * w) 0 w). split; [|split; [|split; [|split]]]; try now apply score_products.
  - intros l L. apply is_derive_Reals. apply (path_score (fun u => u) (fun u => s * sqrt (1 - u ^ 2)) r 1 (- (s * r / w))); auto; [apply (is_derive_id (K := R_AbsRing))| |destruct l; discriminate].
    auto_derive; [lra|]. replace (1 + - (r * (r * 1))) with (1 - r ^ 2) by ring. fold w. field. lra.
  - intros l L. apply is_derive_Reals. apply (path_score (fun _ => r) (fun u => u * w) s 0 w); auto; [apply (is_derive_const (K := R_AbsRing) (V := R_NormedModule))| |destruct l; discriminate].
    auto_derive; auto. real. ring.
Qed.
(** the determinants *)
Definition arShape (n : nat) (r : R) : R := 4 * r ^ 2 / (1 - r ^ 2) + 2 * (INR n + 1).
Lemma arShape_pos n r : r ^ 2 < 1 -> 0 < arShape n r.
Proof.
  intros Hr. unfold arShape. pose proof (pos_INR n). apply Rplus_le_lt_0_compat; [|lra]. apply Rmult_le_pos; [pose proof (pow2_ge_0 r); lra|left; apply Rinv_0_lt_compat; lra].
Qed.
Lemma ar_det n r s : 0 < s -> r ^ 2 < 1 ->
  info r s 1 0 1 0 n * info r s 0 1 0 1 n - info r s 1 0 0 1 n * info r s 1 0 0 1 n = INR n * arShape n r / (s ^ 2 * (1 - r ^ 2)).
Proof. intros Hs Hr. unfold info, arShape. field. lra. Qed.
Lemma path_det n r s be w : 0 < s -> r ^ 2 < 1 ->
  info r s 1 be 1 be n * info r s 0 w 0 w n - info r s 1 be 0 w n * info r s 1 be 0 w n = w ^ 2 * (INR n * arShape n r / (s ^ 2 * (1 - r ^ 2))).
Proof. intros Hs Hr. unfold info, arShape. field. lra. Qed.
Lemma sqrt_value n r s c : 0 < s -> r ^ 2 < 1 -> 0 <= c ->
  sqrt (c ^ 2 * (INR n * arShape n r / (s ^ 2 * (1 - r ^ 2)))) = sqrt (INR n) * (c / (s * sqrt (1 - r ^ 2)) * sqrt (arShape n r)).
Proof.
  intros Hs Hr Hc. pose proof (arShape_pos n r Hr). pose proof (pos_INR n). set (w := sqrt (1 - r ^ 2)). assert (Hw : 0 < w) by (apply sqrt_lt_R0; lra).
  assert (W2 : w ^ 2 = 1 - r ^ 2) by (unfold w; apply pow2_sqrt; lra). rewrite <- W2.
  replace (c ^ 2 * (INR n * arShape n r / (s ^ 2 * w ^ 2))) with (INR n * ((c / (s * w)) ^ 2 * arShape n r)) by (field; lra).
  assert (0 <= c / (s * w)) by (apply Rmult_le_pos; [auto|left; apply Rinv_0_lt_compat, Rmult_lt_0_compat; auto]).
  assert (0 <= (c / (s * w)) ^ 2) by apply pow2_ge_0.
  rewrite sqrt_mult by (assumption || (apply Rmult_le_pos; lra)). rewrite sqrt_mult by lra. now rewrite sqrt_pow2.
Qed.
Lemma ar_jeffreys n r s : 0 < s -> r ^ 2 < 1 -> arJeffreys (S n) r s (sqrt (INR n) * (1 / (s * sqrt (1 - r ^ 2)) * sqrt (arShape n r))).
Proof.
  intros Hs Hr. eexists _, _, _. split; [apply ar_fisher; auto|]. rewrite ar_det by auto. rewrite <- sqrt_value by (auto; lra). f_equal. ring.
Qed.
Lemma scaled_jeffreys n r s : 0 < s -> r ^ 2 < 1 -> scaledJeffreys (S n) r s (sqrt (INR n) * (1 / (s * sqrt (1 - r ^ 2)) * sqrt (arShape n r))).
Proof.
  intros Hs Hr. eexists _, _, _. split; [apply scaled_fisher; auto|]. assert (Hw : 0 < sqrt (1 - r ^ 2)) by (apply sqrt_lt_R0; lra).
  assert (Hsw : 0 < s * sqrt (1 - r ^ 2)) by now apply Rmult_lt_0_compat.
  rewrite path_det by auto. rewrite sqrt_value by (auto; lra). f_equal. f_equal. field. lra.
Qed.
Lemma ar_jeffreys_unique n r s j j' : arJeffreys n r s j -> arJeffreys n r s j' -> j = j'.
Proof. apply jeffreys2_unique. intros f g v w E. apply integrals_total. exact E. Qed.
Lemma scaled_jeffreys_unique n r s j j' : scaledJeffreys n r s j -> scaledJeffreys n r s j' -> j = j'.
Proof. apply jeffreys2_unique. intros f g v w E. apply integrals_total. exact E. Qed.
