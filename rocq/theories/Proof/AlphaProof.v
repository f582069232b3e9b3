(** The convolution of the alpha-stable random walk. *)
From Coq Require Import List ZArith Reals Lra Lia Arith Bool.
From Verif Require Import Base.Num Base.Exn Base.Arr Base.RSum Base.Lift Model.Helper Model.Tm Model.Bivariate Model.Cache Model.AlphaStable
  Spec.Kernel Spec.Config Spec.AlphaSpec Proof.Gauss Proof.BivProof Proof.StableKernel.
Import ListNotations.
Local Open Scope R_scope.

Lemma rsum_reverse n f : rsum n (fun i => f (n - 1 - i)%nat) = rsum n f.
Proof.
  induction n as [|n IH]; [reflexivity|]. rewrite rsum_Sl. replace (S n) with (n + 1)%nat by lia. rewrite rsum_app. cbn [rsum]. rewrite <- IH.
  replace (n + 1 - 1 - 0)%nat with n by lia. rewrite (rsum_ext n (fun i => f (n + 1 - 1 - S i)%nat) (fun i => f (n - 1 - i)%nat)) by (intros; f_equal; lia).
  cbn. rewrite Nat.add_0_r. ring.
Qed.
Lemma seq_shift_map k n : seq k n = map (fun i => (k + i)%nat) (seq 0 n).
Proof.
  apply (nth_ext _ _ 0%nat 0%nat); [now rewrite map_length, !seq_length|]. intros i Hi. rewrite seq_length in Hi.
  rewrite seq_nth by auto. rewrite (nth_indep _ 0%nat (k + 0)%nat) by (rewrite map_length, seq_length; auto).
  rewrite (map_nth (fun i => (k + i)%nat)), seq_nth by auto. reflexivity.
Qed.

Lemma flat_map_ext_in {A B} (f g : A -> list B) l : (forall x, In x l -> f x = g x) -> flat_map f l = flat_map g l.
Proof. induction l as [|a l IH]; intros E; cbn; auto. rewrite E, IH; auto; [|now left]. intros x I. apply E. now right. Qed.
Lemma rsum_period M (g : nat -> R) : (0 < M)%nat -> rsum (2 * M) g = g 0%nat + rsum (M - 1) (fun i => g (1 + i)%nat) + g M + rsum (M - 1) (fun i => g (M + 1 + i)%nat).
Proof.
  intros HM. replace (2 * M)%nat with (1 + ((M - 1) + (1 + (M - 1))))%nat by lia. rewrite !rsum_app.
  rewrite (rsum_ext 1 _ (fun _ => g 0%nat)) by (intros; f_equal; lia). rewrite (rsum_ext 1 (fun i => g (1 + (M - 1 + i))%nat) (fun _ => g M)) by (intros; f_equal; lia).
  rewrite !rsum_const. change (INR 1) with 1.
  rewrite (rsum_ext (M - 1) (fun i => g (1 + (M - 1 + (1 + i)))%nat) (fun i => g (M + 1 + i)%nat)) by (intros; f_equal; lia). ring.
Qed.
Lemma irfft_length h : List.length (irfft h) = (2 * (List.length h - 1))%nat.
Proof. unfold irfft. now rewrite map_length, seq_length. Qed.
Lemma line_length n c al : List.length (kernelLine n c al) = (2 * halfPeriod n)%nat.
Proof.
  unfold kernelLine, roll. rewrite map_length, seq_length, irfft_length. unfold spectrum. rewrite map_length, seq_length. change (lastFreq n) with (halfPeriod n). lia.
Qed.
Section Line.
  Variables (n : nat) (c al : R).
  Hypothesis Hn : (0 < n)%nat.
  Hypothesis Ha : 0 < al.
  Notation M := (halfPeriod n).
  Let RM : 0 < INR M. Proof. apply lt_0_INR, half_pos; auto. Qed.

  Lemma decay_char k : decay (Rabs (c * (INR k * (PI / INR M)))) al = phi M c al k.
  Proof.
    unfold decay, phi, charFun. replace (PI * INR k / INR M) with (INR k * (PI / INR M)) by (field; lra). set (z := c * (INR k * (PI / INR M))).
    destruct (Req_EM_T (Rabs z) 0) as [E|E].
    - destruct (Req_EM_T z 0) as [_|N]; [|exfalso; apply N; destruct (Req_dec z 0); auto; exfalso; now apply (Rabs_no_R0 z)].
      destruct (Req_EM_T al 0); [lra|]. destruct (Rlt_dec 0 al); [reflexivity|lra].
    - destruct (Req_EM_T z 0) as [Z|_]; [|reflexivity]. exfalso. apply E. rewrite Z. apply Rabs_R0.
  Qed.
  Lemma spectrum_tab : spectrum n c al = tab (M + 1) (phi M c al).
  Proof. unfold spectrum, tab. change (lastFreq n) with M. apply map_ext. intros k. apply decay_char. Qed.
  Lemma irfft_tab : irfft (spectrum n c al) = tab (2 * M) (fun j => stepStable n c al (Z.of_nat j)).
  Proof.
    pose proof (half_pos n Hn) as HM. rewrite spectrum_tab. unfold irfft. rewrite tab_length. replace (M + 1 - 1)%nat with M by lia. apply tab_ext. intros j Hj.
    rewrite step_series by auto. f_equal. unfold series. rewrite !Rnth_tab by lia. rewrite Rsum_seq_shift.
    rewrite (rsum_period M (fun k => phiP M c al k * wave M (Z.of_nat j) k)) by auto.
    assert (E1 : rsum (M - 1) (fun i => 2 * Rnth (tab (M + 1) (phi M c al)) (1 + i) * cos (2 * PI * INR j * INR (1 + i) / INR (2 * M))) =
                 2 * rsum (M - 1) (fun i => phi M c al (1 + i) * wave M (Z.of_nat j) (1 + i))).
    { rewrite <- rsum_scal. apply rsum_ext. intros i Hi. rewrite Rnth_tab by lia. unfold wave. rewrite Rmult_assoc. f_equal. f_equal. f_equal.
      rewrite <- INR_IZR_INZ, mult_INR. change (INR 2) with 2. field. lra. }
    assert (E2 : rsum (M - 1) (fun i => phiP M c al (M + 1 + i) * wave M (Z.of_nat j) (M + 1 + i)) =
                 rsum (M - 1) (fun i => phi M c al (1 + i) * wave M (Z.of_nat j) (1 + i))).
    { rewrite <- (rsum_reverse (M - 1) (fun i => phi M c al (1 + i) * wave M (Z.of_nat j) (1 + i))). apply rsum_ext. intros i Hi.
      rewrite phiP_high by lia. rewrite <- (wave_mirror M HM (Z.of_nat j) (1 + (M - 1 - 1 - i))) by lia. f_equal; f_equal; lia. }
    assert (E3 : rsum (M - 1) (fun i => phiP M c al (1 + i) * wave M (Z.of_nat j) (1 + i)) = rsum (M - 1) (fun i => phi M c al (1 + i) * wave M (Z.of_nat j) (1 + i))).
    { apply rsum_ext. intros i Hi. now rewrite phiP_low by lia. }
    rewrite E1, E2, E3. rewrite !phiP_low by lia. rewrite wave_0, wave_half by auto. rewrite <- INR_IZR_INZ. ring.
  Qed.
  Lemma line_at d : (- (Z.of_nat M - 1) <= d <= Z.of_nat M)%Z -> kAt1 (kernelLine n c al) (Z.of_nat M - 1 + d) = stepStable n c al d.
  Proof.
    intros Hd. pose proof (half_pos n Hn) as HM. unfold kAt1. rewrite line_length.
    rewrite (proj2 (Z.leb_le _ _)), (proj2 (Z.ltb_lt _ _)) by lia. cbn [andb]. unfold kernelLine, roll. rewrite irfft_tab, tab_length. change (lastFreq n) with M.
    rewrite (Rnth_tab (2 * M) (fun i => Rnth (tab (2 * M) (fun j => stepStable n c al (Z.of_nat j))) ((i + (2 * M - (M - 1) mod (2 * M))) mod (2 * M)))) by lia.
    set (i := Z.to_nat (Z.of_nat M - 1 + d)). rewrite (Nat.mod_small (M - 1)) by lia. rewrite Rnth_tab by (apply Nat.mod_upper_bound; lia).
    set (q := (i + (2 * M - (M - 1)))%nat).
    assert (Eq : Z.of_nat (q mod (2 * M)) = (d + (1 - Z.of_nat (q / (2 * M))) * Z.of_nat (2 * M))%Z).
    { pose proof (Nat.div_mod q (2 * M) ltac:(lia)) as D. assert (Q : Z.of_nat q = (d + Z.of_nat (2 * M))%Z) by (unfold q, i; lia). nia. }
    rewrite Eq. apply step_shift; auto.
  Qed.
End Line.

(** ** one parameter *)
Section One.
  Variables (n : nat) (c al : R) (f : nat -> R).
  Hypothesis Hn : (0 < n)%nat.
  Hypothesis Ha : 0 < al.
  Notation M := (halfPeriod n).
  Lemma center : ((2 * M - 1) / 2 = M - 1)%nat.
  Proof. pose proof (half_pos n Hn). symmetry. apply Nat.div_unique with 1%nat; lia. Qed.
  Lemma middle_sum (g : nat -> R) : (forall j, (j < n)%nat \/ (2 * n <= j < 3 * n)%nat -> g j = 0) -> rsum (3 * n) g = rsum n (fun j => g (n + j)%nat).
  Proof.
    intros G. replace (3 * n)%nat with (n + (n + n))%nat by lia. rewrite !rsum_app. rewrite (rsum_0 n g) by (intros; apply G; lia).
    rewrite (rsum_0 n (fun i => g (n + (n + i))%nat)) by (intros; apply G; lia). ring.
  Qed.
  Lemma conv_one : alphaConv [n] 0 c al (arrOf n f) = arrOf n (fun y => rsum n (fun x => f x * Kstable n c al x y)).
  Proof.
    unfold alphaConv, onAxis. cbn [seq map Nat.eqb List.length alphaKernel createKernel timesAll bind transpose convolve].
    unfold arrOf at 2. rewrite map_tab. rewrite (seq_shift_map n n), map_map. unfold tab. apply map_ext_in. intros i Hi. apply in_seq in Hi.
    rewrite (map_ext _ (fun j => Fin ((if inRange n (Z.of_nat j - Z.of_nat n) then f (Z.to_nat (Z.of_nat j - Z.of_nat n)) else 0) *
      kAt1 (kernelLine n c al) (Z.of_nat (n + i) + Z.of_nat ((List.length (kernelLine n c al) - 1) / 2) - Z.of_nat j)))).
    2:{ intros j. replace (arrOf n f) with (arrOf (1 * n) f) by (f_equal; lia). rewrite padded_fin. cbn [inRange Z.leb Z.ltb andb Z.to_nat Nat.mul Nat.add]. reflexivity. }
    rewrite <- (map_map (fun j => _ * _) Fin), asum_fin. f_equal. rewrite Rsum_seq, line_length. rewrite center, middle_sum.
    - apply rsum_ext. intros j Hj. replace (Z.of_nat (n + j) - Z.of_nat n)%Z with (Z.of_nat j) by lia. unfold inRange.
      rewrite (proj2 (Z.leb_le _ _)), (proj2 (Z.ltb_lt _ _)) by lia. cbn [andb]. rewrite Nat2Z.id. f_equal. unfold Kstable.
      pose proof (half_ge n Hn). pose proof (half_pos n Hn).
      rewrite <- line_at by (auto; lia). f_equal. lia.
    - intros j Hj. unfold inRange. destruct (Z.leb_spec 0 (Z.of_nat j - Z.of_nat n)); [|cbn; ring]. destruct (Z.ltb_spec (Z.of_nat j - Z.of_nat n) (Z.of_nat n)); [lia|cbn; ring].
  Qed.
End One.

Lemma even_period n : Nat.even n = true -> (2 * halfPeriod n = 3 * n)%nat.
Proof. intros E. apply Nat.even_spec in E as [k ->]. unfold halfPeriod. replace (3 * (2 * k))%nat with (3 * k * 2)%nat by lia. rewrite Nat.div_mul; lia. Qed.
(** ** two parameters *)
Section Two.
  Variables (n1 n2 : nat) (c1 c2 al : R) (f : nat -> R).
  Hypothesis H1 : (0 < n1)%nat.
  Hypothesis H2 : (0 < n2)%nat.
  Hypothesis E1 : Nat.even n1 = true.
  Hypothesis E2 : Nat.even n2 = true.
  Hypothesis Ha : 0 < al.
  Lemma kernel_two : alphaKernel [n1; n2] [c1; c2] al =
    Ok (K2 (2 * halfPeriod n1) (2 * halfPeriod n2) (fun i j => Rnth (kernelLine n1 c1 al) i * Rnth (kernelLine n2 c2 al) j)).
  Proof.
    unfold alphaKernel. cbn [createKernel timesAll bind transpose timesKernel]. rewrite !line_length by auto. rewrite !even_period by auto. rewrite !Nat.eqb_refl. cbn [andb bind transpose]. reflexivity.
  Qed.
  Lemma kAt2_line y z : kAt2 (2 * halfPeriod n1) (2 * halfPeriod n2) (fun i j => Rnth (kernelLine n1 c1 al) i * Rnth (kernelLine n2 c2 al) j) y z =
    kAt1 (kernelLine n1 c1 al) y * kAt1 (kernelLine n2 c2 al) z.
  Proof.
    unfold kAt2, kAt1. rewrite !line_length by auto.
    destruct (Z.leb 0 y), (Z.ltb y (Z.of_nat (2 * halfPeriod n1))), (Z.leb 0 z), (Z.ltb z (Z.of_nat (2 * halfPeriod n2))); cbn [andb]; ring.
  Qed.
  Lemma conv_two : convolve [n1; n2] (K2 (2 * halfPeriod n1) (2 * halfPeriod n2) (fun i j => Rnth (kernelLine n1 c1 al) i * Rnth (kernelLine n2 c2 al) j)) (arrOf (n1 * n2) f) =
    arrOf (n1 * n2) (fun y => rsum (n1 * n2) (fun x => f x * (Kstable n1 c1 al (x / n2)%nat (y / n2)%nat * Kstable n2 c2 al (x mod n2)%nat (y mod n2)%nat))).
  Proof.
    cbn [convolve]. set (k0 := kernelLine n1 c1 al). set (k1 := kernelLine n2 c2 al).
    rewrite (seq_shift_map n1 n1), flat_map_concat_map, map_map, <- flat_map_concat_map.
    rewrite (flat_map_ext_in _ (fun i => map (fun j => Fin (rsum n1 (fun i' => rsum n2 (fun j' => f (i' * n2 + j')%nat *
       (stepStable n1 c1 al (Z.of_nat i - Z.of_nat i') * stepStable n2 c2 al (Z.of_nat j - Z.of_nat j')))))) (seq 0 n2))).
    - rewrite (flat_map_tab (fun i j => Fin (rsum n1 (fun i' => rsum n2 (fun j' => f (i' * n2 + j')%nat * (stepStable n1 c1 al (Z.of_nat i - Z.of_nat i') * stepStable n2 c2 al (Z.of_nat j - Z.of_nat j'))))))).
      unfold arrOf. rewrite map_tab. apply tab_ext. intros y Hy. f_equal. rewrite rsum_mult. apply rsum_ext. intros i' Hi. apply rsum_ext. intros j' Hj.
      rewrite Nat.div_add_l, (Nat.div_small j') by lia. rewrite Nat.add_0_r. replace ((i' * n2 + j') mod n2)%nat with j' by (rewrite Nat.add_comm, Nat.mod_add, Nat.mod_small; lia). reflexivity.
    - intros i Hi. apply in_seq in Hi. rewrite (seq_shift_map n2 n2), map_map. apply map_ext_in. intros j Hj. apply in_seq in Hj.
      rewrite !center by auto.
      set (X := fun i' j' => (if inRange n1 (Z.of_nat i' - Z.of_nat n1) then if inRange n2 (Z.of_nat j' - Z.of_nat n2)
         then f (Z.to_nat (Z.of_nat i' - Z.of_nat n1) * n2 + Z.to_nat (Z.of_nat j' - Z.of_nat n2))%nat else 0 else 0) *
         (kAt1 k0 (Z.of_nat (n1 + i) + Z.of_nat (halfPeriod n1 - 1) - Z.of_nat i') * kAt1 k1 (Z.of_nat (n2 + j) + Z.of_nat (halfPeriod n2 - 1) - Z.of_nat j'))).
      rewrite (flat_map_ext _ (fun i' => map Fin (map (X i') (seq 0 (3 * n2))))).
      2:{ intros i'. rewrite map_map. apply map_ext. intros j'. rewrite padded_fin. unfold k0, k1. rewrite kAt2_line. reflexivity. }
      rewrite flat_map_concat_map, <- (map_map (fun i' => map (X i') (seq 0 (3 * n2))) (map Fin)), <- concat_map, <- flat_map_concat_map, asum_fin, Rsum_flat_map.
      f_equal. rewrite Rsum_seq. rewrite (rsum_ext (3 * n1) _ (fun i' => rsum (3 * n2) (X i'))) by (intros; apply Rsum_seq).
      assert (Z0 : forall n z, (z < n)%nat \/ (2 * n <= z < 3 * n)%nat -> inRange n (Z.of_nat z - Z.of_nat n) = false).
      { intros n z Hz. unfold inRange. destruct (Z.leb_spec 0 (Z.of_nat z - Z.of_nat n)); [|reflexivity]. destruct (Z.ltb_spec (Z.of_nat z - Z.of_nat n) (Z.of_nat n)); [lia|reflexivity]. }
      assert (Z1 : forall n z, (z < n)%nat -> inRange n (Z.of_nat (n + z) - Z.of_nat n) = true).
      { intros n z Hz. unfold inRange. rewrite (proj2 (Z.leb_le _ _)), (proj2 (Z.ltb_lt _ _)) by lia. reflexivity. }
      rewrite (middle_sum n1 H1).
      2:{ intros i' Hi'. apply rsum_0. intros j' _. unfold X. rewrite Z0 by auto. ring. }
      apply rsum_ext. intros i' Hi'. rewrite (middle_sum n2 H2).
      2:{ intros j' Hj'. unfold X. rewrite (Z0 n2 j') by auto. destruct (inRange _ _); ring. }
      apply rsum_ext. intros j' Hj'. unfold X. rewrite !Z1 by auto. pose proof (half_ge n1 H1). pose proof (half_pos n1 H1). pose proof (half_ge n2 H2). pose proof (half_pos n2 H2).
      f_equal; [f_equal; lia|]. unfold k0, k1. rewrite <- !line_at by (auto; lia). f_equal; f_equal; lia.
  Qed.
End Two.
(** the walk moves along the selected axis only *)
Lemma conv_axis n1 n2 ax c al f : (0 < n1)%nat -> (0 < n2)%nat -> Nat.even n1 = true -> Nat.even n2 = true -> 0 < al -> (ax < 2)%nat ->
  alphaConv [n1; n2] ax c al (arrOf (n1 * n2) f) =
  arrOf (n1 * n2) (fun y => match ax with
    | 0%nat => rsum n1 (fun i => f (i * n2 + y mod n2)%nat * Kstable n1 c al i (y / n2)%nat)
    | _ => rsum n2 (fun j => f (y / n2 * n2 + j)%nat * Kstable n2 c al j (y mod n2)%nat)
    end).
Proof.
  intros H1 H2 E1 E2 Ha Hx. unfold alphaConv, onAxis. cbn [List.length seq map].
  assert (D : forall n al x y, (0 < n)%nat -> (x < n)%nat -> (y < n)%nat -> Kstable n 0 al x y = if Nat.eqb x y then 1 else 0).
  { intros n a x y Hn Hx' Hy. unfold Kstable. pose proof (half_ge n Hn). rewrite step_noscale by (auto; lia). destruct (Z.eqb_spec (Z.of_nat y - Z.of_nat x) 0), (Nat.eqb_spec x y); auto; lia. }
  destruct ax as [|[|ax]]; [| |lia]; cbn [Nat.eqb]; rewrite kernel_two, conv_two by auto; apply (f_equal (map Fin)); apply tab_ext; intros y Hy;
    assert (Y1 : (y / n2 < n1)%nat) by (apply Nat.div_lt_upper_bound; lia); assert (Y2 : (y mod n2 < n2)%nat) by (apply Nat.mod_upper_bound; lia);
    rewrite rsum_mult.
  - apply rsum_ext. intros i Hi. rewrite (rsum_ext n2 _ (fun j => if Nat.eqb j (y mod n2) then (fun j => f (i * n2 + j)%nat * Kstable n1 c al i (y / n2)%nat) j else 0)).
    + now rewrite rsum_delta.
    + intros j Hj. rewrite Nat.div_add_l, (Nat.div_small j), Nat.add_0_r by lia. replace ((i * n2 + j) mod n2)%nat with j by (rewrite Nat.add_comm, Nat.mod_add, Nat.mod_small; lia).
      rewrite (D n2) by auto. destruct (Nat.eqb j (y mod n2)); ring.
  - rewrite (rsum_ext n1 _ (fun i => if Nat.eqb i (y / n2) then (fun i => rsum n2 (fun j => f (i * n2 + j)%nat * Kstable n2 c al j (y mod n2)%nat)) i else 0)).
    + now rewrite rsum_delta.
    + intros i Hi. destruct (Nat.eqb_spec i (y / n2)) as [E|N].
      * apply rsum_ext. intros j Hj. rewrite Nat.div_add_l, (Nat.div_small j), Nat.add_0_r by lia. replace ((i * n2 + j) mod n2)%nat with j by (rewrite Nat.add_comm, Nat.mod_add, Nat.mod_small; lia).
        rewrite (D n1) by auto. rewrite (proj2 (Nat.eqb_eq _ _)) by auto. ring.
      * apply rsum_0. intros j Hj. rewrite Nat.div_add_l, (Nat.div_small j), Nat.add_0_r by lia. rewrite (D n1) by auto. rewrite (proj2 (Nat.eqb_neq _ _)) by auto. ring.
Qed.

(** ** which kernels can be made *)
Lemma odd_period n : Nat.eqb (2 * halfPeriod n) (3 * n) = Nat.even n.
Proof.
  destruct (Nat.even n) eqn:E.
  - apply Nat.eqb_eq. now apply even_period.
  - apply Nat.eqb_neq. intros P. assert (Q : Nat.even (3 * n) = true) by (rewrite <- P; now rewrite Nat.even_mul). rewrite Nat.even_mul, E in Q. discriminate.
Qed.
Lemma kernel_made gs cs al : List.length cs = List.length gs -> gs <> [] ->
  if Nat.ltb 2 (List.length gs) then alphaKernel gs cs al = Err ConfigurationError
  else if Nat.eqb (List.length gs) 2 && negb (forallb Nat.even gs) then alphaKernel gs cs al = Err ValueError
  else exists k, alphaKernel gs cs al = Ok k.
Proof.
  intros L N. destruct gs as [|g0 [|g1 [|g2 gs]]]; [congruence| | |].
  - destruct cs as [|c [|? ?]]; try discriminate. cbn. eauto.
  - destruct cs as [|c [|c' [|? ?]]]; try discriminate. cbn [List.length Nat.ltb Nat.leb Nat.eqb andb forallb].
    unfold alphaKernel. cbn [createKernel timesAll bind transpose timesKernel]. rewrite !line_length.
    rewrite (Nat.eqb_sym (3 * g1)), !odd_period, andb_true_r. destruct (Nat.even g1), (Nat.even g0); cbn; eauto.
  - destruct cs as [|c cs]; [discriminate|]. reflexivity.
Qed.
