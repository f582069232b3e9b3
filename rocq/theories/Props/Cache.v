(** Convolution kernels: C47 (cached kernels) and C52 (the bivariate random walk). *)
From Coq Require Import List ZArith Reals Lra Lia Arith Bool String.
From Verif Require Import Base.Num Base.Exn Base.Arr Base.RSum Base.Lift Model.Helper Model.Tm Model.Bivariate Model.Cache Model.AlphaStable
  Spec.Kernel Spec.Config Spec.CacheSpec Spec.BivSpec Proof.Gauss Proof.CacheProof Proof.BivProof Proof.AlphaProof.
Import ListNotations.
Local Open Scope string_scope.
Local Open Scope R_scope.

(** * C52 *)
Section C52.
  Variables (n1 n2 : nat).
  Notation N := (n1 * n2)%nat.

  Lemma normalise_arr f : 0 < rsum N f -> normalise (arrOf N f) = arrOf N (normalised N f).
  Proof.
    intros P. unfold normalise, arrOf. rewrite asum_fin, Rsum_tab, adivs_fin by lra. f_equal. unfold rdivs. rewrite map_tab. reflexivity.
  Qed.
  (** largest step stays on the grid from x *)
  Definition interior (s1 s2 : R) (x : nat) : Prop :=
    (bivReach s1 <= x / n2 /\ x / n2 + bivReach s1 < n1 /\ bivReach s2 <= x mod n2 /\ x mod n2 + bivReach s2 < n2)%nat.

  Lemma Kbiv_row s1 s2 rho x : interior s1 s2 x -> rsum N (Kbiv n2 s1 s2 rho x) = 1.
  Proof.
    intros (A & B & C & D). rewrite rsum_mult. unfold Kbiv.
    transitivity (rsum n1 (fun i => if within (bivReach s1) (Z.of_nat (x / n2) - Z.of_nat i) then
        (fun k i' => rsum n2 (fun j => if within (bivReach s2) (Z.of_nat (x mod n2) - Z.of_nat j) then
            (fun l j' => bivDensity s1 s2 rho (- k) (- l) / bivSum s1 s2 rho) (Z.of_nat (x mod n2) - Z.of_nat j)%Z j else 0)) (Z.of_nat (x / n2) - Z.of_nat i)%Z i else 0)).
    { apply rsum_ext. intros i Hi. unfold within.
      destruct (Z.leb_spec (Z.abs (Z.of_nat (x / n2) - Z.of_nat i)) (Z.of_nat (bivReach s1))).
      - apply rsum_ext. intros j Hj. rewrite Nat.div_add_l, (Nat.div_small j), Nat.add_0_r by lia.
        replace ((i * n2 + j) mod n2)%nat with j by (rewrite Nat.add_comm, Nat.mod_add, Nat.mod_small; lia).
        unfold bivProb, within. rewrite (proj2 (Z.leb_le (Z.abs (Z.of_nat i - Z.of_nat (x / n2))) _)) by lia. cbn [andb].
        replace (Z.abs (Z.of_nat (x mod n2) - Z.of_nat j)) with (Z.abs (Z.of_nat j - Z.of_nat (x mod n2))) by lia.
        destruct (Z.leb _ _); auto. do 2 f_equal; lia.
      - apply rsum_0. intros j Hj. rewrite Nat.div_add_l, (Nat.div_small j), Nat.add_0_r by lia.
        unfold bivProb, within. rewrite (proj2 (Z.leb_gt (Z.abs (Z.of_nat i - Z.of_nat (x / n2))) _)) by lia. reflexivity. }
    rewrite <- (zsum_rsum_shift (bivReach s1) n1 (Z.of_nat (x / n2)) (fun k i' => rsum n2 (fun j => if within (bivReach s2) (Z.of_nat (x mod n2) - Z.of_nat j) then
            (fun l j' => bivDensity s1 s2 rho (- k) (- l) / bivSum s1 s2 rho) (Z.of_nat (x mod n2) - Z.of_nat j)%Z j else 0))).
    transitivity (zsum (bivReach s1) (fun k => zsum (bivReach s2) (fun l => bivDensity s1 s2 rho (- k) (- l) / bivSum s1 s2 rho))).
    { unfold zsum at 1 2. apply Rsum_map_ext. intros k Hk. apply steps_In in Hk. unfold within in Hk. apply Z.leb_le in Hk.
      unfold inRange. rewrite (proj2 (Z.leb_le _ _)), (proj2 (Z.ltb_lt _ _)) by lia. cbn [andb].
      rewrite <- (zsum_rsum_shift (bivReach s2) n2 (Z.of_nat (x mod n2)) (fun l j' => bivDensity s1 s2 rho (- k) (- l) / bivSum s1 s2 rho)).
      unfold zsum. apply Rsum_map_ext. intros l Hl. apply steps_In in Hl. unfold within in Hl. apply Z.leb_le in Hl.
      unfold inRange. rewrite (proj2 (Z.leb_le _ _)), (proj2 (Z.ltb_lt _ _)) by lia. reflexivity. }
    rewrite (zsum_opp _ (fun k => zsum (bivReach s2) (fun l => bivDensity s1 s2 rho k (- l) / bivSum s1 s2 rho))).
    erewrite zsum_ext; [|intros k; exact (zsum_opp _ (fun l => bivDensity s1 s2 rho k l / bivSum s1 s2 rho))].
    pose proof (bivSum_pos s1 s2 rho) as P.
    transitivity (zsum (bivReach s1) (fun k => zsum (bivReach s2) (bivDensity s1 s2 rho k)) * / bivSum s1 s2 rho).
    { rewrite <- zsum_scal_r. apply zsum_ext. intros k. rewrite <- zsum_scal_r. reflexivity. }
    change (bivSum s1 s2 rho * / bivSum s1 s2 rho = 1). field. lra.
  Qed.
End C52.

(** One step of a bivariate random walk: the new distribution is the old one moved by the step probabilities; what
    leaves the grid is dropped and the rest is normalised. The result is a probability distribution. *)
Theorem C52_walk : forall (e : env R) n1 n2 l1 l2 s1 s2 rho f off t1 t t',
  e_shape e = [n1; n2] -> e_tmlat e = [l1; l2] -> 0 < l1 -> 0 < l2 -> 0 < s1 -> 0 < s2 -> -1 < rho < 1 ->
  (forall s1 s2 rho p, e_bconv e s1 s2 rho p = bivConv (e_shape e) s1 s2 rho p) ->
  (forall x, (x < n1 * n2)%nat -> 0 <= f x) -> (exists x, (x < n1 * n2)%nat /\ 0 < f x) ->
  let moved y := rsum (n1 * n2) (fun x => f x * Kbiv n2 (s1 / l1) (s2 / l2) rho x y) in
  exists f',
    leafStep e KBiv [HNum s1; HNum s2; HNum rho] off (arrOf (n1 * n2) f) t1 t t' = Ok (arrOf (n1 * n2) f') /\
    (forall y, (y < n1 * n2)%nat -> f' y = moved y / rsum (n1 * n2) moved /\ 0 <= f' y) /\
    rsum (n1 * n2) f' = 1.
Proof.
  intros e n1 n2 l1 l2 s1 s2 rho f off t1 t t' Sh Lat L1 L2 S1 S2 Rh Cv Pos (x0 & Hx0 & Px0) moved.
  assert (Q1 : 0 < s1 / l1) by (apply Rdiv_lt_0_compat; auto). assert (Q2 : 0 < s2 / l2) by (apply Rdiv_lt_0_compat; auto).
  assert (Mn : forall y, (y < n1 * n2)%nat -> 0 <= moved y).
  { intros y Hy. apply rsum_nonneg. intros x Hx. apply Rmult_le_pos; [auto|apply bivProb_nonneg]. }
  assert (Mp : 0 < rsum (n1 * n2) moved).
  { apply Rlt_le_trans with (moved x0).
    - apply Rlt_le_trans with (f x0 * Kbiv n2 (s1 / l1) (s2 / l2) rho x0 x0).
      + apply Rmult_lt_0_compat; auto. unfold Kbiv, bivProb, within. rewrite !Z.sub_diag. cbn [Z.abs].
        rewrite !(proj2 (Z.leb_le _ _)) by lia. cbn [andb]. apply Rdiv_lt_0_compat; [apply bivDensity_pos|apply bivSum_pos].
      + apply (rsum_ge_term (n1 * n2) (fun x => f x * Kbiv n2 (s1 / l1) (s2 / l2) rho x x0)); auto.
        intros x Hx. apply Rmult_le_pos; [auto|apply bivProb_nonneg].
    - apply rsum_ge_term; auto. }
  exists (normalised (n1 * n2) moved). split; [|split].
  - unfold leafStep, index. rewrite Lat. cbn [nth_error scalarOf bind]. rewrite Sh. cbn [List.length Nat.eqb]. rewrite Cv, Sh.
    cbn [fdiv NumR]. rewrite bivConv_R by lra. fold moved. rewrite normalise_arr; auto.
  - intros y Hy. split; [reflexivity|]. unfold normalised. apply Rmult_le_pos; [auto|]. left. apply Rinv_0_lt_compat; auto.
  - unfold normalised, Rdiv. rewrite rsum_scal_r. field. lra.
Qed.

(** If no probability can leave the grid, nothing needs to be normalised: the step is the Markov chain with the transition
    probabilities [Kbiv]. *)
Theorem C52_interior : forall (e : env R) n1 n2 l1 l2 s1 s2 rho f off t1 t t',
  e_shape e = [n1; n2] -> e_tmlat e = [l1; l2] -> 0 < l1 -> 0 < l2 -> 0 < s1 -> 0 < s2 -> -1 < rho < 1 ->
  (forall s1 s2 rho p, e_bconv e s1 s2 rho p = bivConv (e_shape e) s1 s2 rho p) ->
  (forall x, (x < n1 * n2)%nat -> 0 <= f x) -> rsum (n1 * n2) f = 1 ->
  (forall x, (x < n1 * n2)%nat -> 0 < f x -> interior n1 n2 (s1 / l1) (s2 / l2) x) ->
  leafStep e KBiv [HNum s1; HNum s2; HNum rho] off (arrOf (n1 * n2) f) t1 t t' =
  Ok (arrOf (n1 * n2) (fun y => rsum (n1 * n2) (fun x => f x * Kbiv n2 (s1 / l1) (s2 / l2) rho x y))).
Proof.
  intros e n1 n2 l1 l2 s1 s2 rho f off t1 t t' Sh Lat L1 L2 S1 S2 Rh Cv Pos One Int.
  assert (Ex : exists x, (x < n1 * n2)%nat /\ 0 < f x).
  { destruct (Classical_Prop.classic (exists x, (x < n1 * n2)%nat /\ 0 < f x)) as [|Nx]; auto. exfalso.
    rewrite (rsum_0 (n1 * n2) f) in One; [lra|]. intros x Hx. destruct (Rle_lt_or_eq_dec 0 (f x) (Pos x Hx)); auto.
    exfalso. apply Nx. eauto. }
  destruct (C52_walk e n1 n2 l1 l2 s1 s2 rho f off t1 t t' Sh Lat L1 L2 S1 S2 Rh Cv Pos Ex) as (f' & E & V & _).
  rewrite E. unfold arrOf. do 2 f_equal. apply tab_ext. intros y Hy. rewrite (proj1 (V y Hy)).
  assert (T : rsum (n1 * n2) (fun y => rsum (n1 * n2) (fun x => f x * Kbiv n2 (s1 / l1) (s2 / l2) rho x y)) = 1).
  { rewrite rsum_swap. rewrite <- One. apply rsum_ext. intros x Hx. rewrite rsum_scal.
    destruct (Rle_lt_or_eq_dec 0 (f x) (Pos x Hx)) as [P|P]; [|rewrite <- P; ring].
    rewrite Kbiv_row; [ring|auto]. }
  rewrite T. field.
Qed.

(** The probabilities are symmetric; without correlation the two parameters move independently. *)
Definition stepProb (s : R) (k : Z) : R :=
  if within (bivReach s) k then exp (- (IZR k / s) ^ 2 / 2) / Rsum (map (fun k => exp (- (IZR k / s) ^ 2 / 2)) (steps (bivReach s))) else 0.
Theorem C52_symmetric : forall n2 s1 s2 rho x y, Kbiv n2 s1 s2 rho x y = Kbiv n2 s1 s2 rho y x.
Proof.
  intros. unfold Kbiv. set (a := Z.of_nat (y / n2)). set (b := Z.of_nat (x / n2)). set (c := Z.of_nat (y mod n2)). set (d := Z.of_nat (x mod n2)).
  unfold bivProb, within. replace (Z.abs (b - a)) with (Z.abs (a - b)) by lia. replace (Z.abs (d - c)) with (Z.abs (c - d)) by lia.
  destruct (_ && _); auto. unfold bivDensity. do 2 f_equal. unfold Rdiv. f_equal. f_equal. rewrite !minus_IZR. ring.
Qed.
Theorem C52_independent : forall s1 s2 k l, bivProb s1 s2 0 k l = stepProb s1 k * stepProb s2 l.
Proof.
  intros. unfold bivProb, stepProb. destruct (within (bivReach s1) k); destruct (within (bivReach s2) l); cbn [andb]; try ring.
  assert (D : forall k l, bivDensity s1 s2 0 k l = exp (- (IZR k / s1) ^ 2 / 2) * exp (- (IZR l / s2) ^ 2 / 2)).
  { intros a b. unfold bivDensity. rewrite <- exp_plus. f_equal. replace (2 * (1 - 0 ^ 2)) with 2 by ring. unfold Rdiv. ring. }
  assert (E : bivSum s1 s2 0 = Rsum (map (fun k => exp (- (IZR k / s1) ^ 2 / 2)) (steps (bivReach s1))) * Rsum (map (fun k => exp (- (IZR k / s2) ^ 2 / 2)) (steps (bivReach s2)))).
  { unfold bivSum. rewrite <- Rsum_scal_r, map_map. apply Rsum_map_ext. intros a _. rewrite <- Rsum_map_scal. apply Rsum_map_ext. intros b _. apply D. }
  rewrite E, D.
  assert (forall s, 0 < Rsum (map (fun k => exp (- (IZR k / s) ^ 2 / 2)) (steps (bivReach s)))) as P by (intros; apply Rsum_steps_pos; intros; apply exp_pos).
  pose proof (P s1). pose proof (P s2). field. lra.
Qed.

(** * C47 *)
(** While the grid stays the same, keeping the kernel is invisible: every step gives what it would give with a kernel
    made for this step (which is what [leafStep] of Model/Tm.v does). *)
Theorem C47_alpha : forall target (e : env R) vals evs off t1 t t',
  sameGrid evs -> List.length (e_tmlat e) = List.length (e_shape e) -> e_shape e <> [] ->
  (forall ax c al p, e_aconv e ax c al p = alphaConv (e_shape e) ax c al p) ->
  history (fun e => alphaBuild alphaKernel e target) (alphaUse convolve) e (newWalk vals) evs =
  uncached (fun e vals p => leafStep e (KAlpha target) (map HNum vals) off p t1 t t') e vals evs.
Proof.
  intros target e vals evs off t1 t t' G Ln Ne Cv. rewrite history_same; auto; [|cbn; congruence]. cbn [w_vals newWalk].
  revert vals G. induction evs as [|ev evs IH]; intros vals G; [reflexivity|].
  assert (G' : sameGrid evs) by (intros e' Hi; apply (G e'); right; auto).
  destruct ev as [v|e'|p]; cbn [uncached]; auto; [exfalso; apply (G e'); left; auto|]. rewrite IH by auto. f_equal.
  unfold staleStep, alphaBuild, alphaUse, leafStep, index. destruct vals as [|c [|al rest]]; cbn [nth_error map scalarOf bind]; auto.
  destruct (nameIndex (e_names e) target) as [ax|]; cbn [bind]; auto. destruct (nth_error (e_tmlat e) ax) as [lc|]; cbn [bind]; auto.
  rewrite Cv. unfold alphaConv. rewrite Ln. pose proof (kernel_made (e_shape e) (onAxis (List.length (e_shape e)) ax (fdiv c lc)) al) as M.
  unfold onAxis in M at 1. rewrite map_length, seq_length in M. specialize (M eq_refl Ne).
  destruct (Nat.ltb 2 _); [now rewrite M|]. destruct (_ && _); [now rewrite M|]. destruct M as [k ->]. reflexivity.
Qed.
Theorem C47_bivariate : forall (K : Type) (mk : R -> R -> R -> K) conv (e : env R) vals evs off t1 t t',
  sameGrid evs -> List.length (e_tmlat e) = 2%nat ->
  (forall s1 s2 rho p, e_bconv e s1 s2 rho p = conv (e_shape e) (mk s1 s2 rho) p) ->
  history (bivBuild mk) (bivUse conv) e (newWalk vals) evs =
  uncached (fun e vals p => leafStep e KBiv (map HNum vals) off p t1 t t') e vals evs.
Proof.
  intros K mk conv e vals evs off t1 t t' G Ln Cv. rewrite history_same; auto; [|cbn; congruence]. cbn [w_vals newWalk].
  revert vals G. induction evs as [|ev evs IH]; intros vals G; [reflexivity|].
  assert (G' : sameGrid evs) by (intros e' Hi; apply (G e'); right; auto).
  destruct ev as [v|e'|p]; cbn [uncached]; auto; [exfalso; apply (G e'); left; auto|]. rewrite IH by auto. f_equal.
  unfold staleStep, bivBuild, bivUse, leafStep, index. destruct vals as [|s1 [|s2 [|rho rest]]]; cbn [nth_error map scalarOf bind]; auto.
  destruct (e_tmlat e) as [|l1 [|l2 [|]]]; cbn in Ln; try discriminate. cbn [nth_error].
  cbn [bind]. destruct (Nat.eqb _ 2); auto. now rewrite Cv.
Qed.

(** In general (the grid may change, as long as the kernel can be made on every grid that is used): a step on the current
    grid uses the kernel for the grid on which the first of the uninterrupted sequence of steps with the present
    hyper-parameters was made. *)
Theorem C47_kernel : forall (K : Type) (build : env R -> list R -> res K) use (e : env R) vals evs,
  allBuild build e vals evs ->
  history build use e (newWalk vals) evs =
  withStale (fun e0 vals e p => match build e0 vals with Ok k => use e k p | Err x => Err x end) e vals [] evs.
Proof. intros K build use e vals evs B. now rewrite (history_stale build use evs e (newWalk vals) []). Qed.

(** an environment with the bivariate kernel *)
Definition bivMk (s1 s2 rho : R) : nat * nat * (Z -> Z -> R) := (bivRadius s1, bivRadius s2, bivKernel s1 s2 rho).
Definition bivCv (shape : list nat) (k : nat * nat * (Z -> Z -> R)) (p : rarr) : rarr :=
  match shape with [n1; n2] => convolve2d n1 n2 (fst (fst k)) (snd (fst k)) (snd k) p | _ => p end.
Definition bivEnv (n1 n2 : nat) (l1 l2 : R) : env R :=
  {| e_shape := [n1; n2]; e_lat := [l1; l2]; e_tmlat := [l1; l2]; e_names := ["a"; "b"]; e_grid := []; e_prior := PNone;
     e_shift := fun _ _ p => p; e_aconv := fun _ _ _ p => p; e_bconv := bivConv [n1; n2] |}.
Lemma bivCv_conv n1 n2 l1 l2 s1 s2 rho p :
  e_bconv (bivEnv n1 n2 l1 l2) s1 s2 rho p = bivCv (e_shape (bivEnv n1 n2 l1 l2)) (bivMk s1 s2 rho) p.
Proof. reflexivity. Qed.

Lemma ceilZ_IZR z : ceilZ (IZR z) = z.
Proof. unfold ceilZ. rewrite (Int_part_spec _ (- z)); [lia| |]; rewrite opp_IZR; lra. Qed.

Definition corner (x : nat) : R := if Nat.eqb x 0 then 1 else 0.
Lemma corner_sum n (h : nat -> R) : (0 < n)%nat -> rsum n (fun x => corner x * h x) = h 0%nat.
Proof.
  intros P. rewrite <- (rsum_delta n 0 h) by auto. apply rsum_ext. intros x _. unfold corner. destruct (Nat.eqb x 0); ring.
Qed.

(** a step on a 5 x 2 grid from its corner *)
Lemma corner_step l s (k := IZR s) : 0 < l -> (0 < s)%Z -> forall (e := bivEnv 5 2 l l),
  exists f', bivUse bivCv e (bivMk k k 0) (arrOf 10 corner) = Ok (arrOf 10 f') /\
    ((s <= 1)%Z -> f' 8%nat = 0) /\ ((2 <= s)%Z -> 0 < f' 8%nat).
Proof.
  intros Pl Ps e. assert (Pk : 0 < k) by (apply IZR_lt; auto).
  assert (B : bivCv (e_shape e) (bivMk k k 0) (arrOf 10 corner) = arrOf 10 (fun y => Kbiv 2 k k 0 0%nat y)).
  { transitivity (bivConv [5; 2]%nat k k 0 (arrOf (5 * 2) corner)); [reflexivity|]. rewrite bivConv_R by lra. unfold arrOf. f_equal. apply tab_ext.
    intros y _. apply (corner_sum 10 (fun x => Kbiv 2 k k 0 x y)). lia. }
  assert (K0 : 0 < Kbiv 2 k k 0 0%nat 0%nat).
  { unfold Kbiv, bivProb, within. cbn [Nat.div Nat.modulo Nat.divmod fst snd Z.of_nat Z.sub Z.opp Z.add Z.abs].
    rewrite !(proj2 (Z.leb_le _ _)) by lia. cbn [andb]. apply Rdiv_lt_0_compat; [apply bivDensity_pos|apply bivSum_pos]. }
  assert (T : 0 < rsum 10 (fun y => Kbiv 2 k k 0 0%nat y)).
  { eapply Rlt_le_trans; [exact K0|]. apply (rsum_ge_term 10 (fun y => Kbiv 2 k k 0 0%nat y) 0); [lia|]. intros. apply bivProb_nonneg. }
  exists (normalised 10 (fun y => Kbiv 2 k k 0 0%nat y)). split; [|split].
  - unfold bivUse. cbn [e_shape e bivEnv List.length Nat.eqb]. change [5%nat; 2%nat] with (e_shape e). rewrite B.
    change 10%nat with (5 * 2)%nat. rewrite normalise_arr; auto.
  - intros Le. unfold normalised. replace (Kbiv 2 k k 0 0%nat 8%nat) with 0; [unfold Rdiv; ring|].
    unfold Kbiv, bivProb, within. unfold bivReach, k. rewrite ceilZ_IZR. change (Z.abs (Z.of_nat (8 / 2) - Z.of_nat (0 / 2))) with 4%Z. change (Z.abs (Z.of_nat (8 mod 2) - Z.of_nat (0 mod 2))) with 0%Z. rewrite (proj2 (Z.leb_gt _ _)); [reflexivity|]. lia.
  - intros Ge. unfold normalised. apply Rdiv_lt_0_compat; auto.
    unfold Kbiv, bivProb, within. unfold bivReach, k. rewrite ceilZ_IZR. change (Z.abs (Z.of_nat (8 / 2) - Z.of_nat (0 / 2))) with 4%Z. change (Z.abs (Z.of_nat (8 mod 2) - Z.of_nat (0 mod 2))) with 0%Z. rewrite !(proj2 (Z.leb_le _ _)) by lia. cbn [andb].
    apply Rdiv_lt_0_compat; [apply bivDensity_pos|apply bivSum_pos].
Qed.

(** Finding: after the grid has been refined, the steps are still made with the kernel for the old grid. *)
Theorem C47_grid_refuted : exists (e e' : env R) vals p r1 r2 r2',
  history (bivBuild bivMk) (bivUse bivCv) e (newWalk vals) [MakeStep p; SetGrid e'; MakeStep p] = [Ok r1; Ok r2] /\
  uncached (fun e vals p => leafStep e KBiv (map HNum vals) 0 p 0 0 0) e vals [MakeStep p; SetGrid e'; MakeStep p] = [Ok r1; Ok r2'] /\
  r2 <> r2'.
Proof.
  set (e := bivEnv 5 2 1 1). set (e' := bivEnv 5 2 (/ 2) (/ 2)).
  destruct (corner_step 1 1 ltac:(lra) ltac:(lia)) as (f1 & E1 & A1 & _).
  destruct (corner_step (/ 2) 1 ltac:(lra) ltac:(lia)) as (f2 & E2 & A2 & _).
  destruct (corner_step (/ 2) 2 ltac:(lra) ltac:(lia)) as (f3 & E3 & _ & A3).
  exists e, e', [1; 1; 0], (arrOf 10 corner), (arrOf 10 f1), (arrOf 10 f2), (arrOf 10 f3).
  assert (B : forall l, bivBuild bivMk (bivEnv 5 2 l l) [1; 1; 0] = Ok (bivMk (1 / l) (1 / l) 0)) by reflexivity.
  split; [|split].
  - rewrite C47_kernel.
    + cbn [withStale kernelGrid]. unfold e, e'. destruct (list_eq_dec Req_EM_T [1; 1; 0] [1; 1; 0]) as [_|X]; [|congruence].
      rewrite !B. replace (1 / 1) with 1 by field. rewrite E1, E2. reflexivity.
    + cbn [allBuild]. unfold e, e'. rewrite !B. eauto.
  - cbn [uncached map].
    assert (Lf : forall l q, l <> 0 -> leafStep (bivEnv 5 2 l l) KBiv [HNum 1; HNum 1; HNum 0] 0 q 0 0 0 = bivUse bivCv (bivEnv 5 2 l l) (bivMk (1 / l) (1 / l) 0) q) by reflexivity.
    unfold e, e'. rewrite !Lf by lra. replace (1 / 1) with 1 by field. replace (1 / / 2) with 2 by field. rewrite E1, E3. reflexivity.
  - intros Eq. assert (X : nth 8 (arrOf 10 f2) NaN = nth 8 (arrOf 10 f3) NaN) by (rewrite Eq; reflexivity).
    unfold arrOf in X. rewrite !map_tab, !tab_nth in X by lia. inversion X. pose proof (A2 ltac:(lia)). pose proof (A3 ltac:(lia)). lra.
Qed.

(** The hypotheses can be met: change the hyper-parameters between steps, and back, on a 5 x 2 grid. *)
Example C47_ex : exists (e : env R) evs, sameGrid evs /\ List.length (e_tmlat e) = 2%nat /\
  (forall s1 s2 rho p, e_bconv e s1 s2 rho p = bivCv (e_shape e) (bivMk s1 s2 rho) p) /\
  exists r1 r2, history (bivBuild bivMk) (bivUse bivCv) e (newWalk [1; 1; 0]) evs = [Ok r1; Ok r1; Ok r2; Ok r1] /\ r1 <> r2.
Proof.
  set (e := bivEnv 5 2 1 1).
  destruct (corner_step 1 1 ltac:(lra) ltac:(lia)) as (f1 & E1 & A1 & _).
  destruct (corner_step 1 2 ltac:(lra) ltac:(lia)) as (f2 & E2 & _ & A2).
  set (p := arrOf 10 corner).
  exists e, [MakeStep p; MakeStep p; SetVals [2; 2; 0]; MakeStep p; SetVals [1; 1; 0]; MakeStep p].
  assert (G : sameGrid [MakeStep p; MakeStep p; SetVals [2; 2; 0]; MakeStep p; SetVals [1; 1; 0]; MakeStep p]).
  { intros x Hx. cbn in Hx. repeat destruct Hx as [Hx|Hx]; try discriminate Hx. exact Hx. }
  split; [exact G|]. split; [reflexivity|]. split; [reflexivity|].
  exists (arrOf 10 f1), (arrOf 10 f2). split.
  - rewrite (C47_bivariate _ bivMk bivCv e [1; 1; 0] _ 0 0 0 0 G eq_refl (bivCv_conv 5 2 1 1)). cbn [uncached map].
    assert (Lf : forall s q, leafStep e KBiv [HNum s; HNum s; HNum 0] 0 q 0 0 0 = bivUse bivCv e (bivMk (s / 1) (s / 1) 0) q) by reflexivity.
    rewrite !Lf. replace (1 / 1) with 1 by field. replace (2 / 1) with 2 by field. unfold p, e. rewrite E1, E2. reflexivity.
  - intros Eq. assert (X : nth 8 (arrOf 10 f1) NaN = nth 8 (arrOf 10 f2) NaN) by (rewrite Eq; reflexivity).
    unfold arrOf in X. rewrite !map_tab, !tab_nth in X by lia. inversion X. pose proof (A1 ltac:(lia)). pose proof (A2 ltac:(lia)). lra.
Qed.
Example C52_ex : exists (e : env R) f, e_shape e = [5; 2]%nat /\ e_tmlat e = [1; 1] /\
  (forall s1 s2 rho p, e_bconv e s1 s2 rho p = bivConv (e_shape e) s1 s2 rho p) /\
  (forall x, (x < 5 * 2)%nat -> 0 <= f x) /\ (exists x, (x < 5 * 2)%nat /\ 0 < f x).
Proof.
  exists (bivEnv 5 2 1 1), corner. repeat split; auto.
  - intros x _. unfold corner. destruct (Nat.eqb x 0); lra.
  - exists 0%nat. split; [lia|]. unfold corner. cbn. lra.
Qed.
(** a 7 x 7 grid and all probability in its centre *)
Example C52_interior_ex : exists (e : env R) f, e_shape e = [7; 7]%nat /\ e_tmlat e = [1; 1] /\
  (forall s1 s2 rho p, e_bconv e s1 s2 rho p = bivConv (e_shape e) s1 s2 rho p) /\
  (forall x, (x < 7 * 7)%nat -> 0 <= f x) /\ rsum (7 * 7) f = 1 /\ (forall x, (x < 7 * 7)%nat -> 0 < f x -> interior 7 7 (1 / 1) (1 / 1) x).
Proof.
  exists (bivEnv 7 7 1 1), (fun x => if Nat.eqb x 24 then 1 else 0). repeat split; auto.
  - intros x _. destruct (Nat.eqb x 24); lra.
  - apply (rsum_delta 49 24 (fun _ => 1)). lia.
  - destruct (Nat.eqb_spec x 24); [subst|lra]. unfold bivReach. replace (1 / 1) with 1 by field. rewrite (ceilZ_IZR 1). cbn. lia.
  - destruct (Nat.eqb_spec x 24); [subst|lra]. unfold bivReach. replace (1 / 1) with 1 by field. rewrite (ceilZ_IZR 1). cbn. lia.
  - destruct (Nat.eqb_spec x 24); [subst|lra]. unfold bivReach. replace (1 / 1) with 1 by field. rewrite (ceilZ_IZR 1). cbn. lia.
  - destruct (Nat.eqb_spec x 24); [subst|lra]. unfold bivReach. replace (1 / 1) with 1 by field. rewrite (ceilZ_IZR 1). cbn. lia.
Qed.
