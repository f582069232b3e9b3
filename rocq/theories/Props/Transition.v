(** Single transition models: C14-C16, C18-C21. *)
From Coq Require Import List ZArith QArith Reals Lra Lia Arith Bool String.
From Verif Require Import Base.Num Base.Exn Base.Arr Base.RSum Base.Lift Model.Helper Model.Tm Model.HyperParams Model.Study Model.Api
  Spec.Hmm Spec.Kernel Spec.Config Spec.Dist Spec.Data Spec.Trans Proof.Gauss Proof.KernelProof Proof.Good Proof.FitThms Proof.FitInv Proof.DataProof Proof.PriorProof Proof.TransProof Props.Ex Props.ExR.
Import ListNotations.
Local Open Scope string_scope.
Local Open Scope R_scope.

(** ** C14 *)
(** The step of a Gaussian random walk is a transition with probabilities K: symmetric, only along the axis of the target
    parameter, and the discretised reflected Gaussian of width sigma/lattice constant; the identity for sigma = 0. Forward
    and backward step are the same. *)
Theorem C14_transition : forall e name target prior sigma m,
  regular e -> mkGRW name (VNum sigma) (Some target) prior = Ok m -> In target (e_names e) -> 0 <= sigma ->
  let N := e_size e in let a := posOf (e_names e) target in
  exists K : kern,
    (forall off t p, List.length p = N -> computeForwardPrior e m off (map Fin p) t = Ok (map Fin (moved N K p)) /\
                                          computeBackwardPrior e m off (map Fin p) t = Ok (map Fin (moved N K p))) /\
    (forall x y, (x < N)%nat -> (y < N)%nat -> 0 <= K x y /\ K x y = K y x /\ (~ sameLine (e_shape e) a x y -> K x y = 0)) /\
    (forall x, (x < N)%nat -> rsum N (K x) = 1) /\
    (sigma = 0 -> K = Kid) /\ (0 < sigma -> K = Kwalk (e_shape e) a (sigma / nth a (e_lat e) 1)).
Proof.
  intros e name target prior sigma m Rg E I Hs N a. cbn in E. inversion E; subst m. clear E.
  destruct (nameIndex_posOf _ _ I) as [En Ln]. fold a in En, Ln. pose proof (rg_names _ Rg) as h1. pose proof (rg_lat _ Rg) as h2.
  destruct (nth_error (e_lat e) a) as [lc|] eqn:EL; [|apply nth_error_None in EL; lia].
  assert (Hlc : 0 < lc) by (apply nth_error_In in EL; pose proof (rg_pos _ Rg) as P; rewrite Forall_forall in P; now apply P).
  assert (ES : forall off t1 t t' p, List.length p = N -> step e (TM (KGRW target) [name] [HNum sigma] (Some prior) []) off (map Fin p) t1 t t' =
     Ok (map Fin (moved N (if Rlt_dec 0 sigma then Kwalk (e_shape e) a (sigma / nth a (e_lat e) 1) else Kid) p))).
  { intros off t1 t t' p Lp. cbn [step leafStep]. rewrite En, (rg_tmlat _ Rg). cbn [bind index nth_error scalarOf]. unfold index. rewrite EL. cbn [bind].
    rewrite (nth_error_nth _ _ 1 EL). change (fltb f0 (fdiv sigma lc)) with (Rltb 0 (sigma / lc)).
    destruct (Rlt_dec 0 sigma) as [H|H].
    - assert (Hd : 0 < sigma / lc) by (apply Rdiv_lt_0_compat; auto).
      replace (Rltb 0 (sigma / lc)) with true by (symmetry; now apply Rltb_true). f_equal. change (fdiv sigma lc) with (sigma / lc). rewrite gaussianFilter1d_fin; [|lia|exact Hd|exact Lp]. f_equal. unfold moved.
      apply tab_ext. intros y Hy. rewrite <- (Kwalk_apply (e_shape e) a (sigma / lc) y (Rnth p)) by (auto; lia). apply rsum_ext. intros x Hx.
      rewrite (Kwalk_sym (e_shape e)) by (auto; lia). lra.
    - assert (sigma = 0) as -> by lra. replace (Rltb 0 (0 / lc)) with false by (symmetry; apply Rltb_false; unfold Rdiv; lra).
      f_equal. f_equal. symmetry. now apply kapply_id. }
  exists (if Rlt_dec 0 sigma then Kwalk (e_shape e) a (sigma / nth a (e_lat e) 1) else Kid). split; [|split; [|split]].
  - intros off t p Lp. split; now apply ES.
  - intros x y Hx Hy. destruct (Rlt_dec 0 sigma) as [H|H].
    + destruct (Kwalk_stoch (e_shape e) a (sigma / nth a (e_lat e) 1) ltac:(lia)) as [P _]. split; [now apply P|]. split.
      * apply Kwalk_sym; auto; lia.
      * intros NL. unfold Kwalk. apply Rsum_map_0. intros k _. destruct (Nat.eqb_spec (move (e_shape e) a k x) y) as [Em|]; auto. exfalso. apply NL.
        intros b Hb. rewrite <- Em. rewrite unravel_move by (auto; lia). now rewrite lset_nth_neq by auto.
    + unfold Kid. destruct (Nat.eqb_spec x y) as [->|Hxy]; [rewrite Nat.eqb_refl; split; [lra|split; [auto|]]; intros NL; exfalso; apply NL; intros b _; reflexivity|].
      destruct (Nat.eqb_spec y x); [congruence|]. repeat split; auto; lra.
  - intros x Hx. destruct (Rlt_dec 0 sigma); [apply (Kwalk_stoch (e_shape e) a); auto; lia|]. now apply (Kid_stoch N).
  - destruct (Rlt_dec 0 sigma) as [H|H]; split; intros X; auto; lra.
Qed.
(** consequences for any array of numbers (not only probabilities) *)
Theorem C14_conserved : forall e name target prior sigma m off t p,
  regular e -> mkGRW name (VNum sigma) (Some target) prior = Ok m -> In target (e_names e) -> 0 <= sigma -> List.length p = e_size e ->
  exists q, computeForwardPrior e m off (map Fin p) t = Ok (map Fin q) /\ computeBackwardPrior e m off (map Fin p) t = Ok (map Fin q) /\
    List.length q = e_size e /\ Rsum q = Rsum p /\ (Forall (fun x => 0 <= x) p -> Forall (fun x => 0 <= x) q) /\
    (uniform p -> q = p) /\ (sigma = 0 -> q = p).
Proof.
  intros e name target prior sigma m off t p Rg E I Hs Lp.
  destruct (C14_transition e name target prior sigma m Rg E I Hs) as (K & H1 & H2 & H3 & H4 & _). destruct (H1 off t p Lp) as [E1 E2].
  assert (St : stochastic (e_size e) K) by (split; [intros x y Hx Hy; now apply H2|exact H3]).
  exists (moved (e_size e) K p). split; [exact E1|]. split; [exact E2|]. split; [apply tab_length|]. split; [now apply (kapply_sum (e_size e) p K)|].
  split; [now apply (kapply_nonneg (e_size e) p K)|]. split.
  - intros U. rewrite <- (tab_Rnth p) at 2. rewrite Lp. apply tab_ext. intros y Hy. rewrite (rsum_ext _ _ (fun x => Rnth p y * K y x)).
    + rewrite rsum_scal, H3 by auto. lra.
    + intros x Hx. rewrite (U x y) by (rewrite Lp; auto). destruct (H2 x y Hx Hy) as (_ & -> & _). reflexivity.
  - intros Z. rewrite (H4 Z). now apply kapply_id.
Qed.
(** a grid of 2 x 3 points, random walk of the second parameter with sigma = 1, lattice constants 1/2 and 2 *)
Definition env23 : env R :=
  {| e_shape := [2; 3]%nat; e_lat := [/ 2; 2]; e_tmlat := [/ 2; 2]; e_names := ["a"; "b"]; e_grid := []; e_prior := PNone;
     e_shift := fun _ _ a => a; e_aconv := fun _ _ _ a => a; e_bconv := fun _ _ _ a => a |}.
Lemma env23_regular : regular env23.
Proof. constructor; cbn; auto; try lia. repeat constructor; lra. Qed.
Example C14_example : regular env23 /\ mkGRW (F := R) "s" (VNum 1) (Some "b") (Leaf HPNone) = Ok (grw "s" "b" 1) /\ In "b" (e_names env23) /\
  posOf (e_names env23) "b" = 1%nat /\ List.length [1; 2; 3; 4; 5; 6] = e_size env23 /\ ~ sameLine [2; 3]%nat 1 0 3 /\ sameLine [2; 3]%nat 1 0 2.
Proof.
  split; [apply env23_regular|]. split; [reflexivity|]. split; [cbn; auto|]. split; [reflexivity|]. split; [reflexivity|]. split.
  - intros L. specialize (L 0%nat ltac:(lia)). cbn in L. lia.
  - intros b Hb. destruct b as [|[|b]]; cbn; try lia.
Qed.

(** ** C15 *)
Lemma Rmax_floor c r : rfloor c r = floored c r.
Proof. apply map_ext. intros x. unfold Rmax. destruct (Rltb x c) eqn:E, (Rle_dec c x); auto; [apply Rltb_true in E; lra|apply Rltb_false in E; lra]. Qed.
Lemma floored_sum c p : p <> [] -> 0 < c -> 0 < Rsum (floored c p).
Proof. intros Hp Hc. unfold floored. apply Rsum_pos_map; auto. intros x. pose proof (Rmax_l c x). lra. Qed.
Lemma Rnth_map (f : R -> R) p i : (i < List.length p)%nat -> Rnth (map f p) i = f (Rnth p i).
Proof. intros Hi. unfold Rnth. rewrite (nth_indep _ 0 (f 0)) by (now rewrite map_length). apply map_nth. Qed.
Lemma scaled1_le p i j : 0 < Rsum p -> (i < List.length p)%nat -> (j < List.length p)%nat -> Rnth p i <= Rnth p j -> Rnth (scaled1 p) i <= Rnth (scaled1 p) j.
Proof. intros Hs Hi Hj H. unfold scaled1. rewrite !Rnth_map by auto. apply Rmult_le_compat_r; auto. left. now apply Rinv_0_lt_compat. Qed.
Lemma scaled1_sum p : Rsum p <> 0 -> Rsum (scaled1 p) = 1.
Proof. intros H. unfold scaled1. rewrite Rsum_div. now field. Qed.
(** The step of a regime-switch model with hyper-parameter x (log10pMin) for any distribution p *)
Theorem C15_regime_switch : forall e name prior x off t p, regular e -> List.length p = e_size e -> Forall (fun y => 0 <= y) p -> Rsum p = 1 ->
  let m := mkRegime name (VNum x) prior in let c := Rpower 10 x * Rprod (e_lat e) in let Z := Rsum (floored c p) in
  exists q, computeForwardPrior e m off (map Fin p) t = Ok (map Fin q) /\ computeBackwardPrior e m off (map Fin p) t = Ok (map Fin q) /\
    List.length q = e_size e /\ Rsum q = 1 /\
    (forall i j, (i < e_size e)%nat -> (j < e_size e)%nat -> Rnth p i <= Rnth p j -> Rnth q i <= Rnth q j) /\
    (forall i, (i < e_size e)%nat -> Rnth q i = Rmax c (Rnth p i) / Z /\ c / Z <= Rnth q i) /\
    0 < c /\ 1 <= Z <= 1 + INR (e_size e) * c /\
    ((forall i, (i < e_size e)%nat -> c <= Rnth p i) -> q = p).
Proof.
  intros e name prior x off t p Rg Lp Pp Sp m c Z.
  assert (Hc : 0 < c) by (apply Rmult_lt_0_compat; [apply exp_pos|apply Rprod_pos, (rg_pos _ Rg)]).
  assert (Np : p <> []) by (intros ->; cbn in Sp; lra). pose proof (floored_sum c p Np Hc) as HZ. fold Z in HZ.
  assert (ES : forall t1 t t', step e m off (map Fin p) t1 t t' = Ok (map Fin (scaled1 (floored c p)))).
  { intros t1 t0 t'. unfold m, mkRegime. cbn [step leafStep toArr index nth_error bind scalarOf]. unfold index. cbn [nth_error bind scalarOf].
    rewrite (rg_tmlat _ Rg), fprod_R. change (fmul (fpow10 x) (Rprod (e_lat e))) with c. f_equal. unfold regimeStep. rewrite afloor_fin, Rmax_floor, asum_fin.
    rewrite adivs_fin by (unfold Z in HZ; lra). reflexivity. }
  assert (Lf : List.length (floored c p) = e_size e) by (unfold floored; now rewrite map_length).
  exists (scaled1 (floored c p)). split; [apply ES|]. split; [apply ES|]. split; [unfold scaled1; now rewrite map_length|].
  split; [apply scaled1_sum; fold Z; lra|]. split; [|split; [|split; [exact Hc|split]]].
  - intros i j Hi Hj H. apply scaled1_le; rewrite ?Lf; auto. unfold floored. rewrite !Rnth_map by (rewrite Lp; auto). now apply Rle_max_compat_l.
  - intros i Hi. unfold scaled1. rewrite Rnth_map by (rewrite Lf; auto). fold Z. unfold floored. rewrite Rnth_map by (rewrite Lp; auto). split; [reflexivity|].
    apply Rmult_le_compat_r; [left; now apply Rinv_0_lt_compat|apply Rmax_l].
  - assert (G : forall l, Forall (fun y => 0 <= y) l -> Rsum l <= Rsum (floored c l) <= Rsum l + INR (List.length l) * c).
    { clear - Hc. induction 1 as [|y l Hy _ IH]; [cbn; lra|]. cbn [floored map List.length]. rewrite S_INR. cbn. fold (Rsum l). fold (floored c l). fold (Rsum (floored c l)).
      unfold Rmax. destruct (Rle_dec c y); lra. }
    specialize (G p Pp). rewrite Sp, Lp in G. exact G.
  - intros Ha. assert (Ef : floored c p = p).
    { unfold floored. rewrite <- (map_id p) at 2. apply map_ext_in. intros y Hy. apply In_nth with (d := 0) in Hy as (i & Hi & <-).
      apply Rmax_right. apply Ha. now rewrite <- Lp. }
    rewrite Ef. unfold scaled1. rewrite Sp. rewrite <- (map_id p) at 2. apply map_ext. intros y. lra.
Qed.
Example C15_example : regular env23 /\ List.length [0; 0; /4; /4; /4; /4] = e_size env23 /\ Forall (fun y => 0 <= y) [0; 0; /4; /4; /4; /4] /\
  Rsum [0; 0; /4; /4; /4; /4] = 1 /\ Rprod (e_lat env23) = 1.
Proof. split; [apply env23_regular|]. split; [reflexivity|]. split; [repeat constructor; lra|]. split; cbn; lra. Qed.
(** executed: the second of three values is raised from 0 to the floor 10^-1 * 1/4 *)
Definition regime1 {F} `{Num F} : tm F := TM KRegime ["r"] [HNum (fofZ (-1))] (Some (Leaf HPNone)) [].
Definition env3Q : env Q :=
  {| e_shape := [3]%nat; e_lat := [1 # 4]%Q; e_tmlat := [1 # 4]%Q; e_names := ["p"]; e_grid := [[1 # 4; 1 # 2; 3 # 4]%Q]; e_prior := PNone;
     e_shift := fun _ _ a => a; e_aconv := fun _ _ _ a => a; e_bconv := fun _ _ _ a => a |}.
Example C15_executed : computeForwardPrior env3Q regime1 0%Q [Fin (1 # 2); Fin 0; Fin (1 # 2)]%Q 0%Q = Ok [Fin (20 # 41); Fin (1 # 41); Fin (20 # 41)]%Q.
Proof. vm_compute. reflexivity. Qed.

(** ** C16 *)
Lemma largest_ge p y : In y p -> y <= largest p.
Proof. induction p as [|x p IH]; cbn; [tauto|]. intros [->|I]; [apply Rmax_l|]. specialize (IH I). pose proof (Rmax_r x (largest p)). unfold largest in *. lra. Qed.
Lemma amax_largest p : p <> [] -> Forall (fun y => 0 <= y) p -> amax (map Fin p) = Fin (largest p).
Proof.
  intros Hp Pp. destruct p as [|x r]; [congruence|]. destruct (amax_fin x r) as (c & E & I & HF). rewrite E. f_equal. apply Rle_antisym.
  - now apply largest_ge.
  - assert (G : forall l, Forall (fun y => y <= c) l -> 0 <= c -> largest l <= c).
    { clear. induction 1; cbn; auto. intros. apply Rmax_lub; auto. }
    apply G; auto. rewrite Forall_forall in Pp. now apply Pp.
Qed.
(** What a not-equal step does to a distribution p that is not uniform *)
Theorem C16_not_equal : forall e name prior x off t p, regular e -> List.length p = e_size e -> Forall (fun y => 0 <= y) p -> Rsum p = 1 -> ~ uniform p ->
  let m := mkNotEq name (VNum x) prior in let c := Rpower 10 x * Rprod (e_lat e) in
  let inv := scaled1 (map (fun y => largest p - y) p) in
  exists q, computeForwardPrior e m off (map Fin p) t = Ok (map Fin q) /\ computeBackwardPrior e m off (map Fin p) t = Ok (map Fin q) /\
    List.length q = e_size e /\ Rsum q = 1 /\ Forall (fun y => 0 < y) q /\
    (forall i j, (i < e_size e)%nat -> (j < e_size e)%nat -> Rnth p i <= Rnth p j -> Rnth q j <= Rnth q i) /\
    (forall i, (i < e_size e)%nat -> Rnth q i = Rmax c (Rnth inv i) / Rsum (floored c inv)) /\
    Rsum inv = 1 /\ (forall i, (i < e_size e)%nat -> Rnth p i = largest p -> Rnth inv i = 0).
Proof.
  intros e name prior x off t p Rg Lp Pp Sp NU m c inv.
  assert (Hc : 0 < c) by (apply Rmult_lt_0_compat; [apply exp_pos|apply Rprod_pos, (rg_pos _ Rg)]).
  assert (Np : p <> []) by (intros ->; cbn in Sp; lra).
  set (d := map (fun y => largest p - y) p).
  assert (Pd : Forall (fun y => 0 <= y) d).
  { apply Forall_map, Forall_forall. intros y Hy. pose proof (largest_ge p y Hy). lra. }
  assert (Sd : 0 < Rsum d).
  { destruct (Rsum_nonneg d Pd) as [H|H]; auto. exfalso. apply NU. symmetry in H. pose proof (Rsum_zero_all d Pd H) as Z.
    assert (G : forall i, (i < List.length p)%nat -> Rnth p i = largest p).
    { intros i Hi. rewrite Forall_forall in Z. unfold d in Z. assert (Ii : In (largest p - Rnth p i) (map (fun y => largest p - y) p)) by (apply in_map_iff; exists (Rnth p i); split; auto; now apply nth_In).
      specialize (Z _ Ii). cbn in Z. lra. }
    intros i j Hi Hj. now rewrite !G. }
  assert (Li : List.length inv = e_size e) by (unfold inv, scaled1; now rewrite !map_length).
  assert (Ni : inv <> []) by (intros Z; rewrite Z in Li; pose proof (rg_size _ Rg); cbn in Li; lia).
  pose proof (floored_sum c inv Ni Hc) as HZ.
  assert (ES : forall t1 t t', step e m off (map Fin p) t1 t t' = Ok (map Fin (scaled1 (floored c inv)))).
  { intros t1 t0 t'. unfold m, mkNotEq. cbn [step leafStep toArr]. unfold index. cbn [nth_error bind scalarOf].
    rewrite (rg_tmlat _ Rg), fprod_R. change (fmul (fpow10 x) (Rprod (e_lat e))) with c. f_equal. unfold notEqStep. rewrite amax_largest by auto.
    rewrite map_map. cbn [xsub xminus]. change (map (fun x0 => Fin (fsub (largest p) x0)) p) with (map (fun x0 => Fin (largest p - x0)) p).
    rewrite <- (map_map (fun y => largest p - y) Fin). fold d. rewrite asum_fin, adivs_fin by lra. change (rdivs d (Rsum d)) with inv.
    rewrite afloor_fin, Rmax_floor, asum_fin. rewrite adivs_fin by lra. reflexivity. }
  assert (Lf : List.length (floored c inv) = e_size e) by (unfold floored; now rewrite map_length).
  exists (scaled1 (floored c inv)). split; [apply ES|]. split; [apply ES|]. split; [unfold scaled1; now rewrite map_length|].
  split; [apply scaled1_sum; lra|]. split; [|split; [|split; [|split]]].
  - apply Forall_map. apply Forall_map. apply Forall_forall. intros y _. apply Rdiv_lt_0_compat; auto. pose proof (Rmax_l c y). lra.
  - intros i j Hi Hj H. apply scaled1_le; rewrite ?Lf; auto. unfold floored. rewrite !Rnth_map by (rewrite Li; auto). apply Rle_max_compat_l.
    unfold inv. fold d. apply scaled1_le; auto; unfold d; rewrite ?map_length, ?Lp; auto. rewrite !Rnth_map by (rewrite Lp; auto). lra.
  - intros i Hi. unfold scaled1 at 1. rewrite Rnth_map by (rewrite Lf; auto). unfold floored at 1. rewrite Rnth_map by (rewrite Li; auto). reflexivity.
  - unfold inv. apply scaled1_sum. fold d. lra.
  - intros i Hi H. unfold inv, scaled1. fold d. rewrite Rnth_map by (unfold d; rewrite map_length, Lp; auto). unfold d at 1. rewrite Rnth_map by (rewrite Lp; auto).
    rewrite H. unfold Rdiv. lra.
Qed.
(** exactly uniform distributions: every value becomes NaN *)
Theorem C16_uniform_nan : forall e name prior x off t p, regular e -> List.length p = e_size e -> Forall (fun y => 0 <= y) p -> uniform p ->
  computeForwardPrior e (mkNotEq name (VNum x) prior) off (map Fin p) t = Ok (repeat NaN (e_size e)) /\
  computeBackwardPrior e (mkNotEq name (VNum x) prior) off (map Fin p) t = Ok (repeat NaN (e_size e)).
Proof.
  intros e name prior x off t p Rg Lp Pp U. pose proof (rg_size _ Rg) as HN.
  assert (Np : p <> []) by (intros ->; cbn in Lp; lia).
  assert (ES : forall t1 t t', step e (mkNotEq name (VNum x) prior) off (map Fin p) t1 t t' = Ok (nans (e_size e))).
  { intros t1 t0 t'. unfold mkNotEq. cbn [step leafStep toArr]. unfold index. cbn [nth_error bind scalarOf]. f_equal. unfold notEqStep. rewrite amax_largest by auto.
    assert (E : forall y, In y p -> y = largest p).
    { intros y Hy. assert (G : forall z, In z p -> z = y).
      { intros z Hz. apply In_nth with (d := 0) in Hz as (i & Hi & <-). apply In_nth with (d := 0) in Hy as (j & Hj & <-). now apply U. }
      apply Rle_antisym; [now apply largest_ge|]. assert (H0 : 0 <= y) by (rewrite Forall_forall in Pp; now apply Pp).
      assert (G2 : forall l, (forall z, In z l -> z = y) -> largest l <= y).
      { clear - H0. induction l as [|a l IH]; cbn; intros H; auto. apply Rmax_lub; [right; auto|auto]. }
      now apply G2. }
    rewrite map_map. rewrite (map_ext_in _ (fun _ => Fin 0)); [|intros y Hy; cbn; f_equal; rewrite <- (E y Hy); lra].
    assert (Ez : map (fun _ : R => Fin 0) p = fin (repeat 0 (e_size e))) by (rewrite <- Lp; clear; induction p; cbn; f_equal; auto).
    rewrite Ez, asum_fin. replace (Rsum (repeat 0 (e_size e))) with 0 by (rewrite Rsum_repeat; lra). rewrite zero_div.
    unfold afloor. rewrite map_nans by reflexivity. rewrite asum_nans by auto. apply adivs_nan. }
  split; apply ES.
Qed.
Example C16_example : regular env23 /\ List.length [0; 0; /4; /4; /4; /4] = e_size env23 /\ ~ uniform [0; 0; /4; /4; /4; /4] /\
  uniform [/6; /6; /6; /6; /6; /6].
Proof.
  split; [apply env23_regular|]. split; [reflexivity|]. split.
  - intros U. specialize (U 0%nat 2%nat ltac:(cbn; lia) ltac:(cbn; lia)). cbn in U. lra.
  - intros i j Hi Hj. cbn in Hi, Hj. do 6 (destruct i as [|i]; [do 6 (destruct j as [|j]; [reflexivity|]); lia|]). lia.
Qed.
Example C16_executed :
  computeForwardPrior env3Q notEq2 0%Q [Fin (1 # 2); Fin (1 # 6); Fin (1 # 3)]%Q 0%Q = Ok [Fin (1 # 401); Fin (800 # 1203); Fin (400 # 1203)]%Q /\
  computeForwardPrior env3Q notEq2 0%Q [Fin (1 # 3); Fin (1 # 3); Fin (1 # 3)]%Q 0%Q = Ok [NaN; NaN; NaN].
Proof. vm_compute. split; reflexivity. Qed.
(** With the default flat prior and a first datum that all parameter values explain equally well, a study with the
    not-equal model gets no evidence at all. *)
Theorem C16_flat_start_refuted : exists S A : study Q Q,
  setup (Raw1 [NaN; Fin 1%Q]) None (coinOM quarters PNone) notEq2 = Ok S /\ fit S false false = Ok A /\ st_logEv A = NInf /\ st_warn A = 1%nat.
Proof.
  assert (E : (let* S0 := setup (L := Q) (Raw1 [NaN; Fin 1%Q]) None (coinOM quarters PNone) notEq2 in let* A := fit S0 false false in Ok (st_logEv A, st_warn A))%res
     = Ok (NInf, 1%nat)) by (vm_compute; reflexivity).
  run E. do 2 eexists. repeat (split; [eassumption|]). assumption.
Qed.

(** ** C18 *)
(** The steps of a serial model that was constructed from break-/change-points with numbers bs and of arbitrary sub-models *)
Theorem C18_schedule : forall e args m bs off p t,
  mkSerial args = Ok m -> map structValue (filter isStruct args) = map HNum bs ->
  let i := List.length (passed bs t) in
  exists sub, nth_error (subModels args) i = Some sub /\
    (~ In t (changePoints args) ->
       computeForwardPrior e m off p t = computeForwardPrior e sub (startOf bs i) p t /\
       computeBackwardPrior e m off p (t + 1) = computeBackwardPrior e sub (startOf bs i) p (t + 1)) /\
    (In t (changePoints args) -> forall q g, priorValues e g -> Rsum g <> 0 ->
       let reset := map Fin (map (fun x => x / Rsum g * Rprod (e_lat e)) g) in
       (computeForwardPrior e sub (startOf bs i) p t = Ok q -> computeForwardPrior e m off p t = Ok reset) /\
       (computeBackwardPrior e sub (startOf bs i) p (t + 1) = Ok q -> computeBackwardPrior e m off p (t + 1) = Ok reset)).
Proof.
  intros e args m bs off p t Em Eb i.
  assert (Em2 := Em). unfold mkSerial in Em2. rewrite collect_spec in Em2. rewrite Eb in Em2.
  destruct (mapM firstValue (map HNum bs)) as [fv|]; [|discriminate]. cbn [bind] in Em2. destruct (firstOrdered fv) as [[|]|]; try discriminate. cbn [bind negb] in Em2.
  destruct (Nat.eqb_spec (List.length (subModels args)) (S (List.length (map (HNum (F := R)) bs)))) as [El|]; [|discriminate]. injection Em2 as <-. rewrite map_length in El.
  assert (Ei : breaksUpTo bs t = i) by (rewrite breaksUpTo_R; reflexivity).
  assert (Hi : (i <= List.length bs)%nat) by apply passed_le.
  destruct (nth_error (subModels args) i) as [sub|] eqn:Es; [|apply nth_error_None in Es; lia]. exists sub. split; [reflexivity|].
  assert (ES : forall t' t'', step e (TM (KSerial (map isChange (filter isStruct args))) (map structName (filter isStruct args)) (map HNum bs)
      (Some (Node (map (fun m => match tmPrior m with Some q => q | None => Leaf HPNone end) (filter isStruct args)))) (subModels args)) off p t t' t'' =
      bind (step e sub (startOf bs i) p t t' t'') (fun q => Ok (changeCheck e bs (map isChange (filter isStruct args)) q t))).
  { intros t' t''. rewrite (step_serial e _ _ _ _ _ _ _ _ _ _ bs sub); [now rewrite Ei|apply mapM_scalar_HNum|now rewrite Ei]. }
  unfold computeForwardPrior, computeBackwardPrior. change (fsub (t + 1) f1) with (t + 1 - 1). replace (t + 1 - 1) with t by lra. rewrite !ES.
  pose proof (change_existsb args bs t Eb) as Hx. unfold changeCheck. change (fun b : R => feqb t b) with (fun b : R => Reqb t b). split.
  - intros NI. assert (X : existsb (fun b => Reqb t b) (maskSel bs (map isChange (filter isStruct args))) = false) by (apply not_true_is_false; tauto).
    rewrite X. split; [destruct (step e sub (startOf bs i) p t t (fadd t f1))|destruct (step e sub (startOf bs i) p t (t + 1) t)]; reflexivity.
  - intros I q g Hg Sg. rewrite (proj2 Hx I), (changeReset_values e g Hg Sg). split; intros ->; reflexivity.
Qed.
(** Which sub-model that is: for increasing break times, number j from the j-th break time on until the next one; its time
    offset is that of the last break *)
Theorem C18_interval : forall bs t j, strictlyIncreasing bs -> (j <= List.length bs)%nat ->
  (List.length (passed bs t) = j <-> ((j <> 0)%nat -> nth (j - 1) bs 0 <= t) /\ ((j < List.length bs)%nat -> t < nth j bs 0)) /\
  startOf bs (List.length (passed bs t)) = last (passed bs t) 0.
Proof.
  intros bs t j H Hj. split; [now apply passed_spec|]. pose proof (passed_firstn bs t H) as E. pose proof (passed_le bs t) as Hl.
  destruct (List.length (passed bs t)) as [|k]; rewrite E; [reflexivity|]. cbn [startOf]. rewrite last_firstn by lia. reflexivity.
Qed.
Definition breakAt {F} (name : string) (x : F) : tm F := TM (KBreak name (HNum x)) [] [] (Some (Leaf HPNone)) [].
Example C18_example : exists m, let args := [grw "s" "a" 1; breakAt "t1" 2; comb [static; regime1]; change "t2" 5; static] in
  mkSerial args = Ok m /\ map structValue (filter isStruct args) = map HNum [2; 5] /\ changePoints args = [5] /\
  subModels args = [grw "s" "a" 1; comb [static; regime1]; static] /\ List.length (passed [2; 5] 3) = 1%nat /\ strictlyIncreasing [2; 5].
Proof.
  eexists. cbv zeta. split.
  - cbn. change (fltb 2 5) with (Rltb 2 5). replace (Rltb 2 5) with true by (symmetry; apply Rltb_true; lra). reflexivity.
  - repeat (split; [reflexivity|]). split.
    + unfold passed. cbn. destruct (Rle_dec 2 3); [|lra]. destruct (Rle_dec 5 3); [lra|]. reflexivity.
    + intros i j Hij Hj. cbn in Hj. assert (i = 0%nat) as -> by lia. assert (j = 1%nat) as -> by lia. cbn. lra.
Qed.

(** ** C19 *)
Theorem C19_serial : forall args : list (tm R), Forall (fun m => usable (structValue m)) (filter isStruct args) ->
  let breaks := filter isStruct args in
  let valid := neighboursIncrease (map (fun m => first (structValue m)) breaks) /\ List.length (subModels args) = S (List.length breaks) in
  (valid -> exists m, mkSerial args = Ok m /\ tmModels m = subModels args /\ tmNames m = map structName breaks /\ tmVals m = map structValue breaks /\
              tmKind m = KSerial (map isChange breaks)) /\
  (~ valid -> mkSerial args = Err ConfigurationError).
Proof.
  intros args HU breaks valid. unfold mkSerial. rewrite collect_spec. fold breaks.
  rewrite mapM_first by (apply Forall_map; exact HU). cbn [bind]. destruct (firstOrdered_spec (map (fun m => first (structValue m)) breaks)) as (b & E & Hb).
  rewrite map_map in *. rewrite E. cbn [bind]. rewrite map_length. unfold valid. destruct (Nat.eqb_spec (List.length (subModels args)) (S (List.length breaks))) as [El|El].
  - destruct b; cbn [negb]; split.
    + intros _. eexists. split; [reflexivity|]. auto.
    + tauto.
    + intros [A _]. apply Hb in A. discriminate.
    + reflexivity.
  - destruct b; cbn [negb]; split; try tauto; try reflexivity.
Qed.
(** what the order check does not see: values are only compared with their neighbours, and not across an 'all' *)
Theorem C19_order_refuted : exists m : tm R, mkSerial [static; change "t1" 5; static; TM KChange ["t2"] [HAll] (Some (Leaf HPNone)) []; static; change "t3" 3; static] = Ok m /\
  map (fun v => first v) (tmVals m) = [Some 5; None; Some 3].
Proof. eexists. split; [reflexivity|]. reflexivity. Qed.
(** break-points are only accepted inside of a serial model *)
Theorem C19_break_rejected : forall (S : study R R) (m : tm R) args others, isBreak m = true ->
  setTM S m = Err ConfigurationError /\ (In m args -> mkComb args = Err ConfigurationError) /\
  (forall hasOM hasTM, setModels S (MTrans m :: others) hasOM hasTM = Err ConfigurationError).
Proof.
  intros S m args others Hb. split; [|split].
  - unfold setTM. now rewrite Hb.
  - intros I. unfold mkComb. replace (existsb isBreak args) with true; auto. symmetry. apply existsb_exists. eauto.
  - intros hasOM [|]; cbn; auto. unfold setTM. now rewrite Hb.
Qed.
Example C19_example : let args := [grw "s" "a" 1; breakAt "t1" 2; static; change "t2" 5; static] in
  Forall (fun m => usable (structValue m)) (filter isStruct args) /\ neighboursIncrease (map (fun m => first (structValue m)) (filter isStruct args)) /\
  List.length (subModels args) = 3%nat /\ isBreak (breakAt (F := R) "t1" 2) = true /\
  mkSerial [static; change "t1" 5; static; change "t2" 5; static] = Err ConfigurationError.
Proof.
  cbv zeta. split; [repeat constructor|]. split; [cbn; lra|]. split; [reflexivity|]. split; [reflexivity|]. cbn. change (fltb 5 5) with (Rltb 5 5).
  replace (Rltb 5 5) with false by (symmetry; apply Rltb_false; lra). reflexivity.
Qed.

(** ** C20 *)
Theorem C20_order : forall {F} `{Num F} e (ms : list (tm F)) m off p t, mkComb ms = Ok m ->
  computeForwardPrior e m off p t = inOrder (map (fun m' q => computeForwardPrior e m' off q t) ms) p /\
  computeBackwardPrior e m off p t = inOrder (map (fun m' q => computeBackwardPrior e m' off q t) ms) p.
Proof.
  intros F NF e ms m off p t E. unfold mkComb in E. destruct (existsb isBreak ms); [discriminate|]. injection E as <-.
  split; apply step_comb.
Qed.
(** nested combined models can be flattened, level by level, without changing any step or any fit *)
Theorem C20_nested : forall {F L} `{Num F} `{LogNum F L} (S : study F L) (ms : list (tm F)) m m' lat fo eo,
  mkComb ms = Ok m -> mkComb (flatten1 ms) = Ok m' -> (forall x, In x ms -> tmKind x = KComb -> exists l, mkComb l = Ok x) ->
  (forall e off p t, computeForwardPrior e m off p t = computeForwardPrior e m' off p t /\
                     computeBackwardPrior e m off p t = computeBackwardPrior e m' off p t) /\
  sameOutcome (fit (set_tm S m lat) fo eo) (fit (set_tm S m' lat) fo eo).
Proof.
  intros F L NF NL S ms m m' lat fo eo E E' HN. unfold mkComb in E, E'. destruct (existsb isBreak ms); [discriminate|]. destruct (existsb isBreak (flatten1 ms)); [discriminate|].
  injection E as <-. injection E' as <-. split; [intros; split; apply step_flatten1|]. apply fit_sameSteps.
  - intros e off p t1 t t'. apply step_flatten1.
  - intros t. reflexivity.
  - f_equal. unfold allNames. cbn [unpackNames map]. rewrite !app_nil_r. symmetry. apply allNames_flatten1. intros x I K. destruct (HN x I K) as (l & El).
    unfold mkComb in El. destruct (existsb isBreak l); [discriminate|]. injection El as <-. reflexivity.
Qed.
(** a combined model without sub-models keeps every distribution, and a combined model of one sub-model is that sub-model *)
Theorem C20_trivial : forall {F} `{Num F} e (m1 m0 m : tm F) off p t, mkComb [] = Ok m0 -> mkComb [m1] = Ok m ->
  computeForwardPrior e m0 off p t = Ok p /\ computeBackwardPrior e m0 off p t = Ok p /\
  computeForwardPrior e m off p t = computeForwardPrior e m1 off p t /\ computeBackwardPrior e m off p t = computeBackwardPrior e m1 off p t.
Proof.
  intros F NF e m1 m0 m off p t E0 E1. destruct (C20_order e [] m0 off p t E0) as [A B]. destruct (C20_order e [m1] m off p t E1) as [C D].
  rewrite A, B, C, D. cbn [map inOrder]. repeat split; [destruct (computeForwardPrior e m1 off p t)|destruct (computeBackwardPrior e m1 off p t)]; reflexivity.
Qed.
(** the order matters, and the backward step does not reverse it *)
Theorem C20_reversed_refuted : exists (m1 m2 m m' : tm Q) p q q', mkComb [m1; m2] = Ok m /\ mkComb [m2; m1] = Ok m' /\
  computeForwardPrior env3Q m 0%Q p 0%Q = Ok q /\ computeBackwardPrior env3Q m 0%Q p 0%Q = Ok q /\ computeBackwardPrior env3Q m' 0%Q p 0%Q = Ok q' /\ q <> q'.
Proof.
  exists regime1, notEq2, (comb [regime1; notEq2]), (comb [notEq2; regime1]), [Fin (1 # 2); Fin (1 # 2); Fin 0]%Q, [Fin (1 # 402); Fin (1 # 402); Fin (200 # 201)]%Q,
    [Fin (201 # 8402); Fin (201 # 8402); Fin (4000 # 4201)]%Q.
  repeat (split; [vm_compute; reflexivity|]). intros E. inversion E.
Qed.
Example C20_example : exists m m', mkComb [grw "s" "a" 1; comb [static; change "t" 2]] = Ok m /\ mkComb (flatten1 [grw "s" "a" 1; comb [static; change "t" 2]]) = Ok m' /\
  tmModels m' = [grw "s" "a" 1; static; change "t" 2].
Proof. do 2 eexists. repeat split. Qed.

(** ** C21 *)
(** A deterministic model with function f shifts the distribution along the axis of its target by amounts that telescope *)
Theorem C21_drift : forall e fn args target prior m off xs,
  regular e -> mkDet fn args (Some target) prior = Ok m -> map (fun a => toArr (snd a)) args = map HNum xs -> In target (e_names e) ->
  let a := posOf (e_names e) target in let f := fun t => fn (t - off) xs in
  exists forwards backwards : R -> R,
    (forall p t, computeForwardPrior e m off p t = Ok (normalise (e_shift e a (forwards t) p)) /\
                 computeBackwardPrior e m off p t = Ok (normalise (e_shift e a (backwards t) p))) /\
    (forall t n, rsum n (fun j => forwards (t + INR j)) = (f (t + INR n) - f t) / nth a (e_lat e) 1) /\
    (forall t, backwards (t + 1) = - forwards t).
Proof.
  intros e fn args target prior m off xs Rg E Ev I a f.
  destruct (nameIndex_posOf _ _ I) as [En Ln]. fold a in En, Ln. pose proof (rg_names _ Rg) as h1. pose proof (rg_lat _ Rg) as h2.
  destruct (nth_error (e_lat e) a) as [lc|] eqn:EL; [|apply nth_error_None in EL; lia].
  rewrite (nth_error_nth _ _ 1 EL).
  assert (Hlc : 0 < lc) by (apply nth_error_In in EL; pose proof (rg_pos _ Rg) as P; rewrite Forall_forall in P; now apply P).
  assert (ES : forall p t1 t t', step e m off p t1 t t' = Ok (normalise (e_shift e a (detShift fn xs off t t' lc) p))).
  { intros p t1 t t'. assert (exists pr, m = TM (KDet fn target) (map fst args) (map HNum xs) pr []) as (pr & ->).
    { unfold mkDet in E. rewrite Ev in E. destruct prior as [[[| | | |]|l]|]; try (injection E as <-; eauto);
      try (destruct (Nat.eqb _ _); [injection E as <-; eauto|discriminate]). }
    cbn [step leafStep]. rewrite En, (rg_tmlat _ Rg), mapM_scalar_HNum. cbn [bind]. unfold index. rewrite EL. reflexivity. }
  exists (fun t => (f (t + 1) - f t) / lc), (fun t => (f (t - 1) - f t) / lc). split; [|split].
  - intros p t. split; apply ES.
  - intros t n. induction n as [|n IH].
    + cbn. replace (t + 0) with t by lra. unfold Rdiv. lra.
    + cbn [rsum]. rewrite IH. rewrite S_INR. replace (t + (INR n + 1)) with (t + INR n + 1) by lra. field. lra.
  - intros t. replace (t + 1 - 1) with t by lra. field. lra.
Qed.
Example C21_example : exists m, mkDet (F := R) (fun t ps => Rnth ps 0 * t * t) [("k", VNum 3)] (Some "b") None = Ok m /\ regular env23 /\ In "b" (e_names env23) /\
  map (fun a => toArr (snd a)) [("k", VNum 3)] = map HNum [3].
Proof. eexists. split; [reflexivity|]. split; [apply env23_regular|]. split; [cbn; auto|reflexivity]. Qed.
