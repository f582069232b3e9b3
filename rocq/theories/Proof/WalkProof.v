(** Alpha-stable and bivariate random walks keep the invariant of a fit. *)
From Coq Require Import List ZArith Reals Lra Lia Arith Bool String.
From Verif Require Import Base.Num Base.Exn Base.Arr Base.RSum Base.Lift Model.Helper Model.Tm Model.Bivariate Model.Cache Model.AlphaStable Model.Study
  Spec.Kernel Spec.Config Spec.Dist Spec.BivSpec Spec.AlphaSpec Spec.WalkSpec Proof.Gauss Proof.KernelProof Proof.BivProof Proof.StableKernel Proof.AlphaProof Proof.Good Proof.FitInv.
Import ListNotations.
Local Open Scope R_scope.

Lemma fold_nan (l : list (xnum R)) : fold_left xadd l NaN = NaN.
Proof. induction l as [|a l IH]; [reflexivity|exact IH]. Qed.
Lemma asum_nan (l : list (xnum R)) : In NaN l -> asum l = NaN.
Proof.
  unfold asum. generalize (Fin (f0 (F := R))). induction l as [|a l IH]; intros z I; [destruct I|]. cbn [fold_left]. destruct I as [->|I]; [|now apply IH].
  replace (xadd z NaN) with (@NaN R) by now destruct z. apply fold_nan.
Qed.
Lemma all_nan (l : list (xnum R)) N : List.length l = N -> (forall x, In x l -> x = NaN) -> l = nans N.
Proof.
  intros <-. induction l as [|a l IH]; intros A; cbn; auto. rewrite (A a) by now left. f_equal. apply IH. intros x I. apply A. now right.
Qed.
Lemma rows_length {A} (G : nat -> nat -> A) l l' : List.length (flat_map (fun i => map (G i) l') l) = (List.length l * List.length l')%nat.
Proof. induction l as [|a l IH]; cbn; auto. now rewrite app_length, map_length, IH. Qed.
Lemma padded_nan n1 n2 i j : (i < n1)%nat -> (j < n2)%nat -> padded n1 n2 (nans (n1 * n2)) (Z.of_nat i) (Z.of_nat j) = NaN.
Proof.
  intros Hi Hj. unfold padded. rewrite !(proj2 (Z.leb_le _ _)), !(proj2 (Z.ltb_lt _ _)) by lia. cbn [andb]. rewrite !Nat2Z.id.
  apply nth_repeat.
Qed.
Lemma finite_tab N a : finite N a -> exists f, a = arrOf N f /\ forall x, (x < N)%nat -> 0 <= f x.
Proof.
  intros (r & -> & L & P). exists (Rnth r). split.
  - unfold arrOf. f_equal. rewrite <- L. symmetry. apply tab_Rnth.
  - intros x Hx. rewrite Forall_forall in P. apply P. apply nth_In. lia.
Qed.
Lemma arr_good N f : (forall x, (x < N)%nat -> 0 <= f x) -> good N (arrOf N f).
Proof. intros P. left. exists (tab N f). repeat split; [apply tab_length|]. now apply Forall_tab. Qed.

Lemma conv_axis_K n1 n2 ax c al f : (0 < n1)%nat -> (0 < n2)%nat -> Nat.even n1 = true -> Nat.even n2 = true -> 0 < al -> (ax < 2)%nat ->
  alphaConv [n1; n2] ax c al (arrOf (n1 * n2) f) = arrOf (n1 * n2) (fun y => rsum (n1 * n2) (fun x => f x * Kaxis n1 n2 ax c al x y)).
Proof.
  intros H1 H2 E1 E2 Ha Hx. rewrite conv_axis by auto. apply (f_equal (map Fin)). apply tab_ext. intros y Hy.
  assert (Y1 : (y / n2 < n1)%nat) by (apply Nat.div_lt_upper_bound; lia). assert (Y2 : (y mod n2 < n2)%nat) by (apply Nat.mod_upper_bound; lia).
  rewrite rsum_mult. destruct ax as [|[|ax]]; [| |lia]; unfold Kaxis.
  - apply rsum_ext. intros i Hi. rewrite (rsum_ext n2 _ (fun j => if Nat.eqb j (y mod n2) then (fun j => f (i * n2 + j)%nat * Kstable n1 c al i (y / n2)%nat) j else 0)).
    + now rewrite rsum_delta.
    + intros j Hj. rewrite Nat.div_add_l, (Nat.div_small j), Nat.add_0_r by lia. replace ((i * n2 + j) mod n2)%nat with j by (rewrite Nat.add_comm, Nat.mod_add, Nat.mod_small; lia).
      destruct (Nat.eqb j (y mod n2)); ring.
  - rewrite (rsum_ext n1 _ (fun i => if Nat.eqb i (y / n2) then (fun i => rsum n2 (fun j => f (i * n2 + j)%nat * Kstable n2 c al j (y mod n2)%nat)) i else 0)).
    + now rewrite rsum_delta.
    + intros i Hi. destruct (Nat.eqb_spec i (y / n2)) as [E|N].
      * apply rsum_ext. intros j Hj. rewrite Nat.div_add_l, (Nat.div_small j), Nat.add_0_r by lia. replace ((i * n2 + j) mod n2)%nat with j by (rewrite Nat.add_comm, Nat.mod_add, Nat.mod_small; lia).
        rewrite (proj2 (Nat.eqb_eq _ _)) by auto. ring.
      * apply rsum_0. intros j Hj. rewrite Nat.div_add_l, (Nat.div_small j), Nat.add_0_r by lia. rewrite (proj2 (Nat.eqb_neq _ _)) by auto. ring.
Qed.
Lemma Kstable_nonneg n c al x y : 0 < al <= 1 -> (x < n)%nat -> (y < n)%nat -> 0 <= Kstable n c al x y.
Proof. intros Ha Hx Hy. unfold Kstable. pose proof (half_ge n ltac:(lia)). apply step_nonneg; auto; lia. Qed.
Lemma Kstable_diag n c al x : (0 < n)%nat -> 0 < Kstable n c al x x.
Proof. intros Hn. unfold Kstable. rewrite Z.sub_diag. now apply step_center. Qed.
Lemma Kaxis_nonneg n1 n2 ax c al x y : 0 < al <= 1 -> (x < n1 * n2)%nat -> (y < n1 * n2)%nat -> 0 <= Kaxis n1 n2 ax c al x y.
Proof.
  intros Ha Hx Hy. assert (0 < n2)%nat by (destruct n2; lia).
  assert (x / n2 < n1 /\ y / n2 < n1)%nat as [? ?] by (split; apply Nat.div_lt_upper_bound; lia).
  assert (x mod n2 < n2 /\ y mod n2 < n2)%nat as [? ?] by (split; apply Nat.mod_upper_bound; lia).
  unfold Kaxis. destruct ax; destruct (Nat.eqb _ _); try lra; now apply Kstable_nonneg.
Qed.
Lemma Kaxis_diag n1 n2 ax c al x : (0 < n1)%nat -> (0 < n2)%nat -> 0 < Kaxis n1 n2 ax c al x x.
Proof. intros H1 H2. unfold Kaxis. rewrite !Nat.eqb_refl. destruct ax; now apply Kstable_diag. Qed.

(** ** NaN *)
Lemma alpha_nan gs ax c al k : gs <> [] -> (List.length gs <= 2)%nat -> (forall n, In n gs -> (0 < n)%nat) ->
  alphaKernel gs (onAxis (List.length gs) ax c) al = Ok k -> convolve gs k (nans (natprod gs)) = nans (natprod gs).
Proof.
  intros N L P E. destruct gs as [|g0 [|g1 [|]]]; [congruence| | |cbn in L; lia].
  - assert (P0 : (0 < g0)%nat) by (apply P; now left). cbn in E. injection E as <-. cbn [convolve natprod fold_right Nat.mul].
    apply all_nan; [rewrite map_length, seq_length; cbn; lia|]. intros x I. apply in_map_iff in I as (i & <- & Hi). apply asum_nan, in_map_iff.
    exists g0. split; [|apply in_seq; lia]. rewrite Z.sub_diag. change 0%Z with (Z.of_nat 0) at 1 2.
    replace (g0 * 1)%nat with (1 * g0)%nat by lia. now rewrite (padded_nan 1 g0 0 0) by lia.
  - assert (P0 : (0 < g0)%nat) by (apply P; now left). assert (P1 : (0 < g1)%nat) by (apply P; right; now left).
    assert (K : exists r c f, k = K2 r c f).
    { unfold alphaKernel, onAxis in E. cbn [List.length seq map createKernel timesAll bind transpose timesKernel] in E.
      destruct (_ && _); cbn [bind transpose] in E; [|discriminate]. injection E as <-. eauto. }
    destruct K as (r & cc & f & ->). cbn [convolve]. replace (natprod [g0; g1]) with (g0 * g1)%nat by (cbn; lia). apply all_nan.
    + erewrite rows_length. now rewrite !seq_length.
    + intros x I. apply in_flat_map in I as (i & Hi & I). apply in_map_iff in I as (j & <- & Hj). apply asum_nan, in_flat_map.
      exists g0. split; [apply in_seq; lia|]. apply in_map_iff. exists g1. split; [|apply in_seq; lia]. rewrite !Z.sub_diag. change 0%Z with (Z.of_nat 0) at 1 2.
      now rewrite padded_nan.
Qed.
Lemma alphaConv_nan gs ax c al : gs <> [] -> (List.length gs <= 2)%nat -> (forall n, In n gs -> (0 < n)%nat) ->
  alphaConv gs ax c al (nans (natprod gs)) = nans (natprod gs).
Proof. intros A B C. unfold alphaConv. destruct (alphaKernel _ _ _) as [k|] eqn:E; [|reflexivity]. exact (alpha_nan gs ax c al k A B C E). Qed.
Lemma biv_nan n1 n2 s1 s2 rho : (0 < n1)%nat -> (0 < n2)%nat -> bivConv [n1; n2] s1 s2 rho (nans (n1 * n2)) = nans (n1 * n2).
Proof.
  intros P1 P2. cbn [bivConv]. unfold convolve2d. apply all_nan.
  - erewrite rows_length. now rewrite !seq_length.
  - intros x I. apply in_flat_map in I as (i & Hi & I). apply in_map_iff in I as (j & <- & Hj). apply in_seq in Hi, Hj.
    apply asum_nan, in_map_iff. exists 0%Z. split; [|apply steps_0]. apply asum_nan, in_map_iff. exists 0%Z. split; [|apply steps_0].
    rewrite !Z.sub_0_r. now rewrite padded_nan by lia.
Qed.

(** ** leaves *)
Definition okWalk (shape : list nat) (k : kind R) (vals : list (hval R)) : Prop :=
  match k with
  | KAlpha _ => exists c al, vals = [HNum c; HNum al] /\ 0 < al <= 1 /\ stableGrid shape
  | KBiv => exists s1 s2 rho, vals = [HNum s1; HNum s2; HNum rho] /\ 0 < s1 /\ 0 < s2 /\ -1 < rho < 1 /\ List.length shape = 2%nat
  | _ => False
  end.
Section Keep.
  Variable e : env R.
  Hypothesis HN : (0 < e_size e)%nat.
  Hypothesis Hdim : List.length (e_names e) = List.length (e_shape e).
  Hypothesis Hlat : Forall (fun l => 0 < l) (e_tmlat e).
  Hypothesis HA : forall ax c al p, e_aconv e ax c al p = alphaConv (e_shape e) ax c al p.
  Hypothesis HB : forall s1 s2 rho p, e_bconv e s1 s2 rho p = bivConv (e_shape e) s1 s2 rho p.

  Lemma size_pos n : In n (e_shape e) -> (0 < n)%nat.
  Proof.
    unfold e_size in HN. revert HN. generalize (e_shape e). induction l as [|a l IH]; intros P I; [destruct I|].
    change (0 < a * natprod l)%nat in P. destruct I as [->|I]; [destruct n; lia|]. apply IH; auto. destruct (natprod l); lia.
  Qed.
  Lemma walk_keeps : keeps (okWalk (e_shape e)) e.
  Proof.
    intros k vals off p t1 t t' q Ok Gp E. destruct k; cbn [okWalk] in Ok; try contradiction.
    - destruct Ok as (c & al & -> & Ha & Sg). cbn [leafStep index nth_error scalarOf bind] in E.
      destruct (nameIndex (e_names e) _) as [ax|] eqn:EA; [|discriminate]. cbn [bind] in E. apply (nameIndex_lt e HN ltac:(lia)) in EA.
      destruct (index (e_tmlat e) ax) as [lc|]; [|discriminate]. cbn [bind] in E.
      destruct (Nat.ltb 2 _); [discriminate|]. destruct (_ && _); [discriminate|]. injection E as <-. apply normalise_good; auto. rewrite HA.
      rewrite Hdim in EA. pose proof size_pos as Sp. unfold e_size in *.
      destruct (e_shape e) as [|n1 [|n2 [|]]] eqn:Sh; cbn [stableGrid] in Sg; try contradiction.
      + assert (P1 : (0 < n1)%nat) by (apply Sp; now left). assert (Nn : natprod [n1] = n1) by (cbn; lia). rewrite Nn in *. assert (ax = 0%nat) as -> by (cbn in EA; lia).
        destruct Gp as [Fp| ->].
        * destruct (finite_tab _ _ Fp) as (f & -> & Pf). rewrite conv_one by (auto; lra). apply arr_good. intros y Hy. apply rsum_nonneg. intros x Hx. apply Rmult_le_pos; auto. now apply Kstable_nonneg.
        * right. pose proof (alphaConv_nan [n1] 0 (fdiv c lc) al ltac:(congruence) ltac:(cbn; lia) Sp) as X. now rewrite Nn in X.
      + destruct Sg as [E1 E2]. assert (P1 : (0 < n1)%nat) by (apply Sp; now left). assert (P2 : (0 < n2)%nat) by (apply Sp; right; now left).
        assert (Nn : natprod [n1; n2] = (n1 * n2)%nat) by (cbn; lia). rewrite Nn in *.
        destruct Gp as [Fp| ->].
        * destruct (finite_tab _ _ Fp) as (f & -> & Pf). rewrite conv_axis_K by (auto; lra). apply arr_good. intros y Hy. apply rsum_nonneg. intros x Hx. apply Rmult_le_pos; auto. now apply Kaxis_nonneg.
        * right. pose proof (alphaConv_nan [n1; n2] ax (fdiv c lc) al ltac:(congruence) ltac:(cbn; lia) Sp) as X. now rewrite Nn in X.
    - destruct Ok as (s1 & s2 & rho & -> & S1 & S2 & Rh & Ln). cbn [leafStep index nth_error scalarOf bind] in E. unfold index in E.
      destruct (nth_error (e_tmlat e) 0) as [l1|] eqn:EL1; [|discriminate]. cbn [bind] in E. destruct (nth_error (e_tmlat e) 1) as [l2|] eqn:EL2; [|discriminate]. cbn [bind] in E.
      rewrite Ln in E. cbn [Nat.eqb] in E. injection E as <-. apply normalise_good; auto. rewrite HB.
      apply nth_error_In in EL1, EL2. rewrite Forall_forall in Hlat. apply Hlat in EL1, EL2. pose proof size_pos as Sp. unfold e_size in *.
      destruct (e_shape e) as [|n1 [|n2 [|]]] eqn:Sh; try discriminate. assert (P1 : (0 < n1)%nat) by (apply Sp; now left). assert (P2 : (0 < n2)%nat) by (apply Sp; right; now left).
      assert (Nn : natprod [n1; n2] = (n1 * n2)%nat) by (cbn; lia). rewrite Nn in *. cbn [fdiv NumR].
      assert (Q1 : 0 < s1 / l1) by (apply Rdiv_lt_0_compat; auto). assert (Q2 : 0 < s2 / l2) by (apply Rdiv_lt_0_compat; auto).
      destruct Gp as [Fp| ->].
      + destruct (finite_tab _ _ Fp) as (f & -> & Pf). rewrite bivConv_R by lra. apply arr_good. intros y Hy. apply rsum_nonneg. intros x Hx. apply Rmult_le_pos; auto. apply bivProb_nonneg.
      + right. now apply biv_nan.
  Qed.
End Keep.

Lemma walkable_ind' shape names (P : tm R -> Prop) :
  (forall hn p, P (TM KStatic hn [] p [])) ->
  (forall hn p s sigma, In s names -> P (TM (KGRW s) hn [HNum sigma] p [])) ->
  (forall hn p s c al, In s names -> 0 < al <= 1 -> stableGrid shape -> P (TM (KAlpha s) hn [HNum c; HNum al] p [])) ->
  (forall hn p s1 s2 rho, 0 < s1 -> 0 < s2 -> -1 < rho < 1 -> List.length shape = 2%nat -> P (TM KBiv hn [HNum s1; HNum s2; HNum rho] p [])) ->
  (forall hn p tc, P (TM KChange hn [HNum tc] p [])) ->
  (forall hn p, P (TM KIndep hn [] p [])) ->
  (forall hn p x, P (TM KRegime hn [HNum x] p [])) ->
  (forall hn p x, P (TM KNotEq hn [HNum x] p [])) ->
  (forall hn hv p ms, Forall (walkable shape names) ms -> Forall P ms -> P (TM KComb hn hv p ms)) ->
  (forall hn p mask bs ms, List.length ms = S (List.length bs) -> Forall (walkable shape names) ms -> Forall P ms ->
     P (TM (KSerial mask) hn (map HNum bs) p ms)) ->
  forall m, walkable shape names m -> P m.
Proof.
  intros H1 H2 H2a H2b H3 H4 H5 H6 H7 H8. induction m as [k hn hv p ms IH] using tm_ind'. intros Run.
  assert (G : Forall (walkable shape names) ms -> Forall P ms).
  { clear Run. induction IH as [|m ms Hm Hms IHms]; intros F; [constructor|]. inversion F; subst. constructor; auto. }
  inversion Run; subst; auto.
Qed.
Lemma walkable_basic shape names m : walkable shape names m -> basicIn (okWalk shape) m.
Proof.
  revert m. apply walkable_ind'; cbn; auto.
  - intros hn p s c al _ Ha Sg. eauto 6.
  - intros hn p s1 s2 rho A B C D. exists s1, s2, rho. auto 6.
  - intros hn hv p ms _ F. induction F; auto.
  - intros hn p mask bs ms _ _ F. induction F; auto.
Qed.
Lemma walkable_total (e : env R) t1 t t' m : walkable (e_shape e) (e_names e) m -> List.length (e_names e) = List.length (e_shape e) ->
  List.length (e_tmlat e) = List.length (e_shape e) ->
  forall off p, exists q, step e m off p t1 t t' = Ok q.
Proof.
  intros Run Hd Hl. revert m Run. apply (walkable_ind' (e_shape e) (e_names e) (fun m => forall off p, exists q, step e m off p t1 t t' = Ok q)); intros; try (eexists; reflexivity).
  - cbn [step leafStep]. destruct (nameIndex_posOf _ _ H) as [-> Ln]. cbn [bind index nth_error scalarOf].
    unfold index. destruct (nth_error (e_tmlat e) _) eqn:E; [|apply nth_error_None in E; lia]. cbn [bind].
    destruct (fltb _ _); eexists; reflexivity.
  - cbn [step leafStep bind index nth_error scalarOf]. destruct (nameIndex_posOf _ _ H) as [-> Ln]. cbn [bind].
    unfold index. destruct (nth_error (e_tmlat e) _) eqn:E; [|apply nth_error_None in E; lia]. cbn [bind].
    destruct (e_shape e) as [|n1 [|n2 [|]]]; cbn [stableGrid] in H1; try contradiction; cbn [List.length Nat.ltb Nat.leb Nat.eqb andb forallb negb]; [eexists; reflexivity|].
    destruct H1 as [-> ->]. cbn. eexists; reflexivity.
  - cbn [step leafStep bind index nth_error scalarOf]. unfold index. rewrite H2. cbn [Nat.eqb].
    destruct (e_tmlat e) as [|l1 [|l2 l]]; cbn in Hl; try lia. cbn. eexists; reflexivity.
  - cbn [step]. revert p0. induction H0 as [|m ms Hm Hms IH]; intros q; [eauto|]. inversion H; subst.
    destruct (Hm off q) as [q' ->]. now apply IH.
  - cbn [step]. rewrite mapM_scalar. cbn [bind]. pose proof (breaksUpTo_le bs t1) as Hb.
    assert (Hi : (breaksUpTo bs t1 < List.length ms)%nat) by lia. clear Hb H.
    generalize dependent (offsetOf bs (breaksUpTo bs t1)). revert Hi. generalize (breaksUpTo bs t1) as i.
    induction H1 as [|m ms Hm Hms IH]; intros i Hi off'; [cbn in Hi; lia|]. inversion H0; subst.
    destruct i.
    + destruct (Hm off' p0) as [q ->]. cbn. eauto.
    + apply IH; auto. cbn in Hi. lia.
Qed.
