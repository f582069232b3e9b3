(** Built-in observation models: C49. *)
From Coq Require Import List ZArith Reals Lra Lia Arith Bool String.
From Verif Require Import Base.Num Base.Exn Base.Arr Base.RSum Base.Lift Model.Helper Model.Tm Model.HyperParams Model.Study Model.Api Model.ObsModels
  Spec.Kernel Spec.Hmm Spec.Config Spec.Dist Spec.Data Spec.Marginal Spec.ObsSpec Proof.Gauss Proof.FitThms Proof.FitInv Proof.SetupProof Proof.GridProof Proof.MarginalProof Proof.DataProof Props.Ex Props.Setup Props.Inference Props.Batch Props.Parameters.
Import ListNotations.
Local Open Scope string_scope.
Local Open Scope R_scope.

(** ** grids *)
Lemma meshgrid_length (vs : list (list R)) k : (k < List.length vs)%nat -> List.length (gridOf (meshgrid vs) k) = gridPoints vs.
Proof.
  intros Hk. unfold gridOf, meshgrid. rewrite (nth_indep _ [] (map (fun pt => nth 0 pt f0) (cart vs))) by (rewrite map_length, seq_length; auto).
  rewrite (map_nth (fun k0 => map (fun pt => nth k0 pt f0) (cart vs))). now rewrite map_length, cart_length.
Qed.
Lemma gridOf_tab (vs : list (list R)) k : (k < List.length vs)%nat -> gridOf (meshgrid vs) k = tab (gridPoints vs) (parAt vs k).
Proof.
  intros Hk. rewrite <- (tab_Rnth (gridOf (meshgrid vs) k)), meshgrid_length by auto. apply tab_ext. intros x Hx.
  unfold Rnth, gridOf. now rewrite meshgrid_nth.
Qed.
Lemma onGrid1_tab f (vs : list (list R)) : (0 < List.length vs)%nat -> onGrid1 f (meshgrid vs) = tab (gridPoints vs) (fun x => f (parAt vs 0 x)).
Proof. intros. unfold onGrid1. now rewrite gridOf_tab, map_tab. Qed.
Lemma onGrid2_tab f (vs : list (list R)) : (1 < List.length vs)%nat ->
  onGrid2 f (meshgrid vs) = tab (gridPoints vs) (fun x => f (parAt vs 0 x) (parAt vs 1 x)).
Proof. intros. unfold onGrid2. now rewrite !gridOf_tab, map2_tab by lia. Qed.
Lemma parAt_In vs k x : (k < List.length vs)%nat -> (x < gridPoints vs)%nat -> In (parAt vs k x) (nth k vs []).
Proof.
  intros Hk Hx. unfold parAt. apply nth_In. eapply Nat.lt_le_trans; [apply coord_lt; [rewrite map_length; auto|exact Hx]|].
  rewrite (nth_indep _ O (List.length (@nil R))) by (rewrite map_length; auto). rewrite (map_nth (@List.length R)). auto.
Qed.

(** ** densities *)
Lemma sqrt_exp b : 0 < b -> exp (/ 2 * ln b) = sqrt b.
Proof. intros P. rewrite <- (Rpower_sqrt b P). reflexivity. Qed.
Lemma two_pi_sq s : s <> 0 -> 0 < 2 * PI * s ^ 2.
Proof. intros Hs. apply Rmult_lt_0_compat; [pose proof PI_RGT_0; lra|]. replace (s ^ 2) with (s * s) by ring. apply Rsqr_pos_lt. auto. Qed.
Lemma normalDensity_pos m s x : s <> 0 -> 0 < normalDensity m s x.
Proof. intros Hs. unfold normalDensity. apply Rdiv_lt_0_compat; [apply exp_pos|apply sqrt_lt_R0, two_pi_sq; auto]. Qed.
Lemma gaussX_fin x m s : s <> 0 -> gaussX (Fin x) (Fin m) (Fin s) = Fin (normalDensity m s x).
Proof.
  intros Hs. pose proof (two_pi_sq s Hs) as P. assert (S2 : s * s <> 0) by (apply Rmult_integral_contrapositive_currified; auto).
  unfold gaussX, xneg, xsq, xlog, xexpo. cbn [xsub xminus xmul fsub fmul NumR].
  rewrite xdiv_fin by lra. unfold xln. cbn [fltb feqb f0 NumR lln LogNumR].
  rewrite (proj2 (Rltb_true 0 (2 * PI * (s * s)))) by (replace (s ^ 2) with (s * s) in P by ring; exact P).
  cbn [xmul xsub xminus xexp fmul fsub NumR lexp LogNumR]. f_equal. unfold normalDensity, Rminus. rewrite exp_plus, exp_Ropp. rewrite sqrt_exp.
  - unfold Rdiv. f_equal; [f_equal; field; auto|]. do 2 f_equal. ring.
  - replace (s ^ 2) with (s * s) in P by ring. exact P.
Qed.
Lemma laplaceDensity_pos m b x : 0 < b -> 0 < laplaceDensity m b x.
Proof. intros Hb. unfold laplaceDensity. apply Rdiv_lt_0_compat; [apply exp_pos|lra]. Qed.
Lemma laplaceX_fin x m b : 0 < b ->
  xdiv (xexpo (xdiv (xneg (xabs (xsub (Fin x) (Fin m)))) (Fin b))) (xmul (Fin 2) (Fin b)) = Fin (laplaceDensity m b x).
Proof.
  intros Hb. unfold xneg, xexpo. cbn [xsub xminus xabs fsub NumR]. rewrite xdiv_fin by lra. cbn [xexp lexp LogNumR xmul fmul NumR].
  rewrite xdiv_fin by lra. unfold laplaceDensity. do 4 f_equal. ring.
Qed.

Section Pdf.
  Variables (vs : list (list R)).
  Notation N := (gridPoints vs).

  (** Gaussian: the normal density with mean and standard deviation of the grid point *)
  Theorem C49_gaussian : forall p1 v1 p2 v2 prior d, List.length vs = 2%nat -> Forall (fun s => s <> 0) (nth 1 vs []) ->
    om_pdf (gaussian p1 v1 p2 v2 prior) (meshgrid vs) (Seg1 [Fin d]) = arrOf N (fun x => normalDensity (parAt vs 0 x) (parAt vs 1 x) d) /\
    forall x, (x < N)%nat -> 0 < normalDensity (parAt vs 0 x) (parAt vs 1 x) d.
  Proof.
    intros p1 v1 p2 v2 prior d L Hs. rewrite Forall_forall in Hs.
    assert (Q : forall x, (x < N)%nat -> parAt vs 1 x <> 0) by (intros; apply Hs, parAt_In; auto; lia). split.
    - cbn. rewrite onGrid2_tab by lia. unfold arrOf. rewrite map_tab. apply tab_ext. intros x Hx. apply gaussX_fin; auto.
    - intros. apply normalDensity_pos; auto.
  Qed.
  (** WhiteNoise: normal density with mean zero *)
  Theorem C49_whiteNoise : forall p v prior d, List.length vs = 1%nat -> Forall (fun s => s <> 0) (nth 0 vs []) ->
    om_pdf (whiteNoise p v prior) (meshgrid vs) (Seg1 [Fin d]) = arrOf N (fun x => normalDensity 0 (parAt vs 0 x) d) /\
    forall x, (x < N)%nat -> 0 < normalDensity 0 (parAt vs 0 x) d.
  Proof.
    intros p v prior d L Hs. rewrite Forall_forall in Hs.
    assert (Q : forall x, (x < N)%nat -> parAt vs 0 x <> 0) by (intros; apply Hs, parAt_In; auto; lia). split.
    - cbn. rewrite onGrid1_tab by lia. unfold arrOf. rewrite map_tab. apply tab_ext. intros x Hx. apply gaussX_fin; auto.
    - intros. apply normalDensity_pos; auto.
  Qed.
  (** GaussianMean: normal density with the standard deviation given with the datum *)
  Theorem C49_gaussianMean : forall p v prior d s, List.length vs = 1%nat -> s <> 0 ->
    om_pdf (gaussianMean p v prior) (meshgrid vs) (Seg2 [[Fin d; Fin s]]) = arrOf N (fun x => normalDensity (parAt vs 0 x) s d) /\
    forall x, (x < N)%nat -> 0 < normalDensity (parAt vs 0 x) s d.
  Proof.
    intros p v prior d s L Hs. split.
    - cbn. rewrite onGrid1_tab by lia. unfold arrOf. rewrite map_tab. apply tab_ext. intros x Hx. apply gaussX_fin; auto.
    - intros. apply normalDensity_pos; auto.
  Qed.
  (** AR1: normal density around the multiple of the previous observation; the second datum of the segment is the newer one *)
  Theorem C49_ar1 : forall p1 v1 p2 v2 prior d0 d1, List.length vs = 2%nat -> Forall (fun s => s <> 0) (nth 1 vs []) ->
    om_pdf (ar1 p1 v1 p2 v2 prior) (meshgrid vs) (Seg1 [Fin d0; Fin d1]) = arrOf N (fun x => normalDensity (parAt vs 0 x * d0) (parAt vs 1 x) d1) /\
    forall x, (x < N)%nat -> 0 < normalDensity (parAt vs 0 x * d0) (parAt vs 1 x) d1.
  Proof.
    intros p1 v1 p2 v2 prior d0 d1 L Hs. rewrite Forall_forall in Hs.
    assert (Q : forall x, (x < N)%nat -> parAt vs 1 x <> 0) by (intros; apply Hs, parAt_In; auto; lia). split.
    - cbn. rewrite onGrid2_tab by lia. unfold arrOf. rewrite map_tab. apply tab_ext. intros x Hx. apply gaussX_fin; auto.
    - intros. apply normalDensity_pos; auto.
  Qed.
  (** ScaledAR1: the same with noise amplitude s sqrt(1 - r^2) *)
  Theorem C49_scaledAr1 : forall p1 v1 p2 v2 prior d0 d1, List.length vs = 2%nat ->
    Forall (fun r => -1 < r < 1) (nth 0 vs []) -> Forall (fun s => s <> 0) (nth 1 vs []) ->
    let amp x := parAt vs 1 x * sqrt (1 - parAt vs 0 x ^ 2) in
    om_pdf (scaledAr1 p1 v1 p2 v2 prior) (meshgrid vs) (Seg1 [Fin d0; Fin d1]) = arrOf N (fun x => normalDensity (parAt vs 0 x * d0) (amp x) d1) /\
    forall x, (x < N)%nat -> 0 < normalDensity (parAt vs 0 x * d0) (amp x) d1.
  Proof.
    intros p1 v1 p2 v2 prior d0 d1 L Hr Hs amp. rewrite Forall_forall in Hr, Hs.
    assert (Q : forall x, (x < N)%nat -> 0 < 1 - parAt vs 0 x ^ 2).
    { intros x Hx. assert (B : -1 < parAt vs 0 x < 1) by (apply Hr, parAt_In; auto; lia). nra. }
    assert (A : forall x, (x < N)%nat -> amp x <> 0).
    { intros x Hx. apply Rmult_integral_contrapositive_currified; [apply Hs, parAt_In; auto; lia|]. apply Rgt_not_eq, sqrt_lt_R0. auto. }
    split.
    - cbn [om_pdf scaledAr1]. unfold scaledAr1Pdf. cbn [datum index nth_error bind pure]. rewrite onGrid2_tab by lia. unfold arrOf. rewrite map_tab. apply tab_ext. intros x Hx.
      rewrite <- gaussX_fin by auto. f_equal. unfold amp, xsq. cbn [xmul xsub xminus xsqrt fmul fsub NumR].
      rewrite (proj2 (Rltb_false _ 0)). 2:{ specialize (Q x Hx). replace (parAt vs 0 x ^ 2) with (parAt vs 0 x * parAt vs 0 x) in Q by ring. lra. }
      cbn [xmul fmul NumR]. do 4 f_equal. ring.
    - intros. apply normalDensity_pos; auto.
  Qed.
  (** Laplace *)
  Theorem C49_laplace : forall p1 v1 p2 v2 prior d, List.length vs = 2%nat -> Forall (fun b => 0 < b) (nth 1 vs []) ->
    om_pdf (laplace p1 v1 p2 v2 prior) (meshgrid vs) (Seg1 [Fin d]) = arrOf N (fun x => laplaceDensity (parAt vs 0 x) (parAt vs 1 x) d) /\
    forall x, (x < N)%nat -> 0 < laplaceDensity (parAt vs 0 x) (parAt vs 1 x) d.
  Proof.
    intros p1 v1 p2 v2 prior d L Hs. rewrite Forall_forall in Hs.
    assert (Q : forall x, (x < N)%nat -> 0 < parAt vs 1 x) by (intros; apply Hs, parAt_In; auto; lia). split.
    - cbn [om_pdf laplace]. unfold laplacePdf. cbn [datum index nth_error bind pure]. rewrite onGrid2_tab by lia. unfold arrOf. rewrite map_tab. apply tab_ext. intros x Hx. apply laplaceX_fin; auto.
    - intros. apply laplaceDensity_pos; auto.
  Qed.

  Lemma countOf_nat k : countOf (Fin (INR k)) = Ok k.
  Proof.
    unfold countOf. rewrite INR_IZR_INZ. assert (E : Int_part (IZR (Z.of_nat k)) = Z.of_nat k).
    { symmetry. unfold Int_part. pose proof (tech_up (IZR (Z.of_nat k)) (Z.of_nat k + 1)) as U. rewrite <- U; [lia| |]; rewrite plus_IZR; lra. }
    rewrite E, Reqb_refl. replace (0 <=? Z.of_nat k)%Z with true by (symmetry; apply Z.leb_le; lia). cbn [andb]. now rewrite Nat2Z.id.
  Qed.
  (** Poisson: probabilities of the counts; they are not negative and sum to one *)
  Theorem C49_poisson : forall p v prior, List.length vs = 1%nat -> Forall (fun lam => 0 <= lam) (nth 0 vs []) ->
    (forall k, om_pdf (poisson p v prior) (meshgrid vs) (Seg1 [Fin (INR k)]) = arrOf N (fun x => poissonProb (parAt vs 0 x) k)) /\
    (forall x, (x < N)%nat -> (forall k, 0 <= poissonProb (parAt vs 0 x) k) /\ infinite_sum (poissonProb (parAt vs 0 x)) 1).
  Proof.
    intros p v prior L Hl. rewrite Forall_forall in Hl.
    assert (Q : forall x, (x < N)%nat -> 0 <= parAt vs 0 x) by (intros; apply Hl, parAt_In; auto; lia). split.
    - intros k. cbn [om_pdf poisson]. unfold poissonPdf. cbn [datum index nth_error bind]. rewrite countOf_nat. cbn [bind pure]. rewrite onGrid1_tab by lia.
      unfold arrOf. rewrite map_tab. reflexivity.
    - intros x Hx. split.
      + intros k. unfold poissonProb, Rdiv. pose proof (INR_fact_lt_0 k). pose proof (exp_pos (- parAt vs 0 x)).
        apply Rmult_le_pos; [apply Rmult_le_pos; [apply pow_le; auto|lra]|left; apply Rinv_0_lt_compat; auto].
      + set (lam := parAt vs 0 x). assert (E : exp_in lam (exp lam)) by (unfold exp; destruct (exist_exp lam); auto).
        intros eps Heps. pose proof (exp_pos (- lam)) as P. destruct (E (eps / exp (- lam))) as (n0 & Hn); [apply Rdiv_lt_0_compat; auto|].
        exists n0. intros n Hge. specialize (Hn n Hge). unfold R_dist in *.
        replace (sum_f_R0 (poissonProb lam) n) with (exp (- lam) * sum_f_R0 (fun i => / INR (fact i) * lam ^ i) n).
        2:{ rewrite scal_sum. apply sum_eq. intros i _. unfold poissonProb. field. apply INR_fact_neq_0. }
        replace 1 with (exp (- lam) * exp lam) by (rewrite <- exp_plus, Rplus_opp_l; apply exp_0).
        rewrite <- Rmult_minus_distr_l, Rabs_mult, (Rabs_right (exp (- lam))) by lra.
        apply Rmult_lt_reg_l with (/ exp (- lam)); [apply Rinv_0_lt_compat; auto|]. rewrite <- Rmult_assoc, Rinv_l, Rmult_1_l by lra. unfold Rdiv in Hn. lra.
  Qed.
End Pdf.

(** Poisson: observations that are not counts (negative, fractional, not finite) are refused *)
Theorem C49_poisson_counts : forall grid d, (forall k, d <> Fin (INR k)) -> poissonPdf grid (Seg1 [d]) = Err ValueError.
Proof.
  intros grid d H. unfold poissonPdf. cbn [datum index nth_error bind]. destruct d as [x| | |]; [|reflexivity..]. unfold countOf.
  destruct (Reqb (IZR (Int_part x)) x && Z.leb 0 (Int_part x)) eqn:E; [|reflexivity]. apply andb_true_iff in E. destruct E as [E1 E2]. apply Reqb_true in E1. apply Z.leb_le in E2.
  exfalso. apply (H (Z.to_nat (Int_part x))). rewrite INR_IZR_INZ, Z2Nat.id by lia. now rewrite E1.
Qed.
Example C49_poisson_counts_ex : poissonPdf [[1; 2]] (Seg1 [Fin (-1)]) = Err ValueError /\ poissonPdf [[1; 2]] (Seg1 [Fin (/ 2)]) = Err ValueError.
Proof.
  split; apply C49_poisson_counts; intros k E; injection E; intros Ek; [pose proof (pos_INR k); lra|].
  destruct k as [|k]; [cbn in Ek; lra|]. rewrite S_INR in Ek. pose proof (pos_INR k). lra.
Qed.

(** ** Bernoulli *)
Lemma clip01_in p : 0 <= p <= 1 -> clip01 p = p.
Proof.
  intros. unfold clip01. rewrite (proj2 (Rltb_false 1 p)), (proj2 (Rltb_false p 0)) by lra. reflexivity.
Qed.
Lemma clip01_out p : p < 0 \/ 1 < p -> clip01 p = 0.
Proof.
  intros [|]; unfold clip01; [rewrite (proj2 (Rltb_true p 0)) by lra; now rewrite orb_true_r|now rewrite (proj2 (Rltb_true 1 p)) by lra].
Qed.
Lemma clip01_idem p : clip01 (clip01 p) = clip01 p.
Proof. unfold clip01 at 2 3. destruct (_ || _) eqn:E; [apply clip01_in; lra|]. unfold clip01. now rewrite E. Qed.

(** Values between zero and one: the probabilities of 0 and 1 are 1 - p and p, they are not negative and sum to one, and the grid
    is left alone. (Every other number counts as 1.) *)
Theorem C49_bernoulli : forall grid d, grid <> [] -> Forall (fun p => 0 <= p <= 1) (gridOf grid 0) ->
  bernoulliPdf grid (Seg1 [Fin d]) = Ok (grid, map (fun p => Fin (bernoulliProb p d)) (gridOf grid 0)) /\
  Forall (fun p => 0 <= bernoulliProb p 0 /\ 0 <= bernoulliProb p 1 /\ bernoulliProb p 0 + bernoulliProb p 1 = 1) (gridOf grid 0).
Proof.
  intros grid d Hn Hp. split.
  - unfold bernoulliPdf. cbn [datum index nth_error bind].
    assert (E : map clip01 (gridOf grid 0) = gridOf grid 0) by (rewrite <- (map_id (gridOf grid 0)) at 2; apply map_ext_in; intros p I; rewrite Forall_forall in Hp; apply clip01_in, Hp, I).
    rewrite E. f_equal. f_equal; [destruct grid; [congruence|reflexivity]|]. cbn [xeqb feqb NumR]. unfold bernoulliProb.
    destruct (Reqb d 0) eqn:X; [apply Reqb_true in X|apply Reqb_false in X]; destruct (Req_EM_T d 0); try contradiction; reflexivity.
  - eapply Forall_impl; [|exact Hp]. intros p P. unfold bernoulliProb. destruct (Req_EM_T 0 0); destruct (Req_EM_T 1 0); lra.
Qed.
(** Values outside: the likelihood is that of p = 0, i.e. one for the observation 0 and zero for any other; the value is
    overwritten with zero in the grid. All else stays, and the next evaluations give the same as on the original grid. *)
Theorem C49_bernoulli_outside : forall grid d, grid <> [] ->
  exists grid' l, bernoulliPdf grid (Seg1 [Fin d]) = Ok (grid', l) /\
    (forall k, (k <> 0)%nat -> gridOf grid' k = gridOf grid k) /\
    List.length (gridOf grid' 0) = List.length (gridOf grid 0) /\ List.length l = List.length (gridOf grid 0) /\
    (forall x, (x < List.length (gridOf grid 0))%nat ->
      let p := nth x (gridOf grid 0) 0 in
      (0 <= p <= 1 -> nth x (gridOf grid' 0) 0 = p /\ nth x l NaN = Fin (bernoulliProb p d)) /\
      (p < 0 \/ 1 < p -> nth x (gridOf grid' 0) 0 = 0 /\ nth x l NaN = Fin (if Req_EM_T d 0 then 1 else 0))) /\
    (forall d', exists g, bernoulliPdf grid (Seg1 [Fin d']) = Ok (grid', g) /\ bernoulliPdf grid' (Seg1 [Fin d']) = Ok (grid', g)).
Proof.
  intros grid d Hn. destruct grid as [|g0 rest]; [congruence|]. unfold bernoulliPdf. cbn [datum index nth_error bind gridOf nth lset].
  eexists _, _. split; [reflexivity|]. cbn [gridOf nth]. split; [|split; [|split; [|split]]].
  - intros [|k] Hk; [congruence|reflexivity].
  - apply map_length.
  - destruct (xeqb _ _); now rewrite !map_length.
  - intros x Hx. assert (C : nth x (map clip01 g0) 0 = clip01 (nth x g0 0)).
    { rewrite (nth_indep _ 0 (clip01 0)) by (rewrite map_length; auto). apply map_nth. }
    assert (Lx : nth x (if xeqb (Fin d) (Fin 0) then map (fun p => Fin (1 - p)) (map clip01 g0) else map Fin (map clip01 g0)) NaN = Fin (bernoulliProb (clip01 (nth x g0 0)) d)).
    { cbn [xeqb feqb NumR]. unfold bernoulliProb. destruct (Reqb d 0) eqn:X; [apply Reqb_true in X|apply Reqb_false in X]; destruct (Req_EM_T d 0); try contradiction.
      - rewrite (nth_indep _ NaN (Fin (1 - 0))) by (rewrite !map_length; auto). rewrite (map_nth (fun p => Fin (1 - p)) (map clip01 g0) 0). now rewrite C.
      - rewrite (nth_indep _ NaN (Fin 0)) by (rewrite !map_length; auto). rewrite (map_nth (@Fin R)). now rewrite C. }
    cbn zeta. rewrite C, Lx. split; intros P.
    + rewrite clip01_in by auto. auto.
    + rewrite clip01_out by auto. split; auto. unfold bernoulliProb. destruct (Req_EM_T d 0); f_equal; lra.
  - intros d'. assert (E : map clip01 (map clip01 g0) = map clip01 g0) by (rewrite map_map; apply map_ext, clip01_idem).
    rewrite E. eauto.
Qed.
(** concrete: p = 3/2, observation 0 *)
Example C49_bernoulli_ex : bernoulliPdf [[/ 2; 3 / 2]] (Seg1 [Fin 0]) = Ok ([[/ 2; 0]], [Fin (1 - / 2); Fin (1 - 0)]).
Proof.
  unfold bernoulliPdf. cbn [datum index nth_error bind gridOf nth lset map xeqb feqb NumR]. rewrite clip01_in, clip01_out by lra. now rewrite Reqb_refl.
Qed.
(** Finding: a negative rate is accepted and gives negative "likelihoods" for odd counts *)
Theorem C49_poisson_negative_refuted : exists grid d x, poissonPdf grid (Seg1 [Fin d]) = Ok [Fin x] /\ x < 0.
Proof.
  exists [[-1]], (INR 1). eexists. split.
  - unfold poissonPdf. cbn [datum index nth_error bind]. rewrite countOf_nat. reflexivity.
  - cbn. pose proof (exp_pos (- -1)). lra.
Qed.

(** ** Laplace is normalised *)
Lemma glue (f g h : R -> R) c l : derivable_pt_lim g c l -> derivable_pt_lim h c l ->
  (forall x, x <= c -> f x = g x) -> (forall x, c <= x -> f x = h x) -> derivable_pt_lim f c l.
Proof.
  intros G H Fg Fh eps He. destruct (G eps He) as (d1 & D1). destruct (H eps He) as (d2 & D2).
  assert (Pm : 0 < Rmin d1 d2) by (apply Rmin_pos; [apply d1|apply d2]).
  exists (mkposreal _ Pm). intros t Ht Hd. cbn in Hd. destruct (Rle_or_lt t 0) as [L|L].
  - rewrite (Fg (c + t)), (Fg c) by lra. apply D1; auto. eapply Rlt_le_trans; [exact Hd|apply Rmin_l].
  - rewrite (Fh (c + t)), (Fh c) by lra. apply D2; auto. eapply Rlt_le_trans; [exact Hd|apply Rmin_r].
Qed.
Lemma dlocal (f g : R -> R) c l r : 0 < r -> derivable_pt_lim g c l -> (forall x, Rabs (x - c) < r -> f x = g x) -> derivable_pt_lim f c l.
Proof.
  intros Hr G E eps He. destruct (G eps He) as (d1 & D1). assert (Pm : 0 < Rmin d1 r) by (apply Rmin_pos; [apply d1|auto]).
  exists (mkposreal _ Pm). intros t Ht Hd. cbn in Hd. rewrite !E.
  - apply D1; auto. eapply Rlt_le_trans; [exact Hd|apply Rmin_l].
  - unfold Rminus. rewrite Rplus_opp_r, Rabs_R0. auto.
  - replace (c + t - c) with t by ring. eapply Rlt_le_trans; [exact Hd|apply Rmin_r].
Qed.
Definition laplaceLeft (m b x : R) : R := exp ((x - m) / b) / 2.
Definition laplaceRight (m b x : R) : R := 1 - exp (- (x - m) / b) / 2.
Definition laplaceCdf (m b x : R) : R := if Rle_dec x m then laplaceLeft m b x else laplaceRight m b x.
Lemma dexp_affine a c x : derivable_pt_lim (fun y => exp (a * y + c)) x (a * exp (a * x + c)).
Proof.
  rewrite Rmult_comm. apply (derivable_pt_lim_comp (fun y => a * y + c) exp x a (exp (a * x + c))).
  - replace a with (a * 1 + 0) at 1 by ring. apply (derivable_pt_lim_plus (fun y => a * y) (fun _ => c)).
    + apply (derivable_pt_lim_scal (fun y => y)). apply derivable_pt_lim_id.
    + apply derivable_pt_lim_const.
  - apply derivable_pt_lim_exp.
Qed.
Lemma dlim_ext (f g : R -> R) x l : (forall y, f y = g y) -> derivable_pt_lim g x l -> derivable_pt_lim f x l.
Proof. intros E G. apply (dlocal f g x l 1); auto. lra. Qed.
Lemma dleft m b x : 0 < b -> derivable_pt_lim (laplaceLeft m b) x (exp ((x - m) / b) / (2 * b)).
Proof.
  intros Hb. apply (dlim_ext _ (fun y => / 2 * exp (/ b * y + - m / b))).
  - intros y. unfold laplaceLeft. replace ((y - m) / b) with (/ b * y + - m / b) by (field; lra). lra.
  - replace (exp ((x - m) / b) / (2 * b)) with (/ 2 * (/ b * exp (/ b * x + - m / b))).
    + apply (derivable_pt_lim_scal (fun y => exp (/ b * y + - m / b))), dexp_affine.
    + replace ((x - m) / b) with (/ b * x + - m / b) by (field; lra). field. lra.
Qed.
Lemma dright m b x : 0 < b -> derivable_pt_lim (laplaceRight m b) x (exp (- (x - m) / b) / (2 * b)).
Proof.
  intros Hb. apply (dlim_ext _ (fun y => 1 + - / 2 * exp (- / b * y + m / b))).
  - intros y. unfold laplaceRight. replace (- (y - m) / b) with (- / b * y + m / b) by (field; lra). lra.
  - replace (exp (- (x - m) / b) / (2 * b)) with (0 + - / 2 * (- / b * exp (- / b * x + m / b))).
    + apply (derivable_pt_lim_plus (fun _ => 1) (fun y => - / 2 * exp (- / b * y + m / b))); [apply derivable_pt_lim_const|].
      apply (derivable_pt_lim_scal (fun y => exp (- / b * y + m / b))), dexp_affine.
    + replace (- (x - m) / b) with (- / b * x + m / b) by (field; lra). field. lra.
Qed.
Lemma exp_tail eps b : 0 < eps -> 0 < b -> exists M, forall t, M < t -> exp (- t / b) / 2 < eps.
Proof.
  intros He Hb. exists (- b * ln eps). intros t Ht. apply Rlt_trans with (exp (ln eps) / 2).
  - apply Rmult_lt_compat_r; [lra|]. apply exp_increasing. apply Rmult_lt_reg_r with b; auto. unfold Rdiv. rewrite Rmult_assoc, Rinv_l by lra. lra.
  - rewrite exp_ln by auto. lra.
Qed.
(** the Laplace density is normalised: it has a distribution function *)
Theorem C49_laplace_normalised : forall m b, 0 < b -> exists F, distributionFunction (laplaceDensity m b) F.
Proof.
  intros m b Hb. exists (laplaceCdf m b). split; [|split].
  - intros x. unfold laplaceDensity. destruct (Rtotal_order x m) as [L|[->|G]].
    + apply (dlocal _ (laplaceLeft m b) x _ (m - x)); [lra| |].
      * rewrite Rabs_left by lra. replace (- - (x - m) / b) with ((x - m) / b) by (field; lra). now apply dleft.
      * intros y Hy. unfold laplaceCdf. destruct (Rle_dec y m); auto. apply Rabs_def2 in Hy. lra.
    + apply (glue _ (laplaceLeft m b) (laplaceRight m b) m).
      * replace (exp (- Rabs (m - m) / b) / (2 * b)) with (exp ((m - m) / b) / (2 * b)); [now apply dleft|].
        unfold Rminus. rewrite Rplus_opp_r, Rabs_R0, Ropp_0. reflexivity.
      * replace (exp (- Rabs (m - m) / b) / (2 * b)) with (exp (- (m - m) / b) / (2 * b)); [now apply dright|].
        unfold Rminus. rewrite Rplus_opp_r, Rabs_R0. reflexivity.
      * intros y Hy. unfold laplaceCdf. destruct (Rle_dec y m); [auto|contradiction].
      * intros y Hy. unfold laplaceCdf. destruct (Rle_dec y m); auto. assert (y = m) by lra. subst. unfold laplaceLeft, laplaceRight.
        unfold Rminus. rewrite Rplus_opp_r, Ropp_0. unfold Rdiv. rewrite Rmult_0_l, exp_0. lra.
    + apply (dlocal _ (laplaceRight m b) x _ (x - m)); [lra| |].
      * rewrite Rabs_right by lra. now apply dright.
      * intros y Hy. unfold laplaceCdf. destruct (Rle_dec y m); auto. apply Rabs_def2 in Hy. lra.
  - intros eps He. destruct (exp_tail eps b He Hb) as (M & HM). exists (Rmin m (m - M)). intros x Hx.
    assert (x < m) by (eapply Rlt_le_trans; [exact Hx|apply Rmin_l]). assert (x < m - M) by (eapply Rlt_le_trans; [exact Hx|apply Rmin_r]).
    unfold laplaceCdf, laplaceLeft. destruct (Rle_dec x m); [|lra]. pose proof (exp_pos ((x - m) / b)). rewrite Rabs_right by lra.
    replace ((x - m) / b) with (- (m - x) / b) by (field; lra). apply HM. lra.
  - intros eps He. destruct (exp_tail eps b He Hb) as (M & HM). exists (Rmax m (m + M)). intros x Hx.
    assert (m < x) by (eapply Rle_lt_trans; [apply Rmax_l|exact Hx]). assert (m + M < x) by (eapply Rle_lt_trans; [apply Rmax_r|exact Hx]).
    unfold laplaceCdf, laplaceRight. destruct (Rle_dec x m); [lra|]. pose proof (exp_pos (- (x - m) / b)).
    rewrite Rabs_left by lra. assert (exp (- (x - m) / b) / 2 < eps) by (apply HM; lra). lra.
Qed.

(** ** The built-in models within the inference *)
(** a value that is missing or a number with property P *)
Definition missingOr (P : R -> Prop) (x : xnum R) : Prop := x = NaN \/ exists r, x = Fin r /\ P r.
Definition everyDatum (P : xnum R -> Prop) (d : raw R) : Prop :=
  match d with Raw1 l => Forall P l | Raw2 rows => Forall (Forall P) rows end.
Definition anyNumber (r : R) : Prop := True.
(** a built-in model together with parameter values and data for which it is meant *)
Inductive meant : om R -> list (list R) -> raw R -> Prop :=
| meant_bernoulli p v pr vs d : Forall (fun p => 0 <= p <= 1) (nth 0 vs []) -> everyDatum (missingOr anyNumber) d -> meant (bernoulli p v pr) vs d
| meant_poisson p v pr vs d : Forall (fun lam => 0 <= lam) (nth 0 vs []) -> everyDatum (missingOr (fun r => exists k, r = INR k)) d -> meant (poisson p v pr) vs d
| meant_gaussian p1 v1 p2 v2 pr vs d : Forall (fun s => 0 < s) (nth 1 vs []) -> everyDatum (missingOr anyNumber) d -> meant (gaussian p1 v1 p2 v2 pr) vs d
| meant_laplace p1 v1 p2 v2 pr vs d : Forall (fun s => 0 < s) (nth 1 vs []) -> everyDatum (missingOr anyNumber) d -> meant (laplace p1 v1 p2 v2 pr) vs d
| meant_whiteNoise p v pr vs d : Forall (fun s => 0 < s) (nth 0 vs []) -> everyDatum (missingOr anyNumber) d -> meant (whiteNoise p v pr) vs d
| meant_gaussianMean p v pr vs rows :
    Forall (fun row => In NaN row \/ exists x s, row = [Fin x; Fin s] /\ s <> 0) rows -> meant (gaussianMean p v pr) vs (Raw2 rows)
| meant_ar1 p1 v1 p2 v2 pr vs d : Forall (fun s => 0 < s) (nth 1 vs []) -> everyDatum (missingOr anyNumber) d -> meant (ar1 p1 v1 p2 v2 pr) vs d
| meant_scaledAr1 p1 v1 p2 v2 pr vs d : Forall (fun r => -1 < r < 1) (nth 0 vs []) -> Forall (fun s => 0 < s) (nth 1 vs []) ->
    everyDatum (missingOr anyNumber) d -> meant (scaledAr1 p1 v1 p2 v2 pr) vs d.

Lemma finite_arrOf N f : (forall x, (x < N)%nat -> 0 <= f x) -> finite N (arrOf N f).
Proof.
  intros P. exists (tab N f). split; [reflexivity|]. split; [apply tab_length|]. apply Forall_forall. intros y I.
  unfold tab in I. apply in_map_iff in I. destruct I as (x & <- & Hx). apply in_seq in Hx. apply P. lia.
Qed.
Lemma finite_amul N a b : finite N a -> finite N b -> finite N (amul a b).
Proof.
  intros (r & -> & L & P) (r' & -> & L' & P'). rewrite amul_fin. exists (rmul r r'). split; [reflexivity|]. split.
  - rewrite rmul_length; lia.
  - clear L L'. revert r' P'. induction P; intros r' P'; [constructor|]. destruct P'; cbn; constructor; auto. now apply Rmult_le_pos.
Qed.
Lemma finite_ones N : finite N (aones N).
Proof. rewrite arrOf_ones. apply finite_arrOf. intros; lra. Qed.
Lemma window_In {A} (l : list A) n w : (0 < n)%nat -> In w (movingWindow l n) -> List.length w = n /\ forall x, In x w -> In x l.
Proof.
  intros Hn I. unfold movingWindow in I. apply in_map_iff in I. destruct I as (i & <- & Hi). apply in_seq in Hi. split.
  - rewrite firstn_length, skipn_length. lia.
  - intros x Ix. rewrite <- (firstn_skipn i l). apply in_or_app. right. rewrite <- (firstn_skipn n (skipn i l)). apply in_or_app. now left.
Qed.
Lemma allFin (P : R -> Prop) xs : Forall (missingOr P) xs -> existsb xisnan xs = false -> exists l, xs = map Fin l /\ Forall P l.
Proof.
  induction 1 as [|x xs Hx HF IH]; intros E; [exists []; split; [auto|constructor]|]. cbn in E. apply orb_false_iff in E. destruct E as [E1 E2].
  destruct (IH E2) as (l & -> & Q). destruct Hx as [->|(r & -> & Pr)]; [discriminate|]. exists (r :: l). split; [auto|now constructor].
Qed.
Lemma processed_mult (o : om R) N grid P d : om_multiply o = true -> (0 < om_seglen o)%nat ->
  (forall l, List.length l = om_seglen o -> Forall P l -> finite N (om_pdf o grid (Seg1 (map Fin l)))) -> everyDatum (missingOr P) d ->
  forall s, In s (formatData d (om_seglen o)) -> finite N (processedPdf o N grid s).
Proof.
  intros Em Hs Hp Hd.
  assert (P1 : forall xs, List.length xs = om_seglen o -> Forall (missingOr P) xs -> finite N (processed1 o N grid xs)).
  { intros xs L HF. unfold processed1. destruct (existsb xisnan xs) eqn:E; [apply finite_ones|]. destruct (allFin P xs HF E) as (l & -> & Q).
    rewrite map_length in L. auto. }
  intros s I. destruct d as [l|rows]; cbn [formatData everyDatum] in *; apply in_map_iff in I; destruct I as (w & <- & I).
  - destruct (window_In _ _ _ Hs I) as [L Sub]. cbn [processedPdf]. apply P1; auto. apply Forall_forall. intros x Ix. rewrite Forall_forall in Hd. auto.
  - destruct (window_In _ _ _ Hs I) as [L Sub]. cbn [processedPdf]. rewrite Em, columns_seq, map_map.
    assert (Fo : forall js a, finite N a -> finite N (fold_left amul (map (fun j => processed1 o N grid (column w j)) js) a)).
    { induction js as [|j js IH]; intros a Fa; [exact Fa|]. cbn [map fold_left]. apply IH, finite_amul; auto. apply P1.
      - unfold column. now rewrite map_length.
      - apply Forall_map, Forall_forall. intros row Ir. destruct (Nat.lt_ge_cases j (List.length row)) as [Lt|Ge].
        + specialize (Sub row Ir). rewrite Forall_forall in Hd. specialize (Hd row Sub). rewrite Forall_forall in Hd. apply Hd, nth_In. auto.
        + rewrite nth_overflow by auto. now left. }
    apply Fo, finite_ones.
Qed.
Lemma one_elem {A} (l : list A) : List.length l = 1%nat -> exists x, l = [x].
Proof. destruct l as [|x [|? ?]]; cbn; try discriminate. eauto. Qed.
Lemma two_elems {A} (l : list A) : List.length l = 2%nat -> exists x y, l = [x; y].
Proof. destruct l as [|x [|y [|? ?]]]; cbn; try discriminate. eauto. Qed.

(** Within their meaning every built-in model gives a non-negative number for every segment at every grid point. *)
Theorem C49_likelihoods : forall S o m vs ts, configured S o m vs ts -> meant o vs (st_raw S) ->
  forall s, In s (segments S o) -> finite (gridPoints vs) (processedPdf o (gridPoints vs) (meshgrid vs) s).
Proof.
  intros S o m vs ts C M. pose proof (cf_names _ _ _ _ _ C) as Ln. unfold segments. clear C. remember (st_raw S) as d eqn:Ed. clear Ed S.
  assert (NZ : forall l : list R, Forall (fun s => 0 < s) l -> Forall (fun s => s <> 0) l) by (intros l; apply Forall_impl; intros; lra).
  destruct M; cbn [om_names bernoulli poisson gaussian laplace whiteNoise gaussianMean ar1 scaledAr1 List.length] in Ln.
  - apply (processed_mult _ _ _ anyNumber); auto. cbn [om_seglen bernoulli om_pdf]. intros l L _. apply one_elem in L. destruct L as [x ->]. cbn [map].
    assert (G : gridOf (meshgrid vs) 0 = tab (gridPoints vs) (parAt vs 0)) by (apply gridOf_tab; lia).
    assert (Q : forall y, (y < gridPoints vs)%nat -> 0 <= parAt vs 0 y <= 1) by (intros y Hy; rewrite Forall_forall in H; apply H, parAt_In; auto; lia).
    destruct (C49_bernoulli (meshgrid vs) x) as [E _].
    + intros Z. apply (f_equal (@List.length _)) in Z. unfold meshgrid in Z. rewrite map_length, seq_length in Z. cbn in Z. lia.
    + rewrite G. apply Forall_forall. intros y I. unfold tab in I. apply in_map_iff in I. destruct I as (z & <- & Hz). apply in_seq in Hz. apply Q. lia.
    + rewrite E. cbn [snd]. rewrite G, map_tab. replace (tab (gridPoints vs) (fun x0 => Fin (bernoulliProb (parAt vs 0 x0) x))) with (arrOf (gridPoints vs) (fun x0 => bernoulliProb (parAt vs 0 x0) x)) by (unfold arrOf; now rewrite map_tab).
      apply finite_arrOf. intros y Hy. specialize (Q y Hy). unfold bernoulliProb. destruct (Req_EM_T x 0); lra.
  - apply (processed_mult _ _ _ (fun r => exists k, r = INR k)); auto. cbn [om_seglen poisson]. intros l L Q. apply one_elem in L. destruct L as [x ->].
    inversion Q as [|? ? (k & ->) _]; subst. cbn [map]. destruct (C49_poisson vs p v pr (eq_sym Ln) H) as [E1 E2]. rewrite E1. apply finite_arrOf. intros y Hy. now apply E2.
  - apply (processed_mult _ _ _ anyNumber); auto. cbn [om_seglen gaussian]. intros l L _. apply one_elem in L. destruct L as [x ->]. cbn [map].
    destruct (C49_gaussian vs p1 v1 p2 v2 pr x (eq_sym Ln) (NZ _ H)) as [-> E2]. apply finite_arrOf. intros y Hy. left. auto.
  - apply (processed_mult _ _ _ anyNumber); auto. cbn [om_seglen laplace]. intros l L _. apply one_elem in L. destruct L as [x ->]. cbn [map].
    destruct (C49_laplace vs p1 v1 p2 v2 pr x (eq_sym Ln) H) as [-> E2]. apply finite_arrOf. intros y Hy. left. auto.
  - apply (processed_mult _ _ _ anyNumber); auto. cbn [om_seglen whiteNoise]. intros l L _. apply one_elem in L. destruct L as [x ->]. cbn [map].
    destruct (C49_whiteNoise vs p v pr x (eq_sym Ln) (NZ _ H)) as [-> E2]. apply finite_arrOf. intros y Hy. left. auto.
  - cbn [om_seglen gaussianMean formatData]. intros s I. apply in_map_iff in I. destruct I as (w & <- & I). destruct (window_In _ _ _ Nat.lt_0_1 I) as [L Sub].
    apply one_elem in L. destruct L as [row ->]. specialize (Sub row (or_introl eq_refl)). rewrite Forall_forall in H. specialize (H row Sub).
    cbn [processedPdf om_multiply gaussianMean existsb orb]. rewrite orb_false_r. destruct (existsb xisnan row) eqn:E; [apply finite_ones|].
    destruct H as [Hn|(x & sd & -> & Hsd)].
    + exfalso. assert (existsb (xisnan (F := R)) row = true) by (apply existsb_exists; exists NaN; auto). congruence.
    + destruct (C49_gaussianMean vs p v pr x sd (eq_sym Ln) Hsd) as [E1 E2]. cbn [om_pdf gaussianMean] in *. rewrite E1. apply finite_arrOf. intros y Hy. left. auto.
  - apply (processed_mult _ _ _ anyNumber); auto. cbn [om_seglen ar1]. auto with arith. cbn [om_seglen ar1]. intros l L _. apply two_elems in L. destruct L as (x & y & ->). cbn [map].
    destruct (C49_ar1 vs p1 v1 p2 v2 pr x y (eq_sym Ln) (NZ _ H)) as [-> E2]. apply finite_arrOf. intros z Hz. left. auto.
  - apply (processed_mult _ _ _ anyNumber); auto. cbn [om_seglen scaledAr1]. auto with arith. cbn [om_seglen scaledAr1]. intros l L _. apply two_elems in L. destruct L as (x & y & ->). cbn [map].
    destruct (C49_scaledAr1 vs p1 v1 p2 v2 pr x y (eq_sym Ln) H (NZ _ H0)) as [-> E2]. apply finite_arrOf. intros z Hz. left. auto.
Qed.

(** ** Default priors *)
(** parameter values at which the built-in (Jeffreys) default prior is a number *)
Inductive properDefault : om R -> list (list R) -> Prop :=
| pd_bernoulli p v vs : Forall (fun p => 0 < p < 1) (nth 0 vs []) -> properDefault (bernoulli p v None) vs
| pd_poisson p v vs : Forall (fun lam => 0 < lam) (nth 0 vs []) -> properDefault (poisson p v None) vs
| pd_gaussian p1 v1 p2 v2 vs : Forall (fun s => 0 < s) (nth 1 vs []) -> properDefault (gaussian p1 v1 p2 v2 None) vs
| pd_laplace p1 v1 p2 v2 vs : Forall (fun s => 0 < s) (nth 1 vs []) -> properDefault (laplace p1 v1 p2 v2 None) vs
| pd_whiteNoise p v vs : Forall (fun s => 0 < s) (nth 0 vs []) -> properDefault (whiteNoise p v None) vs
| pd_gaussianMean p v vs : properDefault (gaussianMean p v PNone) vs
| pd_ar1 p1 v1 p2 v2 vs : properDefault (ar1 p1 v1 p2 v2 PNone) vs
| pd_scaledAr1 p1 v1 p2 v2 vs : properDefault (scaledAr1 p1 v1 p2 v2 PNone) vs.
Lemma tab_finite N (g : nat -> xnum R) f : (forall x, (x < N)%nat -> g x = Fin (f x) /\ 0 <= f x) -> finite N (tab N g).
Proof.
  intros E. replace (tab N g) with (arrOf N f); [apply finite_arrOf; intros; now apply E|].
  unfold arrOf. rewrite map_tab. apply tab_ext. intros x Hx. symmetry. now apply E.
Qed.
Lemma inv_nonneg a : 0 < a -> 0 <= 1 / a.
Proof. intros. unfold Rdiv. rewrite Rmult_1_l. left. now apply Rinv_0_lt_compat. Qed.
Lemma properDefault_nonneg o vs : List.length (om_names o) = List.length vs -> properDefault o vs ->
  nonnegPrior (gridPoints vs) o (map (@List.length R) vs) (meshgrid vs) (om_prior o).
Proof.
  intros Ln P. destruct P; cbn [om_names bernoulli poisson gaussian laplace whiteNoise gaussianMean ar1 scaledAr1 List.length om_prior nonnegPrior] in *; auto.
  - rewrite onGrid1_tab by lia. apply (tab_finite _ _ (fun x => 1 / sqrt (parAt vs 0 x * (1 - parAt vs 0 x)))). intros x Hx.
    assert (Q : 0 < parAt vs 0 x < 1) by (rewrite Forall_forall in H; apply H, parAt_In; auto; lia). assert (0 < parAt vs 0 x * (1 - parAt vs 0 x)) by nra.
    unfold bernoulliJeffreys. cbn [xsqrt]. rewrite (proj2 (Rltb_false _ 0)) by lra. assert (0 < sqrt (parAt vs 0 x * (1 - parAt vs 0 x))) by now apply sqrt_lt_R0.
    rewrite xdiv_fin by lra. split; [reflexivity|now apply inv_nonneg].
  - rewrite onGrid1_tab by lia. apply (tab_finite _ _ (fun x => sqrt (1 / parAt vs 0 x))). intros x Hx.
    assert (Q : 0 < parAt vs 0 x) by (rewrite Forall_forall in H; apply H, parAt_In; auto; lia). unfold poissonJeffreys. rewrite xdiv_fin by lra. cbn [xsqrt].
    pose proof (inv_nonneg _ Q). rewrite (proj2 (Rltb_false _ 0)) by auto. split; [reflexivity|apply sqrt_pos].
  - rewrite onGrid2_tab by lia. apply (tab_finite _ _ (fun x => 1 / (parAt vs 1 x * parAt vs 1 x))). intros x Hx.
    assert (Q : 0 < parAt vs 1 x) by (rewrite Forall_forall in H; apply H, parAt_In; auto; lia). unfold gaussianJeffreys, xsq. cbn [xmul fmul NumR].
    assert (0 < parAt vs 1 x * parAt vs 1 x) by nra. rewrite xdiv_fin by lra. split; [reflexivity|now apply inv_nonneg].
  - rewrite onGrid2_tab by lia. apply (tab_finite _ _ (fun x => 1 / (parAt vs 1 x * parAt vs 1 x))). intros x Hx.
    assert (Q : 0 < parAt vs 1 x) by (rewrite Forall_forall in H; apply H, parAt_In; auto; lia). unfold gaussianJeffreys, xsq. cbn [xmul fmul NumR].
    assert (0 < parAt vs 1 x * parAt vs 1 x) by nra. rewrite xdiv_fin by lra. split; [reflexivity|now apply inv_nonneg].
  - rewrite onGrid1_tab by lia. apply (tab_finite _ _ (fun x => 1 / parAt vs 0 x)). intros x Hx.
    assert (Q : 0 < parAt vs 0 x) by (rewrite Forall_forall in H; apply H, parAt_In; auto; lia). unfold whiteNoiseJeffreys. rewrite xdiv_fin by lra.
    split; [reflexivity|now apply inv_nonneg].
Qed.
(** A built-in model with its default prior, parameter values and data for which it is meant: the fit raises no exception and, unless
    it reports the evidence zero, all posteriors are probability distributions. *)
Theorem C49_fit : forall S o m vs ts fo, configured S o m vs ts -> runnable (om_names o) m -> meant o vs (st_raw S) -> properDefault o vs ->
  exists S', fit S fo false = Ok S' /\
    (st_logEv S' = NInf \/
     exists v posts, st_logEv S' = Fin v /\ st_post S' = map Some posts /\ List.length posts = nSteps S o /\ Forall (dist (gridPoints vs)) posts).
Proof.
  intros S o m vs ts fo C Run M P. apply (C01_posteriors_are_distributions S o m vs ts fo C Run).
  - apply properDefault_nonneg; auto. exact (cf_names _ _ _ _ _ C).
  - exact (C49_likelihoods S o m vs ts C M).
Qed.

(** Finding: with a boundary value on the grid the default prior is infinite there and no fit succeeds. The grid that the Bernoulli model
    chooses by itself, cint(0, 1, 1000), has both boundary values. *)
Definition nonnegOrInf (x : xnum R) : Prop := match x with Fin r => 0 <= r | PInf => True | _ => False end.
Lemma fold_xadd_PInf l : Forall nonnegOrInf l -> fold_left (xadd (F := R)) l PInf = PInf.
Proof. induction 1 as [|x l Hx HF IH]; [reflexivity|]. cbn [fold_left]. destruct x; cbn in Hx; try contradiction; exact IH. Qed.
Lemma asum_PInf l : Forall nonnegOrInf l -> In PInf l -> asum (F := R) l = PInf.
Proof.
  unfold asum. generalize (f0 (F := R)). induction l as [|x l IH]; intros a HF I; [destruct I|]. inversion HF; subst. cbn [fold_left]. destruct I as [->|I].
  - apply fold_xadd_PInf; auto.
  - destruct x; cbn in H1; try contradiction; [apply IH; auto|apply fold_xadd_PInf; auto].
Qed.
Lemma xdiv_nan (b : xnum R) : xdiv NaN b = NaN.
Proof. destruct b; reflexivity. Qed.
Lemma xmul_nan (b : xnum R) : xmul NaN b = NaN.
Proof. destruct b; reflexivity. Qed.
Lemma priorDensity_PInf e l : Forall nonnegOrInf l -> In PInf l -> In NaN (priorDensity (F := R) e l).
Proof.
  intros HF I. unfold priorDensity. rewrite (asum_PInf l HF I). cbn [xeqb]. unfold adivs. rewrite map_map. apply in_map_iff. exists PInf. split; [reflexivity|exact I].
Qed.
Lemma amul_NaN (a b : list (xnum R)) : List.length a = List.length b -> In NaN a -> In NaN (amul a b).
Proof.
  revert b. induction a as [|x a IH]; intros b L I; [destruct I|]. destruct b as [|y b]; [discriminate|]. cbn. destruct I as [->|I].
  - left. apply xmul_nan.
  - right. apply IH; auto.
Qed.
Theorem C49_infinite_prior : forall S o m vs ts f fo eo, configured S o m vs ts -> om_prior o = PFun f ->
  List.length (f (meshgrid vs)) = gridPoints vs -> Forall nonnegOrInf (f (meshgrid vs)) -> In PInf (f (meshgrid vs)) ->
  (forall s, In s (segments S o) -> List.length (processedPdf o (gridPoints vs) (meshgrid vs) s) = gridPoints vs) -> segments S o <> [] ->
  exists S', fit S fo eo = Ok S' /\ st_logEv S' = NInf.
Proof.
  intros S o m vs ts f fo eo C Ep Lf HF HI HL Hne.
  destruct (segments S o) as [|s segs] eqn:Es; [congruence|].
  set (e := envOf S o (om_prior o)). set (pd := priorDensity e (f (meshgrid vs))).
  assert (EW : fwdLoop e o m (formatData (st_raw S) (om_seglen o)) (formatTimestamps ts (om_seglen o)) pd false (PFun f) (Fin l0) =
    Ok {| fw_steps := []; fw_logEv := NInf; fw_prior := PFun f; fw_stop := true |}).
  { unfold segments in Es. rewrite Es. cbn [fwdLoop]. unfold e. rewrite (cfg_size S o m vs ts C), (cfg_grid S o m vs ts C).
    rewrite asum_nan; [reflexivity|]. apply amul_NaN.
    - rewrite HL by now left. unfold pd, priorDensity. destruct (xeqb _ _); unfold adivs; rewrite ?map_length; exact Lf.
    - apply priorDensity_PInf; auto. }
  eexists. split.
  - eapply fit_intro with (w := {| fw_steps := []; fw_logEv := NInf; fw_prior := PFun f; fw_stop := true |}).
    + constructor; [exact (cfg_check S o m vs ts C)|exists ts; split; [exact (cf_ts _ _ _ _ _ C)|reflexivity]|].
      exists pd, (PFun f), false. split; [|exact EW]. unfold computePrior, e. cbn [e_prior envOf]. rewrite Ep. unfold pd, e.
      rewrite <- Ep. now rewrite (cfg_grid S o m vs ts C).
    + now apply fo_stop.
  - reflexivity.
Qed.
Lemma processed_len (o : om R) N grid d : om_multiply o = true -> (0 < om_seglen o)%nat ->
  (forall xs, List.length xs = om_seglen o -> List.length (om_pdf o grid (Seg1 xs)) = N) ->
  forall s, In s (formatData d (om_seglen o)) -> List.length (processedPdf o N grid s) = N.
Proof.
  intros Em Hs Hp.
  assert (P1 : forall xs, List.length xs = om_seglen o -> List.length (processed1 o N grid xs) = N).
  { intros xs L. unfold processed1. destruct (existsb xisnan xs); [apply repeat_length|auto]. }
  intros s I. destruct d as [l|rows]; cbn [formatData] in *; apply in_map_iff in I; destruct I as (w & <- & I); destruct (window_In _ _ _ Hs I) as [L Sub]; cbn [processedPdf].
  - auto.
  - rewrite Em, columns_seq, map_map.
    assert (Fo : forall js a, List.length a = N -> List.length (fold_left amul (map (fun j => processed1 o N grid (column w j)) js) a) = N).
    { induction js as [|j js IH]; intros a Fa; [exact Fa|]. cbn [map fold_left]. apply IH. unfold amul. rewrite map2_length, P1, Fa; [lia|]. unfold column. now rewrite map_length. }
    apply Fo, repeat_length.
Qed.
Theorem C49_bernoulli_ends : forall S p v m vs ts fo eo, configured S (bernoulli p v None) m vs ts ->
  Forall (fun p => 0 <= p <= 1) (nth 0 vs []) -> In 0 (nth 0 vs []) \/ In 1 (nth 0 vs []) ->
  exists S', fit S fo eo = Ok S' /\ st_logEv S' = NInf.
Proof.
  intros S p v m vs ts fo eo C Hp He. pose proof (cf_names _ _ _ _ _ C) as Ln. cbn in Ln.
  destruct vs as [|l [|? ?]]; try discriminate. cbn [nth] in *. clear Ln.
  assert (G : gridOf (meshgrid [l]) 0 = l).
  { unfold gridOf, meshgrid. cbn [List.length seq map nth cart]. clear. induction l as [|x l IH]; [reflexivity|]. cbn. f_equal. exact IH. }
  assert (Np : gridPoints [l] = List.length l) by (unfold gridPoints; cbn; lia).
  apply (C49_infinite_prior S _ m [l] ts (onGrid1 bernoulliJeffreys) fo eo C); unfold onGrid1; rewrite ?G.
  - reflexivity.
  - now rewrite map_length.
  - apply Forall_map. eapply Forall_impl; [|exact Hp]. cbn beta. intros x Hx. assert (0 <= x * (1 - x)) by nra. unfold bernoulliJeffreys. cbn [xsqrt].
    rewrite (proj2 (Rltb_false _ 0)) by lra. destruct (Req_EM_T (sqrt (x * (1 - x))) 0) as [Z|Z].
    + rewrite Z. cbn. rewrite Reqb_refl. rewrite (proj2 (Reqb_false 1 0)) by lra. rewrite (proj2 (Rltb_false 1 0)) by lra. exact I.
    + rewrite xdiv_fin by auto. cbn. apply inv_nonneg. pose proof (sqrt_pos (x * (1 - x))). lra.
  - apply in_map_iff. assert (Q : forall x, x * (1 - x) = 0 -> bernoulliJeffreys x = PInf).
    { intros x Z. unfold bernoulliJeffreys. rewrite Z. cbn [xsqrt]. rewrite (proj2 (Rltb_false 0 0)) by lra. rewrite sqrt_0. cbn. rewrite Reqb_refl.
      rewrite (proj2 (Reqb_false 1 0)) by lra. now rewrite (proj2 (Rltb_false 1 0)) by lra. }
    destruct He as [He|He]; [exists 0|exists 1]; split; auto; apply Q; ring.
  - unfold segments. apply processed_len; auto. cbn [om_seglen bernoulli om_pdf]. intros xs L. apply one_elem in L. destruct L as [x ->].
    unfold bernoulliPdf. cbn [datum index nth_error bind snd]. rewrite G, Np. destruct (xeqb _ _); now rewrite !map_length.
  - pose proof (cf_data _ _ _ _ _ C) as D. unfold segments. cbn [om_seglen bernoulli]. intros Z. apply (f_equal (@List.length _)) in Z.
    destruct (st_raw S); cbn [formatData rawLen] in *; unfold movingWindow in Z; rewrite !map_length, seq_length in Z; cbn [List.length] in Z; lia.
Qed.
(** in particular for the grid that the model chooses by itself *)
Theorem C49_bernoulli_default : forall S p m ts fo eo vs, om_estimate (bernoulli p None None) p (st_raw S) = Ok vs ->
  configured S (bernoulli p None None) m [vs] ts -> exists S', fit S fo eo = Ok S' /\ st_logEv S' = NInf.
Proof.
  intros S p m ts fo eo vs Ev C. cbn [om_estimate bernoulli] in Ev. unfold bernoulliEstimate in Ev. rewrite String.eqb_refl in Ev.
  assert (Ec : vs = cint (F := R) 0 1 1000) by congruence. clear Ev. subst vs.
  assert (L2 : (2 <= 1000)%nat) by (apply Nat.leb_le; reflexivity).
  destruct (C43_cint 0 1 1000 L2) as (Len & First & _).
  apply (C49_bernoulli_ends S p None m _ ts fo eo C); cbn [nth].
  - rewrite cint_progression by exact L2. unfold progression. apply Forall_forall. intros x I. apply in_map_iff in I. destruct I as (i & <- & Hi). apply in_seq in Hi.
    assert (B : (i <= 1000 - 1)%nat) by lia. apply le_INR in B. rewrite minus_INR in B by lia. change (INR 1) with 1 in B.
    assert (P : 0 < INR 1000 - 1) by (change 1 with (INR 1); apply Rlt_Rminus, lt_INR; lia).
    pose proof (pos_INR i). split.
    + apply Rplus_le_le_0_compat; [lra|]. apply Rmult_le_pos; [lra|]. apply Rmult_le_pos; [lra|]. left. now apply Rinv_0_lt_compat.
    + replace (0 + INR i * ((1 - 0) / (INR 1000 - 1))) with (INR i / (INR 1000 - 1)) by (field; lra). apply Rmult_le_reg_r with (INR 1000 - 1); auto.
      unfold Rdiv. rewrite Rmult_assoc, Rinv_l by lra. lra.
  - left. assert (Hin : In (nth 0 (cint (F := R) 0 1 1000) 0) (cint 0 1 1000)) by (apply nth_In; rewrite Len; lia). rewrite First in Hin. exact Hin.
Qed.
(** SymPy models: __init__ asks for an attribute that does not exist, so the prior is always flat unless one is given *)
Theorem C49_sympy_prior : forall (F : Type) (prior : option (priorSpec F)) determine jeffreys, symPyPrior prior determine jeffreys = prior.
Proof. intros F [p|] [|] j; reflexivity. Qed.

(** ** Concrete studies that meet the hypotheses *)
Lemma setup_given d o m vs : om_values o = map Some vs -> List.length (om_names o) = List.length vs -> vs <> [] -> isBreak m = false ->
  NoDup (allNames m) -> (0 < rawLen d)%nat -> (0 < om_seglen o)%nat ->
  Forall (fun v => (2 <= List.length v)%nat /\ nth 0 v 0 <> nth 1 v 0) vs ->
  exists S : study R R, setup d None o m = Ok S /\ st_raw S = d /\ configured S o m vs (map INR (seq 0 (rawLen d))).
Proof.
  intros Ev Ln Nn Hm ND Hd Hs Hv.
  assert (EL : exists lat, mapM latticeOf vs = Ok lat).
  { clear - Hv. induction Hv as [|v vs [L _] HF (lat & IH)]; [exists []; reflexivity|]. cbn [mapM]. unfold latticeOf at 1.
    destruct (existsb _ _); [|destruct v as [|a [|b v]]; cbn in L; try lia]; cbn [bind]; rewrite IH; cbn [bind]; eauto. }
  destruct EL as (lat & EL).
  assert (EM : mapM (paramValues o d) (combine (om_values o) (om_names o)) = Ok vs).
  { rewrite Ev. clear - Ln. revert Ln. generalize (om_names o) as ns. induction vs as [|v vs IH]; intros ns L; destruct ns as [|nm ns]; try discriminate; [reflexivity|].
    cbn [map combine mapM paramValues fst bind]. rewrite IH by (cbn in L; lia). reflexivity. }
  assert (E : exists S : study R R, setup d None o m = Ok S /\ st_om S = Some o /\ st_tm S = Some m /\ st_marg S = vs /\ st_raw S = d /\
    st_rawTs S = Some (map INR (seq 0 (rawLen d)))).
  { unfold setup. cbn [runCalls runCall bind]. unfold setTM. rewrite Hm. cbn [bind]. unfold setOM. cbn [st_raw set_tm loadData].
    rewrite EM. cbn [bind]. rewrite EL. cbn [bind]. eexists. split; [reflexivity|]. cbn [st_om st_tm st_marg st_raw st_rawTs set_tm loadData]. repeat split.
    f_equal. apply map_ext. intros. symmetry. apply INR_IZR_INZ. }
  destruct E as (S & E & h1 & h2 & h3 & h4 & h5). exists S. split; [exact E|]. split; [exact h4|]. rewrite <- h3. unfold setup in E.
  eapply C44_reachable_configured; eauto.
  - rewrite h4, map_length, seq_length. reflexivity.
  - now rewrite h4.
  - now rewrite h3.
  - now rewrite h3.
  - rewrite h3. eapply Forall_impl; [|exact Hv]. cbn. tauto.
Qed.
Lemma num_ok r : missingOr anyNumber (Fin r).
Proof. right. exists r. split; [reflexivity|exact I]. Qed.
Lemma nan_ok P : missingOr P NaN.
Proof. now left. Qed.
Definition static : tm R := TM KStatic [] [] None [].
(** hypotheses of [C49_likelihoods] and [C49_fit]: Gaussian, a missing value, default prior *)
Example C49_example : let o := gaussian "mean" (Some [0; 1]) "std" (Some [1; 2]) None in
  exists S : study R R, setup (Raw1 [Fin 0; NaN; Fin 3]) None o static = Ok S /\ configured S o static [[0; 1]; [1; 2]] [INR 0; INR 1; INR 2] /\
  runnable (om_names o) static /\ meant o [[0; 1]; [1; 2]] (st_raw S) /\ properDefault o [[0; 1]; [1; 2]] /\ nSteps S o = 3%nat.
Proof.
  cbn zeta. assert (P12 : Forall (fun s => 0 < s) (nth 1 [[0; 1]; [1; 2]] [])) by (cbn; repeat constructor; lra).
  destruct (setup_given (Raw1 [Fin 0; NaN; Fin 3]) (gaussian "mean" (Some [0; 1]) "std" (Some [1; 2]) None) static [[0; 1]; [1; 2]]) as (S & E & Er & C);
    try (reflexivity || discriminate || (cbn; lia) || solve [cbn; constructor]).
  { repeat constructor; cbn; lia || lra. }
  exists S. split; [exact E|]. split; [exact C|]. split; [constructor|]. split; [|split; [now constructor|]].
  - rewrite Er. constructor; [exact P12|]. cbn. repeat (apply Forall_cons || apply Forall_nil || apply num_ok || apply nan_ok).
  - unfold nSteps, segments. rewrite Er. reflexivity.
Qed.
(** two-dimensional data, autoregressive: one dimension is missing at one time *)
Example C49_example_ar1 : let o := ar1 "r" (Some [0; 1]) "std" (Some [1; 2]) PNone in
  exists S : study R R, setup (Raw2 [[Fin 0; Fin 1]; [NaN; Fin 2]; [Fin 3; Fin 3]]) None o static = Ok S /\
  configured S o static [[0; 1]; [1; 2]] [INR 0; INR 1; INR 2] /\ runnable (om_names o) static /\ meant o [[0; 1]; [1; 2]] (st_raw S) /\
  properDefault o [[0; 1]; [1; 2]] /\ nSteps S o = 2%nat.
Proof.
  cbn zeta. assert (P12 : Forall (fun s => 0 < s) (nth 1 [[0; 1]; [1; 2]] [])) by (cbn; repeat constructor; lra).
  destruct (setup_given (Raw2 [[Fin 0; Fin 1]; [NaN; Fin 2]; [Fin 3; Fin 3]]) (ar1 "r" (Some [0; 1]) "std" (Some [1; 2]) PNone) static [[0; 1]; [1; 2]]) as (S & E & Er & C);
    try (reflexivity || discriminate || (cbn; lia) || solve [cbn; constructor]).
  { repeat constructor; cbn; lia || lra. }
  exists S. split; [exact E|]. split; [exact C|]. split; [constructor|]. split; [|split; [now constructor|]].
  - rewrite Er. constructor; [exact P12|]. cbn. repeat (apply Forall_cons || apply Forall_nil || apply num_ok || apply nan_ok).
  - unfold nSteps, segments. rewrite Er. reflexivity.
Qed.
(** hypotheses of [C49_bernoulli_ends] *)
Example C49_example_ends : let o := bernoulli "p" (Some [0; / 2; 1]) None in
  exists S : study R R, setup (Raw1 [Fin 1; Fin 0]) None o static = Ok S /\ configured S o static [[0; / 2; 1]] [INR 0; INR 1].
Proof.
  cbn zeta. destruct (setup_given (Raw1 [Fin 1; Fin 0]) (bernoulli "p" (Some [0; / 2; 1]) None) static [[0; / 2; 1]]) as (S & E & Er & C);
    try (reflexivity || discriminate || (cbn; lia) || solve [cbn; constructor]).
  { repeat constructor; cbn; lia || lra. }
  eauto.
Qed.
(** hypotheses of [C49_bernoulli_default]: the model without parameter values *)
Example C49_example_default : exists S : study R R, setup (Raw1 [Fin 1; Fin 0]) None (bernoulli "p" None None) static = Ok S /\
  configured S (bernoulli "p" None None) static [cint 0 1 1000] [INR 0; INR 1].
Proof.
  assert (L2 : (2 <= 1000)%nat) by (apply Nat.leb_le; reflexivity). destruct (C43_cint 0 1 1000 L2) as (Len & First & Last & Sp & EL).
  assert (Pos : 0 < (1 - 0) / (INR 1000 - 1)).
  { apply Rdiv_lt_0_compat; [lra|]. change 1 with (INR 1). apply Rlt_Rminus, lt_INR. lia. }
  assert (E : exists S : study R R, setup (Raw1 [Fin 1; Fin 0]) None (bernoulli "p" None None) static = Ok S /\ st_om S = Some (bernoulli "p" None None) /\
    st_tm S = Some static /\ st_marg S = [cint 0 1 1000] /\ st_raw S = Raw1 [Fin 1; Fin 0] /\ st_rawTs S = Some [INR 0; INR 1]).
  { unfold setup. cbn [runCalls runCall bind]. unfold setTM. cbn [isBreak static bind]. unfold setOM.
    cbn [om_values om_names bernoulli combine mapM paramValues fst snd om_estimate bind]. unfold bernoulliEstimate. rewrite String.eqb_refl. cbn [bind mapM].
    rewrite EL by lra. cbn [bind]. eexists. split; [reflexivity|]. cbn [st_om st_tm st_marg st_raw st_rawTs set_tm loadData]. repeat split. }
  destruct E as (S & E & h1 & h2 & h3 & h4 & h5). exists S. split; [exact E|]. rewrite <- h3. unfold setup in E.
  eapply C44_reachable_configured; eauto.
  - cbn. constructor.
  - now rewrite h4.
  - rewrite h4. cbn. lia.
  - now rewrite h3.
  - rewrite h3. discriminate.
  - rewrite h3. constructor; [|constructor]. assert (Q : nth (0 + 1) (cint (F := R) 0 1 1000) 0 - nth 0 (cint (F := R) 0 1 1000) 0 = (1 - 0) / (INR 1000 - 1)) by (apply Sp; lia).
    cbn [Nat.add] in Q. lra.
Qed.
