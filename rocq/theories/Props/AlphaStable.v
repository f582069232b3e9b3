(** C60: the alpha-stable random walk. *)
From Coq Require Import List ZArith Reals Lra Lia Arith Bool String.
From Verif Require Import Base.Num Base.Exn Base.Arr Base.RSum Base.Lift Model.Helper Model.Tm Model.Bivariate Model.Cache Model.AlphaStable Model.HyperParams Model.Study Model.Api
  Spec.Kernel Spec.Config Spec.Dist Spec.BivSpec Spec.AlphaSpec Spec.WalkSpec Proof.Gauss Proof.KernelProof Proof.BivProof Proof.StableKernel Proof.AlphaProof
  Proof.FitThms Proof.FitCore Proof.Good Proof.FitInv Proof.WalkProof Proof.SetupProof Props.Ex Props.Setup Props.ExR.
Import ListNotations.
Local Open Scope R_scope.

(** ** the weights *)
(** The weights of all steps of one period sum to one; their Fourier coefficients are the values of the characteristic function of the
    symmetric stable distribution; they are symmetric and the weight for staying is positive; with scale zero nothing moves. *)
Theorem C60_weights : forall n c al, (0 < n)%nat -> 0 < al ->
  rsum (2 * halfPeriod n) (fun d => stepStable n c al (Z.of_nat d)) = 1 /\
  (forall k, (k <= halfPeriod n)%nat ->
     rsum (2 * halfPeriod n) (fun d => stepStable n c al (Z.of_nat d) * cos (PI * INR d * INR k / INR (halfPeriod n))) = charFun c al (PI * INR k / INR (halfPeriod n))) /\
  (forall x y, Kstable n c al x y = Kstable n c al y x) /\
  (forall x, 0 < Kstable n c al x x) /\
  (c = 0 -> forall x y, (x < n)%nat -> (y < n)%nat -> Kstable n c al x y = if Nat.eqb x y then 1 else 0) /\
  (al <= 1 -> forall x y, (x < n)%nat -> (y < n)%nat -> 0 <= Kstable n c al x y).
Proof.
  intros n c al Hn Ha. split; [now apply StableKernel.step_total|]. split; [intros k; now apply step_fourier|]. split; [|split; [|split]].
  - intros x y. unfold Kstable. rewrite <- step_even by auto. f_equal. lia.
  - intros x. now apply Kstable_diag.
  - intros -> x y Hx Hy. unfold Kstable. pose proof (half_ge n Hn). rewrite step_noscale by (auto; lia). destruct (Z.eqb_spec (Z.of_nat y - Z.of_nat x) 0), (Nat.eqb_spec x y); auto; lia.
  - intros H1 x y Hx Hy. apply Kstable_nonneg; auto.
Qed.

(** ** one step *)
Lemma normalise_tab N f : 0 < rsum N f -> normalise (arrOf N f) = arrOf N (normalised N f).
Proof. intros P. unfold normalise, arrOf. rewrite asum_fin, Rsum_tab, adivs_fin by lra. f_equal. unfold rdivs. rewrite map_tab. reflexivity. Qed.

(** The kernel by which a walk of the parameter with index [ax] moves probability *)
Definition Kwalk (shape : list nat) (ax : nat) (c al : R) : kern :=
  match shape with [n] => Kstable n c al | [n1; n2] => Kaxis n1 n2 ax c al | _ => fun _ _ => 0 end.
Definition moved (shape : list nat) (ax : nat) (c al : R) (f : nat -> R) (y : nat) : R :=
  rsum (natprod shape) (fun x => f x * Kwalk shape ax c al x y).

Lemma alphaConv_K shape ax c al f : stableGrid shape -> Forall (fun n => (0 < n)%nat) shape -> (ax < List.length shape)%nat -> 0 < al ->
  alphaConv shape ax c al (arrOf (natprod shape) f) = arrOf (natprod shape) (moved shape ax c al f).
Proof.
  intros Sg Pos Hx Ha. destruct shape as [|n1 [|n2 [|]]]; cbn [stableGrid] in Sg; try contradiction; inversion Pos as [|? ? P1 Pos']; subst.
  - unfold moved. replace (natprod [n1]) with n1 by (cbn; lia). cbn in Hx. assert (ax = 0%nat) as -> by lia. now apply conv_one.
  - unfold moved. inversion Pos' as [|? ? P2 _]; subst. replace (natprod [n1; n2]) with (n1 * n2)%nat by (cbn; lia). destruct Sg. now apply conv_axis_K.
Qed.
Lemma leaf_alpha (e : env R) s ax lc c al off p t1 t t' : stableGrid (e_shape e) -> nth_error (e_names e) ax = Some s -> NoDup (e_names e) -> nth_error (e_tmlat e) ax = Some lc ->
  leafStep e (KAlpha s) [HNum c; HNum al] off p t1 t t' = Ok (normalise (e_aconv e ax (c / lc) al p)).
Proof.
  intros Sg En Nd El. cbn [leafStep index nth_error scalarOf bind].
  assert (Ei : nameIndex (e_names e) s = Ok ax).
  { clear - En Nd. revert ax En. induction (e_names e) as [|a l IH]; intros ax En; [destruct ax; discriminate|]. inversion Nd; subst. destruct ax as [|ax]; cbn in En |- *.
    - inversion En; subst. now rewrite String.eqb_refl.
    - destruct (String.eqb_spec a s) as [->|_]; [exfalso; apply nth_error_In in En; auto|]. now rewrite (IH H2 ax En). }
  rewrite Ei. cbn [bind]. unfold index. rewrite El. cbn [bind].
  destruct (e_shape e) as [|n1 [|n2 [|]]]; cbn [stableGrid] in Sg; try contradiction; cbn [List.length Nat.ltb Nat.leb Nat.eqb andb forallb negb]; [reflexivity|].
  destruct Sg as [-> ->]. reflexivity.
Qed.

(** A step with any tail parameter: the distribution moved by the weights, normalised. *)
Theorem C60_step : forall (e : env R) s ax lc c al f off t1 t t',
  stableGrid (e_shape e) -> Forall (fun n => (0 < n)%nat) (e_shape e) -> (ax < List.length (e_shape e))%nat ->
  nth_error (e_names e) ax = Some s -> NoDup (e_names e) -> nth_error (e_tmlat e) ax = Some lc ->
  (forall ax c al p, e_aconv e ax c al p = alphaConv (e_shape e) ax c al p) ->
  0 < al -> let g := moved (e_shape e) ax (c / lc) al f in 0 < rsum (e_size e) g ->
  leafStep e (KAlpha s) [HNum c; HNum al] off (arrOf (e_size e) f) t1 t t' = Ok (arrOf (e_size e) (fun y => g y / rsum (e_size e) g)).
Proof.
  intros e s ax lc c al f off t1 t t' Sg Pos Hx En Nd El Cv Ha g Pg. rewrite (leaf_alpha e s ax lc) by auto. rewrite Cv.
  unfold e_size in *. rewrite alphaConv_K by auto. fold g. now rewrite normalise_tab.
Qed.
(** Tails at least as heavy as those of the Cauchy distribution: the result is a probability distribution. *)
Theorem C60_distribution : forall (e : env R) s ax lc c al f off t1 t t',
  stableGrid (e_shape e) -> Forall (fun n => (0 < n)%nat) (e_shape e) -> (ax < List.length (e_shape e))%nat ->
  nth_error (e_names e) ax = Some s -> NoDup (e_names e) -> nth_error (e_tmlat e) ax = Some lc ->
  (forall ax c al p, e_aconv e ax c al p = alphaConv (e_shape e) ax c al p) ->
  0 < al <= 1 -> (forall x, (x < e_size e)%nat -> 0 <= f x) -> (exists x, (x < e_size e)%nat /\ 0 < f x) ->
  let g := moved (e_shape e) ax (c / lc) al f in
  exists f',
    leafStep e (KAlpha s) [HNum c; HNum al] off (arrOf (e_size e) f) t1 t t' = Ok (arrOf (e_size e) f') /\
    (forall y, (y < e_size e)%nat -> f' y = g y / rsum (e_size e) g /\ 0 <= f' y) /\ rsum (e_size e) f' = 1.
Proof.
  intros e s ax lc c al f off t1 t t' Sg Pos Hx En Nd El Cv Ha Nn (x0 & Hx0 & Px0) g.
  assert (KN : forall x y, (x < e_size e)%nat -> (y < e_size e)%nat -> 0 <= Kwalk (e_shape e) ax (c / lc) al x y).
  { unfold e_size, Kwalk. destruct (e_shape e) as [|n1 [|n2 [|]]]; intros x y H1 H2; try lra; cbn in H1, H2.
    - apply Kstable_nonneg; auto; lia.
    - apply Kaxis_nonneg; auto; lia. }
  assert (KD : 0 < Kwalk (e_shape e) ax (c / lc) al x0 x0).
  { unfold Kwalk. destruct (e_shape e) as [|n1 [|n2 [|]]]; cbn [stableGrid] in Sg; try contradiction; inversion Pos as [|? ? P1 Pos']; subst; [now apply Kstable_diag|].
    inversion Pos'; subst. now apply Kaxis_diag. }
  assert (Gn : forall y, (y < e_size e)%nat -> 0 <= g y).
  { intros y Hy. apply rsum_nonneg. intros x Hx'. apply Rmult_le_pos; auto. }
  assert (Gp : 0 < rsum (e_size e) g).
  { apply Rlt_le_trans with (g x0); [|apply rsum_ge_term; auto]. apply Rlt_le_trans with (f x0 * Kwalk (e_shape e) ax (c / lc) al x0 x0); [apply Rmult_lt_0_compat; auto|].
    apply (rsum_ge_term (natprod (e_shape e)) (fun x => f x * Kwalk (e_shape e) ax (c / lc) al x x0)); auto. intros x Hx'. apply Rmult_le_pos; auto. }
  exists (fun y => g y / rsum (e_size e) g). split; [|split].
  - apply (C60_step e s ax lc); auto. lra.
  - intros y Hy. split; [reflexivity|]. apply Rmult_le_pos; auto. left. now apply Rinv_0_lt_compat.
  - unfold Rdiv. rewrite rsum_scal_r. field. lra.
Qed.

(** ** fit *)
(** A fit with any nesting of transition models, alpha-stable (tail parameter at most one) and bivariate random walks included, never
    raises; unless it reports the evidence zero, every stored posterior is a probability distribution. *)
Theorem C60_fit : forall (S : study R R) o m vs ts fo,
  configured S o m vs ts -> walkable (map (@List.length R) vs) (om_names o) m ->
  (forall ax c al p, st_aconv S ax c al p = alphaConv (st_shape S) ax c al p) ->
  (forall s1 s2 rho p, st_bconv S s1 s2 rho p = bivConv (st_shape S) s1 s2 rho p) ->
  nonnegPrior (gridPoints vs) o (map (@List.length R) vs) (meshgrid vs) (om_prior o) ->
  (forall s, In s (segments S o) -> finite (gridPoints vs) (processedPdf o (gridPoints vs) (meshgrid vs) s)) ->
  exists S', fit S fo false = Ok S' /\
    (st_logEv S' = NInf \/
     exists v posts, st_logEv S' = Fin v /\ st_post S' = map Some posts /\ List.length posts = nSteps S o /\ Forall (dist (gridPoints vs)) posts).
Proof.
  intros S o m vs ts fo C W HA HB Pr Lk. rewrite <- (cf_shape _ _ _ _ _ C) in W.
  assert (Dim : List.length (om_names o) = List.length (st_shape S)) by exact (cfg_dim S o m vs ts C PNone).
  assert (Lat : List.length (st_tmlat S) = List.length (st_shape S)) by (rewrite (cf_tmlat _ _ _ _ _ C); exact (cfg_lat S o m vs ts C PNone)).
  destruct (fit_total_in S o m vs ts C fo false) as [S' E]; auto.
  { intros p off a t1 t t'. now apply walkable_total. }
  exists S'. split; [exact E|].
  destruct (fit_dist_in S o m vs ts C (okWalk (st_shape S)) fo S') as [Z|(v & posts & h1 & h2 & h3 & h4 & _)]; auto.
  - intros p. apply (walk_keeps (with_prior (envOf S o (om_prior o)) p)); auto.
    + change (e_size (with_prior (envOf S o (om_prior o)) p)) with (e_size (envOf S o (om_prior o))). rewrite (cfg_size S o m vs ts C). exact (cfg_npos S o m vs ts C).
    + cbn. rewrite (cf_tmlat _ _ _ _ _ C). exact (cf_spacing _ _ _ _ _ C).
  - now apply (walkable_basic _ (om_names o)).
  - right. exists v, posts. auto.
Qed.

(** On other grids a fit with an alpha-stable random walk fails as soon as one observation is possible: with more than two parameters
    the model says that it cannot handle them; with two parameters one of which has an odd number of values, the two kernels do not fit. *)
Theorem C60_other_grids : forall (S : study R R) o vs ts rho lik s hn p c al fo eo,
  configured S o (TM (KAlpha s) hn [HNum c; HNum al] p []) vs ts -> In s (om_names o) ->
  ~ stableGrid (map (@List.length R) vs) ->
  priorIs S vs o (om_prior o) rho -> likelihoods S o vs lik -> (0 < nSteps S o)%nat -> (exists x, (x < gridPoints vs)%nat /\ 0 < rho x * lik 0%nat x) ->
  fit S fo eo = Err (if Nat.ltb 2 (List.length vs) then ConfigurationError else ValueError).
Proof.
  intros S o vs ts rho lik s hn p c al fo eo C In Sg P HL Hn (x0 & Hx0 & Px0).
  destruct (prior_start S o _ vs ts C _ _ P) as (Rp & p' & alias & EP & _).
  unfold fit. rewrite (cfg_check S o _ vs ts C). cbn [bind]. rewrite (cf_ts _ _ _ _ _ C). rewrite EP. cbn [bind].
  fold (segments S o). pose proof (cfg_ts_len S o _ vs ts C) as Lt. unfold nSteps in *.
  destruct (segments S o) as [|s0 segs] eqn:Es; [cbn in Hn; lia|]. cbn [fwdLoop].
  rewrite (cfg_size S o _ vs ts C), (cfg_grid S o _ vs ts C).
  assert (H0 : nth_error (segments S o) 0 = Some s0) by now rewrite Es. destruct (HL 0%nat s0 H0) as [-> Pl].
  assert (VP := cfg_volpos S o _ vs ts C).
  set (a1 := amul _ _). assert (Ea : a1 = arrOf (gridPoints vs) (fun x => rho x / cellVolume S * lik 0%nat x)).
  { unfold a1, arrOf. rewrite amul_fin, rmul_tab. reflexivity. }
  assert (Pos : xltb (Fin f0) (asum a1) = true).
  { rewrite Ea. unfold arrOf. rewrite asum_fin. cbn [xltb fltb f0 NumR]. apply Rltb_true. rewrite Rsum_tab.
    apply Rlt_le_trans with (rho x0 / cellVolume S * lik 0%nat x0).
    - unfold Rdiv. replace (rho x0 * / cellVolume S * lik 0%nat x0) with (rho x0 * lik 0%nat x0 * / cellVolume S) by ring. apply Rmult_lt_0_compat; auto. now apply Rinv_0_lt_compat.
    - apply (rsum_ge_term (gridPoints vs) (fun x => rho x / cellVolume S * lik 0%nat x)); auto. intros x Hx. apply Rmult_le_pos; auto. apply Rmult_le_pos; auto. left. now apply Rinv_0_lt_compat. }
  rewrite Pos. destruct (formatTimestamps ts (om_seglen o)) as [|t tss]; [cbn in Lt; lia|].
  unfold computeForwardPrior. cbn [step leafStep index nth_error scalarOf bind e_names e_tmlat e_shape with_prior envOf].
  destruct (nameIndex_posOf _ _ In) as [-> Ln]. cbn [bind]. unfold index.
  assert (Lat : List.length (st_tmlat S) = List.length (om_names o)).
  { rewrite (cf_tmlat _ _ _ _ _ C). rewrite (cfg_dim S o _ vs ts C PNone : List.length (om_names o) = _). exact (cfg_lat S o _ vs ts C PNone). }
  destruct (nth_error (st_tmlat S) _) eqn:El; [|apply nth_error_None in El; lia]. cbn [bind].
  rewrite (cf_shape _ _ _ _ _ C), map_length. pose proof (cf_dim _ _ _ _ _ C) as Nv.
  destruct vs as [|v1 [|v2 [|v3 vs]]]; [congruence|exfalso; apply Sg; exact I| |reflexivity].
  cbn [List.length Nat.ltb Nat.leb Nat.eqb andb map forallb]. cbn [stableGrid map] in Sg.
  destruct (Nat.even (List.length v1)), (Nat.even (List.length v2)); cbn; auto. exfalso. apply Sg. auto.
Qed.

(** ** examples *)
Definition levy (name tail target : string) (c al : R) : tm R := TM (KAlpha target) [name; tail] [HNum c; HNum al] (Some (Node [Leaf HPNone; Leaf HPNone])) [].
Definition bivWalk : tm R := TM KBiv ["s1"; "s2"; "r"]%string [HNum (1 / 4); HNum 1; HNum (1 / 2)] (Some (Node [Leaf HPNone; Leaf HPNone; Leaf HPNone])) [].
(** two parameters with two values and n (two or three) values *)
Definition pairVals (n : nat) : list (list R) := [[1; 2]; match n with 2%nat => [0; 1] | _ => [0; 1; 2] end].
Definition pair (n : nat) : om R := pairOM (nth 0 (pairVals n) []) (nth 1 (pairVals n) []) PNone.
Definition pairSetup (n : nat) (ds : list Z) (m : tm R) : res (study R R) :=
  runCalls (newStudy (fun _ _ a => a) (alphaConv [2%nat; n]) (bivConv [2%nat; n])) [CLoad (data ds) None; CSetTM m; CSetOM (pair n)].
Definition pairLik (n : nat) (ds : list Z) (i x : nat) : R :=
  nth x (nth 0 (meshgrid (pairVals n)) []) 0 + IZR (nth i ds 0%Z) * nth x (nth 1 (meshgrid (pairVals n)) []) 0.
Lemma pair_setup n ds m : n = 2%nat \/ n = 3%nat -> isBreak m = false -> NoDup (allNames m) -> bits ds -> ds <> [] ->
  exists S, pairSetup n ds m = Ok S /\ configured S (pair n) m (pairVals n) (times ds) /\
    st_shape S = [2%nat; n] /\ st_aconv S = alphaConv [2%nat; n] /\ st_bconv S = bivConv [2%nat; n] /\ nSteps S (pair n) = List.length ds /\
    likelihoods S (pair n) (pairVals n) (pairLik n ds) /\ (forall i x, (x < gridPoints (pairVals n))%nat -> 0 < pairLik n ds i x).
Proof.
  intros Hn Hm Nd Hb Hd.
  assert (X : exists S, pairSetup n ds m = Ok S /\ st_om S = Some (pair n) /\ st_tm S = Some m /\ st_marg S = pairVals n /\ st_raw S = data ds /\ st_rawTs S = Some (times ds) /\
     st_shape S = [2%nat; n] /\ st_aconv S = alphaConv [2%nat; n] /\ st_bconv S = bivConv [2%nat; n]).
  { unfold pairSetup. cbn [runCalls runCall bind]. unfold setTM. rewrite Hm. cbn [bind]. unfold setOM. cbn [combine om_values om_names pair pairOM mapM paramValues fst snd bind nth pairVals].
    assert (L0 : forall a b n l, l = progression a b n -> (2 <= n)%nat -> latticeOf l = Ok (Rabs b)) by (intros a b k l -> Hk; now apply lattice_progression).
    rewrite (L0 1 1 2%nat [1; 2]) by (lia || (unfold progression; cbn; repeat (f_equal; try lra))). cbn [bind].
    assert (Ts : Some (map (fun i => fofZ (Z.of_nat i)) (seq 0 (rawLen (data (F := R) ds)))) = Some (times ds)).
    { cbn [rawLen data]. rewrite map_length. unfold times. f_equal. apply map_ext. intros. symmetry. apply INR_IZR_INZ. }
    destruct Hn as [->| ->].
    - rewrite (L0 0 1 2%nat [0; 1]) by (lia || (unfold progression; cbn; repeat (f_equal; try lra))). cbn [bind]. eexists. split; [reflexivity|].
      cbn [st_om st_tm st_marg st_raw st_rawTs st_shape st_aconv st_bconv set_tm loadData newStudy]. repeat split; auto.
    - rewrite (L0 0 1 3%nat [0; 1; 2]) by (lia || (unfold progression; cbn; repeat (f_equal; try lra))). cbn [bind]. eexists. split; [reflexivity|].
      cbn [st_om st_tm st_marg st_raw st_rawTs st_shape st_aconv st_bconv set_tm loadData newStudy]. repeat split; auto. }
  destruct X as (S & E & Eo & Em & Eg & Er & Et & Es & Ea & Eb). exists S. split; [exact E|].
  assert (Sg : segments S (pair n) = map (fun d => Seg1 [Fin (IZR d)]) ds).
  { unfold segments. rewrite Er. cbn [formatData data om_seglen pair pairOM]. unfold movingWindow. rewrite map_map, map_length. replace (List.length ds + 1 - 1)%nat with (List.length ds) by lia.
    clear. induction ds as [|d ds IH]; cbn; auto. f_equal. rewrite <- IH. rewrite <- seq_shift, map_map. apply map_ext. intros i. cbn. reflexivity. }
  assert (Ps : forall i x, (x < gridPoints (pairVals n))%nat -> 0 < pairLik n ds i x).
  { intros i x Hx. unfold pairLik. set (d := nth i ds 0%Z). assert (D : d = 0%Z \/ d = 1%Z).
    { unfold d. destruct (Nat.lt_ge_cases i (List.length ds)) as [Hi|Hi]; [|left; now apply nth_overflow]. unfold bits in Hb. rewrite Forall_forall in Hb. apply Hb. now apply nth_In. }
    destruct Hn as [->| ->]; cbn in Hx; do 6 (destruct x as [|x]; [first [exfalso; lia|destruct D as [-> | ->]; cbn; lra]|]); exfalso; lia. }
  split; [|split; [exact Es|split; [exact Ea|split; [exact Eb|split; [|split; [|exact Ps]]]]]].
  - rewrite <- Eg. eapply C44_reachable_configured; eauto.
    + rewrite Er. cbn. unfold times. now rewrite !map_length, seq_length.
    + rewrite Er. cbn. rewrite map_length. destruct ds; [congruence|cbn; lia].
    + rewrite Eg. reflexivity.
    + rewrite Eg. discriminate.
    + rewrite Eg. unfold pairVals. destruct Hn as [->| ->]; repeat constructor; cbn; lra.
  - unfold nSteps. rewrite Sg. apply map_length.
  - intros i s Hs. split; [|intros x Hx; left; now apply Ps]. rewrite Sg, nth_error_map in Hs. destruct (nth_error ds i) as [d|] eqn:Ed; [|discriminate].
    inversion Hs; subst. unfold pairLik. rewrite (nth_error_nth _ _ _ Ed). destruct Hn as [->| ->]; reflexivity.
Qed.
(** a combined model with an alpha-stable and a bivariate walk; a serial model with a change of the walk *)
Definition manyWalks : tm R := serial [false] ["t1"%string] [0] [comb [levy "c" "k" "a" (1 / 2) 1; bivWalk]; levy "c2" "k2" "b" (-1) (1 / 2)].
Example C60_fit_example : exists S,
  pairSetup 2 [1; 0; 1]%Z manyWalks = Ok S /\
  configured S (pair 2) manyWalks (pairVals 2) (times [1; 0; 1]%Z) /\ walkable (map (@List.length R) (pairVals 2)) (om_names (pair 2)) manyWalks /\
  (forall ax c al p, st_aconv S ax c al p = alphaConv (st_shape S) ax c al p) /\
  (forall s1 s2 rho p, st_bconv S s1 s2 rho p = bivConv (st_shape S) s1 s2 rho p) /\
  nonnegPrior (gridPoints (pairVals 2)) (pair 2) (map (@List.length R) (pairVals 2)) (meshgrid (pairVals 2)) (om_prior (pair 2)) /\
  (forall s, In s (segments S (pair 2)) -> finite (gridPoints (pairVals 2)) (processedPdf (pair 2) (gridPoints (pairVals 2)) (meshgrid (pairVals 2)) s)) /\
  nSteps S (pair 2) = 3%nat.
Proof.
  assert (Nd : NoDup (allNames manyWalks)) by (cbn; repeat constructor; cbn; intuition discriminate).
  destruct (pair_setup 2 [1; 0; 1]%Z manyWalks) as (S & E & C & Sh & Ea & Eb & Ns & HL & P); auto; [unfold bits; repeat (apply Forall_cons; [auto|]); apply Forall_nil|discriminate|].
  exists S. split; [exact E|]. split; [exact C|]. split; [|split; [|split; [|split; [exact I|split; [|exact Ns]]]]].
  - apply wk_serial; [reflexivity|]. constructor; [|constructor; [|constructor]].
    + apply wk_comb. constructor; [|constructor; [|constructor]].
      * apply wk_alpha; [now left|lra|now split].
      * apply wk_biv; try lra. reflexivity.
    + apply wk_alpha; [right; now left|lra|now split].
  - intros. now rewrite Ea, Sh.
  - intros. now rewrite Eb, Sh.
  - intros s Is. apply In_nth_error in Is. destruct Is as [i Ei]. destruct (HL i s Ei) as [-> Hp]. exists (tab (gridPoints (pairVals 2)) (pairLik 2 [1; 0; 1]%Z i)).
    split; [reflexivity|]. split; [apply tab_length|]. now apply Forall_tab.
Qed.
(** Two and three values: the fit with an alpha-stable random walk raises ValueError. *)
Theorem C60_odd_refuted : exists S, pairSetup 3 [1; 0]%Z (levy "c" "k" "a" 1 1) = Ok S /\
  configured S (pair 3) (levy "c" "k" "a" 1 1) (pairVals 3) (times [1; 0]%Z) /\ In "a"%string (om_names (pair 3)) /\
  forall fo eo, fit S fo eo = Err ValueError.
Proof.
  assert (Nd : NoDup (allNames (levy "c" "k" "a" 1 1))) by (cbn; repeat constructor; cbn; intuition discriminate).
  destruct (pair_setup 3 [1; 0]%Z (levy "c" "k" "a" 1 1)) as (S & E & C & Sh & Ea & Eb & Ns & HL & P); auto; [unfold bits; repeat (apply Forall_cons; [auto|]); apply Forall_nil|discriminate|].
  exists S. split; [exact E|]. split; [exact C|]. split; [now left|]. intros fo eo.
  apply (C60_other_grids S (pair 3) (pairVals 3) (times [1; 0]%Z) (flat (gridPoints (pairVals 3))) (pairLik 3 [1; 0]%Z) "a" ["c"; "k"]%string (Some (Node [Leaf HPNone; Leaf HPNone])) 1 1 fo eo C).
  - now left.
  - cbn. intros [_ X]. discriminate.
  - constructor.
  - exact HL.
  - rewrite Ns. cbn. lia.
  - exists 0%nat. split; [cbn; lia|]. apply Rmult_lt_0_compat; [|apply P; cbn; lia]. unfold flat. apply Rdiv_lt_0_compat; [lra|]. apply lt_0_INR. cbn. lia.
Qed.

(** ** tails lighter than Cauchy *)
(** the weights for three values, scale 1/10 of a grid point and tail parameter 2 *)
Section Gauss.
  Let q : R := 1 / 10 * PI / 4.
  Let ph (k : nat) : R := exp (- (q * INR k) ^ 2).
  Let q_pos : 0 < q. Proof. unfold q. pose proof PI_RGT_0. lra. Qed.
  Lemma ph_char k : charFun (1 / 10) 2 (PI * INR k / INR 4) = ph k.
  Proof.
    unfold charFun, ph. replace (1 / 10 * (PI * INR k / INR 4)) with (q * INR k) by (unfold q; cbn [INR]; field).
    destruct k as [|k].
    - change (INR 0) with 0. rewrite Rmult_0_r. destruct (Req_EM_T 0 0); [|lra]. replace (- 0 ^ 2) with 0 by ring. symmetry. apply exp_0.
    - assert (P : 0 < q * INR (S k)) by (apply Rmult_lt_0_compat; [exact q_pos|apply lt_0_INR; lia]). destruct (Req_EM_T _ 0); [lra|].
      rewrite Rabs_right by lra. do 2 f_equal. replace 2 with (INR 2) by reflexivity. now apply Rpower_pow.
  Qed.
  Lemma ph_0 : ph 0 = 1.
  Proof. unfold ph. change (INR 0) with 0. replace (- (q * 0) ^ 2) with 0 by ring. apply exp_0. Qed.
  Lemma ph_le i j : (i <= j)%nat -> ph j <= ph i.
  Proof.
    intros H. unfold ph. assert (A : INR i <= INR j) by now apply le_INR. pose proof (pos_INR i). pose proof q_pos.
    destruct (Rle_lt_or_eq_dec ((q * INR i) ^ 2) ((q * INR j) ^ 2)) as [L|L].
    - apply pow_incr. split; [apply Rmult_le_pos; lra|apply Rmult_le_compat_l; lra].
    - left. apply exp_increasing. lra.
    - rewrite L. lra.
  Qed.
  Lemma ph_pos i : 0 < ph i. Proof. apply exp_pos. Qed.
  Lemma eight (d : Z) : stepStable 3 (1 / 10) 2 d =
    (ph 0 * cos (PI * IZR d * 0 / 4) + ph 1 * cos (PI * IZR d * 1 / 4) + ph 2 * cos (PI * IZR d * 2 / 4) + ph 3 * cos (PI * IZR d * 3 / 4) +
     ph 4 * cos (PI * IZR d * 4 / 4) + ph 3 * cos (PI * IZR d * 5 / 4) + ph 2 * cos (PI * IZR d * 6 / 4) + ph 1 * cos (PI * IZR d * 7 / 4)) / 8.
  Proof.
    unfold stepStable. change (halfPeriod 3) with 4%nat. cbn [Nat.mul Nat.add rsum Nat.sub Nat.min]. rewrite !ph_char. 
    replace (INR 0) with 0 by reflexivity. replace (INR 1) with 1 by reflexivity. replace (INR 2) with 2 by (cbn; lra). replace (INR 3) with 3 by (cbn; lra).
    replace (INR 4) with 4 by (cbn; lra). replace (INR 5) with 5 by (cbn; lra). replace (INR 6) with 6 by (cbn; lra). replace (INR 7) with 7 by (cbn; lra). replace (INR 8) with 8 by (cbn; lra).
    f_equal. ring.
  Qed.
  Let co (k : Z) (x : R) : cos (PI * IZR k / 2 + x) = match (k mod 4)%Z with 0%Z => cos x | 1%Z => - sin x | 2%Z => - cos x | _ => sin x end.
  Proof.
    assert (E : PI * IZR k / 2 + x = PI * IZR (k mod 4) / 2 + x + 2 * IZR (k / 4) * PI).
    { rewrite (Z.div_mod k 4) at 1 by lia. rewrite plus_IZR, mult_IZR. field. }
    rewrite E, cos_turn. pose proof (Z.mod_pos_bound k 4 ltac:(lia)) as B. assert (X : (k mod 4 = 0 \/ k mod 4 = 1 \/ k mod 4 = 2 \/ k mod 4 = 3)%Z) by lia.
    destruct X as [-> | [-> | [-> | ->]]].
    - f_equal. lra.
    - replace (PI * 1 / 2 + x) with (PI / 2 + x) by lra. rewrite cos_plus, cos_PI2, sin_PI2. lra.
    - replace (PI * 2 / 2 + x) with (x + PI) by lra. rewrite neg_cos. reflexivity.
    - replace (PI * 3 / 2 + x) with (PI / 2 + (x + PI)) by lra. rewrite cos_plus, cos_PI2, sin_PI2, neg_sin. lra.
  Qed.
  Let ck (k : Z) : cos (PI * IZR k / 2) = match (k mod 4)%Z with 0%Z => 1 | 1%Z => 0 | 2%Z => -1 | _ => 0 end.
  Proof. replace (PI * IZR k / 2) with (PI * IZR k / 2 + 0) by ring. rewrite co, cos_0, sin_0. destruct (k mod 4)%Z as [|p|p]; try lra. destruct p as [p|p|]; try lra. destruct p; lra. Qed.

  Lemma weight_2 : stepStable 3 (1 / 10) 2 2 < 0.
  Proof.
    rewrite eight.
    replace (PI * 2 * 0 / 4) with (PI * IZR 0 / 2) by lra. replace (PI * 2 * 1 / 4) with (PI * IZR 1 / 2) by lra. replace (PI * 2 * 2 / 4) with (PI * IZR 2 / 2) by lra.
    replace (PI * 2 * 3 / 4) with (PI * IZR 3 / 2) by lra. replace (PI * 2 * 4 / 4) with (PI * IZR 4 / 2) by lra. replace (PI * 2 * 5 / 4) with (PI * IZR 5 / 2) by lra.
    replace (PI * 2 * 6 / 4) with (PI * IZR 6 / 2) by lra. replace (PI * 2 * 7 / 4) with (PI * IZR 7 / 2) by lra. rewrite !ck. cbn. rewrite ph_0.
    set (y := ph 2). assert (E4 : ph 4 = y ^ 4).
    { unfold y, ph. set (a := - (q * INR 2) ^ 2). replace (- (q * INR 4) ^ 2) with (a + (a + (a + a))) by (unfold a; cbn [INR]; ring). rewrite !exp_plus. ring. }
    rewrite E4. assert (Y : 24 / 25 <= y < 1).
    { unfold y, ph. pose proof q_pos. assert (Q : (q * INR 2) ^ 2 <= 1 / 25).
      { unfold q. cbn [INR]. pose proof PI_4. pose proof PI_RGT_0. replace (1 / 25) with ((1 / 5) ^ 2) by field. apply pow_incr. lra. }
      split.
      - pose proof (exp_ineq1_le (- (q * INR 2) ^ 2)). lra.
      - rewrite <- exp_0. apply exp_increasing. cbn [INR]. assert (0 < (q * (1 + 1)) ^ 2) by (apply pow_lt; lra). lra. }
    assert (F : 1 - 2 * y + y ^ 4 = (1 - y) * (1 - y - y ^ 2 - y ^ 3)) by ring. assert (G : (1 - y) * (1 - y - y ^ 2 - y ^ 3) < 0).
    { assert (0 < y ^ 2) by (apply pow_lt; lra). assert (0 < y ^ 3) by (apply pow_lt; lra). assert (1 / 4 <= y ^ 2) by (replace (1 / 4) with ((1 / 2) ^ 2) by field; apply pow_incr; lra). nra. }
    lra.
  Qed.
  Lemma weight_1 : 0 <= stepStable 3 (1 / 10) 2 1.
  Proof.
    rewrite eight. set (z := PI / 4).
    replace (PI * 1 * 0 / 4) with (PI * IZR 0 / 2) by lra. replace (PI * 1 * 1 / 4) with (PI * IZR 0 / 2 + z) by (unfold z; lra). replace (PI * 1 * 2 / 4) with (PI * IZR 1 / 2) by lra.
    replace (PI * 1 * 3 / 4) with (PI * IZR 1 / 2 + z) by (unfold z; lra). replace (PI * 1 * 4 / 4) with (PI * IZR 2 / 2) by lra. replace (PI * 1 * 5 / 4) with (PI * IZR 2 / 2 + z) by (unfold z; lra).
    replace (PI * 1 * 6 / 4) with (PI * IZR 3 / 2) by lra. replace (PI * 1 * 7 / 4) with (PI * IZR 3 / 2 + z) by (unfold z; lra). rewrite !co, !ck. cbn. rewrite ph_0.
    assert (Z1 : 0 < sin z) by (apply sin_gt_0; unfold z; pose proof PI_RGT_0; lra). assert (Z2 : cos z = sin z).
    { unfold z. pose proof sin_cos_PI4. lra. }
    rewrite Z2. pose proof (ph_le 1 3 ltac:(lia)). pose proof (ph_le 0 4 ltac:(lia)). rewrite ph_0 in *. nra.
  Qed.
  Lemma weight_02 : 0 < stepStable 3 (1 / 10) 2 0 + stepStable 3 (1 / 10) 2 2.
  Proof.
    rewrite !eight.
    replace (PI * 2 * 0 / 4) with (PI * IZR 0 / 2) by lra. replace (PI * 2 * 1 / 4) with (PI * IZR 1 / 2) by lra. replace (PI * 2 * 2 / 4) with (PI * IZR 2 / 2) by lra.
    replace (PI * 2 * 3 / 4) with (PI * IZR 3 / 2) by lra. replace (PI * 2 * 4 / 4) with (PI * IZR 4 / 2) by lra. replace (PI * 2 * 5 / 4) with (PI * IZR 5 / 2) by lra.
    replace (PI * 2 * 6 / 4) with (PI * IZR 6 / 2) by lra. replace (PI * 2 * 7 / 4) with (PI * IZR 7 / 2) by lra. rewrite !ck.
    replace (PI * 0 * 0 / 4) with 0 by lra. replace (PI * 0 * 1 / 4) with 0 by lra. replace (PI * 0 * 2 / 4) with 0 by lra. replace (PI * 0 * 3 / 4) with 0 by lra. replace (PI * 0 * 4 / 4) with 0 by lra.
    replace (PI * 0 * 5 / 4) with 0 by lra. replace (PI * 0 * 6 / 4) with 0 by lra. replace (PI * 0 * 7 / 4) with 0 by lra. rewrite cos_0. cbn.
    pose proof (ph_pos 0). pose proof (ph_pos 1). pose proof (ph_pos 2). pose proof (ph_pos 3). pose proof (ph_pos 4). lra.
  Qed.
End Gauss.

(** a coin that is surely the one with bias 1/4 at first; its bias then makes a walk with Gaussian steps of 1/10 of the grid spacing *)
Definition sure : priorSpec R := PFun (fun _ => arrOf 3 (fun x => match x with 0%nat => 2 | _ => 0 end)).
Definition gaussLevy : tm R := levy "c" "k" "p" (1 / 40) 2.
Definition coinLevy : res (study R R) :=
  runCalls (newStudy (fun _ _ a => a) (alphaConv [3%nat]) (fun _ _ _ a => a)) [CLoad (data [0; 0]%Z) None; CSetTM gaussLevy; CSetOM (coin sure)].
Lemma coinLevy_setup : exists S, coinLevy = Ok S /\ configured S (coin sure) gaussLevy [quarters] (times [0; 0]%Z) /\ st_aconv S = alphaConv [3%nat] /\ st_tmlat S = [1 / 4] /\
  segments S (coin sure) = [Seg1 [Fin 0]; Seg1 [Fin 0]].
Proof.
  assert (X : exists S, coinLevy = Ok S /\ st_om S = Some (coin sure) /\ st_tm S = Some gaussLevy /\ st_marg S = [quarters] /\ st_raw S = data [0; 0]%Z /\ st_rawTs S = Some (times [0; 0]%Z) /\
     st_aconv S = alphaConv [3%nat] /\ st_tmlat S = [1 / 4]).
  { unfold coinLevy. cbn [runCalls runCall bind]. unfold setTM. change (isBreak gaussLevy) with false. cbn iota. cbn [bind].
    unfold setOM. cbn [combine om_values om_names coin coinOM mapM paramValues fst snd bind].
    assert (Lq : latticeOf quarters = Ok (Rabs (1 / 4))) by (rewrite quarters_progression; apply lattice_progression; lia). rewrite Lq. cbn [bind]. eexists. split; [reflexivity|].
    cbn [st_om st_tm st_marg st_raw st_rawTs st_aconv st_tmlat set_tm loadData newStudy]. rewrite Rabs_right by lra. repeat split. }
  destruct X as (S & E & Eo & Em & Eg & Er & Et & Ea & El). exists S. split; [exact E|]. split; [|split; [exact Ea|split; [exact El|]]].
  - rewrite <- Eg. eapply C44_reachable_configured; eauto.
    + cbn. repeat constructor; cbn; intuition discriminate.
    + rewrite Er. reflexivity.
    + rewrite Er. cbn. lia.
    + rewrite Eg. reflexivity.
    + rewrite Eg. discriminate.
    + rewrite Eg. constructor; [|constructor]. unfold quarters, frac. cbn. lra.
  - unfold segments. rewrite Er. reflexivity.
Qed.

(** The second posterior contains a negative probability. *)
Theorem C60_light_tails_refuted : exists S S' p1 p2 x, coinLevy = Ok S /\
  configured S (coin sure) gaussLevy [quarters] (times [0; 0]%Z) /\
  (forall ax c al p, st_aconv S ax c al p = alphaConv (st_shape S) ax c al p) /\
  fit S true false = Ok S' /\ st_post S' = [Some p1; Some p2] /\ (exists v, st_logEv S' = Fin v) /\ nth_error p2 2 = Some (Fin x) /\ x < 0.
Proof.
  destruct coinLevy_setup as (S & E & C & Ea & El & Sg). exists S.
  assert (Sh : st_shape S = [3%nat]) by exact (cf_shape _ _ _ _ _ C).
  assert (P : priorIs S [quarters] (coin sure) (om_prior (coin sure)) (normalised 3 (fun x => match x with 0%nat => 2 | _ => 0 end))).
  { apply (pri_fun S [quarters] (coin sure) _ (fun x => match x with 0%nat => 2 | _ => 0 end)); [reflexivity| | |]; cbn; try lra. intros [|x] _; lra. }
  destruct (prior_start S _ _ _ _ C _ _ P) as (_ & p' & alias & EP & St). destruct (St I) as [-> ->]. clear St.
  pose proof (cfg_volpos S _ _ _ _ C) as VP.
  set (k0 := stepStable 3 (1 / 10) 2 0) in *. set (k1 := stepStable 3 (1 / 10) 2 1) in *. set (k2 := stepStable 3 (1 / 10) 2 2) in *.
  assert (W0 : 0 < k0) by (apply step_center; lia). assert (W1 : 0 <= k1) by exact weight_1. assert (W2 : k2 < 0) by exact weight_2. assert (W02 : 0 < k0 + k2) by exact weight_02.
  assert (T1 : forall p off t1 t t', step (with_prior (envOf S (coin sure) (om_prior (coin sure))) p) gaussLevy off (arrOf 3 (fun x => if Nat.eqb x 0 then 1 else 0)) t1 t t' =
     Ok (map Fin [k0 / (k0 + k1 + k2); k1 / (k0 + k1 + k2); k2 / (k0 + k1 + k2)])).
  { intros p off t1 t t'. change (step ?e gaussLevy ?o ?a ?x ?y ?z) with (leafStep e (KAlpha "p") [HNum (1 / 40); HNum 2] o a x y z).
    set (e1 := with_prior _ p). assert (S1 : e_shape e1 = [3%nat]) by exact Sh. assert (Z1 : e_size e1 = 3%nat) by (unfold e_size; rewrite S1; reflexivity).
    assert (G : forall y, moved (e_shape e1) 0 (1 / 40 / (1 / 4)) 2 (fun x => if Nat.eqb x 0 then 1 else 0) y = stepStable 3 (1 / 10) 2 (Z.of_nat y)).
    { intros y. unfold moved. rewrite S1. cbn [Kwalk natprod fold_right Nat.mul Nat.add rsum Nat.eqb]. unfold Kstable. replace (1 / 40 / (1 / 4)) with (1 / 10) by field.
      change (Z.of_nat 0) with 0%Z. rewrite Z.sub_0_r. ring. }
    rewrite <- Z1 at 1. rewrite (C60_step e1 "p"%string 0 (1 / 4)).
    - rewrite Z1. unfold arrOf, tab. cbn [seq map rsum]. rewrite !G. change (Z.of_nat 0) with 0%Z. change (Z.of_nat 1) with 1%Z. change (Z.of_nat 2) with 2%Z. fold k0 k1 k2.
      repeat f_equal; ring.
    - rewrite S1. exact I.
    - rewrite S1. repeat constructor.
    - rewrite S1. cbn. lia.
    - reflexivity.
    - cbn. repeat constructor. auto.
    - unfold e1. cbn. rewrite El. reflexivity.
    - intros. rewrite S1. unfold e1. cbn. now rewrite Ea.
    - lra.
    - rewrite Z1. cbn [rsum]. rewrite !G. change (Z.of_nat 0) with 0%Z. change (Z.of_nat 1) with 1%Z. change (Z.of_nat 2) with 2%Z. fold k0 k1 k2. lra. }
  assert (T2 : forall p off a t1 t t', exists q, step (with_prior (envOf S (coin sure) (om_prior (coin sure))) p) gaussLevy off a t1 t t' = Ok q).
  { intros p off a t1 t t'. eexists. change (step ?e gaussLevy ?o ?a ?x ?y ?z) with (leafStep e (KAlpha "p") [HNum (1 / 40); HNum 2] o a x y z). apply (leaf_alpha _ "p"%string 0 (1 / 4)).
    - cbn. rewrite Sh. exact I.
    - reflexivity.
    - cbn. repeat constructor. auto.
    - cbn. rewrite El. reflexivity. }
  assert (Fp : forall s, processedPdf (coin sure) (gridPoints [quarters]) (meshgrid [quarters]) (Seg1 [Fin 0]) = s -> s = map Fin [3 / 4; 1 / 2; 1 / 4]).
  { intros s <-. unfold quarters, frac. cbn. repeat (f_equal; try lra). }
  unfold fit. rewrite (cfg_check S _ _ _ _ C). cbn [bind]. rewrite (cf_ts _ _ _ _ _ C). fold (segments S (coin sure)). rewrite Sg. rewrite EP. cbn [bind].
  change (formatTimestamps (times [0; 0]%Z) (om_seglen (coin sure))) with [0; 1]. cbn [fwdLoop].
  rewrite (cfg_size S _ _ _ _ C), (cfg_grid S _ _ _ _ C). rewrite (Fp _ eq_refl).
  set (v := cellVolume S) in *. change (gridPoints [quarters]) with 3%nat.
  assert (A1 : amul (map Fin (tab 3 (fun x => normalised 3 (fun x => match x with 0%nat => 2 | _ => 0 end) x / v))) (map Fin [3 / 4; 1 / 2; 1 / 4]) = map Fin [3 / 4 / v; 0; 0]).
  { rewrite amul_fin. unfold tab, normalised. cbn [seq map rsum rmul map2 combine]. repeat (apply f_equal2; [apply f_equal; field; lra|]). reflexivity. }
  rewrite A1. clear A1. assert (S1 : asum (map Fin [3 / 4 / v; 0; 0]) = Fin (3 / 4 / v)) by (rewrite asum_fin; unfold Rsum; cbn; f_equal; ring).
  assert (V1 : 0 < 3 / 4 / v) by (apply Rdiv_lt_0_compat; lra).
  rewrite S1. replace (xltb (Fin f0) (Fin (3 / 4 / v))) with true by (symmetry; cbn; now apply Rltb_true).
  assert (D1 : adivs (map Fin [3 / 4 / v; 0; 0]) (Fin (3 / 4 / v)) = arrOf 3 (fun x => if Nat.eqb x 0 then 1 else 0)).
  { rewrite adivs_fin by lra. unfold rdivs, arrOf, tab. cbn [seq map Nat.eqb]. repeat (apply f_equal2; [apply f_equal; field; lra|]). reflexivity. }
  rewrite D1. unfold computeForwardPrior. rewrite T1. cbn [bind].
  set (w := k0 + k1 + k2). assert (Pw : 0 < w) by (unfold w; lra).
  assert (A2 : amul (map Fin [k0 / w; k1 / w; k2 / w]) (map Fin [3 / 4; 1 / 2; 1 / 4]) = map Fin [k0 / w * (3 / 4); k1 / w * (1 / 2); k2 / w * (1 / 4)]) by (rewrite amul_fin; reflexivity).
  rewrite A2. set (z := k0 / w * (3 / 4) + k1 / w * (1 / 2) + k2 / w * (1 / 4)).
  assert (S2 : asum (map Fin [k0 / w * (3 / 4); k1 / w * (1 / 2); k2 / w * (1 / 4)]) = Fin z) by (rewrite asum_fin; unfold Rsum, z; cbn; f_equal; ring).
  assert (Pz : 0 < z).
  { unfold z, Rdiv. replace (k0 * / w * (3 * / 4) + k1 * / w * (1 * / 2) + k2 * / w * (1 * / 4)) with ((k0 * (3 * / 4) + k1 * (1 * / 2) + k2 * (1 * / 4)) * / w) by ring.
    apply Rmult_lt_0_compat; [lra|now apply Rinv_0_lt_compat]. }
  assert (D2 : adivs (map Fin [k0 / w * (3 / 4); k1 / w * (1 / 2); k2 / w * (1 / 4)]) (Fin z) = map Fin [k0 / w * (3 / 4) / z; k1 / w * (1 / 2) / z; k2 / w * (1 / 4) / z]) by (rewrite adivs_fin by lra; reflexivity).
  rewrite S2, D2. replace (xltb (Fin f0) (Fin z)) with true by (symmetry; cbn; now apply Rltb_true).
  match goal with |- context [step ?e ?m ?o ?a ?x ?y ?t] => match e with with_prior _ ?p => destruct (T2 p o a x y t) as [q Eq]; rewrite Eq end end.
  cbn [bind fw_cons fw_stop fw_steps fw_prior fw_logEv]. do 4 eexists.
  split; [exact E|]. split; [exact C|]. split; [intros; now rewrite Ea, Sh|]. split; [reflexivity|]. cbn [set_results st_post st_logEv map fst padNone List.length repeat app Nat.sub].
  split; [reflexivity|]. split.
  - assert (Lv : forall x, 0 < x -> xln (L := R) (Fin x) = Fin (ln x)) by (intros x Hx; cbn; apply Rltb_true in Hx; now rewrite Hx).
    rewrite !Lv by auto. rewrite cfg_vol. fold v. rewrite Lv by auto. cbn. eauto.
  - cbn [nth_error]. split; [reflexivity|].
    unfold Rdiv. replace (k2 * / w * (1 * / 4) * / z) with (- ((- k2) * (/ w * / 4 * / z))) by ring.
    assert (0 < - k2 * (/ w * / 4 * / z)); [|lra]. apply Rmult_lt_0_compat; [lra|]. repeat apply Rmult_lt_0_compat; try apply Rinv_0_lt_compat; lra.
Qed.

(** Case for C60_distribution: a Cauchy walk of the coin's parameter on the grid 1/4, 1/2, 3/4, starting from certainty. *)
Example C60_distribution_example : exists S f', coinLevy = Ok S /\
  leafStep (envOf S (coin sure) (om_prior (coin sure))) (KAlpha "p"%string) [HNum (1 / 4); HNum 1] 0 (arrOf 3 (fun x => if Nat.eqb x 0 then 1 else 0)) 0 0 1 = Ok (arrOf 3 f') /\
  rsum 3 f' = 1 /\ 0 <= f' 2%nat /\ f' 2%nat = Kstable 3 1 1 0%nat 2%nat / (Kstable 3 1 1 0%nat 0%nat + Kstable 3 1 1 0%nat 1%nat + Kstable 3 1 1 0%nat 2%nat).
Proof.
  destruct coinLevy_setup as (S & E & C & Ea & El & Sg). exists S. assert (Sh : st_shape S = [3%nat]) by (rewrite (cf_shape _ _ _ _ _ C); reflexivity).
  assert (Es : e_size (envOf S (coin sure) (om_prior (coin sure))) = 3%nat) by (cbn; rewrite Sh; reflexivity).
  destruct (C60_distribution (envOf S (coin sure) (om_prior (coin sure))) "p"%string 0 (1 / 4) (1 / 4) 1 (fun x => if Nat.eqb x 0 then 1 else 0) 0 0 0 1) as (f' & h1 & h2 & h3); cbn [envOf e_shape e_names e_tmlat e_aconv]; rewrite ?Sh, ?El, ?Ea; auto.
  - repeat constructor.
  - cbn. constructor; [intros []|constructor].
  - lra.
  - intros x _. destruct (Nat.eqb x 0); lra.
  - exists 0%nat. rewrite Es. split; [lia|]. cbn. lra.
  - rewrite Es in *. exists f'. split; [exact E|]. split; [exact h1|]. split; [exact h3|]. destruct (h2 2%nat ltac:(lia)) as [-> h]. split; [exact h|].
    cbn [envOf e_shape]. rewrite Sh. unfold moved, Kwalk. cbn [natprod fold_right Nat.mul Nat.add rsum Nat.eqb]. replace (1 / 4 / (1 / 4)) with 1 by field. f_equal; ring.
Qed.
