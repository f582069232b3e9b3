(** Default priors of the built-in observation models: C62. *)
From Coq Require Import List ZArith Reals Lra Lia Arith Bool String.
From Verif Require Import Base.Num Base.Exn Base.Arr Base.RSum Base.Lift Model.Helper Model.Tm Model.HyperParams Model.Study Model.ObsModels
  Spec.Kernel Spec.Hmm Spec.Config Spec.Marginal Spec.ObsSpec Spec.Fisher Proof.MarginalProof Proof.InferProof Proof.FisherProof Props.Observation.
Import ListNotations.
Local Open Scope string_scope.
Local Open Scope R_scope.

(** the models with a default prior that is not flat *)
Inductive family : Type := FBernoulli | FPoisson | FGaussian | FLaplace | FWhiteNoise.
Definition omWith (k : family) (p1 : string) (v1 : option (list R)) (p2 : string) (v2 : option (list R)) : om R :=
  match k with
  | FBernoulli => bernoulli p1 v1 None
  | FPoisson => poisson p1 v1 None
  | FGaussian => gaussian p1 v1 p2 v2 None
  | FLaplace => laplace p1 v1 p2 v2 None
  | FWhiteNoise => whiteNoise p1 v1 None
  end.
Definition dims (k : family) : nat := match k with FGaussian | FLaplace => 2 | _ => 1 end.
(** parameter values inside the domain *)
Definition inside (k : family) (vs : list (list R)) : Prop :=
  match k with
  | FBernoulli => Forall (fun p => 0 < p < 1) (nth 0 vs [])
  | FPoisson | FWhiteNoise => Forall (fun a => 0 < a) (nth 0 vs [])
  | FGaussian | FLaplace => Forall (fun s => 0 < s) (nth 1 vs [])
  end.
(** j is the Jeffreys prior of the family, the square root of (the determinant of) the Fisher information, at grid point x *)
Definition jeffreysAt (k : family) (vs : list (list R)) (x : nat) (j : R) : Prop :=
  match k with
  | FBernoulli => jeffreys sumBits (fun d => d = 0 \/ d = 1) bernoulliProb (parAt vs 0 x) j
  | FPoisson => jeffreys sumCounts (fun _ => True) poissonProb (parAt vs 0 x) j
  | FGaussian => jeffreys2 integral (fun _ => True) normalDensity (parAt vs 0 x) (parAt vs 1 x) j
  | FLaplace => jeffreys2 integral (fun d => d <> parAt vs 0 x) laplaceDensity (parAt vs 0 x) (parAt vs 1 x) j
  | FWhiteNoise => jeffreys integral (fun _ => True) (normalDensity 0) (parAt vs 0 x) j
  end.

(** what the code uses *)
Definition used (k : family) (vs : list (list R)) (x : nat) : R :=
  match k with
  | FBernoulli => 1 / sqrt (parAt vs 0 x * (1 - parAt vs 0 x))
  | FPoisson => sqrt (1 / parAt vs 0 x)
  | FGaussian | FLaplace => 1 / (parAt vs 1 x * parAt vs 1 x)
  | FWhiteNoise => 1 / parAt vs 0 x
  end.
Definition factor (k : family) : R := match k with FGaussian | FWhiteNoise => sqrt 2 | _ => 1 end.

Lemma inside_at k vs x : List.length vs = dims k -> inside k vs -> (x < gridPoints vs)%nat ->
  match k with FBernoulli => 0 < parAt vs 0 x < 1 | FPoisson | FWhiteNoise => 0 < parAt vs 0 x | _ => 0 < parAt vs 1 x end.
Proof.
  intros L I Hx. destruct k; cbn [inside dims] in *; rewrite Forall_forall in I; apply I, parAt_In; auto; lia.
Qed.
Lemma used_pos k vs x : List.length vs = dims k -> inside k vs -> (x < gridPoints vs)%nat -> 0 < used k vs x.
Proof.
  intros L I Hx. pose proof (inside_at k vs x L I Hx) as P. unfold used. destruct k; cbv beta iota in P.
  - apply Rdiv_lt_0_compat; [lra|apply sqrt_lt_R0; nra].
  - apply sqrt_lt_R0, Rdiv_lt_0_compat; lra.
  - apply Rdiv_lt_0_compat; nra.
  - apply Rdiv_lt_0_compat; nra.
  - apply Rdiv_lt_0_compat; lra.
Qed.
Lemma poisson_total lam : 0 < lam -> sumCounts (poissonProb lam) 1.
Proof. intros H. destruct (C49_poisson [[lam]] "r" None None eq_refl) as [_ K]; [repeat constructor; lra|]. apply (K 0%nat). cbn. auto. Qed.
Lemma sqrt_sq2 c : 0 < c -> sqrt (2 / c ^ 2) = sqrt 2 * (1 / c).
Proof. intros H. rewrite sqrt_div_alt by (apply pow_lt; auto). rewrite sqrt_pow2 by lra. field. lra. Qed.
Lemma sqrt_prod s : 0 < s -> sqrt (/ s ^ 2 * (2 / s ^ 2) - 0 * 0) = sqrt 2 * (1 / (s * s)).
Proof. intros H. replace (/ s ^ 2 * (2 / s ^ 2) - 0 * 0) with (2 / (s * s) ^ 2) by (field; lra). apply sqrt_sq2. nra. Qed.
Lemma jeffreys_used k vs x : List.length vs = dims k -> inside k vs -> (x < gridPoints vs)%nat -> jeffreysAt k vs x (factor k * used k vs x).
Proof.
  intros L I Hx. pose proof (inside_at k vs x L I Hx) as P. unfold jeffreysAt, used, factor. destruct k; cbv beta iota in P.
  - eexists. split; [apply bernoulli_fisher; auto|]. rewrite Rmult_1_l. unfold Rdiv. rewrite Rmult_1_l. symmetry. apply sqrt_inv.
  - eexists. split; [apply poisson_fisher; auto; now apply poisson_total|]. unfold Rdiv. now rewrite !Rmult_1_l.
  - exists (/ (parAt vs 1 x) ^ 2), 0, (2 / (parAt vs 1 x) ^ 2). split; [now apply normal_fisher2|]. now rewrite sqrt_prod.
  - destruct (C49_laplace_normalised (parAt vs 0 x) (parAt vs 1 x) P) as (F & HF). exists (/ (parAt vs 1 x) ^ 2), 0, (/ (parAt vs 1 x) ^ 2). split; [now apply (laplace_fisher2 _ _ P F)|].
    rewrite Rmult_1_l. symmetry. replace (/ (parAt vs 1 x) ^ 2 * / (parAt vs 1 x) ^ 2 - 0 * 0) with ((1 / (parAt vs 1 x * parAt vs 1 x)) ^ 2) by (field; lra). apply sqrt_pow2. left. apply Rdiv_lt_0_compat; nra.
  - eexists. split; [now apply noise_fisher|]. now rewrite sqrt_sq2.
Qed.
Lemma jeffreysAt_unique k vs x j j' : jeffreysAt k vs x j -> jeffreysAt k vs x j' -> j = j'.
Proof.
  destruct k; cbn [jeffreysAt].
  - apply jeffreys_unique. exact bits_total.
  - apply jeffreys_unique. exact counts_total.
  - apply jeffreys2_unique. intros f g v w E. apply (integral_total []). intros y _. now apply E.
  - apply jeffreys2_unique. intros f g v w E. apply (integral_total [parAt vs 0 x]). intros y Ny. apply E. intros ->. apply Ny. now left.
  - apply jeffreys_unique. intros f g v w E. apply (integral_total []). intros y _. now apply E.
Qed.
Lemma used_prior k p1 v1 p2 v2 vs : List.length vs = dims k -> inside k vs ->
  exists f, om_prior (omWith k p1 v1 p2 v2) = PFun f /\ f (meshgrid vs) = arrOf (gridPoints vs) (used k vs).
Proof.
  intros L I. assert (P := fun x => inside_at k vs x L I).
  destruct k; cbn [omWith om_prior bernoulli poisson gaussian laplace whiteNoise dims] in *; (eexists; split; [reflexivity|]); rewrite ?onGrid1_tab, ?onGrid2_tab by lia; unfold arrOf; rewrite map_tab; apply tab_ext; intros x Hx; specialize (P x Hx); cbn [used].
  - assert (0 < parAt vs 0 x * (1 - parAt vs 0 x)) by nra. unfold bernoulliJeffreys. cbn [xsqrt]. rewrite (proj2 (Rltb_false _ 0)) by lra. assert (0 < sqrt (parAt vs 0 x * (1 - parAt vs 0 x))) by now apply sqrt_lt_R0. now rewrite xdiv_fin by lra.
  - unfold poissonJeffreys. rewrite xdiv_fin by lra. cbn [xsqrt]. pose proof (inv_nonneg _ P). now rewrite (proj2 (Rltb_false _ 0)) by auto.
  - unfold gaussianJeffreys, xsq. cbn [xmul fmul NumR]. now rewrite xdiv_fin by nra.
  - unfold gaussianJeffreys, xsq. cbn [xmul fmul NumR]. now rewrite xdiv_fin by nra.
  - unfold whiteNoiseJeffreys. now rewrite xdiv_fin by lra.
Qed.

(** The Jeffreys prior exists and is positive at every grid point, and it is unique. *)
Theorem C62_exists : forall k vs x, List.length vs = dims k -> inside k vs -> (x < gridPoints vs)%nat ->
  exists j, 0 < j /\ jeffreysAt k vs x j /\ forall j', jeffreysAt k vs x j' -> j' = j.
Proof.
  intros k vs x L I Hx. exists (factor k * used k vs x). split; [|split; [now apply jeffreys_used|]].
  - apply Rmult_lt_0_compat; [|now apply used_pos]. destruct k; cbn [factor]; try lra; apply sqrt_lt_R0; lra.
  - intros j' H. apply (jeffreysAt_unique k vs x); auto. now apply jeffreys_used.
Qed.
(** If no prior is given, the prior probability of every grid point is its Jeffreys prior, divided by the sum over the grid. ([priorIs] is
    what all theorems about fits refer to. As for all function priors, values that sum to exactly one are excluded, see C11.) *)
Theorem C62_prior : forall S k p1 v1 p2 v2 vs J, List.length vs = dims k -> inside k vs -> (0 < gridPoints vs)%nat ->
  (forall x, (x < gridPoints vs)%nat -> jeffreysAt k vs x (J x)) -> let o := omWith k p1 v1 p2 v2 in
  (forall f, om_prior o = PFun f -> asum (f (meshgrid vs)) <> Fin 1) ->
  exists rho, priorIs S vs o (om_prior o) rho /\ forall x, (x < gridPoints vs)%nat -> rho x = J x / rsum (gridPoints vs) J.
Proof.
  intros S k p1 v1 p2 v2 vs J L I HN HJ o Hs. destruct (used_prior k p1 v1 p2 v2 vs L I) as (f & Ef & Eg). fold o in Ef.
  assert (Pu : forall x, (x < gridPoints vs)%nat -> 0 < used k vs x) by (intros; now apply used_pos).
  assert (Ps : 0 < rsum (gridPoints vs) (used k vs)) by (apply rsum_pos; [intros y Hy; left; auto|exists 0%nat; auto]).
  exists (normalised (gridPoints vs) (used k vs)). split.
  - rewrite Ef. apply (pri_fun S vs o f (used k vs)); auto.
    + intros x Hx. left. auto.
    + intros E. apply (Hs f Ef). rewrite Eg. unfold arrOf. change (map Fin (tab (gridPoints vs) (used k vs))) with (fin (tab (gridPoints vs) (used k vs))). rewrite asum_fin, Rsum_tab. now rewrite E.
  - intros x Hx. assert (EJ : forall y, (y < gridPoints vs)%nat -> J y = factor k * used k vs y).
    { intros y Hy. apply (jeffreysAt_unique k vs y); auto. now apply jeffreys_used. }
    assert (Pf : 0 < factor k) by (destruct k; cbn [factor]; try lra; apply sqrt_lt_R0; lra).
    rewrite EJ by auto. rewrite (rsum_ext _ J (fun y => factor k * used k vs y)) by auto. rewrite rsum_scal. unfold normalised. field. lra.
Qed.

(** Rates 1 and 4: Jeffreys prior 1 and 1/2, prior probabilities 2/3 and 1/3. *)
Example C62_prior_case : forall S : study R R, let o := omWith FPoisson "rate" (Some [1; 4]) "" None in
  exists rho, priorIs S [[1; 4]] o (om_prior o) rho /\ rho 0%nat = 2 / 3 /\ rho 1%nat = 1 / 3.
Proof.
  intros S o. assert (I : inside FPoisson [[1; 4]]) by (cbn; repeat constructor; lra).
  set (J := fun x => factor FPoisson * used FPoisson [[1; 4]] x).
  assert (J0 : J 0%nat = 1). { unfold J. cbn. replace (1 / 1) with 1 by field. rewrite sqrt_1. ring. }
  assert (J1 : J 1%nat = 1 / 2). { unfold J. cbn. replace (1 / 4) with (Rsqr (1 / 2)) by (unfold Rsqr; field). rewrite sqrt_Rsqr by lra. ring. }
  destruct (C62_prior S FPoisson "rate" (Some [1; 4]) "" None [[1; 4]] J eq_refl I) as (rho & P & E).
  - cbn. lia.
  - intros x Hx. now apply jeffreys_used.
  - intros f Ef. destruct (used_prior FPoisson "rate" (Some [1; 4]) "" None [[1; 4]] eq_refl I) as (f' & Ef' & Eg).
    rewrite Ef in Ef'. injection Ef' as <-. rewrite Eg. unfold arrOf. change (map Fin (tab (gridPoints [[1; 4]]) (used FPoisson [[1; 4]]))) with (fin (tab (gridPoints [[1; 4]]) (used FPoisson [[1; 4]]))).
    rewrite asum_fin, Rsum_tab. intros H. injection H as H. unfold J in *. cbn [factor gridPoints] in *. cbn in H, J0, J1. lra.
  - exists rho. split; [exact P|]. rewrite !E by (cbn; lia). cbn [gridPoints]. assert (Es : rsum (gridPoints [[1; 4]]) J = 3 / 2). { change (gridPoints [[1; 4]]) with 2%nat. cbn [rsum]. rewrite J0, J1. lra. }
    rewrite Es, J0, J1. split; field.
Qed.
(** The Gaussian model on a mean and two standard deviations. *)
Example C62_gaussian_case : forall m, exists j1 j2,
  jeffreysAt FGaussian [[m]; [1; 2]] 0 j1 /\ jeffreysAt FGaussian [[m]; [1; 2]] 1 j2 /\ j1 = 4 * j2 /\ 0 < j2.
Proof.
  intros m. assert (I : inside FGaussian [[m]; [1; 2]]) by (cbn; repeat constructor; lra).
  do 2 eexists. split; [apply jeffreys_used; auto; cbn; lia|]. split; [apply jeffreys_used; auto; cbn; lia|]. cbn. assert (0 < sqrt 2) by (apply sqrt_lt_R0; lra). split; [field|]. nra.
Qed.

(** The densities of the Gaussian and white noise models (and, with shifted mean, of the autoregressive ones) are normalised too. *)
Theorem C49_normal_normalised : forall m s, s <> 0 -> exists F, distributionFunction (normalDensity m s) F.
Proof. exact normal_normalised. Qed.
Example C49_normal_normalised_case : exists F, distributionFunction (normalDensity 1 5) F.
Proof. apply C49_normal_normalised. lra. Qed.
