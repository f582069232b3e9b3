(** Parameter values that are not given: C57. *)
From Coq Require Import List ZArith Reals Lra Lia Arith Bool String.
From Verif Require Import Base.Num Base.Exn Base.Arr Base.RSum Base.Lift Model.Helper Model.Tm Model.HyperParams Model.Study Model.Api Model.ObsModels
  Spec.Kernel Spec.Config Spec.Dist Spec.ObsSpec Spec.DefaultSpec Proof.Gauss Proof.SetupProof Props.Ex Props.ExR Props.Setup Props.Inference Props.Observation.
Import ListNotations.
Local Open Scope R_scope.

(** A built-in observation model without parameter values, with or without a prior *)
Inductive builtin :=
| Bernoulli (p : string) (prior : option (priorSpec R))
| Poisson (p : string) (prior : option (priorSpec R))
| Gaussian (p1 p2 : string) (prior : option (priorSpec R))
| Laplace (p1 p2 : string) (prior : option (priorSpec R))
| WhiteNoise (p : string) (prior : option (priorSpec R))
| GaussianMean (p : string) (prior : priorSpec R)
| AR1 (p1 p2 : string) (prior : priorSpec R)
| ScaledAR1 (p1 p2 : string) (prior : priorSpec R).
Definition omOf (b : builtin) : om R :=
  match b with
  | Bernoulli p pr => bernoulli p None pr
  | Poisson p pr => poisson p None pr
  | Gaussian p1 p2 pr => gaussian p1 None p2 None pr
  | Laplace p1 p2 pr => laplace p1 None p2 None pr
  | WhiteNoise p pr => whiteNoise p None pr
  | GaussianMean p pr => gaussianMean p None pr
  | AR1 p1 p2 pr => ar1 p1 None p2 None pr
  | ScaledAR1 p1 p2 pr => scaledAr1 p1 None p2 None pr
  end.

(** The parameter values chosen for data [d] *)
Definition defaults (b : builtin) (d : raw R) (vs : list (list R)) : Prop :=
  let m := mean (numbers d) in let s := std (numbers d) in
  match b with
  | Bernoulli _ _ => exists v, vs = [v] /\ closedGrid 0 1 1000 v
  | Poisson _ _ => exists v M, vs = [v] /\ isMax M (numbers d) /\ openGrid 0 (5 / 4 * M) 1000 v
  | Gaussian _ _ _ => exists v w, vs = [v; w] /\ closedGrid (m - 2 * s) (m + 2 * s) 200 v /\ openGrid 0 (2 * s) 200 w
  | Laplace _ _ _ => exists v w, vs = [v; w] /\ closedGrid (m - 2 * s) (m + 2 * s) 200 v /\ openGrid 0 (sqrt 2 * s) 200 w
  | WhiteNoise _ _ => exists v, vs = [v] /\ openGrid 0 (2 * s) 1000 v
  | GaussianMean _ _ => exists v lo hi, vs = [v] /\ isMin lo (firsts d) /\ isMax hi (firsts d) /\ openGrid (lo - (hi - lo)) (hi + (hi - lo)) 1000 v
  | AR1 _ _ _ | ScaledAR1 _ _ _ => exists v w, vs = [v; w] /\ openGrid (-1) 1 200 v /\ openGrid 0 (2 * s) 200 w
  end.

(** data from which parameter values can be chosen; two parameters have two names *)
Definition informative (b : builtin) (d : raw R) : Prop :=
  match b with
  | Bernoulli _ _ => True
  | Poisson _ _ => exists x, In x (numbers d) /\ 0 < x
  | WhiteNoise _ _ => varies (numbers d)
  | GaussianMean _ _ => varies (firsts d)
  | Gaussian p1 p2 _ | Laplace p1 p2 _ | AR1 p1 p2 _ | ScaledAR1 p1 p2 _ => p1 <> p2 /\ varies (numbers d)
  end.

(** ** auxiliary *)
Lemma observed_numbers d : observed d = numbers d.
Proof.
  assert (G : forall l : list (xnum R), flat_map (fun x : xr => match x with Fin v => [v] | _ => [] end) l = numbersIn l).
  { induction l as [|x l IH]; [reflexivity|]. cbn. rewrite IH. destruct x; reflexivity. }
  destruct d; apply G.
Qed.
Lemma meanOf_mean l : meanOf l = mean l.
Proof. unfold meanOf, mean. now rewrite fsum_R. Qed.
Lemma stdOf_std l : stdOf l = std l.
Proof. unfold stdOf, std, variance. rewrite !meanOf_mean. unfold mean at 1. rewrite map_length. reflexivity. Qed.
Lemma std_pos l : varies l -> 0 < std l.
Proof.
  intros (x & y & Ix & Iy & Nxy). unfold std, variance. apply sqrt_lt_R0.
  assert (Hn : 0 < INR (List.length l)) by (apply lt_0_INR; destruct l; [destruct Ix|cbn; lia]).
  apply Rdiv_lt_0_compat; auto.
  assert (G : forall c (k : list R) z, In z k -> (z - c) ^ 2 <= Rsum (map (fun x => (x - c) ^ 2) k)).
  { intros c. induction k as [|a k IH]; intros z Iz; [destruct Iz|]. cbn [map]. change (Rsum ((a - c) ^ 2 :: map (fun x => (x - c) ^ 2) k)) with ((a - c) ^ 2 + Rsum (map (fun x => (x - c) ^ 2) k)).
    assert (0 <= Rsum (map (fun x => (x - c) ^ 2) k)) by (apply Rsum_nonneg, Forall_map, Forall_forall; intros; apply pow2_ge_0).
    destruct Iz as [->|Iz]; [lra|]. specialize (IH z Iz). pose proof (pow2_ge_0 (a - c)). lra. }
  pose proof (G (mean l) l x Ix) as G1. pose proof (G (mean l) l y Iy) as G2.
  destruct (Req_dec x (mean l)) as [E|E].
  - assert (y - mean l <> 0) by lra. assert (0 < (y - mean l) ^ 2) by nra. lra.
  - assert (x - mean l <> 0) by lra. assert (0 < (x - mean l) ^ 2) by nra. lra.
Qed.
Lemma fold_max l : forall a, let M := fold_left Rmax l a in (M = a \/ In M l) /\ a <= M /\ forall x, In x l -> x <= M.
Proof.
  induction l as [|b l IH]; intros a; cbn [fold_left]; [split; [now left|]; split; [lra|intros x []]|].
  destruct (IH (Rmax a b)) as (h1 & h2 & h3). cbv zeta in *. pose proof (Rmax_l a b). pose proof (Rmax_r a b). split; [|split].
  - destruct h1 as [h1|h1]; [|right; now right]. rewrite h1. destruct (Rle_dec a b); [rewrite Rmax_right by auto; right; now left|rewrite Rmax_left by lra; now left].
  - lra.
  - intros x [<-|I]; [lra|auto].
Qed.
Lemma fold_min l : forall a, let M := fold_left Rmin l a in (M = a \/ In M l) /\ M <= a /\ forall x, In x l -> M <= x.
Proof.
  induction l as [|b l IH]; intros a; cbn [fold_left]; [split; [now left|]; split; [lra|intros x []]|].
  destruct (IH (Rmin a b)) as (h1 & h2 & h3). cbv zeta in *. pose proof (Rmin_l a b). pose proof (Rmin_r a b). split; [|split].
  - destruct h1 as [h1|h1]; [|right; now right]. rewrite h1. destruct (Rle_dec a b); [rewrite Rmin_left by auto; now left|rewrite Rmin_right by lra; right; now left].
  - lra.
  - intros x [<-|I]; [lra|auto].
Qed.
Lemma maxOf_isMax l x : In x l -> isMax (maxOf l) l.
Proof. intros I. destruct l as [|a l]; [destruct I|]. unfold maxOf. cbn [hd tl]. destruct (fold_max l a) as (h1 & h2 & h3). split; [destruct h1 as [->|h1]; [now left|now right]|]. intros y [<-|Iy]; auto. Qed.
Lemma minOf_isMin l x : In x l -> isMin (minOf l) l.
Proof. intros I. destruct l as [|a l]; [destruct I|]. unfold minOf. cbn [hd tl]. destruct (fold_min l a) as (h1 & h2 & h3). split; [destruct h1 as [->|h1]; [now left|now right]|]. intros y [<-|Iy]; auto. Qed.
Lemma cint_closed a b n : (2 <= n)%nat -> closedGrid a b n (cint a b n).
Proof.
  intros Hn. rewrite cint_progression by auto. split; [unfold progression; now rewrite map_length, seq_length|]. intros i Hi. rewrite progression_nth by auto. reflexivity.
Qed.
Lemma oint_open a b n : openGrid a b n (oint a b n).
Proof.
  rewrite oint_progression. split; [unfold progression; now rewrite map_length, seq_length|]. intros i Hi. rewrite progression_nth by auto. ring.
Qed.
(** two values at least, the first two different *)
Definition spread2 (v : list R) : Prop := (2 <= List.length v)%nat /\ nth 0 v 0 <> nth 1 v 0.
Lemma closed_spread a b n g : (2 <= n)%nat -> a < b -> closedGrid a b n g -> spread2 g.
Proof.
  intros Hn Hab (Ln & Hg). split; [lia|]. rewrite !Hg by lia. change (INR 0) with 0. change (INR 1) with 1.
  assert (1 <= INR n - 1) by (replace 1 with (INR 2 - 1) at 1 by (cbn; lra); apply le_INR in Hn; lra).
  assert (0 < (b - a) / (INR n - 1)) by (apply Rdiv_lt_0_compat; lra). lra.
Qed.
Lemma open_spread a b n g : (2 <= n)%nat -> a < b -> openGrid a b n g -> spread2 g.
Proof.
  intros Hn Hab (Ln & Hg). split; [lia|]. rewrite !Hg by lia. change (INR 0) with 0. change (INR 1) with 1. pose proof (pos_INR n).
  assert (0 < (b - a) / (INR n + 1)) by (apply Rdiv_lt_0_compat; lra). lra.
Qed.
Lemma open_between a b n g : a < b -> openGrid a b n g -> Forall (fun x => a < x < b) g.
Proof.
  intros Hab (Ln & Hg). apply Forall_forall. intros x Ix. apply (In_nth _ _ 0) in Ix as (i & Hi & <-). rewrite Ln in Hi. rewrite Hg by auto.
  pose proof (pos_INR i). assert (INR i + 1 <= INR n) by (rewrite <- S_INR; apply le_INR; lia). set (q := (b - a) / (INR n + 1)).
  assert (0 < q) by (apply Rdiv_lt_0_compat; lra). assert ((INR n + 1) * q = b - a) by (unfold q; field; lra). split; nra.
Qed.
Lemma closed_between a b n g : (2 <= n)%nat -> a < b -> closedGrid a b n g -> Forall (fun x => a <= x <= b) g.
Proof.
  intros Hn Hab (Ln & Hg). apply Forall_forall. intros x Ix. apply (In_nth _ _ 0) in Ix as (i & Hi & <-). rewrite Ln in Hi. rewrite Hg by auto.
  assert (1 <= INR n - 1) by (replace 1 with (INR 2 - 1) at 1 by (cbn; lra); apply le_INR in Hn; lra).
  pose proof (pos_INR i). assert (INR i + 1 <= INR n) by (rewrite <- S_INR; apply le_INR; lia). set (q := (b - a) / (INR n - 1)).
  assert (0 < q) by (apply Rdiv_lt_0_compat; lra). assert ((INR n - 1) * q = b - a) by (unfold q; field; lra). split; nra.
Qed.
Lemma setup_values d (o : om R) m vs : mapM (paramValues o d) (combine (om_values o) (om_names o)) = Ok vs -> List.length (om_names o) = List.length vs -> vs <> [] -> isBreak m = false ->
  NoDup (allNames m) -> (0 < rawLen d)%nat -> (0 < om_seglen o)%nat -> Forall spread2 vs ->
  exists S : study R R, setup d None o m = Ok S /\ st_raw S = d /\ configured S o m vs (map INR (seq 0 (rawLen d))).
Proof.
  intros EM Ln Nn Hm ND Hd Hs Hv.
  assert (EL : exists lat, mapM latticeOf vs = Ok lat).
  { clear - Hv. induction Hv as [|v vs [L _] HF (lat & IH)]; [exists []; reflexivity|]. cbn [mapM]. unfold latticeOf at 1.
    destruct (existsb _ _); [|destruct v as [|a [|b v]]; cbn in L; try lia]; cbn [bind]; rewrite IH; cbn [bind]; eauto. }
  destruct EL as (lat & EL).
  assert (E : exists S : study R R, setup d None o m = Ok S /\ st_om S = Some o /\ st_tm S = Some m /\ st_marg S = vs /\ st_raw S = d /\
    st_rawTs S = Some (map INR (seq 0 (rawLen d)))).
  { unfold setup. cbn [runCalls runCall bind]. unfold setTM. rewrite Hm. cbn [bind]. unfold setOM. cbn [st_raw set_tm loadData].
    rewrite EM. cbn [bind]. rewrite EL. cbn [bind]. eexists. split; [reflexivity|]. cbn [st_om st_tm st_marg st_raw st_rawTs set_tm loadData]. repeat split.
    f_equal. apply map_ext. intros. symmetry. apply INR_IZR_INZ. }
  destruct E as (S & E & h1 & h2 & h3 & h4 & h5). exists S. split; [exact E|]. split; [exact h4|]. rewrite <- h3. unfold setup in E.
  eapply C44_reachable_configured; eauto.
  - rewrite h4, map_length, seq_length. reflexivity.
  - now rewrite h4.
  - now rewrite h3.
  - now rewrite h3.
  - rewrite h3. eapply Forall_impl; [|exact Hv]. unfold spread2. cbn. tauto.
Qed.

(** the domains of the parameters *)
Definition inDomain (b : builtin) (vs : list (list R)) : Prop :=
  match b with
  | Bernoulli _ _ => Forall (fun x => 0 <= x <= 1) (nth 0 vs [])
  | Poisson _ _ | WhiteNoise _ _ => Forall (fun x => 0 < x) (nth 0 vs [])
  | Gaussian _ _ _ | Laplace _ _ _ => Forall (fun x => 0 < x) (nth 1 vs [])
  | GaussianMean _ _ => True
  | AR1 _ _ _ | ScaledAR1 _ _ _ => Forall (fun x => -1 < x < 1) (nth 0 vs []) /\ Forall (fun x => 0 < x) (nth 1 vs [])
  end.

Lemma two_le_200 : (2 <= 200)%nat. Proof. apply Nat.leb_le. reflexivity. Qed.
Lemma two_le_1000 : (2 <= 1000)%nat. Proof. apply Nat.leb_le. reflexivity. Qed.
Local Hint Resolve two_le_200 two_le_1000 : core.
Lemma open_pos b n g : 0 < b -> openGrid 0 b n g -> Forall (fun x => 0 < x) g.
Proof. intros Hb G. eapply Forall_impl; [|apply (open_between 0 b n g Hb G)]. cbn. tauto. Qed.

(** what the data must be like for the fit *)
Definition admissible (b : builtin) (d : raw R) : Prop :=
  match b with
  | Bernoulli _ _ => False
  | Poisson _ _ => everyDatum (missingOr (fun r => exists k, r = INR k)) d
  | GaussianMean _ _ => exists rows, d = Raw2 rows /\ Forall (fun row => In NaN row \/ exists x s, row = [Fin x; Fin s] /\ s <> 0) rows
  | _ => everyDatum (missingOr anyNumber) d
  end.
(** the prior argument is left out *)
Definition priorLeftOut (b : builtin) : Prop :=
  match b with
  | Bernoulli _ pr | Poisson _ pr | Gaussian _ _ pr | Laplace _ _ pr | WhiteNoise _ pr => pr = None
  | GaussianMean _ pr | AR1 _ _ pr | ScaledAR1 _ _ pr => pr = PNone
  end.

(** The grids have the stated ends, numbers of values and even spacing, and the study is configured with them. *)
Theorem C57_defaults : forall d b m, informative b d -> isBreak m = false -> NoDup (allNames m) -> (0 < rawLen d)%nat ->
  exists (S : study R R) vs, setup d None (omOf b) m = Ok S /\ st_raw S = d /\ defaults b d vs /\ inDomain b vs /\
    configured S (omOf b) m vs (map INR (seq 0 (rawLen d))).
Proof.
  intros d b m I Hm ND Hd.
  assert (G : exists vs, mapM (paramValues (omOf b) d) (combine (om_values (omOf b)) (om_names (omOf b))) = Ok vs /\ defaults b d vs /\ inDomain b vs /\ Forall spread2 vs /\
     List.length (om_names (omOf b)) = List.length vs /\ vs <> [] /\ (0 < om_seglen (omOf b))%nat).
  { assert (Sp : match b with Bernoulli _ _ | Poisson _ _ | GaussianMean _ _ => True | _ => 0 < std (numbers d) end) by (destruct b; cbn [informative] in I; auto; apply std_pos; tauto).
    destruct b as [p pr|p pr|p1 p2 pr|p1 p2 pr|p pr|p pr|p1 p2 pr|p1 p2 pr]; cbn [informative] in I; try destruct I as [Np I]; cbn [omOf om_values om_names bernoulli poisson gaussian laplace whiteNoise gaussianMean ar1 scaledAr1 combine mapM]; unfold paramValues;
      cbn [fst snd om_estimate bernoulli poisson gaussian laplace whiteNoise gaussianMean ar1 scaledAr1];
      unfold bernoulliEstimate, poissonEstimate, gaussianEstimate, laplaceEstimate, whiteNoiseEstimate, gaussianMeanEstimate, ar1Estimate;
      rewrite ?String.eqb_refl; try (rewrite (proj2 (String.eqb_neq p2 p1)) by congruence); cbn [bind]; eexists; (split; [reflexivity|]);
      rewrite ?stdOf_std, ?meanOf_mean, ?observed_numbers.
    - split; [eexists; split; [reflexivity|now apply cint_closed]|]. split; [apply (closed_between 0 1 1000); auto; try lra; now apply cint_closed|].
      split; [constructor; [|constructor]; apply (closed_spread 0 1 1000); auto; try lra; now apply cint_closed|]. repeat split; [discriminate|cbn; lia].
    - destruct I as [Ix Px]; rename Np into x. pose proof (maxOf_isMax _ _ Ix) as MX. assert (0 < maxOf (numbers d)) by (destruct MX as [_ MX]; specialize (MX x Ix); lra).
      pose proof (oint_open 0 (5 / 4 * maxOf (numbers d)) 1000) as OG. set (g := oint _ _ _) in *. clearbody g.
      split; [cbn [defaults]; eauto 10|]. split; [eapply open_pos; [|exact OG]; lra|].
      split; [constructor; [|constructor]; eapply open_spread; [| |exact OG]; auto; lra|]. repeat split; [discriminate|cbn; lia].
    - set (a := mean (numbers d)) in *. set (s := std (numbers d)) in *.
      pose proof (cint_closed (a - 2 * s) (a + 2 * s) 200 two_le_200) as CG. pose proof (oint_open 0 (2 * s) 200) as OG.
      set (g := cint _ _ _) in *. set (h := oint _ _ _) in *. clearbody g h.
      split; [cbn [defaults]; eauto 10|]. split; [eapply open_pos; [|exact OG]; lra|].
      split; [constructor; [eapply closed_spread; [| |exact CG]; auto; lra|constructor; [|constructor]; eapply open_spread; [| |exact OG]; auto; lra]|]. repeat split; [discriminate|cbn; lia].
    - set (a := mean (numbers d)) in *. set (s := std (numbers d)) in *. assert (Q : 0 < sqrt 2) by (apply sqrt_lt_R0; lra).
      pose proof (cint_closed (a - 2 * s) (a + 2 * s) 200 two_le_200) as CG. pose proof (oint_open 0 (sqrt 2 * s) 200) as OG.
      set (g := cint _ _ _) in *. set (h := oint _ _ _) in *. clearbody g h. assert (0 < sqrt 2 * s) by nra.
      split; [cbn [defaults]; eauto 10|]. split; [eapply open_pos; [|exact OG]; lra|].
      split; [constructor; [eapply closed_spread; [| |exact CG]; auto; lra|constructor; [|constructor]; eapply open_spread; [| |exact OG]; auto; lra]|]. repeat split; [discriminate|cbn; lia].
    - set (s := std (numbers d)) in *. pose proof (oint_open 0 (2 * s) 1000) as OG. set (h := oint _ _ _) in *. clearbody h.
      split; [cbn [defaults]; eauto 10|]. split; [eapply open_pos; [|exact OG]; lra|].
      split; [constructor; [|constructor]; eapply open_spread; [| |exact OG]; auto; lra|]. repeat split; [discriminate|cbn; lia].
    - change (numbers _) with (firsts d). destruct I as (y & Ix & Iy & Nxy); rename Np into x.
      pose proof (maxOf_isMax _ _ Ix) as MX. pose proof (minOf_isMin _ _ Ix) as MN. set (lo := minOf (firsts d)) in *. set (hi := maxOf (firsts d)) in *.
      assert (lo < hi). { destruct MX as [_ MX]. destruct MN as [_ MN]. pose proof (MX x Ix). pose proof (MX y Iy). pose proof (MN x Ix). pose proof (MN y Iy). lra. }
      pose proof (oint_open (lo - (hi - lo)) (hi + (hi - lo)) 1000) as OG. set (h := oint _ _ _) in *. clearbody h.
      split; [cbn [defaults]; eauto 10|]. split; [exact Logic.I|].
      split; [constructor; [|constructor]; eapply open_spread; [| |exact OG]; auto; lra|]. repeat split; [discriminate|cbn; lia].
    - set (s := std (numbers d)) in *. pose proof (oint_open (-1) 1 200) as CG. pose proof (oint_open 0 (2 * s) 200) as OG.
      set (g := oint (-1) _ _) in *. set (h := oint 0 _ _) in *. clearbody g h.
      split; [cbn [defaults]; eauto 10|]. split; [split; [eapply open_between; [|exact CG]; lra|eapply open_pos; [|exact OG]; lra]|].
      split; [constructor; [eapply open_spread; [| |exact CG]; auto; lra|constructor; [|constructor]; eapply open_spread; [| |exact OG]; auto; lra]|]. repeat split; [discriminate|cbn; lia].
    - set (s := std (numbers d)) in *. pose proof (oint_open (-1) 1 200) as CG. pose proof (oint_open 0 (2 * s) 200) as OG.
      set (g := oint (-1) _ _) in *. set (h := oint 0 _ _) in *. clearbody g h.
      split; [cbn [defaults]; eauto 10|]. split; [split; [eapply open_between; [|exact CG]; lra|eapply open_pos; [|exact OG]; lra]|].
      split; [constructor; [eapply open_spread; [| |exact CG]; auto; lra|constructor; [|constructor]; eapply open_spread; [| |exact OG]; auto; lra]|]. repeat split; [discriminate|cbn; lia]. }
  destruct G as (vs & EM & Df & Dm & Sp & Ln & Nn & Hs).
  destruct (setup_values d (omOf b) m vs EM Ln Nn Hm ND Hd Hs Sp) as (S & E & Er & C). exists S, vs. auto.
Qed.

(** ... and such a study can be analysed (all built-in models except Bernoulli, see C49_bernoulli_default). *)
Theorem C57_fit : forall d b m, informative b d -> admissible b d -> priorLeftOut b -> isBreak m = false -> NoDup (allNames m) -> runnable (om_names (omOf b)) m -> (0 < rawLen d)%nat ->
  exists (S S' : study R R) vs, setup d None (omOf b) m = Ok S /\ defaults b d vs /\ fit S false false = Ok S' /\
    (st_logEv S' = NInf \/ exists v posts, st_logEv S' = Fin v /\ st_post S' = map Some posts /\ List.length posts = nSteps S (omOf b) /\ Forall (dist (gridPoints vs)) posts).
Proof.
  intros d b m I A Lo Hm ND Run Hd. destruct (C57_defaults d b m I Hm ND Hd) as (S & vs & E & Er & Df & Dm & C).
  destruct (C49_fit S (omOf b) m vs _ false C Run) as (S' & Ef & Res).
  - rewrite Er. destruct b; cbn [admissible inDomain omOf] in *; try contradiction; try (constructor; tauto). + constructor; auto. eapply Forall_impl; [|exact Dm]. cbn. intros. lra. + destruct A as (rows & -> & A). now constructor.
  - destruct b; cbn [admissible inDomain omOf priorLeftOut] in *; try contradiction; subst; constructor; tauto.
  - exists S, S', vs. auto.
Qed.

(** Data without variation: the grids collapse. All values of a parameter are equal, the standard deviation is zero everywhere. *)
Lemma constant_mean l c : l <> [] -> (forall x, In x l -> x = c) -> mean l = c.
Proof.
  intros Nl H. assert (E : Rsum l = INR (List.length l) * c).
  { clear Nl. induction l as [|a l IH]; [cbn; ring|]. change (Rsum (a :: l)) with (a + Rsum l). cbn [List.length]. assert (Hl : forall x, In x l -> x = c) by (intros x Ix; apply H; right; exact Ix). rewrite S_INR, (IH Hl), (H a) by (left; reflexivity). ring. }
  unfold mean. rewrite E. field. apply not_0_INR. destruct l; [congruence|discriminate].
Qed.
Lemma constant_std l c : l <> [] -> (forall x, In x l -> x = c) -> std l = 0.
Proof.
  intros Nl H. unfold std, variance. rewrite (constant_mean l c Nl H).
  replace (Rsum (map (fun x => (x - c) ^ 2) l)) with 0; [unfold Rdiv; rewrite Rmult_0_l; apply sqrt_0|].
  clear Nl. induction l as [|a l IH]; [reflexivity|]. cbn [map]. change (Rsum (?a :: ?b)) with (a + Rsum b). assert (Hl : forall x, In x l -> x = c) by (intros x Ix; apply H; right; exact Ix). rewrite <- (IH Hl). rewrite (H a) by (left; reflexivity). ring.
Qed.
Theorem C57_constant : forall d p1 p2 pr m c, p1 <> p2 -> isBreak m = false -> numbers d <> [] -> (forall x, In x (numbers d) -> x = c) ->
  exists (S : study R R) vs ws, setup d None (omOf (Gaussian p1 p2 pr)) m = Ok S /\ st_marg S = [vs; ws] /\ List.length vs = 200%nat /\ List.length ws = 200%nat /\
    Forall (eq c) vs /\ Forall (eq 0) ws /\ st_lat S = [0; 0].
Proof.
  intros d p1 p2 pr m c Np Hm Nl H.
  assert (Ea : forall n, oint (F := R) 0 (2 * 0) n = progression 0 0 n).
  { intros n. rewrite oint_progression. f_equal; unfold Rdiv; ring. }
  assert (Eb : cint (F := R) (c - 2 * 0) (c + 2 * 0) 200 = progression c 0 200).
  { rewrite cint_progression by exact two_le_200. f_equal; unfold Rdiv; ring. }
  assert (Fp : forall a n, Forall (eq a) (progression a 0 n)).
  { intros a n. unfold progression. apply Forall_map, Forall_forall. intros. ring. }
  unfold setup. cbn [runCalls runCall bind]. unfold setTM. rewrite Hm. cbn [bind]. unfold setOM. cbn [st_raw set_tm loadData].
  cbn [omOf om_values om_names gaussian combine mapM]. unfold paramValues. cbn [fst snd om_estimate gaussian]. unfold gaussianEstimate.
  rewrite !String.eqb_refl, (proj2 (String.eqb_neq p2 p1)) by congruence. cbn [bind]. rewrite !stdOf_std, !meanOf_mean, !observed_numbers.
  rewrite (constant_std _ c Nl H), (constant_mean _ c Nl H), Ea, Eb.
  unfold mapM at 1. rewrite !lattice_progression by exact two_le_200. cbn [bind]. rewrite Rabs_R0.
  eexists _, _, _. split; [reflexivity|]. cbn [st_marg set_tm st_lat]. split; [reflexivity|].
  repeat split; auto; unfold progression; now rewrite map_length, seq_length.
Qed.
(** ... so the defaults are not usable for all data *)
Theorem C57_constant_refuted : exists d b (S : study R R) vs ws, admissible b d /\ priorLeftOut b /\ (2 <= List.length (numbers d))%nat /\
  setup d None (omOf b) static = Ok S /\ st_marg S = [vs; ws] /\ ~ inDomain b [vs; ws] /\ ~ NoDup vs.
Proof.
  destruct (C57_constant (Raw1 [Fin 3; Fin 3]) "mean" "std" None static 3) as (S & vs & ws & E & Em & Lv & Lw & Fv & Fw & _); try discriminate; auto.
  { cbn. intros x [<-|[<-|[]]]; reflexivity. }
  exists (Raw1 [Fin 3; Fin 3]), (Gaussian "mean" "std" None), S, vs, ws. split; [|split; [reflexivity|split; [cbn; lia|split; [exact E|split; [exact Em|split]]]]].
  - cbn. repeat apply Forall_cons; try apply Forall_nil; right; eexists; (split; [reflexivity|exact Logic.I]).
  - cbn [inDomain nth]. intros D. clear E Em. destruct ws as [|w ws]; [discriminate Lw|]. inversion Fw; inversion D; subst. lra.
  - intros D. clear E Em. destruct vs as [|a [|b vs]]; try discriminate Lv. inversion Fv as [|? ? Ea Fv']. inversion Fv' as [|? ? Eb _]. inversion D as [|? ? NI _]. apply NI. left. congruence.
Qed.

(** setObservationModel raises ConfigurationError exactly if values are missing for a parameter and estimating them fails,
    whatever the exception was. *)
Theorem C57_refused : forall (S : study R R) (o : om R),
  setOM S o = Err ConfigurationError <-> exists n e, In (None, n) (combine (om_values o) (om_names o)) /\ om_estimate o n (st_raw S) = Err e.
Proof.
  intros S o. unfold setOM.
  assert (G : forall l, (exists n e, In (None, n) l /\ om_estimate o n (st_raw S) = Err e) <-> mapM (paramValues o (st_raw S)) l = Err ConfigurationError).
  { induction l as [|[v n] l IH]; cbn [mapM In].
    - split; [intros (n & e & [] & _)|discriminate].
    - unfold paramValues at 1. cbn [fst snd]. destruct v as [v|].
      + cbn [bind]. split.
        * intros (k & e & [X|I] & E); [discriminate|]. rewrite (proj1 IH) by eauto. reflexivity.
        * intros E. destruct (mapM _ l) as [vs|e] eqn:EM; [discriminate|]. cbn [bind] in E. destruct (proj2 IH E) as (k & e' & I & E'). eauto.
      + destruct (om_estimate o n (st_raw S)) as [w|e] eqn:En; cbn [bind].
        * split.
          { intros (k & e & [X|I] & E); [injection X as <-; congruence|]. rewrite (proj1 IH) by eauto. reflexivity. }
          { intros E. destruct (mapM _ l) as [vs|e] eqn:EM; [discriminate|]. cbn [bind] in E. destruct (proj2 IH E) as (k & e' & I & E'). eauto. }
        * split; [reflexivity|]. intros _. eauto 6. }
  rewrite G. destruct (mapM (paramValues o (st_raw S)) _) as [vs|e]; cbn [bind]; [|split; congruence].
  split; [|discriminate]. intros E. exfalso. revert E. assert (K : mapM latticeOf vs <> Err ConfigurationError).
  { induction vs as [|v vs IH]; cbn [mapM]; [discriminate|]. unfold latticeOf at 1. destruct (existsb _ _); [|destruct v as [|x [|y v]]; cbn [bind]; try discriminate];
      (cbn [bind]; destruct (mapM latticeOf vs); cbn [bind]; congruence). }
  destruct (mapM latticeOf vs) as [lat|e]; cbn [bind]; congruence.
Qed.
(** ... as for a model without method estimateParameterValues *)
Example C57_refused_ex : let o := {| om_names := ["x"%string]; om_values := [None]; om_seglen := 1; om_multiply := true; om_prior := PNone; om_pdf := fun _ _ => []; om_estimate := fun _ _ => Err AttributeError |} in
  (setup (F := R) (L := R) (Raw1 [Fin 1]) None o static) = Err ConfigurationError.
Proof.
  intros o. unfold setup. cbn [runCalls runCall bind]. unfold setTM. change (isBreak static) with false. cbv iota. cbn [bind].
  match goal with |- context [setOM ?S o] => assert (E : setOM S o = Err ConfigurationError) end.
  { apply C57_refused. exists "x"%string, AttributeError. split; [now left|reflexivity]. }
  rewrite E. reflexivity.
Qed.

(** Non-vacuity: two different observations and a missing one, Gaussian, static model. *)
Example C57_ex : let d := Raw1 [Fin 0; NaN; Fin 2] in let b := Gaussian "mean" "std" None in
  informative b d /\ admissible b d /\ priorLeftOut b /\ mean (numbers d) = 1 /\ std (numbers d) = 1 /\
  exists (S S' : study R R) vs, setup d None (omOf b) static = Ok S /\ defaults b d vs /\ fit S false false = Ok S'.
Proof.
  intros d b.
  assert (I : informative b d). { split; [discriminate|]. exists 0, 2. cbn. repeat split; auto; lra. }
  assert (A : admissible b d). { cbn. repeat apply Forall_cons; try apply Forall_nil; try (right; eexists; split; [reflexivity|exact Logic.I]). now left. }
  assert (M : mean (numbers d) = 1) by (unfold mean; cbn; lra).
  split; [exact I|]. split; [exact A|]. split; [reflexivity|]. split; [exact M|]. split.
  - unfold std, variance. rewrite M. cbn. replace (_ / _) with 1 by field. apply sqrt_1.
  - destruct (C57_fit d b static I A) as (S & S' & vs & h1 & h2 & h3 & _).
    + reflexivity.
    + reflexivity.
    + cbn. constructor.
    + constructor.
    + cbn. lia.
    + exists S, S', vs. split; [exact h1|]. split; [exact h2|exact h3].
Qed.
