(** C75: other units of the data. *)
From Coq Require Import List ZArith QArith Reals Lra Lia Arith Bool String.
From Verif Require Import Base.Num Base.Exn Base.Arr Base.RSum Base.Lift Model.Helper Model.Tm Model.HyperParams Model.Study Model.Api Model.ObsModels
  Spec.Kernel Spec.Config Spec.Units Spec.Factors Spec.ObsSpec Spec.DataUnits Proof.KernelProof Proof.FitInv Proof.FitThms Proof.SetupProof Proof.UnitsProof Proof.FactorProof Proof.DataUnitsProof
  Props.Ex Props.ExR Props.Inference Props.Parameters Props.Observation Props.Units Props.Setup.
Import ListNotations.
Local Open Scope R_scope.

(** If the likelihoods are densities of data in a different unit, then a study with parameter values and transition model in the corresponding
    units gives the same posterior distributions and time stamps, the same mean values in the new units, and fails with the same error, if it
    fails. The log-evidence changes by the logarithms of the factors of the likelihood (and of the conversion factors, for each change-point).
    The prior may change by a constant factor. *)
Theorem C75_rescaled : forall us S S' o o' m vs ts cs fo eo,
  rescaled us S S' o o' m vs ts -> Forall (fun u => 0 < u) us -> List.length us = List.length vs -> Forall equallySpaced vs ->
  likelihoodsInUnits us S S' o o' vs cs -> priorUpTo us (om_prior o) (om_prior o') -> notSummingToOne o vs -> notSummingToOne o' (convert us vs) ->
  plainChanges m -> (fo || eo = true)%bool \/ noRegime m /\ scalesWith S -> (0 < nSteps S o)%nat ->
  match fit S fo eo, fit S' fo eo with
  | Ok A, Ok B => st_post B = st_post A /\ st_fmtTs B = st_fmtTs A /\
      st_means B = map2 (fun u row => map (fun x => xmul (Fin u) x) row) us (st_means A) /\
      st_logEv B = xladd (F := R) (st_logEv A) (Fin (INR (resetCount m (timeOf ts o) (nSteps S o)) * ln (Rprod us) + Rsum (map ln cs)))
  | Err x, Err y => x = y
  | _, _ => False
  end.
Proof.
  intros us S S' o o' m vs ts cs fo eo RS Hu Hl Hv LU HP Hs Hs' Hm HB Hn. pose proof (fit_rescaled us S S' o o' m vs ts cs fo eo RS Hu Hl Hv LU HP Hs Hs' Hm HB Hn) as F.
  destruct (fit S fo eo); destruct (fit S' fo eo); auto. destruct F as (F1 & F2 & F3 & F4). auto.
Qed.

(** ** The built-in models *)
Lemma normal_units u m s x : 0 < u -> 0 < s -> normalDensity (u * m) (u * s) (u * x) = / u * normalDensity m s x.
Proof.
  intros Hu Hs. unfold normalDensity. replace (2 * PI * (u * s) ^ 2) with (u ^ 2 * (2 * PI * s ^ 2)) by ring.
  rewrite sqrt_mult by (pose proof (two_pi_sq s); nra). rewrite sqrt_pow2 by lra.
  replace (- (u * x - u * m) ^ 2 / (2 * (u * s) ^ 2)) with (- (x - m) ^ 2 / (2 * s ^ 2)) by (field; lra).
  field. split; [|lra]. apply Rgt_not_eq, sqrt_lt_R0, two_pi_sq. lra.
Qed.
Lemma laplace_units u m b x : 0 < u -> 0 < b -> laplaceDensity (u * m) (u * b) (u * x) = / u * laplaceDensity m b x.
Proof.
  intros Hu Hb. unfold laplaceDensity. replace (u * x - u * m) with (u * (x - m)) by ring. rewrite Rabs_mult, (Rabs_pos_eq u) by lra.
  replace (- (u * Rabs (x - m)) / (u * b)) with (- Rabs (x - m) / b) by (field; lra). field. lra.
Qed.
Lemma gauss_units u m s x : 0 < u -> 0 < s -> gaussX (Fin (u * x)) (Fin (u * m)) (Fin (u * s)) = xmul (Fin (/ u)) (gaussX (Fin x) (Fin m) (Fin s)).
Proof. intros Hu Hs. rewrite !gaussX_fin by (try lra; apply Rgt_not_eq, Rmult_lt_0_compat; lra). cbn. now rewrite normal_units. Qed.
Lemma inverse_units (u s k : R) : 0 < u -> 0 < k -> u = / k -> xdiv (Fin 1) (Fin (u * s)) = xmul (Fin k) (xdiv (Fin 1) (Fin s)).
Proof.
  intros Hu Hk E. pose proof (inv_units u 1 (Fin s) Hu Rlt_0_1) as X. cbn [xmul fmul NumR] in X. rewrite !Rmult_1_r in X. rewrite (Rmult_comm u), X, E, Rinv_inv. reflexivity.
Qed.

Section Points.
  Variables (v1 v2 : list R).
  Lemma points2 : meshgrid [v1; v2] = [map (fun pt => nth 0 pt 0) (cart [v1; v2]); map (fun pt => nth 1 pt 0) (cart [v1; v2])].
  Proof. reflexivity. Qed.
  Lemma points1 : meshgrid [v1] = [map (fun pt => nth 0 pt 0) (cart [v1])].
  Proof. reflexivity. Qed.
  Lemma map2_same {A B} (f : R -> R -> B) (g h : A -> R) l : map2 f (map g l) (map h l) = map (fun x => f (g x) (h x)) l.
  Proof. induction l; cbn; auto. now rewrite IHl. Qed.
  Lemma onGrid2_units u1 u2 c (f f' : R -> R -> xr) : (forall a b, In a v1 -> In b v2 -> f' (u1 * a) (u2 * b) = xmul (Fin c) (f a b)) ->
    onGrid2 f' (convert [u1; u2] (meshgrid [v1; v2])) = scaledBy c (onGrid2 f (meshgrid [v1; v2])).
  Proof.
    intros H. rewrite points2. unfold convert, onGrid2, gridOf, scaledBy. cbn [map2 nth]. rewrite !map_map, !map2_same, map_map. apply map_ext_in.
    intros pt I. apply cart_In in I. inversion I as [|a ? ? ? Ha I']; subst. inversion I' as [|b ? ? ? Hb I'']; subst. inversion I''; subst. cbn [nth]. now apply H.
  Qed.
  Lemma onGrid1_units u c (f f' : R -> xr) : (forall a, In a v1 -> f' (u * a) = xmul (Fin c) (f a)) ->
    onGrid1 f' (convert [u] (meshgrid [v1])) = scaledBy c (onGrid1 f (meshgrid [v1])).
  Proof.
    intros H. rewrite points1. unfold convert, onGrid1, gridOf, scaledBy. cbn [map2 nth]. rewrite !map_map. apply map_ext_in.
    intros pt I. apply cart_In in I. inversion I as [|a ? ? ? Ha I']; subst. inversion I'; subst. cbn [nth]. now apply H.
  Qed.
End Points.

Definition segTimes (u : R) (s : seg R) : seg R :=
  match s with Seg1 xs => Seg1 (map (fun x => xmul (Fin u) x) xs) | Seg2 rows => Seg2 (map (map (fun x => xmul (Fin u) x)) rows) end.
Lemma formatData_times u d n : formatData (rawTimes u d) n = map (segTimes u) (formatData d n).
Proof.
  unfold formatData, rawTimes, movingWindow. destruct d as [l|rows]; rewrite map_length, !map_map; apply map_ext; intros i; cbn [segTimes]; now rewrite skipn_map, firstn_map.
Qed.
Lemma proportional_map u lik lik' segs : 0 < u -> (forall s, In s segs -> lik' (segTimes u s) = scaledBy (if complete s then / u else 1) (lik s)) ->
  proportional lik lik' segs (map (segTimes u) segs) (map (fun s => if complete s then / u else 1) segs).
Proof.
  intros Hu. induction segs as [|s segs IH]; intros H; [constructor|]. cbn [map]. constructor; [destruct (complete s); [now apply Rinv_0_lt_compat|lra]|apply H; now left|apply IH; intros; apply H; now right].
Qed.
Lemma factors_sum u segs : 0 < u -> Rsum (map ln (map (fun s => if complete s then / u else 1) segs)) = - (INR (List.length (filter complete segs)) * ln u).
Proof.
  intros Hu. induction segs as [|s segs IH]; [cbn; ring|]. cbn [map filter]. change (Rsum (?a :: ?l)) with (a + Rsum l). rewrite IH. destruct (complete s).
  - cbn [List.length]. rewrite S_INR, ln_Rinv by auto. ring.
  - rewrite ln_1. ring.
Qed.
Lemma nan_times u x : xisnan (F := R) (xmul (Fin u) x) = true -> measured x -> x = NaN.
Proof. intros E [->|(v & ->)]; [reflexivity|discriminate]. Qed.
Lemma exists_nan u xs : Forall measured xs -> existsb xisnan (map (fun x => xmul (Fin u) x) xs) = existsb (xisnan (F := R)) xs.
Proof.
  induction 1 as [|x xs Hx _ IH]; [reflexivity|]. cbn [map existsb]. rewrite IH. f_equal. destruct Hx as [->|(v & ->)]; reflexivity.
Qed.
Lemma no_nan xs : Forall measured xs -> existsb (xisnan (F := R)) xs = false -> exists vs, xs = map (@Fin R) vs.
Proof.
  induction 1 as [|x xs Hx _ IH]; intros E; [exists []; reflexivity|]. cbn [existsb] in E. apply orb_false_iff in E as [E1 E2].
  destruct (IH E2) as (vs & ->). destruct Hx as [->|(v & ->)]; [discriminate|]. exists (v :: vs). reflexivity.
Qed.
Lemma window_In {A} (l : list A) n xs : In xs (movingWindow l n) -> List.length xs = n /\ incl xs l.
Proof.
  intros I. unfold movingWindow in I. apply in_map_iff in I as (i & <- & Hi). apply in_seq in Hi. split.
  - rewrite firstn_length, skipn_length. lia.
  - intros x Hx. rewrite <- (firstn_skipn i l). apply in_or_app. right. rewrite <- (firstn_skipn n (skipn i l)). apply in_or_app. now left.
Qed.
(** one-dimensional data: it suffices to look at segments without missing values *)
Lemma segments_one u us o o' vs l n : 0 < u -> Forall measured l ->
  (forall ds, List.length ds = n -> om_pdf o' (convert us (meshgrid vs)) (Seg1 (map (fun d => Fin (u * d)) ds)) = scaledBy (/ u) (om_pdf o (meshgrid vs) (Seg1 (map (@Fin R) ds)))) ->
  proportional (processedPdf o (gridPoints vs) (meshgrid vs)) (processedPdf o' (gridPoints vs) (convert us (meshgrid vs)))
    (formatData (Raw1 l) n) (formatData (rawTimes u (Raw1 l)) n) (map (fun s => if complete s then / u else 1) (formatData (Raw1 l) n)).
Proof.
  intros Hu Hl H. rewrite formatData_times. apply proportional_map; auto. intros s Hs. cbn [formatData] in Hs. apply in_map_iff in Hs as (xs & <- & I).
  apply window_In in I as [L I]. assert (M : Forall measured xs) by (apply Forall_forall; intros x Hx; eapply Forall_forall; [exact Hl|auto]).
  cbn [segTimes processedPdf complete]. unfold processed1. rewrite exists_nan by auto. destruct (existsb xisnan xs) eqn:E; cbn [negb].
  - change (scaledBy 1 (aones (gridPoints vs))) with (scl 1 (aones (gridPoints vs))). now rewrite scl_one.
  - destruct (no_nan xs M E) as (ds & ->). rewrite map_map. rewrite map_length in L. exact (H ds L).
Qed.
Lemma one_datum (ds : list R) : List.length ds = 1%nat -> exists d, ds = [d].
Proof. destruct ds as [|d [|]]; try discriminate. eauto. Qed.
Lemma two_data (ds : list R) : List.length ds = 2%nat -> exists a b, ds = [a; b].
Proof. destruct ds as [|a [|b [|]]]; try discriminate. eauto. Qed.

Lemma dimensional_likelihoods u us o o' vs S S' : 0 < u -> dimensional u us o o' vs (st_raw S) -> st_raw S' = rawTimes u (st_raw S) ->
  likelihoodsInUnits us S S' o o' vs (map (fun s => if complete s then / u else 1) (segments S o)).
Proof.
  intros Hu D E. unfold likelihoodsInUnits, segments. rewrite E. destruct D as [p1 p2 w1 w2 w1' w2' pr pr' m s l _ Ps Hl|p1 p2 w1 w2 w1' w2' pr pr' m s l _ Ps Hl|p w w' pr pr' s l _ Ps Hl|p1 p2 w1 w2 w1' w2' pr pr' r s l _ Ps Hl|p1 p2 w1 w2 w1' w2' pr pr' r s l _ Ps Pr Hl|p w w' pr pr' m rows _ Hr];
    cbn [om_seglen gaussian laplace whiteNoise ar1 scaledAr1 gaussianMean].
  - apply segments_one; auto. intros ds L. apply one_datum in L as (d & ->). apply onGrid2_units. intros a b _ Hb. apply gauss_units; auto. now apply (Forall_forall (fun x => 0 < x) s).
  - apply segments_one; auto. intros ds L. apply one_datum in L as (d & ->). apply onGrid2_units. intros a b _ Hb. assert (0 < b) by now apply (Forall_forall (fun x => 0 < x) s).
    rewrite !laplaceX_fin by (auto; now apply Rmult_lt_0_compat). cbn. now rewrite laplace_units.
  - apply segments_one; auto. intros ds L. apply one_datum in L as (d & ->). apply onGrid1_units. intros b Hb. rewrite <- gauss_units; auto; [|now apply (Forall_forall (fun x => 0 < x) s)]. now rewrite Rmult_0_r.
  - apply segments_one; auto. intros ds L. apply two_data in L as (d0 & d1 & ->). apply onGrid2_units. intros a b _ Hb. cbn [xmul]. rewrite Rmult_1_l.
    replace (fmul a (u * d0)) with (u * (a * d0)) by (cbn; ring). apply gauss_units; auto. now apply (Forall_forall (fun x => 0 < x) s).
  - apply segments_one; auto. intros ds L. apply two_data in L as (d0 & d1 & ->). apply onGrid2_units. intros a b Ha Hb. rewrite Rmult_1_l.
    assert (Ba : -1 < a < 1) by exact (proj1 (Forall_forall _ r) Pr a Ha). assert (0 < b) by now apply (Forall_forall (fun x => 0 < x) s).
    assert (Ea : xsqrt (xsub (Fin 1) (xsq (Fin a))) = Fin (sqrt (1 - a * a))).
    { unfold xsq. cbn. unfold Rltb. destruct (Rlt_dec (1 - a * a) 0); [nra|reflexivity]. }
    rewrite Ea. cbn [xmul fmul NumR]. replace (a * (u * d0)) with (u * (a * d0)) by ring. rewrite Rmult_assoc. apply gauss_units; auto. apply Rmult_lt_0_compat; auto. apply sqrt_lt_R0. nra.
  - rewrite formatData_times. apply proportional_map; auto. intros x Hx. cbn [formatData] in Hx. apply in_map_iff in Hx as (rws & <- & I). apply window_In in I as [L I].
    destruct rws as [|row [|]]; try discriminate. assert (Hrow := proj1 (Forall_forall _ _) Hr row (I row (or_introl eq_refl))).
    cbn [segTimes processedPdf complete om_multiply gaussianMean map existsb]. rewrite orb_false_r. destruct Hrow as [En|(d & sd & -> & Hsd)].
    + assert (En' : existsb xisnan (map (fun x => xmul (Fin u) x) row) = true).
      { clear - En. induction row as [|x row IH]; [discriminate|]. cbn [map existsb] in *. apply orb_true_iff in En as [En|En]; [destruct x; try discriminate; reflexivity|]. rewrite (IH En). apply orb_true_r. }
      rewrite En, En'. cbn [orb negb]. change (scaledBy 1 ?a) with (scl 1 a). now rewrite scl_one.
    + cbn [map existsb xisnan xmul orb negb]. apply onGrid1_units. intros a _. now apply gauss_units.
Qed.
Lemma dimensional_prior u us o o' vs d : 0 < u -> dimensional u us o o' vs d -> priorUpTo us (om_prior o) (om_prior o').
Proof.
  intros Hu D. assert (Hi : 0 < / u) by now apply Rinv_0_lt_compat. assert (Hii : 0 < / u * / u) by now apply Rmult_lt_0_compat.
  assert (J2 : forall g : list (list R), List.length g = 2%nat -> onGrid2 (fun _ sd => gaussianJeffreys sd) (convert [u; u] g) = scaledBy (/ u * / u) (onGrid2 (fun _ sd => gaussianJeffreys sd) g)).
  { intros g L. destruct g as [|a [|b [|]]]; try discriminate. unfold onGrid2, gridOf, convert, scaledBy. cbn [map2 nth]. clear - Hu Hi Hii. revert b.
    induction a as [|x a IH]; intros [|y b]; try reflexivity. cbn [map map2]. rewrite IH. f_equal. unfold gaussianJeffreys, xsq. cbn [xmul fmul NumR].
    replace (u * y * (u * y)) with (u * u * (y * y)) by ring. apply inverse_units; auto; [now apply Rmult_lt_0_compat|field; lra]. }
  assert (J1 : forall g : list (list R), List.length g = 1%nat -> onGrid1 whiteNoiseJeffreys (convert [u] g) = scaledBy (/ u) (onGrid1 whiteNoiseJeffreys g)).
  { intros g L. destruct g as [|a [|]]; try discriminate. unfold onGrid1, gridOf, convert, scaledBy. cbn [map2 nth]. rewrite !map_map. apply map_ext. intros x. unfold whiteNoiseJeffreys.
    apply inverse_units; auto. field. lra. }
  destruct D as [? ? ? ? ? ? [p|] [q|] ? ? ? G|? ? ? ? ? ? [p|] [q|] ? ? ? G|? ? ? [p|] [q|] ? ? G|? ? ? ? ? ? p q ? ? ? G|? ? ? ? ? ? p q ? ? ? G|? ? ? p q ? ? G]; cbn [priorGiven] in G; try contradiction;
    cbn [om_prior gaussian laplace whiteNoise ar1 scaledAr1 gaussianMean]; try (left; exact G); right.
  - do 2 eexists. exists (/ u * / u). repeat split; auto.
  - do 2 eexists. exists (/ u * / u). repeat split; auto.
  - do 2 eexists. exists (/ u). repeat split; auto.
Qed.
Lemma dimensional_units u us o o' vs d : 0 < u -> dimensional u us o o' vs d -> Forall (fun u => 0 < u) us /\ List.length us = List.length vs.
Proof. intros Hu D. destruct D; split; try reflexivity; repeat constructor; lra. Qed.

(** Gaussian, Laplace, WhiteNoise, AR1, ScaledAR1 and GaussianMean: measure the data in another unit (multiply them by [u]), and state parameter
    values (mean and standard deviation, but not correlation coefficients), prior and transition model in that unit. The posterior distributions
    are the same, and the log-evidence is lower by the logarithm of [u] for each data segment without missing values. The default (Jeffreys)
    priors need no conversion. *)
Theorem C75_models : forall u us S S' o o' m vs ts fo eo,
  0 < u -> dimensional u us o o' vs (st_raw S) -> st_raw S' = rawTimes u (st_raw S) ->
  rescaled us S S' o o' m vs ts -> Forall equallySpaced vs -> notSummingToOne o vs -> notSummingToOne o' (convert us vs) ->
  noChange m -> (fo || eo = true)%bool \/ noRegime m /\ scalesWith S -> (0 < nSteps S o)%nat ->
  match fit S fo eo, fit S' fo eo with
  | Ok A, Ok B => st_post B = st_post A /\ st_fmtTs B = st_fmtTs A /\
      st_means B = map2 (fun u row => map (fun x => xmul (Fin u) x) row) us (st_means A) /\
      (forall v, st_logEv A = Fin v -> st_logEv B = Fin (v - INR (observedSegments S o) * ln u)) /\ (st_logEv A = NInf <-> st_logEv B = NInf)
  | Err x, Err y => x = y
  | _, _ => False
  end.
Proof.
  intros u us S S' o o' m vs ts fo eo Hu D Er RS Hv Hs Hs' Hm HB Hn. destruct (dimensional_units u us o o' vs _ Hu D) as [Hus Hl].
  pose proof (C75_rescaled us S S' o o' m vs ts _ fo eo RS Hus Hl Hv (dimensional_likelihoods u us o o' vs S S' Hu D Er) (dimensional_prior u us o o' vs _ Hu D) Hs Hs' (pc_none m Hm) HB Hn) as F.
  destruct (fit S fo eo) as [A|]; destruct (fit S' fo eo) as [B|]; auto. destruct F as (F1 & F2 & F3 & F4). do 3 (split; [assumption|]).
  rewrite factors_sum in F4 by auto. fold (observedSegments S o) in F4.
  assert (Z : resetCount m (timeOf ts o) (nSteps S o) = 0%nat).
  { unfold resetCount. induction (seq 0 (nSteps S o - 1)) as [|i l IH]; [reflexivity|]. cbn [filter]. unfold resetAt at 1. destruct (resetBy m (timeOf ts o i) false) eqn:E; [|exact IH].
    apply reset_noChange in E; auto. discriminate. }
  rewrite Z in F4. cbn [INR] in F4. rewrite F4. split; [intros v ->; cbn; f_equal; ring|]. destruct (st_logEv A); cbn; split; congruence.
Qed.

(** ** Parameter values that are estimated from the data *)
Definition sameMade (S : study R R) (sh : nat -> R -> list xr -> list xr) (ac : nat -> R -> R -> list xr -> list xr) (bc : R -> R -> R -> list xr -> list xr) : Prop :=
  st_shift S = sh /\ st_aconv S = ac /\ st_bconv S = bc.
Lemma equal_first v : equallySpaced v -> nth 0 v 0 <> nth 1 v 0.
Proof. intros (a & h & n & Hh & ->). cbn. lra. Qed.
Lemma made_study sh ac bc d o m vs : mapM (paramValues o d) (combine (om_values o) (om_names o)) = Ok vs -> Forall equallySpaced vs -> vs <> [] ->
  List.length (om_names o) = List.length vs -> (0 < om_seglen o)%nat -> isBreak m = false -> NoDup (allNames m) -> (0 < rawLen d)%nat ->
  exists S : study R R, runCalls (newStudy sh ac bc) [CLoad d None; CSetTM m; CSetOM o] = Ok S /\ st_marg S = vs /\ st_raw S = d /\ st_post S = [] /\ st_means S = [] /\
    sameMade S sh ac bc /\ configured S o m vs (map (fun i => IZR (Z.of_nat i)) (seq 0 (rawLen d))).
Proof.
  intros Ev Hv Nv Ln Ls Hm ND Hd.
  assert (El : exists lat, mapM latticeOf vs = Ok lat).
  { clear - Hv. induction Hv as [|v vs Hv _ (lat & IH)]; [eexists; reflexivity|]. cbn. destruct (lattice_even v Hv) as (h & _ & -> & _). rewrite IH. eexists. reflexivity. }
  destruct El as (lat & El).
  assert (E : exists S : study R R, runCalls (newStudy sh ac bc) [CLoad d None; CSetTM m; CSetOM o] = Ok S /\ st_marg S = vs /\ st_raw S = d /\ st_post S = [] /\ st_means S = [] /\
    sameMade S sh ac bc /\ st_om S = Some o /\ st_tm S = Some m /\ st_rawTs S = Some (map (fun i => IZR (Z.of_nat i)) (seq 0 (rawLen d)))).
  { cbn [runCalls runCall bind]. unfold setTM. rewrite Hm. cbn [bind]. unfold setOM. cbn [st_raw set_tm loadData]. rewrite Ev. cbn [bind]. rewrite El. cbn [bind]. eexists. split; [reflexivity|]. do 4 (split; [reflexivity|]). split; [repeat split|]. do 2 (split; [reflexivity|]). reflexivity. }
  destruct E as (S & E & E1 & E2 & E3 & E4 & E5 & E6 & E7 & E8). exists S. do 6 (split; [assumption|]). rewrite <- E1. eapply C44_reachable_configured; eauto.
  - rewrite E2, map_length, seq_length. reflexivity.
  - now rewrite E2.
  - now rewrite E1.
  - now rewrite E1.
  - rewrite E1. eapply Forall_impl; [|exact Hv]. apply equal_first.
Qed.

Lemma finite_times u (l : list (xnum R)) : flat_map (fun x : xr => match x with Fin v => [v] | _ => [] end) (map (fun x => xmul (Fin u) x) l) =
  map (Rmult u) (flat_map (fun x : xr => match x with Fin v => [v] | _ => [] end) l).
Proof.
  induction l as [|x l IH]; [reflexivity|]. cbn [map flat_map]. rewrite IH. destruct x as [v| | |]; try reflexivity; cbn; unfold xinf; destruct (Reqb u 0); auto; destruct (Rltb _ _); reflexivity.
Qed.
Lemma observed_times u d : observed (rawTimes u d) = map (Rmult u) (observed d).
Proof.
  unfold observed. destruct d as [l|rows]; cbn [rawTimes]; rewrite <- finite_times; auto. now rewrite concat_map.
Qed.
Lemma heads_times u (rows : list (list (xnum R))) : map (hd NaN) (map (map (fun x => xmul (Fin u) x)) rows) = map (fun x => xmul (Fin u) x) (map (hd NaN) rows).
Proof. rewrite !map_map. apply map_ext. intros [|x row]; reflexivity. Qed.
Lemma fsum_times u (l : list R) : fsum (map (Rmult u) l) = u * fsum l.
Proof.
  unfold fsum. cbn [f0 NumR]. replace 0 with (u * 0) at 1 by ring. generalize 0 as a. induction l as [|x l IH]; intros a; [reflexivity|]. cbn [map fold_left fadd NumR].
  rewrite <- Rmult_plus_distr_l. apply IH.
Qed.
Lemma mean_times u l : meanOf (map (Rmult u) l) = u * meanOf l.
Proof. unfold meanOf. rewrite fsum_times, map_length. unfold Rdiv. ring. Qed.
Lemma std_times u l : 0 < u -> stdOf (map (Rmult u) l) = u * stdOf l.
Proof.
  intros Hu. unfold stdOf. rewrite mean_times, map_map. rewrite (map_ext _ (fun x => (u * u) * (x - meanOf l) ^ 2)) by (intros; ring). rewrite <- (map_map (fun x => (x - meanOf l) ^ 2) (Rmult (u * u))).
  rewrite mean_times. replace (u * u) with (u ^ 2) by ring. rewrite sqrt_mult_alt by nra. now rewrite sqrt_pow2 by lra.
Qed.
Lemma max_times u l : 0 < u -> maxOf (map (Rmult u) l) = u * maxOf l.
Proof.
  intros Hu. unfold maxOf. destruct l as [|x l]; cbn [map tl hd fold_left]; [ring|]. revert x. induction l as [|y l IH]; intros x; [reflexivity|]. cbn [map fold_left]. rewrite RmaxRmult by lra. apply IH.
Qed.
Lemma min_times u l : 0 < u -> minOf (map (Rmult u) l) = u * minOf l.
Proof.
  intros Hu. unfold minOf. destruct l as [|x l]; cbn [map tl hd fold_left]; [ring|]. revert x. induction l as [|y l IH]; intros x; [reflexivity|]. cbn [map fold_left].
  replace (Rmin (u * x) (u * y)) with (u * Rmin x y); [apply IH|]. unfold Rmin. destruct (Rle_dec x y), (Rle_dec (u * x) (u * y)); auto; nra.
Qed.
Lemma progression_times u a d n : progression (u * a) (u * d) n = map (Rmult u) (progression a d n).
Proof. unfold progression. rewrite map_map. apply map_ext. intros i. ring. Qed.
Lemma cint_times u a b n : (2 <= n)%nat -> cint (F := R) (u * a) (u * b) n = map (Rmult u) (cint a b n).
Proof. intros Hn. rewrite !cint_progression, <- progression_times by auto. f_equal. unfold Rdiv. ring. Qed.
Lemma oint_times u a b n : oint (F := R) (u * a) (u * b) n = map (Rmult u) (oint a b n).
Proof. rewrite !oint_progression, <- progression_times. f_equal; unfold Rdiv; ring. Qed.
Lemma progression_spaced a d n : d <> 0 -> equallySpaced (progression a d (Datatypes.S (Datatypes.S n))).
Proof. intros Hd. exists a, d, n. auto. Qed.
Lemma cint_spaced a b n : a < b -> equallySpaced (cint (F := R) a b (Datatypes.S (Datatypes.S n))).
Proof.
  intros H. rewrite cint_progression by lia. apply progression_spaced. apply Rgt_not_eq, Rdiv_lt_0_compat; [lra|]. rewrite S_INR, S_INR. pose proof (pos_INR n). lra.
Qed.
Lemma oint_spaced a b n : a < b -> equallySpaced (oint (F := R) a b (Datatypes.S (Datatypes.S n))).
Proof.
  intros H. rewrite oint_progression. apply progression_spaced. apply Rgt_not_eq, Rdiv_lt_0_compat; [lra|]. pose proof (pos_INR (Datatypes.S (Datatypes.S n))). lra.
Qed.
Lemma oint_inside a b n : a < b -> Forall (fun x => a < x < b) (oint (F := R) a b n).
Proof.
  intros H. rewrite oint_progression. apply Forall_forall. intros x Hx. unfold progression in Hx. apply in_map_iff in Hx as (i & <- & Hi). apply in_seq in Hi.
  assert (Hp : 0 < INR n + 1) by (pose proof (pos_INR n); lra). assert (Hq : 0 < / (INR n + 1)) by now apply Rinv_0_lt_compat.
  replace (a + (b - a) / (INR n + 1) + INR i * ((b - a) / (INR n + 1))) with (a + (INR i + 1) * ((b - a) * / (INR n + 1))) by (unfold Rdiv; ring).
  assert (Hi1 : INR i + 1 <= INR n) by (rewrite <- S_INR; apply le_INR; lia). pose proof (pos_INR i).
  set (c := (b - a) * / (INR n + 1)). assert (Ec : (INR n + 1) * c = b - a) by (unfold c; field; lra). assert (0 < c) by (unfold c; apply Rmult_lt_0_compat; lra). nra.
Qed.

(** Models of which the parameter values and the prior are left to the defaults; [us] as in [dimensional] *)
Inductive byDefault (u : R) : list R -> om R -> Prop :=
| bd_gaussian p1 p2 : p1 <> p2 -> byDefault u [u; u] (gaussian p1 None p2 None None)
| bd_laplace p1 p2 : p1 <> p2 -> byDefault u [u; u] (laplace p1 None p2 None None)
| bd_whiteNoise p : byDefault u [u] (whiteNoise p None None)
| bd_ar1 p1 p2 : p1 <> p2 -> byDefault u [1; u] (ar1 p1 None p2 None PNone)
| bd_scaledAr1 p1 p2 : p1 <> p2 -> byDefault u [1; u] (scaledAr1 p1 None p2 None PNone).
Lemma default_values u us o d : 0 < u -> byDefault u us o -> 0 < stdOf (observed d) ->
  exists vs, mapM (paramValues o d) (combine (om_values o) (om_names o)) = Ok vs /\
    mapM (paramValues o (rawTimes u d)) (combine (om_values o) (om_names o)) = Ok (convert us vs) /\ Forall equallySpaced vs /\ List.length vs = List.length us /\ List.length (om_names o) = List.length vs /\ vs <> [] /\
    (forall l, d = Raw1 l -> Forall measured l -> dimensional u us o o vs d).
Proof.
  intros Hu D Hs. assert (H2 : 0 < 2 * stdOf (observed d)) by lra. assert (Hq : 0 < sqrt 2 * stdOf (observed d)) by (apply Rmult_lt_0_compat; auto; apply sqrt_lt_R0; lra).
  assert (P2 : forall b n, 0 < b -> allPositive (oint (F := R) 0 b n)) by (intros b n Hb; eapply Forall_impl; [|apply oint_inside; exact Hb]; cbn; intros; lra).
  assert (Es : forall n, oint (F := R) 0 (2 * (u * stdOf (observed d))) n = map (Rmult u) (oint 0 (2 * stdOf (observed d)) n)).
  { intros n. rewrite <- oint_times. f_equal; ring. }
  assert (Eq : forall n, oint (F := R) 0 (sqrt 2 * (u * stdOf (observed d))) n = map (Rmult u) (oint 0 (sqrt 2 * stdOf (observed d)) n)).
  { intros n. rewrite <- oint_times. f_equal; ring. }
  assert (Em : forall n, (2 <= n)%nat -> cint (F := R) (u * meanOf (observed d) - 2 * (u * stdOf (observed d))) (u * meanOf (observed d) + 2 * (u * stdOf (observed d))) n =
    map (Rmult u) (cint (meanOf (observed d) - 2 * stdOf (observed d)) (meanOf (observed d) + 2 * stdOf (observed d)) n)).
  { intros n Hn. rewrite <- cint_times by auto. f_equal; ring. }
  assert (E1 : forall v : list R, map (Rmult 1) v = v) by (intros v; rewrite <- (map_id v) at 2; apply map_ext; intros; ring).
  assert (Hr : (-1 < 1)%R) by lra. assert (Hm : meanOf (observed d) - 2 * stdOf (observed d) < meanOf (observed d) + 2 * stdOf (observed d)) by lra.
  pose proof (cint_spaced _ _ 198 Hm) as C1. pose proof (oint_spaced _ _ 198 H2) as C2. pose proof (oint_spaced _ _ 998 H2) as C3. pose proof (oint_spaced _ _ 198 Hq) as C4. pose proof (oint_spaced _ _ 198 Hr) as C5.
  pose proof (P2 _ 200%nat H2) as Q2. pose proof (P2 _ 1000%nat H2) as Q3. pose proof (P2 _ 200%nat Hq) as Q4. pose proof (oint_inside _ _ 200 Hr) as Q5.
  destruct D as [p1 p2 Hp|p1 p2 Hp|p|p1 p2 Hp|p1 p2 Hp]; try (assert (En : String.eqb p2 p1 = false) by (apply String.eqb_neq; congruence)); cbn [om_values om_names gaussian laplace whiteNoise ar1 scaledAr1 combine mapM paramValues fst snd om_estimate bind];
    unfold gaussianEstimate, laplaceEstimate, whiteNoiseEstimate, ar1Estimate; rewrite ?observed_times, ?mean_times, ?std_times by auto; rewrite ?Es, ?Eq, ?Em by lia; rewrite ?String.eqb_refl, ?En; cbn [bind].
  - eexists. split; [reflexivity|]. split; [reflexivity|]. split; [repeat constructor; assumption|]. do 2 (split; [reflexivity|]). split; [discriminate|]. intros l -> Hl. now apply dim_gaussian.
  - eexists. split; [reflexivity|]. split; [reflexivity|]. split; [repeat constructor; assumption|]. do 2 (split; [reflexivity|]). split; [discriminate|]. intros l -> Hl. now apply dim_laplace.
  - eexists. split; [reflexivity|]. split; [reflexivity|]. split; [repeat constructor; assumption|]. do 2 (split; [reflexivity|]). split; [discriminate|]. intros l -> Hl. now apply dim_whiteNoise.
  - eexists. split; [reflexivity|]. split; [unfold convert; cbn [map2]; now rewrite E1|]. split; [repeat constructor; assumption|]. do 2 (split; [reflexivity|]). split; [discriminate|]. intros l -> Hl. now apply dim_ar1.
  - eexists. split; [reflexivity|]. split; [unfold convert; cbn [map2]; now rewrite E1|]. split; [repeat constructor; assumption|]. do 2 (split; [reflexivity|]). split; [discriminate|]. intros l -> Hl. now apply dim_scaledAr1.
Qed.
Lemma break_units names us (m : tm R) : isBreak (inUnits names us m) = isBreak m.
Proof. destruct m as [k hn vals p ms]. destruct k; try reflexivity; destruct vals as [|v1 [|v2 vals]]; reflexivity. Qed.

(** With parameter values and prior left to the defaults: data that are loaded in another unit give the same posterior distributions on a grid
    in that unit, if the transition model is stated in that unit. *)
Theorem C75_defaults : forall u us o m l sh ac bc,
  0 < u -> byDefault u us o -> Forall measured l -> (0 < List.length l)%nat -> 0 < stdOf (observed (Raw1 l)) ->
  isBreak m = false -> NoDup (allNames m) -> noChange m ->
  exists S S' : study R R,
    runCalls (newStudy sh ac bc) [CLoad (Raw1 l) None; CSetTM m; CSetOM o] = Ok S /\
    runCalls (newStudy sh ac bc) [CLoad (rawTimes u (Raw1 l)) None; CSetTM (inUnits (om_names o) us m); CSetOM o] = Ok S' /\
    st_marg S' = map2 (fun u v => map (Rmult u) v) us (st_marg S) /\
    forall fo eo, notSummingToOne o (st_marg S) -> notSummingToOne o (st_marg S') -> (fo || eo = true)%bool \/ noRegime m /\ scalesWith S -> (om_seglen o <= List.length l)%nat ->
    match fit S fo eo, fit S' fo eo with
    | Ok A, Ok B => st_post B = st_post A /\ st_fmtTs B = st_fmtTs A /\
        st_means B = map2 (fun u row => map (fun x => xmul (Fin u) x) row) us (st_means A) /\
        (forall v, st_logEv A = Fin v -> st_logEv B = Fin (v - INR (observedSegments S o) * ln u)) /\ (st_logEv A = NInf <-> st_logEv B = NInf)
    | Err x, Err y => x = y
    | _, _ => False
    end.
Proof.
  intros u us o m l sh ac bc Hu D Hl Nl Hs Hm ND Hc. destruct (default_values u us o (Raw1 l) Hu D Hs) as (vs & E1 & E2 & Sp & Lv & Ln & Nv & HD). specialize (HD l eq_refl Hl).
  assert (Hseg : (0 < om_seglen o)%nat) by (destruct D; cbn; lia).
  assert (Sp' : Forall equallySpaced (convert us vs)).
  { destruct (dimensional_units u us o o vs _ Hu HD) as [Hus _]. clear - Sp Hus Lv. revert us Hus Lv. induction Sp as [|v vs (a & h & n & Hh & ->) _ IH]; intros us Hus Lv; destruct us as [|w us]; try discriminate; constructor.
    - exists (w * a), (w * h), n. inversion Hus; subst. split; [apply Rmult_integral_contrapositive_currified; lra|]. rewrite map_map. apply map_ext. intros i. ring.
    - inversion Hus; subst. apply IH; auto. }
  assert (Nv' : convert us vs <> []) by (destruct us, vs; try discriminate; congruence).
  assert (Ln' : List.length (om_names o) = List.length (convert us vs)) by (unfold convert; rewrite Lift.map2_length; lia).
  assert (ND' : NoDup (allNames (inUnits (om_names o) us m))) by (unfold allNames; now rewrite names_units).
  destruct (made_study sh ac bc (Raw1 l) o m vs E1 Sp Nv Ln Hseg Hm ND Nl) as (S & R1 & M1 & r1 & p1 & q1 & (s1 & s2 & s3) & C1).
  assert (Nl' : (0 < rawLen (rawTimes u (Raw1 l)))%nat) by (cbn; rewrite map_length; exact Nl).
  destruct (made_study sh ac bc (rawTimes u (Raw1 l)) o (inUnits (om_names o) us m) (convert us vs) E2 Sp' Nv' Ln' Hseg (eq_trans (break_units _ _ _) Hm) ND' Nl') as (S' & R2 & M2 & r2 & p2 & q2 & (t1 & t2 & t3) & C2).
  exists S, S'. split; [exact R1|]. split; [exact R2|]. split; [rewrite M1, M2; reflexivity|]. intros fo eo N1 N2 HB Hn.
  assert (Er : rawLen (rawTimes u (Raw1 l)) = rawLen (Raw1 l)) by (cbn; now rewrite map_length).
  apply (C75_models u us S S' o o m vs (map (fun i => IZR (Z.of_nat i)) (seq 0 (rawLen (Raw1 l))))); auto.
  - now rewrite r1.
  - now rewrite r1.
  - rewrite Er in C2. constructor; auto; [now rewrite r1, r2|repeat split; congruence].
  - now rewrite <- M1.
  - now rewrite <- M2.
  - unfold nSteps, segments. rewrite r1. cbn [formatData]. unfold movingWindow. rewrite !map_length, seq_length. lia.
Qed.

(** ** A case *)
Lemma sum_above (c : R) (l : list R) : Forall (fun x => c <= x) l -> INR (List.length l) * c <= Rsum l.
Proof. induction 1 as [|x l Hx _ IH]; [cbn; lra|]. cbn [List.length]. rewrite S_INR. change (Rsum (x :: l)) with (x + Rsum l). lra. Qed.
Lemma jeffreys_sum v b : 0 < b -> Forall (fun x => 0 < x < b) v -> 1 < INR (List.length v) * / b -> asum (onGrid1 whiteNoiseJeffreys (meshgrid [v])) <> Fin 1.
Proof.
  intros Hb Hv Hl. assert (E : gridOf (meshgrid [v]) 0 = v).
  { rewrite points1. unfold gridOf. cbn [nth]. clear. induction v as [|x v IH]; [reflexivity|]. cbn in *. now rewrite IH. }
  unfold onGrid1. rewrite E.
  assert (Em : map whiteNoiseJeffreys v = map (@Fin R) (map Rinv v)).
  { rewrite map_map. apply map_ext_in. intros x Hx. pose proof (proj1 (Forall_forall _ _) Hv x Hx) as B. cbn in B. unfold whiteNoiseJeffreys. rewrite xdiv_fin by lra. f_equal. unfold Rdiv. ring. }
  rewrite Em. intros X. change (map (@Fin R) (map Rinv v)) with (fin (map Rinv v)) in X. rewrite asum_fin in X. injection X as X.
  assert (A : Forall (fun x => / b <= x) (map Rinv v)).
  { apply Forall_map. eapply Forall_impl; [|exact Hv]. cbn. intros x Bx. apply Rinv_le_contravar; lra. }
  apply sum_above in A. rewrite map_length in A. lra.
Qed.
(** Three measurements, one of them missing, in metres and in kilometres; white noise of which the amplitude changes gradually. *)
Definition metres : list (xnum R) := [Fin 1; NaN; Fin 3].
Definition drift : tm R := grw "sigma" "std" (1 / 10).
Lemma metres_std : stdOf (observed (Raw1 metres)) = 1.
Proof. unfold stdOf, meanOf, metres. cbn. replace (0 + _ + _) with 2; [|field]. replace (2 / (1 + 1)) with 1 by field. apply sqrt_1. Qed.
Example C75_ex : exists S S' : study R R, let o := whiteNoise "std" None None in let us := [/ 1000] in
  runCalls (newStudy (fun _ _ p => p) (fun _ _ _ p => p) (fun _ _ _ p => p)) [CLoad (Raw1 metres) None; CSetTM drift; CSetOM o] = Ok S /\
  runCalls (newStudy (fun _ _ p => p) (fun _ _ _ p => p) (fun _ _ _ p => p)) [CLoad (rawTimes (/ 1000) (Raw1 metres)) None; CSetTM (inUnits ["std"%string] us drift); CSetOM o] = Ok S' /\
  byDefault (/ 1000) us o /\ Forall measured metres /\ isBreak drift = false /\ NoDup (allNames drift) /\ noChange drift /\ 
  notSummingToOne o (st_marg S) /\ notSummingToOne o (st_marg S') /\ noRegime drift /\ scalesWith S /\ observedSegments S o = 2%nat.
Proof.
  assert (Hu : 0 < / 1000) by (apply Rinv_0_lt_compat; lra). assert (D : byDefault (/ 1000) [/ 1000] (whiteNoise "std" None None)) by constructor.
  assert (Hl : Forall measured metres) by (unfold metres, measured; repeat constructor; eauto).
  assert (Hb : isBreak drift = false) by reflexivity. assert (ND : NoDup (allNames drift)) by (cbn; repeat constructor; cbn; intuition discriminate).
  assert (Nc : noChange drift) by (apply nc_leaf; discriminate).
  assert (Hs : 0 < stdOf (observed (Raw1 metres))) by (rewrite metres_std; lra).
  destruct (C75_defaults (/ 1000) [/ 1000] _ drift metres (fun _ _ p => p) (fun _ _ _ p => p) (fun _ _ _ p => p) Hu D Hl ltac:(cbn; lia) Hs Hb ND Nc) as (S & S' & E1 & E2 & E3 & _).
  exists S, S'. cbn zeta. split; [exact E1|]. split; [exact E2|]. do 5 (split; [assumption|]).
  destruct (default_values (/ 1000) _ _ (Raw1 metres) Hu D Hs) as (vs & V1 & _).
  assert (Ev : st_marg S = vs /\ st_raw S = Raw1 metres /\ scalesWith S).
  { revert E1. cbn [runCalls runCall bind]. unfold setTM. rewrite Hb. cbn [bind]. unfold setOM. cbn [st_raw set_tm loadData]. rewrite V1. cbn [bind].
    destruct (mapM latticeOf vs); [|discriminate]. cbn [bind]. intros X. injection X as <-. repeat split. }
  destruct Ev as (Ev & Er & Sw).
  assert (Vs : vs = [oint (F := R) 0 2 1000]).
  { revert V1. cbn [om_values om_names whiteNoise combine mapM paramValues fst snd om_estimate bind]. unfold whiteNoiseEstimate. rewrite metres_std, String.eqb_refl. cbn [bind]. intros X. injection X as <-. now rewrite Rmult_1_r. }
  assert (L : List.length (oint (F := R) 0 2 1000) = 1000%nat) by (rewrite oint_progression; unfold progression; now rewrite map_length, seq_length).
  assert (L4 : 4 <= INR 1000) by (replace 4 with (INR 4) by (cbn; ring); apply le_INR; lia).
  assert (In2 : Forall (fun x => 0 < x < 2) (oint (F := R) 0 2 1000)) by (apply oint_inside; lra).
  split. { rewrite Ev, Vs. unfold notSummingToOne. cbn [om_prior whiteNoise]. apply (jeffreys_sum _ 2); [lra|exact In2|]. rewrite L. lra. }
  split. { rewrite E3, Ev, Vs. cbn [map2]. unfold notSummingToOne. cbn [om_prior whiteNoise]. apply (jeffreys_sum _ 2); [lra| |rewrite map_length, L; lra].
    apply Forall_map. eapply Forall_impl; [|exact In2]. cbn. intros x Bx. lra. }
  split; [apply nr_leaf; discriminate|]. split; [exact Sw|]. unfold observedSegments, segments. rewrite Er. reflexivity.
Qed.
