(** C77: only the values of likelihood and prior on the grid count; another origin of the data. *)
From Coq Require Import List ZArith QArith Reals Lra Lia Arith Bool String.
From Verif Require Import Base.Num Base.Exn Base.Arr Base.RSum Base.Lift Model.Helper Model.Tm Model.HyperParams Model.Study Model.Api Model.ObsModels
  Spec.Kernel Spec.Dist Spec.Config Spec.Units Spec.DataUnits Spec.LikOnly Spec.Shifted Proof.KernelProof Proof.FitInv Proof.FitThms Proof.SetupProof Proof.UnitsProof Proof.LikOnlyProof
  Props.Ex Props.ExR Props.Inference Props.Parameters Props.Observation Props.Units Props.Setup Props.DataUnits.
Import ListNotations.
Local Open Scope R_scope.

(** Data, parameter values and observation model enter the results only by the values of likelihood and prior at the grid points: if two
    studies agree in these (and in the transition model, grid shape, lattice constants and time stamps), then they have the same posterior
    distributions, (local) evidence and time stamps, or fail with the same error. Only the mean values are computed from the parameter values. *)
Theorem C77_likelihood_only : forall (F L : Type) (NF : Num F) (NL : LogNum F L) (S S' : study F L) o o' m fo eo, twins S S' o o' m ->
  match fit S fo eo, fit S' fo eo with
  | Ok A, Ok B =>
      st_post B = st_post A /\ st_logEv B = st_logEv A /\ st_local B = st_local A /\ st_fmtTs B = st_fmtTs A /\
      (st_means A = [] /\ st_means B = [] \/
       exists ps, st_post A = map Some ps /\
         st_means A = map (fun g => map (fun p => asum (amul p (map Fin g))) ps) (st_grid S) /\
         st_means B = map (fun g => map (fun p => asum (amul p (map Fin g))) ps) (st_grid S'))
  | Err x, Err y => x = y
  | _, _ => False
  end.
Proof. intros F L NF NL S S' o o' m fo eo T. exact (fit_twins S S' o o' m fo eo T). Qed.

(** ** Another origin *)
Lemma sub_plus d (x : xnum R) m : xsub (xadd (Fin d) x) (Fin (d + m)) = xsub x (Fin m).
Proof. destruct x as [v| | |]; try reflexivity. cbn. f_equal. ring. Qed.
Lemma gauss_plus d (x s : xnum R) m : gaussX (xadd (Fin d) x) (Fin (d + m)) s = gaussX x (Fin m) s.
Proof. unfold gaussX. now rewrite sub_plus. Qed.
Lemma nan_plus d (x : xnum R) : xisnan (xadd (Fin d) x) = xisnan x.
Proof. destruct x; reflexivity. Qed.
Lemma grid1_plus d (f f' : R -> xr) g : (forall a, f' (d + a) = f a) -> onGrid1 f' (gridPlus d g) = onGrid1 f g.
Proof. intros E. unfold onGrid1, gridOf. destruct g as [|v r]; [reflexivity|]. cbn [gridPlus nth]. rewrite map_map. apply map_ext. exact E. Qed.
Lemma grid2_plus d (f f' : R -> R -> xr) g : (forall a b, f' (d + a) b = f a b) -> onGrid2 f' (gridPlus d g) = onGrid2 f g.
Proof.
  intros E. unfold onGrid2, gridOf. destruct g as [|v r]; [reflexivity|]. cbn [gridPlus nth]. generalize (nth 0 r []) as w. clear r.
  induction v as [|a v IH]; intros [|b w]; try reflexivity. cbn [map map2]. now rewrite E, IH.
Qed.
Lemma cart_plus d v (vs : list (list R)) : cart (map (Rplus d) v :: vs) = map (fun pt => match pt with [] => [] | x :: r => d + x :: r end) (cart (v :: vs)).
Proof. cbn [cart]. induction v as [|a v IH]; [reflexivity|]. cbn [map flat_map]. rewrite map_app, IH, map_map. reflexivity. Qed.
Lemma cart_nonempty (v : list R) vs pt : In pt (cart (v :: vs)) -> exists x r, pt = x :: r.
Proof. cbn [cart]. intros I. apply in_flat_map in I as (a & _ & I). apply in_map_iff in I as (r & <- & _). eauto. Qed.
Lemma mesh_plus d vs : meshgrid (gridPlus d vs) = gridPlus d (meshgrid vs).
Proof.
  destruct vs as [|v vs]; [reflexivity|]. unfold meshgrid. cbn [gridPlus]. rewrite cart_plus. cbn [List.length seq map gridPlus]. rewrite !map_map. f_equal.
  - apply map_ext_in. intros pt I. apply cart_nonempty in I as (x & r & ->). reflexivity.
  - apply map_ext_in. intros k Hk. apply in_seq in Hk. rewrite map_map. apply map_ext_in. intros pt I. apply cart_nonempty in I as (x & r & ->). destruct k; [lia|reflexivity].
Qed.
Lemma diff_plus d (v : list R) : diff (map (Rplus d) v) = diff v.
Proof. induction v as [|a [|b v] IH]; [reflexivity|reflexivity|]. cbn [map diff] in *. rewrite IH. f_equal. cbn. ring. Qed.
Lemma lattice_plus d (v : list R) : latticeOf (map (Rplus d) v) = latticeOf v.
Proof. unfold latticeOf. rewrite diff_plus. destruct (existsb _ _); [reflexivity|]. destruct v as [|a [|b v]]; try reflexivity. cbn [map]. do 2 f_equal. cbn. ring. Qed.
Lemma lattices_plus d (vs : list (list R)) : mapM latticeOf (gridPlus d vs) = mapM latticeOf vs.
Proof. destruct vs as [|v vs]; [reflexivity|]. cbn [gridPlus mapM]. now rewrite lattice_plus. Qed.
Lemma shape_plus d (vs : list (list R)) : map (@List.length R) (gridPlus d vs) = map (@List.length R) vs.
Proof. destruct vs as [|v vs]; [reflexivity|]. cbn [gridPlus map]. now rewrite map_length. Qed.
Lemma length_plus d x : rawLen (dataPlus d x) = rawLen x.
Proof. destruct x; cbn; now rewrite map_length. Qed.
Lemma Forall2_window {A} (P : seg R -> seg R -> Prop) (c : list A -> seg R) (f : A -> A) (l : list A) n : (forall w, In w (movingWindow l n) -> P (c w) (c (map f w))) ->
  Forall2 P (map c (movingWindow l n)) (map c (movingWindow (map f l) n)).
Proof.
  intros E. assert (X : movingWindow (map f l) n = map (map f) (movingWindow l n)).
  { unfold movingWindow. rewrite map_length, map_map. apply map_ext. intros i. now rewrite skipn_map, firstn_map. }
  rewrite X. clear X. induction (movingWindow l n) as [|w ws IH]; [constructor|]. cbn [map]. constructor; [apply E; now left|apply IH; intros; apply E; now right].
Qed.
Lemma location_likelihood d o o' vs x N g : locates d o o' vs x ->
  Forall2 (fun s s' => processedPdf o' N (gridPlus d g) s' = processedPdf o N g s) (formatData x (om_seglen o)) (formatData (dataPlus d x) (om_seglen o')).
Proof.
  intros Lo. destruct Lo as [? ? ? ? ? ? ? ? ? ? l _|? ? ? ? ? ? ? ? ? ? l _|? ? ? ? ? ? rows _]; cbn [dataPlus formatData om_seglen gaussian laplace gaussianMean].
  - apply Forall2_window. intros w I. apply window_In in I as [Lw _]. destruct w as [|y [|]]; try discriminate. cbn [map processedPdf]. unfold processed1. cbn [existsb]. rewrite nan_plus.
    destruct (xisnan y || false)%bool; [reflexivity|]. cbn [om_pdf gaussian gaussianPdf datum index nth_error bind pure]. apply grid2_plus. intros. apply gauss_plus.
  - apply Forall2_window. intros w I. apply window_In in I as [Lw _]. destruct w as [|y [|]]; try discriminate. cbn [map processedPdf]. unfold processed1. cbn [existsb]. rewrite nan_plus.
    destruct (xisnan y || false)%bool; [reflexivity|]. cbn [om_pdf laplace laplacePdf datum index nth_error bind pure]. apply grid2_plus. intros. now rewrite sub_plus.
  - apply Forall2_window. intros w I. apply window_In in I as [Lw _]. destruct w as [|row [|]]; try discriminate. cbn [map processedPdf om_multiply gaussianMean existsb].
    destruct row as [|y [|s r]]; [reflexivity| |]; cbn [existsb]; rewrite nan_plus; destruct (_ || false)%bool; try reflexivity.
    cbn [om_pdf gaussianMean gaussianMeanPdf index nth_error bind pure]. apply grid1_plus. intros. apply gauss_plus.
Qed.
Lemma location_prior d o o' vs x g : locates d o o' vs x -> samePriorValues g (gridPlus d g) (om_prior o) (om_prior o').
Proof.
  assert (P : forall p q, priorPlus d p q -> samePriorValues g (gridPlus d g) p q).
  { intros [] []; cbn; intuition auto. }
  intros Lo. destruct Lo as [? ? ? ? ? ? [p|] [q|] ? ? ? G|? ? ? ? ? ? [p|] [q|] ? ? ? G|? ? ? p q ? ? G]; cbn [priorArgPlus] in G; try contradiction; try (apply P; exact G).
  - cbn. apply grid2_plus. reflexivity.
  - cbn. apply grid2_plus. reflexivity.
Qed.
Lemma location_same d o o' vs x : locates d o o' vs x -> om_names o' = om_names o /\ om_seglen o' = om_seglen o.
Proof. destruct 1; split; reflexivity. Qed.
Lemma shifted_twins d S S' o o' m vs ts : shiftedBy d S S' o o' m vs ts -> twins S S' o o' m.
Proof.
  intros [C C' Ed Lo (f1 & f2 & f3 & f4) (o1 & o2 & o3)]. destruct (location_same _ _ _ _ _ Lo) as [En Es].
  assert (El : st_lat S' = st_lat S).
  { pose proof (cf_lat _ _ _ _ _ C') as X. rewrite lattices_plus, (cf_lat _ _ _ _ _ C) in X. now injection X. }
  assert (Eg : st_grid S' = gridPlus d (st_grid S)) by (rewrite (cf_grid _ _ _ _ _ C), (cf_grid _ _ _ _ _ C'); apply mesh_plus).
  constructor; auto.
  - split; [exact (cf_om _ _ _ _ _ C)|exact (cf_om _ _ _ _ _ C')].
  - split; [exact (cf_tm _ _ _ _ _ C)|exact (cf_tm _ _ _ _ _ C')].
  - now rewrite (cf_shape _ _ _ _ _ C), (cf_shape _ _ _ _ _ C'), shape_plus.
  - now rewrite (cf_tmlat _ _ _ _ _ C), (cf_tmlat _ _ _ _ _ C').
  - rewrite Ed. apply length_plus.
  - now rewrite (cf_ts _ _ _ _ _ C), (cf_ts _ _ _ _ _ C').
  - repeat split; congruence.
  - rewrite Eg. eapply location_prior; eauto.
  - rewrite Eg, Ed. eapply location_likelihood; eauto.
Qed.
Lemma mean_plus d N p g : dist N p -> List.length g = N -> asum (amul p (map Fin (map (Rplus d) g))) = xadd (Fin d) (asum (amul p (map Fin g))).
Proof.
  intros (r & -> & L & _ & E) Lg.
  assert (Q : forall g r : list R, List.length g = List.length r -> exists a, asum (amul (map Fin r) (map (@Fin R) g)) = Fin a /\ asum (amul (map Fin r) (map (@Fin R) (map (Rplus d) g))) = Fin (d * Rsum r + a)).
  { clear. intros g r. unfold asum, amul.
    assert (Q : forall b c, List.length g = List.length r -> exists a, fold_left xadd (map2 xmul (map Fin r) (map (@Fin R) g)) (Fin b) = Fin (b + a) /\
      fold_left xadd (map2 xmul (map Fin r) (map (@Fin R) (map (Rplus d) g))) (Fin c) = Fin (c + (d * Rsum r + a))).
    { revert r. induction g as [|x g IH]; intros [|y r] b c Hl; try discriminate; [exists 0; cbn; split; f_equal; ring|]. cbn [map map2 fold_left]. cbn in Hl.
      change (xadd (Fin b) (xmul (Fin y) (Fin x))) with (Fin (b + y * x)). change (xadd (Fin c) (xmul (Fin y) (Fin (d + x)))) with (Fin (c + y * (d + x))).
      destruct (IH r (b + y * x) (c + y * (d + x)) ltac:(lia)) as (a & -> & ->). exists (y * x + a). change (Rsum (y :: r)) with (y + Rsum r). split; f_equal; ring. }
    intros Hl. destruct (Q 0 0 Hl) as (a & A & B). exists a. cbn [f0 NumR]. rewrite A, B. split; f_equal; ring. }
  destruct (Q g r ltac:(lia)) as (a & -> & ->). rewrite E. cbn. f_equal. ring.
Qed.

(** Gaussian, Laplace and GaussianMean: add a constant [d] to all data and to all values of the first (location) parameter, and state the prior
    for the shifted parameter. The posterior distributions, the (local) evidence and the time stamps are exactly the same; the mean values of the
    first parameter are larger by [d] (wherever the posteriors are distributions, see C01), those of the second one are the same. The
    default (Jeffreys) priors need no change. *)
Theorem C77_origin : forall d S S' o o' m vs ts fo eo, shiftedBy d S S' o o' m vs ts ->
  match fit S fo eo, fit S' fo eo with
  | Ok A, Ok B => st_post B = st_post A /\ st_logEv B = st_logEv A /\ st_local B = st_local A /\ st_fmtTs B = st_fmtTs A /\
      (forall ps, st_post A = map Some ps -> Forall (dist (gridPoints vs)) ps -> st_means B = meansPlus d (st_means A))
  | Err x, Err y => x = y
  | _, _ => False
  end.
Proof.
  intros d S S' o o' m vs ts fo eo M. pose proof (C77_likelihood_only _ _ _ _ S S' o o' m fo eo (shifted_twins _ _ _ _ _ _ _ _ M)) as T.
  destruct (fit S fo eo) as [A|]; destruct (fit S' fo eo) as [B|]; auto. destruct T as (t1 & t2 & t3 & t4 & T). do 4 (split; [assumption|]). intros ps Ep Hd.
  destruct T as [[-> ->] | (ps' & Ep' & -> & ->)]; [reflexivity|].
  assert (ps' = ps) as ->. { rewrite Ep in Ep'. clear - Ep'. revert ps' Ep'. induction ps as [|p ps IH]; intros [|q ps'] E; try discriminate; auto. injection E as <- E. f_equal. auto. }
  rewrite (cf_grid _ _ _ _ _ (sh_new _ _ _ _ _ _ _ _ M)), (cf_grid _ _ _ _ _ (sh_old _ _ _ _ _ _ _ _ M)), mesh_plus.
  destruct (meshgrid vs) as [|g r] eqn:Eg; [reflexivity|]. cbn [gridPlus map meansPlus]. apply (f_equal2 cons); [|reflexivity]. rewrite (map_map (fun p => asum (amul p (map Fin g)))). apply map_ext_in. intros p Hp.
  apply (mean_plus d (gridPoints vs)); [now apply (proj1 (Forall_forall _ _) Hd)|].
  unfold meshgrid in Eg. destruct vs as [|v vs]; [discriminate|]. cbn [List.length seq map] in Eg. injection Eg as <- _. rewrite map_length. unfold gridPoints. exact (cart_length (v :: vs)).
Qed.

(** ** Parameter values that are estimated from the data *)
Lemma finite_plus d (l : list (xnum R)) : flat_map (fun x : xr => match x with Fin v => [v] | _ => [] end) (map (xadd (Fin d)) l) =
  map (Rplus d) (flat_map (fun x : xr => match x with Fin v => [v] | _ => [] end) l).
Proof. induction l as [|x l IH]; [reflexivity|]. cbn [map flat_map]. rewrite IH. destruct x as [v| | |]; reflexivity. Qed.
Lemma fsum_plus d (l : list R) : fsum (map (Rplus d) l) = INR (List.length l) * d + fsum l.
Proof.
  unfold fsum. cbn [f0 NumR].
  assert (Q : forall a b, fold_left (fadd (F := R)) (map (Rplus d) l) (a + b) = INR (List.length l) * d + a + fold_left (fadd (F := R)) l b).
  { induction l as [|x l IH]; intros a b; [cbn; ring|]. cbn [map fold_left List.length]. rewrite S_INR. change (fadd (a + b) (d + x)) with (a + b + (d + x)). change (fadd b x) with (b + x).
    replace (a + b + (d + x)) with (a + d + (b + x)) by ring. rewrite IH. ring. }
  replace 0 with (0 + 0) at 1 by ring. rewrite Q. ring.
Qed.
Lemma meanOf_plus d l : l <> [] -> meanOf (map (Rplus d) l) = d + meanOf l.
Proof.
  intros N. unfold meanOf. rewrite fsum_plus, map_length. field. destruct l as [|x l]; [congruence|]. cbn [List.length]. rewrite S_INR. pose proof (pos_INR (List.length l)). lra.
Qed.
Lemma stdOf_plus d l : l <> [] -> stdOf (map (Rplus d) l) = stdOf l.
Proof. intros N. unfold stdOf. rewrite meanOf_plus, map_map by auto. do 2 f_equal. apply map_ext. intros. ring. Qed.
Lemma std_nonempty l : 0 < stdOf l -> l <> [].
Proof. intros Hs ->. revert Hs. unfold stdOf, meanOf. cbn. unfold Rdiv. rewrite Rmult_0_l, sqrt_0. lra. Qed.
Lemma max_plus d l : l <> [] -> maxOf (map (Rplus d) l) = d + maxOf l.
Proof.
  intros N. unfold maxOf. destruct l as [|x l]; [congruence|]. cbn [map tl hd]. clear N. revert x. induction l as [|y l IH]; intros x; [reflexivity|]. cbn [map fold_left]. rewrite <- IH. f_equal.
  unfold Rmax. destruct (Rle_dec x y), (Rle_dec (d + x) (d + y)); lra.
Qed.
Lemma min_plus d l : l <> [] -> minOf (map (Rplus d) l) = d + minOf l.
Proof.
  intros N. unfold minOf. destruct l as [|x l]; [congruence|]. cbn [map tl hd]. clear N. revert x. induction l as [|y l IH]; intros x; [reflexivity|]. cbn [map fold_left]. rewrite <- IH. f_equal.
  unfold Rmin. destruct (Rle_dec x y), (Rle_dec (d + x) (d + y)); lra.
Qed.
Lemma progression_plus d a h n : progression (d + a) h n = map (Rplus d) (progression a h n).
Proof. unfold progression. rewrite map_map. apply map_ext. intros i. ring. Qed.
Lemma cint_plus d a b n : (2 <= n)%nat -> cint (F := R) (d + a) (d + b) n = map (Rplus d) (cint a b n).
Proof. intros Hn. rewrite !cint_progression, <- progression_plus by auto. f_equal. unfold Rdiv. ring. Qed.
Lemma oint_plus d a b n : oint (F := R) (d + a) (d + b) n = map (Rplus d) (oint a b n).
Proof. rewrite !oint_progression, <- progression_plus. f_equal; unfold Rdiv; ring. Qed.

(** first components of two-dimensional data points *)
Definition firsts (rows : list (list (xnum R))) : list R := observed (Raw1 (map (hd NaN) rows)).
(** models and data for which parameter values and prior are left to the defaults; the data are not all equal *)
Inductive defaultLocation : om R -> raw R -> Prop :=
| dl_gaussian p1 p2 l : p1 <> p2 -> 0 < stdOf (observed (Raw1 l)) -> defaultLocation (gaussian p1 None p2 None None) (Raw1 l)
| dl_laplace p1 p2 l : p1 <> p2 -> 0 < stdOf (observed (Raw1 l)) -> defaultLocation (laplace p1 None p2 None None) (Raw1 l)
| dl_gaussianMean p rows : minOf (firsts rows) < maxOf (firsts rows) -> defaultLocation (gaussianMean p None PNone) (Raw2 rows).
Lemma spaced_plus d vs : Forall equallySpaced vs -> Forall equallySpaced (gridPlus d vs).
Proof.
  destruct 1 as [|v vs (a & h & n & Hh & ->) Hv]; constructor; auto. exists (d + a), h, n. split; auto. rewrite map_map. apply map_ext. intros. ring.
Qed.
Lemma default_plus d o x : defaultLocation o x -> exists vs, mapM (paramValues o x) (combine (om_values o) (om_names o)) = Ok vs /\
  mapM (paramValues o (dataPlus d x)) (combine (om_values o) (om_names o)) = Ok (gridPlus d vs) /\ Forall equallySpaced vs /\
  List.length (om_names o) = List.length vs /\ vs <> [] /\ om_seglen o = 1%nat /\ locates d o o vs x.
Proof.
  intros D. destruct D as [p1 p2 l Hp Hs|p1 p2 l Hp Hs|p rows Hm]; try (assert (En : String.eqb p2 p1 = false) by (apply String.eqb_neq; congruence));
    cbn [om_values om_names gaussian laplace gaussianMean combine mapM paramValues fst snd om_estimate bind dataPlus]; unfold gaussianEstimate, laplaceEstimate, gaussianMeanEstimate.
  - pose proof (std_nonempty _ Hs) as Ne. assert (Eo : observed (Raw1 (map (xadd (Fin d)) l)) = map (Rplus d) (observed (Raw1 l))) by (unfold observed; apply finite_plus).
    rewrite Eo, meanOf_plus, stdOf_plus by auto. set (s := stdOf (observed (Raw1 l))) in *. set (u := meanOf (observed (Raw1 l))). rewrite !String.eqb_refl, En. cbn [bind]. eexists. split; [reflexivity|].
    split. { replace (d + u - 2 * s) with (d + (u - 2 * s)) by ring. replace (d + u + 2 * s) with (d + (u + 2 * s)) by ring. rewrite cint_plus by lia. reflexivity. }
    split; [constructor; [apply (cint_spaced _ _ 198); lra|constructor; [apply (oint_spaced _ _ 198); lra|constructor]]|]. do 1 (split; [reflexivity|]). split; [discriminate|]. split; [reflexivity|]. now apply loc_gaussian.
  - pose proof (std_nonempty _ Hs) as Ne. assert (Eo : observed (Raw1 (map (xadd (Fin d)) l)) = map (Rplus d) (observed (Raw1 l))) by (unfold observed; apply finite_plus).
    rewrite Eo, meanOf_plus, stdOf_plus by auto. set (s := stdOf (observed (Raw1 l))) in *. set (u := meanOf (observed (Raw1 l))). rewrite !String.eqb_refl, En. cbn [bind]. eexists. split; [reflexivity|].
    split. { replace (d + u - 2 * s) with (d + (u - 2 * s)) by ring. replace (d + u + 2 * s) with (d + (u + 2 * s)) by ring. rewrite cint_plus by lia. reflexivity. }
    assert (0 < sqrt 2 * s) by (apply Rmult_lt_0_compat; auto; apply sqrt_lt_R0; lra).
    split; [constructor; [apply (cint_spaced _ _ 198); lra|constructor; [apply (oint_spaced _ _ 198); lra|constructor]]|]. do 1 (split; [reflexivity|]). split; [discriminate|]. split; [reflexivity|]. now apply loc_laplace.
  - fold (firsts rows). set (obs := firsts rows) in *. assert (Ne : obs <> []) by (intros E; rewrite E in Hm; cbn in Hm; lra).
    assert (Eo : observed (Raw1 (map (hd NaN) (map (fun row => match row with [] => [] | y :: r => xadd (Fin d) y :: r end) rows))) = map (Rplus d) obs).
    { unfold obs, firsts, observed. rewrite <- finite_plus. f_equal. rewrite !map_map. apply map_ext. intros [|y r]; reflexivity. }
    rewrite Eo, max_plus, min_plus, !String.eqb_refl by auto. cbn [bind]. set (a := minOf obs) in *. set (b := maxOf obs) in *. eexists. split; [reflexivity|].
    split. { replace (d + a - (d + b - (d + a))) with (d + (a - (b - a))) by ring. replace (d + b + (d + b - (d + a))) with (d + (b + (b - a))) by ring. rewrite oint_plus. reflexivity. }
    split; [constructor; [apply (oint_spaced _ _ 998); lra|constructor]|]. split; [reflexivity|]. split; [discriminate|]. split; [reflexivity|]. now apply loc_gaussianMean.
Qed.

(** With parameter values and prior left to the defaults it suffices to add the constant to the data. *)
Theorem C77_defaults : forall d o m x sh ac bc,
  defaultLocation o x -> (0 < rawLen x)%nat -> isBreak m = false -> NoDup (allNames m) ->
  exists S S' : study R R,
    runCalls (newStudy sh ac bc) [CLoad x None; CSetTM m; CSetOM o] = Ok S /\
    runCalls (newStudy sh ac bc) [CLoad (dataPlus d x) None; CSetTM m; CSetOM o] = Ok S' /\
    st_marg S' = gridPlus d (st_marg S) /\
    forall fo eo,
    match fit S fo eo, fit S' fo eo with
    | Ok A, Ok B => st_post B = st_post A /\ st_logEv B = st_logEv A /\ st_local B = st_local A /\ st_fmtTs B = st_fmtTs A /\
        (forall ps, st_post A = map Some ps -> Forall (dist (gridPoints (st_marg S))) ps -> st_means B = meansPlus d (st_means A))
    | Err x, Err y => x = y
    | _, _ => False
    end.
Proof.
  intros d o m x sh ac bc D Hx Hm ND. destruct (default_plus d o x D) as (vs & E1 & E2 & Sp & Ln & Nv & Es & Lo).
  destruct (made_study sh ac bc x o m vs E1 Sp Nv Ln ltac:(lia) Hm ND Hx) as (S & R1 & M1 & r1 & p1 & q1 & (s1 & s2 & s3) & C1).
  assert (Nv' : gridPlus d vs <> []) by (destruct vs; cbn; congruence). assert (Ln' : List.length (om_names o) = List.length (gridPlus d vs)) by (rewrite Ln; destruct vs; reflexivity).
  assert (Hx' : (0 < rawLen (dataPlus d x))%nat) by (now rewrite length_plus).
  destruct (made_study sh ac bc (dataPlus d x) o m (gridPlus d vs) E2 (spaced_plus d vs Sp) Nv' Ln' ltac:(lia) Hm ND Hx') as (S' & R2 & M2 & r2 & p2 & q2 & (t1 & t2 & t3) & C2).
  exists S, S'. split; [exact R1|]. split; [exact R2|]. split; [rewrite M1, M2; reflexivity|]. intros fo eo. rewrite M1. rewrite length_plus in C2.
  eapply C77_origin. constructor; [exact C1|exact C2|congruence|now rewrite r1|auto|]. repeat split; congruence.
Qed.

(** ** Cases *)
(** Temperatures in degrees Celsius and in Kelvin, one measurement missing; mean and standard deviation change gradually and at a change-point. The
    posterior distributions of the first study are distributions. *)
Definition celsius : list (xnum R) := [Fin 1; NaN; Fin 3].
Definition climate : tm R := comb [grw "sigma" "mean" (1 / 10); change "t" 1].
Example C77_ex : exists S S' : study R R, let o := gaussian "mean" None "std" None None in
  runCalls (newStudy (fun _ _ p => p) (fun _ _ _ p => p) (fun _ _ _ p => p)) [CLoad (Raw1 celsius) None; CSetTM climate; CSetOM o] = Ok S /\
  runCalls (newStudy (fun _ _ p => p) (fun _ _ _ p => p) (fun _ _ _ p => p)) [CLoad (Raw1 [Fin (273 + 1); NaN; Fin (273 + 3)]) None; CSetTM climate; CSetOM o] = Ok S' /\
  defaultLocation o (Raw1 celsius) /\
  forall fo A, fit S fo false = Ok A -> exists B, fit S' fo false = Ok B /\ st_post B = st_post A /\ st_logEv B = st_logEv A.
Proof.
  assert (Hs : 0 < stdOf (observed (Raw1 celsius))) by (change celsius with metres; rewrite metres_std; lra).
  assert (D : defaultLocation (gaussian "mean" None "std" None None) (Raw1 celsius)) by (apply dl_gaussian; [discriminate|exact Hs]).
  destruct (C77_defaults 273 _ climate (Raw1 celsius) (fun _ _ p => p) (fun _ _ _ p => p) (fun _ _ _ p => p) D ltac:(cbn; lia) eq_refl) as (S & S' & E1 & E2 & _ & E).
  { cbn. repeat constructor; cbn; intuition discriminate. }
  exists S, S'. cbv zeta. split; [exact E1|]. split; [exact E2|]. split; [exact D|]. intros fo A EA. specialize (E fo false). rewrite EA in E. destruct (fit S' fo false) as [B|]; [|contradiction].
  exists B. split; [reflexivity|]. tauto.
Qed.

(** A coin: heads or tails are counted. The data and the parameter values are different, but the likelihoods at the grid points are the same. *)
Definition countHeads : list Z := [1; 1; 0]%Z.
Definition countTails : list Z := [0; 0; 1]%Z.
Definition counts : tm Q := comb [notEq2; change "t" 1%Q].
Example C77_twins : exists S S' : study Q Q,
  setup (data countHeads) None (coinOM quarters PNone) counts = Ok S /\ setup (data countTails) None (coinOM (rev quarters) PNone) counts = Ok S' /\
  twins S S' (coinOM quarters PNone) (coinOM (rev quarters) PNone) counts /\ st_raw S <> st_raw S' /\ st_grid S <> st_grid S'.
Proof.
  destruct (setup (L := Q) (data countHeads) None (coinOM quarters PNone) counts) as [S|] eqn:E1; [|vm_compute in E1; discriminate].
  destruct (setup (L := Q) (data countTails) None (coinOM (rev quarters) PNone) counts) as [S'|] eqn:E2; [|vm_compute in E2; discriminate].
  exists S, S'. do 2 (split; [reflexivity|]). vm_compute in E1, E2. injection E1 as <-. injection E2 as <-. split; [|split; discriminate].
  constructor; try (repeat split; reflexivity). all: vm_compute; repeat constructor.
Qed.
Example C77_executed :
  (let* S0 := setup (L := Q) (data countHeads) None (coinOM quarters PNone) counts in let* A := fit S0 false false in
   let* S1 := setup (L := Q) (data countTails) None (coinOM (rev quarters) PNone) counts in let* B := fit S1 false false in
   Ok (st_post A, st_logEv A, st_means A, st_post B, st_logEv B, st_means B))%res = 
  Ok ([Some [Fin (800 # 1609); Fin (800 # 1609); Fin (9 # 1609)]; Some [Fin (800 # 1609); Fin (800 # 1609); Fin (9 # 1609)]; Some [Fin (1 # 2); Fin (1 # 3); Fin (1 # 6)]], Fin (1609 # 76992),
      [[Fin (2427 # 6436); Fin (2427 # 6436); Fin (5 # 12)]],
      [Some [Fin (800 # 1609); Fin (800 # 1609); Fin (9 # 1609)]; Some [Fin (800 # 1609); Fin (800 # 1609); Fin (9 # 1609)]; Some [Fin (1 # 2); Fin (1 # 3); Fin (1 # 6)]], Fin (1609 # 76992),
      [[Fin (4009 # 6436); Fin (4009 # 6436); Fin (7 # 12)]])%Q.
Proof. vm_compute. reflexivity. Qed.
