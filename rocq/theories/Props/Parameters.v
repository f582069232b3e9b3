(** Mean values and marginal distributions of parameters: C13, C45. *)
From Coq Require Import List ZArith QArith Reals Lra Lia Arith Bool String.
From Verif Require Import Base.Num Base.Exn Base.Arr Base.RSum Base.Lift Model.Helper Model.Tm Model.HyperParams Model.Study Model.Api Model.Getters
  Spec.Hmm Spec.Kernel Spec.Config Spec.Dist Spec.Data Spec.Marginal Proof.Gauss Proof.KernelProof Proof.Good Proof.FitThms Proof.FitInv Proof.SetupProof Proof.MarginalProof Props.Ex Props.ExR Props.Inference.
Import ListNotations.
Local Open Scope string_scope.
Local Open Scope R_scope.

(** ** names and times *)
Definition lastName (names : list string) (name : string) (k : nat) : Prop :=
  nth_error names k = Some name /\ forall j, (k < j)%nat -> nth_error names j <> Some name.
Lemma lastIndex_none names name i found : ~ In name names -> lastIndex names name i found = found.
Proof.
  revert i found. induction names as [|n names IH]; intros i found H; cbn; auto. destruct (String.eqb_spec n name) as [->|]; [exfalso; apply H; now left|]. apply IH. intros I. apply H. now right.
Qed.
Lemma lastIndex_some names name k : lastName names name k -> forall i found, lastIndex names name i found = Some (i + k)%nat.
Proof.
  revert k. induction names as [|n names IH]; intros k [E Hl] i found; [destruct k; discriminate|]. cbn [lastIndex]. destruct k as [|k].
  - cbn in E. inversion E; subst. rewrite String.eqb_refl. rewrite lastIndex_none; [f_equal; lia|]. intros I. apply In_nth_error in I as (j & Ej). apply (Hl (S j)); [lia|exact Ej].
  - rewrite (IH k); [f_equal; lia|]. split; [exact E|]. intros j Hj. apply (Hl (S j)). lia.
Qed.
Lemma paramIndex_some names name k : lastName names name k -> paramIndex names name = Ok k.
Proof. intros H. unfold paramIndex. now rewrite (lastIndex_some names name k H). Qed.
Lemma paramIndex_none names name : ~ In name names -> paramIndex names name = Err PostProcessingError.
Proof. intros H. unfold paramIndex. now rewrite lastIndex_none. Qed.
Definition firstTime (ts : list R) (t : R) (i : nat) : Prop := nth_error ts i = Some t /\ forall j, (j < i)%nat -> nth_error ts j <> Some t.
Lemma timeIndex_some (ts : list R) t i : firstTime ts t i -> timeIndex ts t = Some i.
Proof.
  revert i. induction ts as [|t' ts IH]; intros i [E Hf]; [destruct i; discriminate|]. cbn [timeIndex]. change (feqb t' t) with (Reqb t' t). destruct i as [|i].
  - cbn in E. inversion E; subst. now rewrite (proj2 (Reqb_true t t) eq_refl).
  - assert (t' <> t) by (intros ->; apply (Hf O); [lia|reflexivity]). rewrite (proj2 (Reqb_false t' t)) by auto. rewrite (IH i); [reflexivity|]. split; auto. intros j Hj. apply (Hf (S j)). lia.
Qed.
Lemma timeIndex_none (ts : list R) t : ~ In t ts -> timeIndex ts t = None.
Proof. induction ts as [|t' ts IH]; intros H; cbn; auto. change (feqb t' t) with (Reqb t' t). rewrite (proj2 (Reqb_false t' t)) by (intros ->; apply H; now left). rewrite IH; auto. intros I. apply H. now right. Qed.
Lemma lastName_lt names name k : lastName names name k -> (k < List.length names)%nat.
Proof. intros [E _]. apply nth_error_Some. congruence. Qed.

(** ** C45 *)
Section HP.
  Context {L : Type} `{LogNum R L}.
  Variables (S : study R L) (o : om R) (vs : list (list R)) (ts : list R) (posts : list (nat -> R)).
  Hypothesis HP : hasPosteriors S o vs ts posts.
  Notation shape := (st_shape S).
  Notation N := (gridPoints vs).
  Lemma hp_N : natprod shape = N. Proof. now rewrite (hp_shape _ _ _ _ _ HP). Qed.
  Lemma hp_dim : List.length shape = List.length (om_names o). Proof. rewrite (hp_shape _ _ _ _ _ HP), map_length. symmetry. apply (hp_names _ _ _ _ _ HP). Qed.
  Lemma hp_nth k : nth k shape O = List.length (nth k vs []).
  Proof. rewrite (hp_shape _ _ _ _ _ HP). change O with (@List.length R []). apply map_nth. Qed.
  Lemma marginalOf_ok k b p : (k < List.length (om_names o))%nat ->
    marginalOf S o k b (arrOf N p) = Ok (arrOf (List.length (nth k vs [])) (fun v => marginal shape k p v / (if b then nth k (st_lat S) 1 else 1))).
  Proof.
    intros Hk. unfold marginalOf. assert (Hn : (0 < N)%nat) by apply (hp_size _ _ _ _ _ HP). rewrite <- hp_N in *. rewrite <- hp_dim in *. rewrite marginalize_fin by auto. rewrite hp_nth.
    assert (Hl : (k < List.length (st_lat S))%nat) by (rewrite (hp_lat _ _ _ _ _ HP), <- (hp_names _ _ _ _ _ HP), <- hp_dim; auto).
    unfold index. rewrite (List.nth_error_nth' (st_lat S) 1 Hl). cbn [bind]. destruct b; f_equal.
    - unfold arrOf. rewrite adivs_fin.
      + f_equal. unfold rdivs, tab. now rewrite map_map.
      + pose proof (hp_pos _ _ _ _ _ HP) as P. rewrite Forall_forall in P. assert (0 < nth k (st_lat S) 1) by (apply P; now apply nth_In). lra.
    - unfold arrOf. f_equal. apply tab_ext. intros v _. field.
  Qed.
  Lemma marg_nth k : (k < List.length (om_names o))%nat -> index (st_marg S) k = Ok (nth k vs []).
  Proof. intros Hk. rewrite (hp_marg _ _ _ _ _ HP). unfold index. rewrite (List.nth_error_nth' vs []) by (rewrite <- (hp_names _ _ _ _ _ HP); exact Hk). reflexivity. Qed.
  Lemma post_nonempty i : (i < List.length ts)%nat -> st_post S <> [].
  Proof. intros Hi E. rewrite (hp_post _ _ _ _ _ HP) in E. apply map_eq_nil in E. pose proof (hp_len _ _ _ _ _ HP). rewrite E in *. cbn in *. lia. Qed.
End HP.

Section Results.
  Context {L : Type} `{LogNum R L}.
  (** The distribution of parameter k at the time of step i: the sums of the posterior over all other parameters, divided by
      the lattice constant if a density is asked for *)
  Definition answer (S : study R L) (vs : list (list R)) (k : nat) (density : bool) (p : nat -> R) : list (xnum R) :=
    arrOf (List.length (nth k vs [])) (fun v => marginal (st_shape S) k p v / (if density then nth k (st_lat S) 1 else 1)).
  Theorem C45_distribution : forall (S : study R L) o vs ts posts k name i t density, hasPosteriors S o vs ts posts ->
    lastName (om_names o) name k -> firstTime ts t i ->
    let p := nth i posts (fun _ => 0) in let n := List.length (nth k vs []) in let dx := nth k (st_lat S) 1 in
    getParameterDistribution S (Some t) name density = Ok (nth k vs [], Some (answer S vs k density p)) /\
    (forall v, 0 <= marginal (st_shape S) k p v) /\ rsum n (marginal (st_shape S) k p) = 1 /\ rsum n (fun v => marginal (st_shape S) k p v / dx * dx) = 1.
  Proof.
    intros S o vs ts posts k name i t b HP Hk Hi p n dx. pose proof (lastName_lt _ _ _ Hk) as Lk.
    assert (Li : (i < List.length ts)%nat) by (apply nth_error_Some; destruct Hi; congruence).
    assert (Lp : (i < List.length posts)%nat) by (rewrite (hp_len _ _ _ _ _ HP); auto).
    pose proof (hp_dist _ _ _ _ _ HP) as D. rewrite Forall_forall in D. destruct (D p (nth_In _ _ Lp)) as [P1 P2].
    rewrite <- (hp_N S o vs ts posts HP) in P1, P2.
    assert (Sm : rsum n (marginal (st_shape S) k p) = 1).
    { unfold n. rewrite <- (hp_nth S o vs ts posts HP). rewrite marginal_sum; auto. rewrite (hp_dim S o vs ts posts HP); auto. }
    split; [|split; [|split; [exact Sm|]]].
    - unfold getParameterDistribution. destruct (st_post S) eqn:E; [now apply (post_nonempty S o vs ts posts HP i) in E|]. rewrite <- E. clear E.
      rewrite (hp_ts _ _ _ _ _ HP), (timeIndex_some ts t i Hi), (hp_post _ _ _ _ _ HP). unfold index at 1.
      rewrite nth_error_map. rewrite (List.nth_error_nth' posts (fun _ => 0) Lp). cbn [option_map bind]. rewrite (hp_om _ _ _ _ _ HP), (paramIndex_some _ _ _ Hk). cbn [bind].
      rewrite (marg_nth S o vs ts posts HP k Lk). cbn [bind]. fold p. rewrite (marginalOf_ok S o vs ts posts HP k b p Lk). reflexivity.
    - intros v. now apply marginal_nonneg.
    - rewrite <- Sm. apply rsum_ext. intros v _. field. unfold dx. pose proof (hp_pos _ _ _ _ _ HP) as Ps. rewrite Forall_forall in Ps.
      assert (0 < nth k (st_lat S) 1) by (apply Ps, nth_In; rewrite (hp_lat _ _ _ _ _ HP), <- (hp_names _ _ _ _ _ HP); auto). lra.
  Qed.
  (** time 'avg': the average over all time steps *)
  Theorem C45_average : forall (S : study R L) o vs ts posts k name density, hasPosteriors S o vs ts posts ->
    lastName (om_names o) name k -> ts <> [] ->
    let p := fun x => rsum (List.length posts) (fun i => nth i posts (fun _ => 0) x) / INR (List.length posts) in
    getParameterDistribution S None name density = Ok (nth k vs [], Some (answer S vs k density p)) /\
    (forall v, marginal (st_shape S) k p v = rsum (List.length posts) (fun i => marginal (st_shape S) k (nth i posts (fun _ => 0)) v) / INR (List.length posts)) /\
    rsum (gridPoints vs) p = 1.
  Proof.
    intros S o vs ts posts k name b HP Hk Ht p. pose proof (lastName_lt _ _ _ Hk) as Lk.
    assert (Li : (0 < List.length ts)%nat) by (destruct ts; [congruence|cbn; lia]).
    assert (Lp : (0 < List.length posts)%nat) by (rewrite (hp_len _ _ _ _ _ HP); auto). assert (Ip : 0 < INR (List.length posts)) by now apply lt_0_INR.
    split; [|split].
    - unfold getParameterDistribution. destruct (st_post S) eqn:E; [now apply (post_nonempty S o vs ts posts HP O) in E|]. rewrite <- E. clear E.
      rewrite (hp_post _ _ _ _ _ HP).
      assert (EA : allSome (map (fun p => Some (arrOf (gridPoints vs) p)) posts) = Some (map (arrOf (gridPoints vs)) posts)) by (clear; induction posts as [|q l IH]; cbn; auto; now rewrite IH).
      rewrite EA. cbn [option_map bind]. rewrite (hp_om _ _ _ _ _ HP), (paramIndex_some _ _ _ Hk). cbn [bind].
      rewrite (marg_nth S o vs ts posts HP k Lk). cbn [bind]. rewrite (hp_N S o vs ts posts HP).
      replace (timeAverage (gridPoints vs) (map (arrOf (gridPoints vs)) posts)) with (arrOf (gridPoints vs) p).
      + rewrite (marginalOf_ok S o vs ts posts HP k b p Lk). reflexivity.
      + unfold timeAverage, arrOf, tab. rewrite map_map. apply map_ext_in. intros x Hx. apply in_seq in Hx. rewrite map_map, map_length.
        rewrite (map_ext_in _ (fun q : nat -> R => Fin (q x))).
        * rewrite <- (map_map (fun q : nat -> R => q x) Fin), asum_fin. change (fofZ (Z.of_nat (List.length posts))) with (IZR (Z.of_nat (List.length posts))). rewrite <- INR_IZR_INZ.
          rewrite xdiv_fin by lra. unfold p. do 2 f_equal. rewrite Rsum_rnth, map_length. apply rsum_ext. intros i Hi. unfold Rnth.
          symmetry. exact (map_nth (fun q : nat -> R => q x) posts (fun _ => 0) i).
        * intros q _. change (map Fin (map q (seq 0 (gridPoints vs)))) with (arrOf (gridPoints vs) q). unfold arrOf. rewrite (nth_indep _ NaN (Fin 0)) by (rewrite map_length, tab_length; lia).
          rewrite (map_nth Fin). f_equal. rewrite tab_nth by lia. reflexivity.
    - intros v. unfold marginal. unfold Rdiv. rewrite rsum_swap, <- rsum_scal_r. apply rsum_ext. intros x _. destruct (Nat.eqb _ v); [reflexivity|]. rewrite rsum_0 by auto. lra.
    - unfold p, Rdiv. rewrite rsum_scal_r. rewrite rsum_swap. rewrite (rsum_ext _ _ (fun _ => 1)).
      + rewrite rsum_const. field. lra.
      + intros i Hi. pose proof (hp_dist _ _ _ _ _ HP) as D. rewrite Forall_forall in D. apply D. now apply nth_In.
  Qed.
  (** all time steps at once (at least two) *)
  Theorem C45_all : forall (S : study R L) o vs ts posts k name density, hasPosteriors S o vs ts posts ->
    lastName (om_names o) name k -> (1 < List.length ts)%nat ->
    getParameterDistributions S name density = Ok (nth k vs [], map (fun p => Some (answer S vs k density p)) posts).
  Proof.
    intros S o vs ts posts k name b HP Hk Ht. pose proof (lastName_lt _ _ _ Hk) as Lk.
    unfold getParameterDistributions. destruct (st_post S) eqn:E; [apply (post_nonempty S o vs ts posts HP O) in E; [tauto|lia]|]. rewrite <- E. clear E.
    rewrite (hp_ts _ _ _ _ _ HP). destruct (Nat.leb_spec (List.length ts) 1); [lia|]. rewrite (hp_om _ _ _ _ _ HP), (paramIndex_some _ _ _ Hk). cbn [bind].
    rewrite (marg_nth S o vs ts posts HP k Lk). cbn [bind]. rewrite (hp_post _ _ _ _ _ HP).
    match goal with |- bind (mapM ?f _) _ = _ => assert (EM : mapM f (map (fun p => Some (arrOf (gridPoints vs) p)) posts) = Ok (map (fun p => Some (answer S vs k b p)) posts)) end.
    { clear - HP Lk. revert HP. intros HP. pose proof (fun p => marginalOf_ok S o vs ts posts HP k b p Lk) as M. clear HP. induction posts as [|p l IH]; cbn [map mapM]; auto.
      rewrite M. cbn [bind]. rewrite IH. reflexivity. }
    rewrite EM. reflexivity.
  Qed.
  (** wrong names and times *)
  Theorem C45_errors : forall (S : study R L) o vs ts posts name density, hasPosteriors S o vs ts posts -> ts <> [] ->
    (forall t, ~ In t ts -> getParameterDistribution S (Some t) name density = Err PostProcessingError) /\
    (~ In name (om_names o) -> (forall t, getParameterDistribution S t name density = Err PostProcessingError) /\
       getParameterMeanValues S name = Err PostProcessingError /\
       ((1 < List.length ts)%nat -> getParameterDistributions S name density = Err PostProcessingError)).
  Proof.
    intros S o vs ts posts name b HP Ht. assert (Li : (0 < List.length ts)%nat) by (destruct ts; [congruence|cbn; lia]).
    assert (NE := post_nonempty S o vs ts posts HP O Li). unfold getParameterDistribution, getParameterDistributions, getParameterMeanValues.
    split.
    - intros t It. destruct (st_post S) eqn:E; [congruence|]. rewrite (hp_ts _ _ _ _ _ HP), timeIndex_none by auto. reflexivity.
    - intros In'. rewrite (hp_om _ _ _ _ _ HP), (paramIndex_none _ _ In'). split; [|split; [reflexivity|]].
      + intros t. destruct (st_post S) as [|d0 l0] eqn:E; [congruence|]. rewrite <- E. destruct t as [t|]; [|reflexivity].
        rewrite (hp_ts _ _ _ _ _ HP). destruct (timeIndex ts t) as [i|] eqn:ET; [|reflexivity].
        assert (Hi : (i < List.length ts)%nat).
        { clear - ET. revert i ET. induction ts as [|a l IH]; intros i E; cbn [timeIndex] in E; [discriminate|]. destruct (feqb a t); [inversion E; subst; cbn; lia|].
          destruct (timeIndex l t); cbn in E; [|discriminate]. inversion E; subst. cbn. specialize (IH _ eq_refl). lia. }
        unfold index. destruct (nth_error (st_post S) i) eqn:EN; [reflexivity|]. apply nth_error_None in EN. rewrite (hp_post _ _ _ _ _ HP), map_length, (hp_len _ _ _ _ _ HP) in EN. lia.
      + intros Hl. destruct (st_post S) eqn:E; [congruence|]. rewrite (hp_ts _ _ _ _ _ HP). destruct (Nat.leb_spec (List.length ts) 1); [lia|]. reflexivity.
  Qed.
End Results.
(** a single time step: the getter for all time steps raises an exception *)
Theorem C45_single_step_refuted : exists S A : study Q Q,
  setup (data [1]%Z) None (coinOM quarters PNone) static = Ok S /\ fit S false false = Ok A /\ getParameterDistributions A "p" true = Err IndexError.
Proof.
  assert (E : (let* S0 := setup (L := Q) (data [1]%Z) None (coinOM quarters PNone) static in let* A := fit S0 false false in Ok (getParameterDistributions A "p" true))%res
     = Ok (Err IndexError)) by (vm_compute; reflexivity).
  run E. do 2 eexists. repeat (split; [eassumption|]). assumption.
Qed.

(** ** C13, and the link between C45 and fits *)
Lemma means_inv S fo S' v : fit (L := R) S fo false = Ok S' -> st_logEv S' = Fin v ->
  exists posts n, st_post S' = padNone n posts /\ st_means S' = meanValues (st_grid S) posts /\ st_shape S' = st_shape S /\ st_lat S' = st_lat S /\ st_marg S' = st_marg S.
Proof.
  intros E Ev. destruct (fit_inv _ _ _ _ E) as (o & m & ts & w & FP & O). inversion O; subst; cbn in Ev; try discriminate; cbn.
  - do 2 eexists. split; [reflexivity|auto].
  - eexists _, 0%nat. split; [unfold padNone; cbn; now rewrite app_nil_r|auto].
Qed.
Lemma pad_some {A} n (l l' : list A) : map Some l = padNone n l' -> l = l'.
Proof.
  revert l'. unfold padNone. intros l' E. assert (H : repeat (@None A) (n - List.length l') = []).
  { destruct (n - List.length l')%nat; auto. exfalso. assert (I : In None (map Some l)) by (rewrite E; apply in_or_app; right; now left). apply in_map_iff in I as (x & X & _). discriminate. }
  rewrite H, app_nil_r in E. clear H. revert l' E. induction l as [|a l IH]; intros [|b l'] E; cbn in E; try discriminate; auto. inversion E; subst. f_equal. now apply IH.
Qed.
Lemma meshgrid_nth (vs : list (list R)) k x : (k < List.length vs)%nat -> (x < gridPoints vs)%nat ->
  nth x (nth k (meshgrid vs) []) 0 = nth (coord (map (@List.length R) vs) k x) (nth k vs []) 0.
Proof.
  intros Hk Hx. unfold meshgrid, coord. rewrite (nth_indep _ [] (map (fun pt => nth 0 pt f0) (cart vs))) by (rewrite map_length, seq_length; auto).
  rewrite (map_nth (fun k0 => map (fun pt => nth k0 pt f0) (cart vs))), seq_nth by auto. cbn [Nat.add].
  rewrite (nth_indep _ 0 (nth k (@nil R) f0)) by (rewrite map_length, cart_length; auto). rewrite (map_nth (fun pt => nth k pt f0)). rewrite (cart_nth 0) by auto.
  rewrite (nth_indep _ f0 (nth (snd (@nil R, O)) (fst (@nil R, O)) 0)) by (rewrite map_length, combine_length, unravel_length, map_length; lia).
  rewrite (map_nth (fun p => nth (snd p) (fst p) 0)), combine_nth by (now rewrite unravel_length, map_length). reflexivity.
Qed.

Theorem C13_mean_values : forall S o m vs ts fo S' v,
  configured S o m vs ts -> st_marg S = vs -> runnable (om_names o) m ->
  nonnegPrior (gridPoints vs) o (map (@List.length R) vs) (meshgrid vs) (om_prior o) ->
  (forall s, In s (segments S o) -> finite (gridPoints vs) (processedPdf o (gridPoints vs) (meshgrid vs) s)) ->
  fit S fo false = Ok S' -> st_logEv S' = Fin v ->
  exists o' posts, om_names o' = om_names o /\ hasPosteriors S' o' vs (formatTimestamps ts (om_seglen o)) posts /\
    forall k name, lastName (om_names o) name k ->
      let mean p := rsum (List.length (nth k vs [])) (fun j => marginal (map (@List.length R) vs) k p j * nth j (nth k vs []) 0) in
      getParameterMeanValues S' name = Ok (map (fun p => Fin (mean p)) posts) /\
      (forall p, mean p = rsum (gridPoints vs) (fun x => p x * nth x (nth k (meshgrid vs) []) 0)) /\
      (forall lo hi, Forall (fun y => lo <= y <= hi) (nth k vs []) -> Forall (fun p => lo <= mean p <= hi) posts).
Proof.
  intros S o m vs ts fo S' v C Em Run Pr Lk E Ev.
  destruct (C01_posteriors_are_distributions S o m vs ts fo C Run Pr Lk) as (S1 & E1 & D). rewrite E in E1. injection E1 as <-.
  destruct D as [D|(v' & ps & _ & Ep & Lp & HD)]; [congruence|].
  destruct (means_inv _ _ _ _ E Ev) as (posts & n & E2 & E3 & E4 & E5 & E6). rewrite Ep in E2. apply pad_some in E2. subst posts.
  destruct (fit_inv _ _ _ _ E) as (o1 & m1 & t1 & w & FP & O1). destruct (fwdPart_cfg S o m vs ts C _ _ _ _ FP) as (-> & -> & ->).
  assert (Eo : st_om S' = Some (om_set_prior o (fw_prior w)) /\ st_fmtTs S' = formatTimestamps ts (om_seglen o)) by (inversion O1; subst; split; reflexivity).
  assert (HF : exists fs, ps = map (arrOf (gridPoints vs)) fs /\ Forall (fun p => (forall x, (x < gridPoints vs)%nat -> 0 <= p x) /\ rsum (gridPoints vs) p = 1) fs).
  { clear - HD. induction HD as [|a l (r & -> & Lr & P1 & P2) HD (fs & -> & IH)]; [exists []; auto|]. exists (Rnth r :: fs). split.
    - cbn [map]. f_equal. unfold arrOf. now rewrite <- Lr, tab_Rnth.
    - constructor; auto. split.
      + intros x Hx. rewrite Forall_forall in P1. apply P1, nth_In. lia.
      + rewrite <- Lr, <- Rsum_rnth. exact P2. }
  destruct HF as (fs & -> & HF). exists (om_set_prior o (fw_prior w)), fs. split; [reflexivity|].
  pose proof (cfg_npos S o m vs ts C) as HN.
  assert (Hlen : List.length vs = List.length (st_lat S)).
  { pose proof (cf_lat _ _ _ _ _ C) as CL. clear - CL. revert CL. generalize (st_lat S). induction vs as [|a l IH]; intros r X; cbn in X; [now inversion X|].
    destruct (latticeOf a); [|discriminate]. destruct (mapM latticeOf l) eqn:Y; [|discriminate]. inversion X; subst. cbn. f_equal. now apply IH. }
  split.
  - constructor; try tauto.
    + apply (cf_names _ _ _ _ _ C).
    + now rewrite E6.
    + rewrite E4. apply (cf_shape _ _ _ _ _ C).
    + rewrite E5. auto.
    + rewrite E5. apply (cf_spacing _ _ _ _ _ C).
    + rewrite map_length in Lp. rewrite Lp. symmetry. apply (cfg_ts_len S o m vs ts C).
    + rewrite Ep, map_map. reflexivity.
  - intros k name Hk mean. pose proof (lastName_lt _ _ _ Hk) as Lk'. rewrite (cf_names _ _ _ _ _ C) in Lk'.
    assert (EX : forall p, mean p = rsum (gridPoints vs) (fun x => p x * nth x (nth k (meshgrid vs) []) 0)).
    { intros p. unfold mean. set (shape := map (@List.length R) vs). assert (Es : List.length (nth k vs []) = nth k shape O) by (unfold shape; change O with (@List.length R []); now rewrite map_nth).
      rewrite Es, (marginal_expect shape k p (fun j => nth j (nth k vs []) 0)) by (unfold shape; now rewrite map_length).
      apply rsum_ext. intros x Hx. f_equal. symmetry. now apply meshgrid_nth. }
    split; [|split; [exact EX|]].
    + unfold getParameterMeanValues. destruct Eo as [-> _]. cbn [om_names om_set_prior]. rewrite (paramIndex_some _ _ _ Hk). cbn [bind]. rewrite E3. unfold index, meanValues.
      rewrite (cf_grid _ _ _ _ _ C). rewrite nth_error_map. rewrite (List.nth_error_nth' (meshgrid vs) []) by (unfold meshgrid; rewrite map_length, seq_length; auto). cbn [option_map].
      f_equal. rewrite map_map. apply map_ext. intros p. rewrite EX.
      assert (Lg : List.length (nth k (meshgrid vs) []) = gridPoints vs).
      { unfold meshgrid. rewrite (nth_indep _ [] (map (fun pt => nth 0 pt f0) (cart vs))) by (rewrite map_length, seq_length; auto).
        rewrite (map_nth (fun k0 => map (fun pt => nth k0 pt f0) (cart vs))). rewrite map_length. apply cart_length. }
      unfold arrOf. rewrite amul_fin, asum_fin. f_equal. set (g := nth k (meshgrid vs) []) in *.
      replace (rmul (tab (gridPoints vs) p) g) with (rmul (tab (gridPoints vs) p) (tab (gridPoints vs) (Rnth g))) by (now rewrite <- Lg, tab_Rnth).
      rewrite rmul_tab, Rsum_tab. reflexivity.
    + intros lo hi Hb. apply Forall_forall. intros p Ip. rewrite Forall_forall in HF. destruct (HF p Ip) as [P1 P2].
      assert (B : forall x, (x < gridPoints vs)%nat -> lo <= nth x (nth k (meshgrid vs) []) 0 <= hi).
      { intros x Hx. rewrite meshgrid_nth by auto. rewrite Forall_forall in Hb. apply Hb, nth_In.
        replace (List.length (nth k vs [])) with (nth k (map (@List.length R) vs) O) by (change O with (@List.length R []); now rewrite map_nth). apply coord_lt; auto. now rewrite map_length. }
      rewrite EX. split.
      * replace lo with (rsum (gridPoints vs) (fun x => p x * lo)) by (rewrite rsum_scal_r, P2; lra). apply rsum_le. intros x Hx. apply Rmult_le_compat_l; [auto|apply B; auto].
      * replace hi with (rsum (gridPoints vs) (fun x => p x * hi)) by (rewrite rsum_scal_r, P2; lra). apply rsum_le. intros x Hx. apply Rmult_le_compat_l; [auto|apply B; auto].
Qed.
Example C13_example : exists (S S' : study R R) v, setup (data [1; 0; 1]%Z) None (coin PNone) walkChange = Ok S /\
  configured S (coin PNone) walkChange [quarters] (times [1; 0; 1]%Z) /\ st_marg S = [quarters] /\ runnable (om_names (coin PNone)) walkChange /\
  nonnegPrior (gridPoints [quarters]) (coin PNone) [3%nat] (meshgrid [quarters]) (om_prior (coin PNone)) /\
  (forall s, In s (segments S (coin PNone)) -> finite (gridPoints [quarters]) (processedPdf (coin PNone) (gridPoints [quarters]) (meshgrid [quarters]) s)) /\
  fit S true false = Ok S' /\ st_logEv S' = Fin v /\ lastName (om_names (coin PNone)) "p" 0.
Proof.
  destruct walkChange_ok as (Hm & ND & Lin). destruct (coin_setup [1; 0; 1]%Z PNone walkChange Hm) as (S & E & h1 & h2 & h3 & _).
  assert (Hb : bits [1; 0; 1]%Z) by (repeat constructor; auto). assert (Hd : [1; 0; 1]%Z <> []) by discriminate.
  pose proof (coin_configured _ _ _ _ E Hm Hd ND) as C. destruct (coin_likelihoods _ _ _ _ E Hm Hb) as [HL _].
  pose proof (coin_evidence _ _ _ E Hm Hb Hd ND Lin) as HE.
  destruct (C03_evidence S (coin PNone) walkChange [quarters] (times [1; 0; 1]%Z) _ _ true false C Lin (pri_flat _ _ _) HL (or_introl I)
     ltac:(rewrite (coin_steps _ _ _ _ E Hm); cbn; lia) (or_introl eq_refl)) as (S' & E' & _ & _ & P).
  destruct (P HE) as (v & Ev & _). exists S, S', v. split; [exact E|]. split; [exact C|]. split; [exact h3|].
  split; [unfold walkChange, comb, grw, change; apply run_comb; repeat constructor; cbn; auto|]. split; [exact I|]. split.
  - intros s Is. apply In_nth_error in Is. destruct Is as [i Ei]. destruct (HL i s Ei) as [-> Hp]. exists (tab (gridPoints [quarters]) (coinLik [1; 0; 1]%Z i)).
    split; [reflexivity|]. split; [apply tab_length|]. now apply Forall_tab.
  - split; [exact E'|]. split; [exact Ev|]. split; [reflexivity|]. intros [|[|j]] Hj; [lia| |]; cbn; discriminate.
Qed.
(** executed, two parameters: posterior over a (1 or 2) and b (0, 1 or 2) after the data 0, 1 *)
Example C45_executed :
  (let* S0 := setup (L := Q) (data [0; 1]%Z) None (pairOM [1; 2]%Q [0; 1; 2]%Q PNone) static in let* A := fit S0 true false in
   Ok (getParameterDistribution A (Some 1%Q) "a" false, getParameterDistribution A (Some 1%Q) "b" true, getParameterDistribution A None "a" false,
       getParameterMeanValues A "b", getParameterDistribution A (Some 2%Q) "b" true, getParameterDistribution A (Some 1%Q) "c" true))%res
  = Ok (Ok ([1; 2]%Q, Some [Fin (1 # 4); Fin (3 # 4)]%Q), Ok ([0; 1; 2]%Q, Some [Fin (5 # 24); Fin (1 # 3); Fin (11 # 24)]%Q),
        Ok ([1; 2]%Q, Some [Fin (7 # 24); Fin (17 # 24)]%Q), Ok [Fin (1 # 1); Fin (5 # 4)]%Q, Err PostProcessingError, Err PostProcessingError).
Proof. vm_compute. reflexivity. Qed.
