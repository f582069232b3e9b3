(** C74 for hyper-studies. *)
From Coq Require Import List ZArith QArith Reals Lra Lia Arith Bool String.
From Verif Require Import Base.Num Base.Exn Base.Arr Base.RSum Base.Lift Model.Helper Model.Tm Model.HyperParams Model.Study Model.Api Model.Getters Model.Hyper
  Spec.Kernel Spec.Config Spec.Names Spec.Dist Spec.HyperSpec Spec.Factors Proof.KernelProof Proof.FitInv Proof.FitThms Proof.SetupProof Proof.TransProof Proof.NamesProof Proof.SplitProof
  Proof.HyperProof Proof.HyperFit Proof.FactorProof Proof.HyperFactor Props.Ex Props.ExR Props.Inference Props.Units Props.Factors Props.HyperStudy.
Import ListNotations.
Local Open Scope R_scope.

Lemma single_follow (H H' : hyper R R) o o' m vs rts cs fo eo row A : named m ->
  sameButLikelihood (hy_S H) (hy_S H') o o' m vs rts -> likelihoodsTimes (hy_S H) (hy_S H') o o' vs cs ->
  (fo || eo = true)%bool \/ noRegime m /\ scalesWith (hy_S H) -> single H m fo eo row A -> exists B, single H' m fo eo row B /\ followedBy cs A B.
Proof.
  intros Hn [c1 c2 s1 s2 s3 s4 s5] LT HB E. unfold single in *. rewrite (cf_tmlat _ _ _ _ _ c1) in E. rewrite (cf_tmlat _ _ _ _ _ c2).
  assert (ND : NoDup (allNames (withValues m row))) by (unfold withValues; rewrite assign_allNames by auto; exact (cf_unique _ _ _ _ _ c1)).
  assert (SL : sameButLikelihood (set_tm (hy_S H) (withValues m row) (st_lat (hy_S H))) (set_tm (hy_S H') (withValues m row) (st_lat (hy_S H'))) o o' (withValues m row) vs rts).
  { constructor; auto; apply (configured_tm _ _ m); auto. }
  assert (HB' : (fo || eo = true)%bool \/ noRegime (withValues m row) /\ scalesWith (set_tm (hy_S H) (withValues m row) (st_lat (hy_S H)))).
  { destruct HB as [|[N W]]; [now left|right]. split; [now apply noRegime_assign|exact W]. }
  pose proof (fit_factor _ _ o o' _ vs rts cs SL LT fo eo HB') as F. rewrite E in F. destruct (fit (set_tm (hy_S H') _ _) fo eo) as [B|]; [|contradiction].
  exists B. split; [reflexivity|]. destruct F as (f1 & f2 & f3 & f4 & f5 & f6). repeat split; auto.
Qed.
Lemma likelihoods_pos S S' o o' vs cs : likelihoodsTimes S S' o o' vs cs -> Forall (fun c => 0 < c) cs.
Proof. intros LT. unfold likelihoodsTimes in LT. induction LT; constructor; auto. Qed.

(** Two hyper-studies of which the likelihoods differ by one factor per data segment: the distribution of the hyper-parameters, the average
    posterior distributions and the mean values are the same. The log-evidence (of the study and of each combination of hyper-parameter
    values) changes by the logarithms of the factors, the local evidence by the factors. The number of processes may differ. *)
Theorem C74_hyper : forall (H H' : hyper R R) o o' m vs rts cs fo eo j j' H1 pv runs, let ts := formatTimestamps rts (om_seglen o) in
  hyperReady H o m ts -> hyperReady H' o' m ts -> sameButLikelihood (hy_S H) (hy_S H') o o' m vs rts -> likelihoodsTimes (hy_S H) (hy_S H') o o' vs cs ->
  (fo || eo = true)%bool \/ noRegime m /\ scalesWith (hy_S H) ->
  hyperFit H fo eo j = Ok H1 -> (1 < List.length (hy_grid H1))%nat -> hy_pv H1 = map Fin pv -> Forall (fun p => 0 <= p) pv ->
  Forall2 (single H m fo eo) (hy_grid H1) runs -> Forall (proper eo (stepsH H o) (pointsH H)) runs ->
  exists H2, hyperFit H' fo eo j' = Ok H2 /\
    hy_names H2 = hy_names H1 /\ hy_vals H2 = hy_vals H1 /\ hy_grid H2 = hy_grid H1 /\ hy_pv H2 = hy_pv H1 /\ hy_const H2 = hy_const H1 /\
    hy_dist H2 = hy_dist H1 /\
    hy_logEvs H2 = map (fun x => xladd (F := R) x (Fin (Rsum (map ln cs)))) (hy_logEvs H1) /\
    st_logEv (hy_S H2) = xladd (F := R) (st_logEv (hy_S H1)) (Fin (Rsum (map ln cs))) /\
    st_local (hy_S H2) = map2 (fun c x => option_map (fun y => xmul (Fin c) y) x) cs (st_local (hy_S H1)) /\
    (eo = false -> st_post (hy_S H2) = st_post (hy_S H1) /\ st_means (hy_S H2) = st_means (hy_S H1)).
Proof.
  intros H H' o o' m vs rts cs fo eo j j' H1 pv runs ts HR HR' SL LT HB E Hm Epv Hpv HF HP.
  assert (Hnamed : named m) by apply (hr_names _ _ _ _ HR).
  destruct (Forall2_ex (single H m fo eo) (single H' m fo eo) (followedBy cs) _ _ (fun row A X => single_follow H H' o o' m vs rts cs fo eo row A Hnamed SL LT HB X) HF) as (runs' & HF' & Hfol).
  pose proof (sl_first _ _ _ _ _ _ _ SL) as C1. pose proof (sl_second _ _ _ _ _ _ _ SL) as C2.
  assert (EN : pointsH H' = pointsH H) by (unfold pointsH; now rewrite (cf_shape _ _ _ _ _ C1), (cf_shape _ _ _ _ _ C2)).
  pose proof (prop_len _ _ _ _ _ LT) as [Lsegs Lc]. 
  assert (Ens : stepsH H' o' = stepsH H o) by (unfold stepsH; exact Lsegs).
  assert (HP' : Forall (proper eo (stepsH H' o') (pointsH H')) runs').
  { rewrite EN, Ens. clear - HP Hfol. induction Hfol; inversion HP; subst; constructor; auto. eapply follow_proper; eauto. }
  destruct (fit_grid_inv _ _ _ _ _ _ _ _ HR E) as (m' & EG & En & Ec). rewrite Epv in EG.
  destruct (fit_known H o m ts fo eo j H1 pv runs HR E Hm Epv Hpv HF HP) as (k1 & k2 & k3 & k4 & k5 & _ & _ & k8).
  assert (Hne : hy_grid H1 <> []) by (intros E0; rewrite E0 in Hm; cbn in Hm; lia).
  destruct (grid_shape _ _ _ _ _ _ _ EG Hne) as (_ & _ & _ & g4 & _).
  assert (Ec' : checkConsistency (prepared H' o' ts m') = Ok (o', m')).
  { assert (X : checkConsistency (set_tm (hy_S H') m' (st_lat (hy_S H'))) = Ok (o', m')).
    { apply (cfg_check _ o' m' vs rts). apply (configured_tm _ _ m); auto. rewrite (names_m' m m' g4). exact (cf_unique _ _ _ _ _ C2). }
    exact X. }
  destruct (fit_spec H' o' m ts HR' _ _ _ _ _ EG Hm Hpv fo eo j' runs' Ec Ec' HF' HP') as (H2 & E2 & h1 & h2 & h3 & h4 & h5 & h6 & h7 & h8 & h9 & _ & _ & h12).
  exists H2. split; [exact E2|]. split; [congruence|]. split; [exact h1|]. split; [exact h3|]. split; [congruence|]. split; [exact h4|].
  pose proof (follow_evs _ _ _ Hfol) as Fev. rewrite Fev in h6, h7, h8. rewrite sh_weights in h7, h8. rewrite sh_dist in h7. rewrite sh_logsumexp in h8.
  split; [congruence|]. split; [rewrite h6, k2; reflexivity|]. split; [rewrite h8, k4; reflexivity|].
  split. { rewrite h9, k5, Ens. rewrite (follow_local cs runs runs' (map (@Fin R) pv) (stepsH H o) Hfol); [reflexivity|exact (likelihoods_pos _ _ _ _ _ _ LT)|]. exact Lc. }
  intros He. destruct (h12 He) as [p1 p2]. destruct (k8 He) as [q1 q2]. rewrite EN, Ens in p1, p2.
  assert (Em : averagePosterior (lgm (stepsH H o) (pointsH H) (mixed (combine runs' pv))) = averagePosterior (F := R) (L := R) (lgm (stepsH H o) (pointsH H) (mixed (combine runs pv)))).
  { rewrite (lgm_ext _ _ _ _ (fun i x _ _ => follow_mixed cs runs runs' pv Hfol i x)), sh_lgm, sh_average; [reflexivity|].
    intros i x. apply mixed_nonneg. clear - Hpv. revert pv Hpv. induction runs as [|A runs IH]; intros [|p pv] Hpv; cbn; constructor; inversion Hpv; subst; auto. }
  rewrite p1, p2, q1, q2, Em. split; [reflexivity|]. f_equal. now rewrite (cf_grid _ _ _ _ _ C1), (cf_grid _ _ _ _ _ C2).
Qed.

(** ** A case *)
(** Tosses of a coin, likelihoods reported as three times the probability; an unknown width of the random walk and an unknown change-point. *)
Example C74_hyper_ex (ds : list Z) fo eo j : bits ds -> (3 <= List.length ds)%nat -> exists (S S' : study R R) H1 runs pv,
  setup (data ds) None (coin PNone) walkOrChange = Ok S /\ setup (data ds) None (tripleOM quarters PNone) walkOrChange = Ok S' /\
  hyperReady (newHyper S) (coin PNone) walkOrChange (times ds) /\ hyperReady (newHyper S') (tripleOM quarters PNone) walkOrChange (times ds) /\
  sameButLikelihood S S' (coin PNone) (tripleOM quarters PNone) walkOrChange [quarters] (times ds) /\
  likelihoodsTimes S S' (coin PNone) (tripleOM quarters PNone) [quarters] (repeat 3 (List.length ds)) /\ noRegime walkOrChange /\ scalesWith S /\
  hyperFit (newHyper S) fo eo j = Ok H1 /\ (1 < List.length (hy_grid H1))%nat /\ hy_pv H1 = map Fin pv /\ Forall (fun p => 0 <= p) pv /\
  Forall2 (single (newHyper S) walkOrChange fo eo) (hy_grid H1) runs /\ Forall (proper eo (stepsH (newHyper S) (coin PNone)) (pointsH (newHyper S))) runs.
Proof.
  intros Hb Hd. destruct (walkOrChange_fit ds fo eo j Hb Hd) as (S & H1 & runs & pv & K). cbv zeta in K. destruct K as (E & HR & _ & _ & _ & EF & _ & k1 & k2 & k3 & _ & k4 & k5 & _).
  assert (Hm : isBreak walkOrChange = false) by reflexivity. assert (ND : NoDup (allNames walkOrChange)) by apply walkOrChange_ok.
  assert (Hd0 : ds <> []) by (destruct ds; [cbn in Hd; lia|discriminate]).
  destruct (triple_setup ds PNone walkOrChange Hm) as (S' & E' & _ & Er' & Et'). destruct (coin_setup ds PNone walkOrChange Hm) as (S0 & E0 & _ & _ & _ & Er & _).
  rewrite E in E0. injection E0 as <-.
  pose proof (triple_configured ds PNone walkOrChange S' E' Hm Hd0 ND) as C'.
  destruct (setup_fresh R R _ _ _ _ _ E) as (a1 & a2 & a3 & a4 & a5). destruct (setup_fresh R R _ _ _ _ _ E') as (b1 & b2 & b3 & b4 & b5).
  exists S, S', H1, runs, pv. split; [exact E|]. split; [exact E'|]. split; [exact HR|].
  assert (Sel : st_sel S' = []).
  { revert E'. unfold setup. cbn [runCalls runCall bind]. unfold setTM. rewrite Hm. cbn [bind]. unfold setOM. destruct (mapM _ _); [|discriminate]. cbn [bind]. destruct (mapM latticeOf _); [|discriminate]. cbn [bind]. intros X. injection X as <-. reflexivity. }
  split. { constructor; [exact (cf_om _ _ _ _ _ C')|exact (cf_tm _ _ _ _ _ C')|exists (times ds); split; [exact (cf_ts _ _ _ _ _ C')|reflexivity]|apply walkOrChange_ok|exact Sel|exact I]. }
  split. { constructor; try reflexivity; [apply coin_configured; auto|exact C'|split; congruence|split; [congruence|split; congruence]]. }
  split. { assert (Es : segments S' (tripleOM quarters PNone) = segments S (coin PNone)) by (unfold segments; rewrite Er, Er'; reflexivity).
    unfold likelihoodsTimes. rewrite Es, (coin_segments _ _ _ _ E Hm). clear. induction ds as [|d ds IH]; cbn [map repeat List.length]; constructor; [lra|reflexivity|exact IH]. }
  split. { apply nr_comb. repeat constructor; discriminate. }
  split; [unfold scalesWith; rewrite a3, a4, a5; repeat split|]. auto 10.
Qed.
(** Executed: an unknown change-point; the factor 3 of four tosses appears as 81 in all evidence values. *)
Example C74_hyper_executed :
  (let* S0 := setup (L := Q) (data [1; 1; 0; 0]%Z) None (tripleOM quarters PNone) (anyTime HPNone) in
   let* H1 := hyperFit (newHyper S0) true false 1 in
   Ok (hy_grid H1, hy_pv H1, hy_const H1, hy_dist H1, hy_logEvs H1, st_logEv (hy_S H1), nth 3 (st_post (hy_S H1)) None))%res =
  Ok ([[0]; [1]; [2]], [Fin (1 # 3); Fin (1 # 3); Fin (1 # 3)], [1],
      Some [Fin (30 # 109); Fin (49 # 109); Fin (30 # 109)],
      [Fin (135 # 128); Fin (441 # 256); Fin (135 # 128)], Fin (327 # 256),
      Some [Fin (60 # 109); Fin (36 # 109); Fin (13 # 109)])%Q.
Proof. vm_compute. reflexivity. Qed.
