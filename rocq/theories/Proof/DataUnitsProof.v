(** Proofs for other units of the data *)
From Coq Require Import List ZArith Reals Lra Lia Arith Bool String.
From Verif Require Import Base.Num Base.Exn Base.Arr Base.RSum Base.Lift Model.Helper Model.Tm Model.HyperParams Model.Study Model.ObsModels
  Spec.Config Spec.Units Spec.Data Spec.Factors Spec.DataUnits Proof.KernelProof Proof.FitThms Proof.DataProof Proof.PriorProof Proof.UnitsProof Proof.FactorProof Props.Prior.
Import ListNotations.
Local Open Scope R_scope.

Lemma convert_back us g : Forall (fun u => 0 < u) us -> List.length g = List.length us -> convert (map Rinv us) (convert us g) = g.
Proof.
  intros Hu. revert g. induction Hu as [|u us Hu _ IH]; intros [|v g] L; try discriminate; [reflexivity|].
  injection L as L. unfold convert in *. cbn [map Arr.map2]. f_equal; [|now apply IH]. rewrite map_map. rewrite <- (map_id v) at 2. apply map_ext. intros x. field. lra.
Qed.
Lemma noRegime_units names us m : noRegime m -> noRegime (inUnits names us m).
Proof.
  induction m as [k hn vals p ms IH] using tm_ind'. intros H.
  assert (G : Forall noRegime ms -> Forall noRegime (map (inUnits names us) ms)).
  { clear H. induction IH as [|x ms Hx _ IHm]; intros F; [constructor|]. inversion F; subst. constructor; auto. }
  inversion H; subst.
  - destruct k; try congruence; try (cbn; apply nr_leaf; discriminate); destruct vals as [|v1 [|v2 vals]]; cbn; apply nr_leaf; congruence.
  - cbn. apply nr_comb. auto.
  - cbn. apply nr_serial. auto.
Qed.

Section Middle.
  Variables (us : list R) (S S' : study R R) (o o' : om R) (m : tm R) (vs : list (list R)) (ts cs : list R).
  Hypothesis RS : rescaled us S S' o o' m vs ts.
  Hypothesis Hus : Forall (fun u => 0 < u) us.
  Hypothesis Hlen : List.length us = List.length vs.
  Hypothesis LU : likelihoodsInUnits us S S' o o' vs cs.
  Notation m' := (inUnits (om_names o) us m).
  Let C := rs_old _ _ _ _ _ _ _ _ RS.
  Let C' := rs_new _ _ _ _ _ _ _ _ RS.
  Variable q : priorSpec R.
  (* the old data and likelihood, with parameters and prior in the new units *)
  Definition midOM : om R :=
    {| om_names := om_names o; om_values := om_values o'; om_seglen := om_seglen o; om_multiply := om_multiply o; om_prior := q;
       om_pdf := fun g s => om_pdf o (convert (map Rinv us) g) s; om_estimate := om_estimate o' |}.
  Definition midStudy : study R R :=
    {| st_om := Some midOM; st_tm := st_tm S'; st_marg := st_marg S'; st_shape := st_shape S';
       st_lat := st_lat S'; st_tmlat := st_tmlat S'; st_grid := st_grid S'; st_raw := st_raw S; st_rawTs := st_rawTs S'; st_fmt := st_fmt S';
       st_fmtTs := st_fmtTs S'; st_post := st_post S'; st_means := st_means S'; st_logEv := st_logEv S'; st_local := st_local S';
       st_sel := st_sel S'; st_warn := st_warn S'; st_shift := st_shift S'; st_aconv := st_aconv S'; st_bconv := st_bconv S' |}.
  Lemma mid_configured : configured midStudy midOM m' (convert us vs) ts.
  Proof.
    destruct C' as [a1 a2 a3 a4 a5 a6 a7 a8 a9 a10 a11 a12 a13 a14]. constructor; cbn [midStudy midOM st_om st_tm st_shape st_grid st_lat st_tmlat st_raw st_rawTs om_names om_seglen]; auto.
    - now rewrite <- (rs_names _ _ _ _ _ _ _ _ RS).
    - exact (cf_data _ _ _ _ _ C).
    - exact (cf_ts_len _ _ _ _ _ C).
    - exact (cf_seglen _ _ _ _ _ C).
  Qed.
  Lemma mid_units : priorInUnits us (om_prior o) q -> omInUnits us o midOM.
  Proof. intros P. constructor; try reflexivity; [|exact P]. intros g s L. cbn [midOM om_pdf]. now rewrite convert_back. Qed.
  Lemma mid_first : studiesInUnits us S midStudy o midOM m vs ts.
  Proof. constructor; [exact C|exact mid_configured|reflexivity|exact (rs_fresh _ _ _ _ _ _ _ _ RS)|exact (rs_oracles _ _ _ _ _ _ _ _ RS)]. Qed.
  Notation o2 := (om_set_prior o' q).
  Notation S2 := (replacePrior S' q).
  Lemma last_configured : configured S2 o2 m' (convert us vs) ts.
  Proof.
    destruct C' as [a1 a2 a3 a4 a5 a6 a7 a8 a9 a10 a11 a12 a13 a14]. constructor; cbn [replacePrior om_set_prior st_om st_tm st_shape st_grid st_lat st_tmlat st_raw st_rawTs om_names om_seglen]; auto.
    now rewrite a1.
  Qed.
  Lemma mid_second : sameButLikelihood midStudy S2 midOM o2 m' (convert us vs) ts.
  Proof.
    constructor; [exact mid_configured|exact last_configured|exact (rs_names _ _ _ _ _ _ _ _ RS)|reflexivity|exact (rs_seglen _ _ _ _ _ _ _ _ RS)|split; reflexivity|repeat split].
  Qed.
  Lemma mid_likelihoods : priorInUnits us (om_prior o) q -> likelihoodsTimes midStudy S2 midOM o2 (convert us vs) cs.
  Proof.
    intros P. unfold likelihoodsTimes, likelihoodsInUnits in *. rewrite meshgrid_units by auto.
    assert (G : gridPoints (convert us vs) = gridPoints vs) by (unfold gridPoints; now rewrite shape_units).
    rewrite G. change (segments midStudy midOM) with (segments S o). change (segments S2 o2) with (segments S' o').
    assert (E1 : forall s, processedPdf midOM (gridPoints vs) (convert us (meshgrid vs)) s = processedPdf o (gridPoints vs) (meshgrid vs) s).
    { intros s. apply (processed_units us); [now apply mid_units|]. rewrite Hlen. unfold meshgrid. now rewrite map_length, seq_length. }
    assert (E2 : forall g s, processedPdf o2 (gridPoints vs) g s = processedPdf o' (gridPoints vs) g s) by reflexivity.
    pose proof LU as LU'. clear - LU' E1 E2. induction LU' as [|s s' c ss ss' cs0 Hc Hl _ IH]; constructor; auto. now rewrite E1, E2.
  Qed.
End Middle.

Definition resultsRescaled (us : list R) (cs : list R) (n : R) (A B : study R R) : Prop :=
  st_post B = st_post A /\ st_means B = map2 (fun u row => map (fun x => xmul (Fin u) x) row) us (st_means A) /\ st_fmtTs B = st_fmtTs A /\
  st_logEv B = xladd (F := R) (st_logEv A) (Fin (n * ln (Rprod us) + Rsum (map ln cs))).

Lemma fit_rescaled us S S' o o' m vs ts cs fo eo :
  rescaled us S S' o o' m vs ts -> Forall (fun u => 0 < u) us -> List.length us = List.length vs -> Forall equallySpaced vs ->
  likelihoodsInUnits us S S' o o' vs cs -> priorUpTo us (om_prior o) (om_prior o') -> notSummingToOne o vs -> notSummingToOne o' (convert us vs) ->
  plainChanges m -> (fo || eo = true)%bool \/ noRegime m /\ scalesWith S -> (0 < nSteps S o)%nat ->
  match fit S fo eo, fit S' fo eo with
  | Ok A, Ok B => resultsRescaled us cs (INR (resetCount m (timeOf ts o) (nSteps S o))) A B
  | Err x, Err y => x = y
  | _, _ => False
  end.
Proof.
  intros RS Hus Hlen Hv LU HP Hs Hs' Hm HB Hn.
  assert (Main : forall q, priorInUnits us (om_prior o) q ->
    match fit S fo eo, fit (replacePrior S' q) fo eo with
    | Ok A, Ok B => resultsRescaled us cs (INR (resetCount m (timeOf ts o) (nSteps S o))) A B
    | Err x, Err y => x = y
    | _, _ => False
    end).
  { intros q P. pose proof (fit_units us S (midStudy us S S' o o' q) o (midOM us o o' q) m vs ts (mid_first us S S' o o' m vs ts RS q) Hus Hlen Hv (mid_units us o o' Hus q P) Hs Hm Hn fo eo) as F1.
    pose proof (fit_factor _ _ _ _ _ _ _ cs (mid_second us S S' o o' m vs ts RS q) (mid_likelihoods us S S' o o' vs cs Hus Hlen LU q P) fo eo) as F2.
    assert (HB' : (fo || eo = true)%bool \/ noRegime (inUnits (om_names o) us m) /\ scalesWith (midStudy us S S' o o' q)).
    { destruct HB as [|[N W]]; [now left|right]. split; [now apply noRegime_units|]. unfold scalesWith in *. cbn [midStudy st_shift st_aconv st_bconv].
      destruct (rs_oracles _ _ _ _ _ _ _ _ RS) as (-> & -> & ->). exact W. }
    specialize (F2 HB').
    destruct (fit S fo eo) as [A|x]; destruct (fit (midStudy us S S' o o' q) fo eo) as [M|y]; try contradiction; destruct (fit (replacePrior S' q) fo eo) as [B|z]; try contradiction; [|congruence].
    destruct F1 as (a1 & a2 & a3 & a4 & _). destruct F2 as (b1 & b2 & b3 & b4 & _). unfold resultsRescaled. rewrite b1, b2, b3, b4, a1, a2, a3, a4.
    do 3 (split; [reflexivity|]). destruct (st_logEv A) as [v| | |]; cbn; auto. f_equal. ring. }
  pose proof (rs_new _ _ _ _ _ _ _ _ RS) as C'.
  destruct HP as [P|(f & f' & k & Ef & Ef' & Hk & Hff)].
  - specialize (Main _ P). replace (replacePrior S' (om_prior o')) with S' in Main; auto.
    unfold replacePrior. rewrite (cf_om _ _ _ _ _ C'). cbn [option_map]. rewrite (eq_refl : om_set_prior o' (om_prior o') = {| om_names := om_names o'; om_values := om_values o'; om_seglen := om_seglen o'; om_multiply := om_multiply o'; om_prior := om_prior o'; om_pdf := om_pdf o'; om_estimate := om_estimate o' |}).
    pose proof (cf_om _ _ _ _ _ C') as E. destruct S', o'. cbn in *. now rewrite E.
  - set (q := PFun (fun g => f (convert (map Rinv us) g))).
    assert (P : priorInUnits us (om_prior o) q) by (rewrite Ef; cbn; intros g L; now rewrite convert_back).
    specialize (Main q P).
    assert (Lg : List.length (meshgrid vs) = List.length us) by (rewrite Hlen; unfold meshgrid; now rewrite map_length, seq_length).
    assert (Eg : f' (convert us (meshgrid vs)) = Factors.scaledBy k (f (meshgrid vs))) by now apply Hff.
    unfold notSummingToOne in Hs, Hs'. rewrite Ef in Hs. rewrite Ef', meshgrid_units in Hs' by auto.
    pose proof (C11_scale S' o' (/ k) (om_prior o') q (f' (st_grid S')) (f (convert (map Rinv us) (st_grid S'))) fo eo (cf_om _ _ _ _ _ C') eq_refl) as F3.
    rewrite (cf_grid _ _ _ _ _ C'), meshgrid_units, convert_back in F3 by auto.
    assert (HI : 0 < / k) by now apply Rinv_0_lt_compat.
    assert (F : sameOutcome (fit S' fo eo) (fit (replacePrior S' q) fo eo)).
    { apply F3; auto.
      - rewrite Ef'. exact I.
      - rewrite Ef'. cbn. now rewrite (cf_grid _ _ _ _ _ C'), meshgrid_units.
      - cbn. now rewrite (cf_grid _ _ _ _ _ C'), meshgrid_units, convert_back.
      - unfold Data.scaledBy. rewrite Eg. unfold Factors.scaledBy. rewrite map_map. rewrite <- (map_id (f (meshgrid vs))) at 1. apply map_ext. intros x.
        change (x = sc (/ k) (sc k x)). rewrite sc_sc by auto. replace (/ k * k) with 1 by (field; lra). now rewrite sc_one.
      - rewrite (cf_shape _ _ _ _ _ C'), shape_units by auto. assert (G : (0 < natprod (map (@List.length R) vs))%nat); [|lia].
        apply natprod_pos. clear - Hv. induction Hv as [|v vs (a & h & n & _ & ->) _ IH]; constructor; auto. rewrite map_length, seq_length. lia. }
    unfold sameOutcome in F. destruct (fit S fo eo) as [A|x]; destruct (fit (replacePrior S' q) fo eo) as [B|y]; try contradiction; destruct (fit S' fo eo) as [B'|z]; try contradiction; [|congruence].
    destruct Main as (a1 & a2 & a3 & a4). unfold sameResults in F. unfold resultsRescaled. intuition congruence.
Qed.
