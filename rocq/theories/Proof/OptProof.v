(** Proofs about optimize. *)
From Coq Require Import List ZArith String Bool Arith Lia.
From Verif Require Import Base.Num Base.Exn Base.Arr Model.Helper Model.Tm Model.HyperParams Model.Study Model.Optimize
  Spec.Names Spec.OptSpec Proof.KernelProof Proof.FitInv Proof.DataProof Proof.PriorProof Proof.NamesProof.
Import ListNotations.

Section Alike.
  Context {F L : Type} `{Num F} `{LogNum F L}.

  (** everything a fit looks at, apart from the transition model *)
  Record alike (S A : study F L) : Prop := {
    al_om : st_om A = st_om S; al_marg : st_marg A = st_marg S; al_shape : st_shape A = st_shape S; al_lat : st_lat A = st_lat S;
    al_tmlat : st_tmlat A = st_tmlat S; al_grid : st_grid A = st_grid S; al_raw : st_raw A = st_raw S; al_rawTs : st_rawTs A = st_rawTs S;
    al_shift : st_shift A = st_shift S; al_aconv : st_aconv A = st_aconv S; al_bconv : st_bconv A = st_bconv S }.
  Lemma alike_refl S : alike S S.
  Proof. constructor; reflexivity. Qed.

  Definition agree (fo eo : bool) (a b : res (study F L)) : Prop :=
    match a, b with
    | Ok A, Ok B => st_logEv A = st_logEv B /\ st_local A = st_local B /\ st_fmtTs A = st_fmtTs B /\
        (eo = false -> st_post A = st_post B) /\ (eo = false -> st_logEv B <> NInf -> st_means A = st_means B)
    | Err x, Err y => x = y
    | _, _ => False
    end.
  Lemma fit_alike S A m fo eo : alike S A -> agree fo eo (fit (withModel A m) fo eo) (fit (withModel S m) fo eo).
  Proof.
    intros []. unfold fit, withModel, set_tm, checkConsistency, envOf. cbn. rewrite al_om0, al_shape0, al_lat0, al_tmlat0, al_grid0, al_raw0, al_rawTs0, al_shift0, al_aconv0, al_bconv0.
    destruct (Nat.eqb _ 0); cbn; [reflexivity|]. destruct (st_om S) as [o|]; cbn; [|reflexivity]. destruct (hasDup _); cbn; [reflexivity|].
    destruct (st_rawTs S); [|reflexivity]. destruct (computePrior _) as [[[a0 p0] al0]|]; cbn; [|reflexivity].
    destruct (fwdLoop _ _ _ _ _ _ _ _ _) as [w|]; cbn; [|reflexivity].
    destruct (fw_stop w).
    { cbn. repeat split; auto; intros; subst; congruence. }
    destruct eo; [cbn; repeat split; auto; discriminate|]. destruct fo; [cbn; repeat split; auto|].
    destruct (bwdLoop _ _ _ _ _) as [[out stop]|]; cbn; [|reflexivity]. destruct stop; cbn; repeat split; auto. congruence.
  Qed.
  Lemma fit_keeps S o fo eo A : fit S fo eo = Ok A -> st_om S = Some o -> notArray (om_prior o) ->
    alike S A /\ st_tm A = st_tm S /\ st_sel A = st_sel S.
  Proof.
    intros E Ho NA. apply fit_inv in E as (o' & m & ts & w & FP & FO).
    assert (o' = o) as ->.
    { pose proof (fp_check _ _ _ _ _ FP) as EC. unfold checkConsistency in EC. destruct (Nat.eqb _ _); [discriminate|]. rewrite Ho in EC.
      destruct (st_tm S); [|discriminate]. destruct (hasDup _); [discriminate|]. congruence. }
    assert (Ew : fw_prior w = om_prior o) by exact (fwdPart_prior _ _ _ _ _ FP NA).
    assert (Om : st_om A = Some o) by (destruct FO; cbn; rewrite Ew, om_set_same; reflexivity).
    split; [|split; destruct FO; reflexivity]. constructor; [congruence|..]; destruct FO; reflexivity.
  Qed.
End Alike.

Section Opt.
  Context {F L : Type} `{Num F} `{LogNum F L}.

  Lemma setSelected_atPoint (m : tm F) sel x : named m -> NoDup (allNames m) -> sel <> [] -> NoDup sel -> incl sel (allNames m) -> ~ In " "%string sel ->
    List.length x = List.length sel -> setSelected sel m (map HNum x) = (atPoint m sel x, None).
  Proof.
    intros W N Ne Nd I B Lx. unfold setSelected. destruct sel as [|s sel]; [congruence|]. rewrite setLoop_assign'; auto. rewrite map_length. lia.
  Qed.
  Lemma lookup_some sel (xs : list (hval F)) n : (List.length sel <= List.length xs)%nat -> In n sel -> exists v, lookup (combine sel xs) n = Some v.
  Proof.
    revert xs. induction sel as [|s sel IH]; intros [|x xs] Lx I; cbn in *; try lia; try tauto.
    destruct (String.eqb_spec s n); [eauto|]. destruct I as [I|I]; [congruence|]. apply IH; auto. lia.
  Qed.
  Lemma atPoint_again (m : tm F) sel x y : named m -> List.length x = List.length sel -> List.length y = List.length sel ->
    atPoint (atPoint m sel x) sel y = atPoint m sel y.
  Proof.
    intros W Lx Ly. unfold atPoint. rewrite assign_assign by auto. apply assign_ext. intros n _.
    destruct (in_dec string_dec n sel) as [I|I].
    - destruct (lookup_some sel (map HNum y) n) as [v ->]; auto. rewrite map_length; lia.
    - rewrite !lookup_notin by auto. reflexivity.
  Qed.

  (** the state during the optimisation: as at the start, apart from results and the selected hyper-parameters *)
  Definition during (S : study F L) (m : tm F) (sel : list string) (A : study F L) : Prop :=
    alike S A /\ st_sel A = sel /\ exists m', st_tm A = Some m' /\ (m' = m \/ exists x, List.length x = List.length sel /\ m' = atPoint m sel x).

  Lemma alike_trans S A B : alike (F := F) (L := L) S A -> alike A B -> alike S B.
  Proof. intros [] []. constructor; congruence. Qed.

  Variables (S : study F L) (o : om F) (m : tm F) (sel : list string).
  Hypotheses (Ho : st_om S = Some o) (NA : notArray (om_prior o)) (W : named m) (N : NoDup (allNames m)) (Ne : sel <> []) (Nd : NoDup sel)
    (I : incl sel (allNames m)) (B : ~ In " "%string sel).

  Lemma setPoint_ok A x : during S m sel A -> List.length x = List.length sel ->
    setPoint A x = Ok (withModel A (atPoint m sel x)).
  Proof.
    intros (Al & Es & m' & Em & Hm) Lx. unfold setPoint. rewrite Em, Es.
    assert (E : setSelected sel m' (map HNum x) = (atPoint m sel x, None)).
    { destruct Hm as [-> |(y & Ly & ->)].
      - apply setSelected_atPoint; auto.
      - rewrite setSelected_atPoint; auto.
        + now rewrite atPoint_again.
        + now apply assign_named.
        + unfold atPoint. now rewrite assign_allNames.
        + unfold atPoint. now rewrite assign_allNames. }
    now rewrite E.
  Qed.
  Lemma withModel_during A x : during S m sel A -> List.length x = List.length sel ->
    st_om (withModel A (atPoint m sel x)) = Some o /\ alike S (withModel A (atPoint m sel x)) /\ st_sel (withModel A (atPoint m sel x)) = sel /\
    st_tm (withModel A (atPoint m sel x)) = Some (atPoint m sel x).
  Proof.
    intros (Al & Es & m' & Em & Hm) Lx. destruct Al. split; [cbn; congruence|]. split; [constructor; cbn; auto|]. split; auto.
  Qed.
  Lemma withModel_twice A n n' : withModel (withModel (F := F) (L := L) A n) n' = withModel A n'.
  Proof. reflexivity. Qed.

  Lemma step_during A x fo eo R1 : during S m sel A -> List.length x = List.length sel ->
    fit (withModel A (atPoint m sel x)) fo eo = Ok R1 -> during S m sel R1.
  Proof.
    intros D Lx E. destruct (withModel_during A x D Lx) as (E1 & E2 & E3 & E4).
    destruct (fit_keeps _ o _ _ _ E E1 NA) as (K1 & K2 & K3). split; [eapply alike_trans; eauto|]. split; [congruence|].
    exists (atPoint m sel x). split; [congruence|]. right. eauto.
  Qed.

  Lemma minimize_spec p : forall A, during S m sel A -> sized (List.length sel) p ->
    match outcome (objective S m sel) p with
    | Ok x => exists A', minimize p A = Ok (A', x) /\ during S m sel A' /\ List.length x = List.length sel
    | Err e => minimize p A = Err e
    end.
  Proof.
    induction p as [x|x next IH|e]; intros A D Z; cbn [outcome minimize sized] in *.
    - exists A. auto.
    - destruct Z as [Lx Z]. unfold objective, optimizationStep. rewrite (setPoint_ok A x D Lx). cbn [bind].
      pose proof (fit_alike S A (atPoint m sel x) false true (proj1 D)) as G. unfold agree in G.
      destruct (fit (withModel A (atPoint m sel x)) false true) as [A1|e1] eqn:E1.
      + destruct (fit (withModel S (atPoint m sel x)) false true) as [A2|e2]; [|contradiction]. cbn [bind].
        destruct G as (G1 & _). rewrite G1. apply IH; auto. eapply step_during; eauto.
      + destruct (fit (withModel S (atPoint m sel x)) false true) as [A2|e2]; [contradiction|]. subst. reflexivity.
    - reflexivity.
  Qed.
End Opt.
