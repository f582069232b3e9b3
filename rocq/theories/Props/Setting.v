(** Configuring a study: C66. Modes of hyper-studies: C67. *)
From Coq Require Import List ZArith Reals Lra Lia Arith Bool String QArith Permutation.
From Verif Require Import Base.Num Base.Exn Base.Arr Base.RSum Base.Lift Model.Helper Model.Tm Model.HyperParams Model.Study Model.Api Model.Getters Model.Hyper Model.Changepoint
  Spec.Names Spec.Config Spec.HyperSpec Proof.SetupProof Proof.ParserLoad Props.Ex Spec.DefaultSpec Props.Setup Props.Evidence Props.ExR Props.HyperStudy Props.Defaults.
Import ListNotations.
Local Open Scope string_scope.

(** ** C66 *)
Section Set66.
  Context {F L : Type} `{Num F} `{LogNum F L}.
  Implicit Types (S : study F L).
  (** the setter for a model *)
  Inductive setter : anyModel F -> call F -> Prop :=
  | set_obs o : setter (MObs o) (CSetOM o)
  | set_trans m : setter (MTrans m) (CSetTM m).
  Definition isObs (a : anyModel F) : Prop := exists o, a = MObs o.
  Definition isTrans (a : anyModel F) : Prop := exists m, a = MTrans m.
  (** no two positions of the list have the property *)
  Definition atMostOnce {A} (P : A -> Prop) (l : list A) : Prop :=
    forall i j a b, nth_error l i = Some a -> nth_error l j = Some b -> P a -> P b -> i = j.

  Lemma once_cons {A} (P : A -> Prop) a l : atMostOnce P (a :: l) <-> atMostOnce P l /\ (P a -> Forall (fun b => ~ P b) l).
  Proof.
    split.
    - intros U. split.
      + intros i j x y Hi Hj Px Py. specialize (U (Datatypes.S i) (Datatypes.S j) x y Hi Hj Px Py). now injection U.
      + intros Pa. apply Forall_forall. intros b Ib Pb. apply In_nth_error in Ib. destruct Ib as [i Ei]. specialize (U 0%nat (Datatypes.S i) a b eq_refl Ei Pa Pb). discriminate.
    - intros [U Ha] [|i] [|j] x y Hi Hj Px Py; auto.
      + cbn in Hi, Hj. injection Hi as <-. specialize (Ha Px). rewrite Forall_forall in Ha. exfalso. eapply Ha; [eapply nth_error_In; eauto|auto].
      + cbn in Hi, Hj. injection Hj as <-. specialize (Ha Py). rewrite Forall_forall in Ha. exfalso. eapply Ha; [eapply nth_error_In; eauto|auto].
      + f_equal. eapply U; eauto.
  Qed.
  Lemma set_general : forall args cs S a b, Forall2 setter args cs -> atMostOnce isObs args -> atMostOnce isTrans args ->
    (a = true -> Forall (fun x => ~ isObs x) args) -> (b = true -> Forall (fun x => ~ isTrans x) args) -> setModels S args a b = runCalls S cs.
  Proof.
    induction args as [|x args IH]; intros cs S a b F2 Uo Ut Ha Hb; inversion F2 as [|? c ? cs' Hs F2']; subst; [reflexivity|].
    apply once_cons in Uo. apply once_cons in Ut. destruct Uo as [Uo Xo], Ut as [Ut Xt]. inversion Hs; subst; cbn [setModels runCalls runCall].
    - destruct a; [specialize (Ha eq_refl); inversion Ha as [|? ? N _]; subst; destruct N; now eexists|]. destruct (setOM S o) as [S'|]; [|reflexivity]. cbn [bind]. apply IH; auto.
      + intros _. apply Xo. now eexists.
      + intros E. specialize (Hb E). now inversion Hb.
    - destruct b; [specialize (Hb eq_refl); inversion Hb as [|? ? N _]; subst; destruct N; now eexists|]. destruct (setTM S m) as [S'|]; [|reflexivity]. cbn [bind]. apply IH; auto.
      + intros E. specialize (Ha E). now inversion Ha.
      + intros _. apply Xt. now eexists.
  Qed.
  (** set(...) with at most one observation model and at most one transition model does what the setters do, in the given order. *)
  Theorem C66_set : forall S args cs, Forall2 setter args cs -> atMostOnce isObs args -> atMostOnce isTrans args -> setModels S args false false = runCalls S cs.
  Proof. intros. apply set_general; auto; discriminate. Qed.

  Lemma set_inv : forall args S a b S', setModels S args a b = Ok S' ->
    (exists cs, Forall2 setter args cs) /\ atMostOnce isObs args /\ atMostOnce isTrans args /\
    (a = true -> Forall (fun x => ~ isObs x) args) /\ (b = true -> Forall (fun x => ~ isTrans x) args).
  Proof.
    assert (E0 : forall P : anyModel F -> Prop, atMostOnce P []) by (intros P [|i] j x y Hi; discriminate).
    induction args as [|x args IH]; intros S a b S' E; [split; [exists []; constructor|]; repeat split; auto|].
    destruct x as [o|m|]; cbn [setModels] in E; [| |discriminate].
    - destruct a; [discriminate|]. destruct (setOM S o) as [S1|]; [|discriminate]. cbn [bind] in E. destruct (IH _ _ _ _ E) as ((cs & Hc) & Uo & Ut & Ha & Hb).
      split; [exists (CSetOM o :: cs); constructor; [constructor|auto]|]. split; [apply once_cons; auto|]. split; [apply once_cons; split; auto; intros [m ?]; discriminate|]. split; [discriminate|].
      intros Eb. constructor; auto. intros [m ?]; discriminate.
    - destruct b; [discriminate|]. destruct (setTM S m) as [S1|]; [|discriminate]. cbn [bind] in E. destruct (IH _ _ _ _ E) as ((cs & Hc) & Uo & Ut & Ha & Hb).
      split; [exists (CSetTM m :: cs); constructor; [constructor|auto]|]. split; [apply once_cons; split; auto; intros [o ?]; discriminate|]. split; [apply once_cons; auto|]. split; [|discriminate].
      intros Ea. constructor; auto. intros [o ?]; discriminate.
  Qed.
  (** Nothing else is accepted: not two models of a kind, not other objects. The error is ConfigurationError, unless setting one of the models
      before the offending one fails. *)
  Theorem C66_set_rejects : forall S args,
    (forall S', setModels S args false false = Ok S' -> (exists cs, Forall2 setter args cs) /\ atMostOnce isObs args /\ atMostOnce isTrans args) /\
    (forall e, setModels S args false false = Err e -> e = ConfigurationError \/ exists k cs, Forall2 setter (firstn k args) cs /\ runCalls S cs = Err e).
  Proof.
    intros S args. split.
    - intros S' E. destruct (set_inv _ _ _ _ _ E) as (h1 & h2 & h3 & _). auto.
    - generalize false at 1. generalize false at 1. revert S. induction args as [|x args IH]; intros S a b e E; [discriminate|]. destruct x as [o|m|]; cbn [setModels] in E.
      + destruct b; [left; now injection E|]. destruct (setOM S o) as [S1|e'] eqn:ES; cbn [bind] in E.
        * destruct (IH _ _ _ _ E) as [|(k & cs & Hc & Er)]; auto. right. exists (Datatypes.S k), (CSetOM o :: cs). split; [cbn; constructor; auto; constructor|]. cbn [runCalls runCall]. now rewrite ES.
        * injection E as <-. right. exists 1%nat, [CSetOM o]. split; [cbn; constructor; constructor|]. cbn [runCalls runCall]. now rewrite ES.
      + destruct a; [left; now injection E|]. destruct (setTM S m) as [S1|e'] eqn:ES; cbn [bind] in E.
        * destruct (IH _ _ _ _ E) as [|(k & cs & Hc & Er)]; auto. right. exists (Datatypes.S k), (CSetTM m :: cs). split; [cbn; constructor; auto; constructor|]. cbn [runCalls runCall]. now rewrite ES.
        * injection E as <-. right. exists 1%nat, [CSetTM m]. split; [cbn; constructor; constructor|]. cbn [runCalls runCall]. now rewrite ES.
      + left. now injection E.
  Qed.

  (** Data and models can be given in any order, if the values of the parameters are given. *)
  Theorem C66_order : forall S d ts o m vs cs, om_values o = map Some vs -> isBreak m = false ->
    Permutation cs [CLoad d ts; CSetOM o; CSetTM m] -> runCalls S cs = runCalls S [CLoad d ts; CSetOM o; CSetTM m].
  Proof.
    intros S d ts o m vs cs Hv Hm HP.
    assert (PV : forall d1 d2, mapM (paramValues o d1) (combine (om_values o) (om_names o)) = mapM (paramValues o d2) (combine (om_values o) (om_names o))).
    { intros d1 d2. rewrite Hv. generalize (om_names o). clear. induction vs as [|v vs IH]; intros [|n ns]; try reflexivity. cbn [map combine mapM paramValues fst]. cbn [bind]. now rewrite (IH ns). }
    assert (C1 : forall c1 c2, In c1 [CLoad d ts; CSetOM o; CSetTM m] -> In c2 [CLoad d ts; CSetOM o; CSetTM m] -> forall S, (let* S1 := runCall S c1 in runCall S1 c2)%res = (let* S1 := runCall S c2 in runCall S1 c1)%res).
    { assert (LO : forall S, (let* S1 := runCall S (CLoad d ts) in runCall S1 (CSetOM o))%res = (let* S1 := runCall S (CSetOM o) in runCall S1 (CLoad d ts))%res).
      { intros S0. cbn [runCall bind]. unfold setOM. replace (mapM (paramValues o (st_raw (loadData S0 d ts))) (combine (om_values o) (om_names o))) with (mapM (paramValues o (st_raw S0)) (combine (om_values o) (om_names o))) by apply PV.
        destruct (mapM (paramValues o (st_raw S0)) _) as [marg|]; [|reflexivity]. cbn [bind]. destruct (mapM latticeOf marg); [|reflexivity]. cbn [bind]. unfold loadData. destruct ts; reflexivity. }
      assert (LT : forall S, (let* S1 := runCall S (CLoad d ts) in runCall S1 (CSetTM m))%res = (let* S1 := runCall S (CSetTM m) in runCall S1 (CLoad d ts))%res).
      { intros S0. cbn [runCall bind]. unfold setTM. rewrite Hm. cbn [bind]. unfold loadData. destruct ts; reflexivity. }
      assert (OT : forall S, (let* S1 := runCall S (CSetOM o) in runCall S1 (CSetTM m))%res = (let* S1 := runCall S (CSetTM m) in runCall S1 (CSetOM o))%res).
      { intros S0. cbn [runCall bind]. unfold setTM. rewrite Hm. cbn [bind]. unfold setOM. change (st_raw (set_tm S0 m (st_lat S0))) with (st_raw S0). destruct (mapM _ _) as [marg|]; [|reflexivity]. cbn [bind]. destruct (mapM latticeOf marg); [|reflexivity]. reflexivity. }
      intros c1 c2 [<-|[<-|[<-|[]]]] [<-|[<-|[<-|[]]]] S0; auto. }
    assert (P : forall l l', Permutation l l' -> incl l [CLoad d ts; CSetOM o; CSetTM m] -> forall S, runCalls S l = runCalls S l').
    { clear - C1. induction 1 as [|c l l' HP IH|c c' l|l l' l'' H1 IH1 H2 IH2]; intros I S.
      - reflexivity.
      - cbn [runCalls]. destruct (runCall S c); [|reflexivity]. cbn [bind]. apply IH. intros x Hx. apply I. now right.
      - cbn [runCalls]. pose proof (C1 c' c (I _ (or_introl eq_refl)) (I _ (or_intror (or_introl eq_refl))) S) as C.
        destruct (runCall S c') as [A|] eqn:E1; destruct (runCall S c) as [B|] eqn:E2; cbn [bind] in C |- *.
        + now rewrite C.
        + now rewrite C.
        + now rewrite <- C.
        + exact C.
      - rewrite IH1 by auto. apply IH2. intros x Hx. apply I. eapply Permutation_in; [|exact Hx]. now apply Permutation_sym. }
    apply P; auto. intros x Hx. eapply Permutation_in; eauto.
  Qed.
  (** The data and the model given last count. *)
  Theorem C66_last : forall S S1,
    (forall o o', setOM S o = Ok S1 -> setOM S1 o' = setOM S o') /\ (forall m m', setTM S m = Ok S1 -> setTM S1 m' = setTM S m') /\
    (forall d ts d' ts', match ts' with Some l => List.length l = rawLen d' | None => True end -> loadData S d ts = S1 -> loadData S1 d' ts' = loadData S d' ts').
  Proof.
    intros S S1. split; [|split].
    - intros o o' E. unfold setOM in *. destruct (mapM _ _) as [marg|] in E; [|discriminate]. cbn [bind] in E. destruct (mapM latticeOf marg); [|discriminate]. cbn [bind] in E. injection E as <-. cbn [st_raw].
      destruct (mapM _ _) as [marg'|]; [|reflexivity]. cbn [bind]. destruct (mapM latticeOf marg'); [|reflexivity]. cbn [bind st_tm]. destruct (st_tm S); reflexivity.
    - intros m m' E. unfold setTM in *. destruct (isBreak m); [discriminate|]. injection E as <-. reflexivity.
    - intros d ts d' [l|] El <-; unfold loadData; [rewrite El, Nat.eqb_refl|]; destruct ts; reflexivity.
  Qed.
  (** [fit] needs data, an observation model, a transition model and unique names of hyper-parameters. *)
  Theorem C66_refused : forall S fo eo, rawLen (st_raw S) = 0%nat \/ st_om S = None \/ st_tm S = None \/ (exists m, st_tm S = Some m /\ ~ NoDup (allNames m)) ->
    fit S fo eo = Err ConfigurationError.
  Proof.
    intros S fo eo Hx. unfold fit, checkConsistency. destruct (Nat.eqb _ 0) eqn:E0; [reflexivity|]. apply Nat.eqb_neq in E0. destruct (st_om S) as [o|] eqn:Eo; [|reflexivity]. destruct (st_tm S) as [m|] eqn:Em; [|reflexivity].
    destruct Hx as [Hx|[Hx|[Hx|(m' & Hx & N)]]]; try easy. injection Hx as <-. replace (hasDup (allNames m)) with true; [reflexivity|]. symmetry. destruct (hasDup _) eqn:E; auto. exfalso. apply N. now apply hasDup_inv.
  Qed.
  Theorem C66_needed : forall S fo eo S', fit S fo eo = Ok S' ->
    (0 < rawLen (st_raw S))%nat /\ st_rawTs S <> None /\ st_om S <> None /\ exists m, st_tm S = Some m /\ NoDup (allNames m).
  Proof.
    intros S fo eo S' E. unfold fit, checkConsistency in E. destruct (Nat.eqb _ 0) eqn:E0; [discriminate|]. apply Nat.eqb_neq in E0. destruct (st_om S) as [o|]; [|discriminate]. destruct (st_tm S) as [m|]; [|discriminate].
    destruct (hasDup _) eqn:Ed; [discriminate|]. cbn [bind] in E. destruct (st_rawTs S); [|discriminate]. split; [lia|]. split; [discriminate|]. split; [discriminate|]. exists m. split; auto. now apply hasDup_inv.
  Qed.
End Set66.

(** ** C67 *)
Section Modes.
  Context {F L : Type} `{Num F} `{LogNum F L}.
  Lemma fit_keeps (S S' : study F L) fo : fit S fo true = Ok S' -> st_post S' = st_post S.
  Proof. intros E. pose proof (C05_evidence_only S fo) as C. rewrite E in C. destruct (fit S true false); [|easy]. apply C. Qed.
  Lemma loop_keeps fo : forall items (S : study F L) avg S' evs locs avg', hyperLoop fo true items S avg = Ok (S', evs, locs, avg') -> st_post S' = st_post S.
  Proof.
    induction items as [|[row pv] items IH]; intros S avg S' evs locs avg' E; cbn [hyperLoop] in E; [now injection E as <- _ _ _|].
    destruct (st_tm S) as [m|]; [|discriminate]. destruct (setSelected _ _ _) as [m' [e|]]; [discriminate|]. destruct (fit _ fo true) as [S1|] eqn:E1; [|discriminate]. cbn [bind negb andb] in E.
    destruct (hyperLoop fo true items S1 avg) as [[[[S3 evs'] locs'] avg2]|] eqn:E2; [|discriminate]. cbn [bind] in E. injection E as <- _ _ _. rewrite (IH _ _ _ _ _ _ E2). now apply fit_keeps in E1.
  Qed.
  Lemma grid_keeps (H1 H2 : hyper F L) fo j : hyperFitGrid H1 fo true j = Ok H2 -> st_post (hy_S H2) = st_post (hy_S H1).
  Proof.
    intros E. unfold hyperFitGrid in E. destruct (checkConsistency _); [|discriminate]. cbn [bind] in E. destruct (Nat.ltb 1 _).
    - destruct (runAnalyses _ _ _ _ _ _ _) as [[[[S1 evs] locs] avg]|] eqn:ER; [|discriminate]. cbn [bind] in E. destruct (st_tm S1) as [m1|]; [|discriminate]. destruct (setAll m1 _) as [m2 [e|]]; [discriminate|]. injection E as <-. cbn [hy_S set_average st_post].
      unfold runAnalyses in ER. destruct (Nat.ltb 1 j).
      + destruct (mapM _ _); [|discriminate]. cbn [bind] in ER. destruct (merge _ _) as [[? ?] ?]. now injection ER as <- _ _ _.
      + eapply loop_keeps; eauto.
    - destruct (fit _ fo true) as [S1|] eqn:E1; [|discriminate]. cbn [bind] in E. injection E as <-. now apply fit_keeps in E1.
  Qed.
  (** With evidenceOnly a hyper-study and a change-point study leave the posterior sequence as it was. *)
  Theorem C67_keeps : forall fo j,
    (forall H1 H2 : hyper F L, hyperFit H1 fo true j = Ok H2 -> st_post (hy_S H2) = st_post (hy_S H1)) /\
    (forall C1 C2 : cpstudy F L, changepointFit C1 fo true j = Ok C2 -> st_post (hy_S (cp_H C2)) = st_post (hy_S (cp_H C1))).
  Proof.
    intros fo j. assert (Fm : forall S S' : study F L, formatStudy S = Ok S' -> st_post S' = st_post S).
    { intros S S' E. unfold formatStudy in E. destruct (st_om S); [|discriminate]. destruct (st_rawTs S); [|discriminate]. now injection E as <-. }
    assert (Wg : forall A B : hyper F L, withHyperGrid A = Ok B -> st_post (hy_S B) = st_post (hy_S A)).
    { intros A B E. unfold withHyperGrid in E. destruct (st_tm _); [|now injection E as <-]. destruct (createHyperGrid _ _) as [[[[[? ?] ?] ?] ?]|]; [|discriminate]. cbn [bind] in E. now injection E as <-. }
    split.
    - intros H1 H2 E. unfold hyperFit in E. destruct (formatStudy _) as [S1|] eqn:E1; [|discriminate]. cbn [bind] in E. destruct (withHyperGrid _) as [H3|] eqn:E3; [|discriminate]. cbn [bind] in E.
      destruct (st_tm _); [|discriminate]. destruct (pointClash _ _) as [b|]; [|discriminate]. cbn [bind] in E. destruct b; [discriminate|]. rewrite (grid_keeps _ _ _ _ E), (Wg _ _ E3). cbn [with_study hy_S]. now apply Fm.
    - intros C1 C2 E. unfold changepointFit in E. destruct (formatStudy _) as [S1|] eqn:E1; [|discriminate]. cbn [bind] in E. destruct (st_tm S1) as [m|]; [|discriminate]. destruct (Nat.ltb 1 _); [discriminate|].
      assert (G : forall pts, (let* H1 := withHyperGrid (with_study (cp_H C1) S1) in
              let mask := orderMask (hy_names H1) pts (hy_grid H1) in
              let pv := pick mask (hy_pv H1) in
              let pv' := amuls pv (xdiv (asum (hy_pv H1)) (asum pv)) in
              let* H2 := hyperFitGrid (with_grid H1 (pick mask (hy_grid H1)) pv') fo true j in
              let* d := spreadDist mask (hy_dist H2) in
              let H3 := with_dist (with_grid H2 (hy_grid H2) (spread mask (hy_pv H2))) (Some d) in
              Ok {| cp_H := H3; cp_all := hy_grid H1; cp_allPv := hy_pv H1; cp_mask := mask |})%res = Ok C2 -> st_post (hy_S (cp_H C2)) = st_post (hy_S (cp_H C1))).
      { intros pts E'. destruct (withHyperGrid _) as [H3|] eqn:E3; [|discriminate]. cbn [bind] in E'. destruct (hyperFitGrid _ fo true j) as [H4|] eqn:E4; [|discriminate]. cbn [bind] in E'. destruct (spreadDist _ _); [|discriminate]. cbn [bind] in E'. injection E' as <-.
        cbn [cp_H with_dist with_grid hy_S]. apply grid_keeps in E4. rewrite E4. cbn [with_grid hy_S]. rewrite (Wg _ _ E3). cbn [with_study hy_S]. now apply Fm. }
      destruct (changepointNames m), (breakpointNames m); try discriminate; eapply G; exact E.
  Qed.
End Modes.

(** the analysis in the given mode is proper; the backward pass of a full fit was not stopped *)
Definition properMode (H : hyper R R) o m (fo eo : bool) (row : list R) : Prop :=
  forall A, single H m fo eo row A -> proper eo (stepsH H o) (pointsH H) A /\ ((fo || eo)%bool = false -> st_logEv A <> NInf).

Lemma single_agree (H : hyper R R) o m fo1 eo1 fo2 eo2 row A B :
  single H m fo1 eo1 row A -> single H m fo2 eo2 row B -> properMode H o m fo1 eo1 row -> properMode H o m fo2 eo2 row ->
  st_logEv A = st_logEv B /\ ((fo1 || eo1)%bool = true -> (fo2 || eo2)%bool = true -> st_local A = st_local B).
Proof.
  intros E1 E2 P1 P2. destruct (P1 A E1) as [_ n1]. destruct (P2 B E2) as [_ n2]. unfold single in *. set (S := set_tm _ _ _) in *. clearbody S.
  assert (G : forall fo eo X, fit S fo eo = Ok X -> ((fo || eo)%bool = false -> st_logEv X <> NInf) ->
    (exists Y, fit S true false = Ok Y /\ st_logEv X = st_logEv Y /\ ((fo || eo)%bool = true -> st_local X = st_local Y)) \/
    fit S true false = fit S fo eo).
  { intros fo eo X E n. destruct eo.
    - pose proof (C05_evidence_only S fo) as C. rewrite E in C. destruct (fit S true false) as [Y|] eqn:EY; [|easy]. left. exists Y. split; auto. split; [apply C|intros _; apply C].
    - destruct fo; [now right|]. pose proof (C05_full_fit S) as C. rewrite E in C. destruct (fit S true false) as [Y|] eqn:EY; [|easy]. left. exists Y. split; auto.
      destruct C as [[_ C]|[_ C]]; [split; auto; discriminate|]. exfalso. exact (n eq_refl C). }
  assert (G' : forall fo eo X, fit S fo eo = Ok X -> ((fo || eo)%bool = false -> st_logEv X <> NInf) ->
    exists Y, fit S true false = Ok Y /\ st_logEv X = st_logEv Y /\ ((fo || eo)%bool = true -> st_local X = st_local Y)).
  { intros fo eo X E n. destruct (G fo eo X E n) as [K|K]; auto. exists X. rewrite K. auto. }
  destruct (G' _ _ _ E1 n1) as (Y & e & a1 & a2). destruct (G' _ _ _ E2 n2) as (Y' & e' & b1 & b2). rewrite e in e'. injection e' as <-.
  split; [congruence|]. intros u v. rewrite (a2 u), (b2 v). reflexivity.
Qed.

(** The hyper-parameter distribution and all evidences are the same in all modes (full, forward-only, evidence-only), whatever the
    number of jobs; the local evidence is the same for forward-only and evidence-only. *)
Theorem C67_modes : forall (H : hyper R R) o m ts fo1 eo1 j1 H1 fo2 eo2 j2 H2 pv,
  hyperReady H o m ts -> hyperFit H fo1 eo1 j1 = Ok H1 -> hyperFit H fo2 eo2 j2 = Ok H2 -> (1 < List.length (hy_grid H1))%nat ->
  hy_pv H1 = map Fin pv -> Forall (fun p => (0 <= p)%R) pv ->
  Forall (properMode H o m fo1 eo1) (hy_grid H1) -> Forall (properMode H o m fo2 eo2) (hy_grid H1) ->
  hy_grid H2 = hy_grid H1 /\ hy_pv H2 = hy_pv H1 /\ hy_const H2 = hy_const H1 /\ hy_names H2 = hy_names H1 /\
  hy_logEvs H2 = hy_logEvs H1 /\ hy_dist H2 = hy_dist H1 /\ st_logEv (hy_S H2) = st_logEv (hy_S H1) /\
  ((fo1 || eo1)%bool = true -> (fo2 || eo2)%bool = true -> st_local (hy_S H2) = st_local (hy_S H1)).
Proof.
  intros H o m ts fo1 eo1 j1 H1 fo2 eo2 j2 H2 pv HR E1 E2 Hm Epv Hpv P1 P2.
  destruct (fit_grid_inv _ _ _ _ _ _ _ _ HR E1) as (m1 & g1 & nm1 & _). destruct (fit_grid_inv _ _ _ _ _ _ _ _ HR E2) as (m2 & g2 & nm2 & _).
  rewrite g1 in g2. injection g2 as ev eg ec ep em.
  destruct (C28_analyses H o m ts fo1 eo1 j1 H1 pv HR E1 Hm Epv Hpv) as (r1 & F1 & _).
  assert (Epv2 : hy_pv H2 = map Fin pv) by congruence.
  assert (Hm2 : (1 < List.length (hy_grid H2))%nat) by (rewrite <- eg; auto).
  destruct (C28_analyses H o m ts fo2 eo2 j2 H2 pv HR E2 Hm2 Epv2 Hpv) as (r2 & F2 & _).
  assert (G : Forall (proper eo1 (stepsH H o) (pointsH H)) r1 /\ Forall (proper eo2 (stepsH H o) (pointsH H)) r2 /\ map st_logEv r2 = map st_logEv r1 /\
    ((fo1 || eo1)%bool = true -> (fo2 || eo2)%bool = true -> map st_local r2 = map st_local r1)).
  { rewrite <- eg in F2. clear - F1 F2 P1 P2. revert r2 F2. induction F1 as [|row A rows r1 s1 F1 IH]; intros r2 F2; inversion F2 as [|? B ? r2' s2 F2']; subst; [repeat split; constructor|].
    inversion P1 as [|? ? p1 P1']; inversion P2 as [|? ? p2 P2']; subst. destruct (IH P1' P2' r2' F2') as (u1 & u2 & u3 & u4). destruct (single_agree _ _ _ _ _ _ _ _ _ _ s1 s2 p1 p2) as [v1 v2].
    split; [constructor; auto; apply (p1 A s1)|]. split; [constructor; auto; apply (p2 B s2)|]. cbn [map]. split; [congruence|]. intros x y. rewrite (u4 x y), (v2 x y). reflexivity. }
  destruct G as (q1 & q2 & q3 & q4).
  destruct (fit_known H o m ts fo1 eo1 j1 H1 pv r1 HR E1 Hm Epv Hpv F1 q1) as (_ & a1 & a2 & a3 & a4 & _).
  destruct (fit_known H o m ts fo2 eo2 j2 H2 pv r2 HR E2 Hm2 Epv2 Hpv F2 q2) as (_ & b1 & b2 & b3 & b4 & _).
  do 4 (split; [congruence|]). split; [congruence|]. split; [rewrite a2, b2, q3, ec; reflexivity|]. split; [rewrite a3, b3, q3, ec; reflexivity|].
  intros x y. rewrite a4, b4, (q4 x y). reflexivity.
Qed.

(** ** Examples *)
Lemma meshgrid1 (u : list R) : meshgrid [u] = [u].
Proof. unfold meshgrid. cbn [List.length seq map]. f_equal. induction u as [|a u IH]; [reflexivity|]. cbn in *. now rewrite IH. Qed.
(** The data are still to come when the values are estimated: the order of the calls matters if no values are given. *)
Theorem C66_estimate_refuted : exists d1 d2 (o : om R) (m : tm R) (A B : study R R),
  runCalls fresh [CLoad d1 None; CSetTM m; CSetOM o; CLoad d2 None] = Ok A /\
  runCalls fresh [CLoad d1 None; CLoad d2 None; CSetTM m; CSetOM o] = Ok B /\
  st_raw A = st_raw B /\ st_om A = st_om B /\ st_tm A = st_tm B /\ st_grid A <> st_grid B.
Proof.
  set (o := omOf (Poisson "rate" None)). set (m := Ex.static : tm R).
  assert (Inf : forall k, (0 < k)%Z -> informative (Poisson "rate" None) (data [k])).
  { intros k Hk. exists (IZR k). split; [left; reflexivity|]. now apply IZR_lt. }
  destruct (C57_defaults (data [1%Z]) (Poisson "rate" None) m (Inf 1%Z ltac:(lia)) eq_refl ltac:(constructor) ltac:(cbn; lia)) as (A & va & EA & RA & DA & _ & CA).
  destruct (C57_defaults (data [2%Z]) (Poisson "rate" None) m (Inf 2%Z ltac:(lia)) eq_refl ltac:(constructor) ltac:(cbn; lia)) as (B & vb & EB & RB & DB & _ & CB).
  exists (data [1%Z]), (data [2%Z]), o, m, (loadData A (data [2%Z]) None), B.
  assert (App : forall (S : study R R) l1 l2, runCalls S (l1 ++ l2) = (let* S1 := runCalls S l1 in runCalls S1 l2)%res).
  { intros S l1 l2. revert S. induction l1 as [|c l1 IH]; intros S; [reflexivity|]. cbn [app runCalls]. destruct (runCall S c); [|reflexivity]. cbn [bind]. apply IH. }
  split; [|split].
  - change [CLoad (data [1%Z]) None; CSetTM m; CSetOM o; CLoad (data [2%Z]) None] with ([CLoad (data [1%Z]) None; CSetTM m; CSetOM o] ++ [CLoad (data [2%Z]) None])%list.
    rewrite App. unfold setup in EA. fold o in EA. rewrite EA. reflexivity.
  - unfold setup in EB. fold o in EB. rewrite <- EB. reflexivity.
  - split; [now rewrite RB|]. split; [cbn [loadData st_om]; rewrite (cf_om _ _ _ _ _ CB); exact (cf_om _ _ _ _ _ CA)|]. split; [rewrite (cf_tm _ _ _ _ _ CB); exact (cf_tm _ _ _ _ _ CA)|].
    change (st_grid (loadData A (data [2%Z]) None)) with (st_grid A). rewrite (cf_grid _ _ _ _ _ CA), (cf_grid _ _ _ _ _ CB).
    destruct DA as (v & M & -> & [I1 _] & [L1 G1]). destruct DB as (w & N & -> & [I2 _] & [L2 G2]).
    rewrite !meshgrid1. intros E. injection E as <-. specialize (G1 0%nat ltac:(lia)). specialize (G2 0%nat ltac:(lia)). rewrite G1 in G2.
    destruct I1 as [I1|[]]. destruct I2 as [I2|[]]. subst M N.
    change (fofZ 1) with 1%R in G2. change (fofZ 2) with 2%R in G2. change (INR 0) with 0%R in G2. pose proof (pos_INR 1000) as P. set (k := INR 1000) in *. clearbody k.
    assert (K : (0 < / (k + 1))%R) by (apply Rinv_0_lt_compat; lra). unfold Rdiv in G2. lra.
Qed.

(** set with the models in either order; two observation models, or something else, are refused. *)
Example C66_set_ex :
  (let* A := setModels (L := Q) (loadData fresh (data [1; 1; 0]%Z) None) [MTrans (change "c" 1%Q); MObs (coinOM quarters PNone)] false false in
   let* B := setup (L := Q) (data [1; 1; 0]%Z) None (coinOM quarters PNone) (change "c" 1%Q) in
   let* A' := fit A true false in let* B' := fit B true false in Ok (st_logEv A', st_logEv B'))%res = Ok (Fin (7 # 192)%Q, Fin (7 # 192)%Q) /\
  setModels (L := Q) fresh [MObs (coinOM quarters PNone); MTrans Ex.static; MObs (coinOM quarters PNone)] false false = Err ConfigurationError /\
  setModels (L := Q) fresh [MObs (coinOM quarters PNone); MOther] false false = Err ConfigurationError /\
  atMostOnce isObs [MTrans (change "c" 1%Q); MObs (coinOM quarters PNone)] /\ ~ atMostOnce isTrans [MTrans (Ex.static : tm Q); MTrans indep].
Proof.
  split; [vm_compute; reflexivity|]. split; [reflexivity|]. split; [reflexivity|]. split.
  - intros [|[|i]] [|[|j]] a b Ea Eb [o1 Pa] [o2 Pb]; cbn in Ea, Eb; try reflexivity; try (injection Ea as <-; discriminate); try (injection Eb as <-; discriminate); try (destruct i; discriminate); destruct j; discriminate.
  - intros U. specialize (U 0%nat 1%nat _ _ eq_refl eq_refl (ex_intro _ _ eq_refl) (ex_intro _ _ eq_refl)). discriminate.
Qed.
(** Without one of the three parts, and after the last of them is given. *)
Example C66_needed_ex :
  fit (fresh : study Q Q) false false = Err ConfigurationError /\
  (let* A := runCalls (L := Q) fresh [CSetOM (coinOM quarters PNone); CLoad (data [1; 1; 0]%Z) None] in fit A false false)%res = Err ConfigurationError /\
  (let* A := runCalls (L := Q) fresh [CSetOM (coinOM quarters PNone); CLoad (data [1; 1; 0]%Z) None; CSetTM Ex.static] in let* A' := fit A true false in Ok (st_logEv A'))%res
    = (let* A := runCalls (L := Q) fresh [CSetTM indep; CSetTM Ex.static; CLoad (data [0]%Z) None; CLoad (data [1; 1; 0]%Z) None; CSetOM (coinOM quarters PNone)] in let* A' := fit A true false in Ok (st_logEv A'))%res.
Proof. repeat split; vm_compute; reflexivity. Qed.

(** The coin study with two hyper-parameters (see C28_ex) meets the hypotheses of C67_modes in all modes. *)
Lemma Forall2_in_l {A B} (P : A -> B -> Prop) l r a : Forall2 P l r -> In a l -> exists b, In b r /\ P a b.
Proof. induction 1 as [|x y l r Hxy F2 IH]; intros []; [subst; exists y; split; [now left|auto]|]. destruct IH as (b & Ib & Pb); auto. exists b. split; [now right|auto]. Qed.
Example C67_modes_ex (ds : list Z) fo1 eo1 j1 fo2 eo2 j2 : bits ds -> (3 <= List.length ds)%nat ->
  exists (S : study R R) H1 H2 pv, setup (data ds) None (coin PNone) walkOrChange = Ok S /\ hyperReady (newHyper S) (coin PNone) walkOrChange (times ds) /\
    hyperFit (newHyper S) fo1 eo1 j1 = Ok H1 /\ hyperFit (newHyper S) fo2 eo2 j2 = Ok H2 /\ (1 < List.length (hy_grid H1))%nat /\
    hy_pv H1 = map Fin pv /\ Forall (fun p => (0 <= p)%R) pv /\
    Forall (properMode (newHyper S) (coin PNone) walkOrChange fo1 eo1) (hy_grid H1) /\ Forall (properMode (newHyper S) (coin PNone) walkOrChange fo2 eo2) (hy_grid H1).
Proof.
  intros Hb Hd.
  destruct (walkOrChange_fit ds fo1 eo1 j1 Hb Hd) as (S & H1 & r1 & pv & a1 & a2 & _ & _ & _ & a3 & _ & a4 & a5 & a6 & _ & a7 & a8 & _ & _ & _ & a9).
  destruct (walkOrChange_fit ds fo2 eo2 j2 Hb Hd) as (S' & H2 & r2 & pv' & b1 & b2 & _ & _ & _ & b3 & _ & b4 & b5 & b6 & _ & b7 & b8 & _ & _ & _ & b9).
  rewrite a1 in b1. injection b1 as <-. exists S, H1, H2, pv. repeat (split; [assumption|]).
  assert (G : forall fo eo runs rows, Forall2 (single (newHyper S) walkOrChange fo eo) rows runs -> Forall (proper eo (stepsH (newHyper S) (coin PNone)) (pointsH (newHyper S))) runs ->
    Forall (fun A => (0 < evidenceOf A)%R) runs -> Forall (properMode (newHyper S) (coin PNone) walkOrChange fo eo) rows).
  { intros fo eo runs rows F2 P E. apply Forall_forall. intros row I A SA. destruct (Forall2_in_l _ _ _ _ F2 I) as (B & IB & SB). unfold single in SA, SB. rewrite SA in SB. injection SB as <-.
    rewrite Forall_forall in P, E. split; [now apply P|]. intros _ Z. specialize (E _ IB). unfold evidenceOf in E. rewrite Z in E. lra. }
  destruct (fit_grid_inv _ _ _ _ _ _ _ _ a2 a3) as (m1 & g1 & _). destruct (fit_grid_inv _ _ _ _ _ _ _ _ b2 b3) as (m2 & g2 & _). rewrite g1 in g2. injection g2 as _ eg _ _ _. 
  split; [exact (G _ _ _ _ a7 a8 a9)|]. rewrite eg. exact (G _ _ _ _ b7 b8 b9).
Qed.
(** Executed: full, forward-only and evidence-only; the last keeps the posteriors of the first. *)
Example C67_run :
  (let* S0 := setup (L := Q) (data [1; 1; 0; 0]%Z) None (coinOM quarters PNone) (anyTime HPNone) in
   let* A := hyperFit (newHyper S0) false false 1 in
   let* B := hyperFit (newHyper S0) true false 2 in
   let* C := hyperFit A false true 1 in
   Ok (hy_dist A, st_logEv (hy_S A), hy_dist B, st_logEv (hy_S B), hy_dist C, st_logEv (hy_S C), nth 3 (st_post (hy_S A)) None, nth 3 (st_post (hy_S C)) None))%res =
  Ok (Some [Fin (30 # 109); Fin (49 # 109); Fin (30 # 109)], Fin (109 # 6912), Some [Fin (30 # 109); Fin (49 # 109); Fin (30 # 109)], Fin (109 # 6912),
      Some [Fin (30 # 109); Fin (49 # 109); Fin (30 # 109)], Fin (109 # 6912), Some [Fin (60 # 109); Fin (36 # 109); Fin (13 # 109)], Some [Fin (60 # 109); Fin (36 # 109); Fin (13 # 109)])%Q.
Proof. vm_compute. reflexivity. Qed.
