(** Exchangeable transition models: C70. *)
From Coq Require Import List ZArith QArith Reals Lra Lia Arith Bool String.
From Verif Require Import Base.Num Base.Exn Base.Arr Base.RSum Base.Lift Model.Helper Model.Tm Model.HyperParams Model.Study Model.Api
  Model.Getters Model.Hyper Spec.Config Spec.Dist Spec.Names Spec.HyperSpec Spec.Equiv
  Proof.KernelProof Proof.Good Proof.FitThms Proof.SetupProof Proof.InferProof Proof.NamesProof Proof.GridProof Proof.DataProof Proof.HyperProof Proof.HyperFit Proof.ClashProof Proof.EquivProof Proof.SplitProof
  Props.Ex Props.ExR Props.Inference Props.HyperStudy Props.Setting.
Import ListNotations.
Local Open Scope R_scope.

(** ** C70 *)
(** Transition models that are exchangeable by the rules of Spec/Equiv.v give the same results in every study whose prior is not an array,
    in every mode of fit. *)
Theorem C70_exchange : forall (S : study R R) o m m' vs rts fo eo, configured S o m vs rts -> NoDup (allNames m') ->
  match om_prior o with PArr _ _ => False | _ => True end ->
  equiv (om_names o) (transitionTime (formatTimestamps rts (om_seglen o))) m m' ->
  match fit S fo eo, fit (set_tm S m' (st_tmlat S)) fo eo with
  | Ok A, Ok B => st_logEv A = st_logEv B /\ st_post A = st_post B /\ st_local A = st_local B /\ st_means A = st_means B /\ st_fmtTs A = st_fmtTs B
  | Err x, Err y => x = y
  | _, _ => False
  end.
Proof. exact fit_equiv. Qed.

Lemma grid_same m m' ts v1 g1 c1 p1 q1 v2 g2 c2 p2 q2 : named m -> named m' -> Forall plain (map snd (assocs m)) -> onePriorEach m -> onePriorEach m' ->
  map snd (assocs m') = map snd (assocs m) -> map snd (priorPairs m') = map snd (priorPairs m) -> allNames m <> [] ->
  createHyperGrid (F := R) m ts = Ok (v1, g1, c1, p1, q1) -> createHyperGrid m' ts = Ok (v2, g2, c2, p2, q2) ->
  v2 = v1 /\ g2 = g1 /\ c2 = c1 /\ p2 = p1.
Proof.
  intros N1 N2 PL O1 O2 Ea Ep Hn E1 E2. assert (PL2 : Forall plain (map snd (assocs m'))) by now rewrite Ea. destruct (priorPairs_spec m O1) as [_ P1]. destruct (priorPairs_spec m' O2) as [_ P2].
  assert (Hn2 : allNames m' <> []).
  { intros E0. apply Hn. rewrite <- assocs_names in * by auto. apply (f_equal (@List.length _)) in E0. apply (f_equal (@List.length _)) in Ea. rewrite !map_length in *. cbn in E0. destruct (assocs m); auto. cbn in Ea. lia. }
  destruct (allNames m) as [|n ns] eqn:En; [congruence|]. destruct (allNames m') as [|n' ns'] eqn:En'; [congruence|].
  rewrite (createHyperGrid_eq _ _ _ _ En) in E1. rewrite (createHyperGrid_eq _ _ _ _ En') in E2. cbv zeta in E1, E2.
  rewrite !assocs_values in E1 by auto. rewrite !assocs_values in E2 by auto. rewrite P1 in E1. rewrite P2, Ep, Ea in E2.
  destruct (mapM pointsOf _) as [pts|]; [|discriminate]. cbn [bind] in *. destruct (_ && _) in E1; [|discriminate]. destruct (_ && _) in E2; [|discriminate].
  destruct (priorsOf _); [|discriminate]. cbn [bind] in *. inversion E1; inversion E2; subst. auto.
Qed.

(** The same for hyper-studies: if the models have the same hyper-parameter values and hyper-priors, and are exchangeable for every
    combination of values, the hyper-studies give the same results. *)
Theorem C70_hyper : forall (H H2 : hyper R R) o m m' vs rts fo eo j j2 H' H2' pv runs,
  let ts := formatTimestamps rts (om_seglen o) in
  configured (hy_S H) o m vs rts -> hyperReady H o m ts -> hyperReady H2 o m' ts -> onePriorEach m -> onePriorEach m' ->
  hy_S H2 = set_tm (hy_S H) m' (st_tmlat (hy_S H)) ->
  map snd (assocs m') = map snd (assocs m) -> map snd (priorPairs m') = map snd (priorPairs m) ->
  hyperFit H fo eo j = Ok H' -> hyperFit H2 fo eo j2 = Ok H2' -> (1 < List.length (hy_grid H'))%nat ->
  hy_pv H' = map Fin pv -> Forall (fun p => 0 <= p) pv ->
  Forall2 (single H m fo eo) (hy_grid H') runs -> Forall (proper eo (stepsH H o) (pointsH H)) runs ->
  (forall row, In row (hy_grid H') -> equiv (om_names o) (transitionTime ts) (withValues m row) (withValues m' row)) ->
  hy_grid H2' = hy_grid H' /\ hy_pv H2' = hy_pv H' /\ hy_const H2' = hy_const H' /\
  hy_logEvs H2' = hy_logEvs H' /\ hy_dist H2' = hy_dist H' /\ st_logEv (hy_S H2') = st_logEv (hy_S H') /\ st_local (hy_S H2') = st_local (hy_S H') /\
  (eo = false -> st_post (hy_S H2') = st_post (hy_S H') /\ st_means (hy_S H2') = st_means (hy_S H')).
Proof.
  intros H H2 o m m' vs rts fo eo j j2 H' H2' pv runs ts C HR HR2 O1 O2 ES Ea Ep E1 E2 Hm Epv Hpv HF HP Heq.
  destruct (hr_names _ _ _ _ HR) as (n1 & n2 & n3 & n4). destruct (hr_names _ _ _ _ HR2) as (p1 & p2 & p3 & p4).
  destruct (fit_grid_inv _ _ _ _ _ _ _ _ HR E1) as (m1 & g1 & _). destruct (fit_grid_inv _ _ _ _ _ _ _ _ HR2 E2) as (m2 & g2 & _).
  assert (Hn : allNames m <> []).
  { intros E0. unfold createHyperGrid in g1. rewrite E0 in g1. destruct (mapM _ _); [|discriminate]. cbn in g1. inversion g1 as [[e1 e2 e3 e4 e5]]. rewrite <- e2 in Hm. cbn in Hm. lia. }
  destruct (grid_same _ _ _ _ _ _ _ _ _ _ _ _ _ n1 p1 n4 O1 O2 Ea Ep Hn g1 g2) as (q1 & q2 & q3 & q4).
  assert (SG : forall row A, In row (hy_grid H') -> single H m fo eo row A -> exists B, single H2 m' fo eo row B /\ agree eo A B).
  { intros row A Ir EA. unfold single in *.
    assert (C' : configured (set_tm (hy_S H) (withValues m row) (st_tmlat (hy_S H))) o (withValues m row) vs rts).
    { rewrite (cf_tmlat _ _ _ _ _ C). apply (configured_tm _ _ m); auto. unfold withValues. rewrite assign_allNames by auto. exact n2. }
    assert (ND : NoDup (allNames (withValues m' row))) by (unfold withValues; rewrite assign_allNames by auto; exact p2).
    pose proof (C70_exchange _ o _ (withValues m' row) vs rts fo eo C' ND (hr_prior _ _ _ _ HR) (Heq row Ir)) as X. rewrite EA in X.
    rewrite ES. cbn [set_tm st_tmlat] in *.
    match type of X with context [fit ?x fo eo] => change x with (set_tm (set_tm (hy_S H) m' (st_tmlat (hy_S H))) (withValues m' row) (st_tmlat (hy_S H))) in X end.
    destruct (fit _ fo eo) as [B|] in X |- *; [|contradiction]. exists B. split; auto. destruct X as (x1 & x2 & x3 & _). split; [congruence|]. split; [congruence|]. intros _. congruence. }
  assert (RR : exists runs2, Forall2 (single H2 m' fo eo) (hy_grid H') runs2 /\ Forall2 (agree eo) runs runs2).
  { clear - HF SG. induction HF as [|row A rows rs s1 F1 IH]; [exists []; split; constructor|].
    destruct (SG row A (or_introl eq_refl) s1) as (B & b1 & b2). destruct IH as (r2 & i1 & i2); [intros; apply SG; auto; now right|]. exists (B :: r2). split; constructor; auto. }
  destruct RR as (runs2 & HF2 & AG).
  assert (EN : stepsH H2 o = stepsH H o) by (unfold stepsH; now rewrite ES).
  assert (EP : pointsH H2 = pointsH H) by (unfold pointsH; now rewrite ES).
  assert (HP2 : Forall (proper eo (stepsH H2 o) (pointsH H2)) runs2).
  { rewrite EN, EP. clear - HP AG. induction AG; inversion HP; subst; constructor; auto. eapply agree_proper; eauto. }
  destruct (agree_map _ _ _ AG) as [M1 M2].
  destruct (fit_known H o m ts fo eo j H' pv runs HR E1 Hm Epv Hpv HF HP) as (_ & a1 & a2 & a3 & a4 & _ & _ & a5).
  rewrite <- q2 in HF2, Hm. assert (Epv2 : hy_pv H2' = map Fin pv) by congruence.
  destruct (fit_known H2 o m' ts fo eo j2 H2' pv runs2 HR2 E2 Hm Epv2 Hpv HF2 HP2) as (_ & b1 & b2 & b3 & b4 & _ & _ & b5).
  do 3 (split; [congruence|]). split; [congruence|]. split; [rewrite a2, b2, M1, q3; reflexivity|]. split; [rewrite a3, b3, M1, q3; reflexivity|].
  split; [rewrite a4, b4, M2, EN; reflexivity|]. intros ->. destruct (a5 eq_refl) as [-> ->]. destruct (b5 eq_refl) as [-> ->]. rewrite EN, EP, ES. cbn [set_tm st_grid].
  assert (EM : lgm (stepsH H o) (pointsH H) (mixed (combine runs2 pv)) = lgm (stepsH H o) (pointsH H) (mixed (combine runs pv))).
  { apply lgm_ext. intros j0 x _ _. now apply agree_mixed. }
  now rewrite EM.
Qed.

(** ** Examples *)
(** A serial model with a change-point between static models is a change-point, also next to a random walk of width zero. *)
Lemma serial_change names T tc n1 n2 p1 p2 : equiv names T (TM (KSerial [true]) [n1] [HNum tc] p1 [Ex.static; Ex.static]) (TM KChange [n2] [HNum tc] p2 []).
Proof.
  eapply eq_then; [apply (eq_labels names T _ _ [] _ _ None); apply (run_serial names _ _ _ [tc]); [reflexivity|repeat constructor]|].
  eapply eq_then; [apply (eq_uniform names T [true] [tc] Ex.static); constructor|]. cbn [changeTimes combine filter fst snd map].
  eapply eq_then; [apply eq_comb; constructor; [|constructor; [apply eq_same; constructor|constructor]]|].
  { eapply eq_then; [apply (eq_labels names T KStatic [] [] [] _ None []); constructor|]. apply eq_back, eq_none. }
  eapply eq_then; [apply (eq_nested names T [] [] [Equiv.change tc]); repeat constructor|]. cbn [app].
  eapply eq_then; [apply eq_one; constructor|]. apply eq_labels. constructor.
Qed.
Example C70_example : forall (ds : list Z) tc, ds <> [] ->
  let m := Ex.serial [true] ["c"%string] [tc] [Ex.static; Ex.static] in let m' := Ex.comb [Ex.grw "s" "p" 0; Ex.change "d" tc] in
  exists S, setup (data ds) None (coin PNone) m = Ok S /\ configured S (coin PNone) m [quarters] (times ds) /\ NoDup (allNames m') /\
    equiv (om_names (coin PNone)) (transitionTime (formatTimestamps (times ds) (om_seglen (coin PNone)))) m m'.
Proof.
  intros ds tc Hd m m'. destruct (coin_setup ds PNone m eq_refl) as (S & E & _). exists S. split; auto.
  split; [apply coin_configured; auto; cbn; repeat constructor; cbn; intuition discriminate|]. split; [cbn; repeat constructor; cbn; intuition discriminate|].
  set (T := transitionTime _). unfold m, m', Ex.serial, Ex.comb. cbn [map].
  eapply eq_then; [apply (serial_change _ _ _ _ "d" _ (Some (Leaf HPNone)))|].
  apply eq_back. eapply eq_then; [apply eq_comb; constructor; [|constructor; [apply eq_same; constructor|constructor]]|].
  { eapply eq_then; [apply (eq_labels _ T _ _ [] _ _ None); constructor; now left|]. eapply eq_then; [apply eq_walk; [now left|cbn; lra]|]. apply eq_back, eq_none. }
  eapply eq_then; [apply (eq_nested _ T [] [] [Ex.change "d" tc]); repeat constructor|]. cbn [app]. apply eq_one. constructor.
Qed.

(** The hyper-study of a random walk and a change-point at any time, and the same with a serial model. *)
Definition walkOrSerial : tm R :=
  TM KComb [] [] None
    [TM (KGRW "p") ["s"%string] [HArr [1 / 4; 1 / 2]] (Some (Leaf (HPArr [Fin 1; Fin 3]))) [];
     TM (KSerial [true]) ["c"%string] [HAll] (Some (Node [Leaf HPNone])) [Ex.static; Ex.static]].
Example C70_hyper_example : forall (ds : list Z) fo eo j j2, bits ds -> (3 <= List.length ds)%nat ->
  exists S H' H2' pv runs, let H := newHyper S in let H2 := newHyper (set_tm S walkOrSerial (st_tmlat S)) in
    configured S (coin PNone) walkOrChange [quarters] (times ds) /\
    hyperReady H (coin PNone) walkOrChange (times ds) /\ hyperReady H2 (coin PNone) walkOrSerial (times ds) /\ onePriorEach walkOrChange /\ onePriorEach walkOrSerial /\
    map snd (assocs walkOrSerial) = map snd (assocs walkOrChange) /\ map snd (priorPairs walkOrSerial) = map snd (priorPairs walkOrChange) /\
    hyperFit H fo eo j = Ok H' /\ hyperFit H2 fo eo j2 = Ok H2' /\ (1 < List.length (hy_grid H'))%nat /\
    hy_pv H' = map Fin pv /\ Forall (fun p => 0 <= p) pv /\ Forall2 (single H walkOrChange fo eo) (hy_grid H') runs /\
    Forall (proper eo (stepsH H (coin PNone)) (pointsH H)) runs /\
    (forall row, In row (hy_grid H') -> equiv ["p"%string] (transitionTime (times ds)) (withValues walkOrChange row) (withValues walkOrSerial row)) /\
    hy_dist H2' = hy_dist H'.
Proof.
  intros ds fo eo j j2 Hb Hd. destruct (walkOrChange_fit ds fo eo j Hb Hd) as (S & H' & runs & pv & K). cbv zeta in K.
  destruct K as (k1 & k2 & k3 & k4 & k5 & k6 & k7 & k8 & k9 & k10 & k11 & k12 & k13 & _).
  assert (Hd0 : ds <> []) by (destruct ds; [cbn in Hd; lia|discriminate]).
  assert (ND : NoDup (allNames walkOrChange)) by apply walkOrChange_ok.
  assert (ND2 : NoDup (allNames walkOrSerial)) by exact ND.
  pose proof (coin_configured _ _ _ _ k1 eq_refl Hd0 ND) as C.
  assert (O2 : onePriorEach walkOrSerial) by (cbn; intuition (try discriminate); try (right; eexists; split; reflexivity)).
  assert (C2 : configured (set_tm S walkOrSerial (st_tmlat S)) (coin PNone) walkOrSerial [quarters] (times ds)).
  { rewrite (cf_tmlat _ _ _ _ _ C). exact (configured_tm S _ _ walkOrSerial _ _ C ND2). }
  set (H2 := newHyper (set_tm S walkOrSerial (st_tmlat S))).
  assert (HR2 : hyperReady H2 (coin PNone) walkOrSerial (times ds)).
  { destruct k2 as [h1 h2 h3 h4 h5 h6]. constructor; auto. split; [|split; [exact ND2|split; [cbn; intuition discriminate|cbn; repeat constructor]]]. cbn. repeat split. }
  assert (Two : forall row, Forall2 (fun v xs => In v xs) row [[1 / 4; 1 / 2]; removelast (times ds)] ->
     exists s c, row = [s; c] /\ withValues walkOrChange row = Ex.comb [TM (KGRW "p") ["s"%string] [HNum s] (Some (Leaf (HPArr [Fin 1; Fin 3]))) []; Ex.change "c" c] /\
       withValues walkOrSerial row = Ex.comb [TM (KGRW "p") ["s"%string] [HNum s] (Some (Leaf (HPArr [Fin 1; Fin 3]))) []; TM (KSerial [true]) ["c"%string] [HNum c] (Some (Node [Leaf HPNone])) [Ex.static; Ex.static]]).
  { intros row HF. inversion HF as [|s xs row' pts Hs HF' E1 E2]; subst. inversion HF' as [|c xs row'' pts Hc HF'' E1 E2]; subst. inversion HF''; subst. exists s, c. repeat split; reflexivity. }
  destruct (coin_likelihoods _ _ _ _ k1 eq_refl Hb) as [Lk Lp].
  assert (Pr : nonnegPrior (gridPoints [quarters]) (coin PNone) (map (@List.length R) [quarters]) (meshgrid [quarters]) (om_prior (coin PNone))) by exact I.
  assert (LkF : forall s, In s (segments (hy_S H2) (coin PNone)) -> finite (gridPoints [quarters]) (processedPdf (coin PNone) (gridPoints [quarters]) (meshgrid [quarters]) s)).
  { intros s Hs. apply In_nth_error in Hs as (i & Hs). destruct (Lk i s Hs) as [-> Hp]. exists (tab (gridPoints [quarters]) (coinLik ds i)).
    split; [reflexivity|]. split; [apply tab_length|]. unfold tab. apply Forall_map. apply Forall_forall. intros x Hx. apply in_seq in Hx. apply Hp. lia. }
  assert (Run : forall row, Forall2 (fun v xs => In v xs) row [[1 / 4; 1 / 2]; removelast (times ds)] -> runnable (om_names (coin PNone)) (withValues walkOrSerial row)).
  { intros row HF. destruct (Two row HF) as (s & c & _ & _ & ->). constructor. constructor; [repeat constructor|]. constructor; [|constructor]. apply (run_serial _ _ _ _ [c]); [reflexivity|repeat constructor]. }
  assert (Sh : (1 < natprod (map (@List.length R) [[1 / 4; 1 / 2]%R; removelast (times ds)]))%nat) by (destruct (times_points ds) as [_ TL]; cbn [map natprod fold_right List.length]; rewrite TL; lia).
  destruct (C28_succeeds H2 (coin PNone) walkOrSerial [quarters] (times ds) fo eo j2 _ _ C2 HR2 O2 (few_points _ _ ND2 ltac:(cbn; lia)) k5 Sh Run Pr LkF) as (H2' & EH2 & _).
  assert (Eq : forall row, In row (hy_grid H') -> equiv ["p"%string] (transitionTime (times ds)) (withValues walkOrChange row) (withValues walkOrSerial row)).
  { intros row Hr. assert (Hne : allNames walkOrChange <> []) by discriminate.
    destruct (C27_grid _ (coin PNone) walkOrChange (times ds) fo eo j H' k2 k6 Hne) as (points & g1 & g2 & g3 & (g4 & g5) & g6 & g7).
    assert (points = [[1 / 4; 1 / 2]; removelast (times ds)]) as ->.
    { inversion g1 as [|a b c d F1 F2]; subst. inversion F2 as [|a' b' c' d' F3 F4]; subst. inversion F4; subst. cbn in F1, F3. now subst. }
    apply g2 in Hr. destruct (Two row Hr) as (s & c & _ & -> & ->). apply eq_comb. constructor; [apply eq_same; constructor; now left|]. constructor; [|constructor]. apply eq_back, serial_change. }
  exists S, H', H2', pv, runs. cbv zeta. fold H2. do 5 (split; [auto|]). do 2 (split; [reflexivity|]). do 8 (split; [assumption|]).
  apply (C70_hyper (newHyper S) H2 (coin PNone) walkOrChange walkOrSerial [quarters] (times ds) fo eo j j2 H' H2' pv runs); auto.
Qed.

Local Open Scope Q_scope.
(** The order of sub-models matters in general, also between Independent and ChangePoint (their resets differ by a factor, C03). *)
Theorem C70_order_refuted : exists SA SB A B : study Q Q,
  setup (data [1; 0]%Z) None (coinOM Ex.quarters PNone) (Ex.comb [Ex.indep; Ex.change "c" 0]) = Ok SA /\
  setup (data [1; 0]%Z) None (coinOM Ex.quarters PNone) (Ex.comb [Ex.change "c" 0; Ex.indep]) = Ok SB /\
  fit SA true false = Ok A /\ fit SB true false = Ok B /\ st_post A = st_post B /\ st_logEv A <> st_logEv B.
Proof.
  assert (E : (let* SA := setup (L := Q) (data [1; 0]%Z) None (coinOM Ex.quarters PNone) (Ex.comb [Ex.indep; Ex.change "c" 0]) in
    let* SB := setup (L := Q) (data [1; 0]%Z) None (coinOM Ex.quarters PNone) (Ex.comb [Ex.change "c" 0; Ex.indep]) in
    let* A := fit SA true false in let* B := fit SB true false in Ok (st_post A, st_post B, st_logEv A, st_logEv B))%res =
    Ok ([Some [Fin (1 # 6); Fin (1 # 3); Fin (1 # 2)]; Some [Fin (1 # 2); Fin (1 # 3); Fin (1 # 6)]],
        [Some [Fin (1 # 6); Fin (1 # 3); Fin (1 # 2)]; Some [Fin (1 # 2); Fin (1 # 3); Fin (1 # 6)]], Fin (1 # 16), Fin (1 # 4))) by (vm_compute; reflexivity).
  run E. do 4 eexists. repeat (split; [eassumption|]). split; congruence.
Qed.
(** With a prior given as array, a change-point alone is not the combination of this change-point only (C59). *)
Theorem C70_array_refuted : exists SA SB A B : study Q Q,
  setup (data [1; 1; 0]%Z) None (coinOM Ex.quarters (PArr [3%nat] [Fin 1; Fin 2; Fin 1])) (Ex.comb [Ex.change "c" 1]) = Ok SA /\
  setup (data [1; 1; 0]%Z) None (coinOM Ex.quarters (PArr [3%nat] [Fin 1; Fin 2; Fin 1])) (Ex.change "c" 1) = Ok SB /\
  fit SA true false = Ok A /\ fit SB true false = Ok B /\ st_post A <> st_post B.
Proof.
  assert (E : (let* SA := setup (L := Q) (data [1; 1; 0]%Z) None (coinOM Ex.quarters (PArr [3%nat] [Fin 1; Fin 2; Fin 1])) (Ex.comb [Ex.change "c" 1]) in
    let* SB := setup (L := Q) (data [1; 1; 0]%Z) None (coinOM Ex.quarters (PArr [3%nat] [Fin 1; Fin 2; Fin 1])) (Ex.change "c" 1) in
    let* A := fit SA true false in let* B := fit SB true false in Ok (st_post A, st_post B))%res =
    Ok ([Some [Fin (1 # 8); Fin (1 # 2); Fin (3 # 8)]; Some [Fin (1 # 18); Fin (4 # 9); Fin (1 # 2)]; Some [Fin (3 # 14); Fin (4 # 7); Fin (3 # 14)]],
        [Some [Fin (1 # 8); Fin (1 # 2); Fin (3 # 8)]; Some [Fin (1 # 18); Fin (4 # 9); Fin (1 # 2)]; Some [Fin (3 # 28); Fin (4 # 7); Fin (9 # 28)]])) by (vm_compute; reflexivity).
  run E. do 4 eexists. repeat (split; [eassumption|]). congruence.
Qed.
