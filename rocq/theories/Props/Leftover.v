(** What a failed optimisation leaves behind: C76. *)
From Coq Require Import List ZArith QArith Reals Lra Lia Arith Bool String.
From Verif Require Import Base.Num Base.Exn Base.Arr Model.Helper Model.Tm Model.HyperParams Model.Study Model.Api Model.Hyper Model.Optimize Model.OptimizeStart
  Spec.Names Spec.HyperSpec Spec.OptSpec Proof.NamesProof Proof.GridProof Proof.OptProof Proof.HyperFit Props.Ex Props.ExR Props.HyperParameters Props.HyperStudy Props.Optimize.
Import ListNotations.
Local Open Scope nat_scope.

(** Some of the names are not names of hyper-parameters of [m] (blanks are excluded: a blank marks names already found). *)
Definition unknownAmong {F} (m : tm F) (names : list string) : Prop := exists sel bad sel', names = (sel ++ bad :: sel')%list /\
  NoDup sel /\ incl sel (allNames m) /\ ~ In " "%string sel /\ ~ In bad (allNames m) /\ bad <> " "%string.

(** ** The selection stays *)
(** [optimizeStart] is the beginning of [optimize]: the same exceptions, and the minimiser is started with the same
    values on the same study. *)
Lemma optimize_start {F L} {NF : Num F} {NL : LogNum F L} (S : study F L) names fo min : optimize S names fo min =
  (let* x0 := snd (optimizeStart S names) in
   let* r := minimize (min x0) (fst (optimizeStart S names)) in
   let '(S1, x) := r in let* S2 := setPoint S1 x in let* S3 := fit S2 fo false in Ok (set_sel S3 []))%res.
Proof.
  unfold optimize, optimizeStart. change (checkConsistency (set_sel S (namesOf names))) with (checkConsistency S).
  destruct (checkConsistency S) as [[o m]|]; [|reflexivity]. cbn [bind st_sel set_sel].
  destruct (getSelected _ m) as [[|x l]|]; reflexivity.
Qed.

(** After an optimisation that was refused because of a name, or before the study was complete, the list of names is
    still selected; nothing else has changed. If there is nothing to optimise, and after a successful optimisation, nothing is
    selected. An optimisation whose minimiser raises at once leaves its names selected, too. *)
Theorem C76_selection : forall (F L : Type) (NF : Num F) (NL : LogNum F L) (S : study F L) (l : list string), l <> [] ->
  (forall o m, checkConsistency S = Ok (o, m) -> named m -> unknownAmong m l ->
     optimizeStart S (Names l) = (set_sel S l, Err ConfigurationError)) /\
  (forall e, checkConsistency S = Err e -> optimizeStart S (Names l) = (set_sel S l, Err e)) /\
  (forall o m e, checkConsistency S = Ok (o, m) -> named m -> NoDup l -> incl l (allNames m) -> ~ In " "%string l ->
     optimizeAborted S (Names l) e = (set_sel S l, e)) /\
  (forall o m, checkConsistency S = Ok (o, m) -> named m -> allNames m = [] -> optimizeStart S (Names []) = (set_sel S [], Err ConfigurationError)) /\
  (forall names fo min S', optimize S names fo min = Ok S' -> st_sel S' = []).
Proof.
  intros F L NF NL S l Hl.
  assert (CC : forall k, checkConsistency (set_sel S k) = checkConsistency S) by reflexivity.
  assert (ND : forall o m, checkConsistency S = Ok (o, m) -> NoDup (allNames m)).
  { intros o m. unfold checkConsistency. destruct (Nat.eqb _ _); [discriminate|]. destruct (st_om S); [|discriminate]. destruct (st_tm S) as [m0|]; [|discriminate].
    destruct (hasDup (allNames m0)) eqn:Ed; [discriminate|]. intros X. injection X as <- <-. now apply hasDup_iff. }
  split; [|split; [|split; [|split]]].
  - intros o m EC W (sel & bad & sel' & El & Ns & I & B & Hb & Nb). unfold optimizeStart. rewrite CC, EC. cbn [st_sel set_sel namesOf].
    destruct l as [|s l]; [congruence|]. cbn [st_sel set_sel]. unfold getSelected. rewrite El, <- (nlmap_id (unpackNames m)).
    destruct (sel ++ bad :: sel')%list eqn:E2; [destruct sel; discriminate|]. rewrite <- E2.
    rewrite getLoop_unknown; auto using keeps_id; [eauto|]. intros x Hx ->. auto.
  - intros e EC. unfold optimizeStart. rewrite CC, EC. reflexivity.
  - intros o m e EC W Ns I B. unfold optimizeAborted, optimizeStart. rewrite CC, EC. cbn [st_sel set_sel namesOf].
    destruct l as [|s l]; [congruence|]. cbn [st_sel set_sel]. unfold getSelected.
    destruct (getLoop_values' (s :: l) m) as (vs & Ev & F2); eauto. rewrite Ev. destruct vs as [|v vs]; [inversion F2|]. reflexivity.
  - intros o m EC W EN. unfold optimizeStart. rewrite CC, EC. cbn [st_sel set_sel namesOf]. unfold defaultSelection. rewrite EN. cbn [filter getSelected].
    assert (EV : allValues m = []).
    { pose proof (assocs_names m W) as X. rewrite EN in X. apply map_eq_nil in X. rewrite assocs_values; auto; rewrite X; cbn; auto. }
    rewrite EV. reflexivity.
  - intros names fo min S' E. rewrite optimize_start in E. destruct (snd _); [|discriminate]. cbn [bind] in E. destruct (minimize _ _) as [[S1 x]|]; [|discriminate]. cbn [bind] in E.
    destruct (setPoint S1 x) as [S2|]; [|discriminate]. cbn [bind] in E. destruct (fit S2 fo false); [|discriminate]. injection E as <-. reflexivity.
Qed.

(** ** What the selection does *)
(** Study.fit does not look at it. *)
Theorem C76_fit : forall (F L : Type) (NF : Num F) (NL : LogNum F L) (S : study F L) l fo eo,
  fit (set_sel S l) fo eo = (let* A := fit S fo eo in Ok (set_sel A l))%res.
Proof.
  intros. unfold fit. change (checkConsistency (set_sel S l)) with (checkConsistency S). destruct (checkConsistency S) as [[o m]|]; [|reflexivity]. cbn [bind].
  change (st_rawTs (set_sel S l)) with (st_rawTs S). destruct (st_rawTs S) as [rts|]; [|reflexivity]. cbv zeta.
  change (envOf (set_sel S l)) with (envOf S). destruct (computePrior _) as [[[a p] al]|]; [|reflexivity]. cbn [bind].
  change (st_raw (set_sel S l)) with (st_raw S). destruct (fwdLoop _ _ _ _ _ _ _ _ _) as [w|]; [|reflexivity]. cbn [bind].
  destruct (fw_stop w); [reflexivity|]. destruct eo; [reflexivity|]. destruct fo; [reflexivity|].
  destruct (bwdLoop _ _ _ _ _) as [[out stop]|]; [|reflexivity]. cbn [bind]. destruct stop; reflexivity.
Qed.

Lemma hyperLoop_unknown fo eo row pv items (S : study R R) avg m l : st_tm S = Some m -> named m -> NoDup (allNames m) -> unknownAmong m l -> st_sel S = l ->
  List.length (allNames m) <= List.length row -> hyperLoop fo eo ((row, pv) :: items) S avg = Err ConfigurationError.
Proof.
  intros Em W N (sel & bad & sel' & El & Ns & I & B & Hb & Nb) Es Lr. cbn [hyperLoop]. rewrite Em, Es, El. unfold setSelected.
  assert (Ls : List.length sel <= List.length (allNames m)) by (apply NoDup_incl_length; auto).
  destruct (sel ++ bad :: sel')%list eqn:E2; [destruct sel; discriminate|]. rewrite <- E2, <- (nlmap_id (unpackNames m)).
  rewrite setLoop_unknown; auto using keeps_id; [intros x Hx ->; auto|]. rewrite map_length. lia.
Qed.
Lemma split_first {A} (x : A) l k : 0 < k -> exists p ps, array_split (x :: l) k = (x :: p) :: ps.
Proof.
  intros Hk. unfold array_split. set (n := List.length (x :: l)). destruct (n mod k) as [|r] eqn:Er.
  - cbn [repeat app]. assert (Hd : 1 <= n / k) by (pose proof (Nat.div_mod n k); assert (0 < n) by (unfold n; cbn; lia); destruct (n / k); lia).
    rewrite Nat.sub_0_r. destruct k as [|k']; [lia|]. cbn [repeat splitSizes]. destruct (n / Datatypes.S k') as [|q] eqn:Eq; [lia|]. cbn [firstn]. eauto.
  - cbn [repeat app splitSizes firstn]. eauto.
Qed.

(** HyperStudy.fit does: as long as an unknown name is selected, every fit over several combinations of values that
    would succeed otherwise is refused, in every mode and for any number of processes. *)
Theorem C76_hyper : forall (H H1 : hyper R R) o m ts l fo eo j, hyperReady H o m ts -> hyperFit H fo eo j = Ok H1 -> 1 < List.length (hy_grid H1) ->
  rawLen (st_raw (hy_S H)) <> 0 -> unknownAmong m l ->
  snd (optimizeStart (hy_S H) (Names l)) = Err ConfigurationError /\
  hyperFit (with_study H (fst (optimizeStart (hy_S H) (Names l)))) fo eo j = Err ConfigurationError.
Proof.
  intros H H1 o m ts l fo eo j HR E Lg Hraw U. pose proof (hr_names _ _ _ _ HR) as (W & N & Bl & _).
  assert (Hl : l <> []) by (destruct U as (sel & bad & sel' & -> & _); destruct sel; discriminate).
  assert (EC : checkConsistency (hy_S H) = Ok (o, m)).
  { unfold checkConsistency. apply Nat.eqb_neq in Hraw. rewrite Hraw, (hr_om _ _ _ _ HR), (hr_tm _ _ _ _ HR). now rewrite (proj2 (hasDup_iff _) N). }
  destruct (C76_selection _ _ _ _ (hy_S H) l Hl) as (X & _). rewrite (X o m EC W U). cbn [fst snd]. split; [reflexivity|].
  destruct (fit_grid_inv _ _ _ _ _ _ _ _ HR E) as (m' & EG & _ & Cl).
  assert (Rn : hy_grid H1 <> []) by (intros Z; rewrite Z in Lg; cbn in Lg; lia).
  destruct (grid_shape _ _ _ _ _ _ _ EG Rn) as (g1 & g2 & g3 & g4 & g5).
  rewrite (hyperFit_unfold _ _ _ _ HR), EG in E. cbn [bind] in E. rewrite Cl in E. cbn [bind] in E.
  destruct HR as [h1 h2 (rts & h3 & h4) _ _ _]. unfold hyperFit, formatStudy. cbn [with_study hy_S set_sel st_om st_rawTs st_raw]. rewrite h1, h3, <- h4. cbn [bind].
  unfold withHyperGrid. cbn [with_study hy_S st_tm set_format set_sel st_fmtTs]. rewrite h2. rewrite EG. cbn [bind hy_S hy_grid set_tm st_tm]. rewrite Cl. cbn [bind].
  unfold hyperFitGrid in E |- *. cbn [hy_S hy_grid withGrid hy_pv hy_const hy_vals hy_names] in E |- *.
  match goal with |- (let* _ := ?c in _)%res = _ => change c with (checkConsistency (prepared H o ts m')) end.
  destruct (checkConsistency (prepared H o ts m')); [|discriminate]. cbn [bind] in E |- *.
  rewrite (proj2 (Nat.ltb_lt _ _) Lg). unfold runAnalyses.
  destruct (hy_grid H1) as [|row rows] eqn:Er; [congruence|]. destruct (hy_pv H1) as [|p pv] eqn:Ep; [discriminate|]. apply Forall_inv in g2.
  assert (Un : forall q items avg, hyperLoop fo eo ((row, q) :: items) (set_tm (set_format (set_sel (hy_S H) l) (formatData (st_raw (hy_S H)) (om_seglen o)) ts) m' (st_tmlat (hy_S H))) avg = Err ConfigurationError).
  { intros q items avg. apply (hyperLoop_unknown fo eo row q items _ avg m' l); try reflexivity.
    - apply noPriors_named. rewrite g4. now apply noPriors_named.
    - now rewrite (names_m' _ _ g4).
    - destruct U as (sel & bad & sel' & U). exists sel, bad, sel'. now rewrite (names_m' _ _ g4).
    - now rewrite (names_m' _ _ g4). }
  destruct (Nat.ltb 1 j) eqn:Ej.
  - apply Nat.ltb_lt in Ej. destruct (split_first row rows j ltac:(lia)) as (ra & ras & ->). destruct (split_first p pv j ltac:(lia)) as (pa & pas & ->).
    cbn [combine map mapM fst snd]. rewrite Un. reflexivity.
  - cbn [combine]. rewrite Un. reflexivity.
Qed.

(** ** Wrong results *)
(** An unknown floor of a regime-switching model behind a change-point at a known time. *)
Definition knownChange : tm Q := comb [change "c" 1%Q; TM KRegime ["q"%string] [HArr [(-1)%Q; 0%Q]] (Some (Leaf HPNone)) []].


(** optimize('q', maxiter=...) raises TypeError inside SciPy; the next HyperStudy.fit succeeds, but sets q to the value
    that belongs to c in every analysis: all combinations get the same evidence. *)
Theorem C76_stale_refuted : exists (S : study Q Q) H1 H2,
  setup (data [1; 1; 1; 0]%Z) None (coinOM quarters PNone) knownChange = Ok S /\
  hyperFit (newHyper S) true false 1 = Ok H1 /\
  snd (optimizeAborted S (OneName "q"%string) TypeError) = TypeError /\
  hyperFit (newHyper (fst (optimizeAborted S (OneName "q"%string) TypeError))) true false 1 = Ok H2 /\
  hy_grid H1 = hy_grid H2 /\ hy_dist H1 <> hy_dist H2.
Proof.
  assert (E : (let* S0 := setup (L := Q) (data [1; 1; 1; 0]%Z) None (coinOM quarters PNone) knownChange in
    let* A := hyperFit (newHyper S0) true false 1 in
    let* B := hyperFit (newHyper (fst (optimizeAborted S0 (OneName "q"%string) TypeError))) true false 1 in
    Ok (snd (optimizeAborted S0 (OneName "q"%string) TypeError), hy_grid A, hy_grid B, hy_dist A, hy_dist B, hy_logEvs B))%res =
    Ok (TypeError, [[1%Q; (-1)%Q]; [1%Q; 0%Q]], [[1%Q; (-1)%Q]; [1%Q; 0%Q]], Some [Fin (5915 # 11918); Fin (6003 # 11918)], Some [Fin (1 # 2); Fin (1 # 2)],
      [Fin (1 # 16); Fin (1 # 16)])) by (vm_compute; reflexivity).
  run E. do 3 eexists. do 4 (split; [eassumption|]). split; congruence.
Qed.

(** ** Cases *)
Example C76_ex (ds : list Z) fo eo j : bits ds -> 3 <= List.length ds -> exists (S : study R R) H1,
  setup (data ds) None (coin PNone) walkOrChange = Ok S /\ hyperReady (newHyper S) (coin PNone) walkOrChange (times ds) /\
  hyperFit (newHyper S) fo eo j = Ok H1 /\ 1 < List.length (hy_grid H1) /\ rawLen (st_raw S) <> 0 /\
  (exists o, checkConsistency S = Ok (o, walkOrChange)) /\ named walkOrChange /\
  unknownAmong walkOrChange [hd ""%string (allNames walkOrChange); "width"%string].
Proof.
  intros Hb Hd. destruct (walkOrChange_fit ds fo eo j Hb Hd) as (S & H1 & runs & pv & K). cbv zeta in K. destruct K as (E & HR & _ & _ & _ & EF & _ & k1 & _).
  assert (ND : NoDup (allNames walkOrChange)) by apply walkOrChange_ok.
  assert (Hr : rawLen (st_raw S) <> 0).
  { destruct (coin_setup ds PNone walkOrChange eq_refl) as (S0 & E0 & _ & _ & _ & Er & _). rewrite E in E0. injection E0 as <-. rewrite Er. cbn [rawLen data]. rewrite map_length. lia. }
  exists S, H1. do 5 (split; [assumption|]). split.
  { exists (coin PNone). pose proof (hr_om _ _ _ _ HR) as h1. pose proof (hr_tm _ _ _ _ HR) as h2. cbn [newHyper hy_S] in h1, h2. unfold checkConsistency. apply Nat.eqb_neq in Hr. rewrite Hr, h1, h2. now rewrite (proj2 (hasDup_iff _) ND). }
  split; [apply walkOrChange_ok|].
  exists [hd ""%string (allNames walkOrChange)], "width"%string, []. split; [reflexivity|]. split; [repeat constructor; intros []|].
  split; [intros x [<-|[]]; left; reflexivity|]. cbn. split; [intuition discriminate|]. split; [intuition discriminate|discriminate].
Qed.
(** Executed: a misspelt name blocks the hyper-study until the selection is cleared. *)
Example C76_executed :
  (let* S0 := setup (L := Q) (data [1; 1; 1; 0]%Z) None (coinOM quarters PNone) knownChange in
   let S1 := fst (optimizeStart S0 (OneName "Q"%string)) in
   Ok (match snd (optimizeStart S0 (OneName "Q"%string)) with Err e => Some e | Ok _ => None end, st_sel S1,
       match hyperFit (newHyper S1) true false 1 with Err e => Some e | Ok _ => None end,
       match hyperFit (newHyper (set_sel S1 [])) true false 1 with Err e => None | Ok A => hy_dist A end))%res =
  Ok (Some ConfigurationError, ["Q"%string], Some ConfigurationError, Some [Fin (5915 # 11918); Fin (6003 # 11918)]).
Proof. vm_compute. reflexivity. Qed.
