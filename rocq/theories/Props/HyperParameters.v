(** Names, values and priors of hyper-parameters: C24, C25, C26. *)
From Coq Require Import List ZArith QArith Reals Lra Lia Arith Bool String.
From Verif Require Import Base.Num Base.Exn Base.Arr Model.Helper Model.Tm Model.HyperParams Model.Study Model.Api Model.Hyper
  Spec.Names Proof.KernelProof Proof.FitThms Proof.SetupProof Proof.NamesProof Props.Ex.
Import ListNotations.
Local Open Scope string_scope.
Local Open Scope nat_scope.

(** ** C24 *)
(** _setAllHyperParameters puts every value at the place that carries its name and changes nothing else, and the values
    can be read back. Holds for all models made with the constructors and value lists without plain Python lists. *)
Theorem C24_set_all : forall (m : tm R) xs,
  built m -> NoDup (allNames m) -> ~ In " " (allNames m) -> List.length xs = List.length (allNames m) ->
  let m' := assign (lookup (combine (allNames m) xs)) m in
  setAll m xs = (m', None) /\ allNames m' = allNames m /\ assocs m' = combine (allNames m) xs /\
  (Forall plain xs -> allValues m' = xs).
Proof.
  intros m xs B N Bl Lx m'. apply built_named in B.
  assert (A : assocs m' = combine (allNames m) xs) by (apply assocs_setAll; auto).
  repeat split; auto.
  - unfold setAll. apply setLoop_assign'; auto; [apply incl_refl|lia].
  - apply assign_allNames.
  - intros P. rewrite assocs_values, A; [apply snd_combine; auto|now apply assign_named|].
    rewrite A, snd_combine; auto.
Qed.

(** _setSelectedHyperParameters changes exactly the selected ones; _unpackSelectedHyperParameters returns the values of
    the selected ones in the order of the selection. *)
Theorem C24_set_selected : forall (m : tm R) sel xs,
  built m -> NoDup (allNames m) -> sel <> [] -> NoDup sel -> incl sel (allNames m) -> ~ In " " sel -> List.length xs = List.length sel ->
  let m' := assign (lookup (combine sel xs)) m in
  setSelected sel m xs = (m', None) /\
  (forall n v, In (n, v) (assocs m') <->
     exists v0, In (n, v0) (assocs m) /\ v = match lookup (combine sel xs) n with Some x => x | None => v0 end) /\
  (Forall plain xs -> getSelected sel m' = Ok (map Leaf xs)).
Proof.
  intros m sel xs B N Ns Nd I Bl Lx m'. apply built_named in B. repeat split.
  - unfold setSelected. destruct sel; [contradiction|]. apply setLoop_assign'; auto. lia.
  - intros Hv. unfold m' in Hv. rewrite assocs_assign in Hv. apply in_map_iff in Hv. destruct Hv as ([n0 v0] & E & Hv).
    cbn in E. injection E as <- <-. eauto.
  - intros (v0 & Hv & ->). unfold m'. rewrite assocs_assign. apply in_map_iff. exists (n, v0). auto.
  - intros P. assert (G : getSelected sel m' = getLoop sel (unpackNames m') (unpackVals m')) by (destruct sel; [contradiction|reflexivity]).
    rewrite G. clear G.
    assert (B' : named m') by now apply assign_named.
    assert (N' : NoDup (allNames m')) by (unfold m'; now rewrite assign_allNames).
    destruct (getLoop_values' sel m') as (vs & Ev & Hv); auto.
    { unfold m'. now rewrite assign_allNames. }
    rewrite Ev. f_equal.
    assert (E : vs = xs).
    { assert (A : forall n v, In (n, v) (assocs m') -> forall x, lookup (combine sel xs) n = Some x -> v = x).
      { intros n v Hin x Hx. unfold m' in Hin. rewrite assocs_assign in Hin. apply in_map_iff in Hin.
        destruct Hin as ([n0 v0] & E & _). cbn in E. injection E as <- <-. now rewrite Hx. }
      clearbody m'. clear - Hv A Nd Lx. revert xs Lx A Nd. induction Hv as [|n v sel vs Hn Hs IH]; intros [|x xs] Lx A Nd; cbn in *; try discriminate; auto.
      inversion Nd as [|n' s' X Y]; subst. f_equal.
      - apply (A n); auto. now rewrite String.eqb_refl.
      - apply IH; auto. intros n0 v0 H0 x0 Hx0. apply (A n0); auto.
        destruct (String.eqb_spec n n0); auto. subst. rewrite lookup_notin in Hx0 by auto. discriminate. }
    subst vs. clear - P. induction P as [|x xs Hx Hxs IH]; [reflexivity|]. cbn. rewrite IH.
    destruct x; try reflexivity. contradiction.
Qed.

(** An unknown name raises ConfigurationError; the names before it have been set by then. *)
Theorem C24_unknown : forall (m : tm R) sel bad sel' xs,
  built m -> NoDup (allNames m) -> NoDup sel -> incl sel (allNames m) -> ~ In " " sel -> ~ In bad (allNames m) -> bad <> " " ->
  List.length sel <= List.length xs ->
  setSelected (sel ++ bad :: sel') m xs = (assign (lookup (combine sel xs)) m, Some ConfigurationError).
Proof.
  intros m sel bad sel' xs B N Nd I Bl Hb Nb Lx. apply built_named in B. unfold setSelected.
  destruct (sel ++ bad :: sel')%list eqn:E; [destruct sel; discriminate|]. rewrite <- E.
  rewrite <- (nlmap_id (unpackNames m)). apply setLoop_unknown; auto using keeps_id. intros x Hx ->. auto.
Qed.

(** a nested model: random walk and change-point combined inside a serial model *)
Definition nested {F} `{Num F} : tm F :=
  TM (KSerial [false]) ["tBreak"] [HNum (fofZ 3)] (Some (Node [Leaf HPNone]))
     [comb [grw "sigma" "p" (frac 1 2); change "tc" (fofZ 1)]; notEq2].

Lemma nested_built : built (nested (F := R)).
Proof.
  eapply (b_serial [comb [grw "sigma" "p" (frac 1 2); change "tc" (fofZ 1)]; mkBreak "tBreak" (VNum (fofZ 3)) (Leaf HPNone); notEq2]);
    [|reflexivity].
  constructor; [|constructor; [apply b_break|constructor; [|constructor]]].
  - eapply (b_comb [grw "sigma" "p" (frac 1 2); change "tc" (fofZ 1)]); [|reflexivity].
    constructor; [|constructor; [|constructor]].
    + eapply (b_grw "sigma" (VNum (frac 1 2)) (Some "p") (Leaf HPNone)); reflexivity.
    + apply (b_change "tc" (VNum (fofZ 1))).
  - apply (b_notEq "q" (VNum (fofZ (-2)))).
Qed.
Lemma nested_names : allNames (nested (F := R)) = ["sigma"; "tc"; "q"; "tBreak"].
Proof. reflexivity. Qed.
Lemma nested_NoDup : NoDup (allNames (nested (F := R))).
Proof. rewrite nested_names. repeat constructor; cbn; intuition discriminate. Qed.

Example C24_example :
  fst (setAll (nested (F := R)) [HNum 1%R; HNum 2%R; HNum 3%R; HNum 4%R]) =
  TM (KSerial [false]) ["tBreak"] [HNum 4%R] (Some (Node [Leaf HPNone]))
     [comb [grw "sigma" "p" 1%R; change "tc" 2%R]; TM KNotEq ["q"] [HNum 3%R] (Some (Leaf HPNone)) []] /\
  fst (setSelected ["tBreak"; "tc"] (nested (F := R)) [HNum 5%R; HNum 6%R]) =
  TM (KSerial [false]) ["tBreak"] [HNum 5%R] (Some (Node [Leaf HPNone]))
     [comb [grw "sigma" "p" (frac 1 2); change "tc" 6%R]; notEq2].
Proof.
  split.
  - destruct (C24_set_all nested [HNum 1%R; HNum 2%R; HNum 3%R; HNum 4%R] nested_built nested_NoDup) as [E _];
      [rewrite nested_names; cbn; intuition discriminate|reflexivity|]. rewrite E. reflexivity.
  - destruct (C24_set_selected nested ["tBreak"; "tc"] [HNum 5%R; HNum 6%R] nested_built nested_NoDup) as [E _];
      [discriminate|repeat constructor; cbn; intuition discriminate| |cbn; intuition discriminate|reflexivity|].
    + rewrite nested_names. intros s Hs. cbn in *. intuition.
    + rewrite E. reflexivity.
Qed.

(** The loops mark names that have been dealt with by overwriting them with a blank. A hyper-parameter whose name is a
    single blank is therefore confused with the ones before it: the values cannot be set. *)
Theorem C24_blank_name_refuted : exists (m : tm R) xs,
  built m /\ NoDup (allNames m) /\ List.length xs = List.length (allNames m) /\ snd (setAll m xs) <> None.
Proof.
  exists (comb [grw "sigma" "p" (frac 1 2); grw " " "p" (frac 1 2)]), [HNum 1%R; HNum 2%R]. repeat split.
  - eapply (b_comb [grw "sigma" "p" (frac 1 2); grw " " "p" (frac 1 2)]); [|reflexivity]. repeat constructor.
    + eapply (b_grw "sigma" (VNum (frac 1 2)) (Some "p") (Leaf HPNone)); reflexivity.
    + eapply (b_grw " " (VNum (frac 1 2)) (Some "p") (Leaf HPNone)); reflexivity.
  - repeat constructor; cbn; intuition discriminate.
  - cbn. discriminate.
Qed.

(** ** C25 *)
Lemma hasDup_iff l : hasDup l = false <-> NoDup l.
Proof.
  split; [|apply hasDup_NoDup]. induction l as [|a l IH]; intros E; [constructor|]. cbn in E.
  apply orb_false_iff in E. destruct E as [E1 E2]. constructor; auto. intros C.
  assert (X : existsb (String.eqb a) l = true) by (apply existsb_exists; exists a; split; auto; apply String.eqb_refl). congruence.
Qed.

(** The consistency check of Study.fit fails exactly if data, observation model or transition model is missing or a
    hyper-parameter name is used twice; fit then raises ConfigurationError. *)
Theorem C25_consistency : forall S : study R R,
  let bad := rawLen (st_raw S) = 0 \/ st_om S = None \/ st_tm S = None \/ (exists m, st_tm S = Some m /\ ~ NoDup (allNames m)) in
  (bad -> forall fo eo, fit S fo eo = Err ConfigurationError) /\
  (~ bad -> exists o m, st_om S = Some o /\ st_tm S = Some m /\ checkConsistency S = Ok (o, m)).
Proof.
  intros S bad. unfold bad. split.
  - intros Hb fo eo. unfold fit, checkConsistency.
    destruct (Nat.eqb_spec (rawLen (st_raw S)) 0); [reflexivity|].
    destruct (st_om S) as [o|]; [|reflexivity]. destruct (st_tm S) as [m|]; [|reflexivity].
    destruct Hb as [Hb|[Hb|[Hb|(m' & Em & Hb)]]]; try congruence. injection Em as <-.
    destruct (hasDup (allNames m)) eqn:D; [reflexivity|]. apply hasDup_iff in D. contradiction.
  - intros Hb. unfold checkConsistency.
    destruct (Nat.eqb_spec (rawLen (st_raw S)) 0); [exfalso; apply Hb; auto|].
    destruct (st_om S) as [o|]; [|exfalso; apply Hb; auto]. destruct (st_tm S) as [m|]; [|exfalso; apply Hb; auto].
    exists o, m. destruct (hasDup (allNames m)) eqn:D; [|auto]. exfalso. apply Hb. right. right. right. exists m. split; auto.
    intros C. apply hasDup_iff in C. congruence.
Qed.

(** A HyperStudy without observation model raises AttributeError instead. *)
Theorem C25_hyper_refuted : exists (S : study R R) fo eo j,
  st_om S = None /\ hyperFit (newHyper S) fo eo j = Err AttributeError.
Proof. exists fresh, false, false, 1. split; reflexivity. Qed.

(** Look-up by name *)
Lemma nameIndex_iff names n i : NoDup names -> nameIndex names n = Ok i <-> nth_error names i = Some n.
Proof.
  revert i. induction names as [|a names IH]; intros i N; cbn; [destruct i; split; discriminate|].
  inversion N as [|a' l' X Y]; subst. destruct (String.eqb_spec a n).
  - subst. destruct i; cbn; [tauto|]. split; [discriminate|]. intros E. apply nth_error_In in E. contradiction.
  - destruct i as [|i].
    + cbn. split; [destruct (nameIndex names n); discriminate|congruence].
    + cbn. rewrite <- IH by auto. destruct (nameIndex names n); cbn; split; intros E; try discriminate; injection E as ->; auto.
Qed.
Lemma nameIndex_none names n : ~ In n names -> exists e, nameIndex names n = Err e.
Proof.
  induction names as [|a names IH]; intros N; cbn; [eauto|].
  destruct (String.eqb_spec a n); [subst; exfalso; apply N; now left|].
  destruct IH as [e E]; [intros C; apply N; now right|]. exists e. rewrite E. reflexivity.
Qed.

Theorem C25_index : forall (m : tm R) name,
  NoDup (allNames m) ->
  (forall i, hyperParameterIndex m name = Ok i <-> nth_error (allNames m) i = Some name) /\
  (~ In name (allNames m) -> hyperParameterIndex m name = Err PostProcessingError).
Proof.
  intros m name N. unfold hyperParameterIndex. split.
  - intros i. rewrite <- (nameIndex_iff _ _ i N). destruct (nameIndex (allNames m) name); split; auto; discriminate.
  - intros I. destruct (nameIndex_none _ _ I) as [e ->]. reflexivity.
Qed.

(** getHyperParameterValue returns the value assigned to the name. *)
Theorem C25_value : forall (m : tm R) name v,
  built m -> NoDup (allNames m) -> Forall plain (map snd (assocs m)) ->
  (hyperParameterValue m name = Ok v <-> In (name, v) (assocs m)).
Proof.
  intros m name v B N P. apply built_named in B. unfold hyperParameterValue, hyperParameterIndex.
  rewrite assocs_values, <- assocs_names by auto. rewrite <- assocs_names in N by auto.
  revert N. generalize (assocs m). clear m B P. intros l N.
  assert (X : forall i, index (map snd l) i = Ok v <-> nth_error (map snd l) i = Some v).
  { intros i. unfold index. destruct (nth_error _ i); split; intros E; try discriminate; injection E as ->; auto. }
  assert (Y : forall i, nth_error l i = Some (name, v) <-> nth_error (map fst l) i = Some name /\ nth_error (map snd l) i = Some v).
  { intros i. rewrite !nth_error_map. destruct (nth_error l i) as [[a b]|]; cbn; split.
    - intros E. injection E as -> ->. auto.
    - intros [E1 E2]. congruence.
    - discriminate.
    - intros [E1 _]. discriminate. }
  split.
  - destruct (nameIndex (map fst l) name) eqn:E; cbn; [|discriminate]. rewrite X. intros E2.
    apply nameIndex_iff in E; auto. apply nth_error_In with a. apply Y. auto.
  - intros I. apply In_nth_error in I. destruct I as [i I]. apply Y in I. destruct I as [I1 I2].
    apply nameIndex_iff in I1; auto. rewrite I1. cbn. apply X. exact I2.
Qed.

(** The list given as third value of BivariateRandomWalk stays a plain Python list (its conversion is assigned to the
    second value), so the flat list of values is longer than the list of names and the look-up returns something else. *)
Theorem C25_value_refuted : exists (m : tm R) v,
  built m /\ NoDup (allNames m) /\ In ("rho", v) (assocs m) /\ hyperParameterValue m "rho" <> Ok v.
Proof.
  exists (mkBiv "sigma1" (VNum 1%R) "sigma2" (VNum 1%R) "rho" (VList [0%R; 1%R]) (Node [Leaf HPNone; Leaf HPNone; Leaf HPNone])), (HList [0%R; 1%R]).
  repeat split; [apply b_biv|repeat constructor; cbn; intuition discriminate|cbn; auto|].
  cbn. discriminate.
Qed.

Example C25_example :
  hyperParameterIndex (nested (F := R)) "q" = Ok 2 /\ hyperParameterIndex (nested (F := R)) "mu" = Err PostProcessingError /\
  hyperParameterValue (nested (F := R)) "tBreak" = Ok (HNum (fofZ 3)) /\ built (nested (F := R)) /\ NoDup (allNames (nested (F := R))) /\
  Forall plain (map snd (assocs (nested (F := R)))).
Proof.
  repeat split; try reflexivity; [apply nested_built|apply nested_NoDup|]. repeat constructor.
Qed.
(** a model with a repeated name makes fit fail *)
Example C25_example2 : exists S : study R R,
  setup (data [1; 0]%Z) None (coinOM quarters PNone) (comb [grw "s" "p" (frac 1 2); change "s" (fofZ 1)]) = Ok S /\
  fit S false false = Err ConfigurationError.
Proof.
  assert (L : exists x, latticeOf (F := R) quarters = Ok x).
  { unfold latticeOf. destruct (existsb _ _); eexists; reflexivity. }
  destruct L as [x L].
  eexists. split; [unfold setup, runCalls, runCall, setTM, setOM; cbn; rewrite L; reflexivity|].
  apply C25_consistency. right. right. right. eexists. split; [reflexivity|]. intros N. inversion N as [|a l X Y]. apply X. now left.
Qed.

(** ** C26 *)
(** If every model that has hyper-parameters has one prior for each of them, the flat list of hyper-priors lists the priors
    in the order of the flat list of names. *)
Theorem C26_aligned : forall m : tm R, onePriorEach m ->
  combine (allNames m) (allPriors m) = priorPairs m /\ List.length (allPriors m) = List.length (allNames m).
Proof.
  intros m W. destruct (priorPairs_spec m W) as [E1 E2]. rewrite E1, E2, !map_length. split; [apply combine_eta|reflexivity].
Qed.

(** The constructors give such models when called with the documented kind of argument for the prior. *)
Theorem C26_constructors :
  onePriorEach (F := R) mkStatic /\ onePriorEach (F := R) mkIndep /\
  (forall n v s q m, mkGRW (F := R) n v s (Leaf q) = Ok m -> onePriorEach m) /\
  (forall n1 v1 n2 v2 s q1 q2 m, mkAlpha (F := R) n1 v1 n2 v2 s (Node [Leaf q1; Leaf q2]) = Ok m -> onePriorEach m) /\
  (forall n v q, onePriorEach (mkChange (F := R) n v (Leaf q))) /\
  (forall n v q, onePriorEach (mkRegime (F := R) n v (Leaf q))) /\
  (forall n v q, onePriorEach (mkNotEq (F := R) n v (Leaf q))) /\
  (forall fn args s m, mkDet (F := R) fn args s None = Ok m -> onePriorEach m) /\
  (forall n1 v1 n2 v2 n3 v3 q1 q2 q3, onePriorEach (mkBiv (F := R) n1 v1 n2 v2 n3 v3 (Node [Leaf q1; Leaf q2; Leaf q3]))) /\
  (forall ms m, mkComb (F := R) ms = Ok m -> Forall onePriorEach ms -> onePriorEach m) /\
  (forall args m, mkSerial (F := R) args = Ok m -> Forall (fun a => named a /\
      if isBreak a then exists n v q, a = mkBreak n v (Leaf q) else onePriorEach a) args ->
      (forall nm vl p ms', In (TM KChange nm vl p ms') args -> List.length nm = 1) -> onePriorEach m).
Proof.
  split; [cbn; split; auto; left; split; auto; discriminate|].
  split; [cbn; split; auto; left; split; auto; discriminate|].
  repeat apply conj; intros; try (apply onePriorEach_TM; split; auto; right; eexists; split; reflexivity).
  - unfold mkGRW in H. destruct s; [|discriminate]. injection H as <-. cbn. split; auto. right. eexists; split; reflexivity.
  - unfold mkAlpha in H. destruct s; [|discriminate]. injection H as <-. cbn. split; auto. right. eexists; split; reflexivity.
  - unfold mkDet in H. destruct s; [|discriminate]. injection H as <-. apply onePriorEach_TM. split; auto. right. eexists; split; [reflexivity|].
    rewrite map_length. clear. cbn [flatten]. induction (List.length args) as [|k IH]; [reflexivity|]. cbn. f_equal. exact IH.
  - unfold mkComb in H. destruct (existsb _ _); [discriminate|]. injection H as <-. apply onePriorEach_TM. split; auto. left. split; auto. discriminate.
  - unfold mkSerial in H. destruct (serialCollect args) as [[[[ns vs] ps] mk] ms'] eqn:Es.
    destruct (serialCollect_priors _ _ _ _ _ _ Es) as [L W].
    { intros a Ha. rewrite Forall_forall in H0. apply H0; auto. }
    { intros a nm vl p ms0 Ha ->. eapply H1; eauto. }
    destruct (mapM firstValue vs); cbn in H; [|discriminate]. destruct (firstOrdered a); cbn in H; [|discriminate].
    destruct (negb a0); [discriminate|]. destruct (Nat.eqb _ _); [|discriminate]. injection H as <-. apply onePriorEach_TM. split; auto.
    right. eexists; split; [reflexivity|exact L].
Qed.

Example C26_example : onePriorEach (nested (F := R)) /\ priorPairs (nested (F := R)) =
  [("sigma", HPNone); ("tc", HPNone); ("q", HPNone); ("tBreak", HPNone)].
Proof.
  split; [|reflexivity]. cbn. repeat split; auto.
  all: try (right; eexists; split; reflexivity). left. split; auto. discriminate.
Qed.

(** A list of priors given to Deterministic is dropped: two hyper-parameters, no hyper-priors. *)
Theorem C26_deterministic_refuted : exists fn args s ps (m : tm R),
  mkDet fn args (Some s) (Some (Node ps)) = Ok m /\ List.length ps = List.length args /\
  allNames m = ["a"; "b"] /\ allPriors m = [] /\ forall ts, exists e, createHyperGrid m ts = Err e.
Proof.
  exists (fun t l => (t * nth 0 l 0 + nth 1 l 0)%R), [("a", VList [1%R; 2%R]); ("b", VList [1%R; 2%R])], "p", [Leaf HPNone; Leaf HPNone].
  eexists. repeat split. intros ts. exists ValueError. reflexivity.
Qed.
(** A hyper-prior given as plain Python list instead of a Numpy array is taken for several hyper-priors. *)
Theorem C26_list_prior_refuted : exists (m : tm R),
  mkGRW "sigma" (VList [1%R; 2%R]) (Some "p") (Node [Leaf (HPNum 1%R); Leaf (HPNum 2%R)]) = Ok m /\
  List.length (allNames m) = 1 /\ List.length (allPriors m) = 2.
Proof. eexists. repeat split. Qed.
