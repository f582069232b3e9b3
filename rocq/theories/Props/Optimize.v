(** Optimisation of hyper-parameters: C50. *)
From Coq Require Import List ZArith QArith Reals String Bool Arith Lia.
From Verif Require Import Base.Num Base.Exn Base.Arr Model.Helper Model.Tm Model.HyperParams Model.Study Model.Api Model.Optimize
  Spec.Names Spec.OptSpec Proof.KernelProof Proof.FitInv Proof.DataProof Proof.PriorProof Proof.NamesProof Proof.OptProof Props.Ex Props.HyperParameters.
Import ListNotations.
Local Open Scope string_scope.
Local Open Scope nat_scope.

Lemma assocs_point {F} (m : tm F) sel (x : list F) n v : named m ->
  In (n, v) (assocs (atPoint m sel x)) <-> exists u, In (n, u) (assocs m) /\ v = match lookup (combine sel (map HNum x)) n with Some w => w | None => u end.
Proof.
  intros W. unfold atPoint. rewrite assocs_assign, in_map_iff. split.
  - intros ([n' u] & E & I). cbn in E. injection E as <- <-. eauto.
  - intros (u & I & ->). exists (n, u). auto.
Qed.
Lemma lookup_nth {A} sel : forall (xs : list A) i n d, NoDup sel -> nth_error sel i = Some n -> List.length sel = List.length xs ->
  lookup (combine sel xs) n = Some (nth i xs d).
Proof.
  induction sel as [|s sel IH]; intros [|x xs] [|i] n d Nd E Lx; cbn in *; try discriminate.
  - injection E as <-. now rewrite String.eqb_refl.
  - inversion Nd as [|s' l' X Y]; subst. destruct (String.eqb_spec s n) as [->|]; [exfalso; apply X; eapply nth_error_In; eauto|]. apply IH; auto.
Qed.
Lemma in_assocs {F} (m : tm F) n : named m -> In n (allNames m) -> exists u, In (n, u) (assocs m).
Proof.
  intros W I. rewrite <- (assocs_names m W) in I. apply in_map_iff in I as ([n' u] & E & I). cbn in E. subst. eauto.
Qed.

(** Any minimiser (it may ask for any number of points, depending on the answers), any transition model, any selection of
    existing names: the minimiser is started with the current values of the selected hyper-parameters; its questions are
    answered by minus the log-evidence that the study, as it was at the beginning, has with the values asked for; and
    if it ends with the point [x], then the selected hyper-parameters have the values [x], all others the values they
    had, the stored results are those of a single fit of the original study with these values, and no selection is
    left. Exceptions of the fits are passed on. *)
Theorem C50_optimize : forall (F L : Type) (NF : Num F) (NL : LogNum F L) (S : study F L) o m sel names fo min,
  st_om S = Some o -> (forall sh a, om_prior o <> PArr sh a) -> st_tm S = Some m -> rawLen (st_raw S) <> 0 ->
  built m -> NoDup (allNames m) ->
  (names = Names sel \/ exists n, names = OneName n /\ sel = [n]) -> sel <> [] -> NoDup sel -> incl sel (allNames m) -> ~ In " " sel ->
  exists vs, Forall2 (fun n v => In (n, v) (assocs m)) sel vs /\
    (sized (List.length sel) (min (map valNode vs)) ->
     match outcome (objective S m sel) (min (map valNode vs)) with
     | Err e => optimize S names fo min = Err e
     | Ok x =>
         match fit (withModel S (atPoint m sel x)) fo false with
         | Err e => optimize S names fo min = Err e
         | Ok A => exists S', optimize S names fo min = Ok S' /\ resultsOf S' A /\ st_tm S' = Some (atPoint m sel x) /\ st_sel S' = [] /\
             (forall i n, nth_error sel i = Some n -> forall v, In (n, v) (assocs (atPoint m sel x)) <-> v = HNum (nth i x f0)) /\
             (forall n, ~ In n sel -> forall v, In (n, v) (assocs (atPoint m sel x)) <-> In (n, v) (assocs m)) /\
             st_om S' = Some o /\ st_raw S' = st_raw S /\ st_rawTs S' = st_rawTs S /\ st_grid S' = st_grid S
         end
     end).
Proof.
  intros F L NF NL S o m sel names fo min Ho Hp Hm Hr Bm N HN Ne Nd I Bl. apply built_named in Bm.
  assert (En : namesOf names = sel) by (destruct HN as [-> | (n & -> & ->)]; reflexivity).
  assert (NA : notArray (om_prior o)) by (destruct (om_prior o) as [|sh a| | |]; cbn; auto; exact (Hp sh a eq_refl)).
  destruct (getLoop_values' sel m Bm N Nd I Bl) as (vs & Ev & Hv). exists vs. split; [exact Hv|]. intros Z.
  assert (EC : checkConsistency S = Ok (o, m)).
  { unfold checkConsistency. rewrite Ho, Hm. destruct (Nat.eqb_spec (rawLen (st_raw S)) 0); [contradiction|]. now rewrite (proj2 (hasDup_iff _) N). }
  assert (EO : optimize S names fo min =
    (let* r := minimize (min (map valNode vs)) (set_sel S sel) in let '(S1, x) := r in
     let* S2 := setPoint S1 x in let* S3 := fit S2 fo false in Ok (set_sel S3 []))%res).
  { unfold optimize. rewrite EC. cbn [bind]. rewrite En. destruct sel as [|s sel']; [congruence|]. unfold getSelected. rewrite Ev. cbn [bind].
    destruct vs; [inversion Hv|]. reflexivity. }
  assert (D : during S m sel (set_sel S sel)).
  { split; [constructor; reflexivity|]. split; [reflexivity|]. exists m. auto. }
  pose proof (minimize_spec S o m sel Ho NA Bm N Ne Nd I Bl (min (map valNode vs)) (set_sel S sel) D Z) as M.
  rewrite EO. destruct (outcome _ _) as [x|e]; [|now rewrite M].
  destruct M as (A' & -> & D' & Lx). cbn [bind]. rewrite (setPoint_ok S m sel Bm N Ne Nd I Bl A' x D' Lx). cbn [bind].
  pose proof (fit_alike S A' (atPoint m sel x) fo false (proj1 D')) as G. unfold agree in G.
  destruct (fit (withModel A' (atPoint m sel x)) fo false) as [S3|e3] eqn:E3.
  2:{ destruct (fit (withModel S (atPoint m sel x)) fo false); [contradiction|]. now subst. }
  destruct (fit (withModel S (atPoint m sel x)) fo false) as [A|]; [|contradiction]. cbn [bind].
  destruct G as (G1 & G2 & G3 & G4 & G5).
  destruct (withModel_during S o m sel Ho A' x D' Lx) as (W1 & W2 & W3 & W4).
  destruct (fit_keeps _ o _ _ _ E3 W1 NA) as (K1 & K2 & K3). pose proof (alike_trans _ _ _ W2 K1) as K.
  exists (set_sel S3 []). split; [reflexivity|]. split.
  { repeat split; cbn; auto. }
  split; [cbn; congruence|]. split; [reflexivity|]. split; [|split].
  - intros i n Ei v. rewrite (assocs_point m sel x n v Bm). rewrite (lookup_nth sel (map HNum x) i n (HNum f0) Nd Ei) by (rewrite map_length; lia).
    rewrite map_nth. split; [intros (u & _ & ->); reflexivity|]. intros ->.
    destruct (in_assocs m n Bm) as [u Hu]; [apply I; eapply nth_error_In; eauto|]. exists u. auto.
  - intros n Hn v. rewrite (assocs_point m sel x n v Bm), lookup_notin by auto. split; [intros (u & Hu & ->); auto|intros Hu; exists v; auto].
  - destruct K. cbn. repeat split; congruence.
Qed.

(** ** default selection *)
Lemma changepointNames_TM {F} k names vals p (ms : list (tm F)) :
  changepointNames (TM k names vals p ms) = (flat_map changepointNames ms ++ match k with KChange => names | _ => [] end)%list.
Proof.
  unfold changepointNames. cbn. rewrite flat_map_app, flat_map_map. f_equal. destruct k; try reflexivity. apply flat_map_flatten_Leaf.
Qed.
Lemma breakpointNames_TM {F} k names vals p (ms : list (tm F)) :
  breakpointNames (TM k names vals p ms) = (flat_map breakpointNames ms ++ match k with KSerial _ => names | _ => [] end)%list.
Proof.
  unfold breakpointNames. cbn. rewrite flat_map_app, flat_map_map. f_equal. destruct k; try reflexivity. apply flat_map_flatten_Leaf.
Qed.
Lemma point_iff {F} (m : tm F) n : point m n <-> In n (changepointNames m) \/ In n (breakpointNames m).
Proof.
  induction m as [k names vals p ms IH] using tm_ind'. rewrite changepointNames_TM, breakpointNames_TM, !in_app_iff, !in_flat_map.
  rewrite Forall_forall in IH. split.
  - intros P. inversion P; subst; auto.
    match goal with HI : In ?m0 ms, HP : point ?m0 n |- _ => apply IH in HP; [destruct HP; [left|right]; left; eauto|exact HI] end.
  - intros [[(m' & I1 & I2)|I]|[(m' & I1 & I2)|I]].
    + eapply pt_sub; [exact I1|]. apply IH; auto.
    + destruct k; try destruct I; now constructor.
    + eapply pt_sub; [exact I1|]. apply IH; auto.
    + destruct k; try destruct I; now constructor.
Qed.

(** Without names, the hyper-parameters that are not change- or break-points are optimised, provided there are any. *)
Theorem C50_default : forall (F L : Type) (NF : Num F) (NL : LogNum F L) (S : study F L) m fo min,
  st_tm S = Some m -> (exists n, In n (allNames m) /\ ~ point m n) ->
  exists sel, sel <> [] /\ (forall n, In n sel <-> In n (allNames m) /\ ~ point m n) /\ (NoDup (allNames m) -> NoDup sel) /\
    optimize S (Names []) fo min = optimize S (Names sel) fo min.
Proof.
  intros F L NF NL S m fo min Hm (n0 & I0 & P0). exists (defaultSelection m).
  assert (Q : forall n, In n (defaultSelection m) <-> In n (allNames m) /\ ~ point m n).
  { intros n. unfold defaultSelection. rewrite filter_In. apply and_iff_compat_l. rewrite negb_true_iff. rewrite point_iff, <- in_app_iff.
    split.
    - intros E C. assert (X : existsb (String.eqb n) (changepointNames m ++ breakpointNames m)%list = true); [|congruence].
      apply existsb_exists. exists n. split; [exact C|apply String.eqb_refl].
    - intros C. destruct (existsb _ _) eqn:E; auto. exfalso. apply C. apply existsb_exists in E as (y & Iy & Ey). apply String.eqb_eq in Ey. now subst. }
  assert (Ne : defaultSelection m <> []).
  { intros E. assert (X : In n0 (defaultSelection m)) by (apply Q; auto). rewrite E in X. destruct X. }
  split; [exact Ne|]. split; [exact Q|]. split; [intros; now apply NoDup_filter|].
  unfold optimize, checkConsistency. destruct (Nat.eqb _ _); [reflexivity|]. destruct (st_om S); [|reflexivity]. rewrite Hm.
  destruct (hasDup _); [reflexivity|]. cbn [bind namesOf]. destruct (defaultSelection m); [congruence|reflexivity].
Qed.

(** ** wrong selections *)
Lemma getLoop_unknown {F} sel bad sel' : forall (m : tm F) g, named m -> NoDup (allNames m) -> NoDup sel -> incl sel (allNames m) -> ~ In " " sel ->
  keeps g sel -> (forall s, In s (allNames m) -> g s <> bad) -> bad <> " " ->
  getLoop (sel ++ bad :: sel') (nlmap g (unpackNames m)) (unpackVals m) = Err ConfigurationError.
Proof.
  induction sel as [|name sel IH]; intros m g W N Ns I B K Hb Nb.
  - cbn [app getLoop]. rewrite recursiveIndex_none; [reflexivity|]. rewrite flatten_nlmap. intros C. apply in_map_iff in C. destruct C as (s & E & Hs). exact (Hb s Hs E).
  - cbn [app getLoop]. destruct (find_name m W N g name HNone) as (p & E1 & E2 & _ & E4 & v & E5 & E6).
    { intros s _. apply K. now left. }
    { apply I. now left. }
    rewrite E1. destruct p as [|i p]; [contradiction|]. inversion Ns as [|n' s' Nn Ns']; subst.
    rewrite E6. cbn [bind]. rewrite E4. cbn [bind]. rewrite IH; auto.
    + intros n Hn. apply I. now right.
    + intros C; apply B; now right.
    + apply keeps_next; auto; intros C; apply B; now right.
    + intros s Hs. destruct (String.eqb s name); [congruence|auto].
Qed.
(** A name that the model does not have, and a model without hyper-parameters: ConfigurationError, whatever the
    minimiser is. *)
Theorem C50_errors : forall (F L : Type) (NF : Num F) (NL : LogNum F L) (S : study F L) m fo min, st_tm S = Some m -> built m ->
  (forall sel bad sel', NoDup (allNames m) -> NoDup sel -> incl sel (allNames m) -> ~ In " " sel -> ~ In bad (allNames m) -> bad <> " " ->
     optimize S (Names (sel ++ bad :: sel')) fo min = Err ConfigurationError) /\
  (allNames m = [] -> optimize S (Names []) fo min = Err ConfigurationError).
Proof.
  intros F L NF NL S m fo min Hm Bm. apply built_named in Bm. unfold optimize, checkConsistency.
  destruct (Nat.eqb _ _); [split; reflexivity|]. destruct (st_om S); [|split; reflexivity]. rewrite Hm. split.
  - intros sel bad sel' N Nd I Bl Hb Nb. rewrite (proj2 (hasDup_iff _) N). cbn [bind namesOf].
    destruct (sel ++ bad :: sel')%list eqn:E; [destruct sel; discriminate|]. rewrite <- E. unfold getSelected. rewrite E. rewrite <- E.
    rewrite <- (nlmap_id (unpackNames m)). rewrite getLoop_unknown; auto using keeps_id. intros x Hx ->. auto.
  - intros EN. rewrite EN. cbn [hasDup bind namesOf]. unfold defaultSelection. rewrite EN. cbn [filter getSelected bind].
    assert (EV : allValues m = []).
    { pose proof (assocs_names m Bm) as X. rewrite EN in X. apply map_eq_nil in X.
      rewrite assocs_values; auto; rewrite X; cbn; auto. }
    rewrite EV. reflexivity.
Qed.

(** a minimiser that compares two points *)
Definition better {F L} `{Num F} `{LogNum F L} (a b : list F) : minimiser F L :=
  Ask a (fun va => Ask b (fun vb => Return (if match va, vb with Fin x, Fin y => lltb x y | _, _ => false end then a else b))).

Lemma two_built : built (F := Q) (comb [notEq2; change "c" 1%Q]).
Proof.
  eapply (b_comb [notEq2; change "c" 1%Q]); [|reflexivity]. constructor; [apply (b_notEq "q" (VNum (fofZ (-2))))|]. constructor; [apply (b_change "c" (VNum 1%Q))|constructor].
Qed.
Example C50_ex : exists S : study Q Q, setup (data [1; 0; 1]%Z) None (coinOM quarters slope) (comb [notEq2; change "c" 1%Q]) = Ok S /\
  st_om S = Some (coinOM quarters slope) /\ (forall sh a, om_prior (coinOM quarters (slope (F := Q))) <> PArr sh a) /\ st_tm S = Some (comb [notEq2; change "c" 1%Q]) /\
  rawLen (st_raw S) <> 0 /\ built (comb [notEq2; change "c" 1%Q]) /\ NoDup (allNames (comb [notEq2; change "c" 1%Q])) /\
  incl ["q"] (allNames (comb [notEq2; change "c" 1%Q])) /\ sized 1 (better (L := Q) [(-3)%Q] [(-1)%Q]) /\
  outcome (objective S (comb [notEq2; change "c" 1%Q]) ["q"]) (better [(-3)%Q] [(-1)%Q]) = Ok [(-3)%Q] /\
  point (comb [notEq2; change "c" 1%Q]) "c" /\ (exists n, In n (allNames (comb [notEq2; change "c" 1%Q])) /\ ~ point (comb [notEq2; change "c" 1%Q]) n).
Proof.
  assert (E : (let* S0 := setup (L := Q) (data [1; 0; 1]%Z) None (coinOM quarters slope) (comb [notEq2; change "c" 1%Q]) in
     Ok (outcome (objective S0 (comb [notEq2; change "c" 1%Q]) ["q"]) (better [(-3)%Q] [(-1)%Q]), rawLen (st_raw S0)))%res = Ok (Ok [(-3)%Q], 3)) by (vm_compute; reflexivity).
  run E. exists x. split; [exact Run|]. assert (st_om x = Some (coinOM quarters slope) /\ st_tm x = Some (comb [notEq2; change "c" 1%Q])) as [E1 E2].
  { clear - Run. unfold setup in Run. cbn in Run. injection Run as <-. split; reflexivity. }
  split; [exact E1|]. split; [discriminate|]. split; [exact E2|]. split; [congruence|]. split; [exact two_built|].
  split; [repeat constructor; cbn; intuition discriminate|]. split; [intros n [<-|[]]; cbn; auto|].
  split; [cbn [better sized]; split; [reflexivity|]; intros va; split; [reflexivity|]; intros vb; match goal with |- context [if ?b then _ else _] => destruct b; reflexivity end|]. split; [assumption|]. split.
  - eapply pt_sub; [right; left; reflexivity|]. constructor. now left.
  - exists "q". split; [now left|]. intros P. apply point_iff in P. cbn in P. intuition discriminate.
Qed.
Example C50_executed :
  (let* S0 := setup (L := Q) (data [1; 0; 1]%Z) None (coinOM quarters slope) (comb [notEq2; change "c" 1%Q]) in
   let* S1 := optimize S0 (OneName "q") false (fun _ => better [(-3)%Q] [(-1)%Q]) in
   let* S2 := optimize S0 (Names []) false (fun _ => better [(-3)%Q] [(-1)%Q]) in
   let* A := fit (set_tm S0 (comb [TM KNotEq ["q"] [HNum (-3)%Q] (Some (Leaf HPNone)) []; change "c" 1%Q]) (st_tmlat S0)) false false in
   Ok (st_logEv S1, st_logEv S2, st_logEv A, option_map assocs (st_tm S1), option_map assocs (st_tm S2)))%res =
  Ok (Fin (6664637 # 119837952), Fin (6664637 # 119837952), Fin (6664637 # 119837952),
      Some [("q", HNum (-3)%Q); ("c", HNum 1%Q)], Some [("q", HNum (-3)%Q); ("c", HNum 1%Q)]).
Proof. vm_compute. reflexivity. Qed.
(** A model whose only hyper-parameters are change- or break-points: without names, the change-point itself is moved. *)
Theorem C50_default_refuted : exists S S' : study Q Q, exists m,
  setup (data [1; 0; 1]%Z) None (coinOM quarters slope) (change "c" 1%Q) = Ok S /\
  optimize S (Names []) false (fun _ => Return [0%Q]) = Ok S' /\ st_tm S' = Some m /\
  point m "c" /\ assocs m = [("c", HNum 0%Q)].
Proof.
  assert (E : (let* S0 := setup (L := Q) (data [1; 0; 1]%Z) None (coinOM quarters slope) (change "c" 1%Q) in
    let* S1 := optimize S0 (Names []) false (fun _ => Return [0%Q]) in Ok (st_tm S1))%res = Ok (Some (change "c" 0%Q))) by (vm_compute; reflexivity).
  run E. do 3 eexists. repeat (split; [eassumption|]). split; [constructor; now left|reflexivity].
Qed.
(** A prior given as an array is overwritten by the fits of the optimisation: the results are not those of a fit with
    the optimal values. *)
Theorem C50_array_refuted : exists S S' A : study Q Q,
  setup (data [1; 0; 1]%Z) None (coinOM quarters (PArr [3] [Fin 1%Q; Fin 2%Q; Fin 1%Q])) (comb [notEq2; change "c" 1%Q]) = Ok S /\
  optimize S (OneName "q") false (fun _ => better [(-3)%Q] [(-1)%Q]) = Ok S' /\
  fit (set_tm S (comb [TM KNotEq ["q"] [HNum (-3)%Q] (Some (Leaf HPNone)) []; change "c" 1%Q]) (st_tmlat S)) false false = Ok A /\
  st_tm S' = st_tm A /\ st_logEv S' <> st_logEv A.
Proof.
  assert (E : (let* S0 := setup (L := Q) (data [1; 0; 1]%Z) None (coinOM quarters (PArr [3] [Fin 1%Q; Fin 2%Q; Fin 1%Q])) (comb [notEq2; change "c" 1%Q]) in
    let* S1 := optimize S0 (OneName "q") false (fun _ => better [(-3)%Q] [(-1)%Q]) in
    let* A := fit (set_tm S0 (comb [TM KNotEq ["q"] [HNum (-3)%Q] (Some (Leaf HPNone)) []; change "c" 1%Q]) (st_tmlat S0)) false false in
    Ok (st_tm S1, st_tm A, st_logEv S1, st_logEv A))%res = Ok (Some (comb [TM KNotEq ["q"] [HNum (-3)%Q] (Some (Leaf HPNone)) []; change "c" 1%Q]), Some (comb [TM KNotEq ["q"] [HNum (-3)%Q] (Some (Leaf HPNone)) []; change "c" 1%Q]),
      Fin (7600703 # 454769664), Fin (45009 # 1024256))) by (vm_compute; reflexivity).
  run E. do 3 eexists. repeat (split; [eassumption|]). split; congruence.
Qed.
