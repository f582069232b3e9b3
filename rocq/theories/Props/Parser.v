(** Queries of the parser: C40, C41, C42. *)
From Coq Require Import List ZArith Reals Lra Lia Arith Bool String QArith Permutation.
From Verif Require Import Base.Num Base.Exn Base.Arr Base.RSum Base.Lift Model.Helper Model.Tm Model.HyperParams Model.Study Model.Getters Model.Hyper Model.Parser
  Spec.Kernel Spec.Hmm Spec.Dist Spec.ParserSpec Proof.FitThms Proof.GridProof Proof.ParserProof Proof.ParserLoad Proof.ParserPairs Proof.ParserDist.
Import ListNotations.
Local Open Scope R_scope.

(** ** Classes of parameters *)
Lemma loads_ok ss t : loads ss t -> exists tk params, position ss t tk /\ loadAll ss t = Ok params.
Proof.
  intros LD. destruct t as [u|]; cbn [loads] in LD.
  - destruct LD as (first & k & E0 & Hk & HS). exists (Some (u, k)).
    assert (Po : position ss (Some u) (Some (u, k))). { exists k. split; [|reflexivity]. unfold stampsOf. rewrite E0. now apply timeIndex_first. }
    destruct (load_ok ss (Some u) _ Po HS) as [params EL]. eauto.
  - exists None. assert (Po : position ss None None) by reflexivity. destruct (load_ok ss None _ Po LD) as [params EL]. eauto.
Qed.
Lemma reads_time ss t i shape h T N q env : reads ss t i shape h T N q env -> h = true \/ T <> None.
Proof. intros RD. inversion RD; subst; auto; right; discriminate. Qed.
Lemma reads_some ss t i shape h T N q env : reads ss t i shape h T N q env -> ss <> [].
Proof. intros RD ->. inversion RD; destruct i; discriminate. Qed.
Lemma names_of ss : studies ss -> ss <> [] -> parserNames ss = Ok (namesOfAll ss).
Proof. intros [ND _] NE. now apply parserNames_ok. Qed.
Lemma reads_P pow fn lb ss t params i shape h T N q env c : computes pow fn lb -> studies ss -> loadAll ss t = Ok params -> reads ss t i shape h T N q env -> (0 < N)%nat ->
  shape c -> Forall (fun n => env O n <> None) (namesIn c) -> P pow fn lb (stampsOf ss) params N i h T (map Fin (tab N q)) env c.
Proof.
  intros Lib St EL RD HN Sh Kn. pose proof (reads_time _ _ _ _ _ _ _ _ _ RD) as HT. rewrite Forall_forall in Kn.
  inversion RD as [i0 s u k N0 q0 Es KS HG Hk Hp|i0 s first u k N0 q0 Es HG E0 Hk Hp|i0 s l u N0 q0 Es Ho HG Hs|t0 i0 s N0 d Es HO HH HD
    |i0 s m u k ns hist N0 d Es HO Hk HH Hh HD|i0 s m first u k ns hist N0 d Es HO E0 Hk HH Hh HD|i0 s m l u ns N0 d Es HO Hs HH HD]; subst.
  - assert (Po : position ss None None) by reflexivity.
    apply P_stamped with (t := u) (rows := so_post s) (k := k); auto; [reflexivity|unfold stampsOf; rewrite Es; now apply timeIndex_first|].
    apply Forall_forall. intros n I.
    destruct (param_found ss None None params i s N Po St EL Es
      (fun nv => {| pa_vals := map Fin (snd nv); pa_prob := Prob2 (so_post s); pa_name := fst nv; pa_time := None; pa_study := Some i; pa_hyper := false |}) HG) with (n := n) (x := O)
      as (v & Ef & Ev & Hv); auto.
    + intros ps nv Eps Inv. unfold loadParams in Eps. apply (mapM_in _ _ _ nv _ Eps Inv). unfold keepsHistory in KS. destruct (so_online s) as [[[] m]|]; tauto || reflexivity.
    + exists {| pa_vals := map Fin v; pa_prob := Prob2 (so_post s); pa_name := n; pa_time := None; pa_study := Some i; pa_hyper := false |}, (fun x => nth x v 0).
      split; [exact Ef|]. split; [|exact Hv]. repeat split. cbn. now rewrite Ev at 1.
  - assert (Po : position ss (Some u) (Some (u, k))).
    { exists k. split; [|reflexivity]. unfold stampsOf. rewrite E0. now apply timeIndex_first. }
    apply P_unstamped; auto. apply Forall_forall. intros n I.
    destruct (param_found ss _ _ params i s N Po St EL Es
      (fun nv => {| pa_vals := map Fin (snd nv); pa_prob := Prob1 (map Fin (tab N q)); pa_name := fst nv; pa_time := Some u; pa_study := Some i; pa_hyper := false |}) HG) with (n := n) (x := O)
      as (v & Ef & Ev & Hv); auto.
    + intros ps nv Eps Inv. unfold loadParams in Eps. apply (mapM_in _ _ _ nv _ Eps Inv). unfold index. rewrite Hp. reflexivity.
    + exists {| pa_vals := map Fin v; pa_prob := Prob1 (map Fin (tab N q)); pa_name := n; pa_time := Some u; pa_study := Some i; pa_hyper := false |}, (fun x => nth x v 0).
      split; [exact Ef|]. split; [|exact Hv]. repeat split. cbn. now rewrite Ev at 1.
  - assert (Po : position ss None None) by reflexivity.
    assert (Eu : lastStamp (so_stamps s) = Ok u) by (unfold lastStamp; rewrite Hs, rev_app_distr; reflexivity).
    apply P_unstamped; auto. apply Forall_forall. intros n I.
    destruct (param_found ss _ _ params i s N Po St EL Es
      (fun nv => {| pa_vals := map Fin (snd nv); pa_prob := Prob1 (map Fin (tab N q)); pa_name := fst nv; pa_time := Some u; pa_study := Some i; pa_hyper := false |}) HG) with (n := n) (x := O)
      as (v & Ef & Ev & Hv); auto.
    + intros ps nv Eps Inv. unfold loadParams in Eps. apply (mapM_in _ _ _ nv _ Eps Inv). rewrite Ho, Eu. reflexivity.
    + exists {| pa_vals := map Fin v; pa_prob := Prob1 (map Fin (tab N q)); pa_name := n; pa_time := Some u; pa_study := Some i; pa_hyper := false |}, (fun x => nth x v 0).
      split; [exact Ef|]. split; [|exact Hv]. repeat split. cbn. now rewrite Ev at 1.
  - assert (Po : exists tk, position ss t tk).
    { destruct t as [u|]; [|exists None; reflexivity]. unfold loadAll in EL. destruct (timeIndex (stampsOf ss 0) u) as [k|] eqn:Ek; [|discriminate]. exists (Some (u, k)), k. auto. }
    destruct Po as [tk Po]. apply P_unstamped; auto. apply Forall_forall. intros n I. rewrite Forall_forall in HH.
    destruct (hyper_found ss _ _ params i s N Po St EL Es
      (fun h => {| pa_vals := map Fin (snd (fst (fst h))); pa_prob := Prob1 (map Fin (tab N (fun x => d x / Rsum (tab N d)))); pa_name := fst (fst (fst h)); pa_time := None; pa_study := Some i; pa_hyper := true |}))
      with (n := n) (x := O) as (h & v & Ih & Ef & Ev & Hv); auto.
    + intros h Ih. now apply HH.
    + intros ps h Eps Ih. unfold loadHyper in Eps. apply (mapM_in _ _ _ h _ Eps Ih). destruct h as [[[n' v] hi] cur]. rewrite HO. do 3 f_equal.
      destruct (HH _ Ih) as [_ Ec]. cbn in Ec. subst cur. unfold normed. rewrite asum_fin, adivs_fin by auto. f_equal. now rewrite rdivs_tab.
    + eexists. exists v. split; [exact Ef|]. split; [|exact Hv]. repeat split. cbn. now rewrite Ev.
  - assert (Po : position ss None None) by reflexivity. pose (rows := map (fun d => Some (normed (F := R) d)) hist).
    assert (Er : nth_error rows k = Some (Some (map Fin (tab N (fun x => d x / Rsum (tab N d)))))).
    { unfold rows. rewrite nth_error_map, Hh. cbn [option_map]. do 2 f_equal. unfold normed. rewrite asum_fin, adivs_fin by auto. f_equal. now rewrite rdivs_tab. }
    apply P_stamped with (t := u) (rows := rows) (k := k); auto; [reflexivity|unfold stampsOf; rewrite Es; now apply timeIndex_first|].
    apply Forall_forall. intros n I.
    destruct (hyper_in ss _ _ params i s N Po St EL Es ns
      (fun h => {| pa_vals := map Fin (snd (fst (fst h))); pa_prob := Prob2 rows; pa_name := fst (fst (fst h)); pa_time := None; pa_study := Some i; pa_hyper := true |}))
      with (n := n) (x := O) as (h & v & Ef & Ev & Hv); auto.
    + intros h Ih In'. now apply HH.
    + intros ps h Eps Ih In'. unfold loadHyper in Eps. apply (mapM_in _ _ _ h _ Eps Ih). destruct (HH _ Ih In') as [_ Ec]. destruct h as [[[n' v] hi] cur]. rewrite HO. cbn in Ec. subst hi. reflexivity.
    + eexists. exists v. split; [exact Ef|]. split; [|exact Hv]. repeat split. cbn. now rewrite Ev.
  - assert (Po : position ss (Some u) (Some (u, k))).
    { exists k. split; [|reflexivity]. unfold stampsOf. rewrite E0. now apply timeIndex_first. }
    apply P_unstamped; auto. apply Forall_forall. intros n I.
    destruct (hyper_in ss _ _ params i s N Po St EL Es ns
      (fun h => {| pa_vals := map Fin (snd (fst (fst h))); pa_prob := Prob1 (map Fin (tab N (fun x => d x / Rsum (tab N d)))); pa_name := fst (fst (fst h)); pa_time := Some u; pa_study := Some i; pa_hyper := true |}))
      with (n := n) (x := O) as (h & v & Ef & Ev & Hv); auto.
    + intros h Ih In'. now apply HH.
    + intros ps h Eps Ih In'. unfold loadHyper in Eps. apply (mapM_in _ _ _ h _ Eps Ih). destruct (HH _ Ih In') as [_ Ec]. destruct h as [[[n' v] hi] cur]. rewrite HO. cbn in Ec. subst hi.
      unfold index. rewrite Hh. cbn [bind]. do 2 f_equal. unfold normed. rewrite asum_fin, adivs_fin by auto. f_equal. now rewrite rdivs_tab.
    + eexists. exists v. split; [exact Ef|]. split; [|exact Hv]. repeat split. cbn. now rewrite Ev.
  - assert (Po : position ss None None) by reflexivity.
    assert (Eu : lastStamp (so_stamps s) = Ok u) by (unfold lastStamp; rewrite Hs, rev_app_distr; reflexivity).
    apply P_unstamped; auto. apply Forall_forall. intros n I.
    destruct (hyper_in ss _ _ params i s N Po St EL Es ns
      (fun h => {| pa_vals := map Fin (snd (fst (fst h))); pa_prob := Prob1 (map Fin (tab N (fun x => d x / Rsum (tab N d)))); pa_name := fst (fst (fst h)); pa_time := Some u; pa_study := Some i; pa_hyper := true |}))
      with (n := n) (x := O) as (h & v & Ef & Ev & Hv); auto.
    + intros h Ih In'. now apply HH.
    + intros ps h Eps Ih In'. unfold loadHyper in Eps. apply (mapM_in _ _ _ h _ Eps Ih). destruct (HH _ Ih In') as [_ Ec]. destruct h as [[[n' v] hi] cur]. rewrite HO, Eu. cbn in Ec. subst cur.
      cbn [bind]. do 2 f_equal. unfold normed. rewrite asum_fin, adivs_fin by auto. f_equal. now rewrite rdivs_tab.
    + eexists. exists v. split; [exact Ef|]. split; [|exact Hv]. repeat split. cbn. now rewrite Ev.
Qed.
Lemma evaluates_known pow fn env N (c : cst (F := R)) m : (0 < N)%nat -> evaluates pow fn env N c m -> Forall (fun n => env O n <> None) (namesIn c).
Proof. intros HN Hm. exact (meaning_known _ _ _ _ _ (Hm O HN)). Qed.
Lemma shape_reduced ss t i shape h T N q env lhs rhs : reads ss t i shape h T N q env -> shape lhs -> shape rhs -> shape (reduced lhs rhs).
Proof. intros RD. inversion RD; subst; intros; apply reduced_stamped || apply reduced_unstamped; auto. Qed.

(** ** C40: probabilities of relations *)
(** The two expressions may contain +, -, *, /, ^, functions, brackets, numbers and any names of one study at one time. The relation's
    probability is the total probability of the points at which it holds. *)
Theorem C40_relation pow fn lb ss t i shape h time N q env lhs r rhs a b :
  computes pow fn lb -> studies ss -> loads ss t -> reads ss t i shape h time N q env -> (0 < N)%nat ->
  shape lhs -> shape rhs -> namesIn lhs ++ namesIn rhs <> [] -> evaluates pow fn env N lhs a -> evaluates pow fn env N rhs b ->
  call lb ss (QRel lhs r rhs) t = Ok (AProb (Fin (probability N q r a b))).
Proof.
  intros Lib St LD RD HN Hl Hr NE Ha Hb. destruct (loads_ok _ _ LD) as (tk & params & Po & EL).
  eapply call_rel; eauto. { apply names_of; auto. eapply reads_some; eauto. }
  eapply reads_P; eauto; [eapply shape_reduced; eauto|]. apply Forall_forall. intros n I. apply reduced_names in I.
  pose proof (evaluates_known _ _ _ _ _ _ HN Ha) as Ka. pose proof (evaluates_known _ _ _ _ _ _ HN Hb) as Kb. rewrite Forall_forall in Ka, Kb. destruct I; auto.
Qed.

(** rules of the probabilities returned *)
Lemma probability_all N q r r' a b : (forall x y, holds r x y = negb (holds r' x y)) -> probability N q r a b + probability N q r' a b = Rsum (tab N q).
Proof.
  intros Hr. unfold probability. rewrite !Rsum_tab, <- rsum_plus. apply rsum_ext. intros x _. rewrite Hr. destruct (holds r' (a x) (b x)); cbn; lra.
Qed.
Lemma probability_sum N q r1 r2 r a b : (forall x y, holds r x y = holds r1 x y || holds r2 x y) -> (forall x y, holds r1 x y && holds r2 x y = false) ->
  probability N q r a b = probability N q r1 a b + probability N q r2 a b.
Proof.
  intros H1 H2. unfold probability. rewrite !Rsum_tab, <- rsum_plus. apply rsum_ext. intros x _. rewrite H1. specialize (H2 (a x) (b x)).
  destruct (holds r1 (a x) (b x)), (holds r2 (a x) (b x)); cbn in *; try discriminate; lra.
Qed.
Ltac holdsR := intros x y; unfold holds; destruct (Rge_dec x y), (Rle_dec x y), (Req_EM_T x y), (Rgt_dec x y), (Rlt_dec x y); try reflexivity; exfalso; lra.
Theorem C40_rules lb ss t lhs rhs N q a b :
  (forall r, call lb ss (QRel lhs r rhs) t = Ok (AProb (Fin (probability N q r a b)))) -> Rsum (tab N q) = 1 -> (forall x, (x < N)%nat -> 0 <= q x) ->
  exists P : rel -> R, (forall r, call lb ss (QRel lhs r rhs) t = Ok (AProb (Fin (P r)))) /\
    P RGt + P RLe = 1 /\ P RLt + P RGe = 1 /\ P RGe = P RGt + P REq /\ P RLe = P RLt + P REq /\ P RGt + P RLt + P REq = 1 /\ (forall r, 0 <= P r <= 1).
Proof.
  intros Hc S1 Q0. exists (fun r => probability N q r a b). split; [exact Hc|].
  assert (A1 : probability N q RGt a b + probability N q RLe a b = 1) by (rewrite <- S1; apply probability_all; holdsR).
  assert (A2 : probability N q RLt a b + probability N q RGe a b = 1) by (rewrite <- S1; apply probability_all; holdsR).
  assert (A3 : probability N q RGe a b = probability N q RGt a b + probability N q REq a b) by (apply probability_sum; holdsR).
  assert (A4 : probability N q RLe a b = probability N q RLt a b + probability N q REq a b) by (apply probability_sum; holdsR).
  repeat split; try lra.
  - unfold probability. rewrite Rsum_tab. apply rsum_nonneg. intros x Hx. destruct (holds r (a x) (b x)); [auto|lra].
  - unfold probability. rewrite <- S1, !Rsum_tab. apply rsum_le. intros x Hx. destruct (holds r (a x) (b x)); [lra|auto].
Qed.

(** ** C41: operands taken as independent *)
Lemma tree_reduced (lhs rhs : cst (F := R)) : noSum lhs -> tree (reduced lhs rhs) = Node [tree (CProd (CNum (fneg f1)) [(true, CPar rhs)]); Tok (TOp SAdd); tree lhs].
Proof. destruct lhs; intros NS; try contradiction; reflexivity. Qed.
Section Two.
  Variables (pow : R -> R -> option R) (fn : string -> R -> option R) (lb : lib (F := R)) (ss : list src) (t : option R).
  Variables (i i' : nat) (shape shape' : cst (F := R) -> Prop) (h h' : bool) (T T' : option R) (N N' : nat) (q q' : nat -> R) (env env' : nat -> string -> option R).
  Variables (lhs rhs : cst (F := R)) (a b : nat -> R) (n n' : string).
  Hypotheses (Lib : computes pow fn lb) (St : studies ss) (LD : loads ss t).
  Hypotheses (RD : reads ss t i shape h T N q env) (RD' : reads ss t i' shape' h' T' N' q' env').
  Hypotheses (HN : (0 < N)%nat) (HN' : (0 < N')%nat).
  Hypotheses (Hl : shape lhs) (Hr : shape' rhs) (NS : noSum lhs) (Fl : firstName lhs n) (Fr : firstName rhs n').
  Hypotheses (Ha : evaluates pow fn env N lhs a) (Hb : evaluates pow fn env' N' rhs b).

  Lemma two_operands params : loadAll ss t = Ok params ->
    exists e e', evalElem lb (stampsOf ss) params (tree (reduced lhs rhs)) = operation lb (stampsOf ss) params (ETok (TOp SAdd)) e' e /\
      goodE params N i h T (map Fin (tab N q)) (namesIn lhs) e a /\ goodE params N' i' h' T' (map Fin (tab N' q')) (namesIn rhs) e' (fun y => - b y).
  Proof.
    intros EL.
    assert (Pl : P pow fn lb (stampsOf ss) params N i h T (map Fin (tab N q)) env lhs) by exact (reads_P pow fn lb ss t params i shape h T N q env lhs Lib St EL RD HN Hl (evaluates_known _ _ _ _ _ _ HN Ha)).
    assert (Pr : P pow fn lb (stampsOf ss) params N' i' h' T' (map Fin (tab N' q')) env' (CProd (CNum (fneg f1)) [(true, CPar rhs)])).
    { assert (Pr : P pow fn lb (stampsOf ss) params N' i' h' T' (map Fin (tab N' q')) env' rhs) by exact (reads_P pow fn lb ss t params i' shape' h' T' N' q' env' rhs Lib St EL RD' HN' Hr (evaluates_known _ _ _ _ _ _ HN' Hb)).
      pose proof (reads_time _ _ _ _ _ _ _ _ _ RD') as HT'. assert (Pn : P pow fn lb (stampsOf ss) params N' i' h' T' (map Fin (tab N' q')) env' (CNum (fneg f1))) by (apply P_num; auto).
      apply P_prod; auto. }
    destruct (Pl a Ha) as (e & Ee & Ge). destruct (Pr (fun y => - b y)) as (e' & Ee' & Ge').
    { intros y Hy. cbn [meaning fold_left fst snd lift2]. rewrite (Hb y Hy). cbn [lift2]. f_equal. change (@fneg R NumR (@f1 R NumR)) with (0 - 1). ring. }
    exists e, e'. split; [|split; [exact Ge|]].
    - rewrite tree_reduced by auto. rewrite (evalElem_node lb (stampsOf ss) params N HN) by (cbn; lia). cbn [map]. rewrite Ee, Ee', evalList_chain by (destruct Ge' as (? & _ & _ & NF); exact NF).
      cbn [chain evalElem]. reflexivity.
    - cbn [namesIn flat_map app snd] in Ge'. rewrite app_nil_r in Ge'. exact Ge'.
  Qed.
  Lemma call_pairs r : Rsum (tab N q) = 1 -> Rsum (tab N' q') = 1 -> apart i' i h' h T' T n' n ->
    call lb ss (QRel lhs r rhs) t = Ok (AProb (Fin (pairProbability N q N' q' r a b))).
  Proof.
    intros S1 S2 Ap. destruct (loads_ok _ _ LD) as (tk & params & Po & EL). unfold call.
    rewrite names_of by (auto; eapply reads_some; eauto). cbn [bind]. rewrite EL. cbn [bind].
    destruct (reduced_node lhs rhs) as (l & El & Ll). rewrite El. rewrite (evaluate_elem _ _ _ _ N) by auto. rewrite <- El.
    destruct (two_operands params EL) as (e & e' & Eo & Ge & Ge'). rewrite Eo.
    pose proof (reads_time _ _ _ _ _ _ _ _ _ RD) as HT. pose proof (reads_time _ _ _ _ _ _ _ _ _ RD') as HT'.
    assert (O1 : SAdd <> SAt) by discriminate. assert (O2 : SAdd <> SFunc) by discriminate.
    rewrite (op_pairs pow fn lb Lib (stampsOf ss) params N' N i' i h' h T' T q' q HN' HN HT' HT S2 S1 SAdd _ _ _ _ _ _ (fun y x => a x - b y) O1 O2 Ge' Ge).
    - cbn [bind toVal]. cbn [pa_vals pa_prob derived]. rewrite (derived_prob N' N q' q r (fun y x => a x - b y)). cbn [bind]. rewrite asum_fin. do 3 f_equal. rewrite Rsum_filter. unfold pt. rewrite Rsum_list_prod.
      cbn [fst snd]. fold (tab N' (fun y => Rsum (map (fun x => if relHolds r (Fin (a x - b y)) (Fin f0) then q' y * q x else 0) (seq 0 N)))).
      unfold pairProbability, pairsWhere. rewrite !Rsum_tab. rewrite (rsum_ext N) with (g := fun x => rsum N' (fun y => if holds r (a x) (b y) then q x * q' y else 0)) by (intros; now rewrite Rsum_tab).
      rewrite rsum_swap. apply rsum_ext. intros y Hy. fold (tab N (fun x => if relHolds r (Fin (a x - b y)) (Fin f0) then q' y * q x else 0)). rewrite Rsum_tab.
      apply rsum_ext. intros x Hx. rewrite relHolds_diff. destruct (holds r (a x) (b y)); ring.
    - exists n', n. auto.
    - intros y x Hy Hx. cbn [arithR]. f_equal. ring.
  Qed.
  Lemma call_mixed r : N' = N -> i' = i -> h = false -> h' = false -> T <> T' -> n <> n' ->
    call lb ss (QRel lhs r rhs) t = Ok (AProb (Fin (probability N q' r a b))).
  Proof.
    intros EN Ei Eh Eh' NT Nn. destruct (loads_ok _ _ LD) as (tk & params & Po & EL). unfold call.
    rewrite names_of by (auto; eapply reads_some; eauto). cbn [bind]. rewrite EL. cbn [bind].
    destruct (reduced_node lhs rhs) as (l & El & Ll). rewrite El. rewrite (evaluate_elem _ _ _ _ N) by auto. rewrite <- El.
    destruct (two_operands params EL) as (e & e' & Eo & Ge & Ge'). rewrite Eo.
    pose proof (reads_time _ _ _ _ _ _ _ _ _ RD) as HT. pose proof (reads_time _ _ _ _ _ _ _ _ _ RD') as HT'.
    assert (O1 : SAdd <> SAt) by discriminate. assert (O2 : SAdd <> SFunc) by discriminate.
    destruct (op_mixed pow fn lb Lib (stampsOf ss) params N' N i' i h' h T' T q' q HT' HT SAdd _ _ _ _ _ _ (fun x => a x - b x) (eq_sym EN) (eq_sym Ei) Eh' Eh (fun E => NT (eq_sym E)) O1 O2 Ge' Ge) as (v & Ev & Gv).
    - exists n', n. auto.
    - intros x Hx. cbn [arithR]. f_equal. ring.
    - rewrite Ev. cbn [bind toVal]. inversion Gv as [np rr m Z Hf Hv|p m n0 l0 Np C Hl0]; subst; [unfold firstName in Fr; destruct (namesIn rhs); discriminate|].
      destruct C as (Ev' & Ep & _). rewrite Ev', Ep. cbn [maskedProb]. unfold tab at 1. rewrite !map_map, masked_sum. cbn [bind]. rewrite asum_fin. do 3 f_equal.
      rewrite filter_sum. unfold probability. f_equal. apply tab_ext. intros x Hx. now rewrite relHolds_diff.
  Qed.
End Two.
(** Operands of different studies, a parameter and a hyper-parameter, or the same parameter at different times (the first names in
    the two expressions decide): the answer is the total product probability of the pairs of points at which the relation holds.
    The left side may not be a sum without brackets, see [C41_brackets_refuted]. *)
Theorem C41_independent pow fn lb ss t i i' shape shape' h h' time time' N N' q q' env env' lhs r rhs a b n n' :
  computes pow fn lb -> studies ss -> loads ss t -> reads ss t i shape h time N q env -> reads ss t i' shape' h' time' N' q' env' ->
  (0 < N)%nat -> (0 < N')%nat -> shape lhs -> shape' rhs -> noSum lhs -> firstName lhs n -> firstName rhs n' ->
  evaluates pow fn env N lhs a -> evaluates pow fn env' N' rhs b -> Rsum (tab N q) = 1 -> Rsum (tab N' q') = 1 ->
  i <> i' \/ h <> h' \/ (h = false /\ h' = false /\ n = n' /\ time <> time') ->
  call lb ss (QRel lhs r rhs) t = Ok (AProb (Fin (pairProbability N q N' q' r a b))).
Proof.
  intros Lib St LD RD RD' HN HN' Hl Hr NS Fl Fr Ha Hb S1 S2 D. eapply call_pairs; eauto. unfold apart.
  destruct D as [D|[D|(D1 & D2 & D3 & D4)]]; [right; left; auto|left; auto|right; right; auto 6].
Qed.
(** the product probabilities sum to one *)
Theorem C41_total N N' q q' : Rsum (tab N q) = 1 -> Rsum (tab N' q') = 1 -> pairsWhere N q N' q' (fun _ _ => true) = 1 /\
  forall r r' a b, (forall x y, holds r x y = negb (holds r' x y)) -> pairProbability N q N' q' r a b + pairProbability N q N' q' r' a b = 1.
Proof.
  intros S1 S2. assert (T1 : pairsWhere N q N' q' (fun _ _ => true) = 1).
  { unfold pairsWhere. rewrite Rsum_tab. rewrite (rsum_ext N) with (g := fun x => q x * 1); [rewrite rsum_scal_r, <- Rsum_tab, S1; ring|].
    intros x Hx. rewrite Rsum_tab, rsum_scal, <- Rsum_tab, S2. reflexivity. }
  split; [exact T1|]. intros r r' a b Hr. rewrite <- T1. unfold pairProbability, pairsWhere. rewrite !Rsum_tab, <- rsum_plus. apply rsum_ext. intros x Hx.
  rewrite !Rsum_tab, <- rsum_plus. apply rsum_ext. intros y Hy. rewrite Hr. destruct (holds r' (a x) (b y)); cbn; lra.
Qed.
(** the same for an operation +, -, *, /, ^ on the two expressions *)
Theorem C41_operation pow fn lb ss t i i' shape shape' h h' time time' N N' q q' env env' o c d r z a b g n n' :
  computes pow fn lb -> studies ss -> loads ss t -> reads ss t i shape h time N q env -> reads ss t i' shape' h' time' N' q' env' ->
  (0 < N)%nat -> (0 < N')%nat -> shape c -> shape' d -> firstName c n -> firstName d n' ->
  evaluates pow fn env N c a -> evaluates pow fn env' N' d b -> Rsum (tab N q) = 1 -> Rsum (tab N' q') = 1 ->
  i <> i' \/ h <> h' \/ (h = false /\ h' = false /\ n = n' /\ time <> time') ->
  o <> SAt -> o <> SFunc -> (forall x y, (x < N)%nat -> (y < N')%nat -> arithR pow o (a x) (b y) = Some (g x y)) ->
  call lb ss (QRel (joined o c d) r (CNum z)) t = Ok (AProb (Fin (pairsWhere N q N' q' (fun x y => holds r (g x y) z)))).
Proof.
  intros Lib St LD RD RD' HN HN' Hc Hd Fc Fd Ha Hb S1 S2 D O1 O2 Hg. destruct (loads_ok _ _ LD) as (tk & params & Po & EL). unfold call.
  rewrite names_of by (auto; eapply reads_some; eauto). cbn [bind]. rewrite EL. cbn [bind].
  pose proof (reads_time _ _ _ _ _ _ _ _ _ RD) as HT. pose proof (reads_time _ _ _ _ _ _ _ _ _ RD') as HT'.
  destruct (reads_P pow fn lb ss t params i shape h time N q env c Lib St EL RD HN Hc (evaluates_known _ _ _ _ _ _ HN Ha) a Ha) as (e & Ee & Ge).
  destruct (reads_P pow fn lb ss t params i' shape' h' time' N' q' env' d Lib St EL RD' HN' Hd (evaluates_known _ _ _ _ _ _ HN' Hb) b Hb) as (e' & Ee' & Ge').
  assert (Et : tree (reduced (joined o c d) (CNum z)) = Node [Node [Tok (TNum (fneg f1)); Tok (TOp SMul); Tok (TNum z)]; Tok (TOp SAdd); Node [tree c; Tok (TOp o); tree d]]).
  { destruct o; try congruence; reflexivity. }
  rewrite Et, (evaluate_elem _ _ _ _ N) by (cbn; auto). rewrite (evalElem_node lb (stampsOf ss) params N HN) by (cbn; lia). cbn [map].
  rewrite !(evalElem_node lb (stampsOf ss) params N HN) by (cbn; lia). cbn [map]. rewrite Ee, Ee'.
  rewrite (evalList_chain lb (stampsOf ss) params e) by (destruct Ge as (? & _ & _ & NF); exact NF).
  cbn [chain evalElem]. unfold op3. cbn [bind].
  assert (A1 : SMul <> SAt) by discriminate. assert (A2 : SMul <> SFunc) by discriminate.
  rewrite (op_pairs pow fn lb Lib (stampsOf ss) params N N' i i' h h' time time' q q' HN HN' HT HT' S1 S2 o _ _ _ _ _ _ g O1 O2 Ge Ge').
  2:{ exists n, n'. split; [exact Fc|split; [exact Fd|]]. unfold apart. destruct D as [D|[D|D]]; auto. }
  2:{ exact Hg. }
  cbn [evalList chain]. unfold op3. cbn [bind operation toVal convert arithPy arith orb needsTime noTime pa_time pa_hyper pa_name derived andb negb String.eqb].
  change (String.eqb derivedName derivedName) with true. cbn [negb bind toVal convert operation orb].
  cbn [pa_vals pa_prob withVals derived].
  replace (map (arith lb SAdd (xmul (Fin (fneg f1)) (Fin z))) (map (fun xy : nat * nat => Fin (g (fst xy) (snd xy))) (pt N N')))
    with (map (fun xy => Fin ((fun x y => g x y - z) (fst xy) (snd xy))) (pt N N')).
  2:{ rewrite map_map. apply map_ext. intros xy. cbn. change (@fneg R NumR (@f1 R NumR)) with (0 - 1). f_equal. ring. }
  rewrite (derived_prob N N' q q' r (fun x y => g x y - z)). cbn [bind]. rewrite asum_fin. do 3 f_equal. rewrite Rsum_filter. unfold pt. rewrite Rsum_list_prod.
  unfold pairsWhere. rewrite Rsum_tab. fold (tab N (fun x => Rsum (map (fun y => if relHolds r (Fin (g (fst (x, y)) (snd (x, y)) - z)) (Fin f0) then q (fst (x, y)) * q' (snd (x, y)) else 0) (seq 0 N')))).
  rewrite Rsum_tab. apply rsum_ext. intros x Hx. f_equal. apply map_ext. intros y. cbn [fst snd]. rewrite relHolds_diff. reflexivity.
Qed.
(** Different first parameters of one study at different times are combined point by point of the grid, with the probabilities of the right
    side for both. *)
Theorem C41_other_time pow fn lb ss t i shape shape' time time' N q q' env env' lhs r rhs a b n n' :
  computes pow fn lb -> studies ss -> loads ss t -> reads ss t i shape false time N q env -> reads ss t i shape' false time' N q' env' ->
  (0 < N)%nat -> shape lhs -> shape' rhs -> noSum lhs -> firstName lhs n -> firstName rhs n' -> n <> n' -> time <> time' ->
  evaluates pow fn env N lhs a -> evaluates pow fn env' N rhs b ->
  call lb ss (QRel lhs r rhs) t = Ok (AProb (Fin (probability N q' r a b))).
Proof. intros Lib St LD RD RD' HN Hl Hr NS Fl Fr Nn NT Ha Hb. apply (call_mixed pow fn lb ss t i i shape shape' false false time time' N N q q' env env' lhs rhs a b n n'); auto. Qed.

(** ** C42: distributions *)
Lemma composite_node (c : cst (F := R)) : composite c -> exists l, tree c = Node l /\ (3 <= List.length l)%nat.
Proof.
  assert (G : forall A (f : A -> list (ptree (F := R))) (c : ptree (F := R)) d l, (2 <= List.length (f d))%nat -> exists l', group c (flat_map f (d :: l)) = Node l' /\ (3 <= List.length l')%nat).
  { intros A f c0 d l Hf. exists (c0 :: flat_map f (d :: l)). cbn [flat_map]. destruct (f d) as [|a l0]; [cbn in Hf; lia|]. split; [reflexivity|]. cbn in *. rewrite app_length. lia. }
  induction c as [x|s|c IH|f c IH|c l IH IHl|a b IHa IHb|p c IH|c l IH IHl|c l IH IHl] using cst_ind'; intros C; cbn [composite] in C; try contradiction; cbn [tree].
  - auto.
  - destruct l as [|d l]; [auto|]. apply G. cbn. lia.
  - eexists. split; [reflexivity|]. cbn. lia.
  - destruct l as [|d l]; [auto|]. apply G. cbn. lia.
  - destruct l as [|d l]; [auto|]. apply G. cbn. lia.
Qed.
Lemma evaluate_ok lb stamps params (t : ptree (F := R)) v : evaluate lb stamps params t = Ok v -> exists l, t = Node l /\ (3 <= List.length l)%nat.
Proof.
  destruct t as [x|l]; [discriminate|]. intros E. exists l. split; [reflexivity|]. destruct l as [|a [|b [|c l]]]; cbn; try lia; exfalso; cbn [evaluate map] in E.
  - discriminate.
  - cbn [evalList] in E. destruct (evalElem lb stamps params a) as [[[]|]|]; cbn [bind] in E; discriminate E.
  - assert (Z : evalList lb stamps params [evalElem lb stamps params a; evalElem lb stamps params b] = chain lb stamps params (evalElem lb stamps params a) [evalElem lb stamps params b])
      by (destruct (evalElem lb stamps params a) as [[[]|]|]; reflexivity).
    rewrite Z in E. cbn [chain] in E. destruct (evalElem lb stamps params a); cbn [bind] in E; [|discriminate E]. destruct (evalElem lb stamps params b); cbn [bind] in E; discriminate E.
Qed.
Lemma no_names (c : cst (F := R)) pow fn lb ss params N i h T q env m e : P pow fn lb ss params N i h T q env c -> evaluates pow fn env N c m ->
  evalElem lb ss params (tree c) = Ok e -> goodE params N i h T q (namesIn c) e m.
Proof. intros HP Hm Ee. destruct (HP m Hm) as (e' & Ee' & G). congruence. Qed.

(** The probabilities returned for an expression sum to the total probability minus the probability of the largest value. *)
Theorem C42_total pow fn lb ss t i shape h time N q env c m vals probs :
  computes pow fn lb -> studies ss -> loads ss t -> reads ss t i shape h time N q env -> (0 < N)%nat -> shape c -> evaluates pow fn env N c m ->
  call lb ss (QDist c) t = Ok (ADist vals probs) ->
  exists hi, largest N m hi /\ asum probs = Fin (Rsum (tab N q) - probability N q REq m (fun _ => hi)).
Proof.
  intros Lib St LD RD HN Hc Hm E. destruct (loads_ok _ _ LD) as (tk & params & Po & EL). unfold call in E.
  rewrite names_of in E by (auto; eapply reads_some; eauto). cbn [bind] in E. rewrite EL in E. cbn [bind] in E.
  destruct (evaluate lb (stampsOf ss) params (tree c)) as [v|] eqn:Ev; [|discriminate]. destruct (evaluate_ok _ _ _ _ _ Ev) as (l & El & Ll).
  rewrite El, (evaluate_elem _ _ _ _ N), <- El in Ev by auto.
  destruct (reads_P pow fn lb ss t params i shape h time N q env c Lib St EL RD HN Hc (evaluates_known _ _ _ _ _ _ HN Hm) m Hm) as (e & Ee & v' & Tv & G & _).
  rewrite Ee in Ev. cbn [bind] in Ev, E. rewrite Tv in Ev. injection Ev as <-. inversion G as [np r m0 C|p m0 n l0 Np C]; subst; [discriminate|]. destruct C as (Ea & Ep & _).
  exact (distribution_total N q m p Ea Ep vals probs HN E).
Qed.
(** The bins: the largest gap G between neighbouring values fits K times into the range. With K = 1 the query fails; otherwise there are K - 1 half-open
    bins of equal width, given by their right ends. *)
Theorem C42_bins pow fn lb ss t i shape h time N q env c m lo hi G K :
  computes pow fn lb -> studies ss -> loads ss t -> reads ss t i shape h time N q env -> (0 < N)%nat -> shape c -> evaluates pow fn env N c m ->
  composite c -> namesIn c <> [] -> smallest N m lo -> largest N m hi -> largestGap N m G -> INR K * G <= hi - lo < (INR K + 1) * G ->
  (1 <= K)%nat /\ (K = 1%nat -> call lb ss (QDist c) t = Err IndexError) /\
  forall k, K = (k + 2)%nat ->
    let w := (hi - lo) / INR (k + 1) in
    call lb ss (QDist c) t = Ok (ADist (tab (k + 1) (fun j => lo + INR (j + 1) * w)) (map Fin (tab (k + 1) (fun j => within N q m (lo + INR j * w) (lo + INR (j + 1) * w))))).
Proof.
  intros Lib St LD RD HN Hc Hm Cc NE Hlo Hhi HG HK. destruct (loads_ok _ _ LD) as (tk & params & Po & EL).
  assert (Ed : exists p, call lb ss (QDist c) t = distribution p /\ pa_vals p = map Fin (tab N m) /\ pa_prob p = Prob1 (map Fin (tab N q))).
  { unfold call. rewrite names_of by (auto; eapply reads_some; eauto). cbn [bind]. rewrite EL. cbn [bind].
    destruct (composite_node c Cc) as (l & El & Ll). rewrite El, (evaluate_elem _ _ _ _ N), <- El by auto.
    destruct (reads_P pow fn lb ss t params i shape h time N q env c Lib St EL RD HN Hc (evaluates_known _ _ _ _ _ _ HN Hm) m Hm) as (e & Ee & v' & Tv & Gv & _).
    rewrite Ee. cbn [bind]. rewrite Tv. cbn [bind]. inversion Gv as [np r m0 C|p m0 n l0 Np C]; subst; [destruct (namesIn c); congruence|]. exists p. destruct C as (Ea & Ep & _). auto. }
  destruct Ed as (p & -> & Ea & Ep). exact (distribution_bins N q m p Ea Ep lo hi G K Hlo Hhi HG HK).
Qed.
(** Only values on a grid with at least three equally spaced points (or a comparable spread) have a distribution: with two different
    values the query fails. *)
Theorem C42_two_values pow fn lb ss t i shape h time N q env c m u v :
  computes pow fn lb -> studies ss -> loads ss t -> reads ss t i shape h time N q env -> shape c -> evaluates pow fn env N c m ->
  composite c -> namesIn c <> [] -> u < v -> (exists x, (x < N)%nat /\ m x = u) -> (exists x, (x < N)%nat /\ m x = v) -> (forall x, (x < N)%nat -> m x = u \/ m x = v) ->
  call lb ss (QDist c) t = Err IndexError.
Proof.
  intros Lib St LD RD Hc Hm Cc NE Lt Hu Hv Huv. destruct Hu as (x & Hx & Ex). destruct Hv as (y & Hy & Ey).
  assert (HN : (0 < N)%nat) by lia.
  destruct (C42_bins pow fn lb ss t i shape h time N q env c m u v (v - u) 1 Lib St LD RD HN Hc Hm Cc NE) as (_ & E & _).
  - split; [eauto|]. intros z Hz. destruct (Huv z Hz); lra.
  - split; [eauto|]. intros z Hz. destruct (Huv z Hz); lra.
  - split.
    + exists x, y. split; [|lra]. repeat split; auto; [lra|]. intros z Hz. destruct (Huv z Hz); lra.
    + intros x' y' (Hx' & Hy' & Lt' & _). destruct (Huv x' Hx'), (Huv y' Hy'); lra.
  - cbn. lra.
  - auto.
Qed.
(** Values that are not finite (division by zero, say) do not contribute: the probabilities returned sum to the probability of the
    finite values below the largest finite value. *)
Theorem C42_nonfinite : forall lb ss t c vals probs, call lb ss (QDist c) t = Ok (ADist vals probs) ->
  exists params p, loadAll ss t = Ok params /\ evaluate lb (stampsOf ss) params (tree c) = Ok (VP p) /\
    forall l : list (xnum R * R), pa_vals p = map fst l -> pa_prob p = Prob1 (map (fun xq => Fin (snd xq)) l) ->
      exists hi, In (Fin hi) (map fst l) /\ (forall v, In (Fin v) (map fst l) -> v <= hi) /\
        asum probs = Fin (Rsum (map (fun xq => match fst xq with Fin v => if Rlt_dec v hi then snd xq else 0 | _ => 0 end) l)).
Proof.
  intros lb ss t c vals probs E. unfold call in E. destruct (parserNames ss); [|discriminate]. cbn [bind] in E. destruct (loadAll ss t) as [params|]; [|discriminate]. cbn [bind] in E.
  destruct (evaluate lb (stampsOf ss) params (tree c)) as [v|] eqn:Ev; [|discriminate]. cbn [bind] in E. destruct v as [| p | |]; try discriminate.
  exists params, p. split; [reflexivity|]. split; [exact Ev|]. intros l E1 E2. exact (distribution_nonfinite p l vals probs E1 E2 E).
Qed.
