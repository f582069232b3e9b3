(** Evaluation of expressions by the parser. *)
From Coq Require Import List ZArith Reals Lra Lia Arith Bool String.
From Verif Require Import Base.Num Base.Exn Base.Arr Base.RSum Base.Lift Model.Helper Model.Tm Model.HyperParams Model.Study Model.Getters Model.Parser
  Spec.Kernel Spec.Hmm Spec.Dist Spec.ParserSpec.
Import ListNotations.
Local Open Scope R_scope.

Lemma cst_ind' (P : cst (F := R) -> Prop) :
  (forall x, P (CNum x)) -> (forall s, P (CName s)) -> (forall c, P c -> P (CPar c)) -> (forall f c, P c -> P (CFun f c)) ->
  (forall c l, P c -> Forall P l -> P (CAt c l)) -> (forall a b, P a -> P b -> P (CPow a b)) -> (forall p c, P c -> P (CSign p c)) ->
  (forall c l, P c -> Forall (fun d => P (snd d)) l -> P (CProd c l)) -> (forall c l, P c -> Forall (fun d => P (snd d)) l -> P (CSum c l)) ->
  forall c, P c.
Proof.
  intros h1 h2 h3 h4 h5 h6 h7 h8 h9. fix IH 1. intros [x|s|c|f c|c l|a b|p c|c l|c l];
    [apply h1|apply h2|apply h3, IH|apply h4, IH| |apply h6; apply IH|apply h7, IH| |].
  - apply h5; [apply IH|]. induction l as [|d l IHl]; constructor; [apply IH|exact IHl].
  - apply h8; [apply IH|]. induction l as [|d l IHl]; constructor; [apply IH|exact IHl].
  - apply h9; [apply IH|]. induction l as [|d l IHl]; constructor; [apply IH|exact IHl].
Qed.

Section Eval.
  Variables (pow : R -> R -> option R) (fn : string -> R -> option R) (lb : lib (F := R)).
  Hypothesis Lib : computes pow fn lb.
  Variables (stamps : nat -> list R) (params : list (param (F := R))).
  (** one class of parameters: study i, (hyper-)parameters, time, and their common probabilities *)
  Variables (N : nat) (i : nat) (h : bool) (T : option R) (post : list (xnum R)).
  Hypothesis HN : (0 < N)%nat.
  Hypothesis HT : h = true \/ T <> None.
  Notation eval := (evalElem lb stamps params).

  Definition inClass (p : param (F := R)) (m : nat -> R) : Prop :=
    pa_vals p = map Fin (tab N m) /\ pa_prob p = Prob1 post /\ pa_study p = Some i /\ pa_hyper p = h /\ pa_time p = T.
  Inductive goodV : list string -> val (F := R) -> (nat -> R) -> Prop :=
  | gv_const np r m : (forall x, (x < N)%nat -> m x = r) -> goodV [] (VF np (Fin r)) m
  | gv_par p m n l : pa_name p = n -> inClass p m -> goodV (n :: l) (VP p) m.
  Definition goodE (b : list string) (e : elem (F := R)) (m : nat -> R) : Prop :=
    exists v, toVal params e = Ok v /\ goodV b v m /\ (forall f, e <> ETok (TFun f)).

  Lemma goodE_val b v m : goodV b v m -> goodE b (EVal v) m.
  Proof. intros G. exists v. split; [reflexivity|]. split; [auto|discriminate]. Qed.
  Lemma class_notime p m : inClass p m -> needsTime p = false.
  Proof.
    intros (Ev & Ep & Es & Eh & Et). unfold needsTime, noTime, is2D. rewrite Et, Eh, Ep. destruct T as [t|]; [reflexivity|].
    destruct HT as [->|Z]; [reflexivity|congruence].
  Qed.
  Lemma class_dependent p q m m' : inClass p m -> inClass q m' -> independent p q = false.
  Proof.
    intros (Ev & Ep & Es & Eh & Et) (Ev' & Ep' & Es' & Eh' & Et'). unfold independent. rewrite Eh, Eh'.
    assert (S1 : sameStudy p q = true) by (unfold sameStudy; rewrite Es, Es'; apply Nat.eqb_refl).
    assert (S2 : noStudy p = false) by (unfold noStudy; now rewrite Es).
    assert (S3 : sameTime p q = true) by (unfold sameTime; rewrite Et, Et'; destruct T; [apply Reqb_refl|reflexivity]).
    rewrite S1, S2, S3. destruct h; cbn; [reflexivity|]. apply andb_false_r.
  Qed.

  Notation arithR := (arithR pow).
  Lemma arith_spec o x y r : o <> SAt -> o <> SFunc -> arithR o x y = Some r ->
    arith lb o (Fin x) (Fin y) = Fin r /\ arithPy lb o (Fin x) (Fin y) = Ok (Fin r).
  Proof.
    intros O1 O2 E. destruct Lib as [Lp _]. destruct o; try congruence; cbn in E.
    - inversion E; subst. split; reflexivity.
    - inversion E; subst. split; reflexivity.
    - inversion E; subst. split; reflexivity.
    - unfold over in E. destruct (Req_EM_T y 0) as [->|Hy]; [discriminate|]. inversion E; subst.
      cbn [arith arithPy xeqb feqb NumR f0]. rewrite (proj2 (Reqb_false y 0)) by auto. rewrite xdiv_fin by auto. split; reflexivity.
    - specialize (Lp _ _ _ E). cbn [arith arithPy]. rewrite Lp. split; reflexivity.
  Qed.
  Lemma op_good o b1 b2 e1 e2 m1 m2 m : o <> SAt -> o <> SFunc -> goodE b1 e1 m1 -> goodE b2 e2 m2 ->
    (forall x, (x < N)%nat -> arithR o (m1 x) (m2 x) = Some (m x)) ->
    exists v, operation lb stamps params (ETok (TOp o)) e1 e2 = Ok (EVal v) /\ goodV (b1 ++ b2) v m.
  Proof.
    intros O1 O2 (v1 & T1 & G1 & _) (v2 & T2 & G2 & _) Hm. unfold operation. rewrite T1, T2. cbn [bind].
    assert (K : forall A (a b : A), match o with SAt => a | SFunc => a | _ => b end = b) by (intros; destruct o; congruence).
    match goal with |- exists v, ?t = _ /\ _ => assert (E : t =
      (let untimed v := match v with VP p => needsTime p | _ => false end in
        if untimed v1 || untimed v2 then Err ConfigurationError
        else
          match v1, v2 with
          | VP p, VP q => if independent p q then Ok (EVal (VP (compound (arith lb o) p q)))
                          else bind (elementwise (arith lb o) (pa_vals p) (pa_vals q)) (fun v => Ok (EVal (VP (withVals p v))))
          | VP p, VF _ y => Ok (EVal (VP (withVals p (map (fun x => arith lb o x y) (pa_vals p)))))
          | VF _ x, VP q => Ok (EVal (VP (withVals q (map (arith lb o x) (pa_vals q)))))
          | VF np1 x, VF np2 y => if np1 || np2 then Ok (EVal (VF true (arith lb o x y)))
                                  else bind (arithPy lb o x y) (fun r => Ok (EVal (VF false r)))
          | _, _ => Err TypeError
          end)) by (destruct o; congruence || reflexivity) end.
    rewrite E. clear E K. cbn zeta.
    destruct G1 as [np1 r1 m1 C1|p1 m1 n1 l1 N1 C1], G2 as [np2 r2 m2 C2|p2 m2 n2 l2 N2 C2]; cbn [orb app].
    - assert (A : arithR o r1 r2 = Some (m O)) by (rewrite <- (C1 O HN), <- (C2 O HN); auto).
      assert (Cm : forall x, (x < N)%nat -> m x = m O).
      { intros x Hx. specialize (Hm x Hx). rewrite (C1 x Hx), (C2 x Hx) in Hm. congruence. }
      destruct (arith_spec o _ _ _ O1 O2 A) as [A1 A2]. destruct (np1 || np2).
      + rewrite A1. eexists. split; [reflexivity|]. now constructor.
      + rewrite A2. cbn [bind]. eexists. split; [reflexivity|]. now constructor.
    - rewrite (class_notime _ _ C2). eexists. split; [reflexivity|]. apply gv_par; [exact N2|]. destruct C2 as (Ev & Ep & Es & Eh & Et).
      split; [|auto]. cbn [pa_vals withVals]. rewrite Ev, map_map, !map_tab. apply tab_ext. intros x Hx.
      apply arith_spec; auto. rewrite <- (C1 x Hx). auto.
    - rewrite (class_notime _ _ C1). cbn [orb]. eexists. split; [reflexivity|]. apply gv_par; [exact N1|]. destruct C1 as (Ev & Ep & Es & Eh & Et).
      split; [|auto]. cbn [pa_vals withVals]. rewrite Ev, map_map, !map_tab. apply tab_ext. intros x Hx.
      apply arith_spec; auto. rewrite <- (C2 x Hx). auto.
    - rewrite (class_notime _ _ C1), (class_notime _ _ C2), (class_dependent _ _ _ _ C1 C2). cbn [orb].
      destruct C1 as (Ev & Ep & Es & Eh & Et), C2 as (Ev' & _). unfold elementwise. rewrite Ev, Ev', !map_length, !tab_length, Nat.eqb_refl. cbn [bind].
      eexists. split; [reflexivity|]. apply gv_par; [exact N1|]. split; [|auto]. cbn [pa_vals withVals]. rewrite !map_tab, map2_tab. apply tab_ext. intros x Hx. apply arith_spec; auto.
  Qed.
  Lemma fun_good f b e m0 m : goodE b e m0 -> (forall x, (x < N)%nat -> fn f (m0 x) = Some (m x)) ->
    exists v, operation lb stamps params (ETok (TOp SFunc)) (ETok (TFun f)) e = Ok (EVal v) /\ goodV b v m.
  Proof.
    intros (v & Tv & G & _) Hm. destruct Lib as [_ Lf]. unfold operation. cbn [toVal convert bind]. rewrite Tv. cbn [bind]. destruct G as [np r m0 C|p m0 n l Np C].
    - assert (A : fn f r = Some (m O)) by (rewrite <- (C O HN); auto). rewrite (Lf _ _ _ A). eexists. split; [reflexivity|]. constructor.
      intros x Hx. specialize (Hm x Hx). rewrite (C x Hx) in Hm. congruence.
    - eexists. split; [reflexivity|]. apply gv_par; [exact Np|]. destruct C as (Ev & Ep & Es & Eh & Et). split; [|auto]. cbn [pa_vals withVals].
      rewrite Ev, map_map, !map_tab. apply tab_ext. intros x Hx. apply Lf. auto.
  Qed.

  (** ** Expressions *)
  Variable env : nat -> string -> option R.
  Notation mean c x := (meaning pow fn (env x) c).
  Definition P (c : cst (F := R)) : Prop :=
    forall m, (forall x, (x < N)%nat -> mean c x = Some (m x)) -> exists e, eval (tree c) = Ok e /\ goodE (namesIn c) e m.
  Definition the (c : cst (F := R)) (x : nat) : R := match mean c x with Some r => r | None => 0 end.

  Lemma evalElem_node l : (3 <= List.length l)%nat -> eval (Node l) = evalList lb stamps params (map eval l).
  Proof. intros L. destruct l as [|a [|b [|c l]]]; cbn in L; try lia. destruct a as [[| | |[]]|]; reflexivity. Qed.
  Lemma evalList_chain e r rest : (forall f, e <> ETok (TFun f)) ->
    evalList lb stamps params (Ok e :: r :: rest) = chain lb stamps params (Ok e) (r :: rest).
  Proof. intros NF. destruct e as [[s|x|f|o]|v]; try reflexivity. now destruct (NF f). Qed.

  Lemma P_num r : P (CNum r).
  Proof.
    intros m Hm. exists (ETok (TNum r)). split; [reflexivity|]. exists (VF false (Fin r)). split; [reflexivity|]. split; [|discriminate]. constructor.
    intros x Hx. specialize (Hm x Hx). cbn in Hm. congruence.
  Qed.
  Lemma P_par c : P c -> P (CPar c).
  Proof. intros Pc m Hm. exact (Pc m Hm). Qed.
  Lemma P_fun f c : P c -> P (CFun f c).
  Proof.
    intros Pc m Hm. cbn [meaning] in Hm. destruct (Pc (the c)) as (e & Ee & Ge).
    { intros x Hx. specialize (Hm x Hx). unfold the. destruct (mean c x); [reflexivity|discriminate]. }
    destruct (fun_good f _ e _ m Ge) as (v & Ev & Gv).
    { intros x Hx. specialize (Hm x Hx). unfold the. destruct (mean c x); [exact Hm|discriminate]. }
    exists (EVal v). split; [|now apply goodE_val]. cbn [tree evalElem]. rewrite Ee. unfold op3. cbn [bind]. exact Ev.
  Qed.
  Lemma num_goodE r m : (forall x, (x < N)%nat -> m x = r) -> goodE [] (ETok (TNum r)) m.
  Proof. intros E. exists (VF false (Fin r)). split; [reflexivity|]. split; [now constructor|discriminate]. Qed.
  Lemma P_sign p c : P c -> P (CSign p c).
  Proof.
    intros Pc m Hm. cbn [meaning] in Hm. destruct (Pc (the c)) as (e & Ee & Ge).
    { intros x Hx. specialize (Hm x Hx). unfold the. destruct p, (mean c x); try discriminate; reflexivity. }
    destruct (op_good SMul [] (namesIn c) (ETok (TNum (if p then 1 else fneg f1))) e (fun _ => if p then 1 else fneg f1) (the c) m) as (v & Ev & Gv); auto; try discriminate.
    { apply num_goodE. auto. }
    { intros x Hx. specialize (Hm x Hx). unfold the. cbn [arithR]. destruct p, (mean c x) as [r|]; try discriminate; cbn in Hm; inversion Hm; f_equal.
      - lra.
      - change (@fneg R NumR (@f1 R NumR)) with (0 - 1). lra. }
    exists (EVal v). split; [|now apply goodE_val]. destruct p; cbn [tree evalElem]; rewrite Ee; unfold op3; cbn [bind]; exact Ev.
  Qed.
  Lemma P_pow a b : P a -> P b -> P (CPow a b).
  Proof.
    intros Pa Pb m Hm. cbn [meaning] in Hm.
    destruct (Pa (the a)) as (e & Ee & Ge).
    { intros x Hx. specialize (Hm x Hx). unfold the. destruct (mean a x); [reflexivity|discriminate]. }
    destruct (Pb (the b)) as (e' & Ee' & Ge').
    { intros x Hx. specialize (Hm x Hx). unfold the. destruct (mean a x), (mean b x); try discriminate; reflexivity. }
    assert (O1 : SPow <> SAt) by discriminate. assert (O2 : SPow <> SFunc) by discriminate.
    destruct (op_good SPow _ _ e e' _ _ m O1 O2 Ge Ge') as (v & Ev & Gv).
    { intros x Hx. specialize (Hm x Hx). unfold the. destruct (mean a x), (mean b x); try discriminate; exact Hm. }
    exists (EVal v). split.
    - cbn [tree]. rewrite evalElem_node by (cbn; lia). cbn [map]. rewrite Ee, Ee'. rewrite evalList_chain by (destruct Ge as (? & _ & _ & NF); exact NF).
      cbn [chain evalElem]. unfold op3. cbn [bind]. exact Ev.
    - cbn [namesIn]. now apply goodE_val.
  Qed.

  (** chains of left associative operators *)
  Variables (opf : bool -> sym) (comb : bool -> R -> R -> option R).
  Definition chainOK : Prop := (forall b, opf b <> SAt /\ opf b <> SFunc) /\ forall b x y, arithR (opf b) x y = comb b x y.
  Definition step (x : nat) (acc : option R) (d : bool * cst (F := R)) : option R := lift2 (comb (fst d)) acc (mean (snd d) x).
  Lemma step_none l x : fold_left (step x) l None = None.
  Proof. induction l; auto. Qed.
  Definition flat (l : list (bool * cst (F := R))) : list ptree := flat_map (fun d => [Tok (TOp (opf (fst d))); tree (snd d)]) l.
  Lemma chain_good : chainOK -> forall l e b m0 m, goodE b e m0 -> Forall (fun d => P (snd d)) l ->
    (forall x, (x < N)%nat -> fold_left (step x) l (Some (m0 x)) = Some (m x)) ->
    exists e', chain lb stamps params (Ok e) (map eval (flat l)) = Ok e' /\ goodE (b ++ flat_map (fun d => namesIn (snd d)) l) e' m.
  Proof.
    intros [Ho Hc]. induction l as [|d l IH]; intros e b m0 m Ge HF Hm.
    - exists e. split; [reflexivity|]. cbn. rewrite app_nil_r. destruct Ge as (v & h1 & h2 & h3). exists v. split; auto. split; auto.
      destruct h2 as [np r m0 C|p m0 n l Np (Ev & Rest)]; [constructor|apply gv_par; [exact Np|]].
      + intros x Hx. specialize (Hm x Hx). cbn in Hm. rewrite <- (C x Hx). congruence.
      + split; auto. rewrite Ev. f_equal. apply tab_ext. intros x Hx. specialize (Hm x Hx). cbn in Hm. congruence.
    - inversion HF as [|? ? Pd HF']; subst. cbn [fold_left] in Hm. unfold step at 2 in Hm.
      destruct (Pd (the (snd d))) as (e' & Ee' & Ge').
      { intros x Hx. specialize (Hm x Hx). unfold the. destruct (mean (snd d) x); [reflexivity|]. cbn in Hm. rewrite step_none in Hm. discriminate. }
      set (m1 := fun x => match comb (fst d) (m0 x) (the (snd d) x) with Some r => r | None => 0 end).
      assert (Q : forall x, (x < N)%nat -> comb (fst d) (m0 x) (the (snd d) x) = Some (m1 x) /\ fold_left (step x) l (Some (m1 x)) = Some (m x)).
      { intros x Hx. specialize (Hm x Hx). unfold m1, the. destruct (mean (snd d) x) as [r|]; cbn [lift2] in Hm.
        - destruct (comb (fst d) (m0 x) r); [auto|]. rewrite step_none in Hm. discriminate.
        - rewrite step_none in Hm. discriminate. }
      destruct (Ho (fst d)) as [O1 O2]. destruct (op_good (opf (fst d)) b _ e e' m0 (the (snd d)) m1 O1 O2 Ge Ge') as (v & Ev & Gv).
      { intros x Hx. rewrite Hc. now apply Q. }
      destruct (IH (EVal v) (b ++ namesIn (snd d)) m1 m (goodE_val _ _ _ Gv) HF') as (ef & Ef & Gf); [intros x Hx; now apply Q|].
      exists ef. split.
      + cbn [flat flat_map app map]. cbn [chain evalElem]. unfold op3. rewrite Ee'. cbn [bind]. rewrite Ev. exact Ef.
      + cbn [flat_map]. rewrite app_assoc. exact Gf.
  Qed.
  Lemma P_chain c l : chainOK -> P c -> Forall (fun d => P (snd d)) l ->
    forall m, (forall x, (x < N)%nat -> fold_left (step x) l (mean c x) = Some (m x)) ->
    exists e, eval (group (tree c) (flat l)) = Ok e /\ goodE (namesIn c ++ flat_map (fun d => namesIn (snd d)) l) e m.
  Proof.
    intros Ok Pc HF m Hm.
    destruct (Pc (the c)) as (e & Ee & Ge).
    { intros x Hx. specialize (Hm x Hx). unfold the. destruct (mean c x); [reflexivity|]. rewrite step_none in Hm. discriminate. }
    assert (Hm' : forall x, (x < N)%nat -> fold_left (step x) l (Some (the c x)) = Some (m x)).
    { intros x Hx. specialize (Hm x Hx). unfold the. destruct (mean c x); [exact Hm|]. rewrite step_none in Hm. discriminate. }
    destruct (chain_good Ok l e _ _ m Ge HF Hm') as (e' & Ee' & Ge'). exists e'. split; [|exact Ge'].
    destruct l as [|d l]; [cbn in *; congruence|]. cbn [flat flat_map app group] in *. rewrite evalElem_node by (cbn; lia). cbn [map] in *. rewrite Ee.
    rewrite evalList_chain by (destruct Ge as (? & _ & _ & NF); exact NF). exact Ee'.
  Qed.
End Eval.

Section Names.
  Variables (pow : R -> R -> option R) (fn : string -> R -> option R) (lb : lib (F := R)).
  Hypothesis Lib : computes pow fn lb.
  Variables (stamps : nat -> list R) (params : list (param (F := R))).
  Variables (N : nat) (i : nat) (h : bool) (T : option R) (post : list (xnum R)).
  Hypothesis HN : (0 < N)%nat.
  Hypothesis HT : h = true \/ T <> None.
  Variable env : nat -> string -> option R.
  Notation P := (P pow fn lb stamps params N i h T post env).
  Notation inClass := (inClass N i h T post).
  Notation lookup s := (find (fun p => String.eqb (pa_name p) s) params).

  Definition sumComb (b : bool) (x y : R) : option R := Some (if b then x + y else x - y).
  Definition prodComb (b : bool) (x y : R) : option R := if b then Some (x * y) else over x y.
  Lemma sum_ok : chainOK pow (fun b => if b then SAdd else SSub) sumComb.
  Proof. split; intros []; try (split; discriminate); reflexivity. Qed.
  Lemma prod_ok : chainOK pow (fun b => if b then SMul else SDiv) prodComb.
  Proof. split; intros []; try (split; discriminate); reflexivity. Qed.
  Lemma P_sum c l : P c -> Forall (fun d => P (snd d)) l -> P (CSum c l).
  Proof.
    intros Pc HF m Hm. exact (P_chain pow fn lb Lib stamps params N i h T post HN HT env _ sumComb c l sum_ok Pc HF m Hm).
  Qed.
  Lemma P_prod c l : P c -> Forall (fun d => P (snd d)) l -> P (CProd c l).
  Proof.
    intros Pc HF m Hm. exact (P_chain pow fn lb Lib stamps params N i h T post HN HT env _ prodComb c l prod_ok Pc HF m Hm).
  Qed.

  (** names that stand for a parameter of the class *)
  Definition known (s : string) : Prop := exists p v, lookup s = Some p /\ inClass p v /\ forall x, (x < N)%nat -> env x s = Some (v x).
  Lemma P_name s : known s -> P (CName s).
  Proof.
    intros (p & v & E & C & Ev) m Hm. exists (ETok (TName s)). split; [reflexivity|]. exists (VP p). split; [cbn; now rewrite E|]. split; [|discriminate].
    apply gv_par; [apply find_some in E; now apply String.eqb_eq, E|]. destruct C as (Evals & Rest). split; auto. rewrite Evals. f_equal. apply tab_ext. intros x Hx. specialize (Hm x Hx). cbn in Hm.
    rewrite (Ev x Hx) in Hm. congruence.
  Qed.
  Lemma flat_known l : Forall known (flat_map (fun d : bool * cst (F := R) => namesIn (snd d)) l) -> Forall (fun d => Forall known (namesIn (snd d))) l.
  Proof. induction l as [|d l IH]; intros HF; constructor; cbn in HF; apply Forall_app in HF; tauto. Qed.
  Lemma P_unstamped : forall c, unstamped c -> Forall known (namesIn c) -> P c.
  Proof.
    induction c as [r|s|c IH|f c IH|c l IH IHl|a b IHa IHb|p c IH|c l IH IHl|c l IH IHl] using cst_ind'; intros U K; inversion U; subst; cbn [namesIn] in K.
    - apply P_num; auto.
    - apply P_name. now inversion K.
    - apply P_par; auto.
    - apply P_fun; auto.
    - apply Forall_app in K. destruct K. apply P_pow; auto.
    - apply P_sign; auto.
    - apply Forall_app in K. destruct K as [K1 K2]. apply flat_known in K2. apply P_prod; auto. rewrite Forall_forall in *. intros d I. apply IHl; auto.
    - apply Forall_app in K. destruct K as [K1 K2]. apply flat_known in K2. apply P_sum; auto. rewrite Forall_forall in *. intros d I. apply IHl; auto.
  Qed.

  (** parameters with a whole sequence of probabilities, and their value at time t *)
  Variables (t : R) (rows : list (option (list (xnum R)))) (k : nat).
  Definition isT : Prop := T = Some t.
  Hypothesis ET : isT.
  Hypothesis Ek : timeIndex (stamps i) t = Some k.
  Hypothesis Er : nth_error rows k = Some (Some post).
  Definition sequence (p : param (F := R)) (m : nat -> R) : Prop :=
    pa_vals p = map Fin (tab N m) /\ pa_prob p = Prob2 rows /\ pa_study p = Some i /\ pa_hyper p = h.
  Definition knownSeq (s : string) : Prop := exists p v, lookup s = Some p /\ sequence p v /\ forall x, (x < N)%nat -> env x s = Some (v x).
  Lemma plain_eval : forall c, plain c -> Forall knownSeq (namesIn c) -> forall m, (forall x, (x < N)%nat -> meaning pow fn (env x) c = Some (m x)) ->
    exists e p, evalElem lb stamps params (tree c) = Ok e /\ toVal params e = Ok (VP p) /\ sequence p m /\ (forall f, e <> ETok (TFun f)) /\ hd_error (namesIn c) = Some (pa_name p).
  Proof.
    induction 1 as [s|c U IH|f c U IH]; intros K m Hm; cbn [namesIn] in *.
    - inversion K as [|? ? (p & v & E & C & Ev) _]; subst. exists (ETok (TName s)), p. split; [reflexivity|]. split; [cbn; now rewrite E|]. split; [|split; [discriminate|apply find_some in E; cbn; f_equal; symmetry; now apply String.eqb_eq, E]].
      destruct C as (Evals & Rest). split; auto. rewrite Evals. f_equal. apply tab_ext. intros x Hx. specialize (Hm x Hx). cbn in Hm. rewrite (Ev x Hx) in Hm. congruence.
    - exact (IH K m Hm).
    - cbn [meaning] in Hm. destruct (IH K (the pow fn env c)) as (e & p & Ee & Tp & C & NF & So).
      { intros x Hx. specialize (Hm x Hx). unfold the. destruct (meaning pow fn (env x) c); [reflexivity|discriminate]. }
      exists (EVal (VP (withVals p (map (lb_fun lb f) (pa_vals p))))), (withVals p (map (lb_fun lb f) (pa_vals p))).
      split; [|split; [reflexivity|split; [|split; [discriminate|exact So]]]].
      + cbn [tree evalElem]. rewrite Ee. unfold op3. cbn [bind]. unfold operation. cbn [toVal convert bind]. rewrite Tp. reflexivity.
      + destruct C as (Evals & Rest). split; [|exact Rest]. cbn [pa_vals withVals]. rewrite Evals, map_map, !map_tab. apply tab_ext. intros x Hx.
        destruct Lib as [_ Lf]. apply Lf. specialize (Hm x Hx). unfold the. destruct (meaning pow fn (env x) c); [exact Hm|discriminate].
  Qed.
  Lemma P_at c : plain c -> Forall knownSeq (namesIn c) -> P (CAt c [CNum t]).
  Proof.
    intros U K m Hm. cbn [meaning namesIn] in *. destruct (plain_eval c U K m Hm) as (e & p & Ee & Tp & C & NF & So).
    exists (EVal (VP (atTime p (Prob1 post) t))). split.
    - cbn [tree flat_map app group]. rewrite (evalElem_node lb stamps params N HN) by (cbn; lia). cbn [map evalElem]. rewrite Ee, evalList_chain by auto. cbn [chain].
      unfold op3. cbn [bind]. unfold operation. rewrite Tp. cbn [toVal convert bind]. destruct C as (Evals & Ep & Es & Eh).
      unfold is2D. rewrite Ep. cbn [negb]. rewrite andb_false_r. rewrite Es, Ek. unfold index. rewrite Er. reflexivity.
    - apply goodE_val. destruct (namesIn c) as [|n l]; [discriminate|]. apply gv_par; [cbn in So |- *; congruence|]. destruct C as (Evals & Ep & Es & Eh). repeat split; auto.
  Qed.
  Lemma flat_knownSeq l : Forall knownSeq (flat_map (fun d : bool * cst (F := R) => namesIn (snd d)) l) -> Forall (fun d => Forall knownSeq (namesIn (snd d))) l.
  Proof. induction l as [|d l IH]; intros HF; constructor; cbn in HF; apply Forall_app in HF; tauto. Qed.
  Lemma P_stamped : forall c, stamped t c -> Forall knownSeq (namesIn c) -> P c.
  Proof.
    induction c as [r|s|c IH|f c IH|c l IH IHl|a b IHa IHb|p c IH|c l IH IHl|c l IH IHl] using cst_ind'; intros U K; inversion U; subst; cbn [namesIn] in K.
    - apply P_num; auto.
    - apply P_par; auto.
    - apply P_fun; auto.
    - apply P_at; auto.
    - apply Forall_app in K. destruct K. apply P_pow; auto.
    - apply P_sign; auto.
    - apply Forall_app in K. destruct K as [K1 K2]. apply flat_knownSeq in K2. apply P_prod; auto. rewrite Forall_forall in *. intros d I. apply IHl; auto.
    - apply Forall_app in K. destruct K as [K1 K2]. apply flat_knownSeq in K2. apply P_sum; auto. rewrite Forall_forall in *. intros d I. apply IHl; auto.
  Qed.

  (** ** The reduced query: right side taken from the left *)
  Lemma sum_shift a : forall l x acc, fold_left (step pow fn env sumComb x) l (option_map (fun y => a + y) acc) =
    option_map (fun y => a + y) (fold_left (step pow fn env sumComb x) l acc).
  Proof.
    induction l as [|d l IH]; intros x acc; [reflexivity|]. cbn [fold_left]. rewrite <- IH. f_equal. unfold step.
    destruct acc as [y|]; [|reflexivity]. cbn [option_map lift2]. destruct (meaning pow fn (env x) (snd d)); [|reflexivity]. cbn. unfold sumComb. f_equal. destruct (fst d); ring.
  Qed.
  Lemma reduced_meaning lhs rhs x a b : meaning pow fn (env x) lhs = Some a -> meaning pow fn (env x) rhs = Some b ->
    meaning pow fn (env x) (reduced lhs rhs) = Some (a - b).
  Proof.
    intros Ea Eb. set (first := CProd (CNum (fneg f1)) [(true, CPar rhs)]).
    assert (Ef : meaning pow fn (env x) first = Some (- b)).
    { cbn [meaning first fold_left fst snd lift2]. rewrite Eb. cbn [lift2]. f_equal. change (@fneg R NumR (@f1 R NumR)) with (0 - 1). ring. }
    assert (G : forall c, reduced lhs rhs = CSum first [(true, c)] -> c = lhs -> meaning pow fn (env x) (reduced lhs rhs) = Some (a - b)).
    { intros c -> ->. cbn [meaning fold_left]. fold (meaning pow fn (env x) first). rewrite Ef. cbn [fst snd]. rewrite Ea. cbn. f_equal. ring. }
    destruct lhs as [r|s|c|f c|c l|u v|p c|c l|c l]; try (now apply (G _ eq_refl)). clear G.
    unfold reduced. fold first. change (fold_left (step pow fn env sumComb x) ((true, c) :: l) (meaning pow fn (env x) first) = Some (a - b)).
    cbn [fold_left]. rewrite Ef.
    replace (step pow fn env sumComb x (Some (- b)) (true, c)) with (option_map (fun y => - b + y) (meaning pow fn (env x) c)).
    2:{ unfold step. cbn [fst snd]. destruct (meaning pow fn (env x) c); reflexivity. }
    rewrite sum_shift. change (fold_left (step pow fn env sumComb x) l (meaning pow fn (env x) c)) with (meaning pow fn (env x) (CSum c l)). rewrite Ea. cbn. f_equal. ring.
  Qed.
End Names.
Lemma reduced_unstamped lhs rhs : unstamped lhs -> unstamped rhs -> unstamped (reduced lhs rhs).
Proof.
  intros Ul Ur. assert (Uf : unstamped (CProd (CNum (fneg f1)) [(true, CPar rhs)])) by (repeat constructor; auto).
  destruct Ul; unfold reduced; constructor; auto; constructor; cbn; auto; constructor; auto.
Qed.
Lemma reduced_stamped t lhs rhs : stamped t lhs -> stamped t rhs -> stamped t (reduced lhs rhs).
Proof.
  intros Ul Ur. assert (Uf : stamped t (CProd (CNum (fneg f1)) [(true, CPar rhs)])) by (repeat constructor; auto).
  destruct Ul; unfold reduced; constructor; auto; constructor; cbn; auto; constructor; auto.
Qed.
Lemma reduced_names lhs rhs : forall s, In s (namesIn (reduced lhs rhs)) <-> In s (namesIn lhs) \/ In s (namesIn rhs).
Proof.
  intros s. assert (G : namesIn (reduced lhs rhs) = namesIn rhs ++ namesIn lhs).
  { destruct lhs; unfold reduced; cbn [namesIn flat_map app fst snd]; rewrite ?app_nil_r; reflexivity. }
  rewrite G, in_app_iff. tauto.
Qed.
Lemma reduced_app lhs rhs : namesIn (reduced lhs rhs) = namesIn rhs ++ namesIn lhs.
Proof. destruct lhs; unfold reduced; cbn [namesIn flat_map app fst snd]; rewrite ?app_nil_r; reflexivity. Qed.

(** ** Probability of a relation *)
Lemma relHolds_diff r a b : relHolds r (Fin (a - b)) (Fin (@f0 R NumR)) = holds r a b.
Proof.
  unfold relHolds, holds, xleb. cbn [xltb xless xeqb fltb feqb f0 NumR].
  destruct r.
  - destruct (Rge_dec a b) as [H|H]; [apply orb_true_iff; destruct (Rle_lt_or_eq_dec 0 (a - b)); [lra|left; now apply Rltb_true|right; now apply Reqb_true]|].
    apply orb_false_iff. split; [apply Rltb_false|apply Reqb_false]; lra.
  - destruct (Rle_dec a b) as [H|H]; [apply orb_true_iff; destruct (Rle_lt_or_eq_dec (a - b) 0); [lra|left; now apply Rltb_true|right; now apply Reqb_true]|].
    apply orb_false_iff. split; [apply Rltb_false|apply Reqb_false]; lra.
  - destruct (Req_EM_T a b) as [H|H]; [apply Reqb_true|apply Reqb_false]; lra.
  - destruct (Rgt_dec a b) as [H|H]; [apply Rltb_true|apply Rltb_false]; lra.
  - destruct (Rlt_dec a b) as [H|H]; [apply Rltb_true|apply Rltb_false]; lra.
Qed.
Lemma masked_sum (f : nat -> bool) (q : nat -> R) N :
  masked (map f (seq 0 N)) (map Fin (tab N q)) = Ok (map Fin (map q (filter f (seq 0 N)))).
Proof.
  unfold masked. rewrite !map_length, tab_length, seq_length, Nat.eqb_refl. f_equal. unfold tab. rewrite map_map.
  induction (seq 0 N) as [|x l IH]; [reflexivity|]. cbn [map combine filter fst]. destruct (f x); cbn [map snd]; now rewrite IH.
Qed.
Lemma filter_sum (f : nat -> bool) (q : nat -> R) N : Rsum (map q (filter f (seq 0 N))) = Rsum (tab N (fun x => if f x then q x else 0)).
Proof.
  unfold tab. induction (seq 0 N) as [|x l IH]; [reflexivity|]. cbn [filter map]. destruct (f x); cbn [map]; unfold Rsum in *; cbn; rewrite IH; lra.
Qed.
