(** Queries that the parser cannot answer. *)
From Coq Require Import List ZArith Reals Lra Lia Arith Bool String.
From Verif Require Import Base.Num Base.Exn Base.Arr Base.RSum Base.Lift Model.Helper Model.Tm Model.HyperParams Model.Study Model.Getters Model.Parser
  Spec.Kernel Spec.Hmm Spec.Dist Spec.ParserSpec Proof.ParserProof Proof.ParserLoad.
Import ListNotations.
Local Open Scope R_scope.

Lemma stamped_closed t : forall c, stamped t c -> namesIn c = [] -> unstamped c.
Proof.
  assert (Pl : forall c, plain c -> namesIn c <> []) by (induction 1; cbn; congruence).
  assert (G : forall c l, namesIn c ++ flat_map (fun d : bool * cst (F := R) => namesIn (snd d)) l = [] ->
    namesIn c = [] /\ Forall (fun d => namesIn (snd d) = []) l).
  { intros c l E. apply app_eq_nil in E. destruct E as [E1 E2]. split; [auto|]. induction l as [|d l IH]; constructor; cbn in E2; apply app_eq_nil in E2; tauto. }
  induction c as [r|s|c IH|f c IH|c l IH IHl|a b IHa IHb|p c IH|c l IH IHl|c l IH IHl] using cst_ind'; intros U E; inversion U; subst; cbn [namesIn] in E; try (constructor; auto; fail).
  - exfalso. eapply Pl; eauto.
  - apply app_eq_nil in E. destruct E. constructor; auto.
  - destruct (G _ _ E) as [E1 E2]. constructor; auto. rewrite Forall_forall in *. intros d I. auto.
  - destruct (G _ _ E) as [E1 E2]. constructor; auto. rewrite Forall_forall in *. intros d I. auto.
Qed.

Section Reject.
  Variables (pow : R -> R -> option R) (fn : string -> R -> option R) (lb : lib (F := R)).
  Hypothesis Lib : computes pow fn lb.
  Variables (stamps : nat -> list R) (params : list (param (F := R))).
  Variable env : string -> option R.
  (** the error, and the parameters that may be handed on without an operation *)
  Variables (E : exn) (raw : param (F := R) -> Prop).
  Hypothesis rawE : forall p, raw p -> needsTime p = true /\ E = ConfigurationError.
  Hypothesis rawV : forall p v, raw p -> raw (withVals p v).
  Notation eval := (evalElem lb stamps params).
  Notation mean := (meaning pow fn env).

  Definition noFun (e : elem (F := R)) : Prop := forall f, e <> ETok (TFun f).
  Definition bad (x : res (elem (F := R))) : Prop :=
    x = Err E \/ exists e p, x = Ok e /\ toVal params e = Ok (VP p) /\ raw p /\ noFun e.
  Definition number (x : res (elem (F := R))) (r : R) : Prop :=
    exists e np, x = Ok e /\ toVal params e = Ok (VF np (Fin r)) /\ noFun e.
  (** an expression without names has its value, one with names fails *)
  Definition fails (c : cst (F := R)) : Prop := forall r, mean c = Some r ->
    (namesIn c = [] -> number (eval (tree c)) r) /\ (namesIn c <> [] -> bad (eval (tree c))).

  Lemma closed_number c : unstamped c -> namesIn c = [] -> forall r, mean c = Some r -> number (eval (tree c)) r.
  Proof.
    intros U NE r Hr.
    assert (HP : P pow fn lb stamps params 1 0 true None [] (fun _ => env) c).
    { apply P_unstamped; auto. rewrite NE. constructor. }
    destruct (HP (fun _ => r)) as (e & Ee & v & Tv & G & NF); [intros x _; exact Hr|]. rewrite NE in G. inversion G as [np r' m C Ez Ev|]; subst.
    exists e, np. split; [exact Ee|]. split; [|exact NF]. specialize (C O ltac:(lia)). cbn in C. now rewrite C.
  Qed.

  Lemma op_bad o a b : o <> SAt -> o <> SFunc ->
    (bad a /\ (bad b \/ exists r, number b r)) \/ ((exists r, number a r) /\ bad b) -> op3 lb stamps params a (Ok (ETok (TOp o))) b = Err E.
  Proof.
    intros O1 O2 HB.
    assert (G : forall (va vb : val (F := R)) ea eb, toVal params ea = Ok va -> toVal params eb = Ok vb ->
      (exists p, (va = VP p \/ vb = VP p) /\ raw p) -> operation lb stamps params (ETok (TOp o)) ea eb = Err E).
    { intros va vb ea eb Ta Tb (p & Hp & Rp). destruct (rawE p Rp) as [Np ->]. unfold operation. rewrite Ta, Tb. cbn [bind].
      destruct o; try congruence; destruct Hp as [->| ->]; rewrite Np; rewrite ?orb_true_r; reflexivity. }
    unfold op3. destruct HB as [[[->|(e & p & -> & Te & Re & _)] Hb]|[(r & e & np & -> & Te & _) Hb]]; cbn [bind]; [reflexivity| |].
    - destruct Hb as [[->|(e' & p' & -> & Te' & _)]|(r & e' & np & -> & Te' & _)]; cbn [bind]; [reflexivity| |]; eapply G; eauto.
    - destruct Hb as [->|(e' & p' & -> & Te' & Re' & _)]; cbn [bind]; [reflexivity|]. eapply G; eauto.
  Qed.
  Lemma chain_err l : Nat.even (List.length l) = true -> chain lb stamps params (Err E) l = Err E.
  Proof.
    assert (G : forall n l, (List.length l <= n)%nat -> Nat.even (List.length l) = true -> chain lb stamps params (Err E) l = Err E).
    { induction n as [|n IH]; intros [|x [|y l']] L Ev; cbn in *; try reflexivity; try lia; try discriminate. apply IH; [lia|exact Ev]. }
    apply (G (List.length l)). lia.
  Qed.
  Lemma evalList_err l : (2 <= List.length l)%nat -> Nat.even (List.length l) = true -> evalList lb stamps params (Err E :: l) = Err E.
  Proof. intros L Ev. destruct l as [|a [|b l]]; cbn in L; try lia. cbn [evalList]. now apply chain_err. Qed.

  (** chains of left associative operators *)
  Variables (opf : bool -> sym) (comb : bool -> R -> R -> option R).
  Notation stp := (fun (acc : option R) (d : bool * cst (F := R)) => lift2 (comb (fst d)) acc (mean (snd d))).
  Notation flat := (flat opf).
  Lemma fold_none l : fold_left stp l None = None.
  Proof. induction l; auto. Qed.
  Lemma flat_even l : Nat.even (List.length (map eval (flat l))) = true.
  Proof. induction l as [|d l IH]; [reflexivity|]. cbn in *. exact IH. Qed.
  Lemma chain_bad : chainOK pow opf comb -> forall l head d, Forall (fun d => fails (snd d) /\ (namesIn (snd d) = [] -> unstamped (snd d))) (d :: l) ->
    ((bad head /\ exists r0 r, fold_left stp (d :: l) (Some r0) = Some r) \/ exists r0 r, number head r0 /\ fold_left stp (d :: l) (Some r0) = Some r /\ flat_map (fun d => namesIn (snd d)) (d :: l) <> []) ->
    chain lb stamps params head (map eval (flat (d :: l))) = Err E.
  Proof.
    intros [Ho Hc]. induction l as [|d' l IH]; intros head d HF HB; inversion HF as [|? ? [Qd Ud] HF']; subst; destruct (Ho (fst d)) as [O1 O2]; cbn [flat flat_map app map chain evalElem].
    - destruct HB as [[Bh (r0 & r & Em)]|(r0 & r & Nh & Em & NE)]; cbn [fold_left] in Em.
      + destruct (mean (snd d)) as [y|] eqn:Ey; [|discriminate]. destruct (Qd y Ey) as [Q1 Q2]. apply op_bad; auto. left. split; auto.
        destruct (namesIn (snd d)); [right; eauto|left; apply Q2; discriminate].
      + destruct (mean (snd d)) as [y|] eqn:Ey; [|discriminate]. destruct (Qd y Ey) as [Q1 Q2]. apply op_bad; auto. right. split; [eauto|]. apply Q2. cbn in NE. now rewrite app_nil_r in NE.
    - change (fold_left stp (d :: d' :: l)) with (fun a => fold_left stp (d' :: l) (stp a d)) in HB. cbn beta in HB.
      assert (Er : forall x, x = Err E -> chain lb stamps params x (map eval (flat (d' :: l))) = Err E).
      { intros x ->. apply chain_err. apply flat_even. }
      change (chain lb stamps params (op3 lb stamps params head (Ok (ETok (TOp (opf (fst d))))) (eval (tree (snd d)))) (map eval (flat (d' :: l))) = Err E).
      destruct HB as [[Bh (r0 & r & Em)]|(r0 & r & Nh & Em & NE)].
      + destruct (mean (snd d)) as [y|] eqn:Ey; [|cbn [lift2] in Em; rewrite fold_none in Em; discriminate]. destruct (Qd y Ey) as [Q1 Q2]. apply Er. apply op_bad; auto. left. split; auto.
        destruct (namesIn (snd d)); [right; eauto|left; apply Q2; discriminate].
      + destruct (mean (snd d)) as [y|] eqn:Ey; [|cbn [lift2] in Em; rewrite fold_none in Em; discriminate]. destruct (Qd y Ey) as [Q1 Q2].
        destruct (namesIn (snd d)) as [|n ns] eqn:En.
        * apply IH; [exact HF'|]. right. cbn [lift2] in Em. destruct (comb (fst d) r0 y) as [z|] eqn:Ez; [|rewrite fold_none in Em; discriminate].
          exists z, r. split; [|split; [exact Em|]].
          -- destruct Nh as (e & np & -> & Te & NF). destruct (Q1 eq_refl) as (e' & np' & -> & Te' & NF'). unfold op3. cbn [bind].
             assert (K : exists v, operation lb stamps params (ETok (TOp (opf (fst d)))) e e' = Ok (EVal v) /\ goodV 1 0 true None [] [] v (fun _ => z)).
             { destruct (op_good pow fn lb Lib stamps params 1 0 true None [] ltac:(lia) ltac:(auto) (opf (fst d)) [] [] e e' (fun _ => r0) (fun _ => y) (fun _ => z)) as (v & Ev & Gv); auto; [| | |eauto].
               - exists (VF np (Fin r0)). split; [auto|]. split; [now constructor|auto].
               - exists (VF np' (Fin y)). split; [auto|]. split; [now constructor|auto].
               - intros x _. now rewrite Hc. }
             destruct K as (v & -> & Gv). inversion Gv as [np2 r2 m2 C2|]; subst. exists (EVal (VF np2 (Fin r2))), np2. split; [reflexivity|]. split; [|discriminate]. cbn. specialize (C2 O ltac:(lia)). cbn in C2. now rewrite C2.
          -- cbn [flat_map] in NE |- *. rewrite En in NE. exact NE.
        * apply Er. apply op_bad; auto. right. split; [eauto|]. apply Q2. discriminate.
  Qed.
  Lemma group_bad c l r : chainOK pow opf comb -> fails c -> (namesIn c = [] -> unstamped c) -> l <> [] -> Forall (fun d => fails (snd d) /\ (namesIn (snd d) = [] -> unstamped (snd d))) l ->
    fold_left stp l (mean c) = Some r -> namesIn c ++ flat_map (fun d => namesIn (snd d)) l <> [] -> eval (group (tree c) (flat l)) = Err E.
  Proof.
    intros OK Qc Uc NL HF Em NE. destruct l as [|d l]; [congruence|]. destruct (mean c) as [r0|] eqn:Ec; [|rewrite fold_none in Em; discriminate].
    destruct (Qc r0 Ec) as [Q1 Q2]. cbn [flat flat_map app group]. rewrite (evalElem_node lb stamps params 1 ltac:(lia)) by (cbn; lia). cbn [map].
    assert (G : chain lb stamps params (eval (tree c)) (map eval (flat (d :: l))) = Err E).
    { apply (chain_bad OK); [exact HF|]. destruct (namesIn c) as [|n ns] eqn:En; [right; exists r0, r; auto|left; split; [apply Q2; discriminate|eauto]]. }
    cbn [flat flat_map app map] in G.
    destruct (eval (tree c)) as [e|x] eqn:Ee.
    - rewrite evalList_chain; [exact G|]. destruct (namesIn c) as [|n ns].
      + destruct (Q1 eq_refl) as (e' & np & E1 & _ & NF). inversion E1; subst. exact NF.
      + destruct Q2 as [E1|(e' & p & E1 & _ & _ & NF)]; [discriminate|discriminate|]. inversion E1; subst. exact NF.
    - exact G.
  Qed.
End Reject.

Section Forms.
  Variables (pow : R -> R -> option R) (fn : string -> R -> option R) (lb : lib (F := R)).
  Hypothesis Lib : computes pow fn lb.
  Variables (stamps : nat -> list R) (params : list (param (F := R))).
  Variable env : string -> option R.
  Variables (E : exn) (raw : param (F := R) -> Prop).
  Hypothesis rawE : forall p, raw p -> needsTime p = true /\ E = ConfigurationError.
  Hypothesis rawV : forall p v, raw p -> raw (withVals p v).
  Notation eval := (evalElem lb stamps params).
  Notation mean := (meaning pow fn env).
  Notation fails := (fails pow fn lb stamps params env E raw).
  Notation bad := (bad params E raw).
  Notation number := (number params).

  Lemma mean_members (f : bool * cst (F := R) -> R -> R -> option R) l acc r : fold_left (fun acc d => lift2 (f d) acc (mean (snd d))) l acc = Some r -> acc <> None.
  Proof. intros Em ->. induction l; cbn in Em; [discriminate|auto]. Qed.

  (** a sum or product with at least two members and a name *)
  Lemma Q_fun f c : (namesIn c = [] -> unstamped c) -> fails c -> fails (CFun f c).
  Proof.
    intros Uc Qc r Hr. split.
    - intros NE. apply (closed_number pow fn lb Lib stamps params env); auto. constructor. auto.
    - intros NE. cbn [meaning namesIn] in *. destruct (mean c) as [y|] eqn:Ey; [|discriminate]. destruct (Qc y Ey) as [_ Q2]. cbn [tree evalElem]. unfold op3. cbn [bind].
      destruct (Q2 NE) as [->|(e & p & -> & Te & Rp & NF)]; cbn [bind]; [now left|]. right. unfold operation. cbn [toVal convert bind]. rewrite Te. cbn [bind].
      do 2 eexists. split; [reflexivity|]. split; [reflexivity|]. split; [auto|discriminate].
  Qed.
  Lemma Q_sign p c : (namesIn c = [] -> unstamped c) -> fails c -> fails (CSign p c).
  Proof.
    intros Uc Qc r Hr. split.
    - intros NE. apply (closed_number pow fn lb Lib stamps params env); auto. constructor. auto.
    - intros NE. cbn [meaning namesIn] in *. destruct (mean c) as [y|] eqn:Ey; [|destruct p; discriminate]. destruct (Qc y Ey) as [_ Q2]. left.
      assert (G : forall z, op3 lb stamps params (Ok (ETok (TNum z))) (Ok (ETok (TOp SMul))) (eval (tree c)) = Err E).
      { intros z. apply (op_bad lb stamps params E raw rawE); try discriminate. right. split; [|auto]. exists z. exists (ETok (TNum z)), false. repeat split. discriminate. }
      destruct p; cbn [tree evalElem]; apply G.
  Qed.
  Lemma Q_pow a b : (namesIn a = [] -> unstamped a) -> (namesIn b = [] -> unstamped b) -> fails a -> fails b -> fails (CPow a b).
  Proof.
    intros Ua Ub Qa Qb r Hr. split.
    - intros NE. apply (closed_number pow fn lb Lib stamps params env); auto. cbn in NE. apply app_eq_nil in NE. constructor; tauto.
    - intros NE. cbn [meaning namesIn] in *. destruct (mean a) as [x|] eqn:Ex; [|discriminate]. destruct (mean b) as [y|] eqn:Ey; [|discriminate].
      destruct (Qa x Ex) as [A1 A2], (Qb y Ey) as [B1 B2]. left. cbn [tree]. rewrite (evalElem_node lb stamps params 1 ltac:(lia)) by (cbn; lia). cbn [map].
      assert (G : op3 lb stamps params (eval (tree a)) (Ok (ETok (TOp SPow))) (eval (tree b)) = Err E).
      { apply (op_bad lb stamps params E raw rawE); try discriminate. destruct (namesIn a), (namesIn b); [now destruct NE| | |].
        - right. split; [eauto|]. apply B2. discriminate.
        - left. split; [apply A2; discriminate|]. right. eauto.
        - left. split; [apply A2; discriminate|]. left. apply B2. discriminate. }
      destruct (eval (tree a)) as [e|z] eqn:Ee; [|exact G]. rewrite evalList_chain; [exact G|]. destruct (namesIn a).
      + destruct (A1 eq_refl) as (e' & np & E1 & _ & NF). inversion E1; subst. exact NF.
      + destruct A2 as [E1|(e' & p & E1 & _ & _ & NF)]; [discriminate|discriminate|]. inversion E1; subst. exact NF.
  Qed.
  Notation ready d := (fails (snd d) /\ (namesIn (snd d) = [] -> unstamped (snd d))).
  Lemma closed_members l : flat_map (fun d : bool * cst (F := R) => namesIn (snd d)) l = [] -> Forall (fun d => namesIn (snd d) = [] -> unstamped (snd d)) l ->
    Forall (fun d => unstamped (snd d)) l.
  Proof. induction l as [|d l IH]; intros E0 HF; constructor; inversion HF; subst; cbn in E0; apply app_eq_nil in E0; destruct E0; auto. Qed.
  Lemma sum_strict c l r : fails c -> (namesIn c = [] -> unstamped c) -> l <> [] -> Forall (fun d => ready d) l -> mean (CSum c l) = Some r -> namesIn (CSum c l) <> [] ->
    eval (tree (CSum c l)) = Err E.
  Proof. intros. exact (group_bad pow fn lb Lib stamps params env E raw rawE _ sumComb c l r (sum_ok pow) H H0 H1 H2 H3 H4). Qed.
  Lemma prod_strict c l r : fails c -> (namesIn c = [] -> unstamped c) -> l <> [] -> Forall (fun d => ready d) l -> mean (CProd c l) = Some r -> namesIn (CProd c l) <> [] ->
    eval (tree (CProd c l)) = Err E.
  Proof. intros. exact (group_bad pow fn lb Lib stamps params env E raw rawE _ prodComb c l r (prod_ok pow) H H0 H1 H2 H3 H4). Qed.
  Lemma Q_sum c l : fails c -> (namesIn c = [] -> unstamped c) -> Forall (fun d => ready d) l -> fails (CSum c l).
  Proof.
    intros Qc Uc HF r Hr. split.
    - intros NE. apply (closed_number pow fn lb Lib stamps params env); auto. cbn in NE. apply app_eq_nil in NE. destruct NE. constructor; [auto|]. apply closed_members; auto.
      eapply Forall_impl; [|exact HF]. cbn. tauto.
    - intros NE. destruct l as [|d l]; [|left; eapply sum_strict; eauto; discriminate].
      cbn [tree flat_map group]. cbn in NE. rewrite app_nil_r in NE. exact (proj2 (Qc r Hr) NE).
  Qed.
  Lemma Q_prod c l : fails c -> (namesIn c = [] -> unstamped c) -> Forall (fun d => ready d) l -> fails (CProd c l).
  Proof.
    intros Qc Uc HF r Hr. split.
    - intros NE. apply (closed_number pow fn lb Lib stamps params env); auto. cbn in NE. apply app_eq_nil in NE. destruct NE. constructor; [auto|]. apply closed_members; auto.
      eapply Forall_impl; [|exact HF]. cbn. tauto.
    - intros NE. destruct l as [|d l]; [|left; eapply prod_strict; eauto; discriminate].
      cbn [tree flat_map group]. cbn in NE. rewrite app_nil_r in NE. exact (proj2 (Qc r Hr) NE).
  Qed.
  Lemma Q_num x : fails (CNum x).
  Proof. intros r Hr. split; [intros _; apply (closed_number pow fn lb Lib stamps params env); auto; apply us_num|cbn; congruence]. Qed.
End Forms.

(** parameters without time stamp *)
Section NoTime.
  Variables (pow : R -> R -> option R) (fn : string -> R -> option R) (lb : lib (F := R)).
  Hypothesis Lib : computes pow fn lb.
  Variables (stamps : nat -> list R) (params : list (param (F := R))).
  Variable env : string -> option R.
  Notation lookup s := (find (fun p => String.eqb (pa_name p) s) params).
  Definition untimed (p : param (F := R)) : Prop := needsTime p = true.
  Definition unready (s : string) : Prop := exists p, lookup s = Some p /\ untimed p.
  Lemma untimedE p : untimed p -> needsTime p = true /\ ConfigurationError = ConfigurationError. Proof. auto. Qed.
  Lemma untimedV p v : untimed p -> untimed (withVals p v). Proof. auto. Qed.
  Notation fails := (fails pow fn lb stamps params env ConfigurationError untimed).
  Lemma flat_all (K : string -> Prop) (l : list (bool * cst (F := R))) : Forall K (flat_map (fun d => namesIn (snd d)) l) -> Forall (fun d => Forall K (namesIn (snd d))) l.
  Proof. induction l as [|d l IH]; intros HF; constructor; cbn in HF; apply Forall_app in HF; tauto. Qed.
  Lemma Q_unstamped : forall c, unstamped c -> Forall unready (namesIn c) -> fails c.
  Proof.
    induction c as [r|s|c IH|f c IH|c l IH IHl|a b IHa IHb|p c IH|c l IH IHl|c l IH IHl] using cst_ind'; intros U K; inversion U; subst; cbn [namesIn] in K.
    - now apply Q_num.
    - intros r Hr. split; [discriminate|]. intros _. inversion K as [|? ? (p & Ep & Up) _]; subst. right. exists (ETok (TName s)), p. split; [reflexivity|]. split; [cbn; now rewrite Ep|]. split; [auto|discriminate].
    - exact (IH H0 K).
    - apply Q_fun; auto using untimedV.
    - apply Forall_app in K. destruct K. apply Q_pow; auto using untimedE.
    - apply Q_sign; auto using untimedE.
    - apply Forall_app in K. destruct K as [K1 K2]. apply flat_all in K2. apply Q_prod; auto using untimedE. rewrite Forall_forall in *. intros d I. split; auto.
    - apply Forall_app in K. destruct K as [K1 K2]. apply flat_all in K2. apply Q_sum; auto using untimedE. rewrite Forall_forall in *. intros d I. split; auto.
  Qed.
  Lemma composite_fails : forall c r, unstamped c -> Forall unready (namesIn c) -> composite c -> namesIn c <> [] -> meaning pow fn env c = Some r ->
    evaluate lb stamps params (tree c) = Err ConfigurationError.
  Proof.
    induction c as [x|s|c IH|f c IH|c l IH IHl|a b IHa IHb|p c IH|c l IH IHl|c l IH IHl] using cst_ind'; intros r U K Co NE Hr; try contradiction; inversion U; subst; cbn [namesIn] in K, NE.
    - cbn [tree]. eapply IH; eauto.
    - cbn [tree]. rewrite (evaluate_elem lb stamps params _ 1) by (cbn; lia). change (Node [tree a; Tok (TOp SPow); tree b]) with (tree (CPow a b)).
      pose proof (Q_unstamped (CPow a b) U K r Hr) as [_ Q2].
      apply Forall_app in K. destruct K as [K1 K2].
      destruct (Q2 NE) as [->|(e & p & Ee & Te & Up & _)]; [reflexivity|]. exfalso. cbn [meaning] in Hr.
      destruct (meaning pow fn env a) as [x|] eqn:Ex; [|discriminate]. destruct (meaning pow fn env b) as [y|] eqn:Ey; [|discriminate].
      destruct (Q_unstamped a H1 K1 x Ex) as [A1 A2], (Q_unstamped b H2 K2 y Ey) as [B1 B2].
      assert (G : op3 lb stamps params (evalElem lb stamps params (tree a)) (Ok (ETok (TOp SPow))) (evalElem lb stamps params (tree b)) = Err ConfigurationError).
      { apply (op_bad lb stamps params ConfigurationError untimed untimedE); try discriminate. destruct (namesIn a), (namesIn b); [now destruct NE| | |].
        - right. split; [eauto|]. apply B2. discriminate.
        - left. split; [apply A2; discriminate|]. right. eauto.
        - left. split; [apply A2; discriminate|]. left. apply B2. discriminate. }
      cbn [tree] in Ee. rewrite (evalElem_node lb stamps params 1 ltac:(lia)) in Ee by (cbn; lia). cbn [map] in Ee.
      destruct (evalElem lb stamps params (tree a)) as [ea|z] eqn:Ea.
      + rewrite evalList_chain in Ee; [cbn [chain evalElem] in Ee; congruence|]. destruct (namesIn a).
        * destruct (A1 eq_refl) as (e' & np & E1 & _ & NF). inversion E1; subst. exact NF.
        * destruct A2 as [E1|(e' & p' & E1 & _ & _ & NF)]; [discriminate|discriminate|]. inversion E1; subst. exact NF.
      + cbn [evalList chain evalElem] in Ee. rewrite G in Ee. discriminate.
    - destruct l as [|d l].
      + cbn [tree flat_map group]. cbn in NE, Co, K, Hr. rewrite app_nil_r in NE, K. eapply IH; eauto.
      + apply Forall_app in K. destruct K as [K1 K2]. apply flat_all in K2.
        assert (X : evalElem lb stamps params (tree (CProd c (d :: l))) = Err ConfigurationError).
        { eapply (prod_strict pow fn lb Lib stamps params env ConfigurationError untimed untimedE); eauto; [now apply Q_unstamped|discriminate|].
          rewrite Forall_forall in *. intros d' I. split; [apply Q_unstamped|]; auto. }
        cbn [tree flat_map app group] in X |- *. rewrite (evaluate_elem lb stamps params _ 1) by (cbn; lia). rewrite X. reflexivity.
    - destruct l as [|d l].
      + cbn [tree flat_map group]. cbn in NE, Co, K, Hr. rewrite app_nil_r in NE, K. eapply IH; eauto.
      + apply Forall_app in K. destruct K as [K1 K2]. apply flat_all in K2.
        assert (X : evalElem lb stamps params (tree (CSum c (d :: l))) = Err ConfigurationError).
        { eapply (sum_strict pow fn lb Lib stamps params env ConfigurationError untimed untimedE); eauto; [now apply Q_unstamped|discriminate|].
          rewrite Forall_forall in *. intros d' I. split; [apply Q_unstamped|]; auto. }
        cbn [tree flat_map app group] in X |- *. rewrite (evaluate_elem lb stamps params _ 1) by (cbn; lia). rewrite X. reflexivity.
  Qed.
End NoTime.

(** a time stamp that does not occur *)
Section BadTime.
  Variables (pow : R -> R -> option R) (fn : string -> R -> option R) (lb : lib (F := R)).
  Hypothesis Lib : computes pow fn lb.
  Variables (stamps : nat -> list R) (params : list (param (F := R))).
  Variable env : string -> option R.
  Notation lookup s := (find (fun p => String.eqb (pa_name p) s) params).
  Variable t : R.
  Definition lacking (p : param (F := R)) : Prop := is2D p = true /\ exists i, pa_study p = Some i /\ timeIndex (stamps i) t = None.
  Definition missing (s : string) : Prop := exists p, lookup s = Some p /\ lacking p.
  Definition nothing (p : param (F := R)) : Prop := False.
  Lemma nothingE p : nothing p -> needsTime p = true /\ ValueError = ConfigurationError. Proof. intros []. Qed.
  Lemma nothingV p v : nothing p -> nothing (withVals p v). Proof. auto. Qed.
  Notation fails := (fails pow fn lb stamps params env ValueError nothing).
  Lemma plain_lacking : forall c, plain c -> Forall missing (namesIn c) ->
    exists e p, evalElem lb stamps params (tree c) = Ok e /\ toVal params e = Ok (VP p) /\ lacking p /\ (forall f, e <> ETok (TFun f)).
  Proof.
    induction 1 as [s|c U IH|f c U IH]; intros K; cbn [namesIn] in K.
    - inversion K as [|? ? (p & Ep & Lp) _]; subst. exists (ETok (TName s)), p. split; [reflexivity|]. split; [cbn; now rewrite Ep|]. split; [auto|discriminate].
    - exact (IH K).
    - destruct (IH K) as (e & p & Ee & Tp & Lp & NF). exists (EVal (VP (withVals p (map (lb_fun lb f) (pa_vals p))))), (withVals p (map (lb_fun lb f) (pa_vals p))).
      split; [|split; [reflexivity|split; [|discriminate]]].
      + cbn [tree evalElem]. rewrite Ee. unfold op3. cbn [bind]. unfold operation. cbn [toVal convert bind]. rewrite Tp. reflexivity.
      + exact Lp.
  Qed.
  Lemma Q_stamped : forall c, stamped t c -> Forall missing (namesIn c) -> fails c.
  Proof.
    assert (C : forall c, stamped t c -> namesIn c = [] -> unstamped c) by (intros; now apply (stamped_closed t)).
    induction c as [r|s|c IH|f c IH|c l IH IHl|a b IHa IHb|p c IH|c l IH IHl|c l IH IHl] using cst_ind'; intros U K; inversion U; subst; cbn [namesIn] in K.
    - now apply Q_num.
    - exact (IH H0 K).
    - apply Q_fun; auto using nothingV.
    - intros r Hr. split; [intros NE; exfalso; match goal with H : plain _ |- _ => clear - NE H; induction H; cbn in NE; try discriminate; auto end|]. intros _. left.
      destruct (plain_lacking c) as (e & p & Ee & Tp & (H2 & i & Es & Et) & NF); auto.
      cbn [tree flat_map app group]. rewrite (evalElem_node lb stamps params 1 ltac:(lia)) by (cbn; lia). cbn [map evalElem]. rewrite Ee, evalList_chain by auto. cbn [chain].
      unfold op3. cbn [bind]. unfold operation. rewrite Tp. cbn [toVal convert bind]. rewrite H2. cbn [negb]. rewrite andb_false_r, Es, Et. reflexivity.
    - apply Forall_app in K. destruct K. apply Q_pow; auto using nothingE.
    - apply Q_sign; auto using nothingE.
    - apply Forall_app in K. destruct K as [K1 K2]. apply flat_all in K2. apply Q_prod; auto using nothingE. rewrite Forall_forall in *. intros d I. split; auto.
    - apply Forall_app in K. destruct K as [K1 K2]. apply flat_all in K2. apply Q_sum; auto using nothingE. rewrite Forall_forall in *. intros d I. split; auto.
  Qed.
End BadTime.

(** relations *)
Lemma reduced_sum (lhs rhs : cst (F := R)) : exists l, reduced lhs rhs = CSum (CProd (CNum (fneg f1)) [(true, CPar rhs)]) l /\ l <> [].
Proof. destruct lhs; eexists; (split; [reflexivity|discriminate]). Qed.
Section Relation.
  Variables (pow : R -> R -> option R) (fn : string -> R -> option R) (lb : lib (F := R)).
  Hypothesis Lib : computes pow fn lb.
  Variables (stamps : nat -> list R) (params : list (param (F := R))) (env : string -> option R) (E : exn) (raw : param (F := R) -> Prop).
  Hypothesis rawE : forall p, raw p -> needsTime p = true /\ E = ConfigurationError.
  Variable ok : cst (F := R) -> Prop.
  Hypothesis okQ : forall c, ok c -> fails pow fn lb stamps params env E raw c /\ (namesIn c = [] -> unstamped c).
  Lemma relation_fails lhs rhs a b : ok lhs -> ok rhs -> (forall c l, lhs = CSum c l -> ok c /\ Forall (fun d => ok (snd d)) l) -> namesIn lhs ++ namesIn rhs <> [] ->
    meaning pow fn env lhs = Some a -> meaning pow fn env rhs = Some b -> evaluate lb stamps params (tree (reduced lhs rhs)) = Err E.
  Proof.
    intros Ol Or Os NE Ha Hb. destruct (reduced_node lhs rhs) as (tl & El & Ll). rewrite El, (evaluate_elem lb stamps params _ 1), <- El by (auto; lia).
    pose proof (reduced_meaning pow fn (fun _ => env) lhs rhs 0 a b Ha Hb) as Hr.
    assert (NE' : namesIn (reduced lhs rhs) <> []).
    { intros Z. apply NE. assert (In_ : forall n, In n (namesIn lhs ++ namesIn rhs) -> In n (namesIn (reduced lhs rhs))).
      { intros n I. apply reduced_names. now apply in_app_iff. }
      destruct (namesIn lhs ++ namesIn rhs) as [|n l]; [reflexivity|]. specialize (In_ n (or_introl eq_refl)). rewrite Z in In_. destruct In_. }
    assert (F1 : fails pow fn lb stamps params env E raw (CProd (CNum (fneg f1)) [(true, CPar rhs)])).
    { apply Q_prod; auto; [now apply Q_num|intros _; constructor|]. constructor; [|constructor]. cbn [snd]. destruct (okQ rhs Or) as [Qr Ur]. split; [exact Qr|intros; constructor; auto]. }
    assert (U1 : namesIn (CProd (CNum (F := R) (fneg f1)) [(true, CPar rhs)]) = [] -> unstamped (CProd (CNum (fneg f1)) [(true, CPar rhs)])).
    { cbn. rewrite app_nil_r. intros Z. constructor; [constructor|]. constructor; [|constructor]. constructor. now apply (okQ rhs Or). }
    assert (G : forall l, reduced lhs rhs = CSum (CProd (CNum (fneg f1)) [(true, CPar rhs)]) l -> l <> [] -> Forall (fun d => ok (snd d)) l ->
      evalElem lb stamps params (tree (reduced lhs rhs)) = Err E).
    { intros l E0 NL HF. rewrite E0 in *. eapply (sum_strict pow fn lb Lib stamps params env E raw rawE); eauto. rewrite Forall_forall in *. intros d I. apply okQ; auto. }
    destruct lhs as [r|s|c|f c|c l|u v|p c|c l|c l]; try (rewrite (G _ eq_refl); [reflexivity|discriminate|repeat constructor; exact Ol]).
    destruct (Os c l eq_refl) as [O1 O2]. rewrite (G _ eq_refl); [reflexivity|discriminate|]. constructor; auto.
  Qed.
End Relation.
