(** Operations on parameters that the parser takes as independent. *)
From Coq Require Import List ZArith Reals Lra Lia Arith Bool String.
From Verif Require Import Base.Num Base.Exn Base.Arr Base.RSum Base.Lift Model.Helper Model.Tm Model.HyperParams Model.Study Model.Getters Model.Parser
  Spec.Kernel Spec.Hmm Spec.Dist Spec.ParserSpec Proof.FitThms Proof.GridProof Proof.ParserProof Proof.ParserLoad.
Import ListNotations.
Local Open Scope R_scope.

Lemma pairs_map {A B C} (f : C -> C -> C) (u : A -> C) (v : B -> C) la lb :
  pairs f (map u la) (map v lb) = map (fun ab => f (u (fst ab)) (v (snd ab))) (list_prod la lb).
Proof.
  unfold pairs. induction la as [|a la IH]; [reflexivity|]. cbn [map flat_map list_prod]. rewrite IH, map_app, !map_map. reflexivity.
Qed.
Lemma masked_list {A} (f : A -> bool) (g : A -> xnum R) l : masked (map f l) (map g l) = Ok (map g (filter f l)).
Proof.
  unfold masked. rewrite !map_length, Nat.eqb_refl. f_equal. induction l as [|x l IH]; [reflexivity|]. cbn [map combine filter fst]. destruct (f x); cbn [map snd]; now rewrite IH.
Qed.
Lemma Rsum_filter {A} (f : A -> bool) (g : A -> R) l : Rsum (map g (filter f l)) = Rsum (map (fun x => if f x then g x else 0) l).
Proof. induction l as [|x l IH]; [reflexivity|]. cbn [filter map]. destruct (f x); cbn [map]; unfold Rsum in *; cbn; rewrite IH; lra. Qed.
Lemma Rsum_list_prod {A B} (g : A * B -> R) la lb : Rsum (map g (list_prod la lb)) = Rsum (map (fun a => Rsum (map (fun b => g (a, b)) lb)) la).
Proof.
  induction la as [|a la IH]; [reflexivity|]. cbn [list_prod map]. rewrite map_app, map_map, Rsum_app, IH. reflexivity.
Qed.
Lemma Rsum_product {A B} (u : A -> R) (v : B -> R) la lb : Rsum (map (fun ab => u (fst ab) * v (snd ab)) (list_prod la lb)) = Rsum (map u la) * Rsum (map v lb).
Proof.
  rewrite Rsum_list_prod. induction la as [|a la IH]; [cbn; unfold Rsum; cbn; ring|]. cbn [map]. change (Rsum (?x :: ?l)) with (x + Rsum l). rewrite IH.
  cbn [fst snd]. rewrite Rmult_plus_distr_r. f_equal. clear. induction lb as [|b lb IH]; [unfold Rsum; cbn; ring|]. cbn [map]. change (Rsum (?x :: ?l)) with (x + Rsum l). rewrite IH. ring.
Qed.

Section Pairs.
  Variables (pow : R -> R -> option R) (fn : string -> R -> option R) (lb : lib (F := R)).
  Hypothesis Lib : computes pow fn lb.
  Variables (stamps : nat -> list R) (params : list (param (F := R))).
  (** two classes of parameters *)
  Variables (N N' : nat) (i i' : nat) (h h' : bool) (T T' : option R) (q q' : nat -> R).
  Hypotheses (HN : (0 < N)%nat) (HN' : (0 < N')%nat).
  Hypotheses (HT : h = true \/ T <> None) (HT' : h' = true \/ T' <> None).
  Hypotheses (S1 : Rsum (tab N q) = 1) (S2 : Rsum (tab N' q') = 1).
  Notation post := (map Fin (tab N q)).
  Notation post' := (map Fin (tab N' q')).
  Notation good := (goodV N i h T post).
  Notation good' := (goodV N' i' h' T' post').

  (** when the operands are taken as independent; n, n': first names in the expressions *)
  Definition apart (n n' : string) : Prop := h <> h' \/ i <> i' \/ (h = false /\ h' = false /\ n = n' /\ T <> T').
  Lemma apart_independent p p' m m' : inClass N i h T post p m -> inClass N' i' h' T' post' p' m' -> apart (pa_name p) (pa_name p') -> independent p p' = true.
  Proof.
    intros (_ & _ & Es & Eh & Et) (_ & _ & Es' & Eh' & Et') Ap. unfold independent. rewrite Eh, Eh'. unfold sameStudy, noStudy, sameTime. rewrite Es, Es', Et, Et'.
    destruct Ap as [NH|[NI|(-> & -> & En & NT)]].
    - destruct h, h'; try reflexivity; congruence.
    - rewrite (proj2 (Nat.eqb_neq i i')) by auto. destruct h, h'; reflexivity.
    - rewrite En, String.eqb_refl. destruct HT as [Z|HT0]; [discriminate|]. destruct HT' as [Z|HT0']; [discriminate|].
      destruct T as [t|], T' as [t'|]; try congruence. change (feqb t t') with (Reqb t t'). rewrite (proj2 (Reqb_false t t')) by congruence. apply orb_true_r.
  Qed.
  Definition pt := list_prod (seq 0 N) (seq 0 N').
  Lemma compound_spec f g p p' m m' : inClass N i h T post p m -> inClass N' i' h' T' post' p' m' ->
    (forall x y, (x < N)%nat -> (y < N')%nat -> f (Fin (m x)) (Fin (m' y)) = Fin (g x y)) ->
    compound f p p' = derived (map (fun xy => Fin (g (fst xy) (snd xy))) pt) (map (fun xy => Fin (q (fst xy) * q' (snd xy))) pt).
  Proof.
    intros (Ev & Ep & _) (Ev' & Ep' & _) Hg. unfold compound. rewrite Ev, Ev', Ep, Ep'. cbn [probList]. unfold tab. rewrite !map_map, !pairs_map. f_equal.
    - apply map_ext_in. intros [x y] I. apply in_prod_iff in I. destruct I as [I1 I2]. apply in_seq in I1, I2. cbn [fst snd]. apply Hg; lia.
    - rewrite (map_ext _ (fun xy => Fin (q (fst xy) * q' (snd xy)))) by (intros [x y]; reflexivity). rewrite <- (map_map (fun xy => q (fst xy) * q' (snd xy)) Fin), asum_fin.
      rewrite Rsum_product. unfold tab in S1, S2. rewrite S1, S2. replace (1 * 1) with 1 by ring. rewrite adivs_fin by lra. f_equal.
      fold pt. unfold rdivs. rewrite !map_map. apply map_ext. intros. f_equal. field.
  Qed.
  Lemma op_pairs o l l' e e' m m' g : o <> SAt -> o <> SFunc -> goodE params N i h T post l e m -> goodE params N' i' h' T' post' l' e' m' ->
    (exists n n', hd_error l = Some n /\ hd_error l' = Some n' /\ apart n n') ->
    (forall x y, (x < N)%nat -> (y < N')%nat -> arithR pow o (m x) (m' y) = Some (g x y)) ->
    operation lb stamps params (ETok (TOp o)) e e' =
      Ok (EVal (VP (derived (map (fun xy => Fin (g (fst xy) (snd xy))) pt) (map (fun xy => Fin (q (fst xy) * q' (snd xy))) pt)))).
  Proof.
    intros O1 O2 (v & Tv & G & _) (v' & Tv' & G' & _) (n & n' & Hn & Hn' & Ap) Hg. unfold operation. rewrite Tv, Tv'. cbn [bind].
    destruct G as [np r m C|p m n0 l0 Np C]; [discriminate|]. destruct G' as [np r m' C'|p' m' n0' l0' Np' C']; [discriminate|].
    cbn in Hn, Hn'. inversion Hn; inversion Hn'; subst.
    assert (E : (if needsTime p || needsTime p' then Err ConfigurationError else
                 if independent p p' then Ok (EVal (VP (compound (arith lb o) p p'))) else
                 bind (elementwise (arith lb o) (pa_vals p) (pa_vals p')) (fun v => Ok (EVal (VP (withVals p v))))) =
      Ok (EVal (VP (derived (map (fun xy => Fin (g (fst xy) (snd xy))) pt) (map (fun xy => Fin (q (fst xy) * q' (snd xy))) pt))))).
    { rewrite (class_notime N i h T post HT p m C), (class_notime N' i' h' T' post' HT' p' m' C'), (apart_independent p p' m m' C C' Ap). cbn [orb].
      rewrite (compound_spec (arith lb o) g p p' m m' C C'); [reflexivity|]. intros x y Hx Hy. apply (arith_spec pow fn lb Lib); auto. }
    destruct o; try congruence; exact E.
  Qed.
  (** different names at different times: values are combined point by point, with the probabilities of the first operand *)
  Lemma op_mixed o l l' e e' m m' g : N' = N -> i' = i -> h = false -> h' = false -> T <> T' -> o <> SAt -> o <> SFunc ->
    goodE params N i h T post l e m -> goodE params N' i' h' T' post' l' e' m' ->
    (exists n n', hd_error l = Some n /\ hd_error l' = Some n' /\ n <> n') ->
    (forall x, (x < N)%nat -> arithR pow o (m x) (m' x) = Some (g x)) ->
    exists v, operation lb stamps params (ETok (TOp o)) e e' = Ok (EVal v) /\ good l v g.
  Proof.
    intros EN Ei Eh1 Eh2 NT O1 O2 (v & Tv & G & _) (v' & Tv' & G' & _) (n & n' & Hn & Hn' & Nn) Hg. unfold operation. rewrite Tv, Tv'. cbn [bind].
    destruct G as [np r m C|p m n0 l0 Np C]; [discriminate|]. destruct G' as [np r m' C'|p' m' n0' l0' Np' C']; [discriminate|].
    cbn in Hn, Hn'. injection Hn as ->. injection Hn' as ->.
    assert (E : (if needsTime p || needsTime p' then Err ConfigurationError else
                 if independent p p' then Ok (EVal (VP (compound (arith lb o) p p'))) else
                 bind (elementwise (arith lb o) (pa_vals p) (pa_vals p')) (fun v => Ok (EVal (VP (withVals p v))))) =
      Ok (EVal (VP (withVals p (map Fin (tab N g)))))).
    { rewrite (class_notime N i h T post HT p m C), (class_notime N' i' h' T' post' HT' p' m' C'). cbn [orb].
      assert (D : independent p p' = false).
      { destruct C as (_ & _ & Es & Eh & Et), C' as (_ & _ & Es' & Eh' & Et'). unfold independent, sameStudy, noStudy. rewrite Eh, Eh', Eh1, Eh2, Es, Es', Ei, Nat.eqb_refl.
        cbn [negb orb andb]. rewrite Np, Np', (proj2 (String.eqb_neq n n') Nn). reflexivity. }
      rewrite D. unfold elementwise. destruct C as (Ev & _), C' as (Ev' & _). rewrite Ev, Ev', !map_length, !tab_length, EN, Nat.eqb_refl. cbn [bind]. do 4 f_equal.
      rewrite !map_tab, map2_tab. apply tab_ext. intros x Hx. apply (arith_spec pow fn lb Lib); auto. }
    exists (VP (withVals p (map Fin (tab N g)))). split; [destruct o; try congruence; exact E|]. apply gv_par; [exact Np|]. destruct C as (_ & Rest). split; [reflexivity|exact Rest].
  Qed.
  Lemma derived_prob r g : maskedProb (map (fun x => relHolds r x (Fin (@f0 R NumR))) (map (fun xy => Fin (g (fst xy) (snd xy))) pt)) (Prob1 (map (fun xy => Fin (q (fst xy) * q' (snd xy))) pt)) =
    Ok (map Fin (map (fun xy : nat * nat => q (fst xy) * q' (snd xy)) (filter (fun xy => relHolds r (Fin (g (fst xy) (snd xy))) (Fin (@f0 R NumR))) pt))).
  Proof. cbn [maskedProb]. rewrite map_map, masked_list, map_map. reflexivity. Qed.
End Pairs.
