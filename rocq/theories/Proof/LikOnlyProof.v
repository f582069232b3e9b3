(** Proofs for studies with the same likelihood and prior values *)
From Coq Require Import List ZArith Lia Arith Bool String.
From Verif Require Import Base.Num Base.Exn Base.Arr Model.Helper Model.Tm Model.HyperParams Model.Study Spec.LikOnly Proof.KernelProof Proof.DataProof.
Import ListNotations.

Section LikOnly.
  Context {F L : Type} `{Num F} `{LogNum F L}.
  Notation arr := (list (xnum F)).

  Record sameEnv (e e' : env F) : Prop := {
    se_shape : e_shape e' = e_shape e; se_lat : e_lat e' = e_lat e; se_tmlat : e_tmlat e' = e_tmlat e; se_names : e_names e' = e_names e;
    se_shift : e_shift e' = e_shift e; se_aconv : e_aconv e' = e_aconv e; se_bconv : e_bconv e' = e_bconv e;
    se_prior : samePriorValues (e_grid e) (e_grid e') (e_prior e) (e_prior e')
  }.
  Lemma same_reset e e' : sameEnv e e' -> resetPrior e' = resetPrior e.
  Proof.
    intros [h1 h2 h3 h4 h5 h6 h7 h8]. unfold resetPrior, e_size. rewrite h1. destruct (e_prior e), (e_prior e'); cbn in h8; try contradiction; auto.
    - destruct h8 as [-> ->]. reflexivity.
    - now rewrite h8.
    - now subst.
  Qed.
  Lemma same_change e e' : sameEnv e e' -> changeReset e' = changeReset e.
  Proof. intros E. unfold changeReset, e_vol. now rewrite (same_reset _ _ E), (se_lat _ _ E). Qed.
  Lemma same_leaf e e' k vals off p t1 t t' : sameEnv e e' -> leafStep e' k vals off p t1 t t' = leafStep e k vals off p t1 t t'.
  Proof.
    intros E. pose proof (same_reset _ _ E) as R. pose proof (same_change _ _ E) as Ch. destruct E as [h1 h2 h3 h4 h5 h6 h7 _].
    unfold leafStep. rewrite R, Ch, h1, h3, h4, h5, h6, h7. reflexivity.
  Qed.
  Lemma same_step e e' m : sameEnv e e' -> forall off p t1 t t', step e' m off p t1 t t' = step e m off p t1 t t'.
  Proof.
    intros E. induction m as [k hn vals pr ms IH] using tm_ind'. intros off p t1 t t'.
    destruct k as [ | | | | | | | | |mask| | ]; cbn [step]; try (apply (same_leaf e e'); exact E).
    - revert p. induction IH as [|x ms Hx _ IHm]; intros p; [reflexivity|]. rewrite Hx. destruct (step e x off p t1 t t'); [apply IHm|reflexivity].
    - destruct (mapM scalarOf vals) as [bs|]; [|reflexivity]. cbn [bind].
      assert (Q : forall i off', (fix sel (ms0 : list (tm F)) (j : nat) {struct ms0} : res arr :=
          match ms0, j with [], _ => Err IndexError | m' :: _, O => step e' m' off' p t1 t t' | _ :: ms', Datatypes.S j' => sel ms' j' end) ms i =
        (fix sel (ms0 : list (tm F)) (j : nat) {struct ms0} : res arr :=
          match ms0, j with [], _ => Err IndexError | m' :: _, O => step e m' off' p t1 t t' | _ :: ms', Datatypes.S j' => sel ms' j' end) ms i).
      { clear - IH. induction IH as [|x ms Hx _ IHm]; intros i off'; [reflexivity|]. destruct i; [apply Hx|apply IHm]. }
      rewrite Q. destruct (_ ms (breaksUpTo bs t1)); [|reflexivity]. cbn [bind]. unfold changeCheck. now rewrite (same_change _ _ E).
  Qed.
  Lemma same_with e e' p p' : sameEnv e e' -> samePriorValues (e_grid e) (e_grid e') p p' -> sameEnv (with_prior e p) (with_prior e' p').
  Proof. intros [] P. constructor; auto. Qed.
  Lemma same_overwrite g g' al (p p' : priorSpec F) (a : arr) : samePriorValues g g' p p' -> samePriorValues g g' (overwrite al p a) (overwrite al p' a).
  Proof. destruct al, p, p'; cbn; intuition congruence. Qed.
  Lemma same_computePrior e e' : sameEnv e e' ->
    match computePrior e, computePrior e' with
    | Ok (a, p, al), Ok (a', p', al') => a' = a /\ al' = al /\ samePriorValues (e_grid e) (e_grid e') p p'
    | Err x, Err y => x = y
    | _, _ => False
    end.
  Proof.
    intros [h1 h2 h3 h4 h5 h6 h7 h8]. unfold computePrior, priorDensity, e_size, e_vol. rewrite h1, h2, h4. destruct (e_prior e), (e_prior e'); cbn in h8; try contradiction.
    - cbn. auto.
    - destruct h8 as [<- <-]. destruct (list_eq_dec _ _ _); [|reflexivity]. cbn. auto.
    - rewrite h8. cbn. auto.
    - subst. cbn. auto.
    - destruct h8 as [<- h8]. destruct (Nat.eqb _ _); [|reflexivity]. rewrite h8. cbn. auto.
  Qed.
  Definition sameSegs (e e' : env F) (o o' : om F) : seg F -> seg F -> Prop := fun s s' => processedPdf o' (e_size e') (e_grid e') s' = processedPdf o (e_size e) (e_grid e) s.
  Definition sameFwd (e e' : env F) (a b : res (fwd F L)) : Prop :=
    match a, b with
    | Ok w, Ok w' => fw_steps w' = fw_steps w /\ fw_logEv w' = fw_logEv w /\ fw_stop w' = fw_stop w /\ samePriorValues (e_grid e) (e_grid e') (fw_prior w) (fw_prior w')
    | Err x, Err y => x = y
    | _, _ => False
    end.
  Lemma same_fwd e e' o o' m : sameEnv e e' -> forall segs segs', Forall2 (sameSegs e e' o o') segs segs' -> forall ts alpha al p p' ev,
    samePriorValues (e_grid e) (e_grid e') p p' -> sameFwd e e' (fwdLoop e o m segs ts alpha al p ev) (fwdLoop e' o' m segs' ts alpha al p' ev).
  Proof.
    intros E segs segs'. induction 1 as [|s s' segs segs' Hs _ IH]; intros ts alpha al p p' ev P; [cbn; auto|]. cbn [fwdLoop]. cbv zeta. unfold sameSegs in Hs. rewrite Hs.
    set (a1 := amul alpha _). destruct (xltb (Fin f0) (asum a1)); [|cbn; repeat split; auto using same_overwrite].
    destruct ts as [|t ts]; [reflexivity|]. set (a2 := adivs a1 (asum a1)). unfold computeForwardPrior.
    rewrite (same_step (with_prior e (overwrite al p a2)) (with_prior e' (overwrite al p' a2)) m) by auto using same_with, same_overwrite.
    destruct (step _ m _ _ _ _ _) as [a3|]; [|reflexivity]. cbn [bind].
    pose proof (IH ts a3 (al && returnsArgument m t)%bool (overwrite al p a2) (overwrite al p' a2) (xladd ev (xln (asum a1))) (same_overwrite _ _ al p p' a2 P)) as Q.
    unfold fw_cons, sameFwd in *. destruct (fwdLoop e _ _ _ _ _ _ _ _) as [w|]; destruct (fwdLoop e' _ _ _ _ _ _ _ _) as [w'|]; cbn [bind]; auto. cbn. destruct Q as (q1 & q2 & q3 & q4). rewrite q1. auto.
  Qed.
  Definition sameItem (e e' : env F) (o o' : om F) (x y : arr * seg F * F) : Prop := fst (fst y) = fst (fst x) /\ snd y = snd x /\ sameSegs e e' o o' (snd (fst x)) (snd (fst y)).
  Lemma same_bwd e e' o o' m : sameEnv e e' -> forall items items', Forall2 (sameItem e e' o o') items items' -> forall beta,
    bwdLoop e' o' m items' beta = bwdLoop e o m items beta.
  Proof.
    intros E items items'. induction 1 as [|[[a s] t] [[a' s'] t'] items items' Hi HF IH]; intros beta; [reflexivity|]. destruct Hi as (E1 & E2 & E3). cbn in E1, E2, E3. subst. cbn [bwdLoop]. cbv zeta.
    unfold sameSegs in E3. rewrite E3. destruct (xltb _ _).
    - unfold computeBackwardPrior. rewrite (same_step e e' m E). destruct (step e m _ _ _ _ _) as [b|]; [|reflexivity]. cbn [bind]. rewrite IH. unfold e_vol. rewrite (se_lat _ _ E). reflexivity.
    - do 3 f_equal. clear - HF. induction HF as [|x y l l' (h & _) _ IH]; [reflexivity|]. cbn. now rewrite IH, h.
  Qed.
  Lemma items_same e e' o o' segs segs' : Forall2 (sameSegs e e' o o') segs segs' -> forall (al : list arr) ts,
    Forall2 (sameItem e e' o o') (combine (combine al segs) ts) (combine (combine al segs') ts).
  Proof.
    induction 1 as [|s s' segs segs' Hs _ IH]; intros [|a al] ts; cbn [combine]; try constructor. destruct ts as [|t ts]; constructor; [repeat split; auto|apply IH].
  Qed.
  Lemma Forall2_app2 {A B} (P : A -> B -> Prop) a b c d : Forall2 P a c -> Forall2 P b d -> Forall2 P (a ++ b) (c ++ d).
  Proof. induction 1; cbn; auto. Qed.
  Lemma Forall2_rev2 {A B} (P : A -> B -> Prop) l l' : Forall2 P l l' -> Forall2 P (rev l) (rev l').
  Proof. induction 1; cbn; [constructor|]. apply Forall2_app2; auto. Qed.

  (** all results but the mean values are equal; the mean values are the expectations of the respective parameter values *)
  Definition twinResults (S S' A B : study F L) : Prop :=
    st_post B = st_post A /\ st_logEv B = st_logEv A /\ st_local B = st_local A /\ st_fmtTs B = st_fmtTs A /\
    (st_means A = [] /\ st_means B = [] \/
     exists ps, st_post A = map Some ps /\ st_means A = meanValues (st_grid S) ps /\ st_means B = meanValues (st_grid S') ps).
  Lemma padNone_all {A} (l : list A) n : List.length l = n -> padNone n l = map Some l.
  Proof. intros <-. unfold padNone. now rewrite Nat.sub_diag, app_nil_r. Qed.
  Lemma fwd_steps_length e o m : forall segs ts alpha al p ev w, fwdLoop (L := L) e o m segs ts alpha al p ev = Ok w -> fw_stop w = false -> List.length (fw_steps w) = List.length segs.
  Proof.
    induction segs as [|s segs IH]; intros ts alpha al p ev w; cbn [fwdLoop]; cbv zeta; [intros X _; injection X as <-; reflexivity|].
    destruct (xltb _ _); [|intros X; injection X as <-; discriminate]. destruct ts as [|t ts]; [discriminate|].
    destruct (computeForwardPrior _ _ _ _ _) as [a3|]; [|discriminate]. cbn [bind]. unfold fw_cons. destruct (fwdLoop _ _ _ segs _ _ _ _ _) as [w'|] eqn:E; [|discriminate]. cbn [bind].
    intros X. injection X as <-. cbn [fw_stop fw_steps List.length]. intros Hs. f_equal. eapply IH; eauto.
  Qed.
  Theorem fit_twins (S S' : study F L) o o' m fo eo : twins S S' o o' m ->
    match fit S fo eo, fit S' fo eo with Ok A, Ok B => twinResults S S' A B | Err x, Err y => x = y | _, _ => False end.
  Proof.
    intros [[a1 a2] [b1 b2] h1 h2 h3 h4 h5 h6 h7 (f1 & f2 & f3) (o1 & o2 & o3) hp hl]. unfold fit, checkConsistency. rewrite a1, a2, b1, b2, h6.
    destruct (Nat.eqb _ _); [reflexivity|]. destruct (hasDup _); [reflexivity|]. cbn [bind]. rewrite h7. destruct (st_rawTs S) as [rts|]; [|reflexivity]. cbv zeta.
    set (e := envOf S o (om_prior o)). set (e' := envOf S' o' (om_prior o')).
    assert (E : sameEnv e e') by (constructor; auto). pose proof (same_computePrior _ _ E) as C.
    destruct (computePrior e) as [[[a p] al]|]; destruct (computePrior e') as [[[a' p'] al']|]; try contradiction; [|exact C]. destruct C as (-> & -> & P). cbn [bind].
    assert (Sg : Forall2 (sameSegs e e' o o') (formatData (st_raw S) (om_seglen o)) (formatData (st_raw S') (om_seglen o'))).
    { eapply Forall2_imp; [|exact hl]. intros s s' X. unfold sameSegs, e_size. cbn [e e' envOf e_shape e_grid]. now rewrite h1. }
    rewrite h5 in Sg |- *. pose proof (same_fwd e e' o o' m E _ _ Sg (formatTimestamps rts (om_seglen o)) a al p p' (Fin l0) P) as W. unfold sameFwd in W.
    destruct (fwdLoop e _ _ _ _ _ _ _ _) as [w|] eqn:EW; destruct (fwdLoop e' _ _ _ _ _ _ _ _) as [w'|]; try contradiction; [|exact W]. destruct W as (w1 & w2 & w3 & w4). cbn [bind].
    rewrite w1, w2, w3. assert (Ln : List.length (formatData (st_raw S') (om_seglen o)) = List.length (formatData (st_raw S) (om_seglen o))) by (symmetry; eapply Forall2_len; exact Sg).
    rewrite Ln. assert (Vo : e_vol e' = e_vol e) by (unfold e_vol; now rewrite (se_lat _ _ E)). assert (Sz : e_size e' = e_size e) by (unfold e_size; now rewrite (se_shape _ _ E)). rewrite Vo, Sz.
    destruct (fw_stop w) eqn:St; [unfold twinResults; cbn; rewrite f1; destruct eo; auto 8|]. destruct eo; [unfold twinResults; cbn; rewrite f1; auto 8|].
    destruct fo.
    { unfold twinResults. cbn. do 4 (split; [reflexivity|]). right. eexists. split; [|split; reflexivity]. apply padNone_all. rewrite map_length. eapply fwd_steps_length; eauto. }
    rewrite (same_bwd (with_prior e (fw_prior w)) (with_prior e' (fw_prior w')) o o' m (same_with _ _ _ _ E w4) _ _
      (Forall2_rev2 _ _ _ (items_same _ _ o o' _ _ Sg (map fst (fw_steps w)) (formatTimestamps rts (om_seglen o))))).
    destruct (bwdLoop _ _ _ _ _) as [[out stop]|]; [|reflexivity]. cbn [bind]. destruct stop; unfold twinResults; cbn; [auto 8|]. do 4 (split; [reflexivity|]). right. eexists. repeat split.
  Qed.
End LikOnly.
