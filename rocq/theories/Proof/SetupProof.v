(** Reachable states of a study, parameter grids. *)
From Coq Require Import List ZArith Reals Lra Lia Arith Bool String.
From Verif Require Import Base.Num Base.Exn Base.Arr Base.RSum Base.Lift Model.Helper Model.Tm Model.HyperParams Model.Study
  Model.Api Spec.Kernel Spec.Hmm Spec.Config Proof.Gauss Proof.KernelProof Proof.HmmProof Proof.FitLinear Proof.FitThms.
Import ListNotations.
Local Open Scope R_scope.

(** ** what setOM and setTM establish, for any carrier *)
Section Inv.
  Context {F L : Type} `{Num F} `{LogNum F L}.

  Record gridInv (S : study F L) : Prop := {
    gi_shape : st_shape S = map (@List.length F) (st_marg S);
    gi_grid : st_grid S = meshgrid (st_marg S);
    gi_lat : mapM latticeOf (st_marg S) = Ok (st_lat S);
    gi_tm : st_tm S <> None -> st_tmlat S = st_lat S
  }.

  Lemma mapM_length' {A B} (f : A -> res B) l r : mapM f l = Ok r -> List.length r = List.length l.
  Proof.
    revert r; induction l as [|a l IH]; simpl; intros r E; [now inversion E|].
    destruct (f a); [|discriminate]. destruct (mapM f l); [|discriminate]. inversion E; subst. simpl. f_equal. auto.
  Qed.

  Lemma fit_keeps S fo eo S' : fit S fo eo = Ok S' ->
    st_tm S' = st_tm S /\ st_marg S' = st_marg S /\ st_shape S' = st_shape S /\ st_lat S' = st_lat S /\
    st_tmlat S' = st_tmlat S /\ st_grid S' = st_grid S /\ st_raw S' = st_raw S /\ st_rawTs S' = st_rawTs S /\
    st_sel S' = st_sel S /\ st_shift S' = st_shift S /\ st_aconv S' = st_aconv S /\ st_bconv S' = st_bconv S /\
    exists o p, st_om S = Some o /\ st_om S' = Some (om_set_prior o p).
  Proof.
    unfold fit. destruct (checkConsistency S) as [[o m]|] eqn:EC; [|discriminate]. cbn [bind].
    assert (Eo : st_om S = Some o).
    { unfold checkConsistency in EC. destruct (Nat.eqb _ _); [discriminate|]. destruct (st_om S); [|discriminate].
      destruct (st_tm S); [|discriminate]. destruct (hasDup _); [discriminate|]. now inversion EC. }
    destruct (st_rawTs S) as [rts|] eqn:ET; [|discriminate].
    destruct (computePrior _) as [[[a p] al]|]; [|discriminate]. cbn [bind].
    destruct (fwdLoop _ _ _ _ _ _ _ _ _) as [w|]; [|discriminate]. cbn [bind].
    assert (K : forall fmt ts post means ev loc warn, Ok (set_results S (om_set_prior o (fw_prior w)) fmt ts post means ev loc warn) = Ok S' ->
       st_tm S' = st_tm S /\ st_marg S' = st_marg S /\ st_shape S' = st_shape S /\ st_lat S' = st_lat S /\
       st_tmlat S' = st_tmlat S /\ st_grid S' = st_grid S /\ st_raw S' = st_raw S /\ st_rawTs S' = Some rts /\
       st_sel S' = st_sel S /\ st_shift S' = st_shift S /\ st_aconv S' = st_aconv S /\ st_bconv S' = st_bconv S /\
       exists o p, st_om S = Some o /\ st_om S' = Some (om_set_prior o p)).
    { intros fmt ts post means ev loc warn E. inversion E; subst. cbn. repeat split; auto. eauto. }
    destruct (fw_stop w); [intros E; eapply K; exact E|].
    destruct eo; [intros E; eapply K; exact E|]. destruct fo; [intros E; eapply K; exact E|].
    destruct (bwdLoop _ _ _ _ _) as [[out stop]|]; [|discriminate]. cbn [bind].
    destruct stop; intros E; eapply K; exact E.
  Qed.

  Lemma runCall_inv S c S' : (st_om S <> None -> gridInv S) -> (st_om S = None -> st_tm S <> None -> st_tmlat S = st_lat S) ->
    runCall S c = Ok S' ->
    (st_om S' <> None -> gridInv S') /\ (st_om S' = None -> st_tm S' <> None -> st_tmlat S' = st_lat S').
  Proof.
    intros I J E. destruct c as [d ts|o|m|fo eo]; cbn in E.
    - inversion E; subst. cbn. split; auto. intros Ho. destruct (I Ho). constructor; auto.
    - unfold setOM in E. destruct (mapM _ _) as [marg|]; [|discriminate]. cbn [bind] in E.
      destruct (mapM latticeOf marg) as [lat|] eqn:EL; [|discriminate]. cbn [bind] in E. inversion E; subst. cbn.
      split; [|discriminate]. intros _. constructor; auto. cbn. intros Hm. destruct (st_tm S); [reflexivity|congruence].
    - unfold setTM in E. destruct (isBreak m); [discriminate|]. inversion E; subst. cbn. split; auto.
      intros Ho. destruct (I Ho). constructor; auto.
    - apply fit_keeps in E. destruct E as (E1 & E2 & E3 & E4 & E5 & E6 & _ & _ & _ & _ & _ & _ & o & p & Eo & Eo').
      split; [|congruence]. intros _. destruct I as [I1 I2 I3 I4]; [congruence|]. constructor; rewrite ?E1, ?E2, ?E3, ?E4, ?E5, ?E6; auto.
  Qed.
  Lemma runCalls_inv cs : forall S S', (st_om S <> None -> gridInv S) -> (st_om S = None -> st_tm S <> None -> st_tmlat S = st_lat S) ->
    runCalls S cs = Ok S' ->
    (st_om S' <> None -> gridInv S') /\ (st_om S' = None -> st_tm S' <> None -> st_tmlat S' = st_lat S').
  Proof.
    induction cs as [|c cs IH]; intros S S' I J E; cbn in E; [inversion E; subst; auto|].
    destruct (runCall S c) as [S1|] eqn:E1; [|discriminate]. cbn in E.
    destruct (runCall_inv S c S1 I J E1). eapply IH; eauto.
  Qed.
  Lemma reach_inv sh ac bc cs S : runCalls (newStudy sh ac bc) cs = Ok S ->
    (st_om S <> None -> gridInv S) /\ (st_tm S <> None -> st_tmlat S = st_lat S).
  Proof.
    intros E. apply runCalls_inv in E.
    - destruct E as [A B]. split; auto. intros Hm. destruct (st_om S) eqn:Eo; [apply A; auto; congruence|auto].
    - cbn. congruence.
    - cbn. congruence.
  Qed.
End Inv.

(** ** lattice constants over the reals *)
(** values a, a+d, a+2d, ... (n of them) *)
Definition progression (a d : R) (n : nat) : list R := map (fun i => a + INR i * d) (seq 0 n).

Lemma diff_map_seq (f : nat -> R) : forall n k, diff (F := R) (map f (seq k (S n))) = map (fun i => f (S i) - f i) (seq k n).
Proof.
  induction n as [|n IH]; intros k; [reflexivity|].
  change (diff (F := R) (map f (seq k (S (S n))))) with (f (S k) - f k :: diff (F := R) (map f (seq (S k) (S n)))).
  rewrite IH. reflexivity.
Qed.
Lemma fabs_R x : fabs (F := R) x = Rabs x.
Proof.
  unfold fabs, fneg. cbn. unfold Rltb. destruct (Rlt_dec x 0).
  - rewrite Rabs_left by auto. lra.
  - rewrite Rabs_right; lra.
Qed.
Lemma tol10_pos : 0 < tol10 (F := R).
Proof. unfold tol10. cbn. apply Rdiv_lt_0_compat; lra. Qed.

Lemma lattice_progression a d n : (2 <= n)%nat -> latticeOf (progression a d n) = Ok (Rabs d).
Proof.
  intros Hn. destruct n as [|[|n]]; try lia. unfold latticeOf, progression.
  replace (existsb _ _) with false.
  - cbn [seq map]. f_equal. rewrite fabs_R. cbn [fsub NumR]. rewrite S_INR. cbn [INR].
    replace (a + 0 * d - (a + (0 + 1) * d)) with (- d) by ring. apply Rabs_Ropp.
  - symmetry. rewrite diff_map_seq. destruct n as [|n]; [reflexivity|]. rewrite diff_map_seq.
    rewrite (map_ext _ (fun _ => 0)).
    + generalize (seq 0 (S n)). induction l as [|x l IH]; [reflexivity|]. cbn [map existsb]. rewrite IH, orb_false_r.
      rewrite fabs_R, Rabs_R0. cbn. apply Rltb_false. left. apply tol10_pos.
    + intros i. rewrite !S_INR. ring.
Qed.

(** an irregular grid: some second difference is larger than 1e-10 *)
Lemma lattice_irregular v i : (i + 2 < List.length v)%nat ->
  / 10000000000 < Rabs ((nth (i + 2) v 0 - nth (i + 1) v 0) - (nth (i + 1) v 0 - nth i v 0)) -> latticeOf v = Ok 1.
Proof.
  intros Hi Hd. unfold latticeOf. replace (existsb _ _) with true; auto. symmetry. apply existsb_exists.
  assert (G : forall (v : list R) i, (i + 1 < List.length v)%nat -> nth_error (diff (F := R) v) i = Some (nth (i + 1) v 0 - nth i v 0)).
  { clear. induction v as [|a v IH]; intros i Hi; [simpl in Hi; lia|]. destruct v as [|b v]; [simpl in Hi; lia|].
    cbn [diff]. destruct i; [reflexivity|]. cbn [nth_error]. rewrite IH by (simpl in *; lia). reflexivity. }
  assert (Ld : List.length (diff (F := R) v) = (List.length v - 1)%nat).
  { clear. induction v as [|a v IH]; [reflexivity|]. destruct v as [|b v]; [reflexivity|]. cbn [diff List.length] in *. rewrite IH. lia. }
  eexists. split.
  - eapply nth_error_In. apply (G (diff (F := R) v) i). rewrite Ld. lia.
  - rewrite fabs_R. cbn. apply Rltb_true.
    rewrite (nth_error_nth _ _ _ (G v (i + 1)%nat ltac:(lia))), (nth_error_nth _ _ _ (G v i ltac:(lia))).
    unfold tol10. cbn. replace (i + 1 + 1)%nat with (i + 2)%nat by lia. unfold Rdiv. lra.
Qed.

(** the lattice constant is positive if the first two values differ *)
Lemma lattice_pos v l : latticeOf v = Ok l -> nth 0 v 0 <> nth 1 v 0 -> 0 < l.
Proof.
  unfold latticeOf. destruct (existsb _ _); intros E; [inversion E; cbn; intros; lra|].
  destruct v as [|a [|b v]]; try discriminate. inversion E. intros D. rewrite fabs_R. cbn in *. apply Rabs_pos_lt. lra.
Qed.

(** ** the grid enumerates all combinations in row-major order *)
Lemma cart_length {A} (ls : list (list A)) : List.length (cart ls) = natprod (map (@List.length A) ls).
Proof.
  induction ls as [|l ls IH]; [reflexivity|]. cbn [cart map natprod fold_right].
  assert (G : forall l : list A, List.length (flat_map (fun a => map (cons a) (cart ls)) l) = (List.length l * List.length (cart ls))%nat).
  { induction l0 as [|a l0 IHl]; [reflexivity|]. cbn [flat_map List.length Nat.mul]. rewrite app_length, map_length, IHl. reflexivity. }
  rewrite G, IH. reflexivity.
Qed.
Lemma flat_map_nth {A B} (f : A -> list B) k d d' : forall l i j, (forall a, List.length (f a) = k) -> (i < List.length l)%nat -> (j < k)%nat ->
  nth (i * k + j) (flat_map f l) d = nth j (f (nth i l d')) d.
Proof.
  induction l as [|a l IH]; intros i j Hk Hi Hj; [simpl in Hi; lia|]. cbn [flat_map]. destruct i.
  - cbn [Nat.mul Nat.add nth]. rewrite app_nth1; auto. rewrite Hk. auto.
  - rewrite app_nth2 by (rewrite Hk; cbn; lia). rewrite Hk. replace (S i * k + j - k)%nat with (i * k + j)%nat by (cbn; lia).
    cbn [nth]. apply IH; auto. simpl in Hi. lia.
Qed.
Lemma cart_nth {A} (d : A) : forall ls x, (x < natprod (map (@List.length A) ls))%nat ->
  nth x (cart ls) [] = map (fun p => nth (snd p) (fst p) d) (combine ls (unravel (map (@List.length A) ls) x)).
Proof.
  induction ls as [|l ls IH]; intros x Hx.
  - cbn in *. destruct x; [reflexivity|lia].
  - cbn [map unravel combine]. set (k := natprod (map (@List.length A) ls)) in *.
    assert (Hx' : (x < List.length l * k)%nat) by exact Hx.
    assert (k <> 0)%nat by (intros E; rewrite E in Hx'; lia).
    rewrite (Nat.div_mod x k) at 1 by auto. rewrite (Nat.mul_comm k).
    cbn [cart]. rewrite (flat_map_nth _ k [] d).
    + rewrite (nth_indep _ [] (nth (x / k) l d :: nth 0 (cart ls) [])) by (rewrite map_length, cart_length; apply Nat.mod_upper_bound; auto).
      assert (Hr : (x mod k < k)%nat) by (apply Nat.mod_upper_bound; auto).
      rewrite (map_nth (cons (nth (x / k) l d))).
      cbn [fst snd]. f_equal. rewrite (nth_indep _ _ []) by (rewrite cart_length; exact Hr). apply IH. exact Hr.
    + intros a. rewrite map_length. apply cart_length.
    + apply Nat.div_lt_upper_bound; auto. lia.
    + apply Nat.mod_upper_bound; auto.
Qed.
Lemma Forall2_len {A B} (P : A -> B -> Prop) l m : Forall2 P l m -> List.length l = List.length m.
Proof. induction 1; cbn; auto. Qed.
(** every combination occurs exactly once *)
Lemma cart_In {A} (ls : list (list A)) pt : In pt (cart ls) <-> Forall2 (fun v l => In v l) pt ls.
Proof.
  revert pt; induction ls as [|l ls IH]; intros pt; cbn [cart].
  - split; [intros [<-|[]]; constructor|]. intros HF; inversion HF; now left.
  - rewrite in_flat_map. split.
    + intros (a & Ha & Hp). apply in_map_iff in Hp. destruct Hp as (q & <- & Hq). constructor; auto. now apply IH.
    + intros HF. inversion HF as [|v l' pt' ls' Hv HF']; subst. exists v. split; auto. apply in_map. now apply IH.
Qed.
Lemma NoDup_app_intro {A} (l m : list A) : NoDup l -> NoDup m -> (forall x, In x l -> In x m -> False) -> NoDup (l ++ m).
Proof.
  induction 1 as [|a l Na Hl IH]; cbn; intros Hm D; auto. constructor.
  - rewrite in_app_iff. intros [I|I]; [tauto|]. apply (D a); auto.
  - apply IH; auto. intros x Hx. apply D. now right.
Qed.
Lemma cart_NoDup {A} (ls : list (list A)) : Forall (@NoDup A) ls -> NoDup (cart ls).
Proof.
  induction 1 as [|l ls Hl HF IH]; cbn [cart]; [repeat constructor; auto|].
  induction Hl as [|a l Na Hl IHl]; cbn [flat_map]; [constructor|].
  apply NoDup_app_intro.
  - apply FinFun.Injective_map_NoDup; auto. intros x y E. now inversion E.
  - exact IHl.
  - intros x Hx Hy. apply in_map_iff in Hx. destruct Hx as (q & <- & _). apply in_flat_map in Hy.
    destruct Hy as (b & Hb & Hy). apply in_map_iff in Hy. destruct Hy as (r & Er & _). inversion Er; subst. tauto.
Qed.
