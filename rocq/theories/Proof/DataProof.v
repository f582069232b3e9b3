(** Likelihoods of multi-dimensional and missing data; fits only depend on the data through the likelihoods. *)
From Coq Require Import List ZArith Reals Lra Lia Arith Bool String Permutation.
From Verif Require Import Base.Num Base.Exn Base.Arr Base.RSum Base.Lift Model.Helper Model.Tm Model.HyperParams Model.Study
  Spec.Kernel Spec.Hmm Spec.Config Spec.Dist Spec.Data Proof.StaticProof.
Import ListNotations.
Local Open Scope R_scope.

Lemma isnan_In l : existsb (xisnan (F := R)) l = true <-> In NaN l.
Proof.
  rewrite existsb_exists. split.
  - intros (x & I & E). destruct x; try discriminate. exact I.
  - intros I. exists NaN. auto.
Qed.
Lemma arrOf_ones N : aones (F := R) N = arrOf N (fun _ => 1).
Proof. unfold arrOf. rewrite aones_fin. f_equal. apply repeat_tab. Qed.
Lemma columns_seq rows : columns rows = map (column rows) (seq 0 (width rows)).
Proof. unfold columns, width. destruct rows; reflexivity. Qed.
Lemma amul_arrOf N f g : amul (arrOf N f) (arrOf N g) = arrOf N (fun x => f x * g x).
Proof. unfold arrOf. rewrite amul_fin, rmul_tab. reflexivity. Qed.
Lemma fold_amul N fs : forall g, fold_left amul (map (arrOf N) fs) (arrOf N g) = arrOf N (fun x => g x * Rprod (map (fun f : nat -> R => f x) fs)).
Proof.
  induction fs as [|f fs IH]; intros g; cbn [map fold_left].
  - unfold arrOf. f_equal. apply tab_ext. intros. cbn. lra.
  - rewrite amul_arrOf, IH. unfold arrOf. f_equal. apply tab_ext. intros. change (Rprod (f i :: map (fun f0 => f0 i) fs)) with (f i * Rprod (map (fun f0 => f0 i) fs)). ring.
Qed.

Lemma Rprod_ones n : Rprod (repeat 1 n) = 1.
Proof. induction n as [|n IH]; cbn; [lra|]. fold (Rprod (repeat 1 n)). lra. Qed.
Lemma missing_ones o N grid s : missing (om_multiply o) s -> processedPdf o N grid s = arrOf N (fun _ => 1).
Proof.
  destruct s as [xs|rows]; cbn [missing processedPdf].
  - intros I. unfold processed1. rewrite (proj2 (isnan_In xs) I). apply arrOf_ones.
  - destruct (om_multiply o).
    + intros Hc. rewrite columns_seq, map_map.
      rewrite (map_ext_in _ (fun j => arrOf N (fun _ => 1))).
      * rewrite <- (map_map (fun _ : nat => fun _ : nat => 1) (arrOf N)), arrOf_ones, fold_amul. unfold arrOf. f_equal. apply tab_ext. intros x _.
        rewrite map_map, map_const_seq, Rprod_ones. lra.
      * intros j Hj. apply in_seq in Hj. unfold processed1. rewrite (proj2 (isnan_In _) (Hc j ltac:(lia))). apply arrOf_ones.
    + intros (row & I & J). assert (E : existsb (existsb (xisnan (F := R))) rows = true).
      { apply existsb_exists. exists row. split; auto. now apply isnan_In. }
      rewrite E. apply arrOf_ones.
Qed.

(** x * y is commutative and associative, also with infinities and NaN *)
Lemma xmul_comm (a b : xnum R) : xmul a b = xmul b a.
Proof. destruct a, b; cbn; auto. now rewrite Rmult_comm. Qed.
Lemma xmul_1_l (a : xnum R) : xmul (Fin 1) a = a.
Proof.
  destruct a; cbn; auto.
  - f_equal; lra.
  - unfold Reqb, Rltb. destruct (Req_EM_T 1 0); [lra|]. destruct (Rlt_dec 1 0); [lra|]. reflexivity.
  - unfold Reqb, Rltb. destruct (Req_EM_T 1 0); [lra|]. destruct (Rlt_dec 0 1); [|lra]. reflexivity.
Qed.
Lemma xmul_assoc (a b c : xnum R) : xmul (xmul a b) c = xmul a (xmul b c).
Proof.
  Ltac sgn := unfold Reqb, Rltb, xinf in *; cbn;
    repeat match goal with
           | |- context [Req_EM_T ?x ?y] => destruct (Req_EM_T x y); cbn
           | |- context [Rlt_dec ?x ?y] => destruct (Rlt_dec x y); cbn
           end.
  destruct a as [a| | |], b as [b| | |], c as [c| | |]; cbn; auto; sgn; sgn; auto; try (f_equal; ring); try (exfalso; nra);
    exfalso; match goal with H : ?a * ?b = 0, Ha : ?a <> 0, Hb : ?b <> 0 |- _ => destruct (Rmult_integral _ _ H); contradiction end.
Qed.
Lemma amul_nth a b i d : (i < List.length a)%nat -> List.length a = List.length b -> nth i (amul a b) d = xmul (nth i a d) (nth i b d).
Proof. intros Hi E. unfold amul. apply map2_nth; lia. Qed.
Lemma amul_swap_l a b : List.length a = List.length b -> amul (F := R) a b = amul b a.
Proof. intros _. unfold amul. apply map2_comm, xmul_comm. Qed.
Lemma amul_assoc a : forall b c, amul (F := R) (amul a b) c = amul a (amul b c).
Proof.
  induction a as [|x a IH]; intros [|y b] [|z c]; cbn; auto. unfold amul in IH. rewrite xmul_assoc, IH. reflexivity.
Qed.
Lemma fold_amul_perm l l' : Permutation l l' -> forall a, fold_left (amul (F := R)) l a = fold_left amul l' a.
Proof.
  induction 1 as [|x l l' HP IH|x y l|l l' l'' H1 IH1 H2 IH2]; intros a; cbn; auto.
  - f_equal. rewrite !amul_assoc. f_equal. unfold amul. apply map2_comm, xmul_comm.
  - now rewrite IH1.
Qed.

Lemma processed_permute o N grid rows p : om_multiply o = true -> Forall (fun row => List.length row = width rows) rows ->
  Permutation p (seq 0 (width rows)) -> processedPdf o N grid (Seg2 (map (permute p) rows)) = processedPdf o N grid (Seg2 rows).
Proof.
  intros Em Hw Hp. cbn [processedPdf]. rewrite Em, !columns_seq.
  destruct rows as [|r0 rows0]; [reflexivity|]. set (rows := r0 :: rows0) in *.
  assert (Lp : List.length p = width rows) by (rewrite (Permutation_length Hp), seq_length; reflexivity).
  assert (Ew : width (map (permute p) rows) = width rows).
  { unfold width at 1, rows. cbn [map hd]. unfold permute. rewrite map_length. exact Lp. }
  rewrite Ew. symmetry.
  assert (Ec : map (column (map (permute p) rows)) (seq 0 (width rows)) = map (column rows) p).
  { apply (list_eq_nth []); rewrite !map_length, ?seq_length; [auto|]. intros i Hi.
    rewrite (nth_indep _ [] (column (map (permute p) rows) 0)) by now rewrite map_length, seq_length.
    rewrite (map_nth (column (map (permute p) rows))), seq_nth by auto.
    rewrite (nth_indep _ [] (column rows 0)) by (rewrite map_length; lia). rewrite (map_nth (column rows)).
    unfold column. rewrite map_map. apply map_ext. intros row. unfold permute.
    rewrite (nth_indep _ NaN (nth 0 row NaN)) by (rewrite map_length; cbn; lia). rewrite (map_nth (fun j => nth j row NaN)). reflexivity. }
  rewrite Ec. apply fold_amul_perm, Permutation_map, Permutation_map. now symmetry.
Qed.

(** fits of the same models on data with the same likelihoods *)
Section SameLik.
  Context {F L : Type} `{Num F} `{LogNum F L}.
  Variables (e : env F) (o : om F) (m : tm F).
  Definition sameLik (s s' : seg F) : Prop := processedPdf o (e_size e) (e_grid e) s = processedPdf o (e_size e) (e_grid e) s'.
  Lemma fwdLoop_same segs segs' : Forall2 sameLik segs segs' -> forall ts al b p (ev : xnum L),
    fwdLoop e o m segs ts al b p ev = fwdLoop e o m segs' ts al b p ev.
  Proof.
    induction 1 as [|s s' segs segs' E HF IH]; intros ts al b p ev; cbn [fwdLoop]; auto. rewrite E.
    destruct (xltb _ _); auto. destruct ts; auto. destruct (computeForwardPrior _ _ _ _ _); auto. cbn [bind]. now rewrite IH.
  Qed.
  Lemma bwdLoop_same its its' : Forall2 (fun a b => fst (fst a) = fst (fst b) /\ sameLik (snd (fst a)) (snd (fst b)) /\ snd a = snd b) its its' ->
    forall b, bwdLoop e o m its b = bwdLoop e o m its' b.
  Proof.
    induction 1 as [|[[a s] t] [[a' s'] t'] its its' (E1 & E2 & E3) HF IH]; intros b; cbn [bwdLoop fst snd] in *; auto. subst. rewrite E2.
    destruct (xltb _ _); auto.
    - destruct (computeBackwardPrior _ _ _ _ _); auto. cbn [bind]. now rewrite IH.
    - do 3 f_equal. clear IH. induction HF as [|[[a s0] t] [[a'' s0'] t''] its its' (E1 & _) HF IH]; cbn in *; auto. now rewrite E1, IH.
  Qed.
End SameLik.
Lemma Forall2_rev {A B} (P : A -> B -> Prop) l l' : Forall2 P l l' -> Forall2 P (rev l) (rev l').
Proof. induction 1; cbn; auto. apply Forall2_app; auto. Qed.
Lemma Forall2_combine {A A' B B'} (P : A -> A' -> Prop) (Q : B -> B' -> Prop) l l' k k' :
  Forall2 P l l' -> Forall2 Q k k' -> Forall2 (fun a b => P (fst a) (fst b) /\ Q (snd a) (snd b)) (combine l k) (combine l' k').
Proof.
  intros HP. revert k k'. induction HP as [|a a' l l' Ha HP IH]; intros k k' HQ; cbn; [constructor|].
  destruct HQ; constructor; auto.
Qed.
Lemma Forall2_refl' {A} (P : A -> A -> Prop) l : (forall a, P a a) -> Forall2 P l l.
Proof. intros R. induction l; constructor; auto. Qed.
(** what a fit stores *)
Definition sameResults {F L} (A B : study F L) : Prop :=
  st_logEv A = st_logEv B /\ st_post A = st_post B /\ st_local A = st_local B /\ st_means A = st_means B /\ st_fmtTs A = st_fmtTs B.
(** the same result or the same exception *)
Definition sameOutcome {F L} (a b : res (study F L)) : Prop :=
  match a, b with Ok A, Ok B => sameResults A B | Err x, Err y => x = y | _, _ => False end.

Lemma Forall2_imp {A B} (P Q : A -> B -> Prop) l l' : (forall a b, P a b -> Q a b) -> Forall2 P l l' -> Forall2 Q l l'.
Proof. intros H. induction 1; constructor; auto. Qed.
Lemma Forall2_len {A B} (P : A -> B -> Prop) l l' : Forall2 P l l' -> List.length l = List.length l'.
Proof. induction 1; cbn; auto. Qed.
Lemma fit_same {F L} `{Num F} `{LogNum F L} (S S' : study F L) o m fo eo :
  st_om S = Some o -> st_om S' = Some o -> st_tm S = Some m -> st_tm S' = Some m ->
  st_shape S = st_shape S' -> st_lat S = st_lat S' -> st_tmlat S = st_tmlat S' -> st_grid S = st_grid S' -> st_rawTs S = st_rawTs S' ->
  st_shift S = st_shift S' -> st_aconv S = st_aconv S' -> st_bconv S = st_bconv S' -> st_post S = st_post S' -> st_means S = st_means S' ->
  rawLen (st_raw S) = rawLen (st_raw S') ->
  Forall2 (sameLik (envOf S o (om_prior o)) o) (formatData (st_raw S) (om_seglen o)) (formatData (st_raw S') (om_seglen o)) ->
  sameOutcome (fit S fo eo) (fit S' fo eo).
Proof.
  intros h1 h2 h3 h4 h5 h6 h7 h8 h9 h10 h11 h12 h13 h14 h15 HF.
  unfold fit, checkConsistency. rewrite h1, h2, h3, h4, h15. destruct (Nat.eqb _ _); [reflexivity|]. destruct (hasDup _); [reflexivity|]. cbn [bind].
  rewrite h9. destruct (st_rawTs S') as [ts|]; [|reflexivity].
  assert (Ee : forall p, envOf S o p = envOf S' o p) by (intros p; unfold envOf; rewrite h5, h6, h7, h8, h10, h11, h12; reflexivity).
  rewrite <- Ee. destruct (computePrior _) as [[[a p] al]|]; [|reflexivity]. cbn [bind].
  rewrite <- (fwdLoop_same _ o m _ _ HF). destruct (fwdLoop _ _ _ _ _ _ _ _ _) as [w|]; [|reflexivity]. cbn [bind].
  rewrite <- (Forall2_len _ _ _ HF), <- h13, <- h14, <- h8.
  destruct (fw_stop w); [cbn; repeat split; auto|]. destruct eo; [cbn; repeat split; auto|]. destruct fo; [cbn; repeat split; auto|].
  assert (Eb : bwdLoop (with_prior (envOf S o (om_prior o)) (fw_prior w)) o m
      (rev (combine (combine (map fst (fw_steps w)) (formatData (st_raw S) (om_seglen o))) (formatTimestamps ts (om_seglen o))))
      (normalise (aones (e_size (envOf S o (om_prior o))))) =
    bwdLoop (with_prior (envOf S o (om_prior o)) (fw_prior w)) o m
      (rev (combine (combine (map fst (fw_steps w)) (formatData (st_raw S') (om_seglen o))) (formatTimestamps ts (om_seglen o))))
      (normalise (aones (e_size (envOf S o (om_prior o)))))).
  { apply bwdLoop_same. apply Forall2_rev.
    pose proof (Forall2_combine eq _ _ _ _ _ (Forall2_refl' eq (map fst (fw_steps w)) (@eq_refl _)) HF) as F1.
    pose proof (Forall2_combine _ eq _ _ _ _ F1 (Forall2_refl' eq (formatTimestamps ts (om_seglen o)) (@eq_refl _))) as F2.
    eapply Forall2_imp; [|exact F2]. cbn. intros a0 b0 ((E1 & E2) & E3). auto. }
  rewrite Eb. clear Eb. generalize (bwdLoop (with_prior (envOf S o (om_prior o)) (fw_prior w)) o m (rev (combine (combine (map fst (fw_steps w)) (formatData (st_raw S') (om_seglen o))) (formatTimestamps ts (om_seglen o)))) (normalise (aones (e_size (envOf S o (om_prior o)))))). intros [[out [|]]|]; cbn; repeat split; auto.
Qed.

(** loading other data into a configured study *)
Lemma configured_load S o m vs ts d ts2 : configured S o m vs ts -> (0 < rawLen d)%nat -> List.length ts2 = rawLen d ->
  configured (loadData S d (Some ts2)) o m vs ts2.
Proof.
  intros [c1 c2 c3 c4 c5 c6 c7 c8 c9 c10 c11 c12 c13 c14] Hd Ht. constructor; auto. cbn. rewrite Ht, Nat.eqb_refl. reflexivity.
Qed.
Lemma priorIs_load S o vs p rho d ts2 : priorIs S vs o p rho -> priorIs (loadData S d ts2) vs o p rho.
Proof. intros [| | | |]; try (constructor; auto; fail). apply (pri_sym (loadData S d ts2) vs o f g); auto. Qed.
