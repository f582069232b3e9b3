(** Time reversal. *)
From Coq Require Import List ZArith Reals Lra Lia Arith Bool String Permutation.
From Verif Require Import Base.Num Base.Exn Base.Arr Base.RSum Base.Lift Model.Helper Model.Tm Model.HyperParams Model.Study
  Spec.Hmm Spec.Kernel Spec.Config Spec.Data Spec.Mirror
  Proof.KernelProof Proof.HmmProof Proof.FitThms Proof.StaticProof Proof.InferProof Proof.FitCore Proof.FitResults Proof.DataProof Proof.SplitProof.
Import ListNotations.
Local Open Scope R_scope.

(** ** paths *)
Lemma paths_In N n w : In w (paths N n) <-> List.length w = n /\ Forall (fun x => (x < N)%nat) w.
Proof.
  revert w. induction n as [|n IH]; intros w; cbn [paths].
  - cbn. split; [intros [<-|[]]; auto|intros [E _]; left; destruct w; [auto|discriminate]].
  - rewrite in_flat_map. split.
    + intros (x & Hx & I). apply in_map_iff in I as (w' & <- & I). apply IH in I as [E HF]. apply in_seq in Hx. cbn. split; [lia|]. constructor; auto. lia.
    + intros [E HF]. destruct w as [|x w]; [discriminate|]. inversion HF; subst. exists x. split; [apply in_seq; lia|]. apply in_map. apply IH. split; auto.
Qed.
Lemma NoDup_flat {A B} (f : A -> list B) l : NoDup l -> (forall a, In a l -> NoDup (f a)) -> (forall a b c, In a l -> In b l -> In c (f a) -> In c (f b) -> a = b) ->
  NoDup (flat_map f l).
Proof.
  induction l as [|a l IH]; intros ND H1 H2; cbn; [constructor|]. inversion ND; subst.
  assert (G : forall (l1 l2 : list B), NoDup l1 -> NoDup l2 -> (forall c, In c l1 -> ~ In c l2) -> NoDup (l1 ++ l2)).
  { clear. induction l1 as [|b l1 IH]; intros l2 N1 N2 D; cbn; auto. inversion N1; subst. constructor.
    - rewrite in_app_iff. intros [I|I]; auto. apply (D b); auto. now left.
    - apply IH; auto. intros c I. apply D. now right. }
  apply G.
  - apply H1. now left.
  - apply IH; auto; intros; [apply H1; now right|eapply H2; eauto; now right].
  - intros c I1 I2. apply in_flat_map in I2 as (b & Ib & I2). assert (a = b) by (eapply H2; eauto; [now left|now right]). subst. contradiction.
Qed.
Lemma paths_NoDup N n : NoDup (paths N n).
Proof.
  induction n as [|n IH]; cbn [paths]; [repeat constructor; auto|]. apply NoDup_flat; [apply seq_NoDup| |].
  - intros x _. apply FinFun.Injective_map_NoDup; auto. intros a b E. now injection E.
  - intros a b c _ _ Ia Ib. apply in_map_iff in Ia as (u & <- & _). apply in_map_iff in Ib as (v & E & _). congruence.
Qed.
Lemma paths_rev N n : Permutation (map (@rev nat) (paths N n)) (paths N n).
Proof.
  apply NoDup_Permutation; [|apply paths_NoDup|].
  - apply FinFun.Injective_map_NoDup; [|apply paths_NoDup]. intros a b E. rewrite <- (rev_involutive a), E. apply rev_involutive.
  - intros w. rewrite in_map_iff, paths_In. split.
    + intros (v & <- & I). apply paths_In in I as [E HF]. rewrite rev_length. split; auto. now apply Forall_rev.
    + intros [E HF]. exists (rev w). split; [apply rev_involutive|]. apply paths_In. rewrite rev_length. split; auto. now apply Forall_rev.
Qed.
Lemma Rprod_mirror k (g : nat -> R) : Rprod (map (fun i => g (k - 1 - i)%nat) (seq 0 k)) = Rprod (map g (seq 0 k)).
Proof.
  apply Rprod_perm. rewrite <- (map_map (fun i => (k - 1 - i)%nat) g). apply Permutation_map. apply NoDup_Permutation.
  - apply NoDup_map_inv with (f := fun i => (k - 1 - i)%nat). rewrite map_map.
    rewrite (map_ext_in _ (fun i => i)); [rewrite map_id; apply seq_NoDup|]. intros i Hi. apply in_seq in Hi. lia.
  - apply seq_NoDup.
  - intros i. rewrite in_map_iff, in_seq. split; [intros (j & <- & Hj); apply in_seq in Hj; lia|intros Hi; exists (k - 1 - i)%nat; rewrite in_seq; lia].
Qed.

Lemma seq_mirror k : rev (seq 0 k) = map (fun i => (k - 1 - i)%nat) (seq 0 k).
Proof.
  apply (list_eq_nth O); [now rewrite rev_length, map_length|]. rewrite rev_length, seq_length. intros i Hi.
  rewrite rev_nth by now rewrite seq_length. rewrite seq_length, seq_nth by lia.
  rewrite (nth_indep _ _ ((fun j => (k - 1 - j)%nat) O)) by now rewrite map_length, seq_length. rewrite (map_nth (fun j => (k - 1 - j)%nat)), seq_nth by auto. lia.
Qed.
Lemma map_seq_rev {A} k (f g : nat -> A) : (forall i, (i < k)%nat -> g i = f (k - 1 - i)%nat) -> map g (seq 0 k) = rev (map f (seq 0 k)).
Proof. intros H. rewrite <- map_rev, seq_mirror, map_map. apply map_ext_in. intros i Hi. apply in_seq in Hi. apply H. lia. Qed.
Lemma count_mirror k (p : nat -> bool) : List.length (filter (fun i => p (k - 1 - i)%nat) (seq 0 k)) = List.length (filter p (seq 0 k)).
Proof.
  assert (F : forall (l : list nat), List.length (filter (fun i => p (k - 1 - i)%nat) l) = List.length (filter p (map (fun i => (k - 1 - i)%nat) l))).
  { induction l as [|a l IH]; cbn; auto. destruct (p (k - 1 - a)%nat); cbn; auto. }
  rewrite F, <- seq_mirror. rewrite <- !(rev_length (filter _ _)). generalize (seq 0 k). intros l. rewrite !rev_length.
  induction l as [|a l IH]; cbn; auto. rewrite filter_app, app_length, IH. cbn. destruct (p a); cbn; lia.
Qed.

Section Hmm.
  Variables (N n : nat) (c : R) (K K2 : nat -> nat -> nat -> R) (lik lik2 : nat -> nat -> R).
  Hypothesis HK : forall i x y, (S i < n)%nat -> (x < N)%nat -> (y < N)%nat -> K2 i x y = K (n - 2 - i)%nat y x.
  Hypothesis Hl : forall i x, (i < n)%nat -> (x < N)%nat -> lik2 i x = lik (n - 1 - i)%nat x.
  Lemma weight_rev w : In w (paths N n) -> pathWeight (fun _ => c) K2 lik2 (rev w) = pathWeight (fun _ => c) K lik w.
  Proof.
    intros I. apply paths_In in I as [El HF]. destruct w as [|x0 w0]; [reflexivity|]. remember (x0 :: w0) as w eqn:Ew.
    assert (Hne : w <> []) by (rewrite Ew; discriminate).
    assert (Hr : rev w <> []) by (intros E; apply Hne; rewrite <- (rev_involutive w), E; reflexivity).
    assert (W : forall K' l' (v : list nat), v <> [] -> pathWeight (fun _ => c) K' l' v =
       c * Rprod (map (fun i => K' i (nth i v O) (nth (S i) v O)) (seq 0 (List.length v - 1))) * Rprod (map (fun i => l' i (nth i v O)) (seq 0 (List.length v)))).
    { intros K' l' [|a v] H; [congruence|reflexivity]. }
    rewrite !W by auto. rewrite rev_length, El.
    assert (In_ : forall i, (i < n)%nat -> (nth i w O < N)%nat). { intros i Hi. rewrite Forall_forall in HF. apply HF, nth_In. lia. }
    f_equal; [f_equal|].
    - rewrite <- (Rprod_mirror (n - 1) (fun i => K i (nth i w O) (nth (S i) w O))). f_equal. apply map_ext_in. intros i Hi. apply in_seq in Hi. rewrite !rev_nth by lia. rewrite El.
      rewrite HK; [|lia|apply In_; lia|apply In_; lia]. f_equal; [lia|f_equal; lia|f_equal; lia].
    - rewrite <- (Rprod_mirror n (fun i => lik i (nth i w O))). f_equal. apply map_ext_in. intros i Hi. apply in_seq in Hi. rewrite rev_nth by lia. rewrite El.
      rewrite Hl; [|lia|apply In_; lia]. f_equal. f_equal. lia.
  Qed.
  Lemma evidence_rev : evidence N n (fun _ => c) K2 lik2 = evidence N n (fun _ => c) K lik.
  Proof.
    unfold evidence. rewrite <- (Rsum_perm _ _ (Permutation_map (pathWeight (fun _ => c) K2 lik2) (paths_rev N n))), map_map. f_equal.
    apply map_ext_in. intros w I. now apply weight_rev.
  Qed.
  Lemma joint_rev i x : (i < n)%nat -> jointAt N n (fun _ => c) K2 lik2 i x = jointAt N n (fun _ => c) K lik (n - 1 - i) x.
  Proof.
    intros Hi. unfold jointAt. rewrite !Rsum_filter.
    rewrite <- (Rsum_perm _ _ (Permutation_map (fun a => if Nat.eqb (nth i a O) x then pathWeight (fun _ => c) K2 lik2 a else 0) (paths_rev N n))), map_map. f_equal.
    apply map_ext_in. intros w I. rewrite weight_rev by auto. apply paths_In in I as [El _]. rewrite rev_nth by lia. rewrite El. now replace (n - S i)%nat with (n - 1 - i)%nat by lia.
  Qed.
  Lemma posterior_rev i x : (i < n)%nat -> posterior N n (fun _ => c) K2 lik2 i x = posterior N n (fun _ => c) K lik (n - 1 - i) x.
  Proof. intros Hi. unfold posterior. now rewrite joint_rev, evidence_rev. Qed.
End Hmm.

(** ** kernels *)
Lemma map_mirror_vals T (bs : list R) : rev (map (fun v => HNum (T + 1 - numOf v)) (map (@HNum R) bs)) = map (@HNum R) (rev (map (fun b => T + 1 - b) bs)).
Proof. rewrite map_map, map_rev, map_map. reflexivity. Qed.
Lemma numOf_map (bs : list R) : map numOf (map (@HNum R) bs) = bs.
Proof. rewrite map_map. apply map_id. Qed.
Lemma changeTimes_none bs mask : Forall (fun c => c = false) mask -> changeTimes bs mask = [].
Proof.
  intros HF. unfold changeTimes. revert mask HF. induction bs as [|b bs IH]; intros [|c mask] HF; cbn; auto. inversion HF; subst. cbn. apply IH. auto.
Qed.
Lemma filter_rev_len {A} (p : A -> bool) l : List.length (filter p (rev l)) = List.length (filter p l).
Proof.
  induction l as [|a l IH]; [reflexivity|]. cbn [rev]. rewrite filter_app, app_length, IH. cbn. destruct (p a); cbn; lia.
Qed.

Section Mirror.
  Variables (t0 T : R).
  Lemma mirror_linear names m : mirrorable t0 m -> linear names m -> linear names (mirror T m).
  Proof.
    induction m as [k hn hv pr ms IH] using tm_ind'. intros Mi Li. inversion Li; subst; cbn [mirror]; try exact Li.
    - constructor.
    - constructor. inversion Mi; subst. apply Forall_map. rewrite Forall_forall in *. auto.
    - inversion Mi; subst. rewrite map_mirror_vals. constructor.
      + now rewrite !rev_length, !map_length.
      + apply Forall_rev. apply Forall_map. rewrite Forall_forall in *. auto.
  Qed.
  Lemma breaks_mirror bs z : Forall (fun b => exists y, b = t0 + IZR y) bs ->
    breaksBefore (rev (map (fun b => T + 1 - b) bs)) (T - (t0 + IZR z)) = (List.length bs - breaksBefore bs (t0 + IZR z))%nat.
  Proof.
    intros HF. unfold breaksBefore. rewrite filter_rev_len. induction HF as [|b bs (y & ->) HF IH]; [reflexivity|]. cbn [map filter].
    assert (B : (List.length (filter (fun b => if Rle_dec b (t0 + IZR z) then true else false) bs) <= List.length bs)%nat).
    { clear. induction bs as [|b bs IH]; cbn; auto. destruct (Rle_dec _ _); cbn; lia. }
    destruct (Z_le_gt_dec y z) as [Hz|Hz].
    - apply IZR_le in Hz. destruct (Rle_dec (t0 + IZR y) (t0 + IZR z)) as [_|X]; [|exfalso; apply X; lra].
      destruct (Rle_dec (T + 1 - (t0 + IZR y)) (T - (t0 + IZR z))) as [X|_]; [exfalso; lra|]. cbn [List.length]. rewrite IH. lia.
    - assert (Hz' : IZR (z + 1) <= IZR y) by (apply IZR_le; lia). rewrite plus_IZR in Hz'.
      destruct (Rle_dec (t0 + IZR y) (t0 + IZR z)) as [X|_]; [exfalso; lra|].
      destruct (Rle_dec (T + 1 - (t0 + IZR y)) (T - (t0 + IZR z))) as [_|X]; [|exfalso; apply X; lra]. cbn [List.length]. rewrite IH. lia.
  Qed.
  Lemma breaks_le bs t : (breaksBefore bs t <= List.length bs)%nat.
  Proof. unfold breaksBefore. induction bs as [|b bs IH]; cbn; auto. destruct (Rle_dec _ _); cbn; lia. Qed.
  Lemma nth_mirror {A} (l : list A) k d L : List.length l = S L -> (k <= L)%nat -> nth (L - k) (rev l) d = nth k l d.
  Proof. intros El Hk. rewrite rev_nth by lia. f_equal. lia. Qed.
  Lemma eqR_mirror c t : eqR (T - t) (T - c) = eqR t c.
  Proof. unfold eqR. destruct (Req_EM_T (T - t) (T - c)), (Req_EM_T t c); auto; exfalso; lra. Qed.
  Lemma kernel_mirror sp z m : mirrorable t0 m -> kernel sp (mirror T m) (T - (t0 + IZR z)) = kernel sp m (t0 + IZR z).
  Proof.
    induction m as [k hn hv pr ms IH] using tm_ind'. intros Mi. inversion Mi; subst; try reflexivity.
    - cbn. now rewrite eqR_mirror.
    - cbn [mirror kernel]. clear Mi. induction ms as [|m ms IHm]; [reflexivity|]. inversion IH; inversion H0; subst. cbn [map fold_right]. rewrite IHm by auto. f_equal. auto.
    - cbn [mirror kernel]. rewrite map_mirror_vals, !numOf_map, !changeTimes_none by auto. cbn [existsb]. rewrite breaks_mirror by auto.
      rewrite map_rev. rewrite nth_mirror; [|now rewrite !map_length|apply breaks_le]. rewrite map_map.
      assert (EM : map (fun x => kernel sp (mirror T x) (T - (t0 + IZR z))) ms = map (fun m' => kernel sp m' (t0 + IZR z)) ms); [|now rewrite EM].
      apply map_ext_in. intros m I. rewrite Forall_forall in *. auto.
  Qed.
  Lemma reset_mirror z m : mirrorable t0 m -> forall b, resetBy (mirror T m) (T - (t0 + IZR z)) b = resetBy m (t0 + IZR z) b.
  Proof.
    induction m as [k hn hv pr ms IH] using tm_ind'. intros Mi. inversion Mi; subst; try reflexivity.
    - intros b. cbn. now rewrite eqR_mirror.
    - cbn [mirror resetBy]. clear Mi. induction ms as [|m ms IHm]; [reflexivity|]. inversion IH; inversion H0; subst. intros b. cbn [map fold_left]. rewrite H2 by auto. apply IHm; auto.
    - intros b. cbn [mirror resetBy]. rewrite map_mirror_vals, !numOf_map, !changeTimes_none by auto. cbn [existsb]. rewrite breaks_mirror by auto.
      rewrite map_rev. rewrite nth_mirror; [|now rewrite !map_length|apply breaks_le]. rewrite map_map.
      pose proof (breaks_le bs (t0 + IZR z)) as Hb. set (i := breaksBefore bs (t0 + IZR z)) in *.
      rewrite (nth_indep _ _ (resetBy (mirror T (TM KStatic [] [] None [])) (T - (t0 + IZR z)))) by (rewrite map_length; lia).
      rewrite (nth_indep (map (fun m' => resetBy m' (t0 + IZR z)) ms) _ (resetBy (TM KStatic [] [] None []) (t0 + IZR z))) by (rewrite map_length; lia).
      rewrite (map_nth (fun x => resetBy (mirror T x) (T - (t0 + IZR z)))), (map_nth (fun x => resetBy x (t0 + IZR z))).
      rewrite Forall_forall in IH. apply IH; [apply nth_In; lia|]. match goal with HF : Forall (mirrorable t0) ms |- _ => rewrite Forall_forall in HF; apply HF end. apply nth_In. lia.
  Qed.
  Lemma flatten_perm {A} (l r : list (nl A)) : Permutation l r -> Permutation (flatten (Node l)) (flatten (Node r)).
  Proof.
    intros HP. change (Permutation (flat_map (@flatten A) l) (flat_map (@flatten A) r)). induction HP; cbn; auto.
    - apply Permutation_app_head. auto.
    - rewrite !app_assoc. apply Permutation_app_tail. apply Permutation_app_comm.
    - eapply perm_trans; eauto.
  Qed.
  Lemma flatten_app {A} (l r : list (nl A)) : flatten (Node (l ++ r)) = (flatten (Node l) ++ flatten (Node r))%list.
  Proof. change (flat_map (@flatten A) (l ++ r) = (flat_map (@flatten A) l ++ flat_map (@flatten A) r)%list). apply flat_map_app. Qed.
  Lemma names_mirror m : Permutation (allNames (mirror T m)) (allNames m).
  Proof.
    unfold allNames. induction m as [k hn hv pr ms IH] using tm_ind'.
    assert (G : Permutation (flatten (Node (map unpackNames (map (mirror T) ms)))) (flatten (Node (map (@unpackNames R) ms)))).
    { clear - IH. induction ms as [|m ms IHm]; [apply Permutation_refl|]. inversion IH; subst. cbn [map].
      change (Permutation (flatten (unpackNames (mirror T m)) ++ flatten (Node (map unpackNames (map (mirror T) ms)))) (flatten (unpackNames m) ++ flatten (Node (map unpackNames ms)))).
      apply Permutation_app; auto. }
    destruct k; try apply Permutation_refl; cbn [mirror unpackNames].
    - rewrite !flatten_app. now apply Permutation_app_tail.
    - rewrite !flatten_app. apply Permutation_app_tail. eapply perm_trans; [|exact G]. apply flatten_perm. rewrite map_rev. apply Permutation_sym, Permutation_rev.
  Qed.
End Mirror.

(** ** studies *)
Lemma points_rev d : points (rawRev d) = rev (points d).
Proof. destruct d; cbn; apply map_rev. Qed.
Lemma rawRev_len {F} (d : raw F) : rawLen (rawRev d) = rawLen d.
Proof. destruct d; cbn; apply rev_length. Qed.
Lemma flat_symmetric S o m vs ts t x y : configured S o m vs ts -> linear (om_names o) m -> om_prior o = PNone -> (x < gridPoints vs)%nat -> (y < gridPoints vs)%nat ->
  kernel (spaceS S o (flat (gridPoints vs))) m t x y = kernel (spaceS S o (flat (gridPoints vs))) m t y x.
Proof.
  intros C Lin HP Hx Hy. assert (P : priorIs S vs o (om_prior o) (flat (gridPoints vs))) by (rewrite HP; constructor).
  assert (FE : fitEnv S o m vs ts (flat (gridPoints vs)) (envOf S o (om_prior o)) (flat (gridPoints vs))).
  { apply fitEnv_stable; auto. rewrite HP. exact I. }
  assert (Ez : natprod (e_shape (envOf S o (om_prior o))) = gridPoints vs) by exact (fe_size _ _ _ _ _ _ _ _ FE).
  change (kernel (spaceOf (envOf S o (om_prior o)) (flat (gridPoints vs))) m t x y = kernel (spaceOf (envOf S o (om_prior o)) (flat (gridPoints vs))) m t y x).
  rewrite <- Ez in Hx, Hy. revert x y Hx Hy. apply Gen_sym. apply kernel_Gen.
  - rewrite (fe_names _ _ _ _ _ _ _ _ FE), (fe_shape _ _ _ _ _ _ _ _ FE). exact (FitThms.cfg_dim S o m vs ts C PNone).
  - rewrite (fe_size _ _ _ _ _ _ _ _ FE). exact (fe_rho_pos _ _ _ _ _ _ _ _ FE).
  - rewrite (fe_size _ _ _ _ _ _ _ _ FE). exact (fe_rho_sum _ _ _ _ _ _ _ _ FE).
  - rewrite (fe_size _ _ _ _ _ _ _ _ FE). exact (fe_reset _ _ _ _ _ _ _ _ FE).
  - rewrite (fe_size _ _ _ _ _ _ _ _ FE). apply flat_flatOn.
  - now rewrite (fe_names _ _ _ _ _ _ _ _ FE).
Qed.
(** models without reference to time *)
Lemma mirror_homogeneous T m : homogeneous m = true -> mirror T m = m.
Proof.
  induction m as [k hn hv pr ms IH] using tm_ind'. intros H. destruct k; try discriminate; auto. cbn [mirror homogeneous] in *.
  f_equal. clear - IH H. induction ms as [|m ms IHm]; [reflexivity|]. cbn in *. apply andb_true_iff in H as [H1 H2]. inversion IH; subst. f_equal; auto.
Qed.
Lemma homogeneous_reset t t' m : homogeneous m = true -> forall b, resetBy m t b = resetBy m t' b.
Proof.
  induction m as [k hn hv pr ms IH] using tm_ind'. intros H. destruct k; try discriminate; auto. cbn [resetBy homogeneous] in *.
  clear - IH H. induction ms as [|m ms IHm]; [reflexivity|]. cbn in *. apply andb_true_iff in H as [H1 H2]. inversion IH; subst. intros b. rewrite H3 by auto. apply IHm; auto.
Qed.
(** the transition after step i of the mirrored model is the transition after step n-2-i *)
Lemma unit_times ts : unitSpaced ts -> forall i, (i < List.length ts)%nat -> nth i ts 0 = nth 0 ts 0 + INR i.
Proof. intros U. induction i as [|i IH]; intros Hi; [cbn; lra|]. rewrite U, IH, S_INR by lia. lra. Qed.
Section Step.
  Variables (ts : list R) (m : tm R) (n : nat).
  Hypothesis Hn : List.length ts = n.
  Hypothesis U : (unitSpaced ts /\ mirrorable (nth 0 ts 0) m) \/ homogeneous m = true.
  Let T := nth 0 ts 0 + nth (n - 1) ts 0 - 1.
  Lemma step_kernel sp i : (S i < n)%nat -> kernel sp (mirror T m) (nth i ts 0) = kernel sp m (nth (n - 2 - i) ts 0).
  Proof.
    intros Hi. destruct U as [[Hu Mi]|Hh].
    - rewrite (unit_times ts Hu (n - 2 - i)) by lia. rewrite INR_IZR_INZ. rewrite <- (kernel_mirror (nth 0 ts 0) T) by auto.
      f_equal. unfold T. rewrite (unit_times ts Hu i), (unit_times ts Hu (n - 1)) by lia. rewrite <- INR_IZR_INZ.
      replace (INR (n - 1)) with (INR (n - 2 - i) + INR i + 1); [lra|]. rewrite <- plus_INR, <- S_INR. f_equal. lia.
    - rewrite mirror_homogeneous by auto. now apply homogeneous_kernel.
  Qed.
  Lemma step_reset i : (S i < n)%nat -> resetAt (mirror T m) (nth i ts 0) = resetAt m (nth (n - 2 - i) ts 0).
  Proof.
    intros Hi. unfold resetAt. destruct U as [[Hu Mi]|Hh].
    - rewrite (unit_times ts Hu (n - 2 - i)) by lia. rewrite INR_IZR_INZ. rewrite <- (reset_mirror (nth 0 ts 0) T) by auto.
      f_equal. unfold T. rewrite (unit_times ts Hu i), (unit_times ts Hu (n - 1)) by lia. rewrite <- INR_IZR_INZ.
      replace (INR (n - 1)) with (INR (n - 2 - i) + INR i + 1); [lra|]. rewrite <- plus_INR, <- S_INR. f_equal. lia.
    - rewrite mirror_homogeneous by auto. now apply homogeneous_reset.
  Qed.
End Step.
