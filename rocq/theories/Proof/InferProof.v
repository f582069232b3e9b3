(** Facts used by the theorems about inference. *)
From Coq Require Import List ZArith Reals Lra Lia Arith Bool String.
From Verif Require Import Base.Num Base.Exn Base.Arr Base.RSum Base.Lift Model.Helper Model.Tm Model.HyperParams Model.Study
  Spec.Kernel Spec.Hmm Spec.Config Spec.Dist Proof.Gauss Proof.KernelProof Proof.HmmProof Proof.FitLinear Proof.FitThms
  Proof.FitCore Proof.FitResults Proof.Good Proof.FitInv.
Import ListNotations.
Local Open Scope R_scope.

(** ** positive evidence *)
Lemma rsum_pos n f : (forall i, (i < n)%nat -> 0 <= f i) -> (exists i, (i < n)%nat /\ 0 < f i) -> 0 < rsum n f.
Proof. intros P (i & Hi & Hp). pose proof (rsum_ge_term n f i Hi P). lra. Qed.
Lemma rsum_pos_ex n f : 0 < rsum n f -> exists i, (i < n)%nat /\ 0 < f i.
Proof.
  induction n as [|n IH]; [cbn; lra|]. intros H. destruct (Rlt_dec 0 (f n)) as [Hf|Hf]; [exists n; split; [lia|auto]|].
  destruct IH as (i & Hi & Hp).
  - cbn in H. lra.
  - exists i. split; [lia|auto].
Qed.
Lemma tot_pos N K Ls : Forall (fun L => forall x, (x < N)%nat -> 0 < L x) Ls ->
  (forall i, stochastic N (K i)) ->
  forall i v, (forall x, (x < N)%nat -> 0 <= v x) -> 0 < rsum N v -> 0 < HmmProof.tot N K v i Ls.
Proof.
  intros HL HK. induction HL as [|L Ls HL1 HL IH]; intros i v Pv Sv; cbn [HmmProof.tot]; [lra|].
  assert (Q : forall x, (x < N)%nat -> 0 < HmmProof.tot N K (K i x) (S i) Ls).
  { intros x Hx. destruct (HK i) as [K1 K2]. apply IH.
    - intros y Hy. now apply K1.
    - rewrite K2; auto. lra. }
  apply rsum_pos.
  - intros x Hx. apply Rmult_le_pos; [apply Rmult_le_pos; [auto|left; auto]|left; auto].
  - destruct (rsum_pos_ex _ _ Sv) as (x & Hx & Hp). exists x. split; auto.
    apply Rmult_lt_0_compat; [apply Rmult_lt_0_compat; auto|auto].
Qed.
Lemma evidence_pos N n rho K lik : (forall x, (x < N)%nat -> 0 <= rho x) -> 0 < rsum N rho -> (forall i, stochastic N (K i)) ->
  (forall i x, (i < n)%nat -> (x < N)%nat -> 0 < lik i x) -> 0 < evidence N n rho K lik.
Proof.
  intros P1 P2 HK HL. rewrite evidence_tot. apply tot_pos; auto. apply Forall_map, Forall_forall. intros i Hi.
  apply in_seq in Hi. intros x Hx. apply HL; auto. lia.
Qed.

(** ** the environment exists *)
Section Cases.
  Variables (S : study R R) (o : om R) (m : tm R) (vs : list (list R)) (ts : list R) (rho : nat -> R).
  Hypothesis C : configured S o m vs ts.
  Hypothesis Lin : linear (om_names o) m.
  Hypothesis P : priorIs S vs o (om_prior o) rho.
  Notation N := (gridPoints vs).

  Lemma env_exists : stablePrior (om_prior o) \/ resetFree S o m ts -> exists e' rho', fitEnv S o m vs ts rho e' rho'.
  Proof.
    intros [H|H]; do 2 eexists; [apply fitEnv_stable|apply fitEnv_free]; auto.
  Qed.
  Lemma flat_flatOn : flat N = flatOn N.
  Proof. unfold flat, flatOn. replace (1 / INR N) with (/ INR N) by (unfold Rdiv; ring). reflexivity. Qed.
  Lemma homogeneous_kernel sp t t' : forall m' : tm R, homogeneous m' = true -> kernel sp m' t = kernel sp m' t'.
  Proof.
    fix IH 1. intros [k hn hv pr ms] Hh. destruct k; cbn in Hh |- *; try discriminate; auto.
    induction ms as [|m1 ms IHms]; [reflexivity|]. cbn in Hh |- *. apply andb_true_iff in Hh. destruct Hh as [H1 H2].
    rewrite (IH m1 H1), (IHms H2). reflexivity.
  Qed.
  Lemma env_sym : om_prior o = PNone \/ resetFree S o m ts -> unitSpaced ts \/ homogeneous m = true ->
    exists e' rho', fitEnv S o m vs ts rho e' rho' /\
      forall i x y, (Datatypes.S i < nSteps S o)%nat -> (x < N)%nat -> (y < N)%nat ->
        kernel (spaceOf e' rho') m (timeOf ts o (Datatypes.S i) - 1) y x = kernel (spaceOf e' rho') m (timeOf ts o i) x y.
  Proof.
    assert (G : forall e', fitEnv S o m vs ts rho e' (flat N) -> forall t, symmetric N (kernel (spaceOf e' (flat N)) m t)).
    { intros e' FE t x y Hx Hy. assert (Ez : natprod (e_shape e') = N) by exact (fe_size _ _ _ _ _ _ _ _ FE).
      rewrite <- Ez in Hx, Hy. revert x y Hx Hy. apply Gen_sym. apply kernel_Gen.
      - rewrite (fe_names _ _ _ _ _ _ _ _ FE), (fe_shape _ _ _ _ _ _ _ _ FE). exact (cfg_dim S o m vs ts C PNone).
      - rewrite (fe_size _ _ _ _ _ _ _ _ FE). exact (fe_rho_pos _ _ _ _ _ _ _ _ FE).
      - rewrite (fe_size _ _ _ _ _ _ _ _ FE). exact (fe_rho_sum _ _ _ _ _ _ _ _ FE).
      - rewrite (fe_size _ _ _ _ _ _ _ _ FE). exact (fe_reset _ _ _ _ _ _ _ _ FE).
      - rewrite (fe_size _ _ _ _ _ _ _ _ FE). apply flat_flatOn.
      - now rewrite (fe_names _ _ _ _ _ _ _ _ FE). }
    intros Hp Ht.
    assert (G2 : forall e', fitEnv S o m vs ts rho e' (flat N) -> forall i x y, (Datatypes.S i < nSteps S o)%nat -> (x < N)%nat -> (y < N)%nat ->
        kernel (spaceOf e' (flat N)) m (timeOf ts o (Datatypes.S i) - 1) y x = kernel (spaceOf e' (flat N)) m (timeOf ts o i) x y).
    { intros e' FE i x y Hi Hx Hy. rewrite (G e' FE (timeOf ts o i) x y Hx Hy). destruct Ht as [Ht|Ht].
      - now rewrite (cfg_unit S o m vs ts C Ht i Hi).
      - now rewrite (homogeneous_kernel (spaceOf e' (flat N)) (timeOf ts o (Datatypes.S i) - 1) (timeOf ts o i) m Ht). }
    destruct Hp as [H|H].
    - pose proof P as P'. rewrite H in P'. inversion P'; subst. exists (envOf S o (om_prior o)), (flat N).
      assert (FE : fitEnv S o m vs ts (flat N) (envOf S o (om_prior o)) (flat N)).
      { apply fitEnv_stable; auto. rewrite H. exact I. }
      split; auto.
    - exists (with_prior (envOf S o (om_prior o)) PNone), (flat N). pose proof (fitEnv_free S o m vs ts rho C Lin P H) as FE.
      split; auto.
  Qed.
  Lemma rho_nonneg : forall x, (x < N)%nat -> 0 <= rho x.
  Proof. exact (proj1 (prior_start S o m vs ts C _ _ P)). Qed.
End Cases.

(** ** leave-one-out *)
Definition without (i : nat) (lik : nat -> nat -> R) : nat -> nat -> R := fun j x => if Nat.eqb j i then 1 else lik j x.
Lemma Rprod_without (f : nat -> R) i n : (i < n)%nat ->
  Rprod (map f (seq 0 n)) = f i * Rprod (map (fun j => if Nat.eqb j i then 1 else f j) (seq 0 n)).
Proof.
  intros Hi. replace n with (i + S (n - S i))%nat by lia. rewrite seq_app, !map_app, !Rprod_app. cbn [seq map].
  cbn [Nat.add]. rewrite Nat.eqb_refl.
  rewrite (map_ext_in (fun j => if Nat.eqb j i then 1 else f j) f (seq 0 i)).
  - rewrite (map_ext_in (fun j => if Nat.eqb j i then 1 else f j) f (seq (S i) (n - S i))).
    + unfold Rprod at 2 4. cbn [fold_right]. fold (Rprod (map f (seq (S i) (n - S i)))). ring.
    + intros j Hj. apply in_seq in Hj. destruct (Nat.eqb_spec j i); [lia|auto].
  - intros j Hj. apply in_seq in Hj. destruct (Nat.eqb_spec j i); [lia|auto].
Qed.
Lemma joint_without N n rho K lik i x : (i < n)%nat ->
  jointAt N n rho K lik i x = lik i x * jointAt N n rho K (without i lik) i x.
Proof.
  intros Hi. unfold jointAt. rewrite <- Rsum_map_scal. apply Rsum_map_ext. intros w Hw.
  apply filter_In in Hw. destruct Hw as [Hw Ex]. apply Nat.eqb_eq in Ex. pose proof (paths_length N n w Hw) as Lw.
  unfold pathWeight. destruct w as [|x0 w']; [cbn in Lw; lia|]. set (w := x0 :: w') in *.
  rewrite (Rprod_without (fun j => lik j (nth j w O)) i) by lia. rewrite Ex.
  unfold without. ring.
Qed.
Lemma joint_sum N n rho K lik i : (i < n)%nat -> rsum N (jointAt N n rho K lik i) = evidence N n rho K lik.
Proof.
  intros Hi. rewrite evidence_tot, <- (jnt_sum N K _ rho 0 i).
  - apply rsum_ext. intros x Hx. now apply jointAt_jnt.
  - now rewrite map_length, seq_length.
Qed.
Lemma Rprod_nonneg l : Forall (fun x => 0 <= x) l -> 0 <= Rprod l.
Proof. induction 1 as [|a l Ha Hl IH]; cbn; [lra|]. fold (Rprod l). now apply Rmult_le_pos. Qed.
Lemma joint_nonneg N n a K lik i x : (forall x, (x < N)%nat -> 0 <= a x) ->
  (forall i x y, (x < N)%nat -> (y < N)%nat -> 0 <= K i x y) -> (forall i x, (i < n)%nat -> (x < N)%nat -> 0 <= lik i x) ->
  0 <= jointAt N n a K lik i x.
Proof.
  intros Pa PK PL. unfold jointAt. apply Rsum_nonneg, Forall_map, Forall_forall. intros w Iw. apply filter_In in Iw. destruct Iw as [Iw _].
  pose proof (paths_length N n w Iw) as Lw. pose proof (paths_lt N n w Iw) as Bw. rewrite Forall_forall in Bw.
  unfold pathWeight. destruct w as [|x0 w]; [lra|].
  assert (B : forall j, (j < n)%nat -> (nth j (x0 :: w) O < N)%nat) by (intros j Hj; apply Bw, nth_In; lia).
  apply Rmult_le_pos; [apply Rmult_le_pos|].
  - apply Pa, Bw. now left.
  - apply Rprod_nonneg, Forall_map, Forall_forall. intros j Hj. apply in_seq in Hj. apply PK; apply B; lia.
  - apply Rprod_nonneg, Forall_map, Forall_forall. intros j Hj. apply in_seq in Hj. apply PL; [lia|apply B; lia].
Qed.
