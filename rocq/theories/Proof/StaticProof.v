(** Hidden Markov models that never move (Static transition model), and likelihoods per data segment. *)
From Coq Require Import List ZArith Reals Lra Lia Arith Bool String Permutation.
From Verif Require Import Base.Num Base.Exn Base.Arr Base.RSum Base.Lift Model.Helper Model.Tm Model.HyperParams Model.Study
  Spec.Kernel Spec.Hmm Spec.Config Spec.Dist Proof.HmmProof Proof.KernelProof Proof.FitThms Proof.FitCore Proof.FitResults Proof.InferProof.
Import ListNotations.
Local Open Scope R_scope.

(** being in state x at step i is the same as seeing only state x possible there *)
Definition only (i x : nat) (lik : nat -> nat -> R) : nat -> nat -> R :=
  fun j y => if Nat.eqb j i then (if Nat.eqb y x then lik j y else 0) else lik j y.
Lemma Rprod_zero f l (a : nat) : In a l -> f a = 0 -> Rprod (map f l) = 0.
Proof.
  induction l as [|b l IH]; cbn; [tauto|]. fold (Rprod (map f l)). intros [->|I] E; [rewrite E; lra|]. rewrite IH; auto. lra.
Qed.
Lemma joint_only N n rho K lik i x : (i < n)%nat -> jointAt N n rho K lik i x = evidence N n rho K (only i x lik).
Proof.
  intros Hi. unfold jointAt, evidence. rewrite Rsum_filter. apply Rsum_map_ext. intros w Iw.
  pose proof (paths_length N n w Iw) as Lw. unfold pathWeight. destruct w as [|x0 w']; [cbn in Lw; lia|]. set (w := x0 :: w') in *.
  destruct (Nat.eqb_spec (nth i w O) x) as [E|E].
  - f_equal. f_equal. apply map_ext_in. intros j _. unfold only. destruct (Nat.eqb_spec j i) as [->|]; auto. rewrite E, Nat.eqb_refl. reflexivity.
  - rewrite (Rprod_zero (fun j => only i x lik j (nth j w O)) _ i); [lra| |].
    + apply in_seq. lia.
    + unfold only. rewrite Nat.eqb_refl. destruct (Nat.eqb_spec (nth i w O) x); [contradiction|reflexivity].
Qed.

Lemma evidence_static N n rho K lik : (0 < n)%nat -> (forall i x y, (x < N)%nat -> (y < N)%nat -> K i x y = Kid x y) ->
  evidence N n rho K lik = rsum N (fun x => rho x * Rprod (map (fun i => lik i x) (seq 0 n))).
Proof.
  intros Hn HK. rewrite evidence_tot.
  assert (G : forall Ls i v, Ls <> [] -> tot N K v i Ls = rsum N (fun x => v x * Rprod (map (fun L : nat -> R => L x) Ls))).
  { induction Ls as [|L Ls IH]; intros i v Hl; [congruence|]. cbn [tot map]. apply rsum_ext. intros x Hx.
    change (Rprod (L x :: map (fun L : nat -> R => L x) Ls)) with (L x * Rprod (map (fun L : nat -> R => L x) Ls)).
    destruct Ls as [|L' Ls]; [cbn; lra|]. rewrite IH by discriminate.
    rewrite (rsum_ext N _ (fun y => if Nat.eqb x y then Rprod (map (fun L : nat -> R => L y) (L' :: Ls)) else 0)).
    - rewrite rsum_delta' by auto. ring.
    - intros y Hy. rewrite HK by auto. unfold Kid. destruct (Nat.eqb x y); lra. }
  rewrite G by (destruct n; [lia|discriminate]). apply rsum_ext. intros x _. rewrite map_map. reflexivity.
Qed.
Lemma joint_static N n rho K lik i x : (i < n)%nat -> (x < N)%nat -> (forall i x y, (x < N)%nat -> (y < N)%nat -> K i x y = Kid x y) ->
  jointAt N n rho K lik i x = rho x * Rprod (map (fun i => lik i x) (seq 0 n)).
Proof.
  intros Hi Hx HK. rewrite joint_only, evidence_static by (auto; lia).
  rewrite (rsum_ext N _ (fun y => if Nat.eqb y x then rho y * Rprod (map (fun i => lik i y) (seq 0 n)) else 0)).
  - rewrite rsum_delta by auto. reflexivity.
  - intros y _. destruct (Nat.eqb_spec y x) as [->|E].
    + f_equal. f_equal. apply map_ext. intros j. unfold only. rewrite Nat.eqb_refl. destruct (Nat.eqb j i); auto.
    + rewrite (Rprod_zero (fun j => only i x lik j y) _ i); [lra| |].
      * apply in_seq. lia.
      * unfold only. rewrite Nat.eqb_refl. destruct (Nat.eqb_spec y x); [contradiction|reflexivity].
Qed.

(** likelihood of a segment as a function of the grid point *)
Definition segLik (o : om R) (vs : list (list R)) (s : seg R) (x : nat) : R :=
  match nth x (processedPdf o (gridPoints vs) (meshgrid vs) s) NaN with Fin r => r | _ => 0 end.
Lemma segLik_ok o vs s : finite (gridPoints vs) (processedPdf o (gridPoints vs) (meshgrid vs) s) ->
  processedPdf o (gridPoints vs) (meshgrid vs) s = arrOf (gridPoints vs) (segLik o vs s) /\
  forall x, (x < gridPoints vs)%nat -> 0 <= segLik o vs s x.
Proof.
  intros (r & E & L & P). unfold segLik. rewrite E. assert (G : forall x, (x < gridPoints vs)%nat ->
    match nth x (map Fin r) NaN with Fin r0 => r0 | _ => 0 end = Rnth r x).
  { intros x Hx. rewrite (nth_indep _ NaN (Fin 0)) by (rewrite map_length; lia). rewrite map_nth. reflexivity. }
  split.
  - unfold arrOf. f_equal. rewrite <- (tab_Rnth r) at 1. rewrite L. apply tab_ext. intros i Hi. now rewrite G.
  - intros x Hx. rewrite G by auto. now apply Rnth_nonneg.
Qed.
Lemma segLik_likelihoods S o vs : (forall s, In s (segments S o) -> finite (gridPoints vs) (processedPdf o (gridPoints vs) (meshgrid vs) s)) ->
  likelihoods S o vs (fun i => segLik o vs (nth i (segments S o) (Seg1 []))).
Proof.
  intros H i s E. rewrite (nth_error_nth _ _ _ E). apply segLik_ok, H. eapply nth_error_In, E.
Qed.
Lemma segLik_unique o vs s f : processedPdf o (gridPoints vs) (meshgrid vs) s = arrOf (gridPoints vs) f ->
  forall x, (x < gridPoints vs)%nat -> segLik o vs s x = f x.
Proof.
  intros E x Hx. unfold segLik. rewrite E. unfold arrOf. rewrite (nth_indep _ NaN (Fin 0)) by (rewrite map_length, tab_length; lia).
  rewrite map_nth. now apply Rnth_tab.
Qed.

(** segment length one: segments are the data points *)
Definition points (d : raw R) : list (seg R) :=
  match d with Raw1 l => map (fun x => Seg1 [x]) l | Raw2 l => map (fun x => Seg2 [x]) l end.
Lemma movingWindow_1 {A} (l : list A) : movingWindow l 1 = map (fun x => [x]) l.
Proof.
  unfold movingWindow. replace (List.length l + 1 - 1)%nat with (List.length l) by lia.
  induction l as [|a l IH]; [reflexivity|]. cbn [List.length seq map]. f_equal. rewrite <- IH, <- seq_shift, map_map. reflexivity.
Qed.
Lemma segments_points S o : om_seglen o = 1%nat -> segments S o = points (st_raw S).
Proof. intros E. unfold segments, formatData, points. rewrite E. destruct (st_raw S); rewrite movingWindow_1, map_map; reflexivity. Qed.

(** product of the likelihoods of a list of segments *)
Lemma prod_nth {A} (f : A -> R) l d : Rprod (map (fun i => f (nth i l d)) (seq 0 (List.length l))) = Rprod (map f l).
Proof.
  f_equal. apply (list_eq_nth 0); rewrite !map_length, ?seq_length; auto. intros i Hi.
  rewrite (nth_indep _ 0 (f (nth 0 l d))) by now rewrite map_length, seq_length.
  rewrite (map_nth (fun i => f (nth i l d))), seq_nth by auto.
  rewrite (nth_indep (map f l) 0 (f d)) by now rewrite map_length. rewrite map_nth. reflexivity.
Qed.
Lemma prod_nth_firstn {A} (f : A -> R) l d k : (k <= List.length l)%nat -> Rprod (map (fun i => f (nth i l d)) (seq 0 k)) = Rprod (map f (firstn k l)).
Proof.
  intros Hk. rewrite <- (prod_nth f (firstn k l) d). rewrite firstn_length, Nat.min_l by auto. f_equal. apply map_ext_in. intros i Hi. apply in_seq in Hi.
  f_equal. rewrite <- (firstn_skipn k l) at 1. rewrite app_nth1; auto. rewrite firstn_length. lia.
Qed.

Lemma map_const_seq {A} (a : A) n k : map (fun _ : nat => a) (seq k n) = repeat a n.
Proof. revert k. induction n as [|n IH]; intros k; cbn; auto. f_equal. apply IH. Qed.

Section Static.
  Variables (S : study R R) (o : om R) (hn : list string) (hp : option (nl (hprior R))) (vs : list (list R)) (ts : list R)
            (rho : nat -> R) (lik : nat -> nat -> R).
  Let m : tm R := TM KStatic hn [] hp [].
  Hypothesis C : configured S o m vs ts.
  Hypothesis P : priorIs S vs o (om_prior o) rho.
  Hypothesis HL : likelihoods S o vs lik.
  Hypothesis Hn : (0 < nSteps S o)%nat.
  Notation N := (gridPoints vs).
  Notation n := (nSteps S o).
  (** prior times likelihoods of the first k segments *)
  Definition batchTo (k : nat) (x : nat) : R := rho x * Rprod (map (fun i => lik i x) (seq 0 k)).

  Lemma static_K : forall i x y, (x < N)%nat -> (y < N)%nat -> transition S o m ts rho i x y = Kid x y.
  Proof. reflexivity. Qed.
  Lemma static_free : resetFree S o m ts.
  Proof. intros i _. split; reflexivity. Qed.
  Lemma static_lin : linear (om_names o) m.
  Proof. constructor. Qed.
  Lemma static_mvol k : mvol S o m ts k = 1.
  Proof.
    unfold mvol, resetCount. assert (E : filter (fun i => resetAt m (timeOf ts o i)) (seq 0 (k - 1)) = []).
    { generalize (seq 0 (k - 1)). induction l; cbn; auto. }
    rewrite E. reflexivity.
  Qed.
  Lemma static_evidence k : (0 < k)%nat -> evidence N k rho (transition S o m ts rho) lik = rsum N (batchTo k).
  Proof. intros Hk. now rewrite evidence_static by (auto; apply static_K). Qed.
  Lemma static_posterior k i x : (i < k)%nat -> (x < N)%nat ->
    posterior N k rho (transition S o m ts rho) lik i x = batchTo k x / rsum N (batchTo k).
  Proof. intros Hi Hx. unfold posterior. rewrite static_evidence by lia. now rewrite joint_static by (auto; apply static_K). Qed.

  Lemma static_full : 0 < rsum N (batchTo n) ->
    exists S', fit S false false = Ok S' /\ st_logEv S' = Fin (ln (rsum N (batchTo n))) /\
      st_post S' = repeat (Some (arrOf N (fun x => batchTo n x / rsum N (batchTo n)))) n.
  Proof.
    intros HZ. destruct (env_sym S o m vs ts rho C static_lin P (or_intror static_free) (or_intror eq_refl)) as (e' & rho' & FE & Hs).
    destruct (fit_smooth S o m vs ts rho e' rho' lik C static_lin FE (rho_nonneg S o m vs ts rho C P) HL Hn Hs) as (S' & F1 & F2 & F3 & _).
    { now rewrite static_evidence. }
    exists S'. split; [exact F1|]. rewrite F2, F3, static_evidence, static_mvol, Rmult_1_r by auto. split; [reflexivity|].
    unfold smoothPosts. rewrite map_map.
    transitivity (map (fun _ : nat => Some (arrOf N (fun x => batchTo n x / rsum N (batchTo n)))) (seq 0 n)).
    - apply map_ext_in. intros i Hi. apply in_seq in Hi. f_equal. unfold arrOf. f_equal. apply tab_ext. intros x Hx. apply static_posterior; auto; lia.
    - apply map_const_seq.
  Qed.
  Lemma static_forward fo eo : (fo || eo = true)%bool -> 0 < rsum N (batchTo n) ->
    exists S', fit S fo eo = Ok S' /\ st_logEv S' = Fin (ln (rsum N (batchTo n))) /\
      st_post S' = if eo then st_post S else map (fun i => Some (arrOf N (fun x => batchTo (i + 1) x / rsum N (batchTo (i + 1))))) (seq 0 n).
  Proof.
    intros Hm HZ. destruct (env_exists S o m vs ts rho C static_lin P (or_intror static_free)) as (e' & rho' & FE).
    destruct (fit_forward S o m vs ts rho e' rho' lik C static_lin FE (rho_nonneg S o m vs ts rho C P) HL Hn fo eo Hm) as (S' & cs & F1 & F2 & F3 & _).
    { now rewrite static_evidence. }
    exists S'. split; [exact F1|]. rewrite F2, F3, static_evidence, static_mvol, Rmult_1_r by auto. split; [reflexivity|].
    destruct eo; auto. unfold fwdPosts. rewrite map_map. apply map_ext_in. intros i Hi. apply in_seq in Hi. f_equal. unfold arrOf. f_equal.
    apply tab_ext. intros x Hx. unfold filt. rewrite Nat.add_1_r. apply static_posterior; auto.
  Qed.
  Lemma static_zero fo eo : rsum N (batchTo n) = 0 -> exists S', fit S fo eo = Ok S' /\ st_logEv S' = NInf.
  Proof.
    intros HZ. destruct (env_exists S o m vs ts rho C static_lin P (or_intror static_free)) as (e' & rho' & FE).
    destruct (fit_zero S o m vs ts rho e' rho' lik C static_lin FE (rho_nonneg S o m vs ts rho C P) HL Hn fo eo) as (S' & k & l & F1 & F2 & _).
    { now rewrite static_evidence. }
    eauto.
  Qed.
  Lemma batch_nonneg k x : (k <= n)%nat -> (x < N)%nat -> 0 <= batchTo k x.
  Proof.
    intros Hk Hx. apply Rmult_le_pos; [exact (rho_nonneg S o m vs ts rho C P x Hx)|]. apply Rprod_nonneg, Forall_map, Forall_forall.
    intros i Hi. apply in_seq in Hi. apply (FitCore.Pl S o vs lik HL); auto. lia.
  Qed.
  (** the evidence of any fit *)
  Lemma static_any fo eo : exists S', fit S fo eo = Ok S' /\
    st_logEv S' = if Rlt_dec 0 (rsum N (batchTo n)) then Fin (ln (rsum N (batchTo n))) else NInf.
  Proof.
    assert (H0 : 0 <= rsum N (batchTo n)) by (apply rsum_nonneg; intros; now apply batch_nonneg).
    destruct (Rlt_dec 0 (rsum N (batchTo n))) as [H1|H1].
    - destruct (fo || eo)%bool eqn:Hm.
      + destruct (static_forward fo eo Hm H1) as (S' & h1 & h2 & _). eauto.
      + apply orb_false_iff in Hm. destruct Hm as [-> ->]. destruct (static_full H1) as (S' & h1 & h2 & _). eauto.
    - apply static_zero. lra.
  Qed.
End Static.
