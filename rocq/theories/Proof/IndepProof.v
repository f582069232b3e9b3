(** The Independent model. *)
From Coq Require Import List ZArith Reals Lra Lia Arith Bool String.
From Verif Require Import Base.Num Base.Exn Base.Arr Base.RSum Base.Lift Model.Helper Model.Tm Model.HyperParams Model.Study
  Spec.Kernel Spec.Hmm Spec.Config Spec.Dist Spec.Data Proof.HmmProof Proof.KernelProof Proof.FitThms Proof.FitCore Proof.FitResults
  Proof.InferProof Proof.StaticProof Proof.DataProof Proof.BwdGeneral Proof.SplitProof Proof.SmoothProof.
Import ListNotations.
Local Open Scope R_scope.

Section Hmm.
  Variables (N : nat) (rho : nat -> R).
  Lemma window_1 lik x : window lik 0 1 x = lik O x.
  Proof. unfold window. cbn. ring. Qed.
  Lemma ev_indep : forall n lik, (0 < n)%nat ->
    evidence N n rho (fun _ => Kreset rho) lik = Rprod (map (fun i => rsum N (fun x => rho x * lik i x)) (seq 0 n)).
  Proof.
    intros n lik Hn. destruct n as [|n]; [lia|]. clear Hn. induction n as [|n IH].
    - rewrite ev_id by (auto; intros; lia). cbn [seq map]. change (Rprod [?a]) with (a * 1). rewrite Rmult_1_r. apply rsum_ext. intros x _. now rewrite window_1.
    - rewrite (evidence_split N (S (S n)) (S n) rho rho) by (auto; lia || reflexivity). rewrite IH.
      replace (S (S n) - S n)%nat with 1%nat by lia. rewrite ev_id by (auto; intros; lia).
      rewrite (seq_S (S n)), map_app, Rprod_app. f_equal. cbn [map]. change (Rprod [?a]) with (a * 1). rewrite Rmult_1_r. apply rsum_ext. intros x _. rewrite window_1.
      now rewrite Nat.add_0_r.
  Qed.
  Lemma filt_indep lik i x : (x < N)%nat -> 0 < evidence N (S i) rho (fun _ => Kreset rho) lik ->
    posterior N (S i) rho (fun _ => Kreset rho) lik i x = normalised N (fun x => rho x * lik i x) x.
  Proof.
    intros Hx HE. unfold posterior, normalised. destruct i as [|i].
    - rewrite ev_id, (joint_id N) by (auto; intros; lia). rewrite window_1. f_equal. apply rsum_ext. intros y _. now rewrite window_1.
    - rewrite ev_indep in HE by lia. rewrite (seq_S (S i)), map_app, Rprod_app in HE. cbn [map] in HE. change (Rprod [?a]) with (a * 1) in HE. rewrite Rmult_1_r in HE. cbn [Nat.add] in HE.
      rewrite ev_indep by lia. rewrite (seq_S (S i)), map_app, Rprod_app. cbn [map]. change (Rprod [?a]) with (a * 1). rewrite Rmult_1_r. cbn [Nat.add].
      replace (jointAt N (S (S i)) rho (fun _ => Kreset rho) lik (S i) x) with (jointAt N (S (S i)) rho (fun _ => Kreset rho) lik (S i + 0) x) by (f_equal; lia).
      rewrite (joint_split_after N (S (S i)) (S i) rho rho) by (auto; lia || reflexivity).
      replace (S (S i) - S i)%nat with 1%nat by lia. rewrite (joint_id N) by (auto; intros; lia). rewrite window_1, Nat.add_0_r, ev_indep by lia.
      set (p := Rprod _) in *. set (q := rsum N _) in *. assert (p <> 0) by (intros Z; rewrite Z in HE; lra). assert (q <> 0) by (intros Z; rewrite Z in HE; lra). field. auto.
  Qed.
End Hmm.

Section Indep.
  Variables (S : study R R) (o : om R) (hn : list string) (hp : option (nl (hprior R))) (vs : list (list R)) (ts : list R)
            (rho : nat -> R) (lik : nat -> nat -> R).
  Let m := TM KIndep hn [] hp [] : tm R.
  Hypothesis C : configured S o m vs ts.
  Hypothesis P : priorIs S vs o (om_prior o) rho.
  Hypothesis HL : likelihoods S o vs lik.
  Hypothesis St : stablePrior (om_prior o).
  Hypothesis Hn : (0 < nSteps S o)%nat.
  Notation N := (gridPoints vs).
  Notation n := (nSteps S o).
  Lemma indep_lin : linear (om_names o) m.
  Proof. constructor. Qed.
  Lemma indep_mvol k : mvol S o m ts k = 1.
  Proof.
    unfold mvol, resetCount. assert (E : filter (fun i => resetAt m (timeOf ts o i)) (seq 0 (k - 1)) = []).
    { generalize (seq 0 (k - 1)). induction l; cbn; auto. }
    rewrite E. reflexivity.
  Qed.
  Let each i := rsum N (fun x => rho x * lik i x).
  Lemma prod_pos_prefix k : 0 < evidence N n rho (fun _ => Kreset rho) lik -> (k < n)%nat -> 0 < evidence N (Datatypes.S k) rho (fun _ => Kreset rho) lik.
  Proof.
    intros HE Hk. pose proof (rho_nonneg S o m vs ts rho C P) as Pr. rewrite ev_indep in HE |- * by lia.
    replace n with (Datatypes.S k + (n - Datatypes.S k))%nat in HE by lia. rewrite seq_app, map_app, Rprod_app in HE.
    assert (H0 : 0 <= Rprod (map (fun i => rsum N (fun x => rho x * lik i x)) (seq 0 (Datatypes.S k)))).
    { apply Rprod_nonneg, Forall_map, Forall_forall. intros i Hi. apply in_seq in Hi. apply rsum_nonneg. intros x Hx. apply Rmult_le_pos; auto.
      apply (FitCore.Pl S o vs lik HL); auto. lia. }
    destruct H0 as [|Z]; auto. rewrite <- Z in HE. lra.
  Qed.
  Lemma indep_full S' v : fit S false false = Ok S' -> st_logEv S' = Fin v ->
    v = ln (Rprod (map each (seq 0 n))) /\
    st_post S' = map (fun i => Some (arrOf N (normalised N (fun x =>
      if Nat.eqb (i + 1) n then rho x * lik i x else rho x * rho x * lik i x)))) (seq 0 n).
  Proof.
    intros E Ev. destruct (fit_full_inv S o m vs ts rho lik C indep_lin P HL (or_introl St) Hn S' v E Ev) as (HE & EV & HC & EP).
    change (transition S o m ts rho) with (fun _ : nat => Kreset rho) in HE, EV, HC, EP.
    rewrite indep_mvol, ev_indep, Rmult_1_r in EV by auto. split; [exact EV|]. rewrite EP. clear EP.
    apply map_ext_in. intros i Hi. apply in_seq in Hi. f_equal. unfold arrOf. f_equal. apply tab_ext. intros x0 Hx0.
    destruct (Nat.eqb_spec (i + 1) n) as [Hl|Hl]; (eapply smoothed_scal; [|apply HC; lia|exact Hx0]); intros x Hx; unfold combined;
      rewrite filt_indep by (auto; apply prod_pos_prefix; auto; lia); unfold normalised.
    - replace (n - 1 - i)%nat with 0%nat by lia. cbn [message]. instantiate (1 := / rsum N (fun x => rho x * lik i x)). unfold Rdiv. ring.
    - replace (n - 1 - i)%nat with (Datatypes.S (n - 2 - i)) by lia. rewrite (message_reset N _ lik rho) by (auto; reflexivity).
      match goal with |- _ / _ * (_ * ?z) = _ => instantiate (1 := z / rsum N (fun x => rho x * lik i x)) end. unfold Rdiv. ring.
  Qed.
  Lemma indep_fwd : exists S', fit S true false = Ok S' /\ 0 <= Rprod (map each (seq 0 n)) /\
    (Rprod (map each (seq 0 n)) = 0 -> st_logEv S' = NInf) /\
    (0 < Rprod (map each (seq 0 n)) -> st_logEv S' = Fin (ln (Rprod (map each (seq 0 n)))) /\
      st_post S' = map (fun i => Some (arrOf N (normalised N (fun x => rho x * lik i x)))) (seq 0 n)).
  Proof.
    destruct (fit_any S o m vs ts rho lik true C indep_lin P HL (or_introl St) Hn (or_introl eq_refl)) as (S' & E & H1 & H2 & H3).
    change (transition S o m ts rho) with (fun _ : nat => Kreset rho) in H1, H2, H3.
    exists S'. unfold each. rewrite <- ev_indep by auto. split; [exact E|]. split; [exact H1|]. split; [exact H2|]. intros HP. destruct (H3 HP) as [H4 H5].
    rewrite indep_mvol, Rmult_1_r in H4. split; [exact H4|]. rewrite H5. apply map_ext_in. intros i Hi. apply in_seq in Hi. f_equal. unfold arrOf. f_equal. apply tab_ext. intros x Hx.
    apply filt_indep; auto. apply prod_pos_prefix; auto; lia.
  Qed.
End Indep.
