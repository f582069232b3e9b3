(** [fit] for linear models: results in terms of path sums. *)
From Coq Require Import List ZArith Reals Lra Lia Arith Bool String.
From Verif Require Import Base.Num Base.Exn Base.Arr Base.RSum Base.Lift Model.Helper Model.Tm Model.HyperParams Model.Study
  Spec.Kernel Spec.Hmm Spec.Config Proof.Gauss Proof.KernelProof Proof.HmmProof Proof.FitLinear Proof.FitThms.
Import ListNotations.
Local Open Scope R_scope.

(** ** the forward loop on a prefix of the data (any carrier, any model) *)
Section Prefix.
  Context {F L : Type} `{Num F} `{LogNum F L}.
  Lemma fwd_prefix (e : env F) (o : om F) (m : tm F) : forall s1 s2 ts a alias p (lev : xnum L) w,
    fwdLoop e o m (s1 ++ s2) ts a alias p lev = Ok w ->
    exists w1, fwdLoop e o m s1 ts a alias p lev = Ok w1 /\ fw_steps w1 = firstn (List.length s1) (fw_steps w) /\
      fw_stop w1 = (fw_stop w && Nat.ltb (List.length (fw_steps w)) (List.length s1))%bool.
  Proof.
    induction s1 as [|s s1 IH]; intros s2 ts a alias p lev w E.
    - exists {| fw_steps := []; fw_logEv := lev; fw_prior := p; fw_stop := false |}.
      split; [reflexivity|]. split; [reflexivity|]. cbn. now rewrite andb_false_r.
    - cbn [app fwdLoop] in *. destruct (xltb _ _).
      + destruct ts as [|t ts]; [discriminate|]. destruct (computeForwardPrior _ _ _ _ _) as [a3|]; [|discriminate].
        cbn [bind] in *. destruct (fwdLoop e o m (s1 ++ s2) _ _ _ _ _) as [w0|] eqn:E0; [|discriminate].
        apply IH in E0. destruct E0 as (w1 & E1 & S1 & B1). rewrite E1. cbn in E. inversion E; subst. clear E.
        eexists. split; [reflexivity|]. cbn. split; [now rewrite S1|exact B1].
      + inversion E; subst. eexists. split; [reflexivity|]. cbn. auto.
  Qed.
  Lemma fwd_ts_prefix (e : env F) (o : om F) (m : tm F) : forall s ts ts' a alias p (lev : xnum L),
    (List.length s <= List.length ts)%nat ->
    fwdLoop e o m s (ts ++ ts') a alias p lev = fwdLoop e o m s ts a alias p lev.
  Proof.
    induction s as [|x s IH]; intros ts ts' a alias p lev Hl; [reflexivity|]. cbn [fwdLoop].
    destruct (xltb _ _); [|reflexivity]. destruct ts as [|t ts]; [simpl in Hl; lia|]. cbn [app].
    destruct (computeForwardPrior _ _ _ _ _); [|reflexivity]. cbn [bind]. rewrite IH; [reflexivity|]. simpl in Hl. lia.
  Qed.
  Lemma fwd_steps_len (e : env F) (o : om F) (m : tm F) : forall s ts a alias p (lev : xnum L) w,
    fwdLoop e o m s ts a alias p lev = Ok w ->
    (fw_stop w = false -> List.length (fw_steps w) = List.length s) /\
    (fw_stop w = true -> (List.length (fw_steps w) < List.length s)%nat /\ fw_logEv w = NInf).
  Proof.
    induction s as [|x s IH]; intros ts a alias p lev w E; cbn [fwdLoop] in E.
    - inversion E; subst. cbn. split; auto. discriminate.
    - destruct (xltb _ _).
      + destruct ts as [|t ts]; [discriminate|]. destruct (computeForwardPrior _ _ _ _ _); [|discriminate].
        cbn [bind] in E. destruct (fwdLoop _ _ _ _ _ _ _ _ _) as [w0|] eqn:E0; [|discriminate].
        apply IH in E0. cbn in E. inversion E; subst. cbn. destruct E0 as [A B]. split.
        * intros Hs. now rewrite A.
        * intros Hs. destruct (B Hs). split; [lia|auto].
      + inversion E; subst. cbn. split; [discriminate|]. intros _. split; [lia|auto].
  Qed.
End Prefix.

Lemma rows_length N n lik : List.length (rows N n lik) = n.
Proof. unfold rows. now rewrite map_length, seq_length. Qed.
Lemma rows_firstn N n lik k : (k <= n)%nat -> firstn k (rows N n lik) = rows N k lik.
Proof.
  intros Hk. unfold rows. rewrite firstn_map. f_equal.
  replace n with (k + (n - k))%nat by lia. rewrite seq_app, firstn_app, seq_length, Nat.sub_diag. cbn.
  rewrite app_nil_r. apply firstn_all2. rewrite seq_length. lia.
Qed.
Lemma rows_nth N n lik i : (i < n)%nat -> nth i (rows N n lik) [] = tab N (lik i).
Proof.
  intros Hi. unfold rows. rewrite (nth_indep _ [] (tab N (lik O))) by (rewrite map_length, seq_length; auto).
  rewrite (map_nth (fun i => tab N (lik i))). now rewrite seq_nth.
Qed.
Lemma rows_nonneg N n lik : (forall i x, (i < n)%nat -> (x < N)%nat -> 0 <= lik i x) -> Forall nonneg (rows N n lik).
Proof.
  intros P. unfold rows. apply Forall_map, Forall_forall. intros i Hi. apply in_seq in Hi.
  apply Forall_tab. intros x Hx. apply P; auto; lia.
Qed.

(** ** the environment in which the loops are linear *)
Record fitEnv (S : study R R) (o : om R) (m : tm R) (vs : list (list R)) (ts : list R) (rho : nat -> R)
       (e' : env R) (rho' : nat -> R) : Prop := {
  fe_size : e_size e' = gridPoints vs;
  fe_shape : e_shape e' = st_shape S;
  fe_vol : e_vol e' = cellVolume S;
  fe_grid : e_grid e' = meshgrid vs;
  fe_names : e_names e' = om_names o;
  fe_lat : e_lat e' = st_lat S;
  fe_tmlat : e_tmlat e' = e_lat e';
  fe_rho_pos : forall y, (y < gridPoints vs)%nat -> 0 <= rho' y;
  fe_rho_sum : rsum (gridPoints vs) rho' = 1;
  fe_reset : resetPrior e' = fin (tab (gridPoints vs) rho');
  fe_kernel : forall i, (i < nSteps S o)%nat -> kernel (spaceOf e' rho') m (timeOf ts o i) = transition S o m ts rho i;
  fe_loops : exists p' alias,
    computePrior (envOf S o (om_prior o)) = Ok (fin (tab (gridPoints vs) (fun x => rho x / cellVolume S)), p', alias) /\
    forall segs a lev w, fwdLoop e' o m segs (formatTimestamps ts (om_seglen o)) a false (e_prior e') lev = Ok w ->
      fw_prior w = e_prior e' ->
      exists w', fwdLoop (envOf S o (om_prior o)) o m segs (formatTimestamps ts (om_seglen o)) a alias p' lev = Ok w' /\
        sameButPrior w' w /\
        forall items b, (forall it, In it items -> In (snd it) (formatTimestamps ts (om_seglen o))) ->
          bwdLoop (with_prior (envOf S o (om_prior o)) (fw_prior w')) o m items b = bwdLoop e' o m items b
}.

Section Env.
  Variables (S : study R R) (o : om R) (m : tm R) (vs : list (list R)) (ts : list R) (rho : nat -> R).
  Hypothesis C : configured S o m vs ts.
  Hypothesis Lin : linear (om_names o) m.
  Hypothesis P : priorIs S vs o (om_prior o) rho.
  Notation N := (gridPoints vs).
  Notation e := (envOf S o (om_prior o)).

  Lemma fitEnv_stable : stablePrior (om_prior o) -> fitEnv S o m vs ts rho e rho.
  Proof.
    intros St. destruct (prior_reset S o m vs ts C _ _ P St) as (R1 & R2 & R3).
    destruct (prior_start S o m vs ts C _ _ P) as (_ & p' & alias & E1 & E2). destruct (E2 St) as [-> ->].
    constructor; auto.
    - apply (cfg_size S o m vs ts C).
    - apply cfg_vol.
    - exact (cfg_grid S o m vs ts C _).
    - exact (cf_tmlat _ _ _ _ _ C).
    - do 2 eexists. split; [exact E1|]. intros segs a lev w Ew Ep.
      exists w. split; [exact Ew|]. split; [repeat split|]. rewrite Ep. intros. reflexivity.
  Qed.

  Lemma ts_in t : In t (formatTimestamps ts (om_seglen o)) -> exists i, (i < nSteps S o)%nat /\ t = timeOf ts o i.
  Proof.
    intros I. apply (In_nth _ _ 0) in I. destruct I as (i & Hi & <-). exists i.
    rewrite (cfg_ts_len S o m vs ts C) in Hi. split; auto. apply cfg_ts_nth.
  Qed.

  Lemma fitEnv_free : resetFree S o m ts -> fitEnv S o m vs ts rho (with_prior e PNone) (flat N).
  Proof.
    intros Fr. destruct (flat_ok S o m vs ts C) as [R1 R2].
    destruct (prior_start S o m vs ts C _ _ P) as (_ & p' & alias & E1 & _).
    constructor; auto.
    - apply (cfg_size S o m vs ts C (om_prior o)).
    - change (e_vol (with_prior e PNone)) with (e_vol e). apply cfg_vol.
    - exact (cfg_grid S o m vs ts C (om_prior o)).
    - exact (cf_tmlat _ _ _ _ _ C).
    - change (with_prior e PNone) with (envOf S o PNone). now apply (reset_flat S o m vs ts C).
    - intros i Hi. unfold transition. apply (kernel_noreset (om_names o)); auto. now apply Fr.
    - exists p', alias. split; [exact E1|]. intros segs a lev w Ew Ep.
      destruct (fwd_noreset (om_names o) e o m PNone Lin segs (formatTimestamps ts (om_seglen o)) a alias p' false lev w) as (w' & Ew' & Sw).
      + intros i Hi. rewrite (cfg_ts_len S o m vs ts C) in Hi. rewrite cfg_ts_nth. now apply Fr.
      + exact Ew.
      + exists w'. split; [exact Ew'|]. split; [exact Sw|]. intros items b Hit.
        assert (Hu : forall it, In it items -> usesReset m (snd it - 1) = false).
        { intros it I. destruct (ts_in _ (Hit it I)) as (i & Hi & ->). now apply Fr. }
        rewrite !(bwd_noreset (om_names o)) by auto. reflexivity.
  Qed.
End Env.

(** ** forward loop in terms of path sums *)
Section Core.
  Variables (S : study R R) (o : om R) (m : tm R) (vs : list (list R)) (ts : list R) (rho : nat -> R)
            (e' : env R) (rho' : nat -> R) (lik : nat -> nat -> R).
  Hypothesis C : configured S o m vs ts.
  Hypothesis Lin : linear (om_names o) m.
  Hypothesis FE : fitEnv S o m vs ts rho e' rho'.
  Hypothesis Prho : forall x, (x < gridPoints vs)%nat -> 0 <= rho x.
  Hypothesis HL : likelihoods S o vs lik.
  Notation N := (gridPoints vs).
  Notation n := (nSteps S o).
  Notation e := (envOf S o (om_prior o)).
  Notation vol := (cellVolume S).
  Notation K := (transition S o m ts rho).
  Notation K' := (fun i => kernel (spaceOf e' rho') m (timeOf ts o i)).
  Notation tss := (formatTimestamps ts (om_seglen o)).
  Notation Ev k := (evidence N k rho K lik).

  Lemma Kst i : stochastic N (K' i).
  Proof.
    rewrite <- (fe_size _ _ _ _ _ _ _ _ FE). apply kernel_stoch; rewrite ?(fe_names _ _ _ _ _ _ _ _ FE), ?(fe_lat _ _ _ _ _ _ _ _ FE), ?(fe_shape _ _ _ _ _ _ _ _ FE), ?(fe_size _ _ _ _ _ _ _ _ FE); auto.
    - exact (cfg_dim S o m vs ts C PNone).
    - exact (fe_rho_pos _ _ _ _ _ _ _ _ FE).
    - exact (fe_rho_sum _ _ _ _ _ _ _ _ FE).
  Qed.

  Lemma Pl i x : (i < n)%nat -> (x < N)%nat -> 0 <= lik i x.
  Proof.
    intros Hi Hx. destruct (nth_error (segments S o) i) as [s|] eqn:E.
    - exact (proj2 (HL i s E) x Hx).
    - apply nth_error_None in E. unfold nSteps in Hi. lia.
  Qed.

  Definition a0 : list R := tab N (fun x => rho x / vol).

  Lemma EvK k : (k <= n)%nat -> evidence N k rho K' lik = Ev k.
  Proof.
    intros Hk. apply evidence_trans. intros i x y Hi _ _. rewrite (fe_kernel _ _ _ _ _ _ _ _ FE) by lia. reflexivity.
  Qed.
  Lemma JvK k i x : (k <= n)%nat -> jointAt N k rho K' lik i x = jointAt N k rho K lik i x.
  Proof.
    intros Hk. apply jointAt_trans. intros j y z Hj _ _. rewrite (fe_kernel _ _ _ _ _ _ _ _ FE) by lia. reflexivity.
  Qed.
  Lemma a0_tot k : (0 < k)%nat -> (k <= n)%nat -> HmmProof.tot N K' (Rnth a0) 0 (vecs (rows N k lik)) = Ev k / vol.
  Proof.
    intros H0 Hk. rewrite tot_evidence.
    rewrite (evidence_ext N k _ (fun x => / vol * rho x)).
    - rewrite evidence_scal by auto. rewrite EvK by auto. unfold Rdiv. ring.
    - intros x Hx. unfold a0. rewrite Rnth_tab by auto. unfold Rdiv. ring.
  Qed.
  Lemma a0_jnt k i x : (i < k)%nat -> (k <= n)%nat -> (x < N)%nat ->
    HmmProof.jnt N K' (Rnth a0) 0 (vecs (rows N k lik)) i x = jointAt N k rho K lik i x / vol.
  Proof.
    intros Hi Hk Hx.
    rewrite (jnt_ext N K' i _ 0 (Rnth a0) (fun x => / vol * rho x)); auto.
    - rewrite jnt_scal, jnt_jointAt, JvK by auto. unfold Rdiv. ring.
    - intros y Hy. unfold a0. rewrite Rnth_tab by auto. unfold Rdiv. ring.
  Qed.

  (** filtering distribution of step k *)
  Definition filt (k x : nat) : R := posterior N (Datatypes.S k) rho K lik k x.

  Lemma volpos : 0 < vol.
  Proof. exact (cfg_volpos S o m vs ts C). Qed.

  Lemma hasLik_env s l : hasLik e o s l <-> hasLik e' o s l.
  Proof.
    unfold hasLik. rewrite (fe_size _ _ _ _ _ _ _ _ FE), (fe_grid _ _ _ _ _ _ _ _ FE), (cfg_size S o m vs ts C), (cfg_grid S o m vs ts C).
    reflexivity.
  Qed.

  Lemma segs_lik k : (k <= n)%nat -> Forall2 (hasLik e' o) (firstn k (segments S o)) (rows N k lik).
  Proof.
    intros Hk. pose proof (rows_hasLik S o m vs ts lik (om_prior o) C HL) as F2.
    assert (G : forall k, Forall2 (hasLik e' o) (firstn k (segments S o)) (firstn k (rows N n lik))).
    { induction F2; intros [|j]; cbn; constructor; auto. now apply hasLik_env. }
    rewrite <- (rows_firstn N n lik k) by auto. apply G.
  Qed.

  Definition mvol k : R := vol ^ resetCount m (timeOf ts o) k.
  Lemma masses_env k : masses e' m (timeOf ts o) 0 (k - 1) = mvol k.
  Proof. rewrite masses_pow. rewrite (fe_vol _ _ _ _ _ _ _ _ FE). reflexivity. Qed.

  (** result of the forward pass on the first k segments *)
  Definition goodSteps (k : nat) (w : fwd R R) : Prop :=
      ((fw_stop w = true /\ fw_logEv w = NInf /\ Ev k = 0 /\ (List.length (fw_steps w) < k)%nat)
       \/ (fw_stop w = false /\ 0 < Ev k /\ fw_logEv w = Fin (ln (Ev k / vol * mvol k)) /\ List.length (fw_steps w) = k)) /\
      (forall i x, nth_error (fw_steps w) i = Some x -> exists norm,
         x = (fin (tab N (filt i)), Fin norm) /\ 0 < norm /\ 0 < Ev (Datatypes.S i) /\
         rsum N (filt i) = 1 /\ (forall x, (x < N)%nat -> 0 <= filt i x) /\
         factor e' m rho' (timeOf ts o) (tab N (filt i)) a0 0 (vecs (rows N (Datatypes.S i) lik)) i /\
         (forall x, (x < N)%nat -> lik i x = 0 -> filt i x = 0)).

  Lemma fwd_core k : (0 < k)%nat -> (k <= n)%nat ->
    exists w, fwdLoop e' o m (firstn k (segments S o)) tss (fin a0) false (e_prior e') (Fin 0) = Ok w /\
      fw_prior w = e_prior e' /\ goodSteps k w /\
      (fw_stop w = false -> Forall (fun s => exists c, snd s = Fin c /\ 0 < c) (fw_steps w) /\
        Rprod (map (fun s => match snd s with Fin c => c | _ => 0 end) (fw_steps w)) = Ev k / vol * mvol k).
  Proof.
    intros H0 Hk.
    destruct (fwd_main e' o m rho' (timeOf ts o)) with (segs := firstn k (segments S o)) (Ls := rows N k lik) (ts := tss)
      (a := a0) (i := 0%nat) (alias := false) (lev := Fin 0) as (w & Ew & Ep & Hcase & Hsteps & Hprod);
      rewrite ?(fe_names _ _ _ _ _ _ _ _ FE), ?(fe_lat _ _ _ _ _ _ _ _ FE), ?(fe_shape _ _ _ _ _ _ _ _ FE), ?(fe_size _ _ _ _ _ _ _ _ FE); auto.
    - exact (cfg_dim S o m vs ts C PNone).
    - exact (cfg_lat S o m vs ts C PNone).
    - exact (cf_spacing _ _ _ _ _ C).
    - rewrite (fe_tmlat _ _ _ _ _ _ _ _ FE). exact (fe_lat _ _ _ _ _ _ _ _ FE).
    - exact (fe_rho_pos _ _ _ _ _ _ _ _ FE).
    - exact (fe_rho_sum _ _ _ _ _ _ _ _ FE).
    - exact (fe_reset _ _ _ _ _ _ _ _ FE).
    - now apply segs_lik.
    - apply tab_length.
    - apply Forall_tab. intros x Hx. apply Rmult_le_pos; auto. left. apply Rinv_0_lt_compat, volpos.
    - rewrite firstn_length, (cfg_ts_len S o m vs ts C). lia.
    - intros j Hj. cbn [Nat.add]. apply cfg_ts_nth.
    - pose proof volpos as VP.
      assert (Lk : List.length (firstn k (segments S o)) = k) by (rewrite firstn_length; unfold nSteps in Hk; lia).
      rewrite Lk in *. rewrite masses_env in *.
      rewrite (fe_size _ _ _ _ _ _ _ _ FE) in *. rewrite a0_tot in * by auto.
      exists w. split; [exact Ew|]. split; [exact Ep|]. split; [|exact Hprod]. split.
      + destruct Hcase as [(h1 & h2 & h3 & h4)|(h1 & h2 & h3 & h4)]; [left|right]; repeat split; auto.
        * apply (Rmult_eq_reg_r (/ vol)); [unfold Rdiv in h3; lra|]. apply Rinv_neq_0_compat. lra.
        * apply (Rmult_lt_reg_r (/ vol)); [now apply Rinv_0_lt_compat|]. unfold Rdiv in h2. lra.
        * rewrite h3. cbn. f_equal. lra.
      + intros i x Hi. assert (Hik : (i < k)%nat).
        { assert (i < List.length (fw_steps w))%nat by (apply nth_error_Some; congruence).
          destruct Hcase as [(_ & _ & _ & h4)|(_ & _ & _ & h4)]; lia. }
        destruct (Hsteps i x Hi) as (alpha & norm & Ex & Hn & La & Pa & Sa & Hf & Hz).
        rewrite rows_firstn in Hf by lia.
        pose proof Hf as Hf'. destruct Hf' as (c & Hc & Hff). specialize (Hff []). rewrite app_nil_r in Hff.
        cbn [HmmProof.nxt HmmProof.tot] in Hff.
        rewrite (fe_size _ _ _ _ _ _ _ _ FE) in Hff.
        assert (Hff' : forall x, (x < N)%nat -> jointAt N (Datatypes.S i) rho K lik i x = vol * c * Rnth alpha x).
        { intros y Hy. specialize (Hff y Hy). rewrite a0_jnt in Hff by (auto; lia).
          unfold HmmProof.nxt in Hff. cbn [HmmProof.tot] in Hff.
          apply (Rmult_eq_reg_r (/ vol)); [|apply Rinv_neq_0_compat; lra]. unfold Rdiv in Hff. rewrite Hff. field. lra. }
        assert (HEv : Ev (Datatypes.S i) = vol * c).
        { assert (T : rsum N (HmmProof.jnt N K' (Rnth a0) 0 (vecs (rows N (Datatypes.S i) lik)) i)
                      = HmmProof.tot N K' (Rnth a0) 0 (vecs (rows N (Datatypes.S i) lik))).
          { apply jnt_sum. unfold vecs. rewrite map_length, rows_length. lia. }
          rewrite a0_tot in T by lia.
          rewrite (rsum_ext N _ (fun x => c * Rnth alpha x)) in T.
          - rewrite rsum_scal in T. assert (S1 : rsum N (Rnth alpha) = 1) by (rewrite <- Sa, (Rsum_rnth alpha), La; reflexivity).
            rewrite S1 in T.
            apply (Rmult_eq_reg_r (/ vol)); [|apply Rinv_neq_0_compat; lra]. unfold Rdiv in T. rewrite <- T. field. lra.
          - intros y Hy. rewrite Hff by auto. unfold HmmProof.nxt. cbn. lra. }
        assert (Ealpha : alpha = tab N (filt i)).
        { rewrite <- (tab_Rnth alpha), La. apply tab_ext. intros y Hy. unfold filt, posterior.
          rewrite Hff', HEv by auto. field. split; lra. }
        exists norm. subst alpha. split; [exact Ex|]. split; [exact Hn|]. split; [rewrite HEv; now apply Rmult_lt_0_compat|].
        split; [now rewrite <- Rsum_tab|]. split.
        * intros y Hy. unfold nonneg in Pa. rewrite Forall_forall in Pa. apply Pa. apply in_map, in_seq. lia.
        * split; [exact Hf|]. intros y Hy Ey. specialize (Hz y Hy). rewrite rows_nth, !Rnth_tab in Hz by auto. auto.
  Qed.

  Lemma fwd_full : (0 < n)%nat ->
    exists w, fwdLoop e' o m (segments S o) tss (fin a0) false (e_prior e') (Fin 0) = Ok w /\
      fw_prior w = e_prior e' /\ goodSteps n w /\
      (fw_stop w = true -> Ev (Datatypes.S (List.length (fw_steps w))) = 0) /\
      (fw_stop w = false -> Forall (fun s => exists c, snd s = Fin c /\ 0 < c) (fw_steps w) /\
        Rprod (map (fun s => match snd s with Fin c => c | _ => 0 end) (fw_steps w)) = Ev n / vol * mvol n).
  Proof.
    intros H0. destruct (fwd_core n H0 (le_n _)) as (w & Ew & Ep & Hg & Hp).
    unfold nSteps in Ew at 1. rewrite firstn_all in Ew.
    exists w. split; [exact Ew|]. split; [exact Ep|]. split; [exact Hg|]. split; [|exact Hp].
    intros Hs. set (k := List.length (fw_steps w)).
    destruct Hg as [[(_ & _ & _ & Hk)|(Hs' & _)] _]; [|congruence]. fold k in Hk.
    destruct (fwd_core (Datatypes.S k) ltac:(lia) ltac:(lia)) as (w1 & Ew1 & _ & [[(_ & _ & Z & _)|(Hs1 & _)] _] & _); [exact Z|].
    rewrite <- (firstn_skipn (Datatypes.S k) (segments S o)) in Ew.
    apply fwd_prefix in Ew. destruct Ew as (w2 & Ew2 & _ & B). rewrite Ew1 in Ew2. inversion Ew2; subst w2.
    rewrite Hs1, Hs, firstn_length in B. cbn [andb] in B. symmetry in B. apply Nat.ltb_ge in B. unfold nSteps in Hk. lia.
  Qed.
End Core.
