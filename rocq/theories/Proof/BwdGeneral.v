(** The backward pass for all linear models, whether or not its steps are the transposed forward steps. *)
From Coq Require Import List ZArith Reals Lra Lia Arith Bool String.
From Verif Require Import Base.Num Base.Exn Base.Arr Base.RSum Base.Lift Model.Helper Model.Tm Model.HyperParams Model.Study
  Spec.Kernel Spec.Hmm Spec.Config Proof.Gauss Proof.KernelProof Proof.HmmProof Proof.FitLinear Proof.FitThms Proof.FitCore Proof.FitResults
  Proof.InferProof.
Import ListNotations.
Local Open Scope R_scope.

Section Bwd.
  Variable e : env R.
  Variable o : om R.
  Variable m : tm R.
  Variable rho : nat -> R.
  Variable tsf : nat -> R.
  Notation N := (e_size e).
  Notation sp := (spaceOf e rho).
  Notation vol := (e_vol e).
  Hypothesis Hdim : List.length (e_names e) = List.length (e_shape e).
  Hypothesis Hlat : List.length (e_lat e) = List.length (e_shape e).
  Hypothesis Hlatpos : Forall (fun l => 0 < l) (e_lat e).
  Hypothesis Html : e_tmlat e = e_lat e.
  Hypothesis Hrho_pos : forall y, (y < N)%nat -> 0 <= rho y.
  Hypothesis Hrho_sum : rsum N rho = 1.
  Hypothesis Hreset : resetPrior e = fin (tab N rho).
  Hypothesis Hlin : linear (e_names e) m.

  Variables (n : nat) (alpha lik : nat -> nat -> R) (segs : nat -> seg R).
  Notation back := (fun i => kernel sp m (tsf (S i) - 1)).
  Notation M i := (message N back lik i (n - 1 - i)).
  Definition comb i x : R := alpha i x * M i x.
  Hypothesis Hseg : forall i, (i < n)%nat -> hasLik e o (segs i) (tab N (lik i)).
  Hypothesis Halpha : forall i x, (i < n)%nat -> (x < N)%nat -> 0 <= alpha i x.
  Hypothesis Hz : forall i x, (i < n)%nat -> (x < N)%nat -> lik i x = 0 -> alpha i x = 0.

  Lemma lik_nonneg i x : (i < n)%nat -> (x < N)%nat -> 0 <= lik i x.
  Proof.
    intros Hi Hx. destruct (Hseg i Hi) as (_ & _ & P). pose proof (Rnth_nonneg _ x P) as R0. now rewrite Rnth_tab in R0.
  Qed.
  Lemma message_nonneg r : forall i x, (i + r < n)%nat -> (x < N)%nat -> 0 <= message N back lik i r x.
  Proof.
    induction r as [|r IH]; intros i x Hi Hx; cbn [message]; [lra|]. apply rsum_nonneg. intros y Hy.
    apply Rmult_le_pos; [apply kernel_stoch; auto|]. apply Rmult_le_pos; [apply lik_nonneg; auto; lia|apply IH; auto; lia].
  Qed.
  Definition codeItems (k : nat) : list (list (xnum R) * seg R * R) := map (fun i => (fin (tab N (alpha i)), segs i, tsf i)) (seq 0 k).
  Definition postOf (i : nat) : list (xnum R) := fin (tab N (fun x => comb i x / rsum N (comb i))).
  Definition locOf (i : nat) : xnum R := xdiv (Fin 1) (xmul (asum (adiv (postOf i) (fin (tab N (lik i))))) (Fin vol)).

  Lemma bwd_gen : forall k b c, (k <= n)%nat -> List.length b = N -> 0 < c ->
    (forall j, k = S j -> forall x, (x < N)%nat -> Rnth b x = c * M j x) ->
    exists out stop, bwdLoop e o m (rev (codeItems k)) (fin b) = Ok (out, stop) /\
      ((stop = false /\ (forall i, (i < k)%nat -> 0 < rsum N (comb i)) /\
        rev (map fst out) = map postOf (seq 0 k) /\ rev (map snd out) = map (fun i => Some (locOf i)) (seq 0 k)) \/
       (stop = true /\ exists i, (i < k)%nat /\ rsum N (comb i) = 0)).
  Proof.
    induction k as [|j IH]; intros b c Hk Lb Hc Hb.
    - cbn. do 2 eexists. split; [reflexivity|]. left. split; [reflexivity|]. split; [intros; lia|]. cbn. auto.
    - specialize (Hb j eq_refl). unfold codeItems. rewrite seq_S, map_app, rev_app_distr. cbn [map rev app Nat.add]. fold (codeItems j).
      cbn [bwdLoop]. set (A := tab N (alpha j)). set (L := tab N (lik j)).
      assert (LA : List.length A = N) by apply tab_length. assert (LL : List.length L = N) by apply tab_length.
      assert (Hp : rmul A b = tab N (fun x => c * comb j x)).
      { apply (list_eq_nth 0).
        - rewrite rmul_length, tab_length; congruence.
        - rewrite rmul_length by congruence. intros x Hx. rewrite LA in Hx.
          change (Rnth (rmul A b) x = nth x (tab N (fun x => c * comb j x)) 0). rewrite tab_nth, Rnth_rmul, Hb by congruence.
          unfold A. rewrite Rnth_tab by auto. unfold comb. ring. }
      rewrite amul_fin, asum_fin, Hp, Rsum_tab, rsum_scal.
      assert (C0 : 0 <= rsum N (comb j)).
      { apply rsum_nonneg. intros x Hx. apply Rmult_le_pos; [apply Halpha; auto|apply message_nonneg; auto; lia]. }
      destruct (xltb (Fin f0) (Fin (c * rsum N (comb j)))) eqn:Ex.
      2:{ apply xltb_fin_f in Ex. cbn in Ex. do 2 eexists. split; [reflexivity|]. right. split; [reflexivity|]. exists j. split; [lia|].
          destruct C0 as [C0|]; [|congruence]. pose proof (Rmult_lt_0_compat _ _ Hc C0). lra. }
      apply xltb_fin in Ex. cbn in Ex.
      assert (Cp : 0 < rsum N (comb j)).
      { destruct C0 as [|Z]; auto. rewrite <- Z in Ex. lra. }
      destruct (Hseg j ltac:(lia)) as (EL & _ & PL). fold L in EL, PL. rewrite EL, amul_fin, adivs_fin by lra.
      assert (Hpost : rdivs (tab N (fun x => c * comb j x)) (c * rsum N (comb j)) = tab N (fun x => comb j x / rsum N (comb j))).
      { rewrite rdivs_tab. apply tab_ext. intros x _. field. lra. }
      rewrite Hpost. change (fin (tab N (fun x => comb j x / rsum N (comb j)))) with (postOf j).
      assert (Mb : forall x, (x < N)%nat -> 0 <= M j x) by (intros; apply message_nonneg; auto; lia).
      assert (Sq : 0 < Rsum (rmul b L)).
      { destruct (rsum_pos_ex N (comb j) Cp) as (x & Hx & Px). unfold comb in Px.
        assert (Lx : 0 < lik j x).
        { destruct (lik_nonneg j x ltac:(lia) Hx) as [|Z]; auto. rewrite (Hz j x) in Px by (auto; lia). lra. }
        assert (Mx : 0 < M j x). { destruct (Mb x Hx) as [|Z]; auto. rewrite <- Z in Px. lra. }
        rewrite rsum_rmul by congruence. rewrite Lb. apply rsum_pos.
        - intros y Hy. rewrite Hb by auto. unfold L. rewrite Rnth_tab by auto. apply Rmult_le_pos; [apply Rmult_le_pos; [lra|auto]|apply lik_nonneg; auto; lia].
        - exists x. split; auto. rewrite Hb by auto. unfold L. rewrite Rnth_tab by auto. apply Rmult_lt_0_compat; auto. now apply Rmult_lt_0_compat. }
      assert (Lq : List.length (rmul b L) = N) by (rewrite rmul_length; congruence).
      unfold computeBackwardPrior. cbn [fsub NumR f1].
      rewrite (step_linear e rho Hdim Hlat Hlatpos Html Hrho_pos Hrho_sum Hreset m) by (auto; lra).
      cbn [bind].
      set (q := map (fun x => massAfter vol m (tsf j - 1) (Rsum (rmul b L)) / Rsum (rmul b L) * x) (kapply N (rmul b L) (kernel sp m (tsf j - 1)))).
      pose proof (massAfter_pos vol m (tsf j - 1) (Rsum (rmul b L)) (vol_pos e Hlatpos) Sq) as Mpos.
      assert (SumQ : Rsum q = massAfter vol m (tsf j - 1) (Rsum (rmul b L))).
      { unfold q. rewrite Rsum_scal, kapply_sum; auto; [field; lra|]. now apply kernel_stoch. }
      unfold normalise. rewrite asum_fin, SumQ, adivs_fin by lra.
      set (b' := rdivs q (massAfter vol m (tsf j - 1) (Rsum (rmul b L)))).
      assert (Lb' : List.length b' = N).
      { unfold b', q. rewrite rdivs_length, map_length. apply kapply_length. }
      assert (Vb' : forall x, (x < N)%nat -> Rnth b' x = rsum N (fun y => Rnth (rmul b L) y * kernel sp m (tsf j - 1) y x) / Rsum (rmul b L)).
      { intros x Hxx. unfold b'. rewrite Rnth_rdivs. unfold q. unfold Rnth at 1.
        rewrite <- (Rmult_0_r (massAfter vol m (tsf j - 1) (Rsum (rmul b L)) / Rsum (rmul b L))).
        rewrite (map_nth (fun x => massAfter vol m (tsf j - 1) (Rsum (rmul b L)) / Rsum (rmul b L) * x)).
        change (nth x (kapply N (rmul b L) (kernel sp m (tsf j - 1))) 0) with (Rnth (kapply N (rmul b L) (kernel sp m (tsf j - 1))) x).
        unfold kapply. rewrite Rnth_tab by auto. field. lra. }
      destruct (IH b' (c / Rsum (rmul b L))) as (out & stop & Eo & Cases); auto.
      + lia.
      + now apply Rdiv_lt_0_compat.
      + intros j' Ej x Hx. rewrite Vb' by auto. subst j.
        replace (n - 1 - j')%nat with (S (n - 1 - S j')) by lia. cbn [message].
        unfold Rdiv. rewrite (Rmult_comm c), Rmult_assoc, (Rmult_comm (/ _)). f_equal. rewrite <- rsum_scal. apply rsum_ext. intros y Hy.
        rewrite Rnth_rmul by congruence. rewrite Hb by auto. unfold L. rewrite Rnth_tab by auto. ring.
      + rewrite Eo. cbn [bind fst snd]. do 2 eexists. split; [reflexivity|]. destruct Cases as [(-> & Hpos & Ep & El)|(-> & i & Hi & Zi)].
        * left. split; [reflexivity|]. split; [|split].
          -- intros i Hi. destruct (Nat.eq_dec i j) as [->|]; auto. apply Hpos. lia.
          -- cbn [map fst rev]. rewrite Ep, map_app. reflexivity.
          -- cbn [map snd rev]. rewrite El, map_app. reflexivity.
        * right. split; [reflexivity|]. exists i. auto.
  Qed.
End Bwd.

Section Results.
  Variables (S : study R R) (o : om R) (m : tm R) (vs : list (list R)) (ts : list R) (rho : nat -> R)
            (e' : env R) (rho' : nat -> R) (lik : nat -> nat -> R).
  Hypothesis C : configured S o m vs ts.
  Hypothesis Lin : linear (om_names o) m.
  Hypothesis FE : fitEnv S o m vs ts rho e' rho'.
  Hypothesis Prho : forall x, (x < gridPoints vs)%nat -> 0 <= rho x.
  Hypothesis HL : likelihoods S o vs lik.
  Notation N := (gridPoints vs).
  Notation n := (nSteps S o).
  Notation vol := (cellVolume S).
  Notation K := (transition S o m ts rho).
  Notation tss := (formatTimestamps ts (om_seglen o)).
  Notation Ev k := (evidence N k rho K lik).
  Notation back := (fun i => kernel (spaceOf e' rho') m (timeOf ts o (Datatypes.S i) - 1)).
  Notation cmb := (combined N n rho K back lik).
  Hypothesis Hn : (0 < n)%nat.

  Lemma fit_general : 0 < Ev n ->
    exists S', fit S false false = Ok S' /\
      ((st_logEv S' = Fin (ln (Ev n * mvol S o m ts n)) /\ (forall i, (i < n)%nat -> 0 < rsum N (cmb i)) /\
        st_post S' = map (fun i => Some (arrOf N (smoothed N n rho K back lik i))) (seq 0 n)) \/
       (st_logEv S' = NInf /\ exists i, (i < n)%nat /\ rsum N (cmb i) = 0)).
  Proof.
    intros HE. rewrite (fit_unfold S o m vs ts false false C). cbv zeta.
    destruct (fe_loops _ _ _ _ _ _ _ _ FE) as (p' & alias & EP & Hl). rewrite EP.
    destruct (fwd_full S o m vs ts rho e' rho' lik C Lin FE Prho HL Hn) as (w & Ew & Ep & Hg & _ & _).
    destruct (Hl _ _ _ _ Ew Ep) as (w' & Ew' & (S1 & S2 & S3) & Hb).
    cbn [l0 LogNumR]. fold (a0 S vs rho). rewrite Ew'. rewrite S1, S2, S3. clear S1 S2 S3 Ew'.
    pose proof (steps_posts S o m vs ts rho e' rho' lik w Hg) as EPost.
    destruct Hg as [[(_ & _ & Z & _)|(Hs & _ & Hlev & Hlen)] Hst]; [lra|].
    rewrite Hs.
    pose proof (cfg_volpos S o m vs ts C) as VP.
    assert (Eln : xladd (fw_logEv w) (xln (Fin (e_vol (envOf S o (om_prior o))))) = Fin (ln (Ev n * mvol S o m ts n))).
    { rewrite Hlev, cfg_vol. cbn [xln fltb NumR f0]. replace (Rltb 0 vol) with true by (symmetry; now apply Rltb_true).
      cbn [xladd xplus ladd LogNumR lln]. f_equal. apply ln_split; auto. exact (mvol_pos S o m vs ts C n). }
    set (alpha := filt S o m vs ts rho lik). set (segf := fun i => nth i (segments S o) (Seg1 [])).
    assert (Hfe := fe_size _ _ _ _ _ _ _ _ FE).
    assert (Eits : combine (combine (map fst (fw_steps w)) (segments S o)) tss = codeItems e' (timeOf ts o) alpha segf n).
    { rewrite EPost, Hlen. unfold fwdPosts, codeItems. rewrite Hfe. symmetry.
      apply (list_eq_nth (([], Seg1 [], 0) : list (xnum R) * seg R * R)).
      - rewrite !combine_length, !map_length, seq_length, (cfg_ts_len S o m vs ts C). unfold nSteps. lia.
      - rewrite map_length, seq_length. intros i Hi.
        assert (Lp : List.length (map (fun i => arrOf N (alpha i)) (seq 0 n)) = List.length (segments S o)).
        { rewrite map_length, seq_length. reflexivity. }
        rewrite combine_nth; [|rewrite combine_length; unfold alpha in Lp; rewrite Lp, Nat.min_id, (cfg_ts_len S o m vs ts C); reflexivity].
        rewrite combine_nth by exact Lp.
        rewrite (nth_indep (map (fun i => arrOf N (filt S o m vs ts rho lik i)) (seq 0 n)) [] (arrOf N (alpha O))) by (rewrite map_length, seq_length; auto).
        rewrite (map_nth (fun i => arrOf N (filt S o m vs ts rho lik i))).
        rewrite (nth_indep _ _ (fin (tab N (alpha O)), segf O, timeOf ts o O)) by (rewrite map_length, seq_length; auto).
        rewrite (map_nth (fun i => (fin (tab N (alpha i)), segf i, timeOf ts o i))).
        rewrite seq_nth by auto. cbn [Nat.add]. rewrite cfg_ts_nth. reflexivity. }
    rewrite Hb.
    2:{ intros it I. rewrite <- in_rev in I. destruct it as [[a s] t]. apply in_combine_r in I. exact I. }
    rewrite Eits.
    assert (Hst' : forall i, (i < n)%nat -> (forall x, (x < N)%nat -> 0 <= alpha i x) /\ (forall x, (x < N)%nat -> lik i x = 0 -> alpha i x = 0)).
    { intros i Hi. destruct (nth_error (fw_steps w) i) as [x|] eqn:Ex; [|apply nth_error_None in Ex; lia].
      destruct (Hst i x Ex) as (norm & _ & _ & _ & _ & Pf & _ & Hz0). auto. }
    destruct (bwd_gen e' o m rho' (timeOf ts o)) with (n := n) (alpha := alpha) (lik := lik) (segs := segf) (k := n)
       (b := rdivs (rones N) (INR N)) (c := / INR N) as (out & stop & Eo & Cases);
      rewrite ?(fe_names _ _ _ _ _ _ _ _ FE), ?(fe_lat _ _ _ _ _ _ _ _ FE), ?(fe_shape _ _ _ _ _ _ _ _ FE), ?(fe_size _ _ _ _ _ _ _ _ FE); auto.
    - exact (cfg_dim S o m vs ts C PNone).
    - exact (cfg_lat S o m vs ts C PNone).
    - exact (cf_spacing _ _ _ _ _ C).
    - rewrite (fe_tmlat _ _ _ _ _ _ _ _ FE). exact (fe_lat _ _ _ _ _ _ _ _ FE).
    - exact (fe_rho_pos _ _ _ _ _ _ _ _ FE).
    - exact (fe_rho_sum _ _ _ _ _ _ _ _ FE).
    - exact (fe_reset _ _ _ _ _ _ _ _ FE).
    - intros i Hi. pose proof (segs_lik S o m vs ts rho e' rho' lik C FE HL n (le_n _)) as F2. unfold nSteps in F2 at 1. rewrite firstn_all in F2.
      assert (G : forall l l', Forall2 (hasLik e' o) l l' -> forall j d d', (j < List.length l)%nat -> hasLik e' o (nth j l d) (nth j l' d')).
      { induction 1; intros [|j] d d' Hj; cbn in *; try lia; auto. apply IHForall2. lia. }
      specialize (G _ _ F2 i (Seg1 []) [] Hi). rewrite rows_nth in G by auto. exact G.
    - intros i x Hi. now apply Hst'.
    - intros i x Hi. now apply Hst'.
    - rewrite rdivs_length. apply rones_length.
    - apply Rinv_0_lt_compat. exact (Npos S o m vs ts C).
    - intros j Ej x Hx. rewrite Rnth_rdivs, Rnth_rones by auto. rewrite Ej. replace (Datatypes.S j - 1 - j)%nat with O by lia. cbn. unfold Rdiv. ring.
    - assert (E1 : normalise (aones (e_size (envOf S o (om_prior o)))) = fin (rdivs (rones N) (INR N))).
      { unfold normalise. rewrite (cfg_size S o m vs ts C), aones_fin, asum_fin, Rsum_rones, adivs_fin; auto.
        pose proof (Npos S o m vs ts C). lra. }
      rewrite E1, Eo. cbn [negb]. unfold postOf, comb in Cases. rewrite Hfe in Cases.
      assert (Ec : forall i x, alpha i x * message N back lik i (n - 1 - i) x = cmb i x) by reflexivity.
      destruct Cases as [(-> & Hpos & Epo & _)|(-> & Z)].
      + eexists. split; [reflexivity|]. left. cbn [st_logEv st_post set_results]. rewrite Eln. split; [reflexivity|]. split; [exact Hpos|].
        rewrite Epo, map_map. reflexivity.
      + eexists. split; [reflexivity|]. right. cbn [st_logEv st_post set_results]. split; [reflexivity|]. exact Z.
  Qed.
End Results.

(** the environment, with the kernels of the backward steps *)
Lemma env_back S o m vs ts rho : configured S o m vs ts -> linear (om_names o) m -> priorIs S vs o (om_prior o) rho ->
  stablePrior (om_prior o) \/ resetFree S o m ts ->
  exists e' rho', fitEnv S o m vs ts rho e' rho' /\ forall i, (i < nSteps S o)%nat ->
    kernel (spaceOf e' rho') m (timeOf ts o i - 1) = kernel (spaceS S o rho) m (timeOf ts o i - 1).
Proof.
  intros C Lin P [St|Fr].
  - exists (envOf S o (om_prior o)), rho. split; [now apply fitEnv_stable|]. intros. reflexivity.
  - exists (with_prior (envOf S o (om_prior o)) PNone), (flat (gridPoints vs)). split; [now apply fitEnv_free|]. intros i Hi.
    apply (kernel_noreset (om_names o)); auto. now apply Fr.
Qed.
Lemma message_ext N b b' lik lik' : forall r i x, (x < N)%nat ->
  (forall j y z, (i <= j)%nat -> (j < i + r)%nat -> (y < N)%nat -> (z < N)%nat -> b j y z = b' j y z) ->
  (forall j y, (i < j)%nat -> (j <= i + r)%nat -> (y < N)%nat -> lik j y = lik' j y) -> message N b lik i r x = message N b' lik' i r x.
Proof.
  induction r as [|r IH]; intros i x Hx Hb Hl; cbn [message]; auto. apply rsum_ext. intros y Hy.
  rewrite Hb, Hl by (auto; lia). rewrite (IH (S i) y); auto.
  - intros; apply Hb; auto; lia.
  - intros; apply Hl; auto; lia.
Qed.
