(** Results of [fit] for linear models in all three modes. *)
From Coq Require Import List ZArith Reals Lra Lia Arith Bool String.
From Verif Require Import Base.Num Base.Exn Base.Arr Base.RSum Base.Lift Model.Helper Model.Tm Model.HyperParams Model.Study
  Spec.Kernel Spec.Hmm Spec.Config Proof.Gauss Proof.KernelProof Proof.HmmProof Proof.FitLinear Proof.FitThms Proof.FitCore.
Import ListNotations.
Local Open Scope R_scope.

Lemma list_tab_map {A B} (l : list A) (f : nat -> B) (g : A -> B) :
  (forall i x, nth_error l i = Some x -> g x = f i) -> map g l = map f (seq 0 (List.length l)).
Proof.
  assert (G : forall l k, (forall i x, nth_error l i = Some x -> g x = f (k + i)%nat) -> map g l = map f (seq k (List.length l))).
  { induction l0 as [|a l0 IH]; intros k E; cbn; auto. f_equal.
    - rewrite (E O a eq_refl). f_equal. lia.
    - apply IH. intros i x Ei. rewrite (E (Datatypes.S i) x Ei). f_equal. lia. }
  intros E. apply G. exact E.
Qed.
Lemma nth_error_nth' {A} (l : list A) i d : (i < List.length l)%nat -> nth_error l i = Some (nth i l d).
Proof.
  revert i; induction l as [|a l IH]; intros [|i] Hi; cbn in *; try lia; auto. apply IH. lia.
Qed.

Section Results.
  Variables (S : study R R) (o : om R) (m : tm R) (vs : list (list R)) (ts : list R) (rho : nat -> R)
            (e' : env R) (rho' : nat -> R) (lik : nat -> nat -> R).
  Hypothesis C : configured S o m vs ts.
  Hypothesis Lin : linear (om_names o) m.
  Hypothesis FE : fitEnv S o m vs ts rho e' rho'.
  Hypothesis Prho : forall x, (x < gridPoints vs)%nat -> 0 <= rho x.
  Hypothesis HL : likelihoods S o vs lik.
  Notation N := (gridPoints vs).
  Notation n := (nSteps S o).
  Notation vol := (cellVolume S).
  Notation K := (transition S o m ts rho).
  Notation K' := (fun i => kernel (spaceOf e' rho') m (timeOf ts o i)).
  Notation tss := (formatTimestamps ts (om_seglen o)).
  Notation Ev k := (evidence N k rho K lik).
  Notation filt := (filt S o m vs ts rho lik).
  Notation mvol := (mvol S o m ts).
  Hypothesis Hn : (0 < n)%nat.

  Definition fwdPosts (k : nat) : list (list (xnum R)) := map (fun i => arrOf N (filt i)) (seq 0 k).

  (** positive numbers whose partial products are the (scaled) evidences of the first data segments *)
  Definition normList (l : list R) : Prop :=
    Forall (fun x => 0 < x) l /\ forall k, (0 < k)%nat -> (k <= n)%nat -> Rprod (firstn k l) = Ev k / vol * mvol k.
  Lemma fwd_norms w : fwdLoop e' o m (segments S o) tss (fin (a0 S vs rho)) false (e_prior e') (Fin 0) = Ok w -> fw_stop w = false ->
    forall k, (0 < k)%nat -> (k <= n)%nat ->
      Rprod (firstn k (map (fun s => match snd s with Fin c => c | _ => 0 end) (fw_steps w))) = Ev k / vol * mvol k.
  Proof.
    intros Ew Hs k H0 Hk.
    destruct (fwd_core S o m vs ts rho e' rho' lik C Lin FE Prho HL k H0 Hk) as (w1 & Ew1 & _ & _ & Hp).
    rewrite <- (firstn_skipn k (segments S o)) in Ew.
    apply fwd_prefix in Ew. destruct Ew as (w2 & Ew2 & S2 & B). rewrite Ew1 in Ew2. inversion Ew2; subst w2.
    rewrite Hs in B. destruct (Hp B) as [_ <-]. rewrite S2, firstn_map, firstn_length. unfold nSteps in Hk.
    rewrite Nat.min_l by lia. reflexivity.
  Qed.

  Lemma ln_split x y v : 0 < x -> 0 < y -> 0 < v -> ln (x / v * y) + ln v = ln (x * y).
  Proof.
    intros. rewrite <- ln_mult; auto.
    - f_equal. field. lra.
    - apply Rmult_lt_0_compat; auto. now apply Rdiv_lt_0_compat.
  Qed.
  Lemma mvol_pos k : 0 < mvol k.
  Proof. apply pow_lt. exact (cfg_volpos S o m vs ts C). Qed.

  Lemma steps_posts w : goodSteps S o m vs ts rho e' rho' lik n w ->
    map fst (fw_steps w) = fwdPosts (List.length (fw_steps w)).
  Proof.
    intros [_ G]. apply (list_tab_map (fw_steps w) (fun i => arrOf N (filt i)) fst).
    intros i x Ei. destruct (G i x Ei) as (norm & -> & _). reflexivity.
  Qed.
  Lemma steps_norms w : goodSteps S o m vs ts rho e' rho' lik n w ->
    exists l, Forall (fun x => 0 < x) l /\ map snd (fw_steps w) = map Fin l.
  Proof.
    intros [_ G]. assert (A : Forall (fun s => exists c, snd s = Fin c /\ 0 < c) (fw_steps w)).
    { apply Forall_forall. intros x I. apply In_nth_error in I. destruct I as [i Ei].
      destruct (G i x Ei) as (norm & -> & Hp & _). exists norm. auto. }
    clear G. induction A as [|s l (c & Ec & Hc) A IH]; [exists []; auto|]. destruct IH as (l' & P' & E').
    exists (c :: l'). split; [constructor; auto|]. cbn. now rewrite Ec, E'.
  Qed.

  Lemma fit_forward fo eo : (fo || eo = true)%bool -> 0 < Ev n ->
    exists S' norms, fit S fo eo = Ok S' /\ st_logEv S' = Fin (ln (Ev n * mvol n)) /\
      st_post S' = (if eo then st_post S else map Some (fwdPosts n)) /\
      st_means S' = (if eo then [] else meanValues (meshgrid vs) (fwdPosts n)) /\
      st_local S' = map (fun c => Some (Fin (c * vol))) norms /\
      List.length norms = n /\ normList norms.
  Proof.
    intros Hmode HE. rewrite (fit_unfold S o m vs ts fo eo C). cbv zeta.
    destruct (fe_loops _ _ _ _ _ _ _ _ FE) as (p' & alias & EP & Hl). rewrite EP.
    destruct (fwd_full S o m vs ts rho e' rho' lik C Lin FE Prho HL Hn) as (w & Ew & Ep & Hg & _ & Hp).
    destruct (Hl _ _ _ _ Ew Ep) as (w' & Ew' & (S1 & S2 & S3) & _).
    cbn [l0 LogNumR]. fold (a0 S vs rho). rewrite Ew'. rewrite S1, S2, S3. clear S1 S2 S3 Ew'.
    pose proof (steps_posts w Hg) as EPost. pose proof (steps_norms w Hg) as (l & Pl & El).
    destruct Hg as [[(_ & _ & Z & _)|(Hs & _ & Hlev & Hlen)] Hst]; [lra|].
    rewrite Hs, Hlen in *. 
    pose proof (cfg_volpos S o m vs ts C) as VP.
    assert (Eln : xladd (fw_logEv w) (xln (Fin (e_vol (envOf S o (om_prior o))))) = Fin (ln (Ev n * mvol n))).
    { rewrite Hlev, cfg_vol. cbn [xln fltb NumR f0]. replace (Rltb 0 vol) with true by (symmetry; now apply Rltb_true).
      cbn [xladd xplus ladd LogNumR lln]. f_equal. apply ln_split; auto. apply mvol_pos. }
    assert (Eloc : padNone n (map (fun s : list (xnum R) * xnum R => xmul (snd s) (Fin (e_vol (envOf S o (om_prior o))))) (fw_steps w))
                   = map (fun c => Some (Fin (c * vol))) l).
    { unfold padNone. rewrite map_length, Hlen, Nat.sub_diag. cbn [repeat]. rewrite app_nil_r.
      rewrite <- (map_map snd (fun x => xmul x (Fin (e_vol (envOf S o (om_prior o)))))), El, !map_map.
      apply map_ext. intros c. rewrite cfg_vol. reflexivity. }
    assert (Epp : padNone n (map fst (fw_steps w)) = map Some (fwdPosts n)).
    { unfold padNone. rewrite EPost. unfold fwdPosts. rewrite map_length, seq_length, Nat.sub_diag. cbn [repeat]. apply app_nil_r. }
    assert (Hnl : normList l).
    { split; auto. intros k H0 Hk. rewrite <- (fwd_norms w Ew Hs k H0 Hk).
      rewrite <- (map_map snd (fun x => match x with Fin c => c | _ => 0 end)), El, map_map, map_id. reflexivity. }
    assert (Hll : List.length l = n).
    { rewrite <- (map_length Fin l), <- El, map_length. exact Hlen. }
    destruct eo.
    - exists (set_results S (om_set_prior o (fw_prior w')) (segments S o) tss (st_post S) []
        (xladd (fw_logEv w) (xln (Fin (e_vol (envOf S o (om_prior o)))))) (map (fun c => Some (Fin (c * vol))) l) (st_warn S)), l.
      rewrite Eloc. split; [reflexivity|]. cbn [st_logEv st_post st_means st_local set_results]. rewrite Eln. repeat split; auto; apply Hnl.
    - rewrite orb_false_r in Hmode. subst fo. cbn [negb].
      do 2 eexists. rewrite Eloc, Epp. split; [reflexivity|]. cbn [st_logEv st_post st_means st_local set_results].
      rewrite Eln, (cf_grid _ _ _ _ _ C), EPost. repeat split; auto; apply Hnl.
  Qed.

  Lemma fit_zero fo eo : Ev n = 0 ->
    exists S' k locals, fit S fo eo = Ok S' /\ st_logEv S' = NInf /\ (k < n)%nat /\
      Ev (Datatypes.S k) = 0 /\ (forall i, (i <= k)%nat -> 0 < Ev i) /\
      st_post S' = (if eo then st_post S else map Some (fwdPosts k) ++ repeat None (n - k)) /\
      st_means S' = st_means S /\
      st_local S' = map Some locals ++ repeat None (n - k) /\ List.length locals = k /\
      st_warn S' = Datatypes.S (st_warn S).
  Proof.
    intros HE. rewrite (fit_unfold S o m vs ts fo eo C). cbv zeta.
    destruct (fe_loops _ _ _ _ _ _ _ _ FE) as (p' & alias & EP & Hl). rewrite EP.
    destruct (fwd_full S o m vs ts rho e' rho' lik C Lin FE Prho HL Hn) as (w & Ew & Ep & Hg & Hz & _).
    destruct (Hl _ _ _ _ Ew Ep) as (w' & Ew' & (S1 & S2 & S3) & _).
    cbn [l0 LogNumR]. fold (a0 S vs rho). rewrite Ew'. rewrite S1, S2, S3. clear S1 S2 S3 Ew'.
    pose proof (steps_posts w Hg) as EPost.
    destruct Hg as [[(Hs & _ & Z & Hk)|(_ & HP & _)] Hst]; [|lra].
    rewrite Hs. set (k := List.length (fw_steps w)) in *.
    do 3 eexists. split; [reflexivity|]. cbn [st_logEv st_post st_means st_local st_warn set_results].
    split; [reflexivity|]. split; [exact Hk|]. split; [now apply Hz|]. split.
    - intros [|i] Hi.
      + unfold evidence. cbn. lra.
      + destruct (nth_error (fw_steps w) i) as [x|] eqn:Ex.
        * destruct (Hst i x Ex) as (_ & _ & _ & HP & _). exact HP.
        * apply nth_error_None in Ex. unfold k in Hi. lia.
    - split; [|split; [reflexivity|split; [|split]]].
      + destruct eo; [reflexivity|]. unfold padNone. rewrite EPost. fold k. unfold fwdPosts at 2.
        rewrite map_length, seq_length. reflexivity.
      + unfold padNone. rewrite map_length. reflexivity.
      + now rewrite map_length.
      + reflexivity.
  Qed.

  (** the backward step at the time of step i+1 uses the transposed transition matrix of the forward step i *)
  Hypothesis Hrev : forall i x y, (Datatypes.S i < n)%nat -> (x < N)%nat -> (y < N)%nat ->
    kernel (spaceOf e' rho') m (timeOf ts o (Datatypes.S i) - 1) y x = K' i x y.

  Definition smoothPosts : list (list (xnum R)) := map (fun i => arrOf N (posterior N n rho K lik i)) (seq 0 n).
  Definition localOf (i : nat) : xnum R :=
    xdiv (Fin 1) (xmul (asum (adiv (arrOf N (posterior N n rho K lik i)) (arrOf N (lik i)))) (Fin vol)).

  Lemma fit_smooth : 0 < Ev n ->
    exists S', fit S false false = Ok S' /\ st_logEv S' = Fin (ln (Ev n * mvol n)) /\
      st_post S' = map Some smoothPosts /\
      st_means S' = meanValues (meshgrid vs) smoothPosts /\
      st_local S' = map (fun i => Some (localOf i)) (seq 0 n).
  Proof.
    intros HE. rewrite (fit_unfold S o m vs ts false false C). cbv zeta.
    destruct (fe_loops _ _ _ _ _ _ _ _ FE) as (p' & alias & EP & Hl). rewrite EP.
    destruct (fwd_full S o m vs ts rho e' rho' lik C Lin FE Prho HL Hn) as (w & Ew & Ep & Hg & _ & _).
    destruct (Hl _ _ _ _ Ew Ep) as (w' & Ew' & (S1 & S2 & S3) & Hb).
    cbn [l0 LogNumR]. fold (a0 S vs rho). rewrite Ew'. rewrite S1, S2, S3. clear S1 S2 S3 Ew'.
    pose proof (steps_posts w Hg) as EPost.
    destruct Hg as [[(_ & _ & Z & _)|(Hs & _ & Hlev & Hlen)] Hst]; [lra|].
    rewrite Hs.
    pose proof (cfg_volpos S o m vs ts C) as VP.
    assert (Eln : xladd (fw_logEv w) (xln (Fin (e_vol (envOf S o (om_prior o))))) = Fin (ln (Ev n * mvol n))).
    { rewrite Hlev, cfg_vol. cbn [xln fltb NumR f0]. replace (Rltb 0 vol) with true by (symmetry; now apply Rltb_true).
      cbn [xladd xplus ladd LogNumR lln]. f_equal. apply ln_split; auto. apply mvol_pos. }
    set (its := map (fun i => (tab N (filt i), nth i (segments S o) (Seg1 []), timeOf ts o i, tab N (lik i))) (seq 0 n) : list item).
    assert (Lits : List.length its = n) by (unfold its; rewrite map_length; apply seq_length).
    assert (Nits : forall j it, nth_error its j = Some it ->
              (j < n)%nat /\ it = (tab N (filt j), nth j (segments S o) (Seg1 []), timeOf ts o j, tab N (lik j))).
    { intros j it E. assert (Hj : (j < n)%nat) by (rewrite <- Lits; apply nth_error_Some; congruence). split; auto.
      unfold its in E. rewrite nth_error_map, (nth_error_nth' _ j O) in E by now rewrite seq_length.
      rewrite seq_nth in E by auto. cbn in E. now inversion E. }
    assert (Eits : map codeItem its = combine (combine (map fst (fw_steps w)) (segments S o)) tss).
    { rewrite EPost, Hlen. unfold its. rewrite map_map. unfold codeItem. cbn [itAlpha itSeg itTime fst snd].
      unfold fwdPosts.
      apply (list_eq_nth (([], Seg1 [], 0) : list (xnum R) * seg R * R)).
      - rewrite !combine_length, !map_length, seq_length, (cfg_ts_len S o m vs ts C). unfold nSteps. lia.
      - rewrite map_length, seq_length. intros i Hi.
        assert (Lp : List.length (map (fun i => arrOf N (filt i)) (seq 0 n)) = List.length (segments S o)).
        { rewrite map_length, seq_length. reflexivity. }
        rewrite combine_nth; [|rewrite combine_length, <- Lp, Nat.min_id, Lp, (cfg_ts_len S o m vs ts C); reflexivity].
        rewrite combine_nth by exact Lp.
        rewrite (nth_indep (map (fun i => arrOf N (filt i)) (seq 0 n)) [] (arrOf N (filt O))) by (rewrite map_length, seq_length; auto).
        rewrite (map_nth (fun i => arrOf N (filt i))).
        rewrite (nth_indep _ _ (fin (tab N (filt O)), nth O (segments S o) (Seg1 []), timeOf ts o O)) by (rewrite map_length, seq_length; auto).
        rewrite (map_nth (fun i => (fin (tab N (filt i)), nth i (segments S o) (Seg1 []), timeOf ts o i))).
        rewrite seq_nth by auto. cbn [Nat.add]. rewrite cfg_ts_nth. reflexivity. }
    rewrite <- Eits. rewrite Hb.
    2:{ intros it I. rewrite <- in_rev, Eits in I. destruct it as [[a s] t]. apply in_combine_r in I. exact I. }
    assert (Elik : map itLik its = rows N n lik).
    { unfold its, rows. rewrite map_map. reflexivity. }
    assert (Hfe := fe_size _ _ _ _ _ _ _ _ FE).
    destruct (bwd_main e' o m rho' (timeOf ts o)) with (a := a0 S vs rho) (its := its) (Ls2 := @nil (list R))
       (b := rdivs (rones N) (INR N)) (c := / INR N) as (out & Eo & Epo & Eloc);
      rewrite ?(fe_names _ _ _ _ _ _ _ _ FE), ?(fe_lat _ _ _ _ _ _ _ _ FE), ?(fe_shape _ _ _ _ _ _ _ _ FE), ?(fe_size _ _ _ _ _ _ _ _ FE); auto.
    - exact (cfg_dim S o m vs ts C PNone).
    - exact (cfg_lat S o m vs ts C PNone).
    - exact (cf_spacing _ _ _ _ _ C).
    - rewrite (fe_tmlat _ _ _ _ _ _ _ _ FE). exact (fe_lat _ _ _ _ _ _ _ _ FE).
    - exact (fe_rho_pos _ _ _ _ _ _ _ _ FE).
    - exact (fe_rho_sum _ _ _ _ _ _ _ _ FE).
    - exact (fe_reset _ _ _ _ _ _ _ _ FE).
    - intros j it Ej. destruct (Nits j it Ej) as [Hj ->]. unfold goodItem. cbn [itAlpha itSeg itTime itLik fst snd].
      destruct (nth_error (fw_steps w) j) as [x|] eqn:Ex; [|apply nth_error_None in Ex; lia].
      destruct (Hst j x Ex) as (norm & _ & _ & _ & _ & Pf & Hf & Hz).
      rewrite Hfe. split; [|split; [apply tab_length|split; [now apply Forall_tab|split; [|split; [|reflexivity]]]]].
      + pose proof (segs_lik S o m vs ts rho e' rho' lik C FE HL n (le_n _)) as F2. unfold nSteps in F2 at 1. rewrite firstn_all in F2.
        assert (G : forall l l', Forall2 (hasLik e' o) l l' -> forall j d d', (j < List.length l)%nat -> hasLik e' o (nth j l d) (nth j l' d')).
        { induction 1; intros [|i] d d' Hi; cbn in *; try lia; auto. apply IHForall2. lia. }
        specialize (G _ _ F2 j (Seg1 []) [] Hj). rewrite rows_nth in G by auto. exact G.
      + rewrite <- firstn_map, Elik, rows_firstn by lia. exact Hf.
      + intros y Hy. rewrite !Rnth_tab by auto. now apply Hz.
    - rewrite Lits. exact Hrev.
    - rewrite Elik, app_nil_r, (a0_tot S o m vs ts rho e' rho' lik FE) by auto. now apply Rdiv_lt_0_compat.
    - rewrite rdivs_length. apply rones_length.
    - apply Rinv_0_lt_compat. exact (Npos S o m vs ts C).
    - intros _ y Hy. rewrite Rnth_rdivs, Rnth_rones by auto. unfold HmmProof.nxt. cbn. unfold Rdiv. ring.
    - assert (E1 : normalise (aones (e_size (envOf S o (om_prior o)))) = fin (rdivs (rones N) (INR N))).
      { unfold normalise. rewrite (cfg_size S o m vs ts C), aones_fin, asum_fin, Rsum_rones, adivs_fin; auto.
        pose proof (Npos S o m vs ts C). lra. }
      rewrite E1, Eo. cbn [negb].
      rewrite Lits, Elik, app_nil_r, Hfe in *.
      assert (Epost : forall i, (i < n)%nat ->
        tab N (fun x => HmmProof.jnt N K' (Rnth (a0 S vs rho)) 0 (vecs (rows N n lik)) i x
                        / HmmProof.tot N K' (Rnth (a0 S vs rho)) 0 (vecs (rows N n lik)))
        = tab N (posterior N n rho K lik i)).
      { intros i Hi. apply tab_ext. intros x Hx.
        rewrite (a0_jnt S o m vs ts rho e' rho' lik FE), (a0_tot S o m vs ts rho e' rho' lik FE) by auto.
        unfold posterior. field. split; lra. }
      assert (Epost2 : rev (map fst out) = smoothPosts).
      { rewrite Epo. unfold smoothPosts. apply map_ext_in. intros i Hi. apply in_seq in Hi. unfold arrOf. now rewrite Epost by lia. }
      eexists. split; [reflexivity|]. cbn [st_logEv st_post st_means st_local set_results].
      rewrite Eln, Epost2, (cf_grid _ _ _ _ _ C). repeat split.
      rewrite Eloc. rewrite (fe_vol _ _ _ _ _ _ _ _ FE).
      apply (list_eq_nth None).
      + rewrite map2_length, !map_length, seq_length, Hlen. lia.
      + rewrite map2_length, !map_length, seq_length, Hlen, Nat.min_id. intros i Hi.
        rewrite (map2_nth _ _ _ i NaN None) by (rewrite map_length, ?seq_length; lia).
        rewrite (nth_indep (map _ (seq 0 n)) None (Some (localOf O))) by (rewrite map_length, seq_length; auto).
        rewrite (nth_indep (map (fun i => Some (localOf i)) (seq 0 n)) None (Some (localOf O))) by (rewrite map_length, seq_length; auto).
        rewrite (map_nth (fun i => Some (localOf i))).
        erewrite (nth_indep (map _ (seq 0 n)) (Some (localOf O))) by (rewrite map_length, seq_length; auto).
        rewrite (map_nth (fun j => Some _) (seq 0 n) O i). rewrite seq_nth by auto. cbn [Nat.add].
        rewrite Epost by auto. rewrite rows_nth by auto. reflexivity.
  Qed.
End Results.
