(** [fit] for linear models: assembling the loops. *)
From Coq Require Import List ZArith Reals Lra Lia Arith Bool String.
From Verif Require Import Base.Num Base.Exn Base.Arr Base.RSum Base.Lift Model.Helper Model.Tm Model.HyperParams Model.Study
  Spec.Kernel Spec.Hmm Spec.Config Proof.Gauss Proof.KernelProof Proof.HmmProof Proof.FitLinear.
Import ListNotations.
Local Open Scope R_scope.

(** ** configuration facts *)
Lemma mapM_length {A B} (f : A -> res B) l r : mapM f l = Ok r -> List.length r = List.length l.
Proof.
  revert r; induction l as [|a l IH]; simpl; intros r E; [now inversion E|].
  destruct (f a); [|discriminate]. destruct (mapM f l); [|discriminate]. inversion E; subst. simpl. f_equal. auto.
Qed.
Lemma mapM_In {A B} (f : A -> res B) l r a : mapM f l = Ok r -> In a l -> exists b, f a = Ok b.
Proof.
  revert r; induction l as [|x l IH]; simpl; intros r E I; [tauto|].
  destruct (f x) eqn:Ex; [|discriminate]. destruct (mapM f l) eqn:El; [|discriminate].
  destruct I as [->|I]; eauto.
Qed.
Lemma latticeOf_two v l : latticeOf (F := R) v = Ok l -> (2 <= List.length v)%nat.
Proof.
  unfold latticeOf. destruct v as [|a [|b v]]; cbn; try discriminate. lia.
Qed.
Lemma natprod_pos l : Forall (fun n => (0 < n)%nat) l -> (0 < natprod l)%nat.
Proof. induction 1; [cbn; lia|]. rewrite natprod_cons. nia. Qed.

Section Cfg.
  Variables (S : study R R) (o : om R) (m : tm R) (vs : list (list R)) (ts : list R).
  Hypothesis C : configured S o m vs ts.
  Notation N := (gridPoints vs).

  Lemma cfg_size p : e_size (envOf S o p) = N.
  Proof. unfold e_size, envOf. cbn. rewrite (cf_shape _ _ _ _ _ C). reflexivity. Qed.
  Lemma cfg_dim p : List.length (e_names (envOf S o p)) = List.length (e_shape (envOf S o p)).
  Proof. cbn. now rewrite (cf_shape _ _ _ _ _ C), map_length, (cf_names _ _ _ _ _ C). Qed.
  Lemma cfg_lat p : List.length (e_lat (envOf S o p)) = List.length (e_shape (envOf S o p)).
  Proof. cbn. rewrite (cf_shape _ _ _ _ _ C), map_length. exact (mapM_length _ _ _ (cf_lat _ _ _ _ _ C)). Qed.
  Lemma cfg_latpos p : Forall (fun l => 0 < l) (e_lat (envOf S o p)).
  Proof. exact (cf_spacing _ _ _ _ _ C). Qed.
  Lemma cfg_vol p : e_vol (envOf S o p) = cellVolume S.
  Proof. unfold e_vol. rewrite fprod_R. reflexivity. Qed.
  Lemma cfg_volpos : 0 < cellVolume S.
  Proof. apply Rprod_pos. exact (cf_spacing _ _ _ _ _ C). Qed.
  Lemma cfg_npos : (0 < N)%nat.
  Proof.
    apply natprod_pos. apply Forall_map, Forall_forall. intros v Hv.
    destruct (mapM_In _ _ _ v (cf_lat _ _ _ _ _ C) Hv) as [l El]. apply latticeOf_two in El. lia.
  Qed.
  Lemma cfg_grid p : e_grid (envOf S o p) = meshgrid vs.
  Proof. exact (cf_grid _ _ _ _ _ C). Qed.
  Lemma hasDup_NoDup l : NoDup l -> hasDup l = false.
  Proof.
    induction 1 as [|a l NI ND IH]; simpl; auto. rewrite IH, orb_false_r.
    destruct (existsb (String.eqb a) l) eqn:E; auto. apply existsb_exists in E. destruct E as (b & Ib & Eb).
    apply String.eqb_eq in Eb. subst. tauto.
  Qed.
  Lemma cfg_check : checkConsistency S = Ok (o, m).
  Proof.
    unfold checkConsistency. pose proof (cf_data _ _ _ _ _ C).
    destruct (Nat.eqb_spec (rawLen (st_raw S)) 0); [lia|].
    rewrite (cf_om _ _ _ _ _ C), (cf_tm _ _ _ _ _ C), hasDup_NoDup by exact (cf_unique _ _ _ _ _ C). reflexivity.
  Qed.
  Lemma formatData_length : nSteps S o = (rawLen (st_raw S) + 1 - om_seglen o)%nat.
  Proof.
    unfold nSteps, segments, formatData, movingWindow. destruct (st_raw S); rewrite !map_length, seq_length; reflexivity.
  Qed.
  Lemma cfg_ts_len : List.length (formatTimestamps ts (om_seglen o)) = nSteps S o.
  Proof.
    unfold formatTimestamps. rewrite skipn_length, (cf_ts_len _ _ _ _ _ C), formatData_length.
    pose proof (cf_seglen _ _ _ _ _ C). lia.
  Qed.
  Lemma nth_skipn {A} (l : list A) k i d : nth i (skipn k l) d = nth (i + k) l d.
  Proof.
    revert l; induction k as [|k IH]; intros l; [now rewrite Nat.add_0_r|].
    destruct l as [|a l]; [destruct i; reflexivity|]. rewrite Nat.add_succ_r. cbn [skipn nth]. apply IH.
  Qed.
  Lemma cfg_ts_nth i : nth i (formatTimestamps ts (om_seglen o)) 0 = timeOf ts o i.
  Proof. unfold formatTimestamps, timeOf. apply nth_skipn. Qed.
  Lemma cfg_unit : unitSpaced ts -> forall i, (Datatypes.S i < nSteps S o)%nat -> timeOf ts o (Datatypes.S i) - 1 = timeOf ts o i.
  Proof.
    intros U i Hi. unfold timeOf. cbn [Nat.add]. rewrite U; [lra|].
    rewrite (cf_ts_len _ _ _ _ _ C). rewrite formatData_length in Hi. pose proof (cf_seglen _ _ _ _ _ C). lia.
  Qed.
End Cfg.

(** likelihood rows *)
Definition rows (N n : nat) (lik : nat -> nat -> R) : list (list R) := map (fun i => tab N (lik i)) (seq 0 n).
Lemma rows_hasLik S o m vs ts lik p : configured S o m vs ts -> likelihoods S o vs lik ->
  Forall2 (hasLik (envOf S o p) o) (segments S o) (rows (gridPoints vs) (nSteps S o) lik).
Proof.
  intros C HL. unfold nSteps, rows.
  assert (G : forall l k, (forall i s, nth_error l i = Some s -> nth_error (segments S o) (k + i) = Some s) ->
     Forall2 (hasLik (envOf S o p) o) l (map (fun i => tab (gridPoints vs) (lik i)) (seq k (List.length l)))).
  { induction l as [|s l IH]; intros k Hk; cbn [List.length seq map]; constructor.
    - specialize (Hk O s eq_refl). rewrite Nat.add_0_r in Hk. destruct (HL _ _ Hk) as [E P].
      unfold hasLik. rewrite (cfg_size S o m vs ts C), (cfg_grid S o m vs ts C). split; [exact E|].
      split; [apply tab_length|]. apply Forall_tab. exact P.
    - apply IH. intros i s' E. replace (Datatypes.S k + i)%nat with (k + Datatypes.S i)%nat by lia. now apply Hk. }
  apply G. auto.
Qed.

Lemma tot_ext_lik N K : forall Ls Ls' a i, Forall2 (fun f g => forall x, (x < N)%nat -> f x = g x) Ls Ls' ->
  HmmProof.tot N K a i Ls = HmmProof.tot N K a i Ls'.
Proof.
  intros Ls Ls' a i HF. revert a i. induction HF as [|f g Ls Ls' E HF IH]; intros a i; simpl; auto.
  apply rsum_ext. intros x Hx. now rewrite E, IH.
Qed.
Lemma jnt_ext_lik N K : forall Ls Ls', Forall2 (fun f g => forall x, (x < N)%nat -> f x = g x) Ls Ls' ->
  forall k a i x, (x < N)%nat -> HmmProof.jnt N K a i Ls k x = HmmProof.jnt N K a i Ls' k x.
Proof.
  intros Ls Ls' HF. induction HF as [|f g Ls Ls' E HF IH]; intros k a i x Hx; simpl; auto.
  destruct k.
  - unfold HmmProof.nxt. rewrite E by auto. f_equal. now apply tot_ext_lik.
  - rewrite <- IH by auto. apply jnt_ext; auto. intros y Hy. unfold HmmProof.push. apply rsum_ext. intros z Hz. now rewrite E.
Qed.
Lemma rows_lik N n lik : Forall2 (fun f g => forall x, (x < N)%nat -> f x = g x) (vecs (rows N n lik)) (map lik (seq 0 n)).
Proof.
  unfold vecs, rows. rewrite map_map. generalize 0%nat. induction n; intros k; cbn; constructor; auto.
  intros x Hx. now apply Rnth_tab.
Qed.
Lemma tot_evidence N K n lik a : HmmProof.tot N K a 0 (vecs (rows N n lik)) = evidence N n a K lik.
Proof. rewrite evidence_tot. apply tot_ext_lik, rows_lik. Qed.
Lemma jnt_jointAt N K n lik a i x : (i < n)%nat -> (x < N)%nat ->
  HmmProof.jnt N K a 0 (vecs (rows N n lik)) i x = jointAt N n a K lik i x.
Proof. intros. rewrite jointAt_jnt by auto. apply jnt_ext_lik; auto. apply rows_lik. Qed.

Lemma evidence_ext N n a a' K lik : (forall x, (x < N)%nat -> a x = a' x) -> evidence N n a K lik = evidence N n a' K lik.
Proof. intros E. rewrite !evidence_tot. now apply tot_ext. Qed.
Lemma evidence_scal N n c a K lik : (0 < n)%nat -> evidence N n (fun x => c * a x) K lik = c * evidence N n a K lik.
Proof. intros Hn. rewrite !evidence_tot. apply tot_scal. destruct n; [lia|discriminate]. Qed.
Lemma jointAt_scal N n c a K lik i x : (i < n)%nat -> (x < N)%nat -> jointAt N n (fun x => c * a x) K lik i x = c * jointAt N n a K lik i x.
Proof. intros. rewrite !jointAt_jnt by auto. apply jnt_scal. Qed.
Lemma posterior_scal N n c a K lik i x : c <> 0 -> (i < n)%nat -> (x < N)%nat -> evidence N n a K lik <> 0 ->
  posterior N n (fun x => c * a x) K lik i x = posterior N n a K lik i x.
Proof.
  intros. unfold posterior. rewrite jointAt_scal, evidence_scal by (auto; lia). field. auto.
Qed.
Lemma evidence_nonneg N n a K lik : (forall x, (x < N)%nat -> 0 <= a x) ->
  (forall i x y, (x < N)%nat -> (y < N)%nat -> 0 <= K i x y) -> (forall i x, (i < n)%nat -> (x < N)%nat -> 0 <= lik i x) ->
  0 <= evidence N n a K lik.
Proof.
  intros Pa PK PL. rewrite evidence_tot. apply tot_nonneg; auto.
  apply Forall_map, Forall_forall. intros i Hi x Hx. apply in_seq in Hi. apply PL; auto; lia.
Qed.

(** masses as a power of the cell volume *)
Lemma masses_pow e m tsf n : forall i, masses e m tsf i n =
  (e_vol e) ^ List.length (filter (fun j => resetAt m (tsf j)) (seq i n)).
Proof.
  induction n as [|n IH]; intros i; cbn [masses seq filter]; [reflexivity|].
  rewrite IH. unfold mass, resetAt. pose proof (massAfter_resetBy (e_vol e) (tsf i) m false) as E. cbn in E. rewrite E.
  destruct (resetBy m (tsf i) false); cbn [List.length pow]; lra.
Qed.

(** ** fit *)
Lemma fit_unfold S o m vs ts fo eo : configured S o m vs ts ->
  fit S fo eo =
  (let e := envOf S o (om_prior o) in
   match computePrior e with
   | Err x => Err x
   | Ok (alpha0, prior0, alias0) =>
       match fwdLoop e o m (segments S o) (formatTimestamps ts (om_seglen o)) alpha0 alias0 prior0 (Fin l0) with
       | Err x => Err x
       | Ok w =>
           let o' := om_set_prior o (fw_prior w) in
           let steps := fw_steps w in
           let n := nSteps S o in
           let fmt := segments S o in
           let tss := formatTimestamps ts (om_seglen o) in
           let fwdLoc := map (fun s => xmul (snd s) (Fin (e_vol e))) steps in
           let fwdPost := if eo then st_post S else padNone n (map fst steps) in
           if fw_stop w then
             Ok (set_results S o' fmt tss fwdPost (st_means S) NInf (padNone n fwdLoc) (1 + st_warn S))
           else
             let ev := xladd (fw_logEv w) (xln (Fin (e_vol e))) in
             if eo then Ok (set_results S o' fmt tss fwdPost [] ev (padNone n fwdLoc) (st_warn S))
             else if fo then
               Ok (set_results S o' fmt tss fwdPost (meanValues (st_grid S) (map fst steps)) ev (padNone n fwdLoc) (st_warn S))
             else
               match bwdLoop (with_prior e (fw_prior w)) o m (rev (combine (combine (map fst steps) fmt) tss))
                             (normalise (aones (e_size e))) with
               | Err x => Err x
               | Ok (out, stop) =>
                   let post := rev (map fst out) in
                   let loc := map2 (fun old new => match new with Some x => Some x | None => Some old end)
                                   fwdLoc (rev (map snd out)) in
                   if stop then
                     Ok (set_results S o' fmt tss (map Some post) (st_means S) NInf loc (1 + st_warn S))
                   else
                     Ok (set_results S o' fmt tss (map Some post) (meanValues (st_grid S) post) ev loc (st_warn S))
               end
       end
   end).
Proof.
  intros C. unfold fit. rewrite (cfg_check S o m vs ts C). cbn [bind]. rewrite (cf_ts _ _ _ _ _ C).
  fold (segments S o). change (List.length (segments S o)) with (nSteps S o).
  destruct (computePrior (envOf S o (om_prior o))) as [[[a0 p0] al0]|x]; cbn [bind]; [|reflexivity].
  destruct (fwdLoop _ _ _ _ _ _ _ _ _) as [w|x]; cbn [bind]; [|reflexivity].
  destruct (fw_stop w); [reflexivity|]. destruct eo; [reflexivity|]. destruct fo; [reflexivity|].
  destruct (bwdLoop _ _ _ _ _) as [[out stop]|x]; reflexivity.
Qed.

(** ** priors *)
Lemma Rsum_rones_pos n : (0 < n)%nat -> 0 < INR n.
Proof. intros. now apply lt_0_INR. Qed.

Lemma priorDensity_fin e g : asum (fin g) = Fin (Rsum g) -> Rsum g <> 1 -> Rsum g <> 0 -> e_vol e <> 0 ->
  priorDensity e (fin g) = fin (map (fun x => x / Rsum g / e_vol e) g).
Proof.
  intros E N1 N0 V. unfold priorDensity. rewrite E. cbn [xeqb feqb NumR f1].
  destruct (Reqb (Rsum g) 1) eqn:Eq; [apply Reqb_true in Eq; lra|].
  rewrite !adivs_fin by auto. unfold rdivs. now rewrite (map_map (fun x => x / Rsum g)).
Qed.

Section Prior.
  Variables (S : study R R) (o : om R) (m : tm R) (vs : list (list R)) (ts : list R).
  Hypothesis C : configured S o m vs ts.
  Notation N := (gridPoints vs).
  Notation e := (envOf S o (om_prior o)).

  Lemma Npos : 0 < INR N.
  Proof. apply lt_0_INR. exact (cfg_npos S o m vs ts C). Qed.

  Lemma prior_start p rho : priorIs S vs o p rho ->
    (forall x, (x < N)%nat -> 0 <= rho x) /\
    exists p' alias, computePrior (envOf S o p) = Ok (fin (tab N (fun x => rho x / cellVolume S)), p', alias) /\
      (stablePrior p -> p' = p /\ alias = false).
  Proof.
    pose proof Npos as NP. pose proof (cfg_volpos S o m vs ts C) as VP.
    pose proof (cfg_size S o m vs ts C p) as SZ. pose proof (cfg_vol S o p) as VO.
    pose proof (cfg_grid S o m vs ts C p) as GR.
    unfold computePrior. rewrite SZ. cbn [e_prior envOf]. intros P. destruct P as [|f g H1 H2 H3 H4|c H1 H2|g H1 H2 H3|f g H1 H2].
    - split. { intros x _. unfold flat. apply Rlt_le, Rdiv_lt_0_compat; lra. }
      do 2 eexists. split; [|auto]. rewrite VO, aones_fin, asum_fin, Rsum_rones.
      rewrite !adivs_fin by lra. do 3 f_equal. unfold rones. rewrite repeat_tab, !rdivs_tab. reflexivity.
    - split. { intros x Hx. unfold normalised. apply Rmult_le_pos; auto. left. now apply Rinv_0_lt_compat. }
      do 2 eexists. split; [|auto]. rewrite GR, H1. unfold arrOf.
      rewrite priorDensity_fin by (rewrite ?asum_fin, ?Rsum_tab, ?VO; auto; lra).
      rewrite VO, Rsum_tab, map_tab. reflexivity.
    - split. { intros x _. unfold flat. apply Rlt_le, Rdiv_lt_0_compat; lra. }
      do 2 eexists. split; [|intros []]. rewrite repeat_tab, <- (map_tab Fin N (fun _ => c)).
      assert (E : Rsum (tab N (fun _ => c)) = INR N * c) by (rewrite Rsum_tab; apply rsum_const).
      assert (0 < INR N * c) by now apply Rmult_lt_0_compat.
      rewrite priorDensity_fin by (rewrite ?asum_fin, ?E, ?VO; auto; lra).
      rewrite VO, E, map_tab. do 3 f_equal. f_equal. apply tab_ext. intros x _. unfold flat. field. lra.
    - split. { intros x Hx. unfold normalised. apply Rmult_le_pos; auto. left. now apply Rinv_0_lt_compat. }
      do 2 eexists. split; [|intros []]. match goal with |- context [e_shape (envOf S o ?q)] => change (e_shape (envOf S o q)) with (st_shape S) end.
      destruct (list_eq_dec Nat.eq_dec _ _) as [_|NE]; [|elim NE; symmetry; exact (cf_shape _ _ _ _ _ C)].
      unfold arrOf in *.
      rewrite priorDensity_fin by (rewrite ?asum_fin, ?Rsum_tab, ?VO; auto; lra).
      rewrite VO, Rsum_tab, map_tab. reflexivity.
    - split. { intros x Hx. apply Rmult_le_pos; auto. lra. }
      do 2 eexists. split; [|intros []]. cbn [e_names envOf]. rewrite Nat.eqb_refl, GR, H1. unfold arrOf.
      do 3 f_equal. f_equal. apply tab_ext. intros x _. field. lra.
  Qed.

  Lemma flat_ok : (forall x, (x < N)%nat -> 0 <= flat N x) /\ rsum N (flat N) = 1.
  Proof.
    pose proof Npos. split.
    - intros x _. unfold flat. apply Rlt_le, Rdiv_lt_0_compat; lra.
    - unfold flat. rewrite rsum_const. field. lra.
  Qed.
  Lemma reset_flat p : p = PNone -> resetPrior (envOf S o p) = fin (tab N (flat N)).
  Proof.
    intros ->. unfold resetPrior. cbn [e_prior envOf].
    rewrite (cfg_size S o m vs ts C PNone), aones_fin, asum_fin, Rsum_rones. pose proof Npos.
    rewrite adivs_fin by lra. unfold rones. rewrite repeat_tab, rdivs_tab. reflexivity.
  Qed.
  Lemma prior_reset p rho : priorIs S vs o p rho -> stablePrior p ->
    (forall x, (x < N)%nat -> 0 <= rho x) /\ rsum N rho = 1 /\ resetPrior (envOf S o p) = fin (tab N rho).
  Proof.
    intros P ST. split; [now apply (prior_start p)|]. destruct P as [|f g H1 H2 H3 H4| | |]; try (now destruct ST).
    - split; [apply flat_ok|]. now apply reset_flat.
    - split.
      + unfold normalised. unfold Rdiv. rewrite rsum_scal_r. field. lra.
      + unfold resetPrior. cbn [e_prior envOf]. rewrite (cfg_grid S o m vs ts C), H1. unfold arrOf.
        rewrite asum_fin, Rsum_tab, adivs_fin, rdivs_tab by lra. reflexivity.
  Qed.
End Prior.

(** ** without resets the prior is not looked at again *)
Lemma step_noreset names m t1 t t' : linear names m -> usesReset m t1 = false -> forall e p off a,
  step (with_prior e p) m off a t1 t t' = step e m off a t1 t t'.
Proof.
  induction m as [k nms vals prior ms IH] using tm_ind'. intros Lin U e p off a.
  inversion Lin; subst; cbn [usesReset] in U.
  - reflexivity.
  - reflexivity.
  - cbn [hd numOf] in U. cbn [step leafStep index nth_error bind eqTime]. cbn [feqb NumR]. rewrite eqR_Reqb, U. reflexivity.
  - discriminate.
  - clear Lin. revert a. induction IH as [|m ms Hm Hms IHms]; intros a; [reflexivity|].
    match goal with HF : Forall (linear names) (_ :: _) |- _ => inversion HF; subst end. cbn [existsb] in U. apply orb_false_iff in U. destruct U as [U1 U2].
    cbn [step]. rewrite (Hm ltac:(assumption) U1). destruct (step e m off a t1 t t'); [|reflexivity].
    cbn [step] in IHms. apply IHms; auto.
  - clear Lin. assert (Eb : map numOf (map (@HNum R) bs) = bs) by (rewrite map_map; apply map_id). rewrite Eb in U.
    apply orb_false_iff in U. destruct U as [U1 U2].
    cbn [step]. rewrite mapM_scalar_HNum. cbn [bind]. rewrite breaksUpTo_R.
    unfold changeCheck. rewrite maskSel_changeTimes.
    change (existsb (fun b => feqb t1 b)) with (existsb (eqR t1)). fold (changeTimes bs mask). rewrite U1.
    f_equal. generalize (offsetOf bs (breaksBefore bs t1)). intros off'. clear U1. match goal with HF : List.length ms = _ |- _ => clear HF end.
    revert U2. generalize (breaksBefore bs t1). induction IH as [|m ms Hm Hms IHms]; intros i U2; [reflexivity|].
    match goal with HF : Forall (linear names) (_ :: _) |- _ => inversion HF; subst end. destruct i; cbn [map nth] in U2.
    + cbn. apply Hm; auto.
    + cbn. apply IHms; auto.
Qed.

Lemma kernel_noreset names m t : linear names m -> usesReset m t = false -> forall sp sp',
  sp_shape sp = sp_shape sp' -> sp_lat sp = sp_lat sp' -> sp_names sp = sp_names sp' -> kernel sp m t = kernel sp' m t.
Proof.
  induction m as [k nms vals prior ms IH] using tm_ind'. intros Lin U sp sp' E1 E2 E3.
  inversion Lin; subst; cbn [usesReset] in U; cbn [kernel].
  - reflexivity.
  - now rewrite E1, E2, E3.
  - now rewrite U.
  - discriminate.
  - unfold sp_size. rewrite E1. induction IH as [|m ms Hm Hms IHms]; [reflexivity|].
    match goal with HF : Forall (linear names) (_ :: _) |- _ => inversion HF; subst end. cbn [existsb] in U. apply orb_false_iff in U. destruct U as [U1 U2].
    cbn [fold_right]. rewrite IHms; auto; [|constructor; auto]. now rewrite (Hm ltac:(assumption) U1 sp sp').
  - apply orb_false_iff in U. destruct U as [U1 U2]. rewrite U1. revert U2. clear Lin U1. match goal with HF : List.length ms = _ |- _ => clear HF end.
    generalize (breaksBefore (map numOf (map (@HNum R) bs)) t).
    induction IH as [|m ms Hm Hms IHms]; intros [|i] U2; cbn [map nth] in *; auto; match goal with HF : Forall (linear names) (_ :: _) |- _ => inversion HF; subst end.
    + now apply Hm.
    + apply IHms; auto.
Qed.

Definition sameButPrior (w w' : fwd R R) : Prop :=
  fw_steps w = fw_steps w' /\ fw_logEv w = fw_logEv w' /\ fw_stop w = fw_stop w'.
Lemma fwd_noreset names e o m p2 : linear names m -> forall segs ts a alias p alias2 lev w,
  (forall i, (i < List.length ts)%nat -> usesReset m (nth i ts 0) = false) ->
  fwdLoop (with_prior e p2) o m segs ts a alias2 p2 lev = Ok w ->
  exists w', fwdLoop e o m segs ts a alias p lev = Ok w' /\ sameButPrior w' w.
Proof.
  intros Lin. 
  assert (G : forall segs ts a alias p alias2 q lev w,
    (forall i, (i < List.length ts)%nat -> usesReset m (nth i ts 0) = false) ->
    fwdLoop (with_prior e p2) o m segs ts a alias2 q lev = Ok w ->
    exists w', fwdLoop e o m segs ts a alias p lev = Ok w' /\ sameButPrior w' w).
  { induction segs as [|s segs IH]; intros ts a alias p alias2 q lev w U E; cbn [fwdLoop] in *.
    - inversion E; subst. eexists. split; [reflexivity|]. repeat split.
    - change (e_size (with_prior e p2)) with (e_size e) in E. change (e_grid (with_prior e p2)) with (e_grid e) in E.
      destruct (xltb _ _).
      + destruct ts as [|t ts]; [discriminate|].
        assert (Ut : usesReset m t = false) by (apply (U O); simpl; lia).
        unfold computeForwardPrior in *. rewrite (step_noreset names) in E by auto. rewrite (step_noreset names) in E |- * by auto.
        destruct (step e m f0 _ t t _) as [a3|]; [|discriminate]. cbn [bind] in *.
        destruct (fwdLoop (with_prior e p2) _ _ _ _ _ _ _ _) as [w1|] eqn:E1; [|discriminate].
        eapply IH in E1; [|intros i Hi; apply (U (Datatypes.S i)); simpl; lia].
        destruct E1 as (w' & E2 & S1 & S2 & S3). eexists. rewrite E2. split; [reflexivity|].
        cbn in E. inversion E; subst. repeat split; cbn; congruence.
      + inversion E; subst. eexists. split; [reflexivity|]. repeat split. }
  intros. eapply G; eauto.
Qed.
Lemma bwd_noreset names e o m p2 : linear names m -> forall items b,
  (forall it, In it items -> usesReset m (snd it - 1) = false) ->
  bwdLoop (with_prior e p2) o m items b = bwdLoop e o m items b.
Proof.
  intros Lin. induction items as [|[[a s] t] items IH]; intros b U; [reflexivity|]. cbn [bwdLoop].
  change (e_size (with_prior e p2)) with (e_size e). change (e_grid (with_prior e p2)) with (e_grid e).
  change (e_vol (with_prior e p2)) with (e_vol e).
  destruct (xltb _ _); [|reflexivity].
  unfold computeBackwardPrior. cbn [fsub NumR f1].
  rewrite (step_noreset names) by (auto; apply (U (a, s, t)); now left).
  destruct (step e m f0 _ (t - 1) t (t - 1)); [|reflexivity]. cbn [bind]. rewrite IH; [reflexivity|].
  intros it Hit. apply U. now right.
Qed.

(** ** path sums only depend on the transitions between the data points *)
Lemma Rprod_map_ext {A} (f g : A -> R) l : (forall x, In x l -> f x = g x) -> Rprod (map f l) = Rprod (map g l).
Proof. induction l; intros E; cbn; auto. rewrite E by now left. f_equal. apply IHl. intros; apply E; now right. Qed.
Lemma paths_lt N n : forall w, In w (paths N n) -> Forall (fun x => (x < N)%nat) w.
Proof.
  induction n; cbn; intros w Hw; [destruct Hw as [<-|[]]; constructor|].
  apply in_flat_map in Hw. destruct Hw as (x & Hx & Hw). apply in_map_iff in Hw. destruct Hw as (w' & <- & Hw').
  apply in_seq in Hx. constructor; [lia|auto].
Qed.
Lemma pathWeight_trans N n init K K' lik w : In w (paths N n) ->
  (forall i x y, (Datatypes.S i < n)%nat -> (x < N)%nat -> (y < N)%nat -> K i x y = K' i x y) ->
  pathWeight init K lik w = pathWeight init K' lik w.
Proof.
  intros Hw E. pose proof (paths_length N n w Hw) as Lw. pose proof (paths_lt N n w Hw) as Bw.
  destruct w as [|x0 w]; [reflexivity|]. unfold pathWeight. f_equal. f_equal.
  apply Rprod_map_ext. intros i Hi. apply in_seq in Hi. rewrite Forall_forall in Bw.
  apply E; [lia| |]; apply Bw, nth_In; lia.
Qed.
Lemma evidence_trans N n init K K' lik :
  (forall i x y, (Datatypes.S i < n)%nat -> (x < N)%nat -> (y < N)%nat -> K i x y = K' i x y) ->
  evidence N n init K lik = evidence N n init K' lik.
Proof. intros E. unfold evidence. apply Rsum_map_ext. intros w Hw. now apply (pathWeight_trans N n). Qed.
Lemma jointAt_trans N n init K K' lik i x :
  (forall i x y, (Datatypes.S i < n)%nat -> (x < N)%nat -> (y < N)%nat -> K i x y = K' i x y) ->
  jointAt N n init K lik i x = jointAt N n init K' lik i x.
Proof.
  intros E. unfold jointAt. apply Rsum_map_ext. intros w Hw. apply filter_In in Hw. now apply (pathWeight_trans N n).
Qed.
