(** Priors that are given as arrays, with change-points and independent observations: C59. *)
From Coq Require Import List ZArith QArith Reals Lra Lia Arith Bool String.
From Verif Require Import Base.Num Base.Exn Base.Arr Base.RSum Base.Lift Model.Helper Model.Tm Model.HyperParams Model.Study Model.Api
  Spec.Kernel Spec.Hmm Spec.Config Spec.Dist Proof.KernelProof Proof.Gauss Proof.FitThms Proof.FitInv Proof.InferProof Proof.DataProof Props.Ex Props.ExR Props.Change.
Import ListNotations.
Local Open Scope R_scope.

(** product of likelihood functions *)
Definition allOf (ls : list (nat -> R)) (x : nat) : R := Rprod (map (fun l => l x) ls).
Lemma allOf_cons l ls x : allOf (l :: ls) x = l x * allOf ls x.
Proof. reflexivity. Qed.

Lemma positive_part N (g l : nat -> R) : (forall x, (x < N)%nat -> 0 <= g x) -> 0 < rsum N (fun x => g x * l x) -> 0 < rsum N g.
Proof.
  intros Hg H. destruct (Rle_lt_dec (rsum N g) 0) as [L|L]; auto. exfalso.
  rewrite rsum_0 in H; [lra|]. intros x Hx. pose proof (rsum_ge_term N g x Hx Hg). specialize (Hg x Hx). replace (g x) with 0 by lra. ring.
Qed.

Section Loop.
  Variables (e : env R) (o : om R) (N : nat).
  Hypothesis Hsize : e_size e = N.
  Definition good (s : seg R) (l : nat -> R) : Prop := processedPdf o N (e_grid e) s = fin (tab N l) /\ forall x, (x < N)%nat -> 0 <= l x.

  (** one step: the array after the multiplication and its norm *)
  Lemma step_norm g k s l : good s l -> (forall x, (x < N)%nat -> 0 <= g x) -> 0 < k -> 0 < rsum N (fun x => g x * l x) ->
    let a1 := amul (fin (tab N (fun x => k * g x))) (processedPdf o (e_size e) (e_grid e) s) in
    asum a1 = Fin (k * rsum N (fun x => g x * l x)) /\ adivs a1 (asum a1) = arrOf N (normalised N (fun x => g x * l x)) /\ xltb (Fin 0) (asum a1) = true.
  Proof.
    intros [Ep Hl] Hg Hk Hs a1. set (Z := rsum N (fun x => g x * l x)) in *. assert (0 < k * Z) by now apply Rmult_lt_0_compat.
    assert (E1 : a1 = fin (tab N (fun x => k * (g x * l x)))).
    { unfold a1. rewrite Hsize, Ep, amul_fin, rmul_tab. f_equal. apply tab_ext. intros. ring. }
    assert (E2 : asum a1 = Fin (k * Z)) by (rewrite E1, asum_fin, Rsum_tab, rsum_scal; reflexivity).
    split; [exact E2|]. split.
    - rewrite E2, E1, adivs_fin, rdivs_tab by lra. unfold arrOf. f_equal. apply tab_ext. intros x Hx. unfold normalised. fold Z. field. lra.
    - rewrite E2. cbn. unfold Rltb. destruct (Rlt_dec 0 (k * Z)); [reflexivity|contradiction].
  Qed.

  Variables (hn : list string) (hp : option (nl (hprior R))) (c : R) (sh : list nat).
  Let m := TM KChange hn [HNum c] hp [].
  Hypothesis Hvol : 0 < e_vol e.

  Lemma change_loop : forall segs liks, Forall2 good segs liks -> forall ts g k al q lE,
    (List.length segs <= List.length ts)%nat -> (forall x, (x < N)%nat -> 0 <= g x) -> 0 < k -> 0 < rsum N (fun x => g x * allOf liks x) ->
    (al = true /\ NoDup ts) \/ ~ In c ts ->
    exists w, fwdLoop e o m segs ts (fin (tab N (fun x => k * g x))) al (PArr sh q) (Fin lE) = Ok w /\ fw_stop w = false /\
      map fst (fw_steps w) = map (fun i => arrOf N (normalised N (fun x => g x * allOf (firstn (Datatypes.S i) liks) x))) (seq 0 (List.length liks)) /\
      (fw_logEv w = Fin (match liks with [] => lE | _ => lE + ln (k * rsum N (fun x => g x * allOf liks x)) +
         (if in_dec Req_EM_T c (firstn (List.length liks - 1) ts) then ln (e_vol e) else 0) end)).
  Proof.
    induction 1 as [|s l segs liks [Ep Hl] HF IH]; intros ts g k al q lE Len Hg Hk Hpos Mode.
    { eexists. split; [reflexivity|]. repeat split. }
    destruct ts as [|t ts]; [cbn in Len; lia|].
    assert (Hrest : forall x, (x < N)%nat -> 0 <= allOf liks x).
    { intros x Hx. apply Rprod_nonneg, Forall_map, Forall_forall. intros l' I'. clear - HF I' Hx. induction HF as [|? ? ? ? G ? IH]; [destruct I'|]. destruct I' as [<-|I']; [now apply G|auto]. }
    assert (Hgl : forall x, (x < N)%nat -> 0 <= g x * l x) by (intros; apply Rmult_le_pos; auto).
    assert (Hpos' : 0 < rsum N (fun x => (g x * l x) * allOf liks x)).
    { rewrite (rsum_ext N _ (fun x => g x * allOf (l :: liks) x)); [exact Hpos|]. intros x _. rewrite allOf_cons. ring. }
    pose proof (positive_part N _ _ Hgl Hpos') as Hz. set (Z := rsum N (fun x => g x * l x)) in *.
    destruct (step_norm g k s l (conj Ep Hl) Hg Hk Hz) as (En & Ed & Ex). cbv zeta in En, Ed, Ex.
    cbn [fwdLoop]. change (@f0 R _) with 0. rewrite Ex. rewrite Ed.
    set (a2 := arrOf N (normalised N (fun x => g x * l x))) in *.
    assert (Sa : asum a2 = Fin 1).
    { unfold a2, arrOf. rewrite asum_fin, Rsum_tab. unfold normalised, Rdiv. rewrite rsum_scal_r. fold Z. f_equal. field. lra. }
    unfold computeForwardPrior. unfold m at 1. cbn [step leafStep index nth_error bind eqTime returnsArgument].
    change (feqb t c) with (Reqb t c). rewrite En. fold Z.
    assert (RA : returnsArgument m t = negb (Reqb t c)) by reflexivity. rewrite RA.
    assert (P0 : 0 < k * Z) by now apply Rmult_lt_0_compat.
    assert (EL : xladd (Fin lE) (xln (L := R) (Fin (k * Z))) = Fin (lE + ln (k * Z))).
    { cbn. unfold Rltb. destruct (Rlt_dec 0 (k * Z)); [reflexivity|contradiction]. }
    destruct (Reqb t c) eqn:Etc; [apply Reqb_true in Etc; subst t|apply Reqb_false in Etc].
    - destruct Mode as [[-> ND]|NI]; [|exfalso; apply NI; now left]. inversion ND as [|? ? NI ND']; subst.
      cbn [overwrite negb andb].
      assert (ER : changeReset (with_prior e (PArr sh a2)) = fin (tab N (fun x => e_vol e / Z * (g x * l x)))).
      { unfold changeReset, resetPrior. cbn [e_prior with_prior]. rewrite Sa. change (e_vol (with_prior e (PArr sh a2))) with (e_vol e). unfold a2, arrOf.
        change (map Fin (tab N (normalised N (fun x => g x * l x)))) with (fin (tab N (normalised N (fun x => g x * l x)))).
        rewrite adivs_fin, rdivs_tab by lra. rewrite amuls_fin, map_tab. f_equal. apply tab_ext. intros x Hx. unfold normalised. fold Z. field. lra. }
      rewrite ER. rewrite EL.
      destruct (IH ts (fun x => g x * l x) (e_vol e / Z) false a2 (lE + ln (k * Z))) as (w & E1 & E2 & E3 & E4); auto.
      { cbn in Len. lia. } { apply Rdiv_lt_0_compat; auto. }
      rewrite E1. cbn [fw_cons bind]. eexists. split; [reflexivity|]. cbn [fw_stop fw_steps fw_logEv]. split; [exact E2|]. split.
      + cbn [map fst List.length seq]. f_equal.
        { unfold a2, arrOf. f_equal. apply tab_ext. intros x Hx. unfold normalised. f_equal; [|apply rsum_ext; intros y Hy]; unfold allOf; cbn; ring. }
        rewrite E3, <- seq_shift, map_map. apply map_ext. intros i. unfold arrOf. f_equal. apply tab_ext. intros x Hx. unfold normalised.
        f_equal; [|apply rsum_ext; intros y Hy]; cbn [firstn]; rewrite allOf_cons; ring.
      + rewrite E4. destruct liks as [|l' liks]; f_equal.
        * assert (EZ : rsum N (fun x => g x * allOf [l] x) = Z) by (unfold Z; apply rsum_ext; intros x _; unfold allOf; cbn; ring). rewrite EZ. cbn. ring.
        * assert (EZ : rsum N (fun x => g x * allOf (l :: l' :: liks) x) = rsum N (fun x => g x * l x * allOf (l' :: liks) x)).
          { apply rsum_ext. intros x _. rewrite allOf_cons. ring. }
          rewrite EZ. set (W := rsum N (fun x => g x * l x * allOf (l' :: liks) x)) in *.
          destruct (in_dec Req_EM_T c (firstn (List.length (l' :: liks) - 1) ts)) as [I1|I1].
          { exfalso. apply NI. rewrite <- (firstn_skipn (List.length (l' :: liks) - 1) ts). apply in_or_app. now left. }
          destruct (in_dec Req_EM_T c (firstn (List.length (l :: l' :: liks) - 1) (c :: ts))) as [I2|I2]; [|exfalso; apply I2; cbn; now left].
          unfold Rdiv. rewrite !ln_mult by (auto; try apply Rmult_lt_0_compat; auto; now apply Rinv_0_lt_compat). rewrite ln_Rinv by auto. ring.
    - cbn [negb]. rewrite andb_true_r.
      assert (EA : a2 = fin (tab N (fun x => / Z * (g x * l x)))).
      { unfold a2, arrOf, fin. f_equal. apply tab_ext. intros x Hx. unfold normalised. fold Z. field. lra. }
      assert (EO : exists q', overwrite al (PArr sh q) a2 = PArr sh q') by (destruct al; cbn; eauto). destruct EO as (q' & EO). rewrite EO, EL.
      rewrite EA.
      destruct (IH ts (fun x => g x * l x) (/ Z) al q' (lE + ln (k * Z))) as (w & E1 & E2 & E3 & E4); auto.
      { cbn in Len. lia. } { now apply Rinv_0_lt_compat. }
      { destruct Mode as [[-> ND]|NI]; [left; inversion ND; auto|right; intros I; apply NI; now right]. }
      rewrite E1. cbn [fw_cons bind]. eexists. split; [reflexivity|]. cbn [fw_stop fw_steps fw_logEv]. split; [exact E2|]. split.
      + cbn [map fst List.length seq]. f_equal.
        { rewrite <- EA. unfold a2, arrOf. f_equal. apply tab_ext. intros x Hx. unfold normalised. f_equal; [|apply rsum_ext; intros y Hy]; unfold allOf; cbn; ring. }
        rewrite E3, <- seq_shift, map_map. apply map_ext. intros i. unfold arrOf. f_equal. apply tab_ext. intros x Hx. unfold normalised.
        f_equal; [|apply rsum_ext; intros y Hy]; cbn [firstn]; rewrite allOf_cons; ring.
      + rewrite E4. destruct liks as [|l' liks]; f_equal.
        * assert (EZ : rsum N (fun x => g x * allOf [l] x) = Z) by (unfold Z; apply rsum_ext; intros x _; unfold allOf; cbn; ring). rewrite EZ. cbn. ring.
        * assert (EZ : rsum N (fun x => g x * allOf (l :: l' :: liks) x) = rsum N (fun x => g x * l x * allOf (l' :: liks) x)).
          { apply rsum_ext. intros x _. rewrite allOf_cons. ring. }
          rewrite EZ. set (W := rsum N (fun x => g x * l x * allOf (l' :: liks) x)) in *.
          replace (List.length (l :: l' :: liks) - 1)%nat with (Datatypes.S (List.length (l' :: liks) - 1)) by (cbn; lia). cbn [firstn].
          rewrite !ln_mult by (auto; try apply Rmult_lt_0_compat; auto; now apply Rinv_0_lt_compat). rewrite ln_Rinv by auto.
          destruct (in_dec Req_EM_T c (firstn (List.length (l' :: liks) - 1) ts)) as [I1|I1];
            destruct (in_dec Req_EM_T c (t :: firstn (List.length (l' :: liks) - 1) ts)) as [I2|I2]; try ring.
          { exfalso. apply I2. now right. }
          { exfalso. destruct I2 as [I2|I2]; auto. }
  Qed.

  (** Independent: after the first step the stored array is the first posterior, and it stays *)
  Let mi := TM KIndep hn [] hp [].
  Lemma indep_loop : forall segs liks, Forall2 good segs liks -> forall ts p lE,
    (List.length segs <= List.length ts)%nat -> (forall x, (x < N)%nat -> 0 <= p x) -> rsum N p = 1 ->
    Forall (fun l => 0 < rsum N (fun x => p x * l x)) liks ->
    exists w, fwdLoop e o mi segs ts (fin (tab N p)) false (PArr sh (fin (tab N p))) (Fin lE) = Ok w /\ fw_stop w = false /\
      map fst (fw_steps w) = map (fun l => arrOf N (normalised N (fun x => p x * l x))) liks /\
      fw_logEv w = Fin (lE + ln (Rprod (map (fun l => rsum N (fun x => p x * l x)) liks))).
  Proof.
    induction 1 as [|s l segs liks [Ep Hl] HF IH]; intros ts p lE Len Hp Sp Hpos.
    { eexists. split; [reflexivity|]. repeat split. cbn. now rewrite ln_1, Rplus_0_r. }
    destruct ts as [|t ts]; [cbn in Len; lia|]. inversion Hpos as [|? ? Hz Hpos']; subst.
    destruct (step_norm p 1 s l (conj Ep Hl) Hp Rlt_0_1 Hz) as (En & Ed & Ex). cbv zeta in En, Ed, Ex.
    assert (E1 : tab N (fun x => 1 * p x) = tab N p) by (apply tab_ext; intros; ring). rewrite E1, Rmult_1_l in *.
    cbn [fwdLoop]. change (@f0 R _) with 0. rewrite Ex, Ed. cbn [overwrite andb]. unfold computeForwardPrior. unfold mi at 1. cbn [step leafStep bind].
    assert (ER : resetPrior (with_prior e (PArr sh (fin (tab N p)))) = fin (tab N p)).
    { unfold resetPrior. cbn [e_prior with_prior]. rewrite asum_fin, Rsum_tab, Sp, adivs_fin, rdivs_tab by lra. f_equal. apply tab_ext. intros. field. }
    rewrite ER, En. set (Z := rsum N (fun x => p x * l x)) in *.
    assert (EL : xladd (Fin lE) (xln (L := R) (Fin Z)) = Fin (lE + ln Z)) by (cbn; unfold Rltb; destruct (Rlt_dec 0 Z); [reflexivity|contradiction]).
    rewrite EL. destruct (IH ts p (lE + ln Z)) as (w & W1 & W2 & W3 & W4); auto; [cbn in Len; lia|].
    rewrite W1. cbn [fw_cons bind]. eexists. split; [reflexivity|]. cbn [fw_stop fw_steps fw_logEv]. split; [exact W2|]. split; [cbn [map fst]; now rewrite W3|].
    rewrite W4. f_equal. cbn [map]. change (Rprod (?a :: ?b)) with (a * Rprod b). fold Z. rewrite ln_mult; auto; [ring|]. apply KernelProof.Rprod_pos.
    apply Forall_map. exact Hpos'.
  Qed.
End Loop.

(** the likelihood functions of all segments *)
Lemma goods S o m vs ts lik : configured S o m vs ts -> likelihoods S o vs lik ->
  Forall2 (good (envOf S o (om_prior o)) o (gridPoints vs)) (segments S o) (map lik (seq 0 (nSteps S o))).
Proof.
  intros C HL. unfold nSteps.
  assert (G : forall segs k, (forall i s, nth_error segs i = Some s -> nth_error (segments S o) (k + i) = Some s) ->
    Forall2 (good (envOf S o (om_prior o)) o (gridPoints vs)) segs (map lik (seq k (List.length segs)))).
  { induction segs as [|s segs IH]; intros k H; [constructor|]. cbn [List.length seq map]. constructor.
    - unfold good. rewrite (cfg_grid S o m vs ts C). apply HL. rewrite <- (Nat.add_0_r k). now apply H.
    - apply IH. intros i s' E. replace (Datatypes.S k + i)%nat with (k + Datatypes.S i)%nat by lia. now apply H. }
  apply G. auto.
Qed.
Lemma allOf_window lik n x : allOf (map lik (seq 0 n)) x = window lik 0 n x.
Proof. unfold allOf, window. rewrite map_map, Nat.sub_0_r. reflexivity. Qed.
Lemma array_start S o m vs ts sh a rho : configured S o m vs ts -> om_prior o = PArr sh a -> priorIs S vs o (om_prior o) rho ->
  (forall x, (x < gridPoints vs)%nat -> 0 <= rho x) /\ rsum (gridPoints vs) rho = 1 /\
  exists a', computePrior (envOf S o (om_prior o)) = Ok (fin (tab (gridPoints vs) (fun x => / cellVolume S * rho x)), PArr sh a', true).
Proof.
  intros C Ep P. destruct (prior_start S o m vs ts C _ _ P) as (Hn & p' & al & E & _). split; [exact Hn|]. split.
  - rewrite Ep in P. inversion P; subst. unfold normalised, Rdiv. rewrite rsum_scal_r. field. lra.
  - rewrite E. pose proof E as E'. unfold computePrior in E'. cbn [e_prior envOf] in E'. rewrite Ep in E'.
    destruct (list_eq_dec _ _ _) in E'; [|discriminate]. injection E' as _ <- <-. exists (priorDensity (envOf S o (PArr sh a)) a). do 3 f_equal. f_equal. apply tab_ext. intros. unfold Rdiv. ring.
Qed.

(** A change-point has no effect on the filtered posteriors if the prior is an array: they are those of the data so far, from the first one
    on. It only multiplies the evidence by the volume of a grid cell, if it lies before the last time step. *)
Theorem C59_change : forall S o hn hp c vs ts sh a rho lik,
  configured S o (TM KChange hn [HNum c] hp []) vs ts -> om_prior o = PArr sh a -> priorIs S vs o (om_prior o) rho -> likelihoods S o vs lik ->
  NoDup ts -> (0 < nSteps S o)%nat ->
  let N := gridPoints vs in let n := nSteps S o in
  0 < rsum N (fun x => rho x * window lik 0 n x) ->
  exists A, fit S true false = Ok A /\
    st_post A = map (fun i => Some (arrOf N (normalised N (fun x => rho x * window lik 0 (i + 1) x)))) (seq 0 n) /\
    ((forall i, (i + 1 < n)%nat -> timeOf ts o i <> c) -> st_logEv A = Fin (ln (rsum N (fun x => rho x * window lik 0 n x)))) /\
    ((exists i, (i + 1 < n)%nat /\ timeOf ts o i = c) -> st_logEv A = Fin (ln (rsum N (fun x => rho x * window lik 0 n x)) + ln (cellVolume S))).
Proof.
  intros S o hn hp c vs ts sh a rho lik C Ep P HL ND Hn N n Hpos. set (m := TM KChange hn [HNum c] hp []) in *.
  destruct (array_start S o m vs ts sh a rho C Ep P) as (Hr & Sr & a' & EP).
  pose proof (cfg_volpos S o m vs ts C) as VP. pose proof (cfg_vol S o (om_prior o)) as VO.
  set (tss := formatTimestamps ts (om_seglen o)). assert (Lt : List.length tss = n) by exact (cfg_ts_len S o m vs ts C).
  assert (NDt : NoDup tss).
  { unfold tss, formatTimestamps. rewrite <- (firstn_skipn (om_seglen o - 1) ts) in ND. clear - ND. revert ND. generalize (skipn (om_seglen o - 1) ts). intros q. induction (firstn (om_seglen o - 1) ts) as [|b l IH]; intros ND; [exact ND|]. inversion ND. auto. }
  destruct (change_loop (envOf S o (om_prior o)) o N (cfg_size S o m vs ts C _) hn hp c sh ltac:(rewrite VO; exact VP) (segments S o) (map lik (seq 0 n)) (goods S o m vs ts lik C HL)
    tss rho (/ cellVolume S) true a' 0) as (w & E1 & E2 & E3 & E4).
  { rewrite Lt. apply Nat.le_refl. } { exact Hr. } { now apply Rinv_0_lt_compat. }
  { rewrite (rsum_ext N _ (fun x => rho x * window lik 0 n x)); [exact Hpos|]. intros. now rewrite allOf_window. }
  { now left. }
  eexists. split; [|split].
  - eapply fit_intro with (w := w); [constructor|apply fo_forward; exact E2].
    + exact (cfg_check S o m vs ts C).
    + exists ts. split; [exact (cf_ts _ _ _ _ _ C)|reflexivity].
    + exists (fin (tab N (fun x => / cellVolume S * rho x))), (PArr sh a'), true. split; [exact EP|exact E1].
  - cbn [st_post set_results]. rewrite padNone_full; rewrite E3; [|rewrite map_length, seq_length, map_length, seq_length; reflexivity].
    rewrite map_map, map_length, seq_length. apply map_ext_in. intros i Hi. apply in_seq in Hi. apply (f_equal Some). unfold arrOf. apply (f_equal (map Fin)). apply tab_ext. intros x Hx.
    assert (EF : firstn (Datatypes.S i) (map lik (seq 0 n)) = map lik (seq 0 (i + 1))).
    { rewrite firstn_map. f_equal. replace n with ((i + 1) + (n - (i + 1)))%nat by lia. rewrite seq_app, firstn_app, seq_length. replace (Datatypes.S i - (i + 1))%nat with 0%nat by lia.
      change (firstn 0 (seq (0 + (i + 1)) (n - (i + 1)))) with (@nil nat). rewrite app_nil_r. apply firstn_all2. rewrite seq_length. lia. }
    unfold normalised. f_equal; [|apply rsum_ext; intros y Hy]; rewrite EF, allOf_window; reflexivity.
  - assert (EW : rsum N (fun x => rho x * allOf (map lik (seq 0 n)) x) = rsum N (fun x => rho x * window lik 0 n x)) by (apply rsum_ext; intros; now rewrite allOf_window).
    rewrite EW, VO in E4. set (W := rsum N (fun x => rho x * window lik 0 n x)) in *. rewrite map_length, seq_length in E4.
    assert (ML : match map lik (seq 0 n) with [] => 0 | _ :: _ => 0 + ln (/ cellVolume S * W) + (if in_dec Req_EM_T c (firstn (n - 1) tss) then ln (cellVolume S) else 0) end =
      ln W - ln (cellVolume S) + (if in_dec Req_EM_T c (firstn (n - 1) tss) then ln (cellVolume S) else 0)).
    { assert (ES : exists b l, map lik (seq 0 n) = b :: l) by (replace n with (Datatypes.S (n - 1)) by (unfold n in *; lia); cbn [seq map]; eauto). destruct ES as (b & l & ->). rewrite ln_mult by (auto; now apply Rinv_0_lt_compat). rewrite ln_Rinv by auto. ring. }
    rewrite ML in E4. clear ML.
    assert (EV : evOf S w = Fin (ln W + (if in_dec Req_EM_T c (firstn (n - 1) tss) then ln (cellVolume S) else 0))).
    { unfold evOf. rewrite E4. assert (V : volOf S = cellVolume S) by (rewrite <- VO; reflexivity). rewrite V. cbn. unfold Rltb. destruct (Rlt_dec 0 (cellVolume S)); [|contradiction]. cbn.
      f_equal. ring. }
    assert (IFF : In c (firstn (n - 1) tss) <-> exists i, (i + 1 < n)%nat /\ timeOf ts o i = c).
    { split.
      - intros I. apply (In_nth _ _ 0) in I as (i & Hi & Ei). rewrite firstn_length, Lt in Hi. exists i. split; [lia|]. rewrite <- (cfg_ts_nth o ts i). fold tss. rewrite <- Ei.
        rewrite <- (firstn_skipn (n - 1) tss) at 1. rewrite app_nth1 by (rewrite firstn_length; lia). reflexivity.
      - intros (i & Hi & Ei). rewrite <- Ei, <- (cfg_ts_nth o ts i). fold tss. rewrite <- (firstn_skipn (n - 1) tss) at 1. rewrite app_nth1 by (rewrite firstn_length; lia). apply nth_In. rewrite firstn_length. lia. }
    cbn [st_logEv set_results]. rewrite EV. destruct (in_dec Req_EM_T c (firstn (n - 1) tss)) as [I|I]; split; intros H.
    + exfalso. apply IFF in I as (i & Hi & Ei). now apply (H i Hi).
    + reflexivity.
    + now rewrite Rplus_0_r.
    + exfalso. now apply I, IFF.
Qed.

(** Independent observations: the array is overwritten with the first posterior, which is the prior of all later observations. *)
Theorem C59_independent : forall S o hn hp vs ts sh a rho lik,
  configured S o (TM KIndep hn [] hp []) vs ts -> om_prior o = PArr sh a -> priorIs S vs o (om_prior o) rho -> likelihoods S o vs lik ->
  (0 < nSteps S o)%nat ->
  let N := gridPoints vs in let n := nSteps S o in
  let first := normalised N (fun x => rho x * lik 0%nat x) in
  0 < rsum N (fun x => rho x * lik 0%nat x) -> (forall i, (0 < i < n)%nat -> 0 < rsum N (fun x => first x * lik i x)) ->
  exists A, fit S true false = Ok A /\
    st_post A = Some (arrOf N first) :: map (fun i => Some (arrOf N (normalised N (fun x => first x * lik i x)))) (seq 1 (n - 1)) /\
    st_logEv A = Fin (ln (rsum N (fun x => rho x * lik 0%nat x)) + ln (Rprod (map (fun i => rsum N (fun x => first x * lik i x)) (seq 1 (n - 1))))).
Proof.
  intros S o hn hp vs ts sh a rho lik C Ep P HL Hn N n first Hpos Hpos'. set (m := TM KIndep hn [] hp []) in *.
  destruct (array_start S o m vs ts sh a rho C Ep P) as (Hr & Sr & a' & EP).
  pose proof (cfg_volpos S o m vs ts C) as VP. pose proof (cfg_vol S o (om_prior o)) as VO.
  set (tss := formatTimestamps ts (om_seglen o)). assert (Lt : List.length tss = n) by exact (cfg_ts_len S o m vs ts C).
  pose proof (goods S o m vs ts lik C HL) as G. fold n N in G. set (e := envOf S o (om_prior o)) in *.
  assert (Esz : e_size e = N) by exact (cfg_size S o m vs ts C _).
  destruct (segments S o) as [|s segs] eqn:Es; [unfold n, nSteps in Hn; rewrite Es in Hn; cbn in Hn; lia|].
  destruct tss as [|t tss'] eqn:Et; [cbn in Lt; lia|].
  replace n with (Datatypes.S (n - 1)) in G by lia. cbn [seq map] in G. inversion G as [|? ? ? ? G0 G']; subst.
  pose proof (step_norm e o N Esz rho (/ cellVolume S) s (lik 0%nat) G0 Hr ltac:(now apply Rinv_0_lt_compat) Hpos) as (En & Ed & Ex).
  set (Z := rsum N (fun x => rho x * lik 0%nat x)) in *.
  assert (Hf : forall x, (x < N)%nat -> 0 <= first x).
  { intros x Hx. unfold first, normalised. fold Z. apply Rmult_le_pos; [|left; now apply Rinv_0_lt_compat]. apply Rmult_le_pos; [now apply Hr|now apply G0]. }
  assert (Sf : rsum N first = 1) by (unfold first, normalised, Rdiv; rewrite rsum_scal_r; fold Z; field; lra).
  assert (ER : resetPrior (with_prior e (PArr sh (arrOf N first))) = fin (tab N first)).
  { unfold resetPrior, arrOf. cbn [e_prior with_prior]. rewrite asum_fin, Rsum_tab, Sf, adivs_fin, rdivs_tab by lra. f_equal. apply tab_ext. intros. field. }
  assert (Pz : 0 < / cellVolume S * Z) by (apply Rmult_lt_0_compat; auto; now apply Rinv_0_lt_compat).
  destruct (indep_loop e o N Esz hn hp sh segs (map lik (seq 1 (n - 1))) G' tss' first (0 + ln (/ cellVolume S * Z))) as (w & W1 & W2 & W3 & W4); auto.
  { apply Forall2_len in G'. rewrite map_length, seq_length in G'. cbn in Lt. lia. }
  { apply Forall_map, Forall_forall. intros i Hi. apply in_seq in Hi. apply Hpos'. lia. }
  assert (EF : fwdLoop e o m (segments S o) tss (fin (tab N (fun x => / cellVolume S * rho x))) true (PArr sh a') (Fin l0) =
    Ok {| fw_steps := (arrOf N first, Fin (/ cellVolume S * Z)) :: fw_steps w; fw_logEv := fw_logEv w; fw_prior := fw_prior w; fw_stop := fw_stop w |}).
  { rewrite Es, Et. cbn [fwdLoop]. change (@f0 R _) with 0. rewrite Ex, Ed. cbn [overwrite andb]. unfold computeForwardPrior. unfold m at 1. cbn [step leafStep bind].
    fold first. rewrite ER, En. change (returnsArgument m t) with false.
    replace (xladd (Fin l0) (xln (L := R) (Fin (/ cellVolume S * Z)))) with (Fin (0 + ln (/ cellVolume S * Z))).
    2:{ cbn. unfold Rltb. destruct (Rlt_dec 0 (/ cellVolume S * Z)); [reflexivity|contradiction]. }
    change (arrOf N first) with (fin (tab N first)). unfold m. rewrite W1. reflexivity. }
  eexists. split; [|split].
  - eapply fit_intro with (w := {| fw_steps := (arrOf N first, Fin (/ cellVolume S * Z)) :: fw_steps w; fw_logEv := fw_logEv w; fw_prior := fw_prior w; fw_stop := fw_stop w |}); [constructor|apply fo_forward; exact W2].
    + exact (cfg_check S o m vs ts C).
    + exists ts. split; [exact (cf_ts _ _ _ _ _ C)|reflexivity].
    + exists (fin (tab N (fun x => / cellVolume S * rho x))), (PArr sh a'), true. split; [exact EP|]. exact EF.
  - cbn [st_post set_results fw_steps map fst]. rewrite W3. rewrite padNone_full.
    + cbn [map]. f_equal. rewrite !map_map. reflexivity.
    + cbn [List.length]. rewrite !map_length, seq_length. change (segsOf S o) with (segments S o). fold n. unfold n, nSteps in *. lia.
  - cbn [st_logEv set_results]. unfold evOf. cbn [fw_logEv]. rewrite W4. assert (V : volOf S = cellVolume S) by (rewrite <- VO; reflexivity). rewrite V. cbn. unfold Rltb. destruct (Rlt_dec 0 (cellVolume S)); [|contradiction]. cbn.
    rewrite map_map. rewrite ln_mult by (auto; now apply Rinv_0_lt_compat). rewrite ln_Rinv by auto. f_equal. ring.
Qed.

(** Non-vacuity: three coins, prior 1:2:1 as array; change-point after the first datum, and independent observations. *)
Definition arrayPrior : priorSpec R := PArr [3%nat] (arrOf 3 (fun x => nth x [1; 2; 1] 0)).
Example C59_ex : forall m, m = change "c" 0 \/ m = indep ->
  exists S, setup (data [1; 0; 1]%Z) None (coin arrayPrior) m = Ok S /\
  let rho := normalised 3 (fun x => nth x [1; 2; 1] 0) in let lik := coinLik [1; 0; 1]%Z in let N := gridPoints [quarters] in let first := normalised N (fun x => rho x * lik 0%nat x) in
  configured S (coin arrayPrior) m [quarters] (times [1; 0; 1]%Z) /\ priorIs S [quarters] (coin arrayPrior) (om_prior (coin arrayPrior)) rho /\
  likelihoods S (coin arrayPrior) [quarters] lik /\ NoDup (times [1; 0; 1]%Z) /\ nSteps S (coin arrayPrior) = 3%nat /\
  0 < rsum N (fun x => rho x * window lik 0 3 x) /\ 0 < rsum N (fun x => rho x * lik 0%nat x) /\ (forall i, (0 < i < 3)%nat -> 0 < rsum N (fun x => first x * lik i x)).
Proof.
  intros m Hm0. assert (Hm : isBreak m = false) by (destruct Hm0; subst; reflexivity).
  assert (NDn : NoDup (allNames m)) by (destruct Hm0; subst; cbn; repeat constructor; cbn; tauto).
  destruct (coin_setup [1; 0; 1]%Z arrayPrior m Hm) as (S & E & _). exists S. split; [exact E|]. cbv zeta.
  assert (Hb : bits [1; 0; 1]%Z) by (repeat constructor; auto). destruct (coin_likelihoods _ _ _ _ E Hm Hb) as [HL HP].
  assert (Hr : forall x, (x < 3)%nat -> 0 < normalised 3 (fun x => nth x [1; 2; 1] 0) x) by (intros [|[|[|x]]] Hx; try lia; unfold normalised; cbn; lra).
  assert (Pos : forall f : nat -> R, (forall x, (x < 3)%nat -> 0 < f x) -> 0 < rsum (gridPoints [quarters]) f).
  { intros f H. change (gridPoints [quarters]) with 3%nat. cbn. pose proof (H 0%nat ltac:(lia)). pose proof (H 1%nat ltac:(lia)). pose proof (H 2%nat ltac:(lia)). lra. }
  assert (Pf : 0 < rsum (gridPoints [quarters]) (fun x => normalised 3 (fun x => nth x [1; 2; 1] 0) x * coinLik [1; 0; 1]%Z 0 x)).
  { apply Pos. intros x Hx. apply Rmult_lt_0_compat; [now apply Hr|apply HP; cbn; lia]. }
  split; [apply coin_configured; auto; discriminate|]. split.
  { cbn [om_prior coin coinOM]. unfold arrayPrior. apply (pri_arr S [quarters] (coin arrayPrior) (fun x => nth x [1; 2; 1] 0)).
    - intros [|[|[|[|x]]]] _; cbn; lra.
    - cbn. lra.
    - cbn. lra. }
  split; [exact HL|]. split.
  { unfold times. cbn. repeat constructor; cbn; intros X; repeat destruct X as [X|X]; try lra; auto. }
  split; [exact (coin_steps _ _ _ _ E Hm)|]. split; [|split; [exact Pf|]].
  - apply Pos. intros x Hx. apply Rmult_lt_0_compat; [now apply Hr|]. unfold window. cbn [seq Nat.sub map]. apply KernelProof.Rprod_pos. repeat constructor; apply HP; cbn; lia.
  - intros i Hi. apply Pos. intros x Hx. apply Rmult_lt_0_compat; [|apply HP; cbn; lia]. unfold normalised at 1. apply Rdiv_lt_0_compat; [|exact Pf]. apply Rmult_lt_0_compat; [now apply Hr|apply HP; cbn; lia].
Qed.

(** The claim of C09 for array priors is false: executed with the same prior as array and as function. *)
Theorem C59_array_refuted : exists SA SF SS A B C : study Q Q,
  setup (data [1; 0]%Z) None (coinOM quarters (PArr [3%nat] [Fin 1; Fin 2; Fin 1]%Q)) (change "c" 0%Q) = Ok SA /\
  setup (data [1; 0]%Z) None (coinOM quarters (PFun (fun _ => [Fin 1; Fin 2; Fin 1]%Q))) (change "c" 0%Q) = Ok SF /\
  setup (data [1; 0]%Z) None (coinOM quarters (PArr [3%nat] [Fin 1; Fin 2; Fin 1]%Q)) static = Ok SS /\
  fit SA true false = Ok A /\ fit SF true false = Ok B /\ fit SS true false = Ok C /\ st_post A <> st_post B /\ st_post A = st_post C.
Proof.
  assert (E : (let* SA := setup (L := Q) (data [1; 0]%Z) None (coinOM quarters (PArr [3%nat] [Fin 1; Fin 2; Fin 1]%Q)) (change "c" 0%Q) in
    let* SF := setup (L := Q) (data [1; 0]%Z) None (coinOM quarters (PFun (fun _ => [Fin 1; Fin 2; Fin 1]%Q))) (change "c" 0%Q) in
    let* SS := setup (L := Q) (data [1; 0]%Z) None (coinOM quarters (PArr [3%nat] [Fin 1; Fin 2; Fin 1]%Q)) static in
    let* A := fit SA true false in let* B := fit SF true false in let* C := fit SS true false in Ok (st_post A, st_post B, st_post C))%res =
    Ok ([Some [Fin (1 # 8); Fin (1 # 2); Fin (3 # 8)]; Some [Fin (3 # 14); Fin (4 # 7); Fin (3 # 14)]],
        [Some [Fin (1 # 8); Fin (1 # 2); Fin (3 # 8)]; Some [Fin (3 # 8); Fin (1 # 2); Fin (1 # 8)]],
        [Some [Fin (1 # 8); Fin (1 # 2); Fin (3 # 8)]; Some [Fin (3 # 14); Fin (4 # 7); Fin (3 # 14)]])%Q) by (vm_compute; reflexivity).
  run E. do 6 eexists. repeat (split; [eassumption|]). split; congruence.
Qed.
