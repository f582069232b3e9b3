(** Repeated fits and the scale of priors: C10, C11. *)
From Coq Require Import List ZArith QArith Reals Lra Lia Arith Bool String.
From Verif Require Import Base.Num Base.Exn Base.Arr Base.RSum Base.Lift Model.Helper Model.Tm Model.HyperParams Model.Study Model.Api
  Spec.Hmm Spec.Kernel Spec.Config Spec.Dist Spec.Data Proof.KernelProof Proof.FitThms Proof.FitInv Proof.DataProof Proof.PriorProof Proof.SplitProof Props.Ex Props.ExR.
Import ListNotations.
Local Open Scope string_scope.
Local Open Scope R_scope.

(** ** C10 *)
(** Any prior that is not an array, any transition model, any kind of fit: the observation model (and with it the prior)
    is unchanged, the same fit again gives the same results, and any other kind of fit gives what it would have given
    without the first one. *)
Theorem C10_refit : forall (F L : Type) (NF : Num F) (NL : LogNum F L) (S : study F L) o fo eo S1, fit S fo eo = Ok S1 -> st_om S = Some o ->
  (forall sh a, om_prior o <> PArr sh a) ->
  st_om S1 = Some o /\ st_tm S1 = st_tm S /\ st_raw S1 = st_raw S /\ st_rawTs S1 = st_rawTs S /\ st_grid S1 = st_grid S /\
  (exists S2, fit S1 fo eo = Ok S2 /\ sameResults S1 S2) /\
  (forall fo' eo' A, fit S fo' eo' = Ok A ->
     exists B, fit S1 fo' eo' = Ok B /\ st_logEv A = st_logEv B /\ st_local A = st_local B /\ st_fmtTs A = st_fmtTs B /\
       (eo' = false -> st_post A = st_post B) /\ (eo' = false -> st_logEv A <> NInf -> st_means A = st_means B)).
Proof.
  intros F L NF NL S o fo eo S1 E Ho Hp. apply fit_inv in E as (o' & m & ts & w & FP & FO).
  assert (o' = o) as ->.
  { pose proof (fp_check _ _ _ _ _ FP) as EC. unfold checkConsistency in EC. destruct (Nat.eqb _ _); [discriminate|]. rewrite Ho in EC.
    destruct (st_tm S); [|discriminate]. destruct (hasDup _); [discriminate|]. congruence. }
  assert (NA : notArray (om_prior o)) by (destruct (om_prior o) as [|sh a| | |]; cbn; auto; exact (Hp sh a eq_refl)).
  assert (Ew : fw_prior w = om_prior o) by exact (fwdPart_prior _ _ _ _ _ FP NA).
  pose proof (fitOut_again _ _ _ _ _ _ _ _ FP FO Ew) as FP1.
  assert (G : forall fo' eo' A, fitOut S o m ts w fo' eo' A -> exists B, fitOut S1 o m ts w fo' eo' B /\
     st_logEv A = st_logEv B /\ st_local A = st_local B /\ st_fmtTs A = st_fmtTs B /\
     (eo' = false -> st_post A = st_post B) /\ (eo' = false -> st_logEv A <> NInf -> st_means A = st_means B) /\
     (st_post S1 = st_post A -> st_means S1 = st_means A -> st_post A = st_post B /\ st_means A = st_means B)).
  { assert (EQ : segsOf S1 o = segsOf S o /\ volOf S1 = volOf S /\ st_grid S1 = st_grid S /\
         envOf S1 o (om_prior o) = envOf S o (om_prior o)) by (destruct FO; repeat split).
    destruct EQ as (Q1 & Q2 & Q3 & Q4).
    intros fo' eo' A OA. destruct OA.
    - eexists. split; [now constructor|]. unfold fwdLocals. rewrite Q1, Q2. cbn. repeat split; auto; try congruence; destruct eo0; auto; congruence.
    - eexists. split; [now constructor|]. unfold fwdLocals, evOf. rewrite Q1, Q2. cbn. repeat split; auto; congruence.
    - eexists. split; [now constructor|]. unfold fwdLocals, evOf. rewrite Q1, Q2, Q3. cbn. repeat split; auto; congruence.
    - eexists. split; [apply fo_full; [auto|]; unfold itemsOf, betaStart; rewrite Q1, Q4; eassumption|].
      unfold mergeLocals, fwdLocals, evOf. rewrite Q1, Q2, Q3. cbn. repeat split; auto; congruence.
    - eexists. split; [apply fo_bstop; [auto|]; unfold itemsOf, betaStart; rewrite Q1, Q4; eassumption|].
      unfold mergeLocals, fwdLocals, evOf. rewrite Q1, Q2. cbn. repeat split; auto; congruence. }
  assert (Om : st_om S1 = Some o) by (destruct FO; cbn; rewrite Ew, om_set_same; reflexivity).
  split; [exact Om|]. do 4 (split; [destruct FO; reflexivity|]). split.
  - destruct (G _ _ _ FO) as (S2 & O2 & e1 & e2 & e3 & _ & _ & e4). exists S2. split; [now apply fit_intro with (o := o) (m := m) (ts := ts) (w := w)|].
    destruct e4 as [e4 e5]; auto. repeat split; auto.
  - intros fo' eo' A EA. apply fit_inv in EA as (o' & m' & ts' & w' & FP' & FO').
    destruct (fwdPart_fun _ _ _ _ _ _ _ _ _ FP FP') as (-> & -> & -> & ->).
    destruct (G _ _ _ FO') as (B & OB & e1 & e2 & e3 & e4 & e5 & _). exists B. split; [now apply fit_intro with (o := o) (m := m) (ts := ts) (w := w)|].
    repeat split; auto.
Qed.


(** executed, with a transition model that is not linear *)
Example C10_executed :
  (let* S0 := setup (L := Q) (data [1; 0; 1]%Z) None (coinOM quarters slope) (comb [notEq2; change "c" 1%Q]) in
   let* S1 := fit S0 false false in let* S2 := fit S1 false false in Ok (st_logEv S1, st_logEv S2, st_post S1, st_post S2))%res =
  Ok (Fin (667037 # 12010752), Fin (667037 # 12010752),
     [Some [Fin (50 # 501); Fin (1 # 501); Fin (150 # 167)]; Some [Fin (9600 # 17639); Fin (8000 # 17639); Fin (39 # 17639)];
      Some [Fin (1 # 14); Fin (2 # 7); Fin (9 # 14)]],
     [Some [Fin (50 # 501); Fin (1 # 501); Fin (150 # 167)]; Some [Fin (9600 # 17639); Fin (8000 # 17639); Fin (39 # 17639)];
      Some [Fin (1 # 14); Fin (2 # 7); Fin (9 # 14)]])%Q.
Proof. vm_compute. reflexivity. Qed.
Example C10_example : exists S0 S1 : study Q Q,
  setup (data [1; 0; 1]%Z) None (coinOM quarters slope) (comb [notEq2; change "c" 1%Q]) = Ok S0 /\
  fit S0 false false = Ok S1 /\ st_om S0 = Some (coinOM quarters slope) /\ (forall sh a, om_prior (coinOM (F := Q) quarters slope) <> PArr sh a).
Proof.
  assert (E : (let* S0 := setup (L := Q) (data [1; 0; 1]%Z) None (coinOM quarters slope) (comb [notEq2; change "c" 1%Q]) in
     let* S1 := fit S0 false false in Ok (st_om S0))%res = Ok (Some (coinOM (F := Q) quarters slope))) by (vm_compute; reflexivity).
  run E. do 2 eexists. repeat (split; [eassumption|]). discriminate.
Qed.

(** Array priors: the array of the observation model is overwritten by the forward pass as long as the transition model
    hands back its argument.  After a forward-only fit without warning it is the filtering posterior of the first step
    after which a new array was created, or of the last step. *)
Theorem C10_array_overwritten : forall (F L : Type) (NF : Num F) (NL : LogNum F L) (S : study F L) o m sh a S1,
  st_om S = Some o -> st_tm S = Some m -> om_prior o = PArr sh a ->
  fit S true false = Ok S1 -> st_warn S1 = st_warn S -> st_fmt S1 <> [] ->
  exists o1 y, st_om S1 = Some o1 /\ om_prior o1 = PArr sh y /\
    nth_error (st_post S1) (Nat.min (heldFor m (st_fmtTs S1)) (List.length (st_fmt S1) - 1)) = Some (Some y).
Proof.
  intros F L NF NL S o m sh a S1 Ho Hm Hp E Hw Hf. apply fit_inv in E as (o' & m' & ts & w & FP & FO).
  assert (o' = o /\ m' = m) as [-> ->].
  { pose proof (fp_check _ _ _ _ _ FP) as EC. unfold checkConsistency in EC. destruct (Nat.eqb _ _); [discriminate|]. rewrite Ho, Hm in EC.
    destruct (hasDup _); [discriminate|]. split; congruence. }
  destruct FP as [_ _ (a0 & p0 & al0 & EP & EW)].
  assert (ES : fw_stop w = false) by (inversion FO; subst; auto; cbn in Hw; exfalso; lia).
  assert (R1 : st_om S1 = Some (om_set_prior o (fw_prior w)) /\ st_fmt S1 = segsOf S o /\ st_fmtTs S1 = ts /\
     st_post S1 = padNone (List.length (segsOf S o)) (map fst (fw_steps w))) by (inversion FO; subst; repeat split; congruence).
  destruct R1 as (R1 & R2 & R3 & R4). rewrite R1, R2, R3, R4 in *.
  unfold computePrior in EP. cbn [e_prior envOf] in EP. rewrite Hp in EP. destruct (list_eq_dec _ _ _); [|discriminate]. inversion EP; subst a0 p0 al0.
  unfold segsOf in *. destruct (formatData _ _) as [|s segs] eqn:EF; [congruence|].
  destruct (fwd_array _ o m sh segs ts _ _ _ w s EW ES) as (y & Ey & Epr).
  eexists. exists y. split; [reflexivity|]. split; [rewrite Epr; destruct o; reflexivity|].
  cbn [List.length]. replace (Datatypes.S (List.length segs) - 1)%nat with (List.length segs) by lia.
  unfold padNone. rewrite nth_error_app1.
  - rewrite (map_nth_error _ _ _ Ey). reflexivity.
  - rewrite map_length. apply nth_error_Some. congruence.
Qed.
(** Static model: the prior array becomes the posterior of the last step *)
Theorem C10_static_array : forall (F L : Type) (NF : Num F) (NL : LogNum F L) (S : study F L) o hn hv hp ms sh a S1,
  st_om S = Some o -> st_tm S = Some (TM KStatic hn hv hp ms) -> om_prior o = PArr sh a ->
  fit S true false = Ok S1 -> st_warn S1 = st_warn S -> st_fmt S1 <> [] -> (List.length (st_fmt S1) <= List.length (st_fmtTs S1))%nat ->
  exists o1 y, st_om S1 = Some o1 /\ om_prior o1 = PArr sh y /\ nth_error (st_post S1) (List.length (st_fmt S1) - 1) = Some (Some y).
Proof.
  intros F L NF NL S o hn hv hp ms sh a S1 Ho Hm Hp E Hw Hf Hl.
  destruct (C10_array_overwritten F L NF NL S o _ sh a S1 Ho Hm Hp E Hw Hf) as (o1 & y & A1 & A2 & A3). exists o1, y. split; [exact A1|]. split; [exact A2|].
  assert (H : forall ts : list F, heldFor (TM KStatic hn hv hp ms) ts = List.length ts) by (induction ts; cbn; auto).
  rewrite H in A3. rewrite Nat.min_r in A3 by lia. exact A3.
Qed.
Example C10_array_executed :
  (let* S0 := setup (L := Q) (data [1; 1]%Z) None (coinOM quarters (PArr [3%nat] [Fin 1; Fin 2; Fin 1]%Q)) static in
   let* S1 := fit S0 true false in Ok (option_map om_prior (st_om S1), st_post S1, st_warn S0, st_warn S1, st_fmt S1, st_fmtTs S1))%res =
  Ok (Some (PArr [3%nat] [Fin (1 # 18); Fin (4 # 9); Fin (1 # 2)]),
      [Some [Fin (1 # 8); Fin (1 # 2); Fin (3 # 8)]; Some [Fin (1 # 18); Fin (4 # 9); Fin (1 # 2)]], 0%nat, 0%nat, [Seg1 [Fin 1]; Seg1 [Fin 1]], [0; 1])%Q.
Proof. vm_compute. reflexivity. Qed.
(** so that the second fit gives something else *)
Theorem C10_array_refuted : exists S0 S1 S2 : study Q Q,
  setup (data [1; 1]%Z) None (coinOM quarters (PArr [3%nat] [Fin 1; Fin 2; Fin 1]%Q)) static = Ok S0 /\
  fit S0 true false = Ok S1 /\ fit S1 true false = Ok S2 /\ st_logEv S2 <> st_logEv S1 /\ st_post S2 <> st_post S1.
Proof.
  assert (E : (let* S0 := setup (L := Q) (data [1; 1]%Z) None (coinOM quarters (PArr [3%nat] [Fin 1; Fin 2; Fin 1]%Q)) static in
     let* S1 := fit S0 true false in let* S2 := fit S1 true false in Ok (st_logEv S1, st_logEv S2, st_post S1, st_post S2))%res =
     Ok (Fin (9 # 32), Fin (19 # 192), [Some [Fin (1 # 8); Fin (1 # 2); Fin (3 # 8)]; Some [Fin (1 # 18); Fin (4 # 9); Fin (1 # 2)]],
      [Some [Fin (1 # 44); Fin (4 # 11); Fin (27 # 44)]; Some [Fin (1 # 114); Fin (16 # 57); Fin (27 # 38)]])%Q) by (vm_compute; reflexivity).
  run E. do 3 eexists. repeat (split; [eassumption|]). split; congruence.
Qed.

(** ** C11 *)
(** Priors (both arrays, both functions, or both functions with constant value) that differ by a positive factor, the
    values of neither of which sum to exactly one: the same results or the same exception *)
Theorem C11_scale : forall S o k p q a b fo eo,
  st_om S = Some o -> om_prior o = p -> sameSort p q -> customValues S p = Some a -> customValues S q = Some b ->
  0 < k -> scaledBy k a b -> asum a <> Fin 1 -> asum b <> Fin 1 -> natprod (st_shape S) <> O ->
  sameOutcome (fit S fo eo) (fit (replacePrior S q) fo eo).
Proof.
  intros S o k p q a b fo eo Ho Hp SS Ea Eb Hk Es Sa Sb HN.
  destruct (st_tm S) as [m|] eqn:Hm; [|unfold fit, checkConsistency; cbn; rewrite Ho, Hm; cbn; destruct (Nat.eqb _ _); reflexivity].
  destruct (st_rawTs S) as [rts|] eqn:Ht.
  2:{ unfold fit, checkConsistency; cbn; rewrite Ho, Hm; cbn; destruct (Nat.eqb _ _); [reflexivity|]. destruct (hasDup _); [reflexivity|]. cbn.
      rewrite Ht. reflexivity. }
  set (e := envOf S o (om_prior o)).
  assert (De : priorDensity e b = priorDensity e a) by (rewrite Es; apply priorDensity_scaled; auto; now rewrite <- Es).
  assert (NotArr : forall x, notArray p -> notArray q -> computePrior e = Ok (x, p, false) -> computePrior (with_prior e q) = Ok (x, q, false) ->
     resetPrior (with_prior e p) = resetPrior (with_prior e q) -> sameOutcome (fit S fo eo) (fit (replacePrior S q) fo eo)).
  { intros x Np Nq P1 P2 ER.
    assert (Ee : with_prior e p = e) by (unfold e; rewrite Hp; reflexivity).
    pose proof (fwd_shape e o m p q ER Np Nq (segsOf S o) (formatTimestamps rts (om_seglen o)) x (Fin 0)) as EF. rewrite Ee in EF.
    destruct (fwdLoop (with_prior e q) o m _ _ x false q (Fin 0)) as [w|er] eqn:EW.
    - cbn [bind] in EF. pose proof (fwd_prior_same _ o m _ _ _ _ _ _ _ (or_introl Nq) EW) as Hq.
      eapply (fit_two S o m _ rts q fo eo Ho Hm Ht eq_refl); [exact P1|exact P2|exact EF|exact EW|reflexivity..|].
      cbn [fw_prior]. rewrite Hq. now apply bwd_shape.
    - unfold fit, checkConsistency. cbn [replacePrior st_om st_raw st_tm st_rawTs]. rewrite Ho, Hm. cbn [option_map]. destruct (Nat.eqb _ _); [reflexivity|].
      destruct (hasDup _); [reflexivity|]. cbn [bind]. rewrite Ht. rewrite envOf_prior. fold e.
      replace (om_prior (om_set_prior o q)) with q by (destruct o; reflexivity).
      replace (om_seglen (om_set_prior o q)) with (om_seglen o) by (destruct o; reflexivity). rewrite P1, P2. cbn [bind]. rewrite fwd_om_prior.
      unfold segsOf in *. change l0 with 0. rewrite EF, EW. reflexivity. }
  destruct p as [|sh x|f|c|], q as [|sh' y|g|d|]; cbn in SS; try tauto.
  - subst sh'. cbn in Ea, Eb. inversion Ea; subst x. inversion Eb; subst y. destruct (list_eq_dec Nat.eq_dec sh (st_shape S)) as [Hsh|Hsh].
    + assert (P1 : computePrior e = Ok (priorDensity e a, PArr sh (priorDensity e a), true)).
      { unfold computePrior, e. cbn [e_prior envOf e_shape]. rewrite Hp. destruct (list_eq_dec _ _ _); [reflexivity|tauto]. }
      assert (P2 : computePrior (with_prior e (PArr sh b)) = Ok (priorDensity e a, PArr sh (priorDensity e a), true)).
      { unfold computePrior, e. cbn [e_prior envOf with_prior e_shape]. destruct (list_eq_dec _ _ _); [|tauto]. fold e. rewrite <- De. reflexivity. }
      destruct (fwdLoop e o m (segsOf S o) (formatTimestamps rts (om_seglen o)) (priorDensity e a) true (PArr sh (priorDensity e a)) (Fin 0)) as [w|er] eqn:EW.
      * eapply (fit_two S o m _ rts _ fo eo Ho Hm Ht eq_refl); [exact P1|exact P2|exact EW| |reflexivity..].
        fold e. change e with (with_prior e (om_prior o)) in EW. rewrite (fwd_env e o m (om_prior o) (PArr sh b)) in EW. exact EW.
      * unfold fit, checkConsistency. cbn [replacePrior st_om st_raw st_tm st_rawTs]. rewrite Ho, Hm. cbn [option_map]. destruct (Nat.eqb _ _); [reflexivity|].
        destruct (hasDup _); [reflexivity|]. cbn [bind]. rewrite Ht. rewrite envOf_prior. fold e.
        replace (om_prior (om_set_prior o (PArr sh b))) with (PArr sh b) by (destruct o; reflexivity).
        replace (om_seglen (om_set_prior o (PArr sh b))) with (om_seglen o) by (destruct o; reflexivity). rewrite P1, P2. cbn [bind]. rewrite fwd_om_prior.
        unfold segsOf in *. change l0 with 0. rewrite EW. rewrite (fwd_env e o m (PArr sh b) (om_prior o)).
        change (with_prior e (om_prior o)) with e. rewrite EW. reflexivity.
    + unfold fit, checkConsistency. cbn [replacePrior st_om st_raw st_tm st_rawTs]. rewrite Ho, Hm. cbn [option_map]. destruct (Nat.eqb _ _); [reflexivity|].
      destruct (hasDup _); [reflexivity|]. cbn [bind]. rewrite Ht. rewrite envOf_prior. fold e.
      replace (om_prior (om_set_prior o (PArr sh b))) with (PArr sh b) by (destruct o; reflexivity).
      unfold computePrior. cbn [e_prior with_prior e_shape]. unfold e at 1. cbn [e_prior envOf]. rewrite Hp. unfold e. cbn [e_shape envOf].
      destruct (list_eq_dec _ _ _); [tauto|]. reflexivity.
  - cbn in Ea, Eb. inversion Ea; subst a. inversion Eb; subst b. apply (NotArr (priorDensity e (f (st_grid S)))); cbn; auto.
    + unfold computePrior, e. cbn [e_prior envOf e_grid]. now rewrite Hp.
    + rewrite <- De. reflexivity.
    + eapply (resetPrior_scaled e (PFun f) (PFun g) k); cbn; auto.
  - cbn in Ea, Eb. inversion Ea; subst a. inversion Eb; subst b. apply (NotArr (priorDensity e (repeat (Fin c) (natprod (st_shape S))))); cbn; auto.
    + unfold computePrior, e. cbn [e_prior envOf e_grid]. now rewrite Hp.
    + rewrite <- De. reflexivity.
    + eapply (resetPrior_scaled e (PConst c) (PConst d) k); cbn; auto.
Qed.

(** The values of the prior sum to exactly one, those of a multiple of it do not: the same posteriors, mean values and
    warnings; the evidence is multiplied by the volume of a grid cell. *)
Theorem C11_sum_one : forall S o k p q a b fo eo B,
  st_om S = Some o -> om_prior o = p -> sameSort p q -> customValues S p = Some a -> customValues S q = Some b ->
  0 < k -> scaledBy k a b -> asum a = Fin 1 -> asum b <> Fin 1 -> natprod (st_shape S) <> O -> 0 < cellVolume S -> segments S o <> [] ->
  fit (replacePrior S q) fo eo = Ok B ->
  exists A, fit S fo eo = Ok A /\ st_post A = st_post B /\ st_means A = st_means B /\ st_fmtTs A = st_fmtTs B /\
    st_logEv A = xladd (st_logEv B) (Fin (ln (cellVolume S))) /\ tl (st_local A) = tl (st_local B) /\ st_warn A = st_warn B.
Proof.
  intros S o k p q a b fo eo B Ho Hp SS Ea Eb Hk Es Sa Sb HN Hv Hsegs EB.
  destruct (st_tm S) as [m|] eqn:Hm; [|unfold fit, checkConsistency in EB; cbn in EB; rewrite Ho, Hm in EB; cbn in EB; destruct (Nat.eqb _ _); discriminate].
  destruct (st_rawTs S) as [rts|] eqn:Ht.
  2:{ unfold fit, checkConsistency in EB; cbn in EB; rewrite Ho, Hm in EB; cbn in EB; destruct (Nat.eqb _ _); [discriminate|]. destruct (hasDup _); [discriminate|]. cbn in EB.
      rewrite Ht in EB. discriminate. }
  set (e := envOf S o (om_prior o)). assert (Ve : e_vol e = cellVolume S) by (unfold e_vol, e; cbn; apply fprod_R).
  assert (Da : priorDensity e a = a) by (unfold priorDensity; rewrite Sa; cbn; replace (Reqb 1 1) with true by (symmetry; now apply Reqb_true); reflexivity).
  assert (Db : a = map (xmul (Fin (cellVolume S))) (priorDensity e b)).
  { unfold priorDensity. replace (xeqb (asum b) (Fin f1)) with false.
    - rewrite Es, sc_sum, sc_adivs by auto. rewrite Sa, Ve. symmetry. now apply rescale_vol.
    - destruct (asum b) as [s| | |]; auto. symmetry. apply Reqb_false. intros ->. now apply Sb. }
  assert (He : e_prior e = p) by (unfold e; cbn; exact Hp).
  assert (Ee : with_prior e p = e) by (unfold e; rewrite Hp; reflexivity).
  unfold segments in Hsegs.
  destruct p as [|sh x|f|c|], q as [|sh' y|g|d|]; cbn in SS; try tauto.
  - subst sh'. cbn in Ea, Eb. inversion Ea; subst x. inversion Eb; subst y. destruct (list_eq_dec Nat.eq_dec sh (st_shape S)) as [Hsh|Hsh].
    + assert (P1 : computePrior e = Ok (a, PArr sh a, true)).
      { unfold computePrior. rewrite He. destruct (list_eq_dec _ _ _) as [|X]; [|exfalso; apply X; exact Hsh]. now rewrite Da. }
      assert (P2 : computePrior (with_prior e (PArr sh b)) = Ok (priorDensity e b, PArr sh (priorDensity e b), true)).
      { unfold computePrior, e. cbn [e_prior envOf with_prior e_shape]. destruct (list_eq_dec _ _ _); [|tauto]. reflexivity. }
      eapply (fit_scaled_start S o m _ rts _ fo eo (cellVolume S) B Ho Hm Ht eq_refl); [exact P1|exact P2| |exact EB]. fold e.
      intros w EW. unfold segsOf in *. destruct (formatData _ _) as [|s segs]; [congruence|].
      rewrite (fwd_env e o m _ (PArr sh (priorDensity e b))) in EW.
      eapply (fwd_start (cellVolume S) Hv e o m s segs _ _ (PArr sh a)) in EW; [|left; split; [reflexivity|]; do 2 eexists; split; [reflexivity|]; eexists; reflexivity].
      rewrite <- Db in EW. rewrite Ee in EW. exact EW.
    + exfalso. unfold fit, checkConsistency in EB. cbn [replacePrior st_om st_raw st_tm st_rawTs] in EB. rewrite Ho, Hm in EB. cbn [option_map] in EB.
      destruct (Nat.eqb _ _); [discriminate|]. destruct (hasDup _); [discriminate|]. cbn [bind] in EB. rewrite Ht in EB. rewrite envOf_prior in EB. fold e in EB.
      replace (om_prior (om_set_prior o (PArr sh b))) with (PArr sh b) in EB by (destruct o; reflexivity).
      unfold computePrior in EB. cbn [e_prior with_prior e_shape] in EB. unfold e in EB. cbn [e_shape envOf] in EB.
      destruct (list_eq_dec _ _ _); [tauto|]. discriminate.
  - cbn in Ea, Eb. injection Ea; intros Ea'. injection Eb; intros Eb'. rewrite <- Ea' in Da, Db, Es. rewrite <- Eb' in Db, Es.
    assert (P1 : computePrior e = Ok (f (st_grid S), PFun f, false)) by (unfold computePrior; rewrite He; change (e_grid e) with (st_grid S); rewrite Da; reflexivity).
    eapply (fit_scaled_start S o m _ rts (PFun g) fo eo (cellVolume S) B Ho Hm Ht eq_refl); [exact P1|reflexivity| |exact EB]. fold e.
    intros w EW. unfold segsOf in *. destruct (formatData _ _) as [|s segs]; [congruence|].
    eapply (fwd_start (cellVolume S) Hv e o m s segs _ _ (PFun f)) in EW.
    + change (priorDensity (with_prior e (PFun g)) (g (e_grid (with_prior e (PFun g))))) with (priorDensity e (g (st_grid S))) in EW. rewrite <- Db in EW. rewrite Ee in EW. exact EW.
    + right. repeat split. eapply (resetPrior_scaled e (PFun f) (PFun g) k); cbn; auto.
  - cbn in Ea, Eb. injection Ea; intros Ea'. injection Eb; intros Eb'. rewrite <- Ea' in Da, Db, Es. rewrite <- Eb' in Db, Es.
    assert (P1 : computePrior e = Ok (repeat (Fin c) (natprod (st_shape S)), PConst c, false)) by (unfold computePrior; rewrite He; change (e_size e) with (natprod (st_shape S)); rewrite Da; reflexivity).
    eapply (fit_scaled_start S o m _ rts (PConst d) fo eo (cellVolume S) B Ho Hm Ht eq_refl); [exact P1|reflexivity| |exact EB]. fold e.
    intros w EW. unfold segsOf in *. destruct (formatData _ _) as [|s segs]; [congruence|].
    eapply (fwd_start (cellVolume S) Hv e o m s segs _ _ (PConst c)) in EW.
    + change (priorDensity (with_prior e (PConst d)) (repeat (Fin d) (e_size (with_prior e (PConst d))))) with (priorDensity e (repeat (Fin d) (natprod (st_shape S)))) in EW. rewrite <- Db in EW. rewrite Ee in EW. exact EW.
    + right. repeat split. eapply (resetPrior_scaled e (PConst c) (PConst d) k); cbn; auto.
Qed.

(** The coin with three values of p and a prior proportional to p: sums 3/2; multiplied by 2/3: exactly one *)
Definition slopeN {F} `{Num F} : priorSpec F := PFun (fun g => map (fun x => Fin (fmul (frac 2 3) x)) (hd [] g)).
Definition slope4 {F} `{Num F} : priorSpec F := PFun (fun g => map (fun x => Fin (fmul (fofZ 4) x)) (hd [] g)).
Example C11_example : exists S : study R R, setup (data [1; 0; 1]%Z) None (coin slope) (comb [notEq2; change "c" 1]) = Ok S /\
  st_om S = Some (coin slope) /\ om_prior (coin slope) = slope /\
  customValues S slope = Some [Fin (frac 1 4); Fin (frac 1 2); Fin (frac 3 4)] /\ sameSort (F := R) slope slope4 /\
  (exists b, customValues S slope4 = Some b /\ scaledBy 4 [Fin (frac 1 4); Fin (frac 1 2); Fin (frac 3 4)] b /\ asum b = Fin 6) /\
  asum [Fin (frac 1 4); Fin (frac 1 2); Fin (frac 3 4)] = Fin (3 / 2) /\ natprod (st_shape S) = 3%nat.
Proof.
  destruct (coin_setup [1; 0; 1]%Z slope (comb [notEq2; change "c" 1]) eq_refl) as (S & E & A1 & A2 & A3 & A4 & A5 & A6). exists S. split; [exact E|].
  assert (C : configured S (coin slope) (comb [notEq2; change "c" 1]) [quarters] (times [1; 0; 1]%Z)).
  { apply coin_configured; auto; [discriminate|]. repeat constructor; cbn; intros X; repeat destruct X as [X|X]; try discriminate; tauto. }
  assert (G : hd [] (st_grid S) = quarters) by (rewrite (cf_grid _ _ _ _ _ C); reflexivity).
  split; [exact A1|]. split; [reflexivity|]. split; [cbn [customValues slope]; rewrite G; reflexivity|]. split; [exact I|].
  split; [|split].
  - eexists. split; [cbn [customValues slope4]; rewrite G; reflexivity|]. split.
    + reflexivity.
    + cbn. unfold frac. cbn. f_equal. lra.
  - cbn. unfold frac. cbn. f_equal. lra.
  - rewrite (cf_shape _ _ _ _ _ C). reflexivity.
Qed.
(** the evidences with prior p, 4p (sums 3/2 and 6) and 2p/3 (sum 1); the grid-cell volume is 1/4 *)
Example C11_executed :
  (let run p := let* S0 := setup (L := Q) (data [1; 0; 1]%Z) None (coinOM quarters p) (comb [notEq2; change "c" 1%Q]) in
                let* S1 := fit S0 false false in Ok (st_logEv S1, st_post S1) in
   let* a := run slope in let* b := run slope4 in let* c := run slopeN in Ok (fst a, fst b, fst c))%res
  = Ok (Fin (667037 # 12010752), Fin (667037 # 12010752), Fin (667037 # 48043008))%Q.
Proof. vm_compute. reflexivity. Qed.
Theorem C11_sum_one_refuted : exists S0 S1 A B : study Q Q,
  setup (data [1; 0; 1]%Z) None (coinOM quarters slope) static = Ok S0 /\ setup (data [1; 0; 1]%Z) None (coinOM quarters slopeN) static = Ok S1 /\
  fit S0 false false = Ok A /\ fit S1 false false = Ok B /\ st_post A = st_post B /\ st_logEv A <> st_logEv B.
Proof.
  assert (E : (let* S0 := setup (L := Q) (data [1; 0; 1]%Z) None (coinOM quarters slope) static in
     let* S1 := setup (L := Q) (data [1; 0; 1]%Z) None (coinOM quarters slopeN) static in
     let* A := fit S0 false false in let* B := fit S1 false false in Ok (st_post A, st_post B, st_logEv A, st_logEv B))%res =
     Ok ([Some [Fin (3 # 46); Fin (8 # 23); Fin (27 # 46)]; Some [Fin (3 # 46); Fin (8 # 23); Fin (27 # 46)]; Some [Fin (3 # 46); Fin (8 # 23); Fin (27 # 46)]],
         [Some [Fin (3 # 46); Fin (8 # 23); Fin (27 # 46)]; Some [Fin (3 # 46); Fin (8 # 23); Fin (27 # 46)]; Some [Fin (3 # 46); Fin (8 # 23); Fin (27 # 46)]],
         Fin (23 # 192), Fin (23 # 768))%Q) by (vm_compute; reflexivity).
  run E. do 4 eexists. repeat (split; [eassumption|]). split; congruence.
Qed.
