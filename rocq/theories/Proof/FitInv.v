(** [fit] taken apart (any carrier, any model), and its invariants over the reals. *)
From Coq Require Import List ZArith Reals Lra Lia Arith Bool String.
From Verif Require Import Base.Num Base.Exn Base.Arr Base.RSum Base.Lift Model.Helper Model.Tm Model.HyperParams Model.Study
  Spec.Kernel Spec.Hmm Spec.Config Spec.Dist Proof.Gauss Proof.KernelProof Proof.HmmProof Proof.FitLinear Proof.FitThms Proof.FitCore Proof.Good.
Import ListNotations.
Local Open Scope R_scope.

Section Generic.
  Context {F L : Type} `{Num F} `{LogNum F L}.
  Notation arr := (list (xnum F)).

  (** everything before the backward pass *)
  Record fwdPart (S : study F L) (o : om F) (m : tm F) (ts : list F) (w : fwd F L) : Prop := {
    fp_check : checkConsistency S = Ok (o, m);
    fp_ts : exists rts, st_rawTs S = Some rts /\ ts = formatTimestamps rts (om_seglen o);
    fp_loop : exists a0 p0 al0, computePrior (envOf S o (om_prior o)) = Ok (a0, p0, al0) /\
              fwdLoop (envOf S o (om_prior o)) o m (formatData (st_raw S) (om_seglen o)) ts a0 al0 p0 (Fin l0) = Ok w
  }.
  Definition segsOf (S : study F L) (o : om F) := formatData (st_raw S) (om_seglen o).
  Definition volOf (S : study F L) : F := fprod (st_lat S).
  Definition fwdLocals (S : study F L) (w : fwd F L) : list (xnum F) := map (fun s => xmul (snd s) (Fin (volOf S))) (fw_steps w).
  Definition evOf (S : study F L) (w : fwd F L) : xnum L := xladd (fw_logEv w) (xln (Fin (volOf S))).
  Definition itemsOf (S : study F L) (o : om F) (ts : list F) (w : fwd F L) :=
    rev (combine (combine (map fst (fw_steps w)) (segsOf S o)) ts).
  Definition betaStart (S : study F L) (o : om F) : arr := normalise (aones (e_size (envOf S o (om_prior o)))).
  Definition mergeLocals (S : study F L) (w : fwd F L) (out : list (arr * option (xnum F))) :=
    map2 (fun old new => match new with Some x => Some x | None => Some old end) (fwdLocals S w) (rev (map snd out)).

  Inductive fitOut (S : study F L) (o : om F) (m : tm F) (ts : list F) (w : fwd F L) : bool -> bool -> study F L -> Prop :=
  | fo_stop fo eo : fw_stop w = true ->
      fitOut S o m ts w fo eo
        (set_results S (om_set_prior o (fw_prior w)) (segsOf S o) ts
           (if eo then st_post S else padNone (List.length (segsOf S o)) (map fst (fw_steps w)))
           (st_means S) NInf (padNone (List.length (segsOf S o)) (fwdLocals S w)) (1 + st_warn S))
  | fo_evidence fo : fw_stop w = false ->
      fitOut S o m ts w fo true
        (set_results S (om_set_prior o (fw_prior w)) (segsOf S o) ts (st_post S) [] (evOf S w)
           (padNone (List.length (segsOf S o)) (fwdLocals S w)) (st_warn S))
  | fo_forward : fw_stop w = false ->
      fitOut S o m ts w true false
        (set_results S (om_set_prior o (fw_prior w)) (segsOf S o) ts
           (padNone (List.length (segsOf S o)) (map fst (fw_steps w)))
           (meanValues (st_grid S) (map fst (fw_steps w))) (evOf S w)
           (padNone (List.length (segsOf S o)) (fwdLocals S w)) (st_warn S))
  | fo_full out : fw_stop w = false ->
      bwdLoop (with_prior (envOf S o (om_prior o)) (fw_prior w)) o m (itemsOf S o ts w) (betaStart S o) = Ok (out, false) ->
      fitOut S o m ts w false false
        (set_results S (om_set_prior o (fw_prior w)) (segsOf S o) ts (map Some (rev (map fst out)))
           (meanValues (st_grid S) (rev (map fst out))) (evOf S w) (mergeLocals S w out) (st_warn S))
  | fo_bstop out : fw_stop w = false ->
      bwdLoop (with_prior (envOf S o (om_prior o)) (fw_prior w)) o m (itemsOf S o ts w) (betaStart S o) = Ok (out, true) ->
      fitOut S o m ts w false false
        (set_results S (om_set_prior o (fw_prior w)) (segsOf S o) ts (map Some (rev (map fst out)))
           (st_means S) NInf (mergeLocals S w out) (1 + st_warn S)).

  Lemma fit_inv S fo eo S' : fit S fo eo = Ok S' -> exists o m ts w, fwdPart S o m ts w /\ fitOut S o m ts w fo eo S'.
  Proof.
    unfold fit. destruct (checkConsistency S) as [[o m]|] eqn:EC; [|discriminate]. cbn [bind].
    destruct (st_rawTs S) as [rts|] eqn:ET; [|discriminate].
    destruct (computePrior _) as [[[a0 p0] al0]|] eqn:EP; [|discriminate]. cbn [bind].
    destruct (fwdLoop _ _ _ _ _ _ _ _ _) as [w|] eqn:EW; [|discriminate]. cbn [bind].
    intros E. exists o, m, (formatTimestamps rts (om_seglen o)), w. split; [constructor; eauto|].
    destruct (fw_stop w) eqn:ES.
    - inversion E; subst. now constructor.
    - destruct eo; [inversion E; subst; now constructor|]. destruct fo; [inversion E; subst; now constructor|].
      destruct (bwdLoop _ _ _ _ _) as [[out stop]|] eqn:EB; [|discriminate]. cbn [bind] in E.
      destruct stop; inversion E; subst; now constructor.
  Qed.
  Lemma fit_intro S fo eo S' o m ts w : fwdPart S o m ts w -> fitOut S o m ts w fo eo S' -> fit S fo eo = Ok S'.
  Proof.
    intros [EC (rts & ET & ->) (a0 & p0 & al0 & EP & EW)] O. unfold fit. rewrite EC. cbn [bind]. rewrite ET, EP. cbn [bind].
    rewrite EW. cbn [bind].
    destruct O as [fo eo ES|fo ES|ES|out ES EB|out ES EB]; rewrite ES; auto; unfold itemsOf, segsOf, betaStart in EB; rewrite EB; reflexivity.
  Qed.
  Lemma fwdPart_fun S o m ts w o' m' ts' w' : fwdPart S o m ts w -> fwdPart S o' m' ts' w' -> o' = o /\ m' = m /\ ts' = ts /\ w' = w.
  Proof.
    intros [EC (rts & ET & ->) (a0 & p0 & al0 & EP & EW)] [EC' (rts' & ET' & ->) (a0' & p0' & al0' & EP' & EW')].
    rewrite EC in EC'. inversion EC'; subst. rewrite ET in ET'. inversion ET'; subst.
    rewrite EP in EP'. inversion EP'; subst. rewrite EW in EW'. inversion EW'; subst. auto.
  Qed.
  Lemma bwd_length e (o : om F) m : forall items b out stop, bwdLoop e o m items b = Ok (out, stop) -> List.length out = List.length items.
  Proof.
    induction items as [|[[a s] t] items IH]; intros b out stop E; cbn [bwdLoop] in E.
    - now inversion E.
    - destruct (xltb _ _).
      + destruct (computeBackwardPrior _ _ _ _ _); [|discriminate]. cbn [bind] in E.
        destruct (bwdLoop _ _ _ items _) as [[out' stop']|] eqn:E1; [|discriminate]. cbn in E. inversion E; subst. cbn.
        f_equal. eapply IH; eauto.
      + inversion E; subst. cbn. now rewrite map_length.
  Qed.
  Lemma padNone_nth {A} n (l : list A) i : (List.length l <= n)%nat -> (i < n)%nat -> nth_error (padNone n l) i = Some (nth_error l i).
  Proof.
    intros Hl Hi. unfold padNone. destruct (Nat.lt_ge_cases i (List.length l)) as [Hc|Hc].
    - rewrite nth_error_app1 by now rewrite map_length. rewrite nth_error_map.
      destruct (nth_error l i) eqn:E; [reflexivity|]. apply nth_error_None in E. lia.
    - rewrite nth_error_app2 by now rewrite map_length. rewrite map_length.
      assert (E : nth_error l i = None) by now apply nth_error_None. rewrite E.
      rewrite (nth_error_nth' _ None) by (rewrite repeat_length; lia). now rewrite nth_repeat.
  Qed.
  Lemma padNone_length {A} n (l : list A) : (List.length l <= n)%nat -> List.length (padNone n l) = n.
  Proof. intros. unfold padNone. rewrite app_length, map_length, repeat_length. lia. Qed.
  Lemma padNone_full {A} n (l : list A) : List.length l = n -> padNone n l = map Some l.
  Proof. intros <-. unfold padNone. rewrite Nat.sub_diag. apply app_nil_r. Qed.
End Generic.

(** ** priors *)
(** a prior supplied by the user without negative values: nothing, a non-negative array, a function with non-negative values
    on the grid, a constant, SymPy densities *)
Definition goodPrior (N : nat) (grid : list (list R)) (p : priorSpec R) : Prop :=
  match p with
  | PNone => True
  | PArr _ a => good N a
  | PFun f => good N (f grid)
  | PConst c => 0 <= c
  | PSym _ f => good N (f grid)
  end.

Section Inv.
  Variables (e : env R) (o : om R) (m : tm R).
  Notation N := (e_size e).
  Variable ok : kind R -> list (hval R) -> Prop.
  Hypothesis HN : (0 < N)%nat.
  Hypothesis Hdim : (List.length (e_names e) <= List.length (e_shape e))%nat.
  Hypothesis Hlat : Forall (fun l => 0 < l) (e_tmlat e).
  Hypothesis Hvol : 0 < e_vol e.
  Hypothesis Hok : forall p, keeps ok (with_prior e p).
  Hypothesis B : basicIn ok m.
  Notation goodP := (goodPrior N (e_grid e)).
  Notation goodSeg := (fun s => good N (processedPdf o N (e_grid e) s)).

  Lemma resetPrior_good p : goodP p -> good N (resetPrior (with_prior e p)).
  Proof.
    intros G. unfold resetPrior. cbn [e_prior with_prior e_grid].
    change (e_size (with_prior e p)) with N. destruct p; cbn in G.
    - apply (normalise_good N (aones N)); auto. apply good_aones.
    - now apply (normalise_good N a).
    - now apply (normalise_good N (f (e_grid e))).
    - cbn. destruct (Reqb c 0) eqn:E.
      + right. reflexivity.
      + left. exists (repeat (c / c) N). repeat split.
        * clear. induction N; cbn; auto. now f_equal.
        * apply repeat_length.
        * apply Forall_forall. intros x Hx. apply repeat_spec in Hx. subst. apply Reqb_false in E.
          unfold Rdiv. rewrite Rinv_r by auto. lra.
    - apply (normalise_good N (aones N)); auto. apply good_aones.
  Qed.
  Lemma step_good' p off q r t1 t t' : goodP p -> good N q -> step (with_prior e p) m off q t1 t t' = Ok r -> good N r.
  Proof.
    intros Gp Gq E. apply (step_good (with_prior e p) ok) with (m := m) (off := off) (p := q) (t1 := t1) (t := t) (t' := t'); auto.
    - change (e_vol (with_prior e p)) with (e_vol e). lra.
    - now apply resetPrior_good.
  Qed.
  Lemma overwrite_good al p a : goodP p -> good N a -> goodP (overwrite al p a).
  Proof. destruct al, p; cbn; auto. Qed.

  Lemma fwd_good : forall segs ts a al p (lev : xnum R) w, Forall goodSeg segs -> good N a -> goodP p ->
    fwdLoop e o m segs ts a al p lev = Ok w ->
    Forall (fun s => dist N (fst s) /\ exists c, snd s = Fin c /\ 0 < c) (fw_steps w) /\ goodP (fw_prior w).
  Proof.
    induction segs as [|s segs IH]; intros ts a al p lev w Gs Ga Gp E; cbn [fwdLoop] in E.
    - inversion E; subst. cbn. auto.
    - inversion Gs; subst. set (a1 := amul a (processedPdf o N (e_grid e) s)) in *.
      assert (G1 : good N a1) by now apply good_amul.
      destruct (xltb (Fin f0) (asum a1)) eqn:EN.
      + destruct ts as [|t ts]; [discriminate|]. pose proof (good_pos_dist N a1 HN G1 EN) as D2.
        destruct (computeForwardPrior _ _ _ _ _) as [a3|] eqn:E3; [|discriminate]. cbn [bind] in E.
        assert (Gp2 : goodP (overwrite al p (adivs a1 (asum a1)))) by (apply overwrite_good; auto; now apply dist_good).
        destruct (fwdLoop _ _ _ _ _ _ _ _ _) as [w0|] eqn:E0; [|discriminate].
        cbn in E. inversion E; subst. cbn. apply IH in E0; auto.
        * destruct E0 as [D0 P0]. split; [constructor; auto|auto]. split; auto.
          destruct (good_pos N a1 HN G1 EN) as (r & _ & _ & _ & Hr & Er). exists (Rsum r). auto.
        * unfold computeForwardPrior in E3. eapply step_good'; [exact Gp2| |exact E3]. now apply dist_good.
      + inversion E; subst. cbn. split; [constructor|]. now apply overwrite_good.
  Qed.

  (** the backward pass: distributions as far as it gets *)
  Lemma bwd_good p : goodP p -> forall items b out stop,
    Forall (fun it => dist N (fst (fst it)) /\ goodSeg (snd (fst it))) items -> good N b ->
    bwdLoop (with_prior e p) o m items b = Ok (out, stop) ->
    Forall (fun x => good N (fst x)) out /\ (stop = false -> Forall (fun x => dist N (fst x)) out).
  Proof.
    intros Gp. induction items as [|[[a s] t] items IH]; intros b out stop Gi Gb E; cbn [bwdLoop] in E.
    - inversion E; subst. auto.
    - inversion Gi as [|? ? [Da Gs] Gi']; subst. cbn [fst snd] in *. clear Gi.
      change (e_size (with_prior e p)) with N in E. change (e_grid (with_prior e p)) with (e_grid e) in E.
      assert (G1 : good N (amul a b)) by (apply good_amul; auto; now apply dist_good).
      destruct (xltb (Fin f0) (asum (amul a b))) eqn:EN.
      + destruct (computeBackwardPrior _ _ _ _ _) as [b'|] eqn:E3; [|discriminate]. cbn [bind] in E.
        destruct (bwdLoop _ _ _ items _) as [[out' stop']|] eqn:E0; [|discriminate]. cbn in E. inversion E; subst.
        pose proof (good_pos_dist N _ HN G1 EN) as D2.
        apply IH in E0; auto.
        * destruct E0 as [F0 D0]. split; [constructor; auto; now apply dist_good|].
          intros Hs. constructor; auto.
        * apply normalise_good; auto. unfold computeBackwardPrior in E3. eapply step_good'; [exact Gp| |exact E3].
          now apply good_amul.
      + inversion E; subst. split; [|discriminate]. constructor.
        * exact G1.
        * apply Forall_map. eapply Forall_impl; [|exact Gi']. cbn. intros [[a' s'] t'] [D _]. now apply dist_good.
  Qed.
End Inv.

(** ** no exceptions for runnable models *)
Section Total.
  Context (e : env R) (o : om R) (m : tm R).
  Hypothesis Steps : forall p off a t1 t t', exists q, step (with_prior e p) m off a t1 t t' = Ok q.

  Lemma fwd_total : forall segs ts a al p (lev : xnum R), (List.length segs <= List.length ts)%nat ->
    exists w, fwdLoop e o m segs ts a al p lev = Ok w.
  Proof.
    induction segs as [|s segs IH]; intros ts a al p lev Hs; cbn [fwdLoop]; [eauto|].
    destruct (xltb _ _); [|eauto]. destruct ts as [|t ts]; [cbn in Hs; lia|]. unfold computeForwardPrior.
    match goal with |- context [step (with_prior ?e1 ?p1) ?m1 ?o1 ?a1 ?t1 ?t2 ?t3] => destruct (Steps p1 o1 a1 t1 t2 t3) as [q ->] end.
    cbn [bind]. edestruct IH as [w ->]; [|cbn; eauto]. cbn in Hs. lia.
  Qed.
  Lemma bwd_total p : forall items b, exists r, bwdLoop (with_prior e p) o m items b = Ok r.
  Proof.
    induction items as [|[[a s] t] items IH]; intros b; cbn [bwdLoop]; [eauto|].
    destruct (xltb _ _); [|eauto]. unfold computeBackwardPrior.
    match goal with |- context [step (with_prior ?e1 ?p1) ?m1 ?o1 ?a1 ?t1 ?t2 ?t3] => destruct (Steps p1 o1 a1 t1 t2 t3) as [q ->] end.
    cbn [bind]. destruct (IH (normalise q)) as [r ->]. cbn. eauto.
  Qed.
End Total.

(** the log-evidence is finite unless the pass stops *)
Lemma fwd_lev (e : env R) (o : om R) m : forall segs ts a al p (lev : xnum R) w,
  fwdLoop e o m segs ts a al p lev = Ok w -> (exists v, lev = Fin v) ->
  Forall (fun s => exists c, snd s = Fin c /\ 0 < c) (fw_steps w) ->
  if fw_stop w then fw_logEv w = NInf else exists v, fw_logEv w = Fin v.
Proof.
  induction segs as [|s segs IH]; intros ts a al p lev w E Hlev HF; cbn [fwdLoop] in E.
  - inversion E; subst. exact Hlev.
  - destruct (xltb _ _).
    + destruct ts as [|t ts]; [discriminate|]. destruct (computeForwardPrior _ _ _ _ _) as [a3|]; [|discriminate].
      cbn [bind] in E. destruct (fwdLoop _ _ _ _ _ _ _ _ _) as [w0|] eqn:E0; [|discriminate]. cbn in E. inversion E; subst.
      cbn in *. inversion HF as [|? ? (c & Ec & Hc) HF']; subst. cbn in Ec. apply IH in E0; auto.
      destruct Hlev as [v ->]. cbn [snd] in Ec. rewrite Ec. cbn. apply Rltb_true in Hc. rewrite Hc. cbn. eauto.
    + inversion E; subst. reflexivity.
Qed.

Section Fit.
  Variables (S : study R R) (o : om R) (m : tm R) (vs : list (list R)) (ts : list R).
  Hypothesis C : configured S o m vs ts.
  Notation N := (gridPoints vs).
  Notation n := (nSteps S o).
  Notation e := (envOf S o (om_prior o)).
  Notation tss := (formatTimestamps ts (om_seglen o)).
  Notation okPrior := (nonnegPrior N o (map (@List.length R) vs) (meshgrid vs) (om_prior o)).
  Notation okLik := (forall s, In s (segments S o) -> finite N (processedPdf o N (meshgrid vs) s)).

  Lemma prior_total : okPrior -> exists r, computePrior e = Ok r.
  Proof.
    unfold nonnegPrior, computePrior. cbn [e_prior envOf e_shape e_names]. rewrite (cf_shape _ _ _ _ _ C).
    destruct (om_prior o); intros P; eauto.
    - destruct P as [-> _]. destruct (list_eq_dec _ _ _); [eauto|congruence].
    - destruct P as [-> _]. rewrite Nat.eqb_refl. eauto.
  Qed.
  Lemma priorDensity_good a : good N a -> good N (priorDensity e a).
  Proof.
    intros G. unfold priorDensity. destruct (xeqb _ _); auto. rewrite cfg_vol. apply good_adivs; [|exact (cfg_volpos S o m vs ts C)].
    apply (normalise_good N a); auto. exact (cfg_npos S o m vs ts C).
  Qed.
  Lemma prior_good a p al : okPrior -> computePrior e = Ok (a, p, al) -> good N a /\ goodPrior N (meshgrid vs) p.
  Proof.
    unfold nonnegPrior, computePrior. cbn [e_prior e_shape e_names envOf].
    rewrite (cfg_grid S o m vs ts C), (cfg_size S o m vs ts C).
    pose proof (cfg_npos S o m vs ts C) as HN.
    destruct (om_prior o); intros P E.
    - inversion E; subst. split; [|exact I]. rewrite cfg_vol. apply good_adivs; [|exact (cfg_volpos S o m vs ts C)].
      apply (normalise_good N (aones N)); auto. apply good_aones.
    - destruct (list_eq_dec _ _ _); [|discriminate]. inversion E; subst. destruct P as [_ P].
      assert (G : good N (priorDensity e a0)) by (apply priorDensity_good; now left). split; exact G.
    - inversion E; subst. split; [apply priorDensity_good; now left|now left].
    - inversion E; subst. split; [|exact P]. apply priorDensity_good. left. exists (repeat c N). repeat split.
      + clear. induction N; cbn; auto. now f_equal.
      + apply repeat_length.
      + apply Forall_forall. intros x Hx. apply repeat_spec in Hx. now subst.
    - destruct (Nat.eqb _ _); [|discriminate]. inversion E; subst. destruct P as [_ P]. split; now left.
  Qed.

  Lemma fwdPart_cfg o' m' ts' w : fwdPart S o' m' ts' w -> o' = o /\ m' = m /\ ts' = tss.
  Proof.
    intros [EC (rts & ET & ->) _]. rewrite (cfg_check S o m vs ts C) in EC. inversion EC; subst.
    rewrite (cf_ts _ _ _ _ _ C) in ET. inversion ET; subst. auto.
  Qed.
  Lemma env_dim : (List.length (e_names e) <= List.length (e_shape e))%nat.
  Proof. rewrite (cfg_dim S o m vs ts C (om_prior o)). lia. Qed.
  Lemma env_lat : Forall (fun l => 0 < l) (e_tmlat e).
  Proof. change (e_tmlat e) with (st_tmlat S). rewrite (cf_tmlat _ _ _ _ _ C). exact (cf_spacing _ _ _ _ _ C). Qed.
  Lemma env_names : (List.length (e_names e) <= List.length (e_tmlat e))%nat.
  Proof.
    change (e_tmlat e) with (st_tmlat S). rewrite (cf_tmlat _ _ _ _ _ C).
    rewrite (cfg_dim S o m vs ts C (om_prior o)), <- (cfg_lat S o m vs ts C (om_prior o)). cbn. lia.
  Qed.

  Lemma fwdPart_good_in ok w : (forall p, keeps ok (with_prior e p)) -> basicIn ok m -> okPrior -> okLik -> fwdPart S o m tss w ->
    Forall (fun s => dist N (fst s) /\ exists c, snd s = Fin c /\ 0 < c) (fw_steps w) /\ goodPrior N (meshgrid vs) (fw_prior w) /\
    (if fw_stop w then fw_logEv w = NInf else exists v, fw_logEv w = Fin v).
  Proof.
    intros Hok Ba Pr Lk [_ _ (a0 & p0 & al0 & EP & EW)]. destruct (prior_good _ _ _ Pr EP) as [Ga Gp].
    assert (G : Forall (fun s => dist N (fst s) /\ exists c, snd s = Fin c /\ 0 < c) (fw_steps w) /\ goodPrior N (meshgrid vs) (fw_prior w)).
    { pose proof (fwd_good e o m ok) as G. rewrite (cfg_size S o m vs ts C), (cfg_grid S o m vs ts C) in G.
      eapply G; try exact EW; auto using env_dim, env_lat.
      - exact (cfg_npos S o m vs ts C).
      - rewrite cfg_vol. exact (cfg_volpos S o m vs ts C).
      - apply Forall_forall. intros s Hs. left. now apply Lk. }
    destruct G as [G1 G2]. repeat split; auto. eapply fwd_lev; [exact EW|eauto|].
    eapply Forall_impl; [|exact G1]. cbn. tauto.
  Qed.
  Lemma fwdPart_good w : basic m -> okPrior -> okLik -> fwdPart S o m tss w ->
    Forall (fun s => dist N (fst s) /\ exists c, snd s = Fin c /\ 0 < c) (fw_steps w) /\ goodPrior N (meshgrid vs) (fw_prior w) /\
    (if fw_stop w then fw_logEv w = NInf else exists v, fw_logEv w = Fin v).
  Proof. apply fwdPart_good_in. intros; apply keeps_none. Qed.

  Lemma fit_total_in fo eo : (forall p off a t1 t t', exists q, step (with_prior e p) m off a t1 t t' = Ok q) -> okPrior -> exists S', fit S fo eo = Ok S'.
  Proof.
    intros Run Pr. destruct (prior_total Pr) as [[[a0 p0] al0] EP].
    destruct (fwd_total e o m Run (segments S o) tss a0 al0 p0 (Fin l0)) as [w EW].
    { rewrite (cfg_ts_len S o m vs ts C). unfold nSteps. lia. }
    assert (FP : fwdPart S o m tss w).
    { constructor; [exact (cfg_check S o m vs ts C)|exists ts; split; [exact (cf_ts _ _ _ _ _ C)|reflexivity]|eauto]. }
    destruct (fw_stop w) eqn:ES; [eexists; eapply fit_intro; [exact FP|now constructor]|].
    destruct eo; [eexists; eapply fit_intro; [exact FP|now constructor]|].
    destruct fo; [eexists; eapply fit_intro; [exact FP|now constructor]|].
    destruct (bwd_total e o m Run (fw_prior w) (itemsOf S o tss w) (betaStart S o)) as [[out stop] EB].
    destruct stop; eexists; (eapply fit_intro; [exact FP|]).
    - eapply fo_bstop; eauto.
    - eapply fo_full; eauto.
  Qed.
  Lemma fit_total fo eo : runnable (om_names o) m -> okPrior -> exists S', fit S fo eo = Ok S'.
  Proof. intros Run. apply fit_total_in. intros p off a t1 t t'. apply step_total; auto. exact env_names. Qed.

  Lemma items_good w : okLik -> Forall (fun s => dist N (fst s)) (fw_steps w) ->
    Forall (fun it => dist N (fst (fst it)) /\ good N (processedPdf o N (meshgrid vs) (snd (fst it)))) (itemsOf S o tss w).
  Proof.
    intros Lk HF. unfold itemsOf. apply Forall_rev, Forall_forall. intros [[a s] t] I. cbn [fst snd].
    apply in_combine_l in I. split.
    - apply in_combine_l in I. apply in_map_iff in I. destruct I as (x & <- & Ix). rewrite Forall_forall in HF. now apply HF.
    - left. apply Lk. apply in_combine_r in I. exact I.
  Qed.
  Lemma beta_good : good N (betaStart S o).
  Proof.
    unfold betaStart. rewrite (cfg_size S o m vs ts C). apply normalise_good; [exact (cfg_npos S o m vs ts C)|]. apply good_aones.
  Qed.

  Lemma bwd_cfg ok w out stop : (forall p, keeps ok (with_prior e p)) -> basicIn ok m -> okPrior -> okLik -> fwdPart S o m tss w ->
    bwdLoop (with_prior e (fw_prior w)) o m (itemsOf S o tss w) (betaStart S o) = Ok (out, stop) ->
    Forall (fun x => good N (fst x)) out /\ (stop = false -> Forall (fun x => dist N (fst x)) out).
  Proof.
    intros Hok Ba Pr Lk FP EB. destruct (fwdPart_good_in ok w Hok Ba Pr Lk FP) as (G1 & G2 & _).
    pose proof (bwd_good e o m ok) as G. rewrite (cfg_size S o m vs ts C), (cfg_grid S o m vs ts C) in G.
    eapply G; try exact EB; auto using env_dim, env_lat.
    - exact (cfg_npos S o m vs ts C).
    - rewrite cfg_vol. exact (cfg_volpos S o m vs ts C).
    - apply items_good; auto. eapply Forall_impl; [|exact G1]. cbn. tauto.
    - apply beta_good.
  Qed.

  (** everything about a fit that did not stop *)
  Lemma fit_dist_in ok fo S' : (forall p, keeps ok (with_prior e p)) -> basicIn ok m -> okPrior -> okLik -> fit S fo false = Ok S' ->
    st_logEv S' = NInf \/
    exists v posts, st_logEv S' = Fin v /\ st_post S' = map Some posts /\ List.length posts = n /\ Forall (dist N) posts /\
      st_means S' = meanValues (meshgrid vs) posts.
  Proof.
    intros Hok Ba Pr Lk E. destruct (fit_inv _ _ _ _ E) as (o' & m' & ts' & w & FP & O).
    destruct (fwdPart_cfg _ _ _ _ FP) as (-> & -> & ->). destruct (fwdPart_good_in ok w Hok Ba Pr Lk FP) as (G1 & G2 & G3).
    assert (D : Forall (dist N) (map fst (fw_steps w))).
    { apply Forall_map. eapply Forall_impl; [|exact G1]. cbn. tauto. }
    assert (Len : fw_stop w = false -> List.length (fw_steps w) = n).
    { destruct FP as [_ _ (a0 & p0 & al0 & EP & EW)]. intros Hs. now apply (fwd_steps_len _ _ _ _ _ _ _ _ _ _ EW). }
    assert (Ev : fw_stop w = false -> exists v, evOf S w = Fin v).
    { intros Hs. rewrite Hs in G3. destruct G3 as [v Ev]. unfold evOf. rewrite Ev. unfold volOf. rewrite fprod_R.
      pose proof (cfg_volpos S o m vs ts C) as VP. unfold cellVolume in VP. apply Rltb_true in VP. cbn. rewrite VP. cbn. eauto. }
    remember false as eo eqn:Heo in O. destruct O as [fo eo ES|fo ES|ES|out ES EB|out ES EB]; try discriminate Heo; cbn [st_logEv set_results];
      [now left|right|right|now left].
    - destruct (Ev ES) as [v ->]. exists v, (map fst (fw_steps w)). cbn [st_post st_means set_results].
      rewrite map_length, (Len ES), (cf_grid _ _ _ _ _ C). repeat split; auto.
      apply padNone_full. now rewrite map_length, (Len ES).
    - destruct (Ev ES) as [v ->]. exists v, (rev (map fst out)). cbn [st_post st_means set_results].
      rewrite rev_length, map_length, (cf_grid _ _ _ _ _ C), (bwd_length _ _ _ _ _ _ _ EB). repeat split; auto.
      + unfold itemsOf, segsOf. rewrite rev_length, !combine_length, map_length, (Len ES), (cfg_ts_len S o m vs ts C).
        unfold nSteps, segments. lia.
      + apply Forall_rev, Forall_map. now apply (bwd_cfg ok w out false Hok Ba Pr Lk FP EB).
  Qed.
  Lemma fit_dist fo S' : basic m -> okPrior -> okLik -> fit S fo false = Ok S' ->
    st_logEv S' = NInf \/
    exists v posts, st_logEv S' = Fin v /\ st_post S' = map Some posts /\ List.length posts = n /\ Forall (dist N) posts /\
      st_means S' = meanValues (meshgrid vs) posts.
  Proof. apply fit_dist_in. intros; apply keeps_none. Qed.
End Fit.
