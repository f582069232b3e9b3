(** C73: The units of the parameters do not matter, except for local evidence values and change-points. *)
From Coq Require Import List ZArith QArith Reals Lra Lia Bool String.
From Verif Require Import Base.Num Base.Exn Base.Arr Base.RSum Base.Lift Model.Helper Model.Tm Model.HyperParams Model.Study Model.Api
  Spec.Kernel Spec.Config Spec.Units Proof.KernelProof Proof.SetupProof Proof.UnitsProof Proof.NamesProof Props.Ex Props.ExR Props.Setup.
Import ListNotations.
Local Open Scope R_scope.

(** Without change-points all results but the local evidence are the same: the posterior distributions, the log-evidence and the time
    stamps are equal and the posterior mean values are converted to the new units. *)
Theorem C73_units : forall us S S' o o' m vs ts fo eo,
  studiesInUnits us S S' o o' m vs ts -> Forall (fun u => 0 < u) us -> List.length us = List.length vs -> Forall equallySpaced vs ->
  omInUnits us o o' -> notSummingToOne o vs -> noChange m -> (0 < nSteps S o)%nat ->
  match fit S fo eo, fit S' fo eo with
  | Ok A, Ok B => st_post B = st_post A /\ st_logEv B = st_logEv A /\ st_fmtTs B = st_fmtTs A /\
      st_means B = map2 (fun u row => map (fun x => xmul (Fin u) x) row) us (st_means A)
  | Err x, Err y => x = y
  | _, _ => False
  end.
Proof.
  intros us S S' o o' m vs ts fo eo SU Hu Hl Hv Ho Hs Hm Hn. pose proof (fit_units us S S' o o' m vs ts SU Hu Hl Hv Ho Hs (pc_none m Hm) Hn fo eo) as F.
  destruct (fit S fo eo) as [A|]; destruct (fit S' fo eo) as [B|]; auto. destruct F as (F1 & F2 & F3 & F4 & _).
  split; [exact F1|]. split; [|split; [exact F3|exact F2]]. rewrite F4. replace (resetCount m (timeOf ts o) (nSteps S o)) with 0%nat.
  - cbn [INR]. rewrite Rmult_0_l. destruct (st_logEv A) as [x| | |]; cbn; auto. f_equal. ring.
  - unfold resetCount. induction (seq 0 (nSteps S o - 1)) as [|i l IH]; [reflexivity|]. cbn [filter]. unfold resetAt at 1. destruct (resetBy m (timeOf ts o i) false) eqn:E; [|exact IH].
    apply reset_noChange in E; auto. discriminate.
Qed.

(** With change-points (that are not combined with other models) this holds as well, but each change-point within the data multiplies the
    evidence by the product of the conversion factors. *)
Theorem C73_changes : forall us S S' o o' m vs ts fo eo,
  studiesInUnits us S S' o o' m vs ts -> Forall (fun u => 0 < u) us -> List.length us = List.length vs -> Forall equallySpaced vs ->
  omInUnits us o o' -> notSummingToOne o vs -> plainChanges m -> (0 < nSteps S o)%nat ->
  match fit S fo eo, fit S' fo eo with
  | Ok A, Ok B => st_post B = st_post A /\ st_fmtTs B = st_fmtTs A /\
      st_means B = map2 (fun u row => map (fun x => xmul (Fin u) x) row) us (st_means A) /\
      st_logEv B = xladd (F := R) (st_logEv A) (Fin (INR (resetCount m (timeOf ts o) (nSteps S o)) * ln (Rprod us)))
  | Err x, Err y => x = y
  | _, _ => False
  end.
Proof.
  intros us S S' o o' m vs ts fo eo SU Hu Hl Hv Ho Hs Hm Hn. pose proof (fit_units us S S' o o' m vs ts SU Hu Hl Hv Ho Hs Hm Hn fo eo) as F.
  destruct (fit S fo eo) as [A|]; destruct (fit S' fo eo) as [B|]; auto. destruct F as (F1 & F2 & F3 & F4 & _). auto.
Qed.

(** Local evidence values do depend on the units, and in opposite ways: with forwardOnly or evidenceOnly all but the first one are
    multiplied by the product of the conversion factors, otherwise all of them are divided by it. *)
Theorem C73_local : forall us S S' o o' m vs ts fo eo A B,
  studiesInUnits us S S' o o' m vs ts -> Forall (fun u => 0 < u) us -> List.length us = List.length vs -> Forall equallySpaced vs ->
  omInUnits us o o' -> notSummingToOne o vs -> noChange m -> (0 < nSteps S o)%nat ->
  fit S fo eo = Ok A -> fit S' fo eo = Ok B -> st_logEv A <> NInf ->
  st_local B = (if (fo || eo)%bool
    then match st_local A with [] => [] | x :: l => x :: map (option_map (fun y => xmul (Fin (Rprod us)) y)) l end
    else map (option_map (fun y => xmul (Fin (/ Rprod us)) y)) (st_local A)).
Proof.
  intros us S S' o o' m vs ts fo eo A B SU Hu Hl Hv Ho Hs Hm Hn EA EB Hv'. pose proof (fit_units us S S' o o' m vs ts SU Hu Hl Hv Ho Hs (pc_none m Hm) Hn fo eo) as F.
  rewrite EA, EB in F. destruct F as (_ & _ & _ & _ & F5 & F6). destruct (fo || eo)%bool; auto.
Qed.

(** ** A coin, with its bias given as a number or in percent *)
Section Percent.
  Context {F L : Type} `{Num F} `{LogNum F L}.
  Definition fraction (g : list (list F)) : list (list F) := map (map (fun x => fdiv x (fofZ 100))) g.
  Definition percentOM (vals : list F) (prior : priorSpec F) : om F :=
    {| om_names := ["p"%string]; om_values := [Some (map (fun x => fmul (fofZ 100) x) vals)]; om_seglen := 1; om_multiply := true;
       om_prior := match prior with PFun f => PFun (fun g => f (fraction g)) | _ => prior end;
       om_pdf := fun g s => coinPdf (fraction g) s; om_estimate := fun _ _ => Err NotImplementedError |}.
End Percent.
Lemma hundred : (100 : R) = fofZ 100. Proof. reflexivity. Qed.
Lemma percent_values : map (fun x : R => fmul (fofZ 100) x) quarters = map (Rmult 100) quarters. Proof. reflexivity. Qed.
Lemma percent_fraction (g : list (list R)) : List.length g = 1%nat -> fraction (convert [100] g) = g.
Proof.
  destruct g as [|v [|]]; try discriminate. intros _. cbn [convert map2 fraction map]. f_equal. rewrite map_map. rewrite <- (map_id v) at 2. apply map_ext. intros x. cbn. field.
Qed.
Lemma percent_om prior : (prior = PNone \/ exists f, prior = PFun f) -> omInUnits [100] (coin prior) (percentOM quarters prior).
Proof.
  intros HP. constructor; try reflexivity.
  - intros g s Hg. cbn [percentOM om_pdf coin coinOM]. now rewrite percent_fraction.
  - cbn [percentOM om_prior coin coinOM]. destruct HP as [-> |[f ->]]; [exact I|]. cbn [priorInUnits]. intros g Hg. now rewrite percent_fraction.
Qed.
Lemma percent_setup ds prior m : isBreak m = false ->
  exists S : study R R, setup (data ds) None (percentOM quarters prior) m = Ok S /\
    st_om S = Some (percentOM quarters prior) /\ st_tm S = Some m /\ st_marg S = convert [100] [quarters] /\ st_raw S = data ds /\
    st_rawTs S = Some (times ds) /\ st_lat S = [25].
Proof.
  intros Hm. unfold setup. cbn [runCalls runCall bind]. unfold setTM. rewrite Hm. cbn [bind].
  unfold setOM. cbn [combine om_values om_names percentOM mapM paramValues fst snd bind].
  assert (E : map (fun x : R => fmul (fofZ 100) x) quarters = progression 25 25 3).
  { unfold quarters, progression, frac. cbn. repeat (f_equal; try lra). }
  assert (E' : convert [100] [quarters] = [progression 25 25 3]) by (cbn [convert map2]; f_equal; exact E).
  rewrite E, E', lattice_progression by lia. cbn [bind]. eexists. split; [reflexivity|].
  cbn [st_om st_tm st_marg st_raw st_rawTs st_lat set_tm loadData]. rewrite Rabs_right by lra. repeat split.
  unfold times, data, rawLen. rewrite map_length. f_equal. apply map_ext. intros i. cbn. symmetry. apply INR_IZR_INZ.
Qed.
Lemma percent_configured ds prior m S : setup (data ds) None (percentOM quarters prior) m = Ok S -> isBreak m = false -> ds <> [] -> NoDup (allNames m) ->
  configured S (percentOM quarters prior) m (convert [100] [quarters]) (times ds).
Proof.
  intros E Hm Hd ND. destruct (percent_setup ds prior m Hm) as (S' & E' & h1 & h2 & h3 & h4 & h5 & _).
  rewrite E in E'. inversion E'; subst S'. rewrite <- h3. unfold setup in E.
  eapply C44_reachable_configured; eauto.
  - rewrite h4. cbn. unfold times. now rewrite !map_length, seq_length.
  - rewrite h4. cbn. rewrite map_length. destruct ds; [congruence|cbn; lia].
  - rewrite h3. reflexivity.
  - rewrite h3. discriminate.
  - rewrite h3. constructor; [|constructor]. unfold quarters, frac. cbn. lra.
Qed.
Lemma setup_fresh (F L : Type) `{Num F} `{LogNum F L} d ts (o : om F) m (S : study F L) : setup d ts o m = Ok S ->
  st_post S = [] /\ st_means S = [] /\ st_shift S = st_shift (fresh (F := F) (L := L)) /\ st_aconv S = st_aconv (fresh (F := F) (L := L)) /\ st_bconv S = st_bconv (fresh (F := F) (L := L)).
Proof.
  unfold setup. cbn [runCalls runCall bind]. unfold setTM. destruct (isBreak m); [discriminate|]. cbn [bind]. unfold setOM.
  destruct (mapM _ _); [|discriminate]. cbn [bind]. destruct (mapM latticeOf _); [|discriminate]. cbn [bind]. intros E. injection E as <-. repeat split.
Qed.
(** The bias performs a random walk with a width of 0.1, that is 10 percent. *)
Definition wander : tm R := comb [grw "sigma" "p" (1 / 10); TM KRegime ["floor"%string] [HNum (-3)] (Some (Leaf HPNone)) []].
Lemma percent_studies ds prior m : isBreak m = false -> ds <> [] -> NoDup (allNames m) ->
  exists S S' : study R R, setup (data ds) None (coin prior) m = Ok S /\ setup (data ds) None (percentOM quarters prior) (inUnits ["p"%string] [100] m) = Ok S' /\
  studiesInUnits [100] S S' (coin prior) (percentOM quarters prior) m [quarters] (times ds) /\ nSteps S (coin prior) = List.length ds.
Proof.
  intros Hm Hd ND. assert (Hm' : isBreak (inUnits ["p"%string] [100] m) = false).
  { destruct m as [k hn vals p ms]. destruct k; try exact Hm; destruct vals as [|v1 [|v2 vals]]; exact Hm. }
  assert (ND' : NoDup (allNames (inUnits ["p"%string] [100] m))) by (unfold allNames; now rewrite names_units).
  destruct (coin_setup ds prior m Hm) as (S & E & h1 & h2 & h3 & h4 & _). destruct (percent_setup ds prior _ Hm') as (S' & E' & g1 & g2 & g3 & g4 & _).
  exists S, S'. split; [exact E|]. split; [exact E'|]. split; [|now apply (coin_steps ds prior m S)].
  destruct (setup_fresh R R _ _ _ _ _ E) as (a1 & a2 & a3 & a4 & a5). destruct (setup_fresh R R _ _ _ _ _ E') as (b1 & b2 & b3 & b4 & b5).
  constructor; [now apply coin_configured|now apply percent_configured|congruence|auto|split; [congruence|split; congruence]].
Qed.
Lemma quarters_spaced : Forall equallySpaced [quarters (F := R)].
Proof. constructor; [|constructor]. exists (1 / 4), (1 / 4), 1%nat. split; [lra|]. exact quarters_progression. Qed.
Example C73_ex : exists S S' : study R R,
  setup (data [1; 0; 1]%Z) None (coin slope) wander = Ok S /\ setup (data [1; 0; 1]%Z) None (percentOM quarters slope) (inUnits ["p"%string] [100] wander) = Ok S' /\
  studiesInUnits [100] S S' (coin slope) (percentOM quarters slope) wander [quarters] (times [1; 0; 1]%Z) /\
  Forall (fun u => 0 < u) [100] /\ Forall equallySpaced [quarters] /\ omInUnits [100] (coin slope) (percentOM quarters slope) /\ notSummingToOne (coin slope) [quarters] /\
  noChange wander /\ nSteps S (coin slope) = 3%nat /\
  inUnits ["p"%string] [100] wander = comb [grw "sigma" "p" (100 * (1 / 10)); TM KRegime ["floor"%string] [HNum (-3 - ln (100 * 1) / ln 10)] (Some (Leaf HPNone)) []].
Proof.
  destruct (percent_studies [1; 0; 1]%Z slope wander) as (S & S' & E & E' & SU & En); auto; [discriminate|cbn; repeat constructor; cbn; intuition discriminate|].
  exists S, S'. split; [exact E|]. split; [exact E'|]. split; [exact SU|]. split; [constructor; [lra|constructor]|]. split; [exact quarters_spaced|].
  split; [apply percent_om; right; eexists; reflexivity|]. split.
  - cbn. intros X. injection X as X. lra.
  - split; [|split; [exact En|reflexivity]]. apply nc_comb. repeat constructor; discriminate.
Qed.
(** A change-point after the first of three tosses *)
Example C73_changes_ex : exists S S' : study R R, let m := change "c" 0 in
  setup (data [1; 0; 1]%Z) None (coin slope) m = Ok S /\ setup (data [1; 0; 1]%Z) None (percentOM quarters slope) (inUnits ["p"%string] [100] m) = Ok S' /\
  studiesInUnits [100] S S' (coin slope) (percentOM quarters slope) m [quarters] (times [1; 0; 1]%Z) /\ plainChanges m /\
  resetCount m (timeOf (times [1; 0; 1]%Z) (coin slope)) (nSteps S (coin slope)) = 1%nat.
Proof.
  destruct (percent_studies [1; 0; 1]%Z slope (change "c" 0)) as (S & S' & E & E' & SU & En); auto; [discriminate|cbn; repeat constructor; cbn; intuition discriminate|].
  exists S, S'. split; [exact E|]. split; [exact E'|]. split; [exact SU|]. split; [apply pc_change|]. rewrite En. unfold resetCount, timeOf, resetAt, times. cbn. unfold eqR.
  repeat (destruct (Req_EM_T _ _)); cbn; auto; exfalso; lra.
Qed.

(** ** Executed *)
Definition floorAt {F} `{Num F} (x : Z) : tm F := TM KRegime ["floor"%string] [HNum (fofZ x)] (Some (Leaf HPNone)) [].
Definition uneven {F} `{Num F} : list F := [frac 1 4; frac 1 2; frac 7 8].
(** Posterior distributions and evidence are the same, mean values are converted. *)
Example C73_executed : (let* S0 := setup (L := Q) (data [1; 0; 1]%Z) None (coinOM quarters PNone) (floorAt 0) in
     let* S1 := setup (L := Q) (data [1; 0; 1]%Z) None (percentOM quarters PNone) (floorAt (-2)) in
     let* A := fit S0 false false in let* B := fit S1 false false in
     Ok ((st_post A, st_logEv A, st_means A), (st_post B, st_logEv B, st_means B)))%res = 
  Ok (([Some [Fin (1 # 6); Fin (1 # 3); Fin (1 # 2)]; Some [Fin (9 # 23); Fin (8 # 23); Fin (6 # 23)]; Some [Fin (9 # 43); Fin (16 # 43); Fin (18 # 43)]],
       Fin (43 # 416), [[Fin (7 # 12); Fin (43 # 92); Fin (95 # 172)]]),
      ([Some [Fin (1 # 6); Fin (1 # 3); Fin (1 # 2)]; Some [Fin (9 # 23); Fin (8 # 23); Fin (6 # 23)]; Some [Fin (9 # 43); Fin (16 # 43); Fin (18 # 43)]],
       Fin (43 # 416), [[Fin (175 # 3); Fin (1075 # 23); Fin (2375 # 43)]]))%Q.
Proof. vm_compute. reflexivity. Qed.

(** With a change-point the evidence depends on the units: here it is 100 times larger in percent. *)
Theorem C73_changes_refuted : exists S0 S1 A B : study Q Q,
  setup (data [1; 0; 1]%Z) None (coinOM quarters PNone) (change "c" 0%Q) = Ok S0 /\ setup (data [1; 0; 1]%Z) None (percentOM quarters PNone) (change "c" 0%Q) = Ok S1 /\
  fit S0 false false = Ok A /\ fit S1 false false = Ok B /\ st_post A = st_post B /\ st_logEv A <> st_logEv B.
Proof.
  assert (E : (let* S0 := setup (L := Q) (data [1; 0; 1]%Z) None (coinOM quarters PNone) (change "c" 0%Q) in
     let* S1 := setup (L := Q) (data [1; 0; 1]%Z) None (percentOM quarters PNone) (change "c" 0%Q) in
     let* A := fit S0 false false in let* B := fit S1 false false in Ok (st_post A, st_post B, st_logEv A, st_logEv B))%res =
     Ok ([Some [Fin (1 # 6); Fin (1 # 3); Fin (1 # 2)]; Some [Fin (3 # 10); Fin (2 # 5); Fin (3 # 10)]; Some [Fin (3 # 10); Fin (2 # 5); Fin (3 # 10)]],
         [Some [Fin (1 # 6); Fin (1 # 3); Fin (1 # 2)]; Some [Fin (3 # 10); Fin (2 # 5); Fin (3 # 10)]; Some [Fin (3 # 10); Fin (2 # 5); Fin (3 # 10)]],
         Fin (5 # 192), Fin (125 # 48))%Q) by (vm_compute; reflexivity).
  run E. do 4 eexists. repeat (split; [eassumption|]). split; congruence.
Qed.
(** So do local evidence values, even without any transition. *)
Theorem C73_local_refuted : exists S0 S1 A B : study Q Q,
  setup (data [1; 0; 1]%Z) None (coinOM quarters PNone) static = Ok S0 /\ setup (data [1; 0; 1]%Z) None (percentOM quarters PNone) static = Ok S1 /\
  fit S0 false false = Ok A /\ fit S1 false false = Ok B /\ st_post A = st_post B /\ st_logEv A = st_logEv B /\ st_local A <> st_local B.
Proof.
  assert (E : (let* S0 := setup (L := Q) (data [1; 0; 1]%Z) None (coinOM quarters PNone) static in
     let* S1 := setup (L := Q) (data [1; 0; 1]%Z) None (percentOM quarters PNone) static in
     let* A := fit S0 false false in let* B := fit S1 false false in Ok (st_post A, st_post B, st_logEv A, st_logEv B, st_local A, st_local B))%res =
     Ok ([Some [Fin (3 # 20); Fin (2 # 5); Fin (9 # 20)]; Some [Fin (3 # 20); Fin (2 # 5); Fin (9 # 20)]; Some [Fin (3 # 20); Fin (2 # 5); Fin (9 # 20)]],
         [Some [Fin (3 # 20); Fin (2 # 5); Fin (9 # 20)]; Some [Fin (3 # 20); Fin (2 # 5); Fin (9 # 20)]; Some [Fin (3 # 20); Fin (2 # 5); Fin (9 # 20)]],
         Fin (5 # 48), Fin (5 # 48), [Some (Fin 2); Some (Fin (10 # 7)); Some (Fin 2)], [Some (Fin (1 # 50)); Some (Fin (1 # 70)); Some (Fin (1 # 50))])%Q) by (vm_compute; reflexivity).
  run E. do 4 eexists. repeat (split; [eassumption|]). split; [congruence|]. split; congruence.
Qed.
(** Parameter values that are not equally spaced count as one unit apart, whatever the unit. *)
Theorem C73_uneven_refuted : exists S0 S1 A B : study Q Q,
  setup (data [1; 0; 1]%Z) None (coinOM uneven PNone) (floorAt (-1)) = Ok S0 /\ setup (data [1; 0; 1]%Z) None (percentOM uneven PNone) (floorAt (-3)) = Ok S1 /\
  fit S0 false false = Ok A /\ fit S1 false false = Ok B /\ st_post A <> st_post B.
Proof.
  assert (E : (let* S0 := setup (L := Q) (data [1; 0; 1]%Z) None (coinOM uneven PNone) (floorAt (-1)) in
     let* S1 := setup (L := Q) (data [1; 0; 1]%Z) None (percentOM uneven PNone) (floorAt (-3)) in
     let* A := fit S0 false false in let* B := fit S1 false false in Ok (nth 0 (st_post A) None, nth 0 (st_post B) None))%res =
     Ok (Some [Fin (180 # 1049); Fin (400 # 1049); Fin (469 # 1049)], Some [Fin (24 # 137); Fin (64 # 137); Fin (49 # 137)])%Q) by (vm_compute; reflexivity).
  run E. do 4 eexists. repeat (split; [eassumption|]). congruence.
Qed.
