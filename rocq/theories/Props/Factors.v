(** C74: constant factors of the likelihood. *)
From Coq Require Import List ZArith QArith Reals Lra Lia Arith Bool String.
From Verif Require Import Base.Num Base.Exn Base.Arr Base.RSum Base.Lift Model.Helper Model.Tm Model.HyperParams Model.Study Model.Api
  Spec.Kernel Spec.Config Spec.Factors Proof.KernelProof Proof.FitInv Proof.FitThms Proof.SetupProof Proof.FactorProof
  Props.Ex Props.ExR Props.Inference Props.Parameters Props.Units Props.Setup.
Import ListNotations.
Local Open Scope R_scope.

(** If the likelihood of every data segment is multiplied by a positive number (which may differ from segment to segment, but not from one
    parameter value to the other), then a fit gives the same posterior distributions, mean values and time stamps, and fails with the same
    error, if it fails. The log-evidence changes by the logarithms of the factors, and each local evidence value is multiplied by the factor of
    its segment. For a full fit this needs a transition model without RegimeSwitch; forward-only and evidence-only fits do not need it. *)
Theorem C74_factors : forall S S' o o' m vs ts cs fo eo,
  sameButLikelihood S S' o o' m vs ts -> likelihoodsTimes S S' o o' vs cs -> (fo || eo = true)%bool \/ noRegime m /\ scalesWith S ->
  (forall A, fit S fo eo = Ok A -> exists B, fit S' fo eo = Ok B /\
     st_post B = st_post A /\ st_means B = st_means A /\ st_fmtTs B = st_fmtTs A /\
     (forall v, st_logEv A = Fin v -> st_logEv B = Fin (v + Rsum (map ln cs))) /\ (st_logEv A = NInf <-> st_logEv B = NInf) /\
     List.length cs = nSteps S o /\ List.length (st_local A) = nSteps S o /\ List.length (st_local B) = nSteps S o /\
     forall i c, nth_error cs i = Some c -> 
       forall x, nth_error (st_local A) i = Some (Some (Fin x)) -> nth_error (st_local B) i = Some (Some (Fin (c * x)))) /\
  (forall x, fit S fo eo = Err x -> fit S' fo eo = Err x).
Proof.
  intros S S' o o' m vs ts cs fo eo SL LT HB. pose proof (fit_factor S S' o o' m vs ts cs SL LT fo eo HB) as HF.
  pose proof (prop_len _ _ _ _ _ LT) as [_ Lc]. change (List.length (segments S o)) with (nSteps S o) in Lc.
  destruct (fit S fo eo) as [A|x] eqn:EA; destruct (fit S' fo eo) as [B|y] eqn:EB; try contradiction; (split; [intros A0 E|intros x0 E]); try discriminate; [|congruence].
  injection E as <-. exists B. split; [reflexivity|]. destruct HF as (H1 & H2 & H3 & H4 & H5 & LA). rewrite Lc in LA. do 3 (split; [assumption|]).
  split; [intros v Ev; rewrite H4, Ev; reflexivity|]. split; [rewrite H4; destruct (st_logEv A); cbn; split; congruence|]. split; [exact Lc|].
  split; [exact LA|]. split; [rewrite H5, Lift.map2_length; lia|].
  intros i c Ec x Ex. rewrite H5. clear - Ec Ex. revert i cs Ec Ex. generalize (st_local A) as l. induction l as [|y l IH]; intros [|i] [|c' cs] Ec Ex; try discriminate; cbn in *.
  - injection Ec as ->. injection Ex as ->. reflexivity.
  - now apply IH.
Qed.

(** ** A case *)
(** Likelihoods of the coin, reported as three times the probability. *)
Definition tripleOM {F} `{Num F} (vals : list F) (prior : priorSpec F) : om F :=
  {| om_names := ["p"%string]; om_values := [Some vals]; om_seglen := 1; om_multiply := true; om_prior := prior;
     om_pdf := fun g s => map (fun x => xmul (Fin (fofZ 3)) x) (coinPdf g s); om_estimate := fun _ _ => Err NotImplementedError |}.
Lemma triple_setup ds prior m : isBreak m = false ->
  exists S : study R R, setup (data ds) None (tripleOM quarters prior) m = Ok S /\ st_marg S = [quarters] /\ st_raw S = data ds /\ st_rawTs S = Some (times ds).
Proof.
  intros Hm. unfold setup. cbn [runCalls runCall bind]. unfold setTM. rewrite Hm. cbn [bind].
  unfold setOM. cbn [combine om_values om_names tripleOM mapM paramValues fst snd bind].
  rewrite quarters_progression, lattice_progression by lia. cbn [bind]. eexists. split; [reflexivity|].
  cbn [st_om st_tm st_marg st_raw st_rawTs st_lat set_tm loadData]. repeat split.
  cbn [rawLen data]. rewrite map_length. unfold times. f_equal. apply map_ext. intros. symmetry. apply INR_IZR_INZ.
Qed.
Lemma triple_configured ds prior m S : setup (data ds) None (tripleOM quarters prior) m = Ok S -> isBreak m = false -> ds <> [] -> NoDup (allNames m) ->
  configured S (tripleOM quarters prior) m [quarters] (times ds).
Proof.
  intros E Hm Hd ND. destruct (triple_setup ds prior m Hm) as (S' & E' & h3 & h4 & h5).
  rewrite E in E'. inversion E'; subst S'. rewrite <- h3. unfold setup in E.
  assert (h1 : st_om S = Some (tripleOM quarters prior) /\ st_tm S = Some m).
  { revert E. cbn [runCalls runCall bind]. unfold setTM. rewrite Hm. cbn [bind]. unfold setOM. cbn [combine om_values om_names tripleOM mapM paramValues fst snd bind].
    rewrite quarters_progression, lattice_progression by lia. cbn [bind]. intros X. injection X as <-. split; reflexivity. }
  destruct h1 as [h1 h2]. eapply C44_reachable_configured; eauto.
  - rewrite h4. cbn. unfold times. now rewrite !map_length, seq_length.
  - rewrite h4. cbn. rewrite map_length. destruct ds; [congruence|cbn; lia].
  - rewrite h3. reflexivity.
  - rewrite h3. discriminate.
  - rewrite h3. constructor; [|constructor]. unfold quarters, frac. cbn. lra.
Qed.
(** Three tosses, a Gaussian random walk followed by a NotEqual model. *)
Definition walkNotEq : tm R := comb [grw "sigma" "p" (1 / 10); TM KNotEq ["limit"%string] [HNum (-3)] (Some (Leaf HPNone)) []].
Example C74_ex : exists S S' : study R R,
  setup (data [1; 0; 1]%Z) None (coin PNone) walkNotEq = Ok S /\ setup (data [1; 0; 1]%Z) None (tripleOM quarters PNone) walkNotEq = Ok S' /\
  sameButLikelihood S S' (coin PNone) (tripleOM quarters PNone) walkNotEq [quarters] (times [1; 0; 1]%Z) /\
  likelihoodsTimes S S' (coin PNone) (tripleOM quarters PNone) [quarters] [3; 3; 3] /\ noRegime walkNotEq /\ scalesWith S.
Proof.
  assert (Hm : isBreak walkNotEq = false) by reflexivity. assert (ND : NoDup (allNames walkNotEq)) by (cbn; repeat constructor; cbn; intuition discriminate).
  destruct (coin_setup [1; 0; 1]%Z PNone walkNotEq Hm) as (S & E & _ & _ & _ & Er & _). destruct (triple_setup [1; 0; 1]%Z PNone walkNotEq Hm) as (S' & E' & _ & Er' & _).
  exists S, S'. split; [exact E|]. split; [exact E'|].
  destruct (setup_fresh R R _ _ _ _ _ E) as (a1 & a2 & a3 & a4 & a5). destruct (setup_fresh R R _ _ _ _ _ E') as (b1 & b2 & b3 & b4 & b5).
  split. { constructor; try reflexivity; [apply coin_configured; auto; discriminate|apply triple_configured; auto; discriminate|split; congruence|split; [congruence|split; congruence]]. }
  split.
  - assert (Es : segments S' (tripleOM quarters PNone) = segments S (coin PNone)) by (unfold segments; rewrite Er, Er'; reflexivity).
    unfold likelihoodsTimes. rewrite Es, (coin_segments _ _ _ _ E Hm). repeat (constructor; [lra|reflexivity|]). constructor.
  - split; [apply nr_comb; repeat constructor; discriminate|]. unfold scalesWith. rewrite a3, a4, a5. repeat split.
Qed.
(** Executed: a NotEqual model; the factor 3 of every toss appears in the local evidence, 27 in the evidence (evidence values are not in
    logarithms here). *)
Definition notEqualAt {F} `{Num F} (x : Z) : tm F := TM KNotEq ["limit"%string] [HNum (fofZ x)] (Some (Leaf HPNone)) [].
Definition runBoth (m : tm Q) := (let* S0 := setup (L := Q) (data [1; 0; 1]%Z) None (coinOM quarters PNone) m in
     let* S1 := setup (L := Q) (data [1; 0; 1]%Z) None (tripleOM quarters PNone) m in
     let* A := fit S0 false false in let* B := fit S1 false false in
     Ok ((st_post A, st_logEv A, st_means A, st_local A), (st_post B, st_logEv B, st_means B, st_local B)))%res.
Example C74_executed : runBoth (notEqualAt (-1)) =
  Ok (([Some [Fin (397 # 41637); Fin (12800 # 41637); Fin (9480 # 13879)]; Some [Fin (19200 # 22409); Fin (3200 # 22409); Fin (9 # 22409)]; Some [Fin (397 # 41637); Fin (12800 # 41637); Fin (9480 # 13879)]],
       Fin (4482917 # 21355424), [[Fin (111317 # 166548); Fin (25627 # 89636); Fin (111317 # 166548)]], [Some (Fin (41637 # 16277)); Some (Fin (22409 # 8009)); Some (Fin (41637 # 16277))]),
      ([Some [Fin (397 # 41637); Fin (12800 # 41637); Fin (9480 # 13879)]; Some [Fin (19200 # 22409); Fin (3200 # 22409); Fin (9 # 22409)]; Some [Fin (397 # 41637); Fin (12800 # 41637); Fin (9480 # 13879)]],
       Fin (121038759 # 21355424), [[Fin (111317 # 166548); Fin (25627 # 89636); Fin (111317 # 166548)]], [Some (Fin (124911 # 16277)); Some (Fin (67227 # 8009)); Some (Fin (124911 # 16277))]))%Q.
Proof. vm_compute. reflexivity. Qed.
(** With a RegimeSwitch the smoothed distributions depend on constant factors of the likelihood: in the backward pass the floor is applied to the
    product of the message and the likelihood before it is normalised. The filtered distributions are the same. *)
Theorem C74_regime_refuted : exists S0 S1 A B A' B' : study Q Q,
  setup (data [1; 0; 1]%Z) None (coinOM quarters PNone) (floorAt 0) = Ok S0 /\ setup (data [1; 0; 1]%Z) None (tripleOM quarters PNone) (floorAt 0) = Ok S1 /\
  (forall n g s, processedPdf (tripleOM quarters PNone) n g (Seg1 [Fin s]) = map (fun x => xmul (Fin 3%Q) x) (processedPdf (coinOM quarters PNone) n g (Seg1 [Fin s]))) /\
  fit S0 true false = Ok A' /\ fit S1 true false = Ok B' /\ st_post A' = st_post B' /\
  fit S0 false false = Ok A /\ fit S1 false false = Ok B /\ st_post A <> st_post B /\ st_means A <> st_means B.
Proof.
  assert (E : (let* S0 := setup (L := Q) (data [1; 0; 1]%Z) None (coinOM quarters PNone) (floorAt 0) in
     let* S1 := setup (L := Q) (data [1; 0; 1]%Z) None (tripleOM quarters PNone) (floorAt 0) in
     let* A' := fit S0 true false in let* B' := fit S1 true false in let* A := fit S0 false false in let* B := fit S1 false false in Ok (st_post A', st_post B', st_post A, st_post B, st_means A, st_means B))%res =
     Ok ([Some [Fin (1 # 6); Fin (1 # 3); Fin (1 # 2)]; Some [Fin (9 # 23); Fin (8 # 23); Fin (6 # 23)]; Some [Fin (9 # 43); Fin (16 # 43); Fin (18 # 43)]],
         [Some [Fin (1 # 6); Fin (1 # 3); Fin (1 # 2)]; Some [Fin (9 # 23); Fin (8 # 23); Fin (6 # 23)]; Some [Fin (9 # 43); Fin (16 # 43); Fin (18 # 43)]],
         [Some [Fin (1 # 6); Fin (1 # 3); Fin (1 # 2)]; Some [Fin (9 # 23); Fin (8 # 23); Fin (6 # 23)]; Some [Fin (9 # 43); Fin (16 # 43); Fin (18 # 43)]],
         [Some [Fin (3 # 20); Fin (2 # 5); Fin (9 # 20)]; Some [Fin (9 # 43); Fin (16 # 43); Fin (18 # 43)]; Some [Fin (9 # 43); Fin (16 # 43); Fin (18 # 43)]],
         [[Fin (7 # 12); Fin (43 # 92); Fin (95 # 172)]], [[Fin (23 # 40); Fin (95 # 172); Fin (95 # 172)]])%Q) by (vm_compute; reflexivity).
  run E. do 6 eexists. split; [eassumption|]. split; [eassumption|]. split; [intros; reflexivity|]. split; [eassumption|]. split; [eassumption|]. split; [congruence|]. split; [eassumption|]. split; [eassumption|]. split; congruence.
Qed.
