(** The coin study of Props/Ex.v over the reals: it meets the hypotheses of the inference theorems. *)
From Coq Require Import List ZArith Reals Lra Lia Arith Bool String.
From Verif Require Import Base.Num Base.Exn Base.Arr Base.RSum Base.Lift Model.Helper Model.Tm Model.HyperParams Model.Study Model.Api
  Spec.Kernel Spec.Hmm Spec.Config Spec.Dist Proof.KernelProof Proof.FitThms Proof.FitCore Proof.InferProof Proof.SetupProof Props.Ex Props.Setup.
Import ListNotations.
Local Open Scope R_scope.

Definition bits (ds : list Z) : Prop := Forall (fun d => d = 0%Z \/ d = 1%Z) ds.
Definition times (ds : list Z) : list R := map INR (seq 0 (List.length ds)).
Definition coin (prior : priorSpec R) : om R := coinOM quarters prior.

Lemma quarters_progression : quarters = progression (1 / 4) (1 / 4) 3.
Proof. unfold quarters, progression, frac. cbn. repeat (f_equal; try lra). Qed.

Lemma coin_setup ds prior m : isBreak m = false ->
  exists S : study R R, setup (data ds) None (coin prior) m = Ok S /\
    st_om S = Some (coin prior) /\ st_tm S = Some m /\ st_marg S = [quarters] /\ st_raw S = data ds /\
    st_rawTs S = Some (times ds) /\ st_lat S = [1 / 4].
Proof.
  intros Hm. unfold setup. cbn [runCalls runCall bind]. unfold setTM. rewrite Hm. cbn [bind].
  unfold setOM. cbn [combine om_values om_names coin coinOM mapM paramValues fst snd bind].
  rewrite quarters_progression, lattice_progression by lia. cbn [bind]. eexists. split; [reflexivity|].
  cbn [st_om st_tm st_marg st_raw st_rawTs st_lat set_tm loadData]. rewrite Rabs_right by lra. repeat split.
  cbn [rawLen data]. rewrite map_length. unfold times. f_equal. apply map_ext. intros. symmetry. apply INR_IZR_INZ.
Qed.

Lemma coin_configured ds prior m S : setup (data ds) None (coin prior) m = Ok S -> isBreak m = false -> ds <> [] -> NoDup (allNames m) ->
  configured S (coin prior) m [quarters] (times ds).
Proof.
  intros E Hm Hd ND. destruct (coin_setup ds prior m Hm) as (S' & E' & h1 & h2 & h3 & h4 & h5 & _).
  rewrite E in E'. inversion E'; subst S'. rewrite <- h3. unfold setup in E.
  eapply C44_reachable_configured; eauto.
  - rewrite h4. cbn. unfold times. now rewrite !map_length, seq_length.
  - rewrite h4. cbn. rewrite map_length. destruct ds; [congruence|cbn; lia].
  - rewrite h3. reflexivity.
  - rewrite h3. discriminate.
  - rewrite h3. constructor; [|constructor]. unfold quarters, frac. cbn. lra.
Qed.

Definition coinLik (ds : list Z) (i x : nat) : R :=
  let d := IZR (nth i ds 0%Z) in let p := nth x quarters 0 in d * p + (1 - d) * (1 - p).
Lemma coin_segments ds prior m S : setup (data ds) None (coin prior) m = Ok S -> isBreak m = false ->
  segments S (coin prior) = map (fun d => Seg1 [Fin (IZR d)]) ds.
Proof.
  intros E Hm. destruct (coin_setup ds prior m Hm) as (S' & E' & h1 & h2 & h3 & h4 & h5 & _).
  rewrite E in E'. inversion E'; subst S'. unfold segments. rewrite h4. cbn [formatData data om_seglen coin coinOM].
  unfold movingWindow. rewrite map_map, map_length. replace (List.length ds + 1 - 1)%nat with (List.length ds) by lia.
  clear. induction ds as [|d ds IH]; cbn; auto. f_equal. rewrite <- IH. rewrite <- seq_shift, map_map.
  apply map_ext. intros i. cbn. reflexivity.
Qed.
Lemma coin_steps ds prior m S : setup (data ds) None (coin prior) m = Ok S -> isBreak m = false ->
  nSteps S (coin prior) = List.length ds.
Proof. intros E Hm. unfold nSteps. rewrite (coin_segments _ _ _ _ E Hm). apply map_length. Qed.
Lemma coin_likelihoods ds prior m S : setup (data ds) None (coin prior) m = Ok S -> isBreak m = false -> bits ds ->
  likelihoods S (coin prior) [quarters] (coinLik ds) /\
  forall i x, (i < List.length ds)%nat -> (x < gridPoints [quarters])%nat -> 0 < coinLik ds i x.
Proof.
  intros E Hm Hb.
  assert (P : forall i x, (i < List.length ds)%nat -> (x < gridPoints [quarters])%nat -> 0 < coinLik ds i x).
  { intros i x Hi Hx. unfold coinLik. unfold bits in Hb. rewrite Forall_forall in Hb.
    specialize (Hb (nth i ds 0%Z) (nth_In _ _ Hi)). cbn in Hx.
    destruct x as [|[|[|x]]]; [| | |lia]; unfold quarters, frac; cbn; destruct Hb as [->| ->]; lra. }
  split; [|exact P]. intros i s Hs. rewrite (coin_segments _ _ _ _ E Hm) in Hs.
  assert (Hi : (i < List.length ds)%nat).
  { rewrite <- (map_length (fun d => Seg1 [Fin (IZR d)]) ds). apply nth_error_Some. congruence. }
  split; [|intros x Hx; left; now apply P]. rewrite nth_error_map in Hs. destruct (nth_error ds i) as [d|] eqn:Ed; [|discriminate].
  inversion Hs; subst. unfold coinLik. rewrite (nth_error_nth _ _ _ Ed). reflexivity.
Qed.
Lemma times_unit ds : unitSpaced (times ds).
Proof.
  intros i Hi. unfold times in *. rewrite map_length, seq_length in Hi.
  assert (N : forall j, (j < List.length ds)%nat -> nth j (map INR (seq 0 (List.length ds))) 0 = INR j).
  { intros j Hj. rewrite (nth_indep _ 0 (INR O)) by (rewrite map_length, seq_length; lia). now rewrite map_nth, seq_nth by lia. }
  rewrite !N by lia. apply S_INR.
Qed.
(** with a flat prior and any linear transition model, the data 0/1 have positive probability *)
Lemma coin_evidence ds m S : setup (data ds) None (coin PNone) m = Ok S -> isBreak m = false -> bits ds -> ds <> [] ->
  NoDup (allNames m) -> linear ["p"%string] m ->
  0 < evidence (gridPoints [quarters]) (nSteps S (coin PNone)) (flat (gridPoints [quarters]))
        (transition S (coin PNone) m (times ds) (flat (gridPoints [quarters]))) (coinLik ds).
Proof.
  intros E Hm Hb Hd ND Lin. pose proof (coin_configured _ _ _ _ E Hm Hd ND) as C.
  destruct (flat_ok S _ m _ _ C) as [F1 F2].
  assert (FE : fitEnv S (coin PNone) m [quarters] (times ds) (flat (gridPoints [quarters])) (envOf S (coin PNone) PNone) (flat (gridPoints [quarters]))).
  { change PNone with (om_prior (coin PNone)) at 2. apply fitEnv_stable; auto; [constructor|exact I]. }
  destruct (coin_likelihoods _ _ _ _ E Hm Hb) as [_ P].
  apply evidence_pos; auto.
  - rewrite F2. lra.
  - intros i. exact (Kst S (coin PNone) m [quarters] (times ds) _ _ _ C Lin FE i).
  - intros i x Hi. apply P. now rewrite (coin_steps _ _ _ _ E Hm) in Hi.
Qed.

(** a random walk combined with a change-point after the second of three observations *)
Definition walkChange : tm R := comb [grw "s" "p" (1 / 4); change "c" 1].
Lemma walkChange_ok : isBreak walkChange = false /\ NoDup (allNames walkChange) /\ linear ["p"%string] walkChange.
Proof.
  split; [reflexivity|]. split.
  - cbn. repeat constructor; cbn; intuition discriminate.
  - constructor. repeat constructor.
Qed.
