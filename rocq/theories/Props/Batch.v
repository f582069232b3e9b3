(** Missing data, the Static model, multi-dimensional data: C07, C08, C48. *)
From Coq Require Import List ZArith QArith Reals Lra Lia Arith Bool String Permutation.
From Verif Require Import Base.Num Base.Exn Base.Arr Base.RSum Base.Lift Model.Helper Model.Tm Model.HyperParams Model.Study Model.Api
  Spec.Kernel Spec.Hmm Spec.Config Spec.Dist Spec.Data Proof.StaticProof Proof.DataProof Props.Ex Props.ExR.
Import ListNotations.
Local Open Scope R_scope.

(** every data segment has non-negative finite likelihoods *)
Definition finiteLik (S : study R R) (o : om R) (vs : list (list R)) : Prop :=
  forall s, In s (segments S o) -> finite (gridPoints vs) (processedPdf o (gridPoints vs) (meshgrid vs) s).

(** ** C08 *)
(** Static model, full fit: every posterior is the normalised product of the prior and all likelihoods; the evidence is the
    sum of these products *)
Theorem C08_batch : forall S o hn hp vs ts rho lik,
  configured S o (TM KStatic hn [] hp []) vs ts -> priorIs S vs o (om_prior o) rho -> likelihoods S o vs lik -> (0 < nSteps S o)%nat ->
  let N := gridPoints vs in let n := nSteps S o in
  let w x := rho x * Rprod (map (fun i => lik i x) (seq 0 n)) in
  let Z := rsum N w in
  (0 < Z -> exists S' v, fit S false false = Ok S' /\ st_logEv S' = Fin v /\ exp v = Z /\
     st_post S' = repeat (Some (arrOf N (fun x => w x / Z))) n) /\
  (Z = 0 -> exists S', fit S false false = Ok S' /\ st_logEv S' = NInf).
Proof.
  intros S o hn hp vs ts rho lik C P HL Hn N n w Z. split; intros HZ.
  - destruct (static_full S o hn hp vs ts rho lik C P HL Hn HZ) as (S' & E & Ev & Ep). exists S', (ln Z). rewrite exp_ln by exact HZ. auto.
  - exact (static_zero S o hn hp vs ts rho lik C P HL Hn false false HZ).
Qed.

Lemma prod_points (f : seg R -> nat -> R) l l' x : Permutation l l' -> Rprod (map (fun s => f s x) l) = Rprod (map (fun s => f s x) l').
Proof. intros HP. now apply Rprod_perm, Permutation_map. Qed.
Lemma reordered_points d d' : reordered d d' -> Permutation (points d) (points d').
Proof. intros [l l' HP|l l' HP]; now apply Permutation_map. Qed.
Lemma points_length d : List.length (points d) = rawLen d.
Proof. destruct d; apply map_length. Qed.

(** re-ordering the data (with whatever time stamps) changes neither the evidence nor any posterior *)
Theorem C08_order : forall S o hn hp vs ts rho d' ts',
  configured S o (TM KStatic hn [] hp []) vs ts -> priorIs S vs o (om_prior o) rho -> finiteLik S o vs -> om_seglen o = 1%nat ->
  reordered (st_raw S) d' -> List.length ts' = rawLen d' ->
  exists A B, fit S false false = Ok A /\ fit (loadData S d' (Some ts')) false false = Ok B /\
    st_logEv B = st_logEv A /\ (st_logEv A <> NInf -> st_post B = st_post A).
Proof.
  intros S o hn hp vs ts rho d' ts' C P HF Hs Hr Ht. set (m := TM KStatic hn [] hp []) in *. set (S2 := loadData S d' (Some ts')).
  pose proof (reordered_points _ _ Hr) as HP.
  assert (Hlen : rawLen d' = rawLen (st_raw S)) by (rewrite <- !points_length; symmetry; now apply Permutation_length).
  pose proof (cf_data _ _ _ _ _ C) as Hd. assert (C2 : configured S2 o m vs ts') by (apply (configured_load S o m vs ts); auto; lia).
  assert (P2 : priorIs S2 vs o (om_prior o) rho) by now apply priorIs_load.
  pose proof (segments_points S o Hs) as G1. pose proof (segments_points S2 o Hs) as G2. change (st_raw S2) with d' in G2.
  assert (HF2 : finiteLik S2 o vs).
  { intros s I. apply HF. rewrite G2 in I. rewrite G1. eapply Permutation_in; [|exact I]. now symmetry. }
  pose proof (segLik_likelihoods S o vs HF) as L1. pose proof (segLik_likelihoods S2 o vs HF2) as L2.
  assert (N1 : nSteps S o = rawLen (st_raw S)) by (unfold nSteps; now rewrite G1, points_length).
  assert (N2 : nSteps S2 o = rawLen (st_raw S)) by (unfold nSteps; now rewrite G2, points_length).
  set (l1 := fun i => segLik o vs (nth i (segments S o) (Seg1 []))) in *. set (l2 := fun i => segLik o vs (nth i (segments S2 o) (Seg1 []))) in *.
  assert (E : forall x, batchTo rho l2 (nSteps S2 o) x = batchTo rho l1 (nSteps S o) x).
  { intros x. unfold batchTo, l1, l2, nSteps. f_equal.
    rewrite (prod_nth (fun s => segLik o vs s x)), (prod_nth (fun s => segLik o vs s x)). rewrite G1, G2. apply prod_points. now symmetry. }
  destruct (static_any S o hn hp vs ts rho l1 C P L1 ltac:(lia) false false) as (A & EA & VA).
  destruct (static_any S2 o hn hp vs ts' rho l2 C2 P2 L2 ltac:(lia) false false) as (B & EB & VB).
  assert (EZ : rsum (gridPoints vs) (batchTo rho l2 (nSteps S2 o)) = rsum (gridPoints vs) (batchTo rho l1 (nSteps S o))).
  { apply rsum_ext. intros. apply E. }
  rewrite EZ in VB. exists A, B. split; [exact EA|]. split; [exact EB|]. rewrite VA, VB. split; [reflexivity|].
  destruct (Rlt_dec _ _) as [HZ|]; [|congruence]. intros _.
  destruct (static_full S o hn hp vs ts rho l1 C P L1 ltac:(lia) HZ) as (A' & EA' & _ & PA).
  destruct (static_full S2 o hn hp vs ts' rho l2 C2 P2 L2 ltac:(lia)) as (B' & EB' & _ & PB); [now rewrite EZ|].
  assert (A' = A) by congruence. assert (B' = B) by congruence. subst. rewrite PA, PB, EZ.
  transitivity (repeat (Some (arrOf (gridPoints vs) (fun x => batchTo rho l1 (nSteps S o) x / rsum (gridPoints vs) (batchTo rho l1 (nSteps S o))))) (nSteps S2 o)).
  - f_equal. f_equal. unfold arrOf. f_equal. apply tab_ext. intros. now rewrite E.
  - f_equal. lia.
Qed.
(** non-vacuity: biased prior; heads, tails, tails against tails, heads, tails *)
Example C08_example :
  let prior := PFun (fun g : list (list Q) => map Fin (map (fun p => p * 8)%Q (hd [] g))) in
  (let* S0 := setup (L := Q) (data [1; 0; 0]%Z) None (coinOM quarters prior) static in
   let* S1 := fit S0 false false in let* S2 := fit (loadData S0 (data [0; 1; 0]%Z) (Some [7; 5; 3]%Q)) false false in
   Ok (st_logEv S1, st_logEv S2, st_post S1, st_post S2))%res
  = Ok (Fin (17 # 192), Fin (17 # 192), repeat (Some [Fin (9 # 34); Fin (8 # 17); Fin (9 # 34)]) 3,
        repeat (Some [Fin (9 # 34); Fin (8 # 17); Fin (9 # 34)]) 3)%Q.
Proof. vm_compute. reflexivity. Qed.

(** ** C07 *)
(** missing data have likelihood one everywhere *)
Theorem C07_likelihood : forall (o : om R) N grid s,
  missing (om_multiply o) s -> processedPdf o N grid s = arrOf N (fun _ => 1).
Proof. intros. now apply missing_ones. Qed.
(** multiply=True: only the dimensions without missing values count *)
Theorem C07_dimensions : forall (o : om R) N grid rows (f : nat -> nat -> R),
  om_multiply o = true ->
  (forall j, (j < width rows)%nat -> ~ In NaN (column rows j) -> om_pdf o grid (Seg1 (column rows j)) = arrOf N (f j)) ->
  let complete := filter (fun j => negb (existsb xisnan (column rows j))) (seq 0 (width rows)) in
  processedPdf o N grid (Seg2 rows) = arrOf N (fun x => Rprod (map (fun j => f j x) complete)).
Proof.
  intros o N grid rows f Em Hf complete. cbn [processedPdf]. rewrite Em, columns_seq, map_map.
  set (g := fun j x => if existsb (xisnan (F := R)) (column rows j) then 1 else f j x).
  rewrite (map_ext_in _ (fun j => arrOf N (g j))).
  - rewrite <- (map_map g (arrOf N)), arrOf_ones, fold_amul. unfold arrOf. f_equal. apply tab_ext. intros x _. rewrite map_map, Rmult_1_l.
    unfold complete, g. generalize (seq 0 (width rows)). induction l as [|j l IH]; [reflexivity|]. cbn [map filter].
    destruct (existsb xisnan (column rows j)); cbn [negb map]; cbn [Rprod fold_right]; fold (Rprod (map (fun j => f j x) (filter (fun j => negb (existsb xisnan (column rows j))) l)));
      unfold Rprod in IH |- *; rewrite <- IH; lra.
  - intros j Hj. apply in_seq in Hj. unfold processed1, g. destruct (existsb xisnan (column rows j)) eqn:E; [apply arrOf_ones|].
    rewrite Hf; auto; [lia|]. intros I. apply isnan_In in I. congruence.
Qed.

(** Static model: inserting a missing datum anywhere (with whatever time stamps) changes neither the evidence, in any fit
    mode, nor the posterior of any other datum *)
Theorem C07_insert : forall S o hn hp vs ts rho d' k ts' fo eo,
  configured S o (TM KStatic hn [] hp []) vs ts -> priorIs S vs o (om_prior o) rho -> finiteLik S o vs -> om_seglen o = 1%nat ->
  insertedAt (om_multiply o) (st_raw S) d' k -> List.length ts' = rawLen d' ->
  exists A B, fit S fo eo = Ok A /\ fit (loadData S d' (Some ts')) fo eo = Ok B /\
    st_logEv B = st_logEv A /\
    (st_logEv A <> NInf -> eo = false -> List.length (st_post B) = Datatypes.S (List.length (st_post A)) /\
     forall i, (i < rawLen (st_raw S))%nat ->
       nth_error (st_post B) (if Nat.ltb i k then i else Datatypes.S i) = nth_error (st_post A) i).
Proof.
  intros S o hn hp vs ts rho d' k ts' fo eo C P HF Hs Hi Ht. set (m := TM KStatic hn [] hp []) in *. set (S2 := loadData S d' (Some ts')).
  assert (Hpts : exists s p1 p2, missing (om_multiply o) s /\ points (st_raw S) = p1 ++ p2 /\ points d' = p1 ++ s :: p2 /\ List.length p1 = k).
  { inversion Hi as [l1 l2 E1 E2|l1 l2 row Hm E1 E2]; subst; cbn [points].
    - exists (Seg1 [NaN]), (map (fun x => Seg1 [x]) l1), (map (fun x => Seg1 [x]) l2). rewrite !map_app, map_length. cbn. auto 6.
    - exists (Seg2 [row]), (map (fun x => Seg2 [x]) l1), (map (fun x => Seg2 [x]) l2). rewrite !map_app, map_length. cbn [map]. auto 6. }
  destruct Hpts as (s & p1 & p2 & Hm & Q1 & Q2 & Hk).
  assert (Hlen : rawLen d' = Datatypes.S (rawLen (st_raw S))).
  { rewrite <- !points_length, Q1, Q2, !app_length. cbn. lia. }
  pose proof (cf_data _ _ _ _ _ C) as Hd. assert (C2 : configured S2 o m vs ts') by (apply (configured_load S o m vs ts); auto; lia).
  assert (P2 : priorIs S2 vs o (om_prior o) rho) by now apply priorIs_load.
  pose proof (segments_points S o Hs) as G1. pose proof (segments_points S2 o Hs) as G2. change (st_raw S2) with d' in G2.
  rewrite Q1 in G1. rewrite Q2 in G2.
  assert (HF2 : finiteLik S2 o vs).
  { intros s0 I. rewrite G2 in I. apply in_app_or in I. unfold finiteLik in HF. rewrite G1 in HF. destruct I as [I|[<-|I]].
    - apply HF, in_or_app. now left.
    - rewrite missing_ones by auto. exists (tab (gridPoints vs) (fun _ => 1)). split; [reflexivity|]. split; [apply tab_length|]. apply Forall_tab. intros; lra.
    - apply HF, in_or_app. now right. }
  pose proof (segLik_likelihoods S o vs HF) as L1. pose proof (segLik_likelihoods S2 o vs HF2) as L2.
  assert (N1 : nSteps S o = rawLen (st_raw S)) by (unfold nSteps; rewrite G1, <- Q1; apply points_length).
  assert (N2 : nSteps S2 o = Datatypes.S (rawLen (st_raw S))) by (unfold nSteps; rewrite G2, <- Q2, points_length; exact Hlen).
  set (l1 := fun i => segLik o vs (nth i (segments S o) (Seg1 []))) in *. set (l2 := fun i => segLik o vs (nth i (segments S2 o) (Seg1 []))) in *.
  assert (Es : forall x, (x < gridPoints vs)%nat -> segLik o vs s x = 1).
  { intros x Hx. apply (segLik_unique o vs s (fun _ => 1)); auto. now apply missing_ones. }
  (* products of the first j likelihoods *)
  assert (E : forall j x, (j <= nSteps S o)%nat -> (x < gridPoints vs)%nat ->
     (((k < j)%nat -> batchTo rho l2 (Datatypes.S j) x = batchTo rho l1 j x) /\
      ((j <= k)%nat -> batchTo rho l2 j x = batchTo rho l1 j x) /\ (j = nSteps S o -> batchTo rho l2 (Datatypes.S j) x = batchTo rho l1 j x))).
  { intros j x Hj Hx. assert (Hj' : (j <= List.length (segments S o))%nat) by exact Hj.
    assert (D : forall i, (i <= nSteps S2 o)%nat -> batchTo rho l2 i x = rho x * Rprod (map (fun s => segLik o vs s x) (firstn i (segments S2 o)))).
    { intros i Hii. unfold batchTo, l2. rewrite (prod_nth_firstn (fun s => segLik o vs s x)) by exact Hii. reflexivity. }
    assert (D1 : batchTo rho l1 j x = rho x * Rprod (map (fun s => segLik o vs s x) (firstn j (segments S o)))).
    { unfold batchTo, l1. rewrite (prod_nth_firstn (fun s => segLik o vs s x)) by exact Hj'. reflexivity. }
    assert (Big : (k <= j)%nat -> batchTo rho l2 (Datatypes.S j) x = batchTo rho l1 j x).
    { intros Hkj. rewrite D, D1 by lia. rewrite G1, G2, !firstn_app. f_equal. rewrite (firstn_all2 (n := Datatypes.S j)) by lia. rewrite (firstn_all2 (n := j)) by lia.
      replace (Datatypes.S j - List.length p1)%nat with (Datatypes.S (j - List.length p1)) by lia. cbn [firstn]. rewrite !map_app, !Rprod_app. cbn [map].
      change (Rprod (segLik o vs s x :: ?l)) with (segLik o vs s x * Rprod l). 
      cbn [Rprod fold_right]. fold (Rprod (map (fun s0 => segLik o vs s0 x) (firstn (j - List.length p1) p2))). rewrite Es by auto. lra. }
    split; [intros; apply Big; lia|]. split.
    - intros Hjk. rewrite D, D1 by lia. rewrite G1, G2, !firstn_app. replace (j - List.length p1)%nat with O by lia. cbn [firstn]. reflexivity.
    - intros ->. apply Big. rewrite <- Hk. unfold nSteps. rewrite G1, app_length. lia. }
  assert (EZ : forall j j', (forall x, (x < gridPoints vs)%nat -> batchTo rho l2 j' x = batchTo rho l1 j x) ->
     rsum (gridPoints vs) (batchTo rho l2 j') = rsum (gridPoints vs) (batchTo rho l1 j)) by (intros; now apply rsum_ext).
  assert (ET : forall x, (x < gridPoints vs)%nat -> batchTo rho l2 (nSteps S2 o) x = batchTo rho l1 (nSteps S o) x).
  { intros x Hx. replace (nSteps S2 o) with (Datatypes.S (nSteps S o)) by lia. apply E; auto. }
  destruct (static_any S o hn hp vs ts rho l1 C P L1 ltac:(lia) fo eo) as (A & EA & VA).
  destruct (static_any S2 o hn hp vs ts' rho l2 C2 P2 L2 ltac:(lia) fo eo) as (B & EB & VB).
  rewrite (EZ _ _ ET) in VB. exists A, B. split; [exact EA|]. split; [exact EB|]. rewrite VA, VB. split; [reflexivity|].
  destruct (Rlt_dec _ _) as [HZ|]; [|congruence]. intros _ ->.
  assert (EArr : forall j j', (forall x, (x < gridPoints vs)%nat -> batchTo rho l2 j' x = batchTo rho l1 j x) ->
     arrOf (gridPoints vs) (fun x => batchTo rho l2 j' x / rsum (gridPoints vs) (batchTo rho l2 j')) = arrOf (gridPoints vs) (fun x => batchTo rho l1 j x / rsum (gridPoints vs) (batchTo rho l1 j))).
  { intros j j' Ex. unfold arrOf. f_equal. apply tab_ext. intros x Hx. now rewrite Ex, (EZ _ _ Ex). }
  destruct fo.
  - destruct (static_forward S o hn hp vs ts rho l1 C P L1 ltac:(lia) true false eq_refl HZ) as (A' & EA' & _ & PA).
    destruct (static_forward S2 o hn hp vs ts' rho l2 C2 P2 L2 ltac:(lia) true false eq_refl) as (B' & EB' & _ & PB); [now rewrite (EZ _ _ ET)|].
    assert (A' = A) by congruence. assert (B' = B) by congruence. subst A' B'. rewrite PA, PB, !map_length, !seq_length. split; [lia|]. intros i Hii.
    rewrite !nth_error_map. assert (NS : forall n j, (j < n)%nat -> nth_error (seq 0 n) j = Some j).
    { intros n0 j Hj. rewrite (FitResults.nth_error_nth' _ j O) by now rewrite seq_length. now rewrite seq_nth. }
    destruct (Nat.ltb_spec i k); rewrite !NS by lia; cbn [option_map]; f_equal; f_equal; apply EArr; intros x Hx.
    + apply (E (i + 1)%nat x); auto; lia.
    + apply (proj1 (E (i + 1)%nat x ltac:(lia) Hx)). lia.
  - destruct (static_full S o hn hp vs ts rho l1 C P L1 ltac:(lia) HZ) as (A' & EA' & _ & PA).
    destruct (static_full S2 o hn hp vs ts' rho l2 C2 P2 L2 ltac:(lia)) as (B' & EB' & _ & PB); [now rewrite (EZ _ _ ET)|].
    assert (A' = A) by congruence. assert (B' = B) by congruence. subst A' B'. rewrite PA, PB, !repeat_length. split; [lia|]. intros i Hii.
    assert (NR : forall (a : option (list (xnum R))) n j, (j < n)%nat -> nth_error (repeat a n) j = Some a).
    { intros a n0. induction n0 as [|n0 IH]; intros [|j] Hj; cbn; try lia; auto. apply IH. lia. }
    rewrite NR by (destruct (Nat.ltb i k); lia). rewrite NR by lia. f_equal. f_equal. now apply EArr.
Qed.
(** non-vacuity: a NaN between two tosses; forward-only fit *)
Example C07_example :
  (let* S0 := setup (L := Q) (data [1; 0]%Z) None (coinOM quarters PNone) static in
   let* S1 := fit S0 true false in let* S2 := fit (loadData S0 (Raw1 [Fin 1; NaN; Fin 0]%Q) None) true false in
   Ok (st_logEv S1, st_logEv S2, st_post S1, st_post S2))%res
  = Ok (Fin (5 # 24), Fin (5 # 24),
        [Some [Fin (1 # 6); Fin (1 # 3); Fin (1 # 2)]; Some [Fin (3 # 10); Fin (2 # 5); Fin (3 # 10)]],
        [Some [Fin (1 # 6); Fin (1 # 3); Fin (1 # 2)]; Some [Fin (1 # 6); Fin (1 # 3); Fin (1 # 2)]; Some [Fin (3 # 10); Fin (2 # 5); Fin (3 # 10)]])%Q.
Proof. vm_compute. reflexivity. Qed.

(** ** C48 *)
(** multiply=True: the likelihood of a vector is the product over its dimensions *)
Theorem C48_product : forall (o : om R) N grid rows (f : nat -> nat -> R),
  om_multiply o = true ->
  (forall j, (j < width rows)%nat -> processedPdf o N grid (Seg1 (column rows j)) = arrOf N (f j)) ->
  processedPdf o N grid (Seg2 rows) = arrOf N (fun x => Rprod (map (fun j => f j x) (seq 0 (width rows)))).
Proof.
  intros o N grid rows f Em Hf. cbn [processedPdf] in *. rewrite Em, columns_seq, map_map. rewrite (map_ext_in _ (fun j => arrOf N (f j))).
  - rewrite <- (map_map f (arrOf N)), arrOf_ones, fold_amul. unfold arrOf. f_equal. apply tab_ext. intros x _. rewrite map_map. lra.
  - intros j Hj. apply in_seq in Hj. apply Hf. lia.
Qed.
Lemma window_map {A B} (f : A -> B) l n : movingWindow (map f l) n = map (map f) (movingWindow l n).
Proof. unfold movingWindow. rewrite map_map, map_length. apply map_ext. intros i. now rewrite skipn_map, firstn_map. Qed.
(** permuting the dimensions of all data changes nothing, for any models, segment length, fit mode, missing or infinite values *)
Theorem C48_order : forall (S : study R R) o rows d p ts fo eo,
  st_om S = Some o -> om_multiply o = true -> (0 < om_seglen o)%nat -> Forall (fun row => List.length row = d) rows -> Permutation p (seq 0 d) ->
  sameOutcome (fit (loadData S (Raw2 rows) ts) fo eo) (fit (loadData S (Raw2 (map (permute p) rows)) ts) fo eo).
Proof.
  intros S o rows d p ts fo eo Eo Em Hseg Hd Hp.
  destruct (st_tm S) as [m|] eqn:Etm.
  2:{ unfold fit, checkConsistency. cbn [st_raw loadData rawLen st_om st_tm]. rewrite map_length, Eo, Etm. destruct (Nat.eqb _ _); reflexivity. }
  apply (fit_same _ _ o m); cbn; auto; rewrite ?map_length; auto.
  rewrite window_map, !map_map.
  assert (In1 : forall w, In w (movingWindow rows (om_seglen o)) -> Forall (fun row => List.length row = d) w /\ w <> []).
  { intros w Iw. unfold movingWindow in Iw. apply in_map_iff in Iw. destruct Iw as (i & <- & Ii). apply in_seq in Ii. split.
    - rewrite Forall_forall in Hd |- *. intros row Ir. apply Hd. rewrite <- (firstn_skipn i rows). apply in_or_app. right.
      rewrite <- (firstn_skipn (om_seglen o) (skipn i rows)). apply in_or_app. now left.
    - intros En. apply (f_equal (@List.length _)) in En. rewrite firstn_length, skipn_length in En. cbn in En. lia. }
  induction (movingWindow rows (om_seglen o)) as [|w l IH]; cbn [map]; constructor.
  - red. destruct (In1 w (or_introl eq_refl)) as [Hw Hne]. assert (Ew : width w = d).
    { destruct w as [|r w]; [congruence|]. cbn. now inversion Hw. }
    rewrite processed_permute; auto; rewrite Ew; auto.
  - apply IH. intros w' Iw'. apply In1. now right.
Qed.
(** non-vacuity: two coins tossed together, one value missing, random walk; exchanging the coins *)
Example C48_example :
  let rows := [[Fin 1; Fin 0]; [NaN; Fin 1]; [Fin 1; Fin 1]]%Q in
  (let* S0 := setup (L := Q) (Raw2 rows) None (coinOM quarters PNone) (grw "s" "p" (1 # 4)%Q) in let* S1 := fit S0 false false in
   let* S2 := fit (loadData S0 (Raw2 (map (fun r => [nth 1 r NaN; nth 0 r NaN]) rows)) None) false false in
   Ok (st_logEv S1, nth 1 (st_post S1) None, st_logEv S2, nth 1 (st_post S2) None))%res
  = Ok (Fin (125605 # 3871488), Some [Fin (12455 # 100484); Fin (7872 # 25121); Fin (56541 # 100484)], Fin (125605 # 3871488), Some [Fin (12455 # 100484); Fin (7872 # 25121); Fin (56541 # 100484)])%Q.
Proof. vm_compute. reflexivity. Qed.
