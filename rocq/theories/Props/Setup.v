(** C23 segments and time stamps, C43 interval helpers, C44 parameter grid, C51 loading data *)
From Coq Require Import List ZArith QArith Reals Lra Lia Arith Bool String.
From Verif Require Import Base.Num Base.Exn Base.Arr Base.RSum Base.Lift Model.Helper Model.Tm Model.HyperParams Model.Study
  Model.Api Spec.Kernel Spec.Hmm Spec.Config Proof.FitThms Proof.SetupProof Props.Ex.
Import ListNotations.
Local Open Scope R_scope.
Local Open Scope res_scope.

(** ** C44 *)
(** After any successful sequence of calls: parameter k has the value with index (coordinate k of point x) at grid point x. *)
Theorem C44_grid_row_major : forall (S : study R R) sh ac bc cs, runCalls (newStudy sh ac bc) cs = Ok S -> st_om S <> None ->
  st_shape S = map (@List.length R) (st_marg S) /\
  List.length (st_grid S) = List.length (st_marg S) /\
  forall k x, (k < List.length (st_marg S))%nat -> (x < natprod (st_shape S))%nat ->
    nth x (nth k (st_grid S) []) 0 = nth (nth k (unravel (st_shape S) x) O) (nth k (st_marg S) []) 0.
Proof.
  intros S sh ac bc cs E Ho. destruct (reach_inv _ _ _ _ _ E) as [G _]. destruct (G Ho) as [G1 G2 _ _].
  split; [exact G1|]. rewrite G2. unfold meshgrid. split; [now rewrite map_length, seq_length|].
  intros k x Hk Hx. rewrite G1 in *.
  rewrite (nth_indep (map _ (seq 0 _)) [] (map (fun pt => nth 0 pt f0) (cart (st_marg S)))) by (rewrite map_length, seq_length; auto).
  rewrite (map_nth (fun k => map (fun pt => nth k pt f0) (cart (st_marg S)))), seq_nth by auto. cbn [Nat.add].
  rewrite (nth_indep _ 0 (nth k [] 0)) by (rewrite map_length, cart_length; auto).
  rewrite (map_nth (fun pt => nth k pt 0)). rewrite (cart_nth 0) by auto.
  assert (Lc : List.length (st_marg S) = List.length (unravel (map (@List.length R) (st_marg S)) x)).
  { clear. revert x. induction (st_marg S) as [|l ls IH]; intros x; cbn; auto. }
  rewrite (nth_indep _ 0 (nth (snd (@nil R, O)) (fst (@nil R, O)) 0)) by (rewrite map_length, combine_length, <- Lc; lia).
  rewrite (map_nth (fun p : list R * nat => nth (snd p) (fst p) 0)), combine_nth by auto. reflexivity.
Qed.
(** Every combination of parameter values is a grid point, and different grid points are different combinations. *)
Theorem C44_grid_complete : forall (S : study R R) sh ac bc cs, runCalls (newStudy sh ac bc) cs = Ok S -> st_om S <> None ->
  let pointAt x := map (fun g => nth x g 0) (st_grid S) in
  (forall pt, Forall2 (fun v l => In v l) pt (st_marg S) <-> exists x, (x < natprod (st_shape S))%nat /\ pointAt x = pt) /\
  (Forall (@NoDup R) (st_marg S) -> forall x y, (x < natprod (st_shape S))%nat -> (y < natprod (st_shape S))%nat ->
     pointAt x = pointAt y -> x = y).
Proof.
  intros S sh ac bc cs E Ho pointAt. destruct (reach_inv _ _ _ _ _ E) as [G _]. destruct (G Ho) as [G1 G2 _ _].
  assert (P : forall x, (x < natprod (st_shape S))%nat -> pointAt x = nth x (cart (st_marg S)) []).
  { intros x Hx. unfold pointAt. rewrite G2. unfold meshgrid. rewrite map_map. rewrite G1 in Hx.
    assert (Lp : List.length (nth x (cart (st_marg S)) []) = List.length (st_marg S)).
    { assert (I : In (nth x (cart (st_marg S)) []) (cart (st_marg S))) by (apply nth_In; rewrite cart_length; auto).
      apply cart_In in I. exact (Forall2_len _ _ _ I). }
    apply (list_eq_nth 0).
    - now rewrite map_length, seq_length.
    - rewrite map_length, seq_length. intros k Hk.
      rewrite (nth_indep _ 0 (nth x (map (fun pt => nth O pt f0) (cart (st_marg S))) 0)) by (rewrite map_length, seq_length; auto).
      rewrite (map_nth (fun k => nth x (map (fun pt => nth k pt f0) (cart (st_marg S))) 0)), seq_nth by auto. cbn [Nat.add].
      rewrite (nth_indep _ 0 (nth k [] 0)) by (rewrite map_length, cart_length; auto).
      now rewrite (map_nth (fun pt => nth k pt 0)). }
  assert (Ln : List.length (cart (st_marg S)) = natprod (st_shape S)) by (rewrite G1; apply cart_length).
  split.
  - intros pt. rewrite <- cart_In. split.
    + intros I. apply (In_nth _ _ []) in I. destruct I as (x & Hx & <-). exists x. rewrite Ln in Hx. auto.
    + intros (x & Hx & <-). rewrite P by auto. apply nth_In. now rewrite Ln.
  - intros ND x y Hx Hy Exy. rewrite !P in Exy by auto. pose proof (cart_NoDup _ ND) as ND'.
    rewrite NoDup_nth with (d := []) in ND'. apply ND'; auto; now rewrite Ln.
Qed.
(** The values are those given by the user. *)
Theorem C44_values_as_given : forall (S S' : study R R) o vs, setOM S o = Ok S' -> om_values o = map Some vs ->
  List.length (om_names o) = List.length vs -> st_om S' = Some o /\ st_marg S' = vs.
Proof.
  intros S S' o vs E Ev En. unfold setOM in E. rewrite Ev in E.
  assert (Em : forall vs names, List.length names = List.length vs ->
     mapM (paramValues o (st_raw S)) (combine (map Some vs) names) = Ok vs).
  { induction vs0 as [|v l IH]; intros [|a names] Hl; cbn in *; try discriminate; auto. rewrite IH by lia. reflexivity. }
  rewrite Em in E by auto. cbn [bind] in E. destruct (mapM latticeOf vs); [|discriminate]. cbn [bind] in E. inversion E; subst. cbn. auto.
Qed.
(** Lattice constant of each parameter: the spacing of equally spaced values, one for irregular values. *)
Theorem C44_lattice_constant : forall (S : study R R) sh ac bc cs, runCalls (newStudy sh ac bc) cs = Ok S -> st_om S <> None ->
  forall k, (k < List.length (st_marg S))%nat ->
    (forall a d n, (2 <= n)%nat -> nth k (st_marg S) [] = progression a d n -> nth k (st_lat S) 0 = Rabs d) /\
    (forall i, let v := nth k (st_marg S) [] in (i + 2 < List.length v)%nat ->
       / 10000000000 < Rabs ((nth (i + 2) v 0 - nth (i + 1) v 0) - (nth (i + 1) v 0 - nth i v 0)) -> nth k (st_lat S) 0 = 1).
Proof.
  intros S sh ac bc cs E Ho k Hk. destruct (reach_inv _ _ _ _ _ E) as [G _]. destruct (G Ho) as [_ _ G3 _].
  assert (El : latticeOf (nth k (st_marg S) []) = Ok (nth k (st_lat S) 0)).
  { revert G3 Hk. generalize (st_lat S). generalize k. induction (st_marg S) as [|v l IH]; intros j r Er Hj; [simpl in Hj; lia|].
    cbn in Er. destruct (latticeOf v) eqn:Ev; [|discriminate]. destruct (mapM latticeOf l); [|discriminate]. inversion Er; subst.
    destruct j; cbn; auto. apply IH; auto. simpl in Hj. lia. }
  split.
  - intros a d n Hn Ev. rewrite Ev, lattice_progression in El by auto. congruence.
  - intros i v Hi Hd. fold v in El. rewrite (lattice_irregular v i) in El by auto. congruence.
Qed.
(** The transition model always has the lattice constants of the study, whatever the order of the calls. *)
Theorem C44_transition_model_lattice : forall (S : study R R) sh ac bc cs, runCalls (newStudy sh ac bc) cs = Ok S ->
  st_tm S <> None -> st_tmlat S = st_lat S.
Proof. intros S sh ac bc cs E. exact (proj2 (reach_inv _ _ _ _ _ E)). Qed.

(** Any study on which the calls were made is [configured] in the sense used by the inference theorems. *)
Theorem C44_reachable_configured : forall (S : study R R) sh ac bc cs o m ts, runCalls (newStudy sh ac bc) cs = Ok S ->
  st_om S = Some o -> st_tm S = Some m -> NoDup (allNames m) ->
  st_rawTs S = Some ts -> List.length ts = rawLen (st_raw S) -> (0 < rawLen (st_raw S))%nat -> (0 < om_seglen o)%nat ->
  List.length (om_names o) = List.length (st_marg S) -> st_marg S <> [] ->
  Forall (fun v => nth 0 v 0 <> nth 1 v 0) (st_marg S) ->
  configured S o m (st_marg S) ts.
Proof.
  intros S sh ac bc cs o m ts E Eo Em ND Et Lt Ld Ls Ln Nn Hv. destruct (reach_inv _ _ _ _ _ E) as [G T].
  destruct G as [G1 G2 G3 _]; [congruence|]. constructor; auto.
  - apply T. congruence.
  - clear - G3 Hv. revert G3. generalize (st_lat S). induction Hv as [|v l Hv HF IH]; intros r Er; cbn in Er; [inversion Er; constructor|].
    destruct (latticeOf v) eqn:Ev; [|discriminate]. destruct (mapM latticeOf l); [|discriminate]. inversion Er; subst. constructor; auto.
    eapply lattice_pos; eauto.
Qed.
(** non-vacuity: transition model set before the observation model, two parameters, one irregular *)
Example C44_example : exists S : study R R,
  runCalls fresh [CSetTM (grw "s" "a" 1); CSetOM (pairOM [0; 2; 4] [1; 2; 7; 9] PNone)] = Ok S /\
  st_tmlat S = [2; 1] /\ st_lat S = [2; 1] /\ nth 6 (nth 1 (st_grid S) []) 0 = 7 /\ nth 6 (nth 0 (st_grid S) []) 0 = 2.
Proof.
  eexists. cbn [runCalls runCall bind]. unfold setTM. cbn [isBreak tmKind grw bind].
  unfold setOM. cbn [combine om_values om_names pairOM mapM paramValues fst snd bind].
  replace [0; 2; 4] with (progression 0 2 3) by (unfold progression; cbn; repeat f_equal; lra).
  rewrite lattice_progression by lia.
  rewrite (lattice_irregular [1; 2; 7; 9] 0).
  - cbn [bind]. split; [reflexivity|]. cbn [st_tmlat st_lat st_grid st_tm set_tm]. rewrite Rabs_right by lra.
    repeat split; cbn; lra.
  - cbn; lia.
  - cbn. replace (7 - 2 - (2 - 1)) with 4 by lra. rewrite Rabs_right; lra.
Qed.

(** ** C43 *)
Lemma cint_progression a b n : (2 <= n)%nat -> cint (F := R) a b n = progression a ((b - a) / (INR n - 1)) n.
Proof.
  intros Hn. unfold cint, linspace, progression. destruct n as [|[|n]]; try lia. apply map_ext. intros i. cbn [fadd fmul fdiv fsub fofZ NumR].
  rewrite <- !INR_IZR_INZ. rewrite minus_INR by lia. reflexivity.
Qed.
Lemma oint_progression a b n : let d := (b - a) / (INR n + 1) in oint (F := R) a b n = progression (a + d) d n.
Proof.
  intros d. unfold oint, linspace, inner. replace (n + 2)%nat with (S (S n)) by lia.
  set (f := fun i => fadd a (fmul (fofZ (Z.of_nat i)) (fdiv (fsub b a) (fofZ (Z.of_nat (S (S n) - 1)))))).
  change (tl (map f (seq 0 (S (S n))))) with (map f (seq 1 (S n))).
  rewrite seq_S, map_app. cbn [map]. rewrite removelast_last. rewrite <- seq_shift, map_map. unfold progression.
  apply map_ext. intros i. unfold f. cbn [fadd fmul fdiv fsub fofZ NumR]. rewrite <- !INR_IZR_INZ.
  replace (S (S n) - 1)%nat with (S n) by lia. rewrite !S_INR. unfold d. ring.
Qed.
Lemma progression_nth a d n i : (i < n)%nat -> nth i (progression a d n) 0 = a + INR i * d.
Proof.
  intros Hi. unfold progression. rewrite (nth_indep _ 0 (a + INR 0 * d)) by (rewrite map_length, seq_length; auto).
  rewrite (map_nth (fun i => a + INR i * d)). rewrite seq_nth; auto.
Qed.

Theorem C43_cint : forall a b n, (2 <= n)%nat ->
  List.length (cint (F := R) a b n) = n /\
  nth 0 (cint (F := R) a b n) 0 = a /\ nth (n - 1) (cint (F := R) a b n) 0 = b /\
  (forall i, (i + 1 < n)%nat -> nth (i + 1) (cint (F := R) a b n) 0 - nth i (cint (F := R) a b n) 0 = (b - a) / (INR n - 1)) /\
  (a < b -> latticeOf (cint (F := R) a b n) = Ok ((b - a) / (INR n - 1))).
Proof.
  intros a b n Hn. rewrite cint_progression by auto.
  assert (Hn1 : 1 <= INR n - 1) by (replace 1 with (INR 2 - 1) at 1 by (cbn; lra); apply le_INR in Hn; lra).
  split; [unfold progression; now rewrite map_length, seq_length|].
  split; [rewrite progression_nth by lia; cbn; lra|]. split.
  - rewrite progression_nth by lia. rewrite minus_INR by lia. cbn [INR]. field. lra.
  - split.
    + intros i Hi. rewrite !progression_nth by lia. rewrite plus_INR. cbn [INR]. ring.
    + intros Hab. rewrite lattice_progression by auto. f_equal. apply Rabs_right. apply Rle_ge, Rlt_le, Rdiv_lt_0_compat; lra.
Qed.
Theorem C43_oint : forall a b n, a < b ->
  List.length (oint (F := R) a b n) = n /\
  Forall (fun x => a < x < b) (oint (F := R) a b n) /\
  (forall i, (i < n)%nat -> nth i (oint (F := R) a b n) 0 = a + (INR i + 1) * ((b - a) / (INR n + 1))) /\
  ((2 <= n)%nat -> latticeOf (oint (F := R) a b n) = Ok ((b - a) / (INR n + 1))).
Proof.
  intros a b n Hab. rewrite oint_progression. set (d := (b - a) / (INR n + 1)).
  pose proof (pos_INR n) as Pn. assert (Hd : 0 < d) by (apply Rdiv_lt_0_compat; lra).
  assert (Ed : (INR n + 1) * d = b - a) by (unfold d; field; lra).
  split; [unfold progression; now rewrite map_length, seq_length|]. split; [|split].
  - unfold progression. apply Forall_map, Forall_forall. intros i Hi. apply in_seq in Hi.
    pose proof (pos_INR i). assert (INR i + 1 <= INR n) by (rewrite <- S_INR; apply le_INR; lia). split; nra.
  - intros i Hi. rewrite progression_nth by auto. unfold d. ring.
  - intros Hn. rewrite lattice_progression by auto. f_equal. apply Rabs_right. lra.
Qed.
Example C43_example : oint (F := R) 0 1 1 = [1 / 2] /\ cint (F := R) 0 1 3 = [0; 1 / 2; 1].
Proof.
  rewrite oint_progression, cint_progression by lia. unfold progression. cbn [seq map INR].
  split; repeat (f_equal; try lra).
Qed.

(** ** C51 *)
Theorem C51_load : forall (S : study R R) (d : raw R),
  (forall ts, st_raw (loadData S d ts) = d) /\
  st_rawTs (loadData S d None) = Some (map INR (seq 0 (rawLen d))) /\
  (forall ts, List.length ts = rawLen d -> st_rawTs (loadData S d (Some ts)) = Some ts) /\
  (forall ts, List.length ts <> rawLen d -> st_rawTs (loadData S d (Some ts)) = st_rawTs S).
Proof.
  intros S d. split; [reflexivity|]. split; [|split].
  - cbn. f_equal. apply map_ext. intros. symmetry. apply INR_IZR_INZ.
  - intros ts E. cbn. rewrite E, Nat.eqb_refl. reflexivity.
  - intros ts E. cbn. apply Nat.eqb_neq in E. now rewrite E.
Qed.
(** Consequence of keeping the old time stamps: the fit uses time stamps of earlier data, or fails if there are too few
    (IndexError) or none at all (TypeError). *)
Theorem C51_stale_timestamps_refuted : exists (S S' : study Q Q) (d : raw Q) (ts : list Q),
  setup (data [1; 0; 1]%Z) (Some [5; 6; 7]%Q) (coinOM quarters PNone) static = Ok S /\
  List.length ts <> rawLen d /\ fit (loadData S d (Some ts)) true false = Ok S' /\ st_fmtTs S' = [5; 6; 7]%Q.
Proof.
  eexists. eexists. exists (data [0; 0; 1]%Z), [1; 2]%Q.
  split; [vm_compute; reflexivity|]. split; [discriminate|]. split; [vm_compute; reflexivity|]. reflexivity.
Qed.
Theorem C51_no_timestamps_refuted : exists (d : raw Q) (ts : list Q),
  (let* st := setup d (Some ts) (coinOM quarters PNone) static in fit st true false) = Err TypeError.
Proof. exists (data [0; 0; 1]%Z), [1; 2]%Q. vm_compute. reflexivity. Qed.

(** ** C23 *)
Lemma movingWindow_length {A} (l : list A) k : (0 < k)%nat -> List.length (movingWindow l k) = (List.length l + 1 - k)%nat.
Proof. intros. unfold movingWindow. now rewrite map_length, seq_length. Qed.
Lemma movingWindow_nth {A} (l : list A) k i d : (i < List.length l + 1 - k)%nat ->
  nth i (movingWindow l k) d = firstn k (skipn i l).
Proof.
  intros Hi. unfold movingWindow. rewrite (nth_indep _ d (firstn k (skipn O l))) by (rewrite map_length, seq_length; auto).
  rewrite (map_nth (fun i => firstn k (skipn i l))), seq_nth; auto.
Qed.
Lemma nth_firstn_lt {A} (l : list A) k j d : (j < k)%nat -> nth j (firstn k l) d = nth j l d.
Proof. revert l j; induction k; intros [|a l] j Hj; cbn; try lia; destruct j; auto. apply IHk. lia. Qed.

Theorem C23_segments : forall {A} (l : list A) k d, (0 < k)%nat ->
  ((List.length l < k)%nat -> movingWindow l k = []) /\
  ((k <= List.length l)%nat -> List.length (movingWindow l k) = (List.length l - k + 1)%nat) /\
  forall i, (i + k <= List.length l)%nat ->
    List.length (nth i (movingWindow l k) []) = k /\
    forall j, (j < k)%nat -> nth j (nth i (movingWindow l k) []) d = nth (i + j) l d.
Proof.
  intros A l k d Hk. split; [|split].
  - intros Hl. unfold movingWindow. replace (List.length l + 1 - k)%nat with O by lia. reflexivity.
  - intros Hl. rewrite movingWindow_length by auto. lia.
  - intros i Hi. rewrite movingWindow_nth by lia. split.
    + rewrite firstn_length, skipn_length. lia.
    + intros j Hj. rewrite nth_firstn_lt by auto. rewrite nth_skipn. f_equal. lia.
Qed.
(** After any fit the study has one time stamp per segment, that of the last data point of the segment. *)
Theorem C23_timestamps : forall (S S' : study R R) o ts fo eo, fit S fo eo = Ok S' -> st_om S = Some o -> (0 < om_seglen o)%nat ->
  st_rawTs S = Some ts -> List.length ts = rawLen (st_raw S) ->
  List.length (st_fmtTs S') = List.length (st_fmt S') /\
  List.length (st_fmt S') = (rawLen (st_raw S) + 1 - om_seglen o)%nat /\
  forall i, nth i (st_fmtTs S') 0 = nth (i + (om_seglen o - 1)) ts 0.
Proof.
  intros S S' o ts fo eo E Eo Hk Et Lt.
  assert (A : st_fmt S' = formatData (st_raw S) (om_seglen o) /\ st_fmtTs S' = formatTimestamps ts (om_seglen o)).
  { unfold fit in E. destruct (checkConsistency S) as [[o' m]|] eqn:EC; [|discriminate]. cbn [bind] in E.
    assert (o' = o).
    { unfold checkConsistency in EC. rewrite Eo in EC. destruct (Nat.eqb _ _); [discriminate|].
      destruct (st_tm S); [|discriminate]. destruct (hasDup _); [discriminate|]. now inversion EC. }
    subst o'. rewrite Et in E. destruct (computePrior _) as [[[a p] al]|]; [|discriminate]. cbn [bind] in E.
    destruct (fwdLoop _ _ _ _ _ _ _ _ _) as [w|]; [|discriminate]. cbn [bind] in E.
    destruct (fw_stop w); [inversion E; subst; auto|]. destruct eo; [inversion E; subst; auto|].
    destruct fo; [inversion E; subst; auto|]. destruct (bwdLoop _ _ _ _ _) as [[out stop]|]; [|discriminate]. cbn [bind] in E.
    destruct stop; inversion E; subst; auto. }
  destruct A as [-> ->].
  assert (L : List.length (formatData (st_raw S) (om_seglen o)) = (rawLen (st_raw S) + 1 - om_seglen o)%nat).
  { unfold formatData, movingWindow. destruct (st_raw S); rewrite !map_length, seq_length; reflexivity. }
  rewrite L. unfold formatTimestamps. rewrite skipn_length. split; [lia|]. split; [reflexivity|]. intros i. apply nth_skipn.
Qed.
(** Data loaded without time stamps: the time stamp of segment i is the position i+k-1 of its last data point. *)
Theorem C23_default_timestamps : forall (S S' : study R R) d o fo eo, fit (loadData S d None) fo eo = Ok S' -> st_om S = Some o ->
  (0 < om_seglen o)%nat -> forall i, (i < List.length (st_fmt S'))%nat -> nth i (st_fmtTs S') 0 = INR (i + (om_seglen o - 1)).
Proof.
  intros S S' d o fo eo E Eo Hk i Hi.
  destruct (C23_timestamps _ S' o (map INR (seq 0 (rawLen d))) fo eo E Eo Hk) as (_ & L & T).
  - cbn. f_equal. apply map_ext. intros. symmetry. apply INR_IZR_INZ.
  - cbn. now rewrite map_length, seq_length.
  - cbn in L. rewrite T. rewrite (nth_indep _ 0 (INR O)) by (rewrite map_length, seq_length; lia).
    rewrite map_nth, seq_nth by lia. reflexivity.
Qed.
Example C23_example : movingWindow [10; 11; 12; 13]%nat 2 = [[10; 11]; [11; 12]; [12; 13]]%nat /\
  formatTimestamps [0; 1; 2; 3]%nat 2 = [1; 2; 3]%nat.
Proof. split; reflexivity. Qed.
