(** The origin of time in hyper-studies. *)
From Coq Require Import List ZArith Reals Lra Lia Arith Bool String.
From Verif Require Import Base.Num Base.Exn Base.Arr Base.RSum Base.Lift Model.Helper Model.Tm Model.HyperParams Model.Study Model.Api Model.Getters Model.Hyper Model.Changepoint
  Spec.Origin Spec.Names Spec.HyperSpec Proof.DataProof Proof.KernelProof Proof.NamesProof Proof.SetupProof Proof.GridProof Proof.HyperProof Proof.HyperMarg Proof.OriginProof.
Import ListNotations.
Local Open Scope R_scope.

Lemma map2_app {A B C} (f : A -> B -> C) l1 l2 m1 m2 : List.length l1 = List.length m1 -> map2 f (l1 ++ l2) (m1 ++ m2) = map2 f l1 m1 ++ map2 f l2 m2.
Proof. revert m1. induction l1 as [|a l1 IH]; intros [|b m1] E; cbn in *; try discriminate; auto. now rewrite IH by lia. Qed.
Lemma spots_TM k names vals p ms : spots (TM k names vals p ms) = flat_map spots ms ++ map (fun n => (n, match k with KChange | KSerial _ => true | _ => false end)) names.
Proof. reflexivity. Qed.
Lemma spots_names m : map fst (spots m) = allNames m.
Proof.
  induction m as [k names vals p ms IH] using tm_ind'. rewrite spots_TM, allNames_TM, map_app, map_map. cbn [fst]. rewrite map_id. f_equal.
  rewrite map_flat_map. apply flat_map_ext_Forall. exact IH.
Qed.
Lemma spots_len m : List.length (spots m) = List.length (allNames m). Proof. now rewrite <- spots_names, map_length. Qed.
Lemma spots_later d m : spots (later d m) = spots m.
Proof. induction m as [k names vals p ms IH] using tm_ind'. cbn [later]. rewrite !spots_TM. f_equal. rewrite flat_map_map. apply flat_map_ext_Forall. exact IH. Qed.
Lemma spots_assign f m : spots (assign f m) = spots m.
Proof. induction m as [k names vals p ms IH] using tm_ind'. cbn [assign]. rewrite !spots_TM. f_equal. rewrite flat_map_map. apply flat_map_ext_Forall. exact IH. Qed.
Lemma spots_noPriors m : spots (noPriors m) = spots m.
Proof. induction m as [k names vals p ms IH] using tm_ind'. cbn [noPriors]. rewrite !spots_TM. f_equal. rewrite flat_map_map. apply flat_map_ext_Forall. exact IH. Qed.
Lemma movable_assign d b f m : movable d b m -> movable d b (assign f m).
Proof.
  revert b m. apply (movable_ind' d (fun b m => movable d b (assign f m))); intros; cbn [assign map].
  - now apply mv_leaf.
  - now apply mv_det.
  - apply mv_comb. now apply Forall_map.
  - apply mv_serial; auto. now apply Forall_map.
Qed.
Lemma movable_noPriors d b m : movable d b (noPriors m) <-> movable d b m.
Proof.
  revert b. induction m as [k names vals p ms IH] using tm_ind'. intros b. cbn [noPriors]. rewrite Forall_forall in IH. split; intros Hm.
  - inversion Hm as [? ? ? ? ? ? K1 K2 K3|? ? ? ? ? ? ? K|? ? ? ? ? K|? ? ? ? ? m0 ms0 K1 K2]; subst.
    + now apply mv_leaf.
    + now apply mv_det.
    + apply mv_comb. rewrite Forall_forall in *. intros x Hx. apply IH; auto. apply K. now apply in_map.
    + destruct ms as [|m1 ms]; [discriminate|]. cbn [map] in *. match goal with E : _ :: _ = _ :: _ |- _ => injection E as -> -> end. apply mv_serial; [apply IH; cbn; auto|].
      rewrite Forall_forall in *. intros x Hx. apply IH; cbn; auto. apply K2. now apply in_map.
  - inversion Hm as [? ? ? ? ? ? K1 K2 K3|? ? ? ? ? ? ? K|? ? ? ? ? K|? ? ? ? ? m0 ms0 K1 K2]; subst.
    + now apply mv_leaf.
    + now apply mv_det.
    + apply mv_comb. apply Forall_map. rewrite Forall_forall in *. intros x Hx. apply IH; auto.
    + cbn [map]. apply mv_serial; [apply IH; cbn; auto|]. apply Forall_map. rewrite Forall_forall in *. intros x Hx. apply IH; cbn; auto.
Qed.

Section Values.
  Variable d : R.
  Definition shiftIf (b : bool) (v : hval R) : hval R := if b then laterVal d v else v.
  Definition spotOf (sp : list (string * bool)) (n : string) : bool := match lookup sp n with Some b => b | None => false end.
  Lemma lookup_later sp xs n : lookup (combine (map fst sp) (map2 (fun (p : string * bool) v => if snd p then laterVal d v else v) sp xs)) n =
    option_map (shiftIf (spotOf sp n)) (lookup (combine (map fst sp) xs) n).
  Proof.
    revert xs. induction sp as [|[a b] sp IH]; intros [|x xs]; cbn [map map2 combine lookup fst snd]; auto. unfold spotOf. cbn [lookup].
    destruct (String.eqb a n); [reflexivity|]. rewrite IH. reflexivity.
  Qed.
  Lemma assign_ext_in f g (m : tm R) : (forall n, f n = g n) -> assign f m = assign g m.
  Proof.
    intros E. induction m as [k names vals p ms IH] using tm_ind'. cbn [assign]. f_equal.
    - clear - E. revert vals. induction names as [|n names IH]; intros [|v vals]; cbn; auto. now rewrite E, IH.
    - apply map_ext_in. now rewrite Forall_forall in IH.
  Qed.
  Lemma later_assign f g (m : tm R) : (forall n b, In (n, b) (spots m) -> g n = option_map (shiftIf b) (f n)) ->
    later d (assign f m) = assign g (later d m).
  Proof.
    induction m as [k names vals p ms IH] using tm_ind'. intros E. cbn [assign later]. f_equal.
    - rewrite spots_TM in E. assert (E' : forall n, In n names -> g n = option_map (shiftIf (match k with KChange | KSerial _ => true | _ => false end)) (f n)).
      { intros n Hn. apply E, in_or_app. right. apply in_map_iff. eauto. }
      clear - E'. revert vals. induction names as [|n names IH]; intros [|v vals]; destruct k; cbn [map map2]; auto; (rewrite (E' n) by (now left)); (rewrite <- IH by (intros; apply E'; now right)); destruct (f n); reflexivity.
    - rewrite !map_map. apply map_ext_in. intros x Hx. rewrite Forall_forall in IH. apply IH; auto. intros n b Hn. apply E. rewrite spots_TM. apply in_or_app. left. apply in_flat_map. eauto.
  Qed.
  Lemma spotOf_in sp n b : NoDup (map fst sp) -> In (n, b) sp -> spotOf sp n = b.
  Proof.
    unfold spotOf. induction sp as [|[a c] sp IH]; intros ND I; [destruct I|]. cbn [lookup map fst] in *. inversion ND as [|? ? NI ND']; subst. destruct I as [I|I].
    - injection I as -> ->. now rewrite String.eqb_refl.
    - destruct (String.eqb_spec a n) as [->|]; auto. exfalso. apply NI. apply in_map_iff. exists (n, b). auto.
  Qed.
  (** setting all hyper-parameters *)
  Lemma set_later (m : tm R) xs : named m -> NoDup (allNames m) -> ~ In " "%string (allNames m) -> List.length xs = List.length (allNames m) ->
    setAll m xs = (assign (lookup (combine (allNames m) xs)) m, None) /\
    setAll (later d m) (laterVals d m xs) = (later d (assign (lookup (combine (allNames m) xs)) m), None).
  Proof.
    intros W ND NB EL. split.
    - unfold setAll. apply setLoop_assign'; auto using incl_refl. lia.
    - assert (EN : allNames (later d m) = allNames m) by (unfold allNames; now rewrite later_names).
      assert (W' : named (later d m)).
      { clear - W. revert W. induction m as [k names vals p ms IH] using tm_ind'. cbn [later]. rewrite !named_TM. intros [W1 W2]. split; [destruct k; rewrite ?map_length; auto|].
        apply Forall_map. rewrite Forall_forall in *. auto. }
      unfold setAll. rewrite setLoop_assign'; rewrite ?EN; auto using incl_refl.
      + f_equal. symmetry. apply later_assign. intros n b I. unfold laterVals. rewrite <- spots_names, lookup_later. f_equal. f_equal. apply spotOf_in; auto. now rewrite spots_names.
      + unfold laterVals. rewrite map2_length, spots_len; lia.
  Qed.
  Lemma laterRow_vals m row : map HNum (laterRow d m row) = laterVals d m (map HNum row).
  Proof. unfold laterRow, laterVals. generalize (spots m) as sp. intros sp. revert row. induction sp as [|[n b] sp IH]; intros [|x row]; cbn; auto. rewrite IH. now destruct b. Qed.
  Lemma allValues_TM k names vals p (ms : list (tm R)) : allValues (TM k names vals p ms) = flat_map allValues ms ++ flat_map (fun v => flatten (valNode v)) vals.
  Proof.
    unfold allValues. cbn [unpackVals flatten]. rewrite flat_map_app, flat_map_map, flat_map_map. reflexivity.
  Qed.
  Lemma later_plain m : named m -> Forall plain (map snd (assocs m)) -> List.length (allValues m) = List.length (spots m) /\ allValues (later d m) = laterVals d m (allValues m).
  Proof.
    induction m as [k names vals p ms IH] using tm_ind'. intros W P. apply named_TM in W as [W1 W2]. cbn [assocs] in P. rewrite map_app, snd_combine in P by auto. apply Forall_app in P as [P1 P2].
    assert (G : List.length (flat_map allValues ms) = List.length (flat_map spots ms) /\ flat_map allValues (map (later d) ms) = map2 (fun (p : string * bool) v => if snd p then laterVal d v else v) (flat_map spots ms) (flat_map allValues ms)).
    { clear P2 W1. induction ms as [|m ms IHm]; [split; reflexivity|]. inversion IH as [|? ? I1 I2]; subst. inversion W2 as [|? ? V1 V2]; subst. cbn [flat_map map] in *. rewrite map_app in P1. apply Forall_app in P1 as [Q1 Q2].
      destruct (I1 V1 Q1) as [A1 A2]. destruct (IHm I2 V2 Q2) as [B1 B2]. split; [rewrite !app_length; lia|]. rewrite map2_app by auto. rewrite A2, B2. reflexivity. }
    destruct G as [G1 G2].
    assert (V : flat_map (fun v => flatten (valNode v)) vals = vals) by (clear - P2; induction P2 as [|v vs Hv _ IH]; cbn [flat_map]; auto; rewrite IH; destruct v; cbn in *; try reflexivity; contradiction).
    cbn [later]. rewrite !allValues_TM. unfold laterVals. rewrite spots_TM. split.
    - rewrite !app_length, map_length. rewrite V. lia.
    - rewrite map2_app by auto. rewrite G2. f_equal. rewrite V. destruct k; rewrite ?V; try (clear - W1; revert vals W1; induction names as [|n names IH]; intros [|v vals] E; cbn in *; try discriminate; auto; now rewrite <- IH by lia).
      + assert (V' : flat_map (fun v => flatten (valNode v)) (map (laterVal d) vals) = map (laterVal d) vals) by (clear - P2; induction P2 as [|v vs Hv _ IH]; cbn [map flat_map]; auto; rewrite IH; destruct v; cbn in *; try reflexivity; contradiction).
        rewrite V'. clear - W1. revert vals W1. induction names as [|n names IH]; intros [|v vals] E; cbn in *; try discriminate; auto. now rewrite <- IH by lia.
      + assert (V' : flat_map (fun v => flatten (valNode v)) (map (laterVal d) vals) = map (laterVal d) vals) by (clear - P2; induction P2 as [|v vs Hv _ IH]; cbn [map flat_map]; auto; rewrite IH; destruct v; cbn in *; try reflexivity; contradiction).
        rewrite V'. clear - W1. revert vals W1. induction names as [|n names IH]; intros [|v vals] E; cbn in *; try discriminate; auto. now rewrite <- IH by lia.
  Qed.
End Values.

(** ** The hyper-grid *)
Section Grid.
  Variable d : R.
  Definition moveIf (b : bool) (x : R) : R := if b then x + d else x.
  Definition movePts (sp : list (string * bool)) (pts : list (list R)) : list (list R) := map2 (fun (p : string * bool) xs => if snd p then map (fun x => x + d) xs else xs) sp pts.
  Definition moveVals (sp : list (string * bool)) (vs : list (hval R)) : list (hval R) := map2 (fun (p : string * bool) v => if snd p then laterVal d v else v) sp vs.
  Definition moveRow (sp : list (string * bool)) (row : list R) : list R := map2 (fun (p : string * bool) x => if snd p then x + d else x) sp row.

  Lemma pointsOf_later v : pointsOf (laterVal d v) = rmap (map (fun x => x + d)) (pointsOf v). Proof. now destruct v. Qed.
  Lemma points_move sp : forall vs, List.length vs = List.length sp -> mapM pointsOf (moveVals sp vs) = rmap (movePts sp) (mapM pointsOf vs).
  Proof.
    induction sp as [|[n b] sp IH]; intros [|v vs] E; try discriminate; [reflexivity|]. cbn [moveVals map2 mapM snd]. fold (moveVals sp vs). rewrite IH by (cbn in E; lia).
    destruct b; [rewrite pointsOf_later|]; destruct (pointsOf v) as [xs|]; cbn [rmap bind]; auto; destruct (mapM pointsOf vs); reflexivity.
  Qed.
  Lemma points_length vs pts : mapM pointsOf vs = Ok pts -> List.length pts = List.length (vs : list (hval R)).
  Proof. revert pts. induction vs as [|v vs IH]; intros pts E; cbn in E; [now injection E as <-|]. destruct (pointsOf v); [|discriminate]. cbn in E. destruct (mapM _ vs); [|discriminate]. cbn in E. injection E as <-. cbn. now rewrite IH. Qed.
  Lemma diff_move xs : diff (F := R) (map (fun x => x + d) xs) = diff (F := R) xs.
  Proof. induction xs as [|a [|b xs] IH]; auto. cbn [map diff] in *. rewrite IH. f_equal. cbn. lra. Qed.
  Lemma gridConstant_move xs : gridConstant (F := R) (map (fun x => x + d) xs) = gridConstant (F := R) xs.
  Proof. destruct xs as [|a [|b xs]]; auto. unfold gridConstant. rewrite diff_move. cbn [map]. replace (fsub (b + d) (a + d)) with (fsub b a : R) by (cbn; lra). reflexivity. Qed.
  Lemma consts_move sp : forall pts, List.length pts = List.length sp -> map (gridConstant (F := R)) (movePts sp pts) = map (gridConstant (F := R)) pts.
  Proof. induction sp as [|[n b] sp IH]; intros [|xs pts] E; try discriminate; [reflexivity|]. cbn [movePts map2 map snd]. fold (movePts sp pts). rewrite IH by (cbn in E; lia). destruct b; [now rewrite gridConstant_move|reflexivity]. Qed.
  Lemma cart_move sp : forall pts, List.length pts = List.length sp -> cart (movePts sp pts) = map (moveRow sp) (cart pts).
  Proof.
    induction sp as [|[n b] sp IH]; intros [|xs pts] E; try discriminate; [reflexivity|]. cbn [movePts map2 cart snd]. fold (movePts sp pts). rewrite IH by (cbn in E; lia). generalize (cart pts) as rows. intros rows. clear. destruct b.
    - induction xs as [|x xs IH]; [reflexivity|]. cbn [map flat_map]. rewrite IH, map_app, !map_map. f_equal.
    - induction xs as [|x xs IH]; [reflexivity|]. cbn [map flat_map]. rewrite IH, map_app, !map_map. f_equal.
  Qed.
  Lemma replace_later ts v : replaceAll (map (fun t => t + d) ts) (laterVal d v) = laterVal d (replaceAll ts v).
  Proof.
    destruct v; try reflexivity. cbn [laterVal replaceAll]. f_equal. induction ts as [|a ts IH]; [reflexivity|]. destruct ts; [reflexivity|]. cbn [map removelast] in *. f_equal. exact IH.
  Qed.
  Lemma ownTimes_tl p v sp s ps vs : ownTimes (s :: sp) (p :: ps) (v :: vs) -> ownTimes sp ps vs.
  Proof. intros O i n. destruct (O (Datatypes.S i) n) as [O1 O2]. split; auto. Qed.
  Lemma replace_move ts : forall sp ps vs, ownTimes sp ps vs -> List.length vs = List.length sp ->
    map (replaceAll (map (fun t => t + d) ts)) (moveVals sp vs) = moveVals sp (map (replaceAll ts) vs).
  Proof.
    induction sp as [|[n b] sp IH]; intros ps [|v vs] O E; try discriminate; [reflexivity|]. cbn [moveVals map2 map snd]. fold (moveVals sp vs) (moveVals sp (map (replaceAll ts) vs)).
    f_equal.
    - destruct b; [apply replace_later|]. destruct v; try reflexivity. exfalso. destruct (O 0%nat n) as [_ X]. now apply X.
    - apply (IH (tl ps)); [|cbn in E; lia]. intros i k. destruct (O (Datatypes.S i) k) as [O1 O2]. split; auto. intros S1 p Hp. apply O1; auto. destruct ps; [destruct i; discriminate|exact Hp].
  Qed.
  Lemma priorOf_later p v c : timeless p -> priorOf (F := R) p (laterVal d v) c = priorOf p v c.
  Proof. destruct p; cbn [timeless]; intros T; try contradiction; unfold priorOf; rewrite ?pointsOf_later; [destruct (pointsOf v); cbn [rmap bind]; auto; now rewrite map_length|]. destruct v; cbn [laterVal]; auto. now rewrite map_length. Qed.
  Lemma priors_move : forall sp ps vs cs, ownTimes sp ps vs -> List.length vs = List.length sp ->
    priorsOf (F := R) (combine (combine ps (moveVals sp vs)) cs) = priorsOf (combine (combine ps vs) cs).
  Proof.
    induction sp as [|[n b] sp IH]; intros ps [|v vs] cs O E; try discriminate; [reflexivity|]. destruct ps as [|p ps]; [reflexivity|]. cbn [moveVals map2 snd combine]. fold (moveVals sp vs).
    destruct cs as [|c cs]; [reflexivity|]. cbn [priorsOf]. rewrite IH; [|now apply ownTimes_tl in O|cbn in E; lia].
    destruct b; [|reflexivity]. rewrite priorOf_later; [reflexivity|]. destruct (O 0%nat n) as [X _]. now apply X.
  Qed.
  Lemma later_priors m : unpackPriors (later d m) = unpackPriors m.
  Proof. induction m as [k names vals p ms IH] using tm_ind'. cbn [later unpackPriors]. f_equal. f_equal. rewrite map_map. apply map_ext_in. now rewrite Forall_forall in IH. Qed.
  Lemma later_allNames m : allNames (later d m) = allNames m. Proof. unfold allNames. now rewrite later_names. Qed.
  Lemma put_later m : forall ps, putPriors (later d m) ps = (later d (fst (putPriors m ps)), snd (putPriors m ps)).
  Proof.
    induction m as [k names vals p ms IH] using tm_ind'. intros ps. cbn [later]. rewrite !putPriors_TM.
    assert (G : forall ps, putAll (map (later d) ms) ps = (map (later d) (fst (putAll ms ps)), snd (putAll ms ps))).
    { clear - IH. induction ms as [|m ms IHm]; intros ps; [reflexivity|]. inversion IH as [|? ? I1 I2]; subst. cbn [map putAll]. rewrite I1. destruct (putPriors m ps) as [m1 ps1]. cbn [fst snd]. rewrite (IHm I2). destruct (putAll ms ps1). reflexivity. }
    rewrite G. destruct (putAll ms ps) as [ms1 ps1]. cbn [fst snd]. destruct p as [p|]; [|reflexivity]. destruct names; [destruct k; try reflexivity|]; destruct (putNl p ps1); reflexivity.
  Qed.
  Lemma cart_rows (pts : list (list R)) : Forall (fun row => List.length row = List.length pts) (cart pts).
  Proof. rewrite Forall_forall. intros row I. apply SetupProof.cart_In in I. induction I; cbn; congruence. Qed.
  Definition gridLater (m : tm R) (g : list (hval R) * list (list R) * list R * list (xnum R) * tm R) :=
    let '(vals, rows, cs, pv, m') := g in (laterVals d m vals, map (laterRow d m) rows, cs, pv, later d m').
  Lemma grid_later m ts : named m -> Forall plain (map snd (assocs m)) -> ownTimes (spots m) (allPriors m) (allValues m) ->
    createHyperGrid (later d m) (map (fun t => t + d) ts) = rmap (gridLater m) (createHyperGrid m ts) /\
    (forall vals rows cs pv m', createHyperGrid m ts = Ok (vals, rows, cs, pv, m') ->
       List.length vals = List.length (allNames m) /\ Forall (fun row => List.length row = List.length (allNames m)) rows /\ noPriors m' = noPriors m).
  Proof.
    intros W P O. destruct (later_plain d m W P) as [L1 L2]. unfold createHyperGrid. rewrite L2, later_allNames. unfold allPriors. rewrite later_priors. fold (allPriors m).
    change (laterVals d m (allValues m)) with (moveVals (spots m) (allValues m)). rewrite (replace_move ts _ _ _ O L1).
    assert (L3 : List.length (map (replaceAll ts) (allValues m)) = List.length (spots m)) by now rewrite map_length.
    assert (O' : ownTimes (spots m) (allPriors m) (map (replaceAll ts) (allValues m))).
    { intros i n. destruct (O i n) as [O1 O2]. split; auto. intros S1. rewrite nth_error_map. destruct (nth_error (allValues m) i) as [v|]; [|discriminate]. destruct v; discriminate. }
    cbv zeta. set (vs := map (replaceAll ts) (allValues m)) in *. clearbody vs. rewrite (points_move _ _ L3). destruct (mapM pointsOf vs) as [pts|] eqn:EP; [|split; [reflexivity|discriminate]]. cbn [rmap bind].
    pose proof (points_length _ _ EP) as L4. rewrite consts_move by lia.
    rewrite spots_len in *. assert (L5 : List.length (moveVals (spots m) vs) = List.length vs) by (unfold moveVals; rewrite map2_length, spots_len; lia). rewrite L5. destruct (allNames m) as [|n0 ns] eqn:EN.
    - split; [reflexivity|]. intros vals rows cs pv m' E. injection E as <- <- <- <- <-. auto.
    - destruct (_ && _); [|split; [reflexivity|discriminate]]. rewrite priors_move by (auto; rewrite spots_len, EN; auto). destruct (priorsOf _) as [pr|]; [|split; [reflexivity|discriminate]]. cbn [bind rmap gridLater]. split.
      + rewrite cart_move by (rewrite spots_len, EN; lia). rewrite put_later. reflexivity.
      + intros vals rows cs pv m' E. injection E as <- <- <- <- <-. split; [lia|]. split; [|apply noPriors_put]. pose proof (cart_rows pts) as C. rewrite L4, L3 in C. exact C.
  Qed.
End Grid.

(** ** All analyses *)
Section Runs.
  Variables (d : R) (m : tm R).
  Hypothesis ND : NoDup (allNames m).
  Hypothesis NB : ~ In " "%string (allNames m).
  Definition kin (S : study R R) : Prop := st_sel S = [] /\ exists m1, st_tm S = Some m1 /\ named m1 /\ movable d false m1 /\ spots m1 = spots m.
  Lemma kin_names m1 : spots m1 = spots m -> allNames m1 = allNames m. Proof. intros E. now rewrite <- !spots_names, E. Qed.
  Lemma named_later m1 : named m1 -> named (later d m1).
  Proof.
    induction m1 as [k names vals p ms IH] using tm_ind'. cbn [later]. rewrite !named_TM. intros [W1 W2]. split; [destruct k; rewrite ?map_length; auto|].
    apply Forall_map. rewrite Forall_forall in *. auto.
  Qed.
  Definition item (it : list R * xnum R) : list R * xnum R := (laterRow d m (fst it), snd it).
  Definition runLater (r : study R R * list (xnum R) * list (list (option (xnum R))) * list (list (xnum R))) :=
    let '(S0, evs, locs, avg) := r in (laterStudy d S0, evs, locs, avg).
  Lemma loop_later fo eo : forall items S avg, kin S -> Forall (fun it => List.length (fst it) = List.length (allNames m)) items ->
    hyperLoop fo eo (map item items) (laterStudy d S) avg = rmap runLater (hyperLoop fo eo items S avg) /\
    (forall S3 evs locs avg3, hyperLoop fo eo items S avg = Ok (S3, evs, locs, avg3) -> kin S3).
  Proof.
    induction items as [|[row pv] items IH]; intros S avg K HF.
    - split; [reflexivity|]. cbn. intros S3 evs locs avg3 E. now injection E as <- <- <- <-.
    - inversion HF as [|? ? H1 H2]; subst. cbn [fst] in H1. destruct K as (Ks & m1 & K1 & K2 & K3 & K4). pose proof (kin_names _ K4) as KN.
      cbn [map hyperLoop item fst snd laterStudy st_tm st_sel]. rewrite K1, Ks. cbn [option_map]. unfold setSelected.
      replace (laterRow d m row) with (laterRow d m1 row) by (unfold laterRow; now rewrite K4). rewrite laterRow_vals.
      destruct (set_later d m1 (map HNum row)) as [s1 s2]; rewrite ?KN; auto; [now rewrite map_length|]. rewrite s1, s2. set (m2 := assign _ m1).
      assert (M2 : named m2 /\ movable d false m2 /\ spots m2 = spots m) by (unfold m2; split; [now apply assign_named|]; split; [now apply movable_assign|]; now rewrite spots_assign).
      match goal with |- context [fit ?x fo eo] => change x with (laterStudy d (set_tm S m2 (st_tmlat S))) end. rewrite fit_later by (cbn; intros ? [= <-]; apply M2).
      destruct (fit (set_tm S m2 (st_tmlat S)) fo eo) as [S1|] eqn:EF; [|split; [reflexivity|discriminate]]. cbn [rmap bind].
      destruct (fit_keeps _ _ _ _ EF) as (k1 & _ & _ & _ & _ & _ & _ & _ & k2 & _). cbn [set_tm st_tm st_sel] in k1, k2.
      assert (K' : kin S1) by (split; [congruence|]; exists m2; intuition congruence).
      cbn [laterStudy st_logEv st_post st_local].
      assert (G : forall S2 avg', kin S2 ->
        (let* r := hyperLoop fo eo (map item items) (laterStudy d S2) avg' in let '(S3, evs, locs, avg2) := r in Ok (S3, st_logEv S1 :: evs, st_local S1 :: locs, avg2))%res =
        rmap runLater (let* r := hyperLoop fo eo items S2 avg' in let '(S3, evs, locs, avg2) := r in Ok (S3, st_logEv S1 :: evs, st_local S1 :: locs, avg2))%res /\
        (forall S3 evs locs avg3, (let* r := hyperLoop fo eo items S2 avg' in let '(S3, evs, locs, avg2) := r in Ok (S3, st_logEv S1 :: evs, st_local S1 :: locs, avg2))%res = Ok (S3, evs, locs, avg3) -> kin S3)).
      { intros S2 avg' KS. destruct (IH S2 avg' KS H2) as [I1 I2]. rewrite I1. destruct (hyperLoop fo eo items S2 avg') as [[[[S3 evs] locs] avg2]|]; [|split; [reflexivity|discriminate]]. cbn [rmap bind runLater]. split; [reflexivity|].
        intros S3' evs' locs' avg3 E. injection E as <- <- <- <-. eapply I2. reflexivity. }
      destruct (negb eo && xisfinite (st_logEv S1)); [|now apply G]. destruct (allSome (st_post S1)) as [ps|]; [|now apply G].
      match goal with |- context [hyperLoop fo eo (map item items) ?x ?y] => change x with (laterStudy d (with_post S1 (map Some (map (afloor (Fin (tiny (F := R)))) ps)))) end. apply G. exact K'.
  Qed.
  Lemma combine_rows rows pv : combine (map (laterRow d m) rows) pv = map item (combine rows pv).
  Proof. revert pv. induction rows as [|r rows IH]; intros [|p pv]; cbn; auto. now rewrite IH. Qed.
  Lemma Forall_fst {A B} (P : A -> Prop) (l : list A) (r : list B) : Forall P l -> Forall (fun x => P (fst x)) (combine l r).
  Proof. intros HF. revert r. induction HF; intros [|b r]; cbn; constructor; auto. Qed.
  Lemma split_parts (parts : list (list (list R))) (qs : list (list (xnum R))) :
    map (fun p => combine (fst p) (snd p)) (combine (map (map (laterRow d m)) parts) qs) = map (map item) (map (fun p => combine (fst p) (snd p)) (combine parts qs)).
  Proof. revert qs. induction parts as [|a parts IH]; intros [|q qs]; cbn; auto. now rewrite IH, combine_rows. Qed.
  Lemma run_later fo eo j rows pv S avg : kin S -> Forall (fun row => List.length row = List.length (allNames m)) rows ->
    runAnalyses fo eo j (map (laterRow d m) rows) pv (laterStudy d S) avg = rmap runLater (runAnalyses fo eo j rows pv S avg) /\
    (forall S3 evs locs avg3, runAnalyses fo eo j rows pv S avg = Ok (S3, evs, locs, avg3) -> kin S3).
  Proof.
    intros K HR. unfold runAnalyses. destruct (Nat.ltb_spec 1 j) as [Hj|Hj].
    - rewrite HyperProof.array_split_map, split_parts.
      assert (HP : Forall (Forall (fun it : list R * xnum R => List.length (fst it) = List.length (allNames m))) (map (fun p => combine (fst p) (snd p)) (combine (array_split rows j) (array_split pv j)))).
      { assert (HS : Forall (Forall (fun row => List.length row = List.length (allNames m))) (array_split rows j)).
        { rewrite <- (HyperProof.array_split_concat rows j ltac:(lia)) in HR. revert HR. generalize (array_split rows j). clear. induction l as [|a l IH]; intros HR; constructor; cbn in HR; apply Forall_app in HR; intuition. }
        revert HS. generalize (array_split rows j) (array_split pv j). clear. intros l r HS. revert r. induction HS; intros [|q r]; cbn; constructor; auto. now apply (Forall_fst (fun row => List.length row = List.length (allNames m))). }
      revert HP. generalize (map (fun p => combine (fst p) (snd p)) (combine (array_split rows j) (array_split pv j))). intros parts HP.
      assert (G : mapM (fun part => hyperLoop fo eo part (laterStudy d S) avg) (map (map item) parts) = rmap (map runLater) (mapM (fun part => hyperLoop fo eo part S avg) parts)).
      { clear - HP K ND NB. induction HP as [|p parts Hp HP IH]; [reflexivity|]. cbn [map mapM]. destruct (loop_later fo eo p S avg K Hp) as [-> _]. destruct (hyperLoop fo eo p S avg); [|reflexivity]. cbn [rmap bind]. rewrite IH. destruct (mapM _ parts); reflexivity. }
      rewrite G. destruct (mapM _ parts) as [rs|]; [|split; [reflexivity|discriminate]]. cbn [rmap bind].
      assert (M : forall avg, merge avg (map runLater rs) = merge avg rs).
      { clear. induction rs as [|[[[S evs] locs] a] rs IH]; intros avg; [reflexivity|]. cbn [map merge runLater]. now rewrite IH. }
      rewrite M. destruct (merge avg rs) as [[evs locs] avg']. split; [reflexivity|]. intros S3 e l a E. now injection E as <- <- <- <-.
    - rewrite combine_rows. apply loop_later; auto. now apply (Forall_fst (fun row => List.length row = List.length (allNames m))).
  Qed.

  (** hyper-studies in which all times are later *)
  Definition laterHyper (H : hyper R R) : hyper R R :=
    {| hy_S := laterStudy d (hy_S H); hy_vals := laterVals d m (hy_vals H); hy_names := hy_names H; hy_grid := map (laterRow d m) (hy_grid H);
       hy_const := hy_const H; hy_pv := hy_pv H; hy_dist := hy_dist H; hy_logEvs := hy_logEvs H |}.
  Lemma fitGrid_later fo eo j H : kin (hy_S H) -> Forall (fun row => List.length row = List.length (allNames m)) (hy_grid H) -> List.length (hy_vals H) = List.length (allNames m) ->
    hyperFitGrid (laterHyper H) fo eo j = rmap laterHyper (hyperFitGrid H fo eo j).
  Proof.
    intros K HR HV. unfold hyperFitGrid. cbn [laterHyper hy_S hy_grid hy_pv hy_const hy_vals hy_names hy_dist]. rewrite check_later. destruct (checkConsistency (hy_S H)) as [[o m0]|]; [|reflexivity]. cbn [rmap bind]. rewrite map_length.
    destruct (Nat.ltb 1 _).
    - cbv zeta. cbn [laterStudy st_fmt st_shape]. destruct (run_later fo eo j (hy_grid H) (hy_pv H) (hy_S H) (repeat (repeat NInf (natprod (st_shape (hy_S H)))) (List.length (st_fmt (hy_S H)))) K HR) as [R1 R2].
      match goal with |- context [runAnalyses fo eo j (map (laterRow d m) (hy_grid H)) ?a ?b ?c] => replace (runAnalyses fo eo j (map (laterRow d m) (hy_grid H)) a b c) with (rmap runLater (runAnalyses fo eo j (hy_grid H) (hy_pv H) (hy_S H) c)) by (symmetry; exact R1) end. clear R1.
      destruct (runAnalyses fo eo j (hy_grid H) (hy_pv H) (hy_S H) _) as [[[[S1 evs] locs] avg]|]; [|reflexivity]. cbn [rmap bind runLater]. destruct (R2 _ _ _ _ eq_refl) as (Ks & m1 & K1 & K2 & K3 & K4). pose proof (kin_names _ K4) as KN.
      cbn [laterStudy st_tm]. rewrite K1. cbn [option_map]. replace (laterVals d m (hy_vals H)) with (laterVals d m1 (hy_vals H)) by (unfold laterVals; now rewrite K4).
      destruct (set_later d m1 (hy_vals H)) as [s1 s2]; rewrite ?KN; auto. rewrite s1, s2. cbn [rmap]. f_equal. unfold laterHyper. cbn [hy_S hy_vals hy_names hy_grid hy_const hy_pv hy_dist hy_logEvs]. f_equal. unfold laterVals. now rewrite K4.
    - destruct K as (Ks & m1 & K1 & K2 & K3 & K4). rewrite fit_later by (rewrite K1; intros ? [= <-]; auto). destruct (fit (hy_S H) fo eo); reflexivity.
  Qed.
  Lemma fitGrid_keeps fo eo j H H' : kin (hy_S H) -> Forall (fun row => List.length row = List.length (allNames m)) (hy_grid H) -> List.length (hy_vals H) = List.length (allNames m) ->
    hyperFitGrid H fo eo j = Ok H' -> kin (hy_S H') /\ hy_grid H' = hy_grid H.
  Proof.
    intros K HR HV E. unfold hyperFitGrid in E. destruct (checkConsistency (hy_S H)) as [[o m0]|]; [|discriminate]. cbn [bind] in E. destruct (Nat.ltb 1 _).
    - cbv zeta in E. match type of E with context [runAnalyses fo eo j ?a ?b ?c ?e] => pose proof (proj2 (run_later fo eo j a b c e K HR)) as R2; destruct (runAnalyses fo eo j a b c e) as [[[[S1 evs] locs] avg]|]; [|discriminate] end.
      cbn [bind] in E. destruct (R2 _ _ _ _ eq_refl) as (Ks & m1 & K1 & K2 & K3 & K4). pose proof (kin_names _ K4) as KN. rewrite K1 in E. destruct (set_later d m1 (hy_vals H)) as [s1 s2]; rewrite ?KN; auto. rewrite s1 in E. injection E as <-. split; [|reflexivity].
      split; [exact Ks|]. eexists. split; [reflexivity|]. split; [now apply assign_named|]. split; [now apply movable_assign|]. now rewrite spots_assign.
    - destruct (fit (hy_S H) fo eo) as [S1|] eqn:EF; [|discriminate]. cbn [bind] in E. injection E as <-. split; [|reflexivity]. destruct (fit_keeps _ _ _ _ EF) as (k1 & _ & _ & _ & _ & _ & _ & _ & k2 & _).
      destruct K as (Ks & m1 & K1 & K2 & K3 & K4). split; [cbn; congruence|]. exists m1. cbn. intuition congruence.
  Qed.
End Runs.

(** ** Change-points *)
Section Points.
  Variables (d : R) (m : tm R).
  Hypothesis ND : NoDup (allNames m).
  Lemma later_changes m1 : unpackChangepointNames (later d m1) = unpackChangepointNames m1.
  Proof. induction m1 as [k names vals p ms IH] using tm_ind'. cbn [later unpackChangepointNames]. f_equal. f_equal. rewrite map_map. apply map_ext_in. now rewrite Forall_forall in IH. Qed.
  Lemma later_breaks m1 : unpackBreakpointNames (later d m1) = unpackBreakpointNames m1.
  Proof. induction m1 as [k names vals p ms IH] using tm_ind'. cbn [later unpackBreakpointNames]. f_equal. f_equal. rewrite map_map. apply map_ext_in. now rewrite Forall_forall in IH. Qed.
  Lemma later_serials m1 : serialCount (later d m1) = serialCount m1.
  Proof. induction m1 as [k names vals p ms IH] using tm_ind'. cbn [later serialCount]. f_equal. f_equal. rewrite map_map. apply map_ext_in. now rewrite Forall_forall in IH. Qed.
  Lemma changes_spots m1 n : In n (changepointNames m1) -> In (n, true) (spots m1).
  Proof.
    induction m1 as [k names vals p ms IH] using tm_ind'. unfold changepointNames. cbn [unpackChangepointNames flatten]. rewrite flat_map_app, in_app_iff, flat_map_map, spots_TM, in_app_iff, (in_flat_map spots).
    intros [I|I]; [apply in_flat_map in I as (x & I1 & I2); left; exists x; split; auto; rewrite Forall_forall in IH; now apply IH|]. right. destruct k; cbn in I; try contradiction. rewrite flat_map_flatten_Leaf in I. apply in_map_iff. now exists n.
  Qed.
  Lemma breaks_spots m1 n : In n (breakpointNames m1) -> In (n, true) (spots m1).
  Proof.
    induction m1 as [k names vals p ms IH] using tm_ind'. unfold breakpointNames. cbn [unpackBreakpointNames flatten]. rewrite flat_map_app, in_app_iff, flat_map_map, spots_TM, in_app_iff, (in_flat_map spots).
    intros [I|I]; [apply in_flat_map in I as (x & I1 & I2); left; exists x; split; auto; rewrite Forall_forall in IH; now apply IH|]. right. destruct k; cbn in I; try contradiction. rewrite flat_map_flatten_Leaf in I. apply in_map_iff. now exists n.
  Qed.
  Lemma dup_move l : hasDupF (F := R) (map (fun x => x + d) l) = hasDupF (F := R) l.
  Proof.
    induction l as [|a l IH]; [reflexivity|]. cbn [map hasDupF]. rewrite IH. f_equal. clear. induction l as [|b l IH]; [reflexivity|]. cbn [map existsb]. rewrite IH. f_equal. apply eqb_later.
  Qed.
  Lemma incr_move l : increasing (F := R) (map (fun x => x + d) l) = increasing (F := R) l.
  Proof. induction l as [|a [|b l] IH]; auto. cbn [map increasing] in *. rewrite IH. f_equal. apply ltb_later. Qed.
  Lemma row_nth sp row i n : nth_error sp i = Some (n, true) -> (i < List.length row)%nat -> nth i (moveRow d sp row) 0 = nth i row 0 + d.
  Proof. revert row i. induction sp as [|[a b] sp IH]; intros row i E L; [destruct i; discriminate|]. destruct row as [|x row]; [cbn in L; lia|]. destruct i; cbn in *; [now injection E as -> ->|]. apply IH; auto. lia. Qed.
  Lemma clash_later m1 rows : spots m1 = spots m -> Forall (fun row => List.length row = List.length (allNames m)) rows ->
    pointClash (F := R) (later d m1) (map (laterRow d m) rows) = pointClash m1 rows.
  Proof.
    intros E4 HR. unfold pointClash, changepointNames, breakpointNames. rewrite later_changes, later_breaks, later_allNames. fold (changepointNames m1) (breakpointNames m1). destruct (Nat.ltb 1 _); [|reflexivity].
    assert (KN : allNames m1 = allNames m) by now rewrite <- !spots_names, E4.
    destruct (mapM _ _) as [idx|] eqn:EI; [|reflexivity]. cbn [bind]. f_equal.
    assert (HI : Forall (fun i => exists n, nth_error (spots m) i = Some (n, true)) idx).
    { assert (HP : Forall (fun n => In (n, true) (spots m)) (changepointNames m1 ++ breakpointNames m1)).
      { rewrite <- E4. apply Forall_app. split; apply Forall_forall; intros n; [apply changes_spots|apply breaks_spots]. }
      apply mapM_Forall2 in EI. rewrite KN in EI. clear - EI HP ND. induction EI as [|n i ns is E F IH]; inversion HP as [|? ? P1 P2]; subst; constructor; auto. exists n.
      apply In_nth_error in P1 as [k P1]. assert (K : nth_error (allNames m) k = Some n) by (rewrite <- spots_names, nth_error_map, P1; reflexivity). rewrite (nameIndex_nth _ _ _ ND K) in E. now injection E as <-. }
    clear - HR HI. induction HR as [|row rows Hr _ IH]; [reflexivity|]. cbn [map existsb]. rewrite IH. f_equal. rewrite <- (dup_move (map (fun i => nth i row f0) idx)), map_map. f_equal. apply map_ext_in. intros i I. rewrite Forall_forall in HI. destruct (HI i I) as [n Hn].
    unfold laterRow. apply (row_nth _ _ _ n); auto. rewrite Hr, <- spots_len. apply nth_error_Some. congruence.
  Qed.
  Lemma pick_map {A B} (f : A -> B) mask l : pick mask (map f l) = map f (pick mask l).
  Proof. unfold pick. revert l. induction mask as [|b mask IH]; intros [|a l]; auto. cbn. destruct b; cbn; now rewrite IH. Qed.
  Lemma order_later points rows : (forall n, In n points -> In (n, true) (spots m)) ->
    orderMask (F := R) (allNames m) points (map (laterRow d m) rows) = orderMask (allNames m) points rows.
  Proof.
    intros HP. unfold orderMask. rewrite map_map. apply map_ext. intros row. rewrite <- (incr_move (firstn _ (pick _ row))), <- firstn_map. f_equal. f_equal.
    assert (HS : forall n b, In (n, b) (spots m) -> existsb (String.eqb n) points = true -> b = true).
    { intros n b I E. apply existsb_exists in E as (x & I2 & E). apply String.eqb_eq in E as <-. specialize (HP n I2). rewrite <- spots_names in ND. rewrite <- (spotOf_in _ _ _ ND I), <- (spotOf_in _ _ _ ND HP). reflexivity. }
    unfold laterRow, pointMask. rewrite <- spots_names. clear - HS. revert row. induction (spots m) as [|[n b] sp IH]; intros [|x row]; auto. cbn [map map2 fst snd]. unfold pick in *. cbn [combine filter fst].
    destruct (existsb (String.eqb n) points) eqn:E.
    - cbn [map snd]. rewrite (HS n b (or_introl eq_refl) E). f_equal. apply IH. intros k c I. apply HS. now right.
    - apply IH. intros k c I. apply HS. now right.
  Qed.
End Points.

(** ** Hyper-studies and change-point studies *)
Lemma format_study_later d (S : study R R) : formatStudy (laterStudy d S) = rmap (laterStudy d) (formatStudy S).
Proof. unfold formatStudy. cbn [laterStudy st_om st_rawTs]. destruct (st_om S) as [o|]; [|reflexivity]. destruct (st_rawTs S) as [rts|]; [|reflexivity]. cbn [option_map rmap]. rewrite format_later. reflexivity. Qed.
Lemma hyperGrid_later d m (H : hyper R R) : st_tm (hy_S H) = Some m -> st_sel (hy_S H) = [] -> timesMovable d m ->
  withHyperGrid (laterHyper d m H) = rmap (laterHyper d m) (withHyperGrid H) /\
  (forall H1, withHyperGrid H = Ok H1 -> kin d m (hy_S H1) /\ Forall (fun row => List.length row = List.length (allNames m)) (hy_grid H1) /\
     List.length (hy_vals H1) = List.length (allNames m) /\ hy_names H1 = allNames m).
Proof.
  intros Em Es ((W & ND & NB & P) & Mv & O). unfold withHyperGrid. cbn [laterHyper hy_S laterStudy st_tm st_fmtTs]. rewrite Em. cbn [option_map].
  destruct (grid_later d m (st_fmtTs (hy_S H)) W P O) as [G1 G2]. rewrite G1. destruct (createHyperGrid m _) as [[[[[vals rows] cs] pv] m']|]; [|split; [reflexivity|discriminate]]. cbn [rmap bind gridLater].
  rewrite later_allNames. split; [reflexivity|]. intros H1 [= <-]. cbn [hy_S hy_grid hy_vals hy_names set_tm st_sel st_tm]. destruct (G2 _ _ _ _ _ eq_refl) as (g1 & g2 & g3).
  split; [|auto]. split; [exact Es|]. exists m'. split; [reflexivity|]. split; [apply noPriors_named; rewrite g3; now apply noPriors_named|]. split; [apply movable_noPriors; rewrite g3; now apply movable_noPriors|].
  now rewrite <- spots_noPriors, g3, spots_noPriors.
Qed.
Theorem hyperFit_later d m (H : hyper R R) fo eo j : st_tm (hy_S H) = Some m -> st_sel (hy_S H) = [] -> timesMovable d m ->
  hyperFit (laterHyper d m H) fo eo j = rmap (laterHyper d m) (hyperFit H fo eo j).
Proof.
  intros Em Es T. pose proof T as ((W & ND & NB & P) & Mv & O). unfold hyperFit. cbn [laterHyper hy_S]. rewrite format_study_later. destruct (formatStudy (hy_S H)) as [S1|] eqn:EF; [|reflexivity]. cbn [rmap bind].
  assert (E1 : st_tm S1 = Some m /\ st_sel S1 = []) by (unfold formatStudy in EF; destruct (st_om (hy_S H)); [|discriminate]; destruct (st_rawTs (hy_S H)); [|discriminate]; injection EF as <-; cbn; auto).
  destruct (hyperGrid_later d m (with_study H S1)) as [G1 G2]; [apply E1|apply E1|exact T|].
  match goal with |- context [withHyperGrid ?x] => change x with (laterHyper d m (with_study H S1)) end. rewrite G1.
  destruct (withHyperGrid (with_study H S1)) as [H1|]; [|reflexivity]. cbn [rmap bind]. destruct (G2 H1 eq_refl) as (K & g1 & g2 & g3). pose proof K as (Ks & m1 & K1 & K2 & K3 & K4).
  cbn [laterHyper hy_S laterStudy st_tm hy_grid]. rewrite K1. cbn [option_map]. rewrite clash_later by auto. destruct (pointClash m1 (hy_grid H1)) as [[|]|]; try reflexivity. cbn [bind]. now apply fitGrid_later.
Qed.
Definition laterCp (d : R) (m : tm R) (C : cpstudy R R) : cpstudy R R :=
  {| cp_H := laterHyper d m (cp_H C); cp_all := map (laterRow d m) (cp_all C); cp_allPv := cp_allPv C; cp_mask := cp_mask C |}.
Theorem cpFit_later d m (C : cpstudy R R) fo eo j : st_tm (hy_S (cp_H C)) = Some m -> st_sel (hy_S (cp_H C)) = [] -> timesMovable d m ->
  changepointFit (laterCp d m C) fo eo j = rmap (laterCp d m) (changepointFit C fo eo j).
Proof.
  intros Em Es T. pose proof T as ((W & ND & NB & P) & Mv & O). unfold changepointFit. cbn [laterCp cp_H laterHyper hy_S]. rewrite format_study_later. destruct (formatStudy (hy_S (cp_H C))) as [S1|] eqn:EF; [|reflexivity]. cbn [rmap bind].
  assert (E1 : st_tm S1 = Some m /\ st_sel S1 = []) by (unfold formatStudy in EF; destruct (st_om (hy_S (cp_H C))); [|discriminate]; destruct (st_rawTs (hy_S (cp_H C))); [|discriminate]; injection EF as <-; cbn; auto).
  cbn [laterStudy st_tm]. rewrite (proj1 E1). cbn [option_map]. rewrite later_serials. destruct (Nat.ltb 1 _); [reflexivity|]. unfold changepointNames, breakpointNames. rewrite later_changes, later_breaks. fold (changepointNames m) (breakpointNames m).
  destruct (hyperGrid_later d m (with_study (cp_H C) S1)) as [G1 G2]; [apply E1|apply E1|exact T|].
  set (pts := match changepointNames m with [] => breakpointNames m | _ => _ end).
  assert (HP : forall n, In n pts -> In (n, true) (spots m)) by (intros n; unfold pts; pose proof (changes_spots m n) as Q; destruct (changepointNames m); auto; apply breaks_spots). clearbody pts.
  assert (G : forall cp bp : list string, match cp, bp with [], [] => Err ConfigurationError | _ :: _, _ :: _ => Err NotImplementedError | _, _ =>
              (let* H1 := withHyperGrid (with_study (laterHyper d m (cp_H C)) (laterStudy d S1)) in
              let mask := orderMask (hy_names H1) pts (hy_grid H1) in
              let pv := pick mask (hy_pv H1) in
              let pv' := amuls pv (xdiv (asum (hy_pv H1)) (asum pv)) in
              let* H2 := hyperFitGrid (with_grid H1 (pick mask (hy_grid H1)) pv') fo eo j in
              let* d := spreadDist mask (hy_dist H2) in
              let H3 := with_dist (with_grid H2 (hy_grid H2) (spread mask (hy_pv H2))) (Some d) in
              Ok {| cp_H := H3; cp_all := hy_grid H1; cp_allPv := hy_pv H1; cp_mask := mask |})%res end = rmap (laterCp d m) (match cp, bp with [], [] => Err ConfigurationError | _ :: _, _ :: _ => Err NotImplementedError | _, _ =>
              (let* H1 := withHyperGrid (with_study (cp_H C) S1) in
              let mask := orderMask (hy_names H1) pts (hy_grid H1) in
              let pv := pick mask (hy_pv H1) in
              let pv' := amuls pv (xdiv (asum (hy_pv H1)) (asum pv)) in
              let* H2 := hyperFitGrid (with_grid H1 (pick mask (hy_grid H1)) pv') fo eo j in
              let* d := spreadDist mask (hy_dist H2) in
              let H3 := with_dist (with_grid H2 (hy_grid H2) (spread mask (hy_pv H2))) (Some d) in
              Ok {| cp_H := H3; cp_all := hy_grid H1; cp_allPv := hy_pv H1; cp_mask := mask |})%res end)).
  { change (with_study (laterHyper d m (cp_H C)) (laterStudy d S1)) with (laterHyper d m (with_study (cp_H C) S1)). rewrite G1.
    assert (B : forall X : res (hyper R R), (forall H1, X = Ok H1 -> kin d m (hy_S H1) /\ Forall (fun row => List.length row = List.length (allNames m)) (hy_grid H1) /\ List.length (hy_vals H1) = List.length (allNames m) /\ hy_names H1 = allNames m) ->
      (let* H1 := rmap (laterHyper d m) X in
              let mask := orderMask (hy_names H1) pts (hy_grid H1) in
              let pv := pick mask (hy_pv H1) in
              let pv' := amuls pv (xdiv (asum (hy_pv H1)) (asum pv)) in
              let* H2 := hyperFitGrid (with_grid H1 (pick mask (hy_grid H1)) pv') fo eo j in
              let* d := spreadDist mask (hy_dist H2) in
              let H3 := with_dist (with_grid H2 (hy_grid H2) (spread mask (hy_pv H2))) (Some d) in
              Ok {| cp_H := H3; cp_all := hy_grid H1; cp_allPv := hy_pv H1; cp_mask := mask |})%res = rmap (laterCp d m) (let* H1 := X in
              let mask := orderMask (hy_names H1) pts (hy_grid H1) in
              let pv := pick mask (hy_pv H1) in
              let pv' := amuls pv (xdiv (asum (hy_pv H1)) (asum pv)) in
              let* H2 := hyperFitGrid (with_grid H1 (pick mask (hy_grid H1)) pv') fo eo j in
              let* d := spreadDist mask (hy_dist H2) in
              let H3 := with_dist (with_grid H2 (hy_grid H2) (spread mask (hy_pv H2))) (Some d) in
              Ok {| cp_H := H3; cp_all := hy_grid H1; cp_allPv := hy_pv H1; cp_mask := mask |})%res).
    { intros [H1|] HX; [|reflexivity]. destruct (HX H1 eq_refl) as (K & g1 & g2 & g3). cbn [rmap bind]. cbv zeta. cbn [laterHyper hy_names hy_grid hy_pv]. rewrite g3, order_later by auto. rewrite pick_map.
      set (mask := orderMask _ _ _). set (pv' := amuls _ _).
      match goal with |- context [hyperFitGrid ?x fo eo j] => change x with (laterHyper d m (with_grid H1 (pick mask (hy_grid H1)) pv')) end. rewrite fitGrid_later; auto.
      - destruct (hyperFitGrid (with_grid H1 _ pv') fo eo j) as [H2|]; [|reflexivity]. cbn [rmap bind laterHyper hy_dist]. destruct (spreadDist mask (hy_dist H2)); reflexivity.
      - cbn [with_grid hy_grid]. clear - g1. unfold pick. revert g1. generalize (hy_grid H1). clearbody mask. induction mask as [|b mask IH]; intros [|r rows] HR; cbn; auto. inversion HR; subst. destruct b; cbn; auto. }
    intros [|c cp] [|b bp]; try reflexivity; apply B; exact G2. }
  apply G.
Qed.

Lemma pick_Forall {A} (P : A -> Prop) mask l : Forall P l -> Forall P (pick mask l).
Proof. unfold pick. intros HF. revert mask. induction HF; intros [|b mask]; cbn; auto. destruct b; cbn; auto. Qed.
Lemma cpFit_keeps d m (C C' : cpstudy R R) fo eo j : st_tm (hy_S (cp_H C)) = Some m -> st_sel (hy_S (cp_H C)) = [] -> timesMovable d m -> changepointFit C fo eo j = Ok C' ->
  kin d m (hy_S (cp_H C')) /\ Forall (fun row => List.length row = List.length (allNames m)) (cp_all C') /\ Forall (fun row => List.length row = List.length (allNames m)) (hy_grid (cp_H C')).
Proof.
  intros Em Es T E. pose proof T as ((W & ND & NB & P) & Mv & O). unfold changepointFit in E. destruct (formatStudy (hy_S (cp_H C))) as [S1|] eqn:EF; [|discriminate]. cbn [bind] in E.
  assert (E1 : st_tm S1 = Some m /\ st_sel S1 = []) by (unfold formatStudy in EF; destruct (st_om (hy_S (cp_H C))); [|discriminate]; destruct (st_rawTs (hy_S (cp_H C))); [|discriminate]; injection EF as <-; cbn; auto).
  rewrite (proj1 E1) in E. destruct (Nat.ltb 1 _); [discriminate|].
  destruct (hyperGrid_later d m (with_study (cp_H C) S1)) as [_ G2]; [apply E1|apply E1|exact T|].
  destruct (changepointNames m) as [|c cp], (breakpointNames m) as [|b bp]; try discriminate; cbv zeta in E;
    (destruct (withHyperGrid (with_study (cp_H C) S1)) as [H1|]; [|discriminate]); destruct (G2 H1 eq_refl) as (K & g1 & g2 & g3); cbn [bind] in E;
    match type of E with context [orderMask ?a ?b ?c] => set (mask := orderMask a b c) in E end; match type of E with context [amuls ?a ?b] => set (pv' := amuls a b) in E end;
    (destruct (hyperFitGrid (with_grid H1 (pick mask (hy_grid H1)) pv') fo eo j) as [H2|] eqn:EG; [|discriminate]); cbn [bind] in E;
    (destruct (spreadDist mask (hy_dist H2)) as [q|]; [|discriminate]); cbn [bind] in E;
    destruct (fitGrid_keeps d m ND NB fo eo j (with_grid H1 (pick mask (hy_grid H1)) pv') H2 K (pick_Forall _ _ _ g1) g2 EG) as [K2 G3];
    injection E as <-; (split; [exact K2|]); (split; [exact g1|]); cbn [cp_H with_dist with_grid hy_grid]; rewrite G3; now apply pick_Forall.
Qed.
Lemma durationLoop_later d rnd i j ds (sp : list (string * bool)) na nb : nth_error sp i = Some (na, true) -> nth_error sp j = Some (nb, true) ->
  forall rows q acc, Forall (fun row => List.length row = List.length sp) rows ->
  durationLoop (F := R) rnd i j ds (map (moveRow d sp) rows) q acc = durationLoop rnd i j ds rows q acc.
Proof.
  intros Ei Ej. assert (Li : (i < List.length sp)%nat) by (apply nth_error_Some; congruence). assert (Lj : (j < List.length sp)%nat) by (apply nth_error_Some; congruence).
  induction rows as [|row rows IH]; intros q acc HF; [reflexivity|]. inversion HF as [|? ? H1 H2]; subst. cbn [map durationLoop]. cbv zeta.
  assert (A : nth i (moveRow d sp row) (f0 : R) = nth i row f0 + d) by (apply (row_nth d sp row i na); auto; lia).
  assert (B : nth j (moveRow d sp row) (f0 : R) = nth j row f0 + d) by (apply (row_nth d sp row j nb); auto; lia).
  rewrite A, B. assert (LT : fltb (nth i row f0 + d) (nth j row f0 + d) = fltb (nth i row (f0 : R)) (nth j row (f0 : R))) by apply ltb_later. rewrite LT.
  replace (fsub (nth j row f0 + d) (nth i row f0 + d)) with (fsub (nth j row (f0 : R)) (nth i row (f0 : R))) by (cbn; lra).
  clear LT A B. destruct q as [|p q]; destruct (fltb (nth i row f0) (nth j row f0)); auto. destruct (findIndex rnd ds _); auto. cbn [bind]. auto.
Qed.
Lemma duration_later d m rnd (C : cpstudy R R) na nb : NoDup (allNames m) -> kin d m (hy_S (cp_H C)) ->
  Forall (fun row => List.length row = List.length (allNames m)) (cp_all C) -> Forall (fun row => List.length row = List.length (allNames m)) (hy_grid (cp_H C)) ->
  In (na, true) (spots m) -> In (nb, true) (spots m) ->
  getDurationDistribution rnd (laterCp d m C) [na; nb] = getDurationDistribution rnd C [na; nb].
Proof.
  intros ND (Ks & m1 & K1 & K2 & K3 & K4) HA HG Ia Ib. unfold getDurationDistribution. cbn [laterCp cp_H laterHyper hy_S laterStudy st_tm cp_all hy_grid hy_dist]. rewrite K1. cbn [option_map].
  unfold hyperParameterIndex. rewrite later_allNames. assert (KN : allNames m1 = allNames m) by now rewrite <- !spots_names, K4. rewrite KN.
  apply In_nth_error in Ia as [a Ia]. apply In_nth_error in Ib as [b Ib].
  assert (Ea : nth_error (allNames m) a = Some na) by (rewrite <- spots_names, nth_error_map, Ia; reflexivity). assert (Eb : nth_error (allNames m) b = Some nb) by (rewrite <- spots_names, nth_error_map, Ib; reflexivity).
  rewrite (nameIndex_nth _ _ _ ND Ea), (nameIndex_nth _ _ _ ND Eb). cbn [bind]. rewrite <- spots_len in HA, HG.
  assert (G : forall i j n1 n2, nth_error (spots m) i = Some (n1, true) -> nth_error (spots m) j = Some (n2, true) ->
    match map (laterRow d m) (cp_all C) with
    | [] => Err TypeError
    | _ :: _ => let ds := unique (map (fun row => fsub (nth j row f0) (nth i row f0)) (map (laterRow d m) (hy_grid (cp_H C)))) in
        match hy_dist (cp_H C) with None => Err TypeError | Some d0 => (let* q := durationLoop rnd i j ds (map (laterRow d m) (cp_all C)) d0 (repeat (Fin f0) (List.length ds)) in Ok (ds, adivs q (asum q)))%res end
    end = match cp_all C with
    | [] => Err TypeError
    | _ :: _ => let ds := unique (map (fun row => fsub (nth j row f0) (nth i row f0)) (hy_grid (cp_H C))) in
        match hy_dist (cp_H C) with None => Err TypeError | Some d0 => (let* q := durationLoop rnd i j ds (cp_all C) d0 (repeat (Fin f0) (List.length ds)) in Ok (ds, adivs q (asum q)))%res end
    end).
  { intros i j n1 n2 Ei Ej.
    assert (D : map (fun row => fsub (nth j row f0) (nth i row f0)) (map (laterRow d m) (hy_grid (cp_H C))) = map (fun row => fsub (nth j row (f0 : R)) (nth i row (f0 : R))) (hy_grid (cp_H C))).
    { rewrite map_map. apply map_ext_in. intros row I. rewrite Forall_forall in HG. specialize (HG row I). assert (i < List.length (spots m))%nat by (apply nth_error_Some; congruence). assert (j < List.length (spots m))%nat by (apply nth_error_Some; congruence).
      unfold laterRow. change (map2 _ (spots m) row) with (moveRow d (spots m) row).
      pose proof (row_nth d (spots m) row i n1 Ei ltac:(lia)) as A. pose proof (row_nth d (spots m) row j n2 Ej ltac:(lia)) as B. cbn in *. rewrite A, B. lra. }
    cbv zeta. rewrite D. destruct (hy_dist (cp_H C)) as [q|].
    - rewrite (durationLoop_later d rnd i j _ (spots m) n1 n2 Ei Ej (cp_all C)) by auto. destruct (cp_all C); reflexivity.
    - destruct (cp_all C); reflexivity. }
  destruct (Nat.ltb a b); [eapply (G a b)|eapply (G b a)]; eauto.
Qed.

(** ** Setting up *)
Lemma isBreak_later d (m : tm R) : isBreak (later d m) = isBreak m. Proof. destruct m as [k ? ? ? ?]. now destruct k. Qed.
Lemma setup_later d sh ac bc raw ts (m : tm R) o :
  runCalls (newStudy sh ac bc) [CLoad raw (Some (map (fun t => t + d) ts)); CSetTM (later d m); CSetOM o] =
  rmap (laterStudy d) (runCalls (L := R) (newStudy sh ac bc) [CLoad raw (Some ts); CSetTM m; CSetOM o]).
Proof.
  cbn [runCalls runCall bind]. unfold setTM. rewrite isBreak_later. destruct (isBreak m); [reflexivity|]. cbn [bind]. unfold setOM.
  unfold loadData. rewrite map_length. cbn [newStudy st_rawTs set_tm st_raw st_tm]. destruct (mapM _ _) as [marg|]; [|reflexivity]. cbn [bind]. destruct (mapM latticeOf marg) as [lat|]; [|reflexivity]. cbn [bind rmap].
  destruct (Nat.eqb _ _); reflexivity.
Qed.
