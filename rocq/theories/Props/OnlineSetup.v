(** Setting up online studies: consistency check at the first data point (C25), prior probabilities of the transition models (C36). *)
From Coq Require Import List ZArith QArith Reals Lra Lia Arith Bool String.
From Verif Require Import Base.Num Base.Exn Base.Arr Base.RSum Base.Lift Model.Helper Model.Tm Model.HyperParams Model.Study Model.Api
  Model.Getters Model.Hyper Model.Online Spec.Hmm Spec.Kernel Spec.Config Spec.Names Spec.Dist Spec.HyperSpec Spec.OnlineSpec
  Proof.HmmProof Proof.GridProof Proof.FitThms Proof.InferProof Proof.OnlineProof Proof.OnlineReal Proof.OnlineHistory Props.Ex Props.ExR Props.HyperParameters Props.Online Props.OnlineStream.
Import ListNotations.
Local Open Scope R_scope.

(** ** C25 *)
Lemma addTM_names (O O' : online R R) name m : addTM O name m = Ok O' ->
  (exists M, on_models O' = (on_models O ++ [M])%list /\ md_names M = allNames m) /\ exists m', st_tm (on_S O') = Some m' /\ allNames m' = allNames m.
Proof.
  unfold addTM, setTM. destruct (isBreak m); [discriminate|]. cbn [bind]. intros E.
  assert (G : forall ts, (let* g := createHyperGrid m ts in let '(vals, rows, consts, pv, m') := g in
     Ok (with_models (with_S O (set_tm (set_tm (on_S O) m (st_lat (on_S O))) m' (st_lat (set_tm (on_S O) m (st_lat (on_S O))))))
      (on_models O ++ [{| md_name := name; md_tm := m'; md_rows := rows; md_vals := vals; md_names := allNames m; md_const := consts; md_pv := pv |}])))%res = Ok O' ->
     (exists M, on_models O' = (on_models O ++ [M])%list /\ md_names M = allNames m) /\ exists m', st_tm (on_S O') = Some m' /\ allNames m' = allNames m).
  { intros ts X. destruct (createHyperGrid m ts) as [[[[[vals rows] cs] pv] m']|] eqn:EG; [|discriminate]. cbn [bind] in X. inversion X; subst O'.
    split; [eexists; split; [reflexivity|reflexivity]|]. exists m'. split; [reflexivity|].
    unfold createHyperGrid in EG. cbv zeta in EG. destruct (mapM pointsOf _); [|discriminate]. cbn [bind] in EG. destruct (allNames m) eqn:En; [inversion EG; congruence|].
    destruct (_ && _)%bool; [|discriminate]. destruct (priorsOf _); [|discriminate]. cbn [bind] in EG. inversion EG; subst.
    rewrite <- noPriors_names, noPriors_put, noPriors_names. auto. }
  destruct (on_ts O); [|destruct (existsb _ _); [discriminate|]]; eapply G; exact E.
Qed.
Lemma addAll_names : forall ms (O O' : online R R), addAll ms O = Ok O' ->
  flat_map md_names (on_models O') = (flat_map md_names (on_models O) ++ flat_map allNames (map snd ms))%list /\
  (ms <> [] -> on_models O' <> [] /\ exists m m', In m (map snd ms) /\ st_tm (on_S O') = Some m' /\ allNames m' = allNames m) /\
  st_om (on_S O') = st_om (on_S O) /\ st_raw (on_S O') = st_raw (on_S O).
Proof.
  induction ms as [|[nm m] ms IH]; intros O O' E.
  - cbn in E. inversion E; subst. cbn. rewrite app_nil_r. repeat split; congruence.
  - unfold addAll in E. cbn [fold_left bind fst snd] in E. destruct (addTM O nm m) as [O1|e] eqn:E1.
    2:{ exfalso. clear - E. induction ms as [|a ms IH]; cbn in E; [discriminate|auto]. }
    fold (addAll ms O1) in E. destruct (IH _ _ E) as (i1 & i2 & i3 & i4). destruct (addTM_names _ _ _ _ E1) as [(M & m1 & m2) (m' & m3 & m4)].
    destruct (addTM_keeps _ _ _ _ E1) as (_ & _ & _ & _ & _ & _ & k1 & k2 & _).
    cbn [map snd flat_map]. split; [|split; [|split; congruence]].
    + rewrite i1, m1, flat_map_app. cbn. rewrite m2, app_nil_r, app_assoc. reflexivity.
    + intros _. destruct ms as [|x ms].
      * cbn in E. inversion E; subst. split; [rewrite m1; intros X; apply app_eq_nil in X as [_ X]; discriminate X|]. exists m, m'. split; [now left|auto].
      * destruct (i2 ltac:(discriminate)) as (j1 & mm & mm' & j2 & j3 & j4). split; auto. exists mm, mm'. split; [now right|auto].
Qed.

(** An online study with the transition models [ms] raises ConfigurationError at the first data point if no observation model is set, there is
    no transition model, or two hyper-parameters share a name: within one transition model or in two different ones. Otherwise the first
    data point is accepted if the study has to wait for more (it is stored, at time 0). *)
Theorem C25_online : forall (S : study R R) ms store O d,
  addAll ms (newOnline S store) = Ok O -> rawLen (st_raw S) = 0%nat ->
  let bad := (ms = [] /\ st_tm S = None) \/ (ms <> [] /\ (st_om S = None \/ ~ NoDup (flat_map allNames (map snd ms)))) in
  (bad -> onlineStep O d = Err ConfigurationError) /\
  (forall o, ms <> [] -> ~ bad -> st_om S = Some o -> (0 < rawLen d < om_seglen o)%nat ->
   exists O', onlineStep O d = Ok O' /\ st_raw (on_S O') = d /\ st_rawTs (on_S O') = Some [0] /\ on_models O' = on_models O).
Proof.
  intros S ms store O d EA Er bad. destruct (addAll_names _ _ _ EA) as (n1 & n2 & n3 & n4). cbn [newOnline on_models on_S flat_map app] in n1, n3, n4. split.
  - intros B. unfold onlineStep, receive. destruct ms as [|a ms].
    + unfold addAll in EA. cbn in EA. inversion EA; subst O. cbn [newOnline on_models on_S]. destruct B as [[_ ->]|[B _]]; [reflexivity|congruence].
    + destruct (n2 ltac:(discriminate)) as (Hne & _). destruct (on_models O) as [|M Ms] eqn:EM; [congruence|]. cbn [bind]. rewrite EM, n4, Er. cbn [Nat.eqb].
      destruct B as [[B _]|[_ [B|B]]]; [discriminate B| |].
      * destruct (hasDup _); [reflexivity|]. unfold checkConsistency. cbn [set_data st_raw st_om]. rewrite n3, B. destruct (Nat.eqb (rawLen d) 0); reflexivity.
      * destruct (hasDup (flat_map md_names (M :: Ms))) eqn:D; [reflexivity|]. apply hasDup_iff in D. rewrite n1 in D. contradiction.
  - intros o Hms NB Eo Hd. destruct (n2 Hms) as (Hne & m & m' & h1 & h2 & h3). unfold onlineStep, receive.
    assert (ND : NoDup (flat_map allNames (map snd ms))). { destruct (hasDup (flat_map allNames (map snd ms))) eqn:D; [|now apply hasDup_iff]. exfalso. apply NB. right. split; auto. right. intros C. apply hasDup_iff in C. congruence. }
    destruct (on_models O) as [|M Ms] eqn:EM; [congruence|]. cbn [bind]. rewrite EM, n4, Er. cbn [Nat.eqb]. rewrite n1, (hasDup_NoDup _ ND).
    unfold checkConsistency. cbn [set_data st_raw st_om st_tm]. rewrite n3, Eo, h2.
    assert (NDm : NoDup (allNames m')).
    { rewrite h3. clear - ND h1. induction (map snd ms) as [|x l IH]; [destruct h1|]. cbn in ND. destruct h1 as [->|h1].
      - clear IH. induction (allNames m) as [|y z IHz]; [constructor|]. cbn in ND. inversion ND; subst. constructor; [|auto]. intros C. apply H1. apply in_or_app. now left.
      - apply IH; auto. clear - ND. induction (allNames x) as [|y z IHz]; auto. cbn in ND. inversion ND; auto. }
    destruct (Nat.eqb_spec (rawLen d) 0); [lia|]. rewrite (hasDup_NoDup _ NDm). cbn [bind with_ts on_S set_data st_om st_rawTs st_raw]. rewrite n3, Eo.
    destruct (Nat.ltb_spec (rawLen d) (om_seglen o)); [|lia]. eexists. split; [reflexivity|]. cbn. auto.
Qed.
(** A transition model that is set and not added: the first data point is handled as if the model had been added under the name 'transition model'. *)
Theorem C25_online_set : forall (S : study R R) m store d, st_tm S = Some m ->
  onlineStep (newOnline S store) d = (let* st := addAll [("transition model"%string, m)] (newOnline S store) in onlineStep st d)%res.
Proof.
  intros S m store d Em. unfold addAll. cbn [fold_left bind fst snd]. unfold onlineStep at 1, receive at 1. cbn [newOnline on_models on_S]. rewrite Em.
  destruct (addTM (newOnline S store) "transition model" m) as [O|] eqn:E1; [|reflexivity]. cbn [bind].
  destruct (addTM_names _ _ _ _ E1) as [(M & m1 & _) _]. cbn [newOnline on_models app] in m1. unfold onlineStep, receive. cbn [bind]. rewrite m1. cbn [bind]. rewrite m1. reflexivity.
Qed.
(** Two random walks whose widths have the same name: rejected. With different names: accepted (pairs of data points, so that the study waits). *)
Definition clashing : list (string * tm Q) := [("a"%string, grw "s" "p" (1 # 4)); ("b"%string, grw "s" "p" (1 # 2))].
Example C25_online_ex :
  (let* O0 := onlineSetup (L := Q) (coinOM quarters PNone) clashing true in onlineStep O0 (data [1%Z]))%res = Err ConfigurationError /\
  (let* O0 := onlineSetup (L := Q) (coinOM quarters PNone) twoModels true in let* st := onlineStep O0 (data [1%Z]) in Ok (List.length (on_models st), on_ts st))%res = Ok (2%nat, Some [0%Q]).
Proof. split; vm_compute; reflexivity. Qed.
Lemma C25_online_satisfied : exists (S : study R R) ms O d, addAll ms (newOnline S true) = Ok O /\ rawLen (st_raw S) = 0%nat /\ ms <> [] /\ ~ NoDup (flat_map allNames (map snd ms)) /\
  onlineStep O d = Err ConfigurationError.
Proof.
  set (ms := [("a"%string, grw "s" "p" 1); ("b"%string, grw "s" "q" 2)]). assert (X : exists O : online R R, addAll ms (newOnline fresh true) = Ok O) by (eexists; reflexivity).
  destruct X as [O E]. assert (N : ~ NoDup (flat_map allNames (map snd ms))) by (cbn; intros X; inversion X as [|? ? N _]; subst; apply N; now left).
  exists fresh, ms, O, (data [1%Z]). split; [exact E|]. split; [reflexivity|]. split; [discriminate|]. split; [exact N|].
  eapply C25_online; [exact E|reflexivity|]. right. split; [discriminate|]. right. exact N.
Qed.

(** Names are only compared at the first data point: a model that is added later may use a name again. *)
Theorem C25_online_refuted : exists (O0 O1 O2 O3 : online Q Q) d d',
  onlineSetup pairOM2 [("a"%string, grw "s" "p" (1 # 4))] true = Ok O0 /\ onlineStep O0 d = Ok O1 /\
  addTM O1 "b" (grw "s" "p" (1 # 2)) = Ok O2 /\ onlineStep O2 d' = Ok O3 /\ ~ NoDup (flat_map md_names (on_models O3)).
Proof.
  assert (E : (let* O0 := onlineSetup (L := Q) pairOM2 [("a"%string, grw "s" "p" (1 # 4))] true in let* O1 := onlineStep O0 (data [1%Z]) in
     let* O2 := addTM O1 "b" (grw "s" "p" (1 # 2)) in let* O3 := onlineStep O2 (data [0%Z]) in Ok (flat_map md_names (on_models O3)))%res = Ok ["s"%string; "s"%string]) by (vm_compute; reflexivity).
  run E. do 4 eexists. exists (data [1%Z]), (data [0%Z]). repeat (split; [eassumption|]). rewrite H. intros N. inversion N as [|? ? X _]; subst. apply X. now left.
Qed.

(** ** C36 *)
(** Prior probabilities of the transition models: one number per model, normalised to sum to one; otherwise ConfigurationError. Nothing else changes. *)
Theorem C36_prior : forall (O : online R R) ps,
  (List.length ps <> List.length (on_models O) -> setTMPrior O (map Fin ps) = Err ConfigurationError) /\
  (List.length ps = List.length (on_models O) -> Forall (fun p => 0 <= p) ps -> 0 < Rsum ps ->
   exists O', setTMPrior O (map Fin ps) = Ok O' /\ modelPriors O' (map (fun p => p / Rsum ps) ps) /\
     on_models O' = on_models O /\ on_S O' = on_S O /\ on_store O' = on_store O /\
     forall o pvs, onlineReady O o pvs -> onlineReady O' o pvs).
Proof.
  intros O ps. unfold setTMPrior. rewrite map_length. split.
  - intros HL. destruct (Nat.eqb_spec (List.length ps) (List.length (on_models O))); [contradiction|reflexivity].
  - intros HL HP HS. destruct (Nat.eqb_spec (List.length ps) (List.length (on_models O))) as [_|]; [|contradiction]. eexists. split; [reflexivity|].
    assert (EP : (if xeqb (asum (map Fin ps)) (Fin 1) then map Fin ps else adivs (map Fin ps) (asum (map Fin ps))) = map Fin (map (fun p => p / Rsum ps) ps)).
    { change (map Fin ps) with (fin ps). rewrite asum_fin. destruct (Req_dec (Rsum ps) 1) as [E1|E1].
      - rewrite E1. replace (xeqb (Fin 1) (Fin 1)) with true by (cbn; unfold Reqb; destruct (Req_EM_T 1 1); auto; lra).
        unfold fin. f_equal. rewrite <- (map_id ps) at 1. apply map_ext. intros; field.
      - replace (xeqb (Fin (Rsum ps)) (Fin 1)) with false. 2:{ cbn; unfold Reqb; destruct (Req_EM_T (Rsum ps) 1); auto; lra. }
        rewrite adivs_fin by lra. reflexivity. }
    split; [|split; [reflexivity|split; [reflexivity|split; [reflexivity|]]]].
    + unfold modelPriors. cbn [with_tmPrior on_tmPrior on_models]. split; [exact EP|]. rewrite map_length. split; [exact HL|]. split.
      * apply Forall_forall. intros q I. apply in_map_iff in I as (p & <- & I). rewrite Forall_forall in HP. specialize (HP _ I). unfold Rdiv. apply Rmult_le_pos; auto. left. now apply Rinv_0_lt_compat.
      * rewrite Rsum_div. field. lra.
    + intros o pvs RO. destruct RO. constructor; auto.
Qed.
Example C36_prior_ex :
  (let* O0 := onlineSetup (L := Q) (coinOM quarters PNone) twoModels true in let* st := setTMPrior O0 [Fin 1%Q; Fin 3%Q] in Ok (on_tmPrior st))%res = Ok (Some [Fin (1 # 4); Fin (3 # 4)]) /\
  (let* O0 := onlineSetup (L := Q) (coinOM quarters PNone) twoModels true in setTMPrior O0 [Fin 1%Q])%res = Err ConfigurationError.
Proof. split; vm_compute; reflexivity. Qed.
