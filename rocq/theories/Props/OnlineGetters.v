(** Getters of online studies: C54, C55, C56. *)
From Coq Require Import List ZArith QArith Reals Lra Lia Arith Bool String Sorting.Sorted.
From Verif Require Import Base.Num Base.Exn Base.Arr Base.RSum Base.Lift Model.Helper Model.Tm Model.HyperParams Model.Study Model.Api Model.Getters Model.Hyper Model.Changepoint Model.Online Model.OnlineGetters
  Spec.Kernel Spec.Config Spec.Names Spec.Dist Spec.Marginal Spec.HyperSpec Spec.OnlineSpec Proof.KernelProof Proof.DataProof Proof.MarginalProof Proof.NamesProof Proof.GridProof Proof.HyperProof Proof.HyperMarg Proof.Duration Proof.OnlineHistory Proof.OnlineFixed Proof.OnlineProof Props.Ex Props.ExR Props.Parameters Props.Online Props.OnlineStream.
Import ListNotations.
Local Open Scope R_scope.

(** ** C54: what the study remembers is what it has shown *)
Section Lists.
  Context {F L : Type} `{Num F} `{LogNum F L}.
  Definition noHistory (O : online F L) : Prop := on_hMeans O = [] /\ on_hPost O = [] /\ on_hHpd O = [] /\ on_hTmd O = [] /\ on_hLtmd O = [].

  Lemma mapM_ext_in {A B} (f g : A -> res B) l : (forall a, In a l -> f a = g a) -> mapM f l = mapM g l.
  Proof. induction l as [|a l IH]; intros E; cbn; auto. rewrite E by now left. destruct (g a); cbn [bind]; auto. rewrite IH; auto. intros; apply E; now right. Qed.
  Lemma mapM_map {A B C} (f : B -> res C) (g : A -> B) l : mapM f (map g l) = mapM (fun a => f (g a)) l.
  Proof. induction l as [|a l IH]; cbn; auto. destruct (f (g a)); cbn [bind]; auto. now rewrite IH. Qed.
  Lemma mapM_err {A B} (f : A -> res B) l e : l <> [] -> (forall a, In a l -> f a = Err e) -> mapM f l = Err e.
  Proof. intros Hn E. destruct l as [|a l]; [congruence|]. cbn. now rewrite (E a) by now left. Qed.
  Lemma index_map {A B} (f : A -> B) l k : index (map f l) k = bind (index l k) (fun a => Ok (f a)).
  Proof. unfold index. rewrite nth_error_map. now destruct (nth_error l k). Qed.

  (** In an online study that stores its history, the sequences of transition model distributions, transition model probabilities and
      parameter mean values consist of what the study showed after each data point that completed a segment; if one of these queries
      would have raised an exception, the query for the sequence raises it. *)
  Theorem C54_sequences : forall (O0 O : online F L) ds, on_models O0 <> [] -> onlineSteps O0 ds = Ok O -> on_store O0 = true -> noHistory O0 ->
    let done := filter completed (trace O0 ds) in
    done <> [] ->
    (forall local, pastTMDs O local = Ok (fst (currentTMD O local), map (fun Oi => snd (currentTMD Oi local)) done) /\
                   forall Oi, In Oi done -> fst (currentTMD Oi local) = fst (currentTMD O local)) /\
    (forall name local, pastTMPs O name local = mapM (fun Oi => currentTMP Oi name local) done) /\
    (forall name, pastMeanValues O name = mapM (fun Oi => currentMeanValue Oi name) done).
  Proof.
    intros O0 O ds Hn E HS (h1 & h2 & h3 & h4 & h5) done Hd.
    destruct (steps_history _ _ _ E HS) as (i1 & i2 & i3 & i4 & i5). rewrite h1, h2, h3, h4, h5 in *. cbn [app] in *. fold done in i1, i2, i3, i4, i5.
    pose proof (steps_fixed _ _ _ Hn E) as FO. pose proof (trace_fixed ds O0 Hn) as FT. rewrite Forall_forall in FT. fold done in FT.
    assert (ES : on_store O = true).
    { clear - E HS. revert O0 HS E. induction ds as [|d ds IH]; intros O0 HS E; cbn [onlineSteps] in E; [inversion E; now subst|].
      destruct (onlineStep O0 d) as [O1|] eqn:E1; [|discriminate]. cbn [bind] in E. apply (IH O1); auto. apply step_stores in E1 as [s1 _]. congruence. }
    assert (NM : forall Oi, In Oi done -> map md_name (on_models Oi) = map md_name (on_models O)).
    { intros Oi Hi. destruct (FT Oi Hi) as (f & _). rewrite (fx_names _ _ f). symmetry. apply (fx_names _ _ FO). }
    assert (Gl : forall A (f : online F L -> A), map f done <> []) by (intros A f X; apply map_eq_nil in X; contradiction).
    split; [|split].
    - intros local. unfold pastTMDs, currentTMD. rewrite ES, i4, i5. cbn [fst snd]. split; [|exact NM]. destruct local; reflexivity.
    - intros name local. unfold pastTMPs. rewrite ES, i4, i5.
      destruct (nameIndex (map md_name (on_models O)) name) as [i|e] eqn:EI; cbn [bind].
      + replace (if local then map on_ltmd done else map on_tmd done) with (map (fun Oi => if local then on_ltmd Oi else on_tmd Oi) done) by now destruct local.
        destruct (map (fun Oi => if local then on_ltmd Oi else on_tmd Oi) done) eqn:EM; [now apply Gl in EM|]. rewrite <- EM, mapM_map. apply mapM_ext_in. intros Oi Hi. unfold currentTMP. rewrite (NM Oi Hi), EI. cbn [bind].
        destruct (FT Oi Hi) as (f & l1 & l2 & _). assert (Hm := fixed_models _ _ f Hn).
        destruct (if local then on_ltmd Oi else on_tmd Oi) eqn:ED; [|reflexivity]. exfalso. destruct (on_models Oi); [congruence|]. destruct local; rewrite ED in *; cbn in *; discriminate.
      + symmetry. apply mapM_err; auto. intros Oi Hi. unfold currentTMP. now rewrite (NM Oi Hi), EI.
    - intros name. unfold pastMeanValues. rewrite ES, i1.
      assert (OM : forall Oi, In Oi done -> shownNames Oi = shownNames O).
      { intros Oi Hi. destruct (FT Oi Hi) as (f & _). rewrite (fx_om _ _ f). symmetry. apply (fx_om _ _ FO). }
      unfold shownNames in OM. destruct (st_om (on_S O)) as [o|] eqn:Eo; cbn [option_map] in OM.
      + destruct (paramIndex (om_names o) name) as [k|e] eqn:EK; cbn [bind].
        * destruct (map meansNow done) eqn:EM; [now apply Gl in EM|]. rewrite <- EM, mapM_map. apply mapM_ext_in. intros Oi Hi. specialize (OM Oi Hi).
          destruct (FT Oi Hi) as (f & _ & _ & _ & a & Ea). unfold currentMeanValue. destruct (st_om (on_S Oi)) as [oi|]; [|discriminate]. inversion OM as [On]. rewrite On, EK, Ea. cbn [bind].
          unfold meansNow, marginalNow. rewrite Ea, index_map. reflexivity.
        * symmetry. apply mapM_err; auto. intros Oi Hi. specialize (OM Oi Hi). unfold currentMeanValue. destruct (st_om (on_S Oi)) as [oi|]; [|discriminate]. inversion OM as [On]. now rewrite On, EK.
      + symmetry. apply mapM_err; auto. intros Oi Hi. specialize (OM Oi Hi). unfold currentMeanValue. destruct (st_om (on_S Oi)) as [oi|]; [discriminate|reflexivity].
  Qed.
End Lists.

(** the state [Oi] after the data points [ds1], and the state [O] after further data points [ds2] *)
Record moment (O0 Oi O : online R R) (o : om R) (pvs : list (list R)) (ds1 ds2 : list (raw R)) : Prop := {
  mo_ready : onlineReady O0 o pvs;
  mo_store : on_store O0 = true;
  mo_empty : noHistory O0;
  mo_points : Forall point (ds1 ++ ds2);
  mo_then : onlineSteps O0 ds1 = Ok Oi;
  mo_started : started Oi o;
  mo_now : onlineSteps Oi ds2 = Ok O
}.
(** the time stamp of the last data point (they are counted from zero) *)
Definition stamp (ds1 : list (raw R)) : R := INR (List.length ds1 - 1).

Lemma trace_app : forall {F L} `{Num F} `{LogNum F L} ds1 ds2 (O O1 : online F L), onlineSteps O ds1 = Ok O1 -> trace O (ds1 ++ ds2) = (trace O ds1 ++ trace O1 ds2)%list.
Proof.
  induction ds1 as [|x ds IH]; intros ds2 O O1 E; cbn [app onlineSteps trace] in *; [now inversion E|].
  destruct (onlineStep O x) as [Oa|]; [|discriminate]. cbn [bind] in E. cbn. f_equal. eapply IH; eauto.
Qed.
Lemma onlineSteps_join : forall {F L} `{Num F} `{LogNum F L} ds1 ds2 (O O1 O2 : online F L), onlineSteps O ds1 = Ok O1 -> onlineSteps O1 ds2 = Ok O2 -> onlineSteps O (ds1 ++ ds2) = Ok O2.
Proof.
  induction ds1 as [|d ds1 IH]; intros ds2 O O1 O2 E1 E2; cbn [app onlineSteps] in *; [now inversion E1; subst|]. destruct (onlineStep O d) as [Oa|]; [|discriminate]. cbn [bind] in *. eapply IH; eauto.
Qed.
Lemma with_ts_same (O : online R R) ts : on_ts O = Some ts -> on_isArr O = false -> with_ts O (on_S O) (Some ts) false = O.
Proof. intros E1 E2. destruct O. cbn in *. subst. reflexivity. Qed.

Section Moment.
  Variables (O0 Oi O : online R R) (o : om R) (pvs : list (list R)) (ds1 ds2 : list (raw R)).
  Hypothesis MO : moment O0 Oi O o pvs ds1 ds2.
  Notation done := (filter completed (trace O0 (ds1 ++ ds2))).
  Let RO := mo_ready _ _ _ _ _ _ _ MO.
  Let i := (List.length ds1 - om_seglen o)%nat.
  Lemma mo_ds1 : ds1 <> [].
  Proof.
    intros ->. pose proof (mo_then _ _ _ _ _ _ _ MO) as E. cbn in E. inversion E; subst. pose proof (mo_started _ _ _ _ _ _ _ MO) as X. unfold started in X.
    rewrite (or_empty _ _ _ RO) in X. pose proof (or_seg _ _ _ RO). lia.
  Qed.
  Lemma mo_points1 : Forall point ds1.
  Proof. pose proof (mo_points _ _ _ _ _ _ _ MO) as X. now apply Forall_app in X as [X _]. Qed.
  Lemma mo_all : onlineSteps O0 (ds1 ++ ds2) = Ok O.
  Proof. eapply onlineSteps_join; [exact (mo_then _ _ _ _ _ _ _ MO)|exact (mo_now _ _ _ _ _ _ _ MO)]. Qed.
  Lemma mo_length : (om_seglen o <= List.length ds1)%nat.
  Proof.
    destruct (stream_count _ _ _ _ RO _ mo_points1 (mo_then _ _ _ _ _ _ _ MO)) as [X _]. rewrite <- X. exact (mo_started _ _ _ _ _ _ _ MO).
  Qed.
  Lemma mo_done : nth_error done i = Some Oi.
  Proof.
    rewrite (trace_app _ ds2 _ _ (mo_then _ _ _ _ _ _ _ MO)), filter_app. pose proof mo_length as HL. pose proof (or_seg _ _ _ RO) as Hk.
    destruct (C39_stream _ _ _ _ _ RO mo_points1 (mo_then _ _ _ _ _ _ _ MO) mo_ds1) as (_ & _ & _ & Ln). 
    rewrite nth_error_app1 by (rewrite Ln; unfold i; lia).
    pose proof mo_ds1 as Hn. pose proof (mo_then _ _ _ _ _ _ _ MO) as E.
    destruct (exists_last Hn) as (ds & d & Ed). assert (HP := mo_points1). rewrite Ed in *.
    pose proof E as E'. apply onlineSteps_app in E' as (O1 & E1 & E2). cbn [onlineSteps] in E2. destruct (onlineStep O1 d) as [O2|] eqn:E3; [|discriminate]. cbn [bind] in E2. inversion E2; subst O2; clear E2.
    rewrite (trace_snoc _ _ _ _ _ E1 E3), filter_app in Ln |- *.
    assert (EC : completed Oi = true).
    { unfold completed. rewrite (steps_om _ _ _ _ _ RO HP E). apply Nat.leb_le. exact (mo_started _ _ _ _ _ _ _ MO). }
    cbn [filter] in *. rewrite EC in *. rewrite app_length in Ln. cbn [List.length] in Ln. unfold i. rewrite Ed. rewrite nth_error_app2 by lia.
    replace (_ - _ - _)%nat with 0%nat by lia. reflexivity.
  Qed.
  Lemma mo_all_ne : ds1 ++ ds2 <> [].
  Proof. intros X. apply app_eq_nil in X as [X _]. now apply mo_ds1 in X. Qed.
  Lemma mo_ts : exists ts, on_ts O = Some ts /\ firstTime ts (stamp ds1) i /\ List.length ts = List.length done.
  Proof.
    destruct (C39_stream _ _ _ _ _ RO (mo_points _ _ _ _ _ _ _ MO) mo_all mo_all_ne) as (_ & Et & _ & Ln). eexists. split; [exact Et|].
    pose proof mo_length as HL. pose proof (or_seg _ _ _ RO) as Hk. rewrite Ln, app_length. split; [|now rewrite map_length, seq_length].
    assert (G : forall j, (j < List.length ds1 + List.length ds2 - (om_seglen o - 1))%nat -> nth_error (map INR (seq (om_seglen o - 1) (List.length ds1 + List.length ds2 - (om_seglen o - 1)))) j = Some (INR (om_seglen o - 1 + j))).
    { intros j Hj. rewrite nth_error_map, (List.nth_error_nth' _ 0%nat), seq_nth by (rewrite ?seq_length; auto). reflexivity. }
    split.
    - rewrite G by (unfold i; lia). unfold stamp, i. do 2 f_equal. lia.
    - intros j Hj. rewrite G by (unfold i in Hj; lia). unfold stamp. intros X. inversion X as [X']. apply INR_eq in X'. unfold i in Hj. lia.
  Qed.
  Lemma mo_tracked : tracked O0 o O (st_raw (on_S O)).
  Proof. destruct (stream_count _ _ _ _ RO _ (mo_points _ _ _ _ _ _ _ MO) mo_all) as [_ T]. exact (T mo_all_ne). Qed.
  Lemma mo_shows : shows O0 Oi.
  Proof. pose proof (trace_fixed (ds1 ++ ds2) O0 (or_models _ _ _ RO)) as X. rewrite Forall_forall in X. apply X. eapply nth_error_In, mo_done. Qed.
  Lemma mo_same : sameFixed Oi O.
  Proof. eapply fixed_trans; [apply (proj1 mo_shows)|]. apply fixed_sym. eapply steps_fixed; [apply (or_models _ _ _ RO)|exact mo_all]. Qed.
  Lemma mo_om : st_om (on_S Oi) = Some o /\ st_om (on_S O) = Some o.
  Proof. split; [eapply steps_om; [exact RO|exact mo_points1|exact (mo_then _ _ _ _ _ _ _ MO)]|eapply steps_om; [exact RO|exact (mo_points _ _ _ _ _ _ _ MO)|exact mo_all]]. Qed.
  Lemma mo_history : on_hMeans O = map meansNow done /\ on_hPost O = map marginalNow done /\ on_hHpd O = map on_hpd done /\ on_hTmd O = map on_tmd done /\ on_hLtmd O = map on_ltmd done.
  Proof.
    destruct (steps_history _ _ _ mo_all (mo_store _ _ _ _ _ _ _ MO)) as (i1 & i2 & i3 & i4 & i5). destruct (mo_empty _ _ _ _ _ _ _ MO) as (h1 & h2 & h3 & h4 & h5).
    rewrite h1, h2, h3, h4, h5 in *. auto.
  Qed.
  Lemma mo_storeO : on_store O = true.
  Proof. rewrite (tk_store _ _ _ _ mo_tracked). exact (mo_store _ _ _ _ _ _ _ MO). Qed.
End Moment.

Lemma marginalOf_same (S1 S2 : study R R) o k b x : st_shape S1 = st_shape S2 -> st_lat S1 = st_lat S2 -> marginalOf S1 o k b x = marginalOf S2 o k b x.
Proof. intros E1 E2. unfold marginalOf. now rewrite E1, E2. Qed.

(** The distribution of a parameter at the time of a data point is the one that was the current one after this data point; asking
    for it does not change the study. *)
Theorem C54_distribution : forall (O0 Oi O : online R R) o pvs ds1 ds2 name density x p, moment O0 Oi O o pvs ds1 ds2 ->
  currentParameterDistribution Oi name density = Ok (x, p) ->
  onlineParameterDistribution O (Some (stamp ds1)) name density = (O, Ok (x, Some p)).
Proof.
  intros O0 Oi O o pvs ds1 ds2 name b x p MO EC. destruct (mo_ts _ _ _ _ _ _ _ MO) as (ts & Et & Ft & Lt). destruct (mo_om _ _ _ _ _ _ _ MO) as [Eo Eo'].
  destruct (mo_history _ _ _ _ _ _ _ MO) as (_ & Hp & _). pose proof (mo_done _ _ _ _ _ _ _ MO) as Hd. pose proof (mo_same _ _ _ _ _ _ _ MO) as SF.
  destruct (mo_shows _ _ _ _ _ _ _ MO) as (_ & _ & _ & _ & a & Ea). pose proof (mo_tracked _ _ _ _ _ _ _ MO) as TK.
  unfold onlineParameterDistribution. rewrite (mo_storeO _ _ _ _ _ _ _ MO), Et.
  assert (G : getParameterDistribution (pastStudy O ts) (Some (stamp ds1)) name b = Ok (x, Some p)).
  { unfold getParameterDistribution. cbn [pastStudy st_post st_fmtTs st_om st_marg]. rewrite Hp. destruct (map Some _) eqn:EM; [apply map_eq_nil in EM; apply map_eq_nil in EM; rewrite EM in Hd; destruct (List.length ds1 - om_seglen o)%nat; discriminate|].
    rewrite <- EM. clear EM. rewrite (timeIndex_some _ _ _ Ft). unfold index at 1. rewrite !nth_error_map, Hd. cbn [option_map bind]. rewrite Eo'.
    unfold currentParameterDistribution in EC. rewrite Eo, Ea in EC. destruct (paramIndex (om_names o) name) as [k|]; [|discriminate]. cbn [bind] in *.
    rewrite <- (fx_marg _ _ SF). destruct (index (st_marg (on_S Oi)) k) as [x'|]; [|discriminate]. cbn [bind] in *. unfold marginalNow. rewrite Ea.
    rewrite (marginalOf_same _ (on_S Oi)); [|symmetry; apply (fx_shape _ _ SF)|symmetry; apply (fx_lat _ _ SF)].
    destruct (marginalOf (on_S Oi) o k b a); [|discriminate]. cbn [bind] in *. now inversion EC. }
  destruct (on_hPost O) as [|q l]; [symmetry in Hp; apply map_eq_nil in Hp; rewrite Hp in Hd; destruct (List.length ds1 - om_seglen o)%nat; discriminate|].
  rewrite G. cbn [withArrays]. f_equal. apply with_ts_same; auto. apply (tk_arr _ _ _ _ TK).
Qed.
(** all distributions of a parameter, if there are at least two *)
Theorem C54_distributions : forall (O0 O : online R R) o pvs ds name density x, onlineReady O0 o pvs -> on_store O0 = true -> noHistory O0 ->
  Forall point ds -> onlineSteps O0 ds = Ok O -> ds <> [] ->
  let done := filter completed (trace O0 ds) in
  (2 <= List.length done)%nat ->
  forall ps, Forall2 (fun Oi p => currentParameterDistribution Oi name density = Ok (x, p)) done ps ->
  onlineParameterDistributions O name density = (O, Ok (x, map Some ps)).
Proof.
  intros O0 O o pvs ds name b x RO HS HN HP E Hne done H2 ps HF.
  destruct (C39_stream _ _ _ _ _ RO HP E Hne) as (_ & Et & _ & Ln). fold done in Ln. destruct (stream_count _ _ _ _ RO _ HP E) as [_ T]. specialize (T Hne).
  destruct (steps_history _ _ _ E HS) as (_ & i2 & _). destruct HN as (_ & h2 & _). rewrite h2 in i2. cbn [app] in i2. fold done in i2.
  unfold onlineParameterDistributions. rewrite (tk_store _ _ _ _ T), HS, Et.
  assert (G : getParameterDistributions (pastStudy O (map INR (seq (om_seglen o - 1) (List.length ds - (om_seglen o - 1))))) name b = Ok (x, map Some ps)).
  { unfold getParameterDistributions. cbn [pastStudy st_post st_fmtTs st_om st_marg]. rewrite i2, map_length, seq_length, <- Ln.
    destruct (map Some (map marginalNow done)) as [|q0 l0] eqn:EM; [apply map_eq_nil in EM; apply map_eq_nil in EM; rewrite EM in H2; cbn in H2; lia|]. rewrite <- EM. clear EM.
    destruct (Nat.leb_spec (List.length done) 1); [lia|]. rewrite (steps_om _ _ _ _ _ RO HP E).
    pose proof (trace_fixed ds O0 (or_models _ _ _ RO)) as FT. fold done in FT. pose proof (steps_fixed _ _ _ (or_models _ _ _ RO) E) as FO.
    assert (OM : Forall (fun Oi => st_om (on_S Oi) = Some o) done).
    { unfold done. clear - RO HP. rewrite Forall_forall. intros Oi Hi. apply filter_In in Hi as [Hi _].
      assert (X : exists ds', onlineSteps O0 ds' = Ok Oi /\ Forall point ds').
      { clear RO. revert O0 Hi. induction HP as [|d ds p1 p2 IH]; intros O0 Hi; cbn [trace] in Hi; [destruct Hi|]. destruct (onlineStep O0 d) as [O1|] eqn:E1; [|destruct Hi].
        destruct Hi as [<-|Hi]; [exists [d]; cbn; rewrite E1; auto|]. destruct (IH _ Hi) as (ds' & e1 & e2). exists (d :: ds'). cbn. rewrite E1. cbn. auto. }
      destruct X as (ds' & e1 & e2). eapply steps_om; eauto. }
    assert (G : exists k, paramIndex (om_names o) name = Ok k /\ index (st_marg (on_S O)) k = Ok x /\
       mapM (fun d => match d with None => Ok None | Some d' => bind (marginalOf (pastStudy O (map INR (seq (om_seglen o - 1) (List.length done)))) o k b d') (fun m => Ok (Some m)) end) (map Some (map marginalNow done)) = Ok (map Some ps)).
    { destruct (paramIndex (om_names o) name) as [k|e] eqn:EK.
      2:{ exfalso. destruct HF as [|Oi p l1 l2 c1 c2]; [cbn in H2; lia|]. inversion OM as [|? ? w _]; subst. unfold currentParameterDistribution in c1. rewrite w, EK in c1. discriminate. }
      exists k. split; auto.
      assert (G : Forall2 (fun Oi p => index (st_marg (on_S O)) k = Ok x /\ marginalOf (on_S O) o k b (marginalNow Oi) = Ok p) done ps).
      { clear - HF FT OM FO EK. induction HF as [|Oi p l l' c1 c2 IH]; constructor; [|apply IH; [now inversion FT|now inversion OM]].
        inversion FT as [|? ? (f & _ & _ & _ & a & Ea) _]; subst. inversion OM as [|? ? w _]; subst. unfold currentParameterDistribution in c1. rewrite w, EK, Ea in c1. cbn [bind] in c1.
        rewrite (fx_marg _ _ FO), <- (fx_marg _ _ f). destruct (index (st_marg (on_S Oi)) k) as [x'|]; [|discriminate]. cbn [bind] in c1. unfold marginalNow. rewrite Ea.
        rewrite (marginalOf_same _ (on_S Oi)); [|rewrite (fx_shape _ _ FO); symmetry; apply (fx_shape _ _ f)|rewrite (fx_lat _ _ FO); symmetry; apply (fx_lat _ _ f)].
        destruct (marginalOf (on_S Oi) o k b a); [|discriminate]. cbn [bind] in c1. inversion c1; auto. }
      split. { destruct G as [|? ? ? ? (c1 & _) _]; [cbn in H2; lia|exact c1]. }
      clear - G. generalize (map INR (seq (om_seglen o - 1) (List.length done))). intros ts.
      induction G as [|Oi p l l' (_ & c) c2 IH]; cbn [map mapM]; auto. rewrite (marginalOf_same (pastStudy O ts) (on_S O)) by reflexivity. rewrite c. cbn [bind]. rewrite IH. reflexivity. }
    destruct G as (k & g1 & g2 & g3). rewrite g1. cbn [bind]. rewrite g2. cbn [bind]. rewrite g3. reflexivity. }
  destruct (on_hPost O) as [|q l]; [symmetry in i2; apply map_eq_nil in i2; rewrite i2 in H2; cbn in H2; lia|].
  rewrite G. cbn [withArrays]. f_equal. apply with_ts_same; auto. apply (tk_arr _ _ _ _ T).
Qed.

(** ** C55: hyper-parameters *)
(** an added model whose hyper-parameters were given as arrays [vss] *)
Record arrayGrid (M : tmEntry R) (vss : list (list R)) : Prop := {
  ag_vals : md_vals M = map HArr vss;
  ag_len : List.length vss = List.length (md_names M);
  ag_some : vss <> [];
  ag_full : Forall (fun v => v <> []) vss;
  ag_size : List.length (md_rows M) = natprod (map (@List.length R) vss);
  ag_rows : forall x, (x < natprod (map (@List.length R) vss))%nat -> nth x (md_rows M) [] = gridPoint vss (unravel (map (@List.length R) vss) x)
}.
(** Adding a model with arrays as values of its hyper-parameters *)
Theorem C55_grid : forall (O : online R R) name m O' vss, addTM O name m = Ok O' -> on_ts O = None -> wellNamed m ->
  map snd (assocs m) = map HArr vss -> vss <> [] -> Forall (fun v => v <> []) vss ->
  exists M, on_models O' = (on_models O ++ [M])%list /\ md_name M = name /\ md_names M = map fst (assocs m) /\ arrayGrid M vss.
Proof.
  intros O name m O' vss E Ets WN Ev Hne Hfull. destruct (C37_grid O name m O' E Ets WN) as (M & e1 & e2 & e3 & e4 & e5 & _ & e6). exists M. split; auto. split; auto.
  destruct WN as (b & _ & _ & pl). pose proof b as Nm. pose proof (assocs_names _ Nm) as En. split; [congruence|].
  assert (Ln : List.length (md_names M) = List.length vss) by (rewrite e3, <- En, map_length, <- (map_length HArr vss), <- Ev, map_length; reflexivity).
  assert (Ha : allNames m <> []) by (rewrite <- e3; destruct (md_names M); [destruct vss; [congruence|discriminate]|discriminate]).
  destruct (e6 Ha) as (points & p1 & _ & (p3 & p4) & _). rewrite Ev in p1.
  assert (points = vss) by (clear - p1; revert points p1; induction vss as [|v vss IH]; intros points p1; inversion p1 as [|? ? ? ? h1 h2]; subst; auto; cbn in h1; subst; f_equal; auto). subst points.
  constructor; auto. unfold addTM in E. destruct (setTM (on_S O) m) as [S1|] eqn:ES; [|discriminate]. cbn [bind] in E. rewrite Ets in E.
  destruct (existsb isAll (allValues m)); [discriminate|]. destruct (createHyperGrid m []) as [[[[[vals rows] cs] pvx] m']|] eqn:EG; [|discriminate]. cbn [bind] in E.
  inversion E; subst O'; clear E. cbn [with_models on_models with_S] in e1. apply app_inv_head in e1. inversion e1; subst M. cbn [md_vals].
  unfold createHyperGrid in EG. cbv zeta in EG. destruct (mapM pointsOf _); [|discriminate]. cbn [bind] in EG. destruct (allNames m); [congruence|].
  destruct (_ && _); [|discriminate]. destruct (priorsOf _); [|discriminate]. cbn [bind] in EG. inversion EG; subst.
  rewrite (assocs_values m Nm pl), Ev, map_map. reflexivity.
Qed.

Lemma currentHpd_some {F L} (O : online F L) i d : nth_error (on_hpd O) i = Some d -> currentHpd O i = Ok d.
Proof. intros E. unfold currentHpd, index. destruct (on_hpd O); [destruct i; discriminate|]. now rewrite E. Qed.
Lemma findHyper_none {F} (name : string) : forall (Ms : list (tmEntry F)) i found, Forall (fun M => ~ In name (allNames (md_tm M))) Ms -> findHyper Ms name i found = found.
Proof.
  induction Ms as [|M Ms IH]; intros i found HF; cbn [findHyper]; auto. inversion HF as [|? ? h1 h2]; subst. rewrite IH by auto.
  unfold hyperParameterIndex. destruct (nameIndex (allNames (md_tm M)) name) as [k|] eqn:E; auto. exfalso. apply h1.
  clear - E. revert k E. induction (allNames (md_tm M)) as [|a l IH]; cbn; [discriminate|]. intros k. destruct (String.eqb_spec a name); [now left|].
  destruct (nameIndex l name); [|discriminate]. intros _. right. eapply IH; reflexivity.
Qed.
(** A name that no transition model has: PostProcessingError, and nothing changes. *)
Theorem C55_unknown : forall (F L : Type) (NF : Num F) (NL : LogNum F L) (O : online F L) name, (forall M, In M (on_models O) -> ~ In name (allNames (md_tm M))) ->
  currentHyperDistribution O name = (O, Err PostProcessingError) /\ (forall t, pastHyperMean O t name = Err PostProcessingError) /\
  pastHyperMeans O name = Err PostProcessingError /\ (forall t, pastHyperDistribution O t name = Err PostProcessingError) /\
  pastHyperDistributions O name = Err PostProcessingError.
Proof.
  intros F L NF NL O name Hn. assert (E : hyperPosition O name = Err PostProcessingError) by (unfold hyperPosition; rewrite findHyper_none by (apply Forall_forall; exact Hn); reflexivity).
  unfold currentHyperDistribution, pastHyperMean, pastHyperMeans, pastHyperDistribution, pastHyperDistributions. rewrite E. cbn [bind]. repeat split; intros; destruct (on_store O); reflexivity.
Qed.
Lemma nameIndex_some names n : In n names -> exists k, nameIndex names n = Ok k.
Proof.
  induction names as [|a l IH]; cbn [nameIndex In]; [intros []|]. intros I. destruct (String.eqb_spec a n) as [->|Na]; [eauto|]. destruct I as [->|I]; [congruence|].
  destruct (IH I) as [k ->]. cbn. eauto.
Qed.
Lemma findHyper_found {F} (name : string) M : forall (Ms : list (tmEntry F)) i found, In M Ms -> In name (allNames (md_tm M)) ->
  exists j k, findHyper Ms name i found = Some (j, k) /\ ((i <= j < i + List.length Ms)%nat \/ found = Some (j, k)).
Proof.
  induction Ms as [|M' Ms IH]; intros i found I Hn; [destruct I|]. cbn [findHyper].
  set (f := match hyperParameterIndex (md_tm M') name with Ok k => Some (i, k) | Err _ => found end).
  assert (Hf : f = found \/ exists k, f = Some (i, k)) by (unfold f; destruct (hyperParameterIndex (md_tm M') name); eauto).
  assert (G : forall Ms i (f : option (nat * nat)), (exists y, f = Some y) -> exists j k, @findHyper F Ms name i f = Some (j, k) /\ ((i <= j < i + List.length Ms)%nat \/ f = Some (j, k))).
  { clear. intros Ms. induction Ms as [|M Ms IH]; intros i g [[a b] ->]; cbn [findHyper]; [exists a, b; auto|].
    destruct (hyperParameterIndex (md_tm M) name) as [k|].
    - destruct (IH (S i) (Some (i, k))) as (j & k' & E & [H|H]); [eauto|exists j, k'; split; [exact E|left; cbn; lia]|]. injection H as <- <-. exists i, k. split; [exact E|left; cbn; lia].
    - destruct (IH (S i) (Some (a, b))) as (j & k' & E & [H|H]); [eauto|exists j, k'; split; [exact E|left; cbn; lia]|]. exists j, k'. auto. }
  assert (X : exists j k, findHyper Ms name (S i) f = Some (j, k) /\ ((S i <= j < S i + List.length Ms)%nat \/ f = Some (j, k))).
  { destruct I as [->|I]; [|now apply IH]. apply G. unfold f. unfold hyperParameterIndex.
    destruct (nameIndex_some _ _ Hn) as [k ->]. eauto. }
  destruct X as (j & k & E & [H|H]); exists j, k; (split; [exact E|]); [left; cbn; lia|]. destruct Hf as [Hf|[k' Hf]]; [right; congruence|]. rewrite Hf in H. injection H as <- <-. left. cbn. lia.
Qed.
(** Before the first data point: queries for a known hyper-parameter fail, with IndexError for whole sequences and averages, with TypeError
    for a time; the sequence of distributions is empty. *)
Theorem C55_nothing : forall (F L : Type) (NF : Num F) (NL : LogNum F L) (O : online F L) name M, on_store O = true -> noHistory O -> on_ts O = None -> on_hpd O = [] ->
  In M (on_models O) -> In name (allNames (md_tm M)) ->
  pastHyperMeans O name = Err IndexError /\ pastHyperDistribution O None name = Err IndexError /\
  (forall t, pastHyperMean O t name = Err TypeError) /\ (forall t, pastHyperDistribution O (Some t) name = Err TypeError) /\
  currentHyperDistribution O name = (O, Err TypeError).
Proof.
  intros F L NF NL O name M St (_ & _ & Hh & _) Ht Hd I Hn. destruct (findHyper_found name M (on_models O) 0 None I Hn) as (j & k & E & [Hj|]); [|discriminate].
  assert (EP : hyperPosition O name = Ok (j, k)) by (unfold hyperPosition; now rewrite E).
  destruct (nth_error (on_models O) j) as [M'|] eqn:EM; [|apply nth_error_None in EM; lia].
  unfold pastHyperMeans, pastHyperDistribution, pastHyperMean, currentHyperDistribution, currentHpd. rewrite EP, St, Hh, Ht, Hd. cbn [bind fst snd]. unfold index. rewrite EM. cbn [bind]. repeat split.
Qed.
Lemma findHyper_at (name : string) k : forall (Ms : list (tmEntry R)) i j M found, NoDup (flat_map (fun M => allNames (md_tm M)) Ms) -> nth_error Ms i = Some M -> nth_error (allNames (md_tm M)) k = Some name ->
  findHyper Ms name j found = Some ((j + i)%nat, k).
Proof.
  induction Ms as [|M' Ms IH]; intros i j M found ND EM EN; [destruct i; discriminate|]. cbn [flat_map] in ND. apply NoDup_app_inv in ND as (n1 & n2 & n3). cbn [findHyper]. destruct i as [|i].
  - cbn in EM. inversion EM; subst M'. unfold hyperParameterIndex. rewrite (nameIndex_nth _ k name n1 EN). rewrite findHyper_none; [f_equal; f_equal; lia|].
    apply Forall_forall. intros M'' I' I''. apply (n3 name); [eapply nth_error_In; eauto|]. apply in_flat_map. eauto.
  - cbn in EM. rewrite (IH i (S j) M _ n2 EM EN). f_equal. f_equal. lia.
Qed.
Lemma mapM_lengths (vss : list (list R)) : lengthsOf (map HArr vss) = Ok (map (@List.length R) vss).
Proof. unfold lengthsOf. induction vss as [|v vss IH]; cbn; auto. rewrite IH. reflexivity. Qed.

Section HyperNow.
  Variables (O0 O : online R R) (o : om R) (pvs : list (list R)) (ds : list (raw R)) (i k : nat) (M : tmEntry R) (name : string).
  Hypotheses (RO : onlineReady O0 o pvs) (HP : Forall point ds) (E : onlineSteps O0 ds = Ok O) (Hne : ds <> []).
  Hypotheses (EM : nth_error (on_models O0) i = Some M) (EN : nth_error (md_names M) k = Some name).
  Lemma hn_entry : exists M', nth_error (on_models O) i = Some M' /\ sameEntry M M'.
  Proof.
    destruct (stream_count _ _ _ _ RO _ HP E) as [_ T]. pose proof (tk_models _ _ _ _ (T Hne)) as F2.
    destruct (nth_error (on_models O) i) as [M'|] eqn:E'; [exists M'; split; auto; eapply Online.Forall2_nth_error; eauto|].
    exfalso. apply nth_error_None in E'. apply Forall2_len in F2. assert (i < List.length (on_models O0))%nat by (apply nth_error_Some; congruence). lia.
  Qed.
  Lemma hn_position : hyperPosition O name = Ok (i, k).
  Proof.
    destruct hn_entry as (M' & E' & SE). destruct (stream_count _ _ _ _ RO _ HP E) as [_ T]. pose proof (tk_models _ _ _ _ (T Hne)) as F2.
    assert (EA : flat_map (fun M => allNames (md_tm M)) (on_models O) = flat_map md_names (on_models O0)).
    { pose proof (or_entries _ _ _ RO) as FE. clear - F2 FE. revert pvs FE. induction F2 as [|a b l l' h1 h2 IH]; intros pvs FE; cbn; auto. inversion FE as [|? pv ? pvs' g1 g2]; subst.
      rewrite (IH _ g2). f_equal. rewrite (same_allNames _ _ h1). symmetry. apply (en_names _ _ g1). }
    unfold hyperPosition. rewrite (findHyper_at name k _ i 0%nat M'); auto.
    - rewrite EA. apply (or_unique _ _ _ RO).
    - rewrite (same_allNames _ _ SE). destruct (nth_error pvs i) as [pv|] eqn:Ep.
      + rewrite <- (en_names _ _ (Online.Forall2_nth_error _ _ _ _ _ _ (or_entries _ _ _ RO) EM Ep)). exact EN.
      + exfalso. apply nth_error_None in Ep. pose proof (Forall2_len _ _ _ (or_entries _ _ _ RO)). assert (i < List.length (on_models O0))%nat by (apply nth_error_Some; congruence). lia.
  Qed.
End HyperNow.

(** posterior probability of the j-th combination of hyper-parameter values of a model: evidence x prior, normalised *)
Definition posteriorOf (O : online R R) (pv : list R) (fs : list (study R R * list R)) (j : nat) : R :=
  evidenceOf (nth j (map fst fs) (on_S O)) * Rnth pv j / evidenceM pv fs.

Section HyperDist.
  Variables (O0 O : online R R) (o : om R) (pvs : list (list R)) (ds : list (raw R)) (i k : nat) (M : tmEntry R) (name : string) (pv : list R) (fs : list (study R R * list R)).
  Hypotheses (RO : onlineReady O0 o pvs) (HP : Forall point ds) (E : onlineSteps O0 ds = Ok O) (HS : started O o).
  Hypotheses (EM : nth_error (on_models O0) i = Some M) (EN : nth_error (md_names M) k = Some name) (EP : nth_error pvs i = Some pv) (HF : runsOf O M fs).
  Notation post := (posteriorOf O pv fs).
  Notation c := (Rprod (md_const M)).
  Lemma hd_ne : ds <> [].
  Proof. intros ->. cbn in E. inversion E; subst O. unfold started in HS. rewrite (or_empty _ _ _ RO) in HS. pose proof (or_seg _ _ _ RO). lia. Qed.
  Lemma hd_entry : entryOk M pv.
  Proof. eapply Online.Forall2_nth_error; [exact (or_entries _ _ _ RO)|exact EM|exact EP]. Qed.
  Lemma hd_c : 0 < c.
  Proof. apply Rprod_pos. apply (en_const _ _ hd_entry). Qed.
  Lemma hd_named : md_rows M <> [] -> (k < List.length (allNames (md_tm M)))%nat.
  Proof. intros _. rewrite <- (en_names _ _ hd_entry). apply nth_error_Some. congruence. Qed.
  Lemma hd_dist : exists h, nth_error (on_hpd O) i = Some (map Fin h) /\ h = tab (List.length (combos M)) (fun j => post j / c) /\ rsum (List.length (combos M)) post = 1.
  Proof.
    destruct (C37_hyper O0 O o pvs ds i M pv fs RO HP E HS EM EP HF) as (_ & _ & h & e1 & e2 & e3 & e4). exists h. split; auto. pose proof hd_c as Pc.
    assert (Eh : h = tab (List.length (combos M)) (fun j => post j / c)).
    { rewrite <- (tab_Rnth h) at 1. rewrite e2. apply tab_ext. intros j Hj. unfold posteriorOf. rewrite <- e3 by lia. field. lra. }
    split; auto. rewrite <- e4, Eh, Rsum_tab, <- rsum_scal_r. apply rsum_ext. intros j _. field. lra.
  Qed.
  Lemma hd_nonneg j : (j < List.length (combos M))%nat -> 0 <= post j.
  Proof.
    intros Hj. destruct (C37_hyper O0 O o pvs ds i M pv fs RO HP E HS EM EP HF) as (_ & z & _). unfold posteriorOf. apply Rmult_le_pos; [|apply Rlt_le, Rinv_0_lt_compat; auto].
    apply Rmult_le_pos.
    - unfold evidenceOf. destruct (st_logEv _); try lra. apply Rlt_le, exp_pos.
    - pose proof (en_nonneg _ _ hd_entry) as X. rewrite Forall_forall in X. apply X, nth_In. rewrite (en_len _ _ hd_entry). auto.
  Qed.
  Variable vss : list (list R).
  Hypothesis AG : arrayGrid M vss.
  Notation shape := (map (@List.length R) vss).
  Lemma hd_k : (k < List.length vss)%nat.
  Proof. rewrite (ag_len _ _ AG). apply nth_error_Some. congruence. Qed.
  Lemma hd_nth : nth k shape 0%nat = List.length (nth k vss []).
  Proof. change 0%nat with (@List.length R []). apply map_nth. Qed.
  Lemma hd_pos : (0 < natprod shape)%nat.
  Proof. pose proof (ag_full _ _ AG) as X. clear - X. induction X as [|v l h1 h2 IH]; cbn; [lia|]. destruct v; [congruence|]. cbn [List.length]. unfold natprod in *. nia. Qed.
  Lemma hd_combos : combos M = md_rows M /\ List.length (combos M) = natprod shape.
  Proof. pose proof hd_pos. pose proof (ag_size _ _ AG) as X. unfold combos. destruct (md_rows M); [cbn in X; lia|auto]. Qed.
  Lemma hd_marginal M' : sameEntry M M' ->
    hyperMarginal M' k (arrOf (natprod shape) (fun j => post j / c)) = Ok (HArr (nth k vss []), arrOf (List.length (nth k vss [])) (fun v => marginal shape k post v / c)).
  Proof.
    intros SE. unfold hyperMarginal. rewrite (se_vals _ _ SE), (ag_vals _ _ AG), mapM_lengths. cbn [bind]. rewrite arrOf_length, Nat.eqb_refl.
    unfold index. rewrite nth_error_map, (List.nth_error_nth' vss [] hd_k). cbn [option_map bind]. do 2 f_equal.
    rewrite (se_names _ _ SE), <- (ag_len _ _ AG), <- (map_length (@List.length R) vss), marginalize_fin; [|rewrite map_length; apply hd_k|apply hd_pos].
    rewrite hd_nth. unfold arrOf. f_equal. apply tab_ext. intros v _. unfold marginal. unfold Rdiv. rewrite <- rsum_scal_r. apply rsum_ext. intros x _. destruct (Nat.eqb _ _); ring.
  Qed.
  Lemma hd_sum : rsum (List.length (nth k vss [])) (marginal shape k post) = 1.
  Proof. rewrite <- hd_nth, marginal_sum by (rewrite map_length; apply hd_k). destruct hd_dist as (_ & _ & _ & X). rewrite (proj2 hd_combos) in X. exact X. Qed.
  Lemma hd_now : exists h, nth_error (on_hpd O) i = Some h /\ h = arrOf (natprod shape) (fun j => post j / c).
  Proof. destruct hd_dist as (h & e1 & e2 & _). exists (map Fin h). split; auto. rewrite e2, (proj2 hd_combos). reflexivity. Qed.
End HyperDist.

(** The current marginal distribution of a hyper-parameter: the posterior probabilities of the combinations, summed over all other
    hyper-parameters of the model. The probabilities sum to one. If there are other hyper-parameters, the study is not changed. *)
Theorem C55_current : forall (O0 O : online R R) o pvs ds i M pv fs vss k name,
  onlineReady O0 o pvs -> Forall point ds -> onlineSteps O0 ds = Ok O -> started O o ->
  nth_error (on_models O0) i = Some M -> nth_error pvs i = Some pv -> runsOf O M fs -> arrayGrid M vss -> nth_error (md_names M) k = Some name ->
  let n := List.length (nth k vss []) in
  let prob := marginal (map (@List.length R) vss) k (posteriorOf O pv fs) in
  exists O', currentHyperDistribution O name = (O', Ok (HArr (nth k vss []), arrOf n prob)) /\
    (forall v, 0 <= prob v) /\ rsum n prob = 1 /\ ((2 <= List.length (md_names M))%nat -> O' = O).
Proof.
  intros O0 O o pvs ds i M pv fs vss k name RO HP E HS EM EP HF AG EN n prob. assert (Hne : ds <> []) by (eapply hd_ne; eauto).
  assert (X : exists M', nth_error (on_models O) i = Some M' /\ sameEntry M M') by (eapply hn_entry; eauto). destruct X as (M' & EM' & SE). assert (X : exists h, nth_error (on_hpd O) i = Some h /\ h = arrOf (natprod (map (@List.length R) vss)) (fun j => posteriorOf O pv fs j / Rprod (md_const M))) by (eapply hd_now; eauto). destruct X as (h & e1 & e2). assert (Pc : 0 < Rprod (md_const M)) by (eapply hd_c; eauto).
  unfold currentHyperDistribution. assert (HPo : hyperPosition O name = Ok (i, k)) by (eapply hn_position; eauto). rewrite HPo. cbn [bind fst snd].
  unfold index at 1. rewrite EM'. cbn [bind]. rewrite (currentHpd_some _ _ _ e1). cbn [bind]. rewrite e2. erewrite hd_marginal by eauto. cbn [bind fst snd].
  rewrite (se_const _ _ SE), (se_names _ _ SE), fprod_R, amuls_arrOf.
  replace (arrOf (List.length (nth k vss [])) (fun x => marginal (map (@List.length R) vss) k (posteriorOf O pv fs) x / Rprod (md_const M) * Rprod (md_const M))) with (arrOf n prob).
  2:{ unfold arrOf. f_equal. apply tab_ext. intros v _. unfold prob. field. lra. }
  eexists. split; [reflexivity|]. split; [|split].
  - intros v. apply marginal_nonneg. intros x Hx. eapply hd_nonneg; eauto. rewrite (proj2 (hd_combos M vss AG)). exact Hx.
  - eapply hd_sum; eauto.
  - intros H2. destruct (Nat.eqb_spec (List.length (md_names M)) 1); [lia|reflexivity].
Qed.

(** the run of the data so far for each combination, at the time of an earlier data point *)
Section Past.
  Variables (O0 Oi O : online R R) (o : om R) (pvs : list (list R)) (ds1 ds2 : list (raw R)) (i k : nat) (M : tmEntry R) (name : string) (pv : list R) (fs : list (study R R * list R)).
  Hypothesis MO : moment O0 Oi O o pvs ds1 ds2.
  Hypotheses (EM : nth_error (on_models O0) i = Some M) (EN : nth_error (md_names M) k = Some name) (EP : nth_error pvs i = Some pv) (HF : runsOf Oi M fs).
  Let RO := mo_ready _ _ _ _ _ _ _ MO.
  Notation post := (posteriorOf Oi pv fs).
  Notation c := (Rprod (md_const M)).
  Lemma pa_position : hyperPosition O name = Ok (i, k).
  Proof. eapply hn_position; [exact RO|apply (mo_points _ _ _ _ _ _ _ MO)|eapply mo_all; exact MO|eapply mo_all_ne; exact MO|exact EM|exact EN]. Qed.
  Lemma pa_entry : exists M', nth_error (on_models O) i = Some M' /\ sameEntry M M'.
  Proof. eapply hn_entry; [exact RO|apply (mo_points _ _ _ _ _ _ _ MO)|eapply mo_all; exact MO|eapply mo_all_ne; exact MO|exact EM]. Qed.
  Lemma pa_hpd : exists ds, nth_error (on_hHpd O) (List.length ds1 - om_seglen o) = Some ds /\ nth_error ds i = Some (map Fin (tab (List.length (combos M)) (fun j => post j / c))).
  Proof.
    destruct (mo_history _ _ _ _ _ _ _ MO) as (_ & _ & Hh & _). pose proof (mo_done _ _ _ _ _ _ _ MO) as Hd. exists (on_hpd Oi). split; [now rewrite Hh, nth_error_map, Hd|].
    destruct (hd_dist O0 Oi o pvs ds1 i M pv fs RO (mo_points1 _ _ _ _ _ _ _ MO) (mo_then _ _ _ _ _ _ _ MO) (mo_started _ _ _ _ _ _ _ MO) EM EP HF) as (h & e1 & e2 & _). rewrite e1, e2. reflexivity.
  Qed.
End Past.

(** The marginal distribution of a hyper-parameter at an earlier time: the one that was current then, divided by the product of the
    spacings of all hyper-parameter values; it sums to one only if this product is one (see C55_past_refuted). *)
Theorem C55_past : forall (O0 Oi O : online R R) o pvs ds1 ds2 i M pv fs vss k name, moment O0 Oi O o pvs ds1 ds2 ->
  nth_error (on_models O0) i = Some M -> nth_error pvs i = Some pv -> runsOf Oi M fs -> arrayGrid M vss -> nth_error (md_names M) k = Some name ->
  let n := List.length (nth k vss []) in
  let prob := marginal (map (@List.length R) vss) k (posteriorOf Oi pv fs) in
  snd (currentHyperDistribution Oi name) = Ok (HArr (nth k vss []), arrOf n prob) /\
  pastHyperDistribution O (Some (stamp ds1)) name = Ok (HArr (nth k vss []), arrOf n (fun v => prob v / Rprod (md_const M))) /\
  rsum n (fun v => prob v / Rprod (md_const M)) = 1 / Rprod (md_const M).
Proof.
  intros O0 Oi O o pvs ds1 ds2 i M pv fs vss k name MO EM EP HF AG EN n prob. pose proof (mo_ready _ _ _ _ _ _ _ MO) as RO.
  destruct (C55_current O0 Oi o pvs ds1 i M pv fs vss k name RO (mo_points1 _ _ _ _ _ _ _ MO) (mo_then _ _ _ _ _ _ _ MO) (mo_started _ _ _ _ _ _ _ MO) EM EP HF AG EN) as (O' & e1 & _ & e2 & _).
  split; [now rewrite e1|]. split.
  - assert (X : exists M', nth_error (on_models O) i = Some M' /\ sameEntry M M') by (eapply pa_entry; eauto). destruct X as (M' & EM' & SE). assert (X : exists hs, nth_error (on_hHpd O) (List.length ds1 - om_seglen o) = Some hs /\ nth_error hs i = Some (map Fin (tab (List.length (combos M)) (fun j => posteriorOf Oi pv fs j / Rprod (md_const M))))) by (eapply pa_hpd; eauto). destruct X as (hs & h1 & h2). destruct (mo_ts _ _ _ _ _ _ _ MO) as (ts & Et & Ft & _).
    assert (HPo : hyperPosition O name = Ok (i, k)) by (eapply pa_position; eauto). unfold pastHyperDistribution. rewrite (mo_storeO _ _ _ _ _ _ _ MO), HPo. cbn [bind fst snd]. unfold index at 1. rewrite EM'. cbn [bind].
    rewrite Et, (timeIndex_some _ _ _ Ft). unfold index at 1. rewrite h1. cbn [bind]. unfold index. rewrite h2. cbn [bind].
    rewrite (proj2 (hd_combos M vss AG)). exact (hd_marginal Oi k M name pv fs EN vss AG M' SE).
  - unfold Rdiv at 1. rewrite rsum_scal_r. unfold n, prob. rewrite e2. unfold Rdiv. ring.
Qed.
Lemma mean_fin (f : list R -> R) (c : R) : forall (rows : list (list R)) n (g : nat -> R), List.length rows = n ->
  asum (map2 (fun row p => xmul (xmul (Fin (f row)) p) (Fin c)) rows (map Fin (tab n g))) = Fin (rsum n (fun j => f (nth j rows []) * g j * c)).
Proof.
  intros rows n g <-. rewrite <- Rsum_tab, <- asum_fin. f_equal. revert g. induction rows as [|r rows IH]; intros g; [reflexivity|].
  cbn [List.length]. unfold tab in *. cbn [seq map map2]. f_equal. rewrite <- seq_shift, !map_map. specialize (IH (fun j => g (S j))). rewrite map_map in IH. rewrite IH. apply map_map.
Qed.
(** mean values of hyper-parameters: the posterior expectation, at one time and at all times *)
Theorem C55_mean : forall (O0 Oi O : online R R) o pvs ds1 ds2 i M pv fs k name, moment O0 Oi O o pvs ds1 ds2 ->
  nth_error (on_models O0) i = Some M -> nth_error pvs i = Some pv -> runsOf Oi M fs -> nth_error (md_names M) k = Some name ->
  let mean := rsum (List.length (md_rows M)) (fun j => nth k (nth j (md_rows M) []) 0 * posteriorOf Oi pv fs j) in
  pastHyperMean O (stamp ds1) name = Ok (Fin mean) /\
  exists l, pastHyperMeans O name = Ok l /\ List.length l = List.length (filter completed (trace O0 (ds1 ++ ds2))) /\
    nth_error l (List.length ds1 - om_seglen o) = Some (Fin mean).
Proof.
  intros O0 Oi O o pvs ds1 ds2 i M pv fs k name MO EM EP HF EN mean. pose proof (mo_ready _ _ _ _ _ _ _ MO) as RO.
  assert (X : exists M', nth_error (on_models O) i = Some M' /\ sameEntry M M') by (eapply pa_entry; eauto). destruct X as (M' & EM' & SE). assert (X : exists hs, nth_error (on_hHpd O) (List.length ds1 - om_seglen o) = Some hs /\ nth_error hs i = Some (map Fin (tab (List.length (combos M)) (fun j => posteriorOf Oi pv fs j / Rprod (md_const M))))) by (eapply pa_hpd; eauto). destruct X as (hs & h1 & h2). destruct (mo_ts _ _ _ _ _ _ _ MO) as (ts & Et & Ft & _).
  assert (Pc : 0 < Rprod (md_const M)) by (eapply hd_c; eauto).
  assert (G : hyperMean (md_rows M') (md_const M') k (map Fin (tab (List.length (combos M)) (fun j => posteriorOf Oi pv fs j / Rprod (md_const M)))) = Fin mean).
  { rewrite (se_rows _ _ SE), (se_const _ _ SE). unfold hyperMean, mean. rewrite fprod_R. unfold combos. destruct (md_rows M) as [|r0 rs] eqn:Er; [reflexivity|]. rewrite <- Er. rewrite mean_fin by reflexivity.
    f_equal. apply rsum_ext. intros j _. change (@f0 R _) with 0. field. lra. }
  split.
  - assert (HPo : hyperPosition O name = Ok (i, k)) by (eapply pa_position; eauto). unfold pastHyperMean. rewrite (mo_storeO _ _ _ _ _ _ _ MO), HPo. cbn [bind fst snd]. rewrite Et, (timeIndex_some _ _ _ Ft).
    unfold index at 1. rewrite h1. cbn [bind]. unfold index at 1. rewrite h2. cbn [bind]. unfold index. rewrite EM'. cbn [bind]. now rewrite G.
  - assert (HPo : hyperPosition O name = Ok (i, k)) by (eapply pa_position; eauto). unfold pastHyperMeans. rewrite (mo_storeO _ _ _ _ _ _ _ MO), HPo. cbn [bind fst snd].
    destruct (mo_history _ _ _ _ _ _ _ MO) as (_ & _ & Hh & _). pose proof (mo_done _ _ _ _ _ _ _ MO) as Hd.
    pose proof (trace_fixed (ds1 ++ ds2) O0 (or_models _ _ _ RO)) as FT. rewrite Hh in *. rewrite nth_error_map, Hd in h1. inversion h1; subst hs. clear h1.
    set (done := filter completed (trace O0 (ds1 ++ ds2))) in *.
    destruct (map on_hpd done) as [|d0 dl] eqn:EH; [apply map_eq_nil in EH; rewrite EH in Hd; destruct (List.length ds1 - om_seglen o)%nat; discriminate|]. rewrite <- EH.
    unfold index at 1. rewrite EM'. cbn [bind]. exists (map (fun Oj => hyperMean (md_rows M') (md_const M') k (nth i (on_hpd Oj) [])) done).
    split; [|split; [apply map_length|rewrite nth_error_map, Hd; cbn [option_map]; f_equal; rewrite (nth_error_nth _ _ _ h2); exact G]].
    clear - FT EM. induction done as [|Oj l IH]; cbn [map mapM]; auto. inversion FT as [|? ? (f1 & _ & _ & f2 & _) FT']; subst.
    assert (Hi : (i < List.length (on_hpd Oj))%nat).
    { rewrite f2. pose proof (fx_names _ _ f1) as X. apply (f_equal (@List.length _)) in X. rewrite !map_length in X. rewrite X. apply nth_error_Some. congruence. }
    unfold index at 1. rewrite (List.nth_error_nth' _ [] Hi). cbn [bind]. rewrite (IH FT'). reflexivity.
Qed.

(** *** all marginal distributions of a hyper-parameter *)
(** total probability of the combinations that contain the value [v] of the k-th hyper-parameter *)
Definition probOf (rows : list (list R)) (k : nat) (post : nat -> R) (v : R) : R :=
  rsum (List.length rows) (fun j => if Req_EM_T (nth k (nth j rows []) 0) v then post j else 0).
Lemma mapM_column k : forall (rows : list (list R)) n, (k < n)%nat -> Forall (fun row => List.length row = n) rows ->
  mapM (fun row => index row k) rows = Ok (map (fun row => nth k row 0) rows).
Proof.
  induction rows as [|r rows IH]; intros n Hk HF; cbn [mapM map]; auto. inversion HF as [|? ? h1 h2]; subst. unfold index at 1. rewrite (List.nth_error_nth' r 0) by lia. cbn [bind]. rewrite (IH _ Hk h2). reflexivity.
Qed.
Lemma cond_sum k v : forall (rows : list (list R)) (g : nat -> R),
  asum (map snd (filter (fun cp => feqb (fst cp) v) (combine (map (fun row => nth k row 0) rows) (map Fin (tab (List.length rows) g))))) = Fin (probOf rows k g v).
Proof.
  intros rows g. assert (G : exists r, map snd (filter (fun cp => feqb (fst cp) v) (combine (map (fun row => nth k row 0) rows) (map Fin (tab (List.length rows) g)))) = fin r /\ Rsum r = probOf rows k g v).
  2:{ destruct G as (r & -> & <-). apply asum_fin. }
  unfold probOf. setoid_rewrite <- Rsum_tab. revert g. induction rows as [|r rows IH]; intros g; [exists []; auto|].
  destruct (IH (fun j => g (S j))) as (q & q1 & q2). cbn [List.length]. unfold tab in *. cbn [seq map combine filter fst nth]. rewrite <- seq_shift, !map_map. rewrite map_map in q1. cbn [nth] in *.
  change (feqb (nth k r 0) v) with (Reqb (nth k r 0) v). destruct (Req_EM_T (nth k r 0) v) as [e|n].
  - rewrite (proj2 (Reqb_true _ _) e). exists (g 0%nat :: q). cbn [map snd]. split; [rewrite q1; reflexivity|]. cbn [Rsum fold_right]. change (fold_right Rplus 0) with Rsum. now rewrite q2.
  - rewrite (proj2 (Reqb_false _ _) n). exists q. split; auto. cbn [Rsum fold_right]. change (fold_right Rplus 0) with Rsum. rewrite q2. ring.
Qed.
Lemma one_value (c p : R) : forall vals, NoDup vals -> In c vals -> Rsum (map (fun v => if Req_EM_T c v then p else 0) vals) = p.
Proof.
  induction vals as [|v vals IH]; intros ND I; [destruct I|]. inversion ND as [|? ? n1 n2]; subst. cbn [map Rsum fold_right]. change (fold_right Rplus 0) with Rsum. destruct (Req_EM_T c v) as [e|n].
  - subst v. assert (Z : Rsum (map (fun v => if Req_EM_T c v then p else 0) vals) = 0); [|rewrite Z; ring].
    clear - n1. induction vals as [|v vals IH]; cbn; auto. change (fold_right Rplus 0) with Rsum. rewrite IH by (intros I; apply n1; now right). destruct (Req_EM_T c v) as [->|]; [exfalso; apply n1; now left|ring].
  - destruct I as [->|I]; [congruence|]. rewrite IH by auto. ring.
Qed.
Lemma Rsum_rsum {A} (f : A -> nat -> R) n : forall l, Rsum (map (fun a => rsum n (f a)) l) = rsum n (fun j => Rsum (map (fun a => f a j) l)).
Proof.
  induction l as [|a l IH]; cbn [map Rsum fold_right]; [symmetry; now apply rsum_0|]. change (fold_right Rplus 0) with Rsum. rewrite IH, <- rsum_plus. apply rsum_ext. reflexivity.
Qed.
Lemma total_prob k (rows : list (list R)) (g : nat -> R) : Rsum (map (probOf rows k g) (unique (map (fun row => nth k row 0) rows))) = rsum (List.length rows) g.
Proof.
  unfold probOf. rewrite Rsum_rsum. apply rsum_ext. intros j Hj. apply one_value; [apply sorted_NoDup, unique_sorted|]. apply unique_In. apply in_map_iff. exists (nth j rows []). split; auto. now apply nth_In.
Qed.
(** The sequence of distributions of a hyper-parameter: its values in ascending order; for each time the posterior probabilities of
    the values. They sum to one. *)
Theorem C55_sequence : forall (O0 Oi O : online R R) o pvs ds1 ds2 i M pv fs k name, moment O0 Oi O o pvs ds1 ds2 ->
  nth_error (on_models O0) i = Some M -> nth_error pvs i = Some pv -> runsOf Oi M fs -> md_rows M <> [] -> nth_error (md_names M) k = Some name ->
  exists vals l, pastHyperDistributions O name = Ok (vals, l) /\
    StronglySorted Rlt vals /\ (forall v, In v vals <-> exists row, In row (md_rows M) /\ nth_error row k = Some v) /\
    List.length l = List.length (filter completed (trace O0 (ds1 ++ ds2))) /\
    let prob := probOf (md_rows M) k (posteriorOf Oi pv fs) in
    nth_error l (List.length ds1 - om_seglen o) = Some (map Fin (map prob vals)) /\ Rsum (map prob vals) = 1.
Proof.
  intros O0 Oi O o pvs ds1 ds2 i M pv fs k name MO EM EP HF Hr EN. pose proof (mo_ready _ _ _ _ _ _ _ MO) as RO.
  assert (X : exists M', nth_error (on_models O) i = Some M' /\ sameEntry M M') by (eapply pa_entry; eauto). destruct X as (M' & EM' & SE).
  assert (X : exists hs, nth_error (on_hHpd O) (List.length ds1 - om_seglen o) = Some hs /\ nth_error hs i = Some (map Fin (tab (List.length (combos M)) (fun j => posteriorOf Oi pv fs j / Rprod (md_const M))))) by (eapply pa_hpd; eauto). destruct X as (hs & h1 & h2).
  assert (Pc : 0 < Rprod (md_const M)) by (eapply hd_c; eauto).
  assert (EO : entryOk M pv) by (eapply hd_entry; eauto).
  assert (Hk : (k < List.length (allNames (md_tm M)))%nat) by (rewrite <- (en_names _ _ EO); apply nth_error_Some; congruence).
  assert (HPo : hyperPosition O name = Ok (i, k)) by (eapply pa_position; eauto).
  assert (Ec : combos M = md_rows M) by (unfold combos; destruct (md_rows M); [congruence|auto]).
  destruct (hd_dist O0 Oi o pvs ds1 i M pv fs RO (mo_points1 _ _ _ _ _ _ _ MO) (mo_then _ _ _ _ _ _ _ MO) (mo_started _ _ _ _ _ _ _ MO) EM EP HF) as (h & _ & _ & Sm). rewrite Ec in *.
  destruct (mo_history _ _ _ _ _ _ _ MO) as (_ & _ & Hh & _). pose proof (mo_done _ _ _ _ _ _ _ MO) as Hd.
  pose proof (trace_fixed (ds1 ++ ds2) O0 (or_models _ _ _ RO)) as FT. set (done := filter completed (trace O0 (ds1 ++ ds2))) in *.
  assert (ED : mapM (fun ds => index ds i) (on_hHpd O) = Ok (map (fun Oj => nth i (on_hpd Oj) []) done)).
  { rewrite Hh. clear - FT EM. induction done as [|Oj l IH]; cbn [map mapM]; auto. inversion FT as [|? ? (f1 & _ & _ & f2 & _) FT']; subst.
    assert (Hi : (i < List.length (on_hpd Oj))%nat).
    { rewrite f2. pose proof (fx_names _ _ f1) as X. apply (f_equal (@List.length _)) in X. rewrite !map_length in X. rewrite X. apply nth_error_Some. congruence. }
    unfold index at 1. rewrite (List.nth_error_nth' _ [] Hi). cbn [bind]. rewrite (IH FT'). reflexivity. }
  set (col := map (fun row => nth k row 0) (md_rows M)).
  do 2 eexists. split.
  { unfold pastHyperDistributions. rewrite (mo_storeO _ _ _ _ _ _ _ MO), HPo. cbn [bind fst snd]. unfold index at 1. rewrite EM'. cbn [bind]. rewrite ED. cbn [bind].
    rewrite (se_rows _ _ SE), (mapM_column k _ _ Hk (en_rows _ _ EO)). cbn [bind]. fold col. reflexivity. }
  split; [apply unique_sorted|]. split.
  { intros v. rewrite unique_In. unfold col. rewrite in_map_iff. pose proof (en_rows _ _ EO) as ER. rewrite Forall_forall in ER. split; intros (row & a & b); exists row.
    - split; auto. rewrite <- a. apply List.nth_error_nth'. rewrite (ER row b). exact Hk.
    - split; auto. now apply nth_error_nth. }
  split; [now rewrite !map_length|]. intros prob. split.
  - rewrite !nth_error_map, Hd. cbn [option_map]. f_equal. rewrite Hh, nth_error_map, Hd in h1. inversion h1; subst hs. rewrite (nth_error_nth _ _ _ h2).
    assert (EV : map (fun v => asum (map snd (filter (fun cp => feqb (fst cp) v) (combine col (map Fin (tab (List.length (md_rows M)) (fun j => posteriorOf Oi pv fs j / Rprod (md_const M)))))))) (unique col) = map Fin (map (fun v => prob v / Rprod (md_const M)) (unique col))).
    { rewrite map_map. apply map_ext. intros v. unfold col. rewrite cond_sum. f_equal. unfold prob, probOf, Rdiv. rewrite <- rsum_scal_r. apply rsum_ext. intros j _. destruct (Req_EM_T _ _); ring. }
    rewrite EV. change (map Fin ?l) with (fin l) at 2. rewrite asum_fin. change (map Fin (map ?f ?l)) with (fin (map f l)) at 1.
    assert (ES : Rsum (map (fun v => prob v / Rprod (md_const M)) (unique col)) = / Rprod (md_const M)).
    { rewrite <- (map_map prob (fun p => p / Rprod (md_const M))). rewrite Rsum_div. unfold prob, col. rewrite total_prob, Sm. field. lra. }
    rewrite adivs_fin by (rewrite ES; apply Rinv_neq_0_compat; lra). change (map Fin (map prob (unique col))) with (fin (map prob (unique col))). f_equal. unfold rdivs. rewrite ES. rewrite map_map. apply map_ext. intros v. field. lra.
  - unfold prob, col. now rewrite total_prob.
Qed.

(** ** C56: failing queries *)
Section Failing.
  Context {F L : Type} `{Num F} `{LogNum F L}.
  (** A query for the distribution(s) of a parameter that raises an exception (unknown time or parameter, a single time step) leaves the study
      with arrays instead of lists: the next data point that completes a segment raises AttributeError, although the step would have
      succeeded without the query. The next successful query repairs the study. *)
  Definition failedQuery (O O' : online F L) : Prop :=
    (exists t name density e, onlineParameterDistribution O t name density = (O', Err e)) \/
    (exists name density e, onlineParameterDistributions O name density = (O', Err e)).
  Definition goodQuery (O O' : online F L) : Prop :=
    (exists t name density r, onlineParameterDistribution O t name density = (O', Ok r)) \/
    (exists name density r, onlineParameterDistributions O name density = (O', Ok r)).
  Lemma failed_state O O' ts : failedQuery O O' -> on_store O = true -> on_ts O = Some ts -> O' = with_ts O (on_S O) (Some ts) true.
  Proof.
    intros [(t & name & b & e & E)|(name & b & e & E)] HS Et.
    - unfold onlineParameterDistribution in E. rewrite HS, Et in E. unfold withArrays in E. destruct (match on_hPost O with [] => _ | _ => _ end); now inversion E.
    - unfold onlineParameterDistributions in E. rewrite HS, Et in E. unfold withArrays in E. destruct (match on_hPost O with [] => _ | _ => _ end); now inversion E.
  Qed.
  Lemma good_state O O' : goodQuery O O' -> exists ts, on_ts O = Some ts /\ O' = with_ts O (on_S O) (Some ts) false.
  Proof.
    intros [(t & name & b & e & E)|(name & b & e & E)].
    - unfold onlineParameterDistribution in E. destruct (on_store O); [|discriminate]. destruct (on_ts O) as [ts|]; [|discriminate]. exists ts. split; auto. unfold withArrays in E. destruct (match on_hPost O with [] => _ | _ => _ end); now inversion E.
    - unfold onlineParameterDistributions in E. destruct (on_store O); [|discriminate]. destruct (on_ts O) as [ts|]; [|discriminate]. exists ts. split; auto. unfold withArrays in E. destruct (match on_hPost O with [] => _ | _ => _ end); now inversion E.
  Qed.
  Theorem C56_blocks : forall (O O' Ob : online F L) d, failedQuery O O' -> on_store O = true -> on_models O <> [] -> (0 < rawLen (st_raw (on_S O)))%nat ->
    onlineStep O d = Ok Ob -> completed Ob = true -> onlineStep O' d = Err AttributeError.
  Proof.
    intros O O' Ob d FQ HS Hm Hl E EC. unfold onlineStep in E. destruct (receive O d) as [O1|] eqn:ER; [|discriminate]. cbn [bind] in E.
    destruct (st_om (on_S O1)) as [o|] eqn:Eo; [|discriminate]. destruct (st_rawTs (on_S O1)) as [rts|] eqn:Er; [|discriminate].
    destruct (Nat.ltb_spec (rawLen (st_raw (on_S O1))) (om_seglen o)) as [Hs|Hs].
    { inversion E; subst Ob. unfold completed in EC. rewrite Eo in EC. apply Nat.leb_le in EC. lia. }
    destruct (on_ts O1) as [ts1|] eqn:Et1; [|discriminate].
    assert (Et : on_ts O = Some ts1 /\ exists S', O1 = with_S O S' /\ receive O' d = Ok (with_S O' S')).
    { unfold receive in ER. destruct (on_models O) as [|M Ms] eqn:EM; [congruence|]. cbn [bind] in ER. destruct (Nat.eqb_spec (rawLen (st_raw (on_S O))) 0) as [X|X]; [lia|].
      destruct (rawAppend (st_raw (on_S O)) d) as [d'|] eqn:EA; [|discriminate]. cbn [bind] in ER. destruct (st_rawTs (on_S O)) as [[|t ts]|] eqn:ET; try discriminate.
      inversion ER; subst O1. split; [exact Et1|]. eexists. split; [reflexivity|]. pose proof (failed_state O O' ts1 FQ HS Et1) as ->. unfold receive. cbn [with_ts on_models on_S]. rewrite EM. cbn [bind with_ts on_S].
      destruct (Nat.eqb_spec (rawLen (st_raw (on_S O))) 0); [lia|]. rewrite EA. cbn [bind]. rewrite ET. reflexivity. }
    destruct Et as (Et & S' & e1 & e2). unfold onlineStep. rewrite e2. cbn [bind with_S on_S]. subst O1. cbn [with_S on_S on_ts] in *. rewrite Eo, Er.
    destruct (Nat.ltb_spec (rawLen (st_raw S')) (om_seglen o)); [lia|]. pose proof (failed_state O O' ts1 FQ HS Et) as ->. reflexivity.
  Qed.
  Theorem C56_repairs : forall (O O' O2 : online F L), failedQuery O O' -> on_isArr O = false -> goodQuery O' O2 -> O2 = O.
  Proof.
    intros O O' O2 FQ HA GQ. destruct (good_state O' O2 GQ) as (ts & Et & ->).
    assert (HS : on_store O' = true /\ on_store O' = on_store O).
    { split.
      - destruct GQ as [(t & name & b & r & E)|(name & b & r & E)]; unfold onlineParameterDistribution, onlineParameterDistributions in E; destruct (on_store O'); auto; discriminate.
      - destruct FQ as [(t & name & b & e & E)|(name & b & e & E)]; unfold onlineParameterDistribution, onlineParameterDistributions, withArrays in E; destruct (on_store O) eqn:X; try (now inversion E; subst);
          (destruct (on_ts O); [|now inversion E; subst]); destruct (match on_hPost O with [] => _ | _ => _ end); now inversion E; subst. }
    destruct HS as [HS HS']. destruct (on_ts O) as [ts0|] eqn:Et0.
    - pose proof (failed_state O O' ts0 FQ ltac:(congruence) Et0) as ->. cbn in Et. inversion Et; subst ts0. destruct O. cbn in *. now subst.
    - exfalso. destruct FQ as [(t & name & b & e & E)|(name & b & e & E)]; unfold onlineParameterDistribution, onlineParameterDistributions in E; rewrite Et0 in E; destruct (on_store O); inversion E; subst; congruence.
  Qed.
End Failing.

(** ** Examples *)
(** The coin study with two transition models (a random walk with two possible step widths, a random walk with a change-point), for
    any two parts of a stream of bits: the hypotheses of C54 and C55. *)
Example C55_ex (d : Z) (ds1 ds2 : list Z) : bits (d :: ds1 ++ ds2) ->
  exists O0 Oi O pvs M pv fs, onlineSetup (coin PNone) twoModels true = Ok O0 /\ moment O0 Oi O (coin PNone) pvs (stream (d :: ds1)) (stream ds2) /\
    nth_error (on_models O0) 0 = Some M /\ nth_error pvs 0 = Some pv /\ runsOf Oi M fs /\ arrayGrid M [[1 / 4; 1 / 2]] /\ nth_error (md_names M) 0 = Some "s"%string /\ md_rows M <> [].
Proof.
  intros Hb. destruct (C35_ex d (ds1 ++ ds2) true Hb) as (O0 & O & _ & _ & E0 & _ & _ & HP & E & _ & _ & _ & _ & HS & _).
  assert (Hb1 : bits (d :: ds1)) by (unfold bits in *; rewrite app_comm_cons in Hb; now apply Forall_app in Hb as [Hb _]).
  destruct (C35_ex d ds1 true Hb1) as (O0' & Oi & pvs & fss & E0' & RO & _ & _ & E1 & ST & HF & _). rewrite E0 in E0'. inversion E0'; subst O0'; clear E0'.
  assert (Es : stream (F := R) (d :: ds1 ++ ds2) = stream (d :: ds1) ++ stream ds2) by (unfold stream; rewrite app_comm_cons, map_app; reflexivity).
  rewrite Es in *. destruct (onlineSteps_app _ _ _ _ E) as (Oi' & E2 & E3). rewrite E1 in E2. inversion E2; subst Oi'; clear E2.
  assert (X : noHistory O0 /\ exists M M2, on_models O0 = [M; M2] /\ arrayGrid M [[1 / 4; 1 / 2]] /\ md_names M = ["s"%string]).
  { unfold onlineSetup in E0. destruct (runCalls fresh _) as [S0|]; [|discriminate]. unfold twoModels, addAll in E0. cbn [bind fold_left fst snd] in E0.
    destruct (addTM (newOnline S0 true) "walks"%string walks) as [Oa|] eqn:Ea; [|discriminate]. cbn [bind] in E0.
    destruct (addTM Oa "change"%string walkOne) as [Ob|] eqn:Eb; [|discriminate]. cbn [bind] in E0. inversion E0; subst Ob; clear E0.
    destruct twoModels_ok as [HA _]. inversion HA as [|? ? A1 A2]; subst. inversion A2 as [|? ? A3 _]; subst. clear HA A2. cbn [snd] in *.
    destruct (C55_grid _ _ _ _ [[1 / 4; 1 / 2]] Ea eq_refl (proj1 A1)) as (M & g1 & g2 & g3 & g4).
    { cbn. repeat f_equal; unfold frac; cbn; lra. } { discriminate. } { constructor; [discriminate|constructor]. }
    destruct (addTM_keeps _ _ _ _ Ea) as (_ & ka & _ & _ & _ & _ & _ & ta & _). destruct (addTM_keeps _ _ _ _ Eb) as (_ & kb & _).
    assert (Ts : on_ts Oa = None).
    { unfold addTM in Ea. destruct (setTM _ _) as [s|]; [|discriminate]. cbn [bind] in Ea. change (on_ts (newOnline S0 true)) with (@None (list R)) in Ea. cbv iota in Ea.
      destruct (existsb _ _); [discriminate|]. destruct (createHyperGrid _ _) as [[[[[? ?] ?] ?] ?]|]; [|discriminate]. cbn [bind] in Ea. inversion Ea. reflexivity. }
    destruct (C37_grid _ _ _ _ Eb Ts (proj1 A3)) as (M2 & m1 & _).
    split; [|exists M, M2; rewrite m1, g1; auto].
    unfold sameHistory in *. unfold noHistory. destruct ka as (a1 & a2 & a3 & a4 & a5), kb as (b1 & b2 & b3 & b4 & b5). rewrite b1, b2, b3, b4, b5, a1, a2, a3, a4, a5. repeat split. }
  destruct X as (NH & M & M2 & EM & AG & EN). rewrite EM in HF. inversion HF as [|? fs ? fss' F1 F2]; subst.
  assert (Hpv : exists pv, nth_error pvs 0 = Some pv).
  { pose proof (or_entries _ _ _ RO) as X. apply DataProof.Forall2_len in X. rewrite EM in X. destruct pvs; [discriminate|]. eexists; reflexivity. }
  destruct Hpv as (pv & Hpv). exists O0, Oi, O, pvs, M, pv, fs. split; [auto|]. split; [constructor; auto|]. rewrite EM, EN. repeat (split; [solve [auto]|]).
  intros X. pose proof (ag_size _ _ AG) as Y. rewrite X in Y. discriminate Y.
Qed.
Ltac runs E := repeat (apply bindE in E; let H := fresh "Run" in destruct E as (? & H & E)).
Local Open Scope Q_scope.
(** Executed, after three data points: the marginal distribution now, asked for in both ways, and after the first data point; mean values now
    and at all times; model probabilities. *)
Example C54_ex :
  (let* O0 := onlineSetup (L := Q) (coinOM quarters PNone) twoModels true in
   let* st := onlineSteps O0 (stream [1; 1; 0]%Z) in
   Ok (currentParameterDistribution st "p" true, snd (onlineParameterDistribution st (Some 2) "p" true), snd (onlineParameterDistribution st (Some 0) "p" false),
       currentMeanValue st "p", pastMeanValues st "p", pastTMPs st "walks" false, currentTMP st "walks" false))%res =
  Ok (Ok ([1 # 4; 1 # 2; 3 # 4], [Fin (4837081563904701 # 2565169000725755); Fin (3515315183999712 # 2565169000725755); Fin (1908279254998607 # 2565169000725755)]),
      Ok ([1 # 4; 1 # 2; 3 # 4], Some [Fin (4837081563904701 # 2565169000725755); Fin (3515315183999712 # 2565169000725755); Fin (1908279254998607 # 2565169000725755)]),
      Ok ([1 # 4; 1 # 2; 3 # 4], Some [Fin (1 # 6); Fin (1 # 3); Fin (1 # 2)]),
      Ok (Fin (8796274848449973 # 20521352005806040)),
      Ok [Fin (7 # 12); Fin (39009809 # 65763674); Fin (8796274848449973 # 20521352005806040)],
      Ok [Fin (4 # 5); Fin (131023376 # 164409185); Fin (2054739307563956 # 2565169000725755)],
      Ok (Fin (2054739307563956 # 2565169000725755))).
Proof. vm_compute. reflexivity. Qed.
(** The distribution of the step width now and at all times, and its mean values. *)
Example C55_run_ex :
  (let* O0 := onlineSetup (L := Q) (coinOM quarters PNone) twoModels true in
   let* st := onlineSteps O0 (stream [1; 1; 0]%Z) in
   Ok (snd (currentHyperDistribution st "s"), pastHyperDistributions st "s", pastHyperMean st 2 "s", pastHyperMeans st "s"))%res =
  Ok (Ok (HArr [1 # 4; 1 # 2], [Fin (510429693161799 # 2054739307563956); Fin (1544309614402157 # 2054739307563956)]),
      Ok ([1 # 4; 1 # 2], [[Fin (1 # 4); Fin (3 # 4)]; [Fin (33385809 # 131023376); Fin (97637567 # 131023376)];
                           [Fin (510429693161799 # 2054739307563956); Fin (1544309614402157 # 2054739307563956)]]),
      Ok (Fin (3599048921966113 # 8218957230255824)),
      Ok [Fin (7 # 16); Fin (228660943 # 524093504); Fin (3599048921966113 # 8218957230255824)]).
Proof. vm_compute. reflexivity. Qed.

(** getParameterMeanValue(t) is not the mean value that was shown at time t: here, after three data points, it differs from the
    current mean value although t is the last time stamp (the posterior is indexed with t, core.py:2555). *)
Theorem C54_mean_refuted : exists (O0 O : online Q Q) v w,
  onlineSetup (coinOM quarters PNone) twoModels true = Ok O0 /\ onlineSteps O0 (stream [1; 1; 0]%Z) = Ok O /\ on_ts O = Some [0; 1; 2] /\
  currentMeanValue O "p" = Ok v /\ pastMeanValue O 2 "p" = Ok w /\ v <> w.
Proof.
  assert (E : (let* O0 := onlineSetup (L := Q) (coinOM quarters PNone) twoModels true in let* st := onlineSteps O0 (stream [1; 1; 0]%Z) in
     let* a := currentMeanValue st "p" in let* b := pastMeanValue st 2 "p" in Ok (on_ts st, a, b))%res =
    Ok (Some [0; 1; 2], Fin (8796274848449973 # 20521352005806040), Fin (5724837764995821 # 20521352005806040))) by (vm_compute; reflexivity).
  run E. do 4 eexists. repeat (split; [eassumption|]). congruence.
Qed.
(** After the first step there is one posterior; getParameterDistributions compares its length with the length of the history of one
    and raises IndexError; afterwards the study cannot take data points any more. *)
Theorem C56_single_refuted : exists (O0 O1 O2 O1' : online Q Q),
  onlineSetup (coinOM quarters PNone) twoModels true = Ok O0 /\ onlineSteps O0 (stream [1]%Z) = Ok O1 /\ onlineStep O1 (data [0]%Z) = Ok O2 /\
  onlineParameterDistributions O1 "p" true = (O1', Err IndexError) /\ onlineStep O1' (data [0]%Z) = Err AttributeError.
Proof.
  assert (E : (let* O0 := onlineSetup (L := Q) (coinOM quarters PNone) twoModels true in let* st := onlineSteps O0 (stream [1]%Z) in let* O2 := onlineStep st (data [0]%Z) in
     let (st', r) := onlineParameterDistributions st "p" true in Ok (match r with Err IndexError => 1%nat | _ => 0%nat end, match onlineStep st' (data [0]%Z) with Err AttributeError => 1%nat | _ => 0%nat end))%res =
    Ok (1%nat, 1%nat)) by (vm_compute; reflexivity).
  runs E. destruct (onlineParameterDistributions _ "p" true) as [st' r] eqn:EP. destruct r as [|[]]; try discriminate E. destruct (onlineStep st' _) as [|[]] eqn:E4; try discriminate E.
  do 4 eexists. repeat (split; [eassumption|]). assumption.
Qed.
(** The distribution of a hyper-parameter at an earlier time does not sum to one (its spacing is 1/4: the sum is 4). *)
Theorem C55_past_refuted : exists (O0 O : online Q Q) vals a b,
  onlineSetup (coinOM quarters PNone) twoModels true = Ok O0 /\ onlineSteps O0 (stream [1; 1; 0]%Z) = Ok O /\
  pastHyperDistribution O (Some 0) "s" = Ok (vals, [Fin a; Fin b]) /\ ~ a + b == 1.
Proof.
  assert (E : (let* O0 := onlineSetup (L := Q) (coinOM quarters PNone) twoModels true in let* st := onlineSteps O0 (stream [1; 1; 0]%Z) in
     pastHyperDistribution st (Some 0) "s")%res = Ok (HArr [1 # 4; 1 # 2], [Fin 1; Fin 3])) by (vm_compute; reflexivity).
  runs E. do 5 eexists. repeat (split; [eassumption|]). discriminate.
Qed.
(** For a hyper-parameter with a single value the query raises TypeError. *)
Theorem C55_scalar_refuted : exists (O0 O : online Q Q),
  onlineSetup (coinOM quarters PNone) twoModels true = Ok O0 /\ onlineSteps O0 (stream [1; 1; 0]%Z) = Ok O /\
  In "r"%string (flat_map md_names (on_models O)) /\ snd (currentHyperDistribution O "r") = Err TypeError.
Proof.
  assert (E : (let* O0 := onlineSetup (L := Q) (coinOM quarters PNone) twoModels true in let* st := onlineSteps O0 (stream [1; 1; 0]%Z) in
     Ok (flat_map md_names (on_models st), match snd (currentHyperDistribution st "r") with Err TypeError => 1%nat | _ => 0%nat end))%res = Ok (["s"; "r"; "c"]%string, 1%nat)) by (vm_compute; reflexivity).
  runs E. inversion E as [[E1 E2]]. do 2 eexists. repeat (split; [eassumption|]). split; [rewrite E1; cbn; tauto|]. destruct (snd _) as [|[]]; try discriminate E2; reflexivity.
Qed.
(** The current distribution of the only hyper-parameter of a model: the second query returns another result, which does not sum to
    one; getCurrentHyperParameterDistribution changes the study. *)
Theorem C55_repeat_refuted : exists (O0 O O' : online Q Q) vals a b a' b',
  onlineSetup (coinOM quarters PNone) twoModels true = Ok O0 /\ onlineSteps O0 (stream [1; 1; 0]%Z) = Ok O /\
  currentHyperDistribution O "s" = (O', Ok (vals, [Fin a; Fin b])) /\ snd (currentHyperDistribution O' "s") = Ok (vals, [Fin a'; Fin b']) /\
  a + b == 1 /\ ~ a' + b' == 1.
Proof.
  assert (E : (let* O0 := onlineSetup (L := Q) (coinOM quarters PNone) twoModels true in let* st := onlineSteps O0 (stream [1; 1; 0]%Z) in
     let (st', r) := currentHyperDistribution st "s" in let* p := r in let* q := snd (currentHyperDistribution st' "s") in Ok (p, q))%res =
    Ok ((HArr [1 # 4; 1 # 2], [Fin (510429693161799 # 2054739307563956); Fin (1544309614402157 # 2054739307563956)]),
        (HArr [1 # 4; 1 # 2], [Fin (510429693161799 # 8218957230255824); Fin (1544309614402157 # 8218957230255824)]))) by (vm_compute; reflexivity).
  runs E. destruct (currentHyperDistribution _ "s") as [st' [p|]] eqn:EC; [|discriminate E]. cbn [bind] in E. destruct (snd (currentHyperDistribution st' "s")) as [q|] eqn:E3; [|discriminate E]. cbn [bind] in E. inversion E; subst p q; clear E.
  do 8 eexists. repeat (split; [eassumption|]). split; [reflexivity|discriminate].
Qed.
(** Failing queries, executed: an unknown time stamp, then a data point; and a successful query in between. *)
Example C56_ex :
  (let* O0 := onlineSetup (L := Q) (coinOM quarters PNone) twoModels true in
   let* st := onlineSteps O0 (stream [1; 1]%Z) in
   let (bad, r) := onlineParameterDistribution st (Some 7) "p" true in
   let (good, r') := onlineParameterDistributions bad "p" true in
   Ok (match r with Err PostProcessingError => true | _ => false end, match onlineStep bad (data [0]%Z) with Err AttributeError => true | _ => false end,
       match r' with Ok _ => true | _ => false end, match onlineStep st (data [0]%Z), onlineStep good (data [0]%Z) with Ok a, Ok b => match on_marg a, on_marg b with Some _, Some _ => true | _, _ => false end | _, _ => false end,
       on_store st, on_isArr st, on_isArr bad, on_isArr good))%res = Ok (true, true, true, true, true, false, true, false).
Proof. vm_compute. reflexivity. Qed.

(** getPD is documented as the short form of getParameterDistribution, but drops the argument density: asked for probabilities, it returns
    the density values, which do not sum to one. *)
Theorem C54_getPD_refuted : exists (O0 O : online Q Q) x p d,
  onlineSetup (coinOM quarters PNone) twoModels true = Ok O0 /\ onlineSteps O0 (stream [1; 1; 0]%Z) = Ok O /\ on_ts O = Some [0; 1; 2] /\
  snd (onlineParameterDistribution O (Some 1) "p" false) = Ok (x, Some p) /\ asum p = Fin 1 /\
  snd (onlinePD O (Some 1) "p" false) = Ok (x, Some d) /\ asum d <> Fin 1.
Proof.
  assert (E : (let* O0 := onlineSetup (L := Q) (coinOM quarters PNone) twoModels true in let* st := onlineSteps O0 (stream [1; 1; 0]%Z) in
     let* a := snd (onlineParameterDistribution st (Some 1) "p" false) in let* b := snd (onlinePD st (Some 1) "p" false) in
     Ok (on_ts st, fst a, option_map asum (snd a), fst b, option_map asum (snd b)))%res =
    Ok (Some [0; 1; 2], [1 # 4; 1 # 2; 3 # 4], Some (Fin 1), [1 # 4; 1 # 2; 3 # 4], Some (Fin 4))) by (vm_compute; reflexivity).
  runs E. injection E as e1 e2 e3 e4 e5.
  repeat match goal with a : (list Q * option _)%type |- _ => destruct a as [? [?|]]; cbn [fst snd option_map] in * end; try discriminate.
  injection e3 as e3. injection e5 as e5. subst.
  do 5 eexists. repeat (split; [eassumption|]). rewrite e5. discriminate.
Qed.
(** Queries for hyper-parameters that nobody has, and before the first data point, executed. *)
Example C55_unknown_ex :
  (let* O0 := onlineSetup (L := Q) (coinOM quarters PNone) twoModels true in
   let* st := onlineSteps O0 (stream [1; 1]%Z) in
   Ok (snd (currentHyperDistribution st "z"), pastHyperMeans st "z", pastHyperDistribution O0 None "z", snd (currentHyperDistribution O0 "s"), pastHyperMeans O0 "s", pastHyperDistribution O0 (Some 0) "s",
       existsb (fun M => existsb (String.eqb "s") (allNames (md_tm M))) (on_models O0), on_store O0, List.length (on_hpd O0), on_ts O0))%res =
  Ok (Err PostProcessingError, Err PostProcessingError, Err PostProcessingError, Err TypeError, Err IndexError, Err TypeError, true, true, 0%nat, None).
Proof. vm_compute. reflexivity. Qed.
