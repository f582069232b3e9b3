(** Histories of online studies; any number type. *)
From Coq Require Import List ZArith Lia Arith Bool String.
From Verif Require Import Base.Num Base.Exn Base.Arr Model.Helper Model.Tm Model.HyperParams Model.Study Model.Api
  Model.Getters Model.Hyper Model.Online Spec.OnlineSpec.
Import ListNotations.

Section Hist.
  Context {F L : Type} `{Num F} `{LogNum F L}.
  Notation online := (online F L).

  Lemma addTM_keeps (O O' : online) name m : addTM O name m = Ok O' ->
    sameShown O' O /\ sameHistory O' O /\ on_store O' = on_store O /\ on_tmPrior O' = on_tmPrior O /\ on_first O' = on_first O /\ on_models O' <> [] /\
    st_om (on_S O') = st_om (on_S O) /\ st_raw (on_S O') = st_raw (on_S O) /\ st_grid (on_S O') = st_grid (on_S O).
  Proof.
    unfold addTM, setTM. destruct (isBreak m); [discriminate|]. cbn [bind]. intros E.
    assert (G : exists g, bind g (fun g => let '(vals, rows, consts, pv, m') := g in Ok (with_models (with_S O (set_tm (set_tm (on_S O) m (st_lat (on_S O))) m' (st_lat (set_tm (on_S O) m (st_lat (on_S O))))))
      (on_models O ++ [{| md_name := name; md_tm := m'; md_rows := rows; md_vals := vals; md_names := allNames m; md_const := consts; md_pv := pv |}]))) = Ok O').
    { destruct (on_ts O); [|destruct (existsb _ _); [discriminate|]]; eexists; exact E. }
    clear E. destruct G as ([[[[[vals rows] cs] pv] m']|] & E); [|discriminate]. cbn [bind] in E. inversion E; subst O'; clear E.
    unfold sameShown, sameHistory. cbn. repeat (split; [solve [auto 12]|]). split; [|auto]. intros X; apply app_eq_nil in X as [_ X]; discriminate X.
  Qed.
  Lemma receive_keeps (O O1 : online) d : receive O d = Ok O1 ->
    sameShown O1 O /\ sameHistory O1 O /\ on_store O1 = on_store O /\ on_tmPrior O1 = on_tmPrior O /\ on_first O1 = on_first O /\
    st_om (on_S O1) = st_om (on_S O) /\ st_grid (on_S O1) = st_grid (on_S O) /\ on_models O1 <> [] /\ (on_models O <> [] -> sameModels O1 O).
  Proof.
    unfold receive. intros E.
    assert (G : exists O2, (sameShown O2 O /\ sameHistory O2 O /\ on_store O2 = on_store O /\ on_tmPrior O2 = on_tmPrior O /\ on_first O2 = on_first O /\
      st_om (on_S O2) = st_om (on_S O) /\ st_grid (on_S O2) = st_grid (on_S O) /\ on_models O2 <> [] /\ (on_models O <> [] -> O2 = O)) /\
      exists S' ts b, O1 = with_ts O2 S' ts b /\ st_logEv S' = st_logEv (on_S O2) /\ st_om S' = st_om (on_S O2) /\ st_grid S' = st_grid (on_S O2) /\
        st_tm S' = st_tm (on_S O2) /\ st_shape S' = st_shape (on_S O2) /\ st_lat S' = st_lat (on_S O2) /\ st_shift S' = st_shift (on_S O2) /\ st_aconv S' = st_aconv (on_S O2) /\ st_bconv S' = st_bconv (on_S O2)).
    { destruct (match on_models O with [] => _ | _ => _ end) as [O2|] eqn:E2; [|discriminate]. cbn [bind] in E. exists O2. split.
      - destruct (on_models O) as [|M l] eqn:EM.
        + destruct (st_tm (on_S O)) as [m|]; [|discriminate]. apply addTM_keeps in E2 as (a1 & a2 & a3 & a4 & a5 & a6 & a7 & a8 & a9). repeat (split; [assumption|]). congruence.
        + inversion E2; subst O2. unfold sameShown, sameHistory. rewrite EM. repeat (split; [solve [auto 12]|]). split; [discriminate|auto].
      - destruct (Nat.eqb _ _).
        + destruct (hasDup _); [discriminate|]. destruct (checkConsistency _); [|discriminate]. cbn [bind] in E. inversion E; subst O1. do 3 eexists. split; [reflexivity|]. cbn. auto 12.
        + destruct (rawAppend _ _) as [d'|]; [|discriminate]. cbn [bind] in E. destruct (st_rawTs (on_S O2)) as [[|t ts]|]; try discriminate.
          inversion E; subst O1. eexists _, (on_ts O2), (on_isArr O2). split; [reflexivity|]. cbn. auto 12. }
    destruct G as (O2 & (a1 & a2 & a3 & a4 & a5 & a6 & a7 & a8 & a9) & S' & ts & b & -> & s1 & s2 & s3 & s4 & s5 & s6 & s7 & s8 & s9).
    unfold sameShown, sameHistory, sameModels in *. cbn [with_ts on_logEvs on_hyperEvs on_posts on_tmPosts on_marg on_hpd on_tmd on_ltmd on_S on_hMeans on_hPost on_hHpd on_hTmd on_hLtmd on_store on_tmPrior on_first on_models].
    rewrite s1, s2, s3. repeat (split; [assumption|]). intros Hn. rewrite (a9 Hn) in *. rewrite s4, s5, s6, s7, s8, s9. auto 12.
  Qed.

  Definition storedNow (O0 O : online) : Prop :=
    on_hMeans O = remember (on_store O0) (on_hMeans O0) (meansNow O) /\ on_hPost O = remember (on_store O0) (on_hPost O0) (marginalNow O) /\
    on_hHpd O = remember (on_store O0) (on_hHpd O0) (on_hpd O) /\ on_hTmd O = remember (on_store O0) (on_hTmd O0) (on_tmd O) /\
    on_hLtmd O = remember (on_store O0) (on_hLtmd O0) (on_ltmd O).
  Lemma update_stores (O O' : online) o : update O o = Ok O' ->
    storedNow O O' /\ on_store O' = on_store O /\ (exists p, st_om (on_S O') = Some (om_set_prior o p)) /\ st_raw (on_S O') = st_raw (on_S O).
  Proof.
    unfold update. intros E. destruct (on_first O).
    - destruct (computePrior _) as [[[a p] al]|]; [|discriminate]. cbn [bind] in E. cbn [initialise on_tmPrior] in E.
      match type of E with match ?x with _ => _ end = _ => destruct x as [ps|] end; [|discriminate].
      destruct (modelsLoop _ _ _ _ _ _ _ _) as [outs|]; [|discriminate]. cbn [bind] in E. inversion E; subst O'. split; [repeat split|]. split; [reflexivity|]. split; [eexists; reflexivity|reflexivity].
    - cbn [bind] in E. destruct (on_tmPrior O) as [ps|]; [|discriminate].
      destruct (modelsLoop _ _ _ _ _ _ _ _) as [outs|]; [|discriminate]. cbn [bind] in E. inversion E; subst O'. split; [repeat split|]. split; [reflexivity|]. split; [eexists; reflexivity|reflexivity].
  Qed.
  Lemma step_stores (O O' : online) d : onlineStep O d = Ok O' ->
    on_store O' = on_store O /\
    if completed O' then storedNow O O' else sameShown O' O /\ sameHistory O' O /\ (on_models O <> [] -> sameModels O' O).
  Proof.
    unfold onlineStep. intros E. destruct (receive O d) as [O1|] eqn:ER; [|discriminate]. cbn [bind] in E.
    apply receive_keeps in ER as (a1 & a2 & a3 & a4 & a5 & a6 & a7 & a8 & a9).
    destruct (st_om (on_S O1)) as [o|] eqn:Eo; [|discriminate]. destruct (st_rawTs (on_S O1)) as [rts|]; [|discriminate].
    destruct (Nat.ltb_spec (rawLen (st_raw (on_S O1))) (om_seglen o)) as [Hl|Hl].
    - inversion E; subst O'. unfold completed. rewrite Eo. destruct (Nat.leb_spec (om_seglen o) (rawLen (st_raw (on_S O1)))); [lia|]. auto.
    - destruct (on_ts O1) as [ts|]; [|discriminate]. destruct (on_isArr O1); [discriminate|]. apply update_stores in E as (u1 & u2 & (p & u3) & u4).
      cbn [with_ts on_store] in u2. split; [congruence|]. cbn [with_ts on_S] in u4. unfold completed. rewrite u3, u4. cbn [om_set_prior om_seglen].
      destruct (Nat.leb_spec (om_seglen o) (rawLen (st_raw (on_S O1)))); [|lia].
      unfold storedNow in *. cbn [with_ts on_store on_hMeans on_hPost on_hHpd on_hTmd on_hLtmd] in u1. destruct a2 as (h1 & h2 & h3 & h4 & h5). rewrite <- a3, <- h1, <- h2, <- h3, <- h4, <- h5. exact u1.
  Qed.

  Lemma steps_history : forall ds (O O' : online), onlineSteps O ds = Ok O' -> on_store O = true ->
    let done := filter completed (trace O ds) in
    on_hMeans O' = on_hMeans O ++ map meansNow done /\ on_hPost O' = on_hPost O ++ map marginalNow done /\
    on_hHpd O' = on_hHpd O ++ map on_hpd done /\ on_hTmd O' = on_hTmd O ++ map on_tmd done /\ on_hLtmd O' = on_hLtmd O ++ map on_ltmd done.
  Proof.
    induction ds as [|d ds IH]; intros O O' E HS; cbn [onlineSteps trace] in *.
    - inversion E; subst. cbn. rewrite !app_nil_r. auto.
    - destruct (onlineStep O d) as [O1|] eqn:E1; [|discriminate]. cbn [bind] in E. apply step_stores in E1 as [s1 s2].
      assert (HS1 : on_store O1 = true) by congruence. destruct (IH O1 O' E HS1) as (i1 & i2 & i3 & i4 & i5). cbn [filter].
      destruct (completed O1).
      + unfold storedNow, remember in s2. rewrite HS in s2. destruct s2 as (t1 & t2 & t3 & t4 & t5). cbn [map]. rewrite i1, i2, i3, i4, i5, t1, t2, t3, t4, t5, <- !app_assoc. auto.
      + destruct s2 as (_ & (t1 & t2 & t3 & t4 & t5) & _). rewrite i1, i2, i3, i4, i5, t1, t2, t3, t4, t5. auto.
  Qed.
  Lemma steps_nohistory : forall ds (O O' : online), onlineSteps O ds = Ok O' -> on_store O = false -> sameHistory O' O.
  Proof.
    induction ds as [|d ds IH]; intros O O' E HS; cbn [onlineSteps] in *.
    - inversion E; subst. unfold sameHistory. auto.
    - destruct (onlineStep O d) as [O1|] eqn:E1; [|discriminate]. cbn [bind] in E. apply step_stores in E1 as [s1 s2].
      assert (HS1 : on_store O1 = false) by congruence. pose proof (IH O1 O' E HS1) as (i1 & i2 & i3 & i4 & i5).
      unfold sameHistory. rewrite i1, i2, i3, i4, i5. destruct (completed O1).
      + unfold storedNow, remember in s2. rewrite HS in s2. exact s2.
      + apply s2.
  Qed.

  (** ** independence *)
  Definition rmap {A B} (f : A -> B) (r : res A) : res B := match r with Ok a => Ok (f a) | Err e => Err e end.
  Lemma addTM_forget (O : online) name m : addTM (forget O) name m = rmap forget (addTM O name m).
  Proof.
    unfold addTM. cbn [forget on_S on_ts]. destruct (setTM (on_S O) m) as [S1|]; [|reflexivity]. cbn [bind].
    destruct (on_ts O) as [ts|]; [|destruct (existsb _ _); [reflexivity|]]; destruct (createHyperGrid m _) as [[[[[vals rows] cs] pv] m']|]; reflexivity.
  Qed.
  Lemma receive_forget (O : online) d : receive (forget O) d = rmap forget (receive O d).
  Proof.
    unfold receive. cbn [forget on_models on_S]. 
    replace (match on_models O with [] => match st_tm (on_S O) with None => Err ConfigurationError | Some m => addTM (forget O) "transition model" m end | _ :: _ => Ok (forget O) end)
      with (rmap forget (match on_models O with [] => match st_tm (on_S O) with None => Err ConfigurationError | Some m => addTM O "transition model" m end | _ :: _ => Ok O end)).
    2:{ destruct (on_models O); [|reflexivity]. destruct (st_tm (on_S O)); [|reflexivity]. now rewrite addTM_forget. }
    destruct (match on_models O with [] => _ | _ => _ end) as [O1|]; [|reflexivity]. cbn [rmap bind forget on_S on_models].
    destruct (Nat.eqb _ _).
    - destruct (hasDup _); [reflexivity|]. destruct (checkConsistency _); reflexivity.
    - destruct (rawAppend _ _); [|reflexivity]. cbn [bind]. destruct (st_rawTs (on_S O1)) as [[|t ts]|]; reflexivity.
  Qed.
  Lemma update_forget (O : online) o : update (forget O) o = rmap forget (update O o).
  Proof.
    unfold update. cbn [forget on_S on_first]. destruct (on_first O).
    - destruct (computePrior _) as [[[a p] al]|]; [|reflexivity]. cbn [bind initialise on_tmPrior forget on_models on_logEvs on_posts on_hyperEvs].
      match goal with |- match ?x with _ => _ end = _ => destruct x as [ps|] end; [|reflexivity].
      destruct (modelsLoop _ _ _ _ _ _ _ _) as [outs|]; reflexivity.
    - cbn [bind on_tmPrior forget on_models on_logEvs on_posts on_hyperEvs]. destruct (on_tmPrior O) as [ps|]; [|reflexivity].
      destruct (modelsLoop _ _ _ _ _ _ _ _) as [outs|]; reflexivity.
  Qed.
  Lemma step_forget (O : online) d : onlineStep (forget O) d = rmap forget (onlineStep O d).
  Proof.
    unfold onlineStep. rewrite receive_forget. destruct (receive O d) as [O1|]; [|reflexivity]. cbn [rmap bind forget on_S on_ts on_isArr].
    destruct (st_om (on_S O1)) as [o|]; [|reflexivity]. destruct (st_rawTs (on_S O1)) as [rts|]; [|reflexivity]. destruct (Nat.ltb _ _); [reflexivity|].
    destruct (on_ts O1) as [ts|]; [|reflexivity]. destruct (on_isArr O1); [reflexivity|]. rewrite <- update_forget. reflexivity.
  Qed.
  Lemma steps_forget : forall ds (O : online), onlineSteps (forget O) ds = rmap forget (onlineSteps O ds).
  Proof.
    induction ds as [|d ds IH]; intros O; cbn [onlineSteps]; [reflexivity|]. rewrite step_forget. destruct (onlineStep O d) as [O1|]; [|reflexivity]. cbn [rmap bind]. apply IH.
  Qed.

  (** ** the update only uses the last segment *)
  Lemma update_window (O1 O2 : online) o O1' : sameModels O1 O2 -> sameShown O1 O2 -> st_om (on_S O1) = Some o ->
    lastSegment (om_seglen o) (st_raw (on_S O1)) = lastSegment (om_seglen o) (st_raw (on_S O2)) ->
    update O1 o = Ok O1' -> exists O2', update O2 o = Ok O2' /\ sameShown O1' O2' /\ sameModels O1' O2'.
  Proof.
    intros (m1 & m2 & m3 & m4 & m5 & m6 & m7 & m8 & m9 & m10 & m11) (r1 & r2 & r3 & r4 & r5 & r6 & r7 & r8 & r9) Eo Ew E. unfold update in *.
    assert (Ee : envOf (set_online (on_S O2) o (st_tm (on_S O2)) (st_logEv (on_S O2))) o (om_prior o) = envOf (set_online (on_S O1) o (st_tm (on_S O1)) (st_logEv (on_S O1))) o (om_prior o)).
    { unfold envOf, set_online. cbn. now rewrite m6, m7, m8, m9, m10, m11. }
    rewrite Ee, <- m3, <- Ew. destruct (on_first O1).
    - destruct (computePrior _) as [[[a p] al]|]; [|discriminate]. cbn [bind initialise on_tmPrior on_models on_logEvs on_posts on_hyperEvs] in *. rewrite <- m1, <- m2.
      destruct (match on_tmPrior O1 with Some p0 => Some p0 | None => _ end) as [ps|]; [|discriminate].
      destruct (modelsLoop _ _ _ _ _ _ _ _) as [outs|]; [|discriminate]. cbn [bind] in *. inversion E; subst O1'. eexists. split; [reflexivity|].
      unfold sameShown, sameModels, finish. cbn. rewrite m6, m7, m8, m9, m10, m11, m5. repeat split.
    - cbn [bind] in *. rewrite <- m2, <- m1, <- r1, <- r3, <- r2. destruct (on_tmPrior O1) as [ps|]; [|discriminate].
      destruct (modelsLoop _ _ _ _ _ _ _ _) as [outs|]; [|discriminate]. cbn [bind] in *. inversion E; subst O1'. eexists. split; [reflexivity|].
      unfold sameShown, sameModels, finish. cbn. rewrite m6, m7, m8, m9, m10, m11, m5. repeat split.
  Qed.
End Hist.
