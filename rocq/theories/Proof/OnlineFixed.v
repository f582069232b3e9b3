(** What the steps of an online study never change; any number type. *)
From Coq Require Import List ZArith Lia Arith Bool String.
From Verif Require Import Base.Num Base.Exn Base.Arr Model.Helper Model.Tm Model.HyperParams Model.Study Model.Api
  Model.Getters Model.Hyper Model.Online Spec.OnlineSpec Proof.OnlineHistory.
Import ListNotations.

Section Fixed.
  Context {F L : Type} `{Num F} `{LogNum F L}.
  Notation online := (online F L).

  Definition shownNames (O : online) := option_map om_names (st_om (on_S O)).
  Record sameFixed (O1 O2 : online) : Prop := {
    fx_marg : st_marg (on_S O1) = st_marg (on_S O2);
    fx_shape : st_shape (on_S O1) = st_shape (on_S O2);
    fx_lat : st_lat (on_S O1) = st_lat (on_S O2);
    fx_grid : st_grid (on_S O1) = st_grid (on_S O2);
    fx_om : shownNames O1 = shownNames O2;
    fx_names : map md_name (on_models O1) = map md_name (on_models O2);
    fx_hnames : map md_names (on_models O1) = map md_names (on_models O2);
    fx_vals : map md_vals (on_models O1) = map md_vals (on_models O2);
    fx_rows : map md_rows (on_models O1) = map md_rows (on_models O2);
    fx_const : map md_const (on_models O1) = map md_const (on_models O2)
  }.
  Lemma fixed_refl O : sameFixed O O.
  Proof. constructor; reflexivity. Qed.
  Lemma fixed_sym O1 O2 : sameFixed O1 O2 -> sameFixed O2 O1.
  Proof. intros []; constructor; congruence. Qed.
  Lemma fixed_trans O1 O2 O3 : sameFixed O1 O2 -> sameFixed O2 O3 -> sameFixed O1 O3.
  Proof. intros [] []; constructor; congruence. Qed.

  Lemma modelsLoop_same e lik prior : forall (Ms : list (tmEntry F)) evs posts hevs ps (outs : list (tmOut F L)), modelsLoop e lik prior Ms evs posts hevs ps = Ok outs ->
    map md_name (map to_md outs) = map md_name Ms /\ map md_names (map to_md outs) = map md_names Ms /\ map md_vals (map to_md outs) = map md_vals Ms /\
    map md_rows (map to_md outs) = map md_rows Ms /\ map md_const (map to_md outs) = map md_const Ms.
  Proof.
    induction Ms as [|M Ms IH]; intros evs posts hevs ps outs E; cbn [modelsLoop] in E; [inversion E; subst; cbn; auto|].
    destruct evs as [|ev evs]; [discriminate|]. destruct posts as [|po posts]; [discriminate|]. destruct hevs as [|hev hevs]; [discriminate|]. destruct ps as [|p ps]; [discriminate|].
    destruct (tmStep e lik prior M ev po hev p) as [r|] eqn:E1; [|discriminate]. cbn [bind] in E.
    destruct (modelsLoop e lik prior Ms evs posts hevs ps) as [rs|] eqn:E2; [|discriminate]. cbn [bind] in E. inversion E; subst outs; clear E.
    destruct (IH _ _ _ _ _ E2) as (i1 & i2 & i3 & i4 & i5).
    assert (G : md_name (to_md r) = md_name M /\ md_names (to_md r) = md_names M /\ md_vals (to_md r) = md_vals M /\ md_rows (to_md r) = md_rows M /\ md_const (to_md r) = md_const M).
    { unfold tmStep in E1. destruct (Nat.ltb _ _); [discriminate|]. destruct (rowsLoop _ _ _ _ _ _ _) as [[[m' evs'] posts']|]; [|discriminate]. cbn [bind] in E1. inversion E1; subst r. cbn. auto. }
    destruct G as (g1 & g2 & g3 & g4 & g5). cbn [map]. rewrite i1, i2, i3, i4, i5, g1, g2, g3, g4, g5. auto.
  Qed.
  Lemma receive_fixed (O O1 : online) d : on_models O <> [] -> receive O d = Ok O1 -> sameFixed O1 O /\ on_models O1 = on_models O.
  Proof.
    unfold receive. intros Hn E. destruct (on_models O) as [|M l] eqn:EM; [congruence|]. cbn [bind] in E. destruct (Nat.eqb _ _).
    - destruct (hasDup _); [discriminate|]. destruct (checkConsistency _); [|discriminate]. cbn [bind] in E. inversion E; subst O1. split; [constructor; cbn; rewrite ?EM; reflexivity|cbn; auto].
    - destruct (rawAppend _ _) as [d'|]; [|discriminate]. cbn [bind] in E. destruct (st_rawTs (on_S O)) as [[|t ts]|]; try discriminate.
      inversion E; subst O1. split; [constructor; cbn; rewrite ?EM; reflexivity|cbn; auto].
  Qed.
  Lemma softmax_length (l : list (xnum L)) : List.length (softmax (F := F) l) = List.length l.
  Proof. unfold softmax, normalise, adivs. now rewrite !map_length. Qed.
  Lemma finish_fixed (O : online) o p ps outs evs posts hevs e lik prior : shownNames O = Some (om_names o) ->
    modelsLoop e lik prior (on_models O) evs posts hevs ps = Ok outs -> let O' := finish O (om_set_prior o p) ps outs in
    sameFixed O' O /\ List.length (on_tmd O') = List.length (on_models O') /\ List.length (on_ltmd O') = List.length (on_models O') /\ List.length (on_hpd O') = List.length (on_models O') /\ exists a, on_marg O' = Some a.
  Proof.
    intros Eo E O'. apply modelsLoop_same in E as (i1 & i2 & i3 & i4 & i5). split; [|split; [|split; [|split; [|eexists; reflexivity]]]].
    - constructor; try reflexivity; auto.
    - unfold O', finish. cbn [on_tmd on_models]. now rewrite softmax_length, !map_length.
    - unfold O', finish. cbn [on_ltmd on_models]. now rewrite softmax_length, !map_length.
    - unfold O', finish. cbn [on_hpd on_models]. now rewrite !map_length.
  Qed.
  Lemma update_fixed (O O' : online) o : st_om (on_S O) = Some o -> update O o = Ok O' ->
    sameFixed O' O /\ List.length (on_tmd O') = List.length (on_models O') /\ List.length (on_ltmd O') = List.length (on_models O') /\ List.length (on_hpd O') = List.length (on_models O') /\ exists a, on_marg O' = Some a.
  Proof.
    intros Eo. unfold update. intros E. assert (En : shownNames O = Some (om_names o)) by (unfold shownNames; now rewrite Eo). destruct (on_first O).
    - destruct (computePrior _) as [[[a p] al]|]; [|discriminate]. cbn [bind] in E. 
      match type of E with match ?x with _ => _ end = _ => destruct x as [ps|] end; [|discriminate].
      destruct (modelsLoop _ _ _ _ _ _ _ _) as [outs|] eqn:EM; [|discriminate]. cbn [bind] in E. inversion E; subst O'; clear E.
      eapply finish_fixed in EM as (a1 & a2); [|exact En]. split; [|exact a2]. eapply fixed_trans; [exact a1|]. constructor; reflexivity.
    - cbn [bind] in E. destruct (on_tmPrior O) as [ps|]; [|discriminate].
      destruct (modelsLoop _ _ _ _ _ _ _ _) as [outs|] eqn:EM; [|discriminate]. cbn [bind] in E. inversion E; subst O'; clear E.
      eapply finish_fixed in EM as (a1 & a2); [|exact En]. split; [exact a1|exact a2].
  Qed.
  Lemma step_fixed (O O' : online) d : on_models O <> [] -> onlineStep O d = Ok O' ->
    sameFixed O' O /\ (completed O' = true -> List.length (on_tmd O') = List.length (on_models O') /\ List.length (on_ltmd O') = List.length (on_models O') /\ List.length (on_hpd O') = List.length (on_models O') /\ exists a, on_marg O' = Some a).
  Proof.
    unfold onlineStep. intros Hn E. destruct (receive O d) as [O1|] eqn:ER; [|discriminate]. cbn [bind] in E.
    apply receive_fixed in ER as [a1 a2]; auto. 
    destruct (st_om (on_S O1)) as [o|] eqn:Eo; [|discriminate]. destruct (st_rawTs (on_S O1)) as [rts|]; [|discriminate].
    destruct (Nat.ltb_spec (rawLen (st_raw (on_S O1))) (om_seglen o)) as [Hl|Hl].
    - inversion E; subst O'. split; auto. unfold completed. rewrite Eo. destruct (Nat.leb_spec (om_seglen o) (rawLen (st_raw (on_S O1)))); [lia|discriminate].
    - destruct (on_ts O1) as [ts|]; [|discriminate]. destruct (on_isArr O1); [discriminate|]. apply update_fixed in E as (u1 & u2); [|exact Eo].
      split; auto. eapply fixed_trans; [exact u1|]. eapply fixed_trans; [|exact a1]. constructor; reflexivity.
  Qed.
  Lemma fixed_models O1 O2 : sameFixed O1 O2 -> on_models O2 <> [] -> on_models O1 <> [].
  Proof. intros Fx Hn E. apply Hn. pose proof (fx_names _ _ Fx) as X. rewrite E in X. symmetry in X. now apply map_eq_nil in X. Qed.
  Lemma steps_fixed : forall ds (O O' : online), on_models O <> [] -> onlineSteps O ds = Ok O' -> sameFixed O' O.
  Proof.
    induction ds as [|d ds IH]; intros O O' Hn E; cbn [onlineSteps] in E; [inversion E; apply fixed_refl|].
    destruct (onlineStep O d) as [O1|] eqn:E1; [|discriminate]. cbn [bind] in E. apply step_fixed in E1 as [a _]; auto.
    eapply fixed_trans; [eapply IH; [|exact E]|exact a]. eapply fixed_models; eauto.
  Qed.
  (** each state on the way that completed a segment *)
  Definition shows (O0 Oi : online) : Prop := sameFixed Oi O0 /\ List.length (on_tmd Oi) = List.length (on_models Oi) /\ List.length (on_ltmd Oi) = List.length (on_models Oi) /\ List.length (on_hpd Oi) = List.length (on_models Oi) /\ exists a, on_marg Oi = Some a.
  Lemma trace_fixed : forall ds (O : online), on_models O <> [] -> Forall (shows O) (filter completed (trace O ds)).
  Proof.
    induction ds as [|d ds IH]; intros O Hn; cbn [trace filter]; [constructor|]. destruct (onlineStep O d) as [O1|] eqn:E1; [|constructor].
    apply step_fixed in E1 as [a1 a2]; auto. assert (Hn1 := fixed_models _ _ a1 Hn). specialize (IH O1 Hn1).
    assert (G : Forall (shows O) (filter completed (trace O1 ds))).
    { eapply Forall_impl; [|exact IH]. intros Oi (b1 & b2). split; auto. eapply fixed_trans; eauto. }
    cbn [filter]. destruct (completed O1) eqn:EC; auto. constructor; auto. split; auto.
  Qed.
End Fixed.
