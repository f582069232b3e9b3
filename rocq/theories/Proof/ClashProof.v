(** The test of HyperStudy.fit for change- and break-points with identical values. *)
From Coq Require Import List Reals Lra Lia Arith Bool String.
From Verif Require Import Base.Num Base.Exn Base.Arr Base.RSum Base.Lift Model.Helper Model.Tm Model.HyperParams Model.Study Model.Hyper Spec.Kernel Spec.Names Spec.HyperSpec
  Proof.KernelProof Proof.SetupProof Proof.NamesProof Proof.GridProof Proof.HyperMarg Proof.DataProof Proof.FitThms.
Import ListNotations.
Local Open Scope R_scope.

Lemma flat_leaves (l : list string) : flat_map flatten (map Leaf l) = l.
Proof. induction l; cbn; congruence. Qed.
Lemma points_isPoint (m : tm R) n : In n (changepointNames m ++ breakpointNames m) <-> isPoint m n.
Proof.
  unfold changepointNames, breakpointNames. rewrite in_app_iff. induction m as [k names vals prior ms IH] using tm_ind'. cbn [unpackChangepointNames unpackBreakpointNames flatten].
  rewrite !flat_map_app, !in_app_iff, !in_flat_map. rewrite Forall_forall in IH. split.
  - intros [[(q & Iq & In')|I]|[(q & Iq & In')|I]].
    + apply in_map_iff in Iq as (s & <- & Is). eapply ip_sub; eauto. apply IH; auto.
    + destruct k; try (now destruct I as (? & [] & _)); destruct I as (q & Iq & In'); apply in_map_iff in Iq as (a & <- & Ia); destruct In' as [->|[]]; now constructor.
    + apply in_map_iff in Iq as (s & <- & Is). eapply ip_sub; eauto. apply IH; auto.
    + destruct k; try (now destruct I as (? & [] & _)); destruct I as (q & Iq & In'); apply in_map_iff in Iq as (a & <- & Ia); destruct In' as [->|[]]; now constructor.
  - intros P. inversion P as [? ? ? ? ? I|? ? ? ? ? ? I|? ? ? ? ? s ? Is Ps]; subst.
    + left. right. exists (Leaf n). split; [now apply in_map|now left].
    + right. right. exists (Leaf n). split; [now apply in_map|now left].
    + apply IH in Ps; auto. destruct Ps as [Ps|Ps]; [left|right]; left; eexists; (split; [apply in_map, Is|exact Ps]).
Qed.
Lemma points_count (m : tm R) x :
  (count_occ string_dec (changepointNames m) x + count_occ string_dec (breakpointNames m) x <= count_occ string_dec (allNames m) x)%nat.
Proof.
  unfold changepointNames, breakpointNames, allNames. induction m as [k names vals prior ms IH] using tm_ind'. cbn [unpackChangepointNames unpackBreakpointNames unpackNames flatten].
  rewrite !flat_map_app, !count_occ_app.
  assert (E : (count_occ string_dec (flat_map flatten (map unpackChangepointNames ms)) x + count_occ string_dec (flat_map flatten (map unpackBreakpointNames ms)) x <= count_occ string_dec (flat_map flatten (map unpackNames ms)) x)%nat).
  { clear - IH. induction IH as [|m ms h HF IHms]; cbn; auto. rewrite !count_occ_app. lia. }
  destruct k; cbn [flat_map]; cbn [count_occ]; rewrite ?flat_leaves; lia.
Qed.
Lemma points_NoDup (m : tm R) : NoDup (allNames m) -> NoDup (changepointNames m ++ breakpointNames m).
Proof.
  intros ND. rewrite (NoDup_count_occ string_dec) in *. intros x. specialize (ND x). pose proof (points_count m x). rewrite count_occ_app. lia.
Qed.
Lemma points_incl (m : tm R) n : In n (changepointNames m ++ breakpointNames m) -> In n (allNames m).
Proof.
  intros I. apply (count_occ_In string_dec) in I. apply (count_occ_In string_dec). pose proof (points_count m n). rewrite count_occ_app in I. lia.
Qed.
Lemma hasDupF_iff (l : list R) : hasDupF l = true <-> ~ NoDup l.
Proof.
  induction l as [|a l IH]; cbn [hasDupF].
  - split; [discriminate|]. intros X. exfalso. apply X. constructor.
  - rewrite orb_true_iff, IH. split.
    + intros [E|E] ND; inversion ND as [|? ? N1 N2]; subst; [|contradiction]. apply existsb_exists in E as (b & Ib & Eb). apply Reqb_true in Eb. subst. contradiction.
    + intros X. destruct (in_dec Req_EM_T a l) as [I|I].
      * left. apply existsb_exists. exists a. split; auto. now apply Reqb_true.
      * right. intros ND. apply X. now constructor.
Qed.
(** positions of names *)
Lemma index_all (names l : list string) : NoDup names -> incl l names ->
  exists idx, mapM (nameIndex names) l = Ok idx /\ Forall2 (fun n i => nth_error names i = Some n) l idx.
Proof.
  intros ND. induction l as [|n l IH]; intros Hi; [exists []; split; [reflexivity|constructor]|].
  destruct IH as (idx & E & F2); [intros x Hx; apply Hi; now right|]. destruct (In_nth_error names n) as (i & Ei); [apply Hi; now left|].
  exists (i :: idx). cbn. rewrite (nameIndex_nth _ _ _ ND Ei), E. split; [reflexivity|constructor; auto].
Qed.
Lemma nth_picked (row : list R) idx c : (c < List.length idx)%nat -> nth c (map (fun i => nth i row 0) idx) 0 = nth (nth c idx 0%nat) row 0.
Proof. revert c. induction idx as [|i idx IH]; intros [|c] Hc; cbn in *; try lia; auto. apply IH. lia. Qed.
Theorem pointClash_spec (m : tm R) (points : list (list R)) : NoDup (allNames m) ->
  exists b, pointClash m (cart points) = Ok b /\ (b = true <-> clash m points).
Proof.
  intros ND. unfold pointClash. set (l := changepointNames m ++ breakpointNames m).
  assert (NDl : NoDup l) by now apply points_NoDup.
  destruct (index_all (allNames m) l ND) as (idx & E & F2); [intros n; apply points_incl|].
  assert (C : (exists row, In row (cart points) /\ hasDupF (map (fun i => nth i row 0) idx) = true) <-> clash m points).
  { split.
    - intros (row & Ir & Hd). apply hasDupF_iff in Hd. rewrite (NoDup_nth _ 0) in Hd. rewrite map_length in Hd.
      assert (exists a b, (a < List.length idx)%nat /\ (b < List.length idx)%nat /\ a <> b /\ nth (nth a idx 0%nat) row 0 = nth (nth b idx 0%nat) row 0) as (a & b & Ha & Hb & Hab & Eq).
      { apply Classical_Prop.NNPP. intros X. apply Hd. intros a b Ha Hb Eq. destruct (Nat.eq_dec a b) as [|Nab]; auto. exfalso. apply X. exists a, b. repeat (split; auto).
        rewrite !nth_picked in Eq by auto. exact Eq. }
      apply cart_In in Ir. pose proof (DataProof.Forall2_len _ _ _ F2) as Ln.
      assert (Ga : forall c, (c < List.length idx)%nat -> nth_error (allNames m) (nth c idx 0%nat) = Some (nth c l ""%string)).
      { intros c Hc. clear - F2 Hc. revert c Hc. induction F2 as [|n i ns is H1 H2 IH]; intros [|c] Hc; cbn in *; try lia; auto. apply IH. lia. }
      exists row, (nth a idx 0%nat), (nth b idx 0%nat), (nth a l ""%string), (nth b l ""%string). split; auto.
      split.
      { intros X. apply Hab. pose proof (Ga a Ha) as G1. pose proof (Ga b Hb) as G2. rewrite X, G2 in G1. inversion G1 as [G3]. rewrite (NoDup_nth _ ""%string) in NDl. symmetry. apply NDl; auto; lia. }
      split; [now apply Ga|]. split; [now apply Ga|]. split; [|split; [|exact Eq]]; apply points_isPoint, nth_In; fold l; lia.
    - intros (row & i & j & ni & nj & Hr & Hij & Ei & Ej & Pi & Pj & Eq). exists row. split; [now apply cart_In|]. apply hasDupF_iff. intros N.
      apply points_isPoint in Pi, Pj. fold l in Pi, Pj. pose proof (DataProof.Forall2_len _ _ _ F2) as Ln.
      assert (G : forall n k, In n l -> nth_error (allNames m) k = Some n -> exists c, (c < List.length idx)%nat /\ nth c idx 0%nat = k).
      { intros n k In' Ek. clear - F2 In' Ek ND. induction F2 as [|a c ns is H1 H2 IH]; [contradiction|]. destruct In' as [->|In'].
        - exists 0%nat. split; [cbn; lia|]. cbn. pose proof (nameIndex_nth _ _ _ ND Ek). pose proof (nameIndex_nth _ _ _ ND H1). congruence.
        - destruct (IH In') as (c' & Hc & E). exists (S c'). split; [cbn; lia|]. exact E. }
      destruct (G _ _ Pi Ei) as (a & Ha & Ea), (G _ _ Pj Ej) as (b & Hb & Eb). rewrite (NoDup_nth _ 0) in N. rewrite map_length in N.
      assert (a = b).
      { apply N; auto. rewrite !nth_picked by auto. congruence. }
      subst b. congruence. }
  destruct (Nat.ltb_spec 1 (List.length l)) as [Hl|Hl].
  - rewrite E. cbn [bind]. eexists. split; [reflexivity|]. rewrite existsb_exists. exact C.
  - exists false. split; auto. split; [discriminate|]. intros X. apply C in X as (row & _ & Hd). exfalso. apply hasDupF_iff in Hd. apply Hd.
    apply DataProof.Forall2_len in F2. destruct idx as [|a [|b idx]]; cbn; try (repeat constructor; intros []). cbn in F2. lia.
Qed.
