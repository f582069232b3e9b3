From Coq Require Import List ZArith String Bool Lia.
From Verif Require Import Base.Num Base.Exn Base.Arr Model.Helper Model.Tm Model.HyperParams Spec.Names Proof.KernelProof
  Proof.FitThms.
Import ListNotations.
Local Open Scope res_scope.

Fixpoint nlmap {A B} (g : A -> B) (t : nl A) : nl B :=
  match t with Leaf a => Leaf (g a) | Node l => Node (map (nlmap g) l) end.

Lemma nl_ind' {A} (P : nl A -> Prop) :
  (forall a, P (Leaf a)) -> (forall l, Forall P l -> P (Node l)) -> forall t, P t.
Proof.
  intros HL HN. fix rec 1. intros [a|l]; [apply HL|apply HN].
  induction l as [|x l IH]; constructor; [apply rec|apply IH].
Qed.

Lemma flatten_nlmap {A B} (g : A -> B) t : flatten (nlmap g t) = map g (flatten t).
Proof.
  induction t as [a|l IH] using nl_ind'; [reflexivity|]. cbn.
  induction IH as [|x l Hx Hl IHl]; [reflexivity|]. cbn. rewrite map_app, Hx, <- IHl. reflexivity.
Qed.

Lemma nlmap_ext {A B} (g g' : A -> B) t : (forall a, In a (flatten t) -> g a = g' a) -> nlmap g t = nlmap g' t.
Proof.
  induction t as [a|l IH] using nl_ind'; intros E.
  - cbn. rewrite (E a); [reflexivity|now left].
  - cbn. f_equal. cbn in E. induction IH as [|x l Hx Hl IHl]; [reflexivity|]. cbn in *.
    rewrite Hx, IHl; [reflexivity| |]; intros a Ha; apply E; apply in_or_app; auto.
Qed.

Lemma nlmap_id {A} (t : nl A) : nlmap (fun a => a) t = t.
Proof.
  induction t as [a|l IH] using nl_ind'; [reflexivity|]. cbn. f_equal.
  induction IH as [|x l Hx Hl IHl]; [reflexivity|]. cbn. now rewrite Hx, IHl.
Qed.

Fixpoint findFrom (q : string) (i : nat) (l : list (nl string)) : list nat :=
  match l with
  | [] => []
  | e :: l' =>
      match e with
      | Node _ => match recursiveIndex e q with [] => findFrom q (S i) l' | path => i :: path end
      | Leaf s => if String.eqb s q then [i] else findFrom q (S i) l'
      end
  end.
Lemma recursiveIndex_Node l q : recursiveIndex (Node l) q = findFrom q 0 l.
Proof.
  cbn [recursiveIndex]. generalize 0%nat. induction l as [|e l IH]; intros i; [reflexivity|].
  cbn [findFrom]. destruct e; rewrite <- IH; reflexivity.
Qed.

Lemma recursiveIndex_none t q : ~ In q (flatten t) -> recursiveIndex t q = [].
Proof.
  induction t as [a|l IH] using nl_ind'; intros N; [reflexivity|].
  rewrite recursiveIndex_Node. generalize 0%nat.
  induction IH as [|x l Hx Hl IHl]; intros i; [reflexivity|].
  cbn [findFrom]. cbn in N.
  assert (N1 : ~ In q (flatten x)) by (intros C; apply N; apply in_or_app; auto).
  assert (N2 : ~ In q (flatten (Node l))) by (intros C; apply N; apply in_or_app; auto).
  destruct x as [s|l'].
  - destruct (String.eqb_spec s q); [subst; exfalso; apply N1; now left|]. apply IHl; assumption.
  - rewrite Hx by assumption. apply IHl; assumption.
Qed.

Lemma findFrom_skip q l1 l2 : forall i, ~ In q (flat_map flatten l1) -> findFrom q i (l1 ++ l2) = findFrom q (i + List.length l1) l2.
Proof.
  induction l1 as [|x l1 IH]; intros i N; [cbn; now rewrite Nat.add_0_r|].
  cbn in N |- *.
  assert (N1 : ~ In q (flatten x)) by (intros C; apply N; apply in_or_app; auto).
  assert (N2 : ~ In q (flat_map flatten l1)) by (intros C; apply N; apply in_or_app; auto).
  destruct x as [s|l'].
  - destruct (String.eqb_spec s q); [subst; exfalso; apply N1; now left|]. rewrite IH by assumption. f_equal. lia.
  - change ((fix go (i0 : nat) (l : list (nl string)) {struct l} : list nat := _) 0%nat l') with (recursiveIndex (Node l') q).
    rewrite recursiveIndex_none by assumption. rewrite IH by assumption. f_equal. lia.
Qed.

Lemma lset_app {A} (l1 l2 : list A) a b : lset (l1 ++ a :: l2) (List.length l1) b = l1 ++ b :: l2.
Proof. induction l1; cbn; congruence. Qed.
Lemma assignNested_cons {A} (l : list (nl A)) i j p v x : nth_error l i = Some x ->
  assignNestedItem (Node l) (i :: j :: p) v = (let* x' := assignNestedItem x (j :: p) v in Ok (Node (lset l i x')))%res.
Proof. intros E. cbn [assignNestedItem]. rewrite E. reflexivity. Qed.
Lemma nth_error_mid {A} (l1 l2 : list A) a : nth_error (l1 ++ a :: l2) (List.length l1) = Some a.
Proof. induction l1; cbn; auto. Qed.
Lemma map2_app {A B C} (f : A -> B -> C) l1 l2 m1 m2 : List.length l1 = List.length m1 ->
  map2 f (l1 ++ l2) (m1 ++ m2) = map2 f l1 m1 ++ map2 f l2 m2.
Proof. revert m1. induction l1; intros [|b m1] E; cbn in *; try discriminate; auto. rewrite IHl1; auto. Qed.
Lemma map2_snd {A B} (f : A -> B -> B) l m : List.length l = List.length m -> (forall a b, In a l -> f a b = b) -> map2 f l m = m.
Proof.
  revert m. induction l; intros [|b m] E X; cbn in *; try discriminate; auto.
  rewrite IHl, X; auto.
Qed.
Lemma combine_app {A B} (l1 l2 : list A) (m1 m2 : list B) : List.length l1 = List.length m1 ->
  combine (l1 ++ l2) (m1 ++ m2) = combine l1 m1 ++ combine l2 m2.
Proof. revert m1. induction l1; intros [|b m1] E; cbn in *; try discriminate; auto. rewrite IHl1; auto. Qed.
Lemma nameIndex_first n1 n2 name : ~ In name n1 -> nameIndex (n1 ++ name :: n2) name = Ok (List.length n1).
Proof.
  induction n1 as [|s n1 IH]; intros N; cbn.
  - now rewrite String.eqb_refl.
  - destruct (String.eqb_spec s name); [subst; exfalso; apply N; now left|].
    rewrite IH; [reflexivity|]. intros C; apply N; now right.
Qed.
Lemma NoDup_app_inv {A} (l m : list A) : NoDup (l ++ m) -> NoDup l /\ NoDup m /\ (forall x, In x l -> In x m -> False).
Proof.
  induction l as [|a l IH]; cbn; intros N; [repeat split; auto; constructor|].
  inversion N as [|a' l' X Y]; subst. destruct (IH Y) as (A1 & A2 & A3). repeat split; auto.
  - constructor; auto. intros C; apply X. apply in_or_app; auto.
  - intros x [->|Hx] Hm; [apply X; apply in_or_app; auto|eauto].
Qed.

Section Names.
  Context {F : Type}.

  Lemma flat_map_flatten_Leaf {A} (l : list A) : flat_map flatten (map Leaf l) = l.
  Proof. induction l; cbn; congruence. Qed.
  Lemma allNames_TM k names vals p (ms : list (tm F)) : allNames (TM k names vals p ms) = flat_map allNames ms ++ names.
  Proof.
    unfold allNames. cbn. rewrite flat_map_app, flat_map_flatten_Leaf. f_equal.
    induction ms; cbn; congruence.
  Qed.
  Lemma named_TM k names vals p (ms : list (tm F)) :
    named (TM k names vals p ms) <-> List.length names = List.length vals /\ Forall named ms.
  Proof.
    cbn. apply and_iff_compat_l. induction ms as [|m ms IH]; [split; constructor|].
    rewrite IH. split; [intros [A B]; now constructor|intros X; inversion X; auto].
  Qed.
  Lemma fst_combine {A B} (l : list A) (m : list B) : List.length l = List.length m -> map fst (combine l m) = l.
  Proof. revert m. induction l; intros [|b m] E; cbn in *; try discriminate; auto. rewrite IHl; auto. Qed.
  Lemma snd_combine {A B} (l : list A) (m : list B) : List.length l = List.length m -> map snd (combine l m) = m.
  Proof. revert m. induction l; intros [|b m] E; cbn in *; try discriminate; auto. rewrite IHl; auto. Qed.

  Lemma flat_map_map {A B C} (f : B -> list C) (g : A -> B) l : flat_map f (map g l) = flat_map (fun x => f (g x)) l.
  Proof. induction l; cbn; congruence. Qed.
  Lemma map_flat_map {A B C} (f : A -> list B) (g : B -> C) l : map g (flat_map f l) = flat_map (fun x => map g (f x)) l.
  Proof. induction l; cbn; [reflexivity|]. now rewrite map_app, IHl. Qed.
  Lemma flat_map_ext_Forall {A B} (f g : A -> list B) l : Forall (fun x => f x = g x) l -> flat_map f l = flat_map g l.
  Proof. induction 1 as [|x l Hx Hl IH]; cbn; congruence. Qed.

  Lemma assocs_names (m : tm F) : named m -> map fst (assocs m) = allNames m.
  Proof.
    induction m as [k names vals p ms IH] using tm_ind'. intros W. apply named_TM in W. destruct W as [Wl Ws].
    rewrite allNames_TM. cbn. rewrite map_app, fst_combine by assumption. f_equal.
    rewrite map_flat_map. apply flat_map_ext_Forall.
    rewrite Forall_forall in *. intros x Hx. apply IH; auto.
  Qed.
  Lemma assocs_values (m : tm F) : named m -> Forall plain (map snd (assocs m)) -> allValues m = map snd (assocs m).
  Proof.
    induction m as [k names vals p ms IH] using tm_ind'. intros W P. apply named_TM in W. destruct W as [Wl Ws].
    cbn in P |- *. unfold allValues. cbn. rewrite flat_map_app, map_app in *.
    rewrite snd_combine in * by assumption. apply Forall_app in P. destruct P as [P1 P2]. f_equal.
    - rewrite flat_map_map, map_flat_map in *. apply flat_map_ext_Forall.
      rewrite Forall_forall in *. intros x Hx. apply IH; auto.
      rewrite Forall_forall. intros v Hv. apply P1. apply in_flat_map. eauto.
    - clear - P2. induction P2 as [|v vs Hv Hvs IH2]; [reflexivity|]. cbn. rewrite IH2.
      destruct v; cbn in *; try reflexivity; contradiction.
  Qed.

  Lemma assign_id f (m : tm F) : named m -> (forall n, In n (allNames m) -> f n = None) -> assign f m = m.
  Proof.
    induction m as [k names vals p ms IH] using tm_ind'. intros W E. apply named_TM in W. destruct W as [Wl Ws].
    rewrite allNames_TM in E. cbn. f_equal.
    - apply map2_snd; [assumption|]. intros a b Ha. rewrite E; [reflexivity|apply in_or_app; auto].
    - rewrite <- (map_id ms) at 2. apply map_ext_in. intros x Hx.
      rewrite Forall_forall in *. apply IH; auto. intros n Hn. apply E. apply in_or_app. left. apply in_flat_map. eauto.
  Qed.
  Lemma assign_names f (m : tm F) : unpackNames (assign f m) = unpackNames m.
  Proof.
    induction m as [k names vals p ms IH] using tm_ind'. cbn. do 2 f_equal.
    rewrite map_map. apply map_ext_in. rewrite Forall_forall in IH. auto.
  Qed.
  Lemma assign_allNames f (m : tm F) : allNames (assign f m) = allNames m.
  Proof. unfold allNames. now rewrite assign_names. Qed.
  Lemma length_map2 {A B C} (f : A -> B -> C) l m : List.length l = List.length m -> List.length (map2 f l m) = List.length m.
  Proof. revert m. induction l; intros [|b m] E; cbn in *; try discriminate; auto. Qed.
  Lemma assign_named f (m : tm F) : named m -> named (assign f m).
  Proof.
    induction m as [k names vals p ms IH] using tm_ind'. intros W. apply named_TM in W. destruct W as [Wl Ws].
    cbn [assign]. apply named_TM. split; [now rewrite length_map2|].
    apply Forall_forall. intros x Hx. apply in_map_iff in Hx. destruct Hx as (y & <- & Hy).
    rewrite Forall_forall in *. auto.
  Qed.
  Lemma map2_combine {A B C} (f : A -> B -> C) (g : A * B -> A * C) l m : (forall a b, g (a, b) = (a, f a b)) ->
    combine l (map2 f l m) = map g (combine l m).
  Proof. intros E. revert m. induction l; intros [|b m]; cbn; auto. now rewrite IHl, E. Qed.
  Lemma assocs_assign f (m : tm F) :
    assocs (assign f m) = map (fun nv => (fst nv, match f (fst nv) with Some x => x | None => snd nv end)) (assocs m).
  Proof.
    induction m as [k names vals p ms IH] using tm_ind'. cbn. rewrite map_app. f_equal.
    - rewrite flat_map_map, map_flat_map. apply flat_map_ext_Forall. assumption.
    - apply map2_combine. reflexivity.
  Qed.
  Lemma assign_assign f g (m : tm F) : named m ->
    assign f (assign g m) = assign (fun n => match f n with Some x => Some x | None => g n end) m.
  Proof.
    induction m as [k names vals p ms IH] using tm_ind'. intros W. apply named_TM in W. destruct W as [Wl Ws].
    cbn. f_equal.
    - clear - Wl. revert vals Wl. induction names; intros [|v vals] E; cbn in *; try discriminate; auto.
      rewrite IHnames by auto. f_equal. destruct (f a); reflexivity.
    - rewrite map_map. apply map_ext_in. intros x Hx. rewrite Forall_forall in *. auto.
  Qed.
  Lemma assign_ext f g (m : tm F) : (forall n, In n (allNames m) -> f n = g n) -> assign f m = assign g m.
  Proof.
    induction m as [k names vals p ms IH] using tm_ind'. intros E. rewrite allNames_TM in E. cbn. f_equal.
    - assert (E' : forall n, In n names -> f n = g n) by (intros; apply E; apply in_or_app; auto).
      clear - E'. revert vals. induction names; intros [|v vals]; cbn in *; auto.
      rewrite E' by auto. f_equal. auto.
    - apply map_ext_in. intros x Hx. rewrite Forall_forall in IH. apply IH; auto.
      intros n Hn. apply E. apply in_or_app. left. apply in_flat_map. eauto.
  Qed.

  Definition only (name : string) (x : hval F) : string -> option (hval F) := lookup [(name, x)].

  (** one round of the loops: the first hit is the place that carries the name *)
  Lemma find_name (m : tm F) : named m -> NoDup (allNames m) -> forall (g : string -> string) name x,
    (forall s, In s (allNames m) -> (g s = name <-> s = name)) -> In name (allNames m) ->
    exists p, recursiveIndex (nlmap g (unpackNames m)) name = p /\ p <> [] /\
      setAt m (removelast p) name x = Ok (assign (only name x) m) /\
      assignNestedItem (nlmap g (unpackNames m)) p " "%string =
        Ok (nlmap (fun s => if String.eqb s name then " "%string else g s) (unpackNames m)) /\
      exists v, In (name, v) (assocs m) /\ nlIndex (unpackVals m) p = Ok (valNode v).
  Proof.
    induction m as [k names vals pr ms IH] using tm_ind'. intros W N g name x G I.
    apply named_TM in W. destruct W as [Wl Ws]. rewrite allNames_TM in N, G, I.
    apply NoDup_app_inv in N. destruct N as (N1 & N2 & N3).
    assert (Gmap : forall m', In m' ms -> ~ In name (allNames m') -> ~ In name (flatten (nlmap g (unpackNames m')))).
    { intros m' Hm' Hn C. rewrite flatten_nlmap in C. apply in_map_iff in C. destruct C as (s & E & Hs).
      apply (G s) in E; [|apply in_or_app; left; apply in_flat_map; eauto]. subst s. exact (Hn Hs). }
    assert (Gext : forall m', In m' ms -> ~ In name (allNames m') ->
      nlmap (fun s => if String.eqb s name then " "%string else g s) (unpackNames m') = nlmap g (unpackNames m')).
    { intros m' Hm' Hn. apply nlmap_ext. intros s Hs. destruct (String.eqb_spec s name) as [E|E]; [subst s; exfalso; exact (Hn Hs)|reflexivity]. }
    assert (Gtree : nlmap g (unpackNames (TM k names vals pr ms)) =
      Node (map (fun m' => nlmap g (unpackNames m')) ms ++ map (fun s => Leaf (g s)) names)).
    { cbn. now rewrite map_app, !map_map. }
    assert (Gtree' : nlmap (fun s => if String.eqb s name then " "%string else g s) (unpackNames (TM k names vals pr ms)) =
      Node (map (fun m' => nlmap (fun s => if String.eqb s name then " "%string else g s) (unpackNames m')) ms ++
            map (fun s => Leaf (if String.eqb s name then " "%string else g s)) names)).
    { cbn. now rewrite map_app, !map_map. }
    rewrite Gtree, Gtree'. rewrite recursiveIndex_Node.
    destruct (in_dec string_dec name (flat_map allNames ms)) as [J|J].
    - (* in a sub-model *)
      apply in_flat_map in J. destruct J as (m' & Hm' & J).
      assert (K : exists ms1 ms2, ms = ms1 ++ m' :: ms2) by now apply in_split.
      destruct K as (ms1 & ms2 & ->).
      assert (X : forall y, In y (ms1 ++ ms2) -> ~ In name (allNames y)).
      { intros y Hy C. rewrite flat_map_app in N1. cbn in N1. apply NoDup_app_inv in N1. destruct N1 as (_ & M2 & M3).
        apply NoDup_app_inv in M2. destruct M2 as (_ & _ & M4).
        apply in_app_or in Hy. destruct Hy as [Hy|Hy].
        - apply (M3 name); [apply in_flat_map; eauto|apply in_or_app; auto].
        - apply (M4 name); auto. apply in_flat_map; eauto. }
      assert (Nm' : NoDup (allNames m')).
      { rewrite flat_map_app in N1. cbn in N1. apply NoDup_app_inv in N1. destruct N1 as (_ & M2 & _).
        apply NoDup_app_inv in M2. tauto. }
      rewrite Forall_forall in IH, Ws.
      destruct (IH m' Hm' (Ws _ Hm') Nm' g name x) as (p & E1 & E2 & E3 & E4 & v & E5 & E6); auto.
      { intros s Hs. apply G. apply in_or_app. left. apply in_flat_map. eauto. }
      exists (List.length ms1 :: p). repeat split.
      + rewrite map_app. cbn [map]. rewrite <- app_assoc. rewrite findFrom_skip.
        2:{ intros C. rewrite flat_map_map in C. apply in_flat_map in C. destruct C as (y & Hy & C).
            revert C. apply Gmap; [apply in_or_app; auto|apply X; apply in_or_app; auto]. }
        rewrite map_length, Nat.add_0_l. cbn [app findFrom].
        assert (T : exists l, nlmap g (unpackNames m') = Node l) by (destruct m'; cbn; eauto).
        destruct T as [l T]. rewrite T in *. rewrite E1. destruct p; [contradiction|reflexivity].
      + discriminate.
      + destruct p as [|i p]; [contradiction|]. cbn [removelast] in *. cbn [setAt]. rewrite nth_error_mid, E3. cbn [bind].
        cbn [assign]. do 2 f_equal.
        * symmetry. apply map2_snd; [assumption|]. intros a b Ha. unfold only. cbn.
          destruct (String.eqb_spec name a); [subst; exfalso; eapply N3; eauto; apply in_flat_map; eauto|reflexivity].
        * rewrite lset_app, map_app. cbn [map]. f_equal; [|f_equal].
          -- rewrite <- (map_id ms1) at 1. apply map_ext_in. intros y Hy. symmetry. apply assign_id.
             ++ apply Ws. apply in_or_app; auto.
             ++ intros s Hs. unfold only. cbn. destruct (String.eqb_spec name s); [subst|reflexivity].
                exfalso. eapply X; eauto. apply in_or_app; auto.
          -- rewrite <- (map_id ms2) at 1. apply map_ext_in. intros y Hy. symmetry. apply assign_id.
             ++ apply Ws. apply in_or_app; right; now right.
             ++ intros s Hs. unfold only. cbn. destruct (String.eqb_spec name s); [subst|reflexivity].
                exfalso. eapply X; eauto. apply in_or_app; auto.
      + destruct p as [|i p]; [contradiction|]. rewrite !map_app. cbn [map]. rewrite <- !app_assoc. cbn [app].
        rewrite <- (map_length (fun m0 => nlmap g (unpackNames m0)) ms1). erewrite assignNested_cons by apply nth_error_mid.
        rewrite E4. cbn [bind]. rewrite lset_app. do 3 f_equal; [|f_equal; f_equal].
        * apply map_ext_in. intros y Hy. symmetry. apply Gext; [apply in_or_app; auto|apply X; apply in_or_app; auto].
        * apply map_ext_in. intros y Hy. symmetry. apply Gext; [apply in_or_app; right; now right|apply X; apply in_or_app; auto].
        * apply map_ext_in. intros s Hs. destruct (String.eqb_spec s name); [subst; exfalso|reflexivity].
          eapply N3; eauto. apply in_flat_map; eauto.
      + exists v. split.
        * cbn. apply in_or_app. left. apply in_flat_map. eauto.
        * cbn. rewrite map_app. cbn [map]. rewrite <- app_assoc. cbn [app].
          rewrite <- (map_length unpackVals ms1). rewrite nth_error_mid. exact E6.
    - (* own hyper-parameter *)
      apply in_app_or in I. destruct I as [I|I]; [contradiction|].
      apply in_split in I. destruct I as (n1 & n2 & ->).
      assert (Nn1 : ~ In name n1).
      { apply NoDup_app_inv in N2. destruct N2 as (_ & _ & M). intros C. apply (M name); auto. now left. }
      assert (Nn2 : ~ In name n2).
      { apply NoDup_app_inv in N2. destruct N2 as (_ & M & _). now inversion M. }
      assert (V : exists v1 v v2, vals = v1 ++ v :: v2 /\ List.length v1 = List.length n1).
      { rewrite app_length in Wl. cbn in Wl. assert (T : (List.length n1 < List.length vals)%nat) by lia.
        apply nth_error_Some in T. destruct (nth_error vals (List.length n1)) eqn:E; [|congruence].
        apply nth_error_split in E. destruct E as (v1 & v2 & -> & E). exists v1, h, v2. auto. }
      destruct V as (v1 & v & v2 & -> & Lv).
      assert (Ln : List.length n2 = List.length v2) by (rewrite !app_length in Wl; cbn in Wl; lia).
      exists [(List.length ms + List.length n1)%nat]. repeat split.
      + rewrite findFrom_skip.
        2:{ intros C. rewrite flat_map_map in C. apply in_flat_map in C. destruct C as (y & Hy & C).
            revert C. apply Gmap; auto. intros C. apply J. apply in_flat_map; eauto. }
        rewrite map_length, Nat.add_0_l, map_app. rewrite findFrom_skip.
        2:{ rewrite <- (map_map g Leaf), flat_map_flatten_Leaf. intros C. apply in_map_iff in C. destruct C as (s & E & Hs).
            apply (G s) in E; [subst; contradiction|]. apply in_or_app; right. apply in_or_app; auto. }
        rewrite map_length. cbn [map findFrom].
        replace (g name) with name by (symmetry; apply G; [apply in_or_app; right; apply in_or_app; right; now left|reflexivity]).
        now rewrite String.eqb_refl.
      + discriminate.
      + cbn [removelast setAt]. rewrite nameIndex_first by assumption. cbn [bind].
        rewrite app_length. cbn [List.length].
        assert (T : Nat.ltb (List.length n1) (List.length v1 + S (List.length v2)) = true) by (apply Nat.ltb_lt; lia).
        rewrite T. cbn [assign]. do 2 f_equal.
        * rewrite <- Lv, lset_app. rewrite map2_app by auto. f_equal; [|cbn [map2]; f_equal].
          -- symmetry. apply map2_snd; [auto|]. intros a b Ha. unfold only. cbn.
             destruct (String.eqb_spec name a); [subst; contradiction|reflexivity].
          -- unfold only. cbn. now rewrite String.eqb_refl.
          -- symmetry. apply map2_snd; [auto|]. intros a b Ha. unfold only. cbn.
             destruct (String.eqb_spec name a); [subst; contradiction|reflexivity].
        * rewrite <- (map_id ms) at 1. apply map_ext_in. intros y Hy. symmetry. apply assign_id.
          -- rewrite Forall_forall in Ws. auto.
          -- intros s Hs. unfold only. cbn. destruct (String.eqb_spec name s); [subst|reflexivity].
             exfalso. apply J. apply in_flat_map; eauto.
      + rewrite !map_app. cbn [map]. rewrite !app_assoc. cbn [assignNestedItem].
        replace (List.length ms + List.length n1)%nat with
          (List.length (map (fun m' => nlmap g (unpackNames m')) ms ++ map (fun s => @Leaf string (g s)) n1))
          by now rewrite app_length, !map_length.
        rewrite nth_error_mid, lset_app. do 2 f_equal. f_equal; [f_equal|f_equal].
        * apply map_ext_in. intros y Hy. symmetry. apply Gext; auto. intros C. apply J. apply in_flat_map; eauto.
        * apply map_ext_in. intros s Hs. destruct (String.eqb_spec s name); [subst; contradiction|reflexivity].
        * now rewrite String.eqb_refl.
        * apply map_ext_in. intros s Hs. destruct (String.eqb_spec s name); [subst; contradiction|reflexivity].
      + exists v. split.
        * cbn. apply in_or_app. right. rewrite combine_app by auto. apply in_or_app. right. now left.
        * cbn. rewrite map_app. cbn [map]. rewrite app_assoc.
          replace (List.length ms + List.length n1)%nat with (List.length (map unpackVals ms ++ map (@valNode F) v1))
            by now rewrite app_length, !map_length, Lv.
          now rewrite nth_error_mid.
  Qed.

  Definition keeps (g : string -> string) (sel : list string) : Prop := forall n s, In n sel -> (g s = n <-> s = n).
  Lemma keeps_next g name sel : keeps g (name :: sel) -> ~ In name sel -> ~ In " "%string sel ->
    keeps (fun s => if String.eqb s name then " "%string else g s) sel.
  Proof.
    intros K N B n s Hn. destruct (String.eqb_spec s name) as [E|E]; [|apply K; now right].
    split; intros X; subst; contradiction.
  Qed.

  Lemma lookup_notin {A} (l : list string) (xs : list A) n : ~ In n l -> lookup (combine l xs) n = None.
  Proof.
    revert xs. induction l as [|a l IH]; intros [|x xs] N; cbn; auto.
    destruct (String.eqb_spec a n); [subst; exfalso; apply N; now left|]. apply IH. intros C; apply N; now right.
  Qed.

  Lemma setLoop_assign ex sel : forall (m : tm F) g xs, named m -> NoDup (allNames m) -> NoDup sel ->
    incl sel (allNames m) -> ~ In " "%string sel -> keeps g sel -> (List.length sel <= List.length xs)%nat ->
    setLoop ex sel m (nlmap g (unpackNames m)) xs = (assign (lookup (combine sel xs)) m, None).
  Proof.
    induction sel as [|name sel IH]; intros m g xs W N Ns I B K Lx; cbn [setLoop].
    - cbn. rewrite assign_id; auto.
    - destruct (find_name m W N g name (hd HNone xs)) as (p & E1 & E2 & E3 & E4 & _).
      { intros s _. apply K. now left. }
      { apply I. now left. }
      rewrite E1. destruct p as [|i p]; [contradiction|]. destruct xs as [|x xs]; [cbn in Lx; lia|]. cbn [hd] in E3.
      rewrite E3, E4. inversion Ns as [|n' s' Nn Ns']; subst.
      assert (Ks := keeps_next g name sel K Nn (fun C => B (or_intror C))).
      replace (nlmap (fun s => if String.eqb s name then " "%string else g s) (unpackNames m)) with
        (nlmap (fun s => if String.eqb s name then " "%string else g s) (unpackNames (assign (only name x) m)))
        by now rewrite assign_names.
      rewrite IH; auto.
      + rewrite assign_assign by assumption. f_equal. apply assign_ext. intros n Hn. unfold only. cbn.
        destruct (String.eqb_spec name n); [subst; now rewrite lookup_notin|].
        destruct (lookup (combine sel xs) n); reflexivity.
      + now apply assign_named.
      + now rewrite assign_allNames.
      + rewrite assign_allNames. intros n Hn. apply I. now right.
      + intros C; apply B; now right.
      + cbn in Lx. lia.
  Qed.

  Lemma keeps_id sel : keeps (fun s => s) sel.
  Proof. intros n s _. tauto. Qed.

  Lemma setLoop_assign' ex sel (m : tm F) xs : named m -> NoDup (allNames m) -> NoDup sel ->
    incl sel (allNames m) -> ~ In " "%string sel -> (List.length sel <= List.length xs)%nat ->
    setLoop ex sel m (unpackNames m) xs = (assign (lookup (combine sel xs)) m, None).
  Proof.
    intros. rewrite <- (nlmap_id (unpackNames m)). apply setLoop_assign; auto using keeps_id.
  Qed.

  Lemma assocs_unique (m : tm F) n v v' : named m -> NoDup (allNames m) -> In (n, v) (assocs m) -> In (n, v') (assocs m) -> v = v'.
  Proof.
    intros W N. rewrite <- (assocs_names m W) in N. clear W. revert N. generalize (assocs m). intros l N.
    induction l as [|[n0 v0] l IH]; [intros []|]. cbn in N. inversion N as [|a b X Y]; subst.
    intros [E|E] [E'|E']; [congruence| | |auto].
    - injection E as -> ->. exfalso. apply X. apply in_map_iff. exists (n, v'). auto.
    - injection E' as -> ->. exfalso. apply X. apply in_map_iff. exists (n, v). auto.
  Qed.

  Lemma getLoop_values sel : forall (m : tm F) g, named m -> NoDup (allNames m) -> NoDup sel ->
    incl sel (allNames m) -> ~ In " "%string sel -> keeps g sel ->
    exists vs, getLoop sel (nlmap g (unpackNames m)) (unpackVals m) = Ok (map (@valNode F) vs) /\ Forall2 (fun n v => In (n, v) (assocs m)) sel vs.
  Proof.
    induction sel as [|name sel IH]; intros m g W N Ns I B K; cbn [getLoop].
    - exists []. split; constructor.
    - destruct (find_name m W N g name HNone) as (p & E1 & E2 & _ & E4 & v & E5 & E6).
      { intros s _. apply K. now left. }
      { apply I. now left. }
      rewrite E1. destruct p as [|i p]; [contradiction|]. inversion Ns as [|n' s' Nn Ns']; subst.
      rewrite E6. cbn [bind]. rewrite E4. cbn [bind].
      destruct (IH m (fun s => if String.eqb s name then " "%string else g s)) as (vs & Ev & Hv); auto.
      + intros n Hn. apply I. now right.
      + intros C; apply B; now right.
      + apply keeps_next; auto; intros C; apply B; now right.
      + rewrite Ev. exists (v :: vs). split; [reflexivity|]. constructor; auto.
  Qed.
  Lemma getLoop_values' sel (m : tm F) : named m -> NoDup (allNames m) -> NoDup sel ->
    incl sel (allNames m) -> ~ In " "%string sel ->
    exists vs, getLoop sel (unpackNames m) (unpackVals m) = Ok (map (@valNode F) vs) /\ Forall2 (fun n v => In (n, v) (assocs m)) sel vs.
  Proof.
    intros. rewrite <- (nlmap_id (unpackNames m)). apply getLoop_values; auto using keeps_id.
  Qed.

  (** an unknown name among the selected ones *)
  Lemma setLoop_unknown ex sel bad sel' : forall (m : tm F) g xs, named m -> NoDup (allNames m) -> NoDup sel ->
    incl sel (allNames m) -> ~ In " "%string sel -> keeps g sel -> (forall s, In s (allNames m) -> g s <> bad) -> bad <> " "%string ->
    (List.length sel <= List.length xs)%nat ->
    setLoop ex (sel ++ bad :: sel') m (nlmap g (unpackNames m)) xs = (assign (lookup (combine sel xs)) m, Some ex).
  Proof.
    induction sel as [|name sel IH]; intros m g xs W N Ns I B K Hb Nb Lx.
    - cbn [app setLoop]. rewrite recursiveIndex_none.
      + cbn. rewrite assign_id; auto.
      + rewrite flatten_nlmap. intros C. apply in_map_iff in C. destruct C as (s & E & Hs). exact (Hb s Hs E).
    - cbn [app setLoop]. destruct (find_name m W N g name (hd HNone xs)) as (p & E1 & E2 & E3 & E4 & _).
      { intros s _. apply K. now left. }
      { apply I. now left. }
      rewrite E1. destruct p as [|i p]; [contradiction|]. destruct xs as [|x xs]; [cbn in Lx; lia|]. cbn [hd] in E3.
      rewrite E3, E4. inversion Ns as [|n' s' Nn Ns']; subst.
      assert (Ks := keeps_next g name sel K Nn (fun C => B (or_intror C))).
      replace (nlmap (fun s => if String.eqb s name then " "%string else g s) (unpackNames m)) with
        (nlmap (fun s => if String.eqb s name then " "%string else g s) (unpackNames (assign (only name x) m)))
        by now rewrite assign_names.
      rewrite IH; auto.
      + rewrite assign_assign by assumption. f_equal. apply assign_ext. intros n Hn. unfold only. cbn.
        destruct (String.eqb_spec name n); [subst; now rewrite lookup_notin|].
        destruct (lookup (combine sel xs) n); reflexivity.
      + now apply assign_named.
      + now rewrite assign_allNames.
      + rewrite assign_allNames. intros n Hn. apply I. now right.
      + intros C; apply B; now right.
      + rewrite assign_allNames. intros s Hs. destruct (String.eqb s name); [congruence|auto].
      + cbn in Lx. lia.
  Qed.

  Lemma lookup_combine_map {A B} (l : list string) (xs : list A) (ys : list B) (d : B -> A) :
    NoDup l -> List.length l = List.length xs -> List.length l = List.length ys ->
    map (fun nv => (fst nv, match lookup (combine l xs) (fst nv) with Some x => x | None => d (snd nv) end)) (combine l ys) =
    combine l xs.
  Proof.
    intros N. revert xs ys. induction l as [|a l IH]; intros [|x xs] [|y ys] E1 E2; cbn in *; try discriminate; auto.
    inversion N as [|a' l' X Y]; subst. rewrite String.eqb_refl. f_equal.
    rewrite <- (IH Y xs ys) by auto. apply map_ext_in. intros [n v] Hn. cbn.
    destruct (String.eqb_spec a n); [subst; exfalso; apply X; eapply in_combine_l; eassumption|].
    now rewrite (IH Y xs ys) by auto.
  Qed.

  Lemma combine_eta {A B} (l : list (A * B)) : combine (map fst l) (map snd l) = l.
  Proof. induction l as [|[a b] l IH]; cbn; congruence. Qed.

  Lemma assocs_setAll (m : tm F) xs : named m -> NoDup (allNames m) -> List.length xs = List.length (allNames m) ->
    assocs (assign (lookup (combine (allNames m) xs)) m) = combine (allNames m) xs.
  Proof.
    intros W N Lx. rewrite assocs_assign. rewrite <- (combine_eta (assocs m)) at 1. rewrite (assocs_names m W).
    rewrite (lookup_combine_map (allNames m) xs (map snd (assocs m)) (fun v => v)); auto.
    rewrite <- (assocs_names m W), !map_length. reflexivity.
  Qed.

  (** hyper-priors *)
  Lemma onePriorEach_TM k names vals p (ms : list (tm F)) :
    onePriorEach (TM k names vals p ms) <->
    (names = [] /\ (forall n v, k <> KBreak n v) \/ exists q, p = Some q /\ List.length (flatten q) = List.length names) /\ Forall onePriorEach ms.
  Proof.
    cbn. apply and_iff_compat_l. induction ms as [|m ms IH]; [split; constructor|].
    rewrite IH. split; [intros [A B]; now constructor|intros X; inversion X; auto].
  Qed.
  Lemma priorPairs_spec (m : tm F) : onePriorEach m ->
    allNames m = map fst (priorPairs m) /\ allPriors m = map snd (priorPairs m).
  Proof.
    induction m as [k names vals p ms IH] using tm_ind'. intros W. apply onePriorEach_TM in W. destruct W as [Wp Ws].
    rewrite allNames_TM. unfold allPriors. cbn. rewrite !map_app, flat_map_app.
    assert (E : Forall (fun m => allNames m = map fst (priorPairs m) /\ allPriors m = map snd (priorPairs m)) ms).
    { rewrite Forall_forall in *. auto. }
    assert (L : forall q : nl (hprior F), List.length (flatten q) = List.length names ->
      names = map fst (combine names (flatten q)) /\ flatten q = map snd (combine names (flatten q))).
    { intros q Lq. rewrite fst_combine, snd_combine by auto. auto. }
    split.
    - f_equal.
      + rewrite map_flat_map. apply flat_map_ext_Forall. eapply Forall_impl; [|apply E]. cbn. tauto.
      + destruct Wp as [[-> _]|(q & -> & Lq)]; [reflexivity|]. apply L; assumption.
    - f_equal.
      + rewrite flat_map_map, map_flat_map. apply flat_map_ext_Forall. eapply Forall_impl; [|apply E]. cbn. tauto.
      + destruct Wp as [[-> Nk]|(q & -> & Lq)].
        * destruct p; [|reflexivity]. destruct k; try reflexivity. exfalso. eapply Nk; reflexivity.
        * rewrite (proj1 (L q Lq)) at 1. destruct names as [|n ns].
          -- cbn. destruct (flatten q) eqn:Eq; [|cbn in Lq; lia].
             destruct k; cbn; rewrite ?app_nil_r; auto.
          -- rewrite <- (proj1 (L q Lq)). cbn. rewrite app_nil_r. apply (L q Lq).
  Qed.
End Names.

Section Built.
  Context {F : Type} `{Num F}.

  Lemma built_ind' (P : tm F -> Prop) :
    P mkStatic -> (forall n v s p m, mkGRW n v s p = Ok m -> P m) ->
    (forall n1 v1 n2 v2 s p m, mkAlpha n1 v1 n2 v2 s p = Ok m -> P m) -> (forall n v p, P (mkChange n v p)) -> P mkIndep ->
    (forall n v p, P (mkRegime n v p)) -> (forall n v p, P (mkNotEq n v p)) ->
    (forall fn args s p m, mkDet fn args s p = Ok m -> P m) ->
    (forall n1 v1 n2 v2 n3 v3 p, P (mkBiv n1 v1 n2 v2 n3 v3 p)) -> (forall n v p, P (mkBreak n v p)) ->
    (forall ms m, Forall P ms -> mkComb ms = Ok m -> P m) -> (forall ms m, Forall P ms -> mkSerial ms = Ok m -> P m) ->
    forall m, built m -> P m.
  Proof.
    intros. revert m H12. fix rec 2. intros m B. destruct B; eauto.
    - apply (H10 ms); auto. clear H13. induction H12; constructor; [apply rec; assumption|apply IHForall].
    - apply (H11 ms); auto. clear H13. induction H12; constructor; [apply rec; assumption|apply IHForall].
  Qed.

  Lemma serialCollect_named args ns vs ps mk ms : serialCollect args = (ns, vs, ps, mk, ms) -> Forall (@named F) args ->
    List.length ns = List.length vs /\ Forall named ms.
  Proof.
    revert ns vs ps mk ms. induction args as [|a args IH]; intros ns vs ps mk ms E W; cbn in E; [injection E as <- <- <- <- <-; auto|].
    inversion W as [|a' args' Wa Ws]; subst. destruct (serialCollect args) as [[[[ns' vs'] ps'] mk'] ms'] eqn:Es.
    destruct (IH _ _ _ _ _ eq_refl Ws) as [L W'].
    destruct a as [k nm vl p ms0]. destruct k; injection E as <- <- <- <- <-; cbn [List.length]; auto.
  Qed.

  Lemma built_named (m : tm F) : built m -> named m.
  Proof.
    revert m. apply built_ind'; intros.
    - cbn; auto.
    - unfold mkGRW in H0. destruct s; [|discriminate]. injection H0 as <-. cbn; auto.
    - unfold mkAlpha in H0. destruct s; [|discriminate]. injection H0 as <-. cbn; auto.
    - cbn; auto.
    - cbn; auto.
    - cbn; auto.
    - cbn; auto.
    - unfold mkDet in H0. destruct s; [|discriminate].
      assert (L : List.length (map fst args) = List.length (map (fun a => toArr (snd a)) args)) by now rewrite !map_length.
      destruct p as [[[]|]|]; repeat (match type of H0 with (if ?b then _ else _) = _ => destruct b end);
        try discriminate; injection H0 as <-; apply named_TM; auto.
    - cbn; auto.
    - cbn; auto.
    - unfold mkComb in H1. destruct (existsb _ _); [discriminate|]. injection H1 as <-. apply named_TM. auto.
    - unfold mkSerial in H1. destruct (serialCollect ms) as [[[[ns vs] ps] mk] ms'] eqn:Es.
      destruct (serialCollect_named _ _ _ _ _ _ Es H0) as [L W].
      destruct (mapM firstValue vs); cbn in H1; [|discriminate]. destruct (firstOrdered a); cbn in H1; [|discriminate].
      destruct (negb a0); [discriminate|]. destruct (Nat.eqb _ _); [|discriminate]. injection H1 as <-. apply named_TM; auto.
  Qed.

  Lemma serialCollect_priors args ns vs ps mk ms : serialCollect args = (ns, vs, ps, mk, ms) ->
    (forall a, In a args -> if isBreak a then exists n v q, a = mkBreak n v (Leaf q) else onePriorEach a) ->
    (forall a nm vl p ms', In a args -> a = TM KChange nm vl p ms' -> List.length nm = 1%nat) ->
    List.length (flatten (Node ps)) = List.length ns /\ Forall (@onePriorEach F) ms.
  Proof.
    revert ns vs ps mk ms. induction args as [|a args IH]; intros ns vs ps mk ms E W C; cbn in E; [injection E as <- <- <- <- <-; auto|].
    destruct (serialCollect args) as [[[[ns' vs'] ps'] mk'] ms'] eqn:Es.
    destruct (IH _ _ _ _ _ eq_refl) as [L W'].
    { intros b Hb. apply W. now right. }
    { intros b nm vl p ms0 Hb. eapply C. now right. }
    assert (Wa := W a (or_introl eq_refl)). assert (Ca := C a).
    destruct a as [k nm vl p ms0].
    destruct k; try (injection E as <- <- <- <- <-; split; [exact L|]; constructor; assumption).
    - injection E as <- <- <- <- <-. split; [|exact W'].
      apply onePriorEach_TM in Wa. destruct Wa as [[[-> _]|(q & -> & Lq)] _].
      + specialize (Ca [] vl p ms0 (or_introl eq_refl) eq_refl). discriminate.
      + rewrite (Ca nm vl (Some q) ms0 (or_introl eq_refl) eq_refl) in Lq. cbn [flatten flat_map] in *. rewrite app_length, Lq. cbn in L |- *. lia.
    - injection E as <- <- <- <- <-. split; [|exact W'].
      destruct Wa as (n & v & q & Eq). unfold mkBreak in Eq. injection Eq as -> -> -> -> -> ->. cbn in L |- *. lia.
  Qed.
End Built.
