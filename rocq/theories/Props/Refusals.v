(** Refused change-point studies: C33. *)
From Coq Require Import List ZArith QArith Lia Arith Bool String.
From Verif Require Import Base.Num Base.Exn Base.Arr Model.Helper Model.Tm Model.HyperParams Model.Study Model.Api Model.Hyper Model.Changepoint
  Proof.KernelProof Props.Ex.
Import ListNotations.
Local Open Scope string_scope.

Section Refusals.
  Context {F L : Type} `{Num F} `{LogNum F L}.
  (** the sub-model at a position of a transition model: the empty path is the model itself *)
  Fixpoint subAt (m : tm F) (p : list nat) : option (tm F) :=
    match p, m with
    | [], _ => Some m
    | i :: p', TM _ _ _ _ ms => match nth_error ms i with Some m' => subAt m' p' | None => None end
    end.
  Definition changeAt (m : tm F) (p : list nat) (n : string) : Prop := exists ns vs pr ms, subAt m p = Some (TM KChange ns vs pr ms) /\ In n ns.
  Definition breakAt (m : tm F) (p : list nat) (n : string) : Prop := exists mask ns vs pr ms, subAt m p = Some (TM (KSerial mask) ns vs pr ms) /\ In n ns.
  Definition serialAt (m : tm F) (p : list nat) : Prop := exists mask ns vs pr ms, subAt m p = Some (TM (KSerial mask) ns vs pr ms).

  Lemma flatten_leaves (l : list string) : flatten (Node (map Leaf l)) = l.
  Proof. induction l as [|a l IH]; [reflexivity|]. cbn in *. now rewrite IH. Qed.
  Lemma flatten_node_app {A} (l r : list (nl A)) : flatten (Node (l ++ r)) = (flatten (Node l) ++ flatten (Node r))%list.
  Proof. induction l as [|a l IH]; [reflexivity|]. cbn in *. now rewrite IH, app_assoc. Qed.
  Lemma flatten_map {A B} (f : A -> nl B) x l : In x (flatten (Node (map f l))) <-> exists i a, nth_error l i = Some a /\ In x (flatten (f a)).
  Proof.
    induction l as [|a l IH].
    - cbn. split; [tauto|]. intros ([|i] & b & Hb & _); discriminate.
    - change (flatten (Node (map f (a :: l)))) with (flatten (f a) ++ flatten (Node (map f l)))%list. rewrite in_app_iff, IH. split.
      + intros [I|(i & b & Hb & I)]; [exists 0%nat, a; auto|exists (Datatypes.S i), b; auto].
      + intros ([|i] & b & Hb & I); [injection Hb as <-; now left|right; eauto].
  Qed.
  Lemma change_names n : forall m : tm F, In n (changepointNames m) <-> exists p, changeAt m p n.
  Proof.
    apply (tm_ind' (fun m => In n (changepointNames m) <-> exists p, changeAt m p n)). intros k names vals prior ms IH. unfold changepointNames. cbn [unpackChangepointNames]. rewrite flatten_node_app, in_app_iff, flatten_map.
    assert (IH' : forall i a, nth_error ms i = Some a -> (In n (flatten (unpackChangepointNames a)) <-> exists p, changeAt a p n)).
    { intros i a Ha. rewrite Forall_forall in IH. apply IH. eapply nth_error_In; eauto. }
    split.
    - intros [(i & a & Ha & I)|I].
      + apply (IH' i a Ha) in I. destruct I as (p & ns & vs & pr & ms' & E & I). exists (i :: p), ns, vs, pr, ms'. split; auto. cbn. now rewrite Ha.
      + destruct k; try (destruct I; fail). rewrite flatten_leaves in I. exists [], names, vals, prior, ms. auto.
    - intros ([|i p] & ns & vs & pr & ms' & E & I); cbn in E.
      + injection E as -> -> -> -> ->. right. now rewrite flatten_leaves.
      + destruct (nth_error ms i) as [a|] eqn:Ha; [|discriminate]. left. exists i, a. split; auto. apply (IH' i a Ha). exists p, ns, vs, pr, ms'. auto.
  Qed.
  Lemma break_names n : forall m : tm F, In n (breakpointNames m) <-> exists p, breakAt m p n.
  Proof.
    apply (tm_ind' (fun m => In n (breakpointNames m) <-> exists p, breakAt m p n)). intros k names vals prior ms IH. unfold breakpointNames. cbn [unpackBreakpointNames]. rewrite flatten_node_app, in_app_iff, flatten_map.
    assert (IH' : forall i a, nth_error ms i = Some a -> (In n (flatten (unpackBreakpointNames a)) <-> exists p, breakAt a p n)).
    { intros i a Ha. rewrite Forall_forall in IH. apply IH. eapply nth_error_In; eauto. }
    split.
    - intros [(i & a & Ha & I)|I].
      + apply (IH' i a Ha) in I. destruct I as (p & mask & ns & vs & pr & ms' & E & I). exists (i :: p), mask, ns, vs, pr, ms'. split; auto. cbn. now rewrite Ha.
      + destruct k; try (destruct I; fail). rewrite flatten_leaves in I. exists []. eexists. exists names, vals, prior, ms. split; [reflexivity|auto].
    - intros ([|i p] & mask & ns & vs & pr & ms' & E & I); cbn in E.
      + injection E as -> -> -> -> ->. right. now rewrite flatten_leaves.
      + destruct (nth_error ms i) as [a|] eqn:Ha; [|discriminate]. left. exists i, a. split; auto. apply (IH' i a Ha). exists p, mask, ns, vs, pr, ms'. auto.
  Qed.
  Lemma sum_ge (f : tm F -> nat) ms i a : nth_error ms i = Some a -> (f a <= fold_right Nat.add 0 (map f ms))%nat.
  Proof. revert i. induction ms as [|b ms IH]; intros [|i] E; try discriminate; cbn in *; [injection E as <-; lia|]. specialize (IH i E). lia. Qed.
  Lemma sum_ge2 (f : tm F -> nat) ms : forall i j a b, nth_error ms i = Some a -> nth_error ms j = Some b -> i <> j -> (f a + f b <= fold_right Nat.add 0 (map f ms))%nat.
  Proof.
    induction ms as [|c ms IH]; intros [|i] [|j] a b Ea Eb N; try discriminate; try congruence; cbn in *.
    - injection Ea as <-. pose proof (sum_ge f ms j b Eb). lia.
    - injection Eb as <-. pose proof (sum_ge f ms i a Ea). lia.
    - specialize (IH i j a b Ea Eb ltac:(congruence)). lia.
  Qed.
  Lemma serial_one : forall p m, serialAt m p -> (1 <= serialCount m)%nat.
  Proof.
    induction p as [|i p IH]; intros [k names vals prior ms] (mask & ns & vs & pr & ms' & E); cbn in E.
    - injection E as -> -> -> -> ->. cbn. lia.
    - destruct (nth_error ms i) as [a|] eqn:Ha; [|discriminate]. cbn [serialCount]. pose proof (sum_ge serialCount ms i a Ha). assert (1 <= serialCount a)%nat; [|lia]. apply IH. exists mask, ns, vs, pr, ms'. auto.
  Qed.
  Lemma serial_two : forall p q m, p <> q -> serialAt m p -> serialAt m q -> (2 <= serialCount m)%nat.
  Proof.
    assert (Sub : forall i p k names vals prior ms, serialAt (TM k names vals prior ms) (i :: p) -> exists a, nth_error ms i = Some a /\ serialAt a p).
    { intros i p k names vals prior ms (mask & ns & vs & pr & ms' & E). cbn in E. destruct (nth_error ms i) as [a|]; [|discriminate]. exists a. split; auto. exists mask, ns, vs, pr, ms'. auto. }
    induction p as [|i p IH]; intros [|j q] [k names vals prior ms] N P Q; try congruence.
    - destruct (Sub _ _ _ _ _ _ _ Q) as (a & Ha & Sa). pose proof (serial_one _ _ Sa). pose proof (sum_ge serialCount ms j a Ha). destruct P as (mask & ns & vs & pr & ms' & E). cbn in E. injection E as -> -> -> -> ->. cbn. lia.
    - destruct (Sub _ _ _ _ _ _ _ P) as (a & Ha & Sa). pose proof (serial_one _ _ Sa). pose proof (sum_ge serialCount ms i a Ha). destruct Q as (mask & ns & vs & pr & ms' & E). cbn in E. injection E as -> -> -> -> ->. cbn. lia.
    - destruct (Sub _ _ _ _ _ _ _ P) as (a & Ha & Sa). destruct (Sub _ _ _ _ _ _ _ Q) as (b & Hb & Sb). destruct (Nat.eq_dec i j) as [<-|Nij].
      + rewrite Ha in Hb. injection Hb as <-. assert (2 <= serialCount a)%nat by (apply (IH q); auto; congruence). pose proof (sum_ge serialCount ms i a Ha). cbn [serialCount]. lia.
      + pose proof (serial_one _ _ Sa). pose proof (serial_one _ _ Sb). pose proof (sum_ge2 serialCount ms i j a b Ha Hb Nij). cbn [serialCount]. lia.
  Qed.

  (** The fit of a change-point study is refused if the transition model has neither change- nor break-points, if it has both, and if it has
      several serial transition models. *)
  Theorem C33_refused : forall (C : cpstudy F L) m fo eo j,
    st_om (hy_S (cp_H C)) <> None -> st_rawTs (hy_S (cp_H C)) <> None -> st_tm (hy_S (cp_H C)) = Some m ->
    (forall p q, p <> q -> serialAt m p -> serialAt m q -> changepointFit C fo eo j = Err NotImplementedError) /\
    (forall p n q n', changeAt m p n -> breakAt m q n' -> changepointFit C fo eo j = Err NotImplementedError) /\
    ((forall p n, ~ changeAt m p n) -> (forall p n, ~ breakAt m p n) -> (forall p q, serialAt m p -> serialAt m q -> p = q) -> changepointFit C fo eo j = Err ConfigurationError).
  Proof.
    intros C m fo eo j Ho Ht Hm.
    assert (E : exists S1, formatStudy (hy_S (cp_H C)) = Ok S1 /\ st_tm S1 = Some m).
    { unfold formatStudy. destruct (st_om _); [|congruence]. destruct (st_rawTs _); [|congruence]. eexists. split; [reflexivity|]. exact Hm. }
    destruct E as (S1 & E1 & E2). unfold changepointFit. rewrite E1. cbn [bind]. rewrite E2. repeat split.
    - intros p q N P Q. pose proof (serial_two p q m N P Q). destruct (Nat.ltb_spec 1 (serialCount m)); [reflexivity|lia].
    - intros p n q n' P Q. destruct (Nat.ltb 1 _); [reflexivity|].
      assert (In n (changepointNames m)) by (apply change_names; eauto). assert (In n' (breakpointNames m)) by (apply break_names; eauto).
      destruct (changepointNames m); [easy|]. destruct (breakpointNames m); [easy|]. reflexivity.
    - intros Nc Nb Ns.
      assert (Cs : (serialCount m <= 1)%nat).
      { clear - Ns. revert Ns. apply (tm_ind' (fun m => (forall p q, serialAt m p -> serialAt m q -> p = q) -> (serialCount m <= 1)%nat)). clear m. intros k names vals prior ms IH U.
        assert (K : forall i a p, nth_error ms i = Some a -> serialAt a p -> serialAt (TM k names vals prior ms) (i :: p)).
        { intros i a p Ha (mask & ns & vs & pr & ms' & E). exists mask, ns, vs, pr, ms'. cbn. now rewrite Ha. }
        assert (Ex : forall a, (1 <= serialCount a)%nat -> exists p, serialAt a p).
        { clear. apply (tm_ind' (fun a => (1 <= serialCount a)%nat -> exists p, serialAt a p)). intros k names vals prior ms IH E. cbn [serialCount] in E. destruct (Nat.eq_dec (fold_right Nat.add 0%nat (map serialCount ms)) 0%nat) as [Z|Z].
          - destruct k; try lia. exists []. eexists. exists names, vals, prior, ms. reflexivity.
          - assert (exists i a, nth_error ms i = Some a /\ (1 <= serialCount a)%nat) as (i & a & Ha & Sa).
            { clear - Z. induction ms as [|b ms IHm]; [now destruct Z|]. destruct (Nat.eq_dec (serialCount b) 0%nat) as [Zb|Zb]; [|exists 0%nat, b; split; [reflexivity|lia]]. destruct IHm as (i & a & Ha & Sa); [cbn in Z; lia|]. exists (Datatypes.S i), a. auto. }
            rewrite Forall_forall in IH. destruct (IH a (nth_error_In _ _ Ha) Sa) as (p & mask & ns & vs & pr & ms' & E'). exists (i :: p), mask, ns, vs, pr, ms'. cbn. now rewrite Ha. }
        assert (Un : forall i a, nth_error ms i = Some a -> (serialCount a <= 1)%nat).
        { intros i a Ha. rewrite Forall_forall in IH. apply (IH a (nth_error_In _ _ Ha)). intros p q P Q. pose proof (U _ _ (K i a p Ha P) (K i a q Ha Q)) as E. now injection E. }
        assert (Tw : forall i j a b, nth_error ms i = Some a -> nth_error ms j = Some b -> (1 <= serialCount a)%nat -> (1 <= serialCount b)%nat -> i = j).
        { intros i j a b Ha Hb Sa Sb. destruct (Ex a Sa) as [p P]. destruct (Ex b Sb) as [q Q]. pose proof (U _ _ (K i a p Ha P) (K j b q Hb Q)) as E. now injection E. }
        assert (Own : forall mask, k = KSerial mask -> fold_right Nat.add 0%nat (map serialCount ms) = 0%nat).
        { intros mask ->. assert (A0 : forall i a, nth_error ms i = Some a -> serialCount a = 0%nat).
          { intros i a Ha. destruct (Nat.eq_dec (serialCount a) 0%nat) as [|Z]; auto. exfalso. destruct (Ex a ltac:(lia)) as [p P]. assert (Me : serialAt (TM (KSerial mask) names vals prior ms) []) by (exists mask, names, vals, prior, ms; reflexivity).
            pose proof (U _ _ (K i a p Ha P) Me). discriminate. }
          clear - A0. induction ms as [|b ms IHm]; [reflexivity|]. cbn. rewrite (A0 0%nat b eq_refl), IHm; [reflexivity|]. intros i a Ha. exact (A0 (Datatypes.S i) a Ha). }
        assert (Sm : (fold_right Nat.add 0%nat (map serialCount ms) <= 1)%nat).
        { clear - Un Tw. induction ms as [|b ms IHm]; [cbn; lia|]. cbn. pose proof (Un 0%nat b eq_refl) as Ub.
          assert (Tl : (fold_right Nat.add 0%nat (map serialCount ms) <= 1)%nat).
          { apply IHm; [intros i a Ha; exact (Un (Datatypes.S i) a Ha)|]. intros i j x y Hx Hy Sx Sy. pose proof (Tw (Datatypes.S i) (Datatypes.S j) x y Hx Hy Sx Sy) as E. now injection E. }
          destruct (Nat.eq_dec (serialCount b) 0%nat) as [Z|Z]; [lia|]. assert (fold_right Nat.add 0%nat (map serialCount ms) = 0%nat); [|lia].
          assert (A0 : forall i a, nth_error ms i = Some a -> serialCount a = 0%nat).
          { intros i a Ha. destruct (Nat.eq_dec (serialCount a) 0%nat) as [|Za]; auto. pose proof (Tw 0%nat (Datatypes.S i) b a eq_refl Ha ltac:(lia) ltac:(lia)). discriminate. }
          clear - A0. induction ms as [|c ms IHm]; [reflexivity|]. cbn. rewrite (A0 0%nat c eq_refl), IHm; [reflexivity|]. intros i a Ha. exact (A0 (Datatypes.S i) a Ha). }
        cbn [serialCount]. destruct k; try lia. erewrite Own by reflexivity. lia. }
      destruct (Nat.ltb_spec 1 (serialCount m)) as [X|_]; [lia|].
      assert (changepointNames m = []) as ->. { destruct (changepointNames m) as [|n l] eqn:E; auto. exfalso. assert (I : In n (changepointNames m)) by (rewrite E; now left). apply change_names in I. destruct I as [p P]. now apply (Nc p n). }
      assert (breakpointNames m = []) as ->. { destruct (breakpointNames m) as [|n l] eqn:E; auto. exfalso. assert (I : In n (breakpointNames m)) by (rewrite E; now left). apply break_names in I. destruct I as [p P]. now apply (Nb p n). }
      reflexivity.
  Qed.
End Refusals.

(** A change-point and a break-point; two serial models; neither. *)
Definition step2 (b : string) : tm Q := serial [false] [b] [1%Q] [static; indep].
Example C33_refused_ex :
  (let* A := setup (L := Q) (data [1; 1; 0]%Z) None (coinOM quarters PNone) (comb [change "c" 1%Q; step2 "b"]) in
   let* B := setup (L := Q) (data [1; 1; 0]%Z) None (coinOM quarters PNone) (comb [step2 "a"; comb [step2 "b"]]) in
   let* C := setup (L := Q) (data [1; 1; 0]%Z) None (coinOM quarters PNone) (comb [static; grw "s" "p" 1%Q]) in
   Ok (changepointFit (newChangepoint A) false false 1, changepointFit (newChangepoint B) false false 1, changepointFit (newChangepoint C) false false 1))%res
  = Ok (Err NotImplementedError, Err NotImplementedError, Err ConfigurationError).
Proof. vm_compute. reflexivity. Qed.
Example C33_refused_positions :
  changeAt (comb [change "c" 1%Q; step2 "b"]) [0%nat] "c" /\ breakAt (comb [change "c" 1%Q; step2 "b"]) [1%nat] "b" /\
  serialAt (comb [step2 "a"; comb [step2 "b"]]) [0%nat] /\ serialAt (comb [step2 "a"; comb [step2 "b"]]) [1%nat; 0%nat].
Proof. repeat split; repeat eexists; now left. Qed.
