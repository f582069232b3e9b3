(** Constructors of transition models: C72. *)
From Coq Require Import List ZArith QArith Reals Lra Lia Arith Bool String.
From Verif Require Import Base.Num Base.Exn Base.Arr Base.RSum Model.Helper Model.Tm Model.HyperParams Model.Study Model.Api
  Spec.Names Base.Lift Proof.KernelProof Proof.NamesProof Proof.DataProof Props.Ex Props.ExR Props.HyperParameters.
Import ListNotations.
Local Open Scope string_scope.
Local Open Scope nat_scope.

(** what is stored for an argument: lists become arrays *)
Definition given {F} (v : pyval F) : hval F :=
  match v with VNum x => HNum x | VList xs => HArr xs | VArr xs => HArr xs | VAll => HAll | VNone => HNone end.

(** Every hyper-parameter has the value it was given, under the name it was given. *)
Theorem C72_values :
  (forall n v s p (m : tm R), mkGRW n v s p = Ok m -> hyperParameterValue m n = Ok (given v)) /\
  (forall n1 v1 n2 v2 s p (m : tm R), n1 <> n2 -> mkAlpha n1 v1 n2 v2 s p = Ok m -> hyperParameterValue m n1 = Ok (given v1) /\ hyperParameterValue m n2 = Ok (given v2)) /\
  (forall n (v : pyval R) p, hyperParameterValue (mkChange n v p) n = Ok (given v) /\ hyperParameterValue (mkRegime n v p) n = Ok (given v) /\
                  hyperParameterValue (mkNotEq n v p) n = Ok (given v)) /\
  (forall fn args s p (m : tm R) n v, NoDup (map fst args) -> mkDet fn args s p = Ok m -> In (n, v) args -> hyperParameterValue m n = Ok (given v)) /\
  (forall n1 (v1 : pyval R) n2 v2 n3 v3 p, NoDup [n1; n2; n3] -> (forall xs, v3 <> VList xs) ->
     let m := mkBiv n1 v1 n2 v2 n3 v3 p in hyperParameterValue m n1 = Ok (given v1) /\ hyperParameterValue m n2 = Ok (given v2) /\ hyperParameterValue m n3 = Ok (given v3)).
Proof.
  assert (PT : forall v : pyval R, plain (given v)) by (intros []; exact I).
  split; [|split; [|split; [|split]]].
  - intros n v s p m E. apply C25_value; unfold mkGRW in E; destruct s as [s|]; try discriminate E.
    + eapply (b_grw n v (Some s) p). exact E.
    + injection E as <-. repeat constructor. intros [].
    + injection E as <-. constructor; [|constructor]. destruct v; exact I.
    + injection E as <-. left. now destruct v.
  - intros n1 v1 n2 v2 s p m Hn E. assert (B : built m) by (eapply b_alpha; eauto). unfold mkAlpha in E. destruct s as [s|]; [|discriminate E]. injection E as <-.
    split; apply C25_value; auto; try (repeat constructor; cbn; intuition congruence); try (constructor; [destruct v1; exact I|constructor; [destruct v2; exact I|constructor]]).
  - intros n v p. repeat split; (apply C25_value; [constructor|repeat constructor; intros []|constructor; [destruct v; exact I|constructor]|left; now destruct v]).
  - intros fn args s p m n v Nd E I'. assert (B : built m) by (eapply b_det; eauto).
    assert (X : exists k q, m = TM k (map fst args) (map (fun a => toArr (snd a)) args) q []).
    { unfold mkDet in E. destruct s as [s|]; [|discriminate E]. destruct p as [[[]|l]|]; try destruct (Nat.eqb _ _); try discriminate E; injection E as <-; eauto. }
    destruct X as (k & q & ->).
    assert (EA : assocs (TM k (map fst args) (map (fun a => toArr (snd a)) args) q []) = map (fun a => (fst a, given (snd a))) args).
    { cbn [assocs flat_map app]. clear. induction args as [|[a b] args IH]; [reflexivity|]. cbn [map combine fst snd]. rewrite IH. now destruct b. }
    apply C25_value; auto.
    + now rewrite allNames_TM.
    + rewrite EA, map_map. apply Forall_forall. intros x Ix. apply in_map_iff in Ix as (a & <- & _). apply PT.
    + rewrite EA. apply in_map_iff. exists (n, v). auto.
  - intros n1 v1 n2 v2 n3 v3 p Nd H3 m.
    assert (EA : assocs m = [(n1, given v1); (n2, given v2); (n3, given v3)]).
    { unfold m, mkBiv. cbn. destruct v3; try (exfalso; eapply H3; reflexivity); destruct v1, v2; reflexivity. }
    assert (HA : forall n v, In (n, v) (assocs m) -> hyperParameterValue m n = Ok v).
    { intros n v. apply C25_value; [constructor|exact Nd|]. rewrite EA. repeat constructor; apply PT. }
    rewrite EA in HA. repeat split; apply HA; cbn; auto.
Qed.

(** Arguments of a serial model *)
Definition isPoint {F} (m : tm F) : bool := match tmKind m with KBreak _ _ | KChange => true | _ => false end.
Lemma serialCollect_parts {F} (args : list (tm F)) : let '(ns, vs, ps, mk, ms) := serialCollect args in
  List.length ns = List.length vs /\ ms = filter (fun m => negb (isPoint m)) args /\
  forall n v p, In (mkBreak n v p) args \/ In (mkChange n v p) args -> In (n, given v) (combine ns vs).
Proof.
  induction args as [|m args IH]; [cbn; repeat split; intros n v p [[]|[]]|]. cbn [serialCollect]. destruct (serialCollect args) as [[[[ns vs] ps] mk] ms]. destruct IH as (L & Em & HI).
  destruct m as [k names vals pr subs]. unfold isPoint. destruct k; cbn [filter tmKind negb]; subst ms;
  (split; [cbn; auto|split; [reflexivity|]]); intros n' v' p' [[X|X]|[X|X]]; try discriminate X; try (now apply HI with p'; auto); try (right; now apply HI with p'; auto).
  - unfold mkChange in X. injection X. intros. subst. left. reflexivity.
  - unfold mkBreak in X. injection X. intros. subst. left. reflexivity.
Qed.

(** Combined and serial models: the hyper-parameters of the sub-models keep their values; break-points and change-points that separate the
    sub-models of a serial model have the values given to them. *)
Theorem C72_nested : forall (ms : list (tm R)) (m : tm R), Forall built ms -> NoDup (allNames m) -> Forall plain (map snd (assocs m)) ->
  (mkComb ms = Ok m -> forall m' n v, In m' ms -> hyperParameterValue m' n = Ok v -> hyperParameterValue m n = Ok v) /\
  (mkSerial ms = Ok m -> (forall m' n v, In m' ms -> isPoint m' = false -> hyperParameterValue m' n = Ok v -> hyperParameterValue m n = Ok v) /\
                         (forall n v p, In (mkBreak n v p) ms \/ In (mkChange n v p) ms -> hyperParameterValue m n = Ok (given v))).
Proof.
  intros ms m B Nd P.
  assert (G : forall k names vals pr subs m' n v, m = TM k names vals pr subs -> built m -> In m' ms -> In m' subs -> hyperParameterValue m' n = Ok v -> hyperParameterValue m n = Ok v).
  { intros k names vals pr subs m' n v -> Bm I1 I2 E. apply C25_value; auto.
    assert (B' : built m') by (rewrite Forall_forall in B; auto).
    apply C25_value in E; auto.
    - cbn [assocs]. apply in_or_app. left. apply in_flat_map. eauto.
    - rewrite allNames_TM in Nd. clear - Nd I2. apply in_split in I2 as (l1 & l2 & ->). rewrite flat_map_app in Nd. cbn [flat_map] in Nd.
      apply NoDup_app_inv in Nd as (Nd & _). apply NoDup_app_inv in Nd as (_ & Nd & _). now apply NoDup_app_inv in Nd as (Nd & _).
    - rewrite Forall_forall in *. intros x Ix. apply P. apply in_map_iff in Ix as (a & <- & Ia). apply in_map. cbn [assocs]. apply in_or_app. left. apply in_flat_map. eauto. }
  split.
  - intros E m' n v I E'. assert (Bm : built m) by (eapply b_comb; eauto). unfold mkComb in E. destruct (existsb isBreak ms); [discriminate|]. injection E as E. eapply G; eauto.
  - intros E. assert (Bm : built m) by (eapply b_serial; eauto). unfold mkSerial in E. pose proof (serialCollect_parts ms) as SP. destruct (serialCollect ms) as [[[[ns vs] ps] mk] subs].
    destruct SP as (L & Es & HI). destruct (mapM firstValue vs); [|discriminate]. cbn [bind] in E. destruct (firstOrdered _) as [[]|]; cbn [bind negb] in E; try discriminate.
    destruct (Nat.eqb _ _); [|discriminate]. injection E as E. split.
    + intros m' n v I Hp E'. eapply G; eauto. rewrite Es. apply filter_In. rewrite Hp. auto.
    + intros n v p I. apply C25_value; auto. rewrite <- E. cbn [assocs]. apply in_or_app. right. eapply HI; eauto.
Qed.

(** Models that act on one parameter have to be told which. *)
Theorem C72_target : forall (F : Type) n v n2 v2 fn args p po,
  mkGRW (F := F) n v None p = Err ConfigurationError /\ mkAlpha (F := F) n v n2 v2 None p = Err ConfigurationError /\ mkDet (F := F) fn args None po = Err ConfigurationError.
Proof. repeat split. Qed.

(** ** several values *)
Section Several.
  Context {F L : Type} `{Num F} `{LogNum F L}.
  Inductive several : tm F -> Prop :=
  | sv_grw n v xs s p m : v = VList xs \/ v = VArr xs -> 2 <= List.length xs -> mkGRW n v s p = Ok m -> several m
  | sv_change n v xs p : v = VList xs \/ v = VArr xs -> 2 <= List.length xs -> several (mkChange n v p)
  | sv_comb ms m : Exists several ms -> mkComb ms = Ok m -> several m.
  Lemma several_step (m : tm F) : forall (e : env F) off p t1 t t' p', several m -> step e m off p t1 t t' = Ok p' -> False.
  Proof.
    induction m as [k names vals pr ms IHm] using tm_ind'. intros e off p t1 t t' p' Hs E. inversion Hs as [n v xs s q m' Hv Hl Em|n v xs q Hv Hl Em|ms' m' Hx Em]; subst.
    - unfold mkGRW in Em. destruct s as [s|]; [|discriminate]. injection Em as <- <- <- <- <-. cbn [step leafStep] in E. destruct (nameIndex _ _); [|discriminate]. cbn [bind index nth_error] in E.
      destruct Hv as [-> | ->]; cbn [toArr scalarOf] in E; destruct xs as [|x [|y xs]]; cbn in Hl; try lia; discriminate E.
    - destruct Hv as [-> | ->]; cbn in E; destruct xs as [|x [|y xs]]; cbn in Hl; try lia; discriminate E.
    - unfold mkComb in Em. destruct (existsb _ _); [discriminate|]. injection Em as <- <- <- <- <-. cbn [step] in E.
      assert (G : forall l p0, Exists several l -> (forall m0, In m0 l -> forall p1 p2, several m0 -> step e m0 off p1 t1 t t' = Ok p2 -> False) ->
        (fix go (ms : list (tm F)) (p : list (xnum F)) {struct ms} : res (list (xnum F)) :=
           match ms with [] => Ok p | m' :: ms' => match step e m' off p t1 t t' with Ok p' => go ms' p' | Err x => Err x end end) l p0 = Ok p' -> False).
      { induction l as [|m0 l IHl]; intros p0 Hx' IH E'; [inversion Hx'|]. destruct (step e m0 off p0 t1 t t') as [p1|] eqn:E1; [|discriminate].
        inversion Hx' as [? ? H1|? ? H1]; subst; [eapply IH; [now left|exact H1|exact E1]|]. eapply (IHl p1 H1); [|exact E']. intros m1 I1. apply IH. now right. }
      eapply G; [exact Hx| |exact E]. intros m0 I0 p1 p2. rewrite Forall_forall in IHm. eapply IHm; eauto.
  Qed.

  (** A (plain) study does not obtain an evidence with a model in which a hyper-parameter has several values. *)
  Theorem C72_several : forall (S S' : study F L) o m fo eo, st_om S = Some o -> st_tm S = Some m -> several m -> 0 < om_seglen o <= rawLen (st_raw S) ->
    fit S fo eo = Ok S' -> st_logEv S' = NInf /\ Forall (fun x => x = None) (st_local S') /\ st_warn S' = 1 + st_warn S.
  Proof.
    intros S S' o m fo eo Eo Em Hs Hr E. unfold fit in E. unfold checkConsistency in E. rewrite Eo, Em in E. destruct (Nat.eqb _ _); [discriminate|]. destruct (hasDup _); [discriminate|]. cbn [bind] in E.
    destruct (st_rawTs S) as [rts|]; [|discriminate]. destruct (computePrior _) as [[[a0 p0] al]|]; [|discriminate]. cbn [bind] in E.
    destruct (formatData (st_raw S) (om_seglen o)) as [|s segs] eqn:Ef.
    - exfalso. assert (Z : List.length (formatData (st_raw S) (om_seglen o)) = 0) by now rewrite Ef.
      unfold formatData, movingWindow in Z. destruct (st_raw S); rewrite !map_length, seq_length in Z; cbn [rawLen] in Hr; lia.
    - cbn [fwdLoop] in E. destruct (xltb _ _).
      + exfalso. destruct (formatTimestamps _ _) as [|t ts]; [discriminate|]. unfold computeForwardPrior in E. destruct (step _ m _ _ _ _ _) as [a3|] eqn:E3; [|discriminate]. eapply several_step; eauto.
      + cbn [bind fw_stop fw_logEv fw_steps fw_prior] in E. injection E as <-. cbn. split; [reflexivity|]. split; [|reflexivity]. unfold padNone. cbn. constructor; [reflexivity|]. apply Forall_forall. intros x Ix. eapply repeat_spec; eauto.
  Qed.
End Several.

(** ** Non-vacuity *)
Example C72_ex : exists (w m : tm R), mkGRW "s" (VList [0%R; 1%R]) (Some "p") (Leaf HPNone) = Ok w /\
  mkSerial [w; mkBreak "b" (VNum 3%R) (Leaf HPNone); mkStatic; mkChange "c" (VList [4%R; 5%R]) (Leaf HPNone); mkStatic] = Ok m /\
  NoDup (allNames m) /\ Forall plain (map snd (assocs m)) /\
  hyperParameterValue m "s" = Ok (HArr [0%R; 1%R]) /\ hyperParameterValue m "b" = Ok (HNum 3%R) /\ hyperParameterValue m "c" = Ok (HArr [4%R; 5%R]).
Proof.
  eexists. eexists. split; [reflexivity|]. split.
  { unfold mkSerial. cbn [serialCollect mkBreak mkStatic mkChange mapM firstValue toArr bind hd firstOrdered]. change (fltb 3%R 4%R) with (Rltb 3 4). rewrite (proj2 (Rltb_true 3 4)) by lra. reflexivity. }
  split; [repeat constructor; cbn; intuition discriminate|]. split; [repeat constructor|]. repeat split.
Qed.
(** a list of standard deviations in a plain study *)
Example C72_several_ex : exists m : tm Q, mkGRW "s" (VList [0; 1]%Q) (Some "p") (Leaf HPNone) = Ok m /\ several m /\
  (let* S0 := setup (L := Q) (data [1; 0]%Z) None (coinOM quarters PNone) m in fit S0 false false)%res = Err ValueError.
Proof. eexists. split; [reflexivity|]. split; [eapply (sv_grw "s" (VList [0; 1]%Q) [0; 1]%Q (Some "p") (Leaf HPNone)); [now left|cbn; lia|reflexivity]|]. vm_compute. reflexivity. Qed.
