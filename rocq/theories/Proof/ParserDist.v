(** Binned distributions. *)
From Coq Require Import List ZArith Reals Lra Lia Arith Bool String Sorted Permutation.
From Verif Require Import Base.Num Base.Exn Base.Arr Base.RSum Base.Lift Model.Helper Model.Tm Model.HyperParams Model.Study Model.Getters Model.Parser
  Spec.Kernel Spec.Hmm Spec.Dist Spec.ParserSpec Proof.FitThms Proof.GridProof Proof.ParserProof Proof.ParserLoad Proof.ParserPairs.
Import ListNotations.
Local Open Scope R_scope.

(** ** sorting *)
Lemma insertF_perm (x : R) l : Permutation (x :: l) (insertF x l).
Proof.
  induction l as [|y l IH]; [reflexivity|]. cbn [insertF]. destruct (fltb y x); [|reflexivity]. rewrite perm_swap. now constructor.
Qed.
Lemma sortF_perm (l : list R) : Permutation l (sortF l).
Proof. induction l as [|x l IH]; [reflexivity|]. cbn [sortF fold_right]. fold (sortF l). rewrite <- insertF_perm. now constructor. Qed.
Lemma insertF_sorted (x : R) l : StronglySorted Rle l -> StronglySorted Rle (insertF x l).
Proof.
  induction 1 as [|y l SS IH HF]; [repeat constructor|]. cbn [insertF]. change (fltb y x) with (Rltb y x). destruct (Rltb y x) eqn:E.
  - apply Rltb_true in E. constructor; auto. apply (Permutation_Forall (insertF_perm x l)). constructor; auto. lra.
  - apply Rltb_false in E. constructor; [now constructor|]. constructor; [lra|]. revert HF. apply Forall_impl. intros; lra.
Qed.
Lemma sortF_sorted (l : list R) : StronglySorted Rle (sortF l).
Proof. induction l as [|x l IH]; [constructor|]. cbn [sortF fold_right]. fold (sortF l). now apply insertF_sorted. Qed.
Lemma last_cons {A} (l : list A) : forall b d, last (b :: l) d = last l b.
Proof. induction l as [|c l IH]; intros b d; [reflexivity|]. change (last (c :: l) d = last (c :: l) b). now rewrite !IH. Qed.
Lemma sorted_last (a : R) l : StronglySorted Rle (a :: l) -> Forall (fun x => x <= last l a) (a :: l).
Proof.
  revert a. induction l as [|b l IH]; intros a SS; [repeat constructor; cbn; lra|]. inversion SS as [|? ? SS' HF]; subst.
  specialize (IH b SS'). rewrite last_cons. constructor; [|exact IH]. inversion IH; subst. inversion HF; subst. lra.
Qed.
Lemma last_In {A} (l : list A) : forall a, In (last l a) (a :: l).
Proof. induction l as [|b l IH]; intros a; [now left|]. right. rewrite last_cons. apply IH. Qed.

(** ** gaps *)
Lemma maxF_spec (a : R) l : In (maxF a l) (a :: l) /\ Forall (fun x => x <= maxF a l) (a :: l).
Proof.
  unfold maxF. revert a. induction l as [|b l IH]; intros a; [split; [now left|repeat constructor; cbn; lra]|]. cbn [fold_left]. change (fltb a b) with (Rltb a b).
  destruct (Rltb a b) eqn:E.
  - apply Rltb_true in E. destruct (IH b) as [I1 I2]. split; [now right|]. constructor; auto. inversion I2; subst. lra.
  - apply Rltb_false in E. destruct (IH a) as [I1 I2]. inversion I2; subst. split; [destruct I1; [now left|right; now right]|]. constructor; auto. constructor; auto. lra.
Qed.
Lemma diff_gap (l : list R) a b : StronglySorted Rle l -> In a l -> In b l -> a < b -> (forall c, In c l -> ~ (a < c < b)) -> In (b - a) (diff l).
Proof.
  induction 1 as [|s l SS IH HF]; intros Ia Ib Lt Nb; [destruct Ia|]. rewrite Forall_forall in HF.
  destruct (in_dec Req_EM_T a l) as [Ja|Na].
  - destruct Ib as [<-|Ib]; [specialize (HF a Ja); lra|]. destruct l as [|s' l]; [destruct Ja|]. cbn [diff]. right. apply IH; auto. intros c Ic. apply Nb. now right.
  - destruct Ia as [<-|Ia]; [|tauto]. destruct Ib as [<-|Ib]; [lra|]. destruct l as [|s' l]; [destruct Ib|]. cbn [diff]. left. change (s' - s = b - s). f_equal.
    assert (s <> s') by (intros ->; apply Na; now left). pose proof (HF s' (or_introl eq_refl)). inversion SS as [|? ? SS' HF']; subst. rewrite Forall_forall in HF'.
    destruct Ib as [->|Ib]; [reflexivity|]. specialize (HF' b Ib). pose proof (Nb s' (or_intror (or_introl eq_refl))). lra.
Qed.
Lemma diff_In (l : list R) d : StronglySorted Rle l -> In d (diff l) -> exists a b, In a l /\ In b l /\ a <= b /\ d = b - a /\ forall c, In c l -> ~ (a < c < b).
Proof.
  induction 1 as [|s l SS IH HF]; intros I; [destruct I|]. destruct l as [|s' l]; [destruct I|]. cbn [diff] in I. rewrite Forall_forall in HF. destruct I as [<-|I].
  - exists s, s'. split; [now left|]. split; [right; now left|]. pose proof (HF s' (or_introl eq_refl)). split; [auto|]. split; [reflexivity|]. intros c [<-|[<-|Ic]]; try lra.
    inversion SS as [|? ? SS' HF']; subst. rewrite Forall_forall in HF'. specialize (HF' c Ic). lra.
  - destruct (IH I) as (a & b & Ia & Ib & Le & Ed & Nb). exists a, b. split; [now right|]. split; [now right|]. split; auto. split; auto. intros c [<-|Ic]; auto.
    specialize (HF a Ia). lra.
Qed.

(** ** bins *)
Definition inBin (lo hi y : R) : R := if Rle_dec lo y then if Rlt_dec y hi then 1 else 0 else 0.
Lemma bins_telescope (b : nat -> R) y K : (forall j, (j < K)%nat -> b j <= b (Datatypes.S j)) -> rsum K (fun j => inBin (b j) (b (Datatypes.S j)) y) = inBin (b O) (b K) y.
Proof.
  assert (M : forall K, (forall j, (j < K)%nat -> b j <= b (Datatypes.S j)) -> b O <= b K).
  { clear K. induction K as [|K IH]; intros Hb; [lra|]. specialize (IH (fun j Hj => Hb j ltac:(lia))). specialize (Hb K ltac:(lia)). lra. }
  induction K as [|K IH]; intros Hb.
  - cbn. unfold inBin. destruct (Rle_dec (b O) y), (Rlt_dec y (b O)); lra.
  - replace (rsum (Datatypes.S K) (fun j => inBin (b j) (b (Datatypes.S j)) y)) with (rsum K (fun j => inBin (b j) (b (Datatypes.S j)) y) + inBin (b K) (b (Datatypes.S K)) y)
      by (replace (Datatypes.S K) with (K + 1)%nat at 2 by lia; rewrite rsum_app; cbn; rewrite Nat.add_0_r; ring).
    rewrite IH by (intros; apply Hb; lia). pose proof (M K (fun j Hj => Hb j ltac:(lia))). pose proof (Hb K ltac:(lia)). unfold inBin.
    repeat match goal with |- context [Rle_dec ?a ?b] => destruct (Rle_dec a b) | |- context [Rlt_dec ?a ?b] => destruct (Rlt_dec a b) end; lra.
Qed.
Lemma within_rsum N q m lo hi : within N q m lo hi = rsum N (fun x => q x * inBin lo hi (m x)).
Proof. unfold within. rewrite Rsum_tab. apply rsum_ext. intros x Hx. unfold inBin. destruct (Rle_dec lo (m x)), (Rlt_dec (m x) hi); lra. Qed.
Lemma bins_total N q m (b : nat -> R) K : (forall j, (j < K)%nat -> b j <= b (Datatypes.S j)) ->
  Rsum (tab K (fun j => within N q m (b j) (b (Datatypes.S j)))) = within N q m (b O) (b K).
Proof.
  intros Hb. rewrite Rsum_tab, within_rsum. rewrite (rsum_ext K) with (g := fun j => rsum N (fun x => q x * inBin (b j) (b (Datatypes.S j)) (m x))) by (intros; apply within_rsum).
  rewrite rsum_swap. apply rsum_ext. intros x Hx. rewrite rsum_scal, bins_telescope by auto. reflexivity.
Qed.

Section Dist.
  Variables (N : nat) (q m : nat -> R) (p : param (F := R)).
  Hypotheses (Ev : pa_vals p = map Fin (tab N m)) (Ep : pa_prob p = Prob1 (map Fin (tab N q))).
  Notation bin lo w j := (lo + INR j * w).

  Lemma finites_fin (l : list R) : finites (map Fin l) = l.
  Proof. induction l as [|x l IH]; [reflexivity|]. change (x :: finites (map Fin l) = x :: l). now rewrite IH. Qed.
  Lemma in_tab (y : R) : In y (tab N m) <-> exists x, (x < N)%nat /\ m x = y.
  Proof.
    unfold tab. rewrite in_map_iff. split; [intros (x & Ex & Ix); apply in_seq in Ix; exists x; split; [lia|auto]|intros (x & Hx & Ex); exists x; rewrite in_seq; split; [auto|lia]].
  Qed.
  Lemma one_bin lo hi : (let* l := maskedProb (map (fun x => match x with Fin r => fleb lo r && fltb r hi | _ => false end) (pa_vals p)) (pa_prob p) in Ok (asum l))%res = Ok (Fin (within N q m lo hi)).
  Proof.
    rewrite Ev, Ep. cbn [maskedProb]. unfold tab at 1. rewrite !map_map, masked_sum. cbn [bind]. rewrite asum_fin, filter_sum. do 2 f_equal. unfold within. f_equal. apply tab_ext. intros x Hx.
    change (fltb (m x) hi) with (Rltb (m x) hi).
    assert (E1 : fleb lo (m x) = if Rle_dec lo (m x) then true else false).
    { destruct (Rle_dec lo (m x)) as [H|H]; [now apply fleb_R|]. destruct (fleb lo (m x)) eqn:E; [|reflexivity]. apply fleb_R in E. lra. }
    assert (E2 : Rltb (m x) hi = if Rlt_dec (m x) hi then true else false).
    { destruct (Rlt_dec (m x) hi) as [H|H]; [now apply Rltb_true|apply Rltb_false; lra]. }
    rewrite E1, E2. destruct (Rle_dec lo (m x)), (Rlt_dec (m x) hi); reflexivity.
  Qed.

  Lemma tl_map_seq (b : nat -> R) K : tl (map b (seq 0 (Datatypes.S K))) = tab K (fun j => b (Datatypes.S j)).
  Proof. cbn [seq map tl]. unfold tab. rewrite <- seq_shift, map_map. reflexivity. Qed.
  Lemma removelast_map_seq (b : nat -> R) K : removelast (map b (seq 0 (Datatypes.S K))) = tab K b.
  Proof. rewrite seq_S, map_app. cbn [map]. now rewrite removelast_last. Qed.
  Lemma combine_tab (f g : nat -> R) K : combine (tab K f) (tab K g) = map (fun j => (f j, g j)) (seq 0 K).
  Proof. unfold tab. induction (seq 0 K) as [|j l IH]; [reflexivity|]. cbn. now rewrite IH. Qed.
  Lemma mapM_ok {A B} (f : A -> res B) (g : A -> B) l : (forall a, In a l -> f a = Ok (g a)) -> mapM f l = Ok (map g l).
  Proof.
    induction l as [|a l IH]; intros Hf; [reflexivity|]. cbn [mapM map]. rewrite (Hf a) by now left. rewrite IH; [reflexivity|]. intros a' I. apply Hf. now right.
  Qed.

  (** smallest, largest value and largest gap, as the code computes them *)
  Lemma sorted_parts : (0 < N)%nat -> exists lo rest, sortF (finites (pa_vals p)) = lo :: rest /\ smallest N m lo /\ largest N m (last rest lo) /\ StronglySorted Rle (lo :: rest) /\
    (forall y, In y (lo :: rest) <-> exists x, (x < N)%nat /\ m x = y).
  Proof.
    intros HN. rewrite Ev, finites_fin. pose proof (sortF_perm (tab N m)) as Pm. pose proof (sortF_sorted (tab N m)) as SS. destruct (sortF (tab N m)) as [|lo rest] eqn:E.
    - apply Permutation_length in Pm. rewrite tab_length in Pm. cbn in Pm. lia.
    - assert (HI : forall y, In y (lo :: rest) <-> exists x, (x < N)%nat /\ m x = y).
      { intros y. rewrite <- in_tab. split; apply Permutation_in; [now symmetry|auto]. }
      exists lo, rest. split; [reflexivity|]. split; [|split; [|split; auto]].
      + split; [apply HI; now left|]. intros x Hx. assert (I : In (m x) (lo :: rest)) by (apply HI; eauto). inversion SS as [|? ? SS' HF]; subst. rewrite Forall_forall in HF. destruct I as [->|I]; [lra|auto].
      + split; [apply HI, last_In|]. intros x Hx. pose proof (sorted_last lo rest SS) as HF. rewrite Forall_forall in HF. apply HF, HI. eauto.
  Qed.
  Lemma sorted_gap lo rest G : largestGap N m G -> StronglySorted Rle (lo :: rest) -> (forall y, In y (lo :: rest) <-> exists x, (x < N)%nat /\ m x = y) ->
    exists d ds, diff (lo :: rest) = d :: ds /\ maxF d ds = G /\ 0 < G.
  Proof.
    intros ((x & y & (Hx & Hy & Lt & Nb) & EG) & Hmax) SS HI.
    assert (ID : In (m y - m x) (diff (lo :: rest))).
    { apply diff_gap; auto; [apply HI; eauto|apply HI; eauto|]. intros c Ic. apply HI in Ic. destruct Ic as (z & Hz & <-). auto. }
    destruct (diff (lo :: rest)) as [|d ds] eqn:E; [destruct ID|]. exists d, ds. split; [reflexivity|]. destruct (maxF_spec d ds) as [M1 M2]. rewrite Forall_forall in M2.
    specialize (M2 _ ID). rewrite EG in *. split; [|lra]. rewrite <- E in M1. apply diff_In in M1; auto. destruct M1 as (a & b & Ia & Ib & Le & Ed & Nb').
    apply HI in Ia, Ib. destruct Ia as (xa & Hxa & <-), Ib as (xb & Hxb & <-). destruct (Rle_lt_or_eq_dec _ _ Le) as [Lt'|Eq]; [|lra].
    assert (m xb - m xa <= G); [|lra]. apply Hmax. repeat split; auto. intros z Hz. apply Nb', HI. eauto.
  Qed.
  Lemma trunc_spec (r : R) K : INR K <= r < INR K + 1 -> Rtrunc r = Z.of_nat K.
  Proof.
    intros [L U]. unfold Rtrunc. pose proof (pos_INR K). destruct (Rlt_dec r 0); [lra|]. destruct (base_Int_part r) as [B1 B2]. rewrite INR_IZR_INZ in *.
    assert (Int_part r < Z.of_nat K + 1)%Z by (apply lt_IZR; rewrite plus_IZR; lra). assert (Z.of_nat K < Int_part r + 1)%Z by (apply lt_IZR; rewrite plus_IZR; lra). lia.
  Qed.
  Lemma distribution_bins lo hi G K : smallest N m lo -> largest N m hi -> largestGap N m G -> INR K * G <= hi - lo < (INR K + 1) * G ->
    (1 <= K)%nat /\
    (K = 1%nat -> distribution p = Err IndexError) /\
    forall k, K = (k + 2)%nat ->
      let w := (hi - lo) / INR (k + 1) in
      distribution p = Ok (ADist (tab (k + 1) (fun j => lo + INR (j + 1) * w)) (map Fin (tab (k + 1) (fun j => within N q m (lo + INR j * w) (lo + INR (j + 1) * w))))).
  Proof.
    intros Slo Lhi HG HK. destruct Slo as [(x0 & Hx0 & Ex0) Hlo]. assert (HN : (0 < N)%nat) by lia.
    destruct (sorted_parts HN) as (lo' & rest & Es & [(x1 & Hx1 & Ex1) Hlo'] & [(x2 & Hx2 & Ex2) Hhi'] & SS & HI). destruct Lhi as [(x3 & Hx3 & Ex3) Hhi].
    assert (El : lo' = lo). { pose proof (Hlo' x0 Hx0). pose proof (Hlo x1 Hx1). lra. }
    assert (Eh : last rest lo' = hi). { pose proof (Hhi' x3 Hx3). pose proof (Hhi x2 Hx2). lra. }
    rewrite El in Es, SS, HI, Eh. clear El. destruct (sorted_gap _ _ _ HG SS HI) as (d & ds & Ed & Em & HG0).
    assert (Ge : G <= hi - lo). { destruct HG as [(xa & xb & (Hxa & Hxb & _) & <-) _]. pose proof (Hhi xb Hxb). pose proof (Hlo xa Hxa). lra. }
    assert (Et : Z.to_nat (ftrunc (F := R) (fdiv (fsub hi lo) G)) = K).
    { change (Z.to_nat (Rtrunc ((hi - lo) / G)) = K). rewrite (trunc_spec _ K); [apply Nat2Z.id|]. unfold Rdiv. split.
      - apply (Rmult_le_reg_r G); auto. rewrite Rmult_assoc, Rinv_l by lra. lra.
      - apply (Rmult_lt_reg_r G); auto. rewrite Rmult_assoc, Rinv_l by lra. lra. }
    assert (ED : forall B, distribution p = B <->
      match linspace lo hi K with
              | b0 :: b1 :: _ =>
                  bind (mapM (fun lu => bind (maskedProb (map (fun x => match x with Fin r => fleb (fst lu) r && fltb r (snd lu) | _ => false end) (pa_vals p)) (pa_prob p)) (fun l => Ok (asum l)))
                    (combine (removelast (linspace lo hi K)) (tl (linspace lo hi K))))
                    (fun probs => Ok (ADist (map (fun b => fadd b (fsub b1 b0)) (removelast (linspace lo hi K))) probs))
              | _ => Err IndexError
              end = B).
    { intros B. unfold distribution. rewrite Es, Ed, Em. rewrite Eh. change (feqb G f0) with (Reqb G 0). rewrite (proj2 (Reqb_false G 0)) by lra. cbn zeta. rewrite Et. tauto. }
    split; [|split].
    - destruct K as [|K]; [|lia]. cbn in HK. lra.
    - intros ->. apply ED. reflexivity.
    - intros k -> w. apply ED.
      assert (EL : linspace lo hi (k + 2) = map (fun i => lo + INR i * w) (seq 0 (Datatypes.S (k + 1)))).
      { replace (k + 2)%nat with (Datatypes.S (Datatypes.S k)) by lia. cbn [linspace]. replace (Datatypes.S (k + 1)) with (Datatypes.S (Datatypes.S k)) by lia. apply map_ext. intros j.
        cbn [fadd fmul fdiv fsub fofZ NumR]. rewrite <- !INR_IZR_INZ. unfold w. do 3 f_equal. f_equal. lia. }
      rewrite EL, removelast_map_seq, tl_map_seq, combine_tab. replace (Datatypes.S (k + 1)) with (Datatypes.S (Datatypes.S k)) by lia. cbn [seq map].
      rewrite (mapM_ok _ (fun lu => Fin (within N q m (fst lu) (snd lu)))) by (intros lu _; apply one_bin). cbn [bind]. do 2 f_equal.
      + rewrite map_tab. apply tab_ext. intros j Hj. cbn [fadd fsub NumR INR]. rewrite plus_INR. cbn. ring.
      + rewrite map_map, map_tab. unfold tab. apply map_ext. intros j. cbn [fst snd]. now rewrite Nat.add_1_r.
  Qed.
  Lemma distribution_total vals probs : (0 < N)%nat -> distribution p = Ok (ADist vals probs) ->
    exists hi, largest N m hi /\ asum probs = Fin (Rsum (tab N q) - probability N q REq m (fun _ => hi)).
  Proof.
    intros HN E. destruct (sorted_parts HN) as (lo & rest & Es & Hlo & Hhi & SS & HI). exists (last rest lo). split; [exact Hhi|].
    unfold distribution in E. rewrite Es in E. destruct (diff (lo :: rest)) as [|d ds]; [discriminate|]. destruct (feqb (maxF d ds) f0); [discriminate|].
    set (hi := last rest lo) in *. set (K := Z.to_nat (ftrunc (fdiv (fsub hi lo) (maxF d ds)))) in *. cbn zeta in E.
    destruct K as [|[|k]]; [discriminate|discriminate|].
    set (w := (hi - lo) / INR (Datatypes.S k)).
    assert (EL : linspace lo hi (Datatypes.S (Datatypes.S k)) = map (fun i => lo + INR i * w) (seq 0 (Datatypes.S (Datatypes.S k)))).
    { cbn [linspace]. apply map_ext. intros j. cbn [fadd fmul fdiv fsub fofZ NumR]. rewrite <- !INR_IZR_INZ. unfold w. do 3 f_equal. }
    rewrite EL in E. rewrite removelast_map_seq, tl_map_seq, combine_tab in E.
    rewrite (mapM_ok _ (fun lu => Fin (within N q m (fst lu) (snd lu)))) in E by (intros lu _; apply one_bin).
    match type of E with context [bind (Ok ?l) _] => remember l as pr eqn:Epr end. cbn [seq map bind] in E. injection E as _ <-. rewrite Epr. clear Epr pr.
    rewrite map_map. cbn [fst snd]. rewrite <- (map_map (fun j => within N q m (lo + INR j * w) (lo + INR (Datatypes.S j) * w)) Fin), asum_fin.
    fold (tab (Datatypes.S k) (fun j => within N q m (lo + INR j * w) (lo + INR (Datatypes.S j) * w))).
    assert (Le : lo <= hi). { destruct Hlo as [(x & Hx & Ex) _]. destruct Hhi as [_ Hh]. specialize (Hh x Hx). lra. }
    assert (Hw : 0 <= w). { unfold w. apply Rmult_le_pos; [lra|]. left. apply Rinv_0_lt_compat. apply lt_0_INR. lia. }
    rewrite (bins_total N q m (fun j => lo + INR j * w)) by (intros j _; rewrite S_INR; lra).
    f_equal. replace (lo + INR 0 * w) with lo by (cbn; ring). replace (lo + INR (Datatypes.S k) * w) with hi by (unfold w; field; apply not_0_INR; lia).
    unfold within, probability. rewrite !Rsum_tab. match goal with |- ?A = ?Q - ?B => cut (A + B = Q); [lra|] end. rewrite <- rsum_plus. apply rsum_ext. intros x Hx.
    destruct Hlo as [_ Hl]. destruct Hhi as [_ Hh]. specialize (Hl x Hx). specialize (Hh x Hx). unfold holds. destruct (Rle_dec lo (m x)), (Rlt_dec (m x) hi), (Req_EM_T (m x) hi); lra.
  Qed.
End Dist.

(** ** values that are not finite *)
Definition finitePairs (l : list (xnum R * R)) : list (R * R) := flat_map (fun xq => match fst xq with Fin v => [(v, snd xq)] | _ => [] end) l.
Lemma finites_pairs l : finites (map fst l) = map fst (finitePairs l).
Proof. induction l as [|[x q] l IH]; [reflexivity|]. unfold finites, finitePairs in *. cbn [map flat_map fst snd]. rewrite map_app, <- IH. now destruct x. Qed.
Lemma masked_pairs (f : R -> bool) (l : list (xnum R * R)) :
  masked (map (fun x => match x with Fin r => f r | _ => false end) (map fst l)) (map (fun xq => Fin (snd xq)) l) =
  masked (map (fun x => match x with Fin r => f r | _ => false end) (map Fin (map fst (finitePairs l)))) (map Fin (map snd (finitePairs l))).
Proof.
  unfold masked. rewrite !map_length, !Nat.eqb_refl. f_equal. induction l as [|[x q] l IH]; [reflexivity|]. unfold finitePairs in *. cbn [map flat_map fst snd combine filter].
  destruct x as [r| | |]; cbn [app map combine filter fst snd]; [destruct (f r); cbn [map snd]; now rewrite IH|exact IH..].
Qed.
Lemma distribution_pairs (p p' : param (F := R)) l : pa_vals p = map fst l -> pa_prob p = Prob1 (map (fun xq => Fin (snd xq)) l) ->
  pa_vals p' = map Fin (map fst (finitePairs l)) -> pa_prob p' = Prob1 (map Fin (map snd (finitePairs l))) -> distribution p = distribution p'.
Proof.
  intros E1 E2 E3 E4. unfold distribution. rewrite E1, E2, E3, E4, finites_pairs, finites_fin. destruct (sortF _) as [|lo rest]; [reflexivity|]. destruct (diff _) as [|d ds]; [reflexivity|].
  destruct (feqb _ _); [reflexivity|]. cbn zeta. destruct (linspace _ _ _) as [|b0 [|b1 bs]]; [reflexivity..|]. f_equal.
  generalize (combine (removelast (b0 :: b1 :: bs)) (tl (b0 :: b1 :: bs))). intros L. induction L as [|lu L IH]; [reflexivity|]. cbn [mapM]. rewrite IH. cbn [maskedProb].
  now rewrite (masked_pairs (fun r => fleb (fst lu) r && fltb r (snd lu))).
Qed.
Lemma tab_nth_R (l : list R) : tab (List.length l) (fun i => nth i l 0) = l.
Proof. unfold tab. induction l as [|x l IH]; [reflexivity|]. cbn [List.length seq map nth]. f_equal. rewrite <- seq_shift, map_map. exact IH. Qed.
Lemma below_pairs hi (l : list (xnum R * R)) :
  Rsum (map (fun xq => match fst xq with Fin v => if Rlt_dec v hi then snd xq else 0 | _ => 0 end) l) = Rsum (map (fun vq => if Rlt_dec (fst vq) hi then snd vq else 0) (finitePairs l)).
Proof.
  induction l as [|[x q] l IH]; [reflexivity|]. unfold finitePairs in *. cbn [map flat_map fst snd]. rewrite map_app.
  destruct x as [v| | |]; cbn [app map Rsum fold_right fst snd]; unfold Rsum in *; cbn [fold_right]; rewrite ?IH; lra.
Qed.
Lemma finitePairs_in (v : R) l : In v (map fst (finitePairs l)) <-> In (Fin v) (map fst l).
Proof.
  induction l as [|[x q] l IH]; [reflexivity|]. unfold finitePairs in *. cbn [map flat_map fst snd]. rewrite map_app, in_app_iff, IH. cbn [In].
  destruct x as [r| | |]; cbn [map In fst snd]; split; intros [X|X]; auto; try (destruct X as [X|[]]; left; congruence); try (left; left; congruence); try discriminate; contradiction.
Qed.
Lemma distribution_nonfinite (p : param (F := R)) (l : list (xnum R * R)) vals probs : pa_vals p = map fst l -> pa_prob p = Prob1 (map (fun xq => Fin (snd xq)) l) ->
  distribution p = Ok (ADist vals probs) ->
  exists hi, In (Fin hi) (map fst l) /\ (forall v, In (Fin v) (map fst l) -> v <= hi) /\
    asum probs = Fin (Rsum (map (fun xq => match fst xq with Fin v => if Rlt_dec v hi then snd xq else 0 | _ => 0 end) l)).
Proof.
  intros E1 E2 E. set (fp := finitePairs l). set (N := List.length fp). set (m := fun i => nth i (map fst fp) 0). set (q := fun i => nth i (map snd fp) 0).
  assert (Em : tab N m = map fst fp) by (unfold N, m; rewrite <- (map_length fst fp); apply tab_nth_R).
  assert (Eq : tab N q = map snd fp) by (unfold N, q; rewrite <- (map_length snd fp); apply tab_nth_R).
  pose (p' := {| pa_name := pa_name p; pa_vals := map Fin (tab N m); pa_prob := Prob1 (map Fin (tab N q)); pa_study := pa_study p; pa_time := pa_time p; pa_hyper := pa_hyper p |}).
  rewrite (distribution_pairs p p' l E1 E2) in E by (cbn; rewrite ?Em, ?Eq; reflexivity).
  assert (HN : (0 < N)%nat).
  { destruct N; [|lia]. unfold distribution in E. cbn in E. discriminate E. }
  destruct (distribution_total N q m p' eq_refl eq_refl vals probs HN E) as (hi & [(x & Hx & Ex) Hh] & Es). exists hi. split; [|split].
  - apply finitePairs_in. fold fp. rewrite <- Em. apply in_tab. eauto.
  - intros v I. apply finitePairs_in in I. fold fp in I. rewrite <- Em in I. apply in_tab in I as (y & Hy & <-). auto.
  - rewrite Es. f_equal. rewrite below_pairs. fold fp. rewrite Eq. unfold probability.
    assert (Hle : forall vq, In vq fp -> fst vq <= hi).
    { intros vq I. apply in_map with (f := fst) in I. rewrite <- Em in I. apply in_tab in I as (y & Hy & <-). auto. }
    unfold m, q, N. clear - Hle. clearbody fp. induction fp as [|[v w] fp IH]; [unfold Rsum, tab; cbn; lra|].
    assert (IH' := IH (fun vq I => Hle vq (or_intror I))). pose proof (Hle (v, w) (or_introl eq_refl)) as Lv. cbn [fst] in Lv.
    unfold tab in *. cbn [List.length seq map nth fst snd]. rewrite <- seq_shift, map_map. cbn [nth]. unfold Rsum in *. cbn [fold_right]. unfold holds in *.
    destruct (Req_EM_T v hi), (Rlt_dec v hi); lra.
Qed.
