(** Marginal distributions of hyper-parameters. *)
From Coq Require Import List ZArith Reals Lra Lia Arith Bool String.
From Verif Require Import Base.Num Base.Exn Base.Arr Base.RSum Base.Lift Model.Helper Model.Tm Model.HyperParams Model.Study
  Model.Getters Model.Hyper Spec.Kernel Spec.Config Spec.Dist Spec.Marginal Spec.HyperSpec
  Proof.Gauss Proof.KernelProof Proof.MarginalProof Proof.NamesProof.
Import ListNotations.
Local Open Scope R_scope.

Lemma ones_except2 s a b : (a < b)%nat -> (b < List.length s)%nat -> (forall c, c <> a -> c <> b -> nth c s 1%nat = 1%nat) ->
  natprod s = (nth a s 1 * nth b s 1)%nat /\
  forall i j, (i < nth a s 1)%nat -> (j < nth b s 1)%nat -> coord s a (i * nth b s 1 + j)%nat = i /\ coord s b (i * nth b s 1 + j)%nat = j.
Proof.
  intros Hab Hb H. assert (E := split_at s a 1%nat ltac:(lia)).
  assert (E1 : natprod (firstn a s) = 1%nat).
  { apply natprod_ones. intros c. destruct (Nat.lt_ge_cases c a); [rewrite nth_firstn_lt by auto; apply H; lia|]. apply nth_overflow. rewrite firstn_length. lia. }
  set (s' := skipn (S a) s) in *. assert (Es : forall c, nth c s' 1%nat = nth (S a + c) s 1%nat) by (intros; unfold s'; apply nth_skipn').
  destruct (ones_except s' (b - a - 1)) as [N1 C1].
  { unfold s'. rewrite skipn_length. lia. }
  { intros c Hc. rewrite Es. apply H; lia. }
  rewrite Es in N1, C1. replace (S a + (b - a - 1))%nat with b in N1, C1 by lia.
  split; [rewrite E at 1; rewrite natprod_app, natprod_cons, E1, N1; lia|]. intros i j Hi Hj.
  assert (U : unravel s (i * nth b s 1 + j)%nat = unravel (firstn a s) 0 ++ i :: unravel s' j).
  { rewrite E at 1. rewrite <- N1. replace (i * natprod s' + j)%nat with ((0 * nth a s 1 + i) * natprod s' + j)%nat by lia. apply unravel_three; lia. }
  assert (Lf : List.length (unravel (firstn a s) 0) = a) by (rewrite unravel_length, firstn_length; lia).
  unfold coord. rewrite U. split.
  - rewrite app_nth2, Lf, Nat.sub_diag by lia. reflexivity.
  - rewrite app_nth2, Lf by lia. replace (b - a)%nat with (S (b - a - 1)) by lia. cbn [nth]. apply C1. lia.
Qed.

Definition otherAxes2 (n a b : nat) : list nat := filter (fun i => negb (Nat.eqb i a) && negb (Nat.eqb i b)) (seq 0 n).
Lemma rsum_if2 n c (f : nat -> R) : (c < n)%nat -> rsum n (fun x => if Nat.eqb x c then f x else 0) = f c.
Proof. intros Hc. now rewrite rsum_delta. Qed.
Lemma joint_fin shape a b p : (a < b)%nat -> (b < List.length shape)%nat -> (0 < natprod shape)%nat ->
  sumAxes shape (otherAxes2 (List.length shape) a b) (arrOf (natprod shape) p) =
  arrOf (nth a shape O * nth b shape O) (fun q => joint shape a b p (q / nth b shape O) (q mod nth b shape O)).
Proof.
  intros Hab Hb HN. set (axes := otherAxes2 (List.length shape) a b).
  assert (Ia : forall c, In c axes <-> (c < List.length shape)%nat /\ c <> a /\ c <> b).
  { intros c. unfold axes, otherAxes2. rewrite filter_In, in_seq. destruct (Nat.eqb_spec c a), (Nat.eqb_spec c b); cbn; split; intros; try lia; destruct H; try discriminate; lia. }
  unfold arrOf at 1. destruct (sumAxes_fin axes shape (tab (natprod shape) p)) as (q & E & Lq & W); auto.
  - apply Forall_forall. intros c I. now apply Ia in I.
  - apply tab_length.
  - rewrite E. unfold arrOf. f_equal. set (s := shapeAfter shape axes) in *.
    assert (Hs : forall c, nth c s 1%nat = if in_dec Nat.eq_dec c axes then 1%nat else nth c shape 1%nat) by (intros c; apply shapeAfter_nth; intros d I; now apply Ia).
    assert (Ls : List.length s = List.length shape) by apply shapeAfter_length.
    assert (Ha1 : nth a s 1%nat = nth a shape O). { rewrite Hs. destruct (in_dec Nat.eq_dec a axes) as [I|I]; [apply Ia in I; lia|]. apply nth_indep. lia. }
    assert (Hb1 : nth b s 1%nat = nth b shape O). { rewrite Hs. destruct (in_dec Nat.eq_dec b axes) as [I|I]; [apply Ia in I; lia|]. apply nth_indep. lia. }
    destruct (ones_except2 s a b Hab ltac:(lia)) as [N1 C1].
    { intros c H1 H2. rewrite Hs. destruct (in_dec Nat.eq_dec c axes) as [I|I]; auto. apply nth_overflow. destruct (Nat.le_gt_cases (List.length shape) c); auto. exfalso. apply I, Ia. auto. }
    rewrite Ha1, Hb1 in N1, C1. set (na := nth a shape O) in *. set (nb := nth b shape O) in *. rewrite N1 in Lq.
    rewrite <- (tab_Rnth q), Lq. apply tab_ext. intros v Hv. assert (Pb : (nb <> 0)%nat) by (intros Z; rewrite Z in Hv; lia).
    assert (Hvi : (v / nb < na)%nat) by (apply Nat.div_lt_upper_bound; lia). assert (Hvj : (v mod nb < nb)%nat) by now apply Nat.mod_upper_bound.
    assert (Ev : (v = v / nb * nb + v mod nb)%nat) by (pose proof (Nat.div_mod v nb Pb); lia).
    specialize (W (fun c => if Nat.eqb (nth a c O) (v / nb) && Nat.eqb (nth b c O) (v mod nb) then 1 else 0)). unfold weighted in W. rewrite N1 in W.
    assert (W' := W ltac:(intros d c I; apply Ia in I as (_ & I1 & I2); now rewrite !nth_lset_ign by auto)). clear W.
    transitivity (rsum (na * nb) (fun x => Rnth q x * (if Nat.eqb (nth a (unravel s x) O) (v / nb) && Nat.eqb (nth b (unravel s x) O) (v mod nb) then 1 else 0))).
    + rewrite (rsum_ext _ _ (fun x => if Nat.eqb x v then Rnth q x else 0)).
      * rewrite rsum_delta by auto. reflexivity.
      * intros x Hx. fold (coord s a x) (coord s b x).
        assert (Hxi : (x / nb < na)%nat) by (apply Nat.div_lt_upper_bound; lia). assert (Hxj : (x mod nb < nb)%nat) by now apply Nat.mod_upper_bound.
        assert (Ex : (x = x / nb * nb + x mod nb)%nat) by (pose proof (Nat.div_mod x nb Pb); lia).
        destruct (C1 (x / nb)%nat (x mod nb)%nat Hxi Hxj) as [c1 c2]. rewrite <- Ex in c1, c2. rewrite c1, c2.
        destruct (Nat.eqb_spec x v) as [->|Hne]; [rewrite !Nat.eqb_refl; cbn; lra|].
        destruct (Nat.eqb_spec (x / nb) (v / nb)) as [e1|]; [|cbn; lra]. destruct (Nat.eqb_spec (x mod nb) (v mod nb)) as [e2|]; [|cbn; lra]. congruence.
    + rewrite W'. unfold joint. apply rsum_ext. intros x Hx. rewrite Rnth_tab by auto. unfold coord. destruct (_ && _); lra.
Qed.
Lemma joint_swap shape a b p i j : joint shape b a p j i = joint shape a b p i j.
Proof. apply rsum_ext. intros x _. now rewrite andb_comm. Qed.
Lemma joint_sum shape a b p i : (b < List.length shape)%nat -> rsum (nth b shape O) (joint shape a b p i) = marginal shape a p i.
Proof.
  intros Hb. unfold joint, marginal. rewrite rsum_swap. apply rsum_ext. intros x Hx.
  rewrite (rsum_ext _ _ (fun j => if Nat.eqb j (coord shape b x) then (if Nat.eqb (coord shape a x) i then p x else 0) else 0)).
  - rewrite (rsum_if2 _ (coord shape b x) (fun _ => if Nat.eqb (coord shape a x) i then p x else 0)) by now apply coord_lt. reflexivity.
  - intros j _. rewrite (Nat.eqb_sym (coord shape b x) j). destruct (Nat.eqb j (coord shape b x)); [now rewrite andb_true_r|now rewrite andb_false_r].
Qed.
Lemma nameIndex_nth l k name : NoDup l -> nth_error l k = Some name -> nameIndex l name = Ok k.
Proof.
  intros ND E. apply nth_error_split in E as (l1 & l2 & -> & <-). apply nameIndex_first. apply NoDup_app_inv in ND as (_ & _ & D). intros I. eapply D; eauto. now left.
Qed.
Lemma amuls_arrOf N f c : amuls (arrOf N f) (Fin c) = arrOf N (fun x => f x * c).
Proof. unfold arrOf, amuls, tab. rewrite !map_map. reflexivity. Qed.
Lemma arrOf_nth N f x : (x < N)%nat -> nth x (arrOf N f) NaN = Fin (f x).
Proof. intros Hx. unfold arrOf. rewrite (nth_indep _ NaN (Fin (f O))) by (rewrite map_length, tab_length; auto). rewrite map_nth, <- (tab_nth N f x (f O)) by auto. reflexivity. Qed.
Lemma arrOf_ext N f g : (forall x, (x < N)%nat -> f x = g x) -> arrOf N f = arrOf N g.
Proof. intros E. unfold arrOf. f_equal. now apply tab_ext. Qed.
Lemma arrOf_length N f : List.length (arrOf N f) = N.
Proof. unfold arrOf. now rewrite map_length, tab_length. Qed.
Lemma transpose_arrOf n k g : transpose n k (arrOf (n * k) (fun q => g (q / k)%nat (q mod k)%nat)) = arrOf (k * n) (fun q => g (q mod n)%nat (q / n)%nat).
Proof.
  unfold transpose.
  assert (G : forall l, (forall j, In j l -> (j < k)%nat) -> flat_map (fun j => map (fun i => nth (i * k + j)%nat (arrOf (n * k) (fun q => g (q / k)%nat (q mod k)%nat)) NaN) (seq 0 n)) l =
    flat_map (fun j => map (fun i => Fin (g i j)) (seq 0 n)) l).
  { induction l as [|j l IH]; intros Hl; cbn [flat_map]; auto. rewrite IH by (intros; apply Hl; now right). f_equal. apply map_ext_in. intros i Hi. apply in_seq in Hi.
    assert (Hj : (j < k)%nat) by (apply Hl; now left). rewrite arrOf_nth by nia.
    replace ((i * k + j) / k)%nat with i by (rewrite Nat.div_add_l by lia; rewrite Nat.div_small; lia).
    replace ((i * k + j) mod k)%nat with j by (rewrite Nat.add_comm, Nat.mod_add by lia; rewrite Nat.mod_small; lia). reflexivity. }
  rewrite G by (intros j Hj; apply in_seq in Hj; lia). clear G.
  unfold arrOf, tab. rewrite map_map. induction k as [|k IH]; [reflexivity|]. rewrite seq_S. rewrite flat_map_app. rewrite IH. cbn [flat_map]. rewrite app_nil_r.
  replace (S k * n)%nat with (k * n + n)%nat by lia. rewrite seq_app, map_app. f_equal. cbn [Nat.add].
  replace (seq (k * n) n) with (map (fun i => k * n + i)%nat (seq 0 n)).
  - rewrite map_map. apply map_ext_in. intros i Hi. apply in_seq in Hi. 
    replace ((k * n + i) mod n)%nat with i by (rewrite Nat.add_comm, Nat.mod_add by lia; rewrite Nat.mod_small; lia).
    replace ((k * n + i) / n)%nat with k by (rewrite Nat.div_add_l by lia; rewrite Nat.div_small; lia). reflexivity.
  - clear. induction n as [|m IH] at 2 4; auto. rewrite !seq_S, map_app, IH. cbn. auto.
Qed.
