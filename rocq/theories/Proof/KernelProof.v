(** Algebra of the kernels; one step of a linear transition model is its kernel. *)
From Coq Require Import List ZArith Reals Lra Lia Arith Bool String.
From Verif Require Import Base.Num Base.Exn Base.Arr Base.RSum Base.Lift Model.Helper Model.Tm Spec.Kernel Proof.Gauss.
Import ListNotations.
Local Open Scope R_scope.

Definition keq (N : nat) (K1 K2 : kern) : Prop := forall x y, (x < N)%nat -> (y < N)%nat -> K1 x y = K2 x y.
Definition stochastic (N : nat) (K : kern) : Prop :=
  (forall x y, (x < N)%nat -> (y < N)%nat -> 0 <= K x y) /\ (forall x, (x < N)%nat -> rsum N (K x) = 1).
Definition symmetric (N : nat) (K : kern) : Prop := forall x y, (x < N)%nat -> (y < N)%nat -> K x y = K y x.
Definition flatOn (N : nat) : nat -> R := fun _ => / INR N.

Lemma keq_refl N K : keq N K K.
Proof. now intros x y _ _. Qed.
Lemma keq_sym N K L : keq N K L -> keq N L K.
Proof. intros E x y Hx Hy. symmetry. auto. Qed.
Lemma keq_trans N K L M : keq N K L -> keq N L M -> keq N K M.
Proof. intros E E' x y Hx Hy. rewrite E; auto. Qed.
Lemma Kprod_keq N K K' L L' : keq N K K' -> keq N L L' -> keq N (Kprod N K L) (Kprod N K' L').
Proof. intros E E' x y Hx Hy. unfold Kprod. apply rsum_ext. intros z Hz. now rewrite E, E'. Qed.
Lemma Kprod_assoc N K L M : keq N (Kprod N (Kprod N K L) M) (Kprod N K (Kprod N L M)).
Proof.
  intros x y _ _. unfold Kprod.
  erewrite rsum_ext; [|intros z _; rewrite <- rsum_scal_r; reflexivity].
  rewrite rsum_swap. apply rsum_ext. intros z _. rewrite <- rsum_scal. apply rsum_ext. intros; ring.
Qed.
Lemma Kid_sum N x f : (x < N)%nat -> rsum N (fun z => Kid x z * f z) = f x.
Proof.
  intros Hx. erewrite rsum_ext; [apply (rsum_delta' N x f Hx)|]. intros z _. unfold Kid. destruct (Nat.eqb x z); lra.
Qed.
Lemma Kid_sum_r N y f : (y < N)%nat -> rsum N (fun z => f z * Kid z y) = f y.
Proof.
  intros Hx. erewrite rsum_ext; [apply (rsum_delta N y f Hx)|]. intros z _. unfold Kid. cbn. destruct (Nat.eqb z y); lra.
Qed.
Lemma Kprod_id_l N K : keq N (Kprod N Kid K) K.
Proof. intros x y Hx Hy. unfold Kprod. now rewrite (Kid_sum N x (fun z => K z y)). Qed.
Lemma Kprod_id_r N K : keq N (Kprod N K Kid) K.
Proof. intros x y Hx Hy. unfold Kprod. now rewrite (Kid_sum_r N y (fun z => K x z)). Qed.

Lemma Kid_stoch N : stochastic N Kid.
Proof.
  split.
  - intros x y _ _. unfold Kid. destruct (Nat.eqb x y); lra.
  - intros x Hx. erewrite rsum_ext; [apply (Kid_sum N x (fun _ => 1) Hx)|]. intros; lra.
Qed.
Lemma Kreset_stoch N rho : (forall y, (y < N)%nat -> 0 <= rho y) -> rsum N rho = 1 -> stochastic N (Kreset rho).
Proof. intros P E. split; unfold Kreset; auto. Qed.
Lemma Kprod_stoch N K L : stochastic N K -> stochastic N L -> stochastic N (Kprod N K L).
Proof.
  intros [P1 S1] [P2 S2]. split.
  - intros x y Hx Hy. apply rsum_nonneg. intros z Hz. apply Rmult_le_pos; auto.
  - intros x Hx. unfold Kprod. rewrite rsum_swap. rewrite <- (S1 x Hx). apply rsum_ext. intros z Hz.
    rewrite rsum_scal, S2; auto; lra.
Qed.

Section Walk.
  Variable shape : list nat.
  Notation N := (natprod shape).

  Lemma Kwalk_stoch a sd : (a < List.length shape)%nat -> stochastic N (Kwalk shape a sd).
  Proof.
    intros Ha. split.
    - intros x y _ _. unfold Kwalk. apply Rsum_nonneg, Forall_map, Forall_forall. intros k _.
      destruct (Nat.eqb _ _); [left; apply gProb_pos|lra].
    - intros x Hx. unfold Kwalk. change (rsum N (fun y => zsum (gRadius sd) (fun k => if Nat.eqb (move shape a k x) y then gProb sd k else 0)) = 1).
      rewrite <- zsum_rsum. rewrite <- (gProb_sum sd). apply zsum_ext. intros k.
      apply (rsum_delta' N (move shape a k x) (fun _ => gProb sd k)). now apply move_lt.
  Qed.
  Lemma Kwalk_sym a sd : (a < List.length shape)%nat -> symmetric N (Kwalk shape a sd).
  Proof.
    intros Ha x y Hx Hy. apply (move_sym shape (gRadius sd) (gProb sd)); auto. apply gProb_even.
  Qed.
  Lemma Kwalk_apply a sd x (f : nat -> R) : (a < List.length shape)%nat -> (x < N)%nat ->
    rsum N (fun z => Kwalk shape a sd x z * f z) = zsum (gRadius sd) (fun k => gProb sd k * f (move shape a k x)).
  Proof.
    intros Ha Hx. unfold Kwalk.
    rewrite (rsum_ext N _ (fun z => zsum (gRadius sd) (fun k => (if Nat.eqb (move shape a k x) z then gProb sd k else 0) * f z)))
      by (intros z _; symmetry; apply zsum_scal_r).
    rewrite <- zsum_rsum. apply zsum_ext. intros k.
    rewrite <- (rsum_delta' N (move shape a k x) (fun z => gProb sd k * f z)) by now apply move_lt.
    apply rsum_ext. intros z _. destruct (Nat.eqb _ _); lra.
  Qed.
  Lemma Kwalk_commute a sd b sd' : (a < List.length shape)%nat -> (b < List.length shape)%nat ->
    keq N (Kprod N (Kwalk shape a sd) (Kwalk shape b sd')) (Kprod N (Kwalk shape b sd') (Kwalk shape a sd)).
  Proof.
    intros Ha Hb x y Hx Hy. unfold Kprod. rewrite !Kwalk_apply by auto.
    assert (E : forall a sd z, Kwalk shape a sd z y = zsum (gRadius sd) (fun k => gProb sd k * (if Nat.eqb (move shape a k z) y then 1 else 0))).
    { intros. apply zsum_ext. intros k. destruct (Nat.eqb _ _); lra. }
    etransitivity; [apply zsum_ext; intros k; rewrite E; reflexivity|].
    etransitivity; [apply (walks_commute shape (gRadius sd) (gRadius sd') (gProb sd) (gProb sd') a b x (fun z => if Nat.eqb z y then 1 else 0)); auto; apply gProb_even|].
    apply zsum_ext. intros k. now rewrite E.
  Qed.

  (** kernels generated by identity, flat reset, walks and products *)
  Inductive Gen : kern -> Prop :=
  | gen_id : Gen Kid
  | gen_reset : Gen (Kreset (flatOn N))
  | gen_walk a sd : (a < List.length shape)%nat -> Gen (Kwalk shape a sd)
  | gen_prod K L : Gen K -> Gen L -> Gen (Kprod N K L).

  Hypothesis Npos : (0 < N)%nat.
  Lemma flat_sum : rsum N (flatOn N) = 1.
  Proof. unfold flatOn. rewrite rsum_const. apply Rinv_r. apply not_0_INR. lia. Qed.
  Lemma flat_nonneg y : 0 <= flatOn N y.
  Proof. unfold flatOn. left. apply Rinv_0_lt_compat. now apply lt_0_INR. Qed.

  Lemma Gen_stoch K : Gen K -> stochastic N K.
  Proof.
    induction 1.
    - apply Kid_stoch.
    - apply Kreset_stoch; [intros; apply flat_nonneg|apply flat_sum].
    - now apply Kwalk_stoch.
    - now apply Kprod_stoch.
  Qed.

  Definition commute K L := keq N (Kprod N K L) (Kprod N L K).
  Lemma commute_sym K L : commute K L -> commute L K.
  Proof. apply keq_sym. Qed.
  Lemma commute_prod K L M : commute K L -> commute K M -> commute K (Kprod N L M).
  Proof.
    intros E E'. unfold commute.
    eapply keq_trans; [apply keq_sym, Kprod_assoc|].
    eapply keq_trans; [apply Kprod_keq; [exact E|apply keq_refl]|].
    eapply keq_trans; [apply Kprod_assoc|].
    eapply keq_trans; [apply Kprod_keq; [apply keq_refl|exact E']|].
    apply keq_sym, Kprod_assoc.
  Qed.
  Lemma commute_id K : commute K Kid.
  Proof. eapply keq_trans; [apply Kprod_id_r|apply keq_sym, Kprod_id_l]. Qed.
  Lemma commute_reset K : stochastic N K -> symmetric N K -> commute K (Kreset (flatOn N)).
  Proof.
    intros [_ S] Sy x y Hx Hy. unfold Kprod, Kreset, flatOn.
    rewrite rsum_scal_r, S by auto.
    rewrite rsum_scal. erewrite rsum_ext; [|intros z Hz; apply Sy; auto]. rewrite S by auto. lra.
  Qed.

  Lemma reset_sym : symmetric N (Kreset (flatOn N)).
  Proof. now intros x y _ _. Qed.
  Lemma Kid_sym : symmetric N Kid.
  Proof. intros x y _ _. unfold Kid. now rewrite Nat.eqb_sym. Qed.

  Lemma Gen_commute K : Gen K -> forall L, Gen L -> commute K L.
  Proof.
    induction 1 as [| |a sd Ha|K1 K2 G1 IH1 G2 IH2]; intros L GL.
    - apply commute_sym, commute_id.
    - induction GL as [| |b sd' Hb|L1 L2 ? IHL1 ? IHL2].
      + apply commute_id.
      + apply keq_refl.
      + apply commute_sym, commute_reset; [now apply Kwalk_stoch|now apply Kwalk_sym].
      + now apply commute_prod.
    - induction GL as [| |b sd' Hb|L1 L2 ? IHL1 ? IHL2].
      + apply commute_id.
      + apply commute_reset; [now apply Kwalk_stoch|now apply Kwalk_sym].
      + now apply Kwalk_commute.
      + now apply commute_prod.
    - apply commute_sym, commute_prod; apply commute_sym; auto.
  Qed.

  Lemma Gen_sym K : Gen K -> symmetric N K.
  Proof.
    induction 1 as [| |a sd Ha|K1 K2 G1 IH1 G2 IH2].
    - apply Kid_sym.
    - apply reset_sym.
    - now apply Kwalk_sym.
    - intros x y Hx Hy. rewrite (Gen_commute K1 G1 K2 G2) by auto. unfold Kprod.
      apply rsum_ext. intros z Hz. rewrite (IH2 x z), (IH1 z y) by auto. lra.
  Qed.
End Walk.

(** ** induction over nested models *)
Lemma tm_ind' {F} (P : tm F -> Prop) :
  (forall k names vals prior ms, Forall P ms -> P (TM k names vals prior ms)) -> forall m, P m.
Proof.
  intros IH. fix rec 1. intros [k names vals prior ms]. apply IH.
  induction ms as [|m ms IHms]; constructor; [apply rec|apply IHms].
Qed.

(** total probability after a step, given the total before *)
Fixpoint massAfter (vol : R) (m : tm R) (t : R) (s : R) {struct m} : R :=
  match m with
  | TM KChange _ vals _ _ => if eqR t (numOf (hd HNone vals)) then vol else s
  | TM KIndep _ _ _ _ => 1
  | TM KComb _ _ _ ms => fold_left (fun b f => f b) (map (fun m' => massAfter vol m' t) ms) s
  | TM (KSerial mask) _ vals _ ms =>
      let bs := map numOf vals in
      if existsb (eqR t) (changeTimes bs mask) then vol
      else nth (breaksBefore bs t) (map (fun m' => massAfter vol m' t) ms) (fun b => b) s
  | _ => s
  end.

Lemma massAfter_resetBy vol t m : forall b : bool,
  massAfter vol m t (if b then vol else 1) = if resetBy m t b then vol else 1.
Proof.
  induction m as [k names vals prior ms IH] using tm_ind'. intros b.
  destruct k; simpl; auto; try (destruct (eqR _ _); auto; fail).
  - revert b. induction IH as [|m ms Hm Hms IHms]; intros b; simpl; auto. rewrite Hm. apply IHms.
  - destruct (existsb _ _); auto.
    generalize (breaksBefore (map numOf vals) t). intros i.
    revert i. induction IH as [|m ms Hm Hms IHms]; intros [|i]; simpl; auto.
Qed.

Lemma massAfter_inv (P : R -> Prop) vol m t : P vol -> P 1 -> forall s, P s -> P (massAfter vol m t s).
Proof.
  intros Hv H1. induction m as [k names vals prior ms IH] using tm_ind'. intros s Hs.
  destruct k; simpl; auto; try (destruct (eqR _ _); auto; fail).
  - revert s Hs. induction IH as [|m ms Hm Hms IHms]; intros s Hs; simpl; auto.
  - destruct (existsb _ _); auto.
    generalize (breaksBefore (map numOf vals) t). intros i.
    revert i. induction IH as [|m ms Hm Hms IHms]; intros [|i]; simpl; auto.
Qed.
Lemma massAfter_pos vol m t s : 0 < vol -> 0 < s -> 0 < massAfter vol m t s.
Proof. intros. apply massAfter_inv; auto; lra. Qed.
Lemma massAfter_nz vol m t s : vol <> 0 -> s <> 0 -> massAfter vol m t s <> 0.
Proof. intros. apply (massAfter_inv (fun x => x <> 0)); auto; lra. Qed.

Lemma fprod_R l : fprod (F := R) l = Rprod l.
Proof.
  unfold fprod. assert (forall a, fold_left Rmult l a = a * Rprod l) as E.
  { induction l as [|x l IH]; intros a; simpl; [lra|]. rewrite IH. ring. }
  cbn. rewrite E. lra.
Qed.
Lemma Rprod_pos l : Forall (fun x => 0 < x) l -> 0 < Rprod l.
Proof. induction 1; simpl; [lra|]. now apply Rmult_lt_0_compat. Qed.

(** ** one step of the code *)
Lemma nameIndex_posOf names s : In s names -> nameIndex names s = Ok (posOf names s) /\ (posOf names s < List.length names)%nat.
Proof.
  induction names as [|a names IH]; simpl; [tauto|]. intros I.
  destruct (String.eqb_spec a s); [split; [auto|lia]|].
  destruct I as [->|I]; [tauto|]. destruct (IH I) as [E L]. rewrite E. simpl. split; [reflexivity|lia].
Qed.
Lemma breaksUpTo_R bs t : breaksUpTo (F := R) bs t = breaksBefore bs t.
Proof.
  unfold breaksUpTo, breaksBefore. f_equal. apply filter_ext. intros b.
  destruct (Rle_dec b t) as [L|L].
  - now apply fleb_R.
  - destruct (fleb b t) eqn:E; auto. apply fleb_R in E. tauto.
Qed.
Lemma maskSel_changeTimes {A} (bs : list A) mask : maskSel bs mask = map fst (filter snd (combine bs mask)).
Proof. revert mask; induction bs; destruct mask as [|[|] mask]; simpl; auto. now rewrite IHbs. Qed.
Lemma mapM_scalar_HNum bs : mapM (scalarOf (F := R)) (map HNum bs) = Ok bs.
Proof. induction bs; simpl; auto. now rewrite IHbs. Qed.
Lemma eqR_Reqb a b : Reqb a b = eqR a b.
Proof. reflexivity. Qed.
Lemma breaksBefore_le bs t : (breaksBefore bs t <= List.length bs)%nat.
Proof. unfold breaksBefore. induction bs; simpl; [lia|]. destruct (Rle_dec a t); simpl; lia. Qed.

Definition kapply (N : nat) (p : list R) (K : kern) : list R := tab N (fun y => rsum N (fun x => Rnth p x * K x y)).
Lemma kapply_length N p K : List.length (kapply N p K) = N.
Proof. apply tab_length. Qed.
Lemma kapply_sum N p K : stochastic N K -> List.length p = N -> Rsum (kapply N p K) = Rsum p.
Proof.
  intros [_ S] L. unfold kapply. rewrite Rsum_tab, rsum_swap, (Rsum_rnth p), L. apply rsum_ext. intros x Hx.
  rewrite rsum_scal, S; auto; lra.
Qed.
Lemma kapply_nonneg N p K : stochastic N K -> Forall (fun x => 0 <= x) p -> Forall (fun x => 0 <= x) (kapply N p K).
Proof.
  intros [P _] Hp. apply Forall_tab. intros y Hy. apply rsum_nonneg. intros x Hx.
  apply Rmult_le_pos; auto. now apply Rnth_nonneg.
Qed.
Lemma kapply_id N p : List.length p = N -> kapply N p Kid = p.
Proof.
  intros L. rewrite <- (tab_Rnth p) at 2. rewrite L. apply tab_ext. intros y Hy. now apply (Kid_sum_r N y (Rnth p)).
Qed.
Lemma kapply_prod N p K L : kapply N (kapply N p K) L = kapply N p (Kprod N K L).
Proof.
  unfold kapply at 1 3. apply tab_ext. intros y Hy. unfold Kprod.
  erewrite rsum_ext; [|intros x Hx; unfold kapply; rewrite Rnth_tab by auto; rewrite <- rsum_scal_r; reflexivity].
  rewrite rsum_swap. apply rsum_ext. intros x Hx. rewrite <- rsum_scal. apply rsum_ext. intros; ring.
Qed.
Lemma kapply_scal N p K c : kapply N (map (fun x => c * x) p) K = map (fun x => c * x) (kapply N p K).
Proof.
  unfold kapply. rewrite map_tab. apply tab_ext. intros y _. rewrite <- rsum_scal. apply rsum_ext. intros x _.
  assert (E : Rnth (map (fun x => c * x) p) x = c * Rnth p x).
  { unfold Rnth. replace 0 with (c * 0) at 1 by lra. apply (map_nth (fun x => c * x)). }
  rewrite E. ring.
Qed.
Lemma kapply_reset N p rho : List.length p = N -> kapply N p (Kreset rho) = tab N (fun y => Rsum p * rho y).
Proof.
  intros L. apply tab_ext. intros y _. unfold Kreset. rewrite rsum_scal_r. f_equal. rewrite (Rsum_rnth p), L. reflexivity.
Qed.

Definition spaceOf (e : env R) (rho : nat -> R) : space :=
  {| sp_shape := e_shape e; sp_lat := e_lat e; sp_names := e_names e; sp_reset := rho |}.

Section Step.
  Variable e : env R.
  Variable rho : nat -> R.
  Notation N := (e_size e).
  Notation sp := (spaceOf e rho).
  Hypothesis Hdim : List.length (e_names e) = List.length (e_shape e).
  Hypothesis Hlat : List.length (e_lat e) = List.length (e_shape e).
  Hypothesis Hlatpos : Forall (fun l => 0 < l) (e_lat e).
  Hypothesis Html : e_tmlat e = e_lat e.
  Hypothesis Hrho_pos : forall y, (y < N)%nat -> 0 <= rho y.
  Hypothesis Hrho_sum : rsum N rho = 1.
  Hypothesis Hreset : resetPrior e = fin (tab N rho).

  Lemma kernel_stoch m t : linear (e_names e) m -> stochastic N (kernel sp m t).
  Proof.
    induction m as [k names vals prior ms IH] using tm_ind'. intros Lin. inversion Lin; subst; simpl.
    - apply Kid_stoch.
    - destruct (Rlt_dec _ _); [|apply Kid_stoch]. apply Kwalk_stoch.
      rewrite <- Hdim. now apply nameIndex_posOf.
    - destruct (eqR _ _); [now apply Kreset_stoch|apply Kid_stoch].
    - now apply Kreset_stoch.
    - clear Lin. induction IH as [|m ms Hm Hms IHms]; simpl; [apply Kid_stoch|].
      inversion H0; subst. apply Kprod_stoch; auto.
    - destruct (existsb _ _); [now apply Kreset_stoch|].
      clear Lin H1. revert H5. generalize (breaksBefore (map numOf (map HNum bs)) t).
      induction IH as [|m ms Hm Hms IHms]; intros [|i] HF; simpl; try apply Kid_stoch; inversion HF; subst; auto.
  Qed.

  Lemma vol_pos : 0 < e_vol e.
  Proof. unfold e_vol. rewrite fprod_R. now apply Rprod_pos. Qed.

  Lemma changeReset_fin : changeReset e = fin (tab N (fun y => e_vol e * rho y)).
  Proof.
    unfold changeReset. rewrite Hreset, amuls_fin. f_equal. rewrite map_tab. apply tab_ext. intros; lra.
  Qed.

  Lemma step_linear m t1 t t' : linear (e_names e) m -> forall off p, List.length p = N -> Rsum p <> 0 ->
    step e m off (fin p) t1 t t'
    = Ok (fin (map (fun x => massAfter (e_vol e) m t1 (Rsum p) / Rsum p * x) (kapply N p (kernel sp m t1)))).
  Proof.
    induction m as [k names vals prior ms IH] using tm_ind'. intros Lin off p Lp Sp.
    assert (Same : forall K, kapply N p K = p -> fin p = fin (map (fun x => Rsum p / Rsum p * x) (kapply N p K))).
    { intros K ->. f_equal. rewrite <- (map_id p) at 1. apply map_ext. intros x. field. auto. }
    inversion Lin; subst.
    - cbn [step leafStep massAfter kernel]. f_equal. apply Same. now apply kapply_id.
    - (* random walk *)
      destruct (nameIndex_posOf _ _ H0) as [En Ln].
      cbn [step leafStep]. rewrite En, Html. cbn [bind index nth_error scalarOf].
      unfold index. set (a := posOf (e_names e) s) in *.
      assert (La : (a < List.length (e_lat e))%nat) by lia.
      destruct (nth_error (e_lat e) a) as [lc|] eqn:EL; [|apply nth_error_None in EL; lia].
      cbn [bind]. cbn [massAfter kernel]. cbn [sp_names sp_lat sp_shape spaceOf hd numOf].
      fold a. rewrite (nth_error_nth _ _ _ EL).
      cbn [fltb NumR f0]. cbn [fdiv NumR].
      destruct (Rlt_dec 0 (sigma / lc)) as [Hs|Hs].
      + assert (R1 : Rltb 0 (sigma / lc) = true) by now apply Rltb_true. rewrite R1. f_equal.
        rewrite gaussianFilter1d_fin; [|lia|auto|auto]. f_equal.
        unfold kapply. rewrite map_tab. apply tab_ext. intros y Hy.
        rewrite <- (Kwalk_apply (e_shape e) a (sigma / lc) y (Rnth p)) by (auto; lia).
        unfold Rdiv. rewrite Rinv_r by auto. rewrite Rmult_1_l. apply rsum_ext. intros x Hx.
        rewrite (Kwalk_sym (e_shape e)) by (auto; lia). lra.
      + assert (R1 : Rltb 0 (sigma / lc) = false) by (apply Rltb_false; lra). rewrite R1. f_equal.
        apply Same. now apply kapply_id.
    - (* change-point *)
      cbn [step leafStep index nth_error bind eqTime massAfter kernel hd numOf]. cbn [feqb NumR]. rewrite eqR_Reqb.
      destruct (eqR t1 tc); f_equal.
      + rewrite changeReset_fin. f_equal. cbn [sp_reset spaceOf]. rewrite kapply_reset, map_tab by auto.
        apply tab_ext. intros y _. field. auto.
      + apply Same. now apply kapply_id.
    - cbn [step leafStep massAfter kernel]. f_equal. rewrite Hreset. f_equal.
      cbn [sp_reset spaceOf]. rewrite kapply_reset, map_tab by auto. apply tab_ext. intros y _. field. auto.
    - (* combined *)
      clear Lin. revert p Lp Sp Same.
      induction IH as [|m ms Hm Hms IHms]; intros p Lp Sp Same; inversion H0; subst.
      + cbn. f_equal. apply Same. now apply kapply_id.
      + specialize (Hm H2 off p Lp Sp).
        cbn [step]. rewrite Hm.
        set (q := map (fun x => massAfter (e_vol e) m t1 (Rsum p) / Rsum p * x) (kapply N p (kernel sp m t1))).
        assert (Sq : Rsum q = massAfter (e_vol e) m t1 (Rsum p)).
        { unfold q. rewrite Rsum_scal, kapply_sum; auto. field; auto. now apply kernel_stoch. }
        assert (Lq : List.length q = N) by (unfold q; rewrite map_length; apply kapply_length).
        assert (NZ : Rsum q <> 0) by (rewrite Sq; apply massAfter_nz; auto; pose proof vol_pos; lra).
        cbn [step] in IHms. rewrite IHms; auto.
        2:{ intros K ->. f_equal. rewrite <- (map_id q) at 1. apply map_ext. intros x. field. auto. }
        f_equal. f_equal. cbn [massAfter map fold_left kernel fold_right]. rewrite Sq.
        change (fold_right (fun m' K => Kprod (sp_size sp) (kernel sp m' t1) K) Kid ms) with (kernel sp (TM KComb names vals prior ms) t1).
        change (fold_left (fun b f => f b) (map (fun m' => massAfter (e_vol e) m' t1) ms) (massAfter (e_vol e) m t1 (Rsum p))) with (massAfter (e_vol e) (TM KComb names vals prior ms) t1 (massAfter (e_vol e) m t1 (Rsum p))).
        unfold q. rewrite kapply_scal, map_map.
        change (sp_size sp) with N. rewrite kapply_prod. apply map_ext. intros x. field. split; auto. rewrite <- Sq. auto.
    - (* serial *)
      clear Lin Same. cbn [step]. rewrite mapM_scalar_HNum. cbn [bind]. rewrite breaksUpTo_R.
      pose proof (breaksBefore_le bs t1) as Hi.
      cbn [massAfter kernel].
      assert (Eb : map numOf (map (@HNum R) bs) = bs) by (rewrite map_map; apply map_id). rewrite Eb.
      unfold changeCheck. rewrite maskSel_changeTimes.
      change (existsb (fun b => feqb t1 b)) with (existsb (eqR t1)).
      unfold changeTimes.
      set (o := offsetOf bs (breaksBefore bs t1)).
      assert (Sub : exists q, (fix sel (ms : list (tm R)) (j : nat) {struct ms} : res (list (xnum R)) :=
             match ms, j with
             | [], _ => Err IndexError
             | m' :: _, O => step e m' o (fin p) t1 t t'
             | _ :: ms', S j' => sel ms' j'
             end) ms (breaksBefore bs t1) = Ok q /\
             q = fin (map (fun x => nth (breaksBefore bs t1) (map (fun m' => massAfter (e_vol e) m' t1) ms) (fun b => b) (Rsum p) / Rsum p * x)
                      (kapply N p (nth (breaksBefore bs t1) (map (fun m' => kernel sp m' t1) ms) Kid)))).
      { assert (Hl : (breaksBefore bs t1 < List.length ms)%nat) by lia.
        revert Hl. generalize (breaksBefore bs t1) as i. clear Hi.
        clear H1. induction IH as [|m ms Hm Hms IHms]; intros i Hl; [simpl in Hl; lia|].
        inversion H5; subst. destruct i as [|i].
        - eexists. split; [now apply Hm|]. reflexivity.
        - apply IHms; auto. simpl in Hl. lia. }
      destruct Sub as (q & -> & ->). cbn [bind].
      destruct (existsb (eqR t1) _); f_equal.
      rewrite changeReset_fin. f_equal. cbn [sp_reset spaceOf]. rewrite kapply_reset, map_tab by auto.
      apply tab_ext. intros y _. field. auto.
  Qed.

  Lemma kernel_Gen m t : rho = flatOn N -> linear (e_names e) m -> Gen (e_shape e) (kernel sp m t).
  Proof.
    intros Erho. induction m as [k names vals prior ms IH] using tm_ind'. intros Lin. inversion Lin; subst rho; subst; simpl.
    - constructor.
    - destruct (Rlt_dec _ _); [|constructor]. constructor.
      rewrite <- Hdim. now apply nameIndex_posOf.
    - destruct (eqR _ _); constructor.
    - constructor.
    - clear Lin. induction IH as [|m ms Hm Hms IHms]; simpl; [constructor|].
      inversion H0; subst. apply gen_prod; auto.
    - destruct (existsb _ _); [constructor|].
      clear Lin H1. revert H5. generalize (breaksBefore (map numOf (map HNum bs)) t).
      induction IH as [|m ms Hm Hms IHms]; intros [|i] HF; simpl; try constructor; inversion HF; subst; auto.
  Qed.
End Step.
