(** Invariant of all steps of a fit: an array holds non-negative finite numbers, or only NaN. *)
From Coq Require Import List ZArith Reals Lra Lia Arith Bool String.
From Verif Require Import Base.Num Base.Exn Base.Arr Base.RSum Base.Lift Model.Helper Model.Tm Model.Study
  Spec.Kernel Spec.Config Spec.Dist Proof.Gauss Proof.KernelProof.
Import ListNotations.
Local Open Scope R_scope.

Notation nonneg l := (Forall (fun x => 0 <= x) l).
Notation nans N := (repeat (@NaN R) N).

Definition good (N : nat) (a : list (xnum R)) : Prop := finite N a \/ a = nans N.
Lemma dist_finite N a : dist N a -> finite N a.
Proof. intros (r & A & B & C & _). now exists r. Qed.
Lemma dist_good N a : dist N a -> good N a.
Proof. intros D. left. now apply dist_finite. Qed.
Lemma good_length N a : good N a -> List.length a = N.
Proof. intros [(r & -> & <- & _)| ->]; [apply map_length|apply repeat_length]. Qed.

Lemma map2_nan_l N (b : list (xnum R)) : List.length b = N -> amul (nans N) b = nans N.
Proof. revert b; induction N; destruct b; cbn; intros E; try lia; auto. inversion E. unfold amul in IHN. now rewrite H0, IHN. Qed.
Lemma map2_nan_r N (b : list (xnum R)) : List.length b = N -> amul b (nans N) = nans N.
Proof.
  revert b; induction N; destruct b; cbn; intros E; try lia; auto. inversion E. unfold amul in IHN. rewrite H0, IHN by auto.
  destruct x; reflexivity.
Qed.
Lemma good_amul N a b : good N a -> good N b -> good N (amul a b).
Proof.
  intros Ga Gb. pose proof (good_length _ _ Ga) as La. pose proof (good_length _ _ Gb) as Lb.
  destruct Ga as [(r & -> & Lr & Pr)| ->]; [|right; now apply map2_nan_l].
  destruct Gb as [(q & -> & Lq & Pq)| ->]; [|right; now apply map2_nan_r].
  left. exists (rmul r q). rewrite amul_fin. repeat split; [|now apply nonneg_rmul]. rewrite rmul_length; lia.
Qed.
Lemma map_nans (f : xnum R -> xnum R) N : f NaN = NaN -> map f (nans N) = nans N.
Proof. intros E. induction N; cbn; auto. now rewrite E, IHN. Qed.
Lemma adivs_nan N s : adivs (nans N) s = nans N.
Proof. apply map_nans. reflexivity. Qed.
Lemma adivs_by_nan a : adivs (F := R) a NaN = nans (List.length a).
Proof. induction a as [|[] a IH]; cbn; auto; now f_equal. Qed.
Lemma asum_nans N : (0 < N)%nat -> asum (nans N) = NaN.
Proof. intros. apply asum_nan. destruct N; [lia|now left]. Qed.
Lemma Rsum_nonneg' l : nonneg l -> 0 <= Rsum l.
Proof. apply Rsum_nonneg. Qed.
Lemma zero_sum l : nonneg l -> Rsum l = 0 -> l = repeat 0 (List.length l).
Proof.
  induction 1 as [|x l Hx Hl IH]; cbn; auto. intros E. fold (Rsum l) in E. pose proof (Rsum_nonneg' _ Hl).
  assert (x = 0) by lra. assert (Rsum l = 0) by lra. subst. f_equal. auto.
Qed.
Lemma zero_div N : adivs (fin (repeat 0 N)) (Fin 0) = nans N.
Proof.
  induction N; cbn; auto. unfold adivs in IHN. rewrite IHN. rewrite Reqb_refl. reflexivity.
Qed.

Lemma normalise_cases N a : (0 < N)%nat -> good N a -> dist N (normalise a) \/ normalise a = nans N.
Proof.
  intros HN [(r & -> & Lr & Pr)| ->]; unfold normalise.
  - rewrite asum_fin. pose proof (Rsum_nonneg' r Pr). destruct (Req_dec (Rsum r) 0) as [E|E].
    + right. rewrite E, (zero_sum r) by auto. rewrite zero_div. now rewrite Lr.
    + left. exists (rnorm r). rewrite adivs_fin by auto. repeat split.
      * unfold rnorm. now rewrite rdivs_length.
      * apply nonneg_rdivs; auto. lra.
      * now apply Rsum_rnorm.
  - right. now rewrite asum_nans, adivs_nan.
Qed.
Lemma normalise_good N a : (0 < N)%nat -> good N a -> good N (normalise a).
Proof. intros HN G. destruct (normalise_cases N a HN G) as [D|E]; [now apply dist_good|now right]. Qed.

(** a positive sum means: all numbers finite; dividing by it gives a distribution *)
Lemma good_pos N a : (0 < N)%nat -> good N a -> xltb (Fin f0) (asum a) = true ->
  exists r, a = fin r /\ List.length r = N /\ nonneg r /\ 0 < Rsum r /\ asum a = Fin (Rsum r).
Proof.
  intros HN [(r & -> & Lr & Pr)| ->] E.
  - rewrite asum_fin in E. apply xltb_fin in E. exists r. rewrite asum_fin. auto.
  - rewrite asum_nans in E by auto. discriminate.
Qed.
Lemma good_pos_dist N a : (0 < N)%nat -> good N a -> xltb (Fin f0) (asum a) = true -> dist N (adivs a (asum a)).
Proof.
  intros HN G E. destruct (good_pos N a HN G E) as (r & -> & Lr & Pr & Sr & ->).
  exists (rnorm r). rewrite adivs_fin by lra. repeat split.
  - unfold rnorm. now rewrite rdivs_length.
  - apply nonneg_rdivs; auto.
  - apply Rsum_rnorm; lra.
Qed.

Lemma good_adivs N a s : good N a -> 0 < s -> good N (adivs a (Fin s)).
Proof.
  intros [(r & -> & Lr & Pr)| ->] Hs.
  - left. exists (rdivs r s). rewrite adivs_fin by lra. repeat split; [now rewrite rdivs_length|now apply nonneg_rdivs].
  - right. apply adivs_nan.
Qed.
Lemma good_amuls N a s : good N a -> 0 <= s -> good N (amuls a (Fin s)).
Proof.
  intros [(r & -> & Lr & Pr)| ->] Hs.
  - left. exists (map (fun x => x * s) r). rewrite amuls_fin. repeat split; [now rewrite map_length|].
    apply Forall_map. eapply Forall_impl; [|exact Pr]. cbn. intros x Hx. now apply Rmult_le_pos.
  - right. apply map_nans. reflexivity.
Qed.
Lemma good_aones N : good N (aones N).
Proof. left. exists (rones N). rewrite aones_fin. repeat split; [apply rones_length|apply nonneg_rones]. Qed.

(** ** floors *)
Definition rfloor (l : R) (r : list R) : list R := map (fun x => if Rltb x l then l else x) r.
Lemma afloor_fin l r : afloor (Fin l) (fin r) = fin (rfloor l r).
Proof.
  unfold afloor, rfloor. rewrite !map_map. apply map_ext. intros x. cbn. destruct (Rltb x l); reflexivity.
Qed.
Lemma rfloor_length l r : List.length (rfloor l r) = List.length r.
Proof. apply map_length. Qed.
Lemma rfloor_ge l x : x <= (if Rltb x l then l else x).
Proof. destruct (Rltb x l) eqn:E; [apply Rltb_true in E; lra|lra]. Qed.
Lemma rfloor_ge_l l x : l <= (if Rltb x l then l else x).
Proof. destruct (Rltb x l) eqn:E; [lra|apply Rltb_false in E; lra]. Qed.
Lemma rfloor_nonneg l r : nonneg r -> nonneg (rfloor l r).
Proof.
  intros P. apply Forall_map. eapply Forall_impl; [|exact P]. intros x Hx. pose proof (rfloor_ge l x). lra.
Qed.
Lemma good_afloor N l a : good N a -> good N (afloor (Fin l) a).
Proof.
  intros [(r & -> & Lr & Pr)| ->].
  - left. exists (rfloor l r). rewrite afloor_fin. repeat split; [now rewrite rfloor_length|now apply rfloor_nonneg].
  - right. apply map_nans. reflexivity.
Qed.

(** ** maximum *)
Lemma amax_fin x r : exists c, amax (fin (x :: r)) = Fin c /\ In c (x :: r) /\ Forall (fun y => y <= c) (x :: r).
Proof.
  assert (G : forall r x, exists c, fold_left xmax2 (fin r) (Fin x) = Fin c /\ In c (x :: r) /\ Forall (fun y => y <= c) (x :: r)).
  { clear. induction r as [|y r IH]; intros x.
    - exists x. repeat split; [now left|]. constructor; [lra|constructor].
    - cbn [map fold_left xmax2 xltb xless fltb NumR]. destruct (Rltb x y) eqn:E.
      + destruct (IH y) as (c & Ec & Ic & Fc). exists c. split; [exact Ec|]. split; [now right|].
        constructor; [|exact Fc]. apply Rltb_true in E. inversion Fc; subst. lra.
      + destruct (IH x) as (c & Ec & Ic & Fc). exists c. split; [exact Ec|]. split.
        * destruct Ic as [->|Ic]; [now left|right; now right].
        * apply Rltb_false in E. inversion Fc; subst. constructor; [lra|]. constructor; [lra|auto]. }
  exact (G r x).
Qed.
Lemma amax_nans N : amax (nans N) = NaN.
Proof. destruct N; [reflexivity|]. cbn. induction N; cbn; auto. Qed.

Lemma good_maxminus N a : (0 < N)%nat -> good N a -> good N (map (fun x => xsub (amax a) x) a).
Proof.
  intros HN [(r & -> & Lr & Pr)| ->].
  - left. destruct r as [|x r]; [cbn in Lr; lia|]. destruct (amax_fin x r) as (c & Ec & _ & Fc). rewrite Ec.
    exists (map (fun y => c - y) (x :: r)). rewrite !map_map. repeat split; [now rewrite map_length|].
    apply Forall_map. eapply Forall_impl; [|exact Fc]. cbn. intros. lra.
  - right. apply map_nans. now rewrite amax_nans.
Qed.

(** ** random walk *)
Lemma gauss_nans shape a sd N : (a < List.length shape)%nat -> natprod shape = N ->
  gaussianFilter1d shape a sd (nans N) = nans N.
Proof.
  intros Ha HN. unfold gaussianFilter1d.
  assert (G : forall pre n post r w, filterAxis pre n post r w (nans N) = nans (pre * (n * post))).
  { intros pre n post r w. unfold filterAxis.
    assert (C : forall {A} (f : A -> list (xnum R)) k l, (forall x, f x = nans k) -> flat_map f l = nans (List.length l * k)).
    { intros A f k l Hf. induction l as [|x l IH]; cbn; auto. rewrite Hf, IH. now rewrite <- repeat_app. }
    rewrite (C _ _ (n * post)%nat); [now rewrite seq_length|]. intros p.
    rewrite (C _ _ post); [now rewrite seq_length|]. intros i.
    transitivity (map (fun _ : nat => @NaN R) (seq 0 post)).
    - apply map_ext. intros q. apply asum_nan. apply in_map_iff.
      exists (Z.of_nat 0 - Z.of_nat r)%Z. split.
      + rewrite nth_repeat. reflexivity.
      + unfold zrange. apply in_map_iff. exists O. split; [reflexivity|]. apply in_seq. lia.
    - rewrite <- (seq_length post 0) at 2. generalize (seq 0 post). induction l; cbn; auto. now rewrite IHl. }
  rewrite G. f_equal. rewrite <- HN. symmetry. now apply natprod_split.
Qed.
Lemma gauss_good shape a sd N p : (a < List.length shape)%nat -> natprod shape = N -> 0 < sd -> good N p ->
  good N (gaussianFilter1d shape a sd p).
Proof.
  intros Ha HN Hs [(r & -> & Lr & Pr)| ->].
  - left. rewrite gaussianFilter1d_fin by (auto; lia). eexists. split; [reflexivity|]. rewrite tab_length. split; [auto|].
    apply Forall_tab. intros y Hy. unfold zsum. apply Rsum_nonneg. apply Forall_map, Forall_forall. intros k _.
    apply Rmult_le_pos; [left; apply gProb_pos|now apply Rnth_nonneg].
  - right. now apply gauss_nans.
Qed.

(** ** models whose leaves are known to keep the invariant; the others have to satisfy [ok] *)
Fixpoint basicIn (ok : kind R -> list (hval R) -> Prop) (m : tm R) : Prop :=
  match m with
  | TM k _ vals _ ms =>
      match k with
      | KStatic | KGRW _ | KChange | KIndep | KRegime | KNotEq => True
      | KComb | KSerial _ => (fix all (l : list (tm R)) : Prop := match l with [] => True | m' :: l' => basicIn ok m' /\ all l' end) ms
      | KAlpha _ | KDet _ _ | KBiv => ok k vals
      | KBreak _ _ => False
      end
  end.
(** models without interpolation or FFT convolution *)
Definition basic : tm R -> Prop := basicIn (fun _ _ => False).
Lemma basic_sub ok k hn hv p ms : basicIn ok (TM k hn hv p ms) -> (k = KComb \/ exists mask, k = KSerial mask) -> Forall (basicIn ok) ms.
Proof.
  intros B Hk. assert (G : (fix all (l : list (tm R)) : Prop := match l with [] => True | m' :: l' => basicIn ok m' /\ all l' end) ms).
  { destruct Hk as [->|[mask ->]]; exact B. }
  clear B. induction ms as [|m ms IH]; constructor; destruct G; auto.
Qed.

Definition keeps (ok : kind R -> list (hval R) -> Prop) (e : env R) : Prop := forall k vals off p t1 t t' q,
  ok k vals -> good (e_size e) p -> leafStep e k vals off p t1 t t' = Ok q -> good (e_size e) q.
Lemma keeps_none e : keeps (fun _ _ => False) e.
Proof. intros k vals off p t1 t t' q F. destruct F. Qed.

Section Step.
  Variable e : env R.
  Notation N := (e_size e).
  Variable ok : kind R -> list (hval R) -> Prop.
  Hypothesis Hok : keeps ok e.
  Hypothesis HN : (0 < N)%nat.
  Hypothesis Hdim : (List.length (e_names e) <= List.length (e_shape e))%nat.
  Hypothesis Hlat : Forall (fun l => 0 < l) (e_tmlat e).
  Hypothesis Hvol : 0 <= e_vol e.
  Hypothesis Hreset : good N (resetPrior e).

  Lemma changeReset_good : good N (changeReset e).
  Proof. apply good_amuls; auto. Qed.
  Lemma nameIndex_lt l s i : nameIndex l s = Ok i -> (i < List.length l)%nat.
  Proof.
    revert i; induction l as [|a l IH]; cbn; [discriminate|]. intros i. destruct (String.eqb a s).
    - intros E; inversion E; lia.
    - destruct (nameIndex l s); cbn; [|discriminate]. intros E; inversion E. specialize (IH _ eq_refl). lia.
  Qed.
  Lemma regime_good l p : good N p -> good N (regimeStep l p).
  Proof. intros G. apply (normalise_good N (afloor (Fin l) p)); auto. now apply good_afloor. Qed.
  Lemma notEq_good l p : good N p -> good N (notEqStep l p).
  Proof.
    intros G. unfold notEqStep.
    apply (normalise_good N (afloor (Fin l) (normalise (map (fun x => xsub (amax p) x) p)))); auto.
    apply good_afloor, normalise_good; auto. now apply good_maxminus.
  Qed.
  Lemma leaf_good k vals off p t1 t t' q : basicIn ok (TM k [] vals None []) -> good N p ->
    leafStep e k vals off p t1 t t' = Ok q -> good N q.
  Proof.
    intros B G E. destruct k; cbn [basicIn] in B; try contradiction; try (now apply (Hok _ vals off p t1 t t' q B G E)); cbn [leafStep] in E.
    - now inversion E; subst.
    - destruct (nameIndex _ _) as [ax|] eqn:EA; [|discriminate]. cbn [bind] in E.
      destruct (index vals 0) as [v|]; [|discriminate]. cbn [bind] in E.
      destruct (scalarOf v) as [sg|]; [|discriminate]. cbn [bind] in E.
      destruct (index (e_tmlat e) ax) as [lc|] eqn:EL; [|discriminate]. cbn [bind] in E.
      cbn [fltb NumR fdiv f0] in E. destruct (Rltb 0 (sg / lc)) eqn:EB; inversion E; subst; auto.
      apply Rltb_true in EB. apply gauss_good; auto. apply nameIndex_lt in EA. lia.
    - destruct (index vals 0) as [v|]; [|discriminate]. cbn [bind] in E.
      destruct (eqTime t1 v) as [[]|]; [| |discriminate]; inversion E; subst; auto. apply changeReset_good.
    - inversion E; subst. apply Hreset.
    - destruct (index vals 0) as [v|]; [|discriminate]. cbn [bind] in E.
      destruct (scalarOf v) as [sg|]; [|discriminate]. cbn [bind] in E. inversion E; subst. now apply regime_good.
    - destruct (index vals 0) as [v|]; [|discriminate]. cbn [bind] in E.
      destruct (scalarOf v) as [sg|]; [|discriminate]. cbn [bind] in E. inversion E; subst. now apply notEq_good.
    - now inversion E; subst.
    - now inversion E; subst.
  Qed.

  Lemma step_good m t1 t t' : basicIn ok m -> forall off p q, good N p -> step e m off p t1 t t' = Ok q -> good N q.
  Proof.
    induction m as [k names vals prior ms IH] using tm_ind'. intros B off p q G E.
    assert (Leaf : basicIn ok (TM k [] vals None []) -> leafStep e k vals off p t1 t t' = Ok q -> good N q).
    { intros B'. now apply leaf_good. }
    destruct k; try (cbn [basicIn] in B; contradiction); try (apply Leaf; [exact I|exact E]); try (apply Leaf; [exact B|exact E]).
    - (* combined *)
      apply basic_sub in B; auto. cbn [step] in E. clear Leaf. revert p G E.
      induction IH as [|m ms Hm Hms IHms]; intros p G E; inversion B; subst.
      + now inversion E; subst.
      + destruct (step e m off p t1 t t') as [p'|] eqn:E1; [|discriminate].
        apply (IHms H2 p'); auto. now apply (Hm H1 off p).
    - (* serial *)
      apply basic_sub in B; [|right; eauto]. cbn [step] in E. clear Leaf.
      destruct (mapM scalarOf vals) as [bs|]; [|discriminate]. cbn [bind] in E.
      set (i := breaksUpTo bs t1) in E. unfold changeCheck in E. set (o' := offsetOf bs i) in E. clearbody o'. clearbody i. revert i E.
      induction IH as [|m ms Hm Hms IHms]; intros i E.
      + destruct i; discriminate.
      + inversion B; subst. destruct i.
        * destruct (step e m o' p t1 t t') as [q'|] eqn:E1; [|discriminate]. cbn [bind] in E.
          destruct (existsb _ _); inversion E; subst; [apply changeReset_good|]. now apply (Hm H1 o' p).
        * apply (IHms H2 i). exact E.
  Qed.
End Step.

(** ** runnable models *)
Lemma runnable_ind' (names : list string) (P : tm R -> Prop) :
  (forall hn p, P (TM KStatic hn [] p [])) ->
  (forall hn p s sigma, In s names -> P (TM (KGRW s) hn [HNum sigma] p [])) ->
  (forall hn p tc, P (TM KChange hn [HNum tc] p [])) ->
  (forall hn p, P (TM KIndep hn [] p [])) ->
  (forall hn p x, P (TM KRegime hn [HNum x] p [])) ->
  (forall hn p x, P (TM KNotEq hn [HNum x] p [])) ->
  (forall hn hv p ms, Forall (runnable names) ms -> Forall P ms -> P (TM KComb hn hv p ms)) ->
  (forall hn p mask bs ms, List.length ms = S (List.length bs) -> Forall (runnable names) ms -> Forall P ms ->
     P (TM (KSerial mask) hn (map HNum bs) p ms)) ->
  forall m, runnable names m -> P m.
Proof.
  intros H1 H2 H3 H4 H5 H6 H7 H8. induction m as [k hn hv p ms IH] using tm_ind'. intros Run.
  assert (G : Forall (runnable names) ms -> Forall P ms).
  { clear Run. induction IH as [|m ms Hm Hms IHms]; intros F; [constructor|]. inversion F; subst. constructor; auto. }
  inversion Run; subst; auto.
Qed.
Lemma runnable_basic names m : runnable names m -> basic m.
Proof.
  unfold basic. revert m. apply runnable_ind'; cbn; auto.
  - intros hn hv p ms _ F. induction F; auto.
  - intros hn p mask bs ms _ _ F. induction F; auto.
Qed.
Lemma linear_runnable names m : linear names m -> runnable names m.
Proof.
  induction m as [k hn hv p ms IH] using tm_ind'. intros Lin.
  assert (G : Forall (linear names) ms -> Forall (runnable names) ms).
  { clear Lin. induction IH as [|m ms Hm Hms IHms]; intros F; [constructor|]. inversion F; subst. constructor; auto. }
  inversion Lin; subst; constructor; auto.
Qed.
Lemma mapM_scalar bs : mapM scalarOf (map (@HNum R) bs) = Ok bs.
Proof. induction bs as [|b bs IH]; cbn; auto. now rewrite IH. Qed.
Lemma breaksUpTo_le (bs : list R) t : (breaksUpTo bs t <= List.length bs)%nat.
Proof. unfold breaksUpTo. induction bs; cbn; auto. destruct (fleb a t); cbn; lia. Qed.

Lemma step_total (e : env R) t1 t t' m : runnable (e_names e) m ->
  (List.length (e_names e) <= List.length (e_tmlat e))%nat ->
  forall off p, exists q, step e m off p t1 t t' = Ok q.
Proof.
  intros Run Hl. revert m Run. apply (runnable_ind' (e_names e) (fun m => forall off p, exists q, step e m off p t1 t t' = Ok q)); intros; try (eexists; reflexivity).
  - cbn [step leafStep]. destruct (nameIndex_posOf _ _ H) as [-> Ln]. cbn [bind index nth_error scalarOf].
    unfold index. destruct (nth_error (e_tmlat e) _) eqn:E; [|apply nth_error_None in E; lia]. cbn [bind].
    destruct (fltb _ _); eexists; reflexivity.
  - cbn [step]. revert p0. induction H0 as [|m ms Hm Hms IH]; intros q; [eauto|]. inversion H; subst.
    destruct (Hm off q) as [q' ->]. now apply IH.
  - cbn [step]. rewrite mapM_scalar. cbn [bind]. pose proof (breaksUpTo_le bs t1) as Hb.
    assert (Hi : (breaksUpTo bs t1 < List.length ms)%nat) by lia. clear Hb H.
    generalize dependent (offsetOf bs (breaksUpTo bs t1)). revert Hi. generalize (breaksUpTo bs t1) as i.
    induction H1 as [|m ms Hm Hms IH]; intros i Hi off'; [cbn in Hi; lia|]. inversion H0; subst.
    destruct i.
    + destruct (Hm off' p0) as [q ->]. cbn. eauto.
    + apply IH; auto. cbn in Hi. lia.
Qed.
