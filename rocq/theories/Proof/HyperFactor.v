(** Constant factors of the likelihood in hyper-studies *)
From Coq Require Import List ZArith Reals Lra Lia Arith Bool String.
From Verif Require Import Base.Num Base.Exn Base.Arr Base.RSum Base.Lift Model.Helper Model.Tm Model.HyperParams Model.Study Model.Getters Model.Hyper
  Spec.Kernel Spec.Config Spec.Names Spec.Dist Spec.HyperSpec Spec.Factors Proof.KernelProof Proof.FitThms Proof.DataProof Proof.PriorProof Proof.TransProof Proof.NamesProof Proof.LogProof Proof.SplitProof
  Proof.HyperProof Proof.HyperFit Proof.UnitsProof Proof.FactorProof.
Import ListNotations.
Local Open Scope R_scope.

Definition sh (s : R) (x : xnum R) : xnum R := xladd (F := R) x (Fin s).

Lemma sh_ltb s a b : xlltb (F := R) (sh s a) (sh s b) = xlltb (F := R) a b.
Proof.
  destruct a as [a| | |], b as [b| | |]; try reflexivity. cbn. unfold Rltb. destruct (Rlt_dec (a + s) (b + s)), (Rlt_dec a b); auto; lra.
Qed.
Lemma sh_max2 s a b : xlmax2 (F := R) (sh s a) (sh s b) = sh s (xlmax2 (F := R) a b).
Proof.
  pose proof (sh_ltb s a b) as E. destruct a as [a| | |], b as [b| | |]; try reflexivity. change (sh s (Fin a)) with (Fin (a + s)) in *. change (sh s (Fin b)) with (Fin (b + s)) in *.
  unfold xlmax2. rewrite E. destruct (xlltb (Fin a) (Fin b)); reflexivity.
Qed.
Lemma sh_lamax s l : lamax (F := R) (map (sh s) l) = sh s (lamax (F := R) l).
Proof.
  destruct l as [|x l]; [reflexivity|]. cbn [map lamax]. revert x. induction l as [|y l IH]; intros x; [reflexivity|]. cbn [map fold_left]. rewrite sh_max2. apply IH.
Qed.
Lemma sh_sub s a b : xlsub (F := R) (sh s a) (sh s b) = xlsub (F := R) a b.
Proof. destruct a as [a| | |], b as [b| | |]; try reflexivity. cbn. f_equal. ring. Qed.
Lemma sh_dist s l cs : hyperDistribution (F := R) (L := R) (map (sh s) l) cs = hyperDistribution (F := R) (L := R) l cs.
Proof. unfold hyperDistribution. rewrite sh_lamax, map_map. rewrite (map_ext _ _ (fun x => f_equal (xexp (F := R) (L := R)) (sh_sub s x (lamax (F := R) l)))). reflexivity. Qed.
Lemma sh_weights s evs pv cs : logWeights (F := R) (L := R) (map (sh s) evs) pv cs = map (sh s) (logWeights (F := R) (L := R) evs pv cs).
Proof.
  unfold logWeights. generalize (lsum (map (fun x => xln (F := R) (L := R) (Fin x)) cs)) as c. intros c. revert pv. induction evs as [|x evs IH]; intros [|p pv]; try reflexivity.
  cbn [map map2]. rewrite IH. f_equal. generalize (xln (F := R) (L := R) p) as y. intros y. destruct x as [x| | |], y as [y| | |], c as [c| | |]; try reflexivity. cbn. f_equal. ring.
Qed.
Lemma sh_exp s x : xexp (F := R) (L := R) (sh s x) = sc (exp s) (xexp (F := R) (L := R) x).
Proof.
  pose proof (exp_pos s) as P. destruct x as [x| | |]; cbn; try reflexivity.
  - f_equal. rewrite exp_plus. ring.
  - replace (Reqb (exp s) 0) with false by (symmetry; apply Reqb_false; lra). replace (Rltb (exp s) 0) with false by (symmetry; apply Rltb_false; lra). reflexivity.
  - f_equal. ring.
Qed.
Lemma sh_ln k (a : xnum R) : 0 < k -> xln (F := R) (L := R) (sc k a) = sh (ln k) (xln (F := R) (L := R) a).
Proof.
  intros Hk. destruct a as [a| | |]; cbn.
  - replace (Rltb 0 (k * a)) with (Rltb 0 a). 2:{ unfold Rltb. destruct (Rlt_dec 0 a), (Rlt_dec 0 (k * a)); auto; nra. }
    destruct (Rltb 0 a) eqn:E; [apply Rltb_true in E; cbn; f_equal; rewrite ln_mult by auto; ring|].
    replace (Reqb (k * a) 0) with (Reqb a 0). 2:{ unfold Reqb. destruct (Req_EM_T a 0) as [E1|E1], (Req_EM_T (k * a) 0) as [E0|E0]; auto; [exfalso; apply E0; rewrite E1; ring|apply Rmult_integral in E0; lra]. }
    destruct (Reqb a 0); reflexivity.
  - replace (Reqb k 0) with false by (symmetry; apply Reqb_false; lra). replace (Rltb k 0) with false by (symmetry; apply Rltb_false; lra). reflexivity.
  - replace (Reqb k 0) with false by (symmetry; apply Reqb_false; lra). replace (Rltb 0 k) with true by (symmetry; apply Rltb_true; lra). reflexivity.
  - reflexivity.
Qed.
Lemma sh_logsumexp s l : xlogsumexp (F := R) (map (sh s) l) = sh s (xlogsumexp (F := R) l).
Proof.
  unfold xlogsumexp. rewrite map_map, (map_ext _ _ (sh_exp s)). rewrite <- (map_map (xexp (F := R) (L := R)) (fun x => sc (exp s) x)).
  rewrite sc_sum by apply exp_pos. rewrite sh_ln by apply exp_pos. now rewrite ln_exp.
Qed.
Lemma sh_average s avg : averagePosterior (F := R) (L := R) (map (map (sh s)) avg) = averagePosterior (F := R) (L := R) avg.
Proof.
  unfold averagePosterior. rewrite <- concat_map, sh_lamax, map_map. apply map_ext. intros a. rewrite map_map.
  now rewrite (map_ext _ _ (fun x => f_equal (xexp (F := R) (L := R)) (sh_sub s x (lamax (F := R) (List.concat avg))))).
Qed.
Lemma sh_lgm s n N V : (forall j x, 0 <= V j x) -> lgm n N (fun j x => exp s * V j x) = map (map (sh s)) (lgm n N V).
Proof.
  intros HV. unfold lgm. rewrite map_tab. apply tab_ext. intros j _. rewrite map_tab. apply tab_ext. intros x _.
  rewrite Rmult_comm, <- lg_add by (auto; left; apply exp_pos). rewrite (lg_pos (exp s)), ln_exp by apply exp_pos. reflexivity.
Qed.

(** ** two runs *)
Definition followedBy (cs : list R) (A B : study R R) : Prop :=
  st_post B = st_post A /\ st_logEv B = sh (Rsum (map ln cs)) (st_logEv A) /\
  st_local B = map2 (fun c x => option_map (fun y => sc c y) x) cs (st_local A) /\ List.length (st_local A) = List.length cs.
Lemma follow_evidence cs A B : followedBy cs A B -> evidenceOf B = exp (Rsum (map ln cs)) * evidenceOf A.
Proof. intros (_ & E & _). unfold evidenceOf. rewrite E. destruct (st_logEv A) as [v| | |]; cbn; try ring. rewrite exp_plus. ring. Qed.
Lemma follow_mixed cs runs runs' pv : Forall2 (followedBy cs) runs runs' -> forall j x,
  mixed (combine runs' pv) j x = exp (Rsum (map ln cs)) * mixed (combine runs pv) j x.
Proof.
  intros HF j x. unfold mixed. revert pv. induction HF as [|A B l l' Hab _ IH]; intros pv; [cbn; ring|]. destruct pv as [|p pv]; [cbn; ring|].
  cbn [combine map fst snd]. change (Rsum (?a :: ?r)) with (a + Rsum r). rewrite IH. unfold term. rewrite (follow_evidence _ _ _ Hab). destruct Hab as (E & _). unfold postAt. rewrite E. ring.
Qed.
Lemma follow_evs cs runs runs' : Forall2 (followedBy cs) runs runs' -> map st_logEv runs' = map (sh (Rsum (map ln cs))) (map st_logEv runs).
Proof. induction 1 as [|A B l l' (_ & E & _) _ IH]; [reflexivity|]. cbn [map]. now rewrite IH, E. Qed.
Lemma follow_proper cs eo n N A B : followedBy cs A B -> proper eo n N A -> proper eo n N B.
Proof.
  intros (E1 & E2 & _) [P|[(v & P) Q]]; unfold proper; rewrite E1, E2, P; [left; reflexivity|right]. split; [eexists; reflexivity|exact Q].
Qed.
Lemma allSome_sc {A B} (f : A -> B) (l : list (option A)) : allSome (map (option_map f) l) = option_map (map f) (allSome l).
Proof. induction l as [|[x|] l IH]; [reflexivity| |reflexivity]. cbn [map allSome option_map]. rewrite IH. destruct (allSome l); reflexivity. Qed.
Lemma follow_local cs runs runs' (pv : list (xnum R)) n : Forall2 (followedBy cs) runs runs' -> Forall (fun c => 0 < c) cs -> List.length cs = n ->
  localSum (map st_local runs') pv n = map2 (fun c x => option_map (fun y => sc c y) x) cs (localSum (map st_local runs) pv n).
Proof.
  intros HF Hc Hn. unfold localSum. rewrite <- Hn. clear Hn.
  assert (G : forall j, (j < List.length cs)%nat -> map (fun l => nth j l None) (map st_local runs') = map (option_map (fun y => sc (nth j cs 1) y)) (map (fun l => nth j l None) (map st_local runs))).
  { intros j Hj. induction HF as [|A B l l' (_ & _ & E & L) _ IH]; [reflexivity|]. cbn [map]. rewrite IH, E. f_equal. clear - Hj L. revert cs j Hj L. induction (st_local A) as [|x loc IH]; intros cs j Hj L; [destruct cs; cbn in *; lia|].
    destruct cs as [|c cs]; [discriminate|]. destruct j as [|j]; [reflexivity|]. cbn in *. apply IH; lia. }
  assert (M : forall k (f g : nat -> option (xnum R)), (forall j, (j < List.length cs)%nat -> f (j + k)%nat = option_map (fun y => sc (nth j cs 1) y) (g (j + k)%nat)) ->
    map f (seq k (List.length cs)) = map2 (fun c x => option_map (fun y => sc c y) x) cs (map g (seq k (List.length cs)))).
  { clear. induction cs as [|c cs IH]; intros k f g E; [reflexivity|]. cbn [List.length seq map map2]. f_equal; [apply (E 0%nat); cbn; lia|]. apply IH. intros j Hj. specialize (E (Datatypes.S j)). cbn in E. rewrite <- plus_n_Sm in *. apply E. lia. }
  apply (M 0%nat). intros j Hj. rewrite Nat.add_0_r. cbv beta. rewrite (G j Hj), allSome_sc. destruct (allSome (map (fun l => nth j l None) (map st_local runs))) as [xs|]; [|reflexivity]. cbn [option_map]. f_equal.
  assert (Pc : 0 < nth j cs 1) by (apply (Forall_forall (fun c => 0 < c) cs); auto; now apply nth_In). rewrite sc_amul, sc_sum by auto. reflexivity.
Qed.
Lemma noRegime_assign f m : noRegime m -> noRegime (assign f m).
Proof.
  induction m as [k hn vals p ms IH] using tm_ind'. intros H.
  assert (G : Forall noRegime ms -> Forall noRegime (map (assign f) ms)).
  { clear H. induction IH as [|x ms Hx _ IHm]; intros F; [constructor|]. inversion F; subst. constructor; auto. }
  cbn [assign]. inversion H; subst; [apply nr_leaf; auto|apply nr_comb; auto|apply nr_serial; auto].
Qed.
