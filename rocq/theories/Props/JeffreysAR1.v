(** The prior of jeffreys.py for autoregressive processes: C65. *)
From Coq Require Import List ZArith Reals Lra Lia Arith Bool String.
From Verif Require Import Base.Num Base.Exn Base.Arr Base.RSum Base.Lift Model.Helper Model.Tm Model.HyperParams Model.Study Model.Api Model.ObsModels Model.JeffreysAR1
  Spec.Kernel Spec.Hmm Spec.Config Spec.Dist Spec.Data Spec.Marginal Spec.ObsSpec Spec.Fisher Spec.ArSpec Proof.Gauss Proof.FitThms Proof.FitInv Proof.SetupProof Proof.GridProof Proof.MarginalProof Proof.DataProof Proof.InferProof Proof.PriorProof Proof.OnlineProof Proof.FisherProof Proof.ArProof
  Props.Ex Props.Setup Props.Inference Props.Batch Props.Parameters Props.Prior Props.Observation.
Import ListNotations.
Local Open Scope string_scope.
Local Open Scope R_scope.

(** the observation model and its name *)
Inductive autoregressive : om R -> modelName -> Prop :=
| is_ar1 p1 v1 p2 v2 pr : autoregressive (ar1 p1 v1 p2 v2 pr) NameAR1
| is_scaled p1 v1 p2 v2 pr : autoregressive (scaledAr1 p1 v1 p2 v2 pr) NameScaledAR1.
(** standard deviation of the noise at grid point x *)
Definition noiseAt (name : modelName) (vs : list (list R)) (x : nat) : R :=
  match name with NameScaledAR1 => parAt vs 1 x * sqrt (1 - parAt vs 0 x ^ 2) | _ => parAt vs 1 x end.
(** stationary processes *)
Definition stationary (vs : list (list R)) : Prop := Forall (fun r => Rabs r < 1) (nth 0 vs []) /\ Forall (fun s => 0 < s) (nth 1 vs []).

Lemma sq_lt_1 r : Rabs r < 1 -> r ^ 2 < 1.
Proof. intros H. apply Rabs_def2 in H. nra. Qed.
Definition uhligR (d0 : R) (n : nat) (r s : R) : R := 1 / s ^ 2 * exp (- d0 ^ 2 * (1 - r ^ 2) / (2 * s ^ 2)) * sqrt (arShape n r).
Lemma uhlig_fin d0 n r s : r ^ 2 < 1 -> 0 < s -> uhlig (Fin d0) n r (Fin s) = Fin (uhligR d0 n r s).
Proof.
  intros Hr Hs. pose proof (arShape_pos n r Hr) as Hq. assert (0 < s * s) by nra. assert (r * r < 1) by nra. unfold uhlig, uhligR, xsq, xneg.
  assert (M : forall a b : R, xmul (Fin a) (Fin b) = Fin (a * b)) by reflexivity. assert (Mi : forall a b : R, xsub (Fin a) (Fin b) = Fin (a - b)) by reflexivity.
  assert (P : forall a b : R, xadd (Fin a) (Fin b) = Fin (a + b)) by reflexivity. change f0 with 0. rewrite !M, !Mi, !M, !xdiv_fin, !P by lra.
  change (xexpo (Fin ?a)) with (Fin (exp a)). replace (4 * (r * r) / (1 - r * r) + 2 * (INR n + 1)) with (arShape n r) by (unfold arShape; field; lra).
  unfold xsqrt. rewrite (proj2 (Rltb_false _ 0)) by lra. rewrite !M. f_equal. f_equal. f_equal; [field; lra|]. f_equal. field. lra.
Qed.
Lemma uhligR_pos d0 n r s : r ^ 2 < 1 -> 0 < s -> 0 < uhligR d0 n r s.
Proof.
  intros Hr Hs. unfold uhligR. apply Rmult_lt_0_compat; [apply Rmult_lt_0_compat; [|apply exp_pos]|apply sqrt_lt_R0, arShape_pos; auto]. apply Rdiv_lt_0_compat; [lra|now apply pow_lt].
Qed.
(** the formula is the Jeffreys prior of n+1 observations times the density of one observation *)
Lemma uhlig_jeffreys d0 n r s : r ^ 2 < 1 -> 0 < s ->
  sqrt (INR n) * (1 / (s * sqrt (1 - r ^ 2)) * sqrt (arShape n r)) * firstDensity r s d0 = sqrt (INR n) / sqrt (2 * PI) * uhligR d0 n r s.
Proof.
  intros Hr Hs. set (w := sqrt (1 - r ^ 2)). assert (Hw : 0 < w) by (apply sqrt_lt_R0; lra). assert (W2 : w ^ 2 = 1 - r ^ 2) by (unfold w; apply pow2_sqrt; lra).
  unfold firstDensity, uhligR. fold w. rewrite normalDensity_z by now apply Rdiv_lt_0_compat. rewrite <- W2. pose proof PI_RGT_0. assert (0 < sqrt (2 * PI)) by (apply sqrt_lt_R0; lra).
  replace (- ((d0 - 0) / (s / w)) ^ 2 / 2) with (- d0 ^ 2 * w ^ 2 / (2 * s ^ 2)) by (field; lra). set (E := exp _). set (q := sqrt (arShape n r)). set (c := sqrt (INR n)). field. lra.
Qed.
Lemma normalised_scal N g h c x : 0 < c -> (forall y, (y < N)%nat -> h y = c * g y) -> 0 < rsum N g -> (x < N)%nat -> normalised N h x = normalised N g x.
Proof.
  intros Hc E Hp Hx. unfold normalised. rewrite (E x Hx). replace (rsum N h) with (c * rsum N g); [field; lra|]. rewrite <- rsum_scal. apply rsum_ext. intros y Hy. symmetry. now apply E.
Qed.

Section Grid.
  Variables (vs : list (list R)) (name : modelName).
  Hypotheses (L2 : List.length vs = 2%nat) (St : stationary vs) (Hn : name <> NameOther).
  Lemma r_in x : (x < gridPoints vs)%nat -> Rabs (parAt vs 0 x) < 1.
  Proof. intros Hx. destruct St as [H _]. rewrite Forall_forall in H. apply H, parAt_In; auto. lia. Qed.
  Lemma s_in x : (x < gridPoints vs)%nat -> 0 < parAt vs 1 x.
  Proof. intros Hx. destruct St as [_ H]. rewrite Forall_forall in H. apply H, parAt_In; auto. lia. Qed.
  Lemma noise_pos x : (x < gridPoints vs)%nat -> 0 < noiseAt name vs x.
  Proof.
    intros Hx. pose proof (s_in x Hx). pose proof (sq_lt_1 _ (r_in x Hx)). unfold noiseAt. destruct name; auto. apply Rmult_lt_0_compat; [auto|apply sqrt_lt_R0; lra].
  Qed.
  Lemma mesh2 : meshgrid vs = [tab (gridPoints vs) (parAt vs 0); tab (gridPoints vs) (parAt vs 1)].
  Proof.
    assert (Lm : List.length (meshgrid vs) = 2%nat) by (unfold meshgrid; now rewrite map_length, seq_length).
    pose proof (gridOf_tab vs 0 ltac:(lia)) as G0. pose proof (gridOf_tab vs 1 ltac:(lia)) as G1. unfold gridOf in *. destruct (meshgrid vs) as [|a [|b [|c l]]]; try discriminate. cbn in G0, G1. now rewrite G0, G1.
  Qed.
  Lemma sd_tab : (if match name with NameScaledAR1 => true | _ => false end then map2 innovation (tab (gridPoints vs) (parAt vs 0)) (tab (gridPoints vs) (parAt vs 1)) else map (@Fin R) (tab (gridPoints vs) (parAt vs 1)))
    = tab (gridPoints vs) (fun x => Fin (noiseAt name vs x)).
  Proof.
    destruct name; [now rewrite map_tab| |easy]. rewrite map2_tab. apply tab_ext. intros x Hx. pose proof (sq_lt_1 _ (r_in x Hx)) as Hr. set (r := parAt vs 0 x) in *.
    unfold innovation, xsq, noiseAt. fold r. change (xsub (Fin 1) (xmul (Fin r) (Fin r))) with (Fin (1 - r * r)). unfold xsqrt. rewrite (proj2 (Rltb_false _ 0)) by nra.
    change (Fin (parAt vs 1 x * sqrt (1 - r * r)) = Fin (parAt vs 1 x * sqrt (1 - r ^ 2))). do 3 f_equal. ring.
  Qed.
  Lemma r_ok : existsb (fun x => negb (Rltb (Rabs x) 1)) (tab (gridPoints vs) (parAt vs 0)) = false.
  Proof.
    destruct (existsb _ _) eqn:E; [|reflexivity]. apply existsb_exists in E. destruct E as (y & I & E). unfold tab in I. apply in_map_iff in I. destruct I as (x & <- & Hx). apply in_seq in Hx.
    pose proof (r_in x ltac:(lia)) as H. apply Rltb_true in H. now rewrite H in E.
  Qed.
End Grid.

Lemma compute_value (S : study R R) o m vs ts name l k d0 : configured S o m vs ts -> autoregressive o name -> stationary vs -> st_raw S = Raw1 l -> nth_error l k = Some (Fin d0) ->
  let N := gridPoints vs in let g := fun x => uhligR d0 (List.length l) (parAt vs 0 x) (noiseAt name vs x) in
  computeJeffreysPriorAR1 S name (Z.of_nat (Datatypes.S k)) = Ok (arrOf N (normalised N g)) /\ (forall x, (x < N)%nat -> 0 < g x) /\ (0 < N)%nat.
Proof.
  intros C A St Er Ek N g.
  assert (L2 : List.length vs = 2%nat) by (rewrite <- (cf_names _ _ _ _ _ C); destruct A; reflexivity).
  assert (Hn : name <> NameOther) by (destruct A; discriminate).
  assert (Pg : forall x, (x < N)%nat -> 0 < g x) by (intros x Hx; apply uhligR_pos; [apply sq_lt_1, r_in; auto|now apply noise_pos]).
  assert (HN : (0 < N)%nat) by exact (cfg_npos _ _ _ _ _ C).
  split; [|split; auto].
  unfold computeJeffreysPriorAR1. rewrite (cf_grid _ _ _ _ _ C), (mesh2 vs L2), (sd_tab vs name L2 St Hn), (r_ok vs L2 St), Er.
  assert (Hl : (k < List.length l)%nat) by (apply nth_error_Some; congruence).
  replace (Nat.eqb (rawLen (Raw1 l)) 0) with false by (symmetry; apply Nat.eqb_neq; cbn; lia).
  assert (Ep : pyIndex l (Z.of_nat (Datatypes.S k) - 1) = Ok (Fin d0)).
  { unfold pyIndex. replace (Z.leb 0 _) with true by (symmetry; apply Z.leb_le; lia). replace (Z.to_nat (Z.of_nat (Datatypes.S k) - 1)) with k by lia. unfold index. now rewrite Ek. }
  rewrite Ep. cbn [bind]. rewrite map2_tab.
  replace (tab (gridPoints vs) (fun x => uhlig (Fin d0) (List.length l) (parAt vs 0 x) (Fin (noiseAt name vs x)))) with (arrOf N g).
  2:{ unfold arrOf. rewrite map_tab. apply tab_ext. intros x Hx. symmetry. apply uhlig_fin; [apply sq_lt_1, r_in; auto|now apply noise_pos]. }
  assert (Hs : 0 < rsum N g) by (apply rsum_pos; [intros x Hx; left; auto|exists 0%nat; split; auto]).
  assert (Ha : adivs (arrOf N g) (asum (arrOf N g)) = arrOf N (normalised N g)).
  { unfold arrOf. change (map Fin (tab N g)) with (fin (tab N g)). rewrite asum_fin, Rsum_tab, adivs_fin by lra. unfold rdivs. now rewrite map_tab. }
  destruct name; try easy; now rewrite Ha.
Qed.

(** ** C65 *)
Lemma normalised_total N g : (0 < rsum N g) -> rsum N (normalised N g) = 1.
Proof. intros H. unfold normalised. rewrite (rsum_ext _ _ (fun x => g x * / rsum N g)) by reflexivity. rewrite rsum_scal_r. field. lra. Qed.

(** For r inside (-1, 1) and positive standard deviations: Jeffreys priors exist, are unique and positive. *)
Theorem C65_exists : forall n r s, Rabs r < 1 -> 0 < s ->
  exists j j', 0 < j /\ 0 < j' /\ (forall i, arJeffreys (Datatypes.S (Datatypes.S n)) r s i <-> i = j) /\ (forall i, scaledJeffreys (Datatypes.S (Datatypes.S n)) r s i <-> i = j').
Proof.
  intros n r s Hr Hs. apply sq_lt_1 in Hr. pose proof (ar_jeffreys (Datatypes.S n) r s Hs Hr) as A. pose proof (scaled_jeffreys (Datatypes.S n) r s Hs Hr) as B.
  match type of A with arJeffreys _ _ _ ?v => exists v; assert (0 < v) end.
  { apply Rmult_lt_0_compat; [apply sqrt_lt_R0, lt_0_INR; lia|]. apply Rmult_lt_0_compat; [|apply sqrt_lt_R0, arShape_pos; auto]. apply Rdiv_lt_0_compat; [lra|]. apply Rmult_lt_0_compat; [auto|apply sqrt_lt_R0; lra]. }
  match type of B with scaledJeffreys _ _ _ ?v => exists v end. split; [auto|]. split; [auto|]. split; intros i; split; intros H'; try (subst i; auto).
  - eapply ar_jeffreys_unique; eauto.
  - eapply scaled_jeffreys_unique; eauto.
Qed.

(** The array holds, at every grid point, the product of two factors, divided by the sum over the grid: the Jeffreys prior of the process (for
    one observation more than there are data points, see [C65_length_refuted]) and the density of the observation number t. Its values are
    positive and add up to one. *)
Theorem C65_prior : forall (S : study R R) o m vs ts name l k d0 J, configured S o m vs ts -> autoregressive o name -> stationary vs ->
  st_raw S = Raw1 l -> nth_error l k = Some (Fin d0) -> let N := gridPoints vs in
  (forall x, (x < N)%nat -> arJeffreys (Datatypes.S (List.length l)) (parAt vs 0 x) (noiseAt name vs x) (J x)) ->
  exists p, computeJeffreysPriorAR1 S name (Z.of_nat (Datatypes.S k)) = Ok (arrOf N p) /\
    (forall x, (x < N)%nat -> p x = normalised N (fun y => J y * firstDensity (parAt vs 0 y) (noiseAt name vs y) d0) x) /\
    (forall x, (x < N)%nat -> 0 < p x) /\ rsum N p = 1.
Proof.
  intros S o m vs ts name l k d0 J C A St Er Ek N HJ.
  destruct (compute_value S o m vs ts name l k d0 C A St Er Ek) as (E & Pg & HN). fold N in E, Pg, HN.
  assert (L2 : List.length vs = 2%nat) by (rewrite <- (cf_names _ _ _ _ _ C); destruct A; reflexivity).
  assert (Hn : name <> NameOther) by (destruct A; discriminate).
  assert (Hl : (0 < List.length l)%nat) by (pose proof (proj1 (nth_error_Some l k) ltac:(congruence)); lia).
  match type of E with _ = Ok (arrOf N (normalised N ?h)) => set (g := h) in * end. change (forall x, (x < N)%nat -> 0 < g x) in Pg.
  assert (Hs : 0 < rsum N g) by (apply rsum_pos; [intros x Hx; left; auto|exists 0%nat; split; auto]).
  exists (normalised N g). split; [exact E|]. split; [|split; [|now apply normalised_total]].
  - intros x Hx. symmetry. apply (normalised_scal N g _ (sqrt (INR (List.length l)) / sqrt (2 * PI))); auto.
    + pose proof PI_RGT_0. apply Rdiv_lt_0_compat; apply sqrt_lt_R0; [now apply lt_0_INR|lra].
    + intros y Hy. pose proof (sq_lt_1 _ (r_in vs L2 St y Hy)) as Hr. pose proof (noise_pos vs name L2 St Hn y Hy) as Hns.
      rewrite (ar_jeffreys_unique _ _ _ _ _ (HJ y Hy) (ar_jeffreys (List.length l) _ _ Hns Hr)). now apply uhlig_jeffreys.
  - intros x Hx. unfold normalised. apply Rdiv_lt_0_compat; auto.
Qed.

(** ConfigurationError: another observation model, a grid point with |r| >= 1, no data. *)
Theorem C65_errors : forall (S : study R R) vs name t l, st_grid S = meshgrid vs -> List.length vs = 2%nat -> st_raw S = Raw1 l ->
  (computeJeffreysPriorAR1 S name t = Err ConfigurationError <->
   name = NameOther \/ (exists x, (x < gridPoints vs)%nat /\ 1 <= Rabs (parAt vs 0 x)) \/ l = []).
Proof.
  intros S vs name t l Eg L2 Er. unfold computeJeffreysPriorAR1. rewrite Eg, (mesh2 vs L2), Er.
  assert (I : existsb (fun x => negb (Rltb (Rabs x) 1)) (tab (gridPoints vs) (parAt vs 0)) = true <-> exists x, (x < gridPoints vs)%nat /\ 1 <= Rabs (parAt vs 0 x)).
  { rewrite existsb_exists. split.
    - intros (y & I & E). unfold tab in I. apply in_map_iff in I. destruct I as (x & <- & Hx). apply in_seq in Hx. exists x. split; [lia|]. destruct (Rltb _ 1) eqn:E1; [discriminate|]. now apply Rltb_false in E1.
    - intros (x & Hx & H). exists (parAt vs 0 x). split; [unfold tab; apply in_map, in_seq; lia|]. apply Rltb_false in H. now rewrite H. }
  destruct (existsb _ _).
  - destruct name; split; auto; intros _; right; left; now apply I.
  - assert (NI : ~ exists x, (x < gridPoints vs)%nat /\ 1 <= Rabs (parAt vs 0 x)) by (intros H; apply I in H; discriminate).
    assert (P : forall v : xr -> res (list xr), (forall d, v d <> Err ConfigurationError) -> (let* d0 := pyIndex l (t - 1) in v d0)%res <> Err ConfigurationError).
    { intros v Hv. unfold pyIndex, index. destruct (Z.leb 0 _); [destruct (nth_error _ _); cbn [bind]; [apply Hv|discriminate]|]. destruct (Z.leb 0 _); [destruct (nth_error _ _); cbn [bind]; [apply Hv|discriminate]|discriminate]. }
    destruct l as [|d l].
    + cbn [rawLen List.length Nat.eqb]. destruct name; split; auto.
    + replace (Nat.eqb (rawLen (Raw1 (d :: l))) 0) with false by reflexivity. destruct name.
      * split; [intros H; exfalso; revert H; apply P; intros d'; discriminate|]. intros [H|[H|H]]; [discriminate|tauto|discriminate].
      * split; [intros H; exfalso; revert H; apply P; intros d'; discriminate|]. intros [H|[H|H]]; [discriminate|tauto|discriminate].
      * split; auto.
Qed.
(** The observation is looked up as Python does: t = 0 is the last one, t beyond the data raises IndexError. *)
Theorem C65_time : forall (S : study R R) o m vs ts name l, configured S o m vs ts -> autoregressive o name -> stationary vs -> st_raw S = Raw1 l ->
  computeJeffreysPriorAR1 S name 0 = computeJeffreysPriorAR1 S name (Z.of_nat (List.length l)) /\
  forall t, (Z.of_nat (List.length l) < t)%Z -> computeJeffreysPriorAR1 S name t = Err IndexError.
Proof.
  intros S o m vs ts name l C A St Er. assert (L2 : List.length vs = 2%nat) by (rewrite <- (cf_names _ _ _ _ _ C); destruct A; reflexivity).
  assert (Hl : (0 < List.length l)%nat) by (pose proof (cf_data _ _ _ _ _ C) as H; rewrite Er in H; exact H).
  unfold computeJeffreysPriorAR1. rewrite (cf_grid _ _ _ _ _ C), (mesh2 vs L2), (r_ok vs L2 St), Er. replace (Nat.eqb (rawLen (Raw1 l)) 0) with false by (symmetry; apply Nat.eqb_neq; cbn; lia). split.
  - replace (pyIndex l (0 - 1)) with (pyIndex l (Z.of_nat (List.length l) - 1)); [reflexivity|]. unfold pyIndex.
    replace (Z.leb 0 (Z.of_nat (List.length l) - 1)) with true by (symmetry; apply Z.leb_le; lia). replace (Z.leb 0 (0 - 1)) with false by reflexivity.
    replace (Z.leb 0 (Z.of_nat (List.length l) + (0 - 1))) with true by (symmetry; apply Z.leb_le; lia). f_equal.
  - intros t Ht. replace (pyIndex l (t - 1)) with (Err (A := xnum R) IndexError); [destruct A; reflexivity|]. unfold pyIndex, index. replace (Z.leb 0 (t - 1)) with true by (symmetry; apply Z.leb_le; lia).
    now replace (nth_error l (Z.to_nat (t - 1))) with (@None (xnum R)) by (symmetry; apply nth_error_None; lia).
Qed.
(** A missing observation: every value of the array is NaN. *)
Theorem C65_missing : forall (S : study R R) o m vs ts name l k, configured S o m vs ts -> autoregressive o name -> stationary vs ->
  st_raw S = Raw1 l -> nth_error l k = Some NaN -> computeJeffreysPriorAR1 S name (Z.of_nat (Datatypes.S k)) = Ok (repeat NaN (gridPoints vs)).
Proof.
  intros S o m vs ts name l k C A St Er Ek.
  assert (L2 : List.length vs = 2%nat) by (rewrite <- (cf_names _ _ _ _ _ C); destruct A; reflexivity).
  assert (Hn : name <> NameOther) by (destruct A; discriminate). assert (Hl : (k < List.length l)%nat) by (apply nth_error_Some; congruence).
  unfold computeJeffreysPriorAR1. rewrite (cf_grid _ _ _ _ _ C), (mesh2 vs L2), (sd_tab vs name L2 St Hn), (r_ok vs L2 St), Er.
  replace (Nat.eqb (rawLen (Raw1 l)) 0) with false by (symmetry; apply Nat.eqb_neq; cbn; lia).
  assert (Ep : pyIndex l (Z.of_nat (Datatypes.S k) - 1) = Ok NaN).
  { unfold pyIndex. replace (Z.leb 0 _) with true by (symmetry; apply Z.leb_le; lia). replace (Z.to_nat (Z.of_nat (Datatypes.S k) - 1)) with k by lia. unfold index. now rewrite Ek. }
  rewrite Ep. cbn [bind]. rewrite map2_tab.
  assert (Ea : tab (gridPoints vs) (fun x => uhlig NaN (List.length l) (parAt vs 0 x) (Fin (noiseAt name vs x))) = repeat NaN (gridPoints vs)).
  { rewrite repeat_tab. apply tab_ext. intros x Hx. unfold uhlig, xsq, xneg. cbn [xmul]. destruct (xdiv _ _); reflexivity. }
  rewrite Ea. assert (Ed : forall q, adivs (repeat (@NaN R) (gridPoints vs)) q = repeat NaN (gridPoints vs)) by (intros q; unfold adivs; generalize (gridPoints vs); induction n as [|n IH]; [reflexivity|cbn; now rewrite IH]).
  destruct name; try easy; now rewrite Ed.
Qed.

(** The array used as prior, as in the documentation of the function: because its values add up to exactly one it is taken for a density. The
    posteriors are those of the same array times two (which is normalised), the evidence is multiplied by the volume of a grid cell. *)
Theorem C65_evidence : forall (S : study R R) o m vs ts name l k d0 a fo eo B, configured S o m vs ts -> autoregressive o name -> stationary vs ->
  st_raw S = Raw1 l -> nth_error l k = Some (Fin d0) -> (1 < List.length l)%nat ->
  computeJeffreysPriorAR1 S name (Z.of_nat (Datatypes.S k)) = Ok a ->
  fit (replacePrior S (PArr (st_shape S) (map (xmul (Fin 2)) a))) fo eo = Ok B ->
  exists A, fit (replacePrior S (PArr (st_shape S) a)) fo eo = Ok A /\ st_post A = st_post B /\ st_means A = st_means B /\
    st_logEv A = xladd (st_logEv B) (Fin (ln (cellVolume S))).
Proof.
  intros S o m vs ts name l k d0 a fo eo B C A St Er Ek Hl Ea EB.
  destruct (compute_value S o m vs ts name l k d0 C A St Er Ek) as (E & Pg & HN). cbv zeta in E. set (N := gridPoints vs) in *.
  match type of E with _ = Ok (arrOf N (normalised N ?h)) => set (g := h) in * end. change (forall x, (x < N)%nat -> 0 < g x) in Pg.
  rewrite E in Ea. injection Ea as <-.
  assert (Hs : 0 < rsum N g) by (apply rsum_pos; [intros x Hx; left; auto|exists 0%nat; split; auto]).
  assert (Sa : asum (arrOf N (normalised N g)) = Fin 1) by (unfold arrOf; change (map Fin (tab N (normalised N g))) with (fin (tab N (normalised N g))); now rewrite asum_fin, Rsum_tab, normalised_total).
  set (p := PArr (st_shape S) (arrOf N (normalised N g))). set (q := PArr (st_shape S) (map (xmul (Fin 2)) (arrOf N (normalised N g)))) in *.
  destruct (C11_sum_one (replacePrior S p) (om_set_prior o p) 2 p q (arrOf N (normalised N g)) (map (xmul (Fin 2)) (arrOf N (normalised N g))) fo eo B) as (A' & EA & H1 & H2 & _ & H4 & _ & _); try reflexivity.
  - cbn. now rewrite (cf_om _ _ _ _ _ C).
  - lra.
  - exact Sa.
  - rewrite sc_sum, Sa by lra. cbn. intros X. injection X. lra.
  - change (st_shape (replacePrior S p)) with (st_shape S). rewrite (cf_shape _ _ _ _ _ C). change (N <> 0%nat). clear - HN. lia.
  - change (cellVolume (replacePrior S p)) with (cellVolume S). exact (cfg_volpos _ _ _ _ _ C).
  - intros X. apply (f_equal (@List.length _)) in X. revert X. unfold segments. cbn [st_raw replacePrior]. rewrite Er. replace (om_seglen (om_set_prior o p)) with 2%nat by (destruct A; reflexivity).
    rewrite format_length. cbn [rawLen List.length]. lia.
  - replace (replacePrior (replacePrior S p) q) with (replacePrior S q); [exact EB|]. unfold replacePrior. cbn. now rewrite (cf_om _ _ _ _ _ C).
  - exists A'. auto.
Qed.

(** ** Examples and refutations *)
Definition rs : list (list R) := [[0; / 2]; [1; 2]].
Lemma rs_stationary : stationary rs.
Proof. split; repeat constructor; try lra; unfold Rabs; destruct (Rcase_abs _); lra. Qed.
Lemma rs_points : gridPoints rs = 4%nat. Proof. reflexivity. Qed.
Lemma example_ar1 name o : (o = ar1 "r" (Some [0; / 2]) "std" (Some [1; 2]) PNone /\ name = NameAR1) \/ (o = scaledAr1 "r" (Some [0; / 2]) "std" (Some [1; 2]) PNone /\ name = NameScaledAR1) ->
  exists S : study R R, setup (Raw1 [Fin 0; Fin 0]) None o static = Ok S /\ configured S o static rs [INR 0; INR 1] /\ autoregressive o name /\ stationary rs /\ st_raw S = Raw1 [Fin 0; Fin 0].
Proof.
  intros [[-> ->] | [-> ->]].
  - destruct (setup_given (Raw1 [Fin 0; Fin 0]) (ar1 "r" (Some [0; / 2]) "std" (Some [1; 2]) PNone) static rs) as (S & E & Er & C);
      try (reflexivity || discriminate || (cbn; lia) || solve [cbn; constructor]).
    { repeat constructor; cbn; lia || lra. }
    exists S. split; [exact E|]. split; [exact C|]. split; [constructor|]. split; [exact rs_stationary|exact Er].
  - destruct (setup_given (Raw1 [Fin 0; Fin 0]) (scaledAr1 "r" (Some [0; / 2]) "std" (Some [1; 2]) PNone) static rs) as (S & E & Er & C);
      try (reflexivity || discriminate || (cbn; lia) || solve [cbn; constructor]).
    { repeat constructor; cbn; lia || lra. }
    exists S. split; [exact E|]. split; [exact C|]. split; [constructor|]. split; [exact rs_stationary|exact Er].
Qed.
(** the hypotheses of the theorems above; two observations *)
Example C65_example : forall name, name <> NameOther -> exists (S : study R R) o l J, configured S o static rs [INR 0; INR 1] /\ autoregressive o name /\ stationary rs /\
  st_raw S = Raw1 l /\ nth_error l 0 = Some (Fin 0) /\ (1 < List.length l)%nat /\
  (forall x, lt x (gridPoints rs) -> arJeffreys (Datatypes.S (List.length l)) (parAt rs 0 x) (noiseAt name rs x) (J x)).
Proof.
  intros name Hn. set (o := match name with NameScaledAR1 => scaledAr1 "r" (Some [0; / 2]) "std" (Some [1; 2]) PNone | _ => ar1 "r" (Some [0; / 2]) "std" (Some [1; 2]) PNone end).
  destruct (example_ar1 name o) as (S & _ & C & A & St & Er); [destruct name; auto; easy|].
  exists S, o, [Fin 0; Fin 0]. eexists. repeat (split; [eassumption || reflexivity || (cbn; lia)|]). intros x Hx. cbv beta. apply ar_jeffreys; [apply noise_pos; auto|apply sq_lt_1, r_in; auto].
Qed.
(** values at the grid points r = 0 and r = 1/2 with standard deviation 1 *)
Lemma at_0 : parAt rs 0 0 = 0 /\ parAt rs 1 0 = 1. Proof. split; reflexivity. Qed.
Lemma at_2 : parAt rs 0 2 = / 2 /\ parAt rs 1 2 = 1. Proof. split; reflexivity. Qed.
Lemma normalised_eq N g h x y : (x < N)%nat -> (y < N)%nat -> 0 < rsum N g -> 0 < rsum N h -> arrOf N (normalised N g) = arrOf N (normalised N h) -> g x * h y = g y * h x.
Proof.
  intros Hx Hy Pg Ph E. assert (V : forall z, (z < N)%nat -> g z / rsum N g = h z / rsum N h).
  { intros z Hz. apply (f_equal (fun l => nth z l NaN)) in E. unfold arrOf in E. rewrite !map_tab, !tab_nth in E by auto. now injection E. }
  pose proof (V x Hx) as Vx. pose proof (V y Hy) as Vy. set (a := rsum N g) in *. set (b := rsum N h) in *. apply (f_equal (fun v => v * b)) in Vx, Vy. replace (h x) with (g x / a * b) by (rewrite Vx; field; lra). replace (h y) with (g y / a * b) by (rewrite Vy; field; lra). field. lra.
Qed.

Lemma uhlig_0 n r : uhligR 0 n r 1 = sqrt (arShape n r).
Proof. unfold uhligR. replace (- 0 ^ 2 * (1 - r ^ 2) / (2 * 1 ^ 2)) with 0 by field. rewrite exp_0. field. Qed.
(** The prior is not the Jeffreys prior of the data: with two observations it is that of three. *)
Theorem C65_length_refuted : exists (S : study R R) o l d0 a, configured S o static rs [INR 0; INR 1] /\ autoregressive o NameAR1 /\ stationary rs /\
  st_raw S = Raw1 l /\ nth_error l 0 = Some (Fin d0) /\ computeJeffreysPriorAR1 S NameAR1 1 = Ok a /\ let N := gridPoints rs in
  forall J, (forall x, (x < N)%nat -> arJeffreys (List.length l) (parAt rs 0 x) (noiseAt NameAR1 rs x) (J x)) ->
    a <> arrOf N (normalised N (fun x => J x * firstDensity (parAt rs 0 x) (noiseAt NameAR1 rs x) d0)).
Proof.
  destruct (example_ar1 NameAR1 _ (or_introl (conj eq_refl eq_refl))) as (S & _ & C & A & St & Er).
  destruct (compute_value S _ static rs _ NameAR1 [Fin 0; Fin 0] 0 0 C A St Er eq_refl) as (E & Pg & HN). set (N := gridPoints rs) in *. cbv zeta in E.
  match type of E with _ = Ok (arrOf N (normalised N ?h)) => set (g := h) in * end. change (forall x, (x < N)%nat -> 0 < g x) in Pg.
  exists S. eexists. exists [Fin 0; Fin 0], 0. eexists. repeat (split; [eassumption || reflexivity|]). intros N' J HJ X. subst N'.
  set (h := fun x => uhligR 0 1 (parAt rs 0 x) (noiseAt NameAR1 rs x)).
  assert (Ph : forall x, (x < N)%nat -> 0 < h x) by (intros x Hx; apply uhligR_pos; [apply sq_lt_1, (r_in rs eq_refl St x Hx)|apply (noise_pos rs NameAR1 eq_refl St ltac:(discriminate) x Hx)]).
  assert (Sg : 0 < rsum N g) by (apply rsum_pos; [intros x Hx; left; auto|exists 0%nat; split; auto]).
  assert (Sh : 0 < rsum N h) by (apply rsum_pos; [intros x Hx; left; auto|exists 0%nat; split; auto]).
  assert (Y : arrOf N (normalised N g) = arrOf N (normalised N h)).
  { rewrite X. unfold arrOf. f_equal. apply tab_ext. intros x Hx. apply (normalised_scal N h _ (sqrt (INR 1) / sqrt (2 * PI))); auto.
    - pose proof PI_RGT_0. apply Rdiv_lt_0_compat; apply sqrt_lt_R0; [cbn; lra|lra].
    - intros y Hy. pose proof (sq_lt_1 _ (r_in rs eq_refl St y Hy)) as Hr. pose proof (noise_pos rs NameAR1 eq_refl St ltac:(discriminate) y Hy) as Hns.
      rewrite (ar_jeffreys_unique _ _ _ _ _ (HJ y Hy) (ar_jeffreys 1 _ _ Hns Hr)). now apply uhlig_jeffreys. }
  apply (normalised_eq N g h 0 2) in Y; auto; [|unfold N; rewrite rs_points; lia..]. unfold g, h, noiseAt in Y. rewrite (proj1 at_0), (proj2 at_0), (proj1 at_2), (proj2 at_2) in Y. rewrite !uhlig_0 in Y.
  assert (P0 : forall n, 0 < arShape n 0) by (intros; apply arShape_pos; lra). assert (P2 : forall n, 0 < arShape n (/ 2)) by (intros; apply arShape_pos; lra).
  apply (f_equal (fun v => v ^ 2)) in Y. rewrite !Rpow_mult_distr, !pow2_sqrt in Y by (left; auto). unfold arShape in Y. cbn in Y. lra.
Qed.
(** For the scaled process it is not the Jeffreys prior of any number of observations: the change of variables is missing. *)
Theorem C65_scaled_refuted : exists (S : study R R) o l d0 a, configured S o static rs [INR 0; INR 1] /\ autoregressive o NameScaledAR1 /\ stationary rs /\
  st_raw S = Raw1 l /\ nth_error l 0 = Some (Fin d0) /\ computeJeffreysPriorAR1 S NameScaledAR1 1 = Ok a /\ let N := gridPoints rs in
  forall T J, (forall x, (x < N)%nat -> scaledJeffreys T (parAt rs 0 x) (parAt rs 1 x) (J x)) ->
    a <> arrOf N (normalised N (fun x => J x * firstDensity (parAt rs 0 x) (noiseAt NameScaledAR1 rs x) d0)).
Proof.
  destruct (example_ar1 NameScaledAR1 _ (or_intror (conj eq_refl eq_refl))) as (S & _ & C & A & St & Er).
  destruct (compute_value S _ static rs _ NameScaledAR1 [Fin 0; Fin 0] 0 0 C A St Er eq_refl) as (E & Pg & HN). set (N := gridPoints rs) in *. cbv zeta in E.
  match type of E with _ = Ok (arrOf N (normalised N ?h)) => set (g := h) in * end. change (forall x, (x < N)%nat -> 0 < g x) in Pg.
  exists S. eexists. exists [Fin 0; Fin 0], 0. eexists. repeat (split; [eassumption || reflexivity|]). intros N' T J HJ X. subst N'.
  assert (Sg : 0 < rsum N g) by (apply rsum_pos; [intros x Hx; left; auto|exists 0%nat; split; auto]).
  assert (Rx : forall x, (x < N)%nat -> parAt rs 0 x ^ 2 < 1) by (intros x Hx; apply sq_lt_1, (r_in rs eq_refl St x Hx)).
  assert (Sx : forall x, (x < N)%nat -> 0 < parAt rs 1 x) by (intros x Hx; apply (s_in rs eq_refl St x Hx)).
  assert (Nx : forall x, (x < N)%nat -> 0 < noiseAt NameScaledAR1 rs x) by (intros x Hx; apply (noise_pos rs NameScaledAR1 eq_refl St ltac:(discriminate) x Hx)).
  assert (Z : ~ forall x, (x < N)%nat -> J x = 0).
  { intros Z. apply (f_equal (fun l => nth 0 l NaN)) in X. unfold arrOf in X. rewrite !map_tab, !tab_nth in X by auto. injection X. unfold normalised. rewrite (Z 0%nat HN).
    pose proof (Rdiv_lt_0_compat _ _ (Pg 0%nat HN) Sg). rewrite Rmult_0_l. unfold Rdiv at 2. rewrite Rmult_0_l. lra. }
  destruct T as [|n].
  { apply Z. intros x Hx. destruct (HJ x Hx) as (g1 & g2 & g3 & (s & t & S1 & T1 & A1 & B1 & C1) & ->).
    cbn [integrals] in A1, B1, C1. change (scaledDensity (parAt rs 0 x) (parAt rs 1 x) []) with 1 in A1, B1, C1. rewrite <- sqrt_0. f_equal. rewrite A1, B1, C1. ring. }
  assert (HJ' : forall x, (x < N)%nat -> J x = sqrt (INR n) * (1 / (parAt rs 1 x * sqrt (1 - parAt rs 0 x ^ 2)) * sqrt (arShape n (parAt rs 0 x)))).
  { intros x Hx. eapply scaled_jeffreys_unique; [exact (HJ x Hx)|]. apply scaled_jeffreys; auto. }
  destruct n as [|n].
  { apply Z. intros x Hx. rewrite HJ' by auto. change (INR 0) with 0. rewrite sqrt_0. ring. }
  set (h := fun x => sqrt (1 - parAt rs 0 x ^ 2) * uhligR 0 (Datatypes.S n) (parAt rs 0 x) (noiseAt NameScaledAR1 rs x)).
  assert (Ph : forall x, (x < N)%nat -> 0 < h x) by (intros x Hx; apply Rmult_lt_0_compat; [apply sqrt_lt_R0; pose proof (Rx x Hx); lra|apply uhligR_pos; auto]).
  assert (Sh : 0 < rsum N h) by (apply rsum_pos; [intros x Hx; left; auto|exists 0%nat; split; auto]).
  assert (Y : arrOf N (normalised N g) = arrOf N (normalised N h)).
  { rewrite X. unfold arrOf. f_equal. apply tab_ext. intros x Hx. apply (normalised_scal N h _ (sqrt (INR (Datatypes.S n)) / sqrt (2 * PI))); auto.
    - pose proof PI_RGT_0. apply Rdiv_lt_0_compat; apply sqrt_lt_R0; [apply lt_0_INR; lia|lra].
    - intros y Hy. rewrite HJ' by auto. unfold h. pose proof (uhlig_jeffreys 0 (Datatypes.S n) _ _ (Rx y Hy) (Nx y Hy)) as U. set (w := sqrt (1 - parAt rs 0 y ^ 2)) in *.
      assert (0 < w) by (apply sqrt_lt_R0; pose proof (Rx y Hy); lra). match type of U with _ = ?c * ?u => replace (c * (w * u)) with (w * (c * u)) by ring end. rewrite <- U.
      set (f1 := firstDensity _ _ _). unfold noiseAt. fold w. pose proof (Sx y Hy). field. lra. }
  apply (normalised_eq N g h 0 2) in Y; auto; [|unfold N; rewrite rs_points; lia..]. unfold g, h, noiseAt in Y. rewrite (proj1 at_0), (proj2 at_0), (proj1 at_2), (proj2 at_2) in Y.
  assert (P0 : forall n, 0 < arShape n 0) by (intros; apply arShape_pos; lra). assert (P2 : forall n, 0 < arShape n (/ 2)) by (intros; apply arShape_pos; lra).
  unfold uhligR in Y. set (w := sqrt (1 - (/ 2) ^ 2)) in Y. assert (W : w ^ 2 = 3 / 4) by (unfold w; rewrite pow2_sqrt; lra). assert (Hw : 0 < w) by (apply sqrt_lt_R0; lra).
  replace (sqrt (1 - 0 ^ 2)) with 1 in Y by (replace (1 - 0 ^ 2) with 1 by ring; symmetry; apply sqrt_1).
  replace (- 0 ^ 2 * (1 - 0 ^ 2) / (2 * (1 * 1) ^ 2)) with 0 in Y by field. replace (- 0 ^ 2 * (1 - (/ 2) ^ 2) / (2 * (1 * w) ^ 2)) with 0 in Y by (field; lra). rewrite exp_0 in Y.
  assert (Y' : sqrt (arShape 2 0) * sqrt (arShape (Datatypes.S n) (/ 2)) * w = sqrt (arShape 2 (/ 2)) * sqrt (arShape (Datatypes.S n) 0)).
  { cbn [List.length] in Y. match type of Y with ?a = ?b => assert (a * w ^ 2 = b * w ^ 2) as Y2 by now rewrite Y end. transitivity (sqrt (arShape 2 0) * (1 * (1 * sqrt (arShape (Datatypes.S n) (/ 2)) * w))); [ring|].
    match type of Y2 with ?a = ?b => transitivity a; [field; lra|]; transitivity b; [exact Y2|field; lra] end. }
  apply (f_equal (fun v => v ^ 2)) in Y'. rewrite !Rpow_mult_distr, !pow2_sqrt, W in Y' by (left; auto). unfold arShape in Y'.
  replace (INR 2) with 2 in Y' by (cbn; ring). set (v := INR (Datatypes.S n)) in *.
  assert (Q : 17 * (v + 1) = 18) by (field_simplify in Y'; lra). assert (Q' : INR (17 * (Datatypes.S n + 1)) = INR 18) by (rewrite mult_INR, plus_INR; fold v; clearbody v; cbn; lra). apply INR_eq in Q'. lia.
Qed.
(** hypotheses of [C65_missing] and of [C65_errors] (a grid that touches r = 1) *)
Example C65_missing_example : exists S : study R R, let o := ar1 "r" (Some [0; / 2]) "std" (Some [1; 2]) PNone in
  setup (Raw1 [NaN; Fin 0; Fin 1]) None o static = Ok S /\ configured S o static rs [INR 0; INR 1; INR 2] /\ autoregressive o NameAR1 /\ stationary rs /\ st_raw S = Raw1 [NaN; Fin 0; Fin 1].
Proof.
  destruct (setup_given (Raw1 [NaN; Fin 0; Fin 1]) (ar1 "r" (Some [0; / 2]) "std" (Some [1; 2]) PNone) static rs) as (S & E & Er & C);
    try (reflexivity || discriminate || (cbn; lia) || solve [cbn; constructor]).
  { repeat constructor; cbn; lia || lra. }
  exists S. split; [exact E|]. split; [exact C|]. split; [constructor|]. split; [exact rs_stationary|exact Er].
Qed.
Example C65_errors_example : exists S : study R R, setup (Raw1 [Fin 0; Fin 1]) None (ar1 "r" (Some [0; 1]) "std" (Some [1; 2]) PNone) static = Ok S /\
  computeJeffreysPriorAR1 S NameAR1 1 = Err ConfigurationError.
Proof.
  destruct (setup_given (Raw1 [Fin 0; Fin 1]) (ar1 "r" (Some [0; 1]) "std" (Some [1; 2]) PNone) static [[0; 1]; [1; 2]]) as (S & E & Er & C);
    try (reflexivity || discriminate || (cbn; lia) || solve [cbn; constructor]).
  { repeat constructor; cbn; lia || lra. }
  exists S. split; [exact E|]. apply (C65_errors S [[0; 1]; [1; 2]] NameAR1 1 [Fin 0; Fin 1] (cf_grid _ _ _ _ _ C) eq_refl Er). right. left. exists 2%nat. split; [cbn; lia|].
  change (1 <= Rabs 1). rewrite Rabs_R1. lra.
Qed.
