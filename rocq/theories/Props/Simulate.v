(** Simulated observations: C46. *)
From Coq Require Import List ZArith QArith Reals Lra Lia Arith Bool String.
From Verif Require Import Base.Num Base.Exn Base.Arr Base.RSum Base.Lift Model.Helper Model.Tm Model.HyperParams Model.Study Model.Api Model.Getters Model.Simulate
  Spec.Hmm Spec.Kernel Spec.Config Spec.Dist Spec.Data Spec.Marginal Proof.KernelProof Proof.Good Proof.MarginalProof Props.Ex Props.ExR Props.Inference Props.Parameters Props.Prior.
Import ListNotations.
Local Open Scope string_scope.
Local Open Scope R_scope.

(** likelihood of the single observation [x] at grid point g *)
Definition pdfValues {L} (S : study R L) (o : om R) (vs : list (list R)) (f : xnum R -> nat -> R) (x : list (xnum R)) : Prop :=
  forall xi, In xi x -> om_pdf o (st_grid S) (Seg1 [xi]) = arrOf (gridPoints vs) (f xi).
(** mixture of the pdfValues with the weights [p] *)
Definition mixture (vs : list (list R)) (p : nat -> R) (f : xnum R -> nat -> R) (xi : xnum R) : R := rsum (gridPoints vs) (fun g => p g * f xi g).

Lemma prob_mixture {L} (S : study R L) o vs f x p : pdfValues S o vs f x ->
  map (fun xi => asum (amul (om_pdf o (st_grid S) (Seg1 [xi])) (arrOf (gridPoints vs) p))) x = map Fin (map (mixture vs p f) x).
Proof.
  intros HL. rewrite map_map. apply map_ext_in. intros xi Hi. rewrite (HL xi Hi). unfold arrOf. rewrite amul_fin, rmul_tab, asum_fin, Rsum_tab.
  f_equal. apply rsum_ext. intros. ring.
Qed.
(** the weights used for a time, or for the time average *)
Definition weights {L} (S : study R L) (ts : list R) (posts : list (nat -> R)) (t : option R) (p : nat -> R) : Prop :=
  match t with
  | Some t' => exists i, firstTime ts t' i /\ p = nth i posts (fun _ => 0)
  | None => ts <> [] /\ p = (fun g => rsum (List.length posts) (fun i => nth i posts (fun _ => 0) g) / INR (List.length posts))
  end.

Section C46.
  Context {L : Type} `{LogNum R L}.
  Lemma simulate_run : forall (S : study R L) o vs ts posts x f t density p, hasPosteriors S o vs ts posts -> om_seglen o = 1%nat ->
    pdfValues S o vs f x -> weights S ts posts t p ->
    simulate S x t density = Ok (Some (let prob := map Fin (map (mixture vs p f) x) in if density then prob else adivs prob (asum prob))).
  Proof.
    intros S o vs ts posts x f t density p HP Hs HL HW. unfold simulate. rewrite (hp_om _ _ _ _ _ HP), Hs. cbn [Nat.ltb Nat.leb].
    assert (EP : match t with None => Ok (option_map (timeAverage (natprod (st_shape S))) (allSome (st_post S)))
      | Some t' => match timeIndex (st_fmtTs S) t' with None => Err PostProcessingError | Some i => index (st_post S) i end end = Ok (Some (arrOf (gridPoints vs) p))).
    { destruct t as [t|].
      - destruct HW as (i & Hi & ->). rewrite (hp_ts _ _ _ _ _ HP), (timeIndex_some ts t i Hi), (hp_post _ _ _ _ _ HP). unfold index. rewrite nth_error_map.
        assert (Li : (i < List.length ts)%nat) by (apply nth_error_Some; destruct Hi; congruence).
        rewrite (List.nth_error_nth' posts (fun _ => 0)) by (rewrite (hp_len _ _ _ _ _ HP); exact Li). reflexivity.
      - destruct HW as (Ht & ->). rewrite (hp_post _ _ _ _ _ HP).
        assert (EA : allSome (map (fun p => Some (arrOf (gridPoints vs) p)) posts) = Some (map (arrOf (gridPoints vs)) posts)) by (clear; induction posts as [|q l IH]; cbn; auto; now rewrite IH).
        rewrite EA. cbn [option_map]. rewrite (hp_N S o vs ts posts HP). do 2 f_equal.
        assert (Lp : (0 < List.length posts)%nat) by (rewrite (hp_len _ _ _ _ _ HP); destruct ts; [congruence|cbn; lia]). assert (Ip : 0 < INR (List.length posts)) by now apply lt_0_INR.
        unfold timeAverage, arrOf, tab. rewrite map_map. apply map_ext_in. intros g Hg. apply in_seq in Hg. rewrite map_map, map_length.
        rewrite (map_ext_in _ (fun q : nat -> R => Fin (q g))).
        + rewrite <- (map_map (fun q : nat -> R => q g) Fin), asum_fin. change (fofZ (Z.of_nat (List.length posts))) with (IZR (Z.of_nat (List.length posts))). rewrite <- INR_IZR_INZ.
          rewrite xdiv_fin by lra. do 2 f_equal. rewrite Rsum_rnth, map_length. apply rsum_ext. intros i Hi. unfold Rnth.
          exact (map_nth (fun q : nat -> R => q g) posts (fun _ => 0) i).
        + intros q _. change (map Fin (map q (seq 0 (gridPoints vs)))) with (arrOf (gridPoints vs) q). unfold arrOf. rewrite (nth_indep _ NaN (Fin 0)) by (rewrite map_length, tab_length; lia).
          rewrite (map_nth Fin). f_equal. rewrite tab_nth by lia. reflexivity. }
    rewrite EP. cbn [bind]. rewrite (prob_mixture S o vs f x p HL). reflexivity.
  Qed.
  Lemma weights_dist : forall (S : study R L) o vs ts posts t p, hasPosteriors S o vs ts posts -> weights S ts posts t p ->
    (forall g, (g < gridPoints vs)%nat -> 0 <= p g) /\ rsum (gridPoints vs) p = 1.
  Proof.
    intros S o vs ts posts t p HP HW. pose proof (hp_dist _ _ _ _ _ HP) as D. rewrite Forall_forall in D. destruct t as [t|].
    - destruct HW as (i & Hi & ->). apply D, nth_In. rewrite (hp_len _ _ _ _ _ HP). apply nth_error_Some; destruct Hi; congruence.
    - destruct HW as (Ht & ->). assert (Lp : (0 < List.length posts)%nat) by (rewrite (hp_len _ _ _ _ _ HP); destruct ts; [congruence|cbn; lia]).
      assert (Ip : 0 < INR (List.length posts)) by now apply lt_0_INR. split.
      + intros g Hg. apply Rmult_le_pos; [|apply Rlt_le, Rinv_0_lt_compat; auto]. apply rsum_nonneg. intros i Hi. apply D; [now apply nth_In|auto].
      + unfold Rdiv. rewrite rsum_scal_r, rsum_swap. rewrite (rsum_ext _ _ (fun _ => 1)); [rewrite rsum_const; field; lra|]. intros i Hi. apply D. now apply nth_In.
  Qed.

  (** With density=True, the result is the mixture of the pdfValues weighted with the posterior of that time step (or with
      its average over all time steps). It lies between the smallest and the largest likelihood. *)
  Theorem C46_mixture : forall (S : study R L) o vs ts posts x f t p, hasPosteriors S o vs ts posts -> om_seglen o = 1%nat ->
    pdfValues S o vs f x -> weights S ts posts t p ->
    simulate S x t true = Ok (Some (map (fun xi => Fin (mixture vs p f xi)) x)) /\
    (forall xi lo hi, (forall g, (g < gridPoints vs)%nat -> lo <= f xi g <= hi) -> lo <= mixture vs p f xi <= hi) /\
    ((forall g, (g < gridPoints vs)%nat -> Rsum (map (fun xi => f xi g) x) = 1) -> Rsum (map (mixture vs p f) x) = 1).
  Proof.
    intros S o vs ts posts x f t p HP Hs HL HW. split; [|split].
    - rewrite (simulate_run S o vs ts posts x f t true p HP Hs HL HW). cbn. now rewrite map_map.
    - intros xi lo hi B. destruct (weights_dist S o vs ts posts t p HP HW) as [P1 P2]. unfold mixture. split.
      + replace lo with (rsum (gridPoints vs) (fun g => p g * lo)) by (rewrite rsum_scal_r, P2; lra). apply rsum_le. intros g Hg. apply Rmult_le_compat_l; [auto|apply B; auto].
      + replace hi with (rsum (gridPoints vs) (fun g => p g * hi)) by (rewrite rsum_scal_r, P2; lra). apply rsum_le. intros g Hg. apply Rmult_le_compat_l; [auto|apply B; auto].
    - intros Hf. destruct (weights_dist S o vs ts posts t p HP HW) as [_ P2]. rewrite <- P2. clear - Hf.
      assert (E : Rsum (map (mixture vs p f) x) = rsum (gridPoints vs) (fun g => p g * Rsum (map (fun xi => f xi g) x))).
      { clear Hf. induction x as [|xi x IH].
        - cbn. symmetry. apply rsum_0. intros. lra.
        - cbn [map]. unfold Rsum at 1 2. cbn [fold_right]. fold (Rsum (map (mixture vs p f) x)). rewrite IH. unfold mixture. rewrite <- rsum_plus. apply rsum_ext. intros g _.
          fold (Rsum (map (fun xi0 => f xi0 g) x)). ring. }
      rewrite E. apply rsum_ext. intros g Hg. rewrite Hf by auto. lra.
  Qed.
  (** Without density, the values are divided by their sum: they sum to one over the given points. (If all of them are
      impossible, every value is NaN.) *)
  Theorem C46_probability : forall (S : study R L) o vs ts posts x f t p, hasPosteriors S o vs ts posts -> om_seglen o = 1%nat ->
    pdfValues S o vs f x -> weights S ts posts t p ->
    let total := Rsum (map (mixture vs p f) x) in
    (total <> 0 -> simulate S x t false = Ok (Some (map (fun xi => Fin (mixture vs p f xi / total)) x)) /\
       Rsum (map (fun xi => mixture vs p f xi / total) x) = 1) /\
    ((forall xi g, In xi x -> (g < gridPoints vs)%nat -> 0 <= f xi g) ->
       (forall xi, In xi x -> 0 <= mixture vs p f xi) /\ (total = 0 -> simulate S x t false = Ok (Some (repeat NaN (List.length x))))).
  Proof.
    intros S o vs ts posts x f t p HP Hs HL HW total. rewrite (simulate_run S o vs ts posts x f t false p HP Hs HL HW). cbn zeta iota. rewrite asum_fin. fold total.
    split.
    - intros Ht. rewrite adivs_fin by auto. unfold rdivs. rewrite !map_map. split; [reflexivity|].
      rewrite <- (map_map (mixture vs p f) (fun y => y / total)). change (Rsum (rdivs (map (mixture vs p f) x) total) = 1). rewrite Rsum_rdivs. fold total. now field.
    - intros Hf. destruct (weights_dist S o vs ts posts t p HP HW) as [P1 _].
      assert (Pm : forall xi, In xi x -> 0 <= mixture vs p f xi) by (intros xi Hi; apply rsum_nonneg; intros g Hg; apply Rmult_le_pos; auto).
      split; [exact Pm|]. intros Ht. rewrite Ht. rewrite (zero_sum (map (mixture vs p f) x)).
      + rewrite zero_div, map_length. reflexivity.
      + apply Forall_forall. intros y Hy. apply in_map_iff in Hy as (xi & <- & Hi). auto.
      + exact Ht.
  Qed.
  (** longer segments, unknown times *)
  Theorem C46_errors : forall (S : study R L) o x t density, st_om S = Some o ->
    ((1 < om_seglen o)%nat -> simulate S x t density = Err NotImplementedError) /\
    (om_seglen o = 1%nat -> forall t', t = Some t' -> ~ In t' (st_fmtTs S) -> simulate S x t density = Err PostProcessingError).
  Proof.
    intros S o x t density Ho. unfold simulate. rewrite Ho. split.
    - intros Hs. now rewrite (proj2 (Nat.ltb_lt _ _) Hs).
    - intros Hs t' -> Ht. rewrite Hs, timeIndex_none by auto. reflexivity.
  Qed.
End C46.

(** executed: filtering distribution of a coin after head, tail; simulated tail and head, and head only *)
Example C46_executed :
  (let* S0 := setup (L := Q) (data [1; 0]%Z) None (coinOM quarters PNone) static in let* A := fit S0 true false in
   Ok (simulate A [Fin 0; Fin 1]%Q (Some 0%Q) true, simulate A [Fin 0; Fin 1]%Q None false, simulate A [Fin 1]%Q None false, simulate A [Fin 1]%Q (Some 3%Q) false))%res
  = Ok (Ok (Some [Fin (5 # 12); Fin (7 # 12)]%Q), Ok (Some [Fin (11 # 24); Fin (13 # 24)]%Q), Ok (Some [Fin 1%Q]), Err PostProcessingError).
Proof. vm_compute. reflexivity. Qed.
Example C46_ex : exists (S S' : study R R) posts, setup (data [1; 0; 1]%Z) None (coin PNone) walkChange = Ok S /\ fit S true false = Ok S' /\
  hasPosteriors S' (coin PNone) [quarters] (formatTimestamps (times [1; 0; 1]%Z) 1) posts /\ om_seglen (coin PNone) = 1%nat /\
  pdfValues S' (coin PNone) [quarters] (fun xi g => match xi with Fin d => d * Rnth quarters g + (1 - d) * (1 - Rnth quarters g) | _ => 0 end) [Fin 0; Fin 1] /\
  (exists p, weights S' (formatTimestamps (times [1; 0; 1]%Z) 1) posts (Some 1) p) /\ (exists p, weights S' (formatTimestamps (times [1; 0; 1]%Z) 1) posts None p).
Proof.
  destruct C13_example as (S & S' & v & E & C & Em & Run & Pr & Lk & EF & Ev & _). exists S, S'.
  destruct (C13_mean_values S _ _ _ _ true S' v C Em Run Pr Lk EF Ev) as (o' & posts & _ & HP & _). exists posts.
  assert (Eo : st_om S = Some (coin PNone)) by apply (cf_om _ _ _ _ _ C).
  destruct (C10_refit _ _ _ _ S (coin PNone) true false S' EF Eo) as (Eo' & _ & _ & _ & Eg & _); [discriminate|].
  assert (o' = coin PNone) as -> by (pose proof (hp_om _ _ _ _ _ HP); congruence).
  split; [exact E|]. split; [exact EF|]. split; [exact HP|]. split; [reflexivity|]. split; [|split].
  - intros xi Hi. rewrite Eg, (cf_grid _ _ _ _ _ C). destruct Hi as [<-|[<-|[]]]; unfold arrOf, tab, Rnth; cbn; repeat f_equal.
  - eexists. exists 1%nat. split; [|reflexivity]. cbn. split; [cbn; f_equal|]. intros [|j] Hj; [|lia]. cbn. intros X. injection X. lra.
  - eexists. split; [|reflexivity]. discriminate.
Qed.
