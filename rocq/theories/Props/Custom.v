(** Custom observation models (NumPy, SciPy, SymPy): C64. *)
From Coq Require Import List ZArith Reals Lra Lia Arith Bool String Permutation QArith.
From Verif Require Import Base.Num Base.Exn Base.Arr Base.RSum Base.Lift Model.Helper Model.Tm Model.HyperParams Model.Study Model.Api Model.ObsModels Model.CustomOM
  Spec.Kernel Spec.Hmm Spec.Config Spec.Dist Spec.Data Spec.Marginal Spec.ObsSpec Spec.CustomSpec Proof.Gauss Proof.FitThms Proof.FitInv Proof.SetupProof Proof.GridProof Proof.MarginalProof Proof.DataProof Props.Ex Props.Setup Props.Inference Props.Batch Props.Parameters Props.HyperStudy Props.Observation.
Import ListNotations.
Local Open Scope string_scope.
Local Open Scope R_scope.

(** ** grid points *)
Lemma point_length vs x : List.length (point vs x) = List.length vs.
Proof. unfold point. now rewrite map_length, seq_length. Qed.
Lemma tab_nth_error {B} N (g : nat -> B) x : (x < N)%nat -> nth_error (tab N g) x = Some (g x).
Proof.
  intros Hx. unfold tab. rewrite nth_error_map. replace (nth_error (seq 0 N) x) with (Some x); [reflexivity|].
  symmetry. rewrite (nth_error_nth' _ 0%nat) by now rewrite seq_length. now rewrite seq_nth.
Qed.

Lemma gridRows_mesh (vs : list (list R)) : vs <> [] -> gridRows (meshgrid vs) = tab (gridPoints vs) (point vs).
Proof.
  intros Nn. assert (L : (0 < List.length vs)%nat) by (destruct vs; [easy|cbn; lia]).
  unfold gridRows. assert (E0 : List.length (nth 0 (meshgrid vs) []) = gridPoints vs) by exact (meshgrid_length vs 0 L).
  rewrite E0. unfold tab. apply map_ext_in. intros x Hx. apply in_seq in Hx. unfold point.
  assert (Lm : List.length (meshgrid vs) = List.length vs) by (unfold meshgrid; now rewrite map_length, seq_length).
  rewrite <- Lm. assert (EM : meshgrid vs = map (gridOf (meshgrid vs)) (seq 0 (List.length (meshgrid vs)))).
  { apply nth_ext with (d := []) (d' := gridOf (meshgrid vs) 0); [now rewrite map_length, seq_length|]. intros k Hk. rewrite (map_nth (gridOf (meshgrid vs))), seq_nth by auto. reflexivity. }
  rewrite EM at 1. rewrite map_map. apply map_ext_in. intros k Hk. apply in_seq in Hk. rewrite (gridOf_tab vs k) by lia.
  apply nth_error_nth, tab_nth_error. lia.
Qed.
Lemma isIn_true n l : isIn n l = true <-> In n l.
Proof. unfold isIn. rewrite existsb_exists. split; [intros (y & I & E); apply String.eqb_eq in E; now subst|]. intros I. exists n. split; [auto|apply String.eqb_refl]. Qed.
Lemma isIn_false n l : isIn n l = false <-> ~ In n l.
Proof. rewrite <- isIn_true. destruct (isIn n l); split; congruence. Qed.
Lemma none_outside l allowed : existsb (fun n => negb (isIn n allowed)) l = false <-> incl l allowed.
Proof.
  split.
  - intros E n I. destruct (isIn n allowed) eqn:X; [now apply isIn_true|]. exfalso.
    assert (existsb (fun n => negb (isIn n allowed)) l = true) by (apply existsb_exists; exists n; rewrite X; auto). congruence.
  - intros I. destruct (existsb _ l) eqn:X; [|reflexivity]. apply existsb_exists in X. destruct X as (n & In1 & X). apply I, isIn_true in In1. now rewrite In1 in X.
Qed.

(** ** names and values *)
Lemma lookup_None kws n : lookup (F := R) kws n = None <-> ~ In n (map fst kws).
Proof.
  unfold lookup. split.
  - intros E I. apply in_map_iff in I. destruct I as ([m v] & <- & I). destruct (find _ kws) eqn:X; [discriminate|].
    apply (find_none _ _ X) in I. cbn in I. now rewrite String.eqb_refl in I.
  - intros N. destruct (find _ kws) as [[m v]|] eqn:X; [|reflexivity]. apply find_some in X. destruct X as [I E]. cbn in E. apply String.eqb_eq in E. subst m.
    exfalso. apply N. apply in_map_iff. now exists (n, v).
Qed.
Lemma lookup_In kws n v : lookup (F := R) kws n = Some v -> In (n, v) kws.
Proof.
  unfold lookup. destruct (find _ kws) as [[m w]|] eqn:X; [|discriminate]. apply find_some in X. destruct X as [I E]. cbn in E. apply String.eqb_eq in E. subst m.
  cbn. intros [= ->]. exact I.
Qed.
Lemma lookup_unique kws n v : NoDup (map fst kws) -> In (n, v) kws -> lookup (F := R) kws n = Some v.
Proof.
  unfold lookup. induction kws as [|[m w] kws IH]; intros ND I; [destruct I|]. cbn [find fst]. inversion ND as [|? ? Nn ND']; subst.
  destruct I as [[= -> ->]|I]; [now rewrite String.eqb_refl|]. destruct (String.eqb m n) eqn:E; [|auto].
  apply String.eqb_eq in E. subst m. exfalso. apply Nn, in_map_iff. now exists (n, v).
Qed.
Lemma combine_In {A B} (ns : list A) (vs : list B) n v : In (n, v) (combine ns vs) -> exists k, nth_error ns k = Some n /\ nth_error vs k = Some v.
Proof.
  revert vs. induction ns as [|m ns IH]; intros [|w vs] I; try destruct I as [].
  - injection H as -> ->. now exists 0%nat.
  - destruct (IH _ H) as (k & E1 & E2). now exists (S k).
Qed.
Lemma In_combine {A B} (ns : list A) (vs : list B) k n v : nth_error ns k = Some n -> nth_error vs k = Some v -> In (n, v) (combine ns vs).
Proof.
  revert ns vs. induction k as [|k IH]; intros [|m ns] [|w vs] E1 E2; try discriminate; cbn in *; [injection E1 as ->; injection E2 as ->; now left|right; eauto].
Qed.
Lemma map_fst_combine {A B} (ns : list A) (vs : list B) : List.length ns = List.length vs -> map fst (combine ns vs) = ns.
Proof. revert vs. induction ns as [|m ns IH]; intros [|w vs] L; try discriminate; [reflexivity|]. cbn. f_equal. auto. Qed.
Lemma mapM_ok {A B} (f : A -> res B) (g : A -> B) l : (forall a, In a l -> f a = Ok (g a)) -> mapM f l = Ok (map g l).
Proof. induction l as [|a l IH]; intros E; [reflexivity|]. cbn [mapM map]. rewrite E by now left. cbn [bind]. rewrite IH; [reflexivity|]. intros; apply E; now right. Qed.
Lemma mapM_tab {B} (f : list R -> res B) (g : nat -> B) vs N : (forall x, (x < N)%nat -> f (point vs x) = Ok (g x)) -> mapM f (tab N (point vs)) = Ok (tab N g).
Proof.
  intros E. unfold tab. assert (H : forall l, (forall x, In x l -> (x < N)%nat) -> mapM f (map (point vs) l) = Ok (map g l)).
  { induction l as [|x l IH]; intros I; [reflexivity|]. cbn [map mapM]. rewrite E by (apply I; now left). cbn [bind]. rewrite IH; [reflexivity|]. intros; apply I; now right. }
  apply H. intros x Hx. apply in_seq in Hx. lia.
Qed.
Lemma Forall2_impl_ {A B} (P Q : A -> B -> Prop) : (forall a b, P a b -> Q a b) -> forall l l', Forall2 P l l' -> Forall2 Q l l'.
Proof. intros I l l'. induction 1; constructor; auto. Qed.

(** ** SciPy *)
(** the value of parameter n at a point *)
Definition valueOf (names : list string) (pt : list R) (fixed : list (string * R)) (n : string) : R :=
  match lookup (fixed ++ rev (combine names pt)) n with Some v => v | None => match scipyDefault n with Some v => v | None => 0 end end.
Section SciPy.
  Variables (names : list string) (fixed : list (string * R)) (pt : list R).
  Hypotheses (Nd : NoDup names) (Nf : NoDup (map fst fixed)) (Disj : forall n, In n names -> ~ In n (map fst fixed)) (Len : List.length pt = List.length names).
  Lemma keys_unique : NoDup (map fst (fixed ++ rev (combine names pt))).
  Proof.
    rewrite map_app, map_rev, map_fst_combine by auto. clear Len. revert Nf Disj. generalize (map fst fixed). intros l Nl D. induction Nl as [|a l Na Nl IH]; cbn.
    - now apply NoDup_rev.
    - constructor; [|apply IH; intros n I J; apply (D n I); now right]. rewrite in_app_iff, <- in_rev. intros [I|I]; [auto|]. apply (D a I). now left.
  Qed.
  Lemma supplied_functional n v w : supplied names pt fixed n v -> supplied names pt fixed n w -> v = w.
  Proof.
    assert (U : forall n v, In (n, v) (fixed ++ rev (combine names pt)) -> lookup (fixed ++ rev (combine names pt)) n = Some v) by (intros; apply lookup_unique; [exact keys_unique|auto]).
    assert (E : forall n v, supplied names pt fixed n v -> valueOf names pt fixed n = v).
    { intros m u [k n0 u0 E1 E2|n0 u0 I|N1 N2|N1 N2]; unfold valueOf.
      - rewrite (U n0 u0); [reflexivity|]. apply in_or_app. right. rewrite <- in_rev. eapply In_combine; eauto.
      - rewrite (U n0 u0); [reflexivity|]. apply in_or_app. now left.
      - rewrite (proj2 (lookup_None _ "loc")); [reflexivity|]. rewrite map_app, map_rev, map_fst_combine, in_app_iff, <- in_rev by auto. tauto.
      - rewrite (proj2 (lookup_None _ "scale")); [reflexivity|]. rewrite map_app, map_rev, map_fst_combine, in_app_iff, <- in_rev by auto. tauto. }
    intros H1 H2. rewrite <- (E _ _ H1). apply E. exact H2.
  Qed.
  Lemma value_supplied n : (In n names \/ In n (map fst fixed) \/ n = "loc" \/ n = "scale") -> supplied names pt fixed n (valueOf names pt fixed n).
  Proof.
    intros C. unfold valueOf. destruct (lookup _ n) as [v|] eqn:E.
    - apply lookup_In, in_app_or in E. destruct E as [I|I]; [now apply sup_fixed|]. rewrite <- in_rev in I. apply combine_In in I. destruct I as (k & E1 & E2). eapply sup_free; eauto.
    - apply lookup_None in E. rewrite map_app, map_rev, map_fst_combine, in_app_iff, <- in_rev in E by auto.
      destruct C as [C|[C|[-> | ->]]]; [tauto|tauto| |]; [apply sup_loc|apply sup_scale]; tauto.
  Qed.
  Variable rv : scipyRV R.
  Hypotheses (Kf : incl (map fst fixed) (rvParams rv)) (Kn : incl names (rvParams rv))
    (Cov : forall sh n, rv_shapes rv = Some sh -> In n sh -> In n names \/ In n (map fst fixed)).
  Lemma params_covered n : In n (rvParams rv) -> In n names \/ In n (map fst fixed) \/ n = "loc" \/ n = "scale".
  Proof.
    unfold rvParams. intros I. apply in_app_or in I. destruct I as [I|I].
    - destruct (rv_shapes rv) as [sh|] eqn:E; [|destruct I]. destruct (Cov sh n eq_refl I); auto.
    - destruct I as [<-|I]; [auto|]. destruct (rv_continuous rv); [destruct I as [<-|[]]; auto|destruct I].
  Qed.
  Lemma scipyCall_value d : scipyCall rv d (fixed ++ rev (combine names pt)) = Ok (rv_density rv (map (valueOf names pt fixed) (rvParams rv)) d).
  Proof.
    unfold scipyCall. replace (existsb _ _) with false.
    - rewrite mapM_ok with (g := valueOf names pt fixed); [reflexivity|]. intros n I. unfold valueOf. destruct (lookup _ n) eqn:E; [reflexivity|].
      apply lookup_None in E. rewrite map_app, map_rev, map_fst_combine, in_app_iff, <- in_rev in E by auto.
      destruct (params_covered n I) as [C|[C|[-> | ->]]]; tauto || reflexivity.
    - symmetry. destruct (existsb _ _) eqn:E; [|reflexivity]. apply existsb_exists in E. destruct E as ([n v] & I & E). cbn in E.
      assert (Q : In n (map fst (fixed ++ rev (combine names pt)))) by (apply in_map_iff; now exists (n, v)).
      rewrite map_app, map_rev, map_fst_combine, in_app_iff, <- in_rev in Q by auto. assert (In n (rvParams rv)) as Q2 by (destruct Q; auto). apply isIn_true in Q2. now rewrite Q2 in E.
  Qed.
  Lemma values_supplied : Forall2 (supplied names pt fixed) (rvParams rv) (map (valueOf names pt fixed) (rvParams rv)).
  Proof.
    assert (H : forall l, incl l (rvParams rv) -> Forall2 (supplied names pt fixed) l (map (valueOf names pt fixed) l)).
    { induction l as [|n l IH]; intros I; [constructor|]. constructor; [apply value_supplied, params_covered, I; now left|apply IH; intros m J; apply I; now right]. }
    apply H. now intros n.
  Qed.
  Lemma values_unique l vals : Forall2 (supplied names pt fixed) l vals -> Forall2 (supplied names pt fixed) l (map (valueOf names pt fixed) l) -> vals = map (valueOf names pt fixed) l.
  Proof. induction 1 as [|n v l vals S1 SF IH]; intros G; [reflexivity|]. inversion G; subst. cbn [map]. f_equal; [eapply supplied_functional; eauto|auto]. Qed.
End SciPy.

(** what an accepted SciPy model looks like *)
Lemma scipyOM_inv rv a fixed keys prior (o : om R) : scipyOM (Some rv) a fixed keys prior = Ok o ->
  o = custom (om_names o) (om_values o) true prior (scipyPdf rv (om_names o) fixed) /\ incl (om_names o) (rvParams rv) /\
  (forall n, In n (om_names o) -> ~ In n (map fst fixed)) /\ (argNames a <> [] -> om_names o = argNames a /\ om_values o = argValues a) /\
  (argNames a = [] -> (forall n, In n (om_names o) <-> In n (rvParams rv) /\ ~ In n (map fst fixed)) /\ om_values o = map (fun _ => None) (om_names o)) /\
  incl keys ["prior"; "fixedParameters"].
Proof.
  unfold scipyOM. destruct (unknownKey keys _) eqn:Ek; [discriminate|]. apply none_outside in Ek.
  set (rvNames := filter _ (rvParams rv)).
  assert (In1 : forall n, In n rvNames <-> In n (rvParams rv) /\ ~ In n (map fst fixed)).
  { intros n. unfold rvNames. rewrite filter_In. rewrite negb_true_iff, isIn_false. tauto. }
  destruct (argNames a) as [|n0 ns] eqn:Ea.
  - destruct (existsb _ rvNames) eqn:E; [discriminate|]. intros [= <-]. cbn [om_names om_values custom].
    split; [reflexivity|]. split; [intros n I; now apply In1 in I|]. split; [intros n I; now apply In1 in I|]. split; [easy|]. split; [|exact Ek]. intros _. split; [exact In1|reflexivity].
  - destruct (existsb _ (n0 :: ns)) eqn:E; [discriminate|]. intros [= <-]. apply none_outside in E. cbn [om_names om_values custom].
    split; [reflexivity|]. split; [intros n I; now apply E, In1 in I|]. split; [intros n I; now apply E, In1 in I|]. split; [auto|]. split; [easy|exact Ek].
Qed.

(** [covers rv names fixed]: every parameter has exactly one value: names are not repeated, only parameters of the distribution are
    fixed, and every shape parameter is free or fixed *)
Record covers (rv : scipyRV R) (names : list string) (fixed : list (string * R)) : Prop := {
  cv_names : NoDup names;
  cv_fixed : NoDup (map fst fixed);
  cv_known : incl (map fst fixed) (rvParams rv);
  cv_shapes : forall sh n, rv_shapes rv = Some sh -> In n sh -> In n names \/ In n (map fst fixed)
}.
Lemma scipy_tab rv a fixed keys prior (o : om R) vs d : scipyOM (Some rv) a fixed keys prior = Ok o -> covers rv (om_names o) fixed ->
  vs <> [] -> List.length (om_names o) = List.length vs ->
  om_pdf o (meshgrid vs) (Seg1 [d]) = tab (gridPoints vs) (fun x => rv_density rv (map (valueOf (om_names o) (point vs x) fixed) (rvParams rv)) d).
Proof.
  intros E C Nn L. destruct (scipyOM_inv _ _ _ _ _ _ E) as (Eo & Kn & Dj & _). destruct C as [C1 C2 C3 C4]. rewrite Eo at 1. cbn [om_pdf custom].
  unfold scipyPdf. cbn [firstItem index nth_error bind]. rewrite gridRows_mesh by auto.
  rewrite mapM_tab with (g := fun x => rv_density rv (map (valueOf (om_names o) (point vs x) fixed) (rvParams rv)) d); [reflexivity|].
  intros x Hx. apply scipyCall_value; auto. now rewrite point_length.
Qed.
(** The density at every grid point is the density of the distribution with every parameter set to the value supplied under its name *)
Theorem C64_scipy : forall rv a fixed keys prior (o : om R) vs d x, scipyOM (Some rv) a fixed keys prior = Ok o -> covers rv (om_names o) fixed ->
  vs <> [] -> List.length (om_names o) = List.length vs -> (x < gridPoints vs)%nat ->
  exists vals, Forall2 (supplied (om_names o) (point vs x) fixed) (rvParams rv) vals /\
    (forall vals', Forall2 (supplied (om_names o) (point vs x) fixed) (rvParams rv) vals' -> vals' = vals) /\
    nth_error (om_pdf o (meshgrid vs) (Seg1 [d])) x = Some (rv_density rv vals d).
Proof.
  intros rv a fixed keys prior o vs d x E C Nn L Hx. rewrite (scipy_tab _ _ _ _ _ _ _ _ E C Nn L), tab_nth_error by auto.
  destruct (scipyOM_inv _ _ _ _ _ _ E) as (_ & Kn & Dj & _). destruct C as [C1 C2 C3 C4].
  assert (Lp : List.length (point vs x) = List.length (om_names o)) by now rewrite point_length.
  exists (map (valueOf (om_names o) (point vs x) fixed) (rvParams rv)).
  assert (V : Forall2 (supplied (om_names o) (point vs x) fixed) (rvParams rv) (map (valueOf (om_names o) (point vs x) fixed) (rvParams rv))) by (apply values_supplied; auto).
  split; [exact V|]. split; [|reflexivity]. intros vals' V'. apply values_unique; auto.
Qed.
(** Two models of the same distribution with the parameters in a different order agree: equal values under equal names give equal densities *)
Theorem C64_order : forall rv a a' fixed keys prior keys' prior' (o o' : om R) vs vs' d x x',
  scipyOM (Some rv) a fixed keys prior = Ok o -> scipyOM (Some rv) a' fixed keys' prior' = Ok o' -> covers rv (om_names o) fixed ->
  vs <> [] -> List.length (om_names o) = List.length vs -> List.length (om_names o') = List.length vs' -> (x < gridPoints vs)%nat -> (x' < gridPoints vs')%nat ->
  Permutation (combine (om_names o) (point vs x)) (combine (om_names o') (point vs' x')) ->
  nth_error (om_pdf o (meshgrid vs) (Seg1 [d])) x = nth_error (om_pdf o' (meshgrid vs') (Seg1 [d])) x'.
Proof.
  intros rv a a' fixed keys prior keys' prior' o o' vs vs' d x x' E E' C Nn L L' Hx Hx' P.
  assert (Lp : List.length (om_names o) = List.length (point vs x)) by now rewrite point_length.
  assert (Lp' : List.length (om_names o') = List.length (point vs' x')) by now rewrite point_length.
  assert (Pn : Permutation (om_names o) (om_names o')) by (rewrite <- (map_fst_combine _ _ Lp), <- (map_fst_combine _ _ Lp'); now apply Permutation_map).
  assert (Nn' : vs' <> []). { intros ->. apply Permutation_length in Pn. destruct vs; [easy|]. cbn in *. lia. }
  assert (C' : covers rv (om_names o') fixed).
  { destruct C as [C1 C2 C3 C4]. split; auto.
    - eapply Permutation_NoDup; eauto.
    - intros sh n Es I. destruct (C4 sh n Es I); [left; eapply Permutation_in; eauto|now right]. }
  destruct (C64_scipy _ _ _ _ _ _ _ d _ E C Nn L Hx) as (vals & V & _ & ->).
  destruct (C64_scipy _ _ _ _ _ _ _ d _ E' C' Nn' L' Hx') as (vals' & V' & U' & ->).
  do 2 f_equal. apply U'. clear U' V'. revert V. apply Forall2_impl_. intros n v [k m u E1 E2|m u I|N1 N2|N1 N2].
  - assert (I : In (m, u) (combine (om_names o') (point vs' x'))) by (eapply Permutation_in; [exact P|]; eapply In_combine; eauto).
    apply combine_In in I. destruct I as (k' & F1 & F2). eapply sup_free; eauto.
  - now apply sup_fixed.
  - apply sup_loc; auto. intros I. apply N1. eapply Permutation_in; [symmetry; exact Pn|exact I].
  - apply sup_scale; auto. intros I. apply N1. eapply Permutation_in; [symmetry; exact Pn|exact I].
Qed.

(** ** within the inference *)
Lemma arrOf_tab N (f : nat -> R) : arrOf N f = tab N (fun x => Fin (f x)).
Proof. unfold arrOf. now rewrite map_tab. Qed.
Lemma amul_arrOf N f g : amul (arrOf N f) (arrOf N g) = arrOf N (fun x => f x * g x).
Proof. unfold arrOf. rewrite amul_fin. f_equal. unfold tab. generalize (seq 0 N). induction l as [|x l IH]; [reflexivity|]. cbn. now f_equal. Qed.
Lemma arrOf_ext N f g : (forall x, (x < N)%nat -> f x = g x) -> arrOf N f = arrOf N g.
Proof. intros E. unfold arrOf. f_equal. now apply tab_ext. Qed.
Lemma windows1 {A} (l : list A) i w : nth_error (movingWindow l 1) i = Some w -> exists v, nth_error l i = Some v /\ w = [v].
Proof.
  unfold movingWindow. intros E. rewrite nth_error_map in E.
  assert (Hi : (i < List.length l)%nat).
  { destruct (Nat.lt_ge_cases i (List.length l)) as [Lt|Ge]; [exact Lt|]. rewrite (proj2 (nth_error_None _ i)) in E; [discriminate|]. rewrite seq_length. lia. }
  rewrite (nth_error_nth' _ 0%nat) in E by (rewrite seq_length; lia). rewrite seq_nth in E by lia. cbn [option_map Nat.add] in E. injection E as <-.
  revert i Hi. induction l as [|a l IH]; intros i Hi; [cbn in Hi; lia|].
  destruct i as [|i]; [exists a; split; reflexivity|]. cbn in Hi. destruct (IH i) as (v & E1 & E2); [lia|]. exists v. cbn [nth_error skipn]. auto.
Qed.
Lemma independent_likelihoods (S : study R R) (o : om R) vs f : om_seglen o = 1%nat -> om_multiply o = true ->
  (forall d, om_pdf o (meshgrid vs) (Seg1 [Fin d]) = arrOf (gridPoints vs) (f d)) -> (forall d x, (x < gridPoints vs)%nat -> 0 <= f d x) ->
  everyDatum (missingOr anyNumber) (st_raw S) -> likelihoods S o vs (dataLik f (st_raw S)).
Proof.
  intros Es Em Ep Pf Ed i s Hs. unfold segments in Hs. rewrite Es in Hs.
  assert (P1 : forall v, missingOr anyNumber v -> processed1 o (gridPoints vs) (meshgrid vs) [v] = arrOf (gridPoints vs) (datumLik f v)).
  { intros v [->|(r & -> & _)]; unfold processed1; cbn [existsb xisnan orb]; [apply arrOf_ones|apply Ep]. }
  assert (P2 : forall v x, missingOr anyNumber v -> (x < gridPoints vs)%nat -> 0 <= datumLik f v x).
  { intros v x [->|(r & -> & _)] Hx; cbn [datumLik]; [lra|auto]. }
  destruct (st_raw S) as [l|rows]; cbn [formatData everyDatum] in *; rewrite nth_error_map in Hs.
  - change (dataLik f (Raw1 l) i) with (datumLik f (nth i l NaN)). destruct (nth_error (movingWindow l 1) i) as [w|] eqn:Ew; [|discriminate]. injection Hs as <-. destruct (windows1 _ _ _ Ew) as (v & Ev & ->).
    rewrite (nth_error_nth _ _ NaN Ev). apply nth_error_In in Ev. rewrite Forall_forall in Ed. specialize (Ed v Ev). split; [now apply P1|intros; now apply P2].
  - change (dataLik f (Raw2 rows) i) with (fun x => Rprod (map (fun v => datumLik f v x) (nth i rows []))).
    destruct (nth_error (movingWindow rows 1) i) as [w|] eqn:Ew; [|discriminate]. injection Hs as <-. destruct (windows1 _ _ _ Ew) as (row & Ev & ->).
    rewrite (nth_error_nth _ _ [] Ev). apply nth_error_In in Ev. rewrite Forall_forall in Ed. specialize (Ed row Ev). cbn [processedPdf]. rewrite Em. split.
    + assert (Ec : columns [row] = map (fun v => [v]) row).
      { rewrite columns_seq. unfold width. cbn [hd]. unfold column. cbn [map]. clear. induction row as [|v row IH]; [reflexivity|]. cbn [List.length seq map nth]. f_equal.
        rewrite <- seq_shift, map_map. cbn [nth]. exact IH. }
      rewrite Ec, map_map. rewrite arrOf_ones.
      enough (G : forall l g, Forall (missingOr anyNumber) l -> fold_left amul (map (fun x => processed1 o (gridPoints vs) (meshgrid vs) [x]) l) (arrOf (gridPoints vs) g) =
        arrOf (gridPoints vs) (fun x => g x * Rprod (map (fun v => datumLik f v x) l))).
      { rewrite G by auto. apply arrOf_ext. intros x _. ring. }
      intros l. induction l as [|v l IH]; intros g HF.
      * cbn. apply arrOf_ext. intros. cbn. ring.
      * inversion HF; subst. cbn [map fold_left]. rewrite P1, amul_arrOf, IH by auto. apply arrOf_ext. intros x _. cbn [map]. change (Rprod (?a :: ?b)) with (a * Rprod b). ring.
    + intros x Hx. apply Rprod_nonneg. apply Forall_map, Forall_forall. intros v I. rewrite Forall_forall in Ed. apply P2; auto.
Qed.
(** In a fit, the likelihood of a data point is the density with the values supplied by name; missing values count as one, and components of
    vectors are independent. *)
Theorem C64_scipy_likelihoods : forall (S : study R R) rv a fixed keys prior o m vs ts f, configured S o m vs ts ->
  scipyOM (Some rv) a fixed keys prior = Ok o -> covers rv (om_names o) fixed -> everyDatum (missingOr anyNumber) (st_raw S) ->
  (forall d x vals, (x < gridPoints vs)%nat -> Forall2 (supplied (om_names o) (point vs x) fixed) (rvParams rv) vals -> rv_density rv vals (Fin d) = Fin (f d x) /\ 0 <= f d x) ->
  likelihoods S o vs (dataLik f (st_raw S)).
Proof.
  intros S rv a fixed keys prior o m vs ts f Cf E C Ed Hf. destruct (scipyOM_inv _ _ _ _ _ _ E) as (Eo & Kn & Dj & _).
  pose proof (cf_names _ _ _ _ _ Cf) as L. pose proof (cf_dim _ _ _ _ _ Cf) as Nn.
  assert (V : forall x, Forall2 (supplied (om_names o) (point vs x) fixed) (rvParams rv) (map (valueOf (om_names o) (point vs x) fixed) (rvParams rv))).
  { intros x. destruct C as [C1 C2 C3 C4]. apply values_supplied; auto. now rewrite point_length. }
  apply independent_likelihoods; auto; try (rewrite Eo; reflexivity).
  - intros d. rewrite (scipy_tab _ _ _ _ _ _ _ _ E C Nn L), arrOf_tab. apply tab_ext. intros x Hx. now apply (Hf d x _ Hx).
  - intros d x Hx. now apply (Hf d x _ Hx (V x)).
Qed.

(** accepted arguments: a scipy.stats distribution, known keywords, and names of parameters that are not fixed *)
Theorem C64_scipy_accepted : forall (rv : option (scipyRV R)) a fixed keys prior,
  ((exists o, scipyOM rv a fixed keys prior = Ok o) <->
   exists rv0, rv = Some rv0 /\ incl keys ["prior"; "fixedParameters"] /\ forall n, In n (argNames a) -> In n (rvParams rv0) /\ ~ In n (map fst fixed)) /\
  (forall e, scipyOM rv a fixed keys prior = Err e -> e = TypeError /\ ~ incl keys ["prior"; "fixedParameters"] \/ e = ConfigurationError).
Proof.
  intros rv a fixed keys prior. split.
  - split.
    + intros (o & E). destruct rv as [rv|]; [|discriminate]. exists rv. split; [reflexivity|]. destruct (scipyOM_inv _ _ _ _ _ _ E) as (_ & Kn & Dj & Ea & _ & Ek).
      split; [exact Ek|]. intros n I. destruct Ea as [Ea _]; [intros Z; now rewrite Z in I|]. rewrite <- Ea in I. auto.
    + intros (rv0 & -> & Ek & Hn). unfold scipyOM, unknownKey. rewrite (proj2 (none_outside _ _) Ek).
      set (rvNames := filter _ (rvParams rv0)).
      assert (In1 : forall n, In n rvNames <-> In n (rvParams rv0) /\ ~ In n (map fst fixed)).
      { intros n. unfold rvNames. rewrite filter_In. rewrite negb_true_iff, isIn_false. tauto. }
      destruct (argNames a) as [|n0 ns] eqn:Ea.
      * rewrite (proj2 (none_outside rvNames rvNames)) by (intros n; auto). eauto.
      * rewrite (proj2 (none_outside (n0 :: ns) rvNames)); [eauto|]. intros n I. apply In1. auto.
  - intros e. destruct rv as [rv|]; cbn [scipyOM]; [|intros [= <-]; auto]. destruct (unknownKey keys _) eqn:Ek.
    + intros [= <-]. left. split; [reflexivity|]. intros I. apply none_outside in I. unfold unknownKey in Ek. congruence.
    + set (p := match argNames a with [] => _ | _ => _ end). destruct p as [nm vl]. destruct (existsb _ nm); [|discriminate]. intros [= <-]. auto.
Qed.

(** ** NumPy *)
(** a data point as the function gets it *)
Definition itemOf (d : raw R) (i : nat) : item R := match d with Raw1 l => Scalar (nth i l NaN) | Raw2 rows => Row (nth i rows []) end.
Definition incomplete (it : item R) : Prop := match it with Scalar v => v = NaN | Row l => In NaN l end.
Lemma numpyOM_inv f a keys prior (o : om R) : numpyOM (Some f) a keys prior = Ok o ->
  o = custom (argNames a) (argValues a) false prior (numpyPdf f) /\ List.length (pf_args f) = Datatypes.S (List.length (argNames a)) /\ nth_error (pf_args f) 0 = Some "data" /\ incl keys ["prior"].
Proof.
  unfold numpyOM. destruct (Nat.eqb _ _) eqn:E1; cbn [negb]; [|discriminate]. destruct (String.eqb _ "data") eqn:E2; cbn [negb]; [|discriminate].
  destruct (unknownKey keys _) eqn:Ek; [discriminate|]. intros [= <-]. apply Nat.eqb_eq in E1. apply String.eqb_eq in E2.
  split; [reflexivity|]. split; [auto|]. split; [|now apply none_outside].
  rewrite (nth_error_nth' _ ""); [now rewrite E2|lia].
Qed.
(** The function is called with the data point and the values of the parameters in the order in which they are given *)
Theorem C64_numpy_likelihoods : forall (S : study R R) f a keys prior o m vs ts g, configured S o m vs ts -> numpyOM (Some f) a keys prior = Ok o ->
  (forall i x, (i < rawLen (st_raw S))%nat -> (x < gridPoints vs)%nat -> (incomplete (itemOf (st_raw S) i) -> g i x = 1) /\
     (~ incomplete (itemOf (st_raw S) i) -> pf_call f (itemOf (st_raw S) i) (point vs x) = Fin (g i x) /\ 0 <= g i x)) ->
  likelihoods S o vs g.
Proof.
  intros S f a keys prior o m vs ts g Cf E Hg. destruct (numpyOM_inv _ _ _ _ _ E) as (Eo & Lf & _). pose proof (cf_names _ _ _ _ _ Cf) as L. pose proof (cf_dim _ _ _ _ _ Cf) as Nn.
  assert (Ln : List.length (meshgrid vs) = List.length vs) by (unfold meshgrid; now rewrite map_length, seq_length).
  assert (Len : Nat.eqb (Datatypes.S (List.length (meshgrid vs))) (List.length (pf_args f)) = true).
  { apply Nat.eqb_eq. rewrite Ln, <- L, Lf, Eo. reflexivity. }
  assert (Case : forall i it (p : list (xnum R)), itemOf (st_raw S) i = it -> (i < rawLen (st_raw S))%nat ->
    (forall b, (b = true <-> incomplete it) -> p = (if b then aones (gridPoints vs) else map (pf_call f it) (gridRows (meshgrid vs))) ->
    p = arrOf (gridPoints vs) (g i) /\ forall x, (x < gridPoints vs)%nat -> 0 <= g i x)).
  { intros i it p Ei Hi b Hb ->. destruct b.
    - assert (I : incomplete it) by now apply Hb. subst it. rewrite arrOf_ones. split; [|intros x Hx; rewrite (proj1 (Hg i x Hi Hx) I); lra].
      apply arrOf_ext. intros x Hx. symmetry. now apply (Hg i x Hi Hx).
    - assert (I : ~ incomplete it) by (intros I; apply Hb in I; discriminate). subst it. rewrite gridRows_mesh, map_tab, arrOf_tab by auto. split.
      + apply tab_ext. intros x Hx. now apply (proj2 (Hg i x Hi Hx)).
      + intros x Hx. now apply (proj2 (Hg i x Hi Hx)). }
  intros i s Hs. unfold segments in Hs. replace (om_seglen o) with 1%nat in Hs by (rewrite Eo; reflexivity).
  assert (Ep : om_pdf o = om_pdf (custom (argNames a) (argValues a) false prior (numpyPdf f))) by now rewrite <- Eo.
  assert (Em : om_multiply o = false) by (rewrite Eo; reflexivity).
  destruct (st_raw S) as [l|rows] eqn:Er; cbn [formatData itemOf rawLen] in *; rewrite nth_error_map in Hs.
  - destruct (nth_error (movingWindow l 1) i) as [w|] eqn:Ew; [|discriminate]. injection Hs as <-. destruct (windows1 _ _ _ Ew) as (v & Ev & ->).
    assert (Hi : (i < List.length l)%nat) by (apply nth_error_Some; congruence).
    cbn [processedPdf]. apply (Case i (Scalar v) _ (f_equal _ (nth_error_nth _ _ NaN Ev)) Hi (xisnan v)).
    + cbn [incomplete]. destruct v; cbn [xisnan]; split; congruence.
    + unfold processed1. cbn [existsb]. rewrite orb_false_r. destruct (xisnan v); [reflexivity|]. rewrite Ep. cbn [om_pdf custom]. unfold numpyPdf. cbn [firstItem index nth_error bind]. now rewrite Len.
  - destruct (nth_error (movingWindow rows 1) i) as [w|] eqn:Ew; [|discriminate]. injection Hs as <-. destruct (windows1 _ _ _ Ew) as (row & Ev & ->).
    assert (Hi : (i < List.length rows)%nat) by (apply nth_error_Some; congruence).
    cbn [processedPdf]. rewrite Em. cbn [existsb]. rewrite orb_false_r. apply (Case i (Row row) _ (f_equal _ (nth_error_nth _ _ [] Ev)) Hi (existsb xisnan row)).
    + cbn [incomplete]. rewrite existsb_exists. split.
      * intros (v & I & Ex). destruct v; try discriminate. exact I.
      * intros I. now exists NaN.
    + destruct (existsb xisnan row); [reflexivity|]. rewrite Ep. cbn [om_pdf custom]. unfold numpyPdf. cbn [firstItem index nth_error bind]. now rewrite Len.
Qed.
(** accepted arguments: a function whose first argument is called data and which has one more argument for every parameter; the names of
    the other arguments do not matter *)
Theorem C64_numpy_accepted : forall (f : option (pyFunction R)) a keys prior,
  ((exists o, numpyOM f a keys prior = Ok o) <->
   exists f0 rest, f = Some f0 /\ pf_args f0 = "data" :: rest /\ List.length rest = List.length (argNames a) /\ incl keys ["prior"]) /\
  (forall e, numpyOM f a keys prior = Err e -> e = TypeError /\ ~ incl keys ["prior"] \/ e = ConfigurationError).
Proof.
  intros f a keys prior. split.
  - split.
    + intros (o & E). destruct f as [f|]; [|discriminate]. destruct (numpyOM_inv _ _ _ _ _ E) as (_ & L & D & K). destruct (pf_args f) as [|d rest] eqn:Ea; [discriminate|].
      exists f, rest. cbn in D. injection D as ->. cbn in L. repeat split; auto.
    + intros (f0 & rest & -> & Ea & L & K). unfold numpyOM, unknownKey. rewrite Ea. cbn [List.length nth]. rewrite L, Nat.eqb_refl. cbn [negb String.eqb Ascii.eqb Bool.eqb].
      rewrite (proj2 (none_outside _ _) K). eauto.
  - intros e. destruct f as [f|]; cbn [numpyOM]; [|intros [= <-]; auto]. destruct (negb _); [intros [= <-]; auto|]. destruct (negb _); [intros [= <-]; auto|].
    destruct (unknownKey keys _) eqn:Ek; [|discriminate]. intros [= <-]. left. split; [reflexivity|]. intros I. apply none_outside in I. unfold unknownKey in Ek. congruence.
Qed.

(** ** SymPy *)
Lemma symPyOM_inv rv a keys prior det (o : om R) : symPyOM (Some rv) a keys prior det = Ok o ->
  o = custom (om_names o) (om_values o) true (match prior with Some p => p | None => PNone end) (symPyPdf rv (om_names o)) /\ incl (om_names o) (sy_params rv) /\
  (argNames a <> [] -> om_names o = argNames a /\ om_values o = argValues a) /\
  (argNames a = [] -> om_names o = sy_params rv /\ om_values o = map (fun _ => None) (om_names o)) /\ incl keys ["prior"; "determineJeffreysPrior"].
Proof.
  unfold symPyOM. rewrite C49_sympy_prior. destruct (argNames a) as [|n0 ns] eqn:Ea.
  - destruct (existsb _ (sy_params rv)) eqn:E; [discriminate|]. destruct (unknownKey keys _) eqn:Ek; [discriminate|]. apply none_outside in Ek, E. intros [= <-]. cbn [om_names om_values custom].
    split; [reflexivity|]. split; [exact E|]. split; [easy|]. split; [auto|exact Ek].
  - destruct (existsb _ (n0 :: ns)) eqn:E; [discriminate|]. destruct (unknownKey keys _) eqn:Ek; [discriminate|]. apply none_outside in Ek, E. intros [= <-]. cbn [om_names om_values custom].
    split; [reflexivity|]. split; [exact E|]. split; [auto|]. split; [easy|exact Ek].
Qed.
Definition symValue (names : list string) (pt : list R) (n : string) : R := match lookup (combine names pt) n with Some v => v | None => 0 end.
Lemma named_iff names pt n v : NoDup names -> List.length pt = List.length names -> (named names pt n v <-> lookup (combine names pt) n = Some v).
Proof.
  intros Nd L. split.
  - intros (k & E1 & E2). apply lookup_unique; [now rewrite map_fst_combine|]. eapply In_combine; eauto.
  - intros E. apply lookup_In, combine_In in E. exact E.
Qed.
Lemma named_lookup names (pt : list R) n : List.length pt = List.length names -> In n names -> exists v, lookup (combine names pt) n = Some v.
Proof.
  intros L I. destruct (lookup (combine names pt) n) as [v|] eqn:E; [eauto|]. apply lookup_None in E. rewrite map_fst_combine in E by auto. easy.
Qed.
Lemma sympy_tab rv a keys prior det (o : om R) vs d : symPyOM (Some rv) a keys prior det = Ok o -> incl (sy_params rv) (om_names o) ->
  vs <> [] -> List.length (om_names o) = List.length vs ->
  om_pdf o (meshgrid vs) (Seg1 [d]) = tab (gridPoints vs) (fun x => sy_density rv (map (symValue (om_names o) (point vs x)) (sy_params rv)) d).
Proof.
  intros E C Nn L. destruct (symPyOM_inv _ _ _ _ _ _ E) as (Eo & Kn & _). rewrite Eo at 1. cbn [om_pdf custom].
  unfold symPyPdf. cbn [firstItem index nth_error bind]. rewrite gridRows_mesh by auto.
  assert (Ln : List.length (meshgrid vs) = List.length vs) by (unfold meshgrid; now rewrite map_length, seq_length).
  rewrite Ln, L, Nat.eqb_refl. cbn [negb].
  rewrite mapM_tab with (g := fun x => sy_density rv (map (symValue (om_names o) (point vs x)) (sy_params rv)) d); [reflexivity|].
  intros x Hx. rewrite mapM_ok with (g := symValue (om_names o) (point vs x)); [reflexivity|]. intros n I. unfold symValue.
  destruct (named_lookup (om_names o) (point vs x) n) as (v & ->); [now rewrite point_length|auto|reflexivity].
Qed.
(** The density at every grid point is the density of the random variable with every symbol set to the value given under its name *)
Theorem C64_sympy : forall rv a keys prior det (o : om R) vs d x, symPyOM (Some rv) a keys prior det = Ok o -> NoDup (om_names o) -> incl (sy_params rv) (om_names o) ->
  vs <> [] -> List.length (om_names o) = List.length vs -> (x < gridPoints vs)%nat ->
  exists vals, Forall2 (named (om_names o) (point vs x)) (sy_params rv) vals /\
    (forall vals', Forall2 (named (om_names o) (point vs x)) (sy_params rv) vals' -> vals' = vals) /\
    nth_error (om_pdf o (meshgrid vs) (Seg1 [d])) x = Some (sy_density rv vals d).
Proof.
  intros rv a keys prior det o vs d x E Nd C Nn L Hx. rewrite (sympy_tab _ _ _ _ _ _ _ _ E C Nn L), tab_nth_error by auto.
  assert (Lp : List.length (point vs x) = List.length (om_names o)) by now rewrite point_length.
  exists (map (symValue (om_names o) (point vs x)) (sy_params rv)). split; [|split; [|reflexivity]].
  - clear E Hx. revert C. generalize (sy_params rv) as l. induction l as [|n l IH]; intros C; [constructor|]. cbn [map]. constructor; [|apply IH; intros m I; apply C; now right].
    apply named_iff; auto. unfold symValue. destruct (named_lookup (om_names o) (point vs x) n Lp) as (v & ->); [apply C; now left|reflexivity].
  - intros vals'. clear E Hx C. generalize (sy_params rv) as l. intros l. revert vals'. induction l as [|n l IH]; intros vals' F; inversion F as [|? v ? vals Hn F']; subst; [reflexivity|].
    cbn [map]. f_equal; [|auto]. apply (named_iff _ _ _ _ Nd Lp) in Hn. unfold symValue. now rewrite Hn.
Qed.
(** the order of the parameters does not matter *)
Theorem C64_sympy_order : forall rv a a' keys keys' prior prior' det det' (o o' : om R) vs vs' d x x',
  symPyOM (Some rv) a keys prior det = Ok o -> symPyOM (Some rv) a' keys' prior' det' = Ok o' -> NoDup (om_names o) -> incl (sy_params rv) (om_names o) ->
  vs <> [] -> List.length (om_names o) = List.length vs -> List.length (om_names o') = List.length vs' -> (x < gridPoints vs)%nat -> (x' < gridPoints vs')%nat ->
  Permutation (combine (om_names o) (point vs x)) (combine (om_names o') (point vs' x')) ->
  nth_error (om_pdf o (meshgrid vs) (Seg1 [d])) x = nth_error (om_pdf o' (meshgrid vs') (Seg1 [d])) x'.
Proof.
  intros rv a a' keys keys' prior prior' det det' o o' vs vs' d x x' E E' Nd C Nn L L' Hx Hx' P.
  assert (Lp : List.length (om_names o) = List.length (point vs x)) by now rewrite point_length.
  assert (Lp' : List.length (om_names o') = List.length (point vs' x')) by now rewrite point_length.
  assert (Pn : Permutation (om_names o) (om_names o')) by (rewrite <- (map_fst_combine _ _ Lp), <- (map_fst_combine _ _ Lp'); now apply Permutation_map).
  assert (Nn' : vs' <> []). { intros ->. apply Permutation_length in Pn. destruct vs; [easy|]. cbn in *. lia. }
  assert (Nd' : NoDup (om_names o')) by (eapply Permutation_NoDup; eauto).
  assert (C' : incl (sy_params rv) (om_names o')) by (intros n I; eapply Permutation_in; eauto).
  destruct (C64_sympy _ _ _ _ _ _ _ d _ E Nd C Nn L Hx) as (vals & V & _ & ->).
  destruct (C64_sympy _ _ _ _ _ _ _ d _ E' Nd' C' Nn' L' Hx') as (vals' & V' & U' & ->).
  do 2 f_equal. apply U'. clear U' V'. revert V. apply Forall2_impl_. intros n v (k & E1 & E2).
  assert (I : In (n, v) (combine (om_names o') (point vs' x'))) by (eapply Permutation_in; [exact P|]; eapply In_combine; eauto).
  apply combine_In in I. exact I.
Qed.
Theorem C64_sympy_likelihoods : forall (S : study R R) rv a keys prior det o m vs ts f, configured S o m vs ts ->
  symPyOM (Some rv) a keys prior det = Ok o -> NoDup (om_names o) -> incl (sy_params rv) (om_names o) -> everyDatum (missingOr anyNumber) (st_raw S) ->
  (forall d x vals, (x < gridPoints vs)%nat -> Forall2 (named (om_names o) (point vs x)) (sy_params rv) vals -> sy_density rv vals (Fin d) = Fin (f d x) /\ 0 <= f d x) ->
  likelihoods S o vs (dataLik f (st_raw S)).
Proof.
  intros S rv a keys prior det o m vs ts f Cf E Nd C Ed Hf. destruct (symPyOM_inv _ _ _ _ _ _ E) as (Eo & Kn & _).
  pose proof (cf_names _ _ _ _ _ Cf) as L. pose proof (cf_dim _ _ _ _ _ Cf) as Nn.
  assert (V : forall d x, (x < gridPoints vs)%nat -> nth_error (om_pdf o (meshgrid vs) (Seg1 [Fin d])) x = Some (Fin (f d x)) /\ 0 <= f d x).
  { intros d x Hx. destruct (C64_sympy _ _ _ _ _ _ _ (Fin d) _ E Nd C Nn L Hx) as (vals & V & _ & ->). destruct (Hf d x vals Hx V) as [-> P]. auto. }
  apply independent_likelihoods; auto; try (rewrite Eo; reflexivity).
  - intros d. rewrite arrOf_tab. rewrite (sympy_tab _ _ _ _ _ _ _ _ E C Nn L). apply tab_ext. intros x Hx. specialize (V d x Hx).
    rewrite (sympy_tab _ _ _ _ _ _ _ _ E C Nn L), tab_nth_error in V by auto. destruct V as [V _]. now injection V.
  - intros d x Hx. now apply (V d x Hx).
Qed.
(** accepted arguments: a SymPy random variable, known keywords, and names of its symbols *)
Theorem C64_sympy_accepted : forall (rv : option (symRV R)) a keys prior det,
  ((exists o, symPyOM rv a keys prior det = Ok o) <->
   exists rv0, rv = Some rv0 /\ incl keys ["prior"; "determineJeffreysPrior"] /\ incl (argNames a) (sy_params rv0)) /\
  (forall e, symPyOM rv a keys prior det = Err e -> e = TypeError /\ ~ incl keys ["prior"; "determineJeffreysPrior"] \/ e = ConfigurationError).
Proof.
  intros rv a keys prior det. split.
  - split.
    + intros (o & E). destruct rv as [rv|]; [|discriminate]. exists rv. split; [reflexivity|]. destruct (symPyOM_inv _ _ _ _ _ _ E) as (_ & Kn & Ea & _ & Ek).
      split; [exact Ek|]. intros n I. destruct Ea as [Ea _]; [intros Z; now rewrite Z in I|]. rewrite <- Ea in I. auto.
    + intros (rv0 & -> & Ek & Hn). unfold symPyOM, unknownKey. destruct (argNames a) as [|n0 ns] eqn:Ea.
      * rewrite (proj2 (none_outside (sy_params rv0) _)) by (intros n; auto). rewrite (proj2 (none_outside _ _) Ek). eauto.
      * rewrite (proj2 (none_outside (n0 :: ns) _) Hn), (proj2 (none_outside _ _) Ek). eauto.
  - intros e. destruct rv as [rv|]; cbn [symPyOM]; [|intros [= <-]; auto].
    set (p := match argNames a with [] => _ | _ => _ end). destruct p as [nm vl]. destruct (existsb _ nm); [intros [= <-]; auto|].
    destruct (unknownKey keys _) eqn:Ek; [|discriminate]. intros [= <-]. left. split; [reflexivity|]. intros I. apply none_outside in I. unfold unknownKey in Ek. congruence.
Qed.
(** Without parameter values SciPy and SymPy models are accepted, but cannot be used: there is no estimate of the values from data *)
Theorem C64_unspecified : forall (S : study R R) o,
  (exists rv a fixed keys prior, scipyOM (Some rv) a fixed keys prior = Ok o /\ argNames a = [] /\ exists n, In n (rvParams rv) /\ ~ In n (map fst fixed)) \/
  (exists rv a keys prior det, symPyOM (Some rv) a keys prior det = Ok o /\ argNames a = [] /\ sy_params rv <> []) ->
  setOM S o = Err ConfigurationError.
Proof.
  intros S o H.
  assert (K : (exists ns vl mu pr pdf, o = custom ns vl mu pr pdf) /\ om_values o = map (fun _ => None) (om_names o) /\ om_names o <> []).
  { destruct H as [(rv & a & fixed & keys & prior & E & Ea & n & I1 & I2)|(rv & a & keys & prior & det & E & Ea & Nn)].
    - destruct (scipyOM_inv _ _ _ _ _ _ E) as (Eo & _ & _ & _ & En & _). destruct (En Ea) as [E1 E2]. split; [eauto 10|]. split; [exact E2|].
      intros Z. assert (I : In n (om_names o)) by (apply E1; auto). now rewrite Z in I.
    - destruct (symPyOM_inv _ _ _ _ _ _ E) as (Eo & _ & _ & En & _). destruct (En Ea) as [E1 E2]. split; [eauto 10|]. split; [exact E2|]. now rewrite E1. }
  destruct K as ((ns & vl & mu & pr & pdf & Eo) & Ev & Nn). unfold setOM. rewrite Ev. destruct (om_names o) as [|n l] eqn:En; [easy|].
  cbn [map combine mapM]. unfold paramValues at 1. cbn [fst snd]. rewrite Eo. reflexivity.
Qed.

(** ** what is not checked *)
Definition twoArgs (n1 : string) (v1 : list R) (n2 : string) (v2 : list R) : args R := {| ar_pairs := [(n1, Some v1); (n2, Some v2)]; ar_last := None |}.
(** NumPy: parameters go with the arguments of the function by position, even if the names of the arguments say otherwise *)
Theorem C64_numpy_names_refuted : exists f a o vs d, numpyOM (Some f) a [] PNone = Ok o /\ om_values o = map Some vs /\ Permutation ("data" :: om_names o) (pf_args f) /\
  forall x vals, (x < gridPoints vs)%nat -> Forall2 (named (om_names o) (point vs x)) (tl (pf_args f)) vals ->
    nth_error (om_pdf o (meshgrid vs) (Seg1 [Fin d])) x <> Some (pf_call f (Scalar (Fin d)) vals).
Proof.
  exists {| pf_args := ["data"; "mu"; "sigma"]; pf_call := fun _ pt => Fin (nth 0 pt 0) |}, (twoArgs "sigma" [1; 2] "mu" [3; 4]).
  eexists. exists [[1; 2]; [3; 4]], 0. split; [reflexivity|]. split; [reflexivity|]. split; [cbn; constructor; constructor|].
  intros x vals Hx F. cbn [om_names custom twoArgs argNames ar_pairs ar_last map fst app pf_args tl] in F.
  inversion F as [|? v1 ? ? (k1 & A1 & B1) F']; subst. inversion F' as [|? v2 ? ? (k2 & A2 & B2) F'']; subst. inversion F''; subst.
  destruct k1 as [|[|k1]]; try discriminate; [|now destruct k1]. cbn [om_pdf custom pf_args]. unfold numpyPdf. cbn [firstItem index nth_error bind pf_args List.length].
  rewrite gridRows_mesh by discriminate. assert (Ln : List.length (meshgrid [[1; 2]; [3; 4]]) = 2%nat) by reflexivity. rewrite Ln. cbn [Nat.eqb].
  rewrite map_tab, tab_nth_error by auto. cbn [pf_call nth].
  unfold point in *. cbn [List.length seq map nth nth_error] in *. injection B1 as <-. intros Q. injection Q as Q.
  assert (I0 : In (parAt [[1; 2]; [3; 4]] 0 x) [1; 2]) by (apply (parAt_In [[1; 2]; [3; 4]] 0 x); auto; cbn; lia).
  assert (I1 : In (parAt [[1; 2]; [3; 4]] 1 x) [3; 4]) by (apply (parAt_In [[1; 2]; [3; 4]] 1 x); auto; cbn; lia).
  rewrite Q in I0. cbn in I0, I1. lra.
Qed.
(** SciPy: a parameter may be given twice; the values of the first occurrence then have no effect *)
Theorem C64_scipy_duplicate_refuted : exists rv a o vs, scipyOM (Some rv) a [] [] PNone = Ok o /\ om_values o = map Some vs /\ ~ NoDup (om_names o) /\
  exists x y d, (x < gridPoints vs)%nat /\ (y < gridPoints vs)%nat /\ nth 0 (point vs x) 0 <> nth 0 (point vs y) 0 /\ nth 1 (point vs x) 0 <> nth 1 (point vs y) 0 /\
    nth_error (om_pdf o (meshgrid vs) (Seg1 [Fin d])) x = Some (rv_density rv [nth 1 (point vs x) 0; 1] (Fin d)) /\
    nth_error (om_pdf o (meshgrid vs) (Seg1 [Fin d])) y = Some (rv_density rv [nth 1 (point vs y) 0; 1] (Fin d)) /\
    rv_density rv [nth 0 (point vs x) 0; 1] (Fin d) <> rv_density rv [nth 1 (point vs x) 0; 1] (Fin d).
Proof.
  exists {| rv_shapes := None; rv_continuous := true; rv_density := fun l _ => Fin (nth 0 l 0) |}, (twoArgs "loc" [0; 1] "loc" [2; 3]).
  eexists. exists [[0; 1]; [2; 3]]. split; [reflexivity|]. split; [reflexivity|]. split.
  - intros Nd. cbn in Nd. inversion Nd as [|? ? N _]; subst. apply N. now left.
  - exists 0%nat, 3%nat, 0. cbn. repeat split; try lia; try lra. intros Q. injection Q as Q. lra.
Qed.
(** SciPy: a model without values for a shape parameter is accepted, although no likelihood can be computed *)
Theorem C64_scipy_shape_refuted : exists rv a o vs, scipyOM (F := R) (Some rv) a [] [] PNone = Ok o /\ om_values o = map Some vs /\ NoDup (om_names o) /\
  forall d, scipyPdf rv (om_names o) [] (meshgrid vs) (Seg1 [Fin d]) = Err TypeError.
Proof.
  exists {| rv_shapes := Some ["a"]; rv_continuous := true; rv_density := fun l _ => Fin (nth 0 l 0) |}, (twoArgs "loc" [0; 1] "scale" [2; 3]).
  eexists. exists [[0; 1]; [2; 3]]. split; [reflexivity|]. split; [reflexivity|]. split; [|reflexivity].
  cbn. repeat constructor; cbn; intuition congruence.
Qed.
(** SymPy: the same *)
Theorem C64_sympy_symbol_refuted : exists rv a o vs, symPyOM (F := R) (Some rv) a [] None true = Ok o /\ om_values o = map Some vs /\ NoDup (om_names o) /\
  forall d, symPyPdf rv (om_names o) (meshgrid vs) (Seg1 [Fin d]) = Err NameError.
Proof.
  exists {| sy_params := ["sigma"; "mu"]; sy_density := fun l _ => Fin (nth 0 l 0); sy_jeffreys := Err ValueError |},
    {| ar_pairs := [("mu", Some [0; 1])]; ar_last := None |}.
  eexists. exists [[0; 1]]. split; [reflexivity|]. split; [reflexivity|]. split; [|reflexivity].
  cbn. repeat constructor; cbn; intuition congruence.
Qed.
(** NumPy: a last name without values is accepted and set in a study, although no likelihood can be computed *)
Theorem C64_numpy_values_refuted : exists f a o, numpyOM (F := R) (Some f) a [] PNone = Ok o /\
  forall S S' : study R R, setOM S o = Ok S' -> forall d, numpyPdf f (st_grid S') (Seg1 [Fin d]) = Err TypeError.
Proof.
  exists {| pf_args := ["data"; "mu"; "sigma"]; pf_call := fun _ pt => Fin (nth 0 pt 0) |}, {| ar_pairs := [("mu", Some [0; 1])]; ar_last := Some "sigma" |}.
  eexists. split; [reflexivity|]. intros S S' E d. unfold setOM in E. cbn [custom om_values om_names argNames argValues ar_pairs ar_last map fst snd app combine mapM paramValues bind] in E.
  unfold latticeOf in E. destruct (existsb _ _); cbn [bind index nth_error] in E; injection E as <-; reflexivity.
Qed.

(** ** Concrete models *)
Definition normDist : scipyRV R := {| rv_shapes := None; rv_continuous := true;
  rv_density := fun l d => match l, d with [m; s], Fin r => Fin (normalDensity m s r) | _, _ => NaN end |}.
Definition normalPair : om R := custom ["scale"; "loc"] [Some [1; 2]; Some [0; 1]] true PNone (scipyPdf normDist ["scale"; "loc"] []).
(** hypotheses of [C64_scipy], [C64_scipy_likelihoods] and [C64_scipy_accepted]: a normal distribution, scale before loc, two-dimensional data with a missing value *)
Example C64_example : scipyOM (Some normDist) (twoArgs "scale" [1; 2] "loc" [0; 1]) [] [] PNone = Ok normalPair /\ covers normDist (om_names normalPair) [] /\
  exists S : study R R, setup (Raw2 [[Fin 0; Fin 1]; [NaN; Fin 2]]) None normalPair static = Ok S /\ configured S normalPair static [[1; 2]; [0; 1]] [INR 0; INR 1] /\
  everyDatum (missingOr anyNumber) (st_raw S) /\
  likelihoods S normalPair [[1; 2]; [0; 1]] (dataLik (fun d x => normalDensity (parAt [[1; 2]; [0; 1]] 1 x) (parAt [[1; 2]; [0; 1]] 0 x) d) (st_raw S)).
Proof.
  assert (E : scipyOM (Some normDist) (twoArgs "scale" [1; 2] "loc" [0; 1]) [] [] PNone = Ok normalPair) by reflexivity.
  assert (Cv : covers normDist (om_names normalPair) []).
  { split; [cbn; repeat constructor; cbn; intuition congruence|constructor|intros n []|discriminate]. }
  split; [exact E|]. split; [exact Cv|].
  destruct (setup_given (Raw2 [[Fin 0; Fin 1]; [NaN; Fin 2]]) normalPair static [[1; 2]; [0; 1]]) as (S & ES & Er & C);
    try (reflexivity || discriminate || (cbn; lia) || solve [cbn; constructor]).
  { repeat constructor; cbn; lia || lra. }
  assert (Ed : everyDatum (missingOr anyNumber) (st_raw S)).
  { rewrite Er. cbn. repeat (apply Forall_cons || apply Forall_nil || apply num_ok || apply nan_ok). }
  exists S. split; [exact ES|]. split; [exact C|]. split; [exact Ed|].
  apply (C64_scipy_likelihoods S normDist (twoArgs "scale" [1; 2] "loc" [0; 1]) [] [] PNone normalPair static _ _ _ C E Cv Ed).
  intros d x vals Hx V.
  assert (P : 0 < parAt [[1; 2]; [0; 1]] 0 x).
  { assert (I : In (parAt [[1; 2]; [0; 1]] 0 x) [1; 2]) by (apply (parAt_In [[1; 2]; [0; 1]] 0 x); auto; cbn; lia). destruct I as [I|[I|[]]]; rewrite <- I; lra. }
  assert (V2 : Forall2 (supplied ["scale"; "loc"] (point [[1; 2]; [0; 1]] x) []) ["loc"; "scale"] [parAt [[1; 2]; [0; 1]] 1 x; parAt [[1; 2]; [0; 1]] 0 x]).
  { constructor; [apply sup_free with (k := 1%nat); reflexivity|]. constructor; [apply sup_free with (k := 0%nat); reflexivity|constructor]. }
  replace vals with [parAt [[1; 2]; [0; 1]] 1 x; parAt [[1; 2]; [0; 1]] 0 x].
  - split; [reflexivity|]. left. apply normalDensity_pos. lra.
  - destruct (C64_scipy normDist (twoArgs "scale" [1; 2] "loc" [0; 1]) [] [] PNone normalPair [[1; 2]; [0; 1]] NaN x E Cv) as (w & _ & U & _); auto; [discriminate|].
    rewrite (U _ V). apply U. exact V2.
Qed.
(** hypotheses of [C64_order]: loc before scale *)
Example C64_order_example : exists o', scipyOM (Some normDist) (twoArgs "loc" [0; 1] "scale" [1; 2]) [] [] PNone = Ok o' /\
  Permutation (combine (om_names normalPair) (point [[1; 2]; [0; 1]] 1)) (combine (om_names o') (point [[0; 1]; [1; 2]] 2)) /\ point [[1; 2]; [0; 1]] 1 = [1; 1].
Proof. eexists. split; [reflexivity|]. cbn. split; [constructor|reflexivity]. Qed.
(** hypotheses of [C64_sympy], [C64_sympy_likelihoods], [C64_sympy_order], [C64_sympy_accepted] *)
Definition normSym : symRV R := {| sy_params := ["sigma"; "mu"];
  sy_density := fun l d => match l, d with [s; m], Fin r => Fin (normalDensity m s r) | _, _ => NaN end; sy_jeffreys := Err ValueError |}.
Example C64_sympy_example : exists o, symPyOM (Some normSym) (twoArgs "mu" [0; 1] "sigma" [1; 2]) ["prior"] None true = Ok o /\ NoDup (om_names o) /\ incl (sy_params normSym) (om_names o) /\
  exists S : study R R, setup (Raw1 [Fin 0; NaN; Fin 3]) None o static = Ok S /\ configured S o static [[0; 1]; [1; 2]] [INR 0; INR 1; INR 2] /\
  everyDatum (missingOr anyNumber) (st_raw S) /\
  forall d x vals, lt x (gridPoints [[0; 1]; [1; 2]]) -> Forall2 (named (om_names o) (point [[0; 1]; [1; 2]] x)) (sy_params normSym) vals ->
    sy_density normSym vals (Fin d) = Fin (normalDensity (parAt [[0; 1]; [1; 2]] 0 x) (parAt [[0; 1]; [1; 2]] 1 x) d) /\ 0 <= normalDensity (parAt [[0; 1]; [1; 2]] 0 x) (parAt [[0; 1]; [1; 2]] 1 x) d.
Proof.
  eexists. split; [reflexivity|]. split; [cbn; repeat constructor; cbn; intuition congruence|]. split; [intros n I; cbn in *; tauto|].
  match goal with |- context [setup _ None ?oo _] => destruct (setup_given (Raw1 [Fin 0; NaN; Fin 3]) oo static [[0; 1]; [1; 2]]) as (S & ES & Er & C) end;
    try (reflexivity || discriminate || (cbn; lia) || solve [cbn; constructor]).
  { repeat constructor; cbn; lia || lra. }
  exists S. split; [exact ES|]. split; [exact C|]. split.
  { rewrite Er. cbn. repeat (apply Forall_cons || apply Forall_nil || apply num_ok || apply nan_ok). }
  intros d x vals Hx V. cbn [om_names custom twoArgs argNames ar_pairs ar_last map fst app sy_params normSym] in V.
  inversion V as [|? v1 ? ? (k1 & A1 & B1) F']; subst. inversion F' as [|? v2 ? ? (k2 & A2 & B2) F'']; subst. inversion F''; subst.
  destruct k1 as [|[|k1]]; try discriminate; [|now destruct k1]. destruct k2 as [|[|k2]]; try discriminate; [|now destruct k2].
  cbn in B1, B2. injection B1 as <-. injection B2 as <-. split; [reflexivity|]. left. apply normalDensity_pos.
  assert (0 < parAt [[0; 1]; [1; 2]] 1 x); [|lra]. assert (I : In (parAt [[0; 1]; [1; 2]] 1 x) [1; 2]) by (apply (parAt_In [[0; 1]; [1; 2]] 1 x); auto; cbn; lia). destruct I as [I|[I|[]]]; rewrite <- I; lra.
Qed.
(** hypotheses of [C64_numpy_likelihoods]: vectors as data points, one of them incomplete *)
Definition rowDensity : pyFunction R := {| pf_args := ["data"; "m"];
  pf_call := fun it pt => match it, pt with Row [Fin a; Fin b], [m] => Fin (normalDensity m 1 (a + b)) | _, _ => NaN end |}.
Example C64_numpy_example : exists o, numpyOM (Some rowDensity) {| ar_pairs := [("mean", Some [0; 1])]; ar_last := None |} ["prior"] PNone = Ok o /\
  exists S : study R R, setup (Raw2 [[Fin 0; Fin 1]; [NaN; Fin 2]]) None o static = Ok S /\ configured S o static [[0; 1]] [INR 0; INR 1] /\
  let g := fun i x => match i with 0%nat => normalDensity (parAt [[0; 1]] 0 x) 1 (0 + 1) | _ => 1 end in
  forall i x, (i < rawLen (st_raw S))%nat -> lt x (gridPoints [[0; 1]]) -> (incomplete (itemOf (st_raw S) i) -> g i x = 1) /\
     (~ incomplete (itemOf (st_raw S) i) -> pf_call rowDensity (itemOf (st_raw S) i) (point [[0; 1]] x) = Fin (g i x) /\ 0 <= g i x).
Proof.
  eexists. split; [reflexivity|].
  match goal with |- context [setup _ None ?oo _] => destruct (setup_given (Raw2 [[Fin 0; Fin 1]; [NaN; Fin 2]]) oo static [[0; 1]]) as (S & ES & Er & C) end;
    try (reflexivity || discriminate || (cbn; lia) || solve [cbn; constructor]).
  { repeat constructor; cbn; lia || lra. }
  exists S. split; [exact ES|]. split; [exact C|]. rewrite Er. cbn zeta. intros i x Hi Hx. destruct i as [|[|i]]; cbn in Hi; [| |lia].
  - split; [cbn; intuition congruence|]. intros _. cbn. split; [reflexivity|]. left. apply normalDensity_pos. lra.
  - split; [reflexivity|]. intros N. exfalso. apply N. now left.
Qed.
(** hypotheses of [C64_unspecified] *)
Example C64_unspecified_example : exists o, scipyOM (Some normDist) {| ar_pairs := []; ar_last := None |} [("loc", 0)] ["fixedParameters"] PNone = Ok o /\ om_names o = ["scale"].
Proof. eexists. split; reflexivity. Qed.
(** executed: a coin as a SciPy model with 'loc' fixed gives the evidence of the coin of Props/Ex.v *)
Definition bernoulliDist : scipyRV Q := {| rv_shapes := Some ["p"]; rv_continuous := false;
  rv_density := fun l d => match l, d with [p; z], Fin r => Fin (if Qeq_bool (r - z) 1 then p else (1 - p)%Q) | _, _ => NaN end |}.
Example C64_executed :
  (let* o := scipyOM (Some bernoulliDist) {| ar_pairs := [("p", Some [(1#4)%Q; (3#4)%Q])]; ar_last := None |} [("loc", 0%Q)] ["fixedParameters"] PNone in
   let* S0 := setup (L := Q) (Raw1 [Fin 1%Q; NaN; Fin 1%Q; Fin 0%Q]) None o Ex.static in let* S1 := fit S0 true false in
   Ok (st_logEv S1))%res = Ok (Fin (3 # 32)%Q).
Proof. vm_compute. reflexivity. Qed.
