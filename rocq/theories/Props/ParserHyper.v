(** Queries about hyper-parameters: C63. *)
From Coq Require Import List ZArith QArith Reals Lra Lia Arith Bool String.
From Verif Require Import Base.Num Base.Exn Base.Arr Base.RSum Base.Lift Model.Helper Model.Tm Model.HyperParams Model.Study Model.Api Model.Getters Model.Hyper Model.Changepoint Model.Online Model.Parser
  Spec.Kernel Spec.Hmm Spec.Config Spec.Names Spec.Dist Spec.HyperSpec Spec.ChangeSpec Spec.ParserSpec Proof.FitThms Proof.GridProof Proof.SetupProof Proof.HyperProof Proof.HyperFit Proof.HyperMarg Proof.ChangeProof Proof.ParserProof Proof.ParserLoad Proof.ParserDist Spec.OnlineSpec Proof.OnlineFixed Proof.OnlineProof
  Props.Ex Props.ExR Props.HyperStudy Props.Online Props.OnlineStream Props.OnlineGetters Props.HyperMarginal Props.Changepoint Props.Parser Props.ParserStudy.
Import ListNotations.
Local Open Scope string_scope.
Local Open Scope R_scope.

(** env gives the hyper-parameters their values in each combination (row) of the hyper-grid *)
Definition atCombination (names : list string) (rows : list (list R)) (env : nat -> string -> option R) : Prop :=
  forall x k n, (x < List.length rows)%nat -> nth_error names k = Some n -> env x n = nth_error (nth x rows []) k.

Definition place (ns : list string) (n : string) : nat := match nameIndex ns n with Ok i => i | Err _ => 0%nat end.
Lemma place_nth ns n : NoDup ns -> In n ns -> nth_error ns (place ns n) = Some n /\ nameIndex ns n = Ok (place ns n).
Proof.
  intros ND I. apply In_nth_error in I as (k & Ek). pose proof (nameIndex_nth _ _ _ ND Ek) as E. unfold place. now rewrite E.
Qed.
Lemma place_lt ns n : NoDup ns -> In n ns -> (place ns n < List.length ns)%nat.
Proof. intros ND I. apply nth_error_Some. rewrite (proj1 (place_nth ns n ND I)). discriminate. Qed.
Lemma column_ok (rows : list (list R)) n k : (k < n)%nat -> Forall (fun r => (n <= List.length r)%nat) rows -> column rows k = Ok (map (fun r => nth k r 0) rows).
Proof.
  intros Hk HF. unfold column. apply mapM_ok. intros r I. rewrite Forall_forall in HF. unfold index. specialize (HF r I). rewrite (List.nth_error_nth' r 0) by lia. reflexivity.
Qed.
Lemma find_named {A} (g : string -> A) (name : A -> string) ns n : (forall k, name (g k) = k) -> In n ns -> find (fun h => String.eqb (name h) n) (map g ns) = Some (g n).
Proof.
  intros Hg I. induction ns as [|a ns IH]; [destruct I|]. cbn. rewrite Hg. destruct (String.eqb_spec a n) as [->|NE]; [reflexivity|]. apply IH. destruct I; congruence.
Qed.

Section Columns.
  Variables (ns : list string) (rows : list (list R)) (d : nat -> R) (s : source (F := R)).
  Hypotheses (ND : NoDup ns) (HR : Forall (fun r => (List.length ns <= List.length r)%nat) rows).
  Let N := List.length rows.
  Definition col (n : string) : string * list R * list (list (xnum R)) * list (xnum R) := (n, map (fun r => nth (place ns n) r 0) rows, [], map Fin (tab N d)).
  Lemma columns_ok : hyperColumns ns rows (map Fin (tab N d)) = Ok (map col ns).
  Proof.
    unfold hyperColumns. apply mapM_ok. intros n I. rewrite (proj2 (place_nth ns n ND I)). cbn [bind]. rewrite (column_ok rows (List.length ns)) by (auto using place_lt). reflexivity.
  Qed.
  Lemma columns_at env : atCombination ns rows env -> forall x n, (x < N)%nat -> In n ns -> env x n = hyperValueOf (withHyper s (map col ns)) x n.
  Proof.
    intros HE x n Hx I. destruct (place_nth ns n ND I) as [E _]. rewrite (HE x _ n Hx E). unfold hyperValueOf. cbn [withHyper so_hyper].
    rewrite (find_named col (fun h => fst (fst (fst h))) ns n (fun _ => eq_refl) I). cbn [col fst snd]. rewrite nth_error_map.
    rewrite (List.nth_error_nth' rows []) by auto. cbn [option_map]. apply List.nth_error_nth'. rewrite Forall_forall in HR. eapply Nat.lt_le_trans; [now apply place_lt|]. apply HR, nth_In. auto.
  Qed.
  Lemma columns_names : map (fun h : string * list R * list (list (xnum R)) * list (xnum R) => fst (fst (fst h))) (map col ns) = ns.
  Proof. rewrite map_map. cbn. apply map_id. Qed.

  (** queries about the hyper-parameters of a study of this form *)
  Lemma columns_query pow fn lb env lhs r rhs a b : computes pow fn lb -> so_online s = None -> NoDup (so_names s ++ ns)%list -> List.length (so_grid s) = List.length (so_names s) ->
    (0 < N)%nat -> Rsum (tab N d) <> 0 -> atCombination ns rows env -> unstamped lhs -> unstamped rhs -> incl (namesIn lhs ++ namesIn rhs) ns -> (namesIn lhs ++ namesIn rhs)%list <> [] ->
    evaluates pow fn env N lhs a -> evaluates pow fn env N rhs b ->
    call lb [withHyper s (map col ns)] (QRel lhs r rhs) None = Ok (AProb (Fin (probability N (fun x => d x / Rsum (tab N d)) r a b))).
  Proof.
    intros Lib Ho ND2 Lg HN HD HE U1 U2 Inc NE Ha Hb. set (s' := withHyper s (map col ns)).
    assert (EV : forall c f, incl (namesIn c) ns -> evaluates pow fn env N c f -> evaluates pow fn (hyperValueOf s') N c f).
    { intros c f I Hf x Hx. rewrite <- (Hf x Hx). apply meaning_ext. intros n J. symmetry. apply columns_at; auto. }
    apply (C40_relation pow fn lb [s'] None 0 unstamped true None N _ (hyperValueOf s')); auto.
    - split; [|repeat constructor; exact Lg]. cbn. rewrite app_nil_r. change (so_hyper s') with (map col ns). rewrite columns_names. exact ND2.
    - constructor; [|constructor]. cbn. now rewrite Ho.
    - apply rd_hyper; auto. apply Forall_forall. intros h I. apply in_map_iff in I as (n & <- & _). cbn. now rewrite map_length.
    - apply EV; auto. intros n I. apply Inc, in_or_app. auto.
    - apply EV; auto. intros n I. apply Inc, in_or_app. auto.
  Qed.
End Columns.

(** After the fit of a HyperStudy (hypotheses as in C28_bayes), a query about its hyper-parameters is answered with the posterior probabilities of the combinations
    of hyper-parameter values at which the relation holds: evidence times prior, normalised. *)
Theorem C63_hyper : forall pow fn lb (H : hyper R R) o m ts fo eo j H' pv runs,
  computes pow fn lb -> hyperReady H o m ts -> hyperFit H fo eo j = Ok H' -> (1 < List.length (hy_grid H'))%nat ->
  hy_pv H' = map Fin pv -> Forall (fun p => 0 <= p) pv -> Forall (fun c => 0 < c) (hy_const H') ->
  Forall2 (single H m fo eo) (hy_grid H') runs -> Forall (proper eo (stepsH H o) (pointsH H)) runs ->
  let n := List.length runs in
  let ev i := evidenceOf (nth i runs (hy_S H)) in
  let Z := rsum n (fun i => ev i * Rnth pv i) in
  0 < Z -> NoDup (om_names o ++ allNames m)%list -> List.length (st_grid (hy_S H)) = List.length (om_names o) ->
  exists s, ofHyper H' = Ok s /\
  forall env lhs r rhs a b, atCombination (allNames m) (hy_grid H') env -> unstamped lhs -> unstamped rhs ->
    incl (namesIn lhs ++ namesIn rhs)%list (allNames m) -> (namesIn lhs ++ namesIn rhs)%list <> [] ->
    evaluates pow fn env n lhs a -> evaluates pow fn env n rhs b ->
    call lb [s] (QRel lhs r rhs) None = Ok (AProb (Fin (probability n (fun i => ev i * Rnth pv i / Z) r a b))).
Proof.
  intros pow fn lb H o m ts fo eo j H' pv runs Lib HR E Hm Epv Hpv Hc HF HP n ev Z HZ ND Lg.
  destruct (fit_known H o m ts fo eo j H' pv runs HR E Hm Epv Hpv HF HP) as (k1 & _ & _ & _ & _ & _ & SI & _).
  destruct (C28_bayes H o m ts fo eo j H' pv runs HR E Hm Epv Hpv Hc HF HP HZ) as (_ & (dist & Ed & Ld & Di & _ & Ds) & _).
  fold ev in Di. fold n in Di. fold Z in Di. set (cell := Rprod (hy_const H')) in *.
  destruct (fit_grid_inv _ _ _ _ _ _ _ _ HR E) as (m1 & EG & En & _).
  pose proof (hr_names _ _ _ _ HR) as W.
  assert (Ln : n = List.length (hy_grid H')) by (unfold n; symmetry; eapply SetupProof.Forall2_len; eauto).
  assert (Hg : hy_grid H' <> []) by (intros E0; rewrite E0 in Hm; cbn in Hm; lia).
  destruct (grid_shape _ _ _ _ _ _ _ EG Hg) as (_ & g2 & _). 
  assert (Hne : allNames m <> []).
  { intros E0. unfold createHyperGrid in EG. rewrite E0 in EG. destruct (mapM pointsOf _); [|discriminate]. cbn [bind] in EG. congruence. }
  assert (Pc : 0 < cell) by (apply Rprod_pos; auto).
  pose (d := fun i => ev i * Rnth pv i / Z / cell).
  assert (Edd : dist = tab n d). { rewrite <- (tab_Rnth dist), Ld, <- Ln. apply tab_ext. intros i Hi. now apply Di. }
  assert (Es : Rsum (tab n d) = 1 / cell). { rewrite <- Edd. apply (Rmult_eq_reg_r cell); [|lra]. rewrite Ds. field. lra. }
  pose (s := {| so_names := om_names o; so_grid := st_grid (hy_S H'); so_stamps := st_fmtTs (hy_S H'); so_post := st_post (hy_S H'); so_online := None; so_hyper := [] |} : source (F := R)).
  assert (Eo : ofStudy (hy_S H') = Ok s). { unfold ofStudy. rewrite (si_om _ _ SI), (hr_om _ _ _ _ HR). reflexivity. }
  assert (NDm : NoDup (allNames m)) by apply W.
  exists (withHyper s (map (col (allNames m) (hy_grid H') d) (allNames m))). split.
  - unfold ofHyper. rewrite Eo. cbn [bind]. rewrite En, Ed, Edd. rewrite Ln. pose proof (columns_ok (allNames m) (hy_grid H') d NDm g2) as EC. destruct (allNames m); [congruence|]. now rewrite EC.
  - intros env lhs r rhs a b HE U1 U2 Inc NE Ha Hb. rewrite Ln in Ha, Hb. 
    rewrite (columns_query _ _ d s NDm g2 pow fn lb env lhs r rhs a b Lib); auto; try lia; [|exact (eq_trans (f_equal _ (si_grid _ _ SI)) Lg)|rewrite <- Ln, Es; apply Rgt_not_eq, Rdiv_lt_0_compat; lra].
    do 3 f_equal. rewrite <- Ln. unfold probability. f_equal. apply tab_ext. intros x Hx. rewrite Es. destruct (holds r (a x) (b x)); auto. unfold d. field. lra.
Qed.

(** The same for a ChangepointStudy (C33): combinations in which the change-points are not in order are part of the table, with probability zero. *)
Theorem C63_change : forall pow fn lb (C : cpstudy R R) o m ts fo eo C' pv,
  computes pow fn lb -> cpFitted C o m ts fo eo C' pv ->
  NoDup (om_names o ++ allNames m)%list -> List.length (st_grid (hy_S (cp_H C))) = List.length (om_names o) ->
  let all := cp_all C' in
  exists s q, ofChange C' = Ok s /\ Rsum (tab (List.length all) q) = 1 /\
  (forall i, (i < List.length all)%nat -> ~ ordered m (nth i all []) -> q i = 0) /\
  (exists Z, 0 < Z /\ forall i A, (i < List.length all)%nat -> ordered m (nth i all []) -> single (cp_H C) m fo eo (nth i all []) A -> q i = evidenceOf A * Rnth pv i / Z) /\
  forall env lhs r rhs a b, atCombination (allNames m) all env -> unstamped lhs -> unstamped rhs ->
    incl (namesIn lhs ++ namesIn rhs)%list (allNames m) -> (namesIn lhs ++ namesIn rhs)%list <> [] ->
    evaluates pow fn env (List.length all) lhs a -> evaluates pow fn env (List.length all) rhs b ->
    call lb [s] (QRel lhs r rhs) None = Ok (AProb (Fin (probability (List.length all) q r a b))).
Proof.
  intros pow fn lb C o m ts fo eo C' pv Lib CF ND Lg all.
  destruct (C33_bayes C o m ts fo eo C' pv CF) as (dist & v & Ed & Ld & _ & Di & Dz & _ & Ds). fold all in Ld, Di, Dz.
  destruct (cp_known C o m ts fo eo C' pv CF) as (As & _ & _ & _ & _ & _ & _ & Eg & _ & _ & _ & _ & _ & _ & En & _ & SI & _). fold all in Eg.
  pose proof (cf_ready _ _ _ _ _ _ _ _ CF) as HR. pose proof (cf_const _ _ _ _ _ _ _ _ CF) as Hc. pose proof (cf_many _ _ _ _ _ _ _ _ CF) as Hm.
  destruct (cf_fit _ _ _ _ _ _ _ _ CF) as [j E].
  destruct (cpFit_inv C o m ts HR _ _ _ _ E) as (vals & rows & cs' & pvx & m' & H2 & d2 & Hs & K & EG & EF & ED & EC' & k1 & k2 & k3 & k4 & k5).
  assert (Eall : all = rows) by (unfold all; now rewrite EC').
  set (cell := Rprod (hy_const (cp_H C'))) in *. assert (Pc : 0 < cell) by (apply Rprod_pos; auto).
  assert (Hne : all <> []). { rewrite Eg in Hm. intros E0. rewrite E0, pick_nil in Hm. cbn in Hm. lia. }
  assert (Hn : (0 < List.length all)%nat) by (destruct all; [congruence|cbn; lia]).
  assert (g2 : Forall (fun row => (List.length (allNames m) <= List.length row)%nat) all).
  { rewrite Eall in Hne |- *. eapply grid_shape; eauto. }
  pose proof (hr_names _ _ _ _ HR) as W. assert (NDm : NoDup (allNames m)) by apply W. pose proof (points_names _ K) as Hnn.
  pose (d := Rnth dist). assert (Edd : dist = tab (List.length all) d). { rewrite <- Ld. symmetry. apply tab_Rnth. }
  assert (Es : Rsum (tab (List.length all) d) = 1 / cell). { rewrite <- Edd. apply (Rmult_eq_reg_r cell); [|lra]. rewrite Ds. field. lra. }
  pose (s := {| so_names := om_names o; so_grid := st_grid (hy_S (cp_H C')); so_stamps := st_fmtTs (hy_S (cp_H C')); so_post := st_post (hy_S (cp_H C')); so_online := None; so_hyper := [] |} : source (F := R)).
  assert (Eo : ofStudy (hy_S (cp_H C')) = Ok s). { unfold ofStudy. rewrite (si_om _ _ SI), (hr_om _ _ _ _ HR). reflexivity. }
  exists (withHyper s (map (col (allNames m) all d) (allNames m))), (fun i => d i * cell). split; [|split; [|split; [|split]]].
  - unfold ofChange. rewrite Eo. cbn [bind]. rewrite En, Ed, Edd. fold all. pose proof (columns_ok (allNames m) all d NDm g2) as EC. destruct (allNames m); [congruence|]. now rewrite EC.
  - rewrite Rsum_tab, rsum_scal_r, <- Rsum_tab, Es. field. lra.
  - intros i Hi NO. unfold d. rewrite (Dz i Hi NO). ring.
  - exists (exp v / cell). split; [apply Rdiv_lt_0_compat; auto; apply exp_pos|]. intros i A Hi Ho HA. unfold d. rewrite (Di i A Hi Ho HA). pose proof (exp_pos v). field. lra.
  - intros env lhs r rhs a b HE U1 U2 Inc NE Ha Hb.
    rewrite (columns_query _ _ d s NDm g2 pow fn lb env lhs r rhs a b Lib); auto; [|exact (eq_trans (f_equal _ (si_grid _ _ SI)) Lg)|rewrite Es; apply Rgt_not_eq, Rdiv_lt_0_compat; lra].
    do 3 f_equal. unfold probability. f_equal. apply tab_ext. intros x Hx. rewrite Es. destruct (holds r (a x) (b x)); auto. field. lra.
Qed.

(** ** Online studies *)
Lemma find_unique {A} (name : A -> string) l a : NoDup (map name l) -> In a l -> find (fun h => String.eqb (name h) (name a)) l = Some a.
Proof.
  induction l as [|q l IH]; intros ND I; [destruct I|]. cbn in ND. inversion ND as [|? ? NI ND']; subst. cbn. destruct (String.eqb_spec (name q) (name a)) as [E|NE].
  - destruct I as [->|I]; [reflexivity|]. exfalso. apply NI. rewrite E. now apply in_map.
  - destruct I as [->|I]; [congruence|]. auto.
Qed.
Lemma same_name {A} (name : A -> string) l a b : NoDup (map name l) -> In a l -> In b l -> name a = name b -> a = b.
Proof. intros ND Ia Ib E. pose proof (find_unique name l a ND Ia) as F1. rewrite E, (find_unique name l b ND Ib) in F1. congruence. Qed.

Section OnlineSource.
  Variables (O : online R R) (o : om R) (ts : list R).
  Hypotheses (Eo : st_om (on_S O) = Some o) (Ets : on_ts O = Some ts).
  Hypothesis HM : Forall (fun M => NoDup (md_names M) /\ Forall (fun r => (List.length (md_names M) <= List.length r)%nat) (md_rows M)) (on_models O).
  Hypothesis HL : if on_store O then Forall (fun x => List.length x = List.length (on_models O)) (on_hHpd O) else List.length (on_hpd O) = List.length (on_models O).
  Definition ocol (j : nat) (M : tmEntry R) (n : string) : string * list R * list (list (xnum R)) * list (xnum R) :=
    (n, map (fun r => nth (place (md_names M) n) r 0) (md_rows M), if on_store O then map (fun x => nth j x []) (on_hHpd O) else [], if on_store O then [] else nth j (on_hpd O) []).
  Definition ocols : list (string * list R * list (list (xnum R)) * list (xnum R)) :=
    List.concat (map (fun jm => map (ocol (fst jm) (snd jm)) (md_names (snd jm))) (numbered (on_models O))).
  Definition osource : source (F := R) :=
    {| so_names := om_names o; so_grid := st_grid (on_S O); so_stamps := ts; so_post := map Some (on_hPost O); so_online := Some (on_store O, on_marg O); so_hyper := ocols |}.
  Lemma ofOnline_ok : ofOnline O = Ok osource.
  Proof.
    unfold ofOnline, ofStudy. rewrite Eo. cbn [bind].
    rewrite (mapM_ok _ (fun jm => map (ocol (fst jm) (snd jm)) (md_names (snd jm)))); [cbn [bind]; now rewrite Ets|].
    intros [j M] I. cbn [fst snd onlineColumns]. assert (Hj : (j < List.length (on_models O))%nat). { apply in_combine_l, in_seq in I. lia. }
    assert (IM : In M (on_models O)) by (eapply in_combine_r; exact I). rewrite Forall_forall in HM. destruct (HM M IM) as [ND HR].
    apply mapM_ok. intros n In'. rewrite (proj2 (place_nth _ _ ND In')). cbn [bind]. rewrite (column_ok _ (List.length (md_names M))) by auto using place_lt. cbn [bind].
    unfold ocol. destruct (on_store O).
    - cbn [bind]. rewrite (mapM_ok _ (fun x => nth j x [])); [reflexivity|]. intros x Ix. rewrite Forall_forall in HL. unfold index. rewrite (List.nth_error_nth' x []) by (rewrite HL; auto). reflexivity.
    - assert (EX : nth_error (on_hpd O) j = Some (nth j (on_hpd O) [])) by (apply List.nth_error_nth'; rewrite HL; auto). unfold currentHpd, index. destruct (on_hpd O); [destruct j; discriminate|]. now rewrite EX.
  Qed.
  Lemma ocols_names : map (fun h : string * list R * list (list (xnum R)) * list (xnum R) => fst (fst (fst h))) ocols = flat_map md_names (on_models O).
  Proof.
    unfold ocols, numbered. rewrite concat_map, map_map. generalize (on_models O) at 1 2 3. intros Ms. generalize 0%nat. induction Ms as [|M Ms IH]; intros j; [reflexivity|]. cbn [List.length seq combine map List.concat flat_map].
    f_equal; [|apply IH]. cbn. rewrite map_map. cbn. apply map_id.
  Qed.
  Hypothesis ND : NoDup (om_names o ++ flat_map md_names (on_models O))%list.
  Lemma ocols_unique : NoDup (map (fun h : string * list R * list (list (xnum R)) * list (xnum R) => fst (fst (fst h))) ocols).
  Proof. rewrite ocols_names. clear - ND. induction (om_names o) as [|a l IH]; auto. inversion ND; auto. Qed.
  Lemma osource_studies : List.length (st_grid (on_S O)) = List.length (om_names o) -> studies [osource].
  Proof. intros Lg. split; [|repeat constructor; exact Lg]. cbn. rewrite app_nil_r. change (so_hyper osource) with ocols. now rewrite ocols_names. Qed.

  Variables (i : nat) (M : tmEntry R).
  Hypothesis EM : nth_error (on_models O) i = Some M.
  Lemma ocol_in n : In n (md_names M) -> In (ocol i M n) ocols.
  Proof.
    intros I. unfold ocols. apply in_concat. exists (map (ocol i M) (md_names M)). split; [|now apply in_map]. apply in_map_iff. exists (i, M). split; [reflexivity|]. now apply numbered_in.
  Qed.
  Lemma ocol_only h : In h ocols -> In (fst (fst (fst h))) (md_names M) -> h = ocol i M (fst (fst (fst h))).
  Proof. intros I J. eapply (same_name (fun h => fst (fst (fst h)))); [exact ocols_unique|exact I|now apply ocol_in|reflexivity]. Qed.
  Lemma ocol_value env x n : atCombination (md_names M) (md_rows M) env -> (x < List.length (md_rows M))%nat -> In n (md_names M) -> env x n = only (md_names M) (hyperValueOf osource) x n.
  Proof.
    intros HE Hx I. assert (IM : In M (on_models O)) by (eapply nth_error_In; eauto). rewrite Forall_forall in HM. destruct (HM M IM) as [NDm HR].
    destruct (place_nth _ n NDm I) as [E _]. rewrite (HE x _ n Hx E). unfold only. destruct (in_dec string_dec n (md_names M)); [|contradiction]. unfold hyperValueOf. cbn [osource so_hyper].
    pose proof (find_unique (fun h => fst (fst (fst h))) ocols (ocol i M n) ocols_unique (ocol_in n I)) as Fu. cbn [ocol fst] in Fu. rewrite Fu. cbn [ocol fst snd]. rewrite nth_error_map.
    rewrite (List.nth_error_nth' (md_rows M) []) by auto. cbn [option_map]. apply List.nth_error_nth'. rewrite Forall_forall in HR. eapply Nat.lt_le_trans; [now apply place_lt|]. apply HR, nth_In. auto.
  Qed.
  Lemma ocol_evaluates pow fn env c f : atCombination (md_names M) (md_rows M) env -> incl (namesIn c) (md_names M) ->
    evaluates pow fn env (List.length (md_rows M)) c f -> evaluates pow fn (only (md_names M) (hyperValueOf osource)) (List.length (md_rows M)) c f.
  Proof. intros HE I Hf x Hx. rewrite <- (Hf x Hx). apply meaning_ext. intros n J. symmetry. apply ocol_value; auto. Qed.
End OnlineSource.

Lemma divide_post N (p : nat -> R) c r a b : 0 < c -> rsum N p = 1 ->
  probability N (fun x => p x / c / Rsum (tab N (fun x => p x / c))) r a b = probability N p r a b.
Proof.
  intros Pc Hp. assert (Es : Rsum (tab N (fun x => p x / c)) = 1 / c). { rewrite Rsum_tab. rewrite (rsum_ext N _ (fun x => p x * / c)) by (intros; reflexivity). rewrite rsum_scal_r, Hp. reflexivity. }
  unfold probability. f_equal. apply tab_ext. intros x Hx. rewrite Es. destruct (holds r (a x) (b x)); auto. field. lra.
Qed.

Lemma NoDup_app_r {A} (l l' : list A) : NoDup (l ++ l') -> NoDup l'.
Proof. induction l; auto. intros ND. inversion ND; auto. Qed.
Lemma same_flat {A B} (f : A -> list B) l l' : map f l = map f l' -> flat_map f l = flat_map f l'.
Proof. rewrite !flat_map_concat_map. now intros ->. Qed.

Lemma NoDup_app_inv {A} : forall (l l' : list A), NoDup (l ++ l') -> NoDup l /\ NoDup l'.
Proof.
  induction l as [|a l IH]; intros l' ND; [split; [constructor|exact ND]|]. inversion ND as [|? ? NI ND']; subst. apply IH in ND' as [n1 n2]. split; auto. constructor; auto.
  intros I. apply NI, in_or_app. auto.
Qed.
Lemma NoDup_flat {A B} (f : A -> list B) l a : NoDup (flat_map f l) -> In a l -> NoDup (f a).
Proof. induction l as [|b l IH]; intros ND I; [destruct I|]. cbn in ND. apply NoDup_app_inv in ND as (n1 & n2). destruct I as [->|I]; auto. Qed.
(** what the steps leave as it was, as needed for the parser's input *)
Section OnlineLoad.
  Variables (O0 O : online R R) (o : om R) (pvs : list (list R)) (ds : list (raw R)).
  Hypotheses (RO : onlineReady O0 o pvs) (HP : Forall point ds) (E : onlineSteps O0 ds = Ok O) (Hne : ds <> []).
  Hypothesis ND : NoDup (om_names o ++ flat_map md_names (on_models O0))%list.
  Let Fx := steps_fixed _ _ _ (or_models _ _ _ RO) E.
  Lemma ol_names : NoDup (om_names o ++ flat_map md_names (on_models O))%list.
  Proof. rewrite (same_flat _ _ _ (fx_hnames _ _ Fx)). exact ND. Qed.
  Lemma ol_models : Forall (fun M => NoDup (md_names M) /\ Forall (fun r => (List.length (md_names M) <= List.length r)%nat) (md_rows M)) (on_models O).
  Proof.
    apply Forall_forall. intros M I. split; [exact (NoDup_flat md_names _ M (NoDup_app_r _ _ ol_names) I)|].
    destruct (In_nth_error _ _ I) as [i Ei].
    assert (X : exists M0, nth_error (on_models O0) i = Some M0 /\ md_names M = md_names M0 /\ md_rows M = md_rows M0).
    { pose proof (f_equal (fun l => nth_error l i) (fx_hnames _ _ Fx)) as X1. pose proof (f_equal (fun l => nth_error l i) (fx_rows _ _ Fx)) as X2. cbn in X1, X2.
      rewrite !nth_error_map, Ei in X1, X2. destruct (nth_error (on_models O0) i) as [M0|]; [|discriminate]. cbn in X1, X2. exists M0. split; [reflexivity|]. split; congruence. }
    destruct X as (M0 & E0 & -> & ->). destruct (nth_error pvs i) as [pv|] eqn:Ep.
    - pose proof (Online.Forall2_nth_error _ _ _ _ _ _ (or_entries _ _ _ RO) E0 Ep) as EO. rewrite (en_names _ _ EO). eapply Forall_impl; [|exact (en_rows _ _ EO)]. cbn. lia.
    - exfalso. apply nth_error_None in Ep. pose proof (SetupProof.Forall2_len _ _ _ (or_entries _ _ _ RO)). assert (i < List.length (on_models O0))%nat by (apply nth_error_Some; congruence). lia.
  Qed.
  Lemma ol_model i M0 : nth_error (on_models O0) i = Some M0 -> exists M, nth_error (on_models O) i = Some M /\ md_names M = md_names M0 /\ md_rows M = md_rows M0.
  Proof.
    intros E0. pose proof (f_equal (fun l => nth_error l i) (fx_hnames _ _ Fx)) as X1. pose proof (f_equal (fun l => nth_error l i) (fx_rows _ _ Fx)) as X2. cbn in X1, X2.
    rewrite !nth_error_map, E0 in X1, X2. destruct (nth_error (on_models O) i) as [M|]; [|discriminate]. cbn in X1, X2. exists M. split; [reflexivity|]. split; congruence.
  Qed.
  Lemma ol_om : st_om (on_S O) = Some o.
  Proof. exact (steps_om _ _ _ _ _ RO HP E). Qed.
  Lemma ol_grid : st_grid (on_S O) = st_grid (on_S O0).
  Proof. exact (fx_grid _ _ Fx). Qed.
  Lemma ol_store : on_store O = on_store O0.
  Proof. destruct (stream_count _ _ _ _ RO _ HP E) as [_ T]. exact (tk_store _ _ _ _ (T Hne)). Qed.
  Lemma ol_shown : started O o -> List.length (on_hpd O) = List.length (on_models O) /\ exists a, on_marg O = Some a.
  Proof.
    intros HS. destruct (exists_last Hne) as (ds' & d & Ed). pose proof E as E'. rewrite Ed in E'.
    assert (X : exists O1, onlineSteps O0 ds' = Ok O1 /\ onlineStep O1 d = Ok O).
    { clear - E'. revert E'. generalize O0. clear. induction ds' as [|a l IH]; intros O0 E; cbn in E |- *.
      - destruct (onlineStep O0 d) as [O1|] eqn:E1; [|discriminate]. cbn in E. exists O0. inversion E; subst. auto.
      - destruct (onlineStep O0 a) as [O1|]; [|discriminate]. cbn in *. auto. }
    destruct X as (O1 & E1 & E2). apply step_fixed in E2 as [_ X].
    - destruct X as (_ & _ & X & Y); [unfold completed; rewrite ol_om; apply Nat.leb_le; exact HS|auto].
    - eapply fixed_models; [|exact (or_models _ _ _ RO)]. eapply steps_fixed; [exact (or_models _ _ _ RO)|exact E1].
  Qed.
End OnlineLoad.

(** An online study without history: queries refer to the current data. [p]: current parameter distribution (C37_mixture), posteriorOf: posterior probability of the
    combinations of hyper-parameter values of transition model M (C37_hyper). *)
Theorem C63_online : forall pow fn lb (O0 O : online R R) o pvs ds vs,
  computes pow fn lb -> onlineReady O0 o pvs -> Forall point ds -> onlineSteps O0 ds = Ok O -> started O o -> on_store O0 = false ->
  NoDup (om_names o ++ flat_map md_names (on_models O0))%list -> List.length vs = List.length (om_names o) -> st_grid (on_S O0) = meshgrid vs -> (0 < gridPoints vs)%nat ->
  exists s, ofOnline O = Ok s /\
  (forall p env lhs r rhs a b, on_marg O = Some (arrOf (gridPoints vs) p) -> atPoint (om_names o) vs env -> unstamped lhs -> unstamped rhs ->
    incl (namesIn lhs ++ namesIn rhs)%list (om_names o) -> (namesIn lhs ++ namesIn rhs)%list <> [] ->
    evaluates pow fn env (gridPoints vs) lhs a -> evaluates pow fn env (gridPoints vs) rhs b ->
    call lb [s] (QRel lhs r rhs) None = Ok (AProb (Fin (probability (gridPoints vs) p r a b)))) /\
  (forall i M pv fs env lhs r rhs a b, nth_error (on_models O0) i = Some M -> nth_error pvs i = Some pv -> runsOf O M fs -> md_rows M <> [] ->
    atCombination (md_names M) (md_rows M) env -> unstamped lhs -> unstamped rhs ->
    incl (namesIn lhs ++ namesIn rhs)%list (md_names M) -> (namesIn lhs ++ namesIn rhs)%list <> [] ->
    let n := List.length (md_rows M) in
    evaluates pow fn env n lhs a -> evaluates pow fn env n rhs b ->
    call lb [s] (QRel lhs r rhs) None = Ok (AProb (Fin (probability n (posteriorOf O pv fs) r a b)))).
Proof.
  intros pow fn lb O0 O o pvs ds vs Lib RO HP E HS St ND Lv Eg Hg. assert (Hne : ds <> []). { intros ->. cbn in E. inversion E; subst O. unfold started in HS. rewrite (or_empty _ _ _ RO) in HS. pose proof (or_seg _ _ _ RO). lia. }
  destruct (C39_stream _ _ _ _ _ RO HP E Hne) as (Lr & Et & _ & Lt). pose proof (or_seg _ _ _ RO) as Hk. pose proof HS as HS'. unfold started in HS'. rewrite Lr in HS'.
  pose proof (ol_store _ _ _ _ _ RO HP E Hne) as ES. rewrite St in ES. pose proof (ol_om _ _ _ _ _ RO HP E) as Eo. pose proof (ol_models _ _ _ _ _ RO E ND) as HM.
  pose proof (ol_names _ _ _ _ _ RO E ND) as ND'. pose proof (ol_grid _ _ _ _ _ RO E) as EG. rewrite Eg in EG. destruct (ol_shown _ _ _ _ _ RO HP E Hne HS) as [HL Mg].
  set (ts := map INR (seq (om_seglen o - 1) (List.length ds - (om_seglen o - 1)))) in *.
  assert (Hts : exists l u, ts = (l ++ [u])%list).
  { destruct (exists_last (l := ts)) as (l & u & El); [|eauto]. intros X. apply (f_equal (@List.length R)) in X. unfold ts in X. rewrite map_length, seq_length in X. cbn in X. lia. }
  destruct Hts as (l & u & Ets).
  exists (osource O o ts). split; [apply ofOnline_ok; auto; rewrite ES; exact HL|].
  assert (SS : studies [osource O o ts]). { apply osource_studies; auto. rewrite EG. unfold meshgrid. now rewrite map_length, seq_length. }
  assert (LD : loads [osource O o ts] None). { repeat constructor; cbn; rewrite ES; destruct Mg as (a & ->); split; [discriminate|]. rewrite Ets. intros X; destruct l; discriminate X. }
  assert (Sp : forall n ns ms, incl (n ++ ms)%list ns -> incl n ns /\ @incl string ms ns) by (intros n ns ms I; split; intros x J; apply I, in_or_app; auto).
  split.
  - intros p env lhs r rhs a b Ep HE U1 U2 Inc NE Ha Hb. destruct (Sp _ _ _ Inc) as [I1 I2].
    destruct (source_grid (osource O o ts) vs) as [HG HV]; [exact (proj1 (NoDup_app_inv _ _ ND))|now cbn|exact EG|].
    eapply C40_relation with (i := 0%nat) (shape := unstamped) (h := false) (time := Some u) (env := valueOf (osource O o ts)); [exact Lib|exact SS|exact LD| |exact Hg|exact U1|exact U2|exact NE|..].
    + eapply rd_current with (l := l); [reflexivity| |exact HG|exact Ets]. cbn. rewrite ES, Ep. reflexivity.
    + intros x Hx. rewrite <- (Ha x Hx). apply meaning_ext. intros n J. destruct (In_nth_error _ _ (I1 n J)) as [j Ej]. rewrite (HE x j n Hx Ej). exact (HV x j n Hx Ej).
    + intros x Hx. rewrite <- (Hb x Hx). apply meaning_ext. intros n J. destruct (In_nth_error _ _ (I2 n J)) as [j Ej]. rewrite (HE x j n Hx Ej). exact (HV x j n Hx Ej).
  - intros i M0 pv fs env lhs r rhs a b EM EP HF Hr HE U1 U2 Inc NE n Ha Hb. destruct (Sp _ _ _ Inc) as [I1 I2].
    destruct (ol_model _ _ _ _ _ RO E i M0 EM) as (M & EM' & En & Er). rewrite <- En in I1, I2, HE. rewrite <- Er in HE. unfold n in *. rewrite <- Er in Ha, Hb.
    destruct (hd_dist O0 O o pvs ds i M0 pv fs RO HP E HS EM EP HF) as (h & e1 & e2 & e3). assert (Pc : 0 < Rprod (md_const M0)) by (eapply hd_c; eauto).
    assert (Ec : combos M0 = md_rows M) by (unfold combos; rewrite Er; destruct (md_rows M0); congruence). rewrite Ec in e2, e3. rewrite <- Er.
    rewrite <- (divide_post (List.length (md_rows M)) (posteriorOf O pv fs) (Rprod (md_const M0)) r a b Pc e3).
    eapply C40_relation with (i := 0%nat) (shape := unstamped) (h := true) (time := Some u) (env := only (md_names M) (hyperValueOf (osource O o ts))); [exact Lib|exact SS|exact LD| | |exact U1|exact U2|exact NE|..].
    + eapply rd_hyper_current with (l := l) (m := on_marg O); [reflexivity|cbn; now rewrite ES|exact Ets| |].
      * intros h' I' J. rewrite (ocol_only O o ND' i M EM' h' I' J). cbn [ocol fst snd]. rewrite map_length, ES. split; auto. rewrite (nth_error_nth _ _ [] e1), e2. reflexivity.
      * rewrite Rsum_tab, (rsum_ext _ _ (fun x => posteriorOf O pv fs x * / Rprod (md_const M0))) by (intros; reflexivity). rewrite rsum_scal_r, e3. apply Rgt_not_eq. rewrite Rmult_1_l. apply Rinv_0_lt_compat. auto.
    + rewrite Er. destruct (md_rows M0); [congruence|cbn; lia].
    + eapply ocol_evaluates; eauto.
    + eapply ocol_evaluates; eauto.
Qed.

(** An online study with history: queries about the time stamp of an earlier data point, given with '@' or as argument, refer to what was known after this data
    point (state Oi). *)
Theorem C63_past : forall pow fn lb (O0 Oi O : online R R) o pvs ds1 ds2 vs,
  computes pow fn lb -> moment O0 Oi O o pvs ds1 ds2 ->
  NoDup (om_names o ++ flat_map md_names (on_models O0))%list -> List.length vs = List.length (om_names o) -> st_grid (on_S O0) = meshgrid vs -> (0 < gridPoints vs)%nat ->
  exists s, ofOnline O = Ok s /\
  (forall p env lhs r rhs a b, on_marg Oi = Some (arrOf (gridPoints vs) p) -> atPoint (om_names o) vs env ->
    incl (namesIn lhs ++ namesIn rhs)%list (om_names o) -> (namesIn lhs ++ namesIn rhs)%list <> [] ->
    evaluates pow fn env (gridPoints vs) lhs a -> evaluates pow fn env (gridPoints vs) rhs b ->
    let answer := Ok (AProb (Fin (probability (gridPoints vs) p r a b))) in
    (unstamped lhs -> unstamped rhs -> call lb [s] (QRel lhs r rhs) (Some (stamp ds1)) = answer) /\
    (stamped (stamp ds1) lhs -> stamped (stamp ds1) rhs -> call lb [s] (QRel lhs r rhs) None = answer)) /\
  (forall i M pv fs env lhs r rhs a b, nth_error (on_models O0) i = Some M -> nth_error pvs i = Some pv -> runsOf Oi M fs -> md_rows M <> [] ->
    atCombination (md_names M) (md_rows M) env ->
    incl (namesIn lhs ++ namesIn rhs)%list (md_names M) -> (namesIn lhs ++ namesIn rhs)%list <> [] ->
    let n := List.length (md_rows M) in
    evaluates pow fn env n lhs a -> evaluates pow fn env n rhs b ->
    let answer := Ok (AProb (Fin (probability n (posteriorOf Oi pv fs) r a b))) in
    (unstamped lhs -> unstamped rhs -> call lb [s] (QRel lhs r rhs) (Some (stamp ds1)) = answer) /\
    (stamped (stamp ds1) lhs -> stamped (stamp ds1) rhs -> call lb [s] (QRel lhs r rhs) None = answer)).
Proof.
  intros pow fn lb O0 Oi O o pvs ds1 ds2 vs Lib MO ND Lv Eg Hg. pose proof (mo_ready _ _ _ _ _ _ _ MO) as RO. pose proof (mo_points _ _ _ _ _ _ _ MO) as HP.
  pose proof (mo_all _ _ _ _ _ _ _ MO) as E. pose proof (mo_all_ne _ _ _ _ _ _ _ MO) as Hne. destruct (mo_ts _ _ _ _ _ _ _ MO) as (ts & Et & Ft & Lt).
  pose proof (mo_storeO _ _ _ _ _ _ _ MO) as ES. pose proof (ol_om _ _ _ _ _ RO HP E) as Eo. pose proof (ol_models _ _ _ _ _ RO E ND) as HM.
  pose proof (ol_names _ _ _ _ _ RO E ND) as ND'. pose proof (ol_grid _ _ _ _ _ RO E) as EG. rewrite Eg in EG.
  destruct (mo_history _ _ _ _ _ _ _ MO) as (_ & Hp & Hh & _). pose proof (mo_done _ _ _ _ _ _ _ MO) as Hd. set (k := (List.length ds1 - om_seglen o)%nat) in *. set (done := filter completed (trace O0 (ds1 ++ ds2))) in *.
  assert (HL : Forall (fun x => List.length x = List.length (on_models O)) (on_hHpd O)).
  { rewrite Hh. pose proof (trace_fixed (ds1 ++ ds2) O0 (or_models _ _ _ RO)) as X. fold done in X. apply Forall_forall. intros x I. apply in_map_iff in I as (Oj & <- & I). rewrite Forall_forall in X.
    destruct (X Oj I) as (f & _ & _ & -> & _). pose proof (f_equal (@List.length _) (fx_names _ _ f)) as L1. pose proof (f_equal (@List.length _) (fx_names _ _ (steps_fixed _ _ _ (or_models _ _ _ RO) E))) as L2.
    rewrite !map_length in L1, L2. congruence. }
  exists (osource O o ts). split; [apply ofOnline_ok; auto; rewrite ES; exact HL|].
  assert (SS : studies [osource O o ts]). { apply osource_studies; auto. rewrite EG. unfold meshgrid. now rewrite map_length, seq_length. }
  assert (LD : loads [osource O o ts] None). { repeat constructor; cbn. now rewrite ES. }
  assert (Fa : firstAt (so_stamps (osource O o ts)) (stamp ds1) k) by exact Ft.
  assert (LDt : loads [osource O o ts] (Some (stamp ds1))).
  { exists (osource O o ts), k. split; [reflexivity|]. split; [exact Fa|]. constructor; [|constructor]. split; [unfold keepsHistory; cbn; now rewrite ES|]. split.
    - exists (marginalNow Oi). cbn. rewrite Hp, !nth_error_map, Hd. reflexivity.
    - intros _. apply Forall_forall. intros h I. cbn [osource so_hyper] in I. unfold ocols in I. apply in_concat in I as (l & I1 & I2). apply in_map_iff in I1 as (jm & <- & _). apply in_map_iff in I2 as (n & <- & _).
      cbn [ocol fst snd]. rewrite ES, map_length, Hh, map_length. apply nth_error_Some. congruence. }
  assert (Sp : forall n ns ms, incl (n ++ ms)%list ns -> incl n ns /\ @incl string ms ns) by (intros n ns ms I; split; intros x J; apply I, in_or_app; auto).
  split.
  - intros p env lhs r rhs a b Ep HE Inc NE Ha Hb. destruct (Sp _ _ _ Inc) as [I1 I2].
    destruct (source_grid (osource O o ts) vs) as [HG HV]; [exact (proj1 (NoDup_app_inv _ _ ND))|now cbn|exact EG|].
    assert (EV : forall c f, incl (namesIn c) (om_names o) -> evaluates pow fn env (gridPoints vs) c f -> evaluates pow fn (valueOf (osource O o ts)) (gridPoints vs) c f).
    { intros c f I Hf x Hx. rewrite <- (Hf x Hx). apply meaning_ext. intros n J. destruct (In_nth_error _ _ (I n J)) as [j Ej]. rewrite (HE x j n Hx Ej). exact (HV x j n Hx Ej). }
    assert (EPost : nth_error (so_post (osource O o ts)) k = Some (Some (map Fin (tab (gridPoints vs) p)))). { cbn [osource so_post]. rewrite Hp, !nth_error_map, Hd. cbn. unfold marginalNow. now rewrite Ep. }
    split; intros U1 U2.
    + eapply C40_relation with (i := 0%nat) (shape := unstamped) (h := false) (time := Some (stamp ds1)) (env := valueOf (osource O o ts)); [exact Lib|exact SS|exact LDt| |exact Hg|exact U1|exact U2|exact NE|now apply EV..].
      apply rd_argument with (first := osource O o ts) (k := k); auto.
    + eapply C40_relation with (i := 0%nat) (shape := stamped (stamp ds1)) (h := false) (time := Some (stamp ds1)) (env := valueOf (osource O o ts)); [exact Lib|exact SS|exact LD| |exact Hg|exact U1|exact U2|exact NE|now apply EV..].
      apply rd_at with (k := k); auto. unfold keepsHistory; cbn; now rewrite ES.
  - intros i M0 pv fs env lhs r rhs a b EM EP HF Hr HE Inc NE n Ha Hb. destruct (Sp _ _ _ Inc) as [I1 I2].
    destruct (ol_model _ _ _ _ _ RO E i M0 EM) as (M & EM' & En & Er). rewrite <- En in I1, I2, HE. rewrite <- Er in HE. unfold n in *. rewrite <- Er in Ha, Hb.
    destruct (hd_dist O0 Oi o pvs ds1 i M0 pv fs RO (mo_points1 _ _ _ _ _ _ _ MO) (mo_then _ _ _ _ _ _ _ MO) (mo_started _ _ _ _ _ _ _ MO) EM EP HF) as (h & e1 & e2 & e3).
    assert (Pc : 0 < Rprod (md_const M0)) by (eapply hd_c; eauto).
    assert (Ec : combos M0 = md_rows M) by (unfold combos; rewrite Er; destruct (md_rows M0); congruence). rewrite Ec in e2, e3. rewrite <- Er. cbv zeta.
    rewrite <- (divide_post (List.length (md_rows M)) (posteriorOf Oi pv fs) (Rprod (md_const M0)) r a b Pc e3).
    assert (Hn : (0 < List.length (md_rows M))%nat) by (rewrite Er; destruct (md_rows M0); [congruence|cbn; lia]).
    set (d := fun x => posteriorOf Oi pv fs x / Rprod (md_const M0)) in *. set (N := List.length (md_rows M)) in *.
    assert (Hz : Rsum (tab N d) <> 0). { rewrite Rsum_tab. unfold d. rewrite (rsum_ext _ _ (fun x => posteriorOf Oi pv fs x * / Rprod (md_const M0))) by (intros; reflexivity). rewrite rsum_scal_r, e3. apply Rgt_not_eq. rewrite Rmult_1_l. apply Rinv_0_lt_compat. auto. }
    set (hist := map (fun x => nth i x []) (on_hHpd O)).
    assert (Hhist : nth_error hist k = Some (map Fin (tab N d))). { unfold hist. rewrite Hh, map_map, nth_error_map, Hd. cbn. f_equal. rewrite (nth_error_nth _ _ [] e1), e2. reflexivity. }
    assert (Hcols : forall h', In h' (so_hyper (osource O o ts)) -> In (fst (fst (fst h'))) (md_names M) -> List.length (snd (fst (fst h'))) = N /\ snd (fst h') = hist).
    { intros h' I' J. rewrite (ocol_only O o ND' i M EM' h' I' J). cbn [ocol fst snd]. rewrite map_length, ES. split; reflexivity. }
    assert (EVl : evaluates pow fn (only (md_names M) (hyperValueOf (osource O o ts))) N lhs a) by (eapply ocol_evaluates; eauto).
    assert (EVr : evaluates pow fn (only (md_names M) (hyperValueOf (osource O o ts))) N rhs b) by (eapply ocol_evaluates; eauto).
    split; intros U1 U2.
    + eapply C40_relation with (i := 0%nat) (shape := unstamped) (h := true) (time := Some (stamp ds1)) (env := only (md_names M) (hyperValueOf (osource O o ts))); [exact Lib|exact SS|exact LDt| |exact Hn|exact U1|exact U2|exact NE|exact EVl|exact EVr].
      apply rd_hyper_argument with (first := osource O o ts) (k := k) (m := on_marg O) (hist := hist); auto. cbn. now rewrite ES.
    + eapply C40_relation with (i := 0%nat) (shape := stamped (stamp ds1)) (h := true) (time := Some (stamp ds1)) (env := only (md_names M) (hyperValueOf (osource O o ts))); [exact Lib|exact SS|exact LD| |exact Hn|exact U1|exact U2|exact NE|exact EVl|exact EVr].
      apply rd_hyper_at with (k := k) (m := on_marg O) (hist := hist); auto. cbn. now rewrite ES.
Qed.

(** ** The hypotheses are met *)
Definition envOf (names : list string) (rows : list (list R)) (x : nat) (n : string) : option R := nth_error (nth x rows []) (place names n).
Lemma envOf_ok names rows : NoDup names -> atCombination names rows (envOf names rows).
Proof. intros ND x k n Hx En. unfold envOf, place. now rewrite (nameIndex_nth _ _ _ ND En). Qed.
Lemma envOf_name pow fn names rows n : NoDup names -> Forall (fun row => (List.length names <= List.length row)%nat) rows -> In n names ->
  evaluates pow fn (envOf names rows) (List.length rows) (CName n) (fun x => nth (place names n) (nth x rows []) 0).
Proof.
  intros ND HR I x Hx. cbn [meaning]. unfold envOf. apply List.nth_error_nth'. rewrite Forall_forall in HR. eapply Nat.lt_le_trans; [now apply place_lt|]. apply HR, nth_In. auto.
Qed.
(** a coin study with a random walk of two possible widths s and a change-point at any time c: probability of s < c *)
Example C63_hyper_example pow fn lb (ds : list Z) : computes pow fn lb -> bits ds -> (3 <= List.length ds)%nat ->
  exists S H' runs pv s, setup (data ds) None (coin PNone) walkOrChange = Ok S /\ hyperFit (newHyper S) true false 1 = Ok H' /\ ofHyper H' = Ok s /\
    let n := List.length runs in
    let joint i := evidenceOf (nth i runs S) * Rnth pv i in
    call lb [s] (QRel (CName "s") RLt (CName "c")) None =
      Ok (AProb (Fin (probability n (fun i => joint i / rsum n joint) RLt (fun i => nth 0 (nth i (hy_grid H') []) 0) (fun i => nth 1 (nth i (hy_grid H') []) 0)))).
Proof.
  intros Lib Hb Hd. destruct (C28_ex ds true false 1 Hb Hd) as (S & H' & runs & pv & E & HR & Hne & _ & _ & EF & _ & Hm & Epv & Hpv & Hc & HF & HP & HZ & _).
  destruct (C63_hyper pow fn lb (newHyper S) (coin PNone) walkOrChange (times ds) true false 1 H' pv runs Lib HR EF Hm Epv Hpv Hc HF HP HZ) as (s & Es & Q).
  - cbn. repeat constructor; cbn; intuition discriminate.
  - assert (Hd0 : ds <> []) by (destruct ds; [cbn in Hd; lia|discriminate]).
    pose proof (coin_configured _ _ _ _ E eq_refl Hd0 ltac:(cbn; repeat constructor; cbn; intuition discriminate)) as C. change (hy_S (newHyper S)) with S. rewrite (cf_grid _ _ _ _ _ C). reflexivity.
  - exists S, H', runs, pv, s. do 3 (split; [assumption|]). cbv zeta. assert (Hg : hy_grid H' <> []) by (intros E0; rewrite E0 in Hm; cbn in Hm; lia).
    destruct (fit_grid_inv _ _ _ _ _ _ _ _ HR EF) as (m1 & EG & _). destruct (grid_shape _ _ _ _ _ _ _ EG Hg) as (_ & g2 & _).
    assert (ND : NoDup (allNames walkOrChange)) by (cbn; repeat constructor; cbn; intuition discriminate).
    assert (Ln : List.length runs = List.length (hy_grid H')) by (symmetry; eapply SetupProof.Forall2_len; eauto).
    apply (Q (envOf (allNames walkOrChange) (hy_grid H'))); [now apply envOf_ok|repeat constructor..|cbn; intros x; cbn; tauto|discriminate| |].
    + rewrite Ln. now apply (envOf_name pow fn (allNames walkOrChange) (hy_grid H') "s"); [| |left].
    + rewrite Ln. now apply (envOf_name pow fn (allNames walkOrChange) (hy_grid H') "c"); [| |right; left].
Qed.
(** a change-point study with change-points a in 0, 1 and b in 1, 2: probability of b > a + 1 *)
Example C63_change_example pow fn lb (ds : list Z) : computes pow fn lb -> bits ds -> ds <> [] ->
  exists S C' s q, setup (data ds) None (coin PNone) twoPoints = Ok S /\ changepointFit (newChangepoint S) true false 1 = Ok C' /\ ofChange C' = Ok s /\ Rsum (tab 4 q) = 1 /\
    call lb [s] (QRel (CName "b") RGt (CSum (CName "a") [(true, CNum 1)])) None =
      Ok (AProb (Fin (probability 4 q RGt (fun i => nth 1 (nth i (cp_all C') []) 0) (fun i => nth 0 (nth i (cp_all C') []) 0 + 1)))).
Proof.
  intros Lib Hb Hd. destruct (C33_ex ds true false 1 Hb Hd) as (S & C' & pv & dist & E & EF & HR & _ & _ & CF & Ed & En & L4 & _).
  destruct (C63_change pow fn lb (newChangepoint S) (coin PNone) twoPoints (times ds) true false C' pv Lib CF) as (s & q & Es & Sq & _ & _ & Q).
  - cbn. repeat constructor; cbn; intuition discriminate.
  - pose proof (coin_configured _ _ _ _ E eq_refl Hd ltac:(cbn; repeat constructor; cbn; intuition discriminate)) as C. change (hy_S (cp_H (newChangepoint S))) with S. rewrite (cf_grid _ _ _ _ _ C). reflexivity.
  - exists S, C', s, q. do 3 (split; [assumption|]). rewrite L4 in *. split; [assumption|].
    destruct (cpFit_inv _ _ _ _ HR _ _ _ _ EF) as (vals & rows & cs' & pvx & m' & H2 & d2 & Hs & K & EG & _ & _ & EC' & _).
    assert (Eall : cp_all C' = rows) by now rewrite EC'. assert (Hne : cp_all C' <> []) by (intros E0; rewrite E0 in L4; discriminate).
    assert (g2 : Forall (fun row => (List.length (allNames twoPoints) <= List.length row)%nat) (cp_all C')). { rewrite Eall in Hne |- *. eapply grid_shape; eauto. }
    assert (ND : NoDup (allNames twoPoints)) by (cbn; repeat constructor; cbn; intuition discriminate).
    apply (Q (envOf (allNames twoPoints) (cp_all C'))); [now apply envOf_ok|repeat constructor..|cbn; intros x; cbn; tauto|discriminate| |].
    + rewrite <- L4. now apply (envOf_name pow fn (allNames twoPoints) (cp_all C') "b"); [| |right; left].
    + rewrite <- L4. intros x Hx. pose proof (envOf_name pow fn (allNames twoPoints) (cp_all C') "a" ND g2 ltac:(now left) x Hx) as X. cbn [meaning] in X |- *. cbn [fold_left]. rewrite X. reflexivity.
Qed.
Lemma twoModels_online store (O0 : online R R) : onlineSetup (coin PNone) twoModels store = Ok O0 ->
  NoDup (om_names (coin PNone) ++ flat_map md_names (on_models O0))%list /\ st_grid (on_S O0) = meshgrid [quarters].
Proof.
  intros E0. destruct twoModels_ok as [HA ND]. destruct (coin_online store twoModels ltac:(discriminate) HA ND) as (O0' & pvs & E0' & RO & AD & h1 & h2 & h3 & HG).
  rewrite E0 in E0'. inversion E0'; subst O0'. split; [|apply (go_grid _ _ _ HG)].
  inversion AD as [|? M1 ? Ms (_ & n1 & _) AD1 e1 e2]; subst. inversion AD1 as [|? M2 ? Ms' (_ & n2 & _) AD2 e3 e4]; subst. inversion AD2; subst. cbn [flat_map]. rewrite n1, n2.
  cbn. repeat constructor; cbn; intuition discriminate.
Qed.
(** an online study of bits with two transition models, one of them a random walk of width s = 1/4 or 1/2: probability of s > 1/3 after the first data points ds1,
    asked after all data points *)
Example C63_past_example pow fn lb (d : Z) (ds1 ds2 : list Z) : computes pow fn lb -> bits (d :: ds1 ++ ds2) ->
  exists O0 Oi O s pv fs, onlineSetup (coin PNone) twoModels true = Ok O0 /\ onlineSteps O0 (stream (d :: ds1)) = Ok Oi /\ onlineSteps Oi (stream ds2) = Ok O /\ ofOnline O = Ok s /\
    let answer := Ok (AProb (Fin (probability 2 (posteriorOf Oi pv fs) RGt (fun x => nth x [1 / 4; 1 / 2] 0) (fun _ => 1 / 3)))) in
    call lb [s] (QRel (CName "s") RGt (CNum (1 / 3))) (Some (INR (List.length ds1))) = answer /\
    call lb [s] (QRel (CAt (CName "s") [CNum (INR (List.length ds1))]) RGt (CNum (1 / 3))) None = answer.
Proof.
  intros Lib Hb. destruct (C55_ex d ds1 ds2 Hb) as (O0 & Oi & O & pvs & M & pv & fs & E0 & MO & EM & EP & HF & AG & EN & Hr). destruct (twoModels_online true O0 E0) as [ND EG].
  destruct (C63_past pow fn lb O0 Oi O (coin PNone) pvs _ _ [quarters] Lib MO ND eq_refl EG ltac:(cbn; lia)) as (s & Es & _ & Q).
  exists O0, Oi, O, s, pv, fs. split; [exact E0|]. split; [apply MO|]. split; [apply MO|]. split; [exact Es|].
  pose proof (ag_size _ _ AG) as L2. cbn in L2. pose proof (ag_rows _ _ AG) as Hrow. cbn in Hrow.
  assert (Est : stamp (stream (d :: ds1)) = INR (List.length ds1)). { unfold stamp, stream. rewrite map_length. cbn [List.length]. f_equal. lia. }
  assert (I : In "s" (md_names M)) by (eapply nth_error_In; eauto).
  assert (NDm : NoDup (md_names M)). { apply (NoDup_flat md_names (on_models O0) M); [exact (proj2 (NoDup_app_inv _ _ ND))|eapply nth_error_In; eauto]. }
  assert (P0 : place (md_names M) "s" = 0%nat) by (unfold place; now rewrite (nameIndex_nth _ _ _ NDm EN)).
  assert (Hs : evaluates pow fn (envOf (md_names M) (md_rows M)) (List.length (md_rows M)) (CName "s") (fun x => nth x [1 / 4; 1 / 2] 0)).
  { intros x Hx. rewrite L2 in Hx. cbn [meaning]. unfold envOf. rewrite P0, Hrow by lia. destruct x as [|[|x]]; [reflexivity|reflexivity|lia]. }
  cbv zeta. rewrite <- L2, <- Est. split.
  - apply (Q 0%nat M pv fs (envOf (md_names M) (md_rows M)) (CName "s") RGt (CNum (1 / 3))); auto; [now apply envOf_ok|intros x [<-|[]]; auto|discriminate|intros x Hx; reflexivity|repeat constructor..].
  - apply (Q 0%nat M pv fs (envOf (md_names M) (md_rows M)) (CAt (CName "s") [CNum (stamp (stream (d :: ds1)))]) RGt (CNum (1 / 3))); auto; [now apply envOf_ok|intros x [<-|[]]; auto|discriminate|intros x Hx; reflexivity|repeat constructor..].
Qed.
Example C63_online_example pow fn lb (d : Z) (ds : list Z) : computes pow fn lb -> bits (d :: ds) ->
  exists O0 O s pvs M pv fs, onlineSetup (coin PNone) twoModels false = Ok O0 /\ onlineSteps O0 (stream (d :: ds)) = Ok O /\ ofOnline O = Ok s /\
    nth_error (on_models O0) 1 = Some M /\ nth_error pvs 1 = Some pv /\ runsOf O M fs /\ md_names M = ["r"; "c"] /\
    (md_rows M <> [] -> call lb [s] (QRel (CName "r") RLt (CName "c")) None =
       Ok (AProb (Fin (probability (List.length (md_rows M)) (posteriorOf O pv fs) RLt (fun x => nth 0 (nth x (md_rows M) []) 0) (fun x => nth 1 (nth x (md_rows M) []) 0))))).
Proof.
  intros Lib Hb. destruct (C35_ex d ds false Hb) as (O0 & O & pvs & fss & E0 & RO & _ & HP & E & HS & HF & _ & _ & St & _). destruct (twoModels_online false O0 E0) as [ND EG].
  destruct (C63_online pow fn lb O0 O (coin PNone) pvs _ [quarters] Lib RO HP E HS St ND eq_refl EG ltac:(cbn; lia)) as (s & Es & _ & Q).
  destruct twoModels_ok as [HA NDm]. destruct (coin_online false twoModels ltac:(discriminate) HA NDm) as (O0' & pvs' & E0' & _ & AD & _). rewrite E0 in E0'. inversion E0'; subst O0'.
  inversion AD as [|? M1 ? Ms _ AD1 e1 e2]; subst. inversion AD1 as [|? M2 ? Ms' (_ & n2 & _) AD2 e3 e4]; subst. inversion AD2; subst. symmetry in e2.
  rewrite e2 in HF. inversion HF as [|? fs1 ? fss1 _ HF1]; subst. inversion HF1 as [|? fs2 ? fss2 HF2 _]; subst. pose proof (or_entries _ _ _ RO) as FE. rewrite e2 in FE.
  inversion FE as [|? pv1 ? pvs1 _ FE1]; subst. inversion FE1 as [|? pv2 ? pvs2 EO _]; subst.
  assert (EM : nth_error (on_models O0) 1 = Some M2) by now rewrite e2.
  exists O0, O, s, (pv1 :: pv2 :: pvs2), M2, pv2, fs2. do 7 (split; [solve [auto]|]). intros Hr.
  assert (NM : NoDup (md_names M2)) by (rewrite n2; cbn; repeat constructor; cbn; intuition discriminate).
  assert (g2 : Forall (fun row => (List.length (md_names M2) <= List.length row)%nat) (md_rows M2)). { rewrite (en_names _ _ EO). eapply Forall_impl; [|exact (en_rows _ _ EO)]. cbn. lia. }
  assert (I1 : In "r" (md_names M2)) by (rewrite n2; now left). assert (I2 : In "c" (md_names M2)) by (rewrite n2; right; now left).
  apply (Q 1%nat M2 pv2 fs2 (envOf (md_names M2) (md_rows M2)) (CName "r") RLt (CName "c")); auto; [now apply envOf_ok|repeat constructor..|intros x [<-|[<-|[]]]; auto|discriminate| |].
  - pose proof (envOf_name pow fn (md_names M2) (md_rows M2) "r" NM g2 I1) as X. assert (P : place (md_names M2) "r" = 0%nat) by now rewrite n2. now rewrite P in X.
  - pose proof (envOf_name pow fn (md_names M2) (md_rows M2) "c" NM g2 I2) as X. assert (P : place (md_names M2) "c" = 1%nat) by now rewrite n2. now rewrite P in X.
Qed.

(** ** Executed *)
Open Scope res_scope.
Local Open Scope Q_scope.
(** C28_run: posterior probabilities 30/109, 49/109, 30/109 of a change-point at 0, 1, 2; C33_run: 7/19, 5/19, 7/19 of (0, 1), (0, 2), (1, 2) *)
Example C63_executed :
  (let* S0 := setup (L := Q) (data [1; 1; 0; 0]%Z) None (coinOM quarters PNone) (anyTime HPNone) in
   let* H1 := hyperFit (newHyper S0) true false 2 in let* s := ofHyper H1 in
   let* a := ask (call libQ [s] (QRel (nm "c") RGe (CNum 1)) None) in
   let* S0 := setup (L := Q) (data [1; 1; 0; 0]%Z) None (coinOM quarters PNone) (pointsAt [("a"%string, HAll); ("b"%string, HArr [1; 2])]) in
   let* C1 := changepointFit (newChangepoint S0) true false 2 in let* s' := ofChange C1 in
   let* b := ask (call libQ [s'] (QRel (nm "a") RLt (nm "b")) None) in
   let* c := ask (call libQ [s'] (QRel (nm "b") RGt (CSum (nm "a") [(true, CNum 1)])) None) in
   let* d := ask (call libQ [s'] (QRel (nm "a") RGt (CNum 0)) None) in
   Ok (a, b, c, d)) = Ok (Fin (79 # 109), Fin 1, Fin (5 # 19), Fin (7 # 19)).
Proof. vm_compute. reflexivity. Qed.
(** C55_run_ex: probability of s = 1/2 is 3/4 at time 0 and 97637567/131023376 at time 1; without history the study knows about now *)
Example C63_online_executed :
  (let* O0 := onlineSetup (L := Q) (coinOM quarters PNone) twoModels true in let* st := onlineSteps O0 (stream [1; 1; 0]%Z) in let* s := ofOnline st in
   let* a := ask (call libQ [s] (QRel (nm "s") RGt (CNum (1 # 3))) (Some 0)) in
   let* b := ask (call libQ [s] (QRel (at_ "s" 1) RGt (CNum (1 # 3))) None) in
   let* O0 := onlineSetup (L := Q) (coinOM quarters PNone) twoModels false in let* st := onlineSteps O0 (stream [1; 1; 0]%Z) in let* s := ofOnline st in
   let* c := ask (call libQ [s] (QRel (nm "s") RGt (CNum (1 # 3))) None) in
   let* d := ask (call libQ [s] (QRel (nm "p") RGt (CNum (1 # 3))) None) in
   Ok (a, b, c, d)) = Ok (Fin (3 # 4), Fin (97637567 # 131023376), Fin (1544309614402157 # 2054739307563956), Fin (5423594438998319 # 10260676002903020)).
Proof. vm_compute. reflexivity. Qed.
(** Hyper-parameters of different transition models of one online study: the parser combines the i-th combination of one model with the i-th combination of the other
    one. Here both step widths are 1/4 or 1/2 with positive probability (p and q: marginal posteriors); s > r has probability zero, and in the reverse order. *)
Definition rivals : list (string * tm Q) :=
  [("one"%string, TM (KGRW "p") ["s"%string] [HArr [1 # 4; 1 # 2]] (Some (Leaf HPNone)) []); ("two"%string, TM (KGRW "p") ["r"%string] [HArr [1 # 4; 1 # 2]] (Some (Leaf HPNone)) [])].
Theorem C63_models_refuted : exists (O0 O : online Q Q) s p q, onlineSetup (coinOM quarters PNone) rivals false = Ok O0 /\ onlineSteps O0 (stream [1; 1; 0]%Z) = Ok O /\ ofOnline O = Ok s /\
  call libQ [s] (QRel (nm "s") RGt (CNum (1 # 3))) None = Ok (AProb (Fin p)) /\ call libQ [s] (QRel (nm "r") RLt (CNum (1 # 3))) None = Ok (AProb (Fin q)) /\
  0 < p * q /\ call libQ [s] (QRel (nm "s") RGt (nm "r")) None = Ok (AProb (Fin 0)) /\ call libQ [s] (QRel (nm "s") RLt (nm "r")) None = Ok (AProb (Fin 0)).
Proof.
  assert (E : (let* O0 := onlineSetup (L := Q) (coinOM quarters PNone) rivals false in let* st := onlineSteps O0 (stream [1; 1; 0]%Z) in let* s := ofOnline st in
   Ok (call libQ [s] (QRel (nm "s") RGt (CNum (1 # 3))) None, call libQ [s] (QRel (nm "r") RLt (CNum (1 # 3))) None, call libQ [s] (QRel (nm "s") RGt (nm "r")) None, call libQ [s] (QRel (nm "s") RLt (nm "r")) None)) =
   Ok (Ok (AProb (Fin (1544309614402157 # 3075598693887554))), Ok (AProb (Fin (1531289079485397 # 3075598693887554))), Ok (AProb (Fin 0)), Ok (AProb (Fin 0)))) by (vm_compute; reflexivity).
  run E. do 5 eexists. repeat (split; [eassumption|]). split; [reflexivity|auto].
Qed.
