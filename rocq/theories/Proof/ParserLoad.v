(** Parameters loaded by the parser. *)
From Coq Require Import List ZArith Reals Lra Lia Arith Bool String Permutation.
From Verif Require Import Base.Num Base.Exn Base.Arr Base.RSum Base.Lift Model.Helper Model.Tm Model.HyperParams Model.Study Model.Getters Model.Parser
  Spec.Kernel Spec.Hmm Spec.Dist Spec.ParserSpec Proof.FitThms Proof.GridProof Proof.ParserProof.
Import ListNotations.
Local Open Scope R_scope.

Notation src := (source (F := R)).
Notation pname := (pa_name (F := R)).
Notation hname := (fun h : string * list R * list (list (xnum R)) * list (xnum R) => fst (fst (fst h))).

Lemma mapM_names {A} (f : A -> res (param (F := R))) (g : A -> string) l ps : mapM f l = Ok ps -> (forall a p, f a = Ok p -> pname p = g a) ->
  map pname ps = map g l.
Proof.
  intros E Hg. apply mapM_Forall2 in E. induction E as [|a b l l' Ef E IH]; [reflexivity|]. cbn. rewrite IH. f_equal. auto.
Qed.
Lemma loadParams_names i (s : src) t ps : List.length (so_grid s) = List.length (so_names s) -> loadParams i s t = Ok ps -> map pname ps = so_names s.
Proof.
  intros L E. unfold loadParams in E. rewrite (mapM_names _ fst _ _ E).
  - clear E. revert L. generalize (so_grid s) (so_names s). intros gs l. revert gs. induction l as [|a l IH]; intros [|g gs] L; cbn in *; try reflexivity; try discriminate. rewrite IH by lia. reflexivity.
  - intros [n v] p. cbn [fst snd]. destruct t as [[t k]|].
    + destruct (index (so_post s) k) as [[r|]|]; cbn [bind]; intros Z; inversion Z; reflexivity.
    + destruct (so_online s) as [[[] m]|]; [|destruct m; [|discriminate]; destruct (lastStamp _); [|discriminate]|]; cbn [bind]; intros Z; inversion Z; reflexivity.
Qed.
Lemma loadHyper_names i (s : src) t ps : loadHyper i s t = Ok ps -> map pname ps = map hname (so_hyper s).
Proof.
  intros E. unfold loadHyper in E. apply (mapM_names _ hname _ _ E). intros [[[n v] hi] cur] p. cbn [fst snd].
  destruct (so_online s) as [[store m]|]; [|intros Z; inversion Z; reflexivity]. destruct t as [[t k]|], store; try discriminate.
  - destruct (index hi k); cbn [bind]; intros Z; inversion Z; reflexivity.
  - intros Z; inversion Z; reflexivity.
  - destruct (lastStamp _); cbn [bind]; intros Z; inversion Z; reflexivity.
Qed.
Lemma numbered_from {A B} (f : nat * A -> res (list B)) (g : A -> list string) (nm : B -> string) : forall (l : list A) k ps,
  mapM f (combine (seq k (List.length l)) l) = Ok ps -> (forall i s r, In s l -> f (i, s) = Ok r -> map nm r = g s) -> map nm (List.concat ps) = flat_map g l.
Proof.
  induction l as [|s l IH]; intros k ps E Hg; cbn in E.
  - inversion E. reflexivity.
  - destruct (f (k, s)) as [r|] eqn:Er; [|discriminate]. destruct (mapM f _) as [rs|] eqn:Ers; [|discriminate]. inversion E; subst. cbn.
    rewrite map_app, (Hg k s r), (IH (Datatypes.S k) rs); cbn; auto. intros i s' r' I. apply Hg. now right.
Qed.
Lemma flat_perm (f g : src -> list string) l : Permutation (flat_map f l ++ flat_map g l) (flat_map (fun s => f s ++ g s) l).
Proof.
  induction l as [|s l IH]; [constructor|]. cbn. rewrite <- !app_assoc. apply Permutation_app_head.
  rewrite Permutation_app_swap_app. now apply Permutation_app_head.
Qed.
Lemma hasDup_inv l : hasDup l = false -> NoDup l.
Proof.
  induction l as [|a l IH]; intros E; constructor; cbn in E; apply orb_false_iff in E; destruct E as [E1 E2]; auto.
  intros I. assert (existsb (String.eqb a) l = true); [|congruence]. apply existsb_exists. exists a. split; auto. apply String.eqb_refl.
Qed.
Lemma parserNames_ok (ss : list src) : ss <> [] -> NoDup (namesOfAll ss) -> parserNames ss = Ok (namesOfAll ss).
Proof. intros NE ND. unfold parserNames. destruct ss; [congruence|]. unfold namesOfAll in ND. now rewrite hasDup_NoDup. Qed.
Lemma load_NoDup (ss : list src) t ps : Forall (fun s => List.length (so_grid s) = List.length (so_names s)) ss -> NoDup (namesOfAll ss) ->
  loadAll ss t = Ok ps -> NoDup (map pname ps).
Proof.
  intros HL ND E. unfold loadAll in E. destruct (match t with None => _ | Some _ => _ end) as [tk|]; [|discriminate]. cbn [bind] in E.
  destruct (mapM _ (numbered ss)) as [l1|] eqn:E1; [|discriminate]. cbn [bind] in E. destruct (mapM _ (numbered ss)) as [l2|] eqn:E2 in E; [|discriminate].
  cbn [bind] in E. inversion E; subst. rewrite map_app. unfold numbered in *.
  rewrite (numbered_from _ so_names pname _ _ _ E1), (numbered_from _ (fun s => map hname (so_hyper s)) pname _ _ _ E2).
  - eapply Permutation_NoDup; [symmetry; apply flat_perm|exact ND].
  - intros i s r _ Er. cbn in Er. exact (loadHyper_names _ _ _ _ Er).
  - intros i s r Is Er. cbn in Er. apply (loadParams_names i s tk); auto. rewrite Forall_forall in HL. auto.
Qed.
Lemma find_NoDup ps : NoDup (map pname ps) -> forall p, In p ps -> find (fun q => String.eqb (pname q) (pname p)) ps = Some p.
Proof.
  induction ps as [|q ps IH]; intros ND p I; [destruct I|]. cbn in ND. inversion ND as [|? ? NI ND']; subst. cbn. destruct (String.eqb_spec (pname q) (pname p)) as [E|NE].
  - destruct I as [->|I]; [reflexivity|]. exfalso. apply NI. rewrite E. now apply in_map.
  - destruct I as [->|I]; [congruence|]. auto.
Qed.

(** ** What is loaded *)
Lemma mapM_total {A B} (f : A -> res B) (l : list A) : (forall a, In a l -> exists b, f a = Ok b) -> exists r, mapM f l = Ok r.
Proof.
  induction l as [|a l IH]; intros Hf; [now exists []|]. destruct (Hf a (or_introl eq_refl)) as [b Eb]. destruct IH as [r Er]; [intros; apply Hf; now right|].
  exists (b :: r). cbn. now rewrite Eb, Er.
Qed.
Lemma mapM_in {A B} (f : A -> res B) l r a b : mapM f l = Ok r -> In a l -> f a = Ok b -> In b r.
Proof.
  intros E. apply mapM_Forall2 in E. induction E as [|a' b' l l' Ef E IH]; intros I Eb; [destruct I|]. destruct I as [->|I]; [left; congruence|right; auto].
Qed.
Lemma numbered_in {A} (l : list A) i s : nth_error l i = Some s -> In (i, s) (numbered l).
Proof.
  intros E. unfold numbered. assert (G : forall k l i, nth_error l i = Some s -> In ((k + i)%nat, s) (combine (seq k (List.length l)) l)).
  { clear. intros k l. revert k. induction l as [|a l IH]; intros k [|i] E; cbn in *; try discriminate.
    - left. inversion E. f_equal. lia.
    - right. specialize (IH (Datatypes.S k) i E). replace (k + Datatypes.S i)%nat with (Datatypes.S k + i)%nat by lia. exact IH. }
  exact (G 0%nat l i E).
Qed.
Lemma numbered_of {A} (l : list A) i s : In (i, s) (numbered l) -> nth_error l i = Some s.
Proof.
  unfold numbered. assert (G : forall k l, In (i, s) (combine (seq k (List.length l)) l) -> (k <= i)%nat /\ nth_error l (i - k) = Some s).
  { clear. intros k l. revert k. induction l as [|a l IH]; intros k I; [destruct I|]. cbn in I. destruct I as [E|I].
    - inversion E; subst. split; [lia|]. now rewrite Nat.sub_diag.
    - destruct (IH (Datatypes.S k) I) as [L E]. split; [lia|]. replace (i - k)%nat with (Datatypes.S (i - Datatypes.S k)) by lia. exact E. }
  intros I. destruct (G 0%nat l I) as [_ E]. now rewrite Nat.sub_0_r in E.
Qed.
Lemma numbered_In {A} (l : list A) i s : In (i, s) (numbered l) -> In s l.
Proof. intros I. eapply nth_error_In, numbered_of, I. Qed.

(** position of the requested time stamp *)
Definition position (ss : list src) (t : option R) (tk : option (R * nat)) : Prop :=
  match t with None => tk = None | Some u => exists k, timeIndex (stampsOf ss 0) u = Some k /\ tk = Some (u, k) end.
Lemma loadAll_eq ss t tk : position ss t tk -> loadAll ss t =
  bind (mapM (fun s => loadParams (fst s) (snd s) tk) (numbered ss)) (fun ps => bind (mapM (fun s => loadHyper (fst s) (snd s) tk) (numbered ss)) (fun hs => Ok (List.concat ps ++ List.concat hs))).
Proof. unfold loadAll. destruct t as [u|]; [intros (k & E & ->); rewrite E|intros ->]; reflexivity. Qed.
(** everything is there *)
Definition loadable (tk : option (R * nat)) (s : src) : Prop :=
  match tk with None => match so_online s with Some (false, m) => m <> None /\ so_stamps s <> [] | _ => True end | Some (_, k) => hasStep s k end.
Lemma lastStamp_ok ts : ts <> [] -> exists t, lastStamp (F := R) ts = Ok t.
Proof. intros NE. unfold lastStamp. destruct (rev ts) eqn:E; [|eauto]. apply (f_equal (@rev R)) in E. rewrite rev_involutive in E. now cbn in E. Qed.
Lemma loadParams_ok i s tk : loadable tk s -> exists ps, loadParams i s tk = Ok ps.
Proof.
  intros LD. apply mapM_total. intros [n v] _. cbn [fst snd]. unfold loadable in LD. destruct tk as [[t k]|].
  - destruct LD as (_ & [p Ep] & _). unfold index. rewrite Ep. cbn. eauto.
  - destruct (so_online s) as [[[] m]|]; eauto. destruct LD as [NM NS]. destruct m; [|congruence]. destruct (lastStamp_ok _ NS) as [t ->]. cbn. eauto.
Qed.
Lemma loadHyper_ok i s tk : loadable tk s -> exists ps, loadHyper i s tk = Ok ps.
Proof.
  intros LD. apply mapM_total. intros [[[n v] hi] cur] I. unfold loadable in LD. destruct (so_online s) as [[store m]|] eqn:EO; [|eauto]. destruct tk as [[t k]|].
  - destruct LD as (KH & _ & HF). unfold keepsHistory in KH. rewrite EO in *. destruct store; [|destruct KH]. specialize (HF ltac:(discriminate)). rewrite Forall_forall in HF.
    specialize (HF _ I). cbn in HF. unfold index. destruct (nth_error hi k) eqn:En; [cbn; eauto|]. apply nth_error_None in En. lia.
  - destruct store; [eauto|]. destruct LD as [NM NS]. destruct (lastStamp_ok _ NS) as [t ->]. cbn. eauto.
Qed.
Lemma load_ok ss t tk : position ss t tk -> Forall (loadable tk) ss -> exists ps, loadAll ss t = Ok ps.
Proof.
  intros Po LD. rewrite (loadAll_eq _ _ _ Po). rewrite Forall_forall in LD.
  destruct (mapM_total (fun s => loadParams (fst s) (snd s) tk) (numbered ss)) as [l1 E1].
  { intros [i s] I. apply loadParams_ok, LD. now apply numbered_In in I. }
  destruct (mapM_total (fun s => loadHyper (fst s) (snd s) tk) (numbered ss)) as [l2 E2].
  { intros [i s] I. apply loadHyper_ok, LD. now apply numbered_In in I. }
  rewrite E1. cbn [bind]. rewrite E2. cbn [bind]. eauto.
Qed.
(** a parameter that can be loaded is found by its name *)
Definition loadsParam (i : nat) (s : src) (tk : option (R * nat)) (nv : string * list R) (p : param (F := R)) : Prop := forall ps, loadParams i s tk = Ok ps -> In p ps.
Lemma found ss t tk ps i s p : position ss t tk -> Forall (fun s => List.length (so_grid s) = List.length (so_names s)) ss -> NoDup (namesOfAll ss) ->
  loadAll ss t = Ok ps -> nth_error ss i = Some s ->
  (exists l, (loadParams i s tk = Ok l \/ loadHyper i s tk = Ok l) /\ In p l) ->
  find (fun q => String.eqb (pname q) (pname p)) ps = Some p.
Proof.
  intros Po HL ND E Es (l & El & Il). apply find_NoDup; [now apply (load_NoDup ss t)|]. rewrite (loadAll_eq _ _ _ Po) in E.
  destruct (mapM _ (numbered ss)) as [l1|] eqn:E1; [|discriminate]. cbn [bind] in E. destruct (mapM _ (numbered ss)) as [l2|] eqn:E2 in E; [|discriminate].
  cbn [bind] in E. inversion E; subst. apply in_app_iff. apply numbered_in in Es. destruct El as [El|El]; [left|right]; apply in_concat; exists l; (split; [|exact Il]).
  - exact (mapM_in _ _ _ (i, s) l E1 Es El).
  - exact (mapM_in _ _ _ (i, s) l E2 Es El).
Qed.

(** ** Relations *)
Lemma meaning_known pow fn env : forall c r, meaning pow fn env c = Some r -> Forall (fun s => env s <> None) (namesIn c).
Proof.
  assert (N : forall (f : bool * cst (F := R) -> R -> R -> option R) l, fold_left (fun acc d => lift2 (f d) acc (meaning pow fn env (snd d))) l None = None).
  { intros f l. induction l; auto. }
  assert (G : forall (f : bool * cst (F := R) -> R -> R -> option R) l c r,
    Forall (fun d => forall r, meaning pow fn env (snd d) = Some r -> Forall (fun s => env s <> None) (namesIn (snd d))) l ->
    (forall r, c = Some r -> True) -> fold_left (fun acc d => lift2 (f d) acc (meaning pow fn env (snd d))) l c = Some r ->
    (exists r', c = Some r') /\ Forall (fun s => env s <> None) (flat_map (fun d : bool * cst (F := R) => namesIn (snd d)) l)).
  { intros f l. induction l as [|d l IH]; intros c r HF _ E.
    - cbn in *. split; [eauto|constructor].
    - inversion HF as [|? ? Hd HF']; subst. cbn [fold_left] in E. destruct c as [x|]; [|cbn [lift2] in E; rewrite N in E; discriminate].
      split; [eauto|]. cbn [flat_map]. apply Forall_app. cbn [lift2] in E. destruct (meaning pow fn env (snd d)) as [y|] eqn:Ed; [|rewrite N in E; discriminate].
      split; [eapply Hd; reflexivity|]. eapply IH; eauto. }
  induction c as [x|s|c IH|f c IH|c l IH IHl|a b IHa IHb|p c IH|c l IH IHl|c l IH IHl] using cst_ind'; intros r E; cbn [meaning namesIn] in *; auto.
  - constructor; [congruence|constructor].
  - eauto.
  - destruct (meaning pow fn env c); [eauto|discriminate].
  - eauto.
  - apply Forall_app. destruct (meaning pow fn env a), (meaning pow fn env b); try discriminate. split; eauto.
  - destruct (meaning pow fn env c); [eauto|destruct p; discriminate].
  - destruct (G (fun d x y => if fst d then Some (x * y) else over x y) l _ r IHl ltac:(auto) E) as [[r' Er] HF]. apply Forall_app. split; [eauto|exact HF].
  - destruct (G (fun d x y => Some (if fst d then x + y else x - y)) l _ r IHl ltac:(auto) E) as [[r' Er] HF]. apply Forall_app. split; [eauto|exact HF].
Qed.
Lemma reduced_node (lhs rhs : cst (F := R)) : exists l, tree (reduced lhs rhs) = Node l /\ (3 <= List.length l)%nat.
Proof. destruct lhs; cbn [reduced tree flat_map app group fst snd]; eexists; (split; [reflexivity|]); cbn; lia. Qed.
Lemma evaluate_elem lb stamps params l N : (0 < N)%nat -> (3 <= List.length l)%nat ->
  evaluate (F := R) lb stamps params (Node l) = bind (evalElem lb stamps params (Node l)) (toVal params).
Proof. intros HN L. rewrite (evalElem_node lb stamps params N HN) by auto. reflexivity. Qed.
Lemma call_rel pow fn lb (ss : list src) t params N i h T q env lhs rhs a b r :
  (0 < N)%nat -> parserNames ss = Ok (namesOfAll ss) -> loadAll ss t = Ok params ->
  P pow fn lb (stampsOf ss) params N i h T (map Fin (tab N q)) env (reduced lhs rhs) ->
  evaluates pow fn env N lhs a -> evaluates pow fn env N rhs b -> namesIn lhs ++ namesIn rhs <> [] ->
  call lb ss (QRel lhs r rhs) t = Ok (AProb (Fin (probability N q r a b))).
Proof.
  intros HN EN EL HP Ha Hb NE. unfold call. rewrite EN. cbn [bind]. rewrite EL. cbn [bind].
  destruct (HP (fun x => a x - b x)) as (e & Ee & v & Tv & G & _).
  { intros x Hx. apply reduced_meaning; auto. }
  destruct (reduced_node lhs rhs) as (l & El & Ll). rewrite El in *. rewrite (evaluate_elem _ _ _ _ N) by auto. rewrite Ee. cbn [bind]. rewrite Tv. cbn [bind].
  rewrite reduced_app in G. inversion G as [np rr m Z Hf Hv|p m n nl Np C Hl]; subst.
  - destruct (namesIn lhs), (namesIn rhs); cbn in *; congruence.
  - destruct C as (Ev & Ep & _). rewrite Ev, Ep. cbn [maskedProb]. unfold tab at 1. rewrite !map_map, masked_sum. cbn [bind]. rewrite asum_fin. f_equal. f_equal. f_equal.
    rewrite filter_sum. unfold probability. f_equal. apply tab_ext. intros x Hx. now rewrite relHolds_diff.
Qed.

(** ** Parameters of one study *)
Lemma timeIndex_first ts u k : firstAt ts u k -> timeIndex (F := R) ts u = Some k.
Proof.
  revert k. induction ts as [|a ts IH]; intros k [E Hk]; [destruct k; discriminate|]. cbn [timeIndex]. change (feqb a u) with (Reqb a u). destruct k as [|k].
  - inversion E; subst. rewrite (proj2 (Reqb_true u u)); auto.
  - rewrite (proj2 (Reqb_false a u)); [|intros ->; apply (Hk O); [lia|reflexivity]]. rewrite (IH k); [reflexivity|]. split; [exact E|].
    intros j Hj. apply (Hk (Datatypes.S j)). lia.
Qed.
Lemma nth_error_tab (v : list R) N : List.length v = N -> v = tab N (fun x => nth x v 0) /\ forall x, (x < N)%nat -> nth_error v x = Some (nth x v 0).
Proof.
  intros L. split.
  - rewrite <- L. symmetry. apply (tab_Rnth v).
  - intros x Hx. apply nth_error_nth'. lia.
Qed.
Section OneStudy.
  Variables (ss : list src) (t : option R) (tk : option (R * nat)) (params : list (param (F := R))) (i : nat) (s : src) (N : nat).
  Hypotheses (Po : position ss t tk) (St : studies ss) (EL : loadAll ss t = Ok params) (Es : nth_error ss i = Some s).
  Notation lookup n := (find (fun p => String.eqb (pa_name p) n) params).

  Lemma in_ss : In s ss.
  Proof. eapply nth_error_In; eauto. Qed.
  Lemma loads_both : exists lp lh, loadParams i s tk = Ok lp /\ loadHyper i s tk = Ok lh.
  Proof.
    pose proof EL as E. rewrite (loadAll_eq _ _ _ Po) in E. destruct (mapM _ (numbered ss)) as [l1|] eqn:E1; [|discriminate]. cbn [bind] in E.
    destruct (mapM _ (numbered ss)) as [l2|] eqn:E2 in E; [|discriminate]. pose proof (numbered_in _ _ _ Es) as I.
    destruct (mapM_In _ _ _ _ E1 I) as [lp Ep]. destruct (mapM_In _ _ _ _ E2 I) as [lh Eh]. eauto.
  Qed.
  Lemma param_found mk : hasGrid s N -> (forall ps nv, loadParams i s tk = Ok ps -> In nv (combine (so_names s) (so_grid s)) -> In (mk nv) ps) ->
    (forall nv, pname (mk nv) = fst nv) -> forall n x, valueOf s x n <> None ->
    exists v, lookup n = Some (mk (n, v)) /\ v = tab N (fun x => nth x v 0) /\ forall x, (x < N)%nat -> valueOf s x n = Some (nth x v 0).
  Proof.
    intros [_ HG] Hmk Hn n x NV. unfold valueOf in NV |- *. destruct (find _ _) as [[n' v]|] eqn:Ef; [|congruence]. cbn [fst snd] in *.
    destruct (find_some _ _ Ef) as [I En]. cbn in En. apply String.eqb_eq in En. subst n'. exists v.
    destruct loads_both as (lp & lh & Ep & _). split.
    - pose proof (found ss t tk params i s (mk (n, v)) Po (proj2 St) (proj1 St) EL Es) as G. rewrite Hn in G. apply G. eauto.
    - pose proof (in_combine_r _ _ _ _ I) as Iv. rewrite Forall_forall in HG. exact (nth_error_tab v N (HG _ Iv)).
  Qed.
  Lemma hyper_found mk : (forall h, In h (so_hyper s) -> List.length (snd (fst (fst h))) = N) ->
    (forall ps h, loadHyper i s tk = Ok ps -> In h (so_hyper s) -> In (mk h) ps) ->
    (forall h, pname (mk h) = fst (fst (fst h))) -> forall n x, hyperValueOf s x n <> None ->
    exists h v, In h (so_hyper s) /\ lookup n = Some (mk h) /\ snd (fst (fst h)) = tab N v /\ forall x, (x < N)%nat -> hyperValueOf s x n = Some (v x).
  Proof.
    intros HG Hmk Hn n x NV. unfold hyperValueOf in NV |- *. destruct (find _ _) as [h|] eqn:Ef; [|congruence].
    destruct (find_some _ _ Ef) as [I En]. cbn in En. apply String.eqb_eq in En. exists h, (fun x => nth x (snd (fst (fst h))) 0).
    destruct loads_both as (lp & lh & _ & Eh). split; [exact I|]. split.
    - pose proof (found ss t tk params i s (mk h) Po (proj2 St) (proj1 St) EL Es) as G. rewrite Hn, En in G. apply G. eauto.
    - apply nth_error_tab. auto.
  Qed.
  Lemma hyper_in ns mk : (forall h, In h (so_hyper s) -> In (fst (fst (fst h))) ns -> List.length (snd (fst (fst h))) = N) ->
    (forall ps h, loadHyper i s tk = Ok ps -> In h (so_hyper s) -> In (fst (fst (fst h))) ns -> In (mk h) ps) ->
    (forall h, pname (mk h) = fst (fst (fst h))) -> forall n x, only ns (hyperValueOf s) x n <> None ->
    exists h v, lookup n = Some (mk h) /\ snd (fst (fst h)) = tab N v /\ forall x, (x < N)%nat -> only ns (hyperValueOf s) x n = Some (v x).
  Proof.
    intros HG Hmk Hn n x NV. unfold only in NV |- *. destruct (in_dec string_dec n ns) as [In'|]; [|congruence]. unfold hyperValueOf in NV |- *. destruct (find _ _) as [h|] eqn:Ef; [|congruence].
    destruct (find_some _ _ Ef) as [I En]. cbn in En. apply String.eqb_eq in En. exists h, (fun x => nth x (snd (fst (fst h))) 0).
    destruct loads_both as (lp & lh & _ & Eh). split.
    - pose proof (found ss t tk params i s (mk h) Po (proj2 St) (proj1 St) EL Es) as G. rewrite Hn, En in G. apply G. exists lh. split; [now right|]. apply Hmk; auto. now rewrite En.
    - apply nth_error_tab. apply HG; auto. now rewrite En.
  Qed.
End OneStudy.
