(** Queries that cannot be answered: C61. *)
From Coq Require Import List ZArith QArith Reals Lra Lia Arith Bool String.
From Verif Require Import Base.Num Base.Exn Base.Arr Base.RSum Base.Lift Model.Helper Model.Tm Model.HyperParams Model.Study Model.Api Model.Getters Model.Hyper Model.Online Model.Parser
  Spec.Kernel Spec.Hmm Spec.Dist Spec.ParserSpec Proof.GridProof Proof.ParserProof Proof.ParserLoad Proof.ParserReject Props.Ex Props.OnlineStream Props.Parser Props.ParserStudy.
Import ListNotations.
Local Open Scope string_scope.
Local Open Scope R_scope.
Local Open Scope list_scope.

(** ** The parser's studies *)
(** A parser needs at least one study, and all names have to differ: otherwise ConfigurationError, whatever is asked. *)
Theorem C61_names : forall lb ss q t, ss = [] \/ ~ NoDup (namesOfAll ss) -> call (F := R) lb ss q t = Err ConfigurationError.
Proof.
  intros lb ss q t [->|ND]; [reflexivity|]. unfold call, parserNames. destruct ss as [|s ss]; [reflexivity|].
  destruct (hasDup _) eqn:E; [reflexivity|]. exfalso. apply ND. now apply hasDup_inv.
Qed.
(** A query may contain at most one relational operator. *)
Theorem C61_relations : forall lb ss t, studies ss -> ss <> [] -> loads ss t -> call (F := R) lb ss QMany t = Err ConfigurationError.
Proof. intros lb ss t St NE LD. destruct (loads_ok _ _ LD) as (tk & params & Po & EL). unfold call. rewrite names_of by auto. cbn [bind]. rewrite EL. reflexivity. Qed.

(** ** Missing time stamps *)
Lemma timeIndex_none ts u : ~ In u ts -> timeIndex (F := R) ts u = None.
Proof.
  induction ts as [|a ts IH]; intros NI; [reflexivity|]. cbn [timeIndex]. change (feqb a u) with (Reqb a u). rewrite (proj2 (Reqb_false a u)); [|intros ->; apply NI; now left].
  rewrite IH; [reflexivity|]. intros I. apply NI. now right.
Qed.
Lemma param_in (s : src) n : List.length (so_grid s) = List.length (so_names s) -> In n (so_names s) -> exists v, In (n, v) (combine (so_names s) (so_grid s)).
Proof.
  generalize (so_grid s). generalize (so_names s). induction l as [|a l IH]; intros [|g gs] E I; try destruct I; cbn in E; try discriminate.
  - subst. exists g. now left.
  - destruct (IH gs) as [v Iv]; auto. exists v. now right.
Qed.
(** what is found under such a name *)
Lemma sequence_found ss params i s n : studies ss -> loadAll ss None = Ok params -> nth_error ss i = Some s -> keepsHistory s ->
  In n (so_names s) \/ so_online s <> None /\ In n (map (fun h => fst (fst (fst h))) (so_hyper s)) ->
  exists p, find (fun p => String.eqb (pa_name p) n) params = Some p /\ is2D p = true /\ pa_study p = Some i /\ pa_time p = None /\ pa_name p = n /\
    (In n (so_names s) \/ pa_hyper p = true).
Proof.
  intros St EL Es KH HI. assert (Po : position ss None None) by reflexivity.
  assert (Is : In s ss) by (eapply nth_error_In; eauto).
  destruct (loads_both ss None None params i s Po EL Es) as (lp & lh & Ep & Eh).
  destruct HI as [In_|[No Ih]].
  - destruct (param_in s n) as [v Iv]; auto. { destruct St as [_ HF]. rewrite Forall_forall in HF. auto. }
    set (p := {| pa_vals := map Fin v; pa_prob := Prob2 (so_post s); pa_name := n; pa_time := None; pa_study := Some i; pa_hyper := false |} : param (F := R)).
    exists p. split; [|repeat split; auto].
    assert (Ip : In p lp).
    { unfold loadParams in Ep. apply (mapM_in _ _ _ (n, v) p Ep Iv). unfold keepsHistory in KH. cbn [fst snd]. destruct (so_online s) as [[[] m]|]; tauto || reflexivity. }
    apply (found ss None None params i s p Po (proj2 St) (proj1 St) EL Es). eauto.
  - apply in_map_iff in Ih. destruct Ih as ([[[n' v] hist] cur] & <- & Ih). cbn [fst snd].
    set (p := {| pa_vals := map Fin v; pa_prob := Prob2 (map (fun d => Some (normed d)) hist); pa_name := n'; pa_time := None; pa_study := Some i; pa_hyper := true |} : param (F := R)).
    exists p. split; [|repeat split; auto].
    assert (Ip : In p lh).
    { unfold loadHyper in Eh. apply (mapM_in _ _ _ (n', v, hist, cur) p Eh Ih). unfold keepsHistory in KH. destruct (so_online s) as [[[] m]|]; tauto || reflexivity. }
    apply (found ss None None params i s p Po (proj2 St) (proj1 St) EL Es). eauto.
Qed.
Lemma needs_unready ss params n : studies ss -> loadAll ss None = Ok params -> needsStamp ss n -> unready params n.
Proof.
  intros St EL (i & s & Es & KH & HI). destruct (sequence_found ss params i s n) as (p & Ef & H2 & _ & Et & En & Hh); auto; [tauto|].
  exists p. split; [exact Ef|]. unfold untimed, needsTime, noTime. rewrite Et, H2. destruct (pa_hyper p) eqn:Eh; [reflexivity|]. cbn.
  destruct HI as [[_ ND]|[No Ih]].
  - rewrite En. apply negb_true_iff. now apply String.eqb_neq.
  - exfalso. destruct St as [ND _]. destruct Hh as [Hn|]; [|discriminate]. clear - ND Hn Ih Es. unfold namesOfAll in ND.
    apply nth_error_split in Es. destruct Es as (l1 & l2 & -> & _). rewrite flat_map_app in ND. cbn in ND.
    assert (G : forall a b : list string, NoDup (a ++ b) -> NoDup a /\ NoDup b /\ forall x, In x a -> ~ In x b).
    { clear. induction a as [|x a IH]; cbn; intros b N; [repeat split; auto; constructor|]. inversion N as [|? ? NI N']; subst. destruct (IH b N') as (h1 & h2 & h3).
      rewrite in_app_iff in NI. repeat split; auto; [constructor; tauto|]. intros y [->|I]; [tauto|auto]. }
    apply G in ND. destruct ND as (_ & ND & _). apply G in ND. destruct ND as (ND & _ & _). apply G in ND. destruct ND as (_ & _ & D). exact (D n Hn Ih).
Qed.
Lemma lacks_missing ss params u n : studies ss -> loadAll ss None = Ok params -> lacksStamp ss u n -> missing (stampsOf ss) params u n.
Proof.
  intros St EL (i & s & Es & KH & NI & HI). destruct (sequence_found ss params i s n) as (p & Ef & H2 & Ep & _); auto.
  exists p. split; [exact Ef|]. split; [exact H2|]. exists i. split; [exact Ep|]. apply timeIndex_none. unfold stampsOf. now rewrite Es.
Qed.

(** Without time stamps: relations between expressions over names that need one, and distributions of operations on such names, are
    rejected. *)
Theorem C61_no_time : forall pow fn lb ss lhs r rhs,
  computes pow fn lb -> studies ss -> loads ss None -> unstamped lhs -> unstamped rhs -> namesIn lhs ++ namesIn rhs <> [] ->
  Forall (needsStamp ss) (namesIn lhs ++ namesIn rhs) -> sensible pow fn lhs rhs ->
  call lb ss (QRel lhs r rhs) None = Err ConfigurationError /\
  (composite lhs -> namesIn lhs <> [] -> call lb ss (QDist lhs) None = Err ConfigurationError).
Proof.
  intros pow fn lb ss lhs r rhs Lib St LD Ul Ur NE HF (env & a & b & Ha & Hb). destruct (loads_ok _ _ LD) as (tk & params & Po & EL).
  assert (NS : ss <> []).
  { intros ->. destruct (namesIn lhs ++ namesIn rhs) as [|n l]; [congruence|]. inversion HF as [|? ? (i & s & Es & _) _]; subst. destruct i; discriminate. }
  assert (HU : Forall (unready params) (namesIn lhs ++ namesIn rhs)) by (eapply Forall_impl; [|exact HF]; intros n; now apply needs_unready).
  apply Forall_app in HU. destruct HU as [Hl Hr]. unfold call. rewrite names_of by auto. cbn [bind]. rewrite EL. cbn [bind]. split.
  - rewrite (relation_fails pow fn lb Lib (stampsOf ss) params env ConfigurationError untimed untimedE (fun c => unstamped c /\ Forall (unready params) (namesIn c))
      ltac:(intros c [U K]; split; [now apply Q_unstamped|auto]) lhs rhs a b); auto.
    intros c l ->. inversion Ul; subst. cbn in Hl. apply Forall_app in Hl. destruct Hl as [K1 K2]. split; [auto|]. apply flat_all in K2. rewrite Forall_forall in *. intros d I. auto.
  - intros Co NL. rewrite (composite_fails pow fn lb Lib (stampsOf ss) params env lhs a); auto.
Qed.
(** With a time stamp that does not occur in the studies of the names. *)
Theorem C61_unknown_time : forall pow fn lb ss u lhs r rhs,
  computes pow fn lb -> studies ss -> loads ss None -> stamped u lhs -> stamped u rhs -> namesIn lhs ++ namesIn rhs <> [] ->
  Forall (lacksStamp ss u) (namesIn lhs ++ namesIn rhs) -> sensible pow fn lhs rhs ->
  call lb ss (QRel lhs r rhs) None = Err ValueError.
Proof.
  intros pow fn lb ss u lhs r rhs Lib St LD Ul Ur NE HF (env & a & b & Ha & Hb). destruct (loads_ok _ _ LD) as (tk & params & Po & EL).
  assert (NS : ss <> []).
  { intros ->. destruct (namesIn lhs ++ namesIn rhs) as [|n l]; [congruence|]. inversion HF as [|? ? (i & s & Es & _) _]; subst. destruct i; discriminate. }
  assert (HU : Forall (missing (stampsOf ss) params u) (namesIn lhs ++ namesIn rhs)) by (eapply Forall_impl; [|exact HF]; intros n; now apply lacks_missing).
  apply Forall_app in HU. destruct HU as [Hl Hr]. unfold call. rewrite names_of by auto. cbn [bind]. rewrite EL. cbn [bind].
  rewrite (relation_fails pow fn lb Lib (stampsOf ss) params env ValueError nothing nothingE (fun c => stamped u c /\ Forall (missing (stampsOf ss) params u) (namesIn c))
    ltac:(intros c [U K]; split; [now apply (Q_stamped pow fn lb Lib (stampsOf ss) params env u)|intros; now apply (stamped_closed u)]) lhs rhs a b); auto.
  intros c l ->. inversion Ul; subst. cbn in Hl. apply Forall_app in Hl. destruct Hl as [K1 K2]. split; [auto|]. apply flat_all in K2. rewrite Forall_forall in *. intros d I. auto.
Qed.
(** The argument t has to be a time stamp of the first study. *)
Theorem C61_argument : forall lb first ss q u, NoDup (namesOfAll (first :: ss)) -> ~ In u (so_stamps first) -> call (F := R) lb (first :: ss) q (Some u) = Err ValueError.
Proof.
  intros lb first ss q u ND NI. unfold call. rewrite parserNames_ok by (auto; discriminate). cbn [bind]. unfold loadAll, stampsOf. cbn [nth_error]. now rewrite timeIndex_none.
Qed.

(** ** Studies without history *)
(** With the argument t, an OnlineStudy that keeps no history is rejected, if the studies before it can be read; the error is IndexError
    (the sequence of posteriors is empty) and not the ConfigurationError that the code provides for this case. *)
Theorem C61_history : forall lb ss s ss' q u k first, NoDup (namesOfAll (ss ++ s :: ss')) -> nth_error (ss ++ s :: ss') 0 = Some first -> firstAt (so_stamps first) u k ->
  Forall (fun s' => exists p, nth_error (so_post s') k = Some (Some p)) ss -> so_post s = [] -> so_names s <> [] -> so_grid s <> [] ->
  call (F := R) lb (ss ++ s :: ss') q (Some u) = Err IndexError.
Proof.
  intros lb ss s ss' q u k first ND E0 Hk HF Ep Nn Ng. unfold call. rewrite parserNames_ok by (auto; destruct ss; discriminate). cbn [bind]. unfold loadAll.
  assert (Et : stampsOf (ss ++ s :: ss') 0 = so_stamps first) by (unfold stampsOf; now rewrite E0). rewrite Et, (timeIndex_first _ _ _ Hk). cbn [bind].
  assert (G : forall ss j, Forall (fun s' => exists p, nth_error (so_post s') k = Some (Some p)) ss ->
    mapM (fun s => loadParams (fst s) (snd s) (Some (u, k))) (combine (seq j (List.length (ss ++ s :: ss'))) (ss ++ s :: ss')) = Err IndexError).
  { clear - Ep Nn Ng. induction ss as [|x ss IH]; intros j HF; cbn [app List.length seq combine mapM fst snd].
    - unfold loadParams at 1. destruct (so_names s) as [|n ns]; [congruence|]. destruct (so_grid s) as [|g gs]; [congruence|]. cbn [combine mapM fst snd]. rewrite Ep.
      unfold index. destruct k; reflexivity.
    - inversion HF as [|? ? (p & Hp) HF']; subst. destruct (mapM_total (fun nv : string * list R => bind (index (so_post x) k) (fun r => match r with None => Err ValueError | Some p => Ok
        {| pa_vals := map Fin (snd nv); pa_prob := Prob1 p; pa_name := fst nv; pa_time := Some u; pa_study := Some j; pa_hyper := false |} end)) (combine (so_names x) (so_grid x))) as [r Er].
      { intros nv _. unfold index. rewrite Hp. cbn. eauto. }
      unfold loadParams at 1. rewrite Er. cbn [bind]. rewrite (IH (Datatypes.S j) HF'). reflexivity. }
  unfold numbered. rewrite (G ss 0%nat HF). reflexivity.
Qed.

(** ** Cases *)
Example C61_no_time_example pow fn lb : computes pow fn lb ->
  call lb [sx; sy] (QRel (CProd (CNum 2) [(true, CName "x")]) RGt (CName "y")) None = Err ConfigurationError /\
  call lb [sx; sy] (QDist (CSum (CName "x") [(true, CName "y")])) None = Err ConfigurationError /\
  call lb [sx; sy] (QRel (CAt (CName "x") [CNum 5]) RGt (CNum 1)) None = Err ValueError /\
  call lb [sx; sy] (QDist (CName "x")) (Some 5) = Err ValueError /\
  call lb [sx; sx] (QDist (CName "x")) (Some 0) = Err ConfigurationError.
Proof.
  intros Lib. destruct sxy_loads as (St & _). assert (LD : loads [sx; sy] None) by (repeat constructor).
  assert (Nx : needsStamp [sx; sy] "x") by (exists 0%nat, sx; repeat split; left; split; [now left|discriminate]).
  assert (Ny : needsStamp [sx; sy] "y") by (exists 1%nat, sy; repeat split; left; split; [now left|discriminate]).
  assert (Se : forall c d : cst (F := R), (exists a, meaning pow fn (fun _ => Some 1) c = Some a) -> (exists b, meaning pow fn (fun _ => Some 1) d = Some b) -> sensible pow fn c d).
  { intros c d [a Ha] [b Hb]. exists (fun _ => Some 1), a, b. auto. }
  split; [|split; [|split; [|split]]].
  - apply (C61_no_time pow fn lb); auto; [repeat constructor|constructor|discriminate|repeat constructor; auto|apply Se; cbn; eauto].
  - apply (C61_no_time pow fn lb [sx; sy] (CSum (CName "x") [(true, CName "y")]) RGt (CNum 1)); auto; try discriminate; try exact I; [repeat constructor|constructor|repeat constructor; auto|apply Se; cbn; eauto].
  - apply (C61_unknown_time pow fn lb [sx; sy] 5); auto; try discriminate; [repeat constructor|constructor| |apply Se; cbn; eauto].
    constructor; [|constructor]. exists 0%nat, sx. split; [reflexivity|]. split; [exact I|]. split; [|left; now left]. cbn. intros [Z|[]]. lra.
  - apply C61_argument; [apply St|]. cbn. intros [Z|[]]. lra.
  - apply C61_names. right. cbn. intros N. inversion N as [|? ? NI _]. apply NI. now left.
Qed.
(** An OnlineStudy without history after two observations: the current distribution can be asked for, a time stamp cannot be given. *)
Definition onlineS (store : bool) : res (source (F := Q)) :=
  (let* O0 := onlineSetup (L := Q) (coinOM quarters PNone) [("m", grw "s" "p" (1 # 4)%Q)] store in let* O1 := onlineSteps O0 (stream [1; 0]%Z) in ofOnline O1)%res.
Example C61_history_executed :
  (let* s := onlineS false in let* s' := onlineS true in
   Ok (so_stamps s, so_post s, ask (call libQ [s] (QRel (nm "p") RLe (CNum (1 # 2))) None), call libQ [s] (QRel (nm "p") RLe (CNum (1 # 2))) (Some 1%Q),
       call libQ [s'] (QRel (nm "p") RLe (CNum (1 # 2))) None, ask (call libQ [s'] (QRel (nm "p") RLe (CNum (1 # 2))) (Some 1%Q)),
       call libQ [s'] (QRel (nm "p") RLe (CNum (1 # 2))) (Some 2%Q), call libQ [s; s'] (QDist (nm "p")) None))%res
  = Ok ([0; 1]%Q, [], Ok (Fin (659 # 818)%Q), Err IndexError, Err ConfigurationError, Ok (Fin (659 # 818)%Q), Err ValueError, Err ConfigurationError).
Proof. vm_compute. reflexivity. Qed.

(** ** Division by zero *)
Lemma chain_err lb stamps params e : forall (rest : list (res (elem (F := R)))), chain lb stamps params (Err e) rest = Err e.
Proof.
  fix IH 1. intros [|s [|b rest]]; [reflexivity|reflexivity|]. cbn [chain]. unfold op3. cbn [bind]. apply IH.
Qed.
(** A plain number divided by the plain number zero ends the query with ZeroDivisionError, whatever stands on the other side. *)
Theorem C61_zero : forall lb ss t x c r, studies ss -> ss <> [] -> loads ss t ->
  let z := CProd (CNum x) [(false, CNum 0)] in
  call (F := R) lb ss (QRel c r z) t = Err ZeroDivisionError /\
  (forall y, call lb ss (QRel z r (CNum y)) t = Err ZeroDivisionError) /\ call lb ss (QDist z) t = Err ZeroDivisionError.
Proof.
  intros lb ss t x c r St NE LD z. destruct (loads_ok _ _ LD) as (tk & params & Po & EL). unfold call. rewrite names_of by auto. cbn [bind]. rewrite EL. cbn [bind].
  assert (Z : evalElem lb (stampsOf ss) params (tree z) = Err ZeroDivisionError).
  { cbn. unfold Reqb. destruct (Req_EM_T 0 0); [reflexivity|congruence]. }
  assert (N : forall rest, evaluate lb (stampsOf ss) params (Parser.Node (Parser.Node [Tok (TNum (fneg f1)); Tok (TOp SMul); tree z] :: rest)) = Err ZeroDivisionError).
  { intros rest. unfold evaluate. cbn [map]. change (evalElem lb (stampsOf ss) params (Parser.Node [Tok (TNum (fneg f1)); Tok (TOp SMul); tree z])) with
      (evalList lb (stampsOf ss) params [Ok (ETok (TNum (fneg f1))); Ok (ETok (TOp SMul)); evalElem lb (stampsOf ss) params (tree z)]).
    rewrite Z. cbn. destruct (map _ rest) as [|a [|b l]]; try reflexivity. cbn [chain]. unfold op3. cbn [bind]. now rewrite chain_err. }
  split; [|split].
  - assert (E : exists rest, tree (reduced c z) = Parser.Node (Parser.Node [Tok (TNum (fneg f1)); Tok (TOp SMul); tree z] :: rest)) by (destruct c; cbn; eexists; reflexivity).
    destruct E as [rest ->]. now rewrite N.
  - intros y. cbn. unfold Reqb. destruct (Req_EM_T 0 0); [reflexivity|congruence].
  - cbn. unfold Reqb. destruct (Req_EM_T 0 0); [reflexivity|congruence].
Qed.
(** With a parameter, numpy computes infinities instead: here P(p / 0 > 1) = 1. *)
Example C61_zero_executed :
  (let* s := onlineS false in
   Ok (ask (call libQ [s] (QRel (CProd (nm "p") [(false, CNum 0%Q)]) RGt (CNum 1%Q)) None),
       ask (call libQ [s] (QRel (CProd (CNum 1%Q) [(false, CNum 0%Q)]) RGt (nm "p")) None),
       ask (call libQ [s] (QRel (nm "p") RGt (CProd (CNum 1%Q) [(false, CNum 0%Q)])) None)))%res
  = Ok (Ok (Fin 1%Q), Err ZeroDivisionError, Err ZeroDivisionError).
Proof. vm_compute. reflexivity. Qed.
