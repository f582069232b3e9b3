(** Queries about fitted studies: C40, C41, C42. *)
From Coq Require Import List ZArith QArith Reals Lra Lia Arith Bool String.
From Verif Require Import Base.Num Base.Exn Base.Arr Base.RSum Base.Lift Model.Helper Model.Tm Model.HyperParams Model.Study Model.Api Model.Getters Model.Hyper Model.Parser
  Spec.Kernel Spec.Hmm Spec.Config Spec.Dist Spec.Data Spec.Marginal Spec.ObsSpec Spec.ParserSpec Proof.Gauss Proof.KernelProof Proof.FitInv Proof.FitThms Proof.SetupProof Proof.GridProof Proof.ParserProof
  Props.Ex Props.ExR Props.Inference Props.Parameters Props.Observation Props.Parser.
Import ListNotations.
Local Open Scope string_scope.
Local Open Scope R_scope.

(** ** C40 for a fitted study *)
Lemma fold_meaning_ext {B} (f : option R -> B -> option R) (g : option R -> B -> option R) l a : Forall (fun d => forall x, f x d = g x d) l -> fold_left f l a = fold_left g l a.
Proof. intros H. revert a. induction H as [|d l Hd H IH]; intros a; [reflexivity|]. cbn. now rewrite Hd. Qed.
Lemma meaning_ext pow fn env env' (c : cst (F := R)) : (forall n, In n (namesIn c) -> env n = env' n) -> meaning pow fn env c = meaning pow fn env' c.
Proof.
  induction c as [x|s|c IH|f c IH|c l IH IHl|a b IHa IHb|p c IH|c l IH IHl|c l IH IHl] using cst_ind'; intros E; cbn [meaning namesIn] in *; auto.
  - apply E. now left.
  - now rewrite IH.
  - rewrite IHa, IHb by (intros; apply E, in_or_app; auto). reflexivity.
  - now rewrite IH.
  - rewrite IH by (intros; apply E, in_or_app; auto). apply fold_meaning_ext. rewrite Forall_forall in *. intros d I x. rewrite (IHl d I); [reflexivity|].
    intros n J. apply E, in_or_app. right. apply in_flat_map. eauto.
  - rewrite IH by (intros; apply E, in_or_app; auto). apply fold_meaning_ext. rewrite Forall_forall in *. intros d I x. rewrite (IHl d I); [reflexivity|].
    intros n J. apply E, in_or_app. right. apply in_flat_map. eauto.
Qed.
Lemma find_combine (ns : list string) (gs : list (list R)) k n g : NoDup ns -> nth_error ns k = Some n -> nth_error gs k = Some g ->
  find (fun nv => String.eqb (fst nv) n) (combine ns gs) = Some (n, g).
Proof.
  revert gs k. induction ns as [|a ns IH]; intros gs k ND E G; [destruct k; discriminate|]. inversion ND as [|? ? NI ND']; subst. destruct gs as [|b gs]; [destruct k; discriminate|].
  cbn [combine find fst]. destruct k as [|k]; cbn in E, G.
  - inversion E; inversion G; subst. now rewrite String.eqb_refl.
  - destruct (String.eqb_spec a n) as [->|NE]; [exfalso; apply NI; eapply nth_error_In; eauto|]. eapply IH; eauto.
Qed.
(** values of the parameters at grid point x *)
Definition atPoint (names : list string) (vs : list (list R)) (env : nat -> string -> option R) : Prop :=
  forall x k n, (x < gridPoints vs)%nat -> nth_error names k = Some n -> env x n = Some (parAt vs k x).

Lemma source_grid (s : source (F := R)) vs : NoDup (so_names s) -> List.length (so_names s) = List.length vs -> so_grid s = meshgrid vs ->
  hasGrid s (gridPoints vs) /\ atPoint (so_names s) vs (valueOf s).
Proof.
  intros ND L G. assert (LG : forall k, (k < List.length vs)%nat -> nth_error (meshgrid vs) k = Some (map (fun pt => nth k pt 0) (cart vs))).
  { intros k Hk. unfold meshgrid. rewrite nth_error_map, (List.nth_error_nth' _ O), seq_nth by (auto; rewrite seq_length; auto). reflexivity. }
  split; [split|].
  - rewrite G. unfold meshgrid. now rewrite map_length, seq_length.
  - rewrite G. apply Forall_forall. intros g I. apply in_map_iff in I. destruct I as (k & <- & _). rewrite map_length. apply cart_length.
  - intros x k n Hx E. assert (Hk : (k < List.length vs)%nat) by (rewrite <- L; apply nth_error_Some; congruence). unfold valueOf.
    rewrite G, (find_combine _ _ k n _ ND E (LG k Hk)). cbn [snd]. rewrite (List.nth_error_nth' _ 0) by (now rewrite map_length, cart_length). f_equal.
    pose proof (meshgrid_nth vs k x Hk Hx) as M. unfold parAt. rewrite <- M. rewrite (nth_error_nth _ _ [] (LG k Hk)). reflexivity.
Qed.

(** After a fit with positive evidence: a query about time step k gives the total posterior probability of the grid points at which the relation holds, and these
    probabilities follow the usual rules. The time stamp may be given by the argument t or by a@t. *)
Theorem C40_study pow fn lb S o m vs ts fo S' v :
  computes pow fn lb -> configured S o m vs ts -> st_marg S = vs -> runnable (om_names o) m ->
  nonnegPrior (gridPoints vs) o (map (@List.length R) vs) (meshgrid vs) (om_prior o) ->
  (forall s, In s (segments S o) -> finite (gridPoints vs) (processedPdf o (gridPoints vs) (meshgrid vs) s)) ->
  NoDup (om_names o) -> fit S fo false = Ok S' -> st_logEv S' = Fin v ->
  exists s posts, ofStudy S' = Ok s /\ st_post S' = map (fun p => Some (arrOf (gridPoints vs) p)) posts /\ List.length posts = nSteps S o /\
  forall k u p env lhs rhs a b, firstAt (formatTimestamps ts (om_seglen o)) u k -> nth_error posts k = Some p -> atPoint (om_names o) vs env ->
    incl (namesIn lhs ++ namesIn rhs)%list (om_names o) -> (namesIn lhs ++ namesIn rhs)%list <> [] ->
    evaluates pow fn env (gridPoints vs) lhs a -> evaluates pow fn env (gridPoints vs) rhs b ->
    (unstamped lhs -> unstamped rhs -> forall r, call lb [s] (QRel lhs r rhs) (Some u) = Ok (AProb (Fin (probability (gridPoints vs) p r a b)))) /\
    (stamped u lhs -> stamped u rhs -> forall r, call lb [s] (QRel lhs r rhs) None = Ok (AProb (Fin (probability (gridPoints vs) p r a b)))) /\
    let P r := probability (gridPoints vs) p r a b in
    P RGt + P RLe = 1 /\ P RLt + P RGe = 1 /\ P RGe = P RGt + P REq /\ P RLe = P RLt + P REq /\ (forall r, 0 <= P r <= 1).
Proof.
  intros Lib C Em Run Pr Lk ND E Ev.
  destruct (C13_mean_values S o m vs ts fo S' v C Em Run Pr Lk E Ev) as (o' & posts & En & HP & _).
  assert (Eg : st_grid S' = meshgrid vs).
  { destruct (fit_inv _ _ _ _ E) as (o1 & m1 & t1 & w & FP & O1). rewrite <- (cf_grid _ _ _ _ _ C). inversion O1; subst; reflexivity. }
  pose (s := {| so_names := om_names o'; so_grid := st_grid S'; so_stamps := st_fmtTs S'; so_post := st_post S'; so_online := None; so_hyper := [] |} : source (F := R)).
  exists s, posts. destruct HP as [Ho Hn Hm Hs Hl Hp HN Hts Hlen Hpost Hdist]. split; [unfold ofStudy; now rewrite Ho|]. split; [exact Hpost|].
  split. { rewrite Hlen. apply (cfg_ts_len S o m vs ts C). }
  intros k u p env lhs rhs a b Hk Ep HE Inc NE Ha Hb.
  destruct (source_grid s vs) as [HG HV]; [cbn; now rewrite En|exact Hn|exact Eg|].
  assert (St : studies [s]). { split; [cbn; rewrite !app_nil_r, En; exact ND|]. constructor; [exact (proj1 HG)|constructor]. }
  assert (EPost : nth_error (so_post s) k = Some (Some (map Fin (tab (gridPoints vs) p)))). { cbn [so_post s]. rewrite Hpost, nth_error_map, Ep. reflexivity. }
  assert (Hk' : firstAt (so_stamps s) u k) by (cbn [so_stamps s]; rewrite Hts; exact Hk).
  assert (EV : forall c f, incl (namesIn c) (om_names o) -> evaluates pow fn env (gridPoints vs) c f -> evaluates pow fn (valueOf s) (gridPoints vs) c f).
  { intros c f I Hf x Hx. rewrite <- (Hf x Hx). apply meaning_ext. intros n J. apply I in J. apply In_nth_error in J. destruct J as [j Ej].
    rewrite (HE x j n Hx Ej). rewrite <- En in Ej. exact (HV x j n Hx Ej). }
  assert (I1 : incl (namesIn lhs) (om_names o)) by (intros n J; apply Inc, in_or_app; auto). assert (I2 : incl (namesIn rhs) (om_names o)) by (intros n J; apply Inc, in_or_app; auto).
  assert (Pd : (forall x, (x < gridPoints vs)%nat -> 0 <= p x) /\ rsum (gridPoints vs) p = 1). { rewrite Forall_forall in Hdist. apply Hdist. eapply nth_error_In; eauto. }
  assert (Q1 : unstamped lhs -> unstamped rhs -> forall r, call lb [s] (QRel lhs r rhs) (Some u) = Ok (AProb (Fin (probability (gridPoints vs) p r a b)))).
  { intros U1 U2 r. apply (C40_relation pow fn lb [s] (Some u) 0 unstamped false (Some u) (gridPoints vs) p (valueOf s)); auto.
    - exists s, k. split; [reflexivity|]. split; [exact Hk'|]. constructor; [|constructor]. split; [exact I|]. split; [eauto|]. intros Z. exfalso. now apply Z.
    - apply rd_argument with (first := s) (k := k); auto. }
  assert (Q2 : stamped u lhs -> stamped u rhs -> forall r, call lb [s] (QRel lhs r rhs) None = Ok (AProb (Fin (probability (gridPoints vs) p r a b)))).
  { intros U1 U2 r. apply (C40_relation pow fn lb [s] None 0 (stamped u) false (Some u) (gridPoints vs) p (valueOf s)); auto.
    - constructor; [exact I|constructor].
    - apply rd_at with (k := k); auto. exact I. }
  split; [exact Q1|]. split; [exact Q2|]. destruct Pd as [P0 P1]. rewrite <- Rsum_tab in P1.
  assert (A1 : probability (gridPoints vs) p RGt a b + probability (gridPoints vs) p RLe a b = 1) by (rewrite <- P1; apply probability_all; holdsR).
  assert (A2 : probability (gridPoints vs) p RLt a b + probability (gridPoints vs) p RGe a b = 1) by (rewrite <- P1; apply probability_all; holdsR).
  assert (A3 : probability (gridPoints vs) p RGe a b = probability (gridPoints vs) p RGt a b + probability (gridPoints vs) p REq a b) by (apply probability_sum; holdsR).
  assert (A4 : probability (gridPoints vs) p RLe a b = probability (gridPoints vs) p RLt a b + probability (gridPoints vs) p REq a b) by (apply probability_sum; holdsR).
  assert (B : forall r, 0 <= probability (gridPoints vs) p r a b). { intros r. unfold probability. rewrite Rsum_tab. apply rsum_nonneg. intros x Hx. destruct (holds r (a x) (b x)); auto. lra. }
  repeat split; auto. destruct r; pose proof (B RGt); pose proof (B RLt); pose proof (B REq); pose proof (B RGe); pose proof (B RLe); lra.
Qed.

(** ** Examples *)
Open Scope res_scope.
Definition libQ : lib (F := Q) := {| lb_pow := fun x y => match y with Fin q => if Qeq_bool q (2#1) then xmul x x else NaN | _ => NaN end; lb_fun := fun f x => x |}.
Definition nm (s : string) : cst (F := Q) := CName s.
Definition at_ (s : string) (t : Q) : cst (F := Q) := CAt (CName s) [CNum t].
Definition coinS (d : list Z) (ts : option (list Q)) : res (source (F := Q)) :=
  let* st := setup (L := Q) (data d) ts (coinOM quarters PNone) Ex.static in let* st := fit st true false in ofStudy st.
Definition pairS (d : list Z) : res (source (F := Q)) :=
  let* st := setup (L := Q) (data d) None (pairOM [1; 2] [1; 2; 3] PNone)%Q Ex.static in let* st := fit st true false in ofStudy st.
Definition ask (r : res (Parser.answer (F := Q))) : res (xnum Q) := let* a := r in match a with AProb p => Ok p | _ => Err ValueError end.


(** probabilities in one study: a > b at time 0, a + b >= 4 at time 1 *)
Example C40_executed :
  (let* s := pairS [1; 0]%Z in
   let* x := ask (call libQ [s] (QRel (nm "a") RGt (nm "b")) (Some 0)) in
   let* y := ask (call libQ [s] (QRel (CSum (at_ "a" 1) [(true, at_ "b" 1)]) RGe (CNum 4)) None) in
   let* z := ask (call libQ [s] (QRel (CPow (nm "a") (CNum 2)) RLe (nm "b")) (Some 1)) in
   Ok (so_post s, x, y, z))%Q
  = Ok ([Some [Fin (2 # 21); Fin (1 # 7); Fin (4 # 21); Fin (1 # 7); Fin (4 # 21); Fin (5 # 21)];
         Some [Fin (2 # 33); Fin (1 # 11); Fin (4 # 33); Fin (2 # 11); Fin (8 # 33); Fin (10 # 33)]],
        Fin (1 # 7), Fin (2 # 3), Fin (3 # 11)).
Proof. vm_compute. reflexivity. Qed.
(** The argument t is translated to an index with the time stamps of the first study only. Asked about time 1, the parser answers about time 2 of study [c]; the same
    question with a@t, or asked of study [c] alone, has another answer. *)
Theorem C40_argument_refuted : exists s c x y, pairS [1; 0]%Z = Ok s /\ coinS [1; 1]%Z (Some [1; 2]%Q) = Ok c /\
  so_stamps s = [0; 1]%Q /\ so_stamps c = [1; 2]%Q /\
  call libQ [s; c] (QRel (nm "p") RGt (CNum (1 # 2))) (Some 1%Q) = Ok (AProb (Fin x)) /\
  call libQ [c] (QRel (nm "p") RGt (CNum (1 # 2))) (Some 1%Q) = Ok (AProb (Fin y)) /\
  call libQ [s; c] (QRel (at_ "p" 1%Q) RGt (CNum (1 # 2))) None = Ok (AProb (Fin y)) /\ x <> y.
Proof. do 2 eexists. exists (9 # 14)%Q, (1 # 2)%Q. repeat (split; [vm_compute; reflexivity|]). discriminate. Qed.
(** Brackets: p + p > a is read as -1*(a) + p + p, and the second p is combined with the derived value -a + p as if it were independent of it. *)
Theorem C41_brackets_refuted : exists s c x y, pairS [1; 0]%Z = Ok s /\ coinS [1; 1]%Z None = Ok c /\
  let pp := CSum (nm "p") [(true, nm "p")] in
  call libQ [s; c] (QRel pp RGt (nm "a")) (Some 1%Q) = Ok (AProb (Fin x)) /\
  call libQ [s; c] (QRel (CPar pp) RGt (nm "a")) (Some 1%Q) = Ok (AProb (Fin y)) /\ x <> y.
Proof. do 2 eexists. exists (459 # 2156)%Q, (27 # 154)%Q. cbv zeta. repeat (split; [vm_compute; reflexivity|]). discriminate. Qed.
(** A derived value and its ingredient: all values of p are positive, but (a + p) > a does not have probability one. *)
Theorem C41_ingredient_refuted : exists s c x, pairS [1; 0]%Z = Ok s /\ coinS [1; 1]%Z None = Ok c /\
  so_grid c = [quarters] /\ Forall (fun p => Qlt 0 p) (quarters (F := Q)) /\
  call libQ [s; c] (QRel (nm "p") RGt (CNum 0%Q)) (Some 1%Q) = Ok (AProb (Fin 1%Q)) /\
  call libQ [s; c] (QRel (CPar (CSum (nm "a") [(true, nm "p")])) RGt (nm "a")) (Some 1%Q) = Ok (AProb (Fin x)) /\ x <> 1%Q.
Proof.
  do 2 eexists. exists (97 # 121)%Q. do 3 (split; [vm_compute; reflexivity|]). split; [repeat constructor|].
  repeat (split; [vm_compute; reflexivity|]). discriminate.
Qed.
(** Different parameters of one study at different times: neither the product of their distributions nor the distribution at the first time. *)
Definition productGt (va vb : list Q) (pa pb : arr) : xnum Q :=
  asum (flat_map (fun x => map (fun y => if Qle_bool (fst x) (fst y) then Fin 0%Q else xmul (snd x) (snd y)) (combine vb pb)) (combine va pa)).
Theorem C41_other_time_refuted : exists s ga gb p0 p1 x, pairS [1; 0]%Z = Ok s /\ so_grid s = [ga; gb] /\ so_post s = [Some p0; Some p1] /\
  call libQ [s] (QRel (at_ "a" 0%Q) RGt (at_ "b" 1%Q)) None = Ok (AProb x) /\ productGt ga gb p0 p1 <> x /\
  call libQ [s] (QRel (at_ "a" 1%Q) RGt (at_ "b" 1%Q)) None = Ok (AProb x).
Proof. do 6 eexists. do 4 (split; [vm_compute; reflexivity|]). split; [vm_compute; discriminate|vm_compute; reflexivity]. Qed.
(** the same parameter at different times: product probabilities *)
Example C41_executed : exists s ga gb p0 p1, pairS [1; 0]%Z = Ok s /\ so_grid s = [ga; gb] /\ so_post s = [Some p0; Some p1] /\
  call libQ [s] (QRel (at_ "a" 1%Q) RGt (at_ "a" 0%Q)) None = Ok (AProb (productGt ga ga p1 p0)) /\ productGt ga ga p1 p0 = Fin (24 # 77)%Q.
Proof. do 5 eexists. repeat (split; [vm_compute; reflexivity|]). vm_compute. reflexivity. Qed.
(** distributions: a + b has the values 2 to 5, two bins; b + b has three values, one bin; a + a has two values *)
Example C42_executed :
  (let* s := pairS [1; 0]%Z in
   Ok (call libQ [s] (QDist (CSum (nm "a") [(true, nm "b")])) (Some 1), call libQ [s] (QDist (CSum (nm "b") [(true, nm "b")])) (Some 1),
       call libQ [s] (QDist (CSum (nm "a") [(true, nm "a")])) (Some 1), call libQ [s] (QDist (nm "a")) (Some 1)))%Q
  = Ok (Ok (ADist [7 # 2; 5] [Fin (1 # 3); Fin (4 # 11)]), Ok (ADist [6] [Fin (19 # 33)]), Err IndexError, Err ValueError)%Q.
Proof. vm_compute. reflexivity. Qed.

(** a / (b - 1) with b = 1, 3, 4, 5, 6, 7: infinite for b = 1; the finite values lie between 1/6 and 1, which is not counted *)
Definition fiveS : res (source (F := Q)) :=
  let* st := setup (L := Q) (data [1]%Z) None (pairOM [1; 2] [1; 3; 4; 5; 6; 7] PNone)%Q Ex.static in let* st := fit st true false in ofStudy st.
Example C42_nonfinite_executed :
  (let* s := fiveS in Ok (call libQ [s] (QDist (CProd (nm "a") [(false, CPar (CSum (nm "b") [(false, CNum 1)]))])) (Some 0)))%Q
  = Ok (Ok (ADist [1] [Fin (6 # 7)]))%Q.
Proof. vm_compute. reflexivity. Qed.

(** ** The hypotheses of the theorems are met *)
(** a fitted study, and the query p*p > 1/3 at the second time step *)
Example C40_example pow fn lb : computes pow fn lb -> exists (S S' : study R R) s v posts p, setup (data [1; 0; 1]%Z) None (coin PNone) walkChange = Ok S /\
  fit S true false = Ok S' /\ st_logEv S' = Fin v /\ ofStudy S' = Ok s /\ st_post S' = map (fun p => Some (arrOf 3 p)) posts /\ nth_error posts 1 = Some p /\
  forall r, call lb [s] (QRel (CProd (CName "p") [(true, CName "p")]) r (CNum (1 / 3))) (Some 1) =
    Ok (AProb (Fin (probability 3 p r (fun x => nth x quarters 0 * nth x quarters 0) (fun _ => 1 / 3)))).
Proof.
  intros Lib. destruct C13_example as (S & S' & v & E & C & Em & Run & Pr & Lk & Ef & Ev & _).
  destruct (C40_study pow fn lb S (coin PNone) walkChange [quarters] _ true S' v Lib C Em Run Pr Lk ltac:(repeat constructor; auto) Ef Ev) as (s & posts & Es & Ep & Lp & H).
  assert (L3 : nSteps S (coin PNone) = 3%nat). { destruct walkChange_ok as (Hm & _). apply (coin_steps _ _ _ _ E Hm). }
  destruct posts as [|p0 [|p1 posts]]; [cbn in Lp; lia|cbn in Lp; lia|].
  exists S, S', s, v, (p0 :: p1 :: posts), p1. do 5 (split; [assumption|]). split; [reflexivity|].
  pose (env := fun (x : nat) (n : string) => if String.eqb n "p" then Some (parAt [quarters] 0 x) else None).
  apply (H 1%nat 1 p1 env (CProd (CName "p") [(true, CName "p")]) (CNum (1 / 3))).
  - split; [cbn; f_equal; lra|]. intros j Hj. assert (j = 0%nat) as -> by lia. cbn. intros Z. injection Z. lra.
  - reflexivity.
  - intros x k n Hx En. destruct k as [|[|k]]; try discriminate. injection En as <-. reflexivity.
  - intros n I. cbn in I. cbn. intuition.
  - discriminate.
  - intros x Hx. destruct x as [|[|[|x]]]; [reflexivity..|cbn in Hx; lia].
  - intros x Hx. reflexivity.
  - repeat constructor.
  - constructor.
Qed.
(** two studies with one time step each: x is 0, 1 or 2, y is 1 or 3 *)
Definition three : nat -> R := fun x => nth x [1 / 4; 1 / 2; 1 / 4] 0.
Definition half : nat -> R := fun _ => 1 / 2.
Definition sx : source (F := R) := {| so_names := ["x"]; so_grid := [[0; 1; 2]]; so_stamps := [0]; so_post := [Some (map Fin (tab 3 three))]; so_online := None; so_hyper := [] |}.
Definition sy : source (F := R) := {| so_names := ["y"]; so_grid := [[1; 3]]; so_stamps := [0]; so_post := [Some (map Fin (tab 2 half))]; so_online := None; so_hyper := [] |}.
Lemma sxy_loads : studies [sx; sy] /\ loads [sx; sy] (Some 0) /\ reads [sx; sy] (Some 0) 0 unstamped false (Some 0) 3 three (valueOf sx) /\
  reads [sx; sy] (Some 0) 1 unstamped false (Some 0) 2 half (valueOf sy).
Proof.
  assert (F0 : firstAt [0] 0 0) by (split; [reflexivity|intros j Hj; lia]).
  split; [|split; [|split]].
  - split; [repeat constructor; cbn; intuition discriminate|repeat constructor].
  - exists sx, 0%nat. split; [reflexivity|]. split; [exact F0|]. repeat constructor; cbn; eauto; intros Z; exfalso; now apply Z.
  - apply rd_argument with (first := sx) (k := 0%nat); auto. split; [reflexivity|]. repeat constructor.
  - apply rd_argument with (first := sx) (k := 0%nat); auto. split; [reflexivity|]. repeat constructor.
Qed.
(** x*2 > y, from C41_independent: only x = 1, y = 1 and x = 2 qualify *)
Example C41_example pow fn lb : computes pow fn lb ->
  call lb [sx; sy] (QRel (CProd (CName "x") [(true, CNum 2)]) RGt (CName "y")) (Some 0) = Ok (AProb (Fin (1 / 2))).
Proof.
  intros Lib. destruct sxy_loads as (St & Ld & R1 & R2).
  rewrite (C41_independent pow fn lb [sx; sy] (Some 0) 0 1 unstamped unstamped false false (Some 0) (Some 0) 3 2 three half (valueOf sx) (valueOf sy)
    (CProd (CName "x") [(true, CNum 2)]) RGt (CName "y") (fun i => nth i [0; 1; 2] 0 * 2) (fun i => nth i [1; 3] 0) "x" "y" Lib St Ld R1 R2); auto; try lia; try (repeat constructor; fail).
  - do 3 f_equal. unfold pairProbability, pairsWhere, three, half, holds. cbn [tab map seq nth Rsum fold_right].
    repeat (destruct (Rgt_dec _ _) as [?G|?G]; try (exfalso; lra)); cbn; lra.
  - intros i Hi. destruct i as [|[|[|i]]]; [reflexivity..|lia].
  - intros i Hi. destruct i as [|[|i]]; [reflexivity..|lia].
  - unfold three. cbn. lra.
  - unfold half. cbn. lra.
Qed.
(** the distribution of x + x: values 0, 2, 4; one bin from 0 to 4 without the right end *)
Example C42_example pow fn lb : computes pow fn lb ->
  call lb [sx; sy] (QDist (CSum (CName "x") [(true, CName "x")])) (Some 0) = Ok (ADist [4] [Fin (3 / 4)]).
Proof.
  intros Lib. destruct sxy_loads as (St & Ld & R1 & R2). pose (m := fun i => nth i [0; 2; 4] 0).
  destruct (C42_bins pow fn lb [sx; sy] (Some 0) 0 unstamped false (Some 0) 3 three (valueOf sx) (CSum (CName "x") [(true, CName "x")]) m 0 4 2 2 Lib St Ld R1) as (_ & _ & E).
  - lia.
  - repeat constructor.
  - intros i Hi. destruct i as [|[|[|i]]]; [cbn; f_equal; lra..|lia].
  - exact I.
  - discriminate.
  - split; [exists 0%nat; split; [lia|reflexivity]|]. intros i Hi. unfold m. destruct i as [|[|[|i]]]; cbn; lra || lia.
  - split; [exists 2%nat; split; [lia|reflexivity]|]. intros i Hi. unfold m. destruct i as [|[|[|i]]]; cbn; lra || lia.
  - split.
    + exists 0%nat, 1%nat. unfold neighbours, m. cbn. repeat split; try lia; try lra. intros [|[|[|z]]] Hz; lra || lia.
    + intros x y (Hx & Hy & Lt & Nb). pose proof (Nb 1%nat ltac:(lia)) as N1. unfold m in *. destruct x as [|[|[|x]]], y as [|[|[|y]]]; cbn in *; lra || lia.
  - cbn. lra.
  - rewrite (E 0%nat eq_refl). unfold within, three, m. cbn [Nat.add tab map seq nth Rsum fold_right INR].
    do 2 f_equal; [f_equal; lra|]. do 2 f_equal. repeat (destruct (Rle_dec _ _) as [?G|?G]; try (exfalso; lra)); repeat (destruct (Rlt_dec _ _) as [?G|?G]; try (exfalso; lra)); lra.
Qed.
