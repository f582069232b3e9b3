(** Online studies step by step. *)
From Coq Require Import List ZArith Reals Lra Lia Arith Bool String.
From Verif Require Import Base.Num Base.Exn Base.Arr Base.RSum Base.Lift Model.Helper Model.Tm Model.HyperParams Model.Study Model.Api
  Model.Getters Model.Hyper Model.Online Spec.Hmm Spec.Kernel Spec.Config Spec.Names Spec.Dist Spec.HyperSpec Spec.OnlineSpec
  Proof.FitThms Proof.FitInv Proof.SetupProof Proof.NamesProof Proof.LogProof Proof.GridProof Proof.HyperProof Proof.DataProof.
Import ListNotations.
Local Open Scope R_scope.

Notation cellT := (xnum R * list (xnum R))%type.
Fixpoint foldM {A B} (f : B -> A -> res B) (b : B) (l : list A) : res B :=
  match l with [] => Ok b | a :: l' => bind (f b a) (fun b' => foldM f b' l') end.
Lemma foldM_snoc {A B} (f : B -> A -> res B) l a : forall b, foldM f b (l ++ [a]) = bind (foldM f b l) (fun b' => f b' a).
Proof.
  induction l as [|x l IH]; intros b; cbn [foldM app].
  - cbn. now destruct (f b a).
  - destruct (f b x); cbn [bind]; auto.
Qed.

Section Chain.
  Variables (e : env R) (o : om R).
  Notation lik := (processedPdf o (e_size e) (e_grid e)).
  Notation cfp m p := (computeForwardPrior e m f0 p (fofZ (-1))).

  Definition cell (a : list (xnum R)) (ev : xnum R) (s : seg R) : cellT :=
    (xladd ev (xln (asum (amul a (lik s)))), adivs (amul a (lik s)) (asum (amul a (lik s)))).
  Definition adv (m : tm R) (c : cellT) (s : seg R) : res cellT := bind (cfp m (snd c)) (fun a => Ok (cell a (fst c) s)).
  Definition chain (m : tm R) (a : list (xnum R)) (ev : xnum R) (segs : list (seg R)) : res cellT :=
    match segs with [] => Err IndexError | s :: segs' => foldM (adv m) (cell a ev s) segs' end.
  Lemma chain_one m a ev s : chain m a ev [s] = Ok (cell a ev s).
  Proof. reflexivity. Qed.
  Lemma chain_snoc m a ev segs s : segs <> [] -> chain m a ev (segs ++ [s]) = bind (chain m a ev segs) (fun c => adv m c s).
  Proof. destruct segs as [|s0 segs]; [congruence|]. intros _. cbn [chain app]. apply foldM_snoc. Qed.

  (** the forward pass of a fit *)
  Lemma xladd_Fin (a b : xnum R) v : xladd (F := R) a b = Fin v -> exists x y, a = Fin x /\ b = Fin y /\ v = x + y.
  Proof. destruct a, b; cbn; try discriminate. intros E. inversion E. eauto. Qed.
  Lemma fwd_start m segs : forall ts a prior ev w v, fwdLoop e o m segs ts a false prior ev = Ok w -> fw_stop w = false ->
    fw_logEv w = Fin v -> exists x, ev = Fin x.
  Proof.
    induction segs as [|s segs IH]; intros ts a prior ev w v E St El; cbn [fwdLoop] in E.
    - inversion E; subst. cbn in El. eauto.
    - destruct (xltb _ _); [|inversion E; subst; discriminate]. destruct ts as [|t ts]; [discriminate|].
      destruct (computeForwardPrior _ _ _ _ _) as [a3|]; [|discriminate]. cbn [bind andb] in E.
      destruct (fwdLoop e o m segs ts _ _ _ _) as [w'|] eqn:E'; [|discriminate]. cbn in E. inversion E; subst. cbn in St, El.
      destruct (IH _ _ _ _ _ _ E' St El) as (x & Ex). apply xladd_Fin in Ex as (y & z & -> & _). eauto.
  Qed.
  Lemma with_prior_id : with_prior e (e_prior e) = e.
  Proof. destruct e. reflexivity. Qed.
  Lemma fwd_unfold m s segs ts a prior ev : fwdLoop e o m (s :: segs) ts a false prior ev =
    (let a1 := amul a (lik s) in
     if xltb (Fin f0) (asum a1)
     then match ts with
          | [] => Err IndexError
          | t :: ts' => bind (computeForwardPrior (with_prior e prior) m f0 (adivs a1 (asum a1)) t)
              (fun a3 => fw_cons (adivs a1 (asum a1), asum a1) (fwdLoop e o m segs ts' a3 false prior (xladd ev (xln (asum a1)))))
          end
     else Ok {| fw_steps := []; fw_logEv := NInf; fw_prior := prior; fw_stop := true |}).
  Proof. reflexivity. Qed.
  Lemma fwd_chain m m' segs : forall s ts a ev x x1 w v,
    (forall p t, In t ts -> computeForwardPrior e m' f0 p t = cfp m p) ->
    fwdLoop e o m' (s :: segs) ts a false (e_prior e) ev = Ok w -> fw_stop w = false ->
    ev = Fin x -> fw_logEv w = Fin v ->
    exists post, chain m a (Fin x1) (s :: segs) = Ok (Fin (v - x + x1), post) /\ last (map fst (fw_steps w)) [] = post /\ fw_steps w <> [].
  Proof.
    induction segs as [|s' segs IH]; intros s ts a ev x x1 w v Ht E St Ex El; rewrite fwd_unfold in E; cbv zeta in E;
      (destruct (xltb _ _); [|inversion E; subst; discriminate]; destruct ts as [|t ts]; [discriminate|]);
      rewrite with_prior_id in E; rewrite (Ht _ t (or_introl eq_refl)) in E;
      destruct (computeForwardPrior e m f0 (adivs (amul a (lik s)) (asum (amul a (lik s)))) (fofZ (-1))) as [a3|] eqn:Ea; try discriminate; cbn [bind andb] in E.
    - cbn [fwdLoop fw_cons bind] in E. inversion E; subst; clear E. cbn [fw_logEv] in El. apply xladd_Fin in El as (y & z & Ey & Ez & ->). inversion Ey; subst y.
      eexists. split; [|split]. { cbn [chain foldM]. unfold cell. rewrite Ez. cbn [xladd]. f_equal. f_equal. cbn. f_equal. ring. } { reflexivity. } discriminate.
    - destruct (fwdLoop e o m' (s' :: segs) ts _ _ _ _) as [w'|] eqn:E'; [|discriminate]. cbn [bind fw_cons] in E. inversion E; subst; clear E. cbn in St, El.
      destruct (fwd_start _ _ _ _ _ _ _ _ E' St El) as (y & Ey). pose proof Ey as Ey'. apply xladd_Fin in Ey' as (x' & z & Ex & Ez & ->). inversion Ex; subst x'.
      specialize (IH s' ts a3 _ _ (x1 + z) w' v (fun p t' I => Ht p t' (or_intror I)) E' St Ey El) as (post & Ec & El' & Hn).
      exists post. split; [|split].
      + cbn [chain foldM] in *. unfold adv at 1. cbn [cell snd fst]. rewrite Ea. cbn [bind]. rewrite Ez. change (xladd (Fin x1) (Fin z)) with (Fin (x1 + z)).
        rewrite Ec. f_equal. f_equal. f_equal. ring.
      + cbn [fw_steps map fst]. destruct (fw_steps w') eqn:Ef; [congruence|]. exact El'.
      + discriminate.
  Qed.
End Chain.

(** ** loop over the combinations *)
Section Rows.
  Variables (e : env R) (o : om R) (s : seg R) (prior : option (list (xnum R))) (m : tm R).
  Notation lik := (processedPdf o (e_size e) (e_grid e) s).
  Hypothesis Hnamed : named m.
  Hypothesis Hdup : NoDup (allNames m).
  Hypothesis Hblank : ~ In " "%string (allNames m).
  Definition advp (m' : tm R) (c : cellT) : res cellT :=
    match prior with Some a => Ok (cell e o a (fst c) s) | None => adv e o m' c s end.
  Lemma set_row f row : List.length row = List.length (allNames m) -> setAll (assign f m) (map HNum row) = (withValues m row, None).
  Proof. intros E. pose proof (set_any m Hnamed Hdup Hblank f row ltac:(lia)) as A. exact A. Qed.
  Lemma rows_inv : forall rows cs f m2 evs2 posts2, Forall (fun row => List.length row = List.length (allNames m)) rows ->
    List.length cs = List.length rows ->
    rowsLoop e lik prior (assign f m) (map Some rows) (map fst cs) (map snd cs) = Ok (m2, evs2, posts2) ->
    exists cs2 f2, m2 = assign f2 m /\ evs2 = map fst cs2 /\ posts2 = map snd cs2 /\
      Forall2 (fun rc c2 => advp (withValues m (fst rc)) (snd rc) = Ok c2) (combine rows cs) cs2.
  Proof.
    induction rows as [|row rows IH]; intros [|[ev p] cs] f m2 evs2 posts2 HR El E; try discriminate El.
    - cbn in E. inversion E; subst. exists [], f. repeat split; auto. constructor.
    - inversion HR; subst. cbn [map rowsLoop fst snd] in E. rewrite set_row in E by auto.
      assert (A : exists c2, advp (withValues m row) (ev, p) = Ok c2 /\ forall X (k : _ -> _ -> res X),
        bind (match prior with Some a => Ok a | None => computeForwardPrior e (withValues m row) f0 p (fofZ (-1)) end)
          (fun a => k (xladd ev (xln (asum (amul a lik)))) (adivs (amul a lik) (asum (amul a lik)))) = k (fst c2) (snd c2)).
      { unfold advp, adv. cbn [fst snd]. destruct prior as [a|]; [eexists; split; [reflexivity|reflexivity]|].
        destruct (computeForwardPrior _ _ _ _ _) as [a|]; [|discriminate E]. eexists. split; reflexivity. }
      destruct A as (c2 & A1 & A2). cbv zeta in E. rewrite (A2 _ (fun x y => bind (rowsLoop e lik prior (withValues m row) (map Some rows) (map fst cs) (map snd cs)) (fun r => let '(m2, evs2, posts2) := r in Ok (m2, x :: evs2, y :: posts2)))) in E.
      destruct (rowsLoop _ _ _ _ _ _ _) as [[[m3 evs3] posts3]|] eqn:E3; [|discriminate]. cbn [bind] in E. inversion E; subst.
      unfold withValues in E3 at 1. cbn in El. destruct (IH cs _ _ _ _ ltac:(auto) ltac:(lia) E3) as (cs2 & f2 & -> & -> & -> & HF).
      exists (c2 :: cs2), f2. repeat split; auto. cbn [combine]. constructor; auto.
  Qed.
  Lemma rows_total : forall rows cs f cs2, Forall (fun row => List.length row = List.length (allNames m)) rows ->
    List.length cs = List.length rows ->
    Forall2 (fun rc c2 => advp (withValues m (fst rc)) (snd rc) = Ok c2) (combine rows cs) cs2 ->
    exists f2, rowsLoop e lik prior (assign f m) (map Some rows) (map fst cs) (map snd cs) = Ok (assign f2 m, map fst cs2, map snd cs2).
  Proof.
    induction rows as [|row rows IH]; intros [|[ev p] cs] f cs2 HR El HF; try discriminate El; cbn [combine] in HF; inversion HF as [|? c2 ? cs3 H1 H2]; subst.
    - exists f. reflexivity.
    - inversion HR; subst. cbn [map rowsLoop fst snd]. rewrite set_row by auto. cbn in El, H1.
      destruct (IH cs (lookup (combine (allNames m) (map HNum row))) cs3 ltac:(auto) ltac:(lia) H2) as (f2 & E3). fold (withValues m row) in E3. exists f2.
      unfold advp, adv in H1. cbn [fst snd] in H1. destruct prior as [a|].
      + inversion H1; subst. cbn [bind]. rewrite E3. reflexivity.
      + destruct (computeForwardPrior _ _ _ _ _) as [a|]; [|discriminate]. cbn [bind] in *. inversion H1; subst. rewrite E3. reflexivity.
  Qed.
End Rows.

(** ** one transition model *)
Definition logwOf (M : tmEntry R) (cs : list cellT) : list (xnum R) := map2 (fun ev q => xladd (F := R) ev (xln q)) (map fst cs) (md_pv M).
Definition hevOf (M : tmEntry R) (cs : list cellT) : xnum R := xlogsumexp (F := R) (logwOf M cs).
Definition hpdOf (M : tmEntry R) (cs : list cellT) : list (xnum R) := adivs (softmax (logwOf M cs)) (Fin (fprod (md_const M))).
Definition mixOf (n : nat) (M : tmEntry R) (cs : list cellT) : list (xnum R) :=
  sumRows n (map2 (fun post h => map (fun v => xmul (xmul v h) (Fin (fprod (md_const M)))) post) (map snd cs) (hpdOf M cs)).
Definition localOf (M : tmEntry R) (cs : list cellT) (old : xnum R) (p : xnum R) : xnum R := xladd (F := R) (xlsub (F := R) (hevOf M cs) old) (xln p).

Record sameEntry (M0 M : tmEntry R) : Prop := {
  se_rows : md_rows M = md_rows M0;
  se_names : md_names M = md_names M0;
  se_vals : md_vals M = md_vals M0;
  se_const : md_const M = md_const M0;
  se_pv : md_pv M = md_pv M0;
  se_tm : exists f, md_tm M = assign f (md_tm M0);
  se_fixed : md_rows M0 = [] -> md_tm M = md_tm M0
}.
Lemma wellNamed_parts (m' : tm R) : (exists m, wellNamed m /\ noPriors m' = noPriors m) -> named m' /\ NoDup (allNames m') /\ ~ In " "%string (allNames m').
Proof.
  intros (m & (a & b & c & _) & E). rewrite <- (noPriors_names m'), E, noPriors_names. split; auto. apply noPriors_named. rewrite E. now apply noPriors_named.
Qed.
Lemma sameEntry_refl M pv : entryOk M pv -> sameEntry M M.
Proof.
  intros [N _ _ _ _ _ _ _]. apply wellNamed_parts in N as (n1 & _). constructor; auto. exists (fun _ => None). now rewrite assign_id.
Qed.
Lemma same_allNames M0 M : sameEntry M0 M -> allNames (md_tm M) = allNames (md_tm M0).
Proof. intros [_ _ _ _ _ (f & ->) _]. apply assign_allNames. Qed.
Lemma combos_length M : List.length (combos M) = tmc M.
Proof. unfold combos, tmc. now destruct (md_rows M). Qed.
Lemma withValues_nil m : named m -> withValues m [] = m.
Proof. intros N. unfold withValues. apply assign_id; auto. intros n _. now destruct (allNames m). Qed.

Section One.
  Variables (e : env R) (o : om R) (s : seg R) (prior : option (list (xnum R))) (M0 : tmEntry R) (pv : list R).
  Notation lik := (processedPdf o (e_size e) (e_grid e) s).
  Hypothesis HM : entryOk M0 pv.
  Definition stepTo (cs cs2 : list cellT) : Prop :=
    Forall2 (fun rc c2 => advp e o s prior (withValues (md_tm M0) (fst rc)) (snd rc) = Ok c2) (combine (combos M0) cs) cs2.
  Definition isOut (cs2 : list cellT) (hev p : xnum R) (r : tmOut R R) : Prop :=
    sameEntry M0 (to_md r) /\ to_evs r = map fst cs2 /\ to_posts r = map snd cs2 /\ to_hev r = hevOf M0 cs2 /\
    to_local r = localOf M0 cs2 hev p /\ to_hpd r = hpdOf M0 cs2 /\ to_post r = mixOf (e_size e) M0 cs2.

  Lemma stepTo_length cs cs2 : List.length cs = List.length (combos M0) -> stepTo cs cs2 -> List.length cs2 = List.length (combos M0).
  Proof. intros E HF. apply Forall2_len in HF. rewrite combine_length in HF. lia. Qed.

  Lemma tmStep_inv M cs hev p r : sameEntry M0 M -> List.length cs = List.length (combos M0) ->
    tmStep e lik prior M (map fst cs) (map snd cs) hev p = Ok r -> exists cs2, stepTo cs cs2 /\ isOut cs2 hev p r.
  Proof.
    intros [Er En Ev Ec Ep (f & Ef) Ex] El E. destruct HM as [N Nn HR Hpv Hlen Hnn Hpos Hc]. apply wellNamed_parts in N as (n1 & n2 & n3). unfold tmStep in E.
    destruct (Nat.ltb _ _); [discriminate|]. rewrite Er in E. unfold stepTo, combos in *.
    destruct (md_rows M0) as [|row rows] eqn:E0.
    - destruct cs as [|[ev po] [|? ?]]; cbn in El; try lia. rewrite (Ex eq_refl) in E. cbn [map fst snd rowsLoop] in E.
      assert (A : exists c2, advp e o s prior (withValues (md_tm M0) []) (ev, po) = Ok c2 /\ 
        forall X (k : _ -> _ -> res X),
        bind (match prior with Some a => Ok a | None => computeForwardPrior e (md_tm M0) f0 po (fofZ (-1)) end)
          (fun a => k (xladd ev (xln (asum (amul a lik)))) (adivs (amul a lik) (asum (amul a lik)))) = k (fst c2) (snd c2)).
      { rewrite withValues_nil by auto. unfold advp, adv. cbn [fst snd]. destruct prior as [a|]; [eexists; split; reflexivity|].
        destruct (computeForwardPrior _ _ _ _ _) as [a|]; [|discriminate E]. eexists. split; reflexivity. }
      destruct A as (c2 & A1 & A2). cbv zeta in E. rewrite (A2 _ (fun x y => bind (Ok (md_tm M0, [], [])) (fun r => let '(m2, evs2, posts2) := r in Ok (m2, x :: evs2, y :: posts2)))) in E.
      cbn [bind] in E. exists [c2]. split; [cbn [combine]; repeat constructor; auto|]. rewrite Ec, Ep in E. inversion E; subst.
      repeat (split; [try reflexivity|]); try reflexivity. constructor; cbn; auto; try congruence.
      + exists (fun _ => None). now rewrite assign_id.
    - rewrite Ef in E. destruct (rowsLoop _ _ _ _ _ _ _) as [[[m2 evs2] posts2]|] eqn:E1; [|discriminate]. cbn [bind] in E.
      destruct (rows_inv e o s prior (md_tm M0) n1 n2 n3 (row :: rows) cs f _ _ _ HR El E1) as (cs2 & f2 & -> & -> & -> & HF). exists cs2. split; auto.
      rewrite Ec, Ep in E. inversion E; subst. repeat (split; [try reflexivity|]); try reflexivity. constructor; cbn; auto; try congruence. eauto.
  Qed.
  Lemma tmStep_total M cs cs2 hev p : sameEntry M0 M -> List.length cs = List.length (combos M0) -> stepTo cs cs2 ->
    exists r, tmStep e lik prior M (map fst cs) (map snd cs) hev p = Ok r.
  Proof.
    intros [Er En Ev Ec Ep (f & Ef) Ex] El HF. destruct HM as [N Nn HR Hpv Hlen Hnn Hpos Hc]. apply wellNamed_parts in N as (n1 & n2 & n3). unfold tmStep.
    rewrite Ep, Hpv, map_length, Hlen. rewrite Er. unfold stepTo, combos in *.
    destruct (md_rows M0) as [|row rows] eqn:E0.
    - destruct cs as [|[ev po] [|? ?]]; cbn in El; try lia. cbn [Nat.ltb Nat.leb List.length]. rewrite (Ex eq_refl). cbn [map fst snd rowsLoop].
      cbn [combine] in HF. inversion HF as [|? ? ? ? H1 H2]; subst. cbn [fst snd] in H1. rewrite withValues_nil in H1 by auto. unfold advp, adv in H1. cbn [fst snd] in H1.
      destruct prior as [a|]; [cbn [bind]; eexists; reflexivity|]. destruct (computeForwardPrior _ _ _ _ _) as [a|]; [|discriminate]. cbn [bind]. eexists; reflexivity.
    - replace (Nat.ltb _ _) with false by (symmetry; apply Nat.ltb_ge; rewrite map_length; lia). rewrite Ef.
      destruct (rows_total e o s prior (md_tm M0) n1 n2 n3 (row :: rows) cs f cs2 HR El HF) as (f2 & E2). rewrite E2. cbn [bind]. eexists; reflexivity.
  Qed.
End One.

(** ** all transition models *)
Section All.
  Variables (e : env R) (o : om R).
  Notation lik s := (processedPdf o (e_size e) (e_grid e) s).
  Variables (s : seg R) (prior : option (list (xnum R))).

  Definition localsOf (Ms0 : list (tmEntry R)) (css : list (list cellT)) (olds ps : list (xnum R)) : list (xnum R) :=
    map2 (fun Mc hp => localOf (fst Mc) (snd Mc) (fst hp) (snd hp)) (combine Ms0 css) (combine olds ps).
  Definition stepsTo (Ms0 : list (tmEntry R)) (css css2 : list (list cellT)) : Prop :=
    Forall2 (fun Mc cs2 => stepTo e o s prior (fst Mc) (snd Mc) cs2) (combine Ms0 css) css2.
  Record areOut (Ms0 : list (tmEntry R)) (css2 : list (list cellT)) (hevs ps : list (xnum R)) (outs : list (tmOut R R)) : Prop := {
    ao_md : Forall2 sameEntry Ms0 (map to_md outs);
    ao_evs : map to_evs outs = map (map fst) css2;
    ao_posts : map to_posts outs = map (map snd) css2;
    ao_hev : map to_hev outs = map2 hevOf Ms0 css2;
    ao_local : map to_local outs = localsOf Ms0 css2 hevs ps;
    ao_hpd : map to_hpd outs = map2 hpdOf Ms0 css2;
    ao_post : map to_post outs = map2 (mixOf (e_size e)) Ms0 css2
  }.
  Notation fits Ms0 css := (Forall2 (fun M (cs : list cellT) => List.length cs = List.length (combos M)) Ms0 css).

  Lemma models_inv : forall Ms0 pvs Ms css hevs ps outs, Forall2 entryOk Ms0 pvs -> Forall2 sameEntry Ms0 Ms -> fits Ms0 css ->
    modelsLoop e (lik s) prior Ms (map (map fst) css) (map (map snd) css) hevs ps = Ok outs ->
    exists css2, stepsTo Ms0 css css2 /\ areOut Ms0 css2 hevs ps outs /\ fits Ms0 css2.
  Proof.
    induction Ms0 as [|M0 Ms0 IH]; intros pvs Ms css hevs ps outs HE HS HL E; inversion HE as [|? pv ? pvs' he1 he2]; inversion HS as [|? M ? Ms' hs1 hs2]; inversion HL as [|? cs ? css' hl1 hl2]; subst.
    - cbn in E. inversion E; subst. exists []. split; [constructor|]. split; [constructor; constructor|constructor].
    - cbn [map modelsLoop] in E. destruct hevs as [|hev hevs]; [discriminate|]. destruct ps as [|p ps]; [discriminate|].
      destruct (tmStep _ _ _ _ _ _ _ _) as [r|] eqn:E1; [|discriminate]. cbn [bind] in E. destruct (modelsLoop _ _ _ _ _ _ _ _) as [rs|] eqn:E2; [|discriminate]. cbn [bind] in E. inversion E; subst.
      destruct (tmStep_inv e o s prior M0 pv he1 M cs hev p r hs1 hl1 E1) as (cs2 & S1 & (q1 & q2 & q3 & q4 & q5 & q6 & q7)).
      destruct (IH _ _ _ _ _ _ he2 hs2 hl2 E2) as (css2 & S2 & [r1 r2 r3 r4 r5 r6 r7] & F2).
      exists (cs2 :: css2). split; [constructor; auto|]. split.
      + constructor; unfold localsOf in *; cbn [map map2 combine fst snd]; try congruence. now constructor.
      + constructor; auto. eapply stepTo_length; eauto.
  Qed.
  Lemma models_total : forall Ms0 pvs Ms css css2 hevs ps, Forall2 entryOk Ms0 pvs -> Forall2 sameEntry Ms0 Ms -> fits Ms0 css ->
    List.length hevs = List.length Ms0 -> List.length ps = List.length Ms0 -> stepsTo Ms0 css css2 ->
    exists outs, modelsLoop e (lik s) prior Ms (map (map fst) css) (map (map snd) css) hevs ps = Ok outs.
  Proof.
    induction Ms0 as [|M0 Ms0 IH]; intros pvs Ms css css2 hevs ps HE HS HL Lh Lp ST; inversion HE as [|? pv ? pvs' he1 he2]; inversion HS as [|? M ? Ms' hs1 hs2]; inversion HL as [|? cs ? css' hl1 hl2]; subst.
    - exists []. reflexivity.
    - cbn [map modelsLoop]. destruct hevs as [|hev hevs]; [discriminate|]. destruct ps as [|p ps]; [discriminate|]. unfold stepsTo in ST. cbn [combine] in ST. inversion ST as [|? cs2 ? css3 st1 st2]; subst. cbn in st1.
      destruct (tmStep_total e o s prior M0 pv he1 M cs cs2 hev p hs1 hl1 st1) as (r & ->). cbn [bind].
      destruct (IH pvs' Ms' css' css3 hevs ps he2 hs2 hl2 ltac:(cbn in *; lia) ltac:(cbn in *; lia) st2) as (rs & ->). cbn [bind]. eauto.
  Qed.
End All.

(** ** results of all steps so far *)
Section Results.
  Variables (e : env R) (o : om R) (a0 : list (xnum R)) (ev0 : xnum R).
  Definition results (segs : list (seg R)) (M0 : tmEntry R) (cs : list cellT) : Prop :=
    Forall2 (fun row c => chain e o (withValues (md_tm M0) row) a0 ev0 segs = Ok c) (combos M0) cs.
  Lemma results_length segs M cs : results segs M cs -> List.length cs = List.length (combos M).
  Proof. intros HF. symmetry. eapply Forall2_len; eauto. Qed.
  Lemma Forall2_combine_l {A B C} (P : A * B -> C -> Prop) (Q : A -> C -> Prop) l : forall l' r,
    List.length l' = List.length l -> (forall a b c, In (a, b) (combine l l') -> P (a, b) c <-> Q a c) -> Forall2 P (combine l l') r <-> Forall2 Q l r.
  Proof.
    induction l as [|a l IH]; intros [|b l'] r E HPQ; try discriminate; cbn [combine].
    - split; intros HF; inversion HF; constructor.
    - cbn in E. split; intros HF; inversion HF; subst; constructor; try (apply (HPQ a b); [now left|assumption]);
        (apply (IH l'); [lia|intros; apply HPQ; now right|assumption]).
  Qed.
  Lemma step_first s M cs cs2 : cs = repeat (ev0, snd (hd (NaN, []) cs)) (List.length (combos M)) ->
    stepTo e o s (Some a0) M cs cs2 <-> results [s] M cs2.
  Proof.
    intros E. unfold stepTo, results. apply Forall2_combine_l; [rewrite E, repeat_length; auto|]. intros row c c2 I. cbn [fst snd advp].
    rewrite chain_one. apply in_combine_r in I. rewrite E in I. apply repeat_spec in I. subst c. reflexivity.
  Qed.
  Lemma step_next segs s M cs cs2 : segs <> [] -> results segs M cs -> stepTo e o s None M cs cs2 <-> results (segs ++ [s]) M cs2.
  Proof.
    intros Hn HF. unfold stepTo, results in *. apply Forall2_combine_l; [symmetry; eapply Forall2_len; eauto|]. intros row c c2 I. cbn [fst snd advp].
    rewrite chain_snoc by auto. assert (E : chain e o (withValues (md_tm M) row) a0 ev0 segs = Ok c).
    { clear Hn c2. induction HF as [|? ? ? ? h1 h2 IH]; [contradiction|]. destruct I as [I|I]; [inversion I; subst; auto|auto]. }
    rewrite E. reflexivity.
  Qed.
  Lemma steps_first s Ms0 : forall css css2, Forall2 (fun M (cs : list cellT) => cs = repeat (ev0, snd (hd (NaN, []) cs)) (List.length (combos M))) Ms0 css ->
    stepsTo e o s (Some a0) Ms0 css css2 <-> Forall2 (results [s]) Ms0 css2.
  Proof.
    unfold stepsTo. intros css css2 HF. apply Forall2_combine_l; [symmetry; eapply Forall2_len; eauto|]. intros M cs cs2 I. cbn [fst snd]. apply step_first.
    clear css2 cs2. induction HF as [|? ? ? ? h1 h2 IH]; [contradiction|]. destruct I as [I|I]; [inversion I; subst; auto|auto].
  Qed.
  Lemma steps_next segs s Ms0 css css2 : segs <> [] -> Forall2 (results segs) Ms0 css -> stepsTo e o s None Ms0 css css2 <-> Forall2 (results (segs ++ [s])) Ms0 css2.
  Proof.
    unfold stepsTo. intros Hn HF. apply Forall2_combine_l; [symmetry; eapply Forall2_len; eauto|]. intros M cs cs2 I. cbn [fst snd]. apply step_next; auto.
    clear css2 cs2. induction HF as [|? ? ? ? h1 h2 IH]; [contradiction|]. destruct I as [I|I]; [inversion I; subst; auto|auto].
  Qed.
  Lemma results_fun segs M cs cs' : results segs M cs -> results segs M cs' -> cs = cs'.
  Proof.
    unfold results. intros H1. revert cs'. induction H1 as [|row c rows cs h1 h2 IH]; intros cs' H2; inversion H2; subst; auto. f_equal; [congruence|auto].
  Qed.
End Results.

(** ** segments *)
Lemma window_snoc {A} (l : list A) a k : (0 < k)%nat -> movingWindow (l ++ [a]) k =
  if Nat.ltb (S (List.length l)) k then movingWindow l k else (movingWindow l k ++ [lastN k (l ++ [a])])%list.
Proof.
  intros Hk. unfold movingWindow. rewrite app_length. cbn [List.length]. destruct (Nat.ltb_spec (S (List.length l)) k) as [Hl|Hl].
  - replace (List.length l + 1 + 1 - k)%nat with O by lia. replace (List.length l + 1 - k)%nat with O by lia. reflexivity.
  - replace (List.length l + 1 + 1 - k)%nat with (S (List.length l + 1 - k)) by lia. rewrite seq_S, map_app. f_equal.
    + apply map_ext_in. intros i Hi. apply in_seq in Hi. rewrite skipn_app, firstn_app, skipn_length. replace (k - (List.length l - i))%nat with O by lia. cbn. apply app_nil_r.
    + cbn [map]. f_equal. unfold lastN. destruct k as [|k]; [lia|]. rewrite app_length. cbn [List.length plus]. apply firstn_all2. rewrite skipn_length, app_length. cbn. lia.
Qed.
Definition rawApp (a b : raw R) : raw R :=
  match a, b with Raw1 x, Raw1 y => Raw1 (x ++ y) | Raw2 x, Raw2 y => Raw2 (x ++ y) | _, _ => b end.
Lemma rawAppend_inv a b c : rawAppend a b = Ok c -> rawLen c = (rawLen a + rawLen b)%nat /\ c = rawApp a b.
Proof.
  destruct a, b; cbn; try discriminate.
  - intros E; inversion E; cbn. now rewrite app_length.
  - destruct (forallb _ _); [|discriminate]. intros E; inversion E; cbn. now rewrite app_length.
Qed.
Lemma format_snoc (a d c : raw R) k : (0 < k)%nat -> rawLen d = 1%nat -> rawAppend a d = Ok c ->
  formatData c k = if Nat.ltb (rawLen c) k then formatData a k else (formatData a k ++ [lastSegment k c])%list.
Proof.
  intros Hk Hd E. destruct a as [l|l], d as [[|x [|? ?]]|[|x [|? ?]]]; cbn [rawAppend] in E; try discriminate E; try (cbn in Hd; discriminate Hd);
    try (destruct (forallb _ _); [|discriminate E]); inversion E; subst c; unfold formatData, rawLen, lastSegment;
    rewrite window_snoc by auto; rewrite app_length, Nat.add_1_r; destruct (Nat.ltb _ _); auto; now rewrite map_app.
Qed.
Lemma format_first (d : raw R) k : (0 < k)%nat -> rawLen d = 1%nat -> formatData (F := R) d k = if Nat.ltb (rawLen d) k then [] else [lastSegment k d].
Proof.
  intros Hk Hd. destruct d as [[|x [|? ?]]|[|x [|? ?]]]; try (cbn in Hd; discriminate Hd); unfold formatData, rawLen, lastSegment;
    pose proof (window_snoc [] x k Hk) as E; cbn [app] in E; rewrite E; cbn [List.length]; destruct (Nat.ltb 1 k); auto; unfold movingWindow; cbn [List.length];
    replace (0 + 1 - k)%nat with O by lia; reflexivity.
Qed.
Lemma format_length (d : raw R) k : List.length (formatData d k) = (rawLen d + 1 - k)%nat.
Proof. unfold formatData, movingWindow. destruct d; rewrite !map_length, seq_length; reflexivity. Qed.

(** ** the state after some data *)
Definition env0 (S : study R R) (o : om R) : env R :=
  {| e_shape := st_shape S; e_lat := st_lat S; e_tmlat := st_lat S; e_names := om_names o; e_grid := st_grid S; e_prior := om_prior o;
     e_shift := st_shift S; e_aconv := st_aconv S; e_bconv := st_bconv S |}.
Definition vol0 (S : study R R) : xnum R := xladd (F := R) (Fin l0) (xln (Fin (fprod (st_lat S)))).
Definition priorsFor (O0 : online R R) : list (xnum R) :=
  match on_tmPrior O0 with
  | Some ps => ps
  | None => repeat (xdiv (Fin f1) (Fin (fofZ (Z.of_nat (List.length (on_models O0)))))) (List.length (on_models O0))
  end.
(** the fixed part of the study *)
Definition sameSetup (S0 S : study R R) : Prop :=
  st_om S = st_om S0 /\ st_shape S = st_shape S0 /\ st_lat S = st_lat S0 /\ st_grid S = st_grid S0 /\
  st_shift S = st_shift S0 /\ st_aconv S = st_aconv S0 /\ st_bconv S = st_bconv S0.

Section Stream.
  Variables (O0 : online R R) (o : om R) (pvs : list (list R)).
  Hypothesis RO : onlineReady O0 o pvs.
  Notation S0 := (on_S O0).
  Notation e := (env0 S0 o).
  Notation Ms0 := (on_models O0).
  Notation k := (om_seglen o).
  Notation n := (e_size e).
  Notation ev0 := (vol0 S0).

  Record current (segs : list (seg R)) (O : online R R) : Prop := {
    cu_first : on_first O = false;
    cu_prior : on_tmPrior O = Some (priorsFor O0);
    cu_results : exists a0 css olds,
      computePrior e = Ok (a0, om_prior o, false) /\
      Forall2 (results e o a0 ev0 segs) Ms0 css /\
      on_logEvs O = map (map fst) css /\ on_posts O = map (map snd) css /\
      on_hyperEvs O = map2 hevOf Ms0 css /\ on_hpd O = map2 hpdOf Ms0 css /\ on_tmPosts O = map2 (mixOf n) Ms0 css /\
      on_tmd O = softmax (map2 hevOf Ms0 css) /\
      on_marg O = Some (sumRows n (map2 (fun p q => map (fun v => xmul v q) p) (map2 (mixOf n) Ms0 css) (on_tmd O))) /\
      st_logEv (on_S O) = xlogsumexp (F := R) (map2 (fun h p => xladd (F := R) h (xln p)) (map2 hevOf Ms0 css) (priorsFor O0)) /\
      on_ltmd O = softmax (localsOf Ms0 css olds (priorsFor O0)) /\
      match removelast segs with
      | [] => olds = repeat (Fin 0) (List.length Ms0)
      | before => exists css', Forall2 (results e o a0 ev0 before) Ms0 css' /\ olds = map2 hevOf Ms0 css'
      end
  }.
  Record tracked (O : online R R) (d : raw R) : Prop := {
    tk_setup : sameSetup S0 (on_S O);
    tk_raw : st_raw (on_S O) = d;
    tk_len : (0 < rawLen d)%nat;
    tk_models : Forall2 sameEntry Ms0 (on_models O);
    tk_rts : st_rawTs (on_S O) = Some (map INR (seq 0 (rawLen d)));
    tk_ts : on_ts O = Some (skipn (k - 1) (map INR (seq 0 (rawLen d))));
    tk_arr : on_isArr O = false;
    tk_store : on_store O = on_store O0;
    tk_state : match formatData d k with
               | [] => on_first O = true /\ on_tmPrior O = on_tmPrior O0
               | segs => current segs O
               end
  }.

  Lemma env_same S m v : sameSetup S0 S -> envOf (set_online S o m v) o (om_prior o) = e.
  Proof. intros (a1 & a2 & a3 & a4 & a5 & a6 & a7). unfold envOf, env0, set_online. cbn. now rewrite a2, a3, a4, a5, a6, a7. Qed.
  Lemma om_same : om_set_prior o (om_prior o) = o.
  Proof. destruct o. reflexivity. Qed.
  Lemma prior_same r : computePrior e = Ok r -> exists a0, r = (a0, om_prior o, false).
  Proof.
    intros E. pose proof (or_prior _ _ _ RO) as P. unfold computePrior in E. cbn [e_prior env0] in E. destruct (om_prior o); try contradiction; cbn in E.
    - inversion E. eauto.
    - inversion E. eauto.
    - inversion E. eauto.
    - destruct (Nat.eqb _ _); [|discriminate]. inversion E. eauto.
  Qed.
  Lemma sameSetup_online S o' m v : st_om S0 = Some o -> o' = o -> sameSetup S0 S -> sameSetup S0 (set_online S o' m v).
  Proof. intros E -> (a1 & a2 & a3 & a4 & a5 & a6 & a7). repeat split; cbn; auto. Qed.

  Lemma with_prior_e : with_prior e (om_prior o) = e.
  Proof. reflexivity. Qed.
  Lemma finish_ok O d s prior css css2 olds outs : sameSetup S0 (on_S O) -> st_raw (on_S O) = d ->
    stepsTo e o s prior Ms0 css css2 -> areOut e Ms0 css2 olds (priorsFor O0) outs ->
    let O' := finish O o (priorsFor O0) outs in
    sameSetup S0 (on_S O') /\ st_raw (on_S O') = d /\ st_rawTs (on_S O') = st_rawTs (on_S O) /\
    Forall2 sameEntry Ms0 (on_models O') /\ on_ts O' = on_ts O /\ on_isArr O' = on_isArr O /\ on_store O' = on_store O /\
    on_first O' = false /\ on_tmPrior O' = Some (priorsFor O0) /\
      on_logEvs O' = map (map fst) css2 /\ on_posts O' = map (map snd) css2 /\
      on_hyperEvs O' = map2 hevOf Ms0 css2 /\ on_hpd O' = map2 hpdOf Ms0 css2 /\ on_tmPosts O' = map2 (mixOf n) Ms0 css2 /\
      on_tmd O' = softmax (map2 hevOf Ms0 css2) /\
      on_marg O' = Some (sumRows n (map2 (fun p q => map (fun v => xmul v q) p) (map2 (mixOf n) Ms0 css2) (on_tmd O'))) /\
      st_logEv (on_S O') = xlogsumexp (F := R) (map2 (fun h p => xladd (F := R) h (xln p)) (map2 hevOf Ms0 css2) (priorsFor O0)) /\
      on_ltmd O' = softmax (localsOf Ms0 css2 olds (priorsFor O0)).
  Proof.
    intros SS Er _ [a1 a2 a3 a4 a5 a6 a7] O'. subst O'. unfold finish. cbn [on_S on_models on_ts on_isArr on_store on_first on_tmPrior on_logEvs on_posts on_hyperEvs on_hpd on_tmPosts on_tmd on_marg on_ltmd set_online st_raw st_rawTs st_logEv].
    rewrite a2, a3, a4, a5, a6, a7. destruct SS as (b1 & b2 & b3 & b4 & b5 & b6 & b7). rewrite b2.
    split; [repeat split; cbn; auto; rewrite (or_om _ _ _ RO); reflexivity|]. repeat (split; [auto; fail|]). auto.
  Qed.

  Lemma combos_fits : forall css, Forall2 (fun M (cs : list cellT) => cs = repeat (ev0, snd (hd (NaN, []) cs)) (List.length (combos M))) Ms0 css ->
    Forall2 (fun M (cs : list cellT) => List.length cs = List.length (combos M)) Ms0 css.
  Proof. intros css HF. induction HF as [|M cs l l' h1 h2 IH]; constructor; auto. rewrite h1. apply repeat_length. Qed.
  Lemma map_fst_repeat {A B} (a : A) (b : B) m : map fst (repeat (a, b) m) = repeat a m.
  Proof. induction m; cbn; congruence. Qed.
  Lemma map_snd_repeat {A B} (a : A) (b : B) m : map snd (repeat (a, b) m) = repeat b m.
  Proof. induction m; cbn; congruence. Qed.
  (** the cells before the first step *)
  Definition blank : list (list cellT) := map (fun M => repeat (ev0, repeat (Fin 0) n) (tmc M)) Ms0.
  Lemma blank_ok : Forall2 (fun M (cs : list cellT) => cs = repeat (ev0, snd (hd (NaN, []) cs)) (List.length (combos M))) Ms0 blank.
  Proof.
    unfold blank. induction Ms0 as [|M l IH]; cbn; constructor; auto. rewrite combos_length. destruct (tmc M) eqn:E; auto.
  Qed.
  Lemma same_tmc Ms : Forall2 sameEntry Ms0 Ms -> forall {A} (f : nat -> A), map (fun M => f (tmc M)) Ms = map (fun M => f (tmc M)) Ms0.
  Proof. intros HF A f. induction HF as [|M M' l l' h1 h2 IH]; cbn; auto. rewrite IH. unfold tmc. now rewrite (se_rows _ _ h1). Qed.

  Lemma update_inv O d segs : sameSetup S0 (on_S O) -> st_raw (on_S O) = d -> Forall2 sameEntry Ms0 (on_models O) ->
    (match segs with [] => on_first O = true /\ on_tmPrior O = on_tmPrior O0 | _ => current segs O end) ->
    forall O', update O o = Ok O' ->
    current (segs ++ [lastSegment k d]) O' /\ sameSetup S0 (on_S O') /\ st_raw (on_S O') = d /\ st_rawTs (on_S O') = st_rawTs (on_S O) /\
    Forall2 sameEntry Ms0 (on_models O') /\ on_ts O' = on_ts O /\ on_isArr O' = on_isArr O /\ on_store O' = on_store O.
  Proof.
    intros SS Er HM Cu O' E. unfold update in E. rewrite (env_same _ _ _ SS) in E.
    assert (HL : List.length (on_models O) = List.length Ms0) by (symmetry; eapply Forall2_len; eauto).
    destruct segs as [|s0 segs].
    - destruct Cu as [C1 C2]. rewrite C1 in E. destruct (computePrior e) as [r|] eqn:EP; [|discriminate]. cbn [bind] in E. destruct (prior_same _ EP) as (a0 & ->).
      cbn [bind] in E. unfold initialise in E at 1. cbn [on_tmPrior] in E. rewrite C2, HL in E.
      replace (match on_tmPrior O0 with Some p => Some p | None => _ end) with (Some (priorsFor O0)) in E by (unfold priorsFor; destruct (on_tmPrior O0); auto).
      rewrite with_prior_e in E. cbn [initialise on_models on_logEvs on_posts on_hyperEvs] in E.
      rewrite HL, (same_tmc _ HM (fun j => repeat (xladd (F := R) (Fin l0) (xln (Fin (e_vol e)))) j)), (same_tmc _ HM (fun j => repeat (repeat (Fin f0) n) j)) in E.
      replace (map (fun M => repeat (xladd (F := R) (Fin l0) (xln (Fin (e_vol e)))) (tmc M)) Ms0) with (map (map fst) blank) in E
        by (unfold blank; rewrite map_map; apply map_ext; intros; apply map_fst_repeat).
      replace (map (fun M => repeat (repeat (Fin f0) n) (tmc M)) Ms0) with (map (map snd) blank) in E
        by (unfold blank; rewrite map_map; apply map_ext; intros; apply map_snd_repeat).
      rewrite Er in E. destruct (modelsLoop _ _ _ _ _ _ _ _) as [outs|] eqn:EM; [|discriminate]. cbn [bind] in E. inversion E; subst O'; clear E.
      destruct (models_inv e o (lastSegment k d) (Some a0) Ms0 pvs _ _ _ _ _ (or_entries _ _ _ RO) HM (combos_fits _ blank_ok) EM) as (css2 & ST & AO & FI).
      cbn [e_prior env0]. rewrite om_same.
      destruct (finish_ok (initialise O (e_vol e) n) d _ _ _ _ _ _ SS Er ST AO) as (q1 & q2 & q3 & q4 & q5 & q6 & q7 & q8 & q9 & q10 & q11 & q12 & q13 & q14 & q15 & q16 & q17 & q18).
      cbv zeta in *. cbn [initialise on_S on_ts on_isArr on_store] in q1, q3, q5, q6, q7. split; [|auto 10].
      apply (steps_first e o a0 ev0 _ Ms0 _ _ blank_ok) in ST.
      constructor; auto. exists a0, css2, (repeat (Fin 0) (List.length Ms0)). repeat (split; [auto; fail|]). reflexivity.
    - destruct Cu as [C1 C2 (a0 & css & olds & EP & HR & c1 & c2 & c3 & c4 & c5 & c6 & c7 & c8 & c9 & c10)]. rewrite C1 in E. cbn [bind] in E. rewrite C2 in E.
      rewrite with_prior_e in E. rewrite c1, c2, c3, Er in E.
      destruct (modelsLoop _ _ _ _ _ _ _ _) as [outs|] eqn:EM; [|discriminate]. cbn [bind] in E. inversion E; subst O'; clear E.
      assert (FI0 : Forall2 (fun M (cs : list cellT) => List.length cs = List.length (combos M)) Ms0 css).
      { clear - HR. induction HR; constructor; auto. eapply results_length; eauto. }
      destruct (models_inv e o (lastSegment k d) None Ms0 pvs _ _ _ _ _ (or_entries _ _ _ RO) HM FI0 EM) as (css2 & ST & AO & FI).
      cbn [e_prior env0]. rewrite om_same.
      destruct (finish_ok O d _ _ _ _ _ _ SS Er ST AO) as (q1 & q2 & q3 & q4 & q5 & q6 & q7 & q8 & q9 & q10 & q11 & q12 & q13 & q14 & q15 & q16 & q17 & q18).
      cbv zeta in *. split; [|auto 10].
      apply (steps_next e o a0 ev0 (s0 :: segs) _ Ms0 _ _ ltac:(discriminate) HR) in ST.
      constructor; auto. exists a0, css2, (map2 hevOf Ms0 css). repeat (split; [auto; fail|]). rewrite removelast_last. cbn. exists css. auto.
  Qed.

  Lemma times_snoc j : (map INR (seq 0 (S j)) = map INR (seq 0 j) ++ [INR j])%list.
  Proof. rewrite seq_S, map_app. reflexivity. Qed.
  Lemma last_times j : last (map INR (seq 0 (S j))) f0 = INR j.
  Proof. rewrite times_snoc. apply last_last. Qed.
  Lemma last_times' (t : R) l j : t :: l = map INR (seq 0 (S j)) -> last (t :: l) f0 = INR j.
  Proof. intros ->. apply last_times. Qed.
  Lemma ts_snoc j : (k <= S j)%nat -> (skipn (k - 1) (map INR (seq 0 (S j))) = skipn (k - 1) (map INR (seq 0 j)) ++ [INR j])%list.
  Proof.
    intros Hk. pose proof (or_seg _ _ _ RO) as P. rewrite times_snoc, skipn_app, map_length, seq_length. replace (k - 1 - j)%nat with O by lia. reflexivity.
  Qed.
  Lemma ts_none j : (j < k)%nat -> skipn (k - 1) (map INR (seq 0 j)) = [].
  Proof. intros Hk. apply skipn_all2. rewrite map_length, seq_length. lia. Qed.

  Lemma receive_first d O1 : receive O0 d = Ok O1 -> O1 = with_ts O0 (set_data S0 d [f0]) (Some []) false.
  Proof.
    unfold receive. destruct (on_models O0) as [|M l] eqn:EM; [destruct (or_models _ _ _ RO EM)|]. cbn [bind]. rewrite (or_empty _ _ _ RO). cbn [Nat.eqb].
    destruct (hasDup _); [discriminate|]. destruct (checkConsistency _); [|discriminate]. cbn [bind]. intros E; inversion E. reflexivity.
  Qed.
  Lemma first_step d O' : point d -> onlineStep O0 d = Ok O' -> tracked O' d.
  Proof.
    intros Pd E. unfold onlineStep in E. destruct (receive O0 d) as [O1|] eqn:ER; [|discriminate]. apply receive_first in ER. subst O1. cbn [bind] in E.
    cbn [with_ts on_S set_data st_om st_rawTs st_raw on_ts on_isArr] in E. rewrite (or_om _ _ _ RO) in E.
    pose proof (or_seg _ _ _ RO) as Hk. red in Pd. pose proof (format_first d k Hk Pd) as EF.
    assert (Sm : Forall2 sameEntry Ms0 Ms0).
    { pose proof (or_entries _ _ _ RO) as HE. clear - HE. induction HE; constructor; auto. eapply sameEntry_refl; eauto. }
    destruct (Nat.ltb_spec (rawLen d) k) as [Hl|Hl].
    - inversion E; subst O'; clear E. constructor; cbn [with_ts on_S set_data st_raw on_models st_rawTs on_ts on_isArr on_store on_first on_tmPrior]; auto; try lia.
      + repeat split.
      + rewrite Pd. reflexivity.
      + rewrite Pd, ts_none by lia. reflexivity.
      + rewrite EF. split; [exact (or_first _ _ _ RO)|reflexivity].
    - cbn [with_ts on_S set_data st_raw] in E.
      pose proof (update_inv (with_ts O0 (set_data S0 d [f0]) (Some ([] ++ [last [f0] f0])) false) d [] ltac:(repeat split) eq_refl Sm
        (conj (or_first _ _ _ RO) eq_refl) O' E) as (c & q1 & q2 & q3 & q4 & q5 & q6 & q7).
      cbn [with_ts on_S set_data st_raw st_rawTs on_ts on_isArr on_store app last] in q3, q5, q6, q7. constructor; auto; try lia.
      + rewrite q3, Pd. reflexivity.
      + rewrite q5, Pd. replace (k - 1)%nat with O by lia. reflexivity.
      + rewrite EF. exact c.
  Qed.
  Lemma receive_next O d0 d O1 : tracked O d0 -> receive O d = Ok O1 ->
    exists d', rawAppend d0 d = Ok d' /\ O1 = with_S O (set_data (on_S O) d' (map INR (seq 0 (S (rawLen d0))))).
  Proof.
    intros [s1 s2 s3 s4 s5 s6 s7 s8 s9] E. unfold receive in E.
    destruct (on_models O) as [|M l] eqn:EM.
    { inversion s4 as [X|]. destruct (or_models _ _ _ RO). now symmetry. }
    cbn [bind] in E. rewrite s2 in E. destruct (Nat.eqb_spec (rawLen d0) 0); [lia|]. destruct (rawAppend d0 d) as [d'|]; [|discriminate]. cbn [bind] in E. rewrite s5 in E.
    destruct (map INR (seq 0 (rawLen d0))) as [|t ts] eqn:Et; [discriminate|]. exists d'. split; auto.
    assert (Es : ((t :: ts) ++ [fadd (last (t :: ts) f0) f1] = map INR (seq 0 (S (rawLen d0))))%list).
    { rewrite times_snoc, Et. f_equal. f_equal. destruct (rawLen d0) as [|j]; [lia|]. rewrite (last_times' _ _ j (eq_sym Et)). change (fadd (INR j) f1) with (INR j + 1). now rewrite S_INR. }
    rewrite Es in E. now inversion E.
  Qed.
  Lemma next_step O d0 d O' : tracked O d0 -> point d -> onlineStep O d = Ok O' -> exists d', rawAppend d0 d = Ok d' /\ tracked O' d'.
  Proof.
    intros T Pd E. unfold onlineStep in E. destruct (receive O d) as [O1|] eqn:ER; [|discriminate]. destruct (receive_next _ _ _ _ T ER) as (d' & Ed & ->). cbn [bind] in E.
    exists d'. split; auto. destruct T as [s1 s2 s3 s4 s5 s6 s7 s8 s9].
    cbn [with_S on_S set_data st_om st_rawTs st_raw on_ts on_isArr] in E. destruct s1 as (b1 & b2 & b3 & b4 & b5 & b6 & b7). rewrite b1, (or_om _ _ _ RO) in E.
    pose proof (or_seg _ _ _ RO) as Hk. red in Pd. pose proof (format_snoc d0 d d' k Hk Pd Ed) as EF. pose proof (rawAppend_inv _ _ _ Ed) as [El _].
    assert (El' : rawLen d' = S (rawLen d0)) by lia. rewrite El' in E, EF. destruct (Nat.ltb_spec (S (rawLen d0)) k) as [Hl|Hl].
    - inversion E; subst O'; clear E.
      assert (E0 : formatData d0 k = []) by (apply length_zero_iff_nil; rewrite format_length; lia). rewrite E0 in *.
      constructor; cbn [with_S on_S set_data st_raw on_models st_rawTs on_ts on_isArr on_store on_first on_tmPrior]; auto; try lia.
      + repeat split; auto.
      + now rewrite El'.
      + rewrite s6, !ts_none by lia. reflexivity.
      + rewrite EF. exact s9.
    - rewrite s6, s7 in E. unfold with_S in E at 1. cbn [with_S on_S] in E. rewrite last_times in E.
      pose proof (update_inv (with_ts (with_S O (set_data (on_S O) d' (map INR (seq 0 (S (rawLen d0)))))) (set_data (on_S O) d' (map INR (seq 0 (S (rawLen d0)))))
        (Some (skipn (k - 1) (map INR (seq 0 (rawLen d0))) ++ [INR (rawLen d0)])) false) d' (formatData d0 k)) as U.
      specialize (U ltac:(repeat split; auto) eq_refl s4).
      assert (Cu : match formatData d0 k with [] => on_first O = true /\ on_tmPrior O = on_tmPrior O0 | _ => current (formatData d0 k)
         (with_ts (with_S O (set_data (on_S O) d' (map INR (seq 0 (S (rawLen d0)))))) (set_data (on_S O) d' (map INR (seq 0 (S (rawLen d0)))))
        (Some (skipn (k - 1) (map INR (seq 0 (rawLen d0))) ++ [INR (rawLen d0)])) false) end).
      { destruct (formatData d0 k); auto. destruct s9 as [c1 c2 c3]. constructor; auto. }
      specialize (U Cu O' E) as (c & q1 & q2 & q3 & q4 & q5 & q6 & q7).
      cbn [with_ts with_S on_S set_data st_raw st_rawTs on_ts on_isArr on_store] in q3, q5, q6, q7. constructor; auto; try lia.
      + now rewrite q3, El'.
      + rewrite q5, El', ts_snoc by lia. reflexivity.
      + congruence.
      + rewrite EF. destruct (formatData d0 k ++ _)%list eqn:X; [|exact c]. destruct (formatData d0 k); discriminate.
  Qed.

  (** all data received so far *)
  Fixpoint received (d0 : raw R) (ds : list (raw R)) : raw R := match ds with [] => d0 | d :: ds' => received (rawApp d0 d) ds' end.
  Lemma steps_tracked : forall ds O d0 O', tracked O d0 -> Forall point ds -> onlineSteps O ds = Ok O' -> tracked O' (received d0 ds).
  Proof.
    induction ds as [|d ds IH]; intros O d0 O' T HP E; cbn [onlineSteps received] in *; [inversion E; subst; auto|]. inversion HP as [|? ? hp1 hp2]; subst.
    destruct (onlineStep O d) as [O1|] eqn:E1; [|discriminate]. cbn [bind] in E. destruct (next_step _ _ _ _ T hp1 E1) as (d' & Ed & T1).
    apply rawAppend_inv in Ed as [_ ->]. eapply IH; eauto.
  Qed.
  Lemma stream_tracked d ds O' : Forall point (d :: ds) -> onlineSteps O0 (d :: ds) = Ok O' -> tracked O' (received d ds).
  Proof.
    intros HP E. inversion HP as [|? ? hp1 hp2]; subst. cbn [onlineSteps] in E. destruct (onlineStep O0 d) as [O1|] eqn:E1; [|discriminate]. cbn [bind] in E.
    apply (steps_tracked _ _ d _ (first_step _ _ hp1 E1) hp2 E).
  Qed.
End Stream.
