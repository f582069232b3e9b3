(** Online studies compared with fits. *)
From Coq Require Import List ZArith Reals Lra Lia Arith Bool String.
From Verif Require Import Base.Num Base.Exn Base.Arr Base.RSum Base.Lift Model.Helper Model.Tm Model.HyperParams Model.Study Model.Api
  Model.Getters Model.Hyper Model.Online Spec.Hmm Spec.Kernel Spec.Config Spec.Names Spec.Dist Spec.HyperSpec Spec.Trans Spec.OnlineSpec Spec.Trans
  Proof.FitThms Proof.FitCore Proof.FitInv Proof.KernelProof Proof.SetupProof Proof.NamesProof Proof.LogProof Proof.GridProof Proof.HyperProof Proof.DataProof Proof.TransProof Proof.OnlineProof.
Import ListNotations.
Local Open Scope R_scope.

(** ** dormant models *)
Lemma mapM_nums (bs : list R) : mapM scalarOf (map HNum bs) = Ok bs.
Proof. induction bs as [|b bs IH]; cbn; auto. now rewrite IH. Qed.
Lemma breaks_none bs : Forall (fun b => -1 < b) bs -> breaksUpTo (F := R) bs (-1) = O.
Proof.
  intros HF. unfold breaksUpTo. induction HF as [|b bs Hb HF IH]; auto. cbn [filter]. unfold fleb. change (fltb b (-1)) with (Rltb b (-1)). change (feqb b (-1)) with (Reqb b (-1)).
  destruct (Rltb b (-1)) eqn:E1; [apply Rltb_true in E1; lra|]. destruct (Reqb b (-1)) eqn:E2; [apply Reqb_true in E2; lra|]. exact IH.
Qed.
Lemma maskSel_In {A} (l : list A) mask x : In x (maskSel l mask) -> In x l.
Proof. revert mask. induction l as [|a l IH]; intros [|[|] mask]; cbn; try tauto; intros [->|I] || intros I; eauto. Qed.
Lemma check_none e bs mask q : Forall (fun b => -1 < b) bs -> changeCheck (F := R) e bs mask q (-1) = q.
Proof.
  intros HF. unfold changeCheck. destruct (existsb _ _) eqn:E; auto. apply existsb_exists in E as (b & I & E). apply maskSel_In in I.
  rewrite Forall_forall in HF. apply HF in I. change (feqb (-1) b) with (Reqb (-1) b) in E. apply Reqb_true in E. lra.
Qed.
Lemma dormant_step e : forall m m', dormant m m' -> forall off off' p t t' s1 s s',
  step e m off p (-1) t t' = step e m' off' p s1 s s'.
Proof.
  induction m as [k names vals pr ms IH] using tm_ind'. intros m' D off off' p t t' s1 s s'. inversion D; subst.
  - destruct k; try contradiction; reflexivity.
  - cbn [step leafStep index nth_error bind eqTime mkStatic]. change (feqb (-1) t0) with (Reqb (-1) t0).
    destruct (Reqb (-1) t0) eqn:E; [apply Reqb_true in E; congruence|]. reflexivity.
  - rewrite !step_comb. revert p. clear D. rename H5 into HF. induction HF as [|m1 m2 l l' h1 h2 IH2]; intros p; cbn [map inOrder]; auto.
    inversion IH as [|? ? i1 i2]; subst. rewrite (i1 m2 h1 off off' p t t' s1 s s'). destruct (step e m2 off' p s1 s s'); auto.
  - cbn [step]. rewrite mapM_nums. cbn [bind]. rewrite breaks_none by auto. inversion IH as [|? ? i1 i2]; subst.
    rewrite (i1 m' H6 _ off' p t t' s1 s s'). destruct (step e m' off' p s1 s s'); cbn [bind]; auto. now rewrite check_none.
Qed.

Lemma timeless_dormant f : forall (m m' : tm R), timeless m -> noPriors m' = noPriors m -> dormant (assign f m') (assign f m).
Proof.
  induction m as [k names vals pr ms IH] using tm_ind'. intros [k' names' vals' pr' ms'] D E. cbn [noPriors] in E. inversion E as [[E1 E2 E3 E4]]; subst k' names' vals'; clear E.
  cbn [assign]. inversion D as [? ? ? ? Hk|? ? ? ? HF]; subst.
  - destruct ms'; [|discriminate]. cbn [map]. now constructor.
  - constructor. clear D. revert ms' E4. induction HF as [|x l h1 h2 IHl]; intros [|y l'] E4; try discriminate; cbn [map]; constructor; inversion IH; inversion E4; subst; auto.
Qed.

(** ** batch fits *)
Section Batch.
  Variables (O0 : online R R) (o : om R) (pvs : list (list R)).
  Hypothesis RO : onlineReady O0 o pvs.
  Notation S0 := (on_S O0).
  Notation e := (env0 S0 o).
  Notation k := (om_seglen o).

  Lemma batch_chain O d m m' ts A v : tracked O0 o O d -> (k <= rawLen d)%nat -> List.length ts = rawLen d ->
    (forall p t, In t ts -> computeForwardPrior e m' f0 p t = computeForwardPrior e m f0 p (fofZ (-1))) ->
    fit (batch O m' ts) true false = Ok A -> st_logEv A = Fin v ->
    exists a0 post, computePrior e = Ok (a0, om_prior o, false) /\
      chain e o m a0 (vol0 S0) (formatData d k) = Ok (st_logEv A, post) /\ last (st_post A) None = Some post.
  Proof.
    intros [s1 s2 s3 s4 s5 s6 s7 s8 s9] Hk Hts Ht EF Ev. pose proof (or_seg _ _ _ RO) as Pk.
    apply fit_inv in EF as (o' & m1 & ts' & w & FP & FO). destruct FP as [EC (rts & ER & ->) (a0 & p0 & al0 & EP & EW)].
    destruct s1 as (b1 & b2 & b3 & b4 & b5 & b6 & b7).
    unfold checkConsistency, batch in EC. cbn [set_tm loadData st_raw st_om st_tm] in EC. destruct (Nat.eqb _ _); [discriminate|]. rewrite b1, (or_om _ _ _ RO) in EC.
    destruct (hasDup _); [discriminate|]. inversion EC; subst o' m1; clear EC.
    assert (Ee : envOf (batch O m' ts) o (om_prior o) = e).
    { unfold envOf, env0, batch. cbn. now rewrite b2, b3, b4, b5, b6, b7. }
    rewrite Ee in EP, EW. destruct (prior_same O0 o pvs RO _ EP) as (a0' & Ea). inversion Ea; subst a0' p0 al0. clear Ea.
    cbn [batch set_tm loadData st_rawTs] in ER. rewrite s2, Hts, Nat.eqb_refl in ER. inversion ER; subst rts; clear ER.
    assert (Es : formatData (st_raw (batch O m' ts)) k = formatData d k) by (cbn; now rewrite s2).
    rewrite Es in EW.
    inversion FO as [fo eo ES|fo ES|ES|out ES EB|out ES EB]; subst A; cbn [set_results st_logEv st_post] in *; try discriminate.
    unfold evOf in *. change (volOf (batch O m' ts)) with (fprod (st_lat (on_S O))) in *. rewrite b3 in *.
    apply xladd_Fin in Ev as (x & y & Ex & Ey & ->).
    assert (Hn : formatData d k <> []) by (intros X; apply (f_equal (@List.length _)) in X; rewrite format_length in X; cbn in X; lia).
    destruct (formatData d k) as [|s segs] eqn:Ed; [congruence|].
    change (om_prior o) with (e_prior e) in EW.
    destruct (fwd_chain e o m m' segs s (formatTimestamps ts k) a0 (Fin l0) l0 (l0 + y) w x) as (post & c1 & c2 & c3); auto.
    { intros p t I. apply Ht. unfold formatTimestamps in I. rewrite <- (firstn_skipn (k - 1) ts). apply in_or_app. now right. }
    exists a0, post. split; auto. split.
    - unfold vol0. rewrite Ey. change (xladd (Fin l0) (Fin y)) with (Fin (l0 + y)). rewrite c1, Ex. f_equal. f_equal. change (xladd (Fin x) (Fin y)) with (Fin (x + y)). f_equal. ring.
    - assert (El : List.length (fw_steps w) = List.length (s :: segs)) by (eapply fwd_steps_len; eauto).
      unfold segsOf. rewrite Es. rewrite padNone_full by now rewrite map_length. rewrite <- c2. destruct (fw_steps w) as [|x0 l] using rev_ind; [congruence|].
      rewrite !map_app. cbn [map]. now rewrite !last_last.
  Qed.
  Lemma asBatch_chain O d N m A p : tracked O0 o O d -> (k <= rawLen d)%nat -> asBatch O N m A p ->
    exists a0, computePrior e = Ok (a0, om_prior o, false) /\ chain e o m a0 (vol0 S0) (formatData d k) = Ok (st_logEv A, fin p) /\
      st_logEv A = lg (evidenceOf A) /\ 0 < evidenceOf A /\ List.length p = N /\ Forall (fun x => 0 <= x) p /\ Rsum p = 1.
  Proof.
    intros T Hk AB. pose proof (tk_raw _ _ _ _ T) as Er.
    assert (G : exists m' ts, List.length ts = rawLen d /\ (forall q t, In t ts -> computeForwardPrior e m' f0 q t = computeForwardPrior e m f0 q (fofZ (-1))) /\ filtered N (batch O m' ts) A p).
    { destruct AB as [F|m' ts D L F].
      - exists m, (constantTimes O (-1)). split; [unfold constantTimes; rewrite repeat_length; now rewrite Er|]. split; auto.
        intros q t I. apply repeat_spec in I. now subst t.
      - exists m', ts. split; [now rewrite <- Er|]. split; auto. intros q t _. symmetry. apply dormant_step; auto. }
    destruct G as (m' & ts & L & Ht & (F1 & (v & F2) & F3 & F4 & F5 & F6)).
    destruct (batch_chain O d m m' ts A v T Hk L Ht F1 F2) as (a0 & post & c1 & c2 & c3). exists a0. rewrite F3 in c3. inversion c3; subst post.
    repeat (split; [assumption|]). split. { unfold evidenceOf. rewrite F2. rewrite lg_pos by apply exp_pos. now rewrite ln_exp. }
    split; auto. unfold evidenceOf. rewrite F2. apply exp_pos.
  Qed.
  Definition cellsOf (fs : list (study R R * list R)) : list cellT := map (fun f => (st_logEv (fst f), fin (snd f))) fs.
  Lemma runs_results O d M fs a0 cs : tracked O0 o O d -> (k <= rawLen d)%nat -> runsOf O M fs -> computePrior e = Ok (a0, om_prior o, false) ->
    results e o a0 (vol0 S0) (formatData d k) M cs -> cs = cellsOf fs.
  Proof.
    intros T Hk RF EP HR. unfold runsOf, results in *. revert cs HR. induction RF as [|row [A p] rows fs h1 h2 IH]; intros cs HR; inversion HR; subst; auto.
    cbn [cellsOf map fst snd]. f_equal; auto. destruct (asBatch_chain _ _ _ _ _ _ T Hk h1) as (a0' & c1 & c2 & _). rewrite EP in c1. inversion c1; subst a0'. cbn [fst snd] in c2. congruence.
  Qed.
  Lemma runs_good O d M fs : tracked O0 o O d -> (k <= rawLen d)%nat -> runsOf O M fs ->
    Forall (fun f => st_logEv (fst f) = lg (evidenceOf (fst f)) /\ 0 < evidenceOf (fst f) /\ List.length (snd f) = pointsOn O /\ Forall (fun x => 0 <= x) (snd f) /\ Rsum (snd f) = 1) fs.
  Proof.
    intros T Hk RF. unfold runsOf in RF. induction RF as [|row [A p] rows fs h1 h2 IH]; constructor; auto.
    destruct (asBatch_chain _ _ _ _ _ _ T Hk h1) as (a0' & _ & _ & g). exact g.
  Qed.
End Batch.

(** ** numbers *)
Lemma softmax_lg ws : nonneg ws -> 0 < Rsum ws -> softmax (map lg ws) = fin (rdivs ws (Rsum ws)).
Proof.
  intros Hw Hs. unfold softmax. rewrite lg_max; auto. 2:{ intros E. rewrite E in Hs. cbn in Hs. lra. }
  pose proof (rmax_pos _ Hs) as Pm. rewrite lg_scaled by auto. apply normalise_scaled; lra.
Qed.
Lemma sumRows_fin N rows : Forall (fun r => List.length r = N) rows -> sumRows N (map (fun r : list R => fin r) rows) = fin (tab N (fun x => Rsum (map (fun r => Rnth r x) rows))).
Proof.
  intros HF. unfold sumRows. unfold tab. rewrite map_map. apply map_ext_in. intros x Hx. apply in_seq in Hx. rewrite map_map.
  rewrite <- asum_fin. f_equal. rewrite map_map. apply map_ext_in. intros r Hr. rewrite Forall_forall in HF. apply HF in Hr.
  rewrite (nth_indep _ NaN (Fin 0)) by (rewrite map_length; lia). apply (map_nth (@Fin R)).
Qed.
Lemma map2_map_l {A B C D} (f : A -> B) (g : B -> C -> D) l r : map2 g (map f l) r = map2 (fun a c => g (f a) c) l r.
Proof. revert r. induction l; intros [|c r]; cbn; auto. now rewrite IHl. Qed.
Lemma map2_map_r {A B C D} (f : A -> B) (g : C -> B -> D) l r : map2 g l (map f r) = map2 (fun c a => g c (f a)) l r.
Proof. revert r. induction l; intros [|c r]; cbn; auto. now rewrite IHl. Qed.
Lemma map2_same {A B} (f : A -> A -> B) l : map2 f l l = map (fun a => f a a) l.
Proof. induction l; cbn; auto. now rewrite IHl. Qed.
Lemma map2_ext_in {A B C} (f g : A -> B -> C) l r : (forall a b, In a l -> In b r -> f a b = g a b) -> map2 f l r = map2 g l r.
Proof.
  revert r. induction l as [|a l IH]; intros [|b r] E; cbn; auto. f_equal; [apply E; now left|]. apply IH. intros; apply E; now right.
Qed.

Section OneModel.
  Variables (M : tmEntry R) (pv : list R) (fs : list (study R R * list R)) (N : nat).
  Hypothesis HM : entryOk M pv.
  Hypothesis HL : List.length fs = List.length (combos M).
  Hypothesis HG : Forall (fun f => st_logEv (fst f) = lg (evidenceOf (fst f)) /\ 0 < evidenceOf (fst f) /\ List.length (snd f) = N /\ Forall (fun x => 0 <= x) (snd f) /\ Rsum (snd f) = 1) fs.
  Notation Z := (evidenceM pv fs).
  Notation ws := (weightsM pv fs).
  Lemma ws_nonneg : nonneg ws.
  Proof.
    pose proof (en_nonneg _ _ HM) as Hp. clear HL HM. unfold weightsM. revert fs HG. induction Hp as [|p pv' hp hps IH]; intros [|f fs'] HG'; cbn; try constructor.
    - inversion HG' as [|? ? g1 g2]; subst. destruct g1 as (_ & ev & _). nra.
    - inversion HG'; subst. apply IH; auto.
  Qed.
  Lemma len_ws : List.length ws = List.length fs.
  Proof. unfold weightsM. rewrite map2_length. pose proof (en_len _ _ HM). lia. Qed.
  Lemma Z_pos : 0 < Z.
  Proof.
    destruct (Rle_lt_or_eq_dec 0 Z (Rsum_nonneg _ ws_nonneg)) as [|E]; auto. exfalso. symmetry in E. apply (Rsum_zero_all _ ws_nonneg) in E.
    assert (Rsum pv = 0); [|pose proof (en_pos _ _ HM); lra]. pose proof (en_len _ _ HM) as L. rewrite <- HL in L. clear HL HM. unfold weightsM in E.
    revert fs HG E L. induction pv as [|p pv' IH]; intros [|f fs'] HG' E L; try discriminate L; auto. cbn in E. inversion E as [|? ? e1 e2]; inversion HG' as [|? ? g1 g2]; subst.
    change (Rsum (p :: pv')) with (p + Rsum pv'). rewrite (IH fs') by (auto; cbn in L; lia). destruct g1 as (_ & ev & _). assert (p = 0) by (apply Rmult_integral in e1; lra). lra.
  Qed.
  Lemma logw_eq : logwOf M (cellsOf fs) = map lg ws.
  Proof.
    unfold logwOf, cellsOf. rewrite (en_pv _ _ HM), map_map, map2_map_r. cbn [fst]. rewrite map2_map_l. unfold weightsM. rewrite map_map2. apply map2_ext_in.
    intros f p If Ip. rewrite Forall_forall in HG. destruct (HG f If) as (El & Pe & _). rewrite El. change (xln (Fin p)) with (lg p). apply lg_add; [lra|].
    pose proof (en_nonneg _ _ HM) as Hp. rewrite Forall_forall in Hp. auto.
  Qed.
  Lemma hev_eq : hevOf M (cellsOf fs) = lg Z.
  Proof. unfold hevOf. rewrite logw_eq. apply lg_logsumexp. apply ws_nonneg. Qed.
  Lemma hpd_eq : hpdOf M (cellsOf fs) = fin (map (fun w => w / Z / Rprod (md_const M)) ws).
  Proof.
    unfold hpdOf. rewrite logw_eq, softmax_lg by (apply ws_nonneg || apply Z_pos). pose proof (Rprod_pos _ (en_const _ _ HM)). rewrite fprod_R, adivs_fin by lra.
    f_equal. unfold rdivs. rewrite map_map. reflexivity.
  Qed.
  Lemma mix_eq : mixOf N M (cellsOf fs) = fin (tab N (mixture (map (fun w => w / Z) ws) (map snd fs))).
  Proof.
    unfold mixOf. rewrite hpd_eq. unfold cellsOf. rewrite map_map, map2_map_l, map2_map_r. cbn [snd]. pose proof (Rprod_pos _ (en_const _ _ HM)) as Pc.
    rewrite map2_map_r.
    assert (E : map2 (fun (f : study R R * list R) (w : R) => map (fun v => xmul (xmul v (Fin (w / Z / Rprod (md_const M)))) (Fin (fprod (md_const M)))) (fin (snd f))) fs ws
               = map (fun r : list R => fin r) (map2 (fun (f : study R R * list R) (w : R) => map (fun v => v * (w / Z)) (snd f)) fs ws)).
    { rewrite map_map2. apply map2_ext_in. intros f w _ _. rewrite !map_map. apply map_ext. intros v. rewrite fprod_R. cbn. f_equal. pose proof Z_pos. field. lra. }
    rewrite E. rewrite sumRows_fin.
    - f_equal. apply tab_ext. intros x Hx. unfold mixture. rewrite map_map2. rewrite map2_map_l, map2_map_r.
      assert (G : forall (l : list (study R R * list R)) u, map2 (fun f w => Rnth (map (fun v => v * (w / Z)) (snd f)) x) l u = map2 (fun w f => w / Z * Rnth (snd f) x) u l).
      { induction l as [|f l IH]; intros [|w u]; cbn; auto. rewrite IH. f_equal. unfold Rnth. rewrite Rmult_comm.
        rewrite <- (map_nth (fun v => v * (w / Z)) (snd f) 0 x). now rewrite Rmult_0_l. }
      now rewrite G.
    - clear E. generalize ws. generalize Z. intros z us. revert us. pose proof HG as HG'. clear HL HG HM. induction HG' as [|f l (_ & _ & g & _) h IH]; intros [|u us]; cbn; constructor; auto. now rewrite map_length.
  Qed.
End OneModel.

(** ** all models *)
Definition goodRuns (N : nat) (M : tmEntry R) (fs : list (study R R * list R)) : Prop :=
  List.length fs = List.length (combos M) /\
  Forall (fun f => st_logEv (fst f) = lg (evidenceOf (fst f)) /\ 0 < evidenceOf (fst f) /\ List.length (snd f) = N /\ Forall (fun x => 0 <= x) (snd f) /\ Rsum (snd f) = 1) fs.
Lemma all_models {B} N (g : tmEntry R -> list cellT -> B) (h : tmEntry R -> list R -> list (study R R * list R) -> B) :
  (forall M pv fs, entryOk M pv -> goodRuns N M fs -> g M (cellsOf fs) = h M pv fs) ->
  forall Ms pvs fss, Forall2 entryOk Ms pvs -> Forall2 (goodRuns N) Ms fss ->
  map2 g Ms (map cellsOf fss) = map2 (fun M x => h M (fst x) (snd x)) Ms (combine pvs fss).
Proof.
  intros E Ms pvs fss HM. revert fss. induction HM as [|M pv Ms pvs hm hms IH]; intros fss HG; inversion HG; subst; auto. cbn. rewrite IH by auto. now rewrite (E M pv).
Qed.
Lemma drop_model {B} (h : list R -> list (study R R * list R) -> B) Ms pvs fss : List.length Ms = List.length pvs ->
  map2 (fun (M : tmEntry R) x => h (fst x) (snd x)) Ms (combine pvs fss) = map2 h pvs fss.
Proof. revert pvs fss. induction Ms as [|M Ms IH]; intros [|pv pvs] fss E; try discriminate; auto. destruct fss as [|fs fss]; cbn; auto. rewrite IH; auto. Qed.

Lemma runs_goodRuns O0 o pvs O d (RO : onlineReady O0 o pvs) fss : tracked O0 o O d -> (om_seglen o <= rawLen d)%nat ->
  Forall2 (runsOf O) (on_models O0) fss -> Forall2 (goodRuns (pointsOn O)) (on_models O0) fss.
Proof.
  intros T Hk. induction 1 as [|M fs Ms fss h1 h2 IH]; constructor; auto. split.
  - symmetry. eapply Forall2_len. exact h1.
  - eapply runs_good; eauto.
Qed.
Lemma runs_css O0 o pvs O d (RO : onlineReady O0 o pvs) a0 : tracked O0 o O d -> (om_seglen o <= rawLen d)%nat -> computePrior (env0 (on_S O0) o) = Ok (a0, om_prior o, false) ->
  forall Ms fss css, Forall2 (runsOf O) Ms fss -> Forall2 (results (env0 (on_S O0) o) o a0 (vol0 (on_S O0)) (formatData d (om_seglen o))) Ms css -> css = map cellsOf fss.
Proof.
  intros T Hk EP Ms fss css H. revert css. induction H as [|M fs Ms fss h1 h2 IH]; intros css HR; inversion HR; subst; auto. cbn. f_equal; auto.
  eapply runs_results; eauto.
Qed.
Lemma Zs_pos N Ms pvs fss : Forall2 entryOk Ms pvs -> Forall2 (goodRuns N) Ms fss -> Forall (fun z => 0 < z) (allEvidences pvs fss).
Proof.
  intros HM. revert fss. induction HM as [|M pv Ms pvs hm hms IH]; intros fss HG; inversion HG as [|? fs ? fss' g gs]; subst; constructor; [|now apply IH].
  destruct g. eapply Z_pos; eauto.
Qed.
Lemma len_Zs N Ms pvs fss : Forall2 entryOk Ms pvs -> Forall2 (goodRuns N) Ms fss -> List.length (allEvidences pvs fss) = List.length Ms.
Proof. intros H1 H2. apply Forall2_len in H1, H2. unfold allEvidences. rewrite map2_length. lia. Qed.
Lemma priors_fin O ps : on_models O <> [] -> modelPriors O ps -> priorsFor O = fin ps /\ List.length ps = List.length (on_models O) /\ Forall (fun p => 0 <= p) ps /\ Rsum ps = 1.
Proof.
  intros Hm. unfold modelPriors, priorsFor. destruct (on_tmPrior O) as [a|].
  - tauto.
  - intros ->. assert (Hn : 0 < INR (List.length (on_models O))) by (apply lt_0_INR; destruct (on_models O); [congruence|cbn; lia]).
    set (n := List.length (on_models O)) in *.
    assert (E : forall k c, map (@Fin R) (repeat c k) = repeat (Fin c) k) by (induction k; intros; cbn; congruence).
    assert (E' : forall k c, Rsum (repeat c k) = INR k * c).
    { induction k as [|k IH]; intros c. cbn. ring. rewrite S_INR. cbn [repeat]. change (Rsum (c :: repeat c k)) with (c + Rsum (repeat c k)). rewrite IH. ring. }
    split; [|split; [now rewrite repeat_length|split]].
    + rewrite E. f_equal. rewrite xdiv_fin. change (fofZ (Z.of_nat n)) with (IZR (Z.of_nat n)). now rewrite <- INR_IZR_INZ. change (fofZ (Z.of_nat n)) with (IZR (Z.of_nat n)). rewrite <- INR_IZR_INZ. lra.
    + apply Forall_forall. intros x I. apply repeat_spec in I as ->. apply Rlt_le. apply Rdiv_lt_0_compat; lra.
    + rewrite E'. field. lra.
Qed.
Lemma nonneg_pos l : Forall (fun z => 0 < z) l -> nonneg l.
Proof. intros HF. eapply Forall_impl; [|exact HF]. cbn. intros; lra. Qed.
Lemma Rsum_pos l : l <> [] -> Forall (fun z => 0 < z) l -> 0 < Rsum l.
Proof. intros Hn HF. destruct HF as [|z l hz HF]; [congruence|]. apply nonneg_pos in HF. apply Rsum_nonneg in HF. change (Rsum (z :: l)) with (z + Rsum l). lra. Qed.
Lemma weighted_pos ps zs : List.length ps = List.length zs -> Forall (fun p => 0 <= p) ps -> 0 < Rsum ps -> Forall (fun z => 0 < z) zs ->
  nonneg (map2 Rmult ps zs) /\ 0 < Rsum (map2 Rmult ps zs).
Proof.
  intros L Hp. revert zs L. induction Hp as [|p ps hp Hp IH]; intros [|z zs] L Hs Hz; try discriminate L; cbn in Hs; try lra. fold (Rsum ps) in Hs.
  inversion Hz; subst. cbn [map2]. change (Rsum (p * z :: map2 Rmult ps zs)) with (p * z + Rsum (map2 Rmult ps zs)).
  assert (Hn : nonneg (map2 Rmult ps zs)).
  { clear - Hp H2. revert zs H2. induction Hp as [|q ps hq Hp IH]; intros [|u zs] H2; cbn; constructor; inversion H2; subst; [nra|]. now apply IH. }
  split. { constructor; [nra|auto]. }
  destruct (Req_dec (Rsum ps) 0) as [E|E].
  - pose proof (Rsum_nonneg _ Hn). assert (0 < p) by lra. nra.
  - pose proof (Rsum_nonneg _ Hp). destruct (IH zs) as [_ i2]; auto; [lra|]. nra.
Qed.
Lemma div_pos zs us : Forall (fun z => 0 < z) zs -> Forall (fun z => 0 < z) us -> Forall (fun z => 0 < z) (map2 Rdiv zs us).
Proof. intros Hz. revert us. induction Hz; intros [|u us] Hu; cbn; constructor; inversion Hu; subst; auto. apply Rdiv_lt_0_compat; lra. Qed.
Lemma lg_minus a b : 0 < a -> 0 < b -> xlsub (F := R) (lg a) (lg b) = lg (a / b).
Proof.
  intros Ha Hb. assert (0 < a / b) by (apply Rdiv_lt_0_compat; lra). rewrite !lg_pos by auto. cbn. f_equal. unfold Rdiv. rewrite ln_mult, ln_Rinv by (auto; now apply Rinv_0_lt_compat). reflexivity.
Qed.
Lemma local_lg zs olds ps : List.length ps = List.length zs -> List.length olds = List.length zs -> Forall (fun p => 0 <= p) ps -> Forall (fun z => 0 < z) zs -> Forall (fun z => 0 < z) olds ->
  map2 (fun (z u : xnum R) => xladd (F := R) z u) (map2 (fun a b => xlsub (F := R) a b) (map lg zs) (map lg olds)) (map (fun p => xln p) (fin ps)) = map lg (map2 Rmult ps (map2 Rdiv zs olds)).
Proof.
  revert olds ps. induction zs as [|z zs IH]; intros [|u olds] [|p ps] L1 L2 Hp Hz Ho; try discriminate; auto. inversion Hp; inversion Hz; inversion Ho; subst. cbn [map map2]. rewrite IH by auto.
  f_equal. change (xln (Fin p)) with (lg p). rewrite lg_minus by lra. assert (0 < z / u) by (apply Rdiv_lt_0_compat; lra). rewrite lg_add by lra. f_equal. ring.
Qed.

Section Real.
  Variables (O0 : online R R) (o : om R) (pvs : list (list R)).
  Hypothesis RO : onlineReady O0 o pvs.
  Variables (O : online R R) (d : raw R) (fss : list (list (study R R * list R))).
  Hypothesis T : tracked O0 o O d.
  Hypothesis Hk : (om_seglen o <= rawLen d)%nat.
  Hypothesis HF : Forall2 (runsOf O) (on_models O0) fss.
  Notation Ms := (on_models O0).
  Notation N := (pointsOn O).
  Notation Zs := (allEvidences pvs fss).

  Lemma is_current : current O0 o (formatData d (om_seglen o)) O /\ formatData d (om_seglen o) <> [].
  Proof.
    pose proof (tk_state _ _ _ _ T) as C. destruct (formatData d (om_seglen o)) as [|s segs] eqn:Ed; [|split; [exact C|discriminate]].
    apply (f_equal (@List.length _)) in Ed. rewrite format_length in Ed. pose proof (or_seg _ _ _ RO). cbn in Ed. lia.
  Qed.
  Lemma points_same : e_size (env0 (on_S O0) o) = N.
  Proof. destruct (tk_setup _ _ _ _ T) as (_ & b2 & _). unfold pointsOn, e_size, env0; cbn [e_shape]; now rewrite b2. Qed.
  Let HM := or_entries _ _ _ RO.
  Lemma HGR : Forall2 (goodRuns N) Ms fss.
  Proof. eapply runs_goodRuns; eauto. Qed.
  Lemma Ms_pvs : List.length Ms = List.length pvs.
  Proof. eapply Forall2_len; eauto. Qed.
  Lemma hevs_eq : map2 hevOf Ms (map cellsOf fss) = map lg Zs.
  Proof.
    rewrite (all_models N hevOf (fun _ pv fs => lg (evidenceM pv fs)) (fun M pv fs hm hg => hev_eq M pv fs N hm (proj2 hg)) Ms pvs fss HM HGR).
    rewrite (drop_model (fun pv fs => lg (evidenceM pv fs))) by apply Ms_pvs. unfold allEvidences. now rewrite map_map2.
  Qed.
  Lemma mixes_eq : map2 (mixOf N) Ms (map cellsOf fss) = map (fun r : list R => fin r) (map2 (mixM N) pvs fss).
  Proof.
    rewrite (all_models N (mixOf N) (fun _ pv fs => fin (mixM N pv fs)) (fun M pv fs hm hg => mix_eq M pv fs N hm (proj1 hg) (proj2 hg)) Ms pvs fss HM HGR).
    rewrite (drop_model (fun pv fs => fin (mixM N pv fs))) by apply Ms_pvs. now rewrite map_map2.
  Qed.
  Lemma Zs_good : Forall (fun z => 0 < z) Zs /\ Zs <> [] /\ List.length Zs = List.length Ms /\ nonneg Zs /\ 0 < Rsum Zs.
  Proof.
    pose proof (Zs_pos N Ms pvs fss HM HGR) as P. pose proof (len_Zs N Ms pvs fss HM HGR) as L.
    assert (Zs <> []) by (intros E; rewrite E in L; pose proof (or_models _ _ _ RO) as X; apply X; symmetry in L; now apply length_zero_iff_nil in L).
    repeat (split; [auto; fail|]). split; [now apply nonneg_pos|now apply Rsum_pos].
  Qed.

  Lemma real_results ps : modelPriors O0 ps ->
    on_logEvs O = map (map (fun f => st_logEv (fst f))) fss /\
    on_posts O = map (map (fun f => fin (snd f))) fss /\
    on_hyperEvs O = map lg Zs /\
    on_hpd O = map2 (fun M x => fin (map (fun w => w / evidenceM (fst x) (snd x) / Rprod (md_const M)) (weightsM (fst x) (snd x)))) Ms (combine pvs fss) /\
    on_tmPosts O = map (fun r : list R => fin r) (map2 (mixM N) pvs fss) /\
    on_tmd O = fin (rdivs Zs (Rsum Zs)) /\
    on_marg O = Some (fin (tab N (mixture (rdivs Zs (Rsum Zs)) (map2 (mixM N) pvs fss)))) /\
    st_logEv (on_S O) = lg (Rsum (map2 Rmult ps Zs)) /\ 0 < Rsum (map2 Rmult ps Zs).
  Proof.
    intros MP. destruct (priors_fin _ _ (or_models _ _ _ RO) MP) as (q1 & q2 & q3 & q4). destruct is_current as [C Hn].
    destruct (cu_results _ _ _ _ C) as (a0 & css & olds & c1 & c2 & c3 & c4 & c5 & c6 & c7 & c8 & c9 & c10 & c11 & c12).
    pose proof (runs_css O0 o pvs O d RO a0 T Hk c1 _ _ _ HF c2) as ->. clear c2 c12.
    destruct Zs_good as (z1 & z2 & z3 & z4 & z5). rewrite points_same in c7, c9. rewrite hevs_eq in c5, c8, c10. rewrite mixes_eq in c7, c9.
    assert (Lz : List.length ps = List.length Zs) by congruence. rewrite softmax_lg in c8 by auto.
    destruct (weighted_pos ps Zs Lz q3 ltac:(lra) z1) as [w1 w2].
    split. { rewrite c3, map_map. apply map_ext. intros fs. unfold cellsOf. rewrite map_map. reflexivity. }
    split. { rewrite c4, map_map. apply map_ext. intros fs. unfold cellsOf. rewrite map_map. reflexivity. }
    split; [assumption|]. split.
    { rewrite c6. apply (all_models N hpdOf (fun M pv fs => fin (map (fun w => w / evidenceM pv fs / Rprod (md_const M)) (weightsM pv fs)))); auto.
      - intros M pv fs hm [hg1 hg2]. eapply hpd_eq; eauto.
      - apply HGR. }
    split; [assumption|]. split; [assumption|]. split.
    { rewrite c9, c8. f_equal. rewrite map2_map_l, map2_map_r.
      assert (E : forall (l : list (list R)) u, map2 (fun (p : list R) (q : R) => map (fun v => xmul v (Fin q)) (fin p)) l u = map (fun r : list R => fin r) (map2 (fun p q => map (fun v => v * q) p) l u)).
      { induction l as [|p l IH]; intros [|q u]; cbn; auto. rewrite IH. f_equal. rewrite !map_map. reflexivity. }
      rewrite E, sumRows_fin.
      - f_equal. apply tab_ext. intros x Hx. unfold mixture. rewrite map_map2. f_equal. clear. generalize (rdivs Zs (Rsum Zs)) as u. generalize (map2 (mixM N) pvs fss) as l.
        induction l as [|r l IH]; intros [|q u]; cbn; auto. rewrite IH. f_equal. unfold Rnth. rewrite Rmult_comm. rewrite <- (map_nth (fun v => v * q) r 0 x). now rewrite Rmult_0_l.
      - clear. generalize (rdivs Zs (Rsum Zs)) as u. assert (G : Forall (fun r => List.length r = N) (map2 (mixM N) pvs fss)).
        { generalize fss. induction pvs as [|pv l IH]; intros [|fs f]; cbn; constructor; auto. apply tab_length. }
        revert G. generalize (map2 (mixM N) pvs fss) as l. induction l as [|r l IH]; intros G [|q u]; cbn; constructor; inversion G; subst; auto. now rewrite map_length. }
    split; [|assumption]. rewrite c10, q1.
    assert (E : map2 (fun h p => xladd (F := R) h (xln p)) (map lg Zs) (fin ps) = map lg (map2 Rmult ps Zs)).
    { clear - z1 q3 Lz. generalize dependent Zs. induction q3 as [|p ps hp hps IH]; intros [|z zs] z1 L; try discriminate; auto. cbn [map map2]. inversion z1; subst.
      rewrite IH by auto. f_equal. change (xln (Fin p)) with (lg p). rewrite lg_add by lra. f_equal. ring. }
    rewrite E. apply lg_logsumexp. exact w1.
  Qed.
End Real.

Section Local.
  Variables (O0 : online R R) (o : om R) (pvs : list (list R)).
  Hypothesis RO : onlineReady O0 o pvs.
  Variables (O : online R R) (d : raw R) (fss : list (list (study R R * list R))).
  Hypothesis T : tracked O0 o O d.
  Hypothesis Hk : (om_seglen o <= rawLen d)%nat.
  Hypothesis HF : Forall2 (runsOf O) (on_models O0) fss.
  Notation Ms := (on_models O0).
  Notation Zs := (allEvidences pvs fss).
  Lemma real_local ps Zo : modelPriors O0 ps -> List.length Zo = List.length Zs -> Forall (fun z => 0 < z) Zo ->
    match removelast (formatData d (om_seglen o)) with
    | [] => Zo = map (fun _ => 1) Zs
    | before => exists O1 d1 fss1, tracked O0 o O1 d1 /\ (om_seglen o <= rawLen d1)%nat /\ formatData d1 (om_seglen o) = before /\
        Forall2 (runsOf O1) Ms fss1 /\ Zo = allEvidences pvs fss1
    end ->
    on_ltmd O = fin (rdivs (map2 Rmult ps (map2 Rdiv Zs Zo)) (Rsum (map2 Rmult ps (map2 Rdiv Zs Zo)))).
  Proof.
    intros MP LZ PZ HZ. destruct (priors_fin _ _ (or_models _ _ _ RO) MP) as (q1 & q2 & q3 & q4). destruct (is_current _ _ _ RO _ _ T Hk) as [C Hn].
    destruct (cu_results _ _ _ _ C) as (a0 & css & olds & c1 & c2 & c3 & c4 & c5 & c6 & c7 & c8 & c9 & c10 & c11 & c12).
    pose proof (runs_css O0 o pvs O d RO a0 T Hk c1 _ _ _ HF c2) as ->.
    destruct (Zs_good _ _ _ RO _ _ _ T Hk HF) as (z1 & z2 & z3 & z4 & z5).
    assert (Lz : List.length ps = List.length Zs) by congruence.
    assert (Eo : olds = map lg Zo).
    { destruct (removelast (formatData d (om_seglen o))) as [|s before] eqn:Eb.
      - subst olds Zo. rewrite map_map. rewrite <- z3. generalize Zs. clear. assert (E1 : lg 1 = Fin 0) by (rewrite lg_pos by lra; now rewrite ln_1). rewrite E1. induction l as [|z l IH]; cbn; auto. f_equal; exact IH.
      - destruct c12 as (css' & r1 & ->). destruct HZ as (O1 & d1 & fss1 & t1 & t2 & t3 & t4 & ->). rewrite <- t3 in r1.
        pose proof (runs_css O0 o pvs O1 d1 RO a0 t1 t2 c1 _ _ _ t4 r1) as ->. eapply hevs_eq; eauto. }
    rewrite c11, q1. subst olds.
    assert (E : localsOf Ms (map cellsOf fss) (map lg Zo) (fin ps) = map lg (map2 Rmult ps (map2 Rdiv Zs Zo))).
    { rewrite <- local_lg by auto. unfold localsOf, localOf. rewrite <- (hevs_eq _ _ _ RO _ _ _ T Hk HF).
      assert (L1 : List.length (map lg Zo) = List.length Ms) by (rewrite map_length; congruence).
      assert (L2 : List.length (fin ps) = List.length Ms) by (rewrite map_length; congruence).
      assert (L3 : List.length (map cellsOf fss) = List.length Ms) by (rewrite map_length; symmetry; eapply Forall2_len; eauto).
      revert L1 L2 L3. generalize (map lg Zo) (fin ps) (map cellsOf fss). generalize Ms. clear.
      induction l as [|M Ms IH]; intros [|z zs] [|p ps] [|c cs] L1 L2 L3; try discriminate; auto. cbn. rewrite IH by auto. reflexivity. }
    rewrite E. apply softmax_lg.
    - apply weighted_pos; auto; [rewrite map2_length; lia|lra|]. apply div_pos; auto.
    - apply weighted_pos; auto; [rewrite map2_length; lia|lra|]. apply div_pos; auto.
  Qed.
End Local.

(** ** steps succeed *)
Section Total.
  Variables (O0 : online R R) (o : om R) (pvs : list (list R)).
  Hypothesis RO : onlineReady O0 o pvs.
  Hypothesis RU : onlineRunnable O0 o.
  Notation S0 := (on_S O0).
  Notation e := (env0 S0 o).
  Notation Ms0 := (on_models O0).
  Notation k := (om_seglen o).
  Lemma prior_total : exists a0, computePrior e = Ok (a0, om_prior o, false).
  Proof.
    pose proof (or_prior _ _ _ RO) as P. pose proof (ou_sym _ _ RU) as Q. unfold computePrior. cbn [e_prior env0 e_names]. destruct (om_prior o); try contradiction; eauto.
    rewrite Q, Nat.eqb_refl. eauto.
  Qed.
  Lemma priors_len : List.length (priorsFor O0) = List.length Ms0.
  Proof. unfold priorsFor. pose proof (ou_prior _ _ RU). destruct (on_tmPrior O0); auto. now rewrite repeat_length. Qed.
  Lemma advp_total s prior m c : runnable (om_names o) m -> exists c2, advp e o s prior m c = Ok c2.
  Proof.
    intros Rm. unfold advp, adv. destruct prior; eauto.
    destruct (Good.step_total e (fofZ (-1)) (fofZ (-1)) (fadd (fofZ (-1)) f1) m Rm (ou_lat _ _ RU) f0 (snd c)) as (q & Eq).
    unfold computeForwardPrior. rewrite Eq. cbn [bind]. eauto.
  Qed.
  Lemma steps_total s prior : forall Ms css, Forall (fun M => Forall (fun row => runnable (om_names o) (withValues (md_tm M) row)) (combos M)) Ms ->
    exists css2, stepsTo e o s prior Ms css css2.
  Proof.
    intros Ms css HR. unfold stepsTo. revert css. induction HR as [|M Ms hr hrs IH]; intros [|cs css]; cbn [combine]; try (exists []; constructor).
    destruct (IH css) as (css2 & h2).
    assert (G : exists cs2, stepTo e o s prior M cs cs2).
    { unfold stepTo. clear - RU hr. revert cs. induction hr as [|row rows h hs IH]; intros [|c cs]; cbn [combine]; try (exists []; constructor).
      destruct (IH cs) as (cs2 & i). destruct (advp_total s prior _ c h) as (c2 & Ec). exists (c2 :: cs2). constructor; auto. }
    destruct G as (cs2 & h1). exists (cs2 :: css2). constructor; auto.
  Qed.
  Lemma update_total O d segs : sameSetup S0 (on_S O) -> st_raw (on_S O) = d -> Forall2 sameEntry Ms0 (on_models O) ->
    (match segs with [] => on_first O = true /\ on_tmPrior O = on_tmPrior O0 | _ => current O0 o segs O end) ->
    exists O', update O o = Ok O'.
  Proof.
    intros SS Er HM Cu. unfold update. rewrite (env_same O0 o _ _ _ SS).
    assert (HL : List.length (on_models O) = List.length Ms0) by (symmetry; eapply Forall2_len; eauto).
    destruct segs as [|s0 segs].
    - destruct Cu as [C1 C2]. rewrite C1. destruct prior_total as (a0 & ->). cbn [bind]. unfold initialise at 1. cbn [on_tmPrior]. rewrite C2, HL.
      replace (match on_tmPrior O0 with Some p => Some p | None => _ end) with (Some (priorsFor O0)) by (unfold priorsFor; destruct (on_tmPrior O0); auto).
      rewrite with_prior_e. cbn [initialise on_models on_logEvs on_posts on_hyperEvs].
      rewrite HL, (same_tmc O0 _ HM (fun j => repeat (xladd (F := R) (Fin l0) (xln (Fin (e_vol e)))) j)), (same_tmc O0 _ HM (fun j => repeat (repeat (Fin f0) (e_size e)) j)).
      replace (map (fun M => repeat (xladd (F := R) (Fin l0) (xln (Fin (e_vol e)))) (tmc M)) Ms0) with (map (map fst) (blank O0 o))
        by (unfold blank; rewrite map_map; apply map_ext; intros; apply map_fst_repeat).
      replace (map (fun M => repeat (repeat (Fin f0) (e_size e)) (tmc M)) Ms0) with (map (map snd) (blank O0 o))
        by (unfold blank; rewrite map_map; apply map_ext; intros; apply map_snd_repeat).
      rewrite Er. destruct (steps_total (lastSegment k d) (Some a0) Ms0 (blank O0 o) (ou_runnable _ _ RU)) as (css2 & ST).
      destruct (models_total e o (lastSegment k d) (Some a0) Ms0 pvs _ _ css2 (repeat (Fin 0) (List.length Ms0)) (priorsFor O0) (or_entries _ _ _ RO) HM (combos_fits O0 _ (blank_ok O0 o))
        ltac:(now rewrite repeat_length) priors_len ST) as (outs & EM). 
      eexists. match goal with |- bind ?x _ = _ => replace x with (Ok outs) end. reflexivity.
    - destruct Cu as [C1 C2 (a0 & css & olds & EP & HR & c1 & c2 & c3 & c4 & c5 & c6 & c7 & c8 & c9 & c10)]. rewrite C1. cbn [bind]. rewrite C2.
      rewrite with_prior_e. rewrite c1, c2, c3, Er.
      assert (FI0 : Forall2 (fun M (cs : list cellT) => List.length cs = List.length (combos M)) Ms0 css).
      { clear - HR. induction HR; constructor; auto. eapply results_length; eauto. }
      destruct (steps_total (lastSegment k d) None Ms0 css (ou_runnable _ _ RU)) as (css2 & ST).
      destruct (models_total e o (lastSegment k d) None Ms0 pvs _ _ css2 (map2 hevOf Ms0 css) (priorsFor O0) (or_entries _ _ _ RO) HM FI0
        ltac:(rewrite map2_length; apply Forall2_len in FI0; lia) priors_len ST) as (outs & EM).
      eexists. match goal with |- bind ?x _ = _ => replace x with (Ok outs) end. reflexivity.
  Qed.
  Lemma receive_ok0 d : point d -> receive O0 d = Ok (with_ts O0 (set_data S0 d [f0]) (Some []) false).
  Proof.
    intros Pd. unfold receive. destruct (on_models O0) as [|M l] eqn:EM; [destruct (or_models _ _ _ RO EM)|]. cbn [bind]. rewrite (or_empty _ _ _ RO). cbn [Nat.eqb].
    pose proof (or_unique _ _ _ RO) as ND. rewrite hasDup_NoDup by auto.
    unfold checkConsistency. cbn [set_data st_raw st_om st_tm]. red in Pd. rewrite Pd. cbn [Nat.eqb]. rewrite (or_om _ _ _ RO).
    destruct (or_tm _ _ _ RO) as (M1 & I & ->).
    assert (NDM : NoDup (allNames (md_tm M1))).
    { destruct (In_nth_error _ _ I) as (i & N1). pose proof (or_entries _ _ _ RO) as HE.
      assert (exists pv, nth_error pvs i = Some pv) as (pv & N2).
      { destruct (nth_error pvs i) eqn:X; eauto. apply nth_error_None in X. apply Forall2_len in HE. assert (i < List.length (on_models O0))%nat by (apply nth_error_Some; congruence). lia. }
      assert (en : entryOk M1 pv).
      { clear - HE N1 N2. revert i N1 N2. induction HE as [|? ? ? ? h hs IH]; intros [|i] N1 N2; try discriminate; cbn in *; [congruence|eauto]. }
      apply (wellNamed_parts _ (en_named _ _ en)). }
    rewrite hasDup_NoDup by auto. reflexivity.
  Qed.
  Lemma first_total d : point d -> exists O', onlineStep O0 d = Ok O'.
  Proof.
    intros Pd. unfold onlineStep. rewrite receive_ok0 by auto. cbn [bind]. cbn [with_ts on_S set_data st_om st_rawTs st_raw on_ts on_isArr]. rewrite (or_om _ _ _ RO).
    destruct (Nat.ltb _ _); [eauto|]. apply (update_total _ d []).
    - repeat split.
    - reflexivity.
    - cbn [with_ts on_models]. pose proof (or_entries _ _ _ RO) as HE. clear - HE. induction HE; constructor; auto. eapply sameEntry_refl; eauto.
    - split; [exact (or_first _ _ _ RO)|reflexivity].
  Qed.
  Lemma next_total O d0 d d' : tracked O0 o O d0 -> rawAppend d0 d = Ok d' -> point d -> exists O', onlineStep O d = Ok O'.
  Proof.
    intros T Ed Pd. pose proof T as [s1 s2 s3 s4 s5 s6 s7 s8 s9].
    assert (ER : receive O d = Ok (with_S O (set_data (on_S O) d' (map INR (seq 0 (rawLen d0)) ++ [fadd (last (map INR (seq 0 (rawLen d0))) f0) f1])))).
    { unfold receive. destruct (on_models O) as [|M l] eqn:EM.
      { inversion s4 as [X|]. destruct (or_models _ _ _ RO). now symmetry. }
      cbn [bind]. rewrite s2. destruct (Nat.eqb_spec (rawLen d0) 0); [lia|]. rewrite Ed. cbn [bind]. rewrite s5.
      destruct (map INR (seq 0 (rawLen d0))) as [|t ts] eqn:Et; [|reflexivity]. apply map_eq_nil in Et. destruct (rawLen d0); [lia|discriminate]. }
    unfold onlineStep. rewrite ER. cbn [bind]. cbn [with_S on_S set_data st_om st_rawTs st_raw on_ts on_isArr]. pose proof s1 as (b1 & b2 & b3 & b4 & b5 & b6 & b7). rewrite b1, (or_om _ _ _ RO).
    destruct (Nat.ltb _ _); [eauto|]. rewrite s6, s7. apply (update_total _ d' (formatData d0 k)).
    - repeat split; auto.
    - reflexivity.
    - exact s4.
    - destruct (formatData d0 k); auto. destruct s9 as [c1 c2 c3]. constructor; auto.
  Qed.
  Lemma append_total d0 d : sameForm d0 d -> exists d', rawAppend d0 d = Ok d'.
  Proof.
    destruct d0 as [x|x], d as [y|y]; cbn; try contradiction; intros HF; eauto.
    replace (forallb _ y) with true; eauto. symmetry. apply forallb_forall. intros r I. rewrite Forall_forall in HF. apply Nat.eqb_eq. auto.
  Qed.
  Lemma sameForm_app d0 d d' c : (0 < rawLen d0)%nat -> rawAppend d0 d = Ok d' -> sameForm d0 c -> sameForm d' c.
  Proof.
    destruct d0 as [x|x], d as [y|y]; cbn; intros L E; try discriminate E.
    - inversion E; subst. destruct c; auto.
    - destruct (forallb _ _); [|discriminate]. inversion E; subst. destruct c as [z|z]; auto. cbn. destruct x; [cbn in L; lia|]. auto.
  Qed.
  Lemma stream_total : forall ds O d0, tracked O0 o O d0 -> Forall point ds -> Forall (sameForm d0) ds -> exists O', onlineSteps O ds = Ok O'.
  Proof.
    induction ds as [|d ds IH]; intros O d0 T HP HS; [exists O; reflexivity|]. inversion HP as [|? ? hp1 hp2]; inversion HS as [|? ? hs1 hs2]; subst.
    destruct (append_total _ _ hs1) as (d' & Ed). destruct (next_total _ _ _ _ T Ed hp1) as (O1 & E1). destruct (next_step _ _ _ RO _ _ _ _ T hp1 E1) as (d2 & Ed2 & T2).
    rewrite Ed in Ed2. inversion Ed2; subst d2. destruct (IH O1 d' T2 hp2) as (O' & E').
    - eapply Forall_impl; [|exact hs2]. intros c. eapply sameForm_app; eauto. apply (tk_len _ _ _ _ T).
    - exists O'. cbn [onlineSteps]. rewrite E1. exact E'.
  Qed.
End Total.
