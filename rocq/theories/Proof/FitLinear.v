(** The loops of [fit] for linear transition models: forward vectors, backward vectors, evidence. *)
From Coq Require Import List ZArith Reals Lra Lia Arith Bool String.
From Verif Require Import Base.Num Base.Exn Base.Arr Base.RSum Base.Lift Model.Helper Model.Tm Model.Study
  Spec.Kernel Spec.Hmm Proof.Gauss Proof.KernelProof Proof.HmmProof.
Import ListNotations.
Local Open Scope R_scope.

Definition nonneg (l : list R) : Prop := Forall (fun x => 0 <= x) l.

Lemma jnt_sum N trans Ls : forall a i k, (k < List.length Ls)%nat ->
  rsum N (jnt N trans a i Ls k) = tot N trans a i Ls.
Proof.
  induction Ls as [|L Ls IH]; intros a i k Hk; [simpl in Hk; lia|].
  destruct k as [|k]; [reflexivity|]. cbn [jnt]. rewrite IH by (simpl in Hk; lia).
  rewrite tot_push; [reflexivity|]. intros ->. simpl in Hk. lia.
Qed.

Lemma jnt_scal N trans c k : forall Ls a i x, jnt N trans (fun y => c * a y) i Ls k x = c * jnt N trans a i Ls k x.
Proof.
  intros Ls a i x.
  transitivity (jnt N trans (fun y => rsum 1 (fun z => (fun _ => c) z * (fun _ => a) z y)) i Ls k x).
  - apply jnt_ext_all. intros y. simpl. lra.
  - rewrite (jnt_linear N trans k Ls i (fun _ => c) (fun _ => a) 1 x). cbn [rsum]. cbv beta. lra.
Qed.

Section Loops.
  Variable e : env R.
  Variable o : om R.
  Variable m : tm R.
  Variable rho : nat -> R.
  Variable tsf : nat -> R.
  Notation N := (e_size e).
  Notation sp := (spaceOf e rho).
  Notation vol := (e_vol e).
  Hypothesis Hdim : List.length (e_names e) = List.length (e_shape e).
  Hypothesis Hlat : List.length (e_lat e) = List.length (e_shape e).
  Hypothesis Hlatpos : Forall (fun l => 0 < l) (e_lat e).
  Hypothesis Html : e_tmlat e = e_lat e.
  Hypothesis Hrho_pos : forall y, (y < N)%nat -> 0 <= rho y.
  Hypothesis Hrho_sum : rsum N rho = 1.
  Hypothesis Hreset : resetPrior e = fin (tab N rho).
  Hypothesis Hlin : linear (e_names e) m.

  Notation K := (fun i => kernel sp m (tsf i)).
  Notation tot := (tot N K).
  Notation jnt := (jnt N K).
  Notation nxt := (nxt N K).
  Notation push := (push N K).

  (** segment s has the finite likelihood values l *)
  Definition hasLik (s : seg R) (l : list R) : Prop :=
    processedPdf o N (e_grid e) s = fin l /\ List.length l = N /\ nonneg l.

  Definition mass (i : nat) : R := massAfter vol m (tsf i) 1.
  Fixpoint masses (i n : nat) : R := match n with O => 1 | S n' => mass i * masses (S i) n' end.

  Lemma mass_pos i : 0 < mass i.
  Proof. apply massAfter_pos; [|lra]. now apply vol_pos. Qed.
  Lemma masses_pos n : forall i, 0 < masses i n.
  Proof. induction n; intros; simpl; [lra|]. apply Rmult_lt_0_compat; auto. apply mass_pos. Qed.

  Lemma K_stoch i : stochastic N (K i).
  Proof. now apply kernel_stoch. Qed.

  Definition vecs (Ls : list (list R)) : list (nat -> R) := map Rnth Ls.

  (** forward vectors as reals *)
  Record fstep (a : list R) (L : list R) (i : nat) (a2 a3 : list R) (norm : R) : Prop := {
    fs_norm : norm = Rsum (rmul a L);
    fs_a2 : a2 = rdivs (rmul a L) norm;
    fs_a3 : a3 = map (fun x => mass i * x) (kapply N a2 (K i))
  }.

  Lemma tot_norm a i L Ls : List.length a = N -> List.length L = N ->
    tot (Rnth a) i (Rnth L :: Ls) = rsum N (fun x => Rnth (rmul a L) x * nxt i Ls x).
  Proof.
    intros La LL. simpl. apply rsum_ext. intros x _. unfold nxt. rewrite Rnth_rmul by congruence. reflexivity.
  Qed.

  Definition factor (alpha : list R) (a : list R) (i : nat) (Ls1 : list (nat -> R)) (k : nat) : Prop :=
    exists C, 0 < C /\ forall Ls2 x, (x < N)%nat ->
      jnt (Rnth a) i (Ls1 ++ Ls2) k x = C * Rnth alpha x * nxt (i + k) Ls2 x.

  Lemma fwd_main : forall segs Ls, Forall2 hasLik segs Ls -> forall ts a i alias lev,
    List.length a = N -> nonneg a ->
    (List.length segs <= List.length ts)%nat -> (forall j, (j < List.length ts)%nat -> nth j ts 0 = tsf (i + j)%nat) ->
    (forall p, overwrite alias (e_prior e) p = e_prior e) ->
    exists w, fwdLoop e o m segs ts (fin a) alias (e_prior e) lev = Ok w /\ fw_prior w = e_prior e /\
      ((fw_stop w = true /\ fw_logEv w = NInf /\ tot (Rnth a) i (vecs Ls) = 0 /\ (List.length (fw_steps w) < List.length segs)%nat)
       \/ (fw_stop w = false /\ 0 < tot (Rnth a) i (vecs Ls) /\
           fw_logEv w = xladd lev (Fin (ln (tot (Rnth a) i (vecs Ls) * masses i (List.length segs - 1)))) /\
           List.length (fw_steps w) = List.length segs)) /\
      (forall k x, nth_error (fw_steps w) k = Some x -> exists alpha norm,
         x = (fin alpha, Fin norm) /\ 0 < norm /\ List.length alpha = N /\ nonneg alpha /\ Rsum alpha = 1 /\
         factor alpha a i (vecs (firstn (S k) Ls)) k /\
         (forall x, (x < N)%nat -> Rnth (nth k Ls []) x = 0 -> Rnth alpha x = 0)) /\
      (fw_stop w = false -> Forall (fun s => exists c, snd s = Fin c /\ 0 < c) (fw_steps w) /\
        Rprod (map (fun s => match snd s with Fin c => c | _ => 0 end) (fw_steps w))
          = tot (Rnth a) i (vecs Ls) * masses i (List.length segs - 1)).
  Proof.
    intros segs Ls HF. induction HF as [|s L segs Ls (EL & LL & PL) HF IH]; intros ts a i alias lev La Pa Hts Hnth Hov.
    - cbn [fwdLoop]. eexists. split; [reflexivity|]. cbn [fw_prior fw_stop fw_logEv fw_steps].
      split; [reflexivity|]. split; [|split].
      + right. split; [reflexivity|]. cbn. rewrite Rmult_1_r, ln_1. split; [lra|]. split; auto.
        destruct lev; cbn; auto. now rewrite Rplus_0_r.
      + intros [|k] x; discriminate.
      + intros _. split; [constructor|]. cbn. lra.
    - cbn [fwdLoop]. rewrite EL, amul_fin, asum_fin.
      set (n := Rsum (rmul a L)).
      assert (P1 : nonneg (rmul a L)) by (apply nonneg_rmul; auto).
      assert (L1 : List.length (rmul a L) = N) by (rewrite rmul_length; congruence).
      assert (n0 : 0 <= n) by now apply Rsum_nonneg.
      destruct (xltb (Fin f0) (Fin n)) eqn:En.
      + apply xltb_fin in En. cbn in En.
        rewrite adivs_fin by lra.
        set (a2 := rdivs (rmul a L) n).
        assert (L2 : List.length a2 = N) by (unfold a2; rewrite rdivs_length; auto).
        assert (P2 : nonneg a2) by (apply nonneg_rdivs; auto).
        assert (S2 : Rsum a2 = 1) by (unfold a2; rewrite Rsum_rdivs; fold n; field; lra).
        destruct ts as [|t ts]; [simpl in Hts; lia|].
        assert (Et : t = tsf i). { pose proof (Hnth O ltac:(simpl; lia)) as E0. cbn in E0. now rewrite Nat.add_0_r in E0. }
        rewrite !Hov.
        assert (Ewp : with_prior e (e_prior e) = e) by (destruct e; reflexivity). rewrite Ewp.
        unfold computeForwardPrior. rewrite (step_linear e rho Hdim Hlat Hlatpos Html Hrho_pos Hrho_sum Hreset m t) by (auto; rewrite S2; lra).
        cbn [bind]. rewrite S2. rewrite Et.
        set (a3 := map (fun x => massAfter (e_vol e) m (tsf i) 1 / 1 * x) (kapply N a2 (kernel sp m (tsf i)))).
        assert (E3 : a3 = map (fun x => mass i * x) (kapply N a2 (K i))).
        { unfold a3, mass. apply map_ext. intros x. field. }
        assert (L3 : List.length a3 = N) by (rewrite E3, map_length; apply kapply_length).
        assert (P3 : nonneg a3).
        { rewrite E3. apply Forall_map. eapply Forall_impl; [|apply kapply_nonneg; [apply K_stoch|exact P2]].
          cbn. intros x Hx. apply Rmult_le_pos; auto. left. apply mass_pos. }
        assert (V3 : forall y, (y < N)%nat -> Rnth a3 y = mass i / n * push i (Rnth (rmul a L)) y).
        { intros y Hy. rewrite E3. unfold Rnth at 1. rewrite <- (Rmult_0_r (mass i)), (map_nth (fun x => mass i * x)).
          change (mass i * Rnth (kapply N a2 (K i)) y = mass i / n * push i (Rnth (rmul a L)) y).
          unfold kapply. rewrite Rnth_tab by auto. unfold push. unfold Rdiv. rewrite Rmult_assoc. f_equal.
          rewrite <- rsum_scal. apply rsum_ext. intros x _. unfold a2. rewrite Rnth_rdivs. unfold Rdiv. ring. }
        edestruct (IH ts a3 (S i) (alias && returnsArgument m (tsf i)) (xladd lev (xln (Fin n)))) as (w & Ew & Ep & Hcase & Hsteps & Hprod); auto.
        * simpl in Hts. lia.
        * intros j Hj. specialize (Hnth (S j) ltac:(simpl; lia)). cbn in Hnth. rewrite Hnth. f_equal. lia.
        * intros p. destruct alias; cbn [andb]; [|now destruct (e_prior e)].
          destruct (returnsArgument m (tsf i)); [apply Hov|now destruct (e_prior e)].
        * rewrite Ew. cbn [fw_cons bind]. eexists. split; [reflexivity|]. cbn [fw_prior fw_stop fw_logEv fw_steps].
          split; [exact Ep|].
          pose proof (mass_pos i) as Mi.
          assert (Tot : tot (Rnth a) i (vecs (L :: Ls))
                        = n * match Ls with [] => 1 | _ => tot (Rnth a3) (S i) (vecs Ls) / mass i end).
          { unfold vecs. cbn [map]. fold (vecs Ls). rewrite tot_norm by auto.
            destruct Ls as [|L' Ls].
            - cbn. rewrite (rsum_ext N _ (Rnth (rmul a L))) by (intros; unfold HmmProof.nxt; cbn; lra).
              rewrite <- L1 at 1. rewrite <- Rsum_rnth. fold n. lra.
            - rewrite <- (HmmProof.tot_push N K (vecs (L' :: Ls)) i (Rnth (rmul a L))) by discriminate.
              rewrite (tot_ext N K _ (S i) (Rnth a3) (fun y => mass i / n * push i (Rnth (rmul a L)) y)) by exact V3.
              rewrite tot_scal by discriminate. field. lra. }
          assert (Exp : xladd (xladd lev (xln (Fin n))) (Fin (ln (tot (Rnth a3) (S i) (vecs Ls) * masses (S i) (List.length segs - 1)))) =
                        xladd lev (Fin (ln n + (ln (tot (Rnth a3) (S i) (vecs Ls) * masses (S i) (List.length segs - 1)))))).
          { cbn [xln fltb NumR]. assert (Rl : Rltb 0 n = true) by now apply Rltb_true. cbn [f0 NumR]. rewrite Rl.
            destruct lev; cbn; auto. f_equal. lra. }
          assert (Tot2 : 0 < tot (Rnth a3) (S i) (vecs Ls) ->
             tot (Rnth a) i (vecs (L :: Ls)) * masses i (List.length (s :: segs) - 1)
             = n * (tot (Rnth a3) (S i) (vecs Ls) * masses (S i) (List.length segs - 1))).
          { intros _. rewrite Tot. destruct HF as [|s' L' segs Ls HsL HF].
            - cbn. lra.
            - replace (List.length (s :: s' :: segs) - 1)%nat with (S (List.length segs)) by (simpl; lia).
              replace (List.length (s' :: segs) - 1)%nat with (List.length segs) by (simpl; lia).
              cbn [masses]. field. lra. }
          split; [|split].
          -- destruct Hcase as [(Hs & Hl & Ht & Hlen)|(Hs & Ht & Hl & Hlen)].
             ++ left. split; [exact Hs|]. split; [exact Hl|]. split; [|simpl; lia]. rewrite Tot. destruct Ls; [cbn in Ht; lra|].
                rewrite Ht. lra.
             ++ right. split; [exact Hs|]. split; [|split].
                ** rewrite Tot. destruct Ls; [lra|]. apply Rmult_lt_0_compat; [lra|]. apply Rdiv_lt_0_compat; lra.
                ** rewrite Hl, Exp. f_equal. rewrite Tot2 by auto. rewrite (ln_mult n); [reflexivity|lra|].
                   apply Rmult_lt_0_compat; auto. apply masses_pos.
                ** simpl. now rewrite Hlen.
          -- intros [|k] x E.
             ++ cbn in E. inversion E; subst x. exists a2, n.
                split; [reflexivity|]. split; [exact En|]. split; [auto|]. split; [auto|]. split; [auto|]. split.
                ** exists n. split; [exact En|]. intros Ls2 y Hy. cbn [firstn vecs map app HmmProof.jnt].
                   rewrite Nat.add_0_r. unfold a2. rewrite Rnth_rdivs, Rnth_rmul by congruence. field. lra.
                ** intros y Hy E0. cbn [nth] in E0. unfold a2. rewrite Rnth_rdivs, Rnth_rmul by congruence. rewrite E0. unfold Rdiv. lra.
             ++ cbn in E. destruct (Hsteps k x E) as (alpha & nn & Ex & Hn & Hlen & Hnn & Hsum & (C & HC & Hf) & Hz).
                exists alpha, nn. split; [exact Ex|]. split; [exact Hn|]. split; [exact Hlen|]. split; [exact Hnn|].
                split; [exact Hsum|]. split; [|exact Hz].
                exists (n / mass i * C). split.
                ** apply Rmult_lt_0_compat; auto. apply Rdiv_lt_0_compat; auto.
                ** intros Ls2 y Hy. change (vecs (firstn (S (S k)) (L :: Ls))) with (Rnth L :: vecs (firstn (S k) Ls)).
                   cbn [app HmmProof.jnt].
                   rewrite (jnt_ext N K k _ (S i) _ (fun z => n / mass i * Rnth a3 z)); auto.
                   { rewrite jnt_scal, Hf by auto. replace (i + S k)%nat with (S i + k)%nat by lia. ring. }
                   intros z Hz'. rewrite V3 by auto.
                   transitivity (push i (Rnth (rmul a L)) z).
                   { unfold HmmProof.push. apply rsum_ext. intros u _. rewrite Rnth_rmul by congruence. reflexivity. }
                   field. lra.
          -- intros Hs. destruct (Hprod Hs) as [Hp1 Hp2]. split.
             ++ constructor; auto. exists n. auto.
             ++ cbn [map snd Rprod fold_right]. change (fold_right Rmult 1) with Rprod. rewrite Hp2.
                destruct Hcase as [(Hs' & _)|(_ & Ht & _)]; [congruence|]. rewrite Tot2 by auto. reflexivity.
      + apply xltb_fin_f in En. cbn in En. assert (n = 0) as Z by lra.
        eexists. split; [reflexivity|]. cbn [fw_prior fw_stop fw_logEv fw_steps]. rewrite Hov. split; [reflexivity|].
        split; [|split].
        * left. split; [reflexivity|]. split; [reflexivity|]. split; [|simpl; lia].
          unfold vecs. cbn [map]. rewrite tot_norm by auto. apply rsum_0. intros x Hx.
          assert (Rnth (rmul a L) x = 0) as ->; [|lra].
          apply Rsum_zero_all in Z; auto. rewrite Forall_forall in Z. apply Z. apply nth_In. lia.
        * intros [|k] x; discriminate.
        * discriminate.
  Qed.

  (** backward pass *)
  Definition item := (list R * seg R * R * list R)%type.     (* alpha, segment, time, likelihood *)
  Definition itAlpha (it : item) := fst (fst (fst it)).
  Definition itSeg (it : item) := snd (fst (fst it)).
  Definition itTime (it : item) := snd (fst it).
  Definition itLik (it : item) := snd it.
  Definition codeItem (it : item) := (fin (itAlpha it), itSeg it, itTime it).

  Definition goodItem (a : list R) (its : list item) (j : nat) (it : item) : Prop :=
    hasLik (itSeg it) (itLik it) /\ List.length (itAlpha it) = N /\ nonneg (itAlpha it) /\
    factor (itAlpha it) a 0 (vecs (map itLik (firstn (S j) its))) j /\
    (forall x, (x < N)%nat -> Rnth (itLik it) x = 0 -> Rnth (itAlpha it) x = 0) /\
    itTime it = tsf j.

  Lemma bwd_main a : forall its Ls2 b c,
    Forall nonneg Ls2 ->
    (forall j it, nth_error its j = Some it -> goodItem a its j it) ->
    (forall j x y, (S j < List.length its)%nat -> (x < N)%nat -> (y < N)%nat -> kernel sp m (tsf (S j) - 1) y x = kernel sp m (tsf j) x y) ->
    0 < tot (Rnth a) 0 (vecs (map itLik its ++ Ls2)) ->
    List.length b = N -> 0 < c -> (its <> [] -> forall x, (x < N)%nat -> Rnth b x = c * nxt (List.length its - 1) (vecs Ls2) x) ->
    exists out, bwdLoop e o m (rev (map codeItem its)) (fin b) = Ok (out, false) /\
      rev (map fst out) = map (fun j => fin (tab N (fun x => jnt (Rnth a) 0 (vecs (map itLik its ++ Ls2)) j x
                                                    / tot (Rnth a) 0 (vecs (map itLik its ++ Ls2))))) (seq 0 (List.length its)) /\
      rev (map snd out) = map (fun j => Some (xdiv (Fin 1) (xmul (asum (adiv
            (fin (tab N (fun x => jnt (Rnth a) 0 (vecs (map itLik its ++ Ls2)) j x / tot (Rnth a) 0 (vecs (map itLik its ++ Ls2)))))
            (fin (nth j (map itLik its ++ Ls2) [])))) (Fin vol)))) (seq 0 (List.length its)).
  Proof.
    induction its as [|it its IH] using rev_ind; intros Ls2 b c PLs2 Hgood Hrev Htot Lb Hc Hb.
    - cbn. eexists. split; [reflexivity|]. cbn. auto.
    - set (j := List.length its).
      assert (Hlast : nth_error (its ++ [it]) j = Some it).
      { rewrite nth_error_app2 by lia. unfold j. now rewrite Nat.sub_diag. }
      destruct (Hgood j it Hlast) as ((EL & LL & PL) & LA & PA & (C & HC & Hf) & Hz & Ht).
      rewrite map_app, rev_app_distr. cbn [map rev app].
      change (codeItem it) with (fin (itAlpha it), itSeg it, itTime it). cbn [bwdLoop].
      set (alpha := itAlpha it) in *. set (L := itLik it) in *.
      specialize (Hb ltac:(destruct its; discriminate)). rewrite app_length in Hb, Hrev. cbn [List.length] in Hb, Hrev.
      replace (List.length its + 1 - 1)%nat with j in Hb by (unfold j; lia).
      assert (Efirst : firstn (S j) (its ++ [it]) = its ++ [it]).
      { apply firstn_all2. rewrite app_length. simpl. unfold j. lia. }
      rewrite Efirst in Hf.
      set (T := tot (Rnth a) 0 (vecs (map itLik (its ++ [it]) ++ Ls2))) in *.
      assert (Ev : vecs (map itLik (its ++ [it]) ++ Ls2) = vecs (map itLik (its ++ [it])) ++ vecs Ls2).
      { unfold vecs. now rewrite map_app. }
      rewrite Ev.
      assert (Hp : rmul alpha b = tab N (fun x => c / C * jnt (Rnth a) 0 (vecs (map itLik (its ++ [it])) ++ vecs Ls2) j x)).
      { apply (list_eq_nth 0).
        - rewrite rmul_length, tab_length; congruence.
        - rewrite rmul_length by congruence. intros x Hx. rewrite LA in Hx.
          change (Rnth (rmul alpha b) x = nth x (tab N (fun x => c / C * jnt (Rnth a) 0 (vecs (map itLik (its ++ [it])) ++ vecs Ls2) j x)) 0).
          rewrite tab_nth by auto. rewrite Rnth_rmul by congruence. rewrite Hb, Hf by auto. cbn [Nat.add]. field. lra. }
      rewrite amul_fin, asum_fin, Hp.
      assert (Hn : Rsum (tab N (fun x => c / C * jnt (Rnth a) 0 (vecs (map itLik (its ++ [it])) ++ vecs Ls2) j x)) = c / C * T).
      { rewrite Rsum_tab, rsum_scal. f_equal. rewrite jnt_sum.
        - unfold T. now rewrite Ev.
        - rewrite app_length. unfold vecs. rewrite !map_length, app_length. cbn. unfold j. lia. }
      rewrite Hn.
      assert (Hn0 : 0 < c / C * T) by (apply Rmult_lt_0_compat; auto; now apply Rdiv_lt_0_compat).
      assert (Hx : xltb (Fin f0) (Fin (c / C * T)) = true) by (apply xltb_fin; exact Hn0). rewrite Hx.
      rewrite EL, amul_fin.
      rewrite adivs_fin by lra.
      assert (Hpost : rdivs (tab N (fun x => c / C * jnt (Rnth a) 0 (vecs (map itLik (its ++ [it])) ++ vecs Ls2) j x)) (c / C * T)
                      = tab N (fun x => jnt (Rnth a) 0 (vecs (map itLik (its ++ [it])) ++ vecs Ls2) j x / T)).
      { rewrite rdivs_tab. apply tab_ext. intros x _. field. lra. }
      rewrite Hpost.
      assert (Lq : List.length (rmul b L) = N) by (rewrite rmul_length; congruence).
      assert (Sq : 0 < Rsum (rmul b L)).
      { assert (Pb : nonneg b \/ True) by auto.
        (* some x has alpha x * b x > 0 *)
        assert (P : 0 < Rsum (rmul alpha b)) by (rewrite Hp, Hn; exact Hn0).
        assert (Pb2 : forall x, (x < N)%nat -> 0 < Rnth alpha x * Rnth b x -> 0 < Rnth b x * Rnth L x).
        { intros x Hxx Hpos. pose proof (Rnth_nonneg alpha x PA) as A0. pose proof (Rnth_nonneg L x PL) as L0.
          assert (Rnth L x <> 0). { intros E0. rewrite (Hz x Hxx E0) in Hpos. lra. }
          assert (0 < Rnth b x).
          { destruct (Rle_lt_dec (Rnth b x) 0); auto. exfalso.
            assert (Rnth alpha x * Rnth b x <= 0) by (rewrite Rmult_comm; apply Rmult_le_0_r || nra; auto). lra. }
          apply Rmult_lt_0_compat; lra. }
        assert (Nb : forall x, (x < N)%nat -> 0 <= Rnth b x).
        { intros x Hxx. rewrite Hb by auto. apply Rmult_le_pos; [lra|].
          unfold HmmProof.nxt. apply tot_nonneg.
          - apply Forall_map. eapply Forall_impl; [|exact PLs2]. intros l Hl u _. now apply Rnth_nonneg.
          - intros i u v Hu Hv. apply (K_stoch i); auto.
          - intros u Hu. apply (K_stoch j); auto. }
        rewrite rsum_rmul in * by congruence. rewrite LA in P.
        destruct (Rle_lt_dec (rsum (List.length b) (fun i => Rnth b i * Rnth L i)) 0) as [Hle|]; auto. exfalso.
        assert (Z : forall x, (x < N)%nat -> Rnth b x * Rnth L x = 0).
        { rewrite Lb in Hle. apply rsum_zero_all.
          - intros x Hxx. apply Rmult_le_pos; auto. now apply Rnth_nonneg.
          - apply Rle_antisym; auto. apply rsum_nonneg. intros x Hxx. apply Rmult_le_pos; auto. now apply Rnth_nonneg. }
        assert (rsum N (fun i => Rnth alpha i * Rnth b i) <= 0); [|lra].
        rewrite <- (rsum_0 N (fun _ => 0)) by auto. apply rsum_le. intros x Hxx.
        destruct (Rle_lt_dec (Rnth alpha x * Rnth b x) 0); auto. specialize (Pb2 x Hxx r). rewrite Z in Pb2; auto. lra. }
      unfold computeBackwardPrior. 
      cbn [fsub NumR f1].
      rewrite (step_linear e rho Hdim Hlat Hlatpos Html Hrho_pos Hrho_sum Hreset m) by (auto; lra).
      cbn [bind].
      set (q := map (fun x => massAfter vol m (itTime it - 1) (Rsum (rmul b L)) / Rsum (rmul b L) * x)
                    (kapply N (rmul b L) (kernel sp m (itTime it - 1)))).
      pose proof (massAfter_pos vol m (itTime it - 1) (Rsum (rmul b L)) (vol_pos e Hlatpos) Sq) as Mpos.
      assert (SumQ : Rsum q = massAfter vol m (itTime it - 1) (Rsum (rmul b L))).
      { unfold q. rewrite Rsum_scal, kapply_sum; auto; [field; lra|]. now apply kernel_stoch. }
      unfold normalise. rewrite asum_fin, SumQ, adivs_fin by lra.
      set (b' := rdivs q (massAfter vol m (itTime it - 1) (Rsum (rmul b L)))).
      assert (Lb' : List.length b' = N).
      { unfold b', q. rewrite rdivs_length, map_length. apply kapply_length. }
      assert (Vb' : forall x, (x < N)%nat -> Rnth b' x = rsum N (fun y => Rnth (rmul b L) y * kernel sp m (itTime it - 1) y x) / Rsum (rmul b L)).
      { intros x Hxx. unfold b'. rewrite Rnth_rdivs. unfold q. unfold Rnth at 1.
        rewrite <- (Rmult_0_r (massAfter vol m (itTime it - 1) (Rsum (rmul b L)) / Rsum (rmul b L))).
        rewrite (map_nth (fun x => massAfter vol m (itTime it - 1) (Rsum (rmul b L)) / Rsum (rmul b L) * x)).
        change (nth x (kapply N (rmul b L) (kernel sp m (itTime it - 1))) 0) with (Rnth (kapply N (rmul b L) (kernel sp m (itTime it - 1))) x).
        unfold kapply. rewrite Rnth_tab by auto. field. lra. }
      assert (Eapp : map itLik (its ++ [it]) ++ Ls2 = map itLik its ++ (L :: Ls2)).
      { rewrite map_app, <- app_assoc. reflexivity. }
      destruct (IH (L :: Ls2) b' (c / Rsum (rmul b L))) as (out & Eo & Ep & El).
      + constructor; auto.
      + intros i0 it0 E0. assert (Hi0 : (i0 < List.length its)%nat) by (apply nth_error_Some; congruence).
        destruct (Hgood i0 it0) as (G1 & G2 & G3 & G4 & G5 & G6); [now rewrite nth_error_app1|].
        assert (F0 : firstn (S i0) (its ++ [it]) = firstn (S i0) its).
        { rewrite firstn_app. replace (S i0 - List.length its)%nat with O by lia. cbn [firstn]. apply app_nil_r. }
        rewrite F0 in G4. repeat split; auto; apply G1.
      + intros i0 u v Hi0. apply Hrev. lia.
      + rewrite <- Eapp. exact Htot.
      + exact Lb'.
      + apply Rdiv_lt_0_compat; auto.
      + intros NE x Hxx. destruct its as [|it0 its0].
        * now elim NE.
        * rewrite Vb' by auto.
          set (j' := (List.length (it0 :: its0) - 1)%nat).
          assert (Ej : j = S j') by (unfold j, j'; simpl; lia).
          rewrite Ht, Ej.
          transitivity (c / Rsum (rmul b L) * rsum N (fun y => kernel sp m (tsf j') x y * Rnth L y * nxt j (vecs Ls2) y)).
          { unfold Rdiv. rewrite (Rmult_comm c), Rmult_assoc, (Rmult_comm (/ _)). f_equal.
            rewrite <- rsum_scal. apply rsum_ext. intros y Hy. rewrite Rnth_rmul by congruence.
            rewrite Hb by auto. rewrite (Hrev j' x y) by (auto; unfold j'; simpl; lia). ring. }
          f_equal. unfold HmmProof.nxt at 2. cbn [vecs map HmmProof.tot]. apply rsum_ext. intros y Hy.
          unfold HmmProof.nxt. now rewrite Ej.
      + rewrite Eo. cbn [bind fst snd]. eexists. split; [reflexivity|].
        rewrite <- Ev, Eapp in *. unfold T. rewrite Eapp.
        cbn [map rev fst snd]. rewrite Ep, El. rewrite app_length. cbn [List.length].
        rewrite Nat.add_1_r, seq_S, !map_app. cbn [map Nat.add].
        split; [reflexivity|]. do 3 f_equal. do 4 f_equal.
        rewrite app_nth2 by (rewrite map_length; lia). rewrite map_length, Nat.sub_diag. reflexivity.
  Qed.
End Loops.
