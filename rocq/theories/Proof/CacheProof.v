(** The kernel cache. *)
From Coq Require Import List ZArith Reals String Bool Lia.
From Verif Require Import Base.Num Base.Exn Base.Arr Base.RSum Base.Lift Model.Tm Model.Cache Spec.CacheSpec.
Import ListNotations.

Lemma sameVals_eq (a b : list R) : sameVals a b = true <-> a = b.
Proof.
  revert b. induction a as [|x a IH]; intros [|y b]; cbn [sameVals]; try (split; congruence).
  rewrite andb_true_iff, IH. change (feqb x y) with (Reqb x y). rewrite Reqb_true. split; [intros []; congruence|intros E; inversion E; auto].
Qed.

Section Cache.
  Context {K : Type} (build : env R -> list R -> res K) (use : env R -> K -> rarr -> res rarr).

  (** the kernel made for [e0], used on [e] *)
  Definition staleStep (e0 : env R) (vals : list R) (e : env R) (p : rarr) : res rarr :=
    match build e0 vals with Ok k => use e k p | Err x => Err x end.

  Lemma history_same evs : forall e w, sameGrid evs ->
    (forall ps, w_params w = Some ps -> exists k, w_kernel w = Some k /\ build e ps = Ok k) ->
    history build use e w evs = uncached (fun e vals p => staleStep e vals e p) e (w_vals w) evs.
  Proof.
    induction evs as [|ev evs IH]; intros e w G I; [reflexivity|].
    assert (G' : sameGrid evs) by (intros e' Hi; apply (G e'); right; auto).
    destruct ev as [vals|e'|p]; cbn [history uncached].
    - rewrite IH; auto.
    - exfalso. apply (G e'). left; auto.
    - unfold walkStep, staleStep at 1. destruct (w_params w) as [ps|] eqn:P.
      + destruct (sameVals ps (w_vals w)) eqn:Sm.
        * apply sameVals_eq in Sm. destruct (I ps eq_refl) as (k & Hk & Hb). rewrite Hk, <- Sm, Hb. f_equal. rewrite Sm. apply IH; auto.
          intros ps' E. apply I. congruence.
        * destruct (build e (w_vals w)) as [k|x] eqn:B.
          -- f_equal. rewrite IH; auto. cbn. intros ps' E. inversion E; subst. eauto.
          -- f_equal. apply IH; auto. intros ps' E. apply I. congruence.
      + destruct (build e (w_vals w)) as [k|x] eqn:B.
        * f_equal. rewrite IH; auto. cbn. intros ps' E. inversion E; subst. eauto.
        * f_equal. apply IH; auto. intros ps' E. congruence.
  Qed.

  (** every step finds a grid on which the kernel can be made *)
  Fixpoint allBuild (e : env R) (vals : list R) (evs : list (event R)) : Prop :=
    match evs with
    | [] => True
    | SetVals vals' :: evs' => allBuild e vals' evs'
    | SetGrid e' :: evs' => allBuild e' vals evs'
    | MakeStep _ :: evs' => (exists k, build e vals = Ok k) /\ allBuild e vals evs'
    end.

  Lemma history_stale evs : forall e w past, allBuild e (w_vals w) evs ->
    match past with
    | [] => w_params w = None
    | (e', vals') :: past' => w_params w = Some vals' /\ exists k, w_kernel w = Some k /\ build (kernelGrid e' vals' past') vals' = Ok k
    end ->
    history build use e w evs = withStale staleStep e (w_vals w) past evs.
  Proof.
    induction evs as [|ev evs IH]; intros e w past B I; [reflexivity|].
    destruct ev as [vals|e'|p]; cbn [history withStale allBuild] in *.
    - rewrite (IH e (setVals w vals) past); auto.
    - apply IH; auto.
    - destruct B as [(k & Bk) B]. unfold walkStep, staleStep at 1. destruct past as [|[e' vals'] past].
      + rewrite I, Bk. cbn [kernelGrid]. rewrite Bk. f_equal. rewrite (IH e _ ((e, w_vals w) :: [])); auto.
        cbn. split; auto. exists k. auto.
      + destruct I as (P & k' & Hk & Bk'). rewrite P. cbn [kernelGrid]. destruct (list_eq_dec Req_EM_T (w_vals w) vals') as [E|E].
        * rewrite E. replace (sameVals vals' vals') with true by (symmetry; apply sameVals_eq; auto). rewrite Hk, Bk'. f_equal.
          rewrite (IH e w ((e, w_vals w) :: (e', vals') :: past)); auto; [rewrite E; reflexivity|].
          rewrite E. split; auto. exists k'. split; auto. cbn [kernelGrid]. destruct (list_eq_dec Req_EM_T vals' vals'); [auto|congruence].
        * replace (sameVals vals' (w_vals w)) with false.
          2:{ destruct (sameVals vals' (w_vals w)) eqn:X; auto. apply sameVals_eq in X. congruence. }
          rewrite Bk. f_equal. rewrite (IH e _ ((e, w_vals w) :: (e', vals') :: past)); auto.
          cbn [w_vals w_params w_kernel]. split; auto. exists k. split; auto. cbn [kernelGrid].
          destruct (list_eq_dec Req_EM_T (w_vals w) vals'); [congruence|auto].
  Qed.
End Cache.
