(** Arithmetic of logarithms of non-negative numbers. *)
From Coq Require Import List ZArith Reals Lra Lia Arith Bool.
From Verif Require Import Base.Num Base.Exn Base.Arr Base.RSum Base.Lift.
Import ListNotations.
Local Open Scope R_scope.

(** the logarithm of a non-negative number, -inf for 0 *)
Definition lg (w : R) : xnum R := xln (F := R) (L := R) (Fin w).
Notation nonneg l := (Forall (fun x => 0 <= x) l).

Lemma lg_pos w : 0 < w -> lg w = Fin (ln w).
Proof. intros P. unfold lg, xln. cbn. apply Rltb_true in P. now rewrite P. Qed.
Lemma lg_0 : lg 0 = NInf.
Proof. unfold lg, xln. cbn. replace (Rltb 0 0) with false by (symmetry; apply Rltb_false; lra). now rewrite Reqb_refl. Qed.
Lemma lg_cases w : 0 <= w -> (0 < w /\ lg w = Fin (ln w)) \/ (w = 0 /\ lg w = NInf).
Proof. intros [P|<-]; [left|right]; auto using lg_pos, lg_0. Qed.
Lemma lg_add a b : 0 <= a -> 0 <= b -> xladd (F := R) (lg a) (lg b) = lg (a * b).
Proof.
  intros Ha Hb. destruct (lg_cases a Ha) as [[Pa ->]|[-> ->]].
  - destruct (lg_cases b Hb) as [[Pb ->]|[-> ->]].
    + rewrite lg_pos by now apply Rmult_lt_0_compat. cbn. now rewrite ln_mult.
    + rewrite Rmult_0_r, lg_0. reflexivity.
  - rewrite Rmult_0_l, lg_0. destruct (lg_cases b Hb) as [[Pb ->]|[-> ->]]; reflexivity.
Qed.
Lemma lg_exp a : 0 <= a -> xexp (lg a) = Fin a.
Proof. intros Ha. destruct (lg_cases a Ha) as [[Pa ->]|[-> ->]]; cbn; auto. now rewrite exp_ln. Qed.
Lemma lg_logaddexp a b : 0 <= a -> 0 <= b -> xlogaddexp (F := R) (lg a) (lg b) = lg (a + b).
Proof. intros Ha Hb. unfold xlogaddexp. rewrite !lg_exp by auto. reflexivity. Qed.
Lemma lg_map_exp l : nonneg l -> map (xexp (F := R)) (map lg l) = fin l.
Proof. induction 1 as [|a l Ha Hl IH]; cbn [map]; auto. now rewrite lg_exp, IH. Qed.
Lemma lg_logsumexp l : nonneg l -> xlogsumexp (F := R) (map lg l) = lg (Rsum l).
Proof. intros Hl. unfold xlogsumexp. rewrite lg_map_exp, asum_fin by auto. reflexivity. Qed.
Lemma lg_fin a : 0 < a -> xisfinite (lg a) = true.
Proof. intros P. now rewrite lg_pos. Qed.
Lemma lg_finite a : 0 <= a -> xisfinite (lg a) = Rltb 0 a.
Proof.
  intros Ha. destruct (lg_cases a Ha) as [[Pa ->]|[-> ->]]; cbn; symmetry.
  - now apply Rltb_true.
  - apply Rltb_false. lra.
Qed.
Lemma lg_inj a b : 0 <= a -> 0 <= b -> lg a = lg b -> a = b.
Proof. intros Ha Hb E. apply (f_equal (xexp (F := R))) in E. rewrite !lg_exp in E by auto. congruence. Qed.

(** maximum *)
Definition rmax (l : list R) : R := fold_left Rmax l 0.
Lemma fold_Rmax_ge l : forall a, a <= fold_left Rmax l a.
Proof. induction l as [|b l IH]; intros a; cbn; [lra|]. eapply Rle_trans; [apply Rmax_l|apply IH]. Qed.
Lemma fold_Rmax_mono l : forall a b, a <= b -> fold_left Rmax l a <= fold_left Rmax l b.
Proof. induction l as [|c l IH]; intros a b H; cbn; auto. apply IH. apply Rle_max_compat_r; auto. Qed.
Lemma fold_Rmax_in l : forall a b, In b l -> b <= fold_left Rmax l a.
Proof.
  induction l as [|c l IH]; intros a b []; cbn.
  - subst. eapply Rle_trans; [apply Rmax_r|apply fold_Rmax_ge].
  - now apply IH.
Qed.
Lemma lg_max2 a b : 0 <= a -> 0 <= b -> xlmax2 (F := R) (lg a) (lg b) = lg (Rmax a b).
Proof.
  intros Ha Hb. destruct (lg_cases a Ha) as [[Pa Ea]|[-> Ea]]; destruct (lg_cases b Hb) as [[Pb Eb]|[-> Eb]]; rewrite ?Ea, ?Eb; unfold xlmax2, xlltb, xless; cbn [lltb LogNumR].
  - destruct (Rltb (ln a) (ln b)) eqn:E.
    + apply Rltb_true in E. apply ln_lt_inv in E; auto. rewrite Rmax_right by lra. auto.
    + apply Rltb_false in E. rewrite Rmax_left; auto. destruct (Rle_dec b a); auto. assert (a < b) as X by lra. apply ln_increasing in X; auto. lra.
  - rewrite Rmax_left by lra. auto.
  - rewrite Rmax_right by lra. auto.
  - rewrite Rmax_left by lra. now rewrite lg_0.
Qed.
Lemma lg_fold_max l : forall a, 0 <= a -> nonneg l -> fold_left (xlmax2 (F := R)) (map lg l) (lg a) = lg (fold_left Rmax l a).
Proof.
  induction l as [|b l IH]; intros a Ha Hl; cbn [map fold_left]; auto. inversion Hl; subst. rewrite lg_max2 by auto. apply IH; auto.
  eapply Rle_trans; [apply Ha|apply Rmax_l].
Qed.
Lemma lg_max l : l <> [] -> nonneg l -> lamax (F := R) (map lg l) = lg (rmax l).
Proof.
  intros Hn Hl. destruct l as [|a l]; [congruence|]. inversion Hl; subst. cbn [map lamax]. rewrite lg_fold_max by auto.
  unfold rmax. cbn [fold_left]. now rewrite Rmax_right.
Qed.
Lemma rmax_pos l : 0 < Rsum l -> 0 < rmax l.
Proof.
  intros P. destruct (Rlt_dec 0 (rmax l)) as [|N]; auto. exfalso.
  assert (forall x, In x l -> x <= 0) as A.
  { intros x Ix. pose proof (fold_Rmax_in l 0 x Ix). fold (rmax l) in *. lra. }
  assert (Rsum l <= 0); [|lra]. clear - A. induction l as [|a l IH]; cbn; [lra|]. fold (Rsum l).
  pose proof (A a (or_introl eq_refl)). assert (Rsum l <= 0) by (apply IH; intros; apply A; now right). lra.
Qed.
Lemma rmax_nonneg l : 0 <= rmax l.
Proof. apply fold_Rmax_ge. Qed.
Lemma lg_sub a b : 0 <= a -> 0 < b -> xexp (F := R) (xlsub (F := R) (lg a) (lg b)) = Fin (a / b).
Proof.
  intros Ha Hb. rewrite (lg_pos b) by auto. destruct (lg_cases a Ha) as [[Pa ->]|[-> ->]]; cbn.
  - unfold Rminus. rewrite exp_plus, exp_Ropp, !exp_ln by auto. reflexivity.
  - f_equal. unfold Rdiv. ring.
Qed.
Lemma lg_scaled l b : nonneg l -> 0 < b -> map (fun x => xexp (F := R) (xlsub (F := R) x (lg b))) (map lg l) = fin (rdivs l b).
Proof. intros Hl Hb. induction Hl as [|a l Ha Hl IH]; cbn [map rdivs]; auto. rewrite lg_sub by auto. f_equal. exact IH. Qed.
(** every log-evidence that is a number or -inf is such a logarithm *)
Lemma lg_of x : (exists v, x = Fin v) \/ x = NInf -> exists w, 0 <= w /\ x = lg w.
Proof.
  intros [(v & ->)| ->].
  - exists (exp v). split; [left; apply exp_pos|]. rewrite lg_pos by apply exp_pos. now rewrite ln_exp.
  - exists 0. rewrite lg_0. split; [lra|auto].
Qed.
