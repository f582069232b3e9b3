(** Arrays of finite reals inside the extended arithmetic: each operation on [map Fin l] in closed form. *)
From Coq Require Import List ZArith Reals Lra Lia Bool.
From Verif Require Import Base.Num Base.Arr Base.RSum.
Import ListNotations.
Local Open Scope R_scope.

Notation fin l := (map (@Fin R) l).

Lemma Rltb_true a b : Rltb a b = true <-> a < b.
Proof. unfold Rltb. destruct (Rlt_dec a b); split; intros; try easy. Qed.
Lemma Rltb_false a b : Rltb a b = false <-> b <= a.
Proof. unfold Rltb. destruct (Rlt_dec a b); split; intros; try easy; lra. Qed.
Lemma Reqb_true a b : Reqb a b = true <-> a = b.
Proof. unfold Reqb. destruct (Req_EM_T a b); split; intros; try easy. Qed.
Lemma Reqb_false a b : Reqb a b = false <-> a <> b.
Proof. unfold Reqb. destruct (Req_EM_T a b); split; intros; try easy. Qed.
Lemma Reqb_refl a : Reqb a a = true.
Proof. now apply Reqb_true. Qed.
Lemma fleb_R a b : fleb (F := R) a b = true <-> a <= b.
Proof.
  unfold fleb. cbn. rewrite orb_true_iff, Rltb_true, Reqb_true. lra.
Qed.

Lemma map2_length {A B C} (f : A -> B -> C) l m : length (map2 f l m) = Nat.min (length l) (length m).
Proof. revert m; induction l; destruct m; simpl; auto. Qed.
Lemma map2_nth {A B C} (f : A -> B -> C) l m i d1 d2 d :
  (i < length l)%nat -> (i < length m)%nat -> nth i (map2 f l m) d = f (nth i l d1) (nth i m d2).
Proof.
  revert m i; induction l as [|a l IH]; destruct m as [|b m]; simpl; intros i Hl Hm; try lia.
  destruct i; auto. apply IH; lia.
Qed.
Lemma map2_map {A B C A' B'} (f : A -> B -> C) (g : A' -> A) (h : B' -> B) l m :
  map2 f (map g l) (map h m) = map2 (fun x y => f (g x) (h y)) l m.
Proof. revert m; induction l; destruct m; simpl; auto. now rewrite IHl. Qed.
Lemma map_map2 {A B C D} (g : C -> D) (f : A -> B -> C) l m :
  map g (map2 f l m) = map2 (fun x y => g (f x y)) l m.
Proof. revert m; induction l; destruct m; simpl; auto. now rewrite IHl. Qed.
Lemma map2_ext {A B C} (f g : A -> B -> C) l m : (forall a b, f a b = g a b) -> map2 f l m = map2 g l m.
Proof. intros E. revert m; induction l; destruct m; simpl; auto. now rewrite E, IHl. Qed.
Lemma map2_tab {A B C} (f : A -> B -> C) n g h : map2 f (tab n g) (tab n h) = tab n (fun i => f (g i) (h i)).
Proof. unfold tab. rewrite map2_map. generalize (seq 0 n). induction l; simpl; auto. now rewrite IHl. Qed.
Lemma map_tab {A B} (f : A -> B) n g : map f (tab n g) = tab n (fun i => f (g i)).
Proof. unfold tab. now rewrite map_map. Qed.
Lemma map2_combine {A B C} (f : A -> B -> C) l m : map2 f l m = map (fun p => f (fst p) (snd p)) (combine l m).
Proof. revert m; induction l; destruct m; simpl; auto. now rewrite IHl. Qed.
Lemma map2_comm {A C} (f : A -> A -> C) l m : (forall a b, f a b = f b a) -> map2 f l m = map2 f m l.
Proof. intros E. revert m; induction l; destruct m; simpl; auto. now rewrite E, IHl. Qed.
Lemma repeat_tab {A} (c : A) n : repeat c n = tab n (fun _ => c).
Proof.
  unfold tab. generalize 0%nat. induction n; simpl; intros; auto. f_equal. auto.
Qed.

Definition rmul (a b : list R) : list R := map2 Rmult a b.
Definition rdivs (a : list R) (s : R) : list R := map (fun x => x / s) a.
Definition rones (n : nat) : list R := repeat 1 n.
Definition rnorm (a : list R) : list R := rdivs a (Rsum a).

Lemma fold_xadd l a : fold_left (xadd (F := R)) (fin l) (Fin a) = Fin (a + Rsum l).
Proof.
  revert a; induction l as [|x l IH]; intros a; simpl.
  - f_equal; lra.
  - rewrite IH. f_equal. lra.
Qed.
Lemma asum_fin l : asum (fin l) = Fin (Rsum l).
Proof. unfold asum. rewrite fold_xadd. f_equal. cbn. lra. Qed.
Lemma amul_fin a b : amul (fin a) (fin b) = fin (rmul a b).
Proof. unfold amul, rmul. now rewrite map2_map, map_map2. Qed.
Lemma xdiv_fin (x y : R) : y <> 0 -> xdiv (Fin x) (Fin y) = Fin (x / y).
Proof. intros. cbn. apply Reqb_false in H. now rewrite H. Qed.
Lemma adivs_fin a s : s <> 0 -> adivs (fin a) (Fin s) = fin (rdivs a s).
Proof.
  intros. unfold adivs, rdivs. rewrite !map_map. apply map_ext. intros x. now apply xdiv_fin.
Qed.
Lemma amuls_fin a s : amuls (fin a) (Fin s) = fin (map (fun x => x * s) a).
Proof. unfold amuls. rewrite !map_map. now apply map_ext. Qed.
Lemma aones_fin n : aones (F := R) n = fin (rones n).
Proof. unfold aones, rones. induction n as [|n IH]; [reflexivity|]. cbn [repeat map]. rewrite <- IH. reflexivity. Qed.
Lemma adiv_fin a b : Forall (fun x => x <> 0) b -> adiv (fin a) (fin b) = fin (map2 Rdiv a b).
Proof.
  unfold adiv. intros Fb. revert a; induction Fb as [|y b Hy Hb IH]; destruct a; simpl; auto.
  rewrite IH. apply Reqb_false in Hy. cbn in *. now rewrite Hy.
Qed.
Lemma fold_xadd_nan l : fold_left (xadd (F := R)) l NaN = NaN.
Proof. induction l; simpl; auto. Qed.
Lemma asum_nan l : In NaN l -> asum (F := R) l = NaN.
Proof.
  intros I. unfold asum. generalize (@Fin R f0). induction l as [|x l IH]; [destruct I|]. intros a. destruct I as [->|I].
  - cbn [fold_left]. destruct a; apply fold_xadd_nan.
  - cbn [fold_left]. apply IH, I.
Qed.
Lemma fin_inj l m : fin l = fin m -> l = m.
Proof. revert m; induction l; destruct m; simpl; intros E; try discriminate; auto. inversion E. f_equal; auto. Qed.
Lemma xltb_fin a b : xltb (F := R) (Fin a) (Fin b) = true <-> a < b.
Proof. cbn. apply Rltb_true. Qed.
Lemma xltb_fin_f a b : xltb (F := R) (Fin a) (Fin b) = false <-> b <= a.
Proof. cbn. apply Rltb_false. Qed.

Lemma rmul_length a b : length a = length b -> length (rmul a b) = length a.
Proof. intros E. unfold rmul. rewrite map2_length. lia. Qed.
Lemma rdivs_length a s : length (rdivs a s) = length a.
Proof. unfold rdivs. apply map_length. Qed.
Lemma rones_length n : length (rones n) = n.
Proof. apply repeat_length. Qed.
Lemma Rnth_rmul a b i : length a = length b -> Rnth (rmul a b) i = Rnth a i * Rnth b i.
Proof.
  intros E. unfold Rnth, rmul. destruct (Nat.lt_ge_cases i (length a)).
  - apply map2_nth; lia.
  - rewrite !nth_overflow; try lra; try rewrite map2_length; lia.
Qed.
Lemma Rnth_rdivs a s i : Rnth (rdivs a s) i = Rnth a i / s.
Proof.
  unfold Rnth, rdivs. destruct (Nat.lt_ge_cases i (length a)).
  - rewrite nth_indep with (d' := 0 / s) by (rewrite map_length; lia). apply (map_nth (fun x => x / s)).
  - rewrite !nth_overflow; try (rewrite map_length; lia); try lia. unfold Rdiv; lra.
Qed.
Lemma Rnth_rones n i : (i < n)%nat -> Rnth (rones n) i = 1.
Proof. intros. unfold Rnth, rones. rewrite nth_indep with (d' := 1) by (rewrite repeat_length; auto). apply nth_repeat. Qed.
Lemma Rsum_rdivs a s : Rsum (rdivs a s) = Rsum a / s.
Proof. apply Rsum_div. Qed.
Lemma Rsum_rnorm a : Rsum a <> 0 -> Rsum (rnorm a) = 1.
Proof. intros. unfold rnorm. rewrite Rsum_rdivs. now field. Qed.
Lemma Rsum_rones n : Rsum (rones n) = INR n.
Proof. unfold rones. rewrite Rsum_repeat. lra. Qed.
Lemma nonneg_rmul a b : Forall (fun x => 0 <= x) a -> Forall (fun x => 0 <= x) b -> Forall (fun x => 0 <= x) (rmul a b).
Proof.
  unfold rmul. intros Ha. revert b; induction Ha; destruct b; simpl; intros Hb; constructor; inversion Hb; subst; auto.
  now apply Rmult_le_pos.
Qed.
Lemma nonneg_rdivs a s : Forall (fun x => 0 <= x) a -> 0 < s -> Forall (fun x => 0 <= x) (rdivs a s).
Proof.
  intros Ha Hs. unfold rdivs. apply Forall_map. eapply Forall_impl; [|apply Ha]. simpl. intros x Hx.
  apply Rmult_le_pos; auto. left. now apply Rinv_0_lt_compat.
Qed.
Lemma nonneg_rones n : Forall (fun x => 0 <= x) (rones n).
Proof. unfold rones. apply Forall_forall. intros x Hx. apply repeat_spec in Hx. lra. Qed.
Lemma rmul_tab n f g : rmul (tab n f) (tab n g) = tab n (fun i => f i * g i).
Proof. apply map2_tab. Qed.
Lemma rdivs_tab n f s : rdivs (tab n f) s = tab n (fun i => f i / s).
Proof. unfold rdivs. apply map_tab. Qed.
Lemma Rnth_nonneg l i : Forall (fun x => 0 <= x) l -> 0 <= Rnth l i.
Proof.
  intros Hl. unfold Rnth. destruct (Nat.lt_ge_cases i (length l)).
  - rewrite Forall_forall in Hl. apply Hl, nth_In; auto.
  - rewrite nth_overflow; auto; lra.
Qed.
Lemma rsum_rmul a b : length a = length b -> Rsum (rmul a b) = rsum (length a) (fun i => Rnth a i * Rnth b i).
Proof.
  intros E. rewrite Rsum_rnth, rmul_length by auto. apply rsum_ext. intros. now apply Rnth_rmul.
Qed.
