(** Finite sums of reals over initial segments of nat, and over lists. *)
From Coq Require Import List ZArith Reals Lra Lia Permutation.
Import ListNotations.
Local Open Scope R_scope.

Definition Rsum (l : list R) : R := fold_right Rplus 0 l.
Definition Rprod (l : list R) : R := fold_right Rmult 1 l.

(** sum over i < n *)
Fixpoint rsum (n : nat) (f : nat -> R) : R :=
  match n with O => 0 | S n' => rsum n' f + f n' end.

Definition Rnth (l : list R) (i : nat) : R := nth i l 0.

Lemma Rsum_app l m : Rsum (l ++ m) = Rsum l + Rsum m.
Proof. induction l; simpl; lra. Qed.
Lemma Rsum_perm l m : Permutation l m -> Rsum l = Rsum m.
Proof. induction 1; simpl; lra. Qed.
Lemma Rprod_perm l m : Permutation l m -> Rprod l = Rprod m.
Proof. induction 1; simpl; try lra. rewrite IHPermutation; ring. Qed.
Lemma Rprod_app l m : Rprod (l ++ m) = Rprod l * Rprod m.
Proof. induction l as [|a l IH]; simpl; [lra|]. rewrite IH; ring. Qed.
Lemma Rsum_map_plus {A} (f g : A -> R) l : Rsum (map (fun x => f x + g x) l) = Rsum (map f l) + Rsum (map g l).
Proof. induction l; simpl; lra. Qed.
Lemma Rsum_map_scal {A} c (f : A -> R) l : Rsum (map (fun x => c * f x) l) = c * Rsum (map f l).
Proof. induction l as [|a l IH]; simpl; [lra|]. rewrite IH; ring. Qed.
Lemma Rsum_scal c l : Rsum (map (fun x => c * x) l) = c * Rsum l.
Proof. induction l as [|a l IH]; simpl; [lra|]. rewrite IH; ring. Qed.
Lemma Rsum_scal_r c l : Rsum (map (fun x => x * c) l) = Rsum l * c.
Proof. induction l as [|a l IH]; simpl; [lra|]. rewrite IH; ring. Qed.
Lemma Rsum_div c l : Rsum (map (fun x => x / c) l) = Rsum l / c.
Proof. unfold Rdiv. apply Rsum_scal_r. Qed.
Lemma Rsum_map_ext {A} (f g : A -> R) l : (forall x, In x l -> f x = g x) -> Rsum (map f l) = Rsum (map g l).
Proof. induction l as [|a l IH]; simpl; intros E; [reflexivity|]. rewrite E, IH; auto. Qed.
Lemma Rsum_map_0 {A} (f : A -> R) l : (forall x, In x l -> f x = 0) -> Rsum (map f l) = 0.
Proof. induction l as [|a l IH]; simpl; intros E; [reflexivity|]. rewrite E, IH; auto; lra. Qed.
Lemma Rsum_flat_map {A} (f : A -> list R) l : Rsum (flat_map f l) = Rsum (map (fun x => Rsum (f x)) l).
Proof. induction l; simpl; [reflexivity|]. rewrite Rsum_app; lra. Qed.
Lemma Rsum_nonneg l : Forall (fun x => 0 <= x) l -> 0 <= Rsum l.
Proof. induction 1; simpl; lra. Qed.
Lemma Rsum_swap {A B} (f : A -> B -> R) l m :
  Rsum (map (fun x => Rsum (map (f x) m)) l) = Rsum (map (fun y => Rsum (map (fun x => f x y) l)) m).
Proof.
  induction l as [|a l IH]; simpl.
  - induction m; simpl; lra.
  - rewrite IH. rewrite <- Rsum_map_plus. reflexivity.
Qed.
Lemma Rsum_repeat c n : Rsum (repeat c n) = INR n * c.
Proof. induction n as [|n IH]; [simpl; lra|]. rewrite S_INR. simpl. rewrite IH. lra. Qed.
Lemma Rsum_rev l : Rsum (rev l) = Rsum l.
Proof. induction l; simpl; [reflexivity|]. rewrite Rsum_app. simpl. lra. Qed.
Lemma Rsum_filter {A} (p : A -> bool) (f : A -> R) l :
  Rsum (map f (filter p l)) = Rsum (map (fun x => if p x then f x else 0) l).
Proof. induction l as [|a l IH]; simpl; [reflexivity|]. destruct (p a); simpl; lra. Qed.
Lemma Rsum_le {A} (f g : A -> R) l : (forall x, In x l -> f x <= g x) -> Rsum (map f l) <= Rsum (map g l).
Proof.
  induction l as [|a l IH]; simpl; intros E; [lra|].
  pose proof (E a (or_introl eq_refl)). assert (Rsum (map f l) <= Rsum (map g l)) by (apply IH; auto). lra.
Qed.
Lemma Rsum_In_le l x : Forall (fun x => 0 <= x) l -> In x l -> x <= Rsum l.
Proof.
  induction 1 as [|a l Ha Hl IH]; simpl; [tauto|]. intros [->|I].
  - pose proof (Rsum_nonneg l Hl). lra.
  - specialize (IH I). lra.
Qed.
Lemma Rsum_zero_all l : Forall (fun x => 0 <= x) l -> Rsum l = 0 -> Forall (fun x => x = 0) l.
Proof.
  induction 1 as [|a l Ha Hl IH]; simpl; intros E; constructor.
  - pose proof (Rsum_nonneg l Hl). lra.
  - apply IH. pose proof (Rsum_nonneg l Hl). lra.
Qed.

(** rsum *)
Lemma rsum_ext n f g : (forall i, (i < n)%nat -> f i = g i) -> rsum n f = rsum n g.
Proof. induction n as [|n IH]; simpl; intros E; [reflexivity|]. rewrite IH, E; auto. Qed.
Lemma rsum_plus n f g : rsum n (fun i => f i + g i) = rsum n f + rsum n g.
Proof. induction n; simpl; lra. Qed.
Lemma rsum_scal n c f : rsum n (fun i => c * f i) = c * rsum n f.
Proof. induction n as [|n IH]; simpl; [lra|]. rewrite IH; ring. Qed.
Lemma rsum_scal_r n c f : rsum n (fun i => f i * c) = rsum n f * c.
Proof. induction n as [|n IH]; simpl; [lra|]. rewrite IH; ring. Qed.
Lemma rsum_0 n f : (forall i, (i < n)%nat -> f i = 0) -> rsum n f = 0.
Proof. induction n as [|n IH]; simpl; intros E; [reflexivity|]. rewrite IH, E; auto; lra. Qed.
Lemma rsum_const n c : rsum n (fun _ => c) = INR n * c.
Proof. induction n as [|n IH]; [simpl; lra|]. rewrite S_INR. simpl. rewrite IH. lra. Qed.
Lemma rsum_nonneg n f : (forall i, (i < n)%nat -> 0 <= f i) -> 0 <= rsum n f.
Proof.
  induction n as [|n IH]; simpl; intros E; [lra|].
  assert (0 <= rsum n f) by (apply IH; auto). assert (0 <= f n) by auto. lra.
Qed.
Lemma rsum_swap n m f : rsum n (fun i => rsum m (f i)) = rsum m (fun j => rsum n (fun i => f i j)).
Proof.
  induction n as [|n IH]; simpl.
  - rewrite rsum_0; auto.
  - rewrite IH, <- rsum_plus. reflexivity.
Qed.
Lemma rsum_le n f g : (forall i, (i < n)%nat -> f i <= g i) -> rsum n f <= rsum n g.
Proof.
  induction n as [|n IH]; simpl; intros E; [lra|].
  assert (rsum n f <= rsum n g) by (apply IH; auto). assert (f n <= g n) by auto. lra.
Qed.
Lemma rsum_ge_term n f i : (i < n)%nat -> (forall i, (i < n)%nat -> 0 <= f i) -> f i <= rsum n f.
Proof.
  induction n as [|n IH]; simpl; intros Hi E; [lia|].
  assert (0 <= rsum n f) by (apply rsum_nonneg; auto).
  assert (0 <= f n) by auto.
  destruct (Nat.eq_dec i n) as [->|]; [lra|].
  assert (f i <= rsum n f) by (apply IH; auto; lia). lra.
Qed.
Lemma rsum_app n m f : rsum (n + m) f = rsum n f + rsum m (fun i => f (n + i)%nat).
Proof.
  induction m as [|m IH].
  - rewrite Nat.add_0_r. simpl. lra.
  - rewrite Nat.add_succ_r. simpl. rewrite IH. lra.
Qed.
Lemma rsum_mult n m f : rsum (n * m) f = rsum n (fun i => rsum m (fun j => f (i * m + j)%nat)).
Proof.
  induction n as [|n IH]; [reflexivity|].
  replace (S n * m)%nat with (n * m + m)%nat by lia.
  rewrite rsum_app, IH. reflexivity.
Qed.
Lemma rsum_Sl n f : rsum (S n) f = f O + rsum n (fun i => f (S i)).
Proof. replace (S n) with (1 + n)%nat by lia. rewrite rsum_app. simpl. lra. Qed.
Lemma Rsum_seq_shift n k f : Rsum (map f (seq k n)) = rsum n (fun i => f (k + i)%nat).
Proof.
  revert k; induction n as [|n IH]; intros k; [reflexivity|].
  rewrite rsum_Sl. simpl. rewrite IH. rewrite Nat.add_0_r. f_equal.
  apply rsum_ext. intros i _. f_equal. lia.
Qed.
Lemma Rsum_seq n f : Rsum (map f (seq 0 n)) = rsum n f.
Proof. rewrite Rsum_seq_shift. reflexivity. Qed.
Lemma Rsum_rnth l : Rsum l = rsum (length l) (Rnth l).
Proof.
  induction l as [|a l IH]; [reflexivity|].
  simpl length. rewrite rsum_Sl. simpl. rewrite IH. f_equal.
Qed.
Lemma rsum_delta n k f : (k < n)%nat -> rsum n (fun i => if Nat.eqb i k then f i else 0) = f k.
Proof.
  induction n as [|n IH]; intros Hk; [lia|]. simpl.
  destruct (Nat.eqb_spec n k) as [->|].
  - rewrite rsum_0; [lra|]. intros i Hi. destruct (Nat.eqb_spec i k); [lia|reflexivity].
  - rewrite IH by lia. lra.
Qed.
Lemma rsum_delta' n k f : (k < n)%nat -> rsum n (fun i => if Nat.eqb k i then f i else 0) = f k.
Proof. intros. erewrite rsum_ext; [apply (rsum_delta n k f); auto|]. intros i _. cbv beta. now rewrite Nat.eqb_sym. Qed.
Lemma rsum_zero_all n f : (forall i, (i < n)%nat -> 0 <= f i) -> rsum n f = 0 -> forall i, (i < n)%nat -> f i = 0.
Proof.
  intros P E i Hi. pose proof (rsum_ge_term n f i Hi P). pose proof (P i Hi). lra.
Qed.
Lemma rsum_Rsum {A} n (f : nat -> A -> R) l :
  rsum n (fun i => Rsum (map (f i) l)) = Rsum (map (fun a => rsum n (fun i => f i a)) l).
Proof.
  rewrite <- Rsum_seq. rewrite Rsum_swap. apply Rsum_map_ext. intros a _. now rewrite Rsum_seq.
Qed.

(** lists built from functions *)
Definition tab {A} (n : nat) (f : nat -> A) : list A := map f (seq 0 n).
Lemma tab_length {A} n (f : nat -> A) : length (tab n f) = n.
Proof. unfold tab. now rewrite map_length, seq_length. Qed.
Lemma tab_nth {A} n (f : nat -> A) i d : (i < n)%nat -> nth i (tab n f) d = f i.
Proof.
  intros Hi. unfold tab. rewrite nth_indep with (d' := f O) by (rewrite map_length, seq_length; auto).
  rewrite map_nth, seq_nth; auto.
Qed.
Lemma list_eq_nth {A} (d : A) l m : length l = length m -> (forall i, (i < length l)%nat -> nth i l d = nth i m d) -> l = m.
Proof.
  revert m; induction l as [|a l IH]; destruct m as [|b m]; simpl; intros E N; try discriminate; auto.
  f_equal; [apply (N O); lia|]. apply IH; [lia|]. intros i Hi. apply (N (S i)). lia.
Qed.
Lemma tab_Rnth l : tab (length l) (Rnth l) = l.
Proof.
  apply (list_eq_nth 0); rewrite tab_length; auto. intros i Hi. now rewrite tab_nth.
Qed.
Lemma Rsum_tab n f : Rsum (tab n f) = rsum n f.
Proof. apply Rsum_seq. Qed.
Lemma Rnth_tab n f i : (i < n)%nat -> Rnth (tab n f) i = f i.
Proof. apply tab_nth. Qed.
Lemma tab_ext {A} n (f g : nat -> A) : (forall i, (i < n)%nat -> f i = g i) -> tab n f = tab n g.
Proof. intros E. unfold tab. apply map_ext_in. intros i Hi. apply in_seq in Hi. apply E. lia. Qed.
Lemma Forall_tab {A} (P : A -> Prop) n f : (forall i, (i < n)%nat -> P (f i)) -> Forall P (tab n f).
Proof. intros E. unfold tab. apply Forall_map, Forall_forall. intros i Hi. apply in_seq in Hi. apply E; lia. Qed.
