(** Path sums by recursion: forward and backward vectors. *)
From Coq Require Import List Reals Lra Lia Arith.
From Verif Require Import Base.RSum Spec.Hmm.
Import ListNotations.
Local Open Scope R_scope.

Lemma Rprod_seq_S f n : Rprod (map f (seq 0 (S n))) = f O * Rprod (map (fun j => f (S j)) (seq 0 n)).
Proof. cbn [seq map]. rewrite <- seq_shift, map_map. reflexivity. Qed.

Section Hmm.
  Variable N : nat.
  Variable trans : nat -> nat -> nat -> R.

  (** weight of a path that starts at observation i with weight function [init]; [Ls]: likelihoods from i on *)
  Fixpoint pw (init : nat -> R) (i : nat) (Ls : list (nat -> R)) (w : list nat) : R :=
    match Ls, w with
    | L :: Ls', x :: w' => init x * L x * pw (trans i x) (S i) Ls' w'
    | _, _ => 1
    end.

  (** total weight *)
  Fixpoint tot (init : nat -> R) (i : nat) (Ls : list (nat -> R)) : R :=
    match Ls with
    | [] => 1
    | L :: Ls' => rsum N (fun x => init x * L x * tot (trans i x) (S i) Ls')
    end.

  (** weight of the observations after i, given state x at i *)
  Definition nxt (i : nat) (Ls : list (nat -> R)) (x : nat) : R := tot (trans i x) (S i) Ls.

  Definition push (i : nat) (v : nat -> R) (y : nat) : R := rsum N (fun x => v x * trans i x y).

  Lemma tot_paths Ls : forall init i,
    Rsum (map (pw init i Ls) (paths N (length Ls))) = tot init i Ls.
  Proof.
    induction Ls as [|L Ls IH]; intros init i; simpl; [lra|].
    rewrite flat_map_concat_map, concat_map, map_map.
    rewrite <- flat_map_concat_map, Rsum_flat_map, <- Rsum_seq.
    apply Rsum_map_ext. intros x _. rewrite map_map. simpl.
    rewrite Rsum_map_scal. now rewrite IH.
  Qed.

  Lemma tot_linear Ls : Ls <> [] -> forall i (v : nat -> R) (K : nat -> nat -> R) n,
    tot (fun y => rsum n (fun x => v x * K x y)) i Ls = rsum n (fun x => v x * tot (K x) i Ls).
  Proof.
    destruct Ls as [|L Ls]; [tauto|]. intros _ i v K n. simpl.
    erewrite rsum_ext; [|intros y _; rewrite Rmult_assoc, <- rsum_scal_r; reflexivity].
    rewrite rsum_swap. apply rsum_ext. intros x _.
    rewrite <- rsum_scal. apply rsum_ext. intros y _. ring.
  Qed.

  (** [Ls = []] is covered if the mass of v is one *)
  Lemma tot_push Ls i v : (Ls = [] -> rsum N v = 1) ->
    tot (push i v) (S i) Ls = rsum N (fun x => v x * nxt i Ls x).
  Proof.
    intros E. destruct Ls as [|L Ls].
    - unfold nxt. simpl. transitivity (rsum N v); [symmetry; auto|]. apply rsum_ext. intros; lra.
    - unfold push, nxt. now apply tot_linear.
  Qed.

  Lemma tot_scal Ls i c v : (Ls = [] -> c = 1) -> tot (fun x => c * v x) i Ls = c * tot v i Ls.
  Proof.
    destruct Ls as [|L Ls]; simpl; intros E.
    - rewrite E; auto; lra.
    - rewrite <- rsum_scal. apply rsum_ext. intros; ring.
  Qed.

  Lemma tot_ext Ls i v w : (forall x, (x < N)%nat -> v x = w x) -> tot v i Ls = tot w i Ls.
  Proof. destruct Ls; simpl; intros E; auto. apply rsum_ext. intros x Hx. now rewrite E. Qed.

  Lemma tot_nonneg Ls : Forall (fun L => forall x, (x < N)%nat -> 0 <= L x) Ls ->
    (forall i x y, (x < N)%nat -> (y < N)%nat -> 0 <= trans i x y) ->
    forall i v, (forall x, (x < N)%nat -> 0 <= v x) -> 0 <= tot v i Ls.
  Proof.
    intros HL HK. induction HL as [|L Ls HL1 HL IH]; simpl; intros i v Hv; [lra|].
    apply rsum_nonneg. intros x Hx. apply Rmult_le_pos; [apply Rmult_le_pos; auto|]. apply IH. auto.
  Qed.

  (** joint weight of being in state x, [k] observations later *)
  Fixpoint jnt (init : nat -> R) (i : nat) (Ls : list (nat -> R)) (k : nat) (x : nat) : R :=
    match Ls with
    | [] => 0
    | L :: Ls' =>
        match k with
        | O => init x * L x * nxt i Ls' x
        | S k' => jnt (push i (fun y => init y * L y)) (S i) Ls' k' x
        end
    end.

  Lemma jnt_ext_all k : forall Ls i v w x, (forall y, v y = w y) -> jnt v i Ls k x = jnt w i Ls k x.
  Proof.
    induction k as [|k IHk]; destruct Ls as [|L' Ls]; intros j f g x E; simpl; auto.
    - now rewrite E.
    - apply IHk; auto. intros y. unfold push. apply rsum_ext. intros z Hz. now rewrite E.
  Qed.

  Lemma jnt_linear k : forall Ls i (v : nat -> R) (K : nat -> nat -> R) n x,
    jnt (fun y => rsum n (fun z => v z * K z y)) i Ls k x = rsum n (fun z => v z * jnt (K z) i Ls k x).
  Proof.
    induction k as [|k IH]; destruct Ls as [|L Ls]; intros i v K n x; simpl.
    - rewrite rsum_0; auto; intros; lra.
    - rewrite Rmult_assoc, <- rsum_scal_r. apply rsum_ext. intros; ring.
    - rewrite rsum_0; auto; intros; lra.
    - assert (E : forall y, push i (fun y => rsum n (fun z => v z * K z y) * L y) y
                            = rsum n (fun z => v z * push i (fun y => K z y * L y) y)).
      { intros y. unfold push.
        erewrite rsum_ext; [|intros a _; rewrite Rmult_assoc, <- rsum_scal_r; reflexivity].
        rewrite rsum_swap. apply rsum_ext. intros z _. rewrite <- rsum_scal. apply rsum_ext. intros; ring. }
      rewrite <- IH. apply jnt_ext_all. exact E.
  Qed.

  Lemma jnt_ext k : forall Ls i v w x, (x < N)%nat -> (forall y, (y < N)%nat -> v y = w y) -> jnt v i Ls k x = jnt w i Ls k x.
  Proof.
    induction k as [|k IHk]; destruct Ls as [|L' Ls]; intros j f g x Hx E; simpl; auto.
    - now rewrite E.
    - apply IHk; auto. intros y _. unfold push. apply rsum_ext. intros z Hz. now rewrite E.
  Qed.

  Lemma jnt_paths Ls : forall init i k x, (k < length Ls)%nat -> (x < N)%nat ->
    Rsum (map (pw init i Ls) (filter (fun w => Nat.eqb (nth k w O) x) (paths N (length Ls)))) = jnt init i Ls k x.
  Proof.
    induction Ls as [|L Ls IH]; intros init i k x Hk Hx; [simpl in Hk; lia|].
    rewrite Rsum_filter. cbn [length paths].
    rewrite flat_map_concat_map, concat_map, map_map.
    rewrite <- flat_map_concat_map, Rsum_flat_map.
    destruct k as [|k].
    - rewrite Rsum_seq.
      erewrite rsum_ext; [apply (rsum_delta N x (fun y => init y * L y * tot (trans i y) (S i) Ls)); auto|].
      intros y Hy. cbn beta. rewrite map_map.
      cbn [nth]. destruct (Nat.eqb y x).
      + rewrite <- tot_paths. cbn [pw]. now rewrite Rsum_map_scal.
      + apply Rsum_map_0. auto.
    - cbn [jnt]. unfold push. rewrite jnt_linear. rewrite Rsum_seq. apply rsum_ext. intros y Hy.
      rewrite map_map. cbn [nth pw]. rewrite <- IH by (simpl in Hk; auto; lia).
      rewrite Rsum_filter. rewrite <- Rsum_map_scal. apply Rsum_map_ext. intros w _.
      destruct (Nat.eqb (nth k w O) x); lra.
  Qed.

  (** The readable path weight is [pw]. *)
  Lemma pathWeight_pw_aux (lik : nat -> nat -> R) : forall w x0 i init,
    pw init i (map (fun j => lik (i + j)%nat) (seq 0 (length (x0 :: w)))) (x0 :: w)
    = init x0
      * Rprod (map (fun j => trans (i + j)%nat (nth j (x0 :: w) O) (nth (S j) (x0 :: w) O)) (seq 0 (length w)))
      * Rprod (map (fun j => lik (i + j)%nat (nth j (x0 :: w) O)) (seq 0 (S (length w)))).
  Proof.
    induction w as [|x1 w IH]; intros x0 i init.
    - simpl. rewrite Nat.add_0_r. lra.
    - change (init x0 * lik (i + 0)%nat x0
              * pw (trans i x0) (S i) (map (fun j : nat => lik (i + j)%nat) (seq 1 (length (x1 :: w)))) (x1 :: w)
              = init x0
                * Rprod (map (fun j : nat => trans (i + j)%nat (nth j (x0 :: x1 :: w) O) (nth (S j) (x0 :: x1 :: w) O))
                             (seq 0 (S (length w))))
                * Rprod (map (fun j : nat => lik (i + j)%nat (nth j (x0 :: x1 :: w) O)) (seq 0 (S (S (length w)))))).
      assert (E : forall n, map (fun j : nat => lik (i + j)%nat) (seq 1 n)
              = map (fun j : nat => lik (S i + j)%nat) (seq 0 n)).
      { intros n. rewrite <- seq_shift, map_map. apply map_ext. intros a. f_equal. lia. }
      rewrite E, IH.
      rewrite (Rprod_seq_S (fun j : nat => trans (i + j)%nat (nth j (x0 :: x1 :: w) O) (nth (S j) (x0 :: x1 :: w) O))).
      rewrite (Rprod_seq_S (fun j : nat => lik (i + j)%nat (nth j (x0 :: x1 :: w) O))).
      rewrite !Nat.add_0_r.
      match goal with |- _ * _ * (_ * ?A * ?B) = _ * (_ * ?A') * (_ * ?B') =>
        assert (EA : A' = A); [|assert (EB : B' = B); [|rewrite EA, EB; cbn [nth]; ring]]
      end.
      { f_equal. apply map_ext. intros j. now replace (i + S j)%nat with (S i + j)%nat by lia. }
      { f_equal. apply map_ext. intros j. now replace (i + S j)%nat with (S i + j)%nat by lia. }
  Qed.

  Lemma pathWeight_pw lik init w :
    pathWeight init trans lik w = pw init 0 (map lik (seq 0 (length w))) w.
  Proof.
    destruct w as [|x0 w]; [reflexivity|].
    pose proof (pathWeight_pw_aux lik w x0 0 init) as E. cbn [Nat.add] in E.
    etransitivity; [|symmetry; exact E]. unfold pathWeight. replace (length (x0 :: w) - 1)%nat with (length w) by (simpl; lia). reflexivity.
  Qed.

  Lemma paths_length n : forall w, In w (paths N n) -> length w = n.
  Proof.
    induction n as [|n IH]; simpl; intros w.
    - intros [<-|[]]. reflexivity.
    - rewrite in_flat_map. intros (x & _ & Hw). apply in_map_iff in Hw. destruct Hw as (w' & <- & Hw).
      simpl. now rewrite IH.
  Qed.

  Lemma evidence_tot n init lik : evidence N n init trans lik = tot init 0 (map lik (seq 0 n)).
  Proof.
    unfold evidence. rewrite <- tot_paths, map_length, seq_length. apply Rsum_map_ext.
    intros w Hw. rewrite pathWeight_pw. apply paths_length in Hw. now rewrite Hw.
  Qed.

  Lemma jointAt_jnt n init lik i x : (i < n)%nat -> (x < N)%nat ->
    jointAt N n init trans lik i x = jnt init 0 (map lik (seq 0 n)) i x.
  Proof.
    intros Hi Hx. unfold jointAt. rewrite <- jnt_paths; auto; rewrite map_length, seq_length; auto.
    apply Rsum_map_ext. intros w Hw. rewrite pathWeight_pw. apply filter_In in Hw. destruct Hw as [Hw _].
    apply paths_length in Hw. now rewrite Hw.
  Qed.
End Hmm.
