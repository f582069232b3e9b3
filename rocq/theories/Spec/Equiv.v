(** Specification: transition models that can be exchanged for each other. *)
From Coq Require Import List Reals String.
From Verif Require Import Base.Num Model.Tm Spec.Dist.
Import ListNotations.
Local Open Scope R_scope.

(** the times at which the transitions between the data points are made: forwards at the time of a point, backwards one before the time
    of the next point *)
Definition transitionTime (ts : list R) (t : R) : Prop :=
  exists i, (S i < List.length ts)%nat /\ (t = nth i ts 0 \/ t = nth (S i) ts 0 - 1).

(** models without sub-models, up to the names and priors of their hyper-parameters *)
Definition static : tm R := TM KStatic [] [] None [].
Definition change (tc : R) : tm R := TM KChange [] [HNum tc] None [].
Definition indep : tm R := TM KIndep [] [] None [].
Definition comb (ms : list (tm R)) : tm R := TM KComb [] [] None ms.
Definition serial (mask : list bool) (bs : list R) (ms : list (tm R)) : tm R := TM (KSerial mask) [] (map HNum bs) None ms.

(** how many of the break times have been reached at time [t] *)
Definition reached (bs : list R) (t : R) : nat := List.length (filter (fun b => if Rle_dec b t then true else false) bs).
(** the break times that are change-points *)
Definition changeTimes (mask : list bool) (bs : list R) : list R := map snd (filter fst (combine mask bs)).

(** Exchangeable models for a study with the parameters [names] and transitions at the times [T]. *)
Inductive equiv (names : list string) (T : R -> Prop) : tm R -> tm R -> Prop :=
| eq_same m : runnable names m -> equiv names T m m
| eq_back m m' : equiv names T m m' -> equiv names T m' m
| eq_then m m' m'' : equiv names T m m' -> equiv names T m' m'' -> equiv names T m m''
(* names and priors of hyper-parameters do not matter *)
| eq_labels k hn hn' vals p p' ms : runnable names (TM k hn vals p ms) -> equiv names T (TM k hn vals p ms) (TM k hn' vals p' ms)
(* sub-models may be exchanged *)
| eq_comb ms ms' : Forall2 (equiv names T) ms ms' -> equiv names T (comb ms) (comb ms')
| eq_serial mask bs ms ms' : List.length ms = S (List.length bs) -> Forall2 (equiv names T) ms ms' ->
    equiv names T (serial mask bs ms) (serial mask bs ms')
(* a random walk without width does not move *)
| eq_walk s w : In s names -> w <= 0 -> equiv names T (TM (KGRW s) [] [HNum w] None []) static
(* a change-point that is never met *)
| eq_never tc : ~ T tc -> equiv names T (change tc) static
(* combinations of no model, of one model, within each other *)
| eq_none : equiv names T (comb []) static
| eq_one m : runnable names m -> equiv names T (comb [m]) m
| eq_nested a b c : Forall (runnable names) (a ++ b ++ c) -> equiv names T (comb (a ++ comb b :: c)) (comb (a ++ b ++ c))
(* what happens before everything is forgotten does not matter *)
| eq_forget a : Forall (runnable names) a -> equiv names T (comb (a ++ [indep])) indep
(* change-points may be repeated and given in any order *)
| eq_twice tc : equiv names T (comb [change tc; change tc]) (change tc)
| eq_swap tc tc' : equiv names T (comb [change tc; change tc']) (comb [change tc'; change tc])
(* serial models that never leave a phase, or whose sub-models are all the same *)
| eq_phase mask bs ms i m : List.length ms = S (List.length bs) -> Forall (runnable names) ms ->
    (forall t, T t -> reached bs t = i) -> nth_error ms i = Some m ->
    equiv names T (serial mask bs ms) (comb (m :: map change (changeTimes mask bs)))
| eq_uniform mask bs m : runnable names m ->
    equiv names T (serial mask bs (repeat m (S (List.length bs)))) (comb (m :: map change (changeTimes mask bs))).
