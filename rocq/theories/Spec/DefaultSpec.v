(** Specification: the parameter values that the built-in observation models choose by themselves. *)
From Coq Require Import List Reals.
From Verif Require Import Base.Num Base.Arr Base.RSum Model.Helper Model.Study.
Import ListNotations.
Local Open Scope R_scope.

(** the numbers among the data (NaN = missing) *)
Fixpoint numbersIn (l : list (xnum R)) : list R :=
  match l with
  | [] => []
  | Fin x :: l' => x :: numbersIn l'
  | _ :: l' => numbersIn l'
  end.
Definition numbers (d : raw R) : list R := match d with Raw1 l => numbersIn l | Raw2 rows => numbersIn (List.concat rows) end.
(** the first component of every data point *)
Definition firstsRaw (d : raw R) : raw R := match d with Raw1 l => Raw1 l | Raw2 rows => Raw1 (map (hd NaN) rows) end.
Definition firsts (d : raw R) : list R := numbers (firstsRaw d).
Definition varies (l : list R) : Prop := exists x y, In x l /\ In y l /\ x <> y.

Definition mean (l : list R) : R := Rsum l / INR (List.length l).
Definition variance (l : list R) : R := Rsum (map (fun x => (x - mean l) ^ 2) l) / INR (List.length l).
Definition std (l : list R) : R := sqrt (variance l).
Definition isMax (M : R) (l : list R) : Prop := In M l /\ forall x, In x l -> x <= M.
Definition isMin (M : R) (l : list R) : Prop := In M l /\ forall x, In x l -> M <= x.

(** n evenly spaced values from [a] to [b], with and without the ends *)
Definition closedGrid (a b : R) (n : nat) (g : list R) : Prop :=
  List.length g = n /\ forall i, (i < n)%nat -> nth i g 0 = a + INR i * ((b - a) / (INR n - 1)).
Definition openGrid (a b : R) (n : nat) (g : list R) : Prop :=
  List.length g = n /\ forall i, (i < n)%nat -> nth i g 0 = a + (INR i + 1) * ((b - a) / (INR n + 1)).
