(** Python exceptions as values. *)
From Coq Require Import List.
Import ListNotations.

Inductive exn : Type :=
| ConfigurationError     (* bayesloop/exceptions.py *)
| PostProcessingError    (* bayesloop/exceptions.py *)
| NotImplementedError
| TypeError
| NameError
| ValueError
| IndexError
| AttributeError
| ZeroDivisionError.

Inductive res (A : Type) : Type := Ok (a : A) | Err (e : exn).
Arguments Ok {A} a.
Arguments Err {A} e.

Definition bind {A B} (r : res A) (f : A -> res B) : res B :=
  match r with Ok a => f a | Err e => Err e end.

Declare Scope res_scope.
Delimit Scope res_scope with res.
Notation "'let*' x ':=' r 'in' k" := (bind r (fun x => k))
  (at level 200, x pattern, r at level 100, k at level 200, right associativity) : res_scope.

(** [mapM f l]: list comprehension [f(x) for x in l] with exceptions *)
Fixpoint mapM {A B} (f : A -> res B) (l : list A) : res (list B) :=
  match l with
  | [] => Ok []
  | a :: l' => match f a with
               | Err e => Err e
               | Ok b => match mapM f l' with Err e => Err e | Ok bs => Ok (b :: bs) end
               end
  end.

(** [lst[i]] for a natural index *)
Definition index {A} (l : list A) (i : nat) : res A :=
  match nth_error l i with Some a => Ok a | None => Err IndexError end.

Definition require (b : bool) (e : exn) : res unit := if b then Ok tt else Err e.
