(** bayesloop/helper.py and bayesloop/preprocessing.py *)
From Coq Require Import List ZArith String.
From Verif Require Import Base.Num Base.Exn.
Import ListNotations.
Local Open Scope res_scope.

(** Arbitrarily nested Python lists/tuples. *)
Inductive nl (A : Type) : Type := Leaf (a : A) | Node (l : list (nl A)).
Arguments Leaf {A} a.
Arguments Node {A} l.

(** l[i] = v (i must be a valid index) *)
Fixpoint lset {A} (l : list A) (i : nat) (v : A) : list A :=
  match l, i with
  | [], _ => []
  | _ :: l', O => v :: l'
  | a :: l', S i' => a :: lset l' i' v
  end.

(** helper.py:11-23 assignNestedItem. The in-place update is modelled by returning the new list. An empty index raises
    (index[-1]); so does running out of range or indexing into a leaf. *)
Fixpoint assignNestedItem {A} (t : nl A) (idx : list nat) (v : A) : res (nl A) :=
  match idx, t with
  | [], _ => Err IndexError
  | _, Leaf _ => Err TypeError
  | i :: idx', Node l =>
      match nth_error l i with
      | None => Err IndexError
      | Some x =>
          match idx' with
          | [] => Ok (Node (lset l i (Leaf v)))
          | _ => let* x' := assignNestedItem x idx' v in Ok (Node (lset l i x'))
          end
      end
  end.

(** helper.py:26-44 recursiveIndex, for a string query. [[]] means "not found". *)
Fixpoint recursiveIndex (t : nl string) (q : string) {struct t} : list nat :=
  match t with
  | Leaf _ => []                                    (* only called on lists *)
  | Node l =>
      (fix go (i : nat) (l : list (nl string)) {struct l} : list nat :=
         match l with
         | [] => []
         | e :: l' =>
             match e with
             | Node _ => match recursiveIndex e q with
                         | [] => go (S i) l'
                         | path => i :: path
                         end
             | Leaf s => if String.eqb s q then [i] else go (S i) l'
             end
         end) O l
  end.

(** helper.py:47-62 flatten *)
Fixpoint flatten {A} (t : nl A) : list A :=
  match t with
  | Leaf a => [a]
  | Node l => flat_map flatten l
  end.

(** [x = lst; for i in path: x = x[i]] (core.py:684-686) *)
Fixpoint nlIndex {A} (t : nl A) (idx : list nat) : res (nl A) :=
  match idx, t with
  | [], _ => Ok t
  | _, Leaf _ => Err TypeError
  | i :: idx', Node l => match nth_error l i with None => Err IndexError | Some x => nlIndex x idx' end
  end.

Section Intervals.
  Context {F : Type} `{Num F}.
  (** np.linspace(start, stop, num): num = 1 gives [start] *)
  Definition linspace (start stop : F) (num : nat) : list F :=
    match num with
    | O => []
    | 1%nat => [start]
    | _ => map (fun i => fadd start (fmul (fofZ (Z.of_nat i))
                                          (fdiv (fsub stop start) (fofZ (Z.of_nat (num - 1)%nat)))))
               (seq 0 num)
    end.
  (** l[1:-1] *)
  Definition inner {A} (l : list A) : list A := removelast (tl l).
  (** helper.py:90-104 oint *)
  Definition oint (start stop : F) (num : nat) : list F := inner (linspace start stop (num + 2)).
  (** helper.py:107-120 cint *)
  Definition cint (start stop : F) (num : nat) : list F := linspace start stop num.
End Intervals.

(** preprocessing.py:14-26 movingWindow: [rawData[i:i+n] for i in range(len(rawData) - (n-1))]. A negative range is empty. *)
Definition movingWindow {A} (rawData : list A) (n : nat) : list (list A) :=
  map (fun i => firstn n (skipn i rawData)) (seq 0 (List.length rawData + 1 - n)).

(** core.py:350 self.rawTimestamps[segmentLength-1:] for segmentLength >= 1 *)
Definition formatTimestamps {A} (rawTimestamps : list A) (n : nat) : list A := skipn (n - 1) rawTimestamps.

(** numpy.array_split(l, k): the first (len mod k) parts have one element more *)
Fixpoint splitSizes {A} (l : list A) (sizes : list nat) : list (list A) :=
  match sizes with
  | [] => []
  | s :: sizes' => firstn s l :: splitSizes (skipn s l) sizes'
  end.
Definition array_split {A} (l : list A) (k : nat) : list (list A) :=
  let n := List.length l in
  splitSizes l (repeat (S (n / k)) (n mod k) ++ repeat (n / k) (k - n mod k))%nat.
