(** What single steps of transition models are supposed to do. *)
From Coq Require Import List ZArith Reals String Bool.
From Verif Require Import Base.Num Base.Exn Base.Arr Base.RSum Model.Helper Model.Tm Spec.Kernel Spec.Hmm Spec.Config.
Import ListNotations.
Local Open Scope R_scope.

(** A transition model of a study with observation model: one positive lattice constant and one axis per parameter *)
Record regular (e : env R) : Prop := {
  rg_names : List.length (e_names e) = List.length (e_shape e);
  rg_lat : List.length (e_lat e) = List.length (e_shape e);
  rg_pos : Forall (fun l => 0 < l) (e_lat e);
  rg_tmlat : e_tmlat e = e_lat e;
  rg_size : (0 < e_size e)%nat
}.

(** grid points x and y differ at most in the coordinate of axis a *)
Definition sameLine (shape : list nat) (a x y : nat) : Prop :=
  forall b, b <> a -> nth b (unravel shape x) O = nth b (unravel shape y) O.

(** probabilities after one transition with probabilities K x y *)
Definition moved (N : nat) (K : kern) (p : list R) : list R := tab N (fun y => rsum N (fun x => Rnth p x * K x y)).

(** raised to the floor c where smaller *)
Definition floored (c : R) (p : list R) : list R := map (Rmax c) p.
Definition scaled1 (p : list R) : list R := map (fun x => x / Rsum p) p.
Definition largest (p : list R) : R := fold_right Rmax 0 p.
Definition uniform (p : list R) : Prop := forall i j, (i < List.length p)%nat -> (j < List.length p)%nat -> Rnth p i = Rnth p j.

(** ** structural breaks *)
Definition isChange {F} (m : tm F) : bool := match tmKind m with KChange => true | _ => false end.
Definition isStruct {F} (m : tm F) : bool := isBreak m || isChange m.
(** name and value of a break- or change-point *)
Definition structName {F} (m : tm F) : string := match tmKind m with KBreak n _ => n | _ => hd EmptyString (tmNames m) end.
Definition structValue {F} (m : tm F) : hval F := match tmKind m with KBreak _ v => v | _ => hd HNone (tmVals m) end.
(** a number, a non-empty array or 'all' *)
Definition usable {F} (v : hval F) : Prop := match v with HNum _ | HAll => True | HArr xs | HList xs => xs <> [] | HNone => False end.
Definition first {F} (v : hval F) : option F := match v with HNum x => Some x | HArr (x :: _) | HList (x :: _) => Some x | _ => None end.
(** each first value is smaller than the next one, if neither is 'all' *)
Fixpoint neighboursIncrease (l : list (option R)) : Prop :=
  match l with
  | Some a :: ((Some b :: _) as l') => a < b /\ neighboursIncrease l'
  | _ :: l' => neighboursIncrease l'
  | [] => True
  end.
(** the break times that have passed at time t *)
Definition passed (bs : list R) (t : R) : list R := filter (fun b => if Rle_dec b t then true else false) bs.
Definition strictlyIncreasing (bs : list R) : Prop := forall i j, (i < j)%nat -> (j < List.length bs)%nat -> nth i bs 0 < nth j bs 0.
(** times of the change-points among the arguments of a serial model *)
Definition changePoints (args : list (tm R)) : list R := map (fun m => numOf (structValue m)) (filter isChange args).
(** the sub-models among the arguments of a serial model *)
Definition subModels {F} (args : list (tm F)) : list (tm F) := filter (fun m => negb (isStruct m)) args.
(** time of the break that belongs to sub-model i; 0 for the first sub-model *)
Definition startOf (bs : list R) (i : nat) : R := match i with O => 0 | S j => nth j bs 0 end.
(** values of the prior of the parameters on the grid (before normalisation) *)
Definition priorValues (e : env R) (g : list R) : Prop :=
  match e_prior e with
  | PNone | PSym _ _ => g = repeat 1 (e_size e)
  | PArr _ a => a = map Fin g
  | PFun f => f (e_grid e) = map Fin g
  | PConst _ => False
  end.
(** the functions of a list one after the other; stops at the first exception *)
Fixpoint inOrder {A} (fs : list (A -> res A)) (x : A) : res A :=
  match fs with
  | [] => Ok x
  | f :: fs' => match f x with Ok y => inOrder fs' y | Err e => Err e end
  end.
(** a combined transition model, with the sub-models of its direct combined sub-models in their place *)
Definition flatten1 {F} (ms : list (tm F)) : list (tm F) :=
  flat_map (fun m => match tmKind m with KComb => tmModels m | _ => [m] end) ms.
