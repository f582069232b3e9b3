(** Hyper-parameters of nested transition models. *)
From Coq Require Import List String.
From Verif Require Import Base.Num Base.Exn Base.Arr Model.Helper Model.Tm.
Import ListNotations.

Section Names.
  Context {F : Type}.

  (** every (sub-)model has as many values as names *)
  Fixpoint named (m : tm F) : Prop :=
    match m with
    | TM _ names vals _ ms =>
        List.length names = List.length vals /\
        (fix all (l : list (tm F)) : Prop := match l with [] => True | x :: l' => named x /\ all l' end) ms
    end.

  (** all hyper-parameters with their values, sub-models before the model that contains them *)
  Fixpoint assocs (m : tm F) : list (string * hval F) :=
    match m with TM _ names vals _ ms => flat_map assocs ms ++ combine names vals end.

  (** the same model in which every hyper-parameter that [f] is defined for has the value given by [f] *)
  Fixpoint assign (f : string -> option (hval F)) (m : tm F) : tm F :=
    match m with
    | TM k names vals prior ms =>
        TM k names (map2 (fun n v => match f n with Some x => x | None => v end) names vals) prior (map (assign f) ms)
    end.

  (** the value listed for a name *)
  Fixpoint lookup {A} (l : list (string * A)) (n : string) : option A :=
    match l with
    | [] => None
    | (n', a) :: l' => if String.eqb n' n then Some a else lookup l' n
    end.

  (** not a plain Python list *)
  Definition plain (v : hval F) : Prop := match v with HList _ => False | _ => True end.

  (** Hyper-parameters with their hyper-priors, in the same order. A model with hyper-parameters has one prior for each
      of them in its attribute [prior]. *)
  Fixpoint priorPairs (m : tm F) : list (string * hprior F) :=
    match m with
    | TM _ names _ prior ms =>
        flat_map priorPairs ms ++ combine names (match prior with Some p => flatten p | None => [] end)
    end.
  Fixpoint onePriorEach (m : tm F) : Prop :=
    match m with
    | TM k names _ prior ms =>
        (names = [] /\ (forall n v, k <> KBreak n v) \/
         exists p, prior = Some p /\ List.length (flatten p) = List.length names) /\
        (fix all (l : list (tm F)) : Prop := match l with [] => True | x :: l' => onePriorEach x /\ all l' end) ms
    end.
End Names.

Section Built.
  Context {F : Type} `{Num F}.
  (** transition models that can be made with the constructors of transitionModels.py *)
  Inductive built : tm F -> Prop :=
  | b_static : built mkStatic
  | b_grw n v s p m : mkGRW n v s p = Ok m -> built m
  | b_alpha n1 v1 n2 v2 s p m : mkAlpha n1 v1 n2 v2 s p = Ok m -> built m
  | b_change n v p : built (mkChange n v p)
  | b_indep : built mkIndep
  | b_regime n v p : built (mkRegime n v p)
  | b_notEq n v p : built (mkNotEq n v p)
  | b_det fn args s p m : mkDet fn args s p = Ok m -> built m
  | b_biv n1 v1 n2 v2 n3 v3 p : built (mkBiv n1 v1 n2 v2 n3 v3 p)
  | b_break n v p : built (mkBreak n v p)
  | b_comb ms m : Forall built ms -> mkComb ms = Ok m -> built m
  | b_serial ms m : Forall built ms -> mkSerial ms = Ok m -> built m.
End Built.
