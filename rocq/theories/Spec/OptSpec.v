(** Optimisation of hyper-parameters, stated without the loops of the code. *)
From Coq Require Import List ZArith String Bool Arith.
From Verif Require Import Base.Num Base.Exn Base.Arr Model.Helper Model.Tm Model.HyperParams Model.Study Model.Optimize Spec.Names.
Import ListNotations.

Section OptSpec.
  Context {F L : Type} `{Num F} `{LogNum F L}.

  (** the transition model [m] in which the hyper-parameters [sel] have the values [x] and all others the ones they had *)
  Definition atPoint (m : tm F) (sel : list string) (x : list F) : tm F := assign (lookup (combine sel (map HNum x))) m.
  (** the study with another transition model of the same grid *)
  Definition withModel (S : study F L) (m : tm F) : study F L := set_tm S m (st_tmlat S).

  (** the objective: minus the log-evidence of the study as it was before the optimisation, with the given values *)
  Definition objective (S : study F L) (m : tm F) (sel : list string) (x : list F) : res (xnum L) :=
    match fit (withModel S (atPoint m sel x)) false true with
    | Ok A => Ok (xlneg (st_logEv A))
    | Err e => Err e
    end.

  (** what a minimiser ends with when its questions are answered by [f] *)
  Fixpoint outcome (f : list F -> res (xnum L)) (p : minimiser F L) : res (list F) :=
    match p with
    | Return x => Ok x
    | Fail e => Err e
    | Ask x next => match f x with Ok v => outcome f (next v) | Err e => Err e end
    end.
  (** it only asks for, and ends with, points of [n] numbers *)
  Fixpoint sized (n : nat) (p : minimiser F L) : Prop :=
    match p with
    | Return x => List.length x = n
    | Fail _ => True
    | Ask x next => List.length x = n /\ forall v, sized n (next v)
    end.

  (** [n] is the name of a change-point or a break-point somewhere in the model *)
  Inductive point : tm F -> string -> Prop :=
  | pt_change names vals p ms n : In n names -> point (TM KChange names vals p ms) n
  | pt_break mask names vals p ms n : In n names -> point (TM (KSerial mask) names vals p ms) n
  | pt_sub k names vals p ms m n : In m ms -> point m n -> point (TM k names vals p ms) n.

  (** the results of one analysis are those of another one *)
  Definition resultsOf (A B : study F L) : Prop :=
    st_logEv A = st_logEv B /\ st_post A = st_post B /\ st_local A = st_local B /\ st_fmtTs A = st_fmtTs B /\
    (st_logEv B <> NInf -> st_means A = st_means B).
End OptSpec.
