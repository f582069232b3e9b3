(** bayesloop/core.py: the beginning of Study.optimize, with the state of the study when an exception is raised. *)
From Coq Require Import List String.
From Verif Require Import Base.Num Base.Exn Base.Arr Model.Helper Model.Tm Model.HyperParams Model.Study Model.Optimize.
Import ListNotations.

Section OptimizeStart.
  Context {F L : Type} `{Num F} `{LogNum F L}.

  (** core.py:506-533: everything before the minimiser is called. The study afterwards, and the starting values or the
      exception. Line 510 stores the list itself (later changes of the list by the caller are not modelled). *)
  Definition optimizeStart (S : study F L) (names : nameArg) : study F L * res (list (nl (hval F))) :=
    let S1 := set_sel S (namesOf names) in
    match checkConsistency S1 with
    | Err e => (S1, Err e)
    | Ok (_, m) =>
        let S2 := set_sel S1 (match st_sel S1 with [] => defaultSelection m | l => l end) in
        match getSelected (st_sel S2) m with
        | Err e => (S2, Err e)
        | Ok [] => (set_sel S2 [], Err ConfigurationError)
        | Ok x0 => (S2, Ok x0)
        end
    end.

  (** core.py:488-547 if the minimiser raises [e] before it evaluates the log-evidence, as it does for a keyword
      argument it does not know: the study afterwards *)
  Definition optimizeAborted (S : study F L) (names : nameArg) (e : exn) : study F L * exn :=
    match optimizeStart S names with (S1, Err e1) => (S1, e1) | (S1, Ok _) => (S1, e) end.
End OptimizeStart.
