(** Sequences of calls on a Study object. *)
From Coq Require Import List ZArith String Bool.
From Verif Require Import Base.Num Base.Exn Base.Arr Model.Helper Model.Tm Model.HyperParams Model.Study.
Import ListNotations.
Local Open Scope res_scope.

Section Api.
  Context {F L : Type} `{Num F} `{LogNum F L}.
  Notation arr := (list (xnum F)).

  (** core.py:46-66 Study.__init__ *)
  Definition newStudy (sh : nat -> F -> arr -> arr) (ac : nat -> F -> F -> arr -> arr) (bc : F -> F -> F -> arr -> arr)
    : study F L :=
    {| st_om := None; st_tm := None; st_marg := []; st_shape := []; st_lat := []; st_tmlat := []; st_grid := [];
       st_raw := Raw1 []; st_rawTs := None; st_fmt := []; st_fmtTs := []; st_post := []; st_means := [];
       st_logEv := Fin l0; st_local := []; st_sel := []; st_warn := 0; st_shift := sh; st_aconv := ac; st_bconv := bc |}.

  (** A call of loadData, setObservationModel, setTransitionModel or fit *)
  Inductive call : Type :=
  | CLoad (d : raw F) (ts : option (list F))
  | CSetOM (o : om F)
  | CSetTM (m : tm F)
  | CFit (forwardOnly evidenceOnly : bool).

  Definition runCall (S : study F L) (c : call) : res (study F L) :=
    match c with
    | CLoad d ts => Ok (loadData S d ts)
    | CSetOM o => setOM S o
    | CSetTM m => setTM S m
    | CFit fo eo => fit S fo eo
    end.
  Fixpoint runCalls (S : study F L) (cs : list call) : res (study F L) :=
    match cs with
    | [] => Ok S
    | c :: cs' => let* S' := runCall S c in runCalls S' cs'
    end.

  (** core.py:293-328 set(obs. and transition models): at most one of each kind; models before an offending one have
      already been set *)
  Inductive anyModel : Type := MObs (o : om F) | MTrans (m : tm F) | MOther.
  Fixpoint setModels (S : study F L) (args : list anyModel) (hasOM hasTM : bool) : res (study F L) :=
    match args with
    | [] => Ok S
    | MObs o :: args' =>
        if hasOM then Err ConfigurationError else let* S' := setOM S o in setModels S' args' true hasTM
    | MTrans m :: args' =>
        if hasTM then Err ConfigurationError else let* S' := setTM S m in setModels S' args' hasOM true
    | MOther :: _ => Err ConfigurationError
    end.
End Api.
Arguments call : clear implicits.
Arguments anyModel : clear implicits.
