(** bayesloop/core.py: Study.optimize *)
From Coq Require Import List ZArith String Bool Arith.
From Verif Require Import Base.Num Base.Exn Base.Arr Model.Helper Model.Tm Model.HyperParams Model.Study.
Import ListNotations.
Local Open Scope res_scope.

Section Optimize.
  Context {F L : Type} `{Num F} `{LogNum F L}.

  (** scipy.optimize.minimize (core.py:536) as a procedure of its own: it evaluates the objective at a point and goes on
      depending on the value, or ends with the point in result.x, or raises an exception. Which points it chooses is left
      open. *)
  Inductive minimiser : Type :=
  | Return (x : list F)
  | Ask (x : list F) (next : xnum L -> minimiser)
  | Fail (e : exn).

  Definition set_sel (S : study F L) (sel : list string) : study F L :=
    {| st_om := st_om S; st_tm := st_tm S; st_marg := st_marg S; st_shape := st_shape S; st_lat := st_lat S; st_tmlat := st_tmlat S;
       st_grid := st_grid S; st_raw := st_raw S; st_rawTs := st_rawTs S; st_fmt := st_fmt S; st_fmtTs := st_fmtTs S;
       st_post := st_post S; st_means := st_means S; st_logEv := st_logEv S; st_local := st_local S; st_sel := sel;
       st_warn := st_warn S; st_shift := st_shift S; st_aconv := st_aconv S; st_bconv := st_bconv S |}.

  (** unary minus *)
  Definition xlneg (v : xnum L) : xnum L :=
    match v with Fin l => Fin (lsub l0 l) | PInf => NInf | NInf => PInf | NaN => NaN end.

  (** core.py:556-557 and 540-541: self._setSelectedHyperParameters(x) on the study *)
  Definition setPoint (S : study F L) (x : list F) : res (study F L) :=
    match st_tm S with
    | None => Err ConfigurationError
    | Some m =>
        let '(m', ex) := setSelected (st_sel S) m (map HNum x) in
        match ex with Some e => Err e | None => Ok (set_tm S m' (st_tmlat S)) end
    end.

  (** core.py:549-565 _optimizationStep; the study afterwards and the value *)
  Definition optimizationStep (S : study F L) (x : list F) : res (study F L * xnum L) :=
    let* S1 := setPoint S x in
    let* S2 := fit S1 false true in
    Ok (S2, xlneg (st_logEv S2)).

  (** core.py:536 *)
  Fixpoint minimize (p : minimiser) (S : study F L) : res (study F L * list F) :=
    match p with
    | Return x => Ok (S, x)
    | Fail e => Err e
    | Ask x next =>
        let* r := optimizationStep S x in
        let '(S1, v) := r in
        minimize (next v) S1
    end.

  (** core.py:506-511: a single name, or a list of names *)
  Inductive nameArg : Type := OneName (s : string) | Names (l : list string).
  Definition namesOf (a : nameArg) : list string := match a with OneName s => [s] | Names l => l end.

  (** core.py:520-524 *)
  Definition defaultSelection (m : tm F) : list string :=
    filter (fun x => negb (existsb (String.eqb x) (changepointNames m ++ breakpointNames m))) (allNames m).

  (** core.py:488-547 optimize; [min] is the minimiser when started at x0 (it gets the list as built by
      _unpackSelectedHyperParameters) *)
  Definition optimize (S : study F L) (names : nameArg) (forwardOnly : bool) (min : list (nl (hval F)) -> minimiser)
    : res (study F L) :=
    let* om_tm := checkConsistency S in
    let '(_, m) := om_tm in
    let sel := match namesOf names with [] => defaultSelection m | l => l end in
    let* x0 := getSelected sel m in
    match x0 with
    | [] => Err ConfigurationError
    | _ =>
        let* r := minimize (min x0) (set_sel S sel) in
        let '(S1, x) := r in
        let* S2 := setPoint S1 x in
        let* S3 := fit S2 forwardOnly false in
        Ok (set_sel S3 [])
    end.
End Optimize.
Arguments minimiser : clear implicits.
