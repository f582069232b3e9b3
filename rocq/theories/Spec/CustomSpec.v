(** What custom observation models should mean: every parameter of the distribution takes the value supplied under its name. *)
From Coq Require Import List Reals String.
From Verif Require Import Base.Num Base.RSum Model.Helper Model.Study Spec.Config Spec.ObsSpec.
Import ListNotations.
Local Open Scope string_scope.
Local Open Scope R_scope.

(** parameter values at grid point x *)
Definition point (vs : list (list R)) (x : nat) : list R := map (fun k => parAt vs k x) (seq 0 (List.length vs)).

(** [supplied names pt fixed n v]: the parameter n has the value v: the k-th name goes with the k-th value of the grid point, fixed
    parameters keep their value, scipy's defaults are 0 for 'loc' and 1 for 'scale' *)
Inductive supplied (names : list string) (pt : list R) (fixed : list (string * R)) : string -> R -> Prop :=
| sup_free k n v : nth_error names k = Some n -> nth_error pt k = Some v -> supplied names pt fixed n v
| sup_fixed n v : In (n, v) fixed -> supplied names pt fixed n v
| sup_loc : ~ In "loc" names -> ~ In "loc" (map fst fixed) -> supplied names pt fixed "loc" 0
| sup_scale : ~ In "scale" names -> ~ In "scale" (map fst fixed) -> supplied names pt fixed "scale" 1.
(** the same without fixed parameters and defaults *)
Definition named (names : list string) (pt : list R) (n : string) (v : R) : Prop :=
  exists k, nth_error names k = Some n /\ nth_error pt k = Some v.

(** likelihoods of independent observations: [f d x] for the datum d at grid point x, one if it is missing; vectors: product over the
    components *)
Definition datumLik (f : R -> nat -> R) (d : xnum R) (x : nat) : R := match d with Fin r => f r x | _ => 1 end.
Definition dataLik (f : R -> nat -> R) (d : raw R) (i x : nat) : R :=
  match d with
  | Raw1 l => datumLik f (nth i l NaN) x
  | Raw2 rows => Rprod (map (fun v => datumLik f v x) (nth i rows []))
  end.
