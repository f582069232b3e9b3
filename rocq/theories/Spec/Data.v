(** Operations on data sets that the properties about missing, re-ordered and multi-dimensional data refer to. *)
From Coq Require Import List Reals Permutation Bool.
From Verif Require Import Base.Num Base.Arr Model.Helper Model.Tm Model.HyperParams Model.Study.
Import ListNotations.

(** column j of a two-dimensional segment, number of columns *)
Definition column (rows : list (list (xnum R))) (j : nat) : list (xnum R) := map (fun row => nth j row NaN) rows.
Definition width (rows : list (list (xnum R))) : nat := List.length (hd [] rows).

(** A segment carries no information: one-dimensional data or multiply=False: some value is missing; multiply=True: in every
    dimension some value is missing. *)
Definition missing (multiply : bool) (s : seg R) : Prop :=
  match s with
  | Seg1 xs => In NaN xs
  | Seg2 rows =>
      if multiply then forall j, (j < width rows)%nat -> In NaN (column rows j)
      else exists row, In row rows /\ In NaN row
  end.

(** [insertedAt multiply d d' k]: d' is d with a missing datum inserted at position k *)
Inductive insertedAt (multiply : bool) : raw R -> raw R -> nat -> Prop :=
| ins_1 l1 l2 : insertedAt multiply (Raw1 (l1 ++ l2)) (Raw1 (l1 ++ NaN :: l2)) (List.length l1)
| ins_2 l1 l2 row : missing multiply (Seg2 [row]) ->
    insertedAt multiply (Raw2 (l1 ++ l2)) (Raw2 (l1 ++ row :: l2)) (List.length l1).

(** same data points in another order *)
Inductive reordered : raw R -> raw R -> Prop :=
| reo_1 l l' : Permutation l l' -> reordered (Raw1 l) (Raw1 l')
| reo_2 l l' : Permutation l l' -> reordered (Raw2 l) (Raw2 l').

(** components of a vector in the order p *)
Definition permute (p : list nat) (row : list (xnum R)) : list (xnum R) := map (fun j => nth j row NaN) p.

(** the first k data points, the data points after them *)
Definition rawFirstn {F} (k : nat) (d : raw F) : raw F :=
  match d with Raw1 l => Raw1 (firstn k l) | Raw2 l => Raw2 (firstn k l) end.
Definition rawSkipn {F} (k : nat) (d : raw F) : raw F :=
  match d with Raw1 l => Raw1 (skipn k l) | Raw2 l => Raw2 (skipn k l) end.
(** strictly increasing time stamps *)
Definition increasing (ts : list R) : Prop := forall i j, (i < j)%nat -> (j < List.length ts)%nat -> (nth i ts 0 < nth j ts 0)%R.

(** ** other priors *)
(** the same study with [p] assigned to observationModel.prior *)
Definition replacePrior {F L} (S : study F L) (p : priorSpec F) : study F L :=
  {| st_om := option_map (fun o => om_set_prior o p) (st_om S); st_tm := st_tm S; st_marg := st_marg S; st_shape := st_shape S;
     st_lat := st_lat S; st_tmlat := st_tmlat S; st_grid := st_grid S; st_raw := st_raw S; st_rawTs := st_rawTs S; st_fmt := st_fmt S;
     st_fmtTs := st_fmtTs S; st_post := st_post S; st_means := st_means S; st_logEv := st_logEv S; st_local := st_local S;
     st_sel := st_sel S; st_warn := st_warn S; st_shift := st_shift S; st_aconv := st_aconv S; st_bconv := st_bconv S |}.
(** [scaledBy c a b]: b is c times a, elementwise *)
Definition scaledBy {F} `{Num F} (c : F) (a b : list (xnum F)) : Prop := b = map (xmul (Fin c)) a.
(** a prior given as array, function or function with constant value; the values on the grid *)
Definition customValues {F L} (S : study F L) (p : priorSpec F) : option (list (xnum F)) :=
  match p with
  | PArr _ a => Some a
  | PFun f => Some (f (st_grid S))
  | PConst c => Some (repeat (Fin c) (natprod (st_shape S)))
  | PNone | PSym _ _ => None
  end.
(** both arrays (of the same shape), both functions or both functions with constant value *)
Definition sameSort {F} (p q : priorSpec F) : Prop :=
  match p, q with
  | PArr s _, PArr s' _ => s = s'
  | PFun _, PFun _ => True
  | PConst _, PConst _ => True
  | _, _ => False
  end.
