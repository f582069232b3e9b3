(** Specification: another origin of time. *)
From Coq Require Import List ZArith Reals String Bool.
From Verif Require Import Base.Num Base.Arr Model.Helper Model.Tm Model.HyperParams Spec.Names Spec.HyperSpec.
Import ListNotations.
Local Open Scope R_scope.

(** times are given as numbers, lists of numbers or 'all' *)
Definition laterVal (d : R) (v : hval R) : hval R :=
  match v with
  | HNum x => HNum (x + d)
  | HArr xs => HArr (map (fun x => x + d) xs)
  | HList xs => HList (map (fun x => x + d) xs)
  | HAll => HAll
  | HNone => HNone
  end.

(** the transition model whose change-points and break-points are later by [d] *)
Fixpoint later (d : R) (m : tm R) : tm R :=
  match m with
  | TM k names vals p ms =>
      TM k names (match k with KChange | KSerial _ => map (laterVal d) vals | _ => vals end) p (map (later d) ms)
  end.

(** A Deterministic model counts time from the last break-point if it is a sub-model of a serial model but not the first one
    ([fromBreak]), and from the origin otherwise. In the second case its function must be of the kind whose increments do not depend
    on the origin, such as linear functions. *)
Definition evenIncrements (d : R) (fn : R -> list R -> R) : Prop :=
  forall ps t t', fn (t' + d) ps - fn (t + d) ps = fn t' ps - fn t ps.
Inductive movable (d : R) : bool -> tm R -> Prop :=
| mv_leaf fromBreak k names vals p ms :
    (forall fn s, k <> KDet fn s) -> k <> KComb -> (forall mask, k <> KSerial mask) -> movable d fromBreak (TM k names vals p ms)
| mv_det fromBreak fn s names vals p ms :
    fromBreak = true \/ evenIncrements d fn -> movable d fromBreak (TM (KDet fn s) names vals p ms)
| mv_comb fromBreak names vals p ms : Forall (movable d fromBreak) ms -> movable d fromBreak (TM KComb names vals p ms)
| mv_serial fromBreak mask names vals p m ms :
    movable d false m -> Forall (movable d true) ms -> movable d fromBreak (TM (KSerial mask) names vals p (m :: ms)).

(** ** Hyper-studies *)
(** all hyper-parameters, with true for change-points and break-points; in the order in which bayesloop lists hyper-parameters *)
Fixpoint spots (m : tm R) : list (string * bool) :=
  match m with
  | TM k names _ _ ms => flat_map spots ms ++ map (fun n => (n, match k with KChange | KSerial _ => true | _ => false end)) names
  end.
(** a combination of hyper-parameter values in which the change- and break-points are later by [d] *)
Definition laterRow (d : R) (m : tm R) (row : list R) : list R := map2 (fun (p : string * bool) x => if snd p then x + d else x) (spots m) row.
(** the values of all hyper-parameters *)
Definition laterVals (d : R) (m : tm R) (vs : list (hval R)) : list (hval R) := map2 (fun (p : string * bool) v => if snd p then laterVal d v else v) (spots m) vs.

(** The hyper-priors of change- and break-points do not refer to time: they are left out or list one probability for each value. And only
    change- and break-points have the values 'all', which stand for time stamps. *)
Definition timeless (p : hprior R) : Prop := match p with HPNone | HPArr _ => True | _ => False end.
Definition ownTimes (sps : list (string * bool)) (ps : list (hprior R)) (vs : list (hval R)) : Prop :=
  forall i n, (nth_error sps i = Some (n, true) -> forall p, nth_error ps i = Some p -> timeless p) /\
              (nth_error sps i = Some (n, false) -> nth_error vs i <> Some HAll).
Definition timesMovable (d : R) (m : tm R) : Prop :=
  wellNamed m /\ movable d false m /\ ownTimes (spots m) (allPriors m) (allValues m).
