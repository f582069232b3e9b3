(** Change-point studies. *)
From Coq Require Import List Reals String Bool Sorted.
From Verif Require Import Base.Num Base.Exn Base.Arr Base.RSum Model.Helper Model.Tm Model.HyperParams Spec.Names.
Import ListNotations.
Local Open Scope R_scope.

(** the change-points and break-points of a transition model in the order in which they occur in it *)
Definition pointNames (m : tm R) : list string := (changepointNames m ++ breakpointNames m)%list.
(** the time that a combination of hyper-parameter values gives to a change- or break-point *)
Definition timeIn (m : tm R) (row : list R) (name : string) : R :=
  match lookup (combine (allNames m) row) name with Some t => t | None => 0 end.
(** the times of the points are strictly increasing *)
Definition ordered (m : tm R) (row : list R) : Prop := StronglySorted Rlt (map (timeIn m row) (pointNames m)).

From Verif Require Import Model.Study Model.Hyper Model.Changepoint Spec.Dist Spec.HyperSpec.

(** [C'] is the change-point study [C] after [fit]: at least two combinations of hyper-parameter values are admissible, their
    prior values [pv] are numbers, their log-evidences are numbers or -inf, and one of them is possible. *)
Record cpFitted (C : cpstudy R R) (o : om R) (m : tm R) (ts : list R) (fo eo : bool) (C' : cpstudy R R) (pv : list R)
  : Prop := {
  cf_ready : hyperReady (cp_H C) o m ts;
  cf_fit : exists j, changepointFit C fo eo j = Ok C';
  cf_many : (1 < List.length (hy_grid (cp_H C')))%nat;
  cf_pv : hy_pv (cp_H C') = map Fin pv;
  cf_nonneg : Forall (fun p => 0 <= p) pv;
  cf_const : Forall (fun c => 0 < c) (hy_const (cp_H C'));
  cf_proper : forall row A, In row (hy_grid (cp_H C')) -> single (cp_H C) m fo eo row A ->
                proper eo (stepsH (cp_H C) o) (pointsH (cp_H C)) A;
  cf_possible : exists i A, (i < List.length (cp_all C'))%nat /\ ordered m (nth i (cp_all C') []) /\
                  single (cp_H C) m fo eo (nth i (cp_all C') []) A /\ 0 < evidenceOf A /\ 0 < Rnth pv i
}.
