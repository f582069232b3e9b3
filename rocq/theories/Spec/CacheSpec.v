(** Specification: what a random walk with a convolution kernel should do, without a cache. *)
From Coq Require Import List ZArith Reals String Bool.
From Verif Require Import Base.Num Base.Exn Base.Arr Model.Tm Model.Cache.
Import ListNotations.

Notation rarr := (list (xnum R)).

(** The results of the steps if the kernel is made anew, from the hyper-parameters and the grid in force, for every
    step: [fresh e vals p]. *)
Fixpoint uncached (fresh : env R -> list R -> rarr -> res rarr) (e : env R) (vals : list R) (evs : list (event R)) : list (res rarr) :=
  match evs with
  | [] => []
  | SetVals vals' :: evs' => uncached fresh e vals' evs'
  | SetGrid e' :: evs' => uncached fresh e' vals evs'
  | MakeStep p :: evs' => fresh e vals p :: uncached fresh e vals evs'
  end.

(** the grid is never changed *)
Definition sameGrid (evs : list (event R)) : Prop := forall e, ~ In (SetGrid e) evs.

(** The grid for which the kernel in use was made: walk back through the earlier steps as long as they were made with the
    same hyper-parameters. [past] lists the grids and hyper-parameters of the steps made so far, the latest first. *)
Fixpoint kernelGrid (e : env R) (vals : list R) (past : list (env R * list R)) : env R :=
  match past with
  | [] => e
  | (e', vals') :: past' => if list_eq_dec Req_EM_T vals vals' then kernelGrid e' vals past' else e
  end.
(** The results of the steps if every step is made on the grid in force, with the kernel for [kernelGrid]:
    [stale e0 vals e p] is a step on [e] with the kernel for [e0] *)
Fixpoint withStale (stale : env R -> list R -> env R -> rarr -> res rarr) (e : env R) (vals : list R) (past : list (env R * list R))
    (evs : list (event R)) : list (res rarr) :=
  match evs with
  | [] => []
  | SetVals vals' :: evs' => withStale stale e vals' past evs'
  | SetGrid e' :: evs' => withStale stale e' vals past evs'
  | MakeStep p :: evs' => stale (kernelGrid e vals past) vals e p :: withStale stale e vals ((e, vals) :: past) evs'
  end.
