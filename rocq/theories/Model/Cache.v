(** bayesloop/transitionModels.py: the cached convolution kernels of AlphaStableRandomWalk and BivariateRandomWalk. *)
From Coq Require Import List ZArith String Bool Arith.
From Verif Require Import Base.Num Base.Exn Base.Arr Model.Helper Model.Tm.
Import ListNotations.
Local Open Scope res_scope.

Section Cache.
  Context {F K : Type} `{Num F}.
  Notation arr := (list (xnum F)).

  (** The attributes hyperParameterValues, kernelParameters and kernel of a transition model (numbers only). The attributes
      study and latticeConstant are those of the environment it is used in. *)
  Record walk : Type := { w_vals : list F; w_params : option (list F); w_kernel : option K }.
  (** lines 142-150, 860-867: after construction *)
  Definition newWalk (vals : list F) : walk := {| w_vals := vals; w_params := None; w_kernel := None |}.
  Definition setVals (w : walk) (vals : list F) : walk :=
    {| w_vals := vals; w_params := w_params w; w_kernel := w_kernel w |}.

  (** list comparison [self.kernelParameters == self.hyperParameterValues] *)
  Fixpoint sameVals (a b : list F) : bool :=
    match a, b with
    | [], [] => true
    | x :: a', y :: b' => feqb x y && sameVals a' b'
    | _, _ => false
    end.

  (** lines 171-191 and 885-894: a new kernel is only made if the hyper-parameters have changed; then it is used. *)
  Definition walkStep (build : list F -> res K) (use : K -> arr -> res arr) (w : walk) (p : arr) : walk * res arr :=
    if match w_params w with Some ps => sameVals ps (w_vals w) | None => false end
    then (w, match w_kernel w with Some k => use k p | None => Err AttributeError end)
    else match build (w_vals w) with
         | Err x => (w, Err x)
         | Ok k => ({| w_vals := w_vals w; w_params := Some (w_vals w); w_kernel := Some k |}, use k p)
         end.

  (** lines 172-187: [mk shape normedC alpha] stands for createKernel (196-235) for every axis, multiplied and transposed.
      All normed scale parameters but the one of the selected axis are zero (180-182). *)
  Definition onAxis (n ax : nat) (c : F) : list F := map (fun i => if Nat.eqb i ax then c else f0) (seq 0 n).
  Definition alphaBuild (mk : list nat -> list F -> F -> res K) (e : env F) (target : string) (vals : list F) : res K :=
    let* c := index vals O in
    let* al := index vals 1 in
    let* ax := nameIndex (e_names e) target in
    let* lc := index (e_tmlat e) ax in
    mk (e_shape e) (onAxis (List.length (e_tmlat e)) ax (fdiv c lc)) al.
  (** lines 189-191: [conv] stands for convolve (237-260), which uses study.gridSize and the kernel *)
  Definition alphaUse (conv : list nat -> K -> arr -> arr) (e : env F) (k : K) (p : arr) : res arr :=
    Ok (normalise (conv (e_shape e) k p)).

  (** lines 886-889: [mk] stands for createKernel (899-911) *)
  Definition bivBuild (mk : F -> F -> F -> K) (e : env F) (vals : list F) : res K :=
    let* s1 := index vals O in
    let* s2 := index vals 1 in
    let* rho := index vals 2 in
    let* l1 := index (e_tmlat e) O in
    let* l2 := index (e_tmlat e) 1 in
    Ok (mk (fdiv s1 l1) (fdiv s2 l2) rho).
  (** lines 892-894: [conv] stands for convolve2d *)
  Definition bivUse (conv : list nat -> K -> arr -> arr) (e : env F) (k : K) (p : arr) : res arr :=
    if Nat.eqb (List.length (e_shape e)) 2 then Ok (normalise (conv (e_shape e) k p)) else Err ValueError.

  (** What can happen to such a model: its hyper-parameters are set, it is used in another study or the grid of its study is
      changed, or a step is made with a distribution. *)
  Inductive event : Type := SetVals (vals : list F) | SetGrid (e : env F) | MakeStep (p : arr).

  (** the results of the steps *)
  Fixpoint history (build : env F -> list F -> res K) (use : env F -> K -> arr -> res arr) (e : env F) (w : walk) (evs : list event)
    : list (res arr) :=
    match evs with
    | [] => []
    | SetVals vals :: evs' => history build use e (setVals w vals) evs'
    | SetGrid e' :: evs' => history build use e' w evs'
    | MakeStep p :: evs' =>
        let '(w', r) := walkStep (build e) (use e) w p in r :: history build use e w' evs'
    end.
End Cache.
Arguments walk : clear implicits.
Arguments event : clear implicits.
