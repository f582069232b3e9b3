(** bayesloop/core.py: getters of class Study for parameters of the observation model. The getters do not assign to any
    attribute and copy the arrays they scale in place, so they are functions of the study. *)
From Coq Require Import List ZArith String Bool Arith.
From Verif Require Import Base.Num Base.Exn Base.Arr Model.Helper Model.Tm Model.HyperParams Model.Study.
Import ListNotations.
Local Open Scope res_scope.

Section Getters.
  Context {F L : Type} `{Num F} `{LogNum F L}.
  Notation arr := (list (xnum F)).

  (** core.py:851-860, 896-905, 959-968: index of the last parameter with that name *)
  Fixpoint lastIndex (names : list string) (name : string) (i : nat) (found : option nat) : option nat :=
    match names with
    | [] => found
    | n :: names' => lastIndex names' name (S i) (if String.eqb n name then Some i else found)
    end.
  Definition paramIndex (names : list string) (name : string) : res nat :=
    match lastIndex names name 0 None with Some i => Ok i | None => Err PostProcessingError end.

  (** core.py:841-862 getParameterMeanValues *)
  Definition getParameterMeanValues (S : study F L) (name : string) : res (list (xnum F)) :=
    match st_om S with
    | None => Err AttributeError
    | Some o => let* k := paramIndex (om_names o) name in index (st_means S) k
    end.

  (** np.sum over one axis of a C-order array, the axis is kept with length one *)
  Definition sumAxis (shape : list nat) (a : nat) (x : arr) : arr :=
    let n := nth a shape O in
    let post := natprod (skipn (S a) shape) in
    map (fun y => asum (map (fun i => nth ((y / post * n + i) * post + y mod post)%nat x NaN) (seq 0 n)))
        (seq 0 (natprod (firstn a shape) * post)).
  (** np.apply_over_axes(np.sum, x, axes) *)
  Fixpoint sumAxes (shape : list nat) (axes : list nat) (x : arr) : arr :=
    match axes with
    | [] => x
    | a :: axes' => sumAxes (lset shape a 1%nat) axes' (sumAxis shape a x)
    end.
  (** list(range(n)) without k *)
  Definition otherAxes (n k : nat) : list nat := filter (fun a => negb (Nat.eqb a k)) (seq 0 n).

  (** core.py:885-886: time average of the posterior sequence *)
  Definition timeAverage (n : nat) (posts : list arr) : arr :=
    map (fun x => xdiv (asum (map (fun p => nth x p NaN) posts)) (Fin (fofZ (Z.of_nat (List.length posts))))) (seq 0 n).

  (** position of the first time stamp that equals t *)
  Fixpoint timeIndex (ts : list F) (t : F) : option nat :=
    match ts with
    | [] => None
    | t' :: ts' => if feqb t' t then Some O else option_map S (timeIndex ts' t)
    end.
  (** all cells, if none is uninitialised *)
  Fixpoint allSome {A} (l : list (option A)) : option (list A) :=
    match l with
    | [] => Some []
    | None :: _ => None
    | Some a :: l' => option_map (cons a) (allSome l')
    end.

  (** core.py:907-918: marginal of one array *)
  Definition marginalOf (S : study F L) (o : om F) (k : nat) (density : bool) (x : arr) : res arr :=
    let m := sumAxes (st_shape S) (otherAxes (List.length (om_names o)) k) x in
    let* dx := index (st_lat S) k in
    Ok (if density then adivs m (Fin dx) else m).

  (** core.py:864-928 getParameterDistribution; t = None stands for 'avg'. A result of None instead of an array means that
      uninitialised cells of posteriorSequence are returned. np.squeeze has no effect on the result (all grids have at
      least two values per parameter, see latticeOf). Comparing posteriorSequence with [] is only true for the empty list. *)
  Definition getParameterDistribution (S : study F L) (t : option F) (name : string) (density : bool)
    : res (list F * option arr) :=
    match st_post S with
    | [] => Err PostProcessingError
    | _ =>
        let* dist :=
          match t with
          | None => Ok (option_map (timeAverage (natprod (st_shape S))) (allSome (st_post S)))
          | Some t' => match timeIndex (st_fmtTs S) t' with
                       | None => Err PostProcessingError
                       | Some i => index (st_post S) i
                       end
          end in
        match st_om S with
        | None => Err AttributeError
        | Some o =>
            let* k := paramIndex (om_names o) name in
            let* x := index (st_marg S) k in
            match dist with
            | None => Ok (x, None)
            | Some d => let* m := marginalOf S o k density d in Ok (x, Some m)
            end
        end
    end.

  (** core.py:936-999 getParameterDistributions. dt[0] raises IndexError for a single time step. *)
  Definition getParameterDistributions (S : study F L) (name : string) (density : bool)
    : res (list F * list (option arr)) :=
    match st_post S with
    | [] => Err PostProcessingError
    | _ =>
        if Nat.leb (List.length (st_fmtTs S)) 1 then Err IndexError
        else
          match st_om S with
          | None => Err AttributeError
          | Some o =>
              let* k := paramIndex (om_names o) name in
              let* x := index (st_marg S) k in
              let* ms := mapM (fun d => match d with
                                        | None => Ok None
                                        | Some d' => let* m := marginalOf S o k density d' in Ok (Some m)
                                        end) (st_post S) in
              Ok (x, ms)
          end
    end.
End Getters.
