(** Hyper-parameter bookkeeping of bayesloop/core.py (class Study). *)
From Coq Require Import List ZArith String Bool.
From Verif Require Import Base.Num Base.Exn Base.Arr Model.Helper Model.Tm.
Import ListNotations.
Local Open Scope res_scope.

Section HyperParams.
  Context {F : Type} `{Num F}.

  (** core.py:623-647 _unpackHyperParameters(values=False) *)
  Fixpoint unpackNames (m : tm F) : nl string :=
    match m with TM _ names _ _ ms => Node (map unpackNames ms ++ map Leaf names) end.

  (** A hyper-parameter value as an element of a Python list; a plain list value is itself a nested list. *)
  Definition valNode (v : hval F) : nl (hval F) :=
    match v with HList xs => Node (map (fun x => Leaf (HNum x)) xs) | _ => Leaf v end.

  (** core.py:623-647 _unpackHyperParameters(values=True) *)
  Fixpoint unpackVals (m : tm F) : nl (hval F) :=
    match m with TM _ _ vals _ ms => Node (map unpackVals ms ++ map valNode vals) end.

  (** core.py:649-656 _unpackAllHyperParameters *)
  Definition allNames (m : tm F) : list string := flatten (unpackNames m).
  Definition allValues (m : tm F) : list (hval F) := flatten (unpackVals m).

  (** core.py:711-717 / 749-755: walk to the sub-model along [path], then
      model.hyperParameterValues[model.hyperParameterNames.index(name)] = v *)
  Fixpoint setAt (m : tm F) (path : list nat) (name : string) (v : hval F) : res (tm F) :=
    match m with
    | TM k names vals prior ms =>
        match path with
        | [] =>
            let* i := nameIndex names name in
            if Nat.ltb i (List.length vals) then Ok (TM k names (lset vals i v) prior ms) else Err IndexError
        | i :: path' =>
            match nth_error ms i with
            | None => Err IndexError
            | Some m' => let* m'' := setAt m' path' name v in Ok (TM k names vals prior (lset ms i m''))
            end
        end
    end.

  (** Loop shared by core.py:708-720 and 743-758: for every name, find its first occurrence, set the next value there and
      blank the name. Returns the model as it is when the loop ends or raises.  [missing] is the exception for a
      name that is not found: ConfigurationError in _setSelectedHyperParameters; in _setAllHyperParameters an empty
      index list leads to IndexError in assignNestedItem (the names come from the tree itself). *)
  Fixpoint setLoop (missing : exn) (names : list string) (m : tm F) (tree : nl string) (xs : list (hval F))
    : tm F * option exn :=
    match names with
    | [] => (m, None)
    | name :: names' =>
        match recursiveIndex tree name with
        | [] => (m, Some missing)
        | idx =>
            match xs with
            | [] => (m, Some IndexError)
            | x :: xs' =>
                match setAt m (removelast idx) name x with
                | Err e => (m, Some e)
                | Ok m' =>
                    match assignNestedItem tree idx " "%string with
                    | Err e => (m', Some e)
                    | Ok tree' => setLoop missing names' m' tree' xs'
                    end
                end
            end
        end
    end.

  (** core.py:696-720 _setAllHyperParameters *)
  Definition setAll (m : tm F) (xs : list (hval F)) : tm F * option exn :=
    setLoop IndexError (allNames m) m (unpackNames m) xs.

  (** core.py:722-759 _setSelectedHyperParameters; [sel] = self.selectedHyperParameters *)
  Definition setSelected (sel : list string) (m : tm F) (xs : list (hval F)) : tm F * option exn :=
    match sel with
    | [] => setAll m xs
    | _ => setLoop ConfigurationError sel m (unpackNames m) xs
    end.

  (** core.py:678-691 *)
  Fixpoint getLoop (names : list string) (nameTree : nl string) (valueTree : nl (hval F)) : res (list (nl (hval F))) :=
    match names with
    | [] => Ok []
    | name :: names' =>
        match recursiveIndex nameTree name with
        | [] => Err ConfigurationError
        | idx =>
            let* v := nlIndex valueTree idx in
            let* tree' := assignNestedItem nameTree idx " "%string in
            let* vs := getLoop names' tree' valueTree in
            Ok (v :: vs)
        end
    end.

  (** core.py:658-694 _unpackSelectedHyperParameters *)
  Definition getSelected (sel : list string) (m : tm F) : res (list (nl (hval F))) :=
    match sel with
    | [] => Ok (map Leaf (allValues m))
    | _ => getLoop sel (unpackNames m) (unpackVals m)
    end.

  (** core.py:761-780 _unpackChangepointNames *)
  Fixpoint unpackChangepointNames (m : tm F) : nl string :=
    match m with
    | TM k names _ _ ms =>
        Node (map unpackChangepointNames ms ++ match k with KChange => map Leaf names | _ => [] end)
    end.
  (** core.py:782-801 _unpackBreakpointNames *)
  Fixpoint unpackBreakpointNames (m : tm F) : nl string :=
    match m with
    | TM k names _ _ ms =>
        Node (map unpackBreakpointNames ms ++ match k with KSerial _ => map Leaf names | _ => [] end)
    end.
  Definition changepointNames (m : tm F) : list string := flatten (unpackChangepointNames m).
  Definition breakpointNames (m : tm F) : list string := flatten (unpackBreakpointNames m).

  (** core.py:803-824 _getHyperParameterIndex *)
  Definition hyperParameterIndex (m : tm F) (name : string) : res nat :=
    match nameIndex (allNames m) name with Ok i => Ok i | Err _ => Err PostProcessingError end.

  (** core.py:826-839 getHyperParameterValue *)
  Definition hyperParameterValue (m : tm F) (name : string) : res (hval F) :=
    let* i := hyperParameterIndex m name in index (allValues m) i.

  (** core.py:1110-1115: is some name listed twice? *)
  Fixpoint hasDup (l : list string) : bool :=
    match l with
    | [] => false
    | a :: l' => existsb (String.eqb a) l' || hasDup l'
    end.

  (** core.py:1501-1525 _unpackHyperPriors. The prior is only appended if the attribute exists and the model has
      hyper-parameters or is a break-point. *)
  Fixpoint unpackPriors (m : tm F) : nl (hprior F) :=
    match m with
    | TM k names _ prior ms =>
        Node (map unpackPriors ms ++
              match prior with
              | None => []
              | Some p =>
                  match names, k with
                  | _ :: _, _ => [p]
                  | [], KBreak _ _ => [p]
                  | [], _ => []
                  end
              end)
    end.
  (** core.py:1527-1533 _unpackAllHyperPriors *)
  Definition allPriors (m : tm F) : list (hprior F) := flatten (unpackPriors m).
End HyperParams.
