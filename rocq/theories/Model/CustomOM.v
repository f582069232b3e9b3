(** bayesloop/observationModels.py:59-391: observation models made from a Python function (NumPy), a scipy.stats distribution (SciPy) or
    a sympy.stats random variable (SymPy).

    Oracles: the Python function, the density of a scipy.stats distribution and the density of a SymPy random variable are arbitrary
    functions of the datum and the parameter values, applied at each grid point (numpy broadcasting). scipy.stats takes its parameters
    as keywords, with defaults for 'loc' and 'scale'. Not modelled: dictionaries instead of successive arguments (deprecated; SciPy
    treats them like successive arguments), functions with variable arguments, SymPy parameters called x or given twice. *)
From Coq Require Import List ZArith String Bool.
From Verif Require Import Base.Num Base.Exn Base.Arr Model.Helper Model.Tm Model.HyperParams Model.Study Model.ObsModels.
Import ListNotations.
Local Open Scope string_scope.
Local Open Scope res_scope.

Section Custom.
  Context {F : Type} `{Num F}.

  (** dataSegment[0]: a number, or a row of two-dimensional data *)
  Inductive item : Type := Scalar (x : xnum F) | Row (l : list (xnum F)).
  Definition firstItem (s : seg F) : res item :=
    match s with
    | Seg1 xs => let* x := index xs 0 in Ok (Scalar x)
    | Seg2 rows => let* r := index rows 0 in Ok (Row r)
    end.
  (** the parameter values at each grid point *)
  Definition gridRows (grid : list (list F)) : list (list F) :=
    map (fun x => map (fun g => nth x g f0) grid) (seq 0 (List.length (nth 0 grid []))).

  (** args: succession of names and values; [ar_last]: a last name without values. parameterNames = args[::2], parameterValues = args[1::2]
      (lines 111-112, 201-202, 328-329) *)
  Record args : Type := { ar_pairs : list (string * option (list F)); ar_last : option string }.
  Definition argNames (a : args) : list string := (map fst (ar_pairs a) ++ match ar_last a with Some n => [n] | None => [] end)%list.
  Definition argValues (a : args) : list (option (list F)) := map snd (ar_pairs a).
  Definition isIn (n : string) (l : list string) : bool := existsb (String.eqb n) l.
  (** keyword arguments other than the allowed ones (lines 125-127, 204-207, 348-351) *)
  Definition unknownKey (keys allowed : list string) : bool := existsb (fun k => negb (isIn k allowed)) keys.
  (** a pdf that raises an exception has the value [] here, as in Model/ObsModels.v *)
  Definition custom (names : list string) (values : list (option (list F))) (multiply : bool) (prior : priorSpec F)
    (pdf : list (list F) -> seg F -> res arr) : om F :=
    {| om_names := names; om_values := values; om_seglen := 1; om_multiply := multiply; om_prior := prior;
       om_pdf := fun grid s => match pdf grid s with Ok a => a | Err _ => [] end;
       om_estimate := fun _ _ => Err AttributeError |}.

  (** ** NumPy *)
  Record pyFunction : Type := { pf_args : list string; pf_call : item -> list F -> xnum F }.
  (** lines 132-143 pdf; Python checks the number of arguments of the function *)
  Definition numpyPdf (f : pyFunction) (grid : list (list F)) (s : seg F) : res arr :=
    let* d := firstItem s in
    if Nat.eqb (S (List.length grid)) (List.length (pf_args f)) then Ok (map (pf_call f d) (gridRows grid)) else Err TypeError.
  (** lines 100-130 __init__; None: not a function *)
  Definition numpyOM (f : option pyFunction) (a : args) (keys : list string) (prior : priorSpec F) : res (om F) :=
    match f with
    | None => Err ConfigurationError
    | Some f =>
        if negb (Nat.eqb (S (List.length (argNames a))) (List.length (pf_args f))) then Err ConfigurationError
        else if negb (String.eqb (nth 0 (pf_args f) "") "data") then Err ConfigurationError
        else if unknownKey keys ["prior"] then Err TypeError
        else Ok (custom (argNames a) (argValues a) false prior (numpyPdf f))
    end.

  (** ** SciPy *)
  (** [rv_density] takes the values of all parameters, in the order of [rvParams] *)
  Record scipyRV : Type := { rv_shapes : option (list string); rv_continuous : bool; rv_density : list F -> xnum F -> xnum F }.
  (** lines 222-230 *)
  Definition rvParams (rv : scipyRV) : list string :=
    (match rv_shapes rv with None => [] | Some l => l end ++ "loc" :: (if rv_continuous rv then ["scale"] else []))%list.
  Definition lookup (kws : list (string * F)) (n : string) : option F :=
    match find (fun kv => String.eqb (fst kv) n) kws with Some kv => Some (snd kv) | None => None end.
  (** scipy.stats: rv.pdf(d, **kws), rv.pmf(d, **kws) *)
  Definition scipyDefault (n : string) : option F := if String.eqb n "loc" then Some f0 else if String.eqb n "scale" then Some f1 else None.
  Definition scipyCall (rv : scipyRV) (d : xnum F) (kws : list (string * F)) : res (xnum F) :=
    if existsb (fun kv => negb (isIn (fst kv) (rvParams rv))) kws then Err TypeError
    else let* vals := mapM (fun n => match lookup kws n with Some v => Ok v | None => match scipyDefault n with Some v => Ok v | None => Err TypeError end end) (rvParams rv) in
         Ok (rv_density rv vals d).
  (** lines 247-269 pdf: dictionaries keep the last value of a key, and the fixed values take precedence (update). A row of data never
      gets here, because multiplyLikelihoods is True. *)
  Definition scipyPdf (rv : scipyRV) (names : list string) (fixed : list (string * F)) (grid : list (list F)) (s : seg F) : res arr :=
    let* d := firstItem s in
    match d with
    | Scalar d => mapM (fun pt => scipyCall rv d (fixed ++ rev (combine names pt))%list) (gridRows grid)
    | Row _ => Err ValueError
    end.
  (** lines 178-245 __init__; None: not a scipy.stats distribution *)
  Definition scipyOM (rv : option scipyRV) (a : args) (fixed : list (string * F)) (keys : list string) (prior : priorSpec F) : res (om F) :=
    match rv with
    | None => Err ConfigurationError
    | Some rv =>
        if unknownKey keys ["prior"; "fixedParameters"] then Err TypeError
        else
          let rvNames := filter (fun n => negb (isIn n (map fst fixed))) (rvParams rv) in
          let '(names, values) := match argNames a with [] => (rvNames, map (fun _ => None) rvNames) | ns => (ns, argValues a) end in
          if existsb (fun n => negb (isIn n rvNames)) names then Err ConfigurationError
          else Ok (custom names values true prior (scipyPdf rv names fixed))
    end.

  (** ** SymPy *)
  (** free symbols (in any order), and the density for their values *)
  Record symRV : Type := { sy_params : list string; sy_density : list F -> xnum F -> xnum F; sy_jeffreys : res (priorSpec F) }.
  (** lines 374-391: the lambdified density is called with one array per parameter name; symbols that are not among the names are not
      defined in it *)
  Definition symPyPdf (rv : symRV) (names : list string) (grid : list (list F)) (s : seg F) : res arr :=
    let* d := firstItem s in
    match d with
    | Scalar d =>
        if negb (Nat.eqb (List.length grid) (List.length names)) then Err TypeError
        else mapM (fun pt => let* vals := mapM (fun n => match lookup (combine names pt) n with Some v => Ok v | None => Err NameError end) (sy_params rv) in
                             Ok (sy_density rv vals d)) (gridRows grid)
    | Row _ => Err ValueError
    end.
  (** lines 308-378 __init__; [prior], [determine]: the keyword arguments, None if not given *)
  Definition symPyOM (rv : option symRV) (a : args) (keys : list string) (prior : option (priorSpec F)) (determine : bool) : res (om F) :=
    match rv with
    | None => Err ConfigurationError
    | Some rv =>
        let '(names, values) := match argNames a with [] => (sy_params rv, map (fun _ => None) (sy_params rv)) | ns => (ns, argValues a) end in
        if existsb (fun n => negb (isIn n (sy_params rv))) names then Err ConfigurationError
        else if unknownKey keys ["prior"; "determineJeffreysPrior"] then Err TypeError
        else Ok (custom names values true (match symPyPrior prior determine (sy_jeffreys rv) with Some p => p | None => PNone end) (symPyPdf rv names))
    end.
End Custom.
Arguments item : clear implicits.
Arguments args : clear implicits.
Arguments pyFunction : clear implicits.
Arguments scipyRV : clear implicits.
Arguments symRV : clear implicits.
