(** bayesloop/transitionModels.py *)
From Coq Require Import List ZArith String Bool.
From Verif Require Import Base.Num Base.Exn Base.Arr Model.Helper.
Import ListNotations.
Local Open Scope res_scope.

Section Tm.
  Context {F : Type} `{Num F}.
  Notation arr := (list (xnum F)).

  (** Value of a hyper-parameter: a number, a Numpy array, a plain Python list, the string 'all', or None. *)
  Inductive hval : Type := HNum (x : F) | HArr (xs : list F) | HList (xs : list F) | HAll | HNone.

  (** Hyper-prior: None, function, Numpy array, SymPy random variable (represented by its density), bare number *)
  Inductive hprior : Type :=
  | HPNone
  | HPFun (f : F -> xnum F)
  | HPArr (xs : list (xnum F))
  | HPRV (f : F -> xnum F)
  | HPNum (x : F).

  (** Prior of the observation model parameters (observationModels.py, attribute 'prior'): None, Numpy array, function of
      the grid returning an array, function returning a scalar constant (lambda x: 1.), list of n SymPy random
      variables (represented by their joint density on the grid). *)
  Inductive priorSpec : Type :=
  | PNone
  | PArr (shape : list nat) (a : arr)
  | PFun (f : list (list F) -> arr)
  | PConst (c : F)
  | PSym (n : nat) (f : list (list F) -> arr).

  (** Kind of a transition model together with its non-hyper-parameter attributes *)
  Inductive kind : Type :=
  | KStatic
  | KGRW (target : string)
  | KAlpha (target : string)
  | KChange
  | KIndep
  | KRegime
  | KNotEq
  | KDet (fn : F -> list F -> F) (target : string)
  | KComb
  | KSerial (changePointMask : list bool)
  | KBreak (name : string) (value : hval)
  | KBiv.

  (** A transition model instance: kind, hyperParameterNames, hyperParameterValues, attribute prior (None = attribute
      missing), sub-models ([] for models without attribute 'models'). The attributes study, latticeConstant and
      tOffset are propagated to sub-models before each call by the code and are arguments of the functions here. *)
  Inductive tm : Type :=
    TM (k : kind) (names : list string) (vals : list hval) (prior : option (nl hprior)) (models : list tm).

  Definition tmKind (m : tm) := let '(TM k _ _ _ _) := m in k.
  Definition tmNames (m : tm) := let '(TM _ n _ _ _) := m in n.
  Definition tmVals (m : tm) := let '(TM _ _ v _ _) := m in v.
  Definition tmPrior (m : tm) := let '(TM _ _ _ p _) := m in p.
  Definition tmModels (m : tm) := let '(TM _ _ _ _ l) := m in l.

  (** What a transition model sees: of its study gridSize, latticeConstant, parameterNames, grid, prior; its own attribute
      latticeConstant (handed down to sub-models, lines 646, 657, 770, 781); and oracles for
      scipy.ndimage.shift (axis, normed offset), the alpha-stable convolution (axis, normed c, alpha; lines 170-260)
      and the bivariate convolution (normed sigma1, normed sigma2, rho; lines 892-911). *)
  Record env : Type := {
    e_shape : list nat;
    e_lat : list F;                      (* study.latticeConstant *)
    e_tmlat : list F;                    (* transitionModel.latticeConstant *)
    e_names : list string;
    e_grid : list (list F);
    e_prior : priorSpec;
    e_shift : nat -> F -> arr -> arr;
    e_aconv : nat -> F -> F -> arr -> arr;
    e_bconv : F -> F -> F -> arr -> arr
  }.

  Definition e_size (e : env) : nat := natprod (e_shape e).
  Definition e_vol (e : env) : F := fprod (e_lat e).              (* np.prod(latticeConstant) *)
  Definition with_prior (e : env) (p : priorSpec) : env :=
    {| e_shape := e_shape e; e_lat := e_lat e; e_tmlat := e_tmlat e; e_names := e_names e; e_grid := e_grid e; e_prior := p;
       e_shift := e_shift e; e_aconv := e_aconv e; e_bconv := e_bconv e |}.

  (** ** Constructors *)

  (** Arguments that hold hyper-parameter values *)
  Inductive pyval : Type := VNum (x : F) | VList (xs : list F) | VArr (xs : list F) | VAll | VNone.

  (** [if isinstance(value, (list, tuple)): value = np.array(value)], e.g. lines 79-80 *)
  Definition toArr (v : pyval) : hval :=
    match v with VNum x => HNum x | VList xs => HArr xs | VArr xs => HArr xs | VAll => HAll | VNone => HNone end.
  (** the value as it is *)
  Definition asIs (v : pyval) : hval :=
    match v with VNum x => HNum x | VList xs => HList xs | VArr xs => HArr xs | VAll => HAll | VNone => HNone end.

  (** lines 38-44 *)
  Definition mkStatic : tm := TM KStatic [] [] (Some (Leaf HPNone)) [].
  (** lines 78-91 *)
  Definition mkGRW (name : string) (v : pyval) (target : option string) (prior : nl hprior) : res tm :=
    match target with
    | None => Err ConfigurationError
    | Some s => Ok (TM (KGRW s) [name] [toArr v] (Some prior) [])
    end.
  (** lines 136-153 *)
  Definition mkAlpha (n1 : string) (v1 : pyval) (n2 : string) (v2 : pyval) (target : option string)
             (prior : nl hprior) : res tm :=
    match target with
    | None => Err ConfigurationError
    | Some s => Ok (TM (KAlpha s) [n1; n2] [toArr v1; toArr v2] (Some prior) [])
    end.
  (** lines 275-284 *)
  Definition mkChange (name : string) (v : pyval) (prior : nl hprior) : tm :=
    TM KChange [name] [toArr v] (Some prior) [].
  (** lines 328-334 *)
  Definition mkIndep : tm := TM KIndep [] [] (Some (Leaf HPNone)) [].
  (** lines 380-389 *)
  Definition mkRegime (name : string) (v : pyval) (prior : nl hprior) : tm :=
    TM KRegime [name] [toArr v] (Some prior) [].
  (** lines 436-445 *)
  Definition mkNotEq (name : string) (v : pyval) (prior : nl hprior) : tm :=
    TM KNotEq [name] [toArr v] (Some prior) [].
  (** lines 503-543. [args] are the keyword arguments of the function with their defaults (a non-keyword argument beyond
      time raises in Python and is not representable here). If the prior is an Iterable of the right length, the
      attribute 'prior' is never set. A Numpy array is an Iterable as well. *)
  Definition mkDet (fn : F -> list F -> F) (args : list (string * pyval)) (target : option string)
             (prior : option (nl hprior)) : res tm :=
    match target with
    | None => Err ConfigurationError
    | Some s =>
        let names := map fst args in
        let vals := map (fun a => toArr (snd a)) args in
        match prior with
        | None => Ok (TM (KDet fn s) names vals (Some (Node (repeat (Leaf HPNone) (List.length args)))) [])
        | Some (Node l) =>
            if Nat.eqb (List.length l) (List.length args)
            then Ok (TM (KDet fn s) names vals None [])
            else Err ConfigurationError
        | Some (Leaf (HPArr xs)) =>
            if Nat.eqb (List.length xs) (List.length args)
            then Ok (TM (KDet fn s) names vals None [])
            else Err ConfigurationError
        | Some (Leaf p) => Ok (TM (KDet fn s) names vals (Some (Node [Leaf p])) [])
        end
    end.
  (** lines 831-837 *)
  Definition mkBreak (name : string) (v : pyval) (prior : nl hprior) : tm :=
    TM (KBreak name (toArr v)) [] [] (Some prior) [].
  (** lines 848-867. The conversion of [value3] is assigned to [value2] (line 858). *)
  Definition mkBiv (n1 : string) (v1 : pyval) (n2 : string) (v2 : pyval) (n3 : string) (v3 : pyval)
             (prior : nl hprior) : tm :=
    TM KBiv [n1; n2; n3]
       [toArr v1; match v3 with VList xs => HArr xs | _ => toArr v2 end; asIs v3] (Some prior) [].

  (** str(arg) == 'Break-point' *)
  Definition isBreak (m : tm) : bool := match tmKind m with KBreak _ _ => true | _ => false end.

  (** lines 618-627 *)
  Definition mkComb (args : list tm) : res tm :=
    if existsb isBreak args then Err ConfigurationError else Ok (TM KComb [] [] None args).

  (** lines 699-727: one pass over the arguments, collecting (name, value, prior, mask) of breaks and the sub-models.
      np.array(value) of an Iterable is a copy; the string 'all' and numbers are kept. *)
  Fixpoint serialCollect (args : list tm)
    : list string * list hval * list (nl hprior) * list bool * list tm :=
    match args with
    | [] => ([], [], [], [], [])
    | m :: args' =>
        let '(ns, vs, ps, mk, ms) := serialCollect args' in
        match m with
        | TM (KBreak n v) _ _ p _ =>
            (n :: ns, v :: vs, match p with Some q => q | None => Leaf HPNone end :: ps, false :: mk, ms)
        | TM KChange names vals p _ =>
            (hd EmptyString names :: ns, hd HNone vals :: vs,
             match p with Some q => q | None => Leaf HPNone end :: ps, true :: mk, ms)
        | _ => (ns, vs, ps, mk, m :: ms)
        end
    end.

  (** lines 734-741: first value of each break *)
  Inductive firstval : Type := FAll | FVal (x : F) | FNone.
  Definition firstValue (v : hval) : res firstval :=
    match v with
    | HAll => Ok FAll
    | HNum x => Ok (FVal x)
    | HArr (x :: _) | HList (x :: _) => Ok (FVal x)
    | HArr [] | HList [] => Err IndexError
    | HNone => Ok FNone
    end.
  (** lines 743-744: all(x < y ... for consecutive first values); None < number raises TypeError *)
  Fixpoint firstOrdered (l : list firstval) : res bool :=
    match l with
    | x :: ((y :: _) as l') =>
        match x, y with
        | FAll, _ | _, FAll => firstOrdered l'
        | FVal a, FVal b => if fltb a b then firstOrdered l' else Ok false
        | _, _ => Err TypeError
        end
    | _ => Ok true
    end.

  (** lines 690-751 *)
  Definition mkSerial (args : list tm) : res tm :=
    let '(ns, vs, ps, mk, ms) := serialCollect args in
    let* fv := mapM firstValue vs in
    let* ok := firstOrdered fv in
    if negb ok then Err ConfigurationError
    else if Nat.eqb (List.length ms) (S (List.length vs))
         then Ok (TM (KSerial mk) ns vs (Some (Node ps)) ms)
         else Err ConfigurationError.

  (** ** Steps *)

  (** Use of a hyper-parameter value where a number is expected. One-element arrays behave like their element; longer arrays
      raise (truth value / broadcasting), 'all' and None raise TypeError. (In a plain Study an array of several values makes
      GaussianRandomWalk and ChangePoint raise ValueError; that all other models raise as well is a simplification: where the
      shapes happen to fit, Numpy goes on.) *)
  Definition scalarOf (v : hval) : res F :=
    match v with
    | HNum x => Ok x
    | HArr [x] => Ok x
    | HArr _ => Err ValueError
    | HList _ | HAll | HNone => Err TypeError
    end.

  (** list.index(name): ValueError if missing *)
  Fixpoint nameIndex (names : list string) (n : string) : res nat :=
    match names with
    | [] => Err ValueError
    | m :: names' => if String.eqb m n then Ok O else let* i := nameIndex names' n in Ok (S i)
    end.

  (** Reflecting boundary index of scipy.ndimage (mode='reflect': d c b a | a b c d | d c b a) *)
  Definition refl (n : nat) (i : Z) : nat :=
    let m := Z.modulo i (2 * Z.of_nat n) in
    if Z.ltb m (Z.of_nat n) then Z.to_nat m else Z.to_nat (2 * Z.of_nat n - 1 - m).

  (** offsets -r .. r *)
  Definition zrange (r : nat) : list Z := map (fun i => (Z.of_nat i - Z.of_nat r)%Z) (seq 0 (2 * r + 1)).

  (** scipy.ndimage.correlate1d along one axis of a C-order array that has [pre] x [n] x [post] points,
      with weights [w k] for offset k in -r..r *)
  Definition filterAxis (pre n post r : nat) (w : Z -> F) (x : arr) : arr :=
    flat_map (fun p =>
      flat_map (fun i =>
        map (fun q =>
               asum (map (fun k => xmul (Fin (w k))
                                        (nth ((p * n + refl n (Z.of_nat i + k)) * post + q)%nat x NaN))
                         (zrange r)))
            (seq 0 post))
        (seq 0 n))
      (seq 0 pre).

  (** scipy _gaussian_kernel1d: radius int(4*sd + 0.5) and normalised weights exp(-k^2/(2 sd^2)) *)
  Definition two : F := fadd f1 f1.
  Definition gaussRadius (sd : F) : nat :=
    Z.to_nat (ftrunc (fadd (fmul (fadd two two) sd) (fdiv f1 two))).
  Definition gaussPhi (sd : F) (k : Z) : F :=
    fexp (fmul (fdiv (fdiv (fneg f1) two) (fmul sd sd)) (fmul (fofZ k) (fofZ k))).
  Definition gaussWeight (sd : F) (k : Z) : F :=
    fdiv (gaussPhi sd k) (fsum (map (gaussPhi sd) (zrange (gaussRadius sd)))).

  (** scipy.ndimage.gaussian_filter1d(x, sd, axis) *)
  Definition gaussianFilter1d (shape : list nat) (axis : nat) (sd : F) (x : arr) : arr :=
    filterAxis (natprod (firstn axis shape)) (nth axis shape O) (natprod (skipn (S axis) shape))
               (gaussRadius sd) (gaussWeight sd) x.

  (** The prior that ChangePoint (lines 302-310), Independent (351-359) and SerialTransitionModel (803-811) fall back to,
      normalised to sum one. A function prior that returns a scalar gives the scalar c/c, which broadcasts to every grid
      point. SymPy priors are neither callable nor arrays, so the flat prior is used. *)
  Definition resetPrior (e : env) : arr :=
    match e_prior e with
    | PFun f => let p := f (e_grid e) in adivs p (asum p)
    | PConst c => repeat (xdiv (Fin c) (Fin c)) (e_size e)
    | PArr _ a => adivs a (asum a)
    | PNone | PSym _ _ => let p := aones (e_size e) in adivs p (asum p)
    end.

  (** lines 310-311 and 811-812: normalised prior times the product of the lattice constants *)
  Definition changeReset (e : env) : arr := amuls (resetPrior e) (Fin (e_vol e)).

  (** [t == value] in ChangePoint, line 300 *)
  Definition eqTime (t : F) (v : hval) : res bool :=
    match v with
    | HNum x => Ok (feqb t x)
    | HArr [x] => Ok (feqb t x)
    | HArr _ => Err ValueError
    | HList _ | HAll | HNone => Ok false
    end.

  (** lines 405-412 *)
  Definition regimeStep (limit : F) (p : arr) : arr :=
    let q := afloor (Fin limit) p in adivs q (asum q).

  (** lines 461-471 *)
  Definition notEqStep (limit : F) (p : arr) : arr :=
    let q := map (fun x => xsub (amax p) x) p in
    let q := adivs q (asum q) in
    let q := afloor (Fin limit) q in
    adivs q (asum q).

  (** newPrior /= np.sum(newPrior) *)
  Definition normalise (p : arr) : arr := adivs p (asum p).

  (** number of break times <= t (line 768) *)
  Definition breaksUpTo (bs : list F) (t : F) : nat := List.length (filter (fun b => fleb b t) bs).

  (** values[mask] *)
  Fixpoint maskSel {A} (l : list A) (m : list bool) : list A :=
    match l, m with
    | a :: l', true :: m' => a :: maskSel l' m'
    | _ :: l', false :: m' => maskSel l' m'
    | _, _ => []
    end.

  (** _forwardChangePointCheck, lines 788-815 *)
  Definition changeCheck (e : env) (bs : list F) (mask : list bool) (p : arr) (t : F) : arr :=
    if existsb (fun b => feqb t b) (maskSel bs mask) then changeReset e else p.

  (** offset handed to the selected sub-model, line 772 *)
  Definition offsetOf (bs : list F) (i : nat) : F := match i with O => f0 | S j => nth j bs f0 end.

  (** shift of a Deterministic model between two times, lines 563-569 and 588-594 *)
  Definition detShift (fn : F -> list F -> F) (ps : list F) (off t t' lc : F) : F :=
    fdiv (fsub (fn (fsub t' off) ps) (fn (fsub t off) ps)) lc.

  (** Steps of the models without sub-models.  [t1] is the time a model is evaluated at (t forwards, t-1 backwards);
      Deterministic uses times [t] and [t'] (t+1 forwards, t-1 backwards). lines 49-63 (Static), 96-118 (GRW),
      160-191 (alpha-stable; the kernel cache is modelled in Model/Cache.v), 291-314, 341-360, 396-412, 452-471,
      550-606, 872-894. Alpha-stable walks need a grid of one or two dimensions (line 223) and, with two dimensions, even
      numbers of grid points (line 184 multiplies the kernels of the two axes, whose shapes differ otherwise, see
      Model/AlphaStable.v); bivariate walks need two dimensions (scipy.signal.convolve2d raises ValueError otherwise). *)
  Definition leafStep (e : env) (k : kind) (vals : list hval) (off : F) (p : arr) (t1 t t' : F) : res arr :=
    match k with
    | KStatic => Ok p
    | KGRW s =>
        let* ax := nameIndex (e_names e) s in
        let* v := index vals O in
        let* sg := scalarOf v in
        let* lc := index (e_tmlat e) ax in
        let sd := fdiv sg lc in
        if fltb f0 sd then Ok (gaussianFilter1d (e_shape e) ax sd p) else Ok p
    | KAlpha s =>
        let* v1 := index vals O in
        let* c := scalarOf v1 in
        let* v2 := index vals 1 in
        let* al := scalarOf v2 in
        let* ax := nameIndex (e_names e) s in
        let* lc := index (e_tmlat e) ax in
        if Nat.ltb 2 (List.length (e_shape e)) then Err ConfigurationError
        else if Nat.eqb (List.length (e_shape e)) 2 && negb (forallb Nat.even (e_shape e)) then Err ValueError
        else Ok (normalise (e_aconv e ax (fdiv c lc) al p))
    | KChange =>
        let* v := index vals O in
        let* b := eqTime t1 v in
        Ok (if b then changeReset e else p)
    | KIndep => Ok (resetPrior e)
    | KRegime =>
        let* v := index vals O in
        let* x := scalarOf v in
        Ok (regimeStep (fmul (fpow10 x) (fprod (e_tmlat e))) p)
    | KNotEq =>
        let* v := index vals O in
        let* x := scalarOf v in
        Ok (notEqStep (fmul (fpow10 x) (fprod (e_tmlat e))) p)
    | KDet fn s =>
        let* ax := nameIndex (e_names e) s in
        let* ps := mapM scalarOf vals in
        let* lc := index (e_tmlat e) ax in
        Ok (normalise (e_shift e ax (detShift fn ps off t t' lc) p))
    | KBiv =>
        let* v1 := index vals O in let* s1 := scalarOf v1 in
        let* v2 := index vals 1 in let* s2 := scalarOf v2 in
        let* v3 := index vals 2 in let* rho := scalarOf v3 in
        let* l1 := index (e_tmlat e) O in
        let* l2 := index (e_tmlat e) 1 in
        if Nat.eqb (List.length (e_shape e)) 2 then Ok (normalise (e_bconv e (fdiv s1 l1) (fdiv s2 l2) rho p)) else Err ValueError
    | KComb | KSerial _ => Ok p                    (* handled in [step] *)
    | KBreak _ _ => Err AttributeError             (* BreakPoint has no computeForwardPrior *)
    end.

  (** A step of any model. [t1], [t], [t'] as in [leafStep]. Combined: lines 632-662; Serial: lines 756-786. *)
  Fixpoint step (e : env) (m : tm) (off : F) (p : arr) (t1 t t' : F) {struct m} : res arr :=
    match m with
    | TM KComb _ _ _ ms =>
        (fix go (ms : list tm) (p : arr) {struct ms} : res arr :=
           match ms with
           | [] => Ok p
           | m' :: ms' => match step e m' off p t1 t t' with Ok p' => go ms' p' | Err x => Err x end
           end) ms p
    | TM (KSerial mask) _ vals _ ms =>
        let* bs := mapM scalarOf vals in
        let i := breaksUpTo bs t1 in
        let* q :=
          (fix sel (ms : list tm) (j : nat) {struct ms} : res arr :=
             match ms, j with
             | [], _ => Err IndexError
             | m' :: _, O => step e m' (offsetOf bs i) p t1 t t'
             | _ :: ms', S j' => sel ms' j'
             end) ms i in
        Ok (changeCheck e bs mask q t1)
    | TM k _ vals _ _ => leafStep e k vals off p t1 t t'
    end.

  (** computeForwardPrior(posterior, t) *)
  Definition computeForwardPrior (e : env) (m : tm) (off : F) (p : arr) (t : F) : res arr :=
    step e m off p t t (fadd t f1).
  (** computeBackwardPrior(posterior, t): all models evaluate at t-1; Deterministic shifts from t to t-1 *)
  Definition computeBackwardPrior (e : env) (m : tm) (off : F) (p : arr) (t : F) : res arr :=
    step e m off p (fsub t f1) t (fsub t f1).

  (** Does computeForwardPrior return the very object it was given? Static and ChangePoint return their argument
      (lines 60, 314), Serial the result of its sub-model (773-775, 815); all others create a new array (Combined
      copies first, lines 643, 654). *)
  Fixpoint returnsArgument (m : tm) (t : F) {struct m} : bool :=
    match m with
    | TM KStatic _ _ _ _ => true
    | TM KChange _ vals _ _ =>
        match index vals O with
        | Ok v => match eqTime t v with Ok b => negb b | Err _ => false end
        | Err _ => false
        end
    | TM (KSerial mask) _ vals _ ms =>
        match mapM scalarOf vals with
        | Err _ => false
        | Ok bs =>
            negb (existsb (fun b => feqb t b) (maskSel bs mask)) &&
            (fix sel (ms : list tm) (j : nat) {struct ms} : bool :=
               match ms, j with
               | [], _ => false
               | m' :: _, O => returnsArgument m' t
               | _ :: ms', S j' => sel ms' j'
               end) ms (breaksUpTo bs t)
        end
    | _ => false
    end.
End Tm.

Arguments hval : clear implicits.
Arguments hprior : clear implicits.
Arguments priorSpec : clear implicits.
Arguments kind : clear implicits.
Arguments tm : clear implicits.
Arguments env : clear implicits.
Arguments pyval : clear implicits.
