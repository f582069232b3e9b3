(** bayesloop/parser.py: probabilities and distributions of arithmetic expressions over (hyper-)parameters.

    Not modelled: the text of a query and the library pyparsing that turns it into nested lists.  A query is given by its
    syntax [cst]; [tree] is the nested list pyparsing returns for it. The elementwise functions of numpy and
    scipy.special and the power function are oracles ([lib]); functions that are not elementwise are not modelled. *)
From Coq Require Import List ZArith String Bool Arith.
From Verif Require Import Base.Num Base.Exn Base.Arr Model.Helper Model.Tm Model.HyperParams Model.Study Model.Getters Model.Hyper Model.Changepoint Model.Online.
Import ListNotations.
Local Open Scope res_scope.

Section Parser.
  Context {F L : Type} `{Num F} `{LogNum F L}.
  Notation arr := (list (xnum F)).

  (** ** Syntax *)
  (** '+', '-', '*', '/', '^' (line 91), '@' (line 113), and 'func' (line 161), which the code inserts itself *)
  Inductive sym : Type := SAdd | SSub | SMul | SDiv | SPow | SAt | SFunc.
  Inductive tok : Type := TName (s : string) | TNum (x : F) | TFun (f : string) | TOp (o : sym).
  (** nested lists *)
  Inductive ptree : Type := Tok (t : tok) | Node (l : list ptree).
  (** syntax of queries by the precedence of lines 122-128; chains of left associative operators are flat lists. In CProd and
      CSum the flag is true for '*' and '+', in CSign for '+'. *)
  Inductive cst : Type :=
  | CNum (x : F)
  | CName (s : string)
  | CPar (c : cst)
  | CFun (f : string) (c : cst)
  | CAt (c : cst) (l : list cst)
  | CPow (a b : cst)
  | CSign (plus : bool) (c : cst)
  | CProd (c : cst) (l : list (bool * cst))
  | CSum (c : cst) (l : list (bool * cst)).

  (** lines 122-128: nested list for a query; brackets leave no trace, a chain with one member is that member *)
  Definition group (head : ptree) (rest : list ptree) : ptree := match rest with [] => head | _ => Node (head :: rest) end.
  Fixpoint tree (c : cst) : ptree :=
    match c with
    | CNum x => Tok (TNum x)
    | CName s => Tok (TName s)
    | CPar c => tree c
    | CFun f c => Node [Tok (TFun f); tree c]
    | CAt c l => group (tree c) (flat_map (fun d : cst => [Tok (TOp SAt); tree d]) l)
    | CPow a b => Node [tree a; Tok (TOp SPow); tree b]
    | CSign p c => Node [Tok (TOp (if p then SAdd else SSub)); tree c]
    | CProd c l => group (tree c) (flat_map (fun d : bool * cst => [Tok (TOp (if fst d then SMul else SDiv)); tree (snd d)]) l)
    | CSum c l => group (tree c) (flat_map (fun d : bool * cst => [Tok (TOp (if fst d then SAdd else SSub)); tree (snd d)]) l)
    end.

  (** ** Values *)
  (** attribute prob of a Parameter: one row per time step, one probability per value, or a number *)
  Inductive prob : Type := Prob2 (rows : list (option arr)) | Prob1 (p : arr) | Prob0 (x : xnum F).
  (** lines 18-46 classes Parameter and HyperParameter. [pa_study]: position in the list of studies *)
  Record param : Type := {
    pa_vals : arr;
    pa_prob : prob;
    pa_name : string;
    pa_time : option F;
    pa_study : option nat;
    pa_hyper : bool
  }.
  (** [VF np x]: Python float (np = false) or numpy float *)
  Inductive val : Type := VF (np : bool) (x : xnum F) | VP (p : param) | VFun (f : string) | VNone.
  Inductive elem : Type := ETok (t : tok) | EVal (v : val).

  (** oracles: power function and elementwise functions of numpy/scipy *)
  Record lib : Type := { lb_pow : xnum F -> xnum F -> xnum F; lb_fun : string -> xnum F -> xnum F }.

  (** line 91 arithmetic operators, on numpy numbers *)
  Definition arith (lb : lib) (o : sym) (x y : xnum F) : xnum F :=
    match o with SAdd => xadd x y | SSub => xsub x y | SMul => xmul x y | SDiv => xdiv x y | _ => lb_pow lb x y end.
  (** the same on Python floats. A power that is complex or overflows is not described further. *)
  Definition arithPy (lb : lib) (o : sym) (x y : xnum F) : res (xnum F) :=
    match o with
    | SDiv => if xeqb y (Fin f0) then Err ZeroDivisionError else Ok (xdiv x y)
    | SPow => match lb_pow lb x y with Fin r => Ok (Fin r) | _ => Err ValueError end
    | _ => Ok (arith lb o x y)
    end.
  (** elementwise operation with broadcasting *)
  Definition elementwise (f : xnum F -> xnum F -> xnum F) (a b : arr) : res arr :=
    if Nat.eqb (List.length a) (List.length b) then Ok (map2 f a b)
    else match a, b with
         | [x], _ => Ok (map (f x) b)
         | _, [y] => Ok (map (fun x => f x y) a)
         | _, _ => Err ValueError
         end.

  Definition withVals (p : param) (v : arr) : param :=
    {| pa_vals := v; pa_prob := pa_prob p; pa_name := pa_name p; pa_time := pa_time p; pa_study := pa_study p;
       pa_hyper := pa_hyper p |}.
  (** lines 209-215: selection of a time step *)
  Definition atTime (p : param) (pr : prob) (t : F) : param :=
    {| pa_vals := pa_vals p; pa_prob := pr; pa_name := pa_name p; pa_time := Some t; pa_study := pa_study p;
       pa_hyper := pa_hyper p |}.
  Definition derivedName : string := "_derived".
  Definition derived (v p : arr) : param :=
    {| pa_vals := v; pa_prob := Prob1 p; pa_name := derivedName; pa_time := None; pa_study := None; pa_hyper := false |}.

  (** lines 170-189 _convert *)
  Definition convert (params : list param) (t : tok) : res val :=
    match t with
    | TName s => match find (fun p => String.eqb (pa_name p) s) params with Some p => Ok (VP p) | None => Err IndexError end
    | TFun f => Ok (VFun f)
    | TNum x => Ok (VF false (Fin x))
    | TOp _ => Err ValueError
    end.
  Definition toVal (params : list param) (e : elem) : res val :=
    match e with ETok t => convert params t | EVal v => Ok v end.

  Definition is2D (p : param) : bool := match pa_prob p with Prob2 _ => true | _ => false end.
  Definition sameStudy (a b : param) : bool :=
    match pa_study a, pa_study b with Some i, Some j => Nat.eqb i j | None, None => true | _, _ => false end.
  Definition sameTime (a b : param) : bool :=
    match pa_time a, pa_time b with Some s, Some t => feqb s t | None, None => true | _, _ => false end.
  Definition noStudy (p : param) : bool := match pa_study p with None => true | Some _ => false end.
  Definition noTime (p : param) : bool := match pa_time p with None => true | Some _ => false end.

  (** lines 225-234: has the operand a time stamp, if it needs one? *)
  Definition needsTime (p : param) : bool :=
    noTime p && (if pa_hyper p then is2D p else negb (String.eqb (pa_name p) derivedName)).
  (** lines 237-243: are the operands taken as independent? *)
  Definition independent (a b : param) : bool :=
    match pa_hyper a, pa_hyper b with
    | false, false => negb (sameStudy a b) || (noStudy a && noStudy b)
                      || (String.eqb (pa_name a) (pa_name b) && negb (sameTime a b))
    | true, true => negb (sameStudy a b) || (noStudy a && noStudy b)
    | _, _ => true
    end.
  (** lines 245-250: all pairs, in the order of a *)
  Definition pairs {A} (f : A -> A -> A) (a b : list A) : list A := flat_map (fun x => map (f x) b) a.
  Definition probList (p : prob) : arr :=
    match p with Prob1 l => l | Prob0 x => [x] | Prob2 rows => flat_map (fun r => match r with Some l => l | None => [] end) rows end.
  Definition compound (f : xnum F -> xnum F -> xnum F) (a b : param) : param :=
    let pr := pairs xmul (probList (pa_prob a)) (probList (pa_prob b)) in
    derived (pairs f (pa_vals a) (pa_vals b)) (adivs pr (asum pr)).

  (** lines 191-254 _operation. [stamps i]: formattedTimestamps of study i. Selecting an uninitialised cell of posteriorSequence (left
      by a fit that stopped) is an error here; in the code it gives arbitrary numbers. *)
  Definition operation (lb : lib) (stamps : nat -> list F) (params : list param) (s a b : elem) : res elem :=
    let* va := toVal params a in
    let* vb := toVal params b in
    match s with
    | ETok (TOp SAt) =>
        match va, vb with
        | _, VP _ => Ok (EVal VNone)
        | VP p, _ =>
            if pa_hyper p && negb (is2D p) then Ok (EVal VNone)
            else
              match vb with
              | VF _ (Fin t) =>
                  match pa_study p with
                  | None => Err AttributeError
                  | Some i =>
                      match timeIndex (stamps i) t with
                      | None => Err ValueError
                      | Some k =>
                          match pa_prob p with
                          | Prob2 rows => let* r := index rows k in
                                          match r with Some l => Ok (EVal (VP (atTime p (Prob1 l) t))) | None => Err ValueError end
                          | Prob1 l => let* x := index l k in Ok (EVal (VP (atTime p (Prob0 x) t)))
                          | Prob0 _ => Err IndexError
                          end
                      end
                  end
              | _ => Err ValueError
              end
        | _, _ => Ok (EVal VNone)
        end
    | ETok (TOp SFunc) =>
        match va, vb with
        | VFun f, VF _ x => Ok (EVal (VF true (lb_fun lb f x)))
        | VFun f, VP p => Ok (EVal (VP (withVals p (map (lb_fun lb f) (pa_vals p)))))
        | _, _ => Err TypeError
        end
    | ETok (TOp o) =>
        let untimed v := match v with VP p => needsTime p | _ => false end in
        if untimed va || untimed vb then Err ConfigurationError
        else
          match va, vb with
          | VP p, VP q => if independent p q then Ok (EVal (VP (compound (arith lb o) p q)))
                          else let* v := elementwise (arith lb o) (pa_vals p) (pa_vals q) in Ok (EVal (VP (withVals p v)))
          | VP p, VF _ y => Ok (EVal (VP (withVals p (map (fun x => arith lb o x y) (pa_vals p)))))
          | VF _ x, VP q => Ok (EVal (VP (withVals q (map (arith lb o x) (pa_vals q)))))
          | VF np1 x, VF np2 y => if np1 || np2 then Ok (EVal (VF true (arith lb o x y)))
                                  else let* r := arithPy lb o x y in Ok (EVal (VF false r))
          | _, _ => Err TypeError
          end
    | _ => Err TypeError
    end.

  (** ** _evaluate, lines 130-168 *)
  Section Evaluate.
    Context (lb : lib) (stamps : nat -> list F) (params : list param).
    Definition op3 (a s b : res elem) : res elem :=
      let* x := a in let* y := s in let* z := b in operation lb stamps params y x z.
    (** a list of more than three members is taken apart from the left (lines 141-146) *)
    Fixpoint chain (head : res elem) (rest : list (res elem)) : res elem :=
      match rest with
      | [] => head
      | [x] => let* _ := head in let* _ := x in Err IndexError
      | s :: b :: rest' => chain (op3 head s b) rest'
      end.
    Definition evalList (rs : list (res elem)) : res elem :=
      match rs with
      | [] => Err IndexError
      | [x] => let* _ := x in Err IndexError
      | Ok (ETok (TFun f)) :: x :: y :: z :: rest =>
          chain (op3 (Ok (ETok (TFun f))) (Ok (ETok (TOp SFunc))) x) (y :: z :: rest)
      | x :: rest => chain x rest
      end.
    (** lines 150-166: a member of a list; unary operators become binary *)
    Fixpoint evalElem (t : ptree) : res elem :=
      match t with
      | Tok x => Ok (ETok x)
      | Node l =>
          match l with
          | [Tok (TOp SSub); x] => op3 (Ok (ETok (TNum (fneg f1)))) (Ok (ETok (TOp SMul))) (evalElem x)
          | [Tok (TOp SAdd); x] => op3 (Ok (ETok (TNum f1))) (Ok (ETok (TOp SMul))) (evalElem x)
          | [Tok y; x] => op3 (Ok (ETok y)) (Ok (ETok (TOp SFunc))) (evalElem x)
          | _ => evalList (map evalElem l)
          end
      end.
    (** the whole query: unary operators are not rewritten here; a single token is a string, which fails in one way or another *)
    Definition evaluate (t : ptree) : res val :=
      match t with
      | Tok _ => Err ValueError
      | Node l => let* e := evalList (map evalElem l) in toVal params e
      end.
  End Evaluate.

  (** ** __call__, lines 256-440 *)
  (** What the parser reads from a study. [so_online]: storeHistory and marginalizedPosterior of an OnlineStudy. *)
  Record source : Type := {
    so_names : list string;                         (* observationModel.parameterNames *)
    so_grid : list (list F);                        (* grid, raveled *)
    so_stamps : list F;                             (* formattedTimestamps *)
    so_post : list (option arr);                    (* posteriorSequence *)
    so_online : option (bool * option arr);
    so_hyper : list (string * list F * list arr * arr)
      (* per hyper-parameter: name, values, for OnlineStudy: history of its distribution, current distribution *)
  }.
  Definition normed (a : arr) : arr := adivs a (asum a).
  Definition lastStamp (ts : list F) : res F := match rev ts with t :: _ => Ok t | [] => Err IndexError end.

  (** lines 259-298 parameters of one study, without and with a global time; [k]: index of the time stamp in the first study *)
  Definition loadParams (i : nat) (s : source) (t : option (F * nat)) : res (list param) :=
    mapM (fun nv =>
            match t with
            | None =>
                match so_online s with
                | Some (false, m) =>
                    match m with
                    | None => Err ValueError
                    | Some p => let* t' := lastStamp (so_stamps s) in
                                Ok {| pa_vals := map Fin (snd nv); pa_prob := Prob1 p; pa_name := fst nv; pa_time := Some t';
                                      pa_study := Some i; pa_hyper := false |}
                    end
                | _ => Ok {| pa_vals := map Fin (snd nv); pa_prob := Prob2 (so_post s); pa_name := fst nv; pa_time := None;
                             pa_study := Some i; pa_hyper := false |}
                end
            | Some (t', k) =>
                let* r := index (so_post s) k in
                match r with
                | None => Err ValueError
                | Some p => Ok {| pa_vals := map Fin (snd nv); pa_prob := Prob1 p; pa_name := fst nv; pa_time := Some t';
                                  pa_study := Some i; pa_hyper := false |}
                end
            end)
         (combine (so_names s) (so_grid s)).
  (** lines 300-372 hyper-parameters of one study *)
  Definition loadHyper (i : nat) (s : source) (t : option (F * nat)) : res (list param) :=
    mapM (fun h =>
            let '(name, vals, hist, cur) := h in
            let mk pr tm := {| pa_vals := map Fin vals; pa_prob := pr; pa_name := name; pa_time := tm; pa_study := Some i; pa_hyper := true |} in
            match so_online s with
            | None => Ok (mk (Prob1 (normed cur)) None)
            | Some (store, _) =>
                match t with
                | None => if store then Ok (mk (Prob2 (map (fun d => Some (normed d)) hist)) None)
                          else let* t' := lastStamp (so_stamps s) in Ok (mk (Prob1 (normed cur)) (Some t'))
                | Some (t', k) => if store then let* d := index hist k in Ok (mk (Prob1 (normed d)) (Some t'))
                                  else Err ConfigurationError
                end
            end)
         (so_hyper s).
  Definition stampsOf (ss : list source) (i : nat) : list F := match nth_error ss i with Some s => so_stamps s | None => [] end.
  Definition numbered {A} (l : list A) : list (nat * A) := combine (seq 0 (List.length l)) l.
  Definition loadAll (ss : list source) (t : option F) : res (list param) :=
    let* tk := match t with
               | None => Ok None
               | Some t' => match timeIndex (stampsOf ss 0) t' with Some k => Ok (Some (t', k)) | None => Err ValueError end
               end in
    let* ps := mapM (fun s => loadParams (fst s) (snd s) tk) (numbered ss) in
    let* hs := mapM (fun s => loadHyper (fst s) (snd s) tk) (numbered ss) in
    Ok (List.concat ps ++ List.concat hs).

  (** lines 66-88 __init__: all names; none may occur twice *)
  Definition parserNames (ss : list source) : res (list string) :=
    match ss with
    | [] => Err ConfigurationError
    | _ => let ns := flat_map (fun s => so_names s ++ map (fun h => fst (fst (fst h))) (so_hyper s)) ss in
           if hasDup ns then Err ConfigurationError else Ok ns
    end.

  (** line 375: relational operators *)
  Inductive rel : Type := RGe | RLe | REq | RGt | RLt.
  Inductive query : Type := QDist (c : cst) | QRel (lhs : cst) (r : rel) (rhs : cst) | QMany.
  Definition relHolds (r : rel) (x : xnum F) (y : xnum F) : bool :=
    match r with RGe => xleb y x | RLe => xleb x y | REq => xeqb x y | RGt => xltb y x | RLt => xltb x y end.
  (** line 381: the text '-1*(' + right side + ')+' + left side *)
  Definition reduced (lhs rhs : cst) : cst :=
    let first := CProd (CNum (fneg f1)) [(true, CPar rhs)] in
    match lhs with
    | CSum c l => CSum first ((true, c) :: l)
    | c => CSum first [(true, c)]
    end.

  Inductive answer : Type := AProb (p : xnum F) | ADist (vals : list F) (probs : arr).

  (** boolean mask on an array: the lengths have to agree *)
  Definition masked (mask : list bool) (p : arr) : res arr :=
    if Nat.eqb (List.length mask) (List.length p) then Ok (map snd (filter fst (combine mask p))) else Err IndexError.
  (** selection of the probabilities, lines 412 and 433. With probabilities of all time steps the mask selects time steps. *)
  Definition maskedProb (mask : list bool) (p : prob) : res arr :=
    match p with
    | Prob1 l => masked mask l
    | Prob2 rows => if Nat.eqb (List.length mask) (List.length rows)
                    then let* ls := mapM (fun r => match r with Some l => Ok l | None => Err ValueError end) (map snd (filter fst (combine mask rows))) in
                         Ok (List.concat ls)
                    else Err IndexError
    | Prob0 _ => Err IndexError
    end.

  (** lines 391-415 distribution of a derived parameter *)
  Fixpoint insertF (x : F) (l : list F) : list F :=
    match l with [] => [x] | y :: l' => if fltb y x then y :: insertF x l' else x :: l end.
  Definition sortF (l : list F) : list F := fold_right insertF [] l.
  Definition finites (a : arr) : list F := flat_map (fun x => match x with Fin r => [r] | _ => [] end) a.
  Definition maxF (a : F) (l : list F) : F := fold_left (fun m x => if fltb m x then x else m) l a.
  Definition distribution (p : param) : res answer :=
    match sortF (finites (pa_vals p)) with
    | [] => Err ValueError
    | dmin :: rest =>
        let dmax := last rest dmin in
        match diff (dmin :: rest) with
        | [] => Err ValueError
        | d :: ds =>
            let md := maxF d ds in
            if feqb md f0 then Err ValueError
            else
              let bins := linspace dmin dmax (Z.to_nat (ftrunc (fdiv (fsub dmax dmin) md))) in
              match bins with
              | b0 :: b1 :: _ =>
                  let* probs := mapM (fun lu =>
                      let mask := map (fun x => match x with Fin r => fleb (fst lu) r && fltb r (snd lu) | _ => false end) (pa_vals p) in
                      let* l := maskedProb mask (pa_prob p) in Ok (asum l))
                    (combine (removelast bins) (tl bins)) in
                  Ok (ADist (map (fun b => fadd b (fsub b1 b0)) (removelast bins)) probs)
              | _ => Err IndexError
              end
        end
    end.

  (** lines 256-440; [lb]: oracles *)
  Definition call (lb : lib) (ss : list source) (q : query) (t : option F) : res answer :=
    let* _ := parserNames ss in
    let* params := loadAll ss t in
    match q with
    | QMany => Err ConfigurationError
    | QDist c =>
        let* v := evaluate lb (stampsOf ss) params (tree c) in
        match v with VP p => distribution p | _ => Err TypeError end
    | QRel lhs r rhs =>
        let* v := evaluate lb (stampsOf ss) params (tree (reduced lhs rhs)) in
        match v with
        | VP p => let* l := maskedProb (map (fun x => relHolds r x (Fin f0)) (pa_vals p)) (pa_prob p) in Ok (AProb (asum l))
        | VF _ _ => Err AttributeError
        | VFun _ => Err TypeError
        | VNone => match r with REq => Err AttributeError | _ => Err TypeError end
        end
    end.

  (** ** The studies of the other files as sources *)
  Definition ofStudy (S : study F L) : res source :=
    match st_om S with
    | None => Err AttributeError
    | Some o => Ok {| so_names := om_names o; so_grid := st_grid S; so_stamps := st_fmtTs S; so_post := st_post S;
                      so_online := None; so_hyper := [] |}
    end.
  Definition column (rows : list (list F)) (k : nat) : res (list F) := mapM (fun r => index r k) rows.
  (** lines 350-372; the index of a name is that of its first occurrence *)
  Definition hyperColumns (names : list string) (rows : list (list F)) (d : arr) : res (list (string * list F * list arr * arr)) :=
    mapM (fun n => let* k := match nameIndex names n with Ok i => Ok i | Err _ => Err PostProcessingError end in
                   let* c := column rows k in Ok (n, c, [], d)) names.
  Definition withHyper (s : source) (h : list (string * list F * list arr * arr)) : source :=
    {| so_names := so_names s; so_grid := so_grid s; so_stamps := so_stamps s; so_post := so_post s; so_online := so_online s;
       so_hyper := h |}.
  Definition ofHyper (Y : hyper F L) : res source :=
    let* s := ofStudy (hy_S Y) in
    match hy_names Y, hy_dist Y with
    | [], _ => Ok s
    | ns, Some d => let* h := hyperColumns ns (hy_grid Y) d in Ok (withHyper s h)
    | _, None => Err TypeError
    end.
  Definition ofChange (C : cpstudy F L) : res source :=
    let* s := ofStudy (hy_S (cp_H C)) in
    match hy_names (cp_H C), hy_dist (cp_H C) with
    | [], _ => Ok s
    | ns, Some d => let* h := hyperColumns ns (cp_all C) d in Ok (withHyper s h)
    | _, None => Err TypeError
    end.
  Definition onlineColumns (O : online F L) (jm : nat * tmEntry F) : res (list (string * list F * list arr * arr)) :=
    let '(j, M) := jm in
    mapM (fun n => let* k := match nameIndex (md_names M) n with Ok i => Ok i | Err _ => Err PostProcessingError end in
                   let* c := column (md_rows M) k in
                   let* cur := match on_store O with true => Ok [] | false => currentHpd O j end in
                   let* hist := match on_store O with true => mapM (fun x => index x j) (on_hHpd O) | false => Ok [] end in
                   Ok (n, c, hist, cur)) (md_names M).
  Definition ofOnline (O : online F L) : res source :=
    let* s := ofStudy (on_S O) in
    let* h := mapM (onlineColumns O) (numbered (on_models O)) in
    match on_ts O with
    | None => Err TypeError
    | Some ts =>
        Ok {| so_names := so_names s; so_grid := so_grid s; so_stamps := ts; so_post := map Some (on_hPost O);
              so_online := Some (on_store O, on_marg O); so_hyper := List.concat h |}
    end.
End Parser.
