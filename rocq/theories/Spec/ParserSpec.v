(** Specification: what a query means. *)
From Coq Require Import List Reals String Bool.
From Verif Require Import Base.Num Base.Exn Base.Arr Base.RSum Model.Parser.
Import ListNotations.
Local Open Scope R_scope.

Section Meaning.
  (** power function and named functions on the reals; None where they are not defined *)
  Variables (pow : R -> R -> option R) (fn : string -> R -> option R).

  Definition over (x y : R) : option R := if Req_EM_T y 0 then None else Some (x / y).
  Definition lift2 (f : R -> R -> option R) (a b : option R) : option R :=
    match a, b with Some x, Some y => f x y | _, _ => None end.
  (** value of an expression for given values of the names; operators of equal precedence from left to right *)
  Fixpoint meaning (env : string -> option R) (c : cst (F := R)) : option R :=
    match c with
    | CNum x => Some x
    | CName s => env s
    | CPar c => meaning env c
    | CFun f c => match meaning env c with Some x => fn f x | None => None end
    | CAt c _ => meaning env c
    | CPow a b => lift2 pow (meaning env a) (meaning env b)
    | CSign p c => if p then meaning env c else option_map Ropp (meaning env c)
    | CProd c l => fold_left (fun (acc : option R) (d : bool * cst (F := R)) => lift2 (fun x y => if fst d then Some (x * y) else over x y) acc (meaning env (snd d))) l (meaning env c)
    | CSum c l => fold_left (fun (acc : option R) (d : bool * cst (F := R)) => lift2 (fun x y => Some (if fst d then x + y else x - y)) acc (meaning env (snd d))) l (meaning env c)
    end.

  (** an operator applied to two numbers *)
  Definition arithR (o : sym) (x y : R) : option R :=
    match o with SAdd => Some (x + y) | SSub => Some (x - y) | SMul => Some (x * y) | SDiv => over x y | _ => pow x y end.
  (** the oracles of the model compute these functions *)
  Definition computes (lb : lib (F := R)) : Prop :=
    (forall x y r, pow x y = Some r -> lb_pow lb (Fin x) (Fin y) = Fin r) /\
    (forall f x r, fn f x = Some r -> lb_fun lb f (Fin x) = Fin r).
End Meaning.

(** the names in an expression *)
Fixpoint namesIn (c : cst (F := R)) : list string :=
  match c with
  | CNum _ => []
  | CName s => [s]
  | CPar c | CFun _ c | CSign _ c | CAt c _ => namesIn c
  | CPow a b => namesIn a ++ namesIn b
  | CProd c l | CSum c l => namesIn c ++ flat_map (fun d : bool * cst (F := R) => namesIn (snd d)) l
  end.

(** no time stamps in the expression (they are given by the argument t, or there are only hyper-parameters) *)
Inductive unstamped : cst (F := R) -> Prop :=
| us_num x : unstamped (CNum x)
| us_name s : unstamped (CName s)
| us_par c : unstamped c -> unstamped (CPar c)
| us_fun f c : unstamped c -> unstamped (CFun f c)
| us_pow a b : unstamped a -> unstamped b -> unstamped (CPow a b)
| us_sign p c : unstamped c -> unstamped (CSign p c)
| us_prod c l : unstamped c -> Forall (fun d : bool * cst (F := R) => unstamped (snd d)) l -> unstamped (CProd c l)
| us_sum c l : unstamped c -> Forall (fun d : bool * cst (F := R) => unstamped (snd d)) l -> unstamped (CSum c l).
(** every parameter, possibly inside functions, carries the time stamp t *)
Inductive plain : cst (F := R) -> Prop :=
| pl_name s : plain (CName s)
| pl_par c : plain c -> plain (CPar c)
| pl_fun f c : plain c -> plain (CFun f c).
Inductive stamped (t : R) : cst (F := R) -> Prop :=
| st_num x : stamped t (CNum x)
| st_at c : plain c -> stamped t (CAt c [CNum t])
| st_par c : stamped t c -> stamped t (CPar c)
| st_fun f c : stamped t c -> stamped t (CFun f c)
| st_pow a b : stamped t a -> stamped t b -> stamped t (CPow a b)
| st_sign p c : stamped t c -> stamped t (CSign p c)
| st_prod c l : stamped t c -> Forall (fun d : bool * cst (F := R) => stamped t (snd d)) l -> stamped t (CProd c l)
| st_sum c l : stamped t c -> Forall (fun d : bool * cst (F := R) => stamped t (snd d)) l -> stamped t (CSum c l).

Definition holds (r : rel) (x y : R) : bool :=
  match r with
  | RGe => if Rge_dec x y then true else false
  | RLe => if Rle_dec x y then true else false
  | REq => if Req_EM_T x y then true else false
  | RGt => if Rgt_dec x y then true else false
  | RLt => if Rlt_dec x y then true else false
  end.
(** probability of the points at which the relation holds *)
Definition probability (N : nat) (p : nat -> R) (r : rel) (a b : nat -> R) : R :=
  Rsum (tab N (fun x => if holds r (a x) (b x) then p x else 0)).

(** ** Studies *)
(** value of a parameter, and of a hyper-parameter, at point x of the study's (hyper-)grid *)
Definition valueOf (s : source (F := R)) (x : nat) (n : string) : option R :=
  match find (fun nv => String.eqb (fst nv) n) (combine (so_names s) (so_grid s)) with Some nv => nth_error (snd nv) x | None => None end.
Definition hyperValueOf (s : source (F := R)) (x : nat) (n : string) : option R :=
  match find (fun h => String.eqb (fst (fst (fst h))) n) (so_hyper s) with Some h => nth_error (snd (fst (fst h))) x | None => None end.
(** values of the names in the list only *)
Definition only (ns : list string) (env : nat -> string -> option R) (x : nat) (n : string) : option R :=
  if in_dec string_dec n ns then env x n else None.
(** names of all parameters and hyper-parameters of all studies *)
Definition namesOfAll (ss : list (source (F := R))) : list string :=
  flat_map (fun s => so_names s ++ map (fun h => fst (fst (fst h))) (so_hyper s)) ss.
(** one grid with N points per parameter *)
Definition hasGrid (s : source (F := R)) (N : nat) : Prop :=
  List.length (so_grid s) = List.length (so_names s) /\ Forall (fun g => List.length g = N) (so_grid s).
(** an OnlineStudy has to keep its history for queries about the past *)
Definition keepsHistory (s : source (F := R)) : Prop := match so_online s with Some (false, _) => False | _ => True end.
(** step k is stored for the parameters and the hyper-parameters *)
Definition hasStep (s : source (F := R)) (k : nat) : Prop :=
  keepsHistory s /\ (exists p, nth_error (so_post s) k = Some (Some p)) /\
  (so_online s <> None -> Forall (fun h => k < List.length (snd (fst h)))%nat (so_hyper s)).
(** the value of expression c at point x of the grid is m x *)
Definition evaluates (pow : R -> R -> option R) (fn : string -> R -> option R) (env : nat -> string -> option R) (N : nat)
  (c : cst (F := R)) (m : nat -> R) : Prop := forall x, (x < N)%nat -> meaning pow fn (env x) c = Some (m x).
(** k is the first position of time stamp u *)
Definition firstAt (ts : list R) (u : R) (k : nat) : Prop := nth_error ts k = Some u /\ forall j, (j < k)%nat -> nth_error ts j <> Some u.
(** the parser's list of studies: unique names and one grid per parameter *)
Definition studies (ss : list (source (F := R))) : Prop :=
  NoDup (namesOfAll ss) /\ Forall (fun s => List.length (so_grid s) = List.length (so_names s)) ss.

(** all studies can be loaded: without a global time stamp an OnlineStudy without history needs a current distribution, with a
    global time stamp (step k of the first study) all studies need that step *)
Definition loads (ss : list (source (F := R))) (t : option R) : Prop :=
  match t with
  | None => Forall (fun s => match so_online s with Some (false, m) => m <> None /\ so_stamps s <> [] | _ => True end) ss
  | Some u => exists first k, nth_error ss 0 = Some first /\ firstAt (so_stamps first) u k /\ Forall (fun s => hasStep s k) ss
  end.

(** [reads ss t i shape h time N q env]: in a query with argument t, the expressions of form [shape] are about study i: its hyper-parameters
    (h) or parameters (not h) at [time], where point x < N has probability q x and the names have the values env x. *)
Inductive reads (ss : list (source (F := R))) : option R -> nat -> (cst (F := R) -> Prop) -> bool -> option R -> nat -> (nat -> R) -> (nat -> string -> option R) -> Prop :=
(* parameters with time stamps: a@u *)
| rd_at i s u k N q : nth_error ss i = Some s -> keepsHistory s -> hasGrid s N -> firstAt (so_stamps s) u k ->
    nth_error (so_post s) k = Some (Some (map Fin (tab N q))) -> reads ss None i (stamped u) false (Some u) N q (valueOf s)
(* the argument t is looked up in the first study; the step with that index is used for every study *)
| rd_argument i s first u k N q : nth_error ss i = Some s -> hasGrid s N -> nth_error ss 0 = Some first -> firstAt (so_stamps first) u k ->
    nth_error (so_post s) k = Some (Some (map Fin (tab N q))) -> reads ss (Some u) i unstamped false (Some u) N q (valueOf s)
(* OnlineStudy without history: current values *)
| rd_current i s l u N q : nth_error ss i = Some s -> so_online s = Some (false, Some (map Fin (tab N q))) -> hasGrid s N -> so_stamps s = l ++ [u] ->
    reads ss None i unstamped false (Some u) N q (valueOf s)
(* hyper-parameters of a HyperStudy or ChangepointStudy: normalised joint distribution *)
| rd_hyper t i s N d : nth_error ss i = Some s -> so_online s = None ->
    Forall (fun h => List.length (snd (fst (fst h))) = N /\ snd h = map Fin (tab N d)) (so_hyper s) -> Rsum (tab N d) <> 0 ->
    reads ss t i unstamped true None N (fun x => d x / Rsum (tab N d)) (hyperValueOf s)
(* hyper-parameters ns of one transition model of an OnlineStudy with history, with time stamps or the argument t *)
| rd_hyper_at i s m u k ns hist N d : nth_error ss i = Some s -> so_online s = Some (true, m) -> firstAt (so_stamps s) u k ->
    (forall h, In h (so_hyper s) -> In (fst (fst (fst h))) ns -> List.length (snd (fst (fst h))) = N /\ snd (fst h) = hist) ->
    nth_error hist k = Some (map Fin (tab N d)) -> Rsum (tab N d) <> 0 ->
    reads ss None i (stamped u) true (Some u) N (fun x => d x / Rsum (tab N d)) (only ns (hyperValueOf s))
| rd_hyper_argument i s m first u k ns hist N d : nth_error ss i = Some s -> so_online s = Some (true, m) -> nth_error ss 0 = Some first -> firstAt (so_stamps first) u k ->
    (forall h, In h (so_hyper s) -> In (fst (fst (fst h))) ns -> List.length (snd (fst (fst h))) = N /\ snd (fst h) = hist) ->
    nth_error hist k = Some (map Fin (tab N d)) -> Rsum (tab N d) <> 0 ->
    reads ss (Some u) i unstamped true (Some u) N (fun x => d x / Rsum (tab N d)) (only ns (hyperValueOf s))
(* ... without history: current values *)
| rd_hyper_current i s m l u ns N d : nth_error ss i = Some s -> so_online s = Some (false, m) -> so_stamps s = l ++ [u] ->
    (forall h, In h (so_hyper s) -> In (fst (fst (fst h))) ns -> List.length (snd (fst (fst h))) = N /\ snd h = map Fin (tab N d)) ->
    Rsum (tab N d) <> 0 ->
    reads ss None i unstamped true (Some u) N (fun x => d x / Rsum (tab N d)) (only ns (hyperValueOf s)).

(** ** Independent operands *)
(** total product probability of the pairs of points with property f *)
Definition pairsWhere (N : nat) (q : nat -> R) (N' : nat) (q' : nat -> R) (f : nat -> nat -> bool) : R :=
  Rsum (tab N (fun x => Rsum (tab N' (fun y => if f x y then q x * q' y else 0)))).
Definition pairProbability (N : nat) (q : nat -> R) (N' : nat) (q' : nat -> R) (r : rel) (a b : nat -> R) : R :=
  pairsWhere N q N' q' (fun x y => holds r (a x) (b y)).
(** two expressions, in brackets, joined by an operator *)
Definition joined (o : sym) (c d : cst (F := R)) : cst (F := R) :=
  CPar (match o with SAdd => CSum (CPar c) [(true, CPar d)] | SSub => CSum (CPar c) [(false, CPar d)] | SMul => CProd (CPar c) [(true, CPar d)]
        | SDiv => CProd (CPar c) [(false, CPar d)] | _ => CPow (CPar c) (CPar d) end).
(** not a sum without brackets *)
Definition noSum (c : cst (F := R)) : Prop := match c with CSum _ _ => False | _ => True end.
Definition firstName (c : cst (F := R)) (n : string) : Prop := hd_error (namesIn c) = Some n.

(** ** Distributions *)
(** at top level the query is an operation on two or more operands (brackets do not matter) *)
Fixpoint composite (c : cst (F := R)) : Prop :=
  match c with
  | CPar c => composite c
  | CPow _ _ => True
  | CAt c l => match l with [] => composite c | _ => True end
  | CProd c l | CSum c l => match l with [] => composite c | _ => True end
  | _ => False
  end.
Definition smallest (N : nat) (m : nat -> R) (lo : R) : Prop := (exists x, (x < N)%nat /\ m x = lo) /\ forall x, (x < N)%nat -> lo <= m x.
Definition largest (N : nat) (m : nat -> R) (hi : R) : Prop := (exists x, (x < N)%nat /\ m x = hi) /\ forall x, (x < N)%nat -> m x <= hi.
(** values without another value between them *)
Definition neighbours (N : nat) (m : nat -> R) (x y : nat) : Prop :=
  (x < N)%nat /\ (y < N)%nat /\ m x < m y /\ forall z, (z < N)%nat -> ~ (m x < m z < m y).
Definition largestGap (N : nat) (m : nat -> R) (G : R) : Prop :=
  (exists x y, neighbours N m x y /\ m y - m x = G) /\ forall x y, neighbours N m x y -> m y - m x <= G.
(** probability of the values in [lo, hi) *)
Definition within (N : nat) (q m : nat -> R) (lo hi : R) : R :=
  Rsum (tab N (fun x => if Rle_dec lo (m x) then if Rlt_dec (m x) hi then q x else 0 else 0)).

(** ** Queries without an answer *)
(** name n belongs to a sequence of distributions of a study: a parameter of a study that keeps its history, or a hyper-parameter of an
    OnlineStudy that does. Operations on such names require a time stamp. *)
Definition needsStamp (ss : list (source (F := R))) (n : string) : Prop := exists i s, nth_error ss i = Some s /\ keepsHistory s /\
  (In n (so_names s) /\ n <> "_derived"%string \/ so_online s <> None /\ In n (map (fun h => fst (fst (fst h))) (so_hyper s))).
(** ... and u is none of the time stamps of that study *)
Definition lacksStamp (ss : list (source (F := R))) (u : R) (n : string) : Prop := exists i s, nth_error ss i = Some s /\ keepsHistory s /\ ~ In u (so_stamps s) /\
  (In n (so_names s) \/ so_online s <> None /\ In n (map (fun h => fst (fst (fst h))) (so_hyper s))).
(** both sides have a value for some values of the names *)
Definition sensible (pow : R -> R -> option R) (fn : string -> R -> option R) (c d : cst (F := R)) : Prop :=
  exists env a b, meaning pow fn env c = Some a /\ meaning pow fn env d = Some b.
