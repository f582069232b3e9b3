(** Hyper-parameter grids. *)
From Coq Require Import List Reals String Bool.
From Verif Require Import Base.Num Base.Exn Base.Arr Base.RSum Model.Helper Model.Tm Spec.Kernel Spec.Names.
Import ListNotations.
Local Open Scope R_scope.

(** the values of a hyper-parameter; 'all' stands for the time stamps without the last one *)
Definition valueList (ts : list R) (v : hval R) (xs : list R) : Prop :=
  match v with
  | HNum x => xs = [x]
  | HArr a | HList a => xs = a
  | HAll => xs = removelast ts
  | HNone => False
  end.

(** given as an array (of any length) or 'all', not as a number *)
Definition manyValued (v : hval R) : Prop := match v with HArr _ | HAll => True | _ => False end.

(** equally spaced up to 1e-10 *)
Definition evenly (xs : list R) : Prop :=
  forall i, (i + 2 < List.length xs)%nat ->
    Rabs ((nth (i + 2) xs 0 - nth (i + 1) xs 0) - (nth (i + 1) xs 0 - nth i xs 0)) < / 10000000000.
(** the grid constant: distance of the values, or 1 for values that are not equally spaced and for a single value *)
Definition spacing (xs : list R) (c : R) : Prop :=
  ((2 <= List.length xs)%nat -> evenly xs -> c = Rabs (nth 1 xs 0 - nth 0 xs 0)) /\
  ((2 <= List.length xs)%nat -> ~ evenly xs -> c = 1) /\
  ((List.length xs <= 1)%nat -> c = 1).

(** [w] are the weights that the hyper-prior [p] gives to the values [xs]: no prior is flat, a function is applied to
    the values, an array lists the weights *)
Definition weights (p : hprior R) (v : hval R) (xs w : list R) : Prop :=
  match p with
  | HPNone => w = map (fun _ => 1) xs
  | HPFun f => manyValued v /\ map f xs = map Fin w
  | HPArr a => manyValued v /\ a = map Fin w /\ List.length w = List.length xs
  | _ => False
  end.

(** normalised over the values, as a density with respect to cells of size [c] *)
Definition density (w : list R) (c : R) (i : nat) : R := Rnth w i / Rsum w / c.

(** the prior of the grid point with the indices [idx] *)
Fixpoint gridPrior (ws : list (list R)) (cs : list R) (idx : list nat) : R :=
  match ws, cs, idx with
  | w :: ws', c :: cs', i :: idx' => density w c i * gridPrior ws' cs' idx'
  | _, _, _ => 1
  end.

(** the grid point with the indices [idx] *)
Definition gridPoint (points : list (list R)) (idx : list nat) : list R :=
  map (fun p => nth (snd p) (fst p) 0) (combine points idx).

Section Priors.
  Context {F : Type}.
  (** a transition model without its hyper-priors *)
  Fixpoint noPriors (m : tm F) : tm F :=
    match m with TM k names vals _ ms => TM k names vals None (map noPriors ms) end.
End Priors.

(** ** Hyper-studies *)
From Verif Require Import Model.HyperParams Model.Study Model.Hyper Spec.Dist.

(** every model has as many values as names (as all models made by the constructors, see [built_named]), no two hyper-parameters have
    the same name, no plain Python list is among the values *)
Definition wellNamed (m : tm R) : Prop :=
  named m /\ NoDup (allNames m) /\ ~ In " "%string (allNames m) /\ Forall plain (map snd (assocs m)).

(** A hyper-study to which [fit] can be applied; [ts] are the time stamps after formatting. Array priors are excluded,
    because [fit] overwrites them (C10). *)
Record hyperReady (H : hyper R R) (o : om R) (m : tm R) (ts : list R) : Prop := {
  hr_om : st_om (hy_S H) = Some o;
  hr_tm : st_tm (hy_S H) = Some m;
  hr_ts : exists rts, st_rawTs (hy_S H) = Some rts /\ ts = formatTimestamps rts (om_seglen o);
  hr_names : wellNamed m;
  hr_sel : st_sel (hy_S H) = [];
  hr_prior : match om_prior o with PArr _ _ => False | _ => True end
}.

(** the transition model with the hyper-parameters set to the numbers [row] *)
Definition withValues (m : tm R) (row : list R) : tm R := assign (lookup (combine (allNames m) (map HNum row))) m.
(** the analysis (Study.fit) with the hyper-parameters fixed to [row] *)
Definition single (H : hyper R R) (m : tm R) (fo eo : bool) (row : list R) (A : study R R) : Prop :=
  fit (set_tm (hy_S H) (withValues m row) (st_tmlat (hy_S H))) fo eo = Ok A.

(** evidence of an analysis: exp of its log-evidence *)
Definition evidenceOf (A : study R R) : R := match st_logEv A with Fin v => exp v | _ => 0 end.
(** posterior probability of parameter value [x] at step [j] *)
Definition postAt (A : study R R) (j x : nat) : R :=
  match nth j (st_post A) None with
  | Some a => match nth x a NaN with Fin v => v | _ => 0 end
  | None => 0
  end.
(** number of steps and grid points *)
Definition stepsH (H : hyper R R) (o : om R) : nat := List.length (formatData (st_raw (hy_S H)) (om_seglen o)).
Definition pointsH (H : hyper R R) : nat := natprod (st_shape (hy_S H)).
(** the log-evidence of the analysis is a number or -inf; in the first case the posterior sequence is complete and
    non-negative (holds for all models of C12, see there) *)
Definition proper (eo : bool) (n N : nat) (A : study R R) : Prop :=
  st_logEv A = NInf \/
  (exists v, st_logEv A = Fin v) /\
  (eo = false -> exists posts, st_post A = map Some posts /\ List.length posts = n /\ Forall (finite N) posts).

(** values below 1e-300 are replaced *)
Definition floored (x : R) : R := Rmax x (Rpower 10 (-300)).

(** one hyper-prior, value list and list of prior weights for each hyper-parameter; the values of a hyper-parameter are
    distinct and the weights can be normalised *)
Inductive hyperWeights (ts : list R) : list (hprior R) -> list (hval R) -> list (list R) -> list (list R) -> Prop :=
| hw_nil : hyperWeights ts [] [] [] []
| hw_cons p ps v vs xs points w ws :
    valueList ts v xs -> NoDup xs -> weights p v xs w -> Forall (fun x => 0 <= x) w -> 0 < Rsum w ->
    hyperWeights ts ps vs points ws -> hyperWeights ts (p :: ps) (v :: vs) (xs :: points) (w :: ws).

(** ** Marginal distributions *)
From Verif Require Import Spec.Config Spec.Marginal.

(** number of values of a hyper-parameter *)
Definition valueCount (v : hval R) : nat := match v with HArr xs | HList xs => List.length xs | _ => 1%nat end.
Definition shapeH (H : hyper R R) : list nat := map valueCount (hy_vals H).
(** A hyper-study with several fitted combinations; [p] is the probability density of the combinations *)
Record hyperFitted (H : hyper R R) (m : tm R) (p : nat -> R) : Prop := {
  hf_many : (2 <= List.length (hy_grid H))%nat;
  hf_tm : st_tm (hy_S H) = Some m;
  hf_names : allNames m = hy_names H;
  hf_nodup : NoDup (hy_names H);
  hf_vals : List.length (hy_vals H) = List.length (hy_names H);
  hf_size : (List.length (hy_grid H) <= natprod (shapeH H))%nat;   (* some combinations may have been rejected, see C33 *)
  hf_dist : hy_dist H = Some (arrOf (natprod (shapeH H)) p);
  hf_norm : rsum (natprod (shapeH H)) p * Rprod (hy_const H) = 1
}.
(** probability density that the hyper-parameters a and b have their i-th and j-th value *)
Definition joint (shape : list nat) (a b : nat) (p : nat -> R) (i j : nat) : R :=
  rsum (natprod shape) (fun x => if Nat.eqb (coord shape a x) i && Nat.eqb (coord shape b x) j then p x else 0).

(** the change-points and break-points of a transition model, at any depth *)
Inductive isPoint : tm R -> string -> Prop :=
| ip_change names vals p ms n : In n names -> isPoint (TM KChange names vals p ms) n
| ip_break mask names vals p ms n : In n names -> isPoint (TM (KSerial mask) names vals p ms) n
| ip_sub k names vals p ms m n : In m ms -> isPoint m n -> isPoint (TM k names vals p ms) n.
(** some combination of values gives two change- or break-points the same time *)
Definition clash (m : tm R) (points : list (list R)) : Prop :=
  exists row i j ni nj, Forall2 (fun v xs => In v xs) row points /\ i <> j /\
    nth_error (allNames m) i = Some ni /\ nth_error (allNames m) j = Some nj /\ isPoint m ni /\ isPoint m nj /\ nth i row 0 = nth j row 0.
