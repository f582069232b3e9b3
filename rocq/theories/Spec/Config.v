(** What it means for a study to be ready for a fit, in terms of what the user supplied. *)
From Coq Require Import List ZArith Reals String Bool.
From Verif Require Import Base.Num Base.Exn Base.Arr Base.RSum Model.Helper Model.Tm Model.HyperParams Model.Study
  Spec.Kernel Spec.Hmm.
Import ListNotations.
Local Open Scope R_scope.

(** arrays of finite numbers given by a function of the grid point *)
Definition arrOf (N : nat) (f : nat -> R) : list (xnum R) := map Fin (tab N f).

(** Observation model [o] with parameter values [vs] and transition model [m] are set, data with one time stamp per data
    point are loaded, hyper-parameter names are unique, parameter values are not repeated.  (Every sequence of calls
    setOM, setTM, loadData leads to such a state, see Props/Setup.v.) *)
Record configured (S : study R R) (o : om R) (m : tm R) (vs : list (list R)) (ts : list R) : Prop := {
  cf_om : st_om S = Some o;
  cf_tm : st_tm S = Some m;
  cf_shape : st_shape S = map (@List.length R) vs;
  cf_grid : st_grid S = meshgrid vs;
  cf_lat : mapM latticeOf vs = Ok (st_lat S);
  cf_tmlat : st_tmlat S = st_lat S;
  cf_names : List.length (om_names o) = List.length vs;
  cf_dim : vs <> [];
  cf_spacing : Forall (fun l => 0 < l) (st_lat S);
  cf_unique : NoDup (allNames m);
  cf_data : (0 < rawLen (st_raw S))%nat;
  cf_ts : st_rawTs S = Some ts;
  cf_ts_len : List.length ts = rawLen (st_raw S);
  cf_seglen : (0 < om_seglen o)%nat
}.

(** number of grid points, cell volume *)
Definition gridPoints (vs : list (list R)) : nat := natprod (map (@List.length R) vs).
Definition cellVolume (S : study R R) : R := Rprod (st_lat S).

(** data segments and their time stamps *)
Definition segments (S : study R R) (o : om R) : list (seg R) := formatData (st_raw S) (om_seglen o).
Definition nSteps (S : study R R) (o : om R) : nat := List.length (segments S o).
Definition timeOf (ts : list R) (o : om R) (i : nat) : R := nth (i + (om_seglen o - 1)) ts 0.
Definition unitSpaced (ts : list R) : Prop := forall i, (Datatypes.S i < List.length ts)%nat -> nth (Datatypes.S i) ts 0 = nth i ts 0 + 1.

(** [lik i x] is the likelihood of segment i at grid point x (one for missing data) *)
Definition likelihoods (S : study R R) (o : om R) (vs : list (list R)) (lik : nat -> nat -> R) : Prop :=
  forall i s, nth_error (segments S o) i = Some s ->
    processedPdf o (gridPoints vs) (meshgrid vs) s = arrOf (gridPoints vs) (lik i) /\
    forall x, (x < gridPoints vs)%nat -> 0 <= lik i x.

Definition flat (N : nat) : nat -> R := fun _ => 1 / INR N.
(** probabilities proportional to g *)
Definition normalised (N : nat) (g : nat -> R) : nat -> R := fun x => g x / rsum N g.

(** [priorIs S vs names p rho]: the prior [p] supplied by the user means the probabilities [rho] on the grid. Function or
    array values that sum to exactly one are excluded here, see C11. SymPy priors are densities and are used as they are. *)
Inductive priorIs (S : study R R) (vs : list (list R)) (o : om R) : priorSpec R -> (nat -> R) -> Prop :=
| pri_flat : priorIs S vs o PNone (flat (gridPoints vs))
| pri_fun f g :
    f (meshgrid vs) = arrOf (gridPoints vs) g -> (forall x, (x < gridPoints vs)%nat -> 0 <= g x) ->
    0 < rsum (gridPoints vs) g -> rsum (gridPoints vs) g <> 1 ->
    priorIs S vs o (PFun f) (normalised (gridPoints vs) g)
| pri_const c : 0 < c -> INR (gridPoints vs) * c <> 1 -> priorIs S vs o (PConst c) (flat (gridPoints vs))
| pri_arr g :
    (forall x, (x < gridPoints vs)%nat -> 0 <= g x) -> 0 < rsum (gridPoints vs) g -> rsum (gridPoints vs) g <> 1 ->
    priorIs S vs o (PArr (map (@List.length R) vs) (arrOf (gridPoints vs) g)) (normalised (gridPoints vs) g)
| pri_sym f g :
    f (meshgrid vs) = arrOf (gridPoints vs) g -> (forall x, (x < gridPoints vs)%nat -> 0 <= g x) ->
    priorIs S vs o (PSym (List.length (om_names o)) f) (fun x => g x * cellVolume S).

(** Does the transition at time t go back to the prior anywhere (change-point or Independent)? *)
Fixpoint usesReset (m : tm R) (t : R) {struct m} : bool :=
  match m with
  | TM KChange _ vals _ _ => eqR t (numOf (hd HNone vals))
  | TM KIndep _ _ _ _ => true
  | TM KComb _ _ _ ms => existsb (fun m' => usesReset m' t) ms
  | TM (KSerial mask) _ vals _ ms =>
      let bs := map numOf vals in
      existsb (eqR t) (changeTimes bs mask) || nth (breaksBefore bs t) (map (fun m' => usesReset m' t) ms) false
  | _ => false
  end.
(** no transition of the data goes back to the prior *)
Definition resetFree (S : study R R) (o : om R) (m : tm R) (ts : list R) : Prop :=
  forall i, (i < nSteps S o)%nat -> usesReset m (timeOf ts o i) = false /\ usesReset m (timeOf ts o i - 1) = false.
(** Priors whose meaning at a reset is the same as at the start of the data: flat and function priors. (Arrays are
    overwritten during the fit, see C10; constant functions and SymPy priors are treated differently at a reset.) *)
Definition stablePrior (p : priorSpec R) : Prop := match p with PNone | PFun _ => True | _ => False end.

(** the Markov model that observation model, prior and transition model describe *)
Definition spaceS (S : study R R) (o : om R) (rho : nat -> R) : space :=
  {| sp_shape := st_shape S; sp_lat := st_lat S; sp_names := om_names o; sp_reset := rho |}.
Definition transition (S : study R R) (o : om R) (m : tm R) (ts : list R) (rho : nat -> R) (i : nat) : kern :=
  kernel (spaceS S o rho) m (timeOf ts o i).

(** number of transitions before the last observation that end with a change-point reset *)
Definition resetCount (m : tm R) (time : nat -> R) (n : nat) : nat :=
  List.length (filter (fun i => resetAt m (time i)) (seq 0 (n - 1))).
