(** Specification: the transition probabilities between grid points that a transition model stands for.

    Grid points are numbered 0..N-1 in row-major order. The specification is a recursion over the nested model that only
    says which Markov kernel each building block denotes; it does not mention how bayesloop applies it. *)
From Coq Require Import List ZArith Reals String Bool.
From Verif Require Import Base.Num Base.Arr Base.RSum Model.Helper Model.Tm.
Import ListNotations.
Local Open Scope R_scope.

(** ** Grid geometry *)
(** coordinates of grid point x, and back *)
Fixpoint unravel (shape : list nat) (x : nat) : list nat :=
  match shape with
  | [] => []
  | _ :: s => (x / natprod s)%nat :: unravel s (x mod natprod s)%nat
  end.
Fixpoint ravel (shape : list nat) (c : list nat) : nat :=
  match shape, c with
  | _ :: s, i :: c' => (i * natprod s + ravel s c')%nat
  | _, _ => O
  end.

(** reflection of an integer position into 0..n-1 (walls half a cell outside the first and last point) *)
Definition reflect (n : nat) (i : Z) : nat :=
  let m := (i mod (2 * Z.of_nat n))%Z in
  Z.to_nat (if (m <? Z.of_nat n)%Z then m else (2 * Z.of_nat n - 1 - m)%Z).

(** grid point reached from x by k steps along axis a *)
Definition move (shape : list nat) (a : nat) (k : Z) (x : nat) : nat :=
  let c := unravel shape x in
  ravel shape (lset c a (reflect (nth a shape O) (Z.of_nat (nth a c O) + k))).

(** ** Kernels: K x y = probability to go from x to y *)
Definition kern := nat -> nat -> R.
Definition Kid : kern := fun x y => if Nat.eqb x y then 1 else 0.
Definition Kreset (rho : nat -> R) : kern := fun _ y => rho y.
Definition Kprod (N : nat) (K1 K2 : kern) : kern := fun x y => rsum N (fun z => K1 x z * K2 z y).

(** step sizes -r..r *)
Definition steps (r : nat) : list Z := map (fun i => (Z.of_nat i - Z.of_nat r)%Z) (seq 0 (2 * r + 1)).

(** Discretised Gaussian with standard deviation sd (in grid points), cut off at four standard deviations *)
Definition gRadius (sd : R) : nat := Z.to_nat (Int_part (4 * sd + / 2)).
Definition gDensity (sd : R) (k : Z) : R := exp (- (IZR k * IZR k) / (2 * (sd * sd))).
Definition gProb (sd : R) (k : Z) : R := gDensity sd k / Rsum (map (gDensity sd) (steps (gRadius sd))).

(** Gaussian random walk along axis a with reflecting boundaries *)
Definition Kwalk (shape : list nat) (a : nat) (sd : R) : kern :=
  fun x y => Rsum (map (fun k => if Nat.eqb (move shape a k x) y then gProb sd k else 0) (steps (gRadius sd))).

(** ** What a transition model stands for *)
(** the grid (shape, lattice constants, parameter names) and the probabilities to restart with after a reset *)
Record space := { sp_shape : list nat; sp_lat : list R; sp_names : list string; sp_reset : nat -> R }.
Definition sp_size (sp : space) : nat := natprod (sp_shape sp).

Fixpoint posOf (l : list string) (s : string) : nat :=
  match l with [] => O | a :: l' => if String.eqb a s then O else S (posOf l' s) end.

Definition numOf (v : hval R) : R := match v with HNum x => x | _ => 0 end.
(** number of break times up to (and including) time t *)
Definition breaksBefore (bs : list R) (t : R) : nat := List.length (filter (fun b => if Rle_dec b t then true else false) bs).
Definition eqR (a b : R) : bool := if Req_EM_T a b then true else false.
(** break times that are change-points *)
Definition changeTimes (bs : list R) (mask : list bool) : list R := map fst (filter snd (combine bs mask)).

Fixpoint kernel (sp : space) (m : tm R) (t : R) {struct m} : kern :=
  match m with
  | TM (KGRW s) _ vals _ _ =>
      let a := posOf (sp_names sp) s in
      let sd := numOf (hd HNone vals) / nth a (sp_lat sp) 1 in
      if Rlt_dec 0 sd then Kwalk (sp_shape sp) a sd else Kid
  | TM KChange _ vals _ _ => if eqR t (numOf (hd HNone vals)) then Kreset (sp_reset sp) else Kid
  | TM KIndep _ _ _ _ => Kreset (sp_reset sp)
  | TM KComb _ _ _ ms => fold_right (fun m' K => Kprod (sp_size sp) (kernel sp m' t) K) Kid ms
  | TM (KSerial mask) _ vals _ ms =>
      let bs := map numOf vals in
      if existsb (eqR t) (changeTimes bs mask) then Kreset (sp_reset sp)
      else nth (breaksBefore bs t) (map (fun m' => kernel sp m' t) ms) Kid
  | TM _ _ _ _ _ => Kid
  end.

(** Does the step at time t end with a reset by a change-point (and not with something else)?  [b]: same question for
    what was applied before m in the same time step. *)
Fixpoint resetBy (m : tm R) (t : R) (b : bool) {struct m} : bool :=
  match m with
  | TM KChange _ vals _ _ => if eqR t (numOf (hd HNone vals)) then true else b
  | TM KIndep _ _ _ _ => false
  | TM KComb _ _ _ ms => fold_left (fun b f => f b) (map (fun m' => resetBy m' t) ms) b
  | TM (KSerial mask) _ vals _ ms =>
      let bs := map numOf vals in
      if existsb (eqR t) (changeTimes bs mask) then true
      else nth (breaksBefore bs t) (map (fun m' => resetBy m' t) ms) (fun b => b) b
  | _ => b
  end.
Definition resetAt (m : tm R) (t : R) : bool := resetBy m t false.

(** Transition models (with all hyper-parameters set to numbers) that act linearly on distributions *)
Inductive linear (names : list string) : tm R -> Prop :=
| lin_static hn p : linear names (TM KStatic hn [] p [])
| lin_grw hn p s sigma : In s names -> linear names (TM (KGRW s) hn [HNum sigma] p [])
| lin_change hn p tc : linear names (TM KChange hn [HNum tc] p [])
| lin_indep hn p : linear names (TM KIndep hn [] p [])
| lin_comb hn hv p ms : Forall (linear names) ms -> linear names (TM KComb hn hv p ms)
| lin_serial hn p mask bs ms :
    List.length ms = S (List.length bs) -> Forall (linear names) ms ->
    linear names (TM (KSerial mask) hn (map HNum bs) p ms).

(** Transition models whose step does not depend on time *)
Fixpoint homogeneous {F} (m : tm F) : bool :=
  match m with
  | TM (KChange | KSerial _ | KDet _ _ | KBreak _ _) _ _ _ _ => false
  | TM KComb _ _ _ ms => forallb homogeneous ms
  | _ => true
  end.
