(** Distributions on the grid, admissible priors and transition models. *)
From Coq Require Import List ZArith Reals String Bool.
From Verif Require Import Base.Num Base.Exn Base.Arr Base.RSum Model.Helper Model.Tm Model.Study Spec.Config.
Import ListNotations.
Local Open Scope R_scope.

(** N non-negative finite numbers *)
Definition finite (N : nat) (a : list (xnum R)) : Prop :=
  exists r, a = map Fin r /\ List.length r = N /\ Forall (fun x => 0 <= x) r.
(** a probability distribution on N grid points *)
Definition dist (N : nat) (a : list (xnum R)) : Prop :=
  exists r, a = map Fin r /\ List.length r = N /\ Forall (fun x => 0 <= x) r /\ Rsum r = 1.

(** a prior supplied by the user without negative values *)
Definition nonnegPrior (N : nat) (o : om R) (shape : list nat) (grid : list (list R)) (p : priorSpec R) : Prop :=
  match p with
  | PNone => True
  | PArr sh a => sh = shape /\ finite N a
  | PFun f => finite N (f grid)
  | PConst c => 0 <= c
  | PSym n f => n = List.length (om_names o) /\ finite N (f grid)
  end.

(** Transition models nested from Static, GaussianRandomWalk, ChangePoint, Independent, RegimeSwitch, NotEqual, Combined
    and Serial, with all hyper-parameters set to numbers *)
Inductive runnable (names : list string) : tm R -> Prop :=
| run_static hn p : runnable names (TM KStatic hn [] p [])
| run_grw hn p s sigma : In s names -> runnable names (TM (KGRW s) hn [HNum sigma] p [])
| run_change hn p tc : runnable names (TM KChange hn [HNum tc] p [])
| run_indep hn p : runnable names (TM KIndep hn [] p [])
| run_regime hn p x : runnable names (TM KRegime hn [HNum x] p [])
| run_notEq hn p x : runnable names (TM KNotEq hn [HNum x] p [])
| run_comb hn hv p ms : Forall (runnable names) ms -> runnable names (TM KComb hn hv p ms)
| run_serial hn p mask bs ms :
    List.length ms = S (List.length bs) -> Forall (runnable names) ms ->
    runnable names (TM (KSerial mask) hn (map HNum bs) p ms).
