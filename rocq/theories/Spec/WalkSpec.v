(** Transition models that may also contain alpha-stable and bivariate random walks. *)
From Coq Require Import List ZArith Reals String Bool Arith.
From Verif Require Import Base.Num Base.Exn Base.Arr Base.RSum Model.Helper Model.Tm Model.Study Spec.Config.
Import ListNotations.
Local Open Scope R_scope.

(** grids on which alpha-stable random walks work: one parameter, or two with an even number of values each *)
Definition stableGrid (shape : list nat) : Prop :=
  match shape with [_] => True | [n1; n2] => Nat.even n1 = true /\ Nat.even n2 = true | _ => False end.

(** Any nesting of Static, GaussianRandomWalk, AlphaStableRandomWalk (tails at least as heavy as Cauchy), BivariateRandomWalk,
    ChangePoint, Independent, RegimeSwitch, NotEqual, Combined and Serial, with all hyper-parameters set to numbers *)
Inductive walkable (shape : list nat) (names : list string) : tm R -> Prop :=
| wk_static hn p : walkable shape names (TM KStatic hn [] p [])
| wk_grw hn p s sigma : In s names -> walkable shape names (TM (KGRW s) hn [HNum sigma] p [])
| wk_alpha hn p s c al : In s names -> 0 < al <= 1 -> stableGrid shape -> walkable shape names (TM (KAlpha s) hn [HNum c; HNum al] p [])
| wk_biv hn p s1 s2 rho : 0 < s1 -> 0 < s2 -> -1 < rho < 1 -> List.length shape = 2%nat -> walkable shape names (TM KBiv hn [HNum s1; HNum s2; HNum rho] p [])
| wk_change hn p tc : walkable shape names (TM KChange hn [HNum tc] p [])
| wk_indep hn p : walkable shape names (TM KIndep hn [] p [])
| wk_regime hn p x : walkable shape names (TM KRegime hn [HNum x] p [])
| wk_notEq hn p x : walkable shape names (TM KNotEq hn [HNum x] p [])
| wk_comb hn hv p ms : Forall (walkable shape names) ms -> walkable shape names (TM KComb hn hv p ms)
| wk_serial hn p mask bs ms :
    List.length ms = S (List.length bs) -> Forall (walkable shape names) ms ->
    walkable shape names (TM (KSerial mask) hn (map HNum bs) p ms).
