(** Specification: the data and the transition model seen backwards in time. *)
From Coq Require Import List ZArith Reals String Bool.
From Verif Require Import Base.Num Base.Arr Model.Helper Model.Tm Model.Study Spec.Kernel.
Import ListNotations.
Local Open Scope R_scope.

(** the data points in reverse order *)
Definition rawRev {F} (d : raw F) : raw F := match d with Raw1 l => Raw1 (rev l) | Raw2 l => Raw2 (rev l) end.

(** The transition model with time running backwards. The transition after time t becomes the transition after time T - t:
    a change-point at c moves to T - c, a break-point at b (which acts on all transitions after times >= b) to T + 1 - b, and the
    sub-models of a serial model change their order. *)
Fixpoint mirror (T : R) (m : tm R) : tm R :=
  match m with
  | TM KChange names vals p ms => TM KChange names (map (fun v => HNum (T - numOf v)) vals) p ms
  | TM KComb names vals p ms => TM KComb names vals p (map (mirror T) ms)
  | TM (KSerial mask) names vals p ms =>
      TM (KSerial mask) names (rev (map (fun v => HNum (T + 1 - numOf v)) vals)) p (rev (map (mirror T) ms))
  | m => m
  end.

(** no change-points inside serial models, and break-points only at whole steps from t0 *)
Inductive mirrorable (t0 : R) : tm R -> Prop :=
| mi_static hn hv p : mirrorable t0 (TM KStatic hn hv p [])
| mi_grw hn p s v : mirrorable t0 (TM (KGRW s) hn v p [])
| mi_change hn p c : mirrorable t0 (TM KChange hn [HNum c] p [])
| mi_indep hn v p : mirrorable t0 (TM KIndep hn v p [])
| mi_comb hn v p ms : Forall (mirrorable t0) ms -> mirrorable t0 (TM KComb hn v p ms)
| mi_serial hn p mask bs ms :
    List.length ms = S (List.length bs) -> Forall (fun b => exists z, b = t0 + IZR z) bs -> Forall (fun c => c = false) mask ->
    Forall (mirrorable t0) ms -> mirrorable t0 (TM (KSerial mask) hn (map HNum bs) p ms).
