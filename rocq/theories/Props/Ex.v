(** Concrete studies used in the examples of the other Props files.  They are generic in the carrier so that the same
    study can be used with the theorems (reals) and executed (rationals). *)
From Coq Require Import List ZArith QArith Reals String Bool.
From Verif Require Import Base.Num Base.Exn Base.Arr Model.Helper Model.Tm Model.HyperParams Model.Study Model.Api.
Import ListNotations.
Local Open Scope string_scope.
Local Open Scope res_scope.

Section Ex.
  Context {F L : Type} `{Num F} `{LogNum F L}.
  Definition nat2F (n : nat) : F := fofZ (Z.of_nat n).
  Definition frac (a b : Z) : F := fdiv (fofZ a) (fofZ b).

  (** coin with unknown bias p: P(d=1) = p, P(d=0) = 1-p *)
  Definition coinPdf (grid : list (list F)) (s : seg F) : list (xnum F) :=
    match s with
    | Seg1 [Fin d] => map (fun p => Fin (fadd (fmul d p) (fmul (fsub f1 d) (fsub f1 p)))) (hd [] grid)
    | _ => aones (List.length (hd [] grid))
    end.
  (** the same for segments of any length: only the last two points count (used for segment length 2) *)
  Definition coinOM (vals : list F) (prior : priorSpec F) : om F :=
    {| om_names := ["p"]; om_values := [Some vals]; om_seglen := 1; om_multiply := true; om_prior := prior;
       om_pdf := coinPdf; om_estimate := fun _ _ => Err NotImplementedError |}.
  (** two parameters a, b; datum d has likelihood a + d*b (not normalised, any non-negative function will do) *)
  Definition pairPdf (grid : list (list F)) (s : seg F) : list (xnum F) :=
    match s with
    | Seg1 [Fin d] => map2 (fun a b => Fin (fadd a (fmul d b))) (nth 0 grid []) (nth 1 grid [])
    | _ => aones (List.length (hd [] grid))
    end.
  Definition pairOM (va vb : list F) (prior : priorSpec F) : om F :=
    {| om_names := ["a"; "b"]; om_values := [Some va; Some vb]; om_seglen := 1; om_multiply := true; om_prior := prior;
       om_pdf := pairPdf; om_estimate := fun _ _ => Err NotImplementedError |}.

  Definition grw (name target : string) (sigma : F) : tm F := TM (KGRW target) [name] [HNum sigma] (Some (Leaf HPNone)) [].
  Definition change (name : string) (t : F) : tm F := TM KChange [name] [HNum t] (Some (Leaf HPNone)) [].
  Definition comb (ms : list (tm F)) : tm F := TM KComb [] [] None ms.
  Definition static : tm F := mkStatic.
  Definition indep : tm F := mkIndep.
  Definition notEq2 : tm F := TM KNotEq ["q"] [HNum (fofZ (-2))] (Some (Leaf HPNone)) [].
  Definition serial (mask : list bool) (names : list string) (bs : list F) (ms : list (tm F)) : tm F :=
    TM (KSerial mask) names (map HNum bs) (Some (Node (map (fun _ => Leaf HPNone) bs))) ms.

  Definition fresh : study F L := newStudy (fun _ _ a => a) (fun _ _ _ a => a) (fun _ _ _ a => a).
  Definition data (l : list Z) : raw F := Raw1 (map (fun z => Fin (fofZ z)) l).
  Definition quarters : list F := [frac 1 4; frac 1 2; frac 3 4].
  (** prior that is proportional to the parameter *)
  Definition slope : priorSpec F := PFun (fun g => map Fin (hd [] g)).
  (** load data, set both models *)
  Definition setup (d : raw F) (ts : option (list F)) (o : om F) (m : tm F) : res (study F L) :=
    runCalls fresh [CLoad d ts; CSetTM m; CSetOM o].
End Ex.

(** Running calls: from a computed result of a sequence of calls to the intermediate studies *)
Lemma bindE {A B} (r : res A) (f : A -> res B) b : bind r f = Ok b -> exists a, r = Ok a /\ f a = Ok b.
Proof. destruct r; cbn; [eauto|discriminate]. Qed.
Ltac run E := repeat (apply bindE in E; let H := fresh "Run" in destruct E as (? & H & E)); injection E; clear E; intros.
