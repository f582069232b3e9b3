(** Numbers of the model.

    The Python code computes with IEEE doubles.  The model computes exactly, in a carrier [F] with the operations
    of class [Num]; [xnum F] adds the IEEE special values, because the code relies on them (division by a zero norm,
    [log 0 = -inf], comparisons with NaN).  Rounding, underflow and signed zeros are not modelled.

    Two instances: [NumR] (theorems) and [NumQ] (execution with [vm_compute]). *)
From Coq Require Import ZArith QArith Qround Reals List Bool.
Import ListNotations.

Class Num (F : Type) := {
  f0 : F;
  f1 : F;
  fadd : F -> F -> F;
  fsub : F -> F -> F;
  fmul : F -> F -> F;
  fdiv : F -> F -> F;          (* only used with a non-zero divisor, see [xdiv] *)
  fltb : F -> F -> bool;
  feqb : F -> F -> bool;
  fofZ : Z -> F;
  ftrunc : F -> Z;             (* Python's int(): truncation towards zero *)
  fexp : F -> F;               (* np.exp; only meaningful for [NumR] *)
  fpow10 : F -> F              (* 10.**x; for [NumQ] only for integral x *)
}.

Definition fleb {F} `{Num F} (a b : F) : bool := fltb a b || feqb a b.
Definition fneg {F} `{Num F} (a : F) : F := fsub f0 a.
Definition fabs {F} `{Num F} (a : F) : F := if fltb a f0 then fneg a else a.

(** Logarithmic quantities live in their own carrier [L]. For [NumR] it is the reals with ln and exp; for [NumQ] a
    log is represented by the number it is the logarithm of, so that adding logs is multiplication. *)
Class LogNum (F L : Type) := {
  l0 : L;
  lln : F -> L;                (* only used with a positive argument, see [xln] *)
  lexp : L -> F;
  ladd : L -> L -> L;
  lsub : L -> L -> L;
  lltb : L -> L -> bool
}.

(** Instance: Coq's reals *)
Definition Rltb (a b : R) : bool := if Rlt_dec a b then true else false.
Definition Reqb (a b : R) : bool := if Req_EM_T a b then true else false.
Definition Rtrunc (x : R) : Z := if Rlt_dec x 0 then (- Int_part (- x))%Z else Int_part x.

#[global] Instance NumR : Num R := {
  f0 := 0%R; f1 := 1%R;
  fadd := Rplus; fsub := Rminus; fmul := Rmult; fdiv := Rdiv;
  fltb := Rltb; feqb := Reqb; fofZ := IZR; ftrunc := Rtrunc; fexp := exp; fpow10 := Rpower 10
}.

#[global] Instance LogNumR : LogNum R R := {
  l0 := 0%R; lln := ln; lexp := exp; ladd := Rplus; lsub := Rminus; lltb := Rltb
}.

(** Instance: rationals in lowest terms (executable). [fexp] is a positive rational stand-in, used in tests only. *)
Definition Qltb (a b : Q) : bool := match Qcompare a b with Lt => true | _ => false end.
#[global] Instance NumQ : Num Q := {
  f0 := 0%Q; f1 := 1%Q;
  fadd a b := Qred (Qplus a b); fsub a b := Qred (Qminus a b);
  fmul a b := Qred (Qmult a b); fdiv a b := Qred (Qdiv a b);
  fltb := Qltb; feqb := Qeq_bool; fofZ := inject_Z;
  ftrunc x := if Qltb x 0 then (- Qfloor (Qopp x))%Z else Qfloor x;
  fexp x := if Qltb x 0 then Qred (1 / (1 - x))%Q else Qred (1 + x)%Q;
  fpow10 x := Qred (Qpower 10 (Qfloor x))
}.

#[global] Instance LogNumQ : LogNum Q Q := {
  l0 := 1%Q; lln x := x; lexp x := x;
  ladd a b := Qred (Qmult a b); lsub a b := Qred (Qdiv a b); lltb := Qltb
}.

(** Extended numbers with the IEEE rules for special values *)
Inductive xnum (F : Type) : Type := Fin (x : F) | PInf | NInf | NaN.
Arguments Fin {F} x.
Arguments PInf {F}.
Arguments NInf {F}.
Arguments NaN {F}.

(** a + b for a given addition of finite values (shared by numbers and logs) *)
Definition xplus {A} (add : A -> A -> A) (a b : xnum A) : xnum A :=
  match a, b with
  | Fin x, Fin y => Fin (add x y)
  | NaN, _ | _, NaN => NaN
  | PInf, NInf | NInf, PInf => NaN
  | PInf, _ | _, PInf => PInf
  | NInf, _ | _, NInf => NInf
  end.

(** a - b for a given subtraction of finite values *)
Definition xminus {A} (sub : A -> A -> A) (a b : xnum A) : xnum A :=
  match a, b with
  | Fin x, Fin y => Fin (sub x y)
  | NaN, _ | _, NaN => NaN
  | PInf, PInf | NInf, NInf => NaN
  | PInf, _ | _, NInf => PInf
  | NInf, _ | _, PInf => NInf
  end.

(** a < b for a given comparison of finite values; false if NaN is involved *)
Definition xless {A} (lt : A -> A -> bool) (a b : xnum A) : bool :=
  match a, b with
  | Fin x, Fin y => lt x y
  | NaN, _ | _, NaN => false
  | PInf, _ | _, NInf => false
  | NInf, _ | _, PInf => true
  end.

Section Ext.
  Context {F : Type} `{Num F}.

  Definition xadd : xnum F -> xnum F -> xnum F := xplus fadd.
  Definition xsub : xnum F -> xnum F -> xnum F := xminus fsub.
  Definition xltb : xnum F -> xnum F -> bool := xless fltb.

  Definition xeqb (a b : xnum F) : bool :=
    match a, b with
    | Fin x, Fin y => feqb x y
    | PInf, PInf | NInf, NInf => true
    | _, _ => false
    end.

  Definition xleb (a b : xnum F) : bool := xltb a b || xeqb a b.

  (** infinity with the sign of the product of two non-zero signs ([true] = negative) *)
  Definition xinf (neg : bool) : xnum F := if neg then NInf else PInf.

  Definition xmul (a b : xnum F) : xnum F :=
    match a, b with
    | Fin x, Fin y => Fin (fmul x y)
    | NaN, _ | _, NaN => NaN
    | Fin x, PInf | PInf, Fin x => if feqb x f0 then NaN else xinf (fltb x f0)
    | Fin x, NInf | NInf, Fin x => if feqb x f0 then NaN else xinf (fltb f0 x)
    | PInf, PInf | NInf, NInf => PInf
    | PInf, NInf | NInf, PInf => NInf
    end.

  (** IEEE division; zeros are unsigned here, so x/0 has the sign of x *)
  Definition xdiv (a b : xnum F) : xnum F :=
    match a, b with
    | Fin x, Fin y =>
        if feqb y f0 then (if feqb x f0 then NaN else xinf (fltb x f0)) else Fin (fdiv x y)
    | NaN, _ | _, NaN => NaN
    | Fin _, PInf | Fin _, NInf => Fin f0
    | PInf, Fin y => xinf (fltb y f0)
    | NInf, Fin y => xinf (negb (fltb y f0))
    | _, _ => NaN
    end.

  Definition xisnan (a : xnum F) : bool := match a with NaN => true | _ => false end.
End Ext.

Section ExtLog.
  Context {F L : Type} `{Num F} `{LogNum F L}.

  Definition xladd : xnum L -> xnum L -> xnum L := xplus ladd.
  Definition xlsub : xnum L -> xnum L -> xnum L := xminus lsub.
  Definition xlltb : xnum L -> xnum L -> bool := xless lltb.

  (** np.log: log 0 = -inf, log of negative numbers = NaN *)
  Definition xln (a : xnum F) : xnum L :=
    match a with
    | Fin x => if fltb f0 x then Fin (lln x) else if feqb x f0 then NInf else NaN
    | PInf => PInf
    | NInf | NaN => NaN
    end.

  (** np.exp on log-quantities *)
  Definition xexp (a : xnum L) : xnum F :=
    match a with
    | Fin x => Fin (lexp x)
    | PInf => PInf
    | NInf => Fin f0
    | NaN => NaN
    end.

  (** np.isfinite *)
  Definition xisfinite {A} (a : xnum A) : bool := match a with Fin _ => true | _ => false end.
End ExtLog.
