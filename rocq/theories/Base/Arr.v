(** Flat (C-order) arrays as lists. *)
From Coq Require Import List ZArith.
From Verif Require Import Base.Num.
Import ListNotations.

(** elementwise operation of two equally long arrays (numpy broadcasting is not modelled) *)
Fixpoint map2 {A B C} (f : A -> B -> C) (l : list A) (m : list B) : list C :=
  match l, m with
  | a :: l', b :: m' => f a b :: map2 f l' m'
  | _, _ => []
  end.

(** Cartesian product in row-major order: what np.meshgrid(..., indexing='ij') followed by ravel() enumerates *)
Fixpoint cart {A} (ls : list (list A)) : list (list A) :=
  match ls with
  | [] => [[]]
  | l :: ls' => flat_map (fun a => map (cons a) (cart ls')) l
  end.

Section Arr.
  Context {F : Type} `{Num F}.

  Definition arr := list (xnum F).

  Definition asum (a : list (xnum F)) : xnum F := fold_left xadd a (Fin f0).           (* np.sum *)
  Definition amul (a b : list (xnum F)) : list (xnum F) := map2 xmul a b.              (* a * b *)
  Definition adiv (a b : list (xnum F)) : list (xnum F) := map2 xdiv a b.              (* a / b *)
  Definition amuls (a : list (xnum F)) (s : xnum F) : list (xnum F) := map (fun x => xmul x s) a.
  Definition adivs (a : list (xnum F)) (s : xnum F) : list (xnum F) := map (fun x => xdiv x s) a.
  Definition aones (n : nat) : list (xnum F) := repeat (Fin f1) n.                     (* np.ones, flat *)

  Definition fprod (l : list F) : F := fold_left fmul l f1.                            (* np.prod *)
  Definition fsum (l : list F) : F := fold_left fadd l f0.
  Definition natprod (l : list nat) : nat := fold_right Nat.mul 1%nat l.               (* number of grid points *)

  (** np.amax: NaN if any element is NaN; the empty maximum (a ValueError in Python) is NaN here *)
  Definition xmax2 (a b : xnum F) : xnum F :=
    match a, b with
    | NaN, _ | _, NaN => NaN
    | _, _ => if xltb a b then b else a
    end.
  Definition amax (a : list (xnum F)) : xnum F :=
    match a with [] => NaN | x :: l => fold_left xmax2 l x end.

  (** a[a < limit] = limit *)
  Definition afloor (limit : xnum F) (a : list (xnum F)) : list (xnum F) :=
    map (fun x => if xltb x limit then limit else x) a.
End Arr.

Section LArr.
  Context {F L : Type} `{Num F} `{LogNum F L}.
  (** np.logaddexp / scipy logsumexp in exact arithmetic: log of the sum of the exponentials *)
  Definition xlogaddexp (a b : xnum L) : xnum L := xln (xadd (xexp a) (xexp b)).
  Definition xlogsumexp (l : list (xnum L)) : xnum L := xln (asum (map xexp l)).
  Definition xlmax2 (a b : xnum L) : xnum L :=
    match a, b with
    | NaN, _ | _, NaN => NaN
    | _, _ => if xlltb a b then b else a
    end.
  Definition lamax (a : list (xnum L)) : xnum L :=
    match a with [] => NaN | x :: l => fold_left xlmax2 l x end.
End LArr.
