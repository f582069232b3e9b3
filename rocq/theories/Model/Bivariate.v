(** bayesloop/transitionModels.py: the kernel of BivariateRandomWalk. *)
From Coq Require Import List ZArith String Bool Arith.
From Verif Require Import Base.Num Base.Exn Base.Arr Model.Helper Model.Tm.
Import ListNotations.

Section Bivariate.
  Context {F : Type} `{Num F}.
  Notation arr := (list (xnum F)).

  (** np.ceil *)
  Definition fceil (x : F) : Z := let z := ftrunc x in if fltb (fofZ z) x then (z + 1)%Z else z.
  (** lines 904-905: the offsets are -r .. r *)
  Definition bivRadius (s : F) : nat := Z.to_nat (3 * fceil s).

  (** lines 901-902 and 909: density of scipy.stats.multivariate_normal with mean zero, up to a constant factor that is
      cancelled by line 910. scipy raises an exception unless the covariance matrix is positive definite (standard
      deviations not zero, correlation between -1 and 1); that is not modelled. *)
  Definition bivPhi (s1 s2 rho : F) (k l : Z) : F :=
    let x := fdiv (fofZ k) s1 in
    let y := fdiv (fofZ l) s2 in
    fexp (fdiv (fneg (fadd (fsub (fmul x x) (fmul two (fmul rho (fmul x y)))) (fmul y y)))
               (fmul two (fsub f1 (fmul rho rho)))).
  Definition bivTotal (s1 s2 rho : F) : F :=
    fsum (map (fun k => fsum (map (fun l => bivPhi s1 s2 rho k l) (zrange (bivRadius s2)))) (zrange (bivRadius s1))).
  (** lines 899-911 createKernel *)
  Definition bivKernel (s1 s2 rho : F) (k l : Z) : F := fdiv (bivPhi s1 s2 rho k l) (bivTotal s1 s2 rho).

  (** element (i, j) of an n1 x n2 array in C order, zero outside *)
  Definition padded (n1 n2 : nat) (p : arr) (i j : Z) : xnum F :=
    if (Z.leb 0 i && Z.ltb i (Z.of_nat n1) && Z.leb 0 j && Z.ltb j (Z.of_nat n2))%bool
    then nth (Z.to_nat i * n2 + Z.to_nat j)%nat p NaN else Fin f0.
  (** line 892: scipy.signal.convolve2d(p, kernel, mode='same') for a kernel with offsets -r1 .. r1 and -r2 .. r2 *)
  Definition convolve2d (n1 n2 r1 r2 : nat) (w : Z -> Z -> F) (p : arr) : arr :=
    flat_map (fun i => map (fun j =>
        asum (map (fun k => asum (map (fun l => xmul (Fin (w k l)) (padded n1 n2 p (Z.of_nat i - k) (Z.of_nat j - l)))
                                      (zrange r2)))
                  (zrange r1)))
      (seq 0 n2)) (seq 0 n1).
  Definition bivConv (shape : list nat) (s1 s2 rho : F) (p : arr) : arr :=
    match shape with
    | [n1; n2] => convolve2d n1 n2 (bivRadius s1) (bivRadius s2) (bivKernel s1 s2 rho) p
    | _ => p
    end.
End Bivariate.
