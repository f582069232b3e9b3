(** bayesloop/transitionModels.py: the kernel of AlphaStableRandomWalk, for real numbers. numpy.fft.irfft and scipy.signal.fftconvolve are
    modelled by the sums they compute. *)
From Coq Require Import List ZArith String Bool Arith Reals.
From Verif Require Import Base.Num Base.Exn Base.Arr Base.RSum Base.Lift Model.Helper Model.Tm Model.Bivariate Model.Cache.
Import ListNotations.
Local Open Scope R_scope.

(** line 225: np.exp(-x**alpha) for x >= 0; numpy: 0**0 = 1, 0**alpha = inf for negative alpha *)
Definition decay (x alpha : R) : R :=
  if Req_EM_T x 0 then (if Req_EM_T alpha 0 then exp (- 1) else if Rlt_dec 0 alpha then 1 else 0)
  else exp (- Rpower x alpha).
(** line 225: int(3*l1/2+1) frequencies from 0 to pi (np.linspace); the last index is int(3*l1/2) *)
Definition lastFreq (l1 : nat) : nat := Nat.div (3 * l1) 2.
Definition spectrum (l1 : nat) (c alpha : R) : list R :=
  map (fun k => decay (Rabs (c * (INR k * (PI / INR (lastFreq l1))))) alpha) (seq 0 (lastFreq l1 + 1)).
(** numpy.fft.irfft of real values h_0 .. h_m: the 2m values of the cosine series *)
Definition irfft (h : list R) : list R :=
  let m := (List.length h - 1)%nat in
  map (fun j => (Rnth h 0 + Rsum (map (fun k => 2 * Rnth h k * cos (2 * PI * INR j * INR k / INR (2 * m))) (seq 1 (m - 1))) + Rnth h m * cos (PI * INR j))
                / INR (2 * m)) (seq 0 (2 * m)).
(** np.roll(a, s) *)
Definition roll (a : list R) (s : nat) : list R :=
  let n := List.length a in map (fun i => Rnth a ((i + (n - s mod n)) mod n)) (seq 0 n).
(** lines 225-227; int(3*l1/2-1) = int(3*l1/2) - 1 for l1 > 0 *)
Definition kernelLine (l1 : nat) (c alpha : R) : list R := roll (irfft (spectrum l1 c alpha)) (lastFreq l1 - 1).

(** kernels: one- or two-dimensional arrays (rows, columns, elements) *)
Inductive kernel : Type := K1 (k : list R) | K2 (rows cols : nat) (at_ : nat -> nat -> R).
(** .T *)
Definition transpose (k : kernel) : kernel :=
  match k with K1 k => K1 k | K2 r c f => K2 c r (fun i j => f j i) end.
(** lines 196-235 createKernel *)
Definition createKernel (gs : list nat) (c alpha : R) (axis : nat) : res kernel :=
  match gs with
  | [g0; g1] =>
      match axis with
      | 0%nat => let k := kernelLine g0 c alpha in Ok (K2 (3 * g1) (List.length k) (fun _ j => Rnth k j))
      | 1%nat => let k := kernelLine g1 c alpha in Ok (transpose (K2 (3 * g0) (List.length k) (fun _ j => Rnth k j)))
      | _ => Err ConfigurationError
      end
  | [g0] => Ok (K1 (kernelLine g0 c alpha))
  | _ => Err ConfigurationError
  end.
(** line 184, kernel *= ...: arrays of the same shape; numpy would also accept a factor with only one row or column, which does not occur *)
Definition timesKernel (a b : kernel) : res kernel :=
  match a, b with
  | K1 x, K1 y => if Nat.eqb (List.length x) (List.length y) then Ok (K1 (map2 Rmult x y)) else Err ValueError
  | K2 r c f, K2 r' c' g => if (Nat.eqb r r' && Nat.eqb c c')%bool then Ok (K2 r c (fun i j => f i j * g i j)) else Err ValueError
  | _, _ => Err ValueError
  end.
(** lines 182-184 *)
Fixpoint timesAll (gs : list nat) (k : kernel) (alpha : R) (axis : nat) (cs : list R) : res kernel :=
  match cs with
  | [] => Ok k
  | c :: cs' => (let* k' := createKernel gs c alpha axis in let* k2 := timesKernel k k' in timesAll gs k2 alpha (axis + 1) cs')%res
  end.
(** lines 182-186, for normedC = [cs] *)
Definition alphaKernel (gs : list nat) (cs : list R) (alpha : R) : res kernel :=
  match cs with
  | [] => Err IndexError
  | c :: cs' => (let* k := createKernel gs c alpha 0 in let* k2 := timesAll gs k alpha 1 cs' in Ok (transpose k2))%res
  end.

(** element of a kernel, zero outside *)
Definition kAt1 (k : list R) (z : Z) : R := if (Z.leb 0 z && Z.ltb z (Z.of_nat (List.length k)))%bool then Rnth k (Z.to_nat z) else 0.
Definition kAt2 (r c : nat) (f : nat -> nat -> R) (y z : Z) : R :=
  if (Z.leb 0 y && Z.ltb y (Z.of_nat r) && Z.leb 0 z && Z.ltb z (Z.of_nat c))%bool then f (Z.to_nat y) (Z.to_nat z) else 0.
(** lines 237-260 convolve: the distribution is put in the middle of an array three times as long, convolved (scipy.signal.fftconvolve,
    mode='same': the middle part of the full convolution, beginning at index (length of kernel - 1) // 2), and the middle is cut out *)
Definition convolve (gs : list nat) (k : kernel) (p : list (xnum R)) : list (xnum R) :=
  match gs, k with
  | [g0], K1 k =>
      map (fun i => asum (map (fun j => xmul (padded 1 g0 p 0 (Z.of_nat j - Z.of_nat g0)) (Fin (kAt1 k (Z.of_nat i + Z.of_nat ((List.length k - 1) / 2) - Z.of_nat j))))
                              (seq 0 (3 * g0)))) (seq g0 g0)
  | [g0; g1], K2 r c f =>
      flat_map (fun i => map (fun j =>
          asum (flat_map (fun i' => map (fun j' =>
              xmul (padded g0 g1 p (Z.of_nat i' - Z.of_nat g0) (Z.of_nat j' - Z.of_nat g1))
                   (Fin (kAt2 r c f (Z.of_nat i + Z.of_nat ((r - 1) / 2) - Z.of_nat i') (Z.of_nat j + Z.of_nat ((c - 1) / 2) - Z.of_nat j'))))
            (seq 0 (3 * g1))) (seq 0 (3 * g0))))
        (seq g1 g1)) (seq g0 g0)
  | _, _ => p
  end.
(** lines 172-189: convolution with the kernel for scale [c] (in grid points) on axis [ax] *)
Definition alphaConv (gs : list nat) (ax : nat) (c alpha : R) (p : list (xnum R)) : list (xnum R) :=
  match alphaKernel gs (onAxis (List.length gs) ax c) alpha with
  | Ok k => convolve gs k p
  | Err _ => p
  end.
