(** bayesloop/observationModels.py: the built-in observation models, over the reals.

    Numpy's elementwise operations are applied with the IEEE rules for infinities and NaN of Base/Num.v. Missing data (NaN)
    never reach [pdf] (Model/Study.v, processedPdf). Where [pdf] raises an exception, it is a value of [res] here; the
    [om] records below stand for pdfs that do not raise (their value is [] where it would). *)
From Coq Require Import List ZArith Reals String Bool.
From Verif Require Import Base.Num Base.Exn Base.Arr Model.Helper Model.Tm Model.HyperParams Model.Study.
Import ListNotations.
Local Open Scope res_scope.

Notation xr := (xnum R).

(** elementwise functions of numpy *)
Definition xneg (a : xr) : xr := xsub (Fin 0%R) a.
Definition xsq (a : xr) : xr := xmul a a.                                    (* a ** 2. *)
Definition xabs (a : xr) : xr := match a with Fin x => Fin (Rabs x) | PInf | NInf => PInf | NaN => NaN end.
Definition xsqrt (a : xr) : xr :=
  match a with Fin x => if Rltb x 0 then NaN else Fin (sqrt x) | PInf => PInf | NInf | NaN => NaN end.
Definition xlog (a : xr) : xr := xln (L := R) a.
Definition xexpo (a : xr) : xr := xexp (L := R) a.

(** grid[k]; the grids of a study have one array per parameter *)
Definition gridOf (grid : list (list R)) (k : nat) : list R := nth k grid [].
(** apply a function of one (two) parameter(s) to every grid point *)
Definition onGrid1 (f : R -> xr) (grid : list (list R)) : list xr := map f (gridOf grid 0).
Definition onGrid2 (f : R -> R -> xr) (grid : list (list R)) : list xr := map2 f (gridOf grid 0) (gridOf grid 1).

(** dataSegment[i] of a one-dimensional segment *)
Definition datum (s : seg R) (i : nat) : res xr :=
  match s with Seg1 xs => index xs i | Seg2 _ => Err TypeError end.

(** ** Bernoulli, lines 394-464 *)
(** lines 430-432: values outside [0, 1] are replaced by zero. grid[0][:] is a view, so this happens in the grid. *)
Definition clip01 (p : R) : R := if Rltb 1 p || Rltb p 0 then 0%R else p.
(** lines 419-439 pdf: the grid afterwards and the result. A datum is "true" unless it equals zero. *)
Definition bernoulliPdf (grid : list (list R)) (s : seg R) : res (list (list R) * list xr) :=
  let* d := datum s 0 in
  let temp := map clip01 (gridOf grid 0) in
  Ok (lset grid 0 temp, if xeqb d (Fin 0%R) then map (fun p => Fin (1 - p)%R) temp else map (@Fin R) temp).
(** lines 460-464 jeffreys *)
Definition bernoulliJeffreys (p : R) : xr := xdiv (Fin 1%R) (xsqrt (Fin (p * (1 - p))%R)).

(** ** Poisson, lines 467-526 *)
(** math.factorial raises ValueError for negative or non-integral numbers, OverflowError for infinity (not
    distinguished here) *)
Definition countOf (d : xr) : res nat :=
  match d with
  | Fin x => let k := Int_part x in if Reqb (IZR k) x && Z.leb 0 k then Ok (Z.to_nat k) else Err ValueError
  | _ => Err ValueError
  end.
(** lines 491-502 pdf *)
Definition poissonPdf (grid : list (list R)) (s : seg R) : res (list xr) :=
  let* d := datum s 0 in
  let* k := countOf d in
  Ok (onGrid1 (fun lam => Fin (lam ^ k * exp (- lam) / INR (fact k))%R) grid).
(** lines 522-526 jeffreys *)
Definition poissonJeffreys (lam : R) : xr := xsqrt (xdiv (Fin 1%R) (Fin lam)).

(** ** Gaussian (lines 529-595), Laplace (598-663), GaussianMean (666-728), WhiteNoise (731-792), AR1 (795-852),
       ScaledAR1 (855-917) *)
(** exp(-((x - m) ** 2.) / (2. * s ** 2.) - .5 * log(2. * pi * s ** 2.)) *)
Definition gaussX (x m s : xr) : xr :=
  xexpo (xsub (xdiv (xneg (xsq (xsub x m))) (xmul (Fin 2%R) (xsq s)))
              (xmul (Fin (/ 2)%R) (xlog (xmul (Fin (2 * PI)%R) (xsq s))))).
(** lines 555-567 pdf *)
Definition gaussianPdf (grid : list (list R)) (s : seg R) : res (list xr) :=
  let* d := datum s 0 in Ok (onGrid2 (fun m sd => gaussX d (Fin m) (Fin sd)) grid).
(** lines 591-595, 659-663 jeffreys *)
Definition gaussianJeffreys (sd : R) : xr := xdiv (Fin 1%R) (xsq (Fin sd)).
(** lines 624-635 pdf *)
Definition laplacePdf (grid : list (list R)) (s : seg R) : res (list xr) :=
  let* d := datum s 0 in
  Ok (onGrid2 (fun m b => xdiv (xexpo (xdiv (xneg (xabs (xsub d (Fin m)))) (Fin b))) (xmul (Fin 2%R) (Fin b))) grid).
(** lines 693-706 pdf: dataSegment[0, 0] and dataSegment[0, 1]; IndexError for one-dimensional data *)
Definition gaussianMeanPdf (grid : list (list R)) (s : seg R) : res (list xr) :=
  match s with
  | Seg1 _ => Err IndexError
  | Seg2 rows =>
      let* row := index rows 0 in
      let* d := index row 0 in
      let* sd := index row 1 in
      Ok (onGrid1 (fun m => gaussX d (Fin m) sd) grid)
  end.
(** lines 756-767 pdf *)
Definition whiteNoisePdf (grid : list (list R)) (s : seg R) : res (list xr) :=
  let* d := datum s 0 in Ok (onGrid1 (fun sd => gaussX d (Fin 0%R) (Fin sd)) grid).
(** lines 788-792 jeffreys *)
Definition whiteNoiseJeffreys (sd : R) : xr := xdiv (Fin 1%R) (Fin sd).
(** lines 819-831 pdf *)
Definition ar1Pdf (grid : list (list R)) (s : seg R) : res (list xr) :=
  let* d0 := datum s 0 in
  let* d1 := datum s 1 in
  Ok (onGrid2 (fun r sd => gaussX d1 (xmul (Fin r) d0) (Fin sd)) grid).
(** lines 881-896 pdf *)
Definition scaledAr1Pdf (grid : list (list R)) (s : seg R) : res (list xr) :=
  let* d0 := datum s 0 in
  let* d1 := datum s 1 in
  Ok (onGrid2 (fun r sd => gaussX d1 (xmul (Fin r) d0) (xmul (Fin sd) (xsqrt (xsub (Fin 1%R) (xsq (Fin r)))))) grid).

(** ** estimateParameterValues *)
(** np.ravel(rawData) without missing values; data are assumed to be finite or NaN, and not all of them missing *)
Definition observed (d : raw R) : list R :=
  flat_map (fun x : xr => match x with Fin v => [v] | _ => [] end)
           (match d with Raw1 l => l | Raw2 rows => List.concat rows end).
(** np.nanmean, np.nanstd *)
Definition meanOf (l : list R) : R := (fsum l / INR (List.length l))%R.
Definition stdOf (l : list R) : R := sqrt (meanOf (map (fun x => (x - meanOf l) ^ 2)%R l)).
(** np.nanmax, np.nanmin of a non-empty array *)
Definition maxOf (l : list R) : R := fold_left Rmax (tl l) (hd 0%R l).
Definition minOf (l : list R) : R := fold_left Rmin (tl l) (hd 0%R l).

(** lines 441-457 *)
Definition bernoulliEstimate (p name : string) (d : raw R) : res (list R) :=
  if String.eqb name p then Ok (cint 0%R 1%R 1000) else Err ConfigurationError.
(** lines 504-520 *)
Definition poissonEstimate (p name : string) (d : raw R) : res (list R) :=
  if String.eqb name p then Ok (oint 0%R (5 / 4 * maxOf (observed d))%R 1000) else Err ConfigurationError.
(** lines 569-588 *)
Definition gaussianEstimate (p1 p2 name : string) (d : raw R) : res (list R) :=
  let mean := meanOf (observed d) in
  let std := stdOf (observed d) in
  if String.eqb name p1 then Ok (cint (mean - 2 * std)%R (mean + 2 * std)%R 200)
  else if String.eqb name p2 then Ok (oint 0%R (2 * std)%R 200)
  else Err ConfigurationError.
(** lines 637-656 *)
Definition laplaceEstimate (p1 p2 name : string) (d : raw R) : res (list R) :=
  let mean := meanOf (observed d) in
  let std := stdOf (observed d) in
  if String.eqb name p1 then Ok (cint (mean - 2 * std)%R (mean + 2 * std)%R 200)
  else if String.eqb name p2 then Ok (oint 0%R (sqrt 2 * std)%R 200)
  else Err ConfigurationError.
(** lines 708-728: the first component of every data point *)
Definition gaussianMeanEstimate (p name : string) (d : raw R) : res (list R) :=
  let obs := observed (match d with Raw1 l => Raw1 l | Raw2 rows => Raw1 (map (hd NaN) rows) end) in
  let delta := (maxOf obs - minOf obs)%R in
  if String.eqb name p then Ok (oint (minOf obs - delta)%R (maxOf obs + delta)%R 1000) else Err ConfigurationError.
(** lines 769-786 *)
Definition whiteNoiseEstimate (p name : string) (d : raw R) : res (list R) :=
  if String.eqb name p then Ok (oint 0%R (2 * stdOf (observed d))%R 1000) else Err ConfigurationError.
(** lines 833-852, 898-917 *)
Definition ar1Estimate (p1 p2 name : string) (d : raw R) : res (list R) :=
  if String.eqb name p1 then Ok (oint (-1)%R 1%R 200)
  else if String.eqb name p2 then Ok (oint 0%R (2 * stdOf (observed d))%R 200)
  else Err ConfigurationError.

(** ** The observation models. [None] as prior argument: the default value of the constructor *)
Definition pure {A} (r : res (list A)) : list A := match r with Ok a => a | Err _ => [] end.

(** lines 407-417 *)
Definition bernoulli (p : string) (v : option (list R)) (prior : option (priorSpec R)) : om R :=
  {| om_names := [p]; om_values := [v]; om_seglen := 1; om_multiply := true;
     om_prior := match prior with Some x => x | None => PFun (onGrid1 bernoulliJeffreys) end;
     om_pdf := fun g s => match bernoulliPdf g s with Ok x => snd x | Err _ => [] end;
     om_estimate := bernoulliEstimate p |}.
(** lines 479-489 *)
Definition poisson (p : string) (v : option (list R)) (prior : option (priorSpec R)) : om R :=
  {| om_names := [p]; om_values := [v]; om_seglen := 1; om_multiply := true;
     om_prior := match prior with Some x => x | None => PFun (onGrid1 poissonJeffreys) end;
     om_pdf := fun g s => pure (poissonPdf g s); om_estimate := poissonEstimate p |}.
(** lines 543-553 *)
Definition gaussian (p1 : string) (v1 : option (list R)) (p2 : string) (v2 : option (list R)) (prior : option (priorSpec R)) : om R :=
  {| om_names := [p1; p2]; om_values := [v1; v2]; om_seglen := 1; om_multiply := true;
     om_prior := match prior with Some x => x | None => PFun (onGrid2 (fun _ sd => gaussianJeffreys sd)) end;
     om_pdf := fun g s => pure (gaussianPdf g s); om_estimate := gaussianEstimate p1 p2 |}.
(** lines 612-622 *)
Definition laplace (p1 : string) (v1 : option (list R)) (p2 : string) (v2 : option (list R)) (prior : option (priorSpec R)) : om R :=
  {| om_names := [p1; p2]; om_values := [v1; v2]; om_seglen := 1; om_multiply := true;
     om_prior := match prior with Some x => x | None => PFun (onGrid2 (fun _ b => gaussianJeffreys b)) end;
     om_pdf := fun g s => pure (laplacePdf g s); om_estimate := laplaceEstimate p1 p2 |}.
(** lines 685-691 *)
Definition gaussianMean (p : string) (v : option (list R)) (prior : priorSpec R) : om R :=
  {| om_names := [p]; om_values := [v]; om_seglen := 1; om_multiply := false; om_prior := prior;
     om_pdf := fun g s => pure (gaussianMeanPdf g s); om_estimate := gaussianMeanEstimate p |}.
(** lines 744-755 *)
Definition whiteNoise (p : string) (v : option (list R)) (prior : option (priorSpec R)) : om R :=
  {| om_names := [p]; om_values := [v]; om_seglen := 1; om_multiply := true;
     om_prior := match prior with Some x => x | None => PFun (onGrid1 whiteNoiseJeffreys) end;
     om_pdf := fun g s => pure (whiteNoisePdf g s); om_estimate := whiteNoiseEstimate p |}.
(** lines 811-817 *)
Definition ar1 (p1 : string) (v1 : option (list R)) (p2 : string) (v2 : option (list R)) (prior : priorSpec R) : om R :=
  {| om_names := [p1; p2]; om_values := [v1; v2]; om_seglen := 2; om_multiply := true; om_prior := prior;
     om_pdf := fun g s => pure (ar1Pdf g s); om_estimate := ar1Estimate p1 p2 |}.
(** lines 872-879 *)
Definition scaledAr1 (p1 : string) (v1 : option (list R)) (p2 : string) (v2 : option (list R)) (prior : priorSpec R) : om R :=
  {| om_names := [p1; p2]; om_values := [v1; v2]; om_seglen := 2; om_multiply := true; om_prior := prior;
     om_pdf := fun g s => pure (scaledAr1Pdf g s); om_estimate := ar1Estimate p1 p2 |}.

(** ** The prior of SymPy models (lines 308-372): the attributes that __init__ has set when line 365 asks for self.rv *)
Definition symPyAttributes : list string :=
  ["module"; "name"; "parameterNames"; "parameterValues"; "prior"; "segmentLength"; "multiplyLikelihoods"]%string.
Definition getAttribute (attributes : list string) (name : string) : res unit :=
  if existsb (String.eqb name) attributes then Ok tt else Err AttributeError.
(** lines 353-372. [prior], [determine]: keyword arguments; [jeffreys]: what getJeffreysPrior would return for the random variable *)
Definition symPyPrior {F : Type} (prior : option (priorSpec F)) (determine : bool) (jeffreys : res (priorSpec F)) : option (priorSpec F) :=
  match prior with
  | Some p => Some p
  | None =>
      if determine
      then match (let* _ := getAttribute symPyAttributes "rv" in jeffreys) with Ok p => Some p | Err _ => None end
      else None
  end.
