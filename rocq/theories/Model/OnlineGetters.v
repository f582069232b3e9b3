(** bayesloop/core.py: getters of class OnlineStudy (lines 2231-2831).

    The getters of past results turn formattedTimestamps and posteriorSequence into arrays and back; if they raise an
    exception in between, both stay arrays ([on_isArr]) and cannot be appended to. *)
From Coq Require Import List ZArith String Bool Arith.
From Verif Require Import Base.Num Base.Exn Base.Arr Model.Helper Model.Tm Model.HyperParams Model.Study Model.Api
  Model.Getters Model.Hyper Model.Changepoint Model.Online.
Import ListNotations.
Local Open Scope res_scope.

Section OnlineGetters.
  Context {F L : Type} `{Num F} `{LogNum F L}.
  Notation arr := (list (xnum F)).

  (** the study as the methods of class Study see it: posteriorSequence and formattedTimestamps are the history *)
  Definition pastStudy (O : online F L) (ts : list F) : study F L :=
    let S := on_S O in
    {| st_om := st_om S; st_tm := st_tm S; st_marg := st_marg S; st_shape := st_shape S; st_lat := st_lat S;
       st_tmlat := st_tmlat S; st_grid := st_grid S; st_raw := st_raw S; st_rawTs := st_rawTs S; st_fmt := st_fmt S;
       st_fmtTs := ts; st_post := map Some (on_hPost O); st_means := st_means S; st_logEv := st_logEv S;
       st_local := st_local S; st_sel := st_sel S; st_warn := st_warn S; st_shift := st_shift S;
       st_aconv := st_aconv S; st_bconv := st_bconv S |}.
  (** lines 2251-2260, 2342-2351: the attributes are lists again only if nothing was raised *)
  Definition withArrays {A} (O : online F L) (ts : list F) (r : res A) : online F L * res A :=
    match r with
    | Ok _ => (with_ts O (on_S O) (Some ts) false, r)
    | Err _ => (with_ts O (on_S O) (Some ts) true, r)
    end.

  (** lines 2231-2260 getParameterDistribution; t = None stands for 'avg'. Before the first data point (formattedTimestamps is
      None) only the exception is described. With an empty history posteriorSequence is an empty array, for which the
      test for an empty list fails; there is no time stamp then, and 'avg' divides by zero (for a single parameter the
      result is NaN, otherwise an exception, which is described here for both). *)
  Definition onlineParameterDistribution (O : online F L) (t : option F) (name : string) (density : bool)
    : online F L * res (list F * option arr) :=
    if on_store O then
      match on_ts O with
      | None => (O, Err PostProcessingError)
      | Some ts =>
          withArrays O ts
            match on_hPost O, t with
            | [], None => Err ValueError
            | [], Some _ => Err PostProcessingError
            | _, _ => getParameterDistribution (pastStudy O ts) t name density
            end
      end
    else (O, Err PostProcessingError).
  (** lines 2262-2266 getPD: density is not passed on *)
  Definition onlinePD (O : online F L) (t : option F) (name : string) (density : bool)
    : online F L * res (list F * option arr) := onlineParameterDistribution O t name true.

  (** lines 2323-2351 getParameterDistributions *)
  Definition onlineParameterDistributions (O : online F L) (name : string) (density : bool)
    : online F L * res (list F * list (option arr)) :=
    if on_store O then
      match on_ts O with
      | None => (O, Err TypeError)
      | Some ts =>
          withArrays O ts
            match on_hPost O with
            | [] => Err IndexError
            | _ => getParameterDistributions (pastStudy O ts) name density
            end
      end
    else (O, Err PostProcessingError).

  (** lines 2268-2315 getCurrentParameterDistribution *)
  Definition currentParameterDistribution (O : online F L) (name : string) (density : bool) : res (list F * arr) :=
    match st_om (on_S O) with
    | None => Err AttributeError
    | Some o =>
        let* k := paramIndex (om_names o) name in
        let* x := index (st_marg (on_S O)) k in
        match on_marg O with
        | None => Err TypeError
        | Some d => let* m := marginalOf (on_S O) o k density d in Ok (x, m)
        end
    end.

  (** lines 2386-2399, 2407-2422; an empty list stands for None before the first step. *)
  Definition currentTMD (O : online F L) (local : bool) : list string * arr :=
    (map md_name (on_models O), if local then on_ltmd O else on_tmd O).
  Definition currentTMP (O : online F L) (name : string) (local : bool) : res (xnum F) :=
    let* i := nameIndex (map md_name (on_models O)) name in
    match (if local then on_ltmd O else on_tmd O) with
    | [] => Err TypeError
    | d => index d i
    end.
  (** lines 2430-2450 getTransitionModelDistributions *)
  Definition pastTMDs (O : online F L) (local : bool) : res (list string * list arr) :=
    if on_store O then Ok (map md_name (on_models O), if local then on_hLtmd O else on_hTmd O)
    else Err PostProcessingError.
  (** lines 2452-2476 getTransitionModelProbabilities *)
  Definition pastTMPs (O : online F L) (name : string) (local : bool) : res arr :=
    if on_store O then
      let* i := nameIndex (map md_name (on_models O)) name in
      match (if local then on_hLtmd O else on_hTmd O) with
      | [] => Err IndexError
      | l => mapM (fun d => index d i) l
      end
    else Err PostProcessingError.

  (** lines 2484-2506 getCurrentParameterMeanValue *)
  Definition currentMeanValue (O : online F L) (name : string) : res (xnum F) :=
    match st_om (on_S O) with
    | None => Err AttributeError
    | Some o =>
        let* k := paramIndex (om_names o) name in
        match on_marg O with
        | None => Err TypeError
        | Some d => let* g := index (st_grid (on_S O)) k in Ok (asum (amul d (map Fin g)))
        end
    end.
  (** lines 2508-2543 getParameterMeanValue; t is a Python int. The posterior at time t is indexed with t once more
      (line 2542), the part of the grid found there is broadcast. *)
  Definition pastMeanValue (O : online F L) (t : Z) (name : string) : res (xnum F) :=
    if on_store O then
      match st_om (on_S O) with
      | None => Err AttributeError
      | Some o =>
          let* k := paramIndex (om_names o) name in
          match on_ts O with
          | None => Err TypeError
          | Some ts =>
              match timeIndex ts (fofZ t) with
              | None => Err PostProcessingError
              | Some i =>
                  let* d := index (on_hPost O) i in
                  let* g := index (st_grid (on_S O)) k in
                  let shape := st_shape (on_S O) in
                  let rest := natprod (tl shape) in
                  if Z.ltb t (Z.of_nat (hd 0%nat shape)) then
                    let part := firstn rest (skipn (Z.to_nat t * rest) d) in
                    Ok (asum (map (fun y => xmul (nth (y mod rest) part NaN) (Fin (nth y g f0))) (seq 0 (natprod shape))))
                  else Err IndexError
              end
          end
      end
    else Err PostProcessingError.
  (** lines 2545-2572 getParameterMeanValues; np.array([]).T[k] raises IndexError *)
  Definition pastMeanValues (O : online F L) (name : string) : res arr :=
    if on_store O then
      match st_om (on_S O) with
      | None => Err AttributeError
      | Some o =>
          let* k := paramIndex (om_names o) name in
          match on_hMeans O with
          | [] => Err IndexError
          | l => mapM (fun m => index m k) l
          end
      end
    else Err PostProcessingError.

  (** lines 2590-2599 etc.: the last transition model that has a hyper-parameter with this name, and its index there *)
  Fixpoint findHyper (Ms : list (tmEntry F)) (name : string) (i : nat) (found : option (nat * nat)) : option (nat * nat) :=
    match Ms with
    | [] => found
    | M :: Ms' => findHyper Ms' name (S i) (match hyperParameterIndex (md_tm M) name with Ok k => Some (i, k) | Err _ => found end)
    end.
  Definition hyperPosition (O : online F L) (name : string) : res (nat * nat) :=
    match findHyper (on_models O) name 0 None with Some x => Ok x | None => Err PostProcessingError end.

  (** lines 2608-2614 and 2642-2649: mean of column k *)
  Definition hyperMean (rows : list (list F)) (consts : list F) (k : nat) (d : arr) : xnum F :=
    asum (map2 (fun row p => xmul (xmul (Fin (nth k row f0)) p) (Fin (fprod consts))) rows d).
  (** lines 2574-2614 getHyperParameterMeanValue *)
  Definition pastHyperMean (O : online F L) (t : F) (name : string) : res (xnum F) :=
    if on_store O then
      let* ik := hyperPosition O name in
      match on_ts O with
      | None => Err TypeError
      | Some ts =>
          match timeIndex ts t with
          | None => Err PostProcessingError
          | Some j =>
              let* ds := index (on_hHpd O) j in
              let* d := index ds (fst ik) in
              let* M := index (on_models O) (fst ik) in
              Ok (hyperMean (md_rows M) (md_const M) (snd ik) d)
          end
      end
    else Err PostProcessingError.
  (** lines 2616-2649 getHyperParameterMeanValues *)
  Definition pastHyperMeans (O : online F L) (name : string) : res arr :=
    if on_store O then
      let* ik := hyperPosition O name in
      match on_hHpd O with
      | [] => Err IndexError
      | l =>
          let* M := index (on_models O) (fst ik) in
          mapM (fun ds => let* d := index ds (fst ik) in Ok (hyperMean (md_rows M) (md_const M) (snd ik) d)) l
      end
    else Err PostProcessingError.

  (** len(x) of a number raises TypeError (lines 2698, 2756) *)
  Definition lengthsOf (vals : list (hval F)) : res (list nat) :=
    mapM (fun v => if isIterable v then Ok (stepsOf v) else Err TypeError) vals.
  (** lines 2693-2702: marginal of one distribution over the combinations *)
  Definition hyperMarginal (M : tmEntry F) (k : nat) (d : arr) : res (hval F * arr) :=
    let* shape := lengthsOf (md_vals M) in
    if Nat.eqb (List.length d) (natprod shape) then
      let* x := index (md_vals M) k in
      Ok (x, sumAxes shape (otherAxes (List.length (md_names M)) k) d)
    else Err ValueError.
  (** lines 2651-2718 getHyperParameterDistribution; t = None: 'avg'. (The sum over time of lists of arrays of different lengths
      depends on the version of Numpy; here it is taken elementwise.) *)
  Definition pastHyperDistribution (O : online F L) (t : option F) (name : string) : res (hval F * arr) :=
    if on_store O then
      let* ik := hyperPosition O name in
      let* M := index (on_models O) (fst ik) in
      let* d := match t with
                | None => match on_hHpd O with
                          | [] => Err IndexError
                          | l => let* ds := mapM (fun ds => index ds (fst ik)) l in Ok (timeAverage (tmc M) ds)
                          end
                | Some t' => match on_ts O with
                             | None => Err TypeError
                             | Some ts => match timeIndex ts t' with
                                          | None => Err PostProcessingError
                                          | Some j => let* ds := index (on_hHpd O) j in index ds (fst ik)
                                          end
                             end
                end in
      hyperMarginal M (snd ik) d
    else Err PostProcessingError.

  Definition with_hpd (O : online F L) (d : list arr) : online F L :=
    {| on_S := on_S O; on_models := on_models O; on_tmPrior := on_tmPrior O; on_first := on_first O; on_ts := on_ts O;
       on_isArr := on_isArr O; on_logEvs := on_logEvs O; on_hyperEvs := on_hyperEvs O; on_posts := on_posts O;
       on_tmPosts := on_tmPosts O; on_marg := on_marg O; on_hpd := d; on_tmd := on_tmd O; on_ltmd := on_ltmd O;
       on_store := on_store O; on_hMeans := on_hMeans O; on_hPost := on_hPost O; on_hHpd := on_hHpd O;
       on_hTmd := on_hTmd O; on_hLtmd := on_hLtmd O |}.
  (** lines 2726-2777 getCurrentHyperParameterDistribution. With one hyper-parameter there is no axis to sum over and the
      multiplication in place (line 2759) changes hyperParameterDistribution of the study. *)
  Definition currentHyperDistribution (O : online F L) (name : string) : online F L * res (hval F * arr) :=
    match (let* ik := hyperPosition O name in
           let* M := index (on_models O) (fst ik) in
           let* d := currentHpd O (fst ik) in
           let* xm := hyperMarginal M (snd ik) d in
           Ok (fst ik, List.length (md_names M), fst xm, amuls (snd xm) (Fin (fprod (md_const M))))) with
    | Err e => (O, Err e)
    | Ok (i, n, x, marg) => (if Nat.eqb n 1 then with_hpd O (lset (on_hpd O) i marg) else O, Ok (x, marg))
    end.

  (** lines 2785-2831 getHyperParameterDistributions: values in ascending order; for every time step the probabilities of the
      combinations with this value, divided by their sum *)
  Definition pastHyperDistributions (O : online F L) (name : string) : res (list F * list arr) :=
    if on_store O then
      let* ik := hyperPosition O name in
      let* M := index (on_models O) (fst ik) in
      let* ds := mapM (fun ds => index ds (fst ik)) (on_hHpd O) in
      let* col := mapM (fun row => index row (snd ik)) (md_rows M) in
      let vals := unique col in
      Ok (vals, map (fun d => let m := map (fun v => asum (map snd (filter (fun cp => feqb (fst cp) v) (combine col d)))) vals in
                              adivs m (asum m)) ds)
    else Err PostProcessingError.
End OnlineGetters.
