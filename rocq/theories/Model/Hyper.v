(** bayesloop/core.py: class HyperStudy *)
From Coq Require Import List ZArith String Bool.
From Verif Require Import Base.Num Base.Exn Base.Arr Model.Helper Model.Tm Model.HyperParams Model.Study Model.Api
  Model.Getters.
Import ListNotations.
Local Open Scope res_scope.

Section Hyper.
  Context {F L : Type} `{Num F} `{LogNum F L}.
  Notation arr := (list (xnum F)).
  Notation larr := (list (xnum L)).

  (** Attributes of a HyperStudy (core.py:1124-1140) besides those of Study. averagePosteriorSequence is only an
      accumulator that ends up in posteriorSequence; localEvidenceList is empty between calls. *)
  Record hyper : Type := {
    hy_S : study F L;
    hy_vals : list (hval F);              (* flatHyperParameters *)
    hy_names : list string;               (* flatHyperParameterNames *)
    hy_grid : list (list F);              (* hyperGridValues *)
    hy_const : list F;                    (* hyperGridConstant *)
    hy_pv : arr;                          (* flatHyperPriorValues *)
    hy_dist : option arr;                 (* hyperParameterDistribution *)
    hy_logEvs : larr                      (* logEvidenceList *)
  }.

  (** core.py:1124-1140 HyperStudy.__init__ *)
  Definition newHyper (S : study F L) : hyper :=
    {| hy_S := S; hy_vals := []; hy_names := []; hy_grid := []; hy_const := []; hy_pv := []; hy_dist := None;
       hy_logEvs := [] |}.

  (** ** _createHyperGrid *)

  (** core.py:1156-1158: 'all' becomes the time stamps without the last one *)
  Definition replaceAll (ts : list F) (v : hval F) : hval F :=
    match v with HAll => HArr (removelast ts) | _ => v end.

  (** the values np.meshgrid sees. None cannot be used as a number further on. *)
  Definition pointsOf (v : hval F) : res (list F) :=
    match v with
    | HNum x => Ok [x]
    | HArr xs => Ok xs
    | HList xs => Ok xs
    | HAll => Err ValueError
    | HNone => Err TypeError
    end.

  (** core.py:1168-1180 *)
  Definition gridConstant (xs : list F) : F :=
    match xs with
    | a :: b :: _ => if forallb (fun d => fltb (fabs d) tol10) (diff (diff xs)) then fabs (fsub b a) else f1
    | _ => f1
    end.

  (** core.py:1182-1234: prior values of one hyper-parameter and the prior object afterwards (arrays are changed in
      place, lines 1210-1213) *)
  Definition priorOf (p : hprior F) (v : hval F) (c : F) : res (arr * hprior F) :=
    match p with
    | HPNone =>
        let* xs := pointsOf v in
        let q := aones (List.length xs) in
        Ok (adivs (adivs q (asum q)) (Fin c), HPNone)
    | HPFun f =>
        match v with
        | HArr xs => let q := map f xs in Ok (adivs (adivs q (asum q)) (Fin c), p)
        | _ => Err ConfigurationError
        end
    | HPArr a =>
        match v with
        | HArr xs =>
            if Nat.eqb (List.length a) (List.length xs)
            then let q := adivs (adivs a (asum a)) (Fin c) in Ok (q, HPArr q)
            else Err ConfigurationError
        | _ => Err TypeError
        end
    | HPRV f => let* xs := pointsOf v in Ok (map f xs, p)
    | HPNum _ => Err AttributeError
    end.
  Fixpoint priorsOf (l : list (hprior F * hval F * F)) : res (list (arr * hprior F)) :=
    match l with
    | [] => Ok []
    | (p, v, c) :: l' => let* a := priorOf p v c in let* r := priorsOf l' in Ok (a :: r)
    end.

  (** The objects of the (nested) list of hyper-priors after they have been changed in place: [ps] lists them in the
      order of _unpackAllHyperPriors. *)
  Fixpoint putNl {A} (t : nl A) (ps : list A) : nl A * list A :=
    match t with
    | Leaf a => match ps with p :: ps' => (Leaf p, ps') | [] => (Leaf a, []) end
    | Node l =>
        let '(l', ps') :=
          (fix go (l : list (nl A)) (ps : list A) : list (nl A) * list A :=
             match l with
             | [] => ([], ps)
             | x :: l0 => let '(x', ps1) := putNl x ps in let '(l', ps2) := go l0 ps1 in (x' :: l', ps2)
             end) l ps in
        (Node l', ps')
    end.
  Fixpoint putPriors (m : tm F) (ps : list (hprior F)) : tm F * list (hprior F) :=
    match m with
    | TM k names vals prior ms =>
        let '(ms', ps1) :=
          (fix go (l : list (tm F)) (ps : list (hprior F)) : list (tm F) * list (hprior F) :=
             match l with
             | [] => ([], ps)
             | x :: l0 => let '(x', ps1) := putPriors x ps in let '(l', ps2) := go l0 ps1 in (x' :: l', ps2)
             end) ms ps in
        match prior, names, k with
        | None, _, _ => (TM k names vals None ms', ps1)
        | Some p, [], KBreak _ _ => let '(p', ps2) := putNl p ps1 in (TM k names vals (Some p') ms', ps2)
        | Some p, [], _ => (TM k names vals (Some p) ms', ps1)
        | Some p, _ :: _, _ => let '(p', ps2) := putNl p ps1 in (TM k names vals (Some p') ms', ps2)
        end
    end.

  (** np.prod over the rows *)
  Definition xprod (l : arr) : xnum F := fold_left xmul l (Fin f1).

  (** core.py:1142-1245 _createHyperGrid: flatHyperParameters, names, hyperGridValues, hyperGridConstant,
      flatHyperPriorValues, and the transition model (whose array priors are normalised in place). If there are fewer
      hyper-priors than hyper-parameters (zip, lines 1185-1186) the Numpy operations further on raise ValueError. *)
  Definition createHyperGrid (m : tm F) (ts : list F)
    : res (list (hval F) * list (list F) * list F * arr * tm F) :=
    let vals := map (replaceAll ts) (allValues m) in
    let names := allNames m in
    let* pts := mapM pointsOf vals in
    let consts := map gridConstant pts in
    match names with
    | [] => Ok (vals, [], consts, [Fin f1], m)
    | _ :: _ =>
        if Nat.leb (List.length vals) (List.length (allPriors m)) && Nat.eqb (List.length names) (List.length vals)
        then
          let* pr := priorsOf (combine (combine (allPriors m) vals) consts) in
          Ok (vals, cart pts, consts, map xprod (cart (map fst pr)), fst (putPriors m (map snd pr)))
        else Err ValueError
    end.

  (** ** fit *)

  (** core.py:1275-1287: some combination gives two change-/break-points the same value *)
  Fixpoint hasDupF (l : list F) : bool :=
    match l with
    | [] => false
    | a :: l' => existsb (feqb a) l' || hasDupF l'
    end.
  Definition pointClash (m : tm F) (grid : list (list F)) : res bool :=
    let names := changepointNames m ++ breakpointNames m in
    if Nat.ltb 1 (List.length names) then
      let* idx := mapM (nameIndex (allNames m)) names in
      Ok (existsb (fun row => hasDupF (map (fun i => nth i row f0) idx)) grid)
    else Ok false.

  (** 10.**-300 *)
  Definition tiny : F := fpow10 (fofZ (-300)).

  Definition with_post (S : study F L) (post : list (option arr)) : study F L :=
    {| st_om := st_om S; st_tm := st_tm S; st_marg := st_marg S; st_shape := st_shape S; st_lat := st_lat S;
       st_tmlat := st_tmlat S; st_grid := st_grid S; st_raw := st_raw S; st_rawTs := st_rawTs S; st_fmt := st_fmt S;
       st_fmtTs := st_fmtTs S; st_post := post; st_means := st_means S; st_logEv := st_logEv S;
       st_local := st_local S; st_sel := st_sel S; st_warn := st_warn S; st_shift := st_shift S;
       st_aconv := st_aconv S; st_bconv := st_bconv S |}.

  (** log(posterior) + logEvidence + log(prior), added to the average in log-space (core.py:1358-1366) *)
  Definition addLog (avg : list larr) (post : list arr) (ev : xnum L) (pv : xnum F) : list larr :=
    map2 (map2 (fun a p => xlogaddexp a (xladd (xladd (xln p) ev) (xln pv)))) avg post.

  (** core.py:1349-1366 (and 1474-1489): one analysis per combination of hyper-parameter values. The posterior sequence
      is complete whenever the evidence is finite. *)
  Fixpoint hyperLoop (fo eo : bool) (items : list (list F * xnum F)) (S : study F L) (avg : list larr)
    : res (study F L * larr * list (list (option (xnum F))) * list larr) :=
    match items with
    | [] => Ok (S, [], [], avg)
    | (row, pv) :: items' =>
        match st_tm S with
        | None => Err ConfigurationError
        | Some m =>
            let '(m', ex) := setSelected (st_sel S) m (map HNum row) in
            match ex with
            | Some e => Err e
            | None =>
                let* S1 := fit (set_tm S m' (st_tmlat S)) fo eo in
                let '(S2, avg') :=
                  if negb eo && xisfinite (st_logEv S1)
                  then match allSome (st_post S1) with
                       | Some ps =>
                           let ps' := map (afloor (Fin tiny)) ps in
                           (with_post S1 (map Some ps'), addLog avg ps' (st_logEv S1) pv)
                       | None => (S1, avg)
                       end
                  else (S1, avg) in
                let* r := hyperLoop fo eo items' S2 avg' in
                let '(S3, evs, locs, avg2) := r in
                Ok (S3, st_logEv S1 :: evs, st_local S1 :: locs, avg2)
            end
        end
    end.

  (** core.py:1334-1340: merging the sub-studies *)
  Fixpoint merge (avg : list larr) (rs : list (study F L * larr * list (list (option (xnum F))) * list larr))
    : larr * list (list (option (xnum F))) * list larr :=
    match rs with
    | [] => ([], [], avg)
    | (_, evs, locs, a) :: rs' =>
        let '(evs', locs', avg') := merge (map2 (map2 xlogaddexp) avg a) rs' in
        (evs ++ evs', locs ++ locs', avg')
    end.

  (** core.py:1306-1366: all analyses, in this process or distributed over [nJobs] processes (which work on copies) *)
  Definition runAnalyses (fo eo : bool) (nJobs : nat) (rows : list (list F)) (pv : arr) (S : study F L)
             (avg0 : list larr) : res (study F L * larr * list (list (option (xnum F))) * list larr) :=
    if Nat.ltb 1 nJobs then
      let* rs := mapM (fun part => hyperLoop fo eo part S avg0)
                      (map (fun p => combine (fst p) (snd p)) (combine (array_split rows nJobs) (array_split pv nJobs))) in
      let '(evs, locs, avg) := merge avg0 rs in
      Ok (S, evs, locs, avg)
    else hyperLoop fo eo (combine rows pv) S avg0.

  (** core.py:1372-1385: from log-space to normalised distributions *)
  Definition averagePosterior (avg : list larr) : list arr :=
    let mx := lamax (List.concat avg) in
    map (fun a => normalise (map (fun x => xexp (xlsub x mx)) a)) avg.

  (** np.sum of logs *)
  Definition lsum (l : larr) : xnum L := fold_left xladd l (Fin l0).

  (** core.py:1390-1392 *)
  Definition logWeights (evs : larr) (pv : arr) (consts : list F) : larr :=
    let c := lsum (map (fun x => xln (Fin x)) consts) in
    map2 (fun ev p => xladd (xladd ev (xln p)) c) evs pv.

  (** core.py:1394-1399 *)
  Definition hyperDistribution (logw : larr) (consts : list F) : arr :=
    let mx := lamax logw in
    adivs (normalise (map (fun x => xexp (xlsub x mx)) logw)) (Fin (fprod consts)).

  (** core.py:1409-1410; None if a cell was never written *)
  Definition localSum (locs : list (list (option (xnum F)))) (pv : arr) (n : nat) : list (option (xnum F)) :=
    map (fun j =>
           match allSome (map (fun l => nth j l None) locs) with
           | Some xs => Some (asum (amul xs pv))
           | None => None
           end) (seq 0 n).

  Definition set_average (S : study F L) (m : tm F) (post : list (option arr)) (means : list (list (xnum F)))
             (ev : xnum L) (loc : list (option (xnum F))) : study F L :=
    {| st_om := st_om S; st_tm := Some m; st_marg := st_marg S; st_shape := st_shape S; st_lat := st_lat S;
       st_tmlat := st_tmlat S; st_grid := st_grid S; st_raw := st_raw S; st_rawTs := st_rawTs S; st_fmt := st_fmt S;
       st_fmtTs := st_fmtTs S; st_post := post; st_means := means; st_logEv := ev; st_local := loc;
       st_sel := st_sel S; st_warn := st_warn S; st_shift := st_shift S; st_aconv := st_aconv S;
       st_bconv := st_bconv S |}.

  Definition set_format (S : study F L) (fmt : list (seg F)) (ts : list F) : study F L :=
    {| st_om := st_om S; st_tm := st_tm S; st_marg := st_marg S; st_shape := st_shape S; st_lat := st_lat S;
       st_tmlat := st_tmlat S; st_grid := st_grid S; st_raw := st_raw S; st_rawTs := st_rawTs S; st_fmt := fmt;
       st_fmtTs := ts; st_post := st_post S; st_means := st_means S; st_logEv := st_logEv S;
       st_local := st_local S; st_sel := st_sel S; st_warn := 0; st_shift := st_shift S;
       st_aconv := st_aconv S; st_bconv := st_bconv S |}.

  (** core.py:1268-1269: data and time stamps are formatted first; without observation model or time stamps this
      raises *)
  Definition formatStudy (S : study F L) : res (study F L) :=
    match st_om S with
    | None => Err AttributeError
    | Some o =>
        match st_rawTs S with
        | None => Err TypeError
        | Some rts => Ok (set_format S (formatData (st_raw S) (om_seglen o)) (formatTimestamps rts (om_seglen o)))
        end
    end.

  (** core.py:1289-1441: HyperStudy.fit after the hyper-grid has been created *)
  Definition hyperFitGrid (H0 : hyper) (fo eo : bool) (nJobs : nat) : res hyper :=
    let S := hy_S H0 in
    let* om_tm := checkConsistency S in
    if Nat.ltb 1 (List.length (hy_grid H0)) then
      let n := List.length (st_fmt S) in
      let avg0 := repeat (repeat NInf (natprod (st_shape S))) n in
      let* r := runAnalyses fo eo nJobs (hy_grid H0) (hy_pv H0) S avg0 in
      let '(S1, evs, locs, avg) := r in
      let post := averagePosterior avg in
      let logw := logWeights evs (hy_pv H0) (hy_const H0) in
      let dist := hyperDistribution logw (hy_const H0) in
      let means := if eo then st_means S1 else meanValues (st_grid S1) post in
      match st_tm S1 with
      | None => Err ConfigurationError
      | Some m1 =>
          let '(m2, ex) := setAll m1 (hy_vals H0) in
          match ex with
          | Some e => Err e
          | None =>
              Ok {| hy_S := set_average S1 m2 (if eo then st_post S1 else map Some post) means (xlogsumexp logw)
                                        (localSum locs (hy_pv H0) n);
                    hy_vals := hy_vals H0; hy_names := hy_names H0; hy_grid := hy_grid H0; hy_const := hy_const H0;
                    hy_pv := hy_pv H0; hy_dist := Some dist; hy_logEvs := evs |}
          end
      end
    else
      let* S1 := fit S fo eo in
      Ok {| hy_S := S1; hy_vals := hy_vals H0; hy_names := hy_names H0; hy_grid := hy_grid H0;
            hy_const := hy_const H0; hy_pv := hy_pv H0; hy_dist := hy_dist H0; hy_logEvs := [] |}.

  (** core.py:1142-1245 applied to a study; a missing transition model has no hyper-parameters *)
  Definition withHyperGrid (H0 : hyper) : res hyper :=
    let S := hy_S H0 in
    match st_tm S with
    | None =>
        Ok {| hy_S := S; hy_vals := []; hy_names := []; hy_grid := []; hy_const := []; hy_pv := [Fin f1];
              hy_dist := hy_dist H0; hy_logEvs := hy_logEvs H0 |}
    | Some m =>
        let* g := createHyperGrid m (st_fmtTs S) in
        let '(vals, grid, consts, pv, m') := g in
        Ok {| hy_S := set_tm S m' (st_tmlat S); hy_vals := vals; hy_names := allNames m; hy_grid := grid;
              hy_const := consts; hy_pv := pv; hy_dist := hy_dist H0; hy_logEvs := hy_logEvs H0 |}
    end.

  Definition with_study (H0 : hyper) (S : study F L) : hyper :=
    {| hy_S := S; hy_vals := hy_vals H0; hy_names := hy_names H0; hy_grid := hy_grid H0; hy_const := hy_const H0;
       hy_pv := hy_pv H0; hy_dist := hy_dist H0; hy_logEvs := hy_logEvs H0 |}.

  (** core.py:1247-1441 fit (customHyperGrid=False) *)
  Definition hyperFit (H0 : hyper) (fo eo : bool) (nJobs : nat) : res hyper :=
    let* S1 := formatStudy (hy_S H0) in
    let* H1 := withHyperGrid (with_study H0 S1) in
    match st_tm (hy_S H1) with
    | None => Err ConfigurationError
    | Some m =>
        let* clash := pointClash m (hy_grid H1) in
        if clash then Err ConfigurationError else hyperFitGrid H1 fo eo nJobs
    end.

  (** ** Marginal distributions of hyper-parameters *)

  Definition with_dist (H0 : hyper) (d : option arr) : hyper :=
    {| hy_S := hy_S H0; hy_vals := hy_vals H0; hy_names := hy_names H0; hy_grid := hy_grid H0;
       hy_const := hy_const H0; hy_pv := hy_pv H0; hy_dist := d; hy_logEvs := hy_logEvs H0 |}.

  (** core.py:1559-1565: lengths of the hyper-parameter value lists *)
  Definition stepsOf (v : hval F) : nat :=
    match v with HArr xs | HList xs => List.length xs | _ => 1%nat end.

  (** core.py:1535-1585 getHyperParameterDistribution. With no axis to sum over, np.apply_over_axes returns its argument
      and the multiplication in place changes hyperParameterDistribution itself. *)
  Definition getHyperParameterDistribution (H0 : hyper) (name : string) : hyper * res (hval F * arr) :=
    if Nat.ltb (List.length (hy_grid H0)) 2 then (H0, Err PostProcessingError)
    else match st_tm (hy_S H0) with
         | None => (H0, Err PostProcessingError)
         | Some m =>
             match hyperParameterIndex m name with
             | Err e => (H0, Err e)
             | Ok i =>
                 match hy_dist H0, nth_error (hy_vals H0) i with
                 | Some d, Some v =>
                     let shape := map stepsOf (hy_vals H0) in
                     if Nat.eqb (List.length d) (natprod shape) then
                       let axes := otherAxes (List.length (hy_names H0)) i in
                       let marg := amuls (sumAxes shape axes d) (Fin (fprod (hy_const H0))) in
                       (match axes with [] => with_dist H0 (Some marg) | _ => H0 end, Ok (v, marg))
                     else (H0, Err ValueError)
                 | None, _ => (H0, Err AttributeError)
                 | _, None => (H0, Err IndexError)
                 end
             end
         end.

  (** marginalDistribution.T for an [n] x [k] array in C-order *)
  Definition transpose (n k : nat) (x : arr) : arr :=
    flat_map (fun j => map (fun i => nth (i * k + j)%nat x NaN) (seq 0 n)) (seq 0 k).

  (** np.diff of a number raises ValueError (core.py:1648, 1653) *)
  Definition isIterable (v : hval F) : bool := match v with HArr _ | HList _ => true | _ => false end.

  (** core.py:1593-1694 getJointHyperParameterDistribution; the joint distribution is a C-order array whose axes belong
      to the names in the order given *)
  Definition getJointHyperParameterDistribution (H0 : hyper) (names : list string)
    : hyper * res (hval F * hval F * arr) :=
    if Nat.ltb (List.length (hy_grid H0)) 2 then (H0, Err PostProcessingError)
    else match names, st_tm (hy_S H0) with
         | [na; nb], Some m =>
             match hyperParameterIndex m na, hyperParameterIndex m nb with
             | Err e, _ => (H0, Err e)
             | _, Err e => (H0, Err e)
             | Ok a, Ok b =>
                 if Nat.eqb a b then (H0, Err ValueError)
                 else
                   let lo := Nat.min a b in
                   let hi := Nat.max a b in
                   match hy_dist H0, nth_error (hy_vals H0) lo, nth_error (hy_vals H0) hi with
                   | Some d, Some x, Some y =>
                       let shape := map stepsOf (hy_vals H0) in
                       if Nat.eqb (List.length d) (natprod shape) then
                         let axes := filter (fun i => negb (Nat.eqb i lo) && negb (Nat.eqb i hi))
                                            (seq 0 (List.length (hy_names H0))) in
                         let marg := amuls (sumAxes shape axes d) (Fin (fprod (hy_const H0))) in
                         let H1 := match axes with [] => with_dist H0 (Some marg) | _ => H0 end in
                         if isIterable x && isIterable y then
                           (H1, Ok (if Nat.ltb a b then (x, y, marg)
                                    else (y, x, transpose (stepsOf x) (stepsOf y) marg)))
                         else (H1, Err ValueError)
                       else (H0, Err ValueError)
                   | None, _, _ => (H0, Err AttributeError)
                   | _, _, _ => (H0, Err IndexError)
                   end
             end
         | _, _ => (H0, Err PostProcessingError)
         end.
End Hyper.
Arguments hyper : clear implicits.
