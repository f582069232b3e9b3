(** bayesloop/core.py: class Study (data, models, fit); observationModels.py: ObservationModel.processedPdf *)
From Coq Require Import List ZArith String Bool.
From Verif Require Import Base.Num Base.Exn Base.Arr Model.Helper Model.Tm Model.HyperParams.
Import ListNotations.
Local Open Scope res_scope.

Section Study.
  Context {F L : Type} `{Num F} `{LogNum F L}.
  Notation arr := (list (xnum F)).

  (** Time series data: one number per time step, or one vector per time step *)
  Inductive raw : Type := Raw1 (xs : list (xnum F)) | Raw2 (rows : list (list (xnum F))).
  (** One data segment (segmentLength consecutive data points) *)
  Inductive seg : Type := Seg1 (xs : list (xnum F)) | Seg2 (rows : list (list (xnum F))).

  Definition rawLen (d : raw) : nat := match d with Raw1 l => List.length l | Raw2 l => List.length l end.
  (** movingWindow on 1- or 2-dimensional data (preprocessing.py:14-26) *)
  Definition formatData (d : raw) (n : nat) : list seg :=
    match d with
    | Raw1 l => map Seg1 (movingWindow l n)
    | Raw2 l => map Seg2 (movingWindow l n)
    end.

  (** Observation model: parameterNames, parameterValues (None = to be estimated), segmentLength, multiplyLikelihoods,
      prior, pdf(grid, dataSegment), estimateParameterValues(name, rawData). pdf is assumed not to modify the grid
      (see Model/ObsModels.v for Bernoulli, which may). *)
  Record om : Type := {
    om_names : list string;
    om_values : list (option (list F));
    om_seglen : nat;
    om_multiply : bool;
    om_prior : priorSpec F;
    om_pdf : list (list F) -> seg -> arr;
    om_estimate : string -> raw -> res (list F)
  }.
  Definition om_set_prior (o : om) (p : priorSpec F) : om :=
    {| om_names := om_names o; om_values := om_values o; om_seglen := om_seglen o; om_multiply := om_multiply o;
       om_prior := p; om_pdf := om_pdf o; om_estimate := om_estimate o |}.

  (** dataSegment.T for a 2-dimensional segment *)
  Definition columns (rows : list (list (xnum F))) : list (list (xnum F)) :=
    match rows with
    | [] => []
    | r :: _ => map (fun j => map (fun row => nth j row NaN) rows) (seq 0 (List.length r))
    end.

  (** observationModels.py:50-56 for a 1-dimensional segment *)
  Definition processed1 (o : om) (n : nat) (grid : list (list F)) (xs : list (xnum F)) : arr :=
    if existsb xisnan xs then aones n else om_pdf o grid (Seg1 xs).

  (** observationModels.py:35-56 processedPdf; [n] = number of grid points (np.ones_like(grid[0])) *)
  Definition processedPdf (o : om) (n : nat) (grid : list (list F)) (s : seg) : arr :=
    match s with
    | Seg1 xs => processed1 o n grid xs
    | Seg2 rows =>
        if om_multiply o
        then fold_left amul (map (processed1 o n grid) (columns rows)) (aones n)
        else if existsb (existsb xisnan) rows then aones n else om_pdf o grid s
    end.

  (** Attributes of a Study (core.py:46-66) plus the oracles of [env]. np.empty cells are None. *)
  Record study : Type := {
    st_om : option om;
    st_tm : option (tm F);
    st_marg : list (list F);              (* marginalGrid *)
    st_shape : list nat;                  (* gridSize *)
    st_lat : list F;                      (* latticeConstant *)
    st_tmlat : list F;                    (* transitionModel.latticeConstant; [] if there is no transition model *)
    st_grid : list (list F);              (* grid, raveled *)
    st_raw : raw;
    st_rawTs : option (list F);           (* rawTimestamps; None before data are loaded *)
    st_fmt : list seg;                    (* formattedData *)
    st_fmtTs : list F;                    (* formattedTimestamps *)
    st_post : list (option arr);          (* posteriorSequence *)
    st_means : list (list (xnum F));      (* posteriorMeanValues *)
    st_logEv : xnum L;                    (* logEvidence *)
    st_local : list (option (xnum F));    (* localEvidence *)
    st_sel : list string;                 (* selectedHyperParameters *)
    st_warn : nat;                        (* fitWarningCounter *)
    st_shift : nat -> F -> arr -> arr;
    st_aconv : nat -> F -> F -> arr -> arr;
    st_bconv : F -> F -> F -> arr -> arr
  }.

  (** core.py:93-122 loadData for a Numpy array. With a wrong number of timestamps the old attribute stays. *)
  Definition loadData (S : study) (d : raw) (timestamps : option (list F)) : study :=
    let ts :=
      match timestamps with
      | Some l => if Nat.eqb (List.length l) (rawLen d) then Some l else st_rawTs S
      | None => Some (map (fun i => fofZ (Z.of_nat i)) (seq 0 (rawLen d)))
      end in
    {| st_om := st_om S; st_tm := st_tm S; st_marg := st_marg S; st_shape := st_shape S; st_lat := st_lat S;
       st_tmlat := st_tmlat S;
       st_grid := st_grid S; st_raw := d; st_rawTs := ts; st_fmt := st_fmt S; st_fmtTs := st_fmtTs S;
       st_post := st_post S; st_means := st_means S; st_logEv := st_logEv S; st_local := st_local S;
       st_sel := st_sel S; st_warn := st_warn S; st_shift := st_shift S; st_aconv := st_aconv S;
       st_bconv := st_bconv S |}.

  (** np.diff *)
  Fixpoint diff (v : list F) : list F :=
    match v with
    | a :: ((b :: _) as v') => fsub b a :: diff v'
    | _ => []
    end.

  Definition tol10 : F := fdiv f1 (fofZ 10000000000).              (* 10 ** -10 *)

  (** core.py:160-166: 1 for values that are not equally spaced, |v[0]-v[1]| otherwise (IndexError for a single value) *)
  Definition latticeOf (v : list F) : res F :=
    if existsb (fun d => fltb tol10 (fabs d)) (diff (diff v)) then Ok f1
    else match v with
         | a :: b :: _ => Ok (fabs (fsub a b))
         | _ => Err IndexError
         end.

  (** np.meshgrid of marginalGrid (indexing ij), raveled: one list per parameter *)
  Definition meshgrid (marg : list (list F)) : list (list F) :=
    map (fun k => map (fun pt => nth k pt f0) (cart marg)) (seq 0 (List.length marg)).

  (** core.py:145-154: parameter values as given, or estimated from the data (any exception becomes ConfigurationError) *)
  Definition paramValues (o : om) (d : raw) (vn : option (list F) * string) : res (list F) :=
    match fst vn with
    | Some v => Ok v
    | None => match om_estimate o (snd vn) d with Ok v => Ok v | Err _ => Err ConfigurationError end
    end.

  (** core.py:130-176 setObservationModel. If several parameters are refused, the exception of the first loop is reported (in
      the code: that of the first parameter). *)
  Definition setOM (S : study) (o : om) : res study :=
    let* marg := mapM (paramValues o (st_raw S)) (combine (om_values o) (om_names o)) in
    let* lat := mapM latticeOf marg in
    Ok {| st_om := Some o; st_tm := st_tm S; st_marg := marg; st_shape := map (@List.length F) marg; st_lat := lat;
          st_tmlat := match st_tm S with None => st_tmlat S | Some _ => lat end;
          st_grid := meshgrid marg; st_raw := st_raw S; st_rawTs := st_rawTs S; st_fmt := st_fmt S;
          st_fmtTs := st_fmtTs S; st_post := st_post S; st_means := st_means S; st_logEv := st_logEv S;
          st_local := st_local S; st_sel := st_sel S; st_warn := st_warn S; st_shift := st_shift S;
          st_aconv := st_aconv S; st_bconv := st_bconv S |}.

  Definition set_tm (S : study) (m : tm F) (lat : list F) : study :=
    {| st_om := st_om S; st_tm := Some m; st_marg := st_marg S; st_shape := st_shape S; st_lat := st_lat S;
       st_tmlat := lat;
       st_grid := st_grid S; st_raw := st_raw S; st_rawTs := st_rawTs S; st_fmt := st_fmt S; st_fmtTs := st_fmtTs S;
       st_post := st_post S; st_means := st_means S; st_logEv := st_logEv S; st_local := st_local S;
       st_sel := st_sel S; st_warn := st_warn S; st_shift := st_shift S; st_aconv := st_aconv S;
       st_bconv := st_bconv S |}.

  (** core.py:267-285 setTransitionModel *)
  Definition setTM (S : study) (m : tm F) : res study :=
    if isBreak m then Err ConfigurationError else Ok (set_tm S m (st_lat S)).

  (** core.py:1098-1115 _checkConsistency *)
  Definition checkConsistency (S : study) : res (om * tm F) :=
    if Nat.eqb (rawLen (st_raw S)) 0 then Err ConfigurationError
    else match st_om S, st_tm S with
         | None, _ => Err ConfigurationError
         | _, None => Err ConfigurationError
         | Some o, Some m => if hasDup (allNames m) then Err ConfigurationError else Ok (o, m)
         end.

  (** The study as seen by its transition model *)
  Definition envOf (S : study) (o : om) (p : priorSpec F) : env F :=
    {| e_shape := st_shape S; e_lat := st_lat S; e_tmlat := st_tmlat S; e_names := om_names o; e_grid := st_grid S; e_prior := p;
       e_shift := st_shift S; e_aconv := st_aconv S; e_bconv := st_bconv S |}.

  (** values /= norm; values /= prod(latticeConstant), unless norm is exactly 1 (core.py:210-213, 226-229) *)
  Definition priorDensity (e : env F) (a : arr) : arr :=
    let norm := asum a in
    if xeqb norm (Fin f1) then a else adivs (adivs a norm) (Fin (e_vol e)).

  (** core.py:184-265 _computePrior. Result: the returned array, the value of observationModel.prior afterwards (an
      array is normalised in place) and whether the returned array is that very object. *)
  Definition computePrior (e : env F) : res (arr * priorSpec F * bool) :=
    match e_prior e with
    | PNone =>
        let p := aones (e_size e) in
        Ok (adivs (adivs p (asum p)) (Fin (e_vol e)), PNone, false)
    | PArr sh a =>
        if list_eq_dec Nat.eq_dec sh (e_shape e)
        then let a' := priorDensity e a in Ok (a', PArr sh a', true)
        else Err ConfigurationError
    | PFun f => Ok (priorDensity e (f (e_grid e)), PFun f, false)
    | PConst c => Ok (priorDensity e (repeat (Fin c) (e_size e)), PConst c, false)
    | PSym n f =>
        if Nat.eqb n (List.length (e_names e)) then Ok (f (e_grid e), PSym n f, false) else Err ConfigurationError
    end.

  (** in-place change of an array that is the prior of the observation model *)
  Definition overwrite (alias : bool) (p : priorSpec F) (a : arr) : priorSpec F :=
    match alias, p with
    | true, PArr sh _ => PArr sh a
    | _, _ => p
    end.

  (** Result of the forward pass: stored (alpha, norm) of each completed step, accumulated log-evidence, final value of
      observationModel.prior, and whether the pass was stopped because of a norm that is not positive *)
  Record fwd : Type := {
    fw_steps : list (arr * xnum F);
    fw_logEv : xnum L;
    fw_prior : priorSpec F;
    fw_stop : bool
  }.
  Definition fw_cons (x : arr * xnum F) (r : res fwd) : res fwd :=
    let* w := r in
    Ok {| fw_steps := x :: fw_steps w; fw_logEv := fw_logEv w; fw_prior := fw_prior w; fw_stop := fw_stop w |}.

  (** core.py:371-411 forward pass. [alias]: alpha is the array observationModel.prior, so that the in-place updates of
      alpha (lines 382, 389) are visible there. *)
  Fixpoint fwdLoop (e : env F) (o : om) (m : tm F) (segs : list seg) (ts : list F)
           (alpha : arr) (alias : bool) (prior : priorSpec F) (logEv : xnum L) : res fwd :=
    match segs with
    | [] => Ok {| fw_steps := []; fw_logEv := logEv; fw_prior := prior; fw_stop := false |}
    | s :: segs' =>
        let likelihood := processedPdf o (e_size e) (e_grid e) s in
        let a1 := amul alpha likelihood in
        let norm := asum a1 in
        if xltb (Fin f0) norm then
          let a2 := adivs a1 norm in
          let prior2 := overwrite alias prior a2 in
          match ts with
          | [] => Err IndexError
          | t :: ts' =>
              let* a3 := computeForwardPrior (with_prior e prior2) m f0 a2 t in
              fw_cons (a2, norm)
                      (fwdLoop e o m segs' ts' a3 (alias && returnsArgument m t) prior2 (xladd logEv (xln norm)))
          end
        else Ok {| fw_steps := []; fw_logEv := NInf; fw_prior := overwrite alias prior a1; fw_stop := true |}
    end.

  (** core.py:433-470 backward pass over the reversed steps (alpha, segment, time stamp). Result, in reversed order: the
      content of posteriorSequence and, where it was recomputed, the local evidence; and whether the pass was stopped. *)
  Fixpoint bwdLoop (e : env F) (o : om) (m : tm F) (items : list (arr * seg * F)) (beta : arr)
    : res (list (arr * option (xnum F)) * bool) :=
    match items with
    | [] => Ok ([], false)
    | (a, s, t) :: items' =>
        let p := amul a beta in
        let norm := asum p in
        if xltb (Fin f0) norm then
          let post := adivs p norm in
          let likelihood := processedPdf o (e_size e) (e_grid e) s in
          let loc := xdiv (Fin f1) (xmul (asum (adiv post likelihood)) (Fin (e_vol e))) in
          let* b := computeBackwardPrior e m f0 (amul beta likelihood) t in
          let* r := bwdLoop e o m items' (normalise b) in
          Ok ((post, Some loc) :: fst r, snd r)
        else Ok ((p, None) :: map (fun it => (fst (fst it), None)) items', true)
    end.

  (** core.py:480-483 posterior mean values *)
  Definition meanValues (grid : list (list F)) (post : list arr) : list (list (xnum F)) :=
    map (fun g => map (fun p => asum (amul p (map Fin g))) post) grid.

  (** pad with None to length n: cells of np.empty that were never written *)
  Definition padNone {A} (n : nat) (l : list A) : list (option A) :=
    map Some l ++ repeat None (n - List.length l).

  Definition set_results (S : study) (o : om) (fmt : list seg) (ts : list F) (post : list (option arr))
             (means : list (list (xnum F))) (ev : xnum L) (loc : list (option (xnum F))) (warn : nat) : study :=
    {| st_om := Some o; st_tm := st_tm S; st_marg := st_marg S; st_shape := st_shape S; st_lat := st_lat S;
       st_tmlat := st_tmlat S;
       st_grid := st_grid S; st_raw := st_raw S; st_rawTs := st_rawTs S; st_fmt := fmt; st_fmtTs := ts;
       st_post := post; st_means := means; st_logEv := ev; st_local := loc; st_sel := st_sel S; st_warn := warn;
       st_shift := st_shift S; st_aconv := st_aconv S; st_bconv := st_bconv S |}.

  (** core.py:330-486 fit. If an exception is raised the state of the study is not described. *)
  Definition fit (S : study) (forwardOnly evidenceOnly : bool) : res study :=
    let* om_tm := checkConsistency S in
    let '(o, m) := om_tm in
    let fmt := formatData (st_raw S) (om_seglen o) in
    match st_rawTs S with
    | None => Err TypeError
    | Some rts =>
        let ts := formatTimestamps rts (om_seglen o) in
        let n := List.length fmt in
        let e := envOf S o (om_prior o) in
        let* pr := computePrior e in
        let '(alpha0, prior0, alias0) := pr in
        let* w := fwdLoop e o m fmt ts alpha0 alias0 prior0 (Fin l0) in
        let o' := om_set_prior o (fw_prior w) in
        let steps := fw_steps w in
        let vol := e_vol e in
        let fwdLoc := map (fun s => xmul (snd s) (Fin vol)) steps in
        let fwdPost := if evidenceOnly then st_post S else padNone n (map fst steps) in
        if fw_stop w then
          Ok (set_results S o' fmt ts fwdPost (st_means S) NInf (padNone n fwdLoc) (1 + st_warn S))
        else
          let ev := xladd (fw_logEv w) (xln (Fin vol)) in
          if evidenceOnly then
            Ok (set_results S o' fmt ts fwdPost [] ev (padNone n fwdLoc) (st_warn S))
          else if forwardOnly then
            Ok (set_results S o' fmt ts fwdPost (meanValues (st_grid S) (map fst steps)) ev (padNone n fwdLoc)
                            (st_warn S))
          else
            let e' := with_prior e (fw_prior w) in
            let beta0 := normalise (aones (e_size e)) in
            let* r := bwdLoop e' o m (rev (combine (combine (map fst steps) fmt) ts)) beta0 in
            let '(out, stop) := r in
            let post := rev (map fst out) in
            let loc := map2 (fun old new => match new with Some x => Some x | None => Some old end)
                            fwdLoc (rev (map snd out)) in
            if stop then
              Ok (set_results S o' fmt ts (map Some post) (st_means S) NInf loc (1 + st_warn S))
            else
              Ok (set_results S o' fmt ts (map Some post) (meanValues (st_grid S) post) ev loc (st_warn S))
    end.
End Study.

Arguments raw : clear implicits.
Arguments seg : clear implicits.
Arguments om : clear implicits.
Arguments study : clear implicits.
Arguments fwd : clear implicits.
