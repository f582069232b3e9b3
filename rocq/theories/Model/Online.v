(** bayesloop/core.py: class OnlineStudy (set-up and step) *)
From Coq Require Import List ZArith String Bool.
From Verif Require Import Base.Num Base.Exn Base.Arr Model.Helper Model.Tm Model.HyperParams Model.Study Model.Api
  Model.Getters Model.Hyper.
Import ListNotations.
Local Open Scope res_scope.

Section Online.
  Context {F L : Type} `{Num F} `{LogNum F L}.
  Notation arr := (list (xnum F)).
  Notation larr := (list (xnum L)).

  (** One added transition model (core.py:2004-2011): transitionModels, transitionModelNames, hyperParameterValues,
      allFlatHyperParameterValues, hyperParameterNames, hyperGridConstants, hyperPriorValues *)
  Record tmEntry : Type := {
    md_name : string;
    md_tm : tm F;
    md_rows : list (list F);
    md_vals : list (hval F);
    md_names : list string;
    md_const : list F;
    md_pv : arr
  }.

  (** core.py:1946-1982 attributes of an OnlineStudy besides those of Study. tmCount and tmCounts are functions of
      hyperParameterValues. The time stamps are a list (None before the first data point); the queries turn them into an
      array and back, [on_isArr] if this was not undone. *)
  Record online : Type := {
    on_S : study F L;
    on_models : list tmEntry;
    on_tmPrior : option arr;               (* transitionModelPrior *)
    on_first : bool;                       (* firstStep *)
    on_ts : option (list F);               (* formattedTimestamps *)
    on_isArr : bool;
    on_logEvs : list larr;                 (* logEvidenceList *)
    on_hyperEvs : larr;                    (* hyperLogEvidenceList *)
    on_posts : list (list arr);            (* parameterPosterior *)
    on_tmPosts : list arr;                 (* transitionModelPosterior *)
    on_marg : option arr;                  (* marginalizedPosterior *)
    on_hpd : list arr;                     (* hyperParameterDistribution *)
    on_tmd : arr;                          (* transitionModelDistribution *)
    on_ltmd : arr;                         (* localTransitionModelDistribution *)
    on_store : bool;                       (* storeHistory *)
    on_hMeans : list arr;                  (* posteriorMeanValues *)
    on_hPost : list arr;                   (* posteriorSequence *)
    on_hHpd : list (list arr);             (* hyperParameterSequence *)
    on_hTmd : list arr;                    (* transitionModelSequence *)
    on_hLtmd : list arr                    (* localTransitionModelSequence *)
  }.

  (** core.py:1946-1982 __init__ *)
  Definition newOnline (S : study F L) (store : bool) : online :=
    {| on_S := S; on_models := []; on_tmPrior := None; on_first := true; on_ts := None; on_isArr := false;
       on_logEvs := []; on_hyperEvs := []; on_posts := []; on_tmPosts := []; on_marg := None; on_hpd := []; on_tmd := [];
       on_ltmd := []; on_store := store; on_hMeans := []; on_hPost := []; on_hHpd := []; on_hTmd := [];
       on_hLtmd := [] |}.

  Definition with_S (O : online) (S : study F L) : online :=
    {| on_S := S; on_models := on_models O; on_tmPrior := on_tmPrior O; on_first := on_first O; on_ts := on_ts O;
       on_isArr := on_isArr O; on_logEvs := on_logEvs O; on_hyperEvs := on_hyperEvs O; on_posts := on_posts O;
       on_tmPosts := on_tmPosts O; on_marg := on_marg O; on_hpd := on_hpd O; on_tmd := on_tmd O; on_ltmd := on_ltmd O;
       on_store := on_store O; on_hMeans := on_hMeans O; on_hPost := on_hPost O; on_hHpd := on_hHpd O;
       on_hTmd := on_hTmd O; on_hLtmd := on_hLtmd O |}.
  Definition with_models (O : online) (l : list tmEntry) : online :=
    {| on_S := on_S O; on_models := l; on_tmPrior := on_tmPrior O; on_first := on_first O; on_ts := on_ts O;
       on_isArr := on_isArr O; on_logEvs := on_logEvs O; on_hyperEvs := on_hyperEvs O; on_posts := on_posts O;
       on_tmPosts := on_tmPosts O; on_marg := on_marg O; on_hpd := on_hpd O; on_tmd := on_tmd O; on_ltmd := on_ltmd O;
       on_store := on_store O; on_hMeans := on_hMeans O; on_hPost := on_hPost O; on_hHpd := on_hHpd O;
       on_hTmd := on_hTmd O; on_hLtmd := on_hLtmd O |}.
  Definition with_tmPrior (O : online) (p : arr) : online :=
    {| on_S := on_S O; on_models := on_models O; on_tmPrior := Some p; on_first := on_first O; on_ts := on_ts O;
       on_isArr := on_isArr O; on_logEvs := on_logEvs O; on_hyperEvs := on_hyperEvs O; on_posts := on_posts O;
       on_tmPosts := on_tmPosts O; on_marg := on_marg O; on_hpd := on_hpd O; on_tmd := on_tmd O; on_ltmd := on_ltmd O;
       on_store := on_store O; on_hMeans := on_hMeans O; on_hPost := on_hPost O; on_hHpd := on_hHpd O;
       on_hTmd := on_hTmd O; on_hLtmd := on_hLtmd O |}.
  Definition with_ts (O : online) (S : study F L) (ts : option (list F)) (isArr : bool) : online :=
    {| on_S := S; on_models := on_models O; on_tmPrior := on_tmPrior O; on_first := on_first O; on_ts := ts;
       on_isArr := isArr; on_logEvs := on_logEvs O; on_hyperEvs := on_hyperEvs O; on_posts := on_posts O;
       on_tmPosts := on_tmPosts O; on_marg := on_marg O; on_hpd := on_hpd O; on_tmd := on_tmd O; on_ltmd := on_ltmd O;
       on_store := on_store O; on_hMeans := on_hMeans O; on_hPost := on_hPost O; on_hHpd := on_hHpd O;
       on_hTmd := on_hTmd O; on_hLtmd := on_hLtmd O |}.

  Definition isAll (v : hval F) : bool := match v with HAll => true | _ => false end.

  (** core.py:1984-2026 addTransitionModel. 'all' needs the time stamps, which do not exist before the first data point
      (None[:-1] raises TypeError). *)
  Definition addTM (O : online) (name : string) (m : tm F) : res online :=
    let* S1 := setTM (on_S O) m in
    match on_ts O, existsb isAll (allValues m) with
    | None, true => Err TypeError
    | ts, _ =>
        let* g := createHyperGrid m (match ts with Some l => l | None => [] end) in
        let '(vals, rows, consts, pv, m') := g in
        let M := {| md_name := name; md_tm := m'; md_rows := rows; md_vals := vals; md_names := allNames m;
                    md_const := consts; md_pv := pv |} in
        Ok (with_models (with_S O (set_tm S1 m' (st_lat S1))) (on_models O ++ [M]))
    end.

  (** core.py:2040-2060 setTransitionModelPrior *)
  Definition setTMPrior (O : online) (p : arr) : res online :=
    if Nat.eqb (List.length p) (List.length (on_models O))
    then Ok (with_tmPrior O (if xeqb (asum p) (Fin f1) then p else adivs p (asum p)))
    else Err ConfigurationError.

  (** np.append(rawData, dataPoint, axis=0): dimensions have to agree *)
  Definition rawAppend (a b : raw F) : res (raw F) :=
    match a, b with
    | Raw1 x, Raw1 y => Ok (Raw1 (x ++ y))
    | Raw2 x, Raw2 y =>
        if forallb (fun r => Nat.eqb (List.length r) (List.length (hd [] x))) y then Ok (Raw2 (x ++ y))
        else Err ValueError
    | _, _ => Err ValueError
    end.
  (** rawData[-k:] *)
  Definition lastN {A} (k : nat) (l : list A) : list A :=
    match k with O => l | _ => skipn (List.length l - k) l end.
  Definition lastSegment (k : nat) (d : raw F) : seg F :=
    match d with Raw1 l => Seg1 (lastN k l) | Raw2 l => Seg2 (lastN k l) end.

  Definition set_data (S : study F L) (d : raw F) (ts : list F) : study F L :=
    {| st_om := st_om S; st_tm := st_tm S; st_marg := st_marg S; st_shape := st_shape S; st_lat := st_lat S;
       st_tmlat := st_tmlat S; st_grid := st_grid S; st_raw := d; st_rawTs := Some ts; st_fmt := st_fmt S;
       st_fmtTs := st_fmtTs S; st_post := st_post S; st_means := st_means S; st_logEv := st_logEv S;
       st_local := st_local S; st_sel := st_sel S; st_warn := st_warn S; st_shift := st_shift S;
       st_aconv := st_aconv S; st_bconv := st_bconv S |}.

  (** core.py:2069-2096: transition model, data and time stamps. A data point that is not a list becomes a list with one
      element: a number is [Raw1 [x]], a vector is [Raw2 [row]]. *)
  Definition receive (O : online) (d : raw F) : res online :=
    let* O1 := match on_models O with
               | [] => match st_tm (on_S O) with
                       | None => Err ConfigurationError
                       | Some m => addTM O "transition model" m
                       end
               | _ :: _ => Ok O
               end in
    let S := on_S O1 in
    if Nat.eqb (rawLen (st_raw S)) 0 then
      if hasDup (flat_map md_names (on_models O1)) then Err ConfigurationError
      else
        let S1 := set_data S d [f0] in
        let* om_tm := checkConsistency S1 in
        Ok (with_ts O1 S1 (Some []) false)
    else
      let* d' := rawAppend (st_raw S) d in
      match st_rawTs S with
      | None => Err TypeError
      | Some ts =>
          match ts with
          | [] => Err IndexError
          | _ :: _ => Ok (with_S O1 (set_data S d' (ts ++ [fadd (last ts f0) f1])))
          end
      end.

  (** number of fitted combinations: 1 if there are no hyper-parameters (core.py:2013-2019) *)
  Definition tmc (M : tmEntry) : nat := match md_rows M with [] => 1%nat | l => List.length l end.

  (** core.py:2109-2140 *)
  Definition initialise (O : online) (vol : F) (size : nat) : online :=
    let k := List.length (on_models O) in
    {| on_S := on_S O; on_models := on_models O;
       on_tmPrior := match on_tmPrior O with
                     | None => Some (repeat (xdiv (Fin f1) (Fin (fofZ (Z.of_nat k)))) k)
                     | p => p
                     end;
       on_first := on_first O; on_ts := on_ts O; on_isArr := on_isArr O;
       on_logEvs := map (fun M => repeat (xladd (Fin l0) (xln (Fin vol))) (tmc M)) (on_models O);
       on_hyperEvs := repeat (Fin l0) k;
       on_posts := map (fun M => repeat (repeat (Fin f0) size) (tmc M)) (on_models O);
       on_tmPosts := repeat (repeat (Fin f0) size) k; on_marg := Some (repeat (Fin f0) size);
       on_hpd := map (fun M => repeat (Fin f0) (tmc M)) (on_models O);
       on_tmd := repeat (Fin f0) k; on_ltmd := repeat (Fin f0) k;
       on_store := on_store O; on_hMeans := on_hMeans O; on_hPost := on_hPost O; on_hHpd := on_hHpd O;
       on_hTmd := on_hTmd O; on_hLtmd := on_hLtmd O |}.

  (** core.py:2152-2175: one transition model with each combination of hyper-parameter values. [prior]: the prior in the
      first step. formattedData is always empty, so that len(formattedData)-1 = -1 is passed as time. Result: the
      transition model with the last values, log-evidences, posteriors *)
  Fixpoint rowsLoop (e : env F) (lik : arr) (prior : option arr) (m : tm F) (rows : list (option (list F))) (evs : larr)
           (posts : list arr) : res (tm F * larr * list arr) :=
    match rows with
    | [] => Ok (m, [], [])
    | x :: rows' =>
        let '(m1, ex) := match x with Some row => setAll m (map HNum row) | None => (m, None) end in
        match ex, evs, posts with
        | Some e, _, _ => Err e
        | None, ev :: evs', p :: posts' =>
            let* a := match prior with Some a => Ok a | None => computeForwardPrior e m1 f0 p (fofZ (-1)) end in
            let alpha := amul a lik in
            let n := asum alpha in
            let* r := rowsLoop e lik prior m1 rows' evs' posts' in
            let '(m2, evs2, posts2) := r in
            Ok (m2, xladd ev (xln n) :: evs2, adivs alpha n :: posts2)
        | None, _, _ => Err IndexError
        end
    end.

  (** np.sum(..., axis=0) *)
  Definition sumRows (n : nat) (rows : list arr) : arr :=
    map (fun x => asum (map (fun r => nth x r NaN) rows)) (seq 0 n).
  (** x -= amax(x); x = exp(x); x /= sum(x) *)
  Definition softmax (l : larr) : arr := normalise (map (fun x => xexp (xlsub x (lamax l))) l).

  Record tmOut : Type := {
    to_md : tmEntry;
    to_evs : larr;
    to_posts : list arr;
    to_hev : xnum L;
    to_local : xnum L;
    to_hpd : arr;
    to_post : arr
  }.

  (** core.py:2149-2197 one transition model; [hev] is its previous log-evidence, [p] its prior probability *)
  Definition tmStep (e : env F) (lik : arr) (prior : option arr) (M : tmEntry) (evs : larr) (posts : list arr)
             (hev : xnum L) (p : xnum F) : res tmOut :=
    let rows := match md_rows M with [] => [None] | l => map Some l end in
    if Nat.ltb (List.length (md_pv M)) (List.length rows) then Err IndexError
    else
      let* r := rowsLoop e lik prior (md_tm M) rows evs posts in
      let '(m', evs', posts') := r in
      let logw := map2 (fun ev q => xladd ev (xln q)) evs' (md_pv M) in
      let hev' := xlogsumexp logw in
      let hpd := adivs (softmax logw) (Fin (fprod (md_const M))) in
      Ok {| to_md := {| md_name := md_name M; md_tm := m'; md_rows := md_rows M; md_vals := md_vals M;
                        md_names := md_names M; md_const := md_const M; md_pv := md_pv M |};
            to_evs := evs'; to_posts := posts'; to_hev := hev';
            to_local := xladd (xlsub hev' hev) (xln p);
            to_hpd := hpd;
            to_post := sumRows (e_size e)
                         (map2 (fun post h => map (fun v => xmul (xmul v h) (Fin (fprod (md_const M)))) post) posts' hpd) |}.

  (** core.py:2148-2197 loop over the transition models *)
  Fixpoint modelsLoop (e : env F) (lik : arr) (prior : option arr) (Ms : list tmEntry) (evs : list larr)
           (posts : list (list arr)) (hevs : larr) (ps : arr) : res (list tmOut) :=
    match Ms with
    | [] => Ok []
    | M :: Ms' =>
        match evs, posts, hevs, ps with
        | ev :: evs', po :: posts', hev :: hevs', p :: ps' =>
            let* r := tmStep e lik prior M ev po hev p in
            let* rs := modelsLoop e lik prior Ms' evs' posts' hevs' ps' in
            Ok (r :: rs)
        | _, _, _, _ => Err IndexError
        end
    end.

  Definition set_online (S : study F L) (o : om F) (m : option (tm F)) (ev : xnum L) : study F L :=
    {| st_om := Some o; st_tm := m; st_marg := st_marg S; st_shape := st_shape S; st_lat := st_lat S;
       st_tmlat := st_lat S; st_grid := st_grid S; st_raw := st_raw S; st_rawTs := st_rawTs S; st_fmt := st_fmt S;
       st_fmtTs := st_fmtTs S; st_post := st_post S; st_means := st_means S; st_logEv := ev;
       st_local := st_local S; st_sel := st_sel S; st_warn := st_warn S; st_shift := st_shift S;
       st_aconv := st_aconv S; st_bconv := st_bconv S |}.

  (** append if storeHistory *)
  Definition remember {A} (store : bool) (h : list A) (x : A) : list A := if store then h ++ [x] else h.

  (** core.py:2199-2226: normalisation, mixture and history after the loop over the transition models. [o]: observation
      model with its prior, [ps]: prior of the transition models *)
  Definition finish (O : online) (o : om F) (ps : arr) (outs : list tmOut) : online :=
    let S := on_S O in
    let hevs := map to_hev outs in
    let tmd := softmax hevs in
    let ltmd := softmax (map to_local outs) in
    let marg := sumRows (natprod (st_shape S)) (map2 (fun p q => map (fun v => xmul v q) p) (map to_post outs) tmd) in
    let ev := xlogsumexp (map2 (fun h p => xladd h (xln p)) hevs ps) in
    let Ms := map to_md outs in
    {| on_S := set_online S o (match rev Ms with M :: _ => Some (md_tm M) | [] => st_tm S end) ev;
       on_models := Ms; on_tmPrior := Some ps; on_first := false; on_ts := on_ts O; on_isArr := on_isArr O;
       on_logEvs := map to_evs outs; on_hyperEvs := hevs; on_posts := map to_posts outs;
       on_tmPosts := map to_post outs; on_marg := Some marg; on_hpd := map to_hpd outs; on_tmd := tmd;
       on_ltmd := ltmd; on_store := on_store O;
       on_hMeans := remember (on_store O) (on_hMeans O) (map (fun g => asum (amul marg (map Fin g))) (st_grid S));
       on_hPost := remember (on_store O) (on_hPost O) marg;
       on_hHpd := remember (on_store O) (on_hHpd O) (map to_hpd outs);
       on_hTmd := remember (on_store O) (on_hTmd O) tmd;
       on_hLtmd := remember (on_store O) (on_hLtmd O) ltmd |}.

  (** core.py:2105-2226: the update of all distributions, after the data point has been received. The transition
      models get the lattice constants of the study (setTransitionModel). *)
  Definition update (O : online) (o : om F) : res online :=
    let S := on_S O in
    let e0 := envOf (set_online S o (st_tm S) (st_logEv S)) o (om_prior o) in
    let* init := if on_first O
                 then let* pr := computePrior e0 in
                      let '(a, p, _) := pr in
                      Ok (Some a, p, initialise O (e_vol e0) (e_size e0))
                 else Ok (None, om_prior o, O) in
    let '(prior, omPrior, O1) := init in
    let e := with_prior e0 omPrior in
    match on_tmPrior O1 with
    | None => Err TypeError
    | Some ps =>
        let lik := processedPdf o (e_size e) (e_grid e) (lastSegment (om_seglen o) (st_raw S)) in
        let* outs := modelsLoop e lik prior (on_models O1) (on_logEvs O1) (on_posts O1) (on_hyperEvs O1) ps in
        Ok (finish O1 (om_set_prior o omPrior) ps outs)
    end.

  (** core.py:2062-2226 step. If an exception is raised the state of the study is not described. *)
  Definition onlineStep (O : online) (d : raw F) : res online :=
    let* O1 := receive O d in
    match st_om (on_S O1), st_rawTs (on_S O1) with
    | Some o, Some rts =>
        if Nat.ltb (rawLen (st_raw (on_S O1))) (om_seglen o) then Ok O1
        else match on_ts O1 with
             | None => Err AttributeError
             | Some ts =>
                 if on_isArr O1 then Err AttributeError
                 else update (with_ts O1 (on_S O1) (Some (ts ++ [last rts f0])) false) o
             end
    | None, _ => Err AttributeError
    | _, None => Err TypeError
    end.

  (** core.py:2751 and parser.py:324: hyperParameterDistribution is None before the first step (an empty list here) *)
  Definition currentHpd (O : online) (i : nat) : res arr := match on_hpd O with [] => Err TypeError | l => index l i end.

  (** a stream of data points *)
  Fixpoint onlineSteps (O : online) (ds : list (raw F)) : res online :=
    match ds with
    | [] => Ok O
    | d :: ds' => let* O1 := onlineStep O d in onlineSteps O1 ds'
    end.
End Online.
Arguments tmEntry : clear implicits.
Arguments online : clear implicits.
Arguments tmOut : clear implicits.
