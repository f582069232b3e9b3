(** bayesloop/core.py: class ChangepointStudy *)
From Coq Require Import List ZArith String Bool.
From Verif Require Import Base.Num Base.Exn Base.Arr Model.Helper Model.Tm Model.HyperParams Model.Study Model.Api
  Model.Getters Model.Hyper.
Import ListNotations.
Local Open Scope res_scope.

Section Changepoint.
  Context {F L : Type} `{Num F} `{LogNum F L}.
  Notation arr := (list (xnum F)).

  (** core.py:1750-1763 attributes of a ChangepointStudy besides those of HyperStudy (userDefinedGrid and
      hyperGridBackup are never read) *)
  Record cpstudy : Type := {
    cp_H : hyper F L;
    cp_all : list (list F);        (* allHyperGridValues *)
    cp_allPv : arr;                (* allHyperPriorValues *)
    cp_mask : list bool            (* mask *)
  }.
  (** core.py:1750-1763 *)
  Definition newChangepoint (S : study F L) : cpstudy :=
    {| cp_H := newHyper S; cp_all := []; cp_allPv := []; cp_mask := [] |}.

  (** core.py:1854-1873 _unpackSerialTransitionModels, flattened and counted *)
  Fixpoint serialCount (m : tm F) : nat :=
    match m with
    | TM k _ _ _ ms =>
        (fold_right Nat.add 0 (map serialCount ms) + match k with KSerial _ => 1 | _ => 0 end)%nat
    end.

  (** a[mask] *)
  Definition pick {A} (mask : list bool) (l : list A) : list A := map snd (filter fst (combine mask l)).
  (** temp = np.zeros(len(mask)); temp[mask] = vals (core.py:1846-1852) *)
  Fixpoint spread (mask : list bool) (vals : arr) : arr :=
    match mask with
    | [] => []
    | true :: mask' => match vals with v :: vals' => v :: spread mask' vals' | [] => Fin f0 :: spread mask' [] end
    | false :: mask' => Fin f0 :: spread mask' vals
    end.

  (** core.py:1822-1829: columns whose name belongs to a change-/break-point, in the order of the names; the first
      [n] = len(points) of them have to be strictly increasing *)
  Definition pointMask (names points : list string) : list bool :=
    map (fun n => existsb (String.eqb n) points) names.
  Fixpoint increasing (l : list F) : bool :=
    match l with
    | a :: (b :: _) as l' => fltb a b && increasing l'
    | _ => true
    end.
  Definition orderMask (names points : list string) (rows : list (list F)) : list bool :=
    map (fun row => increasing (firstn (List.length points) (pick (pointMask names points) row))) rows.

  (** temp[mask] = hyperParameterDistribution: None becomes NaN, an array of one element is repeated, other lengths do not
      fit *)
  Definition spreadDist (mask : list bool) (d : option arr) : res arr :=
    let k := List.length (filter (fun b => b) mask) in
    match d with
    | None => Ok (spread mask (repeat NaN k))
    | Some [x] => Ok (spread mask (repeat x k))
    | Some d => if Nat.eqb (List.length d) k then Ok (spread mask d) else Err ValueError
    end.

  Definition with_grid (H0 : hyper F L) (grid : list (list F)) (pv : arr) : hyper F L :=
    {| hy_S := hy_S H0; hy_vals := hy_vals H0; hy_names := hy_names H0; hy_grid := grid; hy_const := hy_const H0;
       hy_pv := pv; hy_dist := hy_dist H0; hy_logEvs := hy_logEvs H0 |}.

  (** core.py:1765-1852 fit *)
  Definition changepointFit (C : cpstudy) (fo eo : bool) (nJobs : nat) : res cpstudy :=
    let* S1 := formatStudy (hy_S (cp_H C)) in
    match st_tm S1 with
    | None => Err ConfigurationError
    | Some m =>
        if Nat.ltb 1 (serialCount m) then Err NotImplementedError
        else
          let points := match changepointNames m with [] => breakpointNames m | cps => cps end in
          match changepointNames m, breakpointNames m with
          | _ :: _, _ :: _ => Err NotImplementedError
          | [], [] => Err ConfigurationError
          | _, _ =>
              let* H1 := withHyperGrid (with_study (cp_H C) S1) in
              let mask := orderMask (hy_names H1) points (hy_grid H1) in
              let pv := pick mask (hy_pv H1) in
              let pv' := amuls pv (xdiv (asum (hy_pv H1)) (asum pv)) in
              let* H2 := hyperFitGrid (with_grid H1 (pick mask (hy_grid H1)) pv') fo eo nJobs in
              let* d := spreadDist mask (hy_dist H2) in
              let H3 := with_dist (with_grid H2 (hy_grid H2) (spread mask (hy_pv H2))) (Some d) in
              Ok {| cp_H := H3; cp_all := hy_grid H1; cp_allPv := hy_pv H1; cp_mask := mask |}
          end
    end.

  (** np.unique: sorted, without repetitions *)
  Fixpoint insertU (x : F) (l : list F) : list F :=
    match l with
    | [] => [x]
    | y :: l' => if fltb x y then x :: l else if feqb x y then l else y :: insertU x l'
    end.
  Definition unique (l : list F) : list F := fold_right insertU [] l.

  (** first index with an equal element after rounding, [rnd] being round(10) *)
  Fixpoint findIndex (rnd : F -> F) (ds : list F) (d : F) : res nat :=
    match ds with
    | [] => Err IndexError
    | x :: ds' => if feqb (rnd x) (rnd d) then Ok 0%nat else let* i := findIndex rnd ds' d in Ok (Datatypes.S i)
    end.

  (** core.py:1906-1911 *)
  Fixpoint durationLoop (rnd : F -> F) (i j : nat) (ds : list F) (rows : list (list F)) (d : arr) (acc : arr) : res arr :=
    match rows with
    | [] => Ok acc
    | row :: rows' =>
        let a := nth i row f0 in
        let b := nth j row f0 in
        match d with
        | [] => if fltb a b then Err IndexError else durationLoop rnd i j ds rows' [] acc
        | p :: d' =>
            if fltb a b then
              let* k := findIndex rnd ds (fsub b a) in
              durationLoop rnd i j ds rows' d' (lset acc k (xadd (nth k acc NaN) p))
            else durationLoop rnd i j ds rows' d' acc
        end
    end.

  (** core.py:1875-1924 getDurationDistribution. Rounding to ten digits is a parameter of the model. *)
  Definition getDurationDistribution (rnd : F -> F) (C : cpstudy) (names : list string) : res (list F * arr) :=
    match names with
    | [na; nb] =>
        match st_tm (hy_S (cp_H C)) with
        | None => Err PostProcessingError
        | Some m =>
            let* a := hyperParameterIndex m na in
            let* b := hyperParameterIndex m nb in
            let '(i, j) := if Nat.ltb a b then (a, b) else (b, a) in
            match cp_all C with
            | [] => Err TypeError
            | _ :: _ =>
                let ds := unique (map (fun row => fsub (nth j row f0) (nth i row f0)) (hy_grid (cp_H C))) in
                match hy_dist (cp_H C) with
                | None => Err TypeError
                | Some d =>
                    let* q := durationLoop rnd i j ds (cp_all C) d (repeat (Fin f0) (List.length ds)) in
                    Ok (ds, adivs q (asum q))
                end
            end
        end
    | _ => Err PostProcessingError
    end.
End Changepoint.
Arguments cpstudy : clear implicits.
