(** Specification: studies that agree in the values of likelihood and prior at the grid points, but not necessarily in data, parameter values
    and observation model. *)
From Coq Require Import List.
From Verif Require Import Base.Num Base.Exn Base.Arr Model.Helper Model.Tm Model.HyperParams Model.Study.
Import ListNotations.

Section LikOnly.
  Context {F L : Type} `{Num F} `{LogNum F L}.
  (** priors of the same kind with the same values at the grid points [g] and [g'] *)
  Definition samePriorValues (g g' : list (list F)) (p p' : priorSpec F) : Prop :=
    match p, p' with
    | PNone, PNone => True
    | PArr sh a, PArr sh' a' => sh = sh' /\ a = a'
    | PConst c, PConst c' => c = c'
    | PFun f, PFun f' => f' g' = f g
    | PSym n f, PSym n' f' => n = n' /\ f' g' = f g
    | _, _ => False
    end.
  (** the same grid shape, lattice constants, transition model and time stamps; the i-th segments have the same likelihood at all grid points *)
  Record twins (S S' : study F L) (o o' : om F) (m : tm F) : Prop := {
    tw_om : st_om S = Some o /\ st_om S' = Some o';
    tw_tm : st_tm S = Some m /\ st_tm S' = Some m;
    tw_shape : st_shape S' = st_shape S;
    tw_lat : st_lat S' = st_lat S;
    tw_tmlat : st_tmlat S' = st_tmlat S;
    tw_names : om_names o' = om_names o;
    tw_seglen : om_seglen o' = om_seglen o;
    tw_length : rawLen (st_raw S') = rawLen (st_raw S);
    tw_ts : st_rawTs S' = st_rawTs S;
    tw_fresh : st_post S' = st_post S /\ st_means S = [] /\ st_means S' = [];
    tw_oracles : st_shift S' = st_shift S /\ st_aconv S' = st_aconv S /\ st_bconv S' = st_bconv S;
    tw_prior : samePriorValues (st_grid S) (st_grid S') (om_prior o) (om_prior o');
    tw_lik : Forall2 (fun s s' => processedPdf o' (natprod (st_shape S)) (st_grid S') s' = processedPdf o (natprod (st_shape S)) (st_grid S) s)
               (formatData (st_raw S) (om_seglen o)) (formatData (st_raw S') (om_seglen o'))
  }.
End LikOnly.
