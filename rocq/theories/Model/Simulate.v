(** bayesloop/core.py: Study.simulate *)
From Coq Require Import List ZArith String Bool Arith.
From Verif Require Import Base.Num Base.Exn Base.Arr Model.Helper Model.Tm Model.HyperParams Model.Study Model.Getters.
Import ListNotations.
Local Open Scope res_scope.

Section Simulate.
  Context {F L : Type} `{Num F} `{LogNum F L}.
  Notation arr := (list (xnum F)).

  (** core.py:567-602 simulate; t = None is Python's None (time average). The likelihood is evaluated with pdf itself, not
      with processedPdf. A result of None instead of an array means that uninitialised cells of posteriorSequence are
      used. *)
  Definition simulate (S : study F L) (x : list (xnum F)) (t : option F) (density : bool) : res (option arr) :=
    match st_om S with
    | None => Err AttributeError
    | Some o =>
        if Nat.ltb 1 (om_seglen o) then Err NotImplementedError
        else
          let* post :=
            match t with
            | None => Ok (option_map (timeAverage (natprod (st_shape S))) (allSome (st_post S)))
            | Some t' => match timeIndex (st_fmtTs S) t' with
                         | None => Err PostProcessingError
                         | Some i => index (st_post S) i
                         end
            end in
          match post with
          | None => Ok None
          | Some p =>
              let prob := map (fun xi => asum (amul (om_pdf o (st_grid S) (Seg1 [xi])) p)) x in
              Ok (Some (if density then prob else adivs prob (asum prob)))
          end
    end.
End Simulate.
