(** bayesloop/jeffreys.py:71-108: computeJeffreysPriorAR1, over the reals, elementwise with the IEEE rules of Base/Num.v.

    Simplification: observation models carry no name in Model/Study.v, so str(study.observationModel) is an argument. *)
From Coq Require Import List ZArith Reals String Bool.
From Verif Require Import Base.Num Base.Exn Base.Arr Model.Helper Model.Tm Model.HyperParams Model.Study Model.ObsModels.
Import ListNotations.
Local Open Scope res_scope.

(** str(study.observationModel): the two names the function knows (lines 85, 87) *)
Inductive modelName : Type := NameAR1 | NameScaledAR1 | NameOther.
(** rawData[i] with Python's negative indices *)
Definition pyIndex {A} (l : list A) (i : Z) : res A :=
  if Z.leb 0 i then index l (Z.to_nat i)
  else if Z.leb 0 (Z.of_nat (List.length l) + i) then index l (Z.to_nat (Z.of_nat (List.length l) + i))
  else Err IndexError.
(** line 89: s*np.sqrt(1 - r**2.) *)
Definition innovation (r s : R) : xr := xmul (Fin s) (xsqrt (xsub (Fin 1%R) (xsq (Fin r)))).
(** line 106, at one grid point *)
Definition uhlig (d0 : xr) (n : nat) (r : R) (s : xr) : xr :=
  let r2 := xsq (Fin r) in
  xmul (xmul (xdiv (Fin 1%R) (xsq s)) (xexpo (xdiv (xmul (xneg (xsq d0)) (xsub (Fin 1%R) r2)) (xmul (Fin 2%R) (xsq s)))))
       (xsqrt (xadd (xdiv (xmul (Fin 4%R) r2) (xsub (Fin 1%R) r2)) (Fin (2 * (INR n + 1))%R))).
(** lines 85-108 *)
Definition computeJeffreysPriorAR1 (S : study R R) (name : modelName) (t : Z) : res (list xr) :=
  let scaled := match name with NameScaledAR1 => true | _ => false end in
  match name with
  | NameOther => Err ConfigurationError
  | _ =>
      match st_grid S with
      | [r; s] =>
          let sd := if scaled then map2 innovation r s else map (@Fin R) s in
          if existsb (fun x => negb (Rltb (Rabs x) 1)) r then Err ConfigurationError
          else if Nat.eqb (rawLen (st_raw S)) 0 then Err ConfigurationError
          else match st_raw S with
               | Raw1 l =>
                   let* d0 := pyIndex l (t - 1) in
                   let prior := map2 (uhlig d0 (List.length l)) r sd in
                   Ok (adivs prior (asum prior))
               | Raw2 _ => Err ValueError
               end
      | _ => Err ValueError
      end
  end.
