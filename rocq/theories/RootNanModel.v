(** MParT/Utilities/RootFinding.h and MonotoneComponent::InverseImpl with NaNs among the arguments.
    Doubles are reals or NaN: [None] is the NaN, every comparison with it is false. *)
From Coq Require Import Reals ZArith List Bool.
From Verif Require Import Base SpecRoot PolyModel ExpansionModel RootModel MonoModel.
Import ListNotations.
Local Open Scope R_scope.

(** a < b, a > b *)
Definition olt (a b : option R) : bool := match a, b with Some x, Some y => Rltb x y | _, _ => false end.
(** |a - b| *)
Definition odist (a : R) (b : option R) : option R := match b with Some y => Some (Rabs (a - y)) | None => None end.

(** repo: RootFinding.h:44-64, with any target. *)
Fixpoint o_lower_loop (f : R -> R) (yd : option R) (n : nat) (step : R) (b : bracket) : bracket * Z :=
  match n with
  | O => (b, -2)%Z
  | S n =>
      let xlb := b_xub b - step in
      let b := MkBr xlb (f xlb) (b_xub b) (b_yub b) in
      if flat_test b then (b, -1)%Z
      else if olt yd (Some (b_ylb b)) then o_lower_loop f yd n (step * 2) (MkBr (b_xlb b) (b_ylb b) (b_xlb b) (b_ylb b))
      else (b, 0%Z)
  end.

(** repo: RootFinding.h:69-88. *)
Fixpoint o_upper_loop (f : R -> R) (yd : option R) (n : nat) (step : R) (b : bracket) : bracket * Z :=
  match n with
  | O => (b, -2)%Z
  | S n =>
      let xub := b_xlb b + step in
      let b := MkBr (b_xlb b) (b_ylb b) xub (f xub) in
      if flat_test b then (b, -1)%Z
      else if olt (Some (b_yub b)) yd then o_upper_loop f yd n (step * 2) (MkBr (b_xub b) (b_yub b) (b_xub b) (b_yub b))
      else (b, 0%Z)
  end.

(** repo: RootFinding.h:20-90 FindBracket. *)
Definition o_FindBracket (f : R -> R) (xlb xub : R) (yd : option R) : bracket * Z :=
  let ylb := f xlb in
  let yub := f xub in
  if olt yd (Some ylb) then o_lower_loop f yd bracket_its 1 (MkBr xub yub xlb ylb)
  else o_upper_loop f yd bracket_its 1 (MkBr xlb ylb xub yub).

(** repo: RootFinding.h:141-158. *)
Fixpoint o_itp_loop (f : R -> R) (yd : option R) (xtol ftol nhalf : R) (n it : nat) (b : bracket) : itp_end :=
  match n with
  | O => Left b it
  | S n =>
      let xc := Find_x_ITP b (1/10) 2 nhalf 1 it xtol in
      let yc := f xc in
      if olt (odist yc yd) (Some ftol) then Returned xc it
      else
        let b := if olt yd (Some yc) then MkBr (b_xlb b) (b_ylb b) xc yc else MkBr xc yc (b_xub b) (b_yub b) in
        if (Rltb (b_xub b - b_xlb b) xtol || Rltb (b_yub b - b_ylb b) ftol)%bool then Left b it
        else o_itp_loop f yd xtol ftol nhalf n (S it) b
  end.

(** repo: RootFinding.h:113-167 InverseSingleBracket. *)
Definition o_InverseSingleBracket (f : R -> R) (yd : option R) (x0 xtol ftol : R) : option R * Z :=
  let '(b, info) := o_FindBracket f x0 x0 yd in
  if ((info <? 0)%Z || (olt yd (Some (b_ylb b)) || olt (Some (b_yub b)) yd))%bool then (None, -2)%Z
  else match o_itp_loop f yd xtol ftol (itp_nhalf b xtol) itp_its 0 b with
       | Returned xc _ => (Some xc, 0%Z)
       | Left b it => (Some (1/2 * (b_xub b + b_xlb b)), if (itp_its <? it)%nat then (-1)%Z else 0%Z)
       end.

(** The loop "if(std::isnan(pt(ii)))": the numbers of the column, or None if there is a NaN.
    repo: MonotoneComponent.h:421-427 *)
Fixpoint without_nan (pt : list (option R)) : option (list R) :=
  match pt with
  | [] => Some []
  | None :: _ => None
  | Some x :: r => match without_nan r with Some l => Some (x :: l) | None => None end
  end.

(** repo: MonotoneComponent.h:409-440 InverseImpl, one point, with possible NaNs in the column and as
    target; what is written to output(ptInd). *)
Definition mc_Inverse_nan (C : component) (S : scratch) (pt : list (option R)) (y : option R) (coeffs : list R) (xtol ytol : option R) : outcome (option R) :=
  do tol <- inv_tolerances xtol ytol;
  match without_nan pt with
  | None => Ok None
  | Some pt =>
      do cache <- w_FillCache1 (mc_w C) (sc_cache S) pt DNone;
      do x0 <- raw_get pt (length pt - 1);
      Ok (fst (o_InverseSingleBracket (mc_eval_at C S cache pt coeffs) y x0 (fst tol) (snd tol)))
  end.
