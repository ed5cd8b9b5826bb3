(** Model of MParT/Utilities/RootFinding.h. Doubles are reals; the function [f] is any
    function from R to R (the C++ functor is called for its value only). *)
From Coq Require Import Reals ZArith.
From Verif Require Import Base SpecRoot PolyModel.
Local Open Scope R_scope.

(** xlb, ylb, xub, yub *)
Record bracket : Type := MkBr { b_xlb : R; b_ylb : R; b_xub : R; b_yub : R }.

(** The flatness test, repo: RootFinding.h:48, 74. *)
Definition flat_test (b : bracket) : bool :=
  (Rltb (Rabs ((b_yub b - b_ylb b) / (b_xub b - b_xlb b))) (/ 10 ^ 12) && Rltb 10 (b_xub b - b_xlb b))%bool.

(** repo: RootFinding.h:44-64: search for a lower bound; [n] iterations remain. *)
Fixpoint lower_loop (f : R -> R) (yd : R) (n : nat) (step : R) (b : bracket) : bracket * Z :=
  match n with
  | O => (b, -2)%Z
  | S n =>
      let xlb := b_xub b - step in
      let b := MkBr xlb (f xlb) (b_xub b) (b_yub b) in
      if flat_test b then (b, -1)%Z
      else if Rltb yd (b_ylb b) then lower_loop f yd n (step * 2) (MkBr (b_xlb b) (b_ylb b) (b_xlb b) (b_ylb b))
      else (b, 0%Z)
  end.

(** repo: RootFinding.h:69-88: search for an upper bound. *)
Fixpoint upper_loop (f : R -> R) (yd : R) (n : nat) (step : R) (b : bracket) : bracket * Z :=
  match n with
  | O => (b, -2)%Z
  | S n =>
      let xub := b_xlb b + step in
      let b := MkBr (b_xlb b) (b_ylb b) xub (f xub) in
      if flat_test b then (b, -1)%Z
      else if Rltb (b_yub b) yd then upper_loop f yd n (step * 2) (MkBr (b_xub b) (b_yub b) (b_xub b) (b_yub b))
      else (b, 0%Z)
  end.

Definition bracket_its : nat := 128.

(** repo: RootFinding.h:20-90 FindBracket; xlb and xub are the values on entry. *)
Definition FindBracket (f : R -> R) (xlb xub yd : R) : bracket * Z :=
  let ylb := f xlb in
  let yub := f xub in
  if Rltb yd ylb then lower_loop f yd bracket_its 1 (MkBr xub yub xlb ylb)
  else upper_loop f yd bracket_its 1 (MkBr xlb ylb xub yub).

(** repo: RootFinding.h:92-106 Find_x_ITP (the argument yd is not used there). *)
Definition Find_x_ITP (b : bracket) (k1 k2 nhalf n0 : R) (it : nat) (xtol : R) : R :=
  let w := b_xub b - b_xlb b in
  let xb := 1/2 * (b_xub b + b_xlb b) in
  let xf := (b_xub b * b_ylb b - b_xlb b * b_yub b) / (b_ylb b - b_yub b) in
  let sigma := if Rltb 0 (xb - xf) then 1 else -1 in
  let delta := Rmin (k1 * Rpower w k2) (Rabs (xb - xf)) in
  let xf := xf + delta * sigma in
  let rho := Rmin (xtol * Rpower 2 (nhalf + n0 - INR it) - 1/2 * w) (Rabs (xf - xb)) in
  xb - sigma * rho.

(** How the loop of InverseSingleBracket ends: "return xc", or the bracket after a break or
    after the last iteration, with the value of the counter "it". *)
Inductive itp_end : Type := Returned (xc : R) (it : nat) | Left (b : bracket) (it : nat).

(** repo: RootFinding.h:141-158; [n] iterations remain, [it] are done. *)
Fixpoint itp_loop (f : R -> R) (yd xtol ftol nhalf : R) (n it : nat) (b : bracket) : itp_end :=
  match n with
  | O => Left b it
  | S n =>
      let xc := Find_x_ITP b (1/10) 2 nhalf 1 it xtol in
      let yc := f xc in
      if Rltb (Rabs (yc - yd)) ftol then Returned xc it
      else
        let b := if Rltb yd yc then MkBr (b_xlb b) (b_ylb b) xc yc else MkBr xc yc (b_xub b) (b_yub b) in
        if (Rltb (b_xub b - b_xlb b) xtol || Rltb (b_yub b - b_ylb b) ftol)%bool then Left b it
        else itp_loop f yd xtol ftol nhalf n (S it) b
  end.

Definition itp_its : nat := 100 * 100.

(** The number of halvings, repo: RootFinding.h:137. *)
Definition itp_nhalf (b : bracket) (xtol : R) : R := ceiling (log_2 (1/2 * (b_xub b - b_xlb b) / xtol)).

(** repo: RootFinding.h:113-167 InverseSingleBracket; the result [None] is the NaN. *)
Definition InverseSingleBracket (f : R -> R) (yd x0 xtol ftol : R) : option R * Z :=
  let '(b, info) := FindBracket f x0 x0 yd in
  if ((info <? 0)%Z || (Rltb yd (b_ylb b) || Rltb (b_yub b) yd))%bool then (None, -2)%Z
  else match itp_loop f yd xtol ftol (itp_nhalf b xtol) itp_its 0 b with
       | Returned xc _ => (Some xc, 0%Z)
       | Left b it => (Some (1/2 * (b_xub b + b_xlb b)), if (itp_its <? it)%nat then (-1)%Z else 0%Z)
       end.
