(** MParT/Utilities/RootFinding.h in double precision. The function is any function of doubles, the
    library functions are any functions. *)
From Coq Require Import Reals ZArith Bool.
From Flocq Require Import Core BinarySingleNaN.
From Verif Require Import SpecDouble SpecDoubleRoot DoubleModel.

(** The comparison <: false when an operand is NaN. *)
Definition dlt (x y : double) : bool := match Bcompare x y with Some Lt => true | _ => false end.
(** The literals 1e-12, 10 and 0.1. *)
Definition d1em12 : double := dconst 4951760157141521 (-92).
Definition d10 : double := dconst 10 0.
Definition dtenth : double := dconst 7205759403792794 (-56).
(** Conversion of the counter "it" (an int argument) to a double. *)
Definition dint (n : nat) : double := dconst (Z.of_nat n) 0.

(** xlb, ylb, xub, yub *)
Record fbracket : Type := MkFB { f_xlb : double; f_ylb : double; f_xub : double; f_yub : double }.

(** The flatness test, repo: RootFinding.h:48, 74. *)
Definition f_flat (b : fbracket) : bool :=
  (dlt (Babs (ddiv (dsub (f_yub b) (f_ylb b)) (dsub (f_xub b) (f_xlb b)))) d1em12 && dgt (dsub (f_xub b) (f_xlb b)) d10)%bool.

(** repo: RootFinding.h:44-64: search for a lower bound; [n] iterations remain. *)
Fixpoint f_lower_loop (f : double -> double) (yd : double) (n : nat) (step : double) (b : fbracket) : fbracket * Z :=
  match n with
  | O => (b, -2)%Z
  | S n =>
      let xlb := dsub (f_xub b) step in
      let b := MkFB xlb (f xlb) (f_xub b) (f_yub b) in
      if f_flat b then (b, -1)%Z
      else if dgt (f_ylb b) yd then f_lower_loop f yd n (dmul step d2) (MkFB (f_xlb b) (f_ylb b) (f_xlb b) (f_ylb b))
      else (b, 0%Z)
  end.

(** repo: RootFinding.h:69-88: search for an upper bound. *)
Fixpoint f_upper_loop (f : double -> double) (yd : double) (n : nat) (step : double) (b : fbracket) : fbracket * Z :=
  match n with
  | O => (b, -2)%Z
  | S n =>
      let xub := dadd (f_xlb b) step in
      let b := MkFB (f_xlb b) (f_ylb b) xub (f xub) in
      if f_flat b then (b, -1)%Z
      else if dlt (f_yub b) yd then f_upper_loop f yd n (dmul step d2) (MkFB (f_xub b) (f_yub b) (f_xub b) (f_yub b))
      else (b, 0%Z)
  end.

Definition f_bracket_its : nat := 128.

(** repo: RootFinding.h:20-90 FindBracket; xlb and xub are the values on entry. *)
Definition f_FindBracket (f : double -> double) (xlb xub yd : double) : fbracket * Z :=
  let ylb := f xlb in
  let yub := f xub in
  if dgt ylb yd then f_lower_loop f yd f_bracket_its d1 (MkFB xub yub xlb ylb)
  else f_upper_loop f yd f_bracket_its d1 (MkFB xlb ylb xub yub).

Section Lib.
Variable L : libm2.

(** repo: RootFinding.h:92-106 Find_x_ITP. *)
Definition f_Find_x_ITP (b : fbracket) (k1 k2 nhalf n0 : double) (it : nat) (xtol : double) : double :=
  let xb := dmul dhalf (dadd (f_xub b) (f_xlb b)) in
  let xf := ddiv (dsub (dmul (f_xub b) (f_ylb b)) (dmul (f_xlb b) (f_yub b))) (dsub (f_ylb b) (f_yub b)) in
  let sigma := if dgt (dsub xb xf) d0 then d1 else dm1 in
  let delta := dfmin (dmul k1 (l_pow L (dsub (f_xub b) (f_xlb b)) k2)) (Babs (dsub xb xf)) in
  let xf := dadd xf (dmul delta sigma) in
  let rho := dfmin (dsub (dmul xtol (l_pow L d2 (dsub (dadd nhalf n0) (dint it)))) (dmul dhalf (dsub (f_xub b) (f_xlb b)))) (Babs (dsub xf xb)) in
  dsub xb (dmul sigma rho).

(** "return xc", or the bracket after a break or after the last iteration; the value of "it". *)
Inductive f_end : Type := FReturned (xc : double) (it : nat) | FLeft (b : fbracket) (it : nat).

(** repo: RootFinding.h:141-158; [n] iterations remain, [it] are done. *)
Fixpoint f_itp_loop (f : double -> double) (yd xtol ftol nhalf : double) (n it : nat) (b : fbracket) : f_end :=
  match n with
  | O => FLeft b it
  | S n =>
      let xc := f_Find_x_ITP b dtenth d2 nhalf d1 it xtol in
      let yc := f xc in
      if dlt (Babs (dsub yc yd)) ftol then FReturned xc it
      else
        let b := if dgt yc yd then MkFB (f_xlb b) (f_ylb b) xc yc else MkFB xc yc (f_xub b) (f_yub b) in
        if (dlt (dsub (f_xub b) (f_xlb b)) xtol || dlt (dsub (f_yub b) (f_ylb b)) ftol)%bool then FLeft b it
        else f_itp_loop f yd xtol ftol nhalf n (S it) b
  end.

Definition f_itp_its : nat := 100 * 100.

(** repo: RootFinding.h:137. *)
Definition f_nhalf (b : fbracket) (xtol : double) : double := l_ceil L (l_log2 L (ddiv (dmul dhalf (dsub (f_xub b) (f_xlb b))) xtol)).

(** repo: RootFinding.h:113-167 InverseSingleBracket: the value returned, info, and (not returned by
    the code) the number of trial points, "it" when the loop ended. *)
Definition f_InverseSingleBracket (f : double -> double) (yd x0 xtol ftol : double) : double * Z * nat :=
  let '(b, info) := f_FindBracket f x0 x0 yd in
  if ((info <? 0)%Z || (dgt (f_ylb b) yd || dlt (f_yub b) yd))%bool then (nan, (-2)%Z, O)
  else match f_itp_loop f yd xtol ftol (f_nhalf b xtol) f_itp_its 0 b with
       | FReturned xc it => (xc, 0%Z, it)
       | FLeft b it => (dmul dhalf (dadd (f_xub b) (f_xlb b)), if (f_itp_its <? it)%nat then (-1)%Z else 0%Z, it)
       end.
End Lib.
