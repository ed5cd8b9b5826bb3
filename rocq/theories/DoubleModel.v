(** The positive bijectors and the logistic function as the code runs them, in double precision. *)
From Coq Require Import Reals ZArith Bool.
From Flocq Require Import Core BinarySingleNaN.
From Verif Require Import SpecDouble.

(** IEEE arithmetic as C++ compiles it on a host without value-changing optimisations. *)
Definition dadd : double -> double -> double := Bplus mode_NE.
Definition dsub : double -> double -> double := Bminus mode_NE.
Definition dmul : double -> double -> double := Bmult mode_NE.
Definition ddiv : double -> double -> double := Bdiv mode_NE.
Definition dconst (m e : Z) : double := binary_normalize 53 1024 _ _ mode_NE m e false.
Definition d0 : double := dconst 0 0.
Definition d1 : double := dconst 1 0.
Definition d2 : double := dconst 2 0.
Definition dm1 : double := dconst (-1) 0.
Definition dhalf : double := dconst 1 (-1).
(** The comparisons <= and > of C++: false when an operand is NaN. *)
Definition dle (x y : double) : bool := match Bcompare x y with Some Lt | Some Eq => true | _ => false end.
Definition dgt (x y : double) : bool := match Bcompare x y with Some Gt => true | _ => false end.
(** std::fmax and std::fmin: a NaN operand is ignored. Which zero is returned for zeros of different
    signs is left to the library by the standard; here the second, which no statement depends on. *)
Definition dfmax (x y : double) : double := match Bcompare x y with Some Gt => x | Some _ => y | None => if is_nan x then y else x end.
Definition dfmin (x y : double) : double := match Bcompare x y with Some Lt => x | Some _ => y | None => if is_nan x then y else x end.

Section Lib.
Variable L : libm.
(** repo: MParT/PositiveBijectors.h:15-18 *)
Definition f_SoftPlus_Evaluate (x : double) : double := dadd (l_log L (dadd d1 (l_exp L (dmul dm1 (Babs x))))) (dfmax x d0).
(** repo: MParT/PositiveBijectors.h:20-22 *)
Definition f_SoftPlus_Derivative (x : double) : double := ddiv d1 (dadd d1 (l_exp L (dmul dm1 x))).
(** repo: MParT/PositiveBijectors.h:28-30 *)
Definition f_SoftPlus_Inverse (x : double) : double := dfmin (l_log L (dsub (l_exp L x) d1)) x.
(** repo: MParT/PositiveBijectors.h:41-43 *)
Definition f_Exp_Evaluate (x : double) : double := l_exp L x.
(** repo: MParT/Sigmoid.h:19-21 *)
Definition f_Logistic_Evaluate (x : double) : double := dadd dhalf (dmul dhalf (l_tanh L (ddiv x d2))).
(** repo: MParT/Sigmoid.h:22-24 *)
Definition f_Logistic_Inverse (y : double) : double :=
  if dgt y d1 then Bopp (l_log L (ddiv (dsub d1 y) y)) else l_log L (ddiv y (dsub d1 y)).
(** repo: MParT/Sigmoid.h:25-28 *)
Definition f_Logistic_Derivative (x : double) : double := let fx := f_Logistic_Evaluate x in dmul fx (dsub d1 fx).
(** repo: MParT/MonotoneComponent.h:119-123, the last step of LogDeterminantImpl: [deriv] is the
    reported diagonal derivative of one point. *)
Definition f_log_step (deriv : double) : double := if dle deriv d0 then ninf else l_log L deriv.
End Lib.
