(** Model of the positive bijectors, the logistic sigmoid and Sigmoid1d
    (repo: MParT/PositiveBijectors.h, MParT/Sigmoid.h). Doubles are real numbers. *)
From Coq Require Import Reals.
From Verif Require Import Base.
Local Open Scope R_scope.

(** std::fmax, std::fmin. *)
Definition fmax (a b : R) : R := Rmax a b.
Definition fmin (a b : R) : R := Rmin a b.

(** repo: PositiveBijectors.h:15-30. *)
Definition SoftPlus_Evaluate (x : R) : R := ln (1 + exp (-1 * Rabs x)) + fmax x 0.
Definition SoftPlus_Derivative (x : R) : R := 1 / (1 + exp (-1 * x)).
Definition SoftPlus_SecondDerivative (x : R) : R := 1 / (2 + exp (-1 * x) + exp x).
Definition SoftPlus_Inverse (x : R) : R := fmin (ln (exp x - 1)) x.

(** repo: PositiveBijectors.h:40-54. *)
Definition Exp_Evaluate (x : R) : R := exp x.
Definition Exp_Derivative (x : R) : R := exp x.
Definition Exp_SecondDerivative (x : R) : R := exp x.
Definition Exp_Inverse (x : R) : R := ln x.

(** repo: Sigmoid.h:19-28. *)
Definition Logistic_Evaluate (x : R) : R := 1/2 + 1/2 * tanh (x / 2).
Definition Logistic_Inverse (y : R) : R := if Rgt_dec y 1 then - ln ((1 - y) / y) else ln (y / (1 - y)).
Definition Logistic_Derivative (x : R) : R := let fx := Logistic_Evaluate x in fx * (1 - fx).

(** Sigmoid1d<Logistic>: repo Sigmoid.h:31-78. The model is for SigmoidType = Logistic,
    the only one in the repository. A 1 x n matrix is the list of its n entries; a
    numCoeffs x n matrix is the list of its rows. *)
Record sigmoid1d : Type := MkSig { sg_centers : list R; sg_widths : list R; sg_coeffs : list R }.
Definition sg_numCoeffs (s : sigmoid1d) : nat := length (sg_widths s).

(** repo: Sigmoid.h:35-45. *)
Definition sg_construct (centers widths : list R) : outcome (list R -> sigmoid1d) :=
  if negb (length centers =? length widths)%nat then Throw else Ok (fun c => MkSig centers widths c).

(** The argument widths_(i)*(p - centers_(i)). *)
Definition sg_arg (s : sigmoid1d) (p : R) (i : nat) : outcome R :=
  do w <- raw_get (sg_widths s) i; do c <- raw_get (sg_centers s) i; Ok (w * (p - c)).

(** repo: Sigmoid.h:47-55. *)
Definition sg_EvaluateImpl (s : sigmoid1d) (pts out : list R) : outcome (list R) :=
  ofold (fun out j =>
    do v <- ofold (fun acc i =>
        do p <- raw_get pts j; do a <- raw_get (sg_coeffs s) i; do t <- sg_arg s p i;
        Ok (acc + a * Logistic_Evaluate t)) (seq 0 (sg_numCoeffs s)) 0;
    raw_set out j v) (seq 0 (length pts)) out.

(** repo: Sigmoid.h:57-66, with its own parameter names. *)
Definition sg_GradientImpl (s : sigmoid1d) (sens pts out : list R) : outcome (list R) :=
  ofold (fun out j =>
    do v <- ofold (fun acc i =>
        do p <- raw_get pts j; do a <- raw_get (sg_coeffs s) i; do w <- raw_get (sg_widths s) i; do t <- sg_arg s p i;
        Ok (acc + a * w * Logistic_Derivative t)) (seq 0 (sg_numCoeffs s)) 0;
    do z <- raw_get sens j;
    raw_set out j (z * v)) (seq 0 (length pts)) out.

(** repo: Sigmoid.h:68-73, with its own parameter names; row [i] of the output. *)
Definition sg_CoeffGradRow (s : sigmoid1d) (sens pts : list R) (i : nat) (out : list R) : outcome (list R) :=
  ofold (fun out j =>
    do z <- raw_get sens j; do p <- raw_get pts j; do t <- sg_arg s p i;
    raw_set out j (z * Logistic_Evaluate t)) (seq 0 (length sens)) out.

(** repo: src/ParameterizedFunctionBase.cpp:104-113 Gradient and 268-276 CoeffGrad: the
    base class passes the points first. Output views are freshly allocated with
    pts.extent(1) columns. *)
Definition sg_Evaluate (s : sigmoid1d) (pts : list R) : outcome (list R) :=
  sg_EvaluateImpl s pts (repeat 0 (length pts)).
Definition sg_Gradient (s : sigmoid1d) (pts sens : list R) : outcome (list R) :=
  sg_GradientImpl s pts sens (repeat 0 (length pts)).
Definition sg_CoeffGrad (s : sigmoid1d) (pts sens : list R) (i : nat) : outcome (list R) :=
  sg_CoeffGradRow s pts sens i (repeat 0 (length pts)).
