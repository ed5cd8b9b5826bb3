(** Double precision numbers (binary64) and what is assumed of the C library's exp, log and tanh.
    Does not import the model of the library. *)
From Coq Require Import Reals ZArith Bool.
From Flocq Require Import Core BinarySingleNaN.
Local Open Scope R_scope.

(** ** Numbers *)
Definition double : Type := binary_float 53 1024.
#[global] Instance prec64 : FLX.Prec_gt_0 53 := eq_refl.
#[global] Instance emax64 : Prec_lt_emax 53 1024 := eq_refl.
Definition real (x : double) : R := B2R x.
Definition finite (x : double) : Prop := is_finite x = true.
Definition pinf : double := B754_infinity false.
Definition ninf : double := B754_infinity true.
Definition nan : double := B754_nan.
(** A number that is neither an infinity nor a NaN, greater than zero. *)
Definition positive_double (x : double) : Prop := finite x /\ 0 < real x.

(** ** Rounding of a real: to nearest with ties to even, down and up; the largest finite double. *)
Definition fexp64 : Z -> Z := SpecFloat.fexp 53 1024.
Definition nearest (r : R) : R := round radix2 fexp64 ZnearestE r.
Definition below (r : R) : R := round radix2 fexp64 Zfloor r.
Definition above (r : R) : R := round radix2 fexp64 Zceil r.
Definition largest : R := bpow radix2 1024 - bpow radix2 971.

(** ** Library functions: the result is one of the two doubles next to the exact value (or infinity
    or the largest double beyond the range). Correctly rounded functions satisfy this, and so do
    the usual libraries, whose errors are below one unit in the last place. *)
Definition faithful (r : R) (y : double) : Prop :=
  (Rabs r <= largest -> finite y /\ (real y = below r \/ real y = above r)) /\
  (largest < r -> y = pinf \/ finite y /\ real y = largest) /\
  (r < - largest -> y = ninf \/ finite y /\ real y = - largest).
Record libm : Type := MkLib { l_exp : double -> double; l_log : double -> double; l_tanh : double -> double }.
Definition good_libm (L : libm) : Prop :=
  (forall x, finite x -> faithful (exp (real x)) (l_exp L x)) /\ l_exp L pinf = pinf /\ (finite (l_exp L ninf) /\ real (l_exp L ninf) = 0) /\ l_exp L nan = nan /\
  (forall x, finite x -> 0 < real x -> faithful (ln (real x)) (l_log L x)) /\ (forall x, finite x -> real x = 0 -> l_log L x = ninf) /\ l_log L pinf = pinf /\ l_log L nan = nan /\
  (forall x, finite x -> faithful (tanh (real x)) (l_tanh L x)) /\ l_tanh L nan = nan.
