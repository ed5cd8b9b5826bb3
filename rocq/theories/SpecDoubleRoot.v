(** Vocabulary for statements about root finding in double precision (C73). Does not import the
    model of the library. *)
From Coq Require Import Reals ZArith Bool.
From Flocq Require Import Core BinarySingleNaN.
From Verif Require Import SpecDouble.
Local Open Scope R_scope.

(** Not a NaN; the order of doubles with both infinities (false for NaN). *)
Definition numeric (x : double) : Prop := is_nan x = false.
Definition le64 (x y : double) : Prop := Bcompare x y = Some Lt \/ Bcompare x y = Some Eq.
Definition lt64 (x y : double) : Prop := Bcompare x y = Some Lt.

(** Functions of doubles that return numbers for numbers, NaN for NaN, and do not decrease. *)
Definition nondecreasing64 (f : double -> double) : Prop :=
  (forall x, numeric x -> numeric (f x)) /\ f nan = nan /\ forall x y, le64 x y -> le64 (f x) (f y).

(** pow, log2 and ceil of the C library. *)
Record libm2 : Type := MkLib2 { l_pow : double -> double -> double; l_log2 : double -> double; l_ceil : double -> double }.
Definition good_libm2 (L : libm2) : Prop :=
  (forall x y, finite x -> finite y -> 0 < real x -> faithful (Rpower (real x) (real y)) (l_pow L x y)) /\
  (forall x, finite x -> 0 < real x -> faithful (ln (real x) / ln 2) (l_log2 L x)) /\
  (forall x, finite x -> finite (l_ceil L x) /\ real (l_ceil L x) = IZR (Zceil (real x))).
