(** Vocabulary for statements about root finding (C30, C31, C36). Does not import the model. *)
From Coq Require Import Reals.
Local Open Scope R_scope.

Definition nondecreasing (f : R -> R) : Prop := forall a b, a <= b -> f a <= f b.
Definition strictly_increasing (f : R -> R) : Prop := forall a b, a < b -> f a < f b.

(** The average slope over every interval longer than 10 is at least 10^-12. *)
Definition nowhere_flat (f : R -> R) : Prop := forall a b, 10 < b - a -> / 10 ^ 12 * (b - a) <= f b - f a.

(** Smallest integer not below x, and the base 2 logarithm. *)
Definition ceiling (x : R) : R := - IZR (Int_part (- x)).
Definition log_2 (x : R) : R := ln x / ln 2.
