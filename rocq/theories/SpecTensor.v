(** Vocabulary for C57. Does not import the model. *)
From Coq Require Import Reals List.
From Verif Require Import Base SpecExpansion.
Import ListNotations.
Local Open Scope R_scope.

(** (c1,c2), (x1,x2) |-> f1(x1;c1) f2(x2;c2), where c1 are the first [n1] coefficients and x1 the
    first [d1] inputs. *)
Definition product_of (n1 d1 : nat) (f1 f2 : list R -> list R -> R) (c x : list R) : R :=
  f1 (firstn n1 c) (firstn d1 x) * f2 (skipn n1 c) (skipn d1 x).
