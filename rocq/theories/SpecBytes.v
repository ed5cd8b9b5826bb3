(** Vectors of numbers in MATLAB: their class, their elements and the real numbers these stand for.
    This file does not use the model. *)
From Coq Require Import List ZArith Reals.
From Flocq Require Import IEEE754.Binary IEEE754.Bits.
Import ListNotations.

(** The classes whose elements are whole numbers; logical and char included. *)
Inductive icls := I8 | I16 | I32 | I64 | U8 | U16 | U32 | U64 | Logical | Char.
(** Bytes of an element *)
Definition width (c : icls) : nat :=
  match c with
  | I8 | U8 | Logical => 1 | I16 | U16 | Char => 2 | I32 | U32 => 4 | I64 | U64 => 8
  end.
(** A real column vector. Complex ones are left out. *)
Inductive mlvec : Type :=
| Doubles (l : list binary64)
| Singles (l : list binary32)
| Ints (c : icls) (l : list Z).
Definition numel (x : mlvec) : nat :=
  match x with Doubles l => length l | Singles l => length l | Ints _ l => length l end.
(** The numbers a vector stands for. (Infinities and NaN have the value 0 here; doubles are
    compared as doubles.) *)
Definition numbers (x : mlvec) : list R :=
  match x with
  | Doubles l => map (B2R 53 1024) l
  | Singles l => map (B2R 24 128) l
  | Ints _ l => map IZR l
  end.
(** The last vector of a history that has [n] elements. *)
Fixpoint last_of_length (n : nat) (l : list (list binary64)) (start : list binary64) : list binary64 :=
  match l with
  | [] => start
  | x :: l => last_of_length n l (if Nat.eqb (length x) n then x else start)
  end.
