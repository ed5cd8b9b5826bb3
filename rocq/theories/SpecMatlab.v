(** MATLAB numbers used as positions, and what a position names. Nothing here refers to the model of the code. *)
From Coq Require Import List ZArith.
Local Open Scope Z_scope.

(** Classes of MATLAB numbers. A Double stands for an integer-valued one that is exactly representable. *)
Inductive cls := Double | Int8 | Int16 | Int32 | Int64 | UInt8 | UInt16 | UInt32 | UInt64.
Record num : Type := MkNum { class_of : cls; value : Z }.

(** Least and greatest value of a class; for doubles the range in which all integers are exact. *)
Definition least (c : cls) : Z :=
  match c with
  | Double => - 2 ^ 53 | Int8 => - 2 ^ 7 | Int16 => - 2 ^ 15 | Int32 => - 2 ^ 31 | Int64 => - 2 ^ 63
  | UInt8 | UInt16 | UInt32 | UInt64 => 0
  end.
Definition greatest (c : cls) : Z :=
  match c with
  | Double => 2 ^ 53 | Int8 => 2 ^ 7 - 1 | Int16 => 2 ^ 15 - 1 | Int32 => 2 ^ 31 - 1 | Int64 => 2 ^ 63 - 1
  | UInt8 => 2 ^ 8 - 1 | UInt16 => 2 ^ 16 - 1 | UInt32 => 2 ^ 32 - 1 | UInt64 => 2 ^ 64 - 1
  end.
Definition is_signed (c : cls) : Prop := c = Int8 \/ c = Int16 \/ c = Int32 \/ c = Int64.
Definition is_unsigned (c : cls) : Prop := c = UInt8 \/ c = UInt16 \/ c = UInt32 \/ c = UInt64.
(** A number that exists *)
Definition exists_in_class (x : num) : Prop := least (class_of x) <= value x <= greatest (class_of x).

(** MATLAB counts from 1: [x] is the position of the element that counting from 0 is number [i]. *)
Definition position (x : num) (i : nat) : Prop := value x = Z.of_nat i + 1.
(** [x] is one of the positions 1, ..., [n]. *)
Definition is_position (n : nat) (x : num) : Prop := 1 <= value x <= Z.of_nat n.

(** Two MATLAB handle objects: each has an identity, and holds something. *)
Record handle (A : Type) : Type := MkHandle { ident : nat; held : A }.
Arguments MkHandle {A} _ _.
Arguments ident {A} _.
Arguments held {A} _.
