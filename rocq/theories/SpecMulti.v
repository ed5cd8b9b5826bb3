(** Specification vocabulary for multi-indices: plain lists of naturals.
    Nothing here refers to the model of the code. *)
From Coq Require Import List Arith Lia.
Import ListNotations.

(** A multi-index is its dense vector of degrees. *)
Definition vec := list nat.

Definition vsum (v : vec) : nat := fold_right Nat.add 0 v.
Definition vmax (v : vec) : nat := fold_right Nat.max 0 v.
Definition vnnz (v : vec) : nat := length (filter (fun x => negb (x =? 0)) v).

(** The vector [v] with entry [i] replaced by [x]. *)
Definition vset (v : vec) (i x : nat) : vec :=
  map (fun j => if j =? i then x else nth j v 0) (seq 0 (length v)).

(** Write a whole history of (position, value) pairs, first one first. *)
Definition vwrites (v : vec) (h : list (nat * nat)) : vec :=
  fold_left (fun v p => vset v (fst p) (snd p)) h v.

(** [b = a + e_i]. *)
Definition plus_unit (a b : vec) (i : nat) : Prop :=
  length b = length a /\ i < length a /\
  forall j, nth j b 0 = nth j a 0 + (if j =? i then 1 else 0).

(** Forward neighbour: one unit larger in exactly one direction. *)
Definition fwd_rel (a b : vec) : Prop := exists i, plus_unit a b i.

(** Componentwise order between vectors of the same length. *)
Definition vle (a b : vec) : Prop :=
  length a = length b /\ forall j, nth j a 0 <= nth j b 0.

(** Lexicographic order on vectors of equal length. *)
Inductive lex_lt : vec -> vec -> Prop :=
| lex_here a b x y : x < y -> length a = length b -> lex_lt (x :: a) (y :: b)
| lex_next a b x : lex_lt a b -> lex_lt (x :: a) (x :: b).

(** Graded order: length, then sum, then maximum, then lexicographic. *)
Definition graded_lt (a b : vec) : Prop :=
  length a < length b \/
  (length a = length b /\
   (vsum a < vsum b \/
    (vsum a = vsum b /\
     (vmax a < vmax b \/ (vmax a = vmax b /\ lex_lt a b))))).

(** A set of multi-indices is downward closed. *)
Definition down_closed (S : vec -> Prop) : Prop :=
  forall a b, vle a b -> S b -> S a.
