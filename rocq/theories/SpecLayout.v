(** Vocabulary for statements about arrays in memory (C67-C69). Does not import the model.
    Memory is a list of entries and an address is a position in it. *)
From Coq Require Import Reals List Arith Lia.
Import ListNotations.

(** The entries (i,j) of a two-dimensional array with these extents, as the documentation of Kokkos
    and Eigen defines them: an address per entry. *)
Record array : Type := MkArr { ar_rows : nat; ar_cols : nat; ar_at : nat -> nat -> nat }.
Definition in_array (a : array) (i j : nat) : Prop := (i < ar_rows a)%nat /\ (j < ar_cols a)%nat.
(** Two arrays show the same entries. *)
Definition same_entries (a b : array) : Prop :=
  ar_rows a = ar_rows b /\ ar_cols a = ar_cols b /\ forall i j, in_array a i j -> ar_at a i j = ar_at b i j.
(** No two entries share an address. *)
Definition no_overlap (a : array) : Prop :=
  forall i j i' j', in_array a i j -> in_array a i' j' -> ar_at a i j = ar_at a i' j' -> i = i' /\ j = j'.
(** Every entry lies in a memory of [n] cells. *)
Definition inside (n : nat) (a : array) : Prop := forall i j, in_array a i j -> (ar_at a i j < n)%nat.
Definition apart (a b : array) : Prop := forall i j i' j', in_array a i j -> in_array b i' j' -> ar_at a i j <> ar_at b i' j'.
Definition transposed (a : array) : array := MkArr (ar_cols a) (ar_rows a) (fun i j => ar_at a j i).
Definition addressed (a : array) (p : nat) : Prop := exists i j, in_array a i j /\ ar_at a i j = p.

(** Entry (i,j) of an array. *)
Definition entry (mem : list R) (a : array) (i j : nat) : R := nth (ar_at a i j) mem 0%R.
(** The matrix an array shows, column by column. *)
Definition shown (mem : list R) (a : array) : list (list R) :=
  map (fun j => map (fun i => entry mem a i j) (seq 0 (ar_rows a))) (seq 0 (ar_cols a)).
(** sum over k < n *)
Fixpoint sum_to (n : nat) (f : nat -> R) : R := match n with O => 0%R | S n => (sum_to n f + f n)%R end.
