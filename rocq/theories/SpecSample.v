(** What a sampler of random vectors promises, independent of the model. *)
From Coq Require Import Reals List Permutation.
From Verif Require Import Base SpecExpansion SpecMaps.
Import ListNotations.
Local Open Scope R_scope.

(** A parallel loop over the entries (j, i) of an n x N output executes its iterations one after the other on
    each thread, and each thread has a generator of its own: [((j, i), g)] says that entry i of sample j is
    computed with generator g. The list is the order in which the draws happen. *)
Definition plan := list (nat * nat * nat).
(** Every entry of an n x N output is drawn exactly once, with one of [c] generators. *)
Definition draws_all (c n N : nat) (pl : plan) : Prop :=
  Permutation (map fst pl) (list_prod (seq 0 N) (seq 0 n)) /\ forall v, In v pl -> (snd v < c)%nat.

Section Noise.
Variable gen : Type.
Variable normal : gen -> R * gen.
(** The k-th number a generator returns. *)
Fixpoint nth_normal (g : gen) (k : nat) : R :=
  match k with O => fst (normal g) | S k => nth_normal (snd (normal g)) k end.
(** [Z] lists N vectors of n numbers, each number being the next one of the generator that serves it. *)
Definition noise (pool : list gen) (n N : nat) (pl : plan) (Z : list (list R)) : Prop :=
  length Z = N /\ Forall (fun z => length z = n) Z /\
  forall t j i g s, nth_error pl t = Some (j, i, g) -> nth_error pool g = Some s ->
    coord (nth j Z []) i = nth_normal s (count_occ Nat.eq_dec (map snd (firstn t pl)) g).
End Noise.
