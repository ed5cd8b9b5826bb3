(** Model of the parallel column reductions. *)
From Coq Require Import Reals Permutation.
From Verif Require Import Base.
Local Open Scope R_scope.

(** How Kokkos::parallel_reduce works through its range: chunks of iterations, each accumulated in
    its own copy of the result, joined pairwise in some order. *)
Inductive sched : Type := Chunk (iters : list nat) | Join (a b : sched).
Fixpoint iterations (s : sched) : list nat := match s with Chunk l => l | Join a b => iterations a ++ iterations b end.
(** Every iteration of the range is executed exactly once. *)
Definition complete (n : nat) (s : sched) : Prop := Permutation (iterations s) (seq 0 n).

(** What ReduceDim reads: entry [elem reduce_idx full_idx], [count] results, the kernel and the factor.
    repo: LinearAlgebra.h:247-280. The model has one accumulator per chunk, initialised to 0. *)
Section Reduce.
Variables (elem : nat -> nat -> outcome R) (count : nat) (kernel : R -> R) (alpha : R).
(** repo: LinearAlgebra.h:260-267 *)
Definition rd_op (r : nat) (sum : list R) : outcome (list R) :=
  ofold (fun sum k => do a <- elem r k; do s <- raw_get sum k; raw_set sum k (s + kernel a * alpha)) (seq 0 count) sum.
(** repo: LinearAlgebra.h:269-273 *)
Definition rd_join (dst src : list R) : outcome (list R) :=
  ofold (fun dst k => do a <- raw_get dst k; do b <- raw_get src k; raw_set dst k (a + b)) (seq 0 count) dst.
(** repo: LinearAlgebra.h:275-279 *)
Definition rd_init : list R := repeat 0 count.
Fixpoint rd_run (s : sched) : outcome (list R) :=
  match s with
  | Chunk l => ofold (fun sum r => rd_op r sum) l rd_init
  | Join a b => do x <- rd_run a; do y <- rd_run b; rd_join x y
  end.
End Reduce.
(** repo: LinearAlgebra.h:235-242 *)
Definition kernel_sum (x : R) : R := x.
Definition kernel_norm (x : R) : R := x * x.
