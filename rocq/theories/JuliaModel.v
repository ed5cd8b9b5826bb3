(** The calls of a map from Julia, with the memory that holds their results.
    repo: bindings/julia/src/ParameterizedFunctionBase.cpp:15-45, ConditionalMapBase.cpp:15-42,
    bindings/julia/include/JlArrayConversions.h:60-68.
    Matrices are lists of columns (one per point). A result is its memory in Julia's order, column after
    column. The routines of a map treat the points one at a time, as in MapsModel.v; here in order (other
    schedules are the subject of C55). Simplifications: the coefficients are set (the Julia calls do not check it,
    see C81 for what unset ones do); an index of 64 bits does not wrap. *)
From Coq Require Import Reals List NArith.
From Verif Require Import Base MapsModel.
Import ListNotations.
Local Open Scope R_scope.

(** Conversion to unsigned int. *)
Definition u32 (k : nat) : nat := N.to_nat (N.of_nat k mod 4294967296).

(** repo: JlArrayConversions.h:61-68: "unsigned int sz = (dims * ...); malloc(sizeof(T)*sz)".
    [heap n] is what the [n] doubles that malloc returns held before. *)
Definition jlMalloc {A} (heap : nat -> list A) (rows cols : nat) : list A := heap (u32 (rows * cols)).

(** repo: ParameterizedFunctionBase.cpp:19-23, 38-42: "output[j*dim+i] = 0.0", in unsigned arithmetic. *)
Definition zero_fill (dim n : nat) (m : list R) : outcome (list R) :=
  ofold (fun m j => ofold (fun m i => raw_set m (u32 (j * dim + i)) 0) (seq 0 dim) m) (seq 0 n) m.

(** repo: bindings/julia/src/JlArrayConversions.cpp JuliaToKokkos, with subview(output, ALL, j): the column's memory. *)
Definition column {A} (m : list A) (off n : nat) : outcome (list A) :=
  if (off + n <=? length m)%nat then Ok (firstn n (skipn off m)) else UB.
Definition store {A} (m : list A) (off : nat) (s : list A) : list A := firstn off m ++ s ++ skipn (off + length s) m.
(** The routine [f j] writes the column of point [j]. *)
Definition each {A} (f : nat -> list A -> outcome (list A)) (rows n : nat) (m : list A) : outcome (list A) :=
  ofold (fun m j => do o <- column m (j * rows) rows; do y <- f j o; Ok (store m (j * rows) y)) (seq 0 n) m.

Section Calls.
Variables (K : cmap) (c : list R) (pts sens : list (list R)).
Let n := length pts.
Definition at_eval (j : nat) (o : list R) : outcome (list R) := do x <- raw_get pts j; m_eval K c x o.
Definition at_logdet (j : nat) (o : list (option R)) : outcome (list (option R)) :=
  do x <- raw_get pts j; do a <- raw_get o 0; do v <- m_logdet K c x a; Ok [v].
Definition at_grad (j : nat) (o : list R) : outcome (list R) := do x <- raw_get pts j; do s <- raw_get sens j; m_grad K c x s o.
Definition at_cgrad (j : nat) (o : list R) : outcome (list R) := do x <- raw_get pts j; do s <- raw_get sens j; m_cgrad K c x s o.
Definition at_ldc (j : nat) (o : list R) : outcome (list R) := do x <- raw_get pts j; m_ldc K c x o.
Definition at_ldi (j : nat) (o : list R) : outcome (list R) := do x <- raw_get pts j; m_ldi K c x o.
Definition at_inv (j : nat) (o : list R) : outcome (list R) := do x <- raw_get pts j; do r <- raw_get sens j; m_inv K c x r o.

(** Julia. [heap] is the previous contents of the memory, [rows_pts] is size(pts,0). *)
Variable heap : nat -> list R.
(** repo: ParameterizedFunctionBase.cpp:15-26 *)
Definition jl_Evaluate : outcome (list R) :=
  do m <- zero_fill (m_out K) n (jlMalloc heap (m_out K) n); each at_eval (m_out K) n m.
(** repo: ParameterizedFunctionBase.cpp:34-45 *)
Definition jl_Gradient (rows_pts : nat) : outcome (list R) :=
  do m <- zero_fill rows_pts n (jlMalloc heap rows_pts n); each at_grad rows_pts n m.
(** repo: ParameterizedFunctionBase.cpp:27-33 *)
Definition jl_CoeffGrad : outcome (list R) := each at_cgrad (m_nc K) n (jlMalloc heap (m_nc K) n).
(** repo: ConditionalMapBase.cpp:15-20 *)
Definition jl_LogDeterminant (heap : nat -> list (option R)) : outcome (list (option R)) := each at_logdet 1 n (jlMalloc heap 1 n).
(** repo: ConditionalMapBase.cpp:21-27 *)
Definition jl_LogDeterminantCoeffGrad : outcome (list R) := each at_ldc (m_nc K) n (jlMalloc heap (m_nc K) n).
(** repo: ConditionalMapBase.cpp:28-34 *)
Definition jl_LogDeterminantInputGrad : outcome (list R) := each at_ldi (m_in K) n (jlMalloc heap (m_in K) n).
(** repo: ConditionalMapBase.cpp:35-41; [pts] is x1 and [sens] is r, which gives the number of points. *)
Definition jl_Inverse : outcome (list R) :=
  let n := length sens in each at_inv (m_out K) n (jlMalloc heap (m_out K) n).

(** C++. repo: src/ParameterizedFunctionBase.cpp:27-34, src/ConditionalMapBase.cpp:9-16, 221-229: a Kokkos::View
    starts with zeros. *)
Definition cpp_Evaluate : outcome (list R) := each at_eval (m_out K) n (repeat 0 (m_out K * n)).
Definition cpp_LogDeterminantInputGrad (rows_pts : nat) : outcome (list R) := each at_ldi rows_pts n (repeat 0 (rows_pts * n)).
(** repo: src/ConditionalMapBase.cpp:67-81 *)
Definition cpp_Inverse : outcome (list R) :=
  let n := length sens in
  if (length pts =? n)%nat then each at_inv (m_out K) n (repeat 0 (m_out K * n)) else Throw.
End Calls.
