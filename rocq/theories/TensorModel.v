(** Model of TensorProductFunction (repo: MParT/TensorProductFunction.h). The two factors are any
    objects with the interface the template uses. A cache pointer gives access to exactly the
    factor's CacheSize() entries: an access outside of them is [UB] in the model. *)
From Coq Require Import Reals.
From Verif Require Import Base ExpansionModel.
Local Open Scope R_scope.

(** The members of FunctionType1 and FunctionType2 used by the template. *)
Record tfun : Type := MkF {
  t_in : nat; t_nc : nat; t_cache : nat;
  t_fill1 : list R -> list R -> deriv_type -> outcome (list R);
  t_fill2 : list R -> list R -> R -> deriv_type -> outcome (list R);
  t_eval : list R -> list R -> outcome R;
  t_diag : list R -> list R -> nat -> outcome R;
  t_cderiv : list R -> list R -> list R -> outcome (R * list R);
  t_mixed : list R -> list R -> nat -> list R -> outcome (R * list R) }.

(** MultivariateExpansionWorker as a factor. Its FillCache2 ignores the point, and the routine
    called MixedDerivative by the template is named MixedCoeffDerivative there. *)
Definition worker_fun (w : worker) : tfun :=
  MkF (wdim w) (w_NumCoeffs w) (w_CacheSize w) (w_FillCache1 w) (fun cache _ xd t => w_FillCache2 w cache xd t)
      (w_Evaluate w) (w_DiagonalDerivative w) (w_CoeffDerivative w) (w_MixedCoeffDerivative w).

(** Kokkos::subview(coeffs, (a,b)). With bounds checking ([dbg]) a range leaving the array aborts and
    the subview ends at b; without, an access through the subview goes on into the memory after it. *)
Definition csub (dbg : bool) (c : list R) (a b : nat) : outcome (list R) :=
  if dbg then (if (b <=? length c)%nat then Ok (firstn (b - a) (skipn a c)) else Throw) else Ok (skipn a c).

Section Tensor.
Variables (dbg : bool) (f1 f2 : tfun).
(** repo: TensorProductFunction.h:16-23 *)
Definition tp_dim1 : nat := t_in f1.
Definition tp_dim2 : nat := t_in f2.

(** Run a routine on the part of the cache that belongs to a factor. *)
Definition on1 {A} (cache : list R) (f : list R -> outcome A) : outcome A := do s <- seg cache 0 (t_cache f1); f s.
Definition on2 {A} (cache : list R) (f : list R -> outcome A) : outcome A := do s <- seg cache (t_cache f1) (t_cache f2); f s.

(** repo: TensorProductFunction.h:32-43; pt(_dim1-1) for _dim1 = 0 is out of bounds. *)
Definition tp_FillCache1 (cache pt : list R) (t : deriv_type) : outcome (list R) :=
  do pt2 <- seg pt tp_dim1 tp_dim2;
  do s <- on1 cache (fun s => t_fill1 f1 s pt t);
  let cache := put cache 0 s in
  do xd <- (if (tp_dim1 =? 0)%nat then UB else raw_get pt (tp_dim1 - 1));
  do s <- on1 cache (fun s => t_fill2 f1 s pt xd t);
  let cache := put cache 0 s in
  do s <- on2 cache (fun s => t_fill1 f2 s pt2 t);
  Ok (put cache (t_cache f1) s).
(** repo: TensorProductFunction.h:45-54 *)
Definition tp_FillCache2 (cache pt : list R) (xd : R) (t : deriv_type) : outcome (list R) :=
  do pt2 <- seg pt tp_dim1 (length pt - tp_dim1);
  do s <- on2 cache (fun s => t_fill2 f2 s pt2 xd t);
  Ok (put cache (t_cache f1) s).
(** repo: TensorProductFunction.h:57-70 *)
Definition tp_Evaluate (cache coeffs : list R) : outcome R :=
  do coeffs1 <- csub dbg coeffs 0 tp_dim1;
  do a <- on1 cache (fun s => t_eval f1 s coeffs1);
  do coeffs2 <- csub dbg coeffs tp_dim1 (tp_dim1 + tp_dim2);
  do b <- on2 cache (fun s => t_eval f2 s coeffs2);
  Ok (a * b).
(** repo: TensorProductFunction.h:73-87 *)
Definition tp_DiagonalDerivative (cache coeffs : list R) (order : nat) : outcome R :=
  do coeffs1 <- csub dbg coeffs 0 tp_dim1;
  do a <- on1 cache (fun s => t_eval f1 s coeffs1);
  do coeffs2 <- csub dbg coeffs tp_dim1 (tp_dim1 + tp_dim2);
  do b <- on2 cache (fun s => t_diag f2 s coeffs2 order);
  Ok (a * b).
(** grad.head(n) and grad.tail(n) of an Eigen vector: sizes are asserted. *)
Definition tp_head (grad : list R) : outcome (list R) := seg grad 0 (t_nc f1).
Definition tp_tail (grad : list R) : outcome (list R) :=
  if (t_nc f2 <=? length grad)%nat then seg grad (length grad - t_nc f2) (t_nc f2) else UB.
Definition scaled (a : R) (v : list R) : list R := map (fun x => x * a) v.
(** repo: TensorProductFunction.h:90-109 *)
Definition tp_CoeffDerivative (cache coeffs grad : list R) : outcome (R * list R) :=
  do coeffs1 <- csub dbg coeffs 0 tp_dim1;
  do gradHead <- tp_head grad;
  do r1 <- on1 cache (fun s => t_cderiv f1 s coeffs1 gradHead);
  let grad := put grad 0 (snd r1) in
  do coeffs2 <- csub dbg coeffs tp_dim1 (tp_dim1 + tp_dim2);
  do gradTail <- tp_tail grad;
  do r2 <- on2 cache (fun s => t_cderiv f2 s coeffs2 gradTail);
  let grad := put grad (length grad - t_nc f2) (snd r2) in
  do gradHead <- tp_head grad;
  let grad := put grad 0 (scaled (fst r2) gradHead) in
  do gradTail <- tp_tail grad;
  let grad := put grad (length grad - t_nc f2) (scaled (fst r1) gradTail) in
  Ok (fst r1 * fst r2, grad).
(** repo: TensorProductFunction.h:111-131 *)
Definition tp_MixedDerivative (cache coeffs : list R) (order : nat) (grad : list R) : outcome (R * list R) :=
  do coeffs1 <- csub dbg coeffs 0 tp_dim1;
  do gradHead <- tp_head grad;
  do r1 <- on1 cache (fun s => t_cderiv f1 s coeffs1 gradHead);
  let grad := put grad 0 (snd r1) in
  do coeffs2 <- csub dbg coeffs tp_dim1 (tp_dim1 + tp_dim2);
  do gradTail <- tp_tail grad;
  do r2 <- on2 cache (fun s => t_mixed f2 s coeffs2 order gradTail);
  let grad := put grad (length grad - t_nc f2) (snd r2) in
  do gradHead <- tp_head grad;
  let grad := put grad 0 (scaled (fst r2) gradHead) in
  do gradTail <- tp_tail grad;
  let grad := put grad (length grad - t_nc f2) (scaled (fst r1) gradTail) in
  Ok (fst r1 * fst r2, grad).

(** repo: TensorProductFunction.h:26-30 *)
Definition tensor_fun : tfun :=
  MkF (tp_dim1 + tp_dim2) (t_nc f1 + t_nc f2) (t_cache f1 + t_cache f2) tp_FillCache1 tp_FillCache2 tp_Evaluate
      tp_DiagonalDerivative tp_CoeffDerivative tp_MixedDerivative.
End Tensor.
