(** Model of GaussianSamplerDensity: its log density and the gradient. (Its sampler is in SampleModel.v.)
    Not modelled: device memory spaces; that the mean is a view, whose owner may change it later. *)
From Coq Require Import Reals.
From Verif Require Import Base ExpansionModel BijModel MonoModel MapsModel DensityModel ReduceModel.
Local Open Scope R_scope.

(** What the code uses of Eigen::LLT: the two triangular solves, the product with L and the product of
    L's diagonal. Each acts on a column. repo: src/Utilities/LinearAlgebra.cpp:76-125 *)
Record chol : Type := MkChol { ch_n : nat; ch_solveL : list R -> list R; ch_solveU : list R -> list R; ch_mulL : list R -> list R; ch_detL : R }.
Definition LLT := list (list R) -> chol.

(** Conversion of a strided view to a LayoutLeft view. Kokkos compares the strides, and aborts the
    program when they differ; the model reports that as Throw. *)
Definition as_left (m : matrix) : outcome (list (list R)) :=
  if ((mx_s0 m =? 1)%nat && (mx_s1 m =? mx_rows m)%nat)%bool then Ok (mx_cols m) else Throw.

(** std::log of a number >= 0 *)
Definition dlog (x : R) : dbl := if Rlt_dec 0 x then Fin (ln x) else MInf.
Definition dscale (a : R) (x : dbl) : dbl := match x with Fin r => Fin (a * r) | _ => x end.

(** repo: GaussianSamplerDensity.h:72-86 *)
Record gauss : Type := MkGauss { ga_dim : nat; ga_mean : list R; ga_chol : option chol; ga_idCov : bool; ga_logDetCov : dbl }.
Definition logtau : R := ln (2 * PI).
(** repo: GaussianSamplerDensity.h:77-80; LinearAlgebra.cpp:76-84, 118-125. [mx_cols] lists the columns. *)
Definition Factorize (llt : LLT) (cov : matrix) : outcome (chol * dbl) :=
  do A <- as_left cov;
  let ch := llt A in
  Ok (ch, dlog (ch_detL ch * ch_detL ch)).
(** repo: GaussianSamplerDensity.cpp:5-8 *)
Definition gauss_mean_cov (llt : LLT) (mean : list R) (cov : matrix) : outcome gauss :=
  do f <- Factorize llt cov; Ok (MkGauss (length mean) mean (Some (fst f)) false (snd f)).
(** repo: GaussianSamplerDensity.cpp:10-13 *)
Definition gauss_cov (llt : LLT) (cov : matrix) : outcome gauss :=
  do f <- Factorize llt cov; Ok (MkGauss (mx_rows cov) [] (Some (fst f)) false (snd f)).
(** repo: GaussianSamplerDensity.cpp:15-16 *)
Definition gauss_mean (mean : list R) : gauss := MkGauss (length mean) mean None true (Fin 0).
(** repo: GaussianSamplerDensity.cpp:18-19 *)
Definition gauss_std (dim : nat) : gauss := MkGauss dim [] None true (Fin 0).

(** A Cholesky routine on a column; Eigen requires matching sizes. *)
Definition chol_apply (f : chol -> list R -> list R) (ch : option chol) (col : list R) : outcome (list R) :=
  match ch with
  | None => UB
  | Some ch => if (length col =? ch_n ch)%nat then Ok (f ch col) else UB
  end.
Fixpoint omap {A B} (f : A -> outcome B) (l : list A) : outcome (list B) :=
  match l with [] => Ok [] | a :: l => do b <- f a; do r <- omap f l; Ok (b :: r) end.
(** One column of "diff(i,j) = f(pts(i,j), mean_(i))"; with an empty mean, g(pts(i,j)). *)
Definition ga_shift (g : R -> R) (f : R -> R -> R) (G : gauss) (M : nat) (col : list R) : outcome (list R) :=
  omap (fun i =>
    do p <- raw_get col i;
    if (length (ga_mean G) =? 0)%nat then Ok (g p) else do m <- raw_get (ga_mean G) i; Ok (f p m)) (seq 0 M).

(** parallel_reduce with the result pointer &output(0): the results are written to consecutive addresses. *)
Definition v_write_raw (v : vecview) (l : list R) : outcome vecview :=
  do b <- ofold (fun b k => do x <- raw_get l k; raw_set b (v_off v + k) (Fin x)) (seq 0 (length l)) (v_buf v);
  Ok (MkVec b (v_off v) (v_stride v) (v_len v)).

(** repo: GaussianSamplerDensity.cpp:21-51. [sch M] is the schedule of the reduction over M rows. *)
Definition ga_LogDensityImpl (G : gauss) (sch : nat -> sched) (pts : matrix) (output : vecview) : outcome vecview :=
  let M := mx_rows pts in
  let N := length (mx_cols pts) in
  if negb (M =? ga_dim G)%nat then Throw else
  do diff <- omap (ga_shift (fun p => p) Rminus G M) (mx_cols pts);
  do diff <- if ga_idCov G then Ok diff else omap (chol_apply ch_solveL (ga_chol G)) diff;
  do sums <- rd_run (fun i j => do col <- raw_get diff j; raw_get col i) N kernel_norm (- / 2) (sch M);
  do output <- v_write_raw output sums;
  ofold (fun v j => do a <- v_get v j; v_set v j (dsub a (dscale (/ 2) (dadd (Fin (INR M * logtau)) (ga_logDetCov G)))))
    (seq 0 N) output.
(** repo: GaussianSamplerDensity.cpp:54-77; LinearAlgebra.cpp:86-92 *)
Definition ga_InputGradImpl (G : gauss) (pts output : matrix) : outcome matrix :=
  let M := mx_rows pts in
  if negb (M =? ga_dim G)%nat then Throw else
  if negb ((mx_rows output =? M) && (length (mx_cols output) =? length (mx_cols pts)))%nat then UB else
  do out <- omap (ga_shift Ropp (fun p m => - p + m) G M) (mx_cols pts);
  let output := same_layout output out in
  if ga_idCov G then Ok output else
  do cols <- as_left output;
  do cols <- omap (chol_apply ch_solveL (ga_chol G)) cols;
  do cols <- omap (chol_apply ch_solveU (ga_chol G)) cols;
  Ok (same_layout output cols).
Definition gauss_density (G : gauss) (sch : nat -> sched) : density :=
  MkDens (ga_dim G) (ga_LogDensityImpl G sch) (ga_InputGradImpl G).
