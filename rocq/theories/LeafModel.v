(** Model of the maps that contain no other map or wrap a single one: IdentityMap, AffineMap
    (and AffineFunction), SummarizedMap, and MonotoneComponent seen through the interface of
    ConditionalMapBase. The conventions are those of MapsModel.v. *)
From Coq Require Import Reals.
From Verif Require Import Base PolyModel ExpansionModel BijModel MonoModel RootModel MapsModel.
Local Open Scope R_scope.

(** * IdentityMap. repo: IdentityMap.cpp:9-97. [dbg] says whether assertions are compiled in; a
    failed assertion ends the program and is modelled as [Throw]. *)
Definition id_Evaluate (inD outD : nat) (pts out : list R) : outcome (list R) :=
  do tail <- seg pts (inD - outD) outD; deep_copy out tail.
Definition id_Gradient (inD outD : nat) (sens out : list R) : outcome (list R) :=
  do out <- ofold (fun out i => raw_set out i 0) (seq 0 (inD - outD)) out;
  do tail <- seg out (inD - outD) outD;
  do tail <- deep_copy tail sens;
  Ok (put out (inD - outD) tail).
Definition id_map (dbg : bool) (inD outD : nat) : cmap :=
  MkMap inD outD 0
    (fun _ pts out => id_Evaluate inD outD pts out)
    (fun _ _ _ => Ok (Some 0))
    (fun _ _ r out => deep_copy out r)
    (fun _ _ sens out => id_Gradient inD outD sens out)
    (fun _ _ _ out => if dbg then Throw else Ok out)
    (fun _ _ out => if dbg then Throw else Ok out)
    (fun _ _ out => Ok (fresh (length out))).

(** * Linear algebra *)
(** Row times column. *)
Fixpoint rowdot (a x : list R) : R :=
  match a, x with p :: a', q :: x' => p * q + rowdot a' x' | _, _ => 0 end.
(** repo: src/Utilities/LinearAlgebra.cpp:9-35 dgemm on one column: y = beta*y + alpha*A*x. Eigen's
    size assertions are modelled as [UB]. *)
Definition dgemv (alpha : R) (A : list (list R)) (x : list R) (beta : R) (y : list R) : outcome (list R) :=
  if ((length A =? length y) && forallb (fun row => length row =? length x) A)%nat
  then Ok (map (fun ry => beta * snd ry + alpha * rowdot (fst ry) x) (combine A y)) else UB.
Definition transpose (ncols : nat) (A : list (list R)) : list (list R) :=
  map (fun j => map (fun row => nth j row 0) A) (seq 0 ncols).

(** What the code uses of Eigen::PartialPivLU: the row permutation, the two triangular solves
    and the determinant. repo: src/Utilities/LinearAlgebra.cpp:49-74. *)
Record LU : Type := MkLU { lu_perm : list R -> list R; lu_lower : list R -> list R; lu_upper : list R -> list R; lu_det : R }.
Definition lu_solveInPlace (F : LU) (x : list R) : list R :=
  let x := lu_perm F x in
  let x := lu_lower F x in
  lu_upper F x.

(** * AffineMap *)
Record affine : Type := MkAff { af_A : list (list R); af_b : list R; af_in : nat; af_out : nat; af_lu : LU; af_logdet : option R }.
Definition ncols (A : list (list R)) : nat := length (hd [] A).
Definition log_abs (d : R) : option R := if Req_EM_T d 0 then None else Some (ln (Rabs d)).

(** repo: AffineMap.cpp:43-52 Factorize. [lib] is Eigen's factorisation. *)
Definition aff_block (A : list (list R)) : list (list R) :=
  if (length A =? ncols A)%nat then A else map (skipn (ncols A - length A)) A.
(** repo: AffineMap.cpp:10-40 the constructors; assertions are modelled as [Throw]. *)
Definition aff_make_b (b : list R) : affine :=
  MkAff [] b (length b) (length b) (MkLU (fun x => x) (fun x => x) (fun x => x) 1) (Some 0).
Definition aff_make_A (lib : list (list R) -> LU) (A : list (list R)) (b : list R) : affine :=
  let F := lib (aff_block A) in MkAff A b (ncols A) (length A) F (log_abs (lu_det F)).
Definition aff_ctor_A (lib : list (list R) -> LU) (A : list (list R)) : outcome affine :=
  if (length A <=? ncols A)%nat then Ok (aff_make_A lib A []) else Throw.
Definition aff_ctor_Ab (lib : list (list R) -> LU) (A : list (list R)) (b : list R) : outcome affine :=
  if ((length A <=? ncols A) && (length A =? length b))%nat then Ok (aff_make_A lib A b) else Throw.

(** repo: AffineMap.cpp:138-164 EvaluateImpl, 182-192 GradientImpl; AffineFunction.cpp:43-91. *)
Definition aff_Evaluate (f : affine) (pts out : list R) : outcome (list R) :=
  do out <- (if (0 <? length (af_A f))%nat then
               do out <- ofold (fun out i => raw_set out i 0) (seq 0 (af_out f)) out;
               dgemv 1 (af_A f) pts 0 out
             else deep_copy out pts);
  if (0 <? length (af_b f))%nat then
    ofold (fun out i => do a <- raw_get out i; do b <- raw_get (af_b f) i; raw_set out i (a + b)) (seq 0 (af_out f)) out
  else Ok out.
Definition aff_Gradient (f : affine) (sens out : list R) : outcome (list R) :=
  if (0 <? length (af_A f))%nat then dgemv 1 (transpose (ncols (af_A f)) (af_A f)) sens 0 out
  else deep_copy out sens.

(** repo: AffineMap.cpp:67-126 InverseImpl. *)
Definition aff_Inverse (f : affine) (x1 r out : list R) : outcome (list R) :=
  let A := af_A f in
  do out <- (if (0 <? length (af_b f))%nat then
               ofold (fun out i => do a <- raw_get r i; do b <- raw_get (af_b f) i; raw_set out i (a - b)) (seq 0 (af_out f)) out
             else deep_copy out r);
  if (0 <? length A)%nat then
    let nrows := length A in
    do out <- (if (nrows =? ncols A)%nat then Ok out else
               do xsub <- seg x1 0 (ncols A - nrows);
               dgemv (-1) (map (firstn (ncols A - nrows)) A) xsub 1 out);
    Ok (lu_solveInPlace (af_lu f) out)
  else Ok out.

(** repo: AffineMap.cpp:56-64, 130-135, 167-181: the gradients of the log determinant and the
    coefficient gradient return without touching the output. *)
Definition aff_map (f : affine) : cmap :=
  MkMap (af_in f) (af_out f) 0
    (fun _ pts out => aff_Evaluate f pts out)
    (fun _ _ _ => Ok (af_logdet f))
    (fun _ x1 r out => aff_Inverse f x1 r out)
    (fun _ _ sens out => aff_Gradient f sens out)
    (fun _ _ _ out => Ok out)
    (fun _ _ out => Ok out)
    (fun _ _ out => Ok out).

(** * SummarizedMap. repo: SummarizedMap.cpp. [S] is the summary function with its own
    coefficients [sc], of which only EvaluateImpl and GradientImpl are used. *)
Section Summarized.
Variables (S : cmap) (sc : list R) (K : cmap).
(** repo: SummarizedMap.cpp:70-89 SummarizePts. *)
Definition sm_Summarize (pts out : list R) : outcome (list R) :=
  do toSum <- seg pts 0 (m_in S);
  do after <- seg pts (m_in S) 1;
  do o <- seg out 0 (m_out S);
  do y <- m_eval S sc toSum o;
  let out := put out 0 y in
  do o2 <- seg out (m_out S) 1;
  do z <- deep_copy o2 after;
  Ok (put out (m_out S) z).
(** repo: SummarizedMap.cpp:95-108 *)
Definition sm_LogDeterminant (c pts : list R) (out : option R) : outcome (option R) :=
  do sp <- sm_Summarize pts (fresh (m_in K)); m_logdet K c sp out.
(** repo: SummarizedMap.cpp:111-122 *)
Definition sm_Evaluate (c pts out : list R) : outcome (list R) :=
  do sp <- sm_Summarize pts (fresh (m_in K)); m_eval K c sp out.
(** repo: SummarizedMap.cpp:125-139; sumFunc_->Evaluate checks the coefficients. *)
Definition sm_Inverse (c x1 r out : list R) : outcome (list R) :=
  do toSum <- seg x1 0 (m_in S);
  do summary <- (if (length sc =? m_nc S)%nat then m_eval S sc toSum (fresh (m_out S)) else Throw);
  m_inv K c summary r out.
(** repo: SummarizedMap.cpp:142-173 *)
Definition sm_Gradient (c pts sens out : list R) : outcome (list R) :=
  do sp <- sm_Summarize pts (fresh (m_in K));
  do o <- m_grad K c sp sens (fresh (m_in K));
  do oS <- seg o 0 (m_out S);
  do oX2 <- seg o (m_out S) 1;
  do x1 <- seg pts 0 (m_in S);
  do outX1 <- seg out 0 (m_in S);
  do g <- m_grad S sc x1 oS outX1;
  let out := put out 0 g in
  do outX2 <- seg out (m_in S) 1;
  do z <- deep_copy outX2 oX2;
  Ok (put out (m_in S) z).
(** repo: SummarizedMap.cpp:176-202 *)
Definition sm_CoeffGrad (c pts sens out : list R) : outcome (list R) :=
  do sp <- sm_Summarize pts (fresh (m_in K)); m_cgrad K c sp sens out.
Definition sm_LogDetCoeffGrad (c pts out : list R) : outcome (list R) :=
  do sp <- sm_Summarize pts (fresh (m_in K)); m_ldc K c sp out.
(** repo: SummarizedMap.cpp:205-239 *)
Definition sm_LogDetInputGrad (c pts out : list R) : outcome (list R) :=
  do sp <- sm_Summarize pts (fresh (m_in K));
  do o <- m_ldi K c sp (fresh (m_in K));
  do oS <- seg o 0 (m_out S);
  do oX2 <- seg o (m_out S) 1;
  do x1 <- seg pts 0 (m_in S);
  do g <- m_grad S sc x1 oS (fresh (m_in S));
  do outX1 <- seg out 0 (m_in S);
  do g <- deep_copy outX1 g;
  let out := put out 0 g in
  do outX2 <- seg out (m_in S) 1;
  do z <- deep_copy outX2 oX2;
  Ok (put out (m_in S) z).
(** repo: SummarizedMap.cpp:10-27 constructor. *)
Definition sm_map : cmap :=
  MkMap (m_in S + 1) (m_out K) (m_nc K) sm_Evaluate sm_LogDeterminant sm_Inverse sm_Gradient sm_CoeffGrad
        sm_LogDetCoeffGrad sm_LogDetInputGrad.
Definition sm_ctor : outcome cmap :=
  if negb (m_out K =? 1)%nat then Throw
  else if negb (m_in K =? m_out S + 1)%nat then Throw
  else Ok sm_map.
End Summarized.

(** * MonotoneComponent as a map. repo: MonotoneComponent.h:93-250, the overrides, which hand the first row of
    the output, of r and of sens to the routines of MonoModel.v. Inverse is called with the
    default tolerances; a result that is not a number is modelled as [Throw]. *)
Definition mono_map (C : component) (S : scratch) : cmap :=
  MkMap (wdim (mc_w C)) 1 (w_NumCoeffs (mc_w C))
    (fun c pt out => do v <- mc_Evaluate C S pt c; raw_set out 0 v)
    (fun c pt _ => mc_LogDeterminant C S pt c)
    (fun c x1 r out =>
       do y <- raw_get r 0;
       do v <- mc_Inverse C S x1 y c None None;
       match fst v with Some v => raw_set out 0 v | None => Throw end)
    (fun c pt sens out => do s <- raw_get sens 0; mc_Gradient C S pt c s out)
    (fun c pt sens out => do s <- raw_get sens 0; mc_CoeffGrad C S pt c s out)
    (fun c pt out => mc_LogDeterminantCoeffGrad C S pt c out)
    (fun c pt out => mc_LogDeterminantInputGrad C S pt c out).
