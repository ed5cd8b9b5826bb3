(** The work for one point in each parallel loop of MultivariateExpansion and MonotoneComponent: how the routines
    of ExpansionModel and MonoModel use the scratch memory of a thread, and which output rows they write. *)
From Coq Require Import Reals.
From Verif Require Import Base ExpansionModel QuadModel MonoModel SchedModel.
Local Open Scope R_scope.

(** A routine for one point: scratch contents, point, coefficients, sensitivities, and the old output column give the new output column. *)
Definition kernel : Type := list R -> list R -> list R -> list R -> list R -> outcome (list R).

(** thread_scratch(1) hands out consecutive pieces: [n] doubles from position [a]. *)
Definition cut (scr : list R) (a n : nat) : list R := firstn n (skipn a scr).

(** repo: MultivariateExpansion.h:55-91: scratch is the cache; outputDim rows *)
Definition k_mve_Evaluate (w : worker) (m : nat) : kernel := fun scr pt co _ out => mve_Evaluate w m co (cut scr 0 (w_CacheSize w)) pt out.
Definition z_mve_Evaluate (w : worker) (d m n : nat) : sizes := MkSz d (m * w_NumCoeffs w) 0 m n (w_CacheSize w).
(** repo: MultivariateExpansion.h:107-150: cache, grad of inDim *)
Definition k_mve_Gradient (w : worker) (m : nat) : kernel := fun scr pt co sens out =>
  mve_Gradient w m co (cut scr 0 (w_CacheSize w)) (cut scr (w_CacheSize w) (length pt)) pt sens out.
Definition z_mve_Gradient (w : worker) (d m n : nat) : sizes := MkSz d (m * w_NumCoeffs w) m d n (w_CacheSize w + d).
(** repo: MultivariateExpansion.h:168-209: cache, grad of maxParams = NumCoeffs() *)
Definition k_mve_CoeffGrad (w : worker) (m : nat) : kernel := fun scr pt co sens out =>
  mve_CoeffGrad w m co (cut scr 0 (w_CacheSize w)) (cut scr (w_CacheSize w) (w_NumCoeffs w)) pt sens out.
Definition z_mve_CoeffGrad (w : worker) (d m n : nat) : sizes := MkSz d (m * w_NumCoeffs w) m (m * w_NumCoeffs w) n (w_CacheSize w + w_NumCoeffs w).

(** Scratch of a component's loop: cache, quadrature workspace for integrands of dimension [n], [r] doubles for the integral, [k] for the integrand.
    The nodes the quadrature visits are any function of the data. *)
Definition layout (C : component) (n r k : nat) (nodes : list R -> list R -> list R -> list R) (scr pt co : list R) : scratch :=
  let cs := w_CacheSize (mc_w C) in let ws := qr_work (mc_Q C) n in
  MkScr (cut scr 0 cs) (cut scr cs ws) (cut scr (cs + ws) r) (cut scr (cs + ws + r) k) (nodes scr pt co).
Definition scr_size (C : component) (n r k : nat) : nat := w_CacheSize (mc_w C) + qr_work (mc_Q C) n + r + k.

(** Output rows of the component's loops: row 0 is the array of one value per point (evaluations, or derivatives), the other rows are the matrix. *)
Definition head (out : list R) : R := nth 0 out 0.
(** repo: MonotoneComponent.h:268-297 EvaluateImpl *)
Definition k_Evaluate (C : component) nodes : kernel := fun scr pt co _ out =>
  do v <- mc_Evaluate C (layout C 1 0 0 nodes scr pt co) pt co; Ok (v :: tl out).
(** repo: MonotoneComponent.h:495-530 ContinuousDerivative; the workspace is not allocated *)
Definition k_ContinuousDerivative (C : component) : kernel := fun scr pt co _ out =>
  do v <- mc_ContinuousDerivative C (MkScr (cut scr 0 (w_CacheSize (mc_w C))) [] [] [] []) pt co; Ok (v :: tl out).
(** repo: MonotoneComponent.h:592-637 DiscreteDerivative; rows: evaluation, derivative *)
Definition k_DiscreteDerivative (C : component) nodes : kernel := fun scr pt co _ _ =>
  do v <- mc_DiscreteDerivative C (layout C 2 2 0 nodes scr pt co) pt co; Ok [fst v; snd v].
(** repo: MonotoneComponent.h:695-740 CoeffJacobian *)
Definition k_CoeffJacobian (C : component) nodes : kernel := fun scr pt co _ out =>
  do v <- mc_CoeffJacobian C (layout C (1 + length co) (1 + length co) 0 nodes scr pt co) pt co (tl out); Ok (fst v :: snd v).
(** repo: MonotoneComponent.h:768-817 InputJacobian *)
Definition k_InputJacobian (C : component) nodes : kernel := fun scr pt co _ out =>
  do v <- mc_InputJacobian C (layout C (1 + wdim (mc_w C)) (1 + wdim (mc_w C)) 0 nodes scr pt co) pt co (tl out); Ok (fst v :: snd v).
(** repo: MonotoneComponent.h:835-873 ContinuousMixedJacobian *)
Definition k_ContinuousMixedJacobian (C : component) : kernel := fun scr pt co _ out =>
  do v <- mc_ContinuousMixedJacobian C (MkScr (cut scr 0 (w_CacheSize (mc_w C))) [] [] [] []) pt co (tl out); Ok (head out :: v).
(** repo: MonotoneComponent.h:886-925 ContinuousMixedInputJacobian *)
Definition k_ContinuousMixedInputJacobian (C : component) : kernel := fun scr pt co _ out =>
  do v <- mc_ContinuousMixedInputJacobian C (MkScr (cut scr 0 (w_CacheSize (mc_w C))) [] [] [] []) pt co (tl out); Ok (head out :: v).
(** repo: MonotoneComponent.h:938-979 DiscreteMixedJacobian *)
Definition k_DiscreteMixedJacobian (C : component) nodes : kernel := fun scr pt co _ out =>
  do v <- mc_DiscreteMixedJacobian C (layout C (1 + length co) (1 + length co) (length co) nodes scr pt co) pt co (tl out); Ok (head out :: v).
(** repo: MonotoneComponent.h:160-163, 178-181: output(i,ptInd) *= sens(0,ptInd) *)
Definition k_scale_sens (n : nat) : kernel := fun _ _ _ sens out => do s <- raw_get sens 0; do v <- scale_by s n (tl out); Ok (head out :: v).
(** repo: MonotoneComponent.h:202-205, 228-231: output(i,ptInd) *= 1.0/derivs(ptInd) *)
Definition k_scale_inv (n : nat) : kernel := fun _ _ _ _ out => do v <- scale_by (1 / head out) n (tl out); Ok (head out :: v).
(** Sizes: [rows] output rows and [scr] doubles of scratch. *)
Definition z_component (C : component) (sens rows scr n : nat) : sizes := MkSz (wdim (mc_w C)) (w_NumCoeffs (mc_w C)) sens rows n scr.
