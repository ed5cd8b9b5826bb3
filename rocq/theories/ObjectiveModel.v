(** Model of the training objective and of TrainMap.
    Not modelled: device memory spaces; what NLopt does between evaluations (any behaviour is allowed); printing;
    evaluations without a gradient, which NLopt's derivative-free algorithms request with a null pointer. *)
From Coq Require Import Reals.
From Verif Require Import Base ExpansionModel BijModel MonoModel MapsModel DensityModel ReduceModel GaussModel.
Local Open Scope R_scope.

(** Scalar Kokkos::parallel_reduce with body "sum -= x(i)"; see ReduceModel.v for schedules. *)
Fixpoint sr_run (elem : nat -> outcome dbl) (s : sched) : outcome dbl :=
  match s with
  | Chunk l => ofold (fun sum i => do x <- elem i; Ok (dsub sum x)) l (Fin 0)
  | Join a b => do x <- sr_run elem a; do y <- sr_run elem b; Ok (dadd x y)
  end.
(** Division by a number of samples; the only finite sum over no samples is 0. *)
Definition ddiv (s : dbl) (N : nat) : dbl :=
  match s with Fin x => if (N =? 0)%nat then NaN else Fin (x / INR N) | _ => s end.

Section Schedules.
(** The schedules of the two reductions, for every length. *)
Variables (s1 s2 : nat -> sched).
(** repo: MapObjective.cpp:68-77 *)
Definition kl_ObjectiveImpl (D : density) (data : matrix) (M : mapobj) : outcome dbl :=
  let N := length (mx_cols data) in
  do pullback <- PullbackDensity M D;
  do densityX <- d_LogDensity pullback data;
  do sumDensity <- sr_run (raw_get densityX) (s1 N);
  Ok (ddiv sumDensity N).
(** repo: MapObjective.cpp:79-86 *)
Definition kl_CoeffGradImpl (D : density) (data : matrix) (grad : vecview) (M : mapobj) : outcome vecview :=
  let N := length (mx_cols data) in
  do pullback <- PullbackDensity M D;
  do densityGradX <- pb_LogDensityCoeffGrad M D data;
  do sums <- rd_run (fun r k => do col <- raw_get (mx_cols densityGradX) r; raw_get col k) (mx_rows densityGradX) kernel_sum (- / INR N) (s2 N);
  v_write_raw grad sums.
(** repo: MapObjective.cpp:52-65 *)
Definition kl_ObjectivePlusCoeffGradImpl (D : density) (data : matrix) (grad : vecview) (M : mapobj) : outcome (dbl * vecview) :=
  let N := length (mx_cols data) in
  do pullback <- PullbackDensity M D;
  do densityX <- d_LogDensity pullback data;
  do densityGradX <- pb_LogDensityCoeffGrad M D data;
  do sumDensity <- sr_run (raw_get densityX) (s1 N);
  do sums <- rd_run (fun r k => do col <- raw_get (mx_cols densityGradX) r; raw_get col k) (mx_rows densityGradX) kernel_sum (- / INR N) (s2 N);
  do grad <- v_write_raw grad sums;
  Ok (ddiv sumDensity N, grad).

(** KLObjective; without test set test_ has extents 0. repo: MapObjective.h *)
Record objective : Type := MkObjective { ob_train : matrix; ob_test : matrix; ob_density : density }.
Definition no_matrix : matrix := MkMat 0 [] 0 0.
(** repo: MapObjective.cpp:14-19 *)
Definition TestError (O : objective) (M : mapobj) : outcome dbl :=
  if (mx_rows (ob_test O) =? 0)%nat then Throw else kl_ObjectiveImpl (ob_density O) (ob_test O) M.
(** repo: MapObjective.cpp:22-24 *)
Definition TrainError (O : objective) (M : mapobj) : outcome dbl := kl_ObjectiveImpl (ob_density O) (ob_train O) M.
(** repo: MapObjective.cpp:27-29 *)
Definition TrainCoeffGradImpl (O : objective) (M : mapobj) (grad : vecview) : outcome vecview := kl_CoeffGradImpl (ob_density O) (ob_train O) grad M.
(** repo: MapObjective.cpp:32-36 *)
Definition TrainCoeffGrad (O : objective) (M : mapobj) : outcome (list dbl) :=
  do v <- TrainCoeffGradImpl O M (alloc_vec (m_nc (o_map M))); Ok (v_buf v).
(** repo: MapObjective.cpp:38-50; [sch] is the schedule of the Gaussian's own reduction. An omitted test set is [no_matrix]. *)
Definition CreateGaussianKLObjective (sch : nat -> sched) (train test : matrix) (dim : nat) : objective :=
  let dim := if (dim =? 0)%nat then mx_rows train else dim in
  MkObjective train test (gauss_density (gauss_std dim) sch).

(** repo: ParameterizedFunctionBase.cpp:188-207, as the map's routines see it (the coefficient storage itself is HeapModel.v) *)
Definition o_SetCoeffs (M : mapobj) (c : list R) : outcome mapobj :=
  match o_coeffs M with
  | Some _ => if (length c =? m_nc (o_map M))%nat then Ok (MkObj (o_map M) (Some c)) else Throw
  | None => Ok (MkObj (o_map M) (Some c))
  end.
(** repo: MapObjective.cpp:5-11. [coeffs] and [grad] are the caller's arrays of n numbers. *)
Definition ob_call (O : objective) (coeffs : list R) (grad : list dbl) (M : mapobj) : outcome (dbl * list dbl * mapobj) :=
  do M <- o_SetCoeffs M coeffs;
  do r <- kl_ObjectivePlusCoeffGradImpl (ob_density O) (ob_train O) (MkVec grad 0 1 (length coeffs)) M;
  Ok (fst r, v_buf (snd r), M).

(** An optimiser: asks for the objective and its gradient at a point, or stops with a point and a value, or throws. *)
Inductive optimiser : Type :=
| Ask (x : list R) (next : dbl -> list dbl -> optimiser)
| Stop (x : list R) (err : dbl)
| Raise.
(** Every evaluation uses the same map object. On Raise the exception leaves the map with the last coefficients asked for. *)
Fixpoint run_optimiser (O : objective) (opt : optimiser) (M : mapobj) : outcome (mapobj * option (list R * dbl)) :=
  match opt with
  | Ask x next =>
    do r <- ob_call O x (repeat (Fin 0) (length x)) M;
    run_optimiser O (next (fst (fst r)) (snd (fst r))) (snd r)
  | Stop x err => Ok (M, Some (x, err))
  | Raise => Ok (M, None)
  end.
(** repo: TrainMap.cpp:59-103. [alg] is the chosen algorithm with its options, given the initial guess. *)
Definition TrainMap (alg : list R -> optimiser) (O : objective) (M : mapobj) : outcome (mapobj * option dbl) :=
  do M <- (if (length (o_c M) =? 0)%nat then o_SetCoeffs M (repeat 1 (m_nc (o_map M))) else Ok M);
  do r <- run_optimiser O (alg (o_c M)) M;
  match snd r with
  | None => Ok (fst r, None)
  | Some (x, err) => do M <- o_SetCoeffs (fst r) x; Ok (M, Some err)
  end.
End Schedules.
