(** Model of densities: DensityBase, PullbackDensity, PushforwardDensity. Unlike the maps, which act
    on each column by itself, these routines hand whole matrices to each other, and the Gaussian
    density depends on how the entries are laid out in memory, so the model keeps the strides.
    Not modelled: device memory spaces. *)
From Coq Require Import Reals.
From Verif Require Import Base ExpansionModel BijModel MonoModel MapsModel.
Local Open Scope R_scope.

(** Doubles that hold log densities. *)
Inductive dbl : Type := Fin (r : R) | MInf | PInf | NaN.
Definition dadd (a b : dbl) : dbl :=
  match a, b with
  | Fin x, Fin y => Fin (x + y)
  | NaN, _ | _, NaN | MInf, PInf | PInf, MInf => NaN
  | MInf, _ | _, MInf => MInf
  | _, _ => PInf
  end.
Definition dneg (a : dbl) : dbl := match a with Fin x => Fin (- x) | MInf => PInf | PInf => MInf | NaN => NaN end.
Definition dsub (a b : dbl) : dbl := dadd a (dneg b).
Definition of_logdet (a : option R) : dbl := match a with Some x => Fin x | None => MInf end.

(** A strided matrix: its extent 0, its columns, and the distances in memory between rows and columns. *)
Record matrix : Type := MkMat { mx_rows : nat; mx_cols : list (list R); mx_s0 : nat; mx_s1 : nat }.
(** Kokkos::View<double**,HostSpace>: row after row. *)
Definition right_mat (r : nat) (cols : list (list R)) : matrix := MkMat r cols (length cols) 1.
Definition alloc_mat (r n : nat) : matrix := right_mat r (repeat (fresh r) n).
Definition same_layout (m : matrix) (cols : list (list R)) : matrix := MkMat (mx_rows m) cols (mx_s0 m) (mx_s1 m).
(** A strided vector: a view of a buffer. *)
Record vecview : Type := MkVec { v_buf : list dbl; v_off : nat; v_stride : nat; v_len : nat }.
Definition alloc_vec (n : nat) : vecview := MkVec (repeat (Fin 0) n) 0 1 n.
Definition v_get (v : vecview) (j : nat) : outcome dbl :=
  if (j <? v_len v)%nat then raw_get (v_buf v) (v_off v + v_stride v * j) else UB.
Definition v_set (v : vecview) (j : nat) (x : dbl) : outcome vecview :=
  if (j <? v_len v)%nat then
    do b <- raw_set (v_buf v) (v_off v + v_stride v * j) x; Ok (MkVec b (v_off v) (v_stride v) (v_len v))
  else UB.
(** "for i: x(i) = f(x(i), y(i))" *)
Definition v_update (f : dbl -> dbl -> dbl) (v : vecview) (y : list dbl) : outcome vecview :=
  ofold (fun v i => do a <- v_get v i; do b <- raw_get y i; v_set v i (f a b)) (seq 0 (v_len v)) v.

(** One call of a map's routine on a matrix: column by column (see MapsModel.v). *)
Fixpoint each (f : list R -> list R -> outcome (list R)) (pts out : list (list R)) : outcome (list (list R)) :=
  match pts, out with
  | [], [] => Ok []
  | p :: pts, o :: out => do y <- f p o; do rest <- each f pts out; Ok (y :: rest)
  | _, _ => UB
  end.
Fixpoint each2 (f : list R -> list R -> list R -> outcome (list R)) (a b out : list (list R)) : outcome (list (list R)) :=
  match a, b, out with
  | [], [], [] => Ok []
  | p :: a, q :: b, o :: out => do y <- f p q o; do rest <- each2 f a b out; Ok (y :: rest)
  | _, _, _ => UB
  end.
Fixpoint each_logdet (f : list R -> option R -> outcome (option R)) (pts : list (list R)) : outcome (list dbl) :=
  match pts with
  | [] => Ok []
  | p :: pts => do y <- f p (Some 0); do rest <- each_logdet f pts; Ok (of_logdet y :: rest)
  end.

(** A map object together with its coefficients; None is a map whose coefficients were never set. *)
Record mapobj : Type := MkObj { o_map : cmap; o_coeffs : option (list R) }.
(** repo: ParameterizedFunctionBase.cpp:333-349 CheckCoefficients *)
Definition o_check (M : mapobj) : bool :=
  (m_nc (o_map M) =? 0)%nat || match o_coeffs M with Some c => (length c =? m_nc (o_map M))%nat | None => false end.
Definition o_c (M : mapobj) : list R := match o_coeffs M with Some c => c | None => [] end.

(** repo: ParameterizedFunctionBase.cpp:27-34 *)
Definition o_Evaluate (M : mapobj) (pts : matrix) : outcome matrix :=
  if negb (o_check M) then Throw else
  let out := alloc_mat (m_out (o_map M)) (length (mx_cols pts)) in
  do r <- each (m_eval (o_map M) (o_c M)) (mx_cols pts) (mx_cols out);
  Ok (same_layout out r).
(** repo: ConditionalMapBase.cpp:9-16 *)
Definition o_LogDeterminant (M : mapobj) (pts : matrix) : outcome (list dbl) :=
  if negb (o_check M) then Throw else each_logdet (m_logdet (o_map M) (o_c M)) (mx_cols pts).
(** repo: ConditionalMapBase.cpp:67-82 *)
Definition o_Inverse (M : mapobj) (x1 r : matrix) : outcome matrix :=
  if negb (o_check M) then Throw else
  if negb (length (mx_cols x1) =? length (mx_cols r))%nat then Throw else
  let out := alloc_mat (m_out (o_map M)) (length (mx_cols r)) in
  do y <- each2 (m_inv (o_map M) (o_c M)) (mx_cols x1) (mx_cols r) (mx_cols out);
  Ok (same_layout out y).
(** repo: ConditionalMapBase.cpp:142-151 *)
Definition o_LogDeterminantCoeffGrad (M : mapobj) (pts : matrix) : outcome matrix :=
  if negb (o_check M) then Throw else
  let out := alloc_mat (m_nc (o_map M)) (length (mx_cols pts)) in
  do y <- each (m_ldc (o_map M) (o_c M)) (mx_cols pts) (mx_cols out);
  Ok (same_layout out y).
(** repo: ConditionalMapBase.cpp:217-227 *)
Definition o_LogDeterminantInputGrad (M : mapobj) (pts : matrix) : outcome matrix :=
  if negb (o_check M) then Throw else
  let out := alloc_mat (mx_rows pts) (length (mx_cols pts)) in
  do y <- each (m_ldi (o_map M) (o_c M)) (mx_cols pts) (mx_cols out);
  Ok (same_layout out y).

(** "x += y" for matrices. repo: LinearAlgebra.h:50-72 *)
Definition mat_add (x y : matrix) : outcome matrix :=
  do r <- each (fun a b => add_into (mx_rows x) b a) (mx_cols y) (mx_cols x);
  Ok (same_layout x r).

(** The virtual interface of DensityBase. *)
Record density : Type := MkDens {
  d_dim : nat;
  d_LogDensityImpl : matrix -> vecview -> outcome vecview;
  d_InputGradImpl : matrix -> matrix -> outcome matrix }.
(** repo: DensityBase.cpp:30-38; also 5-15, where the points are an Eigen matrix *)
Definition d_LogDensity (D : density) (X : matrix) : outcome (list dbl) :=
  do out <- d_LogDensityImpl D X (alloc_vec (length (mx_cols X))); Ok (v_buf out).
(** repo: DensityBase.cpp:40-49; also 17-27 *)
Definition d_LogDensityInputGrad (D : density) (X : matrix) : outcome matrix :=
  d_InputGradImpl D X (alloc_mat (mx_rows X) (length (mx_cols X))).

(** * PullbackDensity *)
(** repo: PullbackDensity.cpp:14-19 *)
Definition pb_LogDensityImpl (M : mapobj) (D : density) (pts : matrix) (output : vecview) : outcome vecview :=
  do mappedPts <- o_Evaluate M pts;
  do output <- d_LogDensityImpl D mappedPts output;
  do logJacobian <- o_LogDeterminant M pts;
  v_update dadd output logJacobian.
(** repo: PullbackDensity.cpp:22-28 *)
Definition pb_InputGradImpl (M : mapobj) (D : density) (pts output : matrix) : outcome matrix :=
  do mappedPts <- o_Evaluate M pts;
  do sens_map <- d_LogDensityInputGrad D mappedPts;
  do g <- each2 (m_grad (o_map M) (o_c M)) (mx_cols pts) (mx_cols sens_map) (mx_cols output);
  do gradLogJacobian <- o_LogDeterminantInputGrad M pts;
  mat_add (same_layout output g) gradLogJacobian.
(** repo: PullbackDensity.cpp:31-37 *)
Definition pb_CoeffGradImpl (M : mapobj) (D : density) (pts output : matrix) : outcome matrix :=
  do mappedPts <- o_Evaluate M pts;
  do sens_map <- d_LogDensityInputGrad D mappedPts;
  do g <- each2 (m_cgrad (o_map M) (o_c M)) (mx_cols pts) (mx_cols sens_map) (mx_cols output);
  do gradLogJacobian <- o_LogDeterminantCoeffGrad M pts;
  mat_add (same_layout output g) gradLogJacobian.
(** repo: PullbackDensity.cpp:40-44 *)
Definition pb_LogDensityCoeffGrad (M : mapobj) (D : density) (pts : matrix) : outcome matrix :=
  pb_CoeffGradImpl M D pts (alloc_mat (m_nc (o_map M)) (length (mx_cols pts))).
(** repo: PullbackDensity.cpp:46-55, the overload for Eigen matrices *)
Definition pb_LogDensityCoeffGrad_eigen (M : mapobj) (D : density) (pts : matrix) : outcome matrix :=
  pb_InputGradImpl M D pts (alloc_mat (mx_rows pts) (length (mx_cols pts))).
(** repo: PullbackDensity.cpp:6-11 *)
Definition PullbackDensity (M : mapobj) (D : density) : outcome density :=
  if negb (m_out (o_map M) =? d_dim D)%nat then Throw
  else Ok (MkDens (d_dim D) (pb_LogDensityImpl M D) (pb_InputGradImpl M D)).

(** * PushforwardDensity *)
(** repo: PushforwardDensity.h:44-52 *)
Definition pf_LogDensityImpl (M : mapobj) (D : density) (pts : matrix) (output : vecview) : outcome vecview :=
  do mappedPts <- o_Inverse M (alloc_mat 0 (length (mx_cols pts))) pts;
  do output <- d_LogDensityImpl D mappedPts output;
  do logJacobian <- o_LogDeterminant M mappedPts;
  v_update dsub output logJacobian.
(** repo: PushforwardDensity.h:28-36, 55-57 *)
Definition PushforwardDensity (M : mapobj) (D : density) : outcome density :=
  if negb (m_in (o_map M) =? d_dim D)%nat then Throw
  else if negb (m_out (o_map M) =? m_in (o_map M))%nat then Throw
  else Ok (MkDens (d_dim D) (pf_LogDensityImpl M D) (fun _ _ => Throw)).
