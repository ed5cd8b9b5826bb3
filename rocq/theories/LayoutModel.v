(** Model of arrays as addresses in one memory: ArrayConversions.h (host part), the matrix routines of
    LinearAlgebra.h/.cpp, and the overloads of the maps for Eigen matrices. Addresses count entries.
    Not modelled: device memory, negative strides. *)
From Coq Require Import Reals.
From Verif Require Import Base MISetModel ExpansionModel BijModel MonoModel MapsModel LeafModel DensityModel GaussModel.

(** * Views *)
(** A two-dimensional Kokkos view: its layout tag, address, extents and strides. *)
Inductive layout : Type := LayoutLeft | LayoutRight | LayoutStride.
Record view2 : Type := MkV2 { v2_lay : layout; v2_data : nat; v2_rows : nat; v2_cols : nat; v2_s0 : nat; v2_s1 : nat }.
(** Kokkos: the address of operator()(i,j) *)
Definition v2_addr (v : view2) (i j : nat) : nat := v2_data v + i * v2_s0 v + j * v2_s1 v.
(** Kokkos::View<T**,Layout>(ptr, rows, cols) *)
Definition kview (l : layout) (data rows cols : nat) : view2 :=
  match l with
  | LayoutLeft => MkV2 LayoutLeft data rows cols 1 rows
  | _ => MkV2 LayoutRight data rows cols cols 1
  end.
(** A one-dimensional Kokkos view; a view without LayoutStride has stride 1. *)
Record view1 : Type := MkV1 { v1_strided : bool; v1_data : nat; v1_len : nat; v1_stride : nat }.
Definition v1_addr (v : view1) (i : nat) : nat := v1_data v + i * v1_stride v.
(** An Eigen::Ref or Eigen::Map of a matrix: storage order, address, extents, outer and inner stride. *)
Record emat : Type := MkE { e_rowmajor : bool; e_data : nat; e_rows : nat; e_cols : nat; e_outer : nat; e_inner : nat }.
(** Eigen: the address of coeff(i,j) *)
Definition e_addr (m : emat) (i j : nat) : nat :=
  if e_rowmajor m then e_data m + i * e_outer m + j * e_inner m else e_data m + j * e_outer m + i * e_inner m.
Record evec : Type := MkEV { ev_data : nat; ev_len : nat; ev_inner : nat }.
Definition ev_addr (m : evec) (i : nat) : nat := ev_data m + i * ev_inner m.

(** * Conversions *)
(** repo: ArrayConversions.h:44-48, 50-55 *)
Definition ToKokkos1 (ptr dim : nat) : view1 := MkV1 false ptr dim 1.
(** repo: ArrayConversions.h:93-97, 133-138 *)
Definition ToKokkos2 (l : layout) (ptr rows cols : nat) : view2 := kview l ptr rows cols.
(** repo: ArrayConversions.h:102-116 *)
Definition ToKokkos_tuple2 (info : nat * (nat * nat) * (nat * nat)) : view2 :=
  let '(ptr, (rows, cols), (rowStride, colStride)) := info in MkV2 LayoutStride ptr rows cols rowStride colStride.
(** repo: ArrayConversions.h:118-130 *)
Definition ToKokkos_tuple1 (info : nat * nat * nat) : view1 :=
  let '(ptr, length, stride) := info in MkV1 true ptr length stride.
(** repo: ArrayConversions.h:148-155 *)
Definition KokkosToStd {T} (mem : list T) (v : view1) : outcome (list T) :=
  omap (fun i => raw_get mem (v1_addr v i)) (seq 0 (v1_len v)).
(** repo: ArrayConversions.h:165-169, 179-184, 201-205: a std::vector of [size] entries at [data] *)
Definition VecToKokkos_std (data size : nat) : view1 := MkV1 true data size 1.
(** repo: ArrayConversions.h:194-199, 215-220; the division by zero is undefined *)
Definition MatToKokkos_std (data size cols : nat) : outcome view2 :=
  if cols =? 0 then UB else
  let rows := size / cols in
  let v := kview LayoutRight data rows cols in
  Ok (MkV2 LayoutStride (v2_data v) (v2_rows v) (v2_cols v) (v2_s0 v) (v2_s1 v)).
(** repo: ArrayConversions.h:380-386, the overload for column-major references *)
Definition MatToKokkos_col (ref : emat) : view2 :=
  MkV2 LayoutStride (e_data ref) (e_rows ref) (e_cols ref) (e_inner ref) (e_outer ref).
(** repo: ArrayConversions.h:422-428, the overload for row-major references *)
Definition MatToKokkos_row (ref : emat) : view2 :=
  MkV2 LayoutStride (e_data ref) (e_rows ref) (e_cols ref) (e_outer ref) (e_inner ref).
(** repo: ArrayConversions.h:430-435; the strides computed there are not used *)
Definition ConstRowMatToKokkos (ref : emat) : view2 := kview LayoutRight (e_data ref) (e_rows ref) (e_cols ref).
(** repo: ArrayConversions.h:437-441 *)
Definition ConstColMatToKokkos (ref : emat) : view2 := kview LayoutLeft (e_data ref) (e_rows ref) (e_cols ref).
(** repo: ArrayConversions.h:469-474 *)
Definition VecToKokkos (ref : evec) : view1 := MkV1 true (ev_data ref) (ev_len ref) (ev_inner ref).
(** repo: ArrayConversions.h:513-516 and 527-533: the overload is chosen by the view's layout *)
Definition KokkosToVec (v : view1) : evec :=
  if v1_strided v then MkEV (v1_data v) (v1_len v) (v1_stride v) else MkEV (v1_data v) (v1_len v) 1.
(** repo: ArrayConversions.h:593-600, 601-608 and 609-615, 640-646; LayoutToEigen in 552-559. The
    assertion is Throw when assertions are compiled in. *)
Definition KokkosToMat (dbg : bool) (v : view2) : outcome emat :=
  match v2_lay v with
  | LayoutStride => Ok (MkE true (v2_data v) (v2_rows v) (v2_cols v) (v2_s0 v) (v2_s1 v))
  | l =>
      if (dbg && negb ((v2_s0 v =? 1) || (v2_s1 v =? 1)))%bool then Throw
      else Ok (MkE (match l with LayoutLeft => false | _ => true end) (v2_data v) (v2_rows v) (v2_cols v)
                 (Nat.max (v2_s0 v) (v2_s1 v)) 1)
  end.
(** Kokkos: assigning a view to one of another layout type. A strided view becomes a LayoutLeft or
    LayoutRight one only if its strides are the packed ones, otherwise Kokkos aborts (Throw). *)
Definition convert (l : layout) (v : view2) : outcome view2 :=
  match l with
  | LayoutStride => Ok (MkV2 LayoutStride (v2_data v) (v2_rows v) (v2_cols v) (v2_s0 v) (v2_s1 v))
  | LayoutLeft => if ((v2_s0 v =? 1) && (v2_s1 v =? v2_rows v))%bool then Ok (kview LayoutLeft (v2_data v) (v2_rows v) (v2_cols v)) else Throw
  | LayoutRight => if ((v2_s1 v =? 1) && (v2_s0 v =? v2_cols v))%bool then Ok (kview LayoutRight (v2_data v) (v2_rows v) (v2_cols v)) else Throw
  end.

(** * Matrix products and sums *)
(** A view with the flag of LinearAlgebra.h:151-163 TransposeObject *)
Record tview : Type := MkT { t_view : view2; t_tr : bool }.
Definition t_rows (A : tview) : nat := if t_tr A then v2_cols (t_view A) else v2_rows (t_view A).
Definition t_cols (A : tview) : nat := if t_tr A then v2_rows (t_view A) else v2_cols (t_view A).
(** repo: LinearAlgebra.h:165-171 *)
Definition transpose_view (v : view2) : tview := MkT v true.
Definition transpose_tview (A : tview) : tview := MkT (t_view A) (if t_tr A then false else true).

Section Arithmetic.
Variables (T : Type) (zero : T) (add mul : T -> T -> T).

(** Reading entry (i,k) of op(A) through the Eigen map of A's view. *)
Definition op_get (mem : list T) (A : tview) (e : emat) (i k : nat) : outcome T :=
  if t_tr A then raw_get mem (e_addr e k i) else raw_get mem (e_addr e i k).
(** One entry of "(beta*eigC + alpha* op(eigA) * op(eigB)).eval()" *)
Definition gemm_entry (mem : list T) (alpha : T) (A B : tview) (eA eB : emat) (beta : T) (eC : emat) (i j : nat) : outcome T :=
  do c <- raw_get mem (e_addr eC i j);
  do s <- ofold (fun s k => do a <- op_get mem A eA i k; do b <- op_get mem B eB k j; Ok (add s (mul (mul alpha a) b)))
            (seq 0 (t_cols A)) zero;
  Ok (add (mul beta c) s).
Definition positions (rows cols : nat) : list (nat * nat) := list_prod (seq 0 rows) (seq 0 cols).
(** repo: src/Utilities/LinearAlgebra.cpp:9-35. Eigen's size assertions are UB. The product is
    evaluated into a temporary, then copied into C. *)
Definition dgemm (dbg : bool) (alpha : T) (A B : tview) (beta : T) (C : view2) (mem : list T) : outcome (list T) :=
  do eC <- KokkosToMat dbg C;
  do eB <- KokkosToMat dbg (t_view B);
  do eA <- KokkosToMat dbg (t_view A);
  if ((t_cols A =? t_rows B) && (v2_rows C =? t_rows A) && (v2_cols C =? t_cols B))%bool then
    do values <- omap (fun p => do x <- gemm_entry mem alpha A B eA eB beta eC (fst p) (snd p); Ok (p, x)) (positions (v2_rows C) (v2_cols C));
    ofold (fun mem px => raw_set mem (e_addr eC (fst (fst px)) (snd (fst px))) (snd px)) values mem
  else UB.
(** repo: LinearAlgebra.h:221-231 operator*: C is allocated behind the memory in use and zeroed; the
    assertion is Throw. Returns the new memory and C. *)
Definition mat_mul (dbg : bool) (one : T) (A B : tview) (mem : list T) : outcome (list T * view2) :=
  if (dbg && negb (t_cols A =? t_rows B))%bool then Throw else
  let C := kview LayoutLeft (length mem) (t_rows A) (t_cols B) in
  do Cs <- convert LayoutStride C;
  do mem <- dgemm dbg one A B zero Cs (mem ++ repeat zero (t_rows A * t_cols B));
  Ok (mem, Cs).

(** AddInPlace as a parallel program: item (i,j) loads x(i,j), loads y(i,j), stores the sum. The state
    of an item is how far it is and what it has loaded. repo: LinearAlgebra.h:21-45, 47-72 *)
Inductive addpc : Type := AStart | AGotX (a : T) | AGotXY (a b : T) | ADone.
Definition add_step (x y : view2) (st : list T * (nat * nat -> addpc)) (p : nat * nat) : outcome (list T * (nat * nat -> addpc)) :=
  let '(mem, pc) := st in
  let set q := fun p' => if ((fst p' =? fst p) && (snd p' =? snd p))%bool then q else pc p' in
  match pc p with
  | AStart => do a <- raw_get mem (v2_addr x (fst p) (snd p)); Ok (mem, set (AGotX a))
  | AGotX a => do b <- raw_get mem (v2_addr y (fst p) (snd p)); Ok (mem, set (AGotXY a b))
  | AGotXY a b => do mem <- raw_set mem (v2_addr x (fst p) (snd p)) (add a b); Ok (mem, set ADone)
  | ADone => Ok (mem, pc)
  end.
(** A schedule lists which item makes the next access. *)
Definition AddInPlace (x y : view2) (schedule : list (nat * nat)) (mem : list T) : outcome (list T * (nat * nat -> addpc)) :=
  ofold (add_step x y) schedule (mem, fun _ => AStart).
End Arithmetic.
Arguments AStart {T}.
Arguments ADone {T}.

(** * The maps' overloads for Eigen matrices *)
(** The matrix a view shows, in the form DensityModel uses. *)
Definition view_cols (mem : list R) (v : view2) : outcome (list (list R)) :=
  omap (fun j => omap (fun i => raw_get mem (v2_addr v i j)) (seq 0 (v2_rows v))) (seq 0 (v2_cols v)).
Definition view_matrix (mem : list R) (v : view2) : outcome matrix :=
  do c <- view_cols mem v; Ok (MkMat (v2_rows v) c (v2_s0 v) (v2_s1 v)).
(** repo: ParameterizedFunctionBase.cpp:104-113, 268-277, the array overloads of Gradient and CoeffGrad *)
Definition o_Gradient (M : mapobj) (pts sens : matrix) : outcome matrix :=
  if negb (o_check M) then Throw else
  let out := alloc_mat (m_in (o_map M)) (length (mx_cols pts)) in
  do r <- each2 (m_grad (o_map M) (o_c M)) (mx_cols pts) (mx_cols sens) (mx_cols out);
  Ok (same_layout out r).
Definition o_CoeffGrad (M : mapobj) (pts sens : matrix) : outcome matrix :=
  if negb (o_check M) then Throw else
  let out := alloc_mat (m_nc (o_map M)) (length (mx_cols pts)) in
  do r <- each2 (m_cgrad (o_map M) (o_c M)) (mx_cols pts) (mx_cols sens) (mx_cols out);
  Ok (same_layout out r).
(** repo: ParameterizedFunctionBase.cpp:36-46. The new Eigen matrix is not initialised: [junk] is what
    its memory held. The result is the Eigen matrix's columns. *)
Definition e_Evaluate (M : mapobj) (mem : list R) (pts : emat) (junk : list (list R)) : outcome (list (list R)) :=
  if negb (o_check M) then Throw else
  do ptsView <- view_matrix mem (ConstRowMatToKokkos pts);
  each (m_eval (o_map M) (o_c M)) (mx_cols ptsView) junk.
(** repo: ParameterizedFunctionBase.cpp:115-126 *)
Definition e_Gradient (M : mapobj) (mem : list R) (pts sens : emat) (junk : list (list R)) : outcome (list (list R)) :=
  if negb (o_check M) then Throw else
  do ptsView <- view_matrix mem (ConstRowMatToKokkos pts);
  do sensView <- view_matrix mem (ConstRowMatToKokkos sens);
  each2 (m_grad (o_map M) (o_c M)) (mx_cols ptsView) (mx_cols sensView) junk.
(** repo: ParameterizedFunctionBase.cpp:279-289. The result view is assigned to a LayoutRight view
    (Kokkos compares the strides) and copied. *)
Definition as_right (m : matrix) : outcome (list (list R)) :=
  if ((mx_s1 m =? 1) && (mx_s0 m =? length (mx_cols m)))%bool then Ok (mx_cols m) else Throw.
Definition e_CoeffGrad (M : mapobj) (mem : list R) (pts sens : emat) : outcome (list (list R)) :=
  if negb (o_check M) then Throw else
  do ptsView <- view_matrix mem (ConstRowMatToKokkos pts);
  do sensView <- view_matrix mem (ConstRowMatToKokkos sens);
  do out <- o_CoeffGrad M ptsView sensView; as_right out.
(** repo: ConditionalMapBase.cpp:18-26 *)
Definition e_LogDeterminant (M : mapobj) (mem : list R) (pts : emat) : outcome (list dbl) :=
  if negb (o_check M) then Throw else
  do ptsView <- view_matrix mem (ConstRowMatToKokkos pts); o_LogDeterminant M ptsView.
(** repo: ConditionalMapBase.cpp:83-94 *)
Definition e_Inverse (M : mapobj) (mem : list R) (x1 r : emat) : outcome (list (list R)) :=
  if negb (o_check M) then Throw else
  do x1View <- view_matrix mem (ConstRowMatToKokkos x1);
  do rView <- view_matrix mem (ConstRowMatToKokkos r);
  do out <- o_Inverse M x1View rView; as_right out.
(** repo: ConditionalMapBase.cpp:153-163 *)
Definition e_LogDeterminantCoeffGrad (M : mapobj) (mem : list R) (pts : emat) : outcome (list (list R)) :=
  if negb (o_check M) then Throw else
  do ptsView <- view_matrix mem (ConstRowMatToKokkos pts);
  do out <- o_LogDeterminantCoeffGrad M ptsView; as_right out.
(** repo: ConditionalMapBase.cpp:229-240 *)
Definition e_LogDeterminantInputGrad (M : mapobj) (mem : list R) (pts : emat) : outcome (list (list R)) :=
  if negb (o_check M) then Throw else
  do ptsView <- view_matrix mem (ConstRowMatToKokkos pts);
  do out <- o_LogDeterminantInputGrad M ptsView; as_right out.

(** * AffineMap::InverseImpl on strided arrays. repo: AffineMap.cpp:67-126 *)
(** The columns go through LeafModel.aff_Inverse; before the solve the array is handed over as a
    LayoutLeft view (LinearAlgebra.h:299), which Kokkos refuses unless the strides are the packed ones. *)
Definition aff_InverseImpl (f : affine) (x1 r output : matrix) : outcome matrix :=
  let hasA := (0 <? length (af_A f))%nat in
  let outLeft :=
    if hasA then
      if mx_s0 output =? 1 then output
      else MkMat (mx_rows output) (mx_cols output) 1 (mx_rows output)
    else output in
  do cols <- each2 (aff_Inverse f) (mx_cols x1) (mx_cols r) (mx_cols outLeft);
  do _ <- (if hasA then as_left (same_layout outLeft cols) else Ok []);
  Ok (same_layout output cols).
(** repo: ConditionalMapBase.cpp:67-82 with the above *)
Definition aff_Inverse_call (f : affine) (x1 r : matrix) : outcome matrix :=
  if negb (length (mx_cols x1) =? length (mx_cols r))%nat then Throw else
  aff_InverseImpl f x1 r (alloc_mat (af_out f) (length (mx_cols r))).

(** * The affine gradient in floating point. repo: AffineMap.cpp:182-192 *)
(** Product of doubles with infinities and NaN. *)
Definition dsign (x : R) : dbl := if Rlt_dec 0 x then PInf else if Rlt_dec x 0 then MInf else NaN.
Definition dmul (a b : dbl) : dbl :=
  match a, b with
  | NaN, _ | _, NaN => NaN
  | Fin x, Fin y => Fin (x * y)
  | Fin x, PInf | PInf, Fin x => dsign x
  | Fin x, MInf | MInf, Fin x => dneg (dsign x)
  | PInf, PInf | MInf, MInf => PInf
  | PInf, MInf | MInf, PInf => MInf
  end.
Definition aff_GradientImpl (dbg : bool) (A sens output : view2) (mem : list dbl) : outcome (list dbl) :=
  dgemm dbl (Fin 0) dadd dmul dbg (Fin 1) (transpose_view A) (MkT sens false) (Fin 0) output mem.
