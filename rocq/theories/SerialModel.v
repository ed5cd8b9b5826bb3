(** Model of saving to and loading from cereal's binary archives (repo: MParT/Utilities/Serialization.h and the
    save/load/serialize functions of MapOptions.h, FixedMultiIndexSet.h, OrthogonalPolynomial.h, HermiteFunction.h,
    LinearizedBasis.h, Quadrature.h, MultivariateExpansionWorker.h, MonotoneComponent.h, TriangularMap.h).
    An archive is a list of bytes (numbers below 256). Numbers are written as their bytes in memory, lowest first; a
    double is the number whose 64 bits it has, so "equal" means the same bit pattern. cereal itself is not part of the
    repository; its binary format is modelled here: arithmetic types and enumerations as raw bytes, strings and vectors with a
    64-bit size, shared pointers with the identifiers described below. Reading too few bytes throws.
    Not modelled: null pointers, components that are not monotone components, device memory spaces. *)
From Coq Require Import String Ascii NArith.
From Verif Require Import Base FixedSetModel.
Close Scope string_scope.

Definition bytes : Type := list N.
Fixpoint le (k : nat) (x : N) : bytes := match k with O => [] | S k => (x mod 256)%N :: le k (x / 256)%N end.
Fixpoint unle (b : bytes) : N := match b with [] => 0%N | h :: t => (h + 256 * unle t)%N end.

(** ** cereal's binary archives *)
(* loadBinary: throws when fewer than [k] bytes are left *)
Definition read (k : nat) (b : bytes) : outcome (bytes * bytes) :=
  if length b <? k then Throw else Ok (firstn k b, skipn k b).
Definition load_num (k : nat) (b : bytes) : outcome (N * bytes) := do r <- read k b; Ok (unle (fst r), snd r).
(* a bool is one byte; a byte other than 0 and 1 is not a value of type bool, and using it is undefined *)
Definition save_bool (x : bool) : bytes := [if x then 1%N else 0%N].
Definition load_bool (b : bytes) : outcome (bool * bytes) :=
  do r <- load_num 1 b;
  if (fst r =? 0)%N then Ok (false, snd r) else if (fst r =? 1)%N then Ok (true, snd r) else UB.
Definition save_string (s : bytes) : bytes := le 8 (N.of_nat (length s)) ++ s.
Definition load_string (b : bytes) : outcome (bytes * bytes) := do n <- load_num 8 b; read (N.to_nat (fst n)) (snd n).
Fixpoint load_many {A} (f : bytes -> outcome (A * bytes)) (n : nat) (b : bytes) : outcome (list A * bytes) :=
  match n with
  | O => Ok ([], b)
  | S n => do x <- f b; do r <- load_many f n (snd x); Ok (fst x :: fst r, snd r)
  end.
(* binary_data of elements of [w] bytes each *)
Definition save_data (w : nat) (l : list N) : bytes := flat_map (le w) l.
Definition load_data (w n : nat) (b : bytes) : outcome (list N * bytes) := load_many (load_num w) n b.

(** ** Kokkos views *)
Definition u32 (x : N) : N := (x mod 2 ^ 32)%N.
(** A one-dimensional view: its label and elements. *)
Record vview : Type := MkVV { vv_label : bytes; vv_data : list N }.
(** repo: Serialization.h:18-33; the size is kept in an unsigned int *)
Definition save_vec (w : nat) (v : vview) : bytes :=
  let sz := u32 (N.of_nat (length (vv_data v))) in
  save_string (vv_label v) ++ le 4 sz ++ (if (0 <? sz)%N then save_data w (firstn (N.to_nat sz) (vv_data v)) else []).
(** repo: Serialization.h:35-50 *)
Definition load_vec (w : nat) (b : bytes) : outcome (vview * bytes) :=
  do name <- load_string b;
  do sz <- load_num 4 (snd name);
  if (0 <? fst sz)%N then do d <- load_data w (N.to_nat (fst sz)) (snd sz); Ok (MkVV (fst name) (fst d), snd d)
  else Ok (MkVV (fst name) [], snd sz).
(** A matrix view: label, the elements from data() to the end of the allocation, extents, layout, and the distance between columns
    (LayoutLeft) or rows (LayoutRight). A row range of a LayoutLeft matrix is again LayoutLeft, with the distance of the whole matrix. *)
Record mview : Type := MkMV { mv_label : bytes; mv_mem : list N; mv_m : nat; mv_n : nat; mv_left : bool; mv_ld : nat }.
Definition mv_at (v : mview) (i j : nat) : option N := nth_error (mv_mem v) (if mv_left v then i + j * mv_ld v else i * mv_ld v + j).
(** repo: Serialization.h:52-68; the number of elements m*n is an unsigned int *)
Definition save_mat (w : nat) (v : mview) : outcome bytes :=
  let m := u32 (N.of_nat (mv_m v)) in
  let n := u32 (N.of_nat (mv_n v)) in
  let head := save_string (mv_label v) ++ le 4 m ++ le 4 n in
  if ((0 <? m) && (0 <? n))%N then
    let count := N.to_nat (u32 (m * n)) in
    if length (mv_mem v) <? count then UB else Ok (head ++ save_data w (firstn count (mv_mem v)))
  else Ok head.
(** repo: Serialization.h:70-84; a new view is filled with zeros *)
Definition load_mat (w : nat) (left : bool) (b : bytes) : outcome (mview * bytes) :=
  do name <- load_string b;
  do m <- load_num 4 (snd name);
  do n <- load_num 4 (snd m);
  let '(mm, nn) := (N.to_nat (fst m), N.to_nat (fst n)) in
  let ld := if left then mm else nn in
  if ((0 <? fst m) && (0 <? fst n))%N then
    let count := N.to_nat (u32 (fst m * fst n)) in
    do d <- load_data w count (snd n);
    Ok (MkMV (fst name) (fst d ++ repeat 0%N (mm * nn - count)) mm nn left ld, snd d)
  else Ok (MkMV (fst name) [] mm nn left ld, snd n).

(** ** Options *)
(** repo: MapOptions.h:51-99 *)
Record mopts : Type := MkMO { mo_basisType : N; mo_basisLB : N; mo_basisUB : N; mo_posFuncType : N; mo_quadType : N; mo_quadAbsTol : N; mo_quadRelTol : N;
  mo_quadMaxSub : N; mo_quadMinSub : N; mo_quadPts : N; mo_contDeriv : bool; mo_basisNorm : bool; mo_nugget : N }.
(** repo: MapOptions.h:102-107; enumerations are stored as int *)
Definition save_opts (o : mopts) : bytes :=
  le 4 (mo_basisType o) ++ le 8 (mo_basisLB o) ++ le 8 (mo_basisUB o) ++ le 4 (mo_posFuncType o) ++ le 4 (mo_quadType o) ++ le 8 (mo_quadAbsTol o) ++ le 8 (mo_quadRelTol o) ++
  le 4 (mo_quadMaxSub o) ++ le 4 (mo_quadMinSub o) ++ le 4 (mo_quadPts o) ++ save_bool (mo_contDeriv o) ++ save_bool (mo_basisNorm o) ++ le 8 (mo_nugget o).
Definition load_opts (b : bytes) : outcome (mopts * bytes) :=
  do x1 <- load_num 4 b; do x2 <- load_num 8 (snd x1); do x3 <- load_num 8 (snd x2); do x4 <- load_num 4 (snd x3); do x5 <- load_num 4 (snd x4);
  do x6 <- load_num 8 (snd x5); do x7 <- load_num 8 (snd x6); do x8 <- load_num 4 (snd x7); do x9 <- load_num 4 (snd x8); do x10 <- load_num 4 (snd x9);
  do x11 <- load_bool (snd x10); do x12 <- load_bool (snd x11); do x13 <- load_num 8 (snd x12);
  Ok (MkMO (fst x1) (fst x2) (fst x3) (fst x4) (fst x5) (fst x6) (fst x7) (fst x8) (fst x9) (fst x10) (fst x11) (fst x12) (fst x13), snd x13).

(** ** Fixed multi-index sets *)
(** The set of FixedSetModel.v and the labels of its four views. *)
Record sfset : Type := MkSF { sf_set : fset; sf_l1 : bytes; sf_l2 : bytes; sf_l3 : bytes; sf_l4 : bytes }.
Definition nview (label : bytes) (l : list nat) : vview := MkVV label (map N.of_nat l).
Definition nats (v : vview) : list nat := map N.to_nat (vv_data v).
(** repo: FixedMultiIndexSet.h:80-88 *)
Definition save_fset (s : sfset) : bytes :=
  le 4 (N.of_nat (fdim (sf_set s))) ++ save_bool (fcomp (sf_set s)) ++ save_vec 4 (nview (sf_l1 s) (fstarts (sf_set s))) ++ save_vec 4 (nview (sf_l2 s) (fdims (sf_set s))) ++
  save_vec 4 (nview (sf_l3 s) (forders (sf_set s))) ++ save_vec 4 (nview (sf_l4 s) (fmax (sf_set s))).
(** repo: FixedMultiIndexSet.h:90-98 *)
Definition load_fset (b : bytes) : outcome (sfset * bytes) :=
  do d <- load_num 4 b; do c <- load_bool (snd d); do v1 <- load_vec 4 (snd c); do v2 <- load_vec 4 (snd v1); do v3 <- load_vec 4 (snd v2); do v4 <- load_vec 4 (snd v3);
  Ok (MkSF (MkF (N.to_nat (fst d)) (fst c) (nats (fst v1)) (nats (fst v2)) (nats (fst v3)) (nats (fst v4))) (vv_label (fst v1)) (vv_label (fst v2)) (vv_label (fst v3)) (vv_label (fst v4)), snd v4).

(** ** Monotone components *)
(** The types that MapFactoryImpl1.cpp to MapFactoryImpl18.cpp register. *)
Inductive poly_type := Phys | Prob | HF.
Inductive pos_type := PExp | PSoft.
Inductive quad_type := QCC | QAS | QACC.
Record class : Type := MkClass { cl_poly : poly_type; cl_lin : bool; cl_pos : pos_type; cl_quad : quad_type }.
(** repo: Serialization.h:14 and the REGISTER_MONO_COMP lines of MapFactoryImpl*.cpp: the registered name is the text of the type *)
Definition class_string (c : class) : string :=
  let p := match cl_poly c with Phys => "PhysicistHermite" | Prob => "ProbabilistHermite" | HF => "HermiteFunction" end%string in
  let b := (if cl_lin c then "LinearizedBasis<mpart::" ++ p ++ ">" else p)%string in
  let g := match cl_pos c with PExp => "Exp" | PSoft => "SoftPlus" end%string in
  let q := match cl_quad c with QCC => "ClenshawCurtisQuadrature" | QAS => "AdaptiveSimpson" | QACC => "AdaptiveClenshawCurtis" end%string in
  ("mpart::MonotoneComponent<mpart::MultivariateExpansionWorker<" ++ b ++ ", Kokkos::HostSpace>, mpart::" ++ g ++ ", mpart::" ++ q ++ "<Kokkos::HostSpace>, Kokkos::HostSpace>")%string.
Definition class_name (c : class) : bytes := map N_of_ascii (list_ascii_of_string (class_string c)).
Definition classes : list class :=
  flat_map (fun p => flat_map (fun l => flat_map (fun g => map (MkClass p l g) [QACC; QCC; QAS]) [PExp; PSoft]) [false; true]) [Phys; Prob; HF].
Definition bytes_eqb (a b : bytes) : bool := if list_eq_dec N.eq_dec a b then true else false.
Definition find_class (name : bytes) : option class := find (fun c => bytes_eqb (class_name c) name) classes.

(** One-dimensional bases: normalize_ of the polynomial and, for linearised bases, the bounds.
    repo: OrthogonalPolynomial.h:282-286, HermiteFunction.h:146-150, LinearizedBasis.h:150-154 *)
Record sbasis : Type := MkSB { sb_norm : bool; sb_lb : N; sb_ub : N }.
Definition save_basis (lin : bool) (b : sbasis) : bytes := save_bool (sb_norm b) ++ (if lin then le 8 (sb_lb b) ++ le 8 (sb_ub b) else []).
Definition load_basis (lin : bool) (b : bytes) : outcome (sbasis * bytes) :=
  do n <- load_bool b;
  if lin then do l <- load_num 8 (snd n); do u <- load_num 8 (snd l); Ok (MkSB (fst n) (fst l) (fst u), snd u) else Ok (MkSB (fst n) 0 0, snd n).
(** Quadrature rules: the members of QuadratureBase, of RecursiveQuadratureBase and the views and counter of the rule.
    repo: Quadrature.h:66-84, 313-324, 422-433, 678-687, 970-981 *)
Record squad : Type := MkSQ { sq_fdim : N; sq_maxDim : N; sq_wsSize : N; sq_work : vview;
  sq_maxSub : N; sq_minSub : N; sq_absTol : N; sq_relTol : N; sq_metric : N; sq_views : list vview; sq_numPts : N }.
Definition save_quad_base (q : squad) : bytes := le 4 (sq_fdim q) ++ le 4 (sq_maxDim q) ++ le 4 (sq_wsSize q) ++ save_vec 8 (sq_work q).
Definition save_quad_rec (q : squad) : bytes :=
  save_quad_base q ++ le 4 (sq_maxSub q) ++ le 4 (sq_minSub q) ++ le 8 (sq_absTol q) ++ le 8 (sq_relTol q) ++ le 4 (sq_metric q).
Definition save_quad (t : quad_type) (q : squad) : bytes :=
  match t with
  | QCC => save_quad_base q ++ flat_map (save_vec 8) (sq_views q) ++ le 4 (sq_numPts q)
  | QAS => save_quad_rec q
  | QACC => save_quad_rec q ++ flat_map (save_vec 8) (sq_views q)
  end.
Definition load_quad_base (b : bytes) : outcome (squad * bytes) :=
  do x1 <- load_num 4 b; do x2 <- load_num 4 (snd x1); do x3 <- load_num 4 (snd x2); do v <- load_vec 8 (snd x3);
  Ok (MkSQ (fst x1) (fst x2) (fst x3) (fst v) 0 0 0 0 0 [] 0, snd v).
Definition load_quad_rec (b : bytes) : outcome (squad * bytes) :=
  do q <- load_quad_base b;
  do x1 <- load_num 4 (snd q); do x2 <- load_num 4 (snd x1); do x3 <- load_num 8 (snd x2); do x4 <- load_num 8 (snd x3); do x5 <- load_num 4 (snd x4);
  let q := fst q in
  Ok (MkSQ (sq_fdim q) (sq_maxDim q) (sq_wsSize q) (sq_work q) (fst x1) (fst x2) (fst x3) (fst x4) (fst x5) [] 0, snd x5).
Definition with_views (q : squad) (vs : list vview) (n : N) : squad :=
  MkSQ (sq_fdim q) (sq_maxDim q) (sq_wsSize q) (sq_work q) (sq_maxSub q) (sq_minSub q) (sq_absTol q) (sq_relTol q) (sq_metric q) vs n.
Definition load_quad (t : quad_type) (b : bytes) : outcome (squad * bytes) :=
  match t with
  | QCC => do q <- load_quad_base b; do vs <- load_many (load_vec 8) 2 (snd q); do n <- load_num 4 (snd vs); Ok (with_views (fst q) (fst vs) (fst n), snd n)
  | QAS => load_quad_rec b
  | QACC => do q <- load_quad_rec b; do vs <- load_many (load_vec 8) 4 (snd q); Ok (with_views (fst q) (fst vs) 0, snd vs)
  end.
(** repo: MultivariateExpansionWorker.h:436-447; maxDegrees_ is taken from the set *)
Record sworker : Type := MkSW { sw_dim : N; sw_set : sfset; sw_basis : sbasis; sw_start : vview; sw_cache : N }.
Definition save_worker (lin : bool) (w : sworker) : bytes :=
  le 4 (sw_dim w) ++ save_fset (sw_set w) ++ save_basis lin (sw_basis w) ++ save_vec 4 (sw_start w) ++ le 4 (sw_cache w).
Definition load_worker (lin : bool) (b : bytes) : outcome (sworker * bytes) :=
  do d <- load_num 4 b; do s <- load_fset (snd d); do p <- load_basis lin (snd s); do v <- load_vec 4 (snd p); do c <- load_num 4 (snd v);
  Ok (MkSW (fst d) (fst s) (fst p) (fst v) (fst c), snd c).
(** A monotone component: its type and members. [None]: no coefficients were set. *)
Record mono : Type := MkMono { mn_class : class; mn_worker : sworker; mn_quad : squad; mn_cont : bool; mn_nugget : N; mn_coeffs : option vview }.
(** repo: FixedMultiIndexSet.h:61-68 Size, the number of coefficients *)
Definition fsize (s : fset) : nat := if fcomp s then length (fstarts s) - 1 else length (forders s) / fdim s.
(** repo: MonotoneComponent.h:1028-1034; the base classes write nothing (ConditionalMapBase.h:164-168, ParameterizedFunctionBase.h:221-225); a view that
    was never allocated has an empty label and no elements *)
Definition save_mono (m : mono) : bytes :=
  save_worker (cl_lin (mn_class m)) (mn_worker m) ++ save_quad (cl_quad (mn_class m)) (mn_quad m) ++ save_bool (mn_cont m) ++ le 8 (mn_nugget m) ++
  save_vec 8 (match mn_coeffs m with Some v => v | None => MkVV [] [] end).
(** repo: MonotoneComponent.h:1036-1053; the type is known from the name in the archive *)
Definition load_mono (c : class) (b : bytes) : outcome (mono * bytes) :=
  do w <- load_worker (cl_lin c) b; do q <- load_quad (cl_quad c) (snd w); do t <- load_bool (snd q); do n <- load_num 8 (snd t); do v <- load_vec 8 (snd n);
  Ok (MkMono c (fst w) (fst q) (fst t) (fst n) (if length (vv_data (fst v)) =? fsize (sf_set (sw_set (fst w))) then Some (fst v) else None), snd v).

(** ** Shared pointers and triangular maps *)
(** An archive gives every object and every type a number, from 1, at its first occurrence, when the number has bit 31 set and is followed
    by the object or the name of the type; afterwards only the number is written. Objects live at addresses. *)
Record otables : Type := MkOT { ot_classes : list class; ot_ptrs : list nat }.
Fixpoint position {A} (eqb : A -> A -> bool) (x : A) (l : list A) : option nat :=
  match l with [] => None | y :: l => if eqb x y then Some 0 else option_map S (position eqb x l) end.
Definition class_eqb (a b : class) : bool := bytes_eqb (class_name a) (class_name b).
Definition msb : N := (2 ^ 31)%N.
Definition save_ptr (heap : nat -> mono) (t : otables) (p : nat) : bytes * otables :=
  let m := heap p in
  let '(b1, cs) := match position class_eqb (mn_class m) (ot_classes t) with
    | Some i => (le 4 (N.of_nat (i + 1)), ot_classes t)
    | None => (le 4 (N.of_nat (length (ot_classes t) + 1) + msb) ++ save_string (class_name (mn_class m)), ot_classes t ++ [mn_class m])
    end in
  let '(b2, ps) := match position Nat.eqb p (ot_ptrs t) with
    | Some i => (le 4 (N.of_nat (i + 1)), ot_ptrs t)
    | None => (le 4 (N.of_nat (length (ot_ptrs t) + 1) + msb) ++ save_mono m, ot_ptrs t ++ [p])
    end in
  (b1 ++ b2, MkOT cs ps).
Fixpoint save_ptrs (heap : nat -> mono) (t : otables) (l : list nat) : bytes * otables :=
  match l with
  | [] => ([], t)
  | p :: l => let '(b, t) := save_ptr heap t p in let '(b', t') := save_ptrs heap t l in (b ++ b', t')
  end.
Definition save_comps (heap : nat -> mono) (t : otables) (l : list nat) : bytes * otables :=
  let '(b, t) := save_ptrs heap t l in (le 8 (N.of_nat (length l)) ++ b, t).
(** The types and objects read so far, by number; the address of a loaded object is its position in the list of objects. *)
Record itables : Type := MkIT { it_classes : list (N * class); it_ptrs : list (N * nat); it_objs : list mono }.
Fixpoint lookup {A} (n : N) (l : list (N * A)) : option A := match l with [] => None | (k, x) :: l => if (n =? k)%N then Some x else lookup n l end.
Definition load_ptr (t : itables) (b : bytes) : outcome (nat * itables * bytes) :=
  do id <- load_num 4 b;
  do c <- (if (msb <=? fst id)%N then
             do name <- load_string (snd id);
             match find_class (fst name) with Some c => Ok (c, (((fst id - msb)%N, c) :: it_classes t), snd name) | None => Throw end
           else match lookup (fst id) (it_classes t) with Some c => Ok (c, it_classes t, snd id) | None => Throw end);
  let '(c, cs, b) := c in
  do id <- load_num 4 b;
  if (msb <=? fst id)%N then
    do m <- load_mono c (snd id);
    let a := length (it_objs t) in
    Ok (a, MkIT cs (((fst id - msb)%N, a) :: it_ptrs t) (it_objs t ++ [fst m]), snd m)
  else match lookup (fst id) (it_ptrs t) with Some a => Ok (a, MkIT cs (it_ptrs t) (it_objs t), snd id) | None => Throw end.
Fixpoint load_ptrs (n : nat) (t : itables) (b : bytes) : outcome (list nat * itables * bytes) :=
  match n with
  | O => Ok ([], t, b)
  | S n => do r <- load_ptr t b; let '(a, t, b) := r in do r <- load_ptrs n t b; let '(l, t, b) := r in Ok (a :: l, t, b)
  end.
Definition load_comps (t : itables) (b : bytes) : outcome (list nat * itables * bytes) :=
  do n <- load_num 8 b; load_ptrs (N.to_nat (fst n)) t (snd n).
(** A triangular map: its components and whether it has coefficients of its own.
    repo: TriangularMap.h:126-133; the components are written twice *)
Definition save_tri (heap : nat -> mono) (t : otables) (comps : list nat) (moveCoeffs : bool) : bytes * otables :=
  let '(b1, t) := save_comps heap t comps in
  let '(b2, t) := save_comps heap t comps in
  (b1 ++ b2 ++ save_bool moveCoeffs, t).
(** repo: TriangularMap.h:135-145: the arguments given to the constructor *)
Definition load_tri (t : itables) (b : bytes) : outcome (list nat * bool * itables * bytes) :=
  do r <- load_comps t b; let '(comps, t, b) := r in
  do f <- load_bool b; Ok (comps, fst f, t, snd f).
