(** Model of multi-indices as seen from Python and Julia. repo: bindings/python/src/MultiIndex.cpp,
    bindings/julia/src/MultiIndex.cpp.
    Python integers are unbounded; pybind11 refuses an argument that does not fit the C++ type with a
    TypeError, and turns std::out_of_range into an IndexError (its documented behaviour). The only
    exceptions the modelled calls throw are std::out_of_range: MultiIndex.cpp:70, 132 and
    vector::at. *)
From Verif Require Import Base SpecMulti SpecSeq MultiIndexModel MISetModel FixedSetModel.
Local Open Scope Z_scope.

Definition two32 : Z := 4294967296.
Definition two31 : Z := 2147483648.

(** pybind11 type casters of unsigned int and int. *)
Definition as_uint (z : Z) : option nat := if (0 <=? z) && (z <? two32) then Some (Z.to_nat z) else None.
Definition as_int (z : Z) : option Z := if (- two31 <=? z) && (z <? two31) then Some z else None.
(** Conversion of an int to unsigned int in C++. *)
Definition to_unsigned (z : Z) : nat := Z.to_nat (z mod two32).

Definition to_py {A} (o : outcome A) : pyres A :=
  match o with Ok a => Val a | Throw => IndexError | UB | Fuel => Crash end.

(** repo: bindings/python/src/MultiIndex.cpp:94 __getitem__, 93 __setitem__ (the returned flag is
    dropped by the assignment statement), 99 __len__. *)
Definition py_getitem (m : mi) (i : Z) : pyres nat :=
  match as_uint i with Some n => to_py (mi_Get m n) | None => TypeError end.
Definition py_setitem (m : mi) (i x : Z) : pyres mi :=
  match as_uint i, as_uint x with
  | Some n, Some v => to_py (do r <- mi_Set m n v; Ok (fst r))
  | _, _ => TypeError
  end.
Definition py_len (m : mi) : nat := mi_Length m.

(** A series of assignments m[i] = x. *)
Fixpoint py_assign (m : mi) (h : list (Z * Z)) : pyres mi :=
  match h with
  | [] => Val m
  | (i, x) :: r => match py_setitem m i x with Val m' => py_assign m' r | e => e end
  end.

(** repo: bindings/python/src/MultiIndex.cpp:113 __getitem__ of a set, which is MultiIndexSet::at
    (MultiIndexSet.h:141): an int that IndexToMulti takes as an unsigned int; 112 __len__ is
    MultiIndexSet::Length (MultiIndexSet.h:125), the dimension. *)
Definition pys_getitem (s : mset) (i : Z) : pyres vec :=
  match as_int i with Some z => to_py (ms_IndexToMulti s (to_unsigned z)) | None => TypeError end.
Definition pys_len (s : mset) : nat := dim s.

(** repo: bindings/julia/src/MultiIndex.cpp:80-82 setindex!, getindex. An index of type UInt32 or
    Int32; the subtraction wraps for the first and is undefined at the least value of the second. *)
Definition jl_getindex (m : mi) (ind : nat) : outcome nat := mi_Get m (to_unsigned (Z.of_nat ind - 1)).
Definition jl_setindex (m : mi) (val ind : nat) : outcome mi :=
  do r <- mi_Set m (to_unsigned (Z.of_nat ind - 1)) val; Ok (fst r).
Definition jls_getindex (s : mset) (ind : Z) : outcome vec :=
  if ind =? - two31 then UB else ms_IndexToMulti s (to_unsigned (ind - 1)).

(** ** Fixed sets built from arrays

    Memory: arrays, with their owner; [None] is an array whose memory was released. *)
Inductive owner := Caller | Library.
Definition memory : Type := list (owner * option (list nat)).
(** A FixedMultiIndexSet whose arrays are views: address and extent. *)
Record fobj : Type := MkFO {
  fo_dim : nat; fo_comp : bool;
  fo_starts : nat * nat; fo_dims : nat * nat; fo_orders : nat * nat;
  fo_max : list nat
}.

Definition contents (h : memory) (a : nat) : option (list nat) :=
  match nth_error h a with Some (_, c) => c | None => None end.
(** What the library sees through the views; every access to released memory is undefined, as an
    access to an empty list is. *)
Definition view_of (h : memory) (v : nat * nat) : list nat :=
  match contents h (fst v) with Some l => l | None => [] end.
Definition deref (h : memory) (p : fobj) : fset :=
  MkF (fo_dim p) (fo_comp p) (view_of h (fo_starts p)) (view_of h (fo_dims p)) (view_of h (fo_orders p)) (fo_max p).

(** repo: bindings/python/src/MultiIndex.cpp:156-160. pybind11 copies the numpy array into a temporary
    Eigen vector that lives until the call returns; VecToKokkos (ArrayConversions.h:470-474) wraps
    that temporary, and the constructor keeps the view (FixedMultiIndexSet.cpp:79). The offsets and
    dimensions are arrays of its own. *)
Definition py_fixed_dense (h : memory) (d : nat) (orders : list nat) : outcome (memory * fobj) :=
  do f <- f_make_dense d orders;
  let a := length h in
  Ok (h ++ [(Library, Some (fstarts f)); (Library, Some (fdims f)); (Caller, None)],
      MkFO d (fcomp f) (a, length (fstarts f)) (S a, length (fdims f)) (S (S a), length orders) (fmax f)).

(** repo: bindings/python/src/MultiIndex.cpp:162-181: the three arrays are copied. *)
Definition py_fixed_compressed (h : memory) (d : nat) (starts dims orders : list nat) : outcome (memory * fobj) :=
  do f <- f_make_compressed d starts dims orders;
  let a := length h in
  Ok (h ++ [(Library, Some starts); (Library, Some dims); (Library, Some orders)],
      MkFO d (fcomp f) (a, length starts) (S a, length dims) (S (S a), length orders) (fmax f)).

(** repo: bindings/python/src/MultiIndex.cpp:185-203; FixedMultiIndexSet.h:59-70,
    FixedMultiIndexSet.cpp:192-261 on the memory behind the views. *)
Definition fo_Length (p : fobj) : nat := fo_dim p.
Definition fo_Size (p : fobj) : nat :=
  if fo_comp p then (snd (fo_starts p) - 1)%nat else (snd (fo_orders p) / fo_dim p)%nat.
Definition fo_MaxDegrees (p : fobj) : list nat := fo_max p.
Definition fo_IndexToMulti (h : memory) (p : fobj) (i : nat) : outcome vec := f_IndexToMulti (deref h p) i.
Definition fo_MultiToIndex (h : memory) (p : fobj) (v : vec) : outcome (option nat) :=
  if fo_comp p then f_MultiToIndex (deref h p) v
  else ofind (fun i =>
         oforall (fun d => do m <- at_ v d; do o <- raw_get (view_of h (fo_orders p)) (d + i * fo_dim p)%nat; Ok (m =? o)%nat)
                 (seq 0 (fo_dim p)))
       (seq 0 (fo_Size p)).

(** What a program does afterwards: new arrays of its own, writes to them, releases of them, and more
    sets. Release of other sets is left out. *)
Inductive later : memory -> memory -> Prop :=
| l_done h : later h h
| l_new h l h' : later (h ++ [(Caller, Some l)]) h' -> later h h'
| l_write h a l h' : (exists c, nth_error h a = Some (Caller, Some c)) -> later (upd h a (Caller, Some l)) h' -> later h h'
| l_free h a h' : (exists c, nth_error h a = Some (Caller, Some c)) -> later (upd h a (Caller, None)) h' -> later h h'
| l_dense h d o h1 p h' : py_fixed_dense h d o = Ok (h1, p) -> later h1 h' -> later h h'
| l_compressed h d s i o h1 p h' : py_fixed_compressed h d s i o = Ok (h1, p) -> later h1 h' -> later h h'.
