(** Model of MultiIndex, MultiIndexSet and FixedMultiIndexSet as seen from MATLAB.
    repo: bindings/matlab/mat/{MultiIndex,MultiIndexSet,FixedMultiIndexSet}.m,
    bindings/matlab/src/{MultiIndex,MultiIndexSet,FixedMultiIndexSet}_mex.cpp, external/mexplus.
    A wrapper holds an id; here it is the C++ object the id stands for. An exception thrown in a MEX function
    becomes a MATLAB error, here [Throw]; so is the error MATLAB raises for an unknown name.
    Not modelled: numbers that are not integers, single precision, arrays given as a position, more than 2^31 terms
    (the theorems ask for fewer), memory leaks, Visualize and Print, the text of errors. *)
From Coq Require Import ZArith String.
From Verif Require Import Base SpecMulti SpecMatlab MultiIndexModel MISetModel FixedSetModel.
Local Open Scope Z_scope.

(** * MATLAB arithmetic *)

(** [x + k] for a double constant k: the result has the class of x; integer classes saturate. *)
Definition saturate (c : cls) (z : Z) : Z :=
  match c with Double => z | _ => Z.max (least c) (Z.min (greatest c) z) end.
Definition ml_plus (x : num) (k : Z) : num := MkNum (class_of x) (saturate (class_of x) (value x + k)).

(** * mexplus *)

(** repo: mexplus/mxarray.h:912-919: a C cast of the element. From a double, undefined outside the range of the
    target; from an integer, modulo 2^32. *)
Definition get_uint (x : num) : outcome nat :=
  match class_of x with
  | Double => if (-1 <? value x) && (value x <? 2 ^ 32) then Ok (Z.to_nat (value x)) else UB
  | _ => Ok (Z.to_nat (value x mod 2 ^ 32))
  end.
Definition wrap_int (z : Z) : Z := (z + 2 ^ 31) mod 2 ^ 32 - 2 ^ 31.
Definition get_int (x : num) : outcome Z :=
  match class_of x with
  | Double => if (- 2 ^ 31 <=? value x) && (value x <? 2 ^ 31) then Ok (value x) else UB
  | _ => Ok (wrap_int (value x))
  end.
(** C++ conversion of int to unsigned int *)
Definition int_to_uint (z : Z) : nat := Z.to_nat (z mod 2 ^ 32).
(** repo: mexplus/mxarray.h:1225-1236, 1260-1274: the class follows the C++ type. [None] is the int -1; stored in a vector
    of unsigned int it is 2^32 - 1. *)
Definition int_of (o : option nat) : Z := match o with Some i => Z.of_nat i | None => -1 end.
Definition from_int (o : option nat) : num := MkNum Int32 (wrap_int (int_of o)).
Definition from_uint (z : Z) : num := MkNum UInt32 (z mod 2 ^ 32).

(** * MultiIndexSet *)

(** repo: MultiIndexSet.m:48-51, MultiIndexSet_mex.cpp:48-56 *)
Definition ml_IndexToMulti (s : mset) (x : num) : outcome vec :=
  do i <- get_uint (ml_plus x (-1)); ms_IndexToMulti s i.
(** repo: MultiIndexSet.m:71-74, MultiIndexSet_mex.cpp:83-90, MultiIndexSet.h:141 *)
Definition ml_at (s : mset) (x : num) : outcome vec :=
  do z <- get_int (ml_plus x (-1)); ms_IndexToMulti s (int_to_uint z).
(** repo: MultiIndexSet.h:148, operator[]: no check *)
Definition ms_bracket (s : mset) (z : Z) : outcome vec :=
  if z <? 0 then UB else do g <- raw_get (a2g s) (Z.to_nat z); raw_get (all s) g.
(** repo: MultiIndexSet.m:85-88, MultiIndexSet_mex.cpp:92-99: s\{x\} *)
Definition ml_brace (s : mset) (x : num) : outcome vec :=
  do z <- get_int (ml_plus x (-1)); ms_bracket s z.
(** repo: MultiIndexSet.m:76-91: what s\{x\}.Vector() gives. MATLAB hands the whole chain of subscripts to subsref, which reads the first
    one only in the case of braces. *)
Inductive sub := Brace (x : num) | CallVector.
Inductive mlval := MultiObj (v : vec) | Numbers (l : list nat).
Definition ml_subsref (s : mset) (chain : list sub) : outcome mlval :=
  match chain with
  | Brace x :: _ => do v <- ml_brace s x; Ok (MultiObj v)
  | _ => Throw
  end.

(** repo: MultiIndexSet.m:58-61, MultiIndexSet_mex.cpp:58-65 *)
Definition ml_MultiToIndex (s : mset) (v : vec) : outcome num :=
  do r <- ms_MultiToIndex s v; Ok (ml_plus (from_int r) 1).
(** repo: MultiIndexSet.m:93-95 *)
Definition ml_Size (s : mset) : num := from_uint (Z.of_nat (ms_Size s)).
(** repo: MultiIndexSet.m:118-120, MultiIndexSet_mex.cpp:146-153 *)
Definition ml_AddActive (s : mset) (v : vec) : outcome (mset * num) :=
  do r <- ms_AddActive s v; Ok (fst r, from_int (snd r)).
(** A std::vector<unsigned int> of positions, and adding 1 to each *)
Definition shift_all (l : list nat) : list num := map (fun i => ml_plus (from_uint (Z.of_nat i)) 1) l.
(** repo: MultiIndexSet.m:122-132, MultiIndexSet_mex.cpp:155-170 *)
Definition ml_Expand (s : mset) (x : num) : outcome (mset * list num) :=
  do i <- get_uint (ml_plus x (-1)); do r <- ms_Expand s i; Ok (fst r, shift_all (snd r)).
Definition ml_ExpandAll (s : mset) : outcome (mset * list num) :=
  do r <- ms_ExpandAll s; Ok (fst r, shift_all (snd r)).
(** repo: MultiIndexSet.m:134-143, MultiIndexSet_mex.cpp:182-198 *)
Definition ml_ForciblyExpand grow fuel (s : mset) (x : num) : outcome (mset * list num) :=
  do i <- get_uint (ml_plus x (-1)); do r <- ms_ForciblyExpand grow fuel s i; Ok (fst r, shift_all (snd r)).
Definition ml_ForciblyActivate grow fuel (s : mset) (v : vec) : outcome (mset * list num) :=
  do r <- ms_ForciblyActivate grow fuel s v; Ok (fst r, shift_all (snd r)).
(** repo: MultiIndexSet.m:145-152, MultiIndexSet_mex.cpp:200-212 *)
Definition ml_AdmissibleForwardNeighbors (s : mset) (x : num) : outcome (list vec) :=
  do i <- get_uint (ml_plus x (-1)); ms_AdmissibleForwardNeighbors s i.
(** repo: MultiIndexSet.m:154-157, 177-180 *)
Definition ml_Frontier (s : mset) : outcome (list num) := do l <- ms_Frontier s; Ok (shift_all l).
Definition ml_StrictFrontier (s : mset) : outcome (list num) := do l <- ms_StrictFrontier s; Ok (shift_all l).
(** repo: MultiIndexSet.m:159-175: lists of MultiIndex objects *)
Definition ml_Margin (s : mset) : outcome (list vec) := ms_Margin s.
Definition ml_ReducedMargin (s : mset) : outcome (list vec) := ms_ReducedMargin s.
(** repo: MultiIndexSet.m:182-186, MultiIndexSet_mex.cpp:256-263 *)
Definition ml_BackwardNeighbors (s : mset) (x : num) : outcome (list num) :=
  do i <- get_uint (ml_plus x (-1)); do l <- ms_BackwardNeighbors s i;
  Ok (map (fun o => ml_plus (from_uint (int_of o)) 1) l).
(** repo: MultiIndexSet.m:192-195, 201-209 *)
Definition ml_IsExpandable (s : mset) (x : num) : outcome bool :=
  do i <- get_uint (ml_plus x (-1)); ms_IsExpandable s i.
Definition ml_NumActiveForward (s : mset) (x : num) : outcome num :=
  do i <- get_uint (ml_plus x (-1)); do n <- ms_NumActiveForward s i; Ok (from_uint (Z.of_nat n)).
Definition ml_NumForward (s : mset) (x : num) : outcome num :=
  do i <- get_uint (ml_plus x (-1)); do n <- ms_NumForward s i; Ok (from_uint (Z.of_nat n)).
(** repo: MultiIndexSet.m:97-108, MultiIndexSet_mex.cpp:109-126, MultiIndexSet.h:168-189: the sum is a new set; neither operand changes *)
Definition ml_plus_set (s t : mset) : outcome mset := do r <- ms_Union s t; Ok (fst r).
Definition ml_plus_multi (s : mset) (v : vec) : outcome mset := do r <- ms_AddActive s v; Ok (fst r).

(** repo: MultiIndexSet_mex.cpp:172-180; the limiter of CreateTotalOrder defaults to None (MultiIndexSet.h:44-46) *)
Definition mex_DeepCopy (s : mset) : outcome mset :=
  do t <- ms_CreateTotalOrder (dim s) 0 (fun _ => true); do r <- ms_Union t s; Ok (fst r).
(** MATLAB looks a name up among the classes and functions on its path: repo: bindings/matlab/mat *)
Definition known : list string :=
  ["ATMOptions"; "AdaptiveTransportMap"; "AffineMap"; "ComposedMap"; "ConditionalMap"; "CreateComponent"; "CreateTriangular"; "DeserializeMap";
   "FixedMultiIndexSet"; "GaussianKLObjective"; "KokkosInitialize"; "MultiIndex"; "MultiIndexSet"; "ParameterizedFunction"; "TrainMap";
   "TrainOptions"; "TriangularMap"; "MapOptions"; "MParT_"]%string.
Definition resolves (name : string) : bool := existsb (String.eqb name) known.
(** repo: MultiIndexSet.m:53-56 *)
Definition ml_DeepCopy (s : mset) : outcome mset :=
  do t <- mex_DeepCopy s; if resolves "MultiIndeSet" then Ok t else Throw.

(** * FixedMultiIndexSet *)

(** repo: MultiIndexSet.m:219-221, FixedMultiIndexSet.m:8-11, FixedMultiIndexSet_mex.cpp:33-39; Fix compresses by default (MultiIndexSet.h:95) *)
Definition ml_Fix (s : mset) : outcome fset := ms_Fix true s.
(** repo: FixedMultiIndexSet.m:38-40, FixedMultiIndexSet_mex.cpp:57-63 *)
Definition mlf_IndexToMulti (f : fset) (x : num) : outcome vec :=
  do z <- get_int (ml_plus x (-1)); f_IndexToMulti f (int_to_uint z).
(** repo: FixedMultiIndexSet.m:33-36, FixedMultiIndexSet_mex.cpp:65-71 *)
Definition mlf_MultiToIndex (f : fset) (v : vec) : outcome num :=
  do r <- f_MultiToIndex f v; Ok (ml_plus (from_int r) 1).

(** * MultiIndex *)

(** repo: MultiIndex.m:54-60, MultiIndex_mex.cpp:72-89 *)
Definition mlm_Get (m : mi) (x : num) : outcome num :=
  do i <- get_uint (ml_plus x (-1)); do r <- mi_Get m i; Ok (from_uint (Z.of_nat r)).
Definition mlm_Set (m : mi) (x val : num) : outcome (mi * bool) :=
  do i <- get_uint (ml_plus x (-1)); do v <- get_uint val; mi_Set m i v.

(** repo: MultiIndex.m:1, 74-102: the methods of the class that compare. The class derives from handle, whose own methods
    eq, ne, lt, gt, le and ge compare identities, in an order of MATLAB's own: here that of [ident]. MATLAB runs an operator through the method of
    the lower-case name, taken from the class if it defines one and from handle if not. *)
Inductive relop := OpEq | OpNe | OpLt | OpGt | OpGe | OpLe.
Definition method_name (o : relop) : string :=
  match o with OpEq => "eq" | OpNe => "ne" | OpLt => "lt" | OpGt => "gt" | OpGe => "ge" | OpLe => "le" end.
Definition mi_methods : list (string * (mi -> mi -> outcome bool)) :=
  [("eq", mi_eq); ("ne", mi_ne); ("lt", mi_lt); ("gt", mi_gt); ("Ge", mi_ge); ("Le", mi_le)]%string.
Definition handle_method (o : relop) (a b : nat) : bool :=
  match o with
  | OpEq => (a =? b)%nat | OpNe => negb (a =? b)%nat | OpLt => (a <? b)%nat | OpGt => (b <? a)%nat
  | OpGe => (b <=? a)%nat | OpLe => (a <=? b)%nat
  end.
Definition ml_rel (o : relop) (a b : handle mi) : outcome bool :=
  match find (fun p => String.eqb (method_name o) (fst p)) mi_methods with
  | Some p => snd p (held a) (held b)
  | None => Ok (handle_method o (ident a) (ident b))
  end.
