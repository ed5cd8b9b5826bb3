(** Model of SetCoeffs, Coeffs and the use of coefficients from MATLAB, down to the bytes of the
    MATLAB array. repo: bindings/matlab/mat/{ConditionalMap,ParameterizedFunction}.m,
    src/{ConditionalMap,ParameterizedFunctionBase}_mex.cpp, MexArrayConversions.cpp,
    ParameterizedFunctionBase.cpp. *)
From Coq Require Import ZArith.
From Flocq Require Import IEEE754.Binary IEEE754.Bits.
From Verif Require Import Base SpecBytes.

(** The [n] bytes of a number, low byte first (the machine is taken to be little-endian). *)
Fixpoint le_bytes (n : nat) (z : Z) : list Z :=
  match n with
  | 0 => []
  | S n => (z mod 256)%Z :: le_bytes n (z / 256)%Z
  end.
Fixpoint of_le_bytes (l : list Z) : Z :=
  match l with
  | [] => 0%Z
  | b :: l => (b + 256 * of_le_bytes l)%Z
  end.
(** What mxGetData points to: the elements one after the other, each in the bytes of its class;
    negative integers in two's complement. *)
Definition memory (x : mlvec) : list Z :=
  match x with
  | Doubles l => flat_map (fun d => le_bytes 8 (bits_of_b64 d)) l
  | Singles l => flat_map (fun d => le_bytes 4 (bits_of_b32 d)) l
  | Ints c l => flat_map (le_bytes (width c)) l
  end.

(** repo: MexArrayConversions.cpp:7-34 MexToKokkos1d. The wrapper passes coeffs(:), so the array
    has numel rows and one column; the length is the larger of the two. The pointer is cast to
    double* whatever the class: the checks are commented out. *)
Record view1 : Type := View1 { vlen : nat; bytes : list Z }.
Definition MexToKokkos1d (x : mlvec) : view1 :=
  let rows := 1 in
  let cols := numel x in
  View1 (Nat.max rows cols) (memory x).

(** Reading entry [i] of the view; outside the memory of the MATLAB array it is undefined. *)
Definition load (v : view1) (i : nat) : outcome binary64 :=
  if 8 * i + 8 <=? length (bytes v) then Ok (b64_of_bits (of_le_bytes (firstn 8 (skipn (8 * i) (bytes v))))) else UB.
Fixpoint load_from (v : view1) (i n : nat) : outcome (list binary64) :=
  match n with
  | 0 => Ok []
  | S n => do d <- load v i; do l <- load_from v (i + 1) n; Ok (d :: l)
  end.
(** Kokkos::deep_copy into a view with the same length *)
Definition copy_in (v : view1) : outcome (list binary64) := load_from v 0 (vlen v).

(** A map or function without parts: numCoeffs and savedCoeffs, None if not allocated. *)
Record fn : Type := Fn { nc : nat; saved : option (list binary64) }.
Definition fresh (n : nat) : fn := Fn n None.

(** repo: ParameterizedFunctionBase.cpp:187-206 SetCoeffs. The resize at 198 gives a view of
    numCoeffs entries, which deep_copy then overwrites. *)
Definition SetCoeffs (f : fn) (v : view1) : outcome fn :=
  match saved f with
  | Some s =>
      if negb (vlen v =? nc f) then Throw
      else do l <- copy_in v; Ok (Fn (nc f) (Some l))
  | None => do l <- copy_in v; Ok (Fn (nc f) (Some l))
  end.
(** repo: ConditionalMap.m:105-107, ConditionalMap_mex.cpp:219-226; ParameterizedFunction.m:53-55,
    ParameterizedFunctionBase_mex.cpp:63-70. *)
Definition ml_SetCoeffs (f : fn) (x : mlvec) : outcome fn := SetCoeffs f (MexToKokkos1d x).
(** repo: ConditionalMap_mex.cpp:254-261; ParameterizedFunctionBase_mex.cpp:72-79: an array of class
    double with a copy of savedCoeffs. *)
Definition ml_Coeffs (f : fn) : mlvec := Doubles (match saved f with Some s => s | None => [] end).

(** The coefficients an evaluation reads: entries 0 to numCoeffs-1 of savedCoeffs. *)
Definition coeffs_read (f : fn) : outcome (list binary64) :=
  let s := match saved f with Some s => s | None => [] end in
  if nc f <=? length s then Ok (firstn (nc f) s) else UB.
(** repo: ParameterizedFunctionBase.cpp:333-362 CheckCoefficients *)
Definition CheckCoefficients (f : fn) : bool :=
  (nc f =? 0) || match saved f with None => false | Some s => length s =? nc f end.
(** Evaluate in C++ (25-34) checks first; the MEX function (ConditionalMap_mex.cpp:299-311) calls
    EvaluateImpl. *)
Definition cpp_uses (f : fn) : outcome (list binary64) := if CheckCoefficients f then coeffs_read f else Throw.
Definition ml_uses (f : fn) : outcome (list binary64) := coeffs_read f.

(** A MATLAB session that catches errors: a call that throws leaves the map as it was. *)
Fixpoint session (f : fn) (l : list mlvec) : outcome fn :=
  match l with
  | [] => Ok f
  | x :: l =>
      match ml_SetCoeffs f x with
      | Ok g => session g l
      | Throw => session f l
      | UB => UB
      | Fuel => Fuel
      end
  end.
