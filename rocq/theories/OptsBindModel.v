(** Model of how options reach the library from MATLAB, Python and Julia.
    MATLAB: the option classes in bindings/matlab/mat, the MEX functions that take options, and the parts of
    mexplus (bindings/matlab/external/mexplus) that count and convert arguments. Python and Julia: the setters that the
    bindings register. In C++ the options are structs with public members.
    Not modelled: MATLAB arrays with more than one element or complex entries as option values; named choices that are
    neither enumeration members nor text; Python's implicit conversions between number types; the messages printed for
    unknown names; GPU builds; the difference between 0 and -0. *)
From Coq Require Import Reals ZArith String Ascii.
From Verif Require Import Base SpecOpts.
Local Open Scope Z_scope.

(** * C++ *)

(** repo: MParT/MapOptions.h:47-100, the member initialisers *)
Definition cpp_map_default : map_opts :=
  MkMap ProbabilistHermite NegInf Inf SoftPlus AdaptiveSimpson (Rl (1 / 1000000)) (Rl (1 / 1000000)) 30 0 5 true true (Rl 0).
(** repo: MParT/TrainMap.h:17-36 *)
Definition cpp_train_default : train_opts :=
  MkTrain "LD_SLSQP" NegInf (Rl (1 / 1000)) (Rl (1 / 1000)) (Rl (1 / 10000)) (Rl (1 / 10000)) 1000 Inf 0.
(** repo: MParT/TrainMapAdaptive.h:19-25; MultiIndex() has length 0 *)
Definition cpp_atm_default : atm_opts := MkATM cpp_map_default cpp_train_default 10 2147483647 [].

(** C++ comparison of doubles and of enumerations *)
Definition num_eqb (a b : num) : bool :=
  match a, b with
  | Rl x, Rl y => if Req_EM_T x y then true else false
  | Inf, Inf | NegInf, NegInf => true
  | _, _ => false
  end.
Definition basis_code (b : basis) : Z := match b with ProbabilistHermite => 0 | PhysicistHermite => 1 | HermiteFunctions => 2 | OtherBasis c => c end.
Definition pos_code (p : posfun) : Z := match p with Exp => 0 | SoftPlus => 1 | OtherPos c => c end.
Definition quad_code (q : quad) : Z := match q with ClenshawCurtis => 0 | AdaptiveSimpson => 1 | AdaptiveClenshawCurtis => 2 | OtherQuad c => c end.
(** repo: MParT/MapOptions.h:110-126 *)
Definition map_eq (a b : map_opts) : bool :=
  let ret := true in
  let ret := ret && (basis_code (basisType a) =? basis_code (basisType b)) in
  let ret := ret && num_eqb (basisLB a) (basisLB b) in
  let ret := ret && num_eqb (basisUB a) (basisUB b) in
  let ret := ret && (pos_code (posFuncType a) =? pos_code (posFuncType b)) in
  let ret := ret && (quad_code (quadType a) =? quad_code (quadType b)) in
  let ret := ret && num_eqb (quadAbsTol a) (quadAbsTol b) in
  let ret := ret && num_eqb (quadRelTol a) (quadRelTol b) in
  let ret := ret && (quadMaxSub a =? quadMaxSub b) in
  let ret := ret && (quadMinSub a =? quadMinSub b) in
  let ret := ret && (quadPts a =? quadPts b) in
  let ret := ret && Bool.eqb (contDeriv a) (contDeriv b) in
  let ret := ret && Bool.eqb (basisNorm a) (basisNorm b) in
  let ret := ret && num_eqb (nugget a) (nugget b) in
  ret.
(** repo: bindings/python/src/MapOptions.cpp:40 and bindings/julia/src/MapOptions.cpp:68. ATMOptions inherits the comparison of
    MapOptions (bindings/python/src/TrainMapAdaptive.cpp:19, bindings/julia/src/TrainMapAdaptive.cpp:17), whose argument is a MapOptions by value. *)
Definition bound_eq_atm (a b : atm_opts) : bool := map_eq (a_map a) (a_map b).

(** * mexplus *)

(** repo: mexplus/arguments.h:102-150, 218-306: without optional arguments, the count must be exact *)
Definition input_count (n : nat) (l : list mx) : outcome unit := if (length l =? n)%nat then Ok tt else Throw.
(** repo: mexplus/arguments.h:160-167 *)
Definition arg (l : list mx) (i : nat) : outcome mx := match nth_error l i with Some v => Ok v | None => Throw end.
(** repo: mexplus/arguments.h:363-377 *)
Definition output_count (nlhs max : nat) : outcome unit := if (max <? nlhs)%nat then Throw else Ok tt.

(** Conversion of a double to an integer type in C++: towards zero; undefined outside the range *)
Definition trunc (r : R) : Z := if Rle_dec 0 r then Int_part r else - Int_part (- r).
Definition to_range (lo hi : Z) (n : num) : outcome Z :=
  match n with Rl r => if (lo <=? trunc r) && (trunc r <? hi) then Ok (trunc r) else UB | _ => UB end.
(** repo: mexplus/mxarray.h:912-947, 972-999, 1442-1470: the first element of the array, converted. A text gives the code of its first character. *)
Definition first_code (s : string) : outcome Z := match s with EmptyString => Throw | String c _ => Ok (Z.of_N (N_of_ascii c)) end.
Definition get_double (l : list mx) (i : nat) : outcome num :=
  do v <- arg l i;
  match v with
  | Num n => Ok n
  | Log b => Ok (Rl (if b then 1 else 0))
  | Str s => do c <- first_code s; Ok (Rl (IZR c))
  | Id n => Ok (Rl (INR n))
  | Ids (n :: _) => Ok (Rl (INR n))
  | Ids [] => Throw
  end.
Definition get_unsigned (l : list mx) (i : nat) : outcome Z := do n <- get_double l i; to_range 0 4294967296 n.
Definition get_int (l : list mx) (i : nat) : outcome Z := do n <- get_double l i; to_range (-2147483648) 2147483648 n.
Definition get_bool (l : list mx) (i : nat) : outcome bool :=
  do n <- get_double l i; Ok (match n with Rl r => if Req_EM_T r 0 then false else true | _ => true end).
(** repo: mexplus/mxarray.h:1390-1415. Simplified: numbers, which would become characters, are refused. *)
Definition get_string (l : list mx) (i : nat) : outcome string := do v <- arg l i; match v with Str s => Ok s | _ => Throw end.
(** repo: mexplus Session::get: the object behind a handle, or an error *)
Definition get_handle (l : list mx) (i : nat) : outcome nat := do v <- arg l i; match v with Id n => Ok n | _ => Throw end.
Definition get_handles (l : list mx) (i : nat) : outcome (list nat) := do v <- arg l i; match v with Ids n => Ok n | Id n => Ok [n] | _ => Throw end.

(** * Conversions of options *)

(** repo: bindings/matlab/src/MexOptionsConversions.cpp:14-22, 24-30, 32-40 *)
Definition basis_of (s : string) (default : basis) : basis :=
  if String.eqb s "ProbabilistHermite" then ProbabilistHermite
  else if String.eqb s "PhysicistHermite" then PhysicistHermite
  else if String.eqb s "HermiteFunctions" then HermiteFunctions else default.
Definition pos_of (s : string) (default : posfun) : posfun :=
  if String.eqb s "Exp" then Exp else if String.eqb s "SoftPlus" then SoftPlus else default.
Definition quad_of (s : string) (default : quad) : quad :=
  if String.eqb s "ClenshawCurtis" then ClenshawCurtis
  else if String.eqb s "AdaptiveSimpson" then AdaptiveSimpson
  else if String.eqb s "AdaptiveClenshawCurtis" then AdaptiveClenshawCurtis else default.
(** repo: bindings/matlab/src/MexOptionsConversions.cpp:6-53 *)
Definition MapOptionsFromMatlab (bT pT qT : string) (absTol relTol : num) (maxSub minSub pts : Z) (deriv : bool) (lb ub : num) (norm : bool) (nug : num) : map_opts :=
  MkMap (basis_of bT (basisType cpp_map_default)) lb ub (pos_of pT (posFuncType cpp_map_default)) (quad_of qT (quadType cpp_map_default))
        absTol relTol maxSub minSub pts deriv norm nug.
(** The thirteen arguments from position [i] on, as every MEX function that builds a map reads them
    (repo: ConditionalMap_mex.cpp:125-129, 140-144, 155-159, ParameterizedFunctionBase_mex.cpp:46-50, 212-216) *)
Definition read_map (l : list mx) (i : nat) : outcome map_opts :=
  do bT <- get_string l i;
  do pT <- get_string l (i + 1)%nat;
  do qT <- get_string l (i + 2)%nat;
  do absTol <- get_double l (i + 3)%nat;
  do relTol <- get_double l (i + 4)%nat;
  do maxSub <- get_unsigned l (i + 5)%nat;
  do minSub <- get_unsigned l (i + 6)%nat;
  do pts <- get_unsigned l (i + 7)%nat;
  do deriv <- get_bool l (i + 8)%nat;
  do lb <- get_double l (i + 9)%nat;
  do ub <- get_double l (i + 10)%nat;
  do norm <- get_bool l (i + 11)%nat;
  do nug <- get_double l (i + 12)%nat;
  Ok (MapOptionsFromMatlab bT pT qT absTol relTol maxSub minSub pts deriv lb ub norm nug).
(** repo: bindings/matlab/src/MexOptionsConversions.cpp:90-102 *)
Definition TrainOptionsFromMatlab (l : list mx) (start : nat) : outcome train_opts :=
  do alg <- get_string l (start + 0)%nat;
  do stopval <- get_double l (start + 1)%nat;
  do ftol_rel <- get_double l (start + 2)%nat;
  do ftol_abs <- get_double l (start + 3)%nat;
  do xtol_rel <- get_double l (start + 4)%nat;
  do xtol_abs <- get_double l (start + 5)%nat;
  do maxeval <- get_int l (start + 6)%nat;
  do maxtime <- get_double l (start + 7)%nat;
  do verb <- get_int l (start + 8)%nat;
  Ok (MkTrain alg stopval ftol_rel ftol_abs xtol_rel xtol_abs maxeval maxtime verb).
(** repo: bindings/matlab/src/MexOptionsConversions.cpp:104-183; [nugget] keeps the default *)
Definition ATMOptionsFromMatlab (indices : nat -> option (list nat)) (l : list mx) (start : nat) : outcome atm_opts :=
  do h <- get_handle l (start + 23)%nat;
  do deg <- (match indices h with Some d => Ok d | None => Throw end);
  do bT <- get_string l (start + 0)%nat;
  do pT <- get_string l (start + 1)%nat;
  do qT <- get_string l (start + 2)%nat;
  do absTol <- get_double l (start + 3)%nat;
  do relTol <- get_double l (start + 4)%nat;
  do maxSub <- get_unsigned l (start + 5)%nat;
  do minSub <- get_unsigned l (start + 6)%nat;
  do pts <- get_unsigned l (start + 7)%nat;
  do deriv <- get_bool l (start + 8)%nat;
  do lb <- get_double l (start + 9)%nat;
  do ub <- get_double l (start + 10)%nat;
  do norm <- get_bool l (start + 11)%nat;
  do alg <- get_string l (start + 12)%nat;
  do stopval <- get_double l (start + 13)%nat;
  do ftol_rel <- get_double l (start + 14)%nat;
  do ftol_abs <- get_double l (start + 15)%nat;
  do xtol_rel <- get_double l (start + 16)%nat;
  do xtol_abs <- get_double l (start + 17)%nat;
  do maxeval <- get_int l (start + 18)%nat;
  do maxtime <- get_double l (start + 19)%nat;
  do verb <- get_int l (start + 20)%nat;
  do patience <- get_unsigned l (start + 21)%nat;
  do size <- get_unsigned l (start + 22)%nat;
  Ok (MkATM (MkMap (basis_of bT (basisType cpp_map_default)) lb ub (pos_of pT (posFuncType cpp_map_default)) (quad_of qT (quadType cpp_map_default))
                   absTol relTol maxSub minSub pts deriv norm (nugget cpp_map_default))
            (MkTrain alg stopval ftol_rel ftol_abs xtol_rel xtol_abs maxeval maxtime verb) patience size deg).
(** repo: bindings/matlab/src/MexOptionsConversions.cpp:55-87 *)
Definition MapOptionsToMatlab (o : map_opts) : list mx :=
  [ Str (match basisType o with ProbabilistHermite => "ProbabilistHermite" | PhysicistHermite => "PhysicistHermite" | HermiteFunctions => "HermiteFunctions" | OtherBasis _ => "" end);
    Str (match posFuncType o with Exp => "Exp" | SoftPlus => "SoftPlus" | OtherPos _ => "" end);
    Str (match quadType o with ClenshawCurtis => "ClenshawCurtis" | AdaptiveSimpson => "AdaptiveSimpson" | AdaptiveClenshawCurtis => "AdaptiveClenshawCurtis" | OtherQuad _ => "" end);
    Num (quadAbsTol o); Num (quadRelTol o); Num (Rl (IZR (quadMaxSub o))); Num (Rl (IZR (quadMinSub o))); Num (Rl (IZR (quadPts o)));
    Log (contDeriv o); Num (basisLB o); Num (basisUB o); Log (basisNorm o); Num (nugget o) ].

(** * MEX functions: what each hands to the library *)

(** repo: ConditionalMap_mex.cpp:116-132 (ConditionalMap_newTotalTriMap) *)
Definition mex_newTotalTriMap (l : list mx) : outcome (Z * Z * Z * map_opts) :=
  do _ <- input_count 16 l;
  do inputDim <- get_unsigned l 0;
  do outputDim <- get_unsigned l 1;
  do totalOrder <- get_unsigned l 2;
  do opts <- read_map l 3;
  Ok (inputDim, outputDim, totalOrder, opts).
(** repo: ConditionalMap_mex.cpp:134-147 and 149-162 (ConditionalMap_newMap, ConditionalMap_newMapFixed) *)
Definition mex_newMap (l : list mx) : outcome (nat * map_opts) :=
  do _ <- input_count 14 l;
  do mset <- get_handle l 0;
  do opts <- read_map l 1;
  Ok (mset, opts).
Definition mex_newMapFixed (l : list mx) : outcome (nat * map_opts) :=
  do _ <- input_count 14 l;
  do mset <- get_handle l 0;
  do opts <- read_map l 1;
  Ok (mset, opts).
(** repo: ParameterizedFunctionBase_mex.cpp:39-54 *)
Definition mex_ParameterizedFunction_newMap (l : list mx) : outcome (Z * nat * map_opts) :=
  do _ <- input_count 15 l;
  do outputDim <- get_unsigned l 0;
  do mset <- get_handle l 1;
  do opts <- read_map l 2;
  Ok (outputDim, mset, opts).
(** repo: ParameterizedFunctionBase_mex.cpp:204-224: the file name and the options written to it *)
Definition mex_MapOptions_Serialize (l : list mx) : outcome (string * map_opts) :=
  do _ <- input_count 14 l;
  do filename <- get_string l 0;
  do opts <- read_map l 1;
  Ok (filename, opts).
(** repo: ParameterizedFunctionBase_mex.cpp:227-245 and mexplus/arguments.h:380-383; [o]: the options in the file, [nlhs]: how many results the caller wants *)
Definition mex_MapOptions_Deserialize (nlhs : nat) (l : list mx) (o : map_opts) : outcome (list mx) :=
  do _ <- input_count 1 l;
  do _ <- output_count nlhs 12;
  do _ <- get_string l 0;
  Ok (firstn nlhs (MapOptionsToMatlab o)).
(** repo: ConditionalMap_mex.cpp:195-208 *)
Definition mex_TrainMap (l : list mx) : outcome (nat * nat * train_opts) :=
  do _ <- input_count 11 l;
  do map <- get_handle l 0;
  do obj <- get_handle l 1;
  do opts <- TrainOptionsFromMatlab l 2;
  Ok (map, obj, opts).
(** repo: ConditionalMap_mex.cpp:39-62 *)
Definition mex_TrainMapAdaptive (indices : nat -> option (list nat)) (l : list mx) : outcome (list nat * nat * atm_opts) :=
  do _ <- input_count 26 l;
  do msets <- get_handles l 0;
  do obj <- get_handle l 1;
  do opts <- ATMOptionsFromMatlab indices l 2;
  Ok (msets, obj, opts).

(** * The MATLAB classes *)

(** An object of class MapOptions, TrainOptions or ATMOptions (which inherits from both) *)
Inductive ml_obj : Type := OMap (u : ml_map) | OTrain (u : ml_train) | OATM (u : ml_atm).
(** repo: mat/MapOptions/MapOptions.m:58-72 *)
Definition mexOptions_map (u : ml_map) : list mx :=
  [ Str (m_basisType u); Str (m_posFuncType u); Str (m_quadType u); m_quadAbsTol u; m_quadRelTol u; m_quadMaxSub u; m_quadMinSub u; m_quadPts u;
    m_contDeriv u; m_basisLB u; m_basisUB u; m_basisNorm u; m_nugget u ].
(** repo: mat/TrainOptions.m:42-52 *)
Definition mexOptions_train (u : ml_train) : list mx :=
  [ Str (m_opt_alg u); m_opt_stopval u; m_opt_ftol_rel u; m_opt_ftol_abs u; m_opt_xtol_rel u; m_opt_xtol_abs u; m_opt_maxeval u; m_opt_maxtime u; m_verbose u ].
(** repo: mat/ATMOptions.m:17-42 *)
Definition mexOptions_atm (a : ml_atm) : list mx :=
  let u := m_map a in let t := m_train a in
  [ Str (m_basisType u); Str (m_posFuncType u); Str (m_quadType u); m_quadAbsTol u; m_quadRelTol u; m_quadMaxSub u; m_quadMinSub u; m_quadPts u;
    m_contDeriv u; m_basisLB u; m_basisUB u; m_basisNorm u;
    Str (m_opt_alg t); m_opt_stopval t; m_opt_ftol_rel t; m_opt_ftol_abs t; m_opt_xtol_rel t; m_opt_xtol_abs t; m_opt_maxeval t; m_opt_maxtime t; m_verbose t;
    m_maxPatience a; m_maxSize a; Id (m_maxDegrees a) ].
Definition getMexOptions (x : ml_obj) : list mx := match x with OMap u => mexOptions_map u | OTrain t => mexOptions_train t | OATM a => mexOptions_atm a end.

(** repo: mat/ConditionalMap.m:38-58, MultiIndexSet and FixedMultiIndexSet *)
Definition ml_ConditionalMap (mset : nat) (x : ml_obj) : outcome (nat * map_opts) := mex_newMap (Id mset :: getMexOptions x).
Definition ml_ConditionalMap_fixed (mset : nat) (x : ml_obj) : outcome (nat * map_opts) := mex_newMapFixed (Id mset :: getMexOptions x).
(** repo: mat/ConditionalMap.m:67-81 *)
Definition ml_ConditionalMap_order (inputDim outputDim totalOrder : mx) (x : ml_obj) : outcome (Z * Z * Z * map_opts) :=
  mex_newTotalTriMap (inputDim :: outputDim :: totalOrder :: getMexOptions x).
(** repo: mat/ParameterizedFunction.m:31-41 *)
Definition ml_ParameterizedFunction (outputDim : mx) (mset : nat) (x : ml_obj) : outcome (Z * nat * map_opts) :=
  mex_ParameterizedFunction_newMap (outputDim :: Id mset :: getMexOptions x).
(** repo: mat/MapOptions/MapOptions.m:91-96 *)
Definition ml_Serialize (filename : string) (u : ml_map) : outcome (string * map_opts) :=
  mex_MapOptions_Serialize
    [ Str filename; Str (m_basisType u); Str (m_posFuncType u); Str (m_quadType u); m_quadAbsTol u; m_quadRelTol u; m_quadMaxSub u; m_quadMinSub u; m_quadPts u;
      m_contDeriv u; m_basisLB u; m_basisUB u; m_basisNorm u; m_nugget u ].
(** repo: mat/MapOptions/MapOptions.m:98-124; the properties read back, or an error *)
Definition ml_Deserialize (filename : string) (o : map_opts) : outcome (list mx) :=
  let options_len := 13%nat in mex_MapOptions_Deserialize options_len [Str filename] o.
(** repo: mat/TrainMap.m:1-10 *)
Definition ml_TrainMap (map objective : nat) (x : ml_obj) : outcome (nat * nat * train_opts) := mex_TrainMap (Id map :: Id objective :: getMexOptions x).
(** repo: mat/AdaptiveTransportMap.m:1-12 *)
Definition ml_TrainMapAdaptive (indices : nat -> option (list nat)) (msets : list nat) (objective : nat) (x : ml_obj) : outcome (list nat * nat * atm_opts) :=
  mex_TrainMapAdaptive indices (Ids msets :: Id objective :: getMexOptions x).

(** repo: mat/MapOptions/MapOptions.m:2-16 *)
Definition ml_map_default : ml_map :=
  MkMlMap "ProbabilistHermite" "SoftPlus" "AdaptiveSimpson" (Num (Rl (1 / 1000000))) (Num (Rl (1 / 1000000))) (Num (Rl 30)) (Num (Rl 0)) (Num (Rl 5))
    (Log true) (Num NegInf) (Num Inf) (Log true) (Num (Rl 0)).
(** repo: mat/TrainOptions.m:2-12 *)
Definition ml_train_default : ml_train :=
  MkMlTrain "LD_SLSQP" (Num NegInf) (Num (Rl (1 / 1000))) (Num (Rl (1 / 1000))) (Num (Rl (1 / 10000))) (Num (Rl (1 / 10000))) (Num (Rl 30)) (Num (Rl 100)) (Num (Rl 0)).
(** repo: mat/MultiIndex.m:23-34, MultiIndex_mex.cpp:31-38, MultiIndex.h:40-51: MultiIndex(v) with one argument is the multi-index with the entries of v
    (negative ones become 0); a number is a matrix with one entry *)
Definition ml_MultiIndex (entries : list Z) : list nat := map (fun z => if 0 <? z then Z.to_nat z else 0%nat) entries.
(** repo: mat/ATMOptions.m:2-6; [h]: the handle of MultiIndex(0) *)
Definition ml_atm_default (h : nat) : ml_atm := MkMlAtm ml_map_default ml_train_default (Num (Rl 10)) (Num (Rl 10)) h.
Definition default_degrees : list nat := ml_MultiIndex [0].

(** * Python *)

(** repo: bindings/python/src/MapOptions.cpp:43-55, TrainMap.cpp:20-28, TrainMapAdaptive.cpp:19-25: the attributes of each class and the members they stand for *)
Definition py_map_attrs : list (field * field) :=
  [(F_basisType, F_basisType); (F_basisLB, F_basisLB); (F_basisUB, F_basisUB); (F_basisNorm, F_basisNorm); (F_posFuncType, F_posFuncType);
   (F_quadType, F_quadType); (F_quadAbsTol, F_quadAbsTol); (F_quadRelTol, F_quadRelTol); (F_quadMaxSub, F_quadMaxSub); (F_quadMinSub, F_quadMinSub);
   (F_quadPts, F_quadPts); (F_contDeriv, F_contDeriv); (F_nugget, F_nugget)].
Definition py_train_attrs : list (field * field) :=
  [(F_opt_alg, F_opt_alg); (F_opt_stopval, F_opt_stopval); (F_opt_ftol_rel, F_opt_ftol_rel); (F_opt_ftol_abs, F_opt_ftol_abs);
   (F_opt_xtol_rel, F_opt_xtol_rel); (F_opt_xtol_abs, F_opt_xtol_abs); (F_opt_maxeval, F_opt_maxeval); (F_opt_maxtime, F_opt_maxtime); (F_verbose, F_verbose)].
Definition py_attrs (k : class) : list (field * field) :=
  match k with
  | MapOptions => py_map_attrs
  | TrainOptions => py_train_attrs
  | ATMOptions => [(F_maxPatience, F_maxPatience); (F_maxSize, F_maxSize); (F_maxDegrees, F_maxDegrees)] ++ py_map_attrs ++ py_train_attrs
  end.
Fixpoint lookup (f : field) (l : list (field * field)) : option field :=
  match l with [] => None | (a, m) :: l => if field_eq_dec f a then Some m else lookup f l end.

(** Updates of one member *)
Definition upd_map (o : atm_opts) (m : map_opts) : atm_opts := MkATM m (a_train o) (maxPatience o) (maxSize o) (maxDegrees o).
Definition upd_train (o : atm_opts) (t : train_opts) : atm_opts := MkATM (a_map o) t (maxPatience o) (maxSize o) (maxDegrees o).
(** The assignment opts.member = v, where v has the type of the member. A value of another type cannot be assigned. *)
Definition assign (f : field) (v : value) (o : atm_opts) : option atm_opts :=
  let m := a_map o in let t := a_train o in
  match f, v with
  | F_basisType, VBasis x => Some (upd_map o (MkMap x (basisLB m) (basisUB m) (posFuncType m) (quadType m) (quadAbsTol m) (quadRelTol m) (quadMaxSub m) (quadMinSub m) (quadPts m) (contDeriv m) (basisNorm m) (nugget m)))
  | F_basisLB, VNum x => Some (upd_map o (MkMap (basisType m) x (basisUB m) (posFuncType m) (quadType m) (quadAbsTol m) (quadRelTol m) (quadMaxSub m) (quadMinSub m) (quadPts m) (contDeriv m) (basisNorm m) (nugget m)))
  | F_basisUB, VNum x => Some (upd_map o (MkMap (basisType m) (basisLB m) x (posFuncType m) (quadType m) (quadAbsTol m) (quadRelTol m) (quadMaxSub m) (quadMinSub m) (quadPts m) (contDeriv m) (basisNorm m) (nugget m)))
  | F_posFuncType, VPos x => Some (upd_map o (MkMap (basisType m) (basisLB m) (basisUB m) x (quadType m) (quadAbsTol m) (quadRelTol m) (quadMaxSub m) (quadMinSub m) (quadPts m) (contDeriv m) (basisNorm m) (nugget m)))
  | F_quadType, VQuad x => Some (upd_map o (MkMap (basisType m) (basisLB m) (basisUB m) (posFuncType m) x (quadAbsTol m) (quadRelTol m) (quadMaxSub m) (quadMinSub m) (quadPts m) (contDeriv m) (basisNorm m) (nugget m)))
  | F_quadAbsTol, VNum x => Some (upd_map o (MkMap (basisType m) (basisLB m) (basisUB m) (posFuncType m) (quadType m) x (quadRelTol m) (quadMaxSub m) (quadMinSub m) (quadPts m) (contDeriv m) (basisNorm m) (nugget m)))
  | F_quadRelTol, VNum x => Some (upd_map o (MkMap (basisType m) (basisLB m) (basisUB m) (posFuncType m) (quadType m) (quadAbsTol m) x (quadMaxSub m) (quadMinSub m) (quadPts m) (contDeriv m) (basisNorm m) (nugget m)))
  | F_quadMaxSub, VInt x => Some (upd_map o (MkMap (basisType m) (basisLB m) (basisUB m) (posFuncType m) (quadType m) (quadAbsTol m) (quadRelTol m) x (quadMinSub m) (quadPts m) (contDeriv m) (basisNorm m) (nugget m)))
  | F_quadMinSub, VInt x => Some (upd_map o (MkMap (basisType m) (basisLB m) (basisUB m) (posFuncType m) (quadType m) (quadAbsTol m) (quadRelTol m) (quadMaxSub m) x (quadPts m) (contDeriv m) (basisNorm m) (nugget m)))
  | F_quadPts, VInt x => Some (upd_map o (MkMap (basisType m) (basisLB m) (basisUB m) (posFuncType m) (quadType m) (quadAbsTol m) (quadRelTol m) (quadMaxSub m) (quadMinSub m) x (contDeriv m) (basisNorm m) (nugget m)))
  | F_contDeriv, VBool x => Some (upd_map o (MkMap (basisType m) (basisLB m) (basisUB m) (posFuncType m) (quadType m) (quadAbsTol m) (quadRelTol m) (quadMaxSub m) (quadMinSub m) (quadPts m) x (basisNorm m) (nugget m)))
  | F_basisNorm, VBool x => Some (upd_map o (MkMap (basisType m) (basisLB m) (basisUB m) (posFuncType m) (quadType m) (quadAbsTol m) (quadRelTol m) (quadMaxSub m) (quadMinSub m) (quadPts m) (contDeriv m) x (nugget m)))
  | F_nugget, VNum x => Some (upd_map o (MkMap (basisType m) (basisLB m) (basisUB m) (posFuncType m) (quadType m) (quadAbsTol m) (quadRelTol m) (quadMaxSub m) (quadMinSub m) (quadPts m) (contDeriv m) (basisNorm m) x))
  | F_opt_alg, VStr x => Some (upd_train o (MkTrain x (opt_stopval t) (opt_ftol_rel t) (opt_ftol_abs t) (opt_xtol_rel t) (opt_xtol_abs t) (opt_maxeval t) (opt_maxtime t) (verbose t)))
  | F_opt_stopval, VNum x => Some (upd_train o (MkTrain (opt_alg t) x (opt_ftol_rel t) (opt_ftol_abs t) (opt_xtol_rel t) (opt_xtol_abs t) (opt_maxeval t) (opt_maxtime t) (verbose t)))
  | F_opt_ftol_rel, VNum x => Some (upd_train o (MkTrain (opt_alg t) (opt_stopval t) x (opt_ftol_abs t) (opt_xtol_rel t) (opt_xtol_abs t) (opt_maxeval t) (opt_maxtime t) (verbose t)))
  | F_opt_ftol_abs, VNum x => Some (upd_train o (MkTrain (opt_alg t) (opt_stopval t) (opt_ftol_rel t) x (opt_xtol_rel t) (opt_xtol_abs t) (opt_maxeval t) (opt_maxtime t) (verbose t)))
  | F_opt_xtol_rel, VNum x => Some (upd_train o (MkTrain (opt_alg t) (opt_stopval t) (opt_ftol_rel t) (opt_ftol_abs t) x (opt_xtol_abs t) (opt_maxeval t) (opt_maxtime t) (verbose t)))
  | F_opt_xtol_abs, VNum x => Some (upd_train o (MkTrain (opt_alg t) (opt_stopval t) (opt_ftol_rel t) (opt_ftol_abs t) (opt_xtol_rel t) x (opt_maxeval t) (opt_maxtime t) (verbose t)))
  | F_opt_maxeval, VInt x => Some (upd_train o (MkTrain (opt_alg t) (opt_stopval t) (opt_ftol_rel t) (opt_ftol_abs t) (opt_xtol_rel t) (opt_xtol_abs t) x (opt_maxtime t) (verbose t)))
  | F_opt_maxtime, VNum x => Some (upd_train o (MkTrain (opt_alg t) (opt_stopval t) (opt_ftol_rel t) (opt_ftol_abs t) (opt_xtol_rel t) (opt_xtol_abs t) (opt_maxeval t) x (verbose t)))
  | F_verbose, VInt x => Some (upd_train o (MkTrain (opt_alg t) (opt_stopval t) (opt_ftol_rel t) (opt_ftol_abs t) (opt_xtol_rel t) (opt_xtol_abs t) (opt_maxeval t) (opt_maxtime t) x))
  | F_maxPatience, VInt x => Some (MkATM m t x (maxSize o) (maxDegrees o))
  | F_maxSize, VInt x => Some (MkATM m t (maxPatience o) x (maxDegrees o))
  | F_maxDegrees, VDeg x => Some (MkATM m t (maxPatience o) (maxSize o) x)
  | _, _ => None
  end.
(** pybind11's conversion of a Python value to the type of a member: an enumerator, an integer in range, and so on; TypeError otherwise *)
Definition py_convert (m : field) (v : value) : option value :=
  match m, v with
  | F_basisType, VBasis (OtherBasis _) | F_posFuncType, VPos (OtherPos _) | F_quadType, VQuad (OtherQuad _) => None
  | (F_quadMaxSub | F_quadMinSub | F_quadPts | F_maxPatience | F_maxSize), VInt z => if (0 <=? z) && (z <? 4294967296) then Some v else None
  | (F_opt_maxeval | F_verbose), VInt z => if (-2147483648 <=? z) && (z <? 2147483648) then Some v else None
  | _, _ => Some v
  end.
(** The statement o.f = v on an object of class [k]. The result is the object afterwards; an assignment that raises leaves it as it was. *)
Definition py_set (k : class) (o : atm_opts) (fv : field * value) : atm_opts :=
  match lookup (fst fv) (py_attrs k) with
  | None => o
  | Some m => match py_convert m (snd fv) with None => o | Some v => match assign m v o with Some o' => o' | None => o end end
  end.
(** The expression o.f *)
Definition py_get (k : class) (f : field) (o : atm_opts) : outcome value :=
  match lookup f (py_attrs k) with None => Throw | Some m => Ok (holds m o) end.
Definition py_program (k : class) (h : list (field * value)) : atm_opts := fold_left (py_set k) h cpp_atm_default.

(** * Julia *)

(** repo: bindings/julia/src/MapOptions.cpp:33-45, TrainMap.cpp:6-12, TrainMapAdaptive.cpp:20-29: the setters of each class. ATMOptions has those of its
    supertype MapOptions (TrainMapAdaptive.cpp:11-14). *)
Definition jl_map_setters : list (field * field) :=
  [(F_basisType, F_basisType); (F_basisLB, F_basisLB); (F_basisUB, F_basisUB); (F_basisNorm, F_basisNorm); (F_posFuncType, F_posFuncType);
   (F_quadType, F_quadType); (F_quadAbsTol, F_quadAbsTol); (F_quadRelTol, F_quadRelTol); (F_quadMaxSub, F_quadMaxSub); (F_quadMinSub, F_quadMinSub);
   (F_quadPts, F_quadPts); (F_contDeriv, F_contDeriv); (F_nugget, F_nugget)].
Definition jl_train_setters : list (field * field) :=
  [(F_opt_alg, F_opt_alg); (F_opt_ftol_rel, F_opt_ftol_rel); (F_opt_ftol_abs, F_opt_ftol_abs); (F_opt_xtol_rel, F_opt_xtol_rel); (F_opt_xtol_abs, F_opt_xtol_abs);
   (F_opt_maxeval, F_opt_maxeval); (F_verbose, F_verbose)].
Definition jl_setters (k : class) : list (field * field) :=
  match k with
  | MapOptions => jl_map_setters
  | TrainOptions => jl_train_setters
  | ATMOptions =>
      [(F_opt_alg, F_opt_alg); (F_opt_ftol_rel, F_opt_ftol_rel); (F_opt_ftol_abs, F_opt_ftol_abs); (F_opt_xtol_rel, F_opt_xtol_rel); (F_opt_xtol_abs, F_opt_xtol_abs);
       (F_opt_maxeval, F_opt_maxeval); (F_verbose, F_verbose); (F_maxPatience, F_maxPatience); (F_maxSize, F_maxSize); (F_maxDegrees, F_maxDegrees)] ++ jl_map_setters
  end.
(** static_cast from unsigned int to an enumeration *)
Definition basis_cast (c : Z) : basis := match c with 0 => ProbabilistHermite | 1 => PhysicistHermite | 2 => HermiteFunctions | c => OtherBasis c end.
Definition pos_cast (c : Z) : posfun := match c with 0 => Exp | 1 => SoftPlus | c => OtherPos c end.
Definition quad_cast (c : Z) : quad := match c with 0 => ClenshawCurtis | 1 => AdaptiveSimpson | 2 => AdaptiveClenshawCurtis | c => OtherQuad c end.
Definition in_unsigned (z : Z) : bool := (0 <=? z) && (z <? 4294967296).
Definition in_int (z : Z) : bool := (-2147483648 <=? z) && (z <? 2147483648).
(** The lambda's parameter type and the conversion in its assignment. The choices are passed by number (the constants __ProbabilistHermite and so on);
    maxPatience and maxSize are passed as int and stored as unsigned int. *)
Definition jl_convert (m : field) (v : value) : option value :=
  match m, v with
  | F_basisType, VBasis b => if in_unsigned (basis_code b) then Some (VBasis (basis_cast (basis_code b))) else None
  | F_posFuncType, VPos p => if in_unsigned (pos_code p) then Some (VPos (pos_cast (pos_code p))) else None
  | F_quadType, VQuad q => if in_unsigned (quad_code q) then Some (VQuad (quad_cast (quad_code q))) else None
  | (F_quadMaxSub | F_quadMinSub | F_quadPts), VInt z => if in_unsigned z then Some v else None
  | (F_maxPatience | F_maxSize), VInt z => if in_int z then Some (VInt (z mod 4294967296)) else None
  | (F_opt_maxeval | F_verbose), VInt z => if in_int z then Some v else None
  | _, _ => Some v
  end.
(** A call of the setter of field [f]; a call without a matching method raises and changes nothing *)
Definition jl_set (k : class) (o : atm_opts) (fv : field * value) : atm_opts :=
  match lookup (fst fv) (jl_setters k) with
  | None => o
  | Some m => match jl_convert m (snd fv) with None => o | Some v => match assign m v o with Some o' => o' | None => o end end
  end.
Definition jl_program (k : class) (h : list (field * value)) : atm_opts := fold_left (jl_set k) h cpp_atm_default.
