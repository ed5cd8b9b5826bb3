(** What the options of a map, of training and of adaptive training are, and what it means for a program in MATLAB,
    Python or Julia to ask for them. Nothing here refers to the bindings. *)
From Coq Require Import Reals ZArith String List Bool.
Import ListNotations.

(** A double: a number, an infinity, or NaN. *)
Inductive num : Type := Rl (r : R) | Inf | NegInf | Nan.

(** The choices that the documentation lists, and a value of the C++ type that is none of them. *)
Inductive basis : Type := ProbabilistHermite | PhysicistHermite | HermiteFunctions | OtherBasis (code : Z).
Inductive posfun : Type := Exp | SoftPlus | OtherPos (code : Z).
Inductive quad : Type := ClenshawCurtis | AdaptiveSimpson | AdaptiveClenshawCurtis | OtherQuad (code : Z).

Record map_opts : Type := MkMap {
  basisType : basis; basisLB : num; basisUB : num; posFuncType : posfun; quadType : quad;
  quadAbsTol : num; quadRelTol : num; quadMaxSub : Z; quadMinSub : Z; quadPts : Z;
  contDeriv : bool; basisNorm : bool; nugget : num }.
Record train_opts : Type := MkTrain {
  opt_alg : string; opt_stopval : num; opt_ftol_rel : num; opt_ftol_abs : num; opt_xtol_rel : num; opt_xtol_abs : num;
  opt_maxeval : Z; opt_maxtime : num; verbose : Z }.
Record atm_opts : Type := MkATM { a_map : map_opts; a_train : train_opts; maxPatience : Z; maxSize : Z; maxDegrees : list nat }.

Definition is_unsigned (z : Z) : Prop := (0 <= z < 4294967296)%Z.
Definition is_int (z : Z) : Prop := (-2147483648 <= z < 2147483648)%Z.

(** The name by which the documentation calls a choice. *)
Definition basis_called (s : string) (b : basis) : Prop :=
  match b with ProbabilistHermite => s = "ProbabilistHermite" | PhysicistHermite => s = "PhysicistHermite" | HermiteFunctions => s = "HermiteFunctions" | OtherBasis _ => False end%string.
Definition posfun_called (s : string) (p : posfun) : Prop :=
  match p with Exp => s = "Exp" | SoftPlus => s = "SoftPlus" | OtherPos _ => False end%string.
Definition quad_called (s : string) (q : quad) : Prop :=
  match q with ClenshawCurtis => s = "ClenshawCurtis" | AdaptiveSimpson => s = "AdaptiveSimpson" | AdaptiveClenshawCurtis => s = "AdaptiveClenshawCurtis" | OtherQuad _ => False end%string.

(** * MATLAB *)

(** A MATLAB value: text, a number, a logical value, the handle of a library object, several handles. *)
Inductive mx : Type := Str (s : string) | Num (n : num) | Log (b : bool) | Id (n : nat) | Ids (l : list nat).

(** The public properties of MATLAB's option objects. A MATLAB program may store anything in them; the named choices are
    enumeration members or text. [m_maxDegrees] is the handle of a MultiIndex. *)
Record ml_map : Type := MkMlMap {
  m_basisType : string; m_posFuncType : string; m_quadType : string; m_quadAbsTol : mx; m_quadRelTol : mx; m_quadMaxSub : mx;
  m_quadMinSub : mx; m_quadPts : mx; m_contDeriv : mx; m_basisLB : mx; m_basisUB : mx; m_basisNorm : mx; m_nugget : mx }.
Record ml_train : Type := MkMlTrain {
  m_opt_alg : string; m_opt_stopval : mx; m_opt_ftol_rel : mx; m_opt_ftol_abs : mx; m_opt_xtol_rel : mx; m_opt_xtol_abs : mx;
  m_opt_maxeval : mx; m_opt_maxtime : mx; m_verbose : mx }.
Record ml_atm : Type := MkMlAtm { m_map : ml_map; m_train : ml_train; m_maxPatience : mx; m_maxSize : mx; m_maxDegrees : nat }.

(** The value asks for this number, this whole number, this truth value. *)
Definition asks_num (v : mx) (n : num) : Prop := v = Num n.
Definition asks_int (v : mx) (z : Z) : Prop := v = Num (Rl (IZR z)).
Definition asks_bool (v : mx) (b : bool) : Prop := v = Log b \/ v = Num (Rl (if b then 1 else 0)).

(** The properties of the MATLAB object ask for the options [o]. *)
Definition asks_map (u : ml_map) (o : map_opts) : Prop :=
  basis_called (m_basisType u) (basisType o) /\ posfun_called (m_posFuncType u) (posFuncType o) /\ quad_called (m_quadType u) (quadType o) /\
  asks_num (m_quadAbsTol u) (quadAbsTol o) /\ asks_num (m_quadRelTol u) (quadRelTol o) /\
  (asks_int (m_quadMaxSub u) (quadMaxSub o) /\ is_unsigned (quadMaxSub o)) /\
  (asks_int (m_quadMinSub u) (quadMinSub o) /\ is_unsigned (quadMinSub o)) /\
  (asks_int (m_quadPts u) (quadPts o) /\ is_unsigned (quadPts o)) /\
  asks_bool (m_contDeriv u) (contDeriv o) /\ asks_num (m_basisLB u) (basisLB o) /\ asks_num (m_basisUB u) (basisUB o) /\
  asks_bool (m_basisNorm u) (basisNorm o) /\ asks_num (m_nugget u) (nugget o).
Definition asks_train (u : ml_train) (o : train_opts) : Prop :=
  m_opt_alg u = opt_alg o /\ asks_num (m_opt_stopval u) (opt_stopval o) /\
  asks_num (m_opt_ftol_rel u) (opt_ftol_rel o) /\ asks_num (m_opt_ftol_abs u) (opt_ftol_abs o) /\
  asks_num (m_opt_xtol_rel u) (opt_xtol_rel o) /\ asks_num (m_opt_xtol_abs u) (opt_xtol_abs o) /\
  (asks_int (m_opt_maxeval u) (opt_maxeval o) /\ is_int (opt_maxeval o)) /\ asks_num (m_opt_maxtime u) (opt_maxtime o) /\
  (asks_int (m_verbose u) (verbose o) /\ is_int (verbose o)).
(** [indices] tells which multi-index a handle stands for. *)
Definition asks_atm (indices : nat -> option (list nat)) (u : ml_atm) (o : atm_opts) : Prop :=
  asks_map (m_map u) (a_map o) /\ asks_train (m_train u) (a_train o) /\
  (asks_int (m_maxPatience u) (maxPatience o) /\ is_unsigned (maxPatience o)) /\
  (asks_int (m_maxSize u) (maxSize o) /\ is_unsigned (maxSize o)) /\ indices (m_maxDegrees u) = Some (maxDegrees o).

(** * Python and Julia: options are assigned one at a time *)

Inductive field : Type :=
  F_basisType | F_basisLB | F_basisUB | F_posFuncType | F_quadType | F_quadAbsTol | F_quadRelTol | F_quadMaxSub | F_quadMinSub
| F_quadPts | F_contDeriv | F_basisNorm | F_nugget
| F_opt_alg | F_opt_stopval | F_opt_ftol_rel | F_opt_ftol_abs | F_opt_xtol_rel | F_opt_xtol_abs | F_opt_maxeval | F_opt_maxtime | F_verbose
| F_maxPatience | F_maxSize | F_maxDegrees.

Inductive value : Type :=
  VBasis (b : basis) | VPos (p : posfun) | VQuad (q : quad) | VNum (n : num) | VInt (z : Z) | VBool (b : bool) | VStr (s : string) | VDeg (l : list nat).

(** What a field of the options holds. *)
Definition holds (f : field) (o : atm_opts) : value :=
  match f with
  | F_basisType => VBasis (basisType (a_map o)) | F_basisLB => VNum (basisLB (a_map o)) | F_basisUB => VNum (basisUB (a_map o))
  | F_posFuncType => VPos (posFuncType (a_map o)) | F_quadType => VQuad (quadType (a_map o))
  | F_quadAbsTol => VNum (quadAbsTol (a_map o)) | F_quadRelTol => VNum (quadRelTol (a_map o))
  | F_quadMaxSub => VInt (quadMaxSub (a_map o)) | F_quadMinSub => VInt (quadMinSub (a_map o)) | F_quadPts => VInt (quadPts (a_map o))
  | F_contDeriv => VBool (contDeriv (a_map o)) | F_basisNorm => VBool (basisNorm (a_map o)) | F_nugget => VNum (nugget (a_map o))
  | F_opt_alg => VStr (opt_alg (a_train o)) | F_opt_stopval => VNum (opt_stopval (a_train o))
  | F_opt_ftol_rel => VNum (opt_ftol_rel (a_train o)) | F_opt_ftol_abs => VNum (opt_ftol_abs (a_train o))
  | F_opt_xtol_rel => VNum (opt_xtol_rel (a_train o)) | F_opt_xtol_abs => VNum (opt_xtol_abs (a_train o))
  | F_opt_maxeval => VInt (opt_maxeval (a_train o)) | F_opt_maxtime => VNum (opt_maxtime (a_train o)) | F_verbose => VInt (verbose (a_train o))
  | F_maxPatience => VInt (maxPatience o) | F_maxSize => VInt (maxSize o) | F_maxDegrees => VDeg (maxDegrees o)
  end.

(** The three classes of option objects and the fields they have. *)
Inductive class : Type := MapOptions | TrainOptions | ATMOptions.
Definition of_map (f : field) : bool :=
  match f with F_basisType | F_basisLB | F_basisUB | F_posFuncType | F_quadType | F_quadAbsTol | F_quadRelTol | F_quadMaxSub | F_quadMinSub
  | F_quadPts | F_contDeriv | F_basisNorm | F_nugget => true | _ => false end.
Definition of_train (f : field) : bool :=
  match f with F_opt_alg | F_opt_stopval | F_opt_ftol_rel | F_opt_ftol_abs | F_opt_xtol_rel | F_opt_xtol_abs | F_opt_maxeval | F_opt_maxtime | F_verbose => true | _ => false end.
Definition has (k : class) (f : field) : bool := match k with MapOptions => of_map f | TrainOptions => of_train f | ATMOptions => true end.

(** A value that the field can take: a named choice, a number, a whole number in the range of the C++ type, a truth value, text, a multi-index. *)
Definition proper (f : field) (v : value) : bool :=
  match f, v with
  | F_basisType, VBasis (OtherBasis _) | F_posFuncType, VPos (OtherPos _) | F_quadType, VQuad (OtherQuad _) => false
  | F_basisType, VBasis _ | F_posFuncType, VPos _ | F_quadType, VQuad _ => true
  | (F_basisLB | F_basisUB | F_quadAbsTol | F_quadRelTol | F_nugget | F_opt_stopval | F_opt_ftol_rel | F_opt_ftol_abs | F_opt_xtol_rel | F_opt_xtol_abs | F_opt_maxtime), VNum _ => true
  | (F_quadMaxSub | F_quadMinSub | F_quadPts | F_maxPatience | F_maxSize), VInt z => ((0 <=? z) && (z <? 4294967296))%Z
  | (F_opt_maxeval | F_verbose), VInt z => ((-2147483648 <=? z) && (z <? 2147483648))%Z
  | (F_contDeriv | F_basisNorm), VBool _ => true
  | F_opt_alg, VStr _ => true
  | F_maxDegrees, VDeg _ => true
  | _, _ => false
  end.
Definition field_eq_dec (f g : field) : {f = g} + {f <> g}. Proof. decide equality. Defined.

(** The value last given to field [f] in a sequence of assignments, among those that make sense for objects of class [k]; [d] if there is none. *)
Fixpoint last_given (k : class) (f : field) (h : list (field * value)) (d : value) : value :=
  match h with
  | [] => d
  | (g, v) :: h => last_given k f h (if field_eq_dec f g then if has k g && proper g v then v else d else d)
  end.
