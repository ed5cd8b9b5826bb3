(** Model of the sizes of the arrays a map call reads and writes: which calls return, which throw
    and which leave the arrays they were given. repo: ParameterizedFunctionBase.cpp,
    ConditionalMapBase.cpp, MonotoneComponent.h, AffineMap.cpp, IdentityMap.cpp, TriangularMap.cpp,
    ComposedMap.cpp, SummarizedMap.cpp, bindings/matlab. Values are left out. Coefficients are
    taken to be set (C44), assertions to be compiled out and Kokkos bounds checks to be off. *)
From Verif Require Import Base SpecShape.

(** A two-dimensional view: its two extents and the number of rows of memory that are really
    behind it. The last differs from the first after a subview that leaves its parent, which Kokkos
    does not check. *)
Record mat : Type := Mat { ext0 : nat; ext1 : nat; have : nat }.
Definition arr (r c : nat) : mat := Mat r c r.
(** Kokkos::subview(v, make_pair(lo,hi), ALL()) *)
Definition sub (v : mat) (lo hi : nat) : mat := Mat (hi - lo) (ext1 v) (Nat.min (hi - lo) (have v - lo)).
(** A loop that reads or writes rows below [r] of columns below [c]. Entries outside the extents
    count as undefined, also where another entry of the same allocation lies behind them. *)
Definition touch (v : mat) (r c : nat) : outcome unit :=
  if (r =? 0) || (c =? 0) then Ok tt
  else if (r <=? have v) && (c <=? ext1 v) then Ok tt else UB.
(** Kokkos::deep_copy throws when the extents differ. *)
Definition deep_copy (dst src : mat) : outcome unit :=
  if (ext0 dst =? ext0 src) && (ext1 dst =? ext1 src)
  then do _ <- touch src (ext0 src) (ext1 src); touch dst (ext0 dst) (ext1 dst)
  else Throw.
(** A one-dimensional view and the number of entries behind it. *)
Record vec : Type := Vec { len : nat; vhave : nat }.
Definition touch1 (v : vec) (n : nat) : outcome unit := if n <=? vhave v then Ok tt else UB.

(** repo: LinearAlgebra.cpp:9-35 dgemm, for an [m] by [k] matrix: Eigen asserts that the sizes
    agree; without assertions the product is undefined. *)
Definition dgemm (m k : nat) (B C : mat) : outcome unit :=
  if (ext0 B =? k) && (ext0 C =? m) && (ext1 B =? ext1 C)
  then do _ <- touch B k (ext1 B); touch C m (ext1 C)
  else UB.

(** The routines of a component that take x_d from the last row of the points, whatever their
    number of rows: MonotoneComponent.h:488-531, 586-638, 825-980 read rows below d-1 in FillCache1
    and pt(pt.extent(0)-1). *)
Definition read_points (d : nat) (pts : mat) : outcome unit :=
  if ext1 pts =? 0 then Ok tt
  else if ext0 pts =? 0 then UB
  else touch pts (Nat.max (d - 1) (ext0 pts)) (ext1 pts).

(** repo: SummarizedMap.cpp:70-89 SummarizePts. The summary function is taken to read its inputs
    and to write its outputs, and nothing else. *)
Definition SummarizePts (si so : nat) (pts out : mat) : outcome unit :=
  let n := ext1 pts in
  do _ <- touch (sub pts 0 si) si n;
  do _ <- touch (sub out 0 so) so n;
  deep_copy (sub out so (so + 1)) (sub pts si (si + 1)).

(** ** Evaluate *)
(** repo: TriangularMap.cpp:135-143. *)
Definition tri_eval (f : tree -> mat -> mat -> outcome unit) (pts out : mat) :=
  fix go (l : list tree) (start : nat) {struct l} : outcome unit :=
    match l with
    | [] => Ok tt
    | m :: l => do _ <- f m (sub pts 0 (din m)) (sub out start (start + dout m)); go l (start + dout m)
    end.
(** A loop over layers with the same arrays. *)
Definition each (f : tree -> outcome unit) :=
  fix go (l : list tree) : outcome unit :=
    match l with [] => Ok tt | m :: l => do _ <- f m; go l end.
(** The same, last layer first. *)
Definition each_back (f : tree -> outcome unit) :=
  fix go (l : list tree) : outcome unit :=
    match l with [] => Ok tt | m :: l => do _ <- go l; f m end.
(** repo: MonotoneComponent.h:89-94, 256-299; AffineMap.cpp:138-164; IdentityMap.cpp:30-38;
    TriangularMap.cpp:128-144; ComposedMap.cpp:268-283; SummarizedMap.cpp:111-122. *)
Fixpoint EvaluateImpl (m : tree) (pts out : mat) : outcome unit :=
  match m with
  | TComp d _ _ =>
      if ext1 out =? ext1 pts then do _ <- touch pts d (ext1 pts); touch out 1 (ext1 pts) else Throw
  | TAffine A b =>
      do _ <- match A with
              | Some (r, c) => do _ <- touch out (dout m) (ext1 pts); dgemm r c pts out
              | None => deep_copy out pts
              end;
      match b with Some _ => touch out (dout m) (ext1 pts) | None => Ok tt end
  | TIdent i o => deep_copy out (sub pts (i - o) i)
  | TTri l => tri_eval EvaluateImpl pts out l 0
  | TComposed l =>
      let ws := arr (ext0 pts) (ext1 pts) in
      match l with
      | [] => Throw
      | k :: rest =>
          do _ <- EvaluateImpl k pts ws;
          do _ <- each (fun k => EvaluateImpl k ws ws) rest;
          deep_copy out ws
      end
  | TSumm si so c =>
      let s := arr (din c) (ext1 pts) in
      do _ <- SummarizePts si so pts s; EvaluateImpl c s out
  end.

(** The layers but the last; the inputs of the layers. ComposedMap.cpp:20-29, 89-131: the first
    request evaluates every layer but the last on arrays of the size of the points; later
    requests repeat some of these evaluations. *)
Definition layer_inputs (pts : mat) (l : list tree) : outcome unit :=
  let ws := arr (ext0 pts) (ext1 pts) in
  do _ <- deep_copy ws pts;
  each (fun k => EvaluateImpl k ws ws) (removelast l).

(** ** LogDeterminant *)
(** repo: MonotoneComponent.h:105-125; AffineMap.cpp:56-64; IdentityMap.cpp:18-27;
    TriangularMap.cpp:100-125; ComposedMap.cpp:234-265; SummarizedMap.cpp:95-108. *)
Definition tri_logdet (f : tree -> mat -> vec -> outcome unit) (pts : mat) (out : vec) :=
  fix go (l : list tree) : outcome unit :=
    match l with
    | [] => Ok tt
    | m :: l => do _ <- f m (sub pts 0 (din m)) (Vec (len out) (len out)); do _ <- touch1 out (len out); go l
    end.
Definition composed_logdet (f : tree -> mat -> vec -> outcome unit) (ws : mat) (out : vec) :=
  fix go (prev : tree) (l : list tree) : outcome unit :=
    match l with
    | [] => Ok tt
    | m :: l =>
        do _ <- EvaluateImpl prev ws ws;
        do _ <- f m ws (Vec (len out) (len out));
        do _ <- touch1 out (len out);
        go m l
    end.
Fixpoint LogDeterminantImpl (m : tree) (pts : mat) (out : vec) : outcome unit :=
  match m with
  | TComp d _ _ =>
      do _ <- read_points d pts;
      do _ <- touch1 out (ext1 pts);
      touch1 out (len out)
  | TAffine _ _ | TIdent _ _ => touch1 out (len out)
  | TTri l =>
      match l with
      | [] => Throw
      | k :: rest => do _ <- LogDeterminantImpl k (sub pts 0 (din k)) out; tri_logdet LogDeterminantImpl pts out rest
      end
  | TComposed l =>
      match l with
      | [] => Throw
      | k :: rest =>
          do _ <- LogDeterminantImpl k pts out;
          match rest with
          | [] => Ok tt
          | _ =>
              let ws := arr (ext0 pts) (ext1 pts) in
              do _ <- deep_copy ws pts; composed_logdet LogDeterminantImpl ws out k rest
          end
      end
  | TSumm si so c =>
      let s := arr (din c) (ext1 pts) in
      do _ <- SummarizePts si so pts s; LogDeterminantImpl c s out
  end.

(** ** Inverse *)
(** repo: TriangularMap.cpp:162-184 InverseInplace. *)
Definition tri_inverse (f : tree -> mat -> mat -> mat -> outcome unit) (x r : mat) (extra : nat) :=
  fix go (l : list tree) (start : nat) {struct l} : outcome unit :=
    match l with
    | [] => Ok tt
    | m :: l =>
        do _ <- f m (sub x 0 (din m)) (sub r start (start + dout m))
                    (sub x (extra + start) (extra + start + dout m));
        go l (start + dout m)
    end.
(** repo: MonotoneComponent.h:96-103, 331-443; AffineMap.cpp:67-126; IdentityMap.cpp:41-48;
    TriangularMap.cpp:147-159; ComposedMap.cpp:318-339; SummarizedMap.cpp:125-138. A component reads
    all rows of x1 and starts its search from the last one; it accepts a single column of x1 for
    all points. The column-major copy of the output in AffineMap is not distinguished from the
    output. *)
Fixpoint InverseImpl (m : tree) (x1 r out : mat) : outcome unit :=
  match m with
  | TComp d _ _ =>
      let n := ext1 r in
      if negb (ext1 x1 =? 1) && negb (ext1 x1 =? n) then Throw
      else if negb (ext1 out =? n) then Throw
      else if n =? 0 then Ok tt
      else if ext0 x1 =? 0 then UB
      else
        do _ <- touch x1 (Nat.max (d - 1) (ext0 x1)) (ext1 x1);
        do _ <- touch r 1 n;
        touch out 1 n
  | TAffine A b =>
      do _ <- match b with
              | Some _ => do _ <- touch r (dout m) (ext1 r); touch out (dout m) (ext1 r)
              | None => deep_copy out r
              end;
      match A with
      | Some (nr, nc) =>
          do _ <- if nr =? nc then Ok tt else dgemm nr (nc - nr) (sub x1 0 (nc - nr)) out;
          if ext0 out =? nr then touch out nr (ext1 out) else UB
      | None => Ok tt
      end
  | TIdent _ _ => deep_copy out r
  | TTri l =>
      let full := arr (din m) (ext1 x1) in
      do _ <- deep_copy (sub full 0 (ext0 x1)) x1;
      do _ <- tri_inverse InverseImpl full r (din m - dout m) l 0;
      deep_copy out (sub full (din m - dout m) (din m))
  | TComposed l =>
      let ws := arr (ext0 r) (ext1 r) in
      do _ <- deep_copy ws r;
      do _ <- each_back (fun k => InverseImpl k x1 ws ws) l;
      deep_copy out ws
  | TSumm si so c =>
      do _ <- touch (sub x1 0 si) si (ext1 x1);
      InverseImpl c (arr so (ext1 x1)) r out
  end.

(** ** Gradient *)
(** repo: MonotoneComponent.h:127-146 checkGradFunctionInput. *)
Definition grad_sizes (d : nat) (pts sens out : mat) (rows : nat) : bool :=
  (ext0 sens =? 1) && (ext1 sens =? ext1 pts) && (ext0 pts =? d) && (ext0 out =? rows) && (ext1 out =? ext1 pts).
(** repo: TriangularMap.cpp:206-223. *)
Definition tri_grad (f : tree -> mat -> mat -> mat -> outcome unit) (pts sens out : mat) :=
  fix go (l : list tree) (start : nat) {struct l} : outcome unit :=
    match l with
    | [] => Ok tt
    | m :: l =>
        do _ <- f m (sub pts 0 (din m)) (sub sens start (start + dout m)) (arr (din m) (ext1 pts));
        do _ <- touch out (din m) (ext1 pts);
        go l (start + dout m)
    end.
(** repo: MonotoneComponent.h:148-164; AffineMap.cpp:182-192; IdentityMap.cpp:60-77;
    TriangularMap.cpp:188-224; ComposedMap.cpp:286-314; SummarizedMap.cpp:142-173. *)
Fixpoint GradientImpl (m : tree) (pts sens out : mat) : outcome unit :=
  match m with
  | TComp d _ _ =>
      if grad_sizes d pts sens out d
      then do _ <- touch pts d (ext1 pts); do _ <- touch sens 1 (ext1 pts); touch out d (ext1 pts)
      else Throw
  | TAffine A _ =>
      match A with
      | Some (r, c) => dgemm c r sens out
      | None => deep_copy out sens
      end
  | TIdent i o =>
      do _ <- touch out (i - o) (ext1 out);
      deep_copy (sub out (i - o) i) sens
  | TTri l =>
      do _ <- touch out (ext0 pts) (ext1 pts);
      tri_grad GradientImpl pts sens out l 0
  | TComposed l =>
      let ss := arr (ext0 sens) (ext1 sens) in
      let ws := arr (ext0 pts) (ext1 pts) in
      do _ <- deep_copy ss sens;
      do _ <- layer_inputs pts l;
      do _ <- each_back (fun k => GradientImpl k ws ss ss) l;
      deep_copy out ss
  | TSumm si so c =>
      let s := arr (din c) (ext1 pts) in
      do _ <- SummarizePts si so pts s;
      let o2 := arr (din c) (ext1 pts) in
      do _ <- GradientImpl c s sens o2;
      do _ <- touch (sub pts 0 si) si (ext1 pts);
      do _ <- touch (sub o2 0 so) so (ext1 pts);
      do _ <- touch (sub out 0 si) si (ext1 pts);
      deep_copy (sub out si (si + 1)) (sub o2 so (so + 1))
  end.

(** ** CoeffGrad *)
(** repo: TriangularMap.cpp:236-253. *)
Definition tri_coeff (f : tree -> mat -> mat -> mat -> outcome unit) (pts sens out : mat) :=
  fix go (l : list tree) (start param : nat) {struct l} : outcome unit :=
    match l with
    | [] => Ok tt
    | m :: l =>
        do _ <- if ncoef m =? 0 then Ok tt
                else f m (sub pts 0 (din m)) (sub sens start (start + dout m)) (sub out param (param + ncoef m));
        go l (start + dout m) (param + ncoef m)
    end.
(** repo: ComposedMap.cpp:357-378, last layer first. The code counts the rows of a layer from the
    end, which gives the same rows. The sensitivities are not propagated through the first layer. *)
Definition composed_coeff (f : tree -> mat -> mat -> mat -> outcome unit) (ws ss out : mat) :=
  fix go (first : bool) (l : list tree) (param : nat) {struct l} : outcome unit :=
    match l with
    | [] => Ok tt
    | m :: l =>
        do _ <- go false l (param + ncoef m);
        do _ <- f m ws ss (sub out param (param + ncoef m));
        if first then Ok tt else GradientImpl m ws ss ss
    end.
(** repo: MonotoneComponent.h:166-182; AffineMap.cpp:167-172; IdentityMap.cpp:52-57;
    TriangularMap.cpp:227-254; ComposedMap.cpp:342-380; SummarizedMap.cpp:176-188. *)
Fixpoint CoeffGradImpl (m : tree) (pts sens out : mat) : outcome unit :=
  match m with
  | TComp d nc _ =>
      if grad_sizes d pts sens out nc
      then do _ <- touch pts d (ext1 pts); do _ <- touch sens 1 (ext1 pts); touch out nc (ext1 pts)
      else Throw
  | TAffine _ _ | TIdent _ _ => Ok tt
  | TTri l => tri_coeff CoeffGradImpl pts sens out l 0 0
  | TComposed l =>
      let ss := arr (ext0 sens) (ext1 sens) in
      let ws := arr (ext0 pts) (ext1 pts) in
      do _ <- deep_copy ss sens;
      do _ <- layer_inputs pts l;
      composed_coeff CoeffGradImpl ws ss out true l 0
  | TSumm si so c =>
      let s := arr (din c) (ext1 pts) in
      do _ <- SummarizePts si so pts s; CoeffGradImpl c s sens out
  end.

(** ** LogDeterminantInputGrad *)
(** repo: TriangularMap.cpp:296-309. *)
Definition tri_ldin (f : tree -> mat -> mat -> outcome unit) (pts comp out : mat) :=
  fix go (l : list tree) : outcome unit :=
    match l with
    | [] => Ok tt
    | m :: l =>
        do _ <- f m (sub pts 0 (din m)) (sub comp 0 (din m));
        do _ <- touch out (din m) (ext1 pts);
        go l
    end.
(** repo: ComposedMap.cpp:452-465, last layer first. *)
Definition composed_ldin (f : tree -> mat -> mat -> outcome unit) (ws ss : mat) :=
  fix go (l : list tree) : outcome unit :=
    match l with
    | [] => Throw
    | m :: l =>
        match l with
        | [] => f m ws ss
        | _ => do _ <- go l; do _ <- GradientImpl m ws ss ss; f m ws ss
        end
    end.
(** repo: MonotoneComponent.h:208-232, 877-926; AffineMap.cpp:175-179; IdentityMap.cpp:87-95;
    TriangularMap.cpp:279-310; ComposedMap.cpp:442-468; SummarizedMap.cpp:205-237. *)
Fixpoint LogDeterminantInputGradImpl (m : tree) (pts out : mat) : outcome unit :=
  match m with
  | TComp d _ cont =>
      if cont then
        if (ext0 out =? ext0 pts) && (ext1 out =? ext1 pts)
        then do _ <- read_points d pts; touch out (Nat.max d (ext0 pts)) (ext1 pts)
        else Throw
      else Throw
  | TAffine _ _ => Ok tt
  | TIdent _ _ => touch out (ext0 out) (ext1 out)
  | TTri l =>
      do _ <- touch out (ext0 out) (ext1 out);
      tri_ldin LogDeterminantInputGradImpl pts (arr (din m) (ext1 pts)) out l
  | TComposed l =>
      let ws := arr (ext0 pts) (ext1 pts) in
      do _ <- layer_inputs pts l;
      do _ <- composed_ldin LogDeterminantInputGradImpl ws ws l;
      deep_copy out ws
  | TSumm si so c =>
      let s := arr (din c) (ext1 pts) in
      do _ <- SummarizePts si so pts s;
      let o2 := arr (din c) (ext1 pts) in
      do _ <- LogDeterminantInputGradImpl c s o2;
      let g1 := arr si (ext1 pts) in
      do _ <- touch (sub pts 0 si) si (ext1 pts);
      do _ <- touch (sub o2 0 so) so (ext1 pts);
      do _ <- touch g1 si (ext1 pts);
      do _ <- deep_copy (sub out 0 si) g1;
      deep_copy (sub out si (si + 1)) (sub o2 so (so + 1))
  end.

(** ** LogDeterminantCoeffGrad *)
(** repo: TriangularMap.cpp:264-275. *)
Definition tri_ldco (f : tree -> mat -> mat -> outcome unit) (pts out : mat) :=
  fix go (l : list tree) (param : nat) {struct l} : outcome unit :=
    match l with
    | [] => Ok tt
    | m :: l =>
        do _ <- if ncoef m =? 0 then Ok tt else f m (sub pts 0 (din m)) (sub out param (param + ncoef m));
        go l (param + ncoef m)
    end.
(** repo: ComposedMap.cpp:394-436, last layer first. *)
Definition composed_ldco (f : tree -> mat -> mat -> outcome unit) (ws ss out : mat) :=
  fix go (first : bool) (l : list tree) (param : nat) {struct l} : outcome unit :=
    match l with
    | [] => Throw
    | m :: l =>
        let so := sub out param (param + ncoef m) in
        match l with
        | [] => do _ <- f m ws so; LogDeterminantInputGradImpl m ws ss
        | _ =>
            do _ <- go false l (param + ncoef m);
            do _ <- f m ws so;
            do _ <- CoeffGradImpl m ws ss (arr (ncoef m) (ext1 ws));
            do _ <- touch so (ncoef m) (ext1 ws);
            if first then Ok tt
            else do _ <- GradientImpl m ws ss ss; LogDeterminantInputGradImpl m ws ss
        end
    end.
(** repo: MonotoneComponent.h:185-206, 825-874, 929-980; AffineMap.cpp:131-135;
    IdentityMap.cpp:80-84; TriangularMap.cpp:257-276; ComposedMap.cpp:384-437;
    SummarizedMap.cpp:191-202. *)
Fixpoint LogDeterminantCoeffGradImpl (m : tree) (pts out : mat) : outcome unit :=
  match m with
  | TComp d nc _ =>
      if (ext0 out =? nc) && (ext1 out =? ext1 pts)
      then do _ <- read_points d pts; touch out nc (ext1 pts)
      else Throw
  | TAffine _ _ | TIdent _ _ => Ok tt
  | TTri l => tri_ldco LogDeterminantCoeffGradImpl pts out l 0
  | TComposed l =>
      let ws := arr (ext0 pts) (ext1 pts) in
      do _ <- layer_inputs pts l;
      composed_ldco LogDeterminantCoeffGradImpl ws ws out true l 0
  | TSumm si so c =>
      let s := arr (din c) (ext1 pts) in
      do _ <- SummarizePts si so pts s; LogDeterminantCoeffGradImpl c s out
  end.

(** ** The calls. Each allocates its result and returns it; here, its size.
    repo: ParameterizedFunctionBase.cpp:25-34, 104-113, 268-277; ConditionalMapBase.cpp:9-15,
    67-81, 145-151, 221-228. *)
Definition Evaluate (m : tree) (pts : mat) : outcome (nat * nat) :=
  do _ <- EvaluateImpl m pts (arr (dout m) (ext1 pts)); Ok (dout m, ext1 pts).
Definition LogDeterminant (m : tree) (pts : mat) : outcome nat :=
  do _ <- LogDeterminantImpl m pts (Vec (ext1 pts) (ext1 pts)); Ok (ext1 pts).
Definition Inverse (m : tree) (x1 r : mat) : outcome (nat * nat) :=
  if negb (ext1 x1 =? ext1 r) then Throw
  else do _ <- InverseImpl m x1 r (arr (dout m) (ext1 r)); Ok (dout m, ext1 r).
Definition Gradient (m : tree) (pts sens : mat) : outcome (nat * nat) :=
  do _ <- GradientImpl m pts sens (arr (din m) (ext1 pts)); Ok (din m, ext1 pts).
Definition CoeffGrad (m : tree) (pts sens : mat) : outcome (nat * nat) :=
  do _ <- CoeffGradImpl m pts sens (arr (ncoef m) (ext1 pts)); Ok (ncoef m, ext1 pts).
Definition LogDeterminantCoeffGrad (m : tree) (pts : mat) : outcome (nat * nat) :=
  do _ <- LogDeterminantCoeffGradImpl m pts (arr (ncoef m) (ext1 pts)); Ok (ncoef m, ext1 pts).
Definition LogDeterminantInputGrad (m : tree) (pts : mat) : outcome (nat * nat) :=
  do _ <- LogDeterminantInputGradImpl m pts (arr (ext0 pts) (ext1 pts)); Ok (ext0 pts, ext1 pts).

(** ** The calls from MATLAB, which pass a matrix of zeros for the result and call the Impl
    routines directly. repo: bindings/matlab/mat/ConditionalMap.m:121-154;
    src/ConditionalMap_mex.cpp:299-393. *)
(** A MATLAB matrix: whether its class is double, whether it is complex, its size. *)
Record mx : Type := Mx { mx_double : bool; mx_complex : bool; mx_rows : nat; mx_cols : nat }.
Definition zeros (r c : nat) : mx := Mx true false r c.
(** repo: MexArrayConversions.cpp:37-57 MexToKokkos2d. *)
Definition MexToKokkos2d (a : mx) : outcome mat :=
  if mx_complex a then Throw else if negb (mx_double a) then Throw else Ok (arr (mx_rows a) (mx_cols a)).
(** repo: MexArrayConversions.cpp:7-34 MexToKokkos1d, for an array of doubles: the length is the
    larger of the two sizes, also when the array is empty. *)
Definition MexToKokkos1d (a : mx) : vec := Vec (Nat.max (mx_cols a) (mx_rows a)) (mx_rows a * mx_cols a).

Definition ml_Evaluate (m : tree) (pts : mx) : outcome (nat * nat) :=
  let result := zeros (dout m) (mx_cols pts) in
  do p <- MexToKokkos2d pts;
  do o <- MexToKokkos2d result;
  do _ <- EvaluateImpl m p o; Ok (mx_rows result, mx_cols result).
Definition ml_LogDeterminant (m : tree) (pts : mx) : outcome (nat * nat) :=
  let result := zeros (mx_cols pts) 1 in
  let o := MexToKokkos1d result in
  do p <- MexToKokkos2d pts;
  do _ <- LogDeterminantImpl m p o; Ok (mx_rows result, mx_cols result).
Definition ml_Inverse (m : tree) (x1 r : mx) : outcome (nat * nat) :=
  let result := zeros (dout m) (mx_cols r) in
  do x <- MexToKokkos2d x1;
  do y <- MexToKokkos2d r;
  do o <- MexToKokkos2d result;
  do _ <- InverseImpl m x y o; Ok (mx_rows result, mx_cols result).
Definition ml_Gradient (m : tree) (pts sens : mx) : outcome (nat * nat) :=
  let result := zeros (mx_rows pts) (mx_cols pts) in
  do p <- MexToKokkos2d pts;
  do s <- MexToKokkos2d sens;
  do o <- MexToKokkos2d result;
  do _ <- GradientImpl m p s o; Ok (mx_rows result, mx_cols result).
Definition ml_CoeffGrad (m : tree) (pts sens : mx) : outcome (nat * nat) :=
  let result := zeros (ncoef m) (mx_cols pts) in
  do p <- MexToKokkos2d pts;
  do s <- MexToKokkos2d sens;
  do o <- MexToKokkos2d result;
  do _ <- CoeffGradImpl m p s o; Ok (mx_rows result, mx_cols result).
Definition ml_LogDeterminantCoeffGrad (m : tree) (pts : mx) : outcome (nat * nat) :=
  let result := zeros (ncoef m) (mx_cols pts) in
  do p <- MexToKokkos2d pts;
  do o <- MexToKokkos2d result;
  do _ <- LogDeterminantCoeffGradImpl m p o; Ok (mx_rows result, mx_cols result).
Definition ml_LogDeterminantInputGrad (m : tree) (pts : mx) : outcome (nat * nat) :=
  let result := zeros (din m) (mx_cols pts) in
  do p <- MexToKokkos2d pts;
  do o <- MexToKokkos2d result;
  do _ <- LogDeterminantInputGradImpl m p o; Ok (mx_rows result, mx_cols result).
