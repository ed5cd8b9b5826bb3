(** Model of the one-dimensional bases (repo: MParT/OrthogonalPolynomial.h,
    MParT/HermiteFunction.h, MParT/LinearizedBasis.h, MParT/Utilities/MathFunctions.h).
    Doubles are real numbers. Output pointers are lists of reals: index 0 is the address
    passed in, an access past the end of the list is [UB]. *)
From Coq Require Import Reals ZArith.
From Verif Require Import Base.
Local Open Scope R_scope.

(** ** MathFunctions.h:10-16 Factorial, in 32-bit unsigned arithmetic. *)
Definition two32 : Z := 4294967296%Z.
Definition Factorial (d : nat) : Z :=
  fold_left (fun out i => (out * Z.of_nat i) mod two32)%Z (seq 2 (d - 1)) 1%Z.

(** ** OrthogonalPolynomial<Mixer> *)

(** The Mixer: recurrence coefficients, first two polynomials, norm. *)
Record mixer : Type := MkMixer {
  ak : nat -> R; bk : nat -> R; ck : nat -> R;
  phi0 : R -> R; phi1 : R -> R; phi1_deriv : R -> R;
  Normalization : nat -> R
}.

(** repo: OrthogonalPolynomial.h:294-307. *)
Definition ProbabilistHermite : mixer := {|
  ak := fun _ => 1; bk := fun _ => 0; ck := fun k => INR k - 1;
  phi0 := fun _ => 1; phi1 := fun x => x; phi1_deriv := fun _ => 1;
  Normalization := fun n => sqrt (sqrt (2 * PI) * IZR (Factorial n)) |}.

(** repo: OrthogonalPolynomial.h:312-325. *)
Definition PhysicistHermite : mixer := {|
  ak := fun _ => 2; bk := fun _ => 0; ck := fun k => 2 * (INR k - 1);
  phi0 := fun _ => 1; phi1 := fun x => 2 * x; phi1_deriv := fun _ => 2;
  Normalization := fun n => sqrt (sqrt PI * 2 ^ n * IZR (Factorial n)) |}.

(** "for(order=0; order<=maxOrder; ++order) out[order] /= Normalization(order)" *)
Definition divide_all (M : mixer) (maxOrder : nat) (out : list R) : outcome (list R) :=
  ofold (fun out o => do v <- raw_get out o; raw_set out o (v / Normalization M o))
        (seq 0 (S maxOrder)) out.

(** repo: OrthogonalPolynomial.h:25-42. *)
Definition EvaluateAll (M : mixer) (normalize : bool) (out : list R) (maxOrder : nat) (x : R)
  : outcome (list R) :=
  do out <- raw_set out 0 (phi0 M x);
  do out <- (if 0 <? maxOrder then raw_set out 1 (phi1 M x) else Ok out)%nat;
  do out <- ofold (fun out o =>
              do v1 <- raw_get out (o - 1);
              do v2 <- raw_get out (o - 2);
              raw_set out o ((ak M o * x + bk M o) * v1 - ck M o * v2))
            (seq 2 (maxOrder - 1)) out;
  if normalize then divide_all M maxOrder out else Ok out.

(** repo: OrthogonalPolynomial.h:47-82 EvaluateDerivatives(derivs, maxDegree, x). The
    scalars oldVal, oldOldVal, currVal are the triple (oldVal, currVal) carried along. *)
Definition EvaluateDerivatives1 (M : mixer) (normalize : bool) (derivs : list R) (maxDegree : nat) (x : R)
  : outcome (list R) :=
  do derivs <- raw_set derivs 0 0;
  do derivs <- (if 0 <? maxDegree then raw_set derivs 1 (phi1_deriv M x) else Ok derivs)%nat;
  do r <- ofold (fun (r : R * R * list R) o =>
              let '(old, curr, derivs) := r in
              let oldold := old in
              let old' := curr in
              let curr' := (ak M o * x + bk M o) * old' - ck M o * oldold in
              do d1 <- raw_get derivs (o - 1);
              do d2 <- raw_get derivs (o - 2);
              do derivs <- raw_set derivs o (ak M o * old' + (ak M o * x + bk M o) * d1 - ck M o * d2);
              Ok (old', curr', derivs))
            (seq 2 (maxDegree - 1)) (phi0 M x, phi1 M x, derivs);
  let '(_, _, derivs) := r in
  if normalize then divide_all M maxDegree derivs else Ok derivs.

(** repo: OrthogonalPolynomial.h:87-118 EvaluateDerivatives(vals, derivs, maxOrder, x).
    Simplification: [vals] and [derivs] are disjoint arrays. *)
Definition EvaluateDerivatives (M : mixer) (normalize : bool) (vals derivs : list R) (maxOrder : nat) (x : R)
  : outcome (list R * list R) :=
  do vals <- raw_set vals 0 (phi0 M x);
  do derivs <- raw_set derivs 0 0;
  do vals <- (if 0 <? maxOrder then raw_set vals 1 (phi1 M x) else Ok vals)%nat;
  do derivs <- (if 0 <? maxOrder then raw_set derivs 1 (phi1_deriv M x) else Ok derivs)%nat;
  do r <- ofold (fun (r : list R * list R) o =>
              let '(vals, derivs) := r in
              do v1 <- raw_get vals (o - 1);
              do v2 <- raw_get vals (o - 2);
              do vals <- raw_set vals o ((ak M o * x + bk M o) * v1 - ck M o * v2);
              do d1 <- raw_get derivs (o - 1);
              do d2 <- raw_get derivs (o - 2);
              do derivs <- raw_set derivs o (ak M o * v1 + (ak M o * x + bk M o) * d1 - ck M o * d2);
              Ok (vals, derivs))
            (seq 2 (maxOrder - 1)) (vals, derivs);
  let '(vals, derivs) := r in
  if normalize then
    do vals <- divide_all M maxOrder vals; do derivs <- divide_all M maxOrder derivs; Ok (vals, derivs)
  else Ok (vals, derivs).

(** repo: OrthogonalPolynomial.h:120-156. *)
Definition EvaluateSecondDerivatives (M : mixer) (normalize : bool) (vals derivs second : list R)
    (maxOrder : nat) (x : R) : outcome (list R * list R * list R) :=
  do vals <- raw_set vals 0 (phi0 M x);
  do derivs <- raw_set derivs 0 0;
  do second <- raw_set second 0 0;
  do vals <- (if 0 <? maxOrder then raw_set vals 1 (phi1 M x) else Ok vals)%nat;
  do derivs <- (if 0 <? maxOrder then raw_set derivs 1 (phi1_deriv M x) else Ok derivs)%nat;
  do second <- (if (0 <? maxOrder)%nat then raw_set second 1 0 else Ok second);
  do r <- ofold (fun (r : list R * list R * list R) o =>
              let '(vals, derivs, second) := r in
              do v1 <- raw_get vals (o - 1);
              do v2 <- raw_get vals (o - 2);
              do vals <- raw_set vals o ((ak M o * x + bk M o) * v1 - ck M o * v2);
              do d1 <- raw_get derivs (o - 1);
              do d2 <- raw_get derivs (o - 2);
              do derivs <- raw_set derivs o (ak M o * v1 + (ak M o * x + bk M o) * d1 - ck M o * d2);
              do s1 <- raw_get second (o - 1);
              do s2 <- raw_get second (o - 2);
              do second <- raw_set second o (ak M o * d1 + ak M o * d1 + (ak M o * x + bk M o) * s1 - ck M o * s2);
              Ok (vals, derivs, second))
            (seq 2 (maxOrder - 1)) (vals, derivs, second);
  let '(vals, derivs, second) := r in
  if normalize then
    do vals <- divide_all M maxOrder vals;
    do derivs <- divide_all M maxOrder derivs;
    do second <- divide_all M maxOrder second;
    Ok (vals, derivs, second)
  else Ok (vals, derivs, second).

(** repo: OrthogonalPolynomial.h:160-192 Evaluate; the loop counts k down from order-1 to 0. *)
Definition Evaluate (M : mixer) (normalize : bool) (order : nat) (x : R) : R :=
  let norm := if normalize then Normalization M order else 1 in
  match order with
  | O => phi0 M x / norm
  | S O => phi1 M x / norm
  | _ =>
      let '(yk2, yk1, yk) := fold_left (fun (y : R * R * R) k =>
          let '(yk2, yk1, yk) := y in
          let yk2 := yk1 in
          let yk1 := yk in
          let alpha := ak M (k + 1)%nat * x + bk M (k + 1)%nat in
          let beta := - ck M (k + 2)%nat in
          (yk2, yk1, alpha * yk1 + beta * yk2))
        (rev (seq 0 order)) (0, 0, 1) in
      let beta := - ck M 2%nat in
      (yk1 * phi1 M x + beta * phi0 M x * yk2) / norm
  end.

(** repo: OrthogonalPolynomial.h:194-232 Derivative. Note: no normalisation for order 1. *)
Definition Derivative (M : mixer) (normalize : bool) (order : nat) (x : R) : R :=
  match order with
  | O => 0
  | S O => phi1_deriv M x
  | _ =>
      let '(_, _, _, next_deriv) := fold_left (fun (s : R * R * R * R) i =>
          let '(lag1_val, next_val, lag1_deriv, next_deriv) := s in
          let lag2_val := lag1_val in
          let lag1_val := next_val in
          let next_val := (ak M i * x + bk M i) * lag1_val - ck M i * lag2_val in
          let lag2_deriv := lag1_deriv in
          let lag1_deriv := next_deriv in
          let next_deriv := ak M i * lag1_val + (ak M i * x + bk M i) * lag1_deriv - ck M i * lag2_deriv in
          (lag1_val, next_val, lag1_deriv, next_deriv))
        (seq 2 (order - 1)) (phi0 M x, phi1 M x, 0, phi1_deriv M x) in
      if normalize then next_deriv / Normalization M order else next_deriv
  end.

(** repo: OrthogonalPolynomial.h:234-278 SecondDerivative. *)
Definition SecondDerivative (M : mixer) (normalize : bool) (order : nat) (x : R) : R :=
  match order with
  | O | S O => 0
  | _ =>
      let '(_, _, _, _, _, next_deriv2) := fold_left (fun (s : R * R * R * R * R * R) i =>
          let '(lag1_val, next_val, lag1_deriv, next_deriv, lag1_deriv2, next_deriv2) := s in
          let lag2_val := lag1_val in
          let lag1_val := next_val in
          let next_val := (ak M i * x + bk M i) * lag1_val - ck M i * lag2_val in
          let lag2_deriv := lag1_deriv in
          let lag1_deriv := next_deriv in
          let next_deriv := ak M i * lag1_val + (ak M i * x + bk M i) * lag1_deriv - ck M i * lag2_deriv in
          let lag2_deriv2 := lag1_deriv2 in
          let lag1_deriv2 := next_deriv2 in
          let next_deriv2 := ak M i * lag1_deriv + ak M i * lag1_deriv + (ak M i * x + bk M i) * lag1_deriv2
                             - ck M i * lag2_deriv2 in
          (lag1_val, next_val, lag1_deriv, next_deriv, lag1_deriv2, next_deriv2))
        (seq 2 (order - 1)) (phi0 M x, phi1 M x, 0, phi1_deriv M x, 0, 0) in
      if normalize then next_deriv2 / Normalization M order else next_deriv2
  end.

(** ** HermiteFunction *)

(** pow(y,-0.5) for positive y. *)
Definition pow_mhalf (y : R) : R := / sqrt y.

(** repo: HermiteFunction.h:22-43. The last loop runs i=2..maxOrder-2. *)
Definition hf_EvaluateAll (out : list R) (maxOrder : nat) (x : R) : outcome (list R) :=
  do out <- raw_set out 0 1;
  if (0 <? maxOrder)%nat then
    do out <- raw_set out 1 x;
    if (1 <? maxOrder)%nat then
      do out <- raw_set out 2 (Rpower PI (-1/4) * exp (- (1/2) * x * x));
      if (2 <? maxOrder)%nat then
        do o2 <- raw_get out 2;
        do out <- raw_set out 3 (sqrt 2 * x * o2);
        ofold (fun out i =>
                 do v1 <- raw_get out (i + 1);
                 do v2 <- raw_get out i;
                 raw_set out (i + 2) ((x * v1 - sqrt (1/2 * (INR i - 1)) * v2) / sqrt (1/2 * INR i)))
              (seq 2 (maxOrder - 3)) out
      else Ok out
    else Ok out
  else Ok out.

(** Pointer arithmetic: run a filling routine on &a[2]. *)
Definition on_tail (a : list R) (f : list R -> outcome (list R)) : outcome (list R) :=
  do t <- f (skipn 2 a); Ok (firstn 2 a ++ t).

(** repo: HermiteFunction.h:45-80. currFactorial is a double. *)
Definition hf_EvaluateDerivatives (vals derivs : list R) (maxOrder : nat) (x : R) : outcome (list R * list R) :=
  do vals <- raw_set vals 0 1;
  do derivs <- raw_set derivs 0 0;
  if (0 <? maxOrder)%nat then
    do vals <- raw_set vals 1 x;
    do derivs <- raw_set derivs 1 1;
    if (1 <? maxOrder)%nat then
      do r <- EvaluateDerivatives PhysicistHermite false (skipn 2 vals) (skipn 2 derivs) (maxOrder - 2) x;
      let vals := firstn 2 vals ++ fst r in
      let derivs := firstn 2 derivs ++ snd r in
      let baseScaling := Rpower PI (-1/4) * exp (- (1/2) * x * x) in
      do d <- raw_get derivs 2;
      do v <- raw_get vals 2;
      do derivs <- raw_set derivs 2 ((d - x * v) * baseScaling);
      do vals <- raw_set vals 2 (v * baseScaling);
      do r <- ofold (fun (r : R * list R * list R) i =>
                 let '(currFactorial, vals, derivs) := r in
                 let currFactorial := currFactorial * INR i in
                 let scale := baseScaling * pow_mhalf (2 ^ i * currFactorial) in
                 do d <- raw_get derivs (i + 2);
                 do v <- raw_get vals (i + 2);
                 do derivs <- raw_set derivs (i + 2) ((d - x * v) * scale);
                 do vals <- raw_set vals (i + 2) (v * scale);
                 Ok (currFactorial, vals, derivs))
              (seq 1 (maxOrder - 2)) (1, vals, derivs);
      let '(_, vals, derivs) := r in
      Ok (vals, derivs)
    else Ok (vals, derivs)
  else Ok (vals, derivs).

(** repo: HermiteFunction.h:83-104. *)
Definition hf_EvaluateSecondDerivatives (vals derivs derivs2 : list R) (maxOrder : nat) (x : R)
  : outcome (list R * list R * list R) :=
  do r <- hf_EvaluateDerivatives vals derivs maxOrder x;
  let '(vals, derivs) := r in
  do derivs2 <- raw_set derivs2 0 0;
  do derivs2 <- (if (0 <? maxOrder)%nat then raw_set derivs2 1 0 else Ok derivs2);
  do derivs2 <- (if (1 <? maxOrder)%nat then
      ofold (fun d2 i => do v <- raw_get vals (i + 2); raw_set d2 (i + 2) (- (2 * INR i + 1 - x * x) * v))
            (seq 0 (maxOrder - 1)) derivs2
    else Ok derivs2);
  Ok (vals, derivs, derivs2).

(** repo: HermiteFunction.h:107-118. Factorial is the 32-bit one. *)
Definition hf_scaling (n : nat) : R := pow_mhalf (2 ^ n * IZR (Factorial n) * sqrt PI).
Definition hf_Evaluate (order : nat) (x : R) : R :=
  match order with
  | O => 1
  | S O => x
  | S (S n) => hf_scaling n * exp (- (1/2) * x * x) * Evaluate PhysicistHermite false n x
  end.

(** repo: HermiteFunction.h:120-132. *)
Definition hf_Derivative (order : nat) (x : R) : R :=
  match order with
  | O => 0
  | S O => 1
  | S (S n) =>
      let expPart := exp (- (1/2) * x * x) in
      hf_scaling n * (- x * expPart * Evaluate PhysicistHermite false n x
                      + expPart * Derivative PhysicistHermite false n x)
  end.

(** repo: HermiteFunction.h:134-142. *)
Definition hf_SecondDerivative (order : nat) (x : R) : R :=
  match order with
  | O | S O => 0
  | S (S n) => - (2 * INR order + 1 - x * x) * hf_Evaluate n x
  end.

(** ** LinearizedBasis<OtherBasis> *)

(** What LinearizedBasis uses of the basis it wraps. *)
Record basis : Type := MkBasis {
  b_all : list R -> nat -> R -> outcome (list R);
  b_derivs : list R -> list R -> nat -> R -> outcome (list R * list R);
  b_second : list R -> list R -> list R -> nat -> R -> outcome (list R * list R * list R);
  b_eval : nat -> R -> R;
  b_deriv : nat -> R -> R;
  b_deriv2 : nat -> R -> R
}.

Definition poly_basis (M : mixer) (normalize : bool) : basis :=
  MkBasis (EvaluateAll M normalize) (EvaluateDerivatives M normalize) (EvaluateSecondDerivatives M normalize)
          (Evaluate M normalize) (Derivative M normalize) (SecondDerivative M normalize).
Definition hermite_functions : basis :=
  MkBasis hf_EvaluateAll hf_EvaluateDerivatives hf_EvaluateSecondDerivatives hf_Evaluate hf_Derivative
          hf_SecondDerivative.

Definition Rltb (a b : R) : bool := if Rlt_dec a b then true else false.

(** The update loop "output[i] += g(i)*(x-p)". *)
Definition add_all (g : nat -> outcome R) (maxOrder : nat) (dx : R) (out : list R) : outcome (list R) :=
  ofold (fun out i => do v <- raw_get out i; do d <- g i; raw_set out i (v + d * dx)) (seq 0 (S maxOrder)) out.

(** repo: LinearizedBasis.h:37-59. *)
Definition lin_all (B : basis) (lb ub : R) (out : list R) (maxOrder : nat) (x : R) : outcome (list R) :=
  if Rltb x lb then
    do out <- b_all B out maxOrder lb; add_all (fun i => Ok (b_deriv B i lb)) maxOrder (x - lb) out
  else if Rltb ub x then
    do out <- b_all B out maxOrder ub; add_all (fun i => Ok (b_deriv B i ub)) maxOrder (x - ub) out
  else b_all B out maxOrder x.

(** repo: LinearizedBasis.h:61-87. *)
Definition lin_derivs (B : basis) (lb ub : R) (vals derivs : list R) (maxOrder : nat) (x : R)
  : outcome (list R * list R) :=
  if Rltb x lb then
    do r <- b_derivs B vals derivs maxOrder lb;
    do v <- add_all (raw_get (snd r)) maxOrder (x - lb) (fst r); Ok (v, snd r)
  else if Rltb ub x then
    do r <- b_derivs B vals derivs maxOrder ub;
    do v <- add_all (raw_get (snd r)) maxOrder (x - ub) (fst r); Ok (v, snd r)
  else b_derivs B vals derivs maxOrder x.

(** repo: LinearizedBasis.h:90-109. *)
Definition lin_second (B : basis) (lb ub : R) (vals derivs derivs2 : list R) (maxOrder : nat) (x : R)
  : outcome (list R * list R * list R) :=
  if Rltb x lb then
    do r <- lin_derivs B lb ub vals derivs maxOrder x;
    do d2 <- ofold (fun a i => raw_set a i 0) (seq 0 (S maxOrder)) derivs2; Ok (r, d2)
  else if Rltb ub x then
    do r <- lin_derivs B lb ub vals derivs maxOrder x;
    do d2 <- ofold (fun a i => raw_set a i 0) (seq 0 (S maxOrder)) derivs2; Ok (r, d2)
  else b_second B vals derivs derivs2 maxOrder x.

(** repo: LinearizedBasis.h:112-122. *)
Definition lin_eval (B : basis) (lb ub : R) (order : nat) (x : R) : R :=
  if Rltb x lb then b_eval B order lb + b_deriv B order lb * (x - lb)
  else if Rltb ub x then b_eval B order ub + b_deriv B order ub * (x - ub)
  else b_eval B order x.

(** repo: LinearizedBasis.h:124-134. *)
Definition lin_deriv (B : basis) (lb ub : R) (order : nat) (x : R) : R :=
  if Rltb x lb then b_deriv B order lb
  else if Rltb ub x then b_deriv B order ub
  else b_deriv B order x.

(** repo: LinearizedBasis.h:136-146. *)
Definition lin_deriv2 (B : basis) (lb ub : R) (order : nat) (x : R) : R :=
  if Rltb x lb then 0 else if Rltb ub x then 0 else b_deriv2 B order x.

(** A linearised basis is again a basis. *)
Definition linearized (B : basis) (lb ub : R) : basis :=
  MkBasis (lin_all B lb ub) (lin_derivs B lb ub) (lin_second B lb ub) (lin_eval B lb ub) (lin_deriv B lb ub)
          (lin_deriv2 B lb ub).
