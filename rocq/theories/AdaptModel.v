(** Model of TrainMapAdaptive (repo: src/TrainMapAdaptive.cpp).
    Map components are represented by their multi-index sets and coefficients. What the factory, the optimiser and the
    objective do is given by a [world]: arbitrary functions of the map and of a state that every call may change, so
    nothing is assumed about training or about the errors and gradients reported. ObjectiveModel.v models the calls that
    the KL objective and TrainMap make. MultiIndexSet is modelled in MISetModel.v.
    Not modelled: printing; wrap-around of 32-bit counters; the partly updated [mset0] that an exception leaves to the caller. *)
From Coq Require Import Reals.
From Verif Require Import Base SpecMulti MISetModel DensityModel.

Record world (W : Type) : Type := MkWorld {
  (* MapFactory::CreateComponent for a set: succeeds (with zero coefficients) or throws *)
  w_create : mset -> outcome unit;
  (* TrainMap on the triangular map with these sets and coefficients: the coefficients of each component afterwards *)
  w_train : W -> list mset -> list (list R) -> outcome (W * list (list R));
  (* objective->TestError and objective->TrainCoeffGrad *)
  w_test : W -> list mset -> list (list R) -> outcome (W * dbl);
  w_grad : W -> list mset -> list (list R) -> outcome (W * list dbl);
  (* a read at this index past the end of a component's coefficients: an abort, or any number *)
  w_stray : nat -> outcome R
}.
Arguments w_create {W}. Arguments w_train {W}. Arguments w_test {W}. Arguments w_grad {W}. Arguments w_stray {W}.

Record atm_options : Type := MkAtm { maxPatience : nat; maxSize : nat; maxDegrees : vec }.

(** "a < b" and std::abs on doubles *)
Definition dlt (a b : dbl) : bool :=
  match a, b with
  | Fin x, Fin y => if Rlt_dec x y then true else false
  | MInf, Fin _ | MInf, PInf | Fin _, PInf => true
  | _, _ => false
  end.
Definition dabs (a : dbl) : dbl := match a with Fin x => Fin (Rabs x) | NaN => NaN | _ => PInf end.

(** repo: TrainMapAdaptive.cpp:12-20, the inner loop of findMaxGrad: largest value and its place so far *)
Definition max_block (grad : list dbl) (start output : nat) (rm : list nat) (p : dbl * option (nat * nat)) : outcome (dbl * option (nat * nat)) :=
  ofold (fun p idx => do x <- raw_get grad (start + idx);
    Ok (if dlt (fst p) (dabs x) then (dabs x, Some (idx, output)) else p)) rm p.
(** repo: TrainMapAdaptive.cpp:6-23. [None]: maxIdx and maxIdxBlock were not assigned. *)
Fixpoint max_blocks (grad : list dbl) (rms : list (list nat)) (sizes : list nat) (start output : nat) (p : dbl * option (nat * nat)) : outcome (dbl * option (nat * nat)) :=
  match rms with
  | [] => Ok p
  | rm :: rms' =>
    do p <- max_block grad start output rm p;
    match sizes with [] => UB | n :: sizes' => max_blocks grad rms' sizes' (start + n) (S output) p end
  end.
Definition findMaxGrad (grad : list dbl) (rms : list (list nat)) (msets : list mset) : outcome (option (nat * nat)) :=
  do p <- max_blocks grad rms (map ms_Size msets) 0 0 (Fin 0, None); Ok (snd p).

(** repo: TrainMapAdaptive.cpp:25-40 *)
Definition rm_filter (maxDegrees : vec) (p : mset * list nat) : outcome (list nat) :=
  do bounded <- ms_FilterBounded (fst p) maxDegrees;
  ofilter (fun i => do b <- raw_get bounded i; Ok (negb b)) (snd p).
Definition maxDegreeRMFilter (msets : list mset) (maxDegrees : vec) (rms : list (list nat)) : outcome (list (list nat)) :=
  omap (rm_filter maxDegrees) (combine msets rms).

Section World.
Context {W : Type} (E : world W).

(** repo: TrainMapAdaptive.cpp:150-161; state: new coefficients, oldIdx, rmIdx *)
Definition frontier_step (old : list R) (rm : list nat) (p : list R * nat * nat) (j : nat) : outcome (list R * nat * nat) :=
  let '(c, oldIdx, rmIdx) := p in
  do r <- raw_get rm rmIdx;
  if j =? r then Ok (c ++ [0%R], oldIdx, S rmIdx)
  else do x <- match nth_error old oldIdx with Some x => Ok x | None => w_stray E oldIdx end;
       Ok (c ++ [x], S oldIdx, rmIdx).
Definition frontier_coeffs (old : list R) (rm : list nat) (n : nat) : outcome (list R) :=
  do p <- ofold (frontier_step old rm) (seq 0 n) ([], 0, 0); Ok (fst (fst p)).
(** repo: TrainMapAdaptive.cpp:142-165, one component: [mset_tmp], [mset0] and the old coefficients of one output *)
Definition expand_block (p : mset * mset * list R) : outcome (mset * list nat * list R) :=
  let '(tmp, s, old) := p in
  do tmp <- ms_assign tmp s;
  do r <- ms_ExpandAll tmp;
  do _ <- w_create E (fst r);
  do c <- frontier_coeffs old (snd r) (ms_Size (fst r));
  Ok (fst r, snd r, c).

(** The variables of TrainMapAdaptive that live across iterations. *)
Record adapt : Type := MkAdapt {
  a_world : W;
  a_mset0 : list mset;
  a_tmp : list mset;
  a_best : list mset;
  a_sizes : list nat;
  a_coeffs : list (list R);   (* mapBlocks[i]->Coeffs() *)
  a_size : nat;               (* currSz *)
  a_patience : nat;           (* currPatience *)
  a_bestError : dbl;
  a_last : dbl                (* test error of the current map; not kept by the code *)
}.

(** repo: TrainMapAdaptive.cpp:142-197, choice of the multi-index to add: the expanded sets, the world, the place and the multi-index *)
Definition choose (o : atm_options) (a : adapt) : outcome (list mset * W * (nat * nat) * vec) :=
  do xs <- omap expand_block (combine (combine (a_tmp a) (a_mset0 a)) (a_coeffs a));
  let tmp := map (fun x => fst (fst x)) xs in
  let rms := map (fun x => snd (fst x)) xs in
  do g <- w_grad E (a_world a) tmp (map snd xs);
  do rms <- (if length (maxDegrees o) =? 0 then Ok rms else maxDegreeRMFilter tmp (maxDegrees o) rms);
  do m <- findMaxGrad (snd g) rms tmp;
  match m with
  | None => UB                (* indeterminate values are used as indices *)
  | Some (idx, blk) => do t <- raw_get tmp blk; do v <- ms_IndexToMulti t idx; Ok (tmp, fst g, (idx, blk), v)
  end.
(** repo: TrainMapAdaptive.cpp:137-240, the loop body *)
Definition adapt_step (o : atm_options) (a : adapt) : outcome adapt :=
  do ch <- choose o a;
  let '(tmp, w, (idx, blk), v) := ch in
  do s <- raw_get (a_mset0 a) blk;
  do r <- ms_AddActive s v;
  let s := fst r in
  do n <- raw_get (a_sizes a) blk;
  if negb (ms_Size s =? n + 1) then Throw else
  do _ <- w_create E s;
  do old <- raw_get (a_coeffs a) blk;
  if length old <? n then UB else     (* std::copy of n old coefficients; the copy is not used *)
  let mset0 := upd (a_mset0 a) blk s in
  do tr <- w_train E w mset0 (upd (a_coeffs a) blk (repeat 0%R (ms_Size s)));
  do te <- w_test E (fst tr) mset0 (snd tr);
  let better := dlt (snd te) (a_bestError a) in
  Ok (MkAdapt (fst te) mset0 tmp (if better then mset0 else a_best a) (upd (a_sizes a) blk (n + 1)) (snd tr) (a_size a + 1)
        (if better then 0 else a_patience a + 1) (if better then snd te else a_bestError a) (snd te)).
Definition goes_on (o : atm_options) (a : adapt) : bool := (a_size a <? maxSize o) && (a_patience a <? maxPatience o).
Fixpoint adapt_loop (fuel : nat) (o : atm_options) (a : adapt) : outcome adapt :=
  match fuel with
  | O => Fuel
  | S fuel => if goes_on o a then do a <- adapt_step o a; adapt_loop fuel o a else Ok a
  end.

(** repo: TrainMapAdaptive.cpp:71-96, one pass over component j; state: currMsetDim, the constant sets, currSz.
    inputDim-outputDim+j+1 is unsigned: when it wraps around, the set cannot be allocated. *)
Definition check_block (inputDim outputDim : nat) (p : nat * list mset * nat) (js : nat * mset) : outcome (nat * list mset * nat) :=
  let '(currMsetDim, consts, currSz) := p in
  let '(j, s) := js in
  if negb (dim s =? currMsetDim) then Throw else
  do _ <- w_create E s;
  if inputDim + j + 1 <? outputDim then Throw else
  do k <- ms_CreateTotalOrder (inputDim + j + 1 - outputDim) 0 (fun _ => true);
  Ok (currMsetDim + 1, consts ++ [k], currSz + ms_Size s).
(** repo: TrainMapAdaptive.cpp:48-134 *)
Definition adapt_init (inputDim outputDim : nat) (o : atm_options) (w : W) (mset0 : list mset) : outcome adapt :=
  if negb (length mset0 =? outputDim) then Throw else
  do s0 <- raw_get mset0 0;
  do p <- ofold (check_block inputDim outputDim) (combine (seq 0 (length mset0)) mset0) (dim s0, [], 0);
  let '(d, consts, currSz) := p in
  let d := d - 1 in
  if negb (d =? inputDim) then Throw else
  if negb (length (maxDegrees o) =? 0) && negb (length (maxDegrees o) =? d) then Throw else
  do tr <- w_train E w mset0 (map (fun s => repeat 0%R (ms_Size s)) mset0);
  do te <- w_test E (fst tr) mset0 (snd tr);
  Ok (MkAdapt (fst te) mset0 consts consts (map ms_Size mset0) (snd tr) currSz 0 (snd te) (snd te)).
(** repo: TrainMapAdaptive.cpp:242-256: the world, [mset0] and the coefficients of the returned map *)
Definition adapt_finish (a : adapt) : outcome (W * list mset * list (list R)) :=
  do _ <- omap (w_create E) (a_best a);
  do tr <- w_train E (a_world a) (a_best a) (map (fun s => repeat 0%R (ms_Size s)) (a_best a));
  do te <- w_test E (fst tr) (a_best a) (snd tr);
  Ok (fst te, a_best a, snd tr).
Definition TrainMapAdaptive (fuel : nat) (inputDim outputDim : nat) (o : atm_options) (w : W) (mset0 : list mset) : outcome (W * list mset * list (list R)) :=
  do a <- adapt_init inputDim outputDim o w mset0;
  do a <- adapt_loop fuel o a;
  adapt_finish a.
End World.
Arguments adapt W : clear implicits.
Arguments MkAdapt {W}.
