(** Model of FixedMultiIndexSet (repo: MParT/MultiIndices/FixedMultiIndexSet.h,
    src/MultiIndices/FixedMultiIndexSet.cpp) and MultiIndexSet::Fix.
    Kokkos views are lists; they are zero-initialised when allocated, and an access past
    the end is [UB]. Only the host specialisations are modelled. *)
From Verif Require Import Base SpecMulti MISetModel.

Record fset : Type := MkF {
  fdim : nat;
  fcomp : bool;              (* isCompressed *)
  fstarts : list nat;        (* nzStarts *)
  fdims : list nat;          (* nzDims *)
  forders : list nat;        (* nzOrders *)
  fmax : list nat            (* maxDegrees *)
}.

(** repo: FixedMultiIndexSet.cpp:124-140 CalculateMaxDegrees (host). *)
Definition calc_max (d : nat) (dims orders : list nat) : outcome (list nat) :=
  ofold (fun mx i =>
           do k <- raw_get dims i;
           do o <- raw_get orders i;
           do m <- raw_get mx k;
           raw_set mx k (Nat.max m o))
        (seq 0 (length orders)) (repeat 0 d).

(** repo: FixedMultiIndexSet.cpp:142-153, compressed constructor. *)
Definition f_make_compressed (d : nat) (starts dims orders : list nat) : outcome fset :=
  do mx <- calc_max d dims orders; Ok (MkF d true starts dims orders mx).

(** repo: FixedMultiIndexSet.cpp:74-83, 95-112, dense constructor and SetupTerms;
    an integer division by zero is [UB]. *)
Definition f_make_dense (d : nat) (orders : list nat) : outcome fset :=
  if d =? 0 then UB else
  let n := length orders / d in
  do starts <- ofold (fun a i => raw_set a i (i * d)) (seq 0 n) (repeat 0 (n + 1));
  do dims <- ofold (fun a i => raw_set a i (i mod d)) (seq 0 (d * n)) (repeat 0 (length orders));
  do mx <- calc_max d dims orders;
  Ok (MkF d false starts dims orders mx).

(** repo: FixedMultiIndexSet.h:59-70. *)
Definition f_Length (f : fset) : nat := fdim f.
Definition f_Size (f : fset) : nat :=
  if fcomp f then length (fstarts f) - 1 else length (forders f) / fdim f.
Definition f_MaxDegrees (f : fset) : list nat := fmax f.

Definition at_set {A} (l : list A) (i : nat) (x : A) : outcome (list A) :=
  if i <? length l then Ok (upd l i x) else Throw.

(** repo: FixedMultiIndexSet.cpp:192-205 IndexToMulti. *)
Definition f_IndexToMulti (f : fset) (index : nat) : outcome vec :=
  if fcomp f then
    do a <- raw_get (fstarts f) index;
    do b <- raw_get (fstarts f) (index + 1);
    ofold (fun out i => do k <- raw_get (fdims f) i; do o <- raw_get (forders f) i; at_set out k o)
          (seq a (b - a)) (repeat 0 (fdim f))
  else
    ofold (fun out i => do o <- raw_get (forders f) (i + fdim f * index); at_set out i o)
          (seq 0 (fdim f)) (repeat 0 (fdim f)).

(** A loop over [l] that leaves with [false] at the first element failing the test. *)
Fixpoint oforall {A} (t : A -> outcome bool) (l : list A) : outcome bool :=
  match l with
  | [] => Ok true
  | x :: r => do b <- t x; if b then oforall t r else Ok false
  end.

(** A search loop that returns the first index satisfying the test; [None] is -1. *)
Fixpoint ofind (t : nat -> outcome bool) (l : list nat) : outcome (option nat) :=
  match l with
  | [] => Ok None
  | i :: r => do b <- t i; if b then Ok (Some i) else ofind t r
  end.

(** repo: FixedMultiIndexSet.cpp:208-261 MultiToIndex. *)
Definition f_MultiToIndex (f : fset) (multi : vec) : outcome (option nat) :=
  if fcomp f then
    let nnz := vnnz multi in
    ofind (fun i =>
      do b <- raw_get (fstarts f) (i + 1);
      do a <- raw_get (fstarts f) i;
      if b - a =? nnz then
        oforall (fun j => do o <- raw_get (forders f) j; do k <- raw_get (fdims f) j;
                          do m <- at_ multi k; Ok (o =? m))
                (seq a (b - a))
      else Ok false)
      (seq 0 (length (fstarts f)))
  else
    ofind (fun i =>
      oforall (fun d => do m <- at_ multi d; do o <- raw_get (forders f) (d + i * fdim f); Ok (m =? o))
              (seq 0 (fdim f)))
      (seq 0 (f_Size f)).

(** The sparse form of a dense vector: MultiIndex::nzInds and nzVals (see C01). *)
Definition nzinds (v : vec) : list nat := filter (fun i => negb (nth i v 0 =? 0)) (seq 0 (length v)).
Definition nzvals (v : vec) : list nat := map (fun i => nth i v 0) (nzinds v).

(** Arrays being filled, with the two running counters. *)
Record fill_state : Type := MkFS {
  p_starts : list nat; p_dims : list nat; p_orders : list nat; p_term : nat; p_nz : nat
}.

(** repo: MultiIndexSet.cpp:146-159, one term of the loop of Fix(true). *)
Definition fix_term (p : fill_state) (v : vec) : outcome fill_state :=
  do st <- raw_set (p_starts p) (p_term p) (p_nz p);
  do r <- ofold (fun (r : list nat * list nat) j =>
             do x <- raw_get (nzinds v) j;
             do y <- raw_get (nzvals v) j;
             do dm <- raw_set (fst r) (p_nz p + j) x;
             do od <- raw_set (snd r) (p_nz p + j) y;
             Ok (dm, od))
          (seq 0 (length (nzinds v))) (p_dims p, p_orders p);
  Ok (MkFS st (fst r) (snd r) (S (p_term p)) (p_nz p + vnnz v)).

(** repo: MultiIndexSet.cpp:130-179 Fix. *)
Definition ms_Fix (compress : bool) (s : mset) : outcome fset :=
  if compress then
    do vs <- omap (at_ (all s)) (a2g s);
    let total := fold_right Nat.add 0 (map vnnz vs) in
    do p <- ofold fix_term vs
              (MkFS (repeat 0 (ms_Size s + 1)) (repeat 0 total) (repeat 0 total) 0 0);
    do st <- raw_set (p_starts p) (ms_Size s) total;
    f_make_compressed (dim s) st (p_dims p) (p_orders p)
  else
    do orders <- ofold (fun o i =>
        do v <- ms_IndexToMulti s i;
        ofold (fun o d => do x <- at_ v d; raw_set o (d + i * dim s) x) (seq 0 (dim s)) o)
      (seq 0 (ms_Size s)) (repeat 0 (dim s * ms_Size s));
    f_make_dense (dim s) orders.

(** repo: FixedMultiIndexSet.cpp:296-314 TotalOrderSize; [k] is dim-1-currDim. *)
Fixpoint total_size (k maxOrder : nat) : nat * nat :=
  match k with
  | S k' => fold_left (fun (acc : nat * nat) pow =>
              let '(t, z) := total_size k' (maxOrder - pow) in
              (fst acc + t, snd acc + (z + (if 0 <? pow then t else 0))))
            (seq 0 (S maxOrder)) (0, 0)
  | O => (maxOrder + 1, maxOrder)
  end.

(** repo: FixedMultiIndexSet.cpp:334-344, writing one leaf [w] of FillTotalOrder. *)
Definition total_leaf (p : fill_state) (w : vec) : outcome fill_state :=
  do st <- raw_set (p_starts p) (p_term p) (p_nz p);
  do q <- ofold (fun (q : list nat * list nat * nat) i =>
             let '(dm, od, nz) := q in
             do x <- raw_get w i;
             if 0 <? x then
               do dm' <- raw_set dm nz i;
               do od' <- raw_set od nz x;
               Ok (dm', od', S nz)
             else Ok q)
          (seq 0 (length w)) (p_dims p, p_orders p, p_nz p);
  let '(dm, od, nz) := q in
  Ok (MkFS st dm od (S (p_term p)) nz).

(** repo: FixedMultiIndexSet.cpp:316-351 FillTotalOrder without its last statement.
    [pre] is workspace[0..currDim); later entries are written before they are read. *)
Fixpoint total_fill (k maxOrder : nat) (pre : vec) (p : fill_state) : outcome fill_state :=
  match k with
  | S k' => ofold (fun p pow => total_fill k' (maxOrder - pow) (pre ++ [pow]) p) (seq 0 (S maxOrder)) p
  | O => ofold (fun p pow => total_leaf p (pre ++ [pow])) (seq 0 (S maxOrder)) p
  end.

(** repo: FixedMultiIndexSet.cpp:155-176, total-order constructor. With dim 0 the test
    currDim<dim-1 wraps around and workspace is written out of bounds. *)
Definition f_total_order (d maxOrder : nat) : outcome fset :=
  match d with
  | O => UB
  | S k =>
      let '(terms, nz) := total_size k maxOrder in
      do p <- total_fill k maxOrder [] (MkFS (repeat 0 (terms + 1)) (repeat 0 nz) (repeat 0 nz) 0 0);
      do st <- raw_set (p_starts p) (p_term p) (p_nz p);
      f_make_compressed d st (p_dims p) (p_orders p)
  end.
