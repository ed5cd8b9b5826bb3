(** Model of class MultiIndex.
    repo: MParT/MultiIndices/MultiIndex.h, src/MultiIndices/MultiIndex.cpp.
    Simplification throughout: [unsigned int] is [nat] (no wrap at 2^32). *)
From Verif Require Import Base.

(** repo: MParT/MultiIndices/MultiIndex.h, private members of class MultiIndex. *)
Record mi := MkMi {
  mi_length : nat;
  nzInds : list nat;
  nzVals : list nat;
  maxValue : nat;
  totalOrder : nat
}.

(** repo: MultiIndex.cpp:11-22 MultiIndex(lengthIn, val). *)
Definition mi_const (len val : nat) : mi :=
  {| mi_length := len;
     nzInds := if 0 <? val then seq 0 len else [];
     nzVals := if 0 <? val then repeat val len else [];
     maxValue := val;
     totalOrder := len * val |}.

(** repo: MultiIndex.cpp:28-35, body of the loop over positions; the same loop
    is 40-47 of MultiIndex.h (Eigen vectors) and 45-54 (initializer lists). *)
Definition mi_push (m : mi) (i x : nat) : mi :=
  if 0 <? x then
    {| mi_length := mi_length m;
       nzInds := nzInds m ++ [i];
       nzVals := nzVals m ++ [x];
       maxValue := Nat.max (maxValue m) x;
       totalOrder := totalOrder m + x |}
  else m.

Fixpoint mi_fill (m : mi) (i : nat) (v : list nat) : mi :=
  match v with
  | [] => m
  | x :: t => mi_fill (mi_push m i x) (S i) t
  end.

(** repo: MultiIndex.cpp:25-36, MultiIndex.h constructors from std::vector and
    Eigen vectors, MultiIndex.cpp:39-55 initializer list. *)
Definition mi_of_vec (v : list nat) : mi := mi_fill (mi_const (length v) 0) 0 v.

(** repo: MultiIndex.cpp:58-66 Vector(). The write [output[nzInds[i]]] is an
    unchecked access. *)
Definition mi_Vector (m : mi) : outcome (list nat) :=
  ofold (fun out p => raw_set out (fst p) (snd p))
        (combine (nzInds m) (nzVals m)) (repeat 0 (mi_length m)).

(** std::lower_bound on a sorted vector: number of leading elements below [x]. *)
Fixpoint lower_bound (l : list nat) (x : nat) : nat :=
  match l with
  | [] => 0
  | h :: t => if h <? x then S (lower_bound t x) else 0
  end.

(** vector::insert and vector::erase at a position. *)
Definition ins_at (l : list nat) (k x : nat) : list nat := firstn k l ++ x :: skipn k l.
Definition erase_at (l : list nat) (k : nat) : list nat := firstn k l ++ skipn (S k) l.

(** repo: MultiIndex.cpp:112-118 recomputation of the cached sum and maximum. *)
Definition mi_refresh (m : mi) (inds vals : list nat) : mi :=
  {| mi_length := mi_length m; nzInds := inds; nzVals := vals;
     maxValue := fold_left Nat.max vals 0;
     totalOrder := fold_left Nat.add vals 0 |}.

(** repo: MultiIndex.cpp:68-122 Set(ind,val). Note the guard [ind>length]. *)
Definition mi_Set (m : mi) (ind val : nat) : outcome (mi * bool) :=
  if mi_length m <? ind then Throw
  else
    let index := lower_bound (nzInds m) ind in
    let existing := match nth_error (nzInds m) index with
                    | Some k => k =? ind | None => false end in
    if existing then
      if 0 <? val then
        (if index <? length (nzVals m)
         then Ok (mi_refresh m (nzInds m) (upd (nzVals m) index val), true)
         else Throw)
      else Ok (mi_refresh m (erase_at (nzInds m) index) (erase_at (nzVals m) index), true)
    else if val =? 0 then Ok (m, false)
    else Ok (mi_refresh m (ins_at (nzInds m) index ind) (ins_at (nzVals m) index val), false).

(** repo: MultiIndex.cpp:130-147 Get(ind). Note the guard [ind>length]. *)
Definition mi_Get (m : mi) (ind : nat) : outcome nat :=
  if mi_length m <? ind then Throw
  else
    let index := lower_bound (nzInds m) ind in
    match nth_error (nzInds m) index with
    | Some k => if k =? ind then at_ (nzVals m) index else Ok 0
    | None => Ok 0
    end.

(** repo: MultiIndex.h Sum, Max, Length; MultiIndex.cpp:124-127 NumNz. *)
Definition mi_Sum (m : mi) := totalOrder m.
Definition mi_Max (m : mi) := maxValue m.
Definition mi_Length (m : mi) := mi_length m.
Definition mi_NumNz (m : mi) := length (nzInds m).

(** repo: MultiIndex.cpp:159-166 loop of operator!=; [.at] may throw. *)
Fixpoint mi_ne_loop (k i : nat) (a b : mi) : outcome bool :=
  match k with
  | 0 => Ok false
  | S k' =>
      do bi <- at_ (nzInds b) i;
      do ai <- at_ (nzInds a) i;
      if negb (bi =? ai) then Ok true
      else
        do bv <- at_ (nzVals b) i;
        do av <- at_ (nzVals a) i;
        if negb (bv =? av) then Ok true else mi_ne_loop k' (S i) a b
  end.

(** repo: MultiIndex.cpp:151-167 operator!=. *)
Definition mi_ne (a b : mi) : outcome bool :=
  if negb (mi_length b =? mi_length a) || negb (maxValue b =? maxValue a)
     || negb (totalOrder b =? totalOrder a) then Ok true
  else if negb (length (nzInds b) =? length (nzInds a)) then Ok true
  else mi_ne_loop (length (nzInds a)) 0 a b.

(** repo: MultiIndex.cpp:169-171 operator==. *)
Definition mi_eq (a b : mi) : outcome bool := do r <- mi_ne a b; Ok (negb r).

(** repo: MultiIndex.cpp:193-202 lexicographic loop of operator<. *)
Fixpoint mi_lt_loop (k i : nat) (a b : mi) : outcome bool :=
  match k with
  | 0 => Ok false
  | S k' =>
      do x <- mi_Get a i;
      do y <- mi_Get b i;
      if x <? y then Ok true
      else if y <? x then Ok false
      else mi_lt_loop k' (S i) a b
  end.

(** repo: MultiIndex.cpp:177-205 operator<. *)
Definition mi_lt (a b : mi) : outcome bool :=
  if mi_length a <? mi_length b then Ok true
  else if mi_length b <? mi_length a then Ok false
  else if totalOrder a <? totalOrder b then Ok true
  else if totalOrder b <? totalOrder a then Ok false
  else if maxValue a <? maxValue b then Ok true
  else if maxValue b <? maxValue a then Ok false
  else mi_lt_loop (Nat.min (mi_length a) (mi_length b)) 0 a b.

(** repo: MultiIndex.cpp:173-175 operator>, 207-209 operator>=, 211-213 operator<=. *)
Definition mi_gt (a b : mi) : outcome bool := mi_lt b a.
Definition mi_ge (a b : mi) : outcome bool := do r <- mi_lt a b; Ok (negb r).
Definition mi_le (a b : mi) : outcome bool := do r <- mi_gt a b; Ok (negb r).

(** repo: MultiIndex.cpp:219-224 loop of AnyBounded. *)
Fixpoint mi_anyb_loop (k i : nat) (m bound : mi) : outcome bool :=
  match k with
  | 0 => Ok false
  | S k' =>
      do x <- mi_Get m i;
      do y <- mi_Get bound i;
      if y <=? x then Ok true else mi_anyb_loop k' (S i) m bound
  end.

(** repo: MultiIndex.cpp:215-225 AnyBounded. *)
Definition mi_AnyBounded (m bound : mi) : outcome bool :=
  if mi_length bound <? mi_length m then Throw
  else mi_anyb_loop (mi_length m) 0 m bound.

(** A history of Set calls, stopping at the first failure. *)
Definition mi_sets (m : mi) (h : list (nat * nat)) : outcome mi :=
  ofold (fun m p => do r <- mi_Set m (fst p) (snd p); Ok (fst r)) h m.

(** repo: src/MultiIndices/MultiIndexNeighborhood.cpp:6-18 ForwardNeighbors. *)
Definition nb_forward (m : mi) : outcome (list mi) :=
  do v <- mi_Vector m;
  Ok (map (fun i => mi_of_vec (upd v i (nth i v 0 + 1))) (seq 0 (length v))).

(** repo: src/MultiIndices/MultiIndexNeighborhood.cpp:20-34 BackwardNeighbors. *)
Definition nb_backward (m : mi) : outcome (list mi) :=
  do v <- mi_Vector m;
  Ok (map (fun i => mi_of_vec (upd v i (nth i v 0 - 1)))
          (filter (fun i => negb (nth i v 0 =? 0)) (seq 0 (length v)))).

(** repo: src/MultiIndices/MultiIndexNeighborhood.cpp:51-63 loop of IsForward. *)
Fixpoint nb_isfwd_loop (k i diff : nat) (base next : mi) : outcome bool :=
  match k with
  | 0 => Ok (diff =? 1)
  | S k' =>
      do nv <- mi_Get next i;
      do bv <- mi_Get base i;
      if nv <? bv then Ok false
      else
        let diff' := diff + (nv - bv) in
        if 1 <? diff' then Ok false else nb_isfwd_loop k' (S i) diff' base next
  end.

(** repo: src/MultiIndices/MultiIndexNeighborhood.cpp:36-64 IsForward. *)
Definition nb_isfwd (base next : mi) : outcome bool :=
  if (mi_NumNz base + 1 <? mi_NumNz next) || (mi_NumNz next <? mi_NumNz base)
  then Ok false
  else nb_isfwd_loop (mi_Length next) 0 0 base next.

(** repo: src/MultiIndices/MultiIndexNeighborhood.cpp:66-70 IsBackward. *)
Definition nb_isbwd (base prev : mi) : outcome bool := nb_isfwd prev base.
