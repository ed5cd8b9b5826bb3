(** Model of MultiIndexSet (repo: MParT/MultiIndices/MultiIndexSet.h,
    src/MultiIndices/MultiIndexSet.cpp).

    Simplification used throughout: a stored MultiIndex is represented by its dense
    vector. PropMulti.v proves that the sparse MultiIndex objects are in bijection
    with dense vectors (C01), that the key order of std::map<MultiIndex,...> is a
    strict total order whose equality is dense equality (C02) and that the default
    neighbourhood lists exactly the vectors computed by [vforward], [vbackward] (C05).
    The limiter is an arbitrary total function; a limiter that throws is not modelled.
    [None] in [g2a] stands for the value -1 of global2active. *)
From Verif Require Import Base SpecMulti.

Record mset : Type := MkSet {
  lim  : vec -> bool;            (* limiter *)
  dim  : nat;                    (* length *)
  all  : list vec;               (* allMultis *)
  m2g  : list (vec * nat);       (* multi2global *)
  a2g  : list nat;               (* active2global *)
  g2a  : list (option nat);      (* global2active *)
  outE : list (list nat);        (* outEdges: each std::set<int> as a sorted list *)
  inE  : list (list nat);        (* inEdges *)
  maxo : list nat                (* maxOrders *)
}.

Definition vec_eqb (a b : vec) : bool := if list_eq_dec Nat.eq_dec a b then true else false.

(** std::map::find on multi2global. *)
Fixpoint mfind (l : list (vec * nat)) (v : vec) : option nat :=
  match l with
  | [] => None
  | (w, g) :: t => if vec_eqb w v then Some g else mfind t v
  end.

(** std::set<int>::insert. *)
Fixpoint sins (x : nat) (l : list nat) : list nat :=
  match l with
  | [] => [x]
  | y :: t => if x <? y then x :: l else if x =? y then l else y :: sins x t
  end.

(** std::set<int>::erase. *)
Definition sdel (x : nat) (l : list nat) : list nat := filter (fun y => negb (y =? x)) l.

(** repo: MultiIndexNeighborhood.cpp:5-15, 17-30 on dense vectors (see C05). *)
Definition vforward (v : vec) : list vec :=
  map (fun i => vset v i (nth i v 0 + 1)) (seq 0 (length v)).
Definition vbackward (v : vec) : list vec :=
  map (fun i => vset v i (nth i v 0 - 1))
      (filter (fun i => negb (nth i v 0 =? 0)) (seq 0 (length v))).

(** repo: MultiIndexSet.cpp:110-117. *)
Definition ms_empty (d : nat) (L : vec -> bool) : mset :=
  MkSet L d [] [] [] [] [] [] (repeat 0 d).

Definition set_out_in (s : mset) (o i : list (list nat)) : mset :=
  MkSet (lim s) (dim s) (all s) (m2g s) (a2g s) (g2a s) o i (maxo s).

(** repo: MultiIndexSet.h:115,162. *)
Definition ms_Size (s : mset) : nat := length (a2g s).
Definition ms_IndexToMulti (s : mset) (i : nat) : outcome vec :=
  do g <- at_ (a2g s) i; at_ (all s) g.
Definition ms_MaxOrders (s : mset) : list nat := maxo s.

(** repo: MultiIndexSet.cpp:215-224. *)
Definition ms_MultiToIndex (s : mset) (v : vec) : outcome (option nat) :=
  match mfind (m2g s) v with
  | Some g => raw_get (g2a s) g
  | None => Ok None
  end.

(** repo: MultiIndexSet.cpp:289-292. *)
Definition is_active (s : mset) (g : nat) : outcome bool :=
  do x <- raw_get (g2a s) g; Ok (match x with Some _ => true | None => false end).

(** repo: MultiIndexSet.cpp:278-287. *)
Definition ms_IsActive (s : mset) (v : vec) : outcome bool :=
  match mfind (m2g s) v with Some g => is_active s g | None => Ok false end.

(** repo: MultiIndexSet.cpp:376-399, one pass of the loop of AddForwardNeighbors;
    [miss] is what happens when the neighbour is not stored. *)
Definition fwd_step (miss : mset -> vec -> outcome mset) (g : nat) (s : mset) (nb : vec)
  : outcome mset :=
  if lim s nb then
    match mfind (m2g s) nb with
    | Some h =>
        do ih <- at_ (inE s) h;
        do og <- at_ (outE s) g;
        Ok (set_out_in s (upd (outE s) g (sins h og)) (upd (inE s) h (sins g ih)))
    | None => miss s nb
    end
  else Ok s.

(** repo: MultiIndexSet.cpp:624-645, one pass of the loop of AddBackwardNeighbors. *)
Definition bwd_step (miss : mset -> vec -> outcome mset) (g : nat) (s : mset) (nb : vec)
  : outcome mset :=
  if lim s nb then
    match mfind (m2g s) nb with
    | Some h =>
        do oh <- at_ (outE s) h;
        do ig <- at_ (inE s) g;
        Ok (set_out_in s (upd (outE s) h (sins g oh)) (upd (inE s) g (sins h ig)))
    | None => miss s nb
    end
  else Ok s.

Definition skip (s : mset) (_ : vec) : outcome mset := Ok s.

Definition add_fwd miss (s : mset) (g : nat) : outcome mset :=
  do v <- at_ (all s) g; ofold (fwd_step miss g) (vforward v) s.
Definition add_bwd miss (s : mset) (g : nat) : outcome mset :=
  do v <- at_ (all s) g; ofold (bwd_step miss g) (vbackward v) s.

(** repo: MultiIndexSet.cpp:227-245 up to the neighbour calls. *)
Definition push_multi (s : mset) (v : vec) : mset :=
  MkSet (lim s) (dim s) (all s ++ [v]) ((v, length (all s)) :: m2g s) (a2g s)
        (g2a s ++ [None]) (outE s ++ [[]]) (inE s ++ [[]]) (maxo s).

(** repo: MultiIndexSet.cpp:227-245 AddMulti. *)
Definition add_multi (s : mset) (v : vec) : outcome (mset * nat) :=
  let g := length (all s) in
  do s1 <- add_fwd skip (push_multi s v) g;
  do s2 <- add_bwd skip s1 g;
  Ok (s2, g).

(** repo: MultiIndexSet.cpp:263-276 AddInactive; [None] is the return value -1. *)
Definition add_inactive (s : mset) (v : vec) : outcome (mset * option nat) :=
  match mfind (m2g s) v with
  | Some g => Ok (s, Some g)
  | None =>
      if lim s v then do r <- add_multi s v; Ok (fst r, Some (snd r))
      else Ok (s, None)
  end.

Definition add_inactive_ (s : mset) (v : vec) : outcome mset :=
  do r <- add_inactive s v; Ok (fst r).

(** repo: MultiIndexSet.cpp:357-358, the maxOrders loop of Activate. *)
Definition upd_maxo (mo : list nat) (v : vec) : outcome (list nat) :=
  ofold (fun mo i => do x <- at_ mo i; Ok (upd mo i (Nat.max x (nth i v 0))))
        (filter (fun i => negb (nth i v 0 =? 0)) (seq 0 (length v))) mo.

(** repo: MultiIndexSet.cpp:342-364 Activate(int). *)
Definition activate (s : mset) (g : nat) : outcome mset :=
  do x <- at_ (g2a s) g;
  match x with
  | Some _ => Ok s
  | None =>
      do v <- at_ (all s) g;
      do mo <- upd_maxo (maxo s) v;
      let s1 := MkSet (lim s) (dim s) (all s) (m2g s) (a2g s ++ [g])
                      (upd (g2a s) g (Some (length (a2g s)))) (outE s) (inE s) mo in
      do s2 <- add_fwd add_inactive_ s1 g;
      add_bwd add_inactive_ s2 g
  end.

(** repo: MultiIndexSet.cpp:247-259 AddActive (also operator+=, 788-792). *)
Definition ms_AddActive (s : mset) (v : vec) : outcome (mset * option nat) :=
  do r <- add_inactive s v;
  match r with
  | (s1, Some g) => do s2 <- activate s1 g; do i <- raw_get (g2a s2) g; Ok (s2, i)
  | (s1, None) => Ok (s1, None)
  end.

(** repo: MultiIndexSet.cpp:304-309, counting active in-edges. *)
Fixpoint count_active (s : mset) (l : list nat) : outcome nat :=
  match l with
  | [] => Ok 0
  | g :: t => do a <- is_active s g; do n <- count_active s t; Ok ((if a then 1 else 0) + n)
  end.

(** repo: MultiIndexSet.cpp:294-316 IsAdmissible(unsigned int). *)
Definition is_admissible (s : mset) (g : nat) : outcome bool :=
  do v <- at_ (all s) g;
  if negb (lim s v) then Ok false else
  do a <- is_active s g;
  if a then Ok true else
  do l <- at_ (inE s) g;
  do n <- count_active s l;
  Ok (n =? vnnz v).

(** repo: MultiIndexSet.cpp:318-327. *)
Definition ms_IsAdmissible (s : mset) (v : vec) : outcome bool :=
  match mfind (m2g s) v with Some g => is_admissible s g | None => Ok false end.

(** repo: MultiIndexSet.cpp:366-374 Activate(MultiIndex); a failed assert is [Throw]. *)
Definition ms_Activate (s : mset) (v : vec) : outcome mset :=
  match mfind (m2g s) v with
  | None => Throw
  | Some g => do b <- is_admissible s g; if b then activate s g else Throw
  end.

(** "inactive and admissible", the test of IsExpandable and Expand. *)
Definition is_candidate (s : mset) (g : nat) : outcome bool :=
  do a <- is_active s g; if a then Ok false else is_admissible s g.

(** Test order of Expand: admissible first, then inactive. *)
Definition is_candidate' (s : mset) (g : nat) : outcome bool :=
  do b <- is_admissible s g; if b then (do a <- is_active s g; Ok (negb a)) else Ok false.

(** A range-for loop that stops at the first element satisfying the test. *)
Fixpoint oexists {A} (f : A -> outcome bool) (l : list A) : outcome bool :=
  match l with
  | [] => Ok false
  | x :: t => do b <- f x; if b then Ok true else oexists f t
  end.

(** A loop that collects the elements satisfying a test, in order. *)
Fixpoint ofilter {A} (f : A -> outcome bool) (l : list A) : outcome (list A) :=
  match l with
  | [] => Ok []
  | x :: t => do b <- f x; do r <- ofilter f t; Ok (if b then x :: r else r)
  end.

Fixpoint omap {A B} (f : A -> outcome B) (l : list A) : outcome (list B) :=
  match l with
  | [] => Ok []
  | x :: t => do b <- f x; do r <- omap f t; Ok (b :: r)
  end.

(** repo: MultiIndexSet.cpp:330-340 IsExpandable. *)
Definition ms_IsExpandable (s : mset) (a : nat) : outcome bool :=
  do g <- at_ (a2g s) a;
  do l <- raw_get (outE s) g;
  oexists (is_candidate s) l.

(** repo: MultiIndexSet.cpp:479-491. *)
Definition ms_AdmissibleForwardNeighbors (s : mset) (a : nat) : outcome (list vec) :=
  do g <- at_ (a2g s) a;
  do l <- raw_get (outE s) g;
  do r <- ofilter (is_admissible s) l;
  omap (at_ (all s)) r.

(** repo: MultiIndexSet.cpp:493-503. *)
Definition ms_Frontier (s : mset) : outcome (list nat) :=
  ofilter (ms_IsExpandable s) (seq 0 (length (a2g s))).

(** repo: MultiIndexSet.cpp:505-525. *)
Definition margin_test (s : mset) (g : nat) : outcome bool :=
  do a <- is_active s g;
  if a then Ok false else do l <- raw_get (inE s) g; oexists (is_active s) l.
Definition ms_Margin (s : mset) : outcome (list vec) :=
  do r <- ofilter (margin_test s) (seq 0 (length (g2a s))); omap (at_ (all s)) r.

(** repo: MultiIndexSet.cpp:537-540; the loop runs to the end, with short-circuit &&. *)
Fixpoint all_active (s : mset) (l : list nat) (acc : bool) : outcome bool :=
  match l with
  | [] => Ok acc
  | g :: t => if acc then do a <- is_active s g; all_active s t a else all_active s t false
  end.

(** repo: MultiIndexSet.cpp:528-550. *)
Definition rmargin_test (s : mset) (g : nat) : outcome bool :=
  do a <- is_active s g;
  if a then Ok false else do l <- raw_get (inE s) g; all_active s l true.
Definition ms_ReducedMargin (s : mset) : outcome (list vec) :=
  do r <- ofilter (rmargin_test s) (seq 0 (length (g2a s))); omap (at_ (all s)) r.

(** repo: MultiIndexSet.cpp:553-577. *)
Definition strict_test (s : mset) (a : nat) : outcome bool :=
  do g <- at_ (a2g s) a;
  do l <- raw_get (outE s) g;
  do b <- oexists (is_active s) l;
  Ok (negb b).
Definition ms_StrictFrontier (s : mset) : outcome (list nat) :=
  do f <- ms_Frontier s; ofilter (strict_test s) f.

(** repo: MultiIndexSet.cpp:579-588; -1 (here [None]) becomes a huge unsigned. *)
Definition ms_BackwardNeighbors (s : mset) (a : nat) : outcome (list (option nat)) :=
  do g <- at_ (a2g s) a;
  do l <- raw_get (inE s) g;
  omap (at_ (g2a s)) l.

(** repo: MultiIndexSet.cpp:605-616. *)
Definition ms_NumActiveForward (s : mset) (a : nat) : outcome nat :=
  do g <- at_ (a2g s) a; do l <- raw_get (outE s) g; count_active s l.

(** repo: MultiIndexSet.cpp:618-622. *)
Definition ms_NumForward (s : mset) (a : nat) : outcome nat :=
  do g <- at_ (a2g s) a; do l <- raw_get (outE s) g; Ok (length l).

(** repo: MultiIndexSet.cpp:647-670 Expand(unsigned int). *)
Definition expand_step (p : mset * list nat) (g : nat) : outcome (mset * list nat) :=
  let '(s, acc) := p in
  do b <- is_candidate' s g;
  if b then
    do s1 <- activate s g;
    do x <- at_ (g2a s1) g;
    match x with Some i => Ok (s1, acc ++ [i]) | None => UB end
  else Ok (s, acc).
Definition ms_Expand (s : mset) (a : nat) : outcome (mset * list nat) :=
  if length (a2g s) <=? a then Throw else
  do g <- at_ (a2g s) a;
  do l <- at_ (outE s) g;
  ofold expand_step l (s, []).

(** repo: MultiIndexSet.cpp:673-700 Expand(). *)
Definition to_expand (s : mset) (a : nat) : outcome (list nat) :=
  do g <- at_ (a2g s) a;
  do l <- at_ (outE s) g;
  ofilter (is_candidate' s) l.
Definition expand_all_step (p : mset * list nat) (g : nat) : outcome (mset * list nat) :=
  let '(s, acc) := p in
  do s1 <- activate s g;
  do x <- at_ (g2a s1) g;
  match x with Some i => Ok (s1, acc ++ [i]) | None => UB end.
Definition ms_ExpandAll (s : mset) : outcome (mset * list nat) :=
  do f <- ms_Frontier s;
  do ls <- omap (to_expand s) f;
  ofold expand_all_step (concat ls) (s, []).

(** Iterating a std::set by reference while it may grow: the next element
    after [x] (begin() if [x] is None), looked up in the current contents. *)
Definition snext (l : list nat) (x : option nat) : option nat :=
  match x with
  | None => hd_error l
  | Some y => find (fun z => y <? z) l
  end.

(** [moved grow a b]: some push_back that took a vector from size n to n+1, with
    a <= n < b, reallocated the storage. Which sizes reallocate is a property of the
    standard library, here the parameter [grow]. *)
Definition moved (grow : nat -> bool) (a b : nat) : bool := existsb grow (seq a (b - a)).

(** The range-for loops of ForciblyActivate (731-732, over inEdges) and ForciblyExpand
    (709-712, over outEdges). The loop holds a reference into the vector [E] of edge
    sets, visits elements inserted while it runs, and has outcome [UB] if that vector
    reallocates while it runs ([n0] is the size when the reference was taken). *)
Fixpoint edge_loop (rec : mset -> nat -> list nat -> outcome (mset * list nat))
    (grow : nat -> bool) (E : mset -> list (list nat)) (n0 g : nat)
    (k : nat) (cur : option nat) (s : mset) (acc : list nat) : outcome (mset * list nat) :=
  match k with
  | O => Fuel
  | S k' =>
      do l <- at_ (E s) g;
      match snext l cur with
      | None => Ok (s, acc)
      | Some h =>
          do r <- rec s h acc;
          let '(s1, acc1) := r in
          if moved grow n0 (length (all s1)) then UB
          else edge_loop rec grow E n0 g k' (Some h) s1 acc1
      end
  end.

(** repo: MultiIndexSet.cpp:719-734 ForciblyActivate(int,...). *)
Fixpoint forcibly (grow : nat -> bool) (fuel : nat) (s : mset) (g : nat) (acc : list nat)
  : outcome (mset * list nat) :=
  match fuel with
  | O => Fuel
  | S f =>
      do a <- is_active s g;
      if a then Ok (s, acc) else
      do s1 <- activate s g;
      do x <- at_ (g2a s1) g;
      match x with
      | None => UB
      | Some i => edge_loop (forcibly grow f) grow inE (length (all s1)) g f None s1 (acc ++ [i])
      end
  end.

(** repo: MultiIndexSet.cpp:736-753 ForciblyActivate(MultiIndex); a failed assert is [Throw]. *)
Definition ms_ForciblyActivate grow fuel (s : mset) (v : vec) : outcome (mset * list nat) :=
  if negb (lim s v) then Throw else
  match mfind (m2g s) v with
  | Some g => forcibly grow fuel s g []
  | None =>
      do r <- add_inactive s v;
      match r with
      | (s1, Some g) => forcibly grow fuel s1 g []
      | (_, None) => UB
      end
  end.

(** repo: MultiIndexSet.cpp:702-717 ForciblyExpand; a failed assert is [Throw]. *)
Definition ms_ForciblyExpand grow fuel (s : mset) (a : nat) : outcome (mset * list nat) :=
  if length (a2g s) <=? a then Throw else
  do g <- at_ (a2g s) a;
  edge_loop (forcibly grow fuel) grow outE (length (all s)) g fuel None s [].

(** repo: MultiIndexSet.cpp:761-767 on dense vectors (AnyBounded, see C04). *)
Definition vec_any_bounded (bound v : vec) : outcome bool :=
  if length bound <? length v then Throw
  else Ok (existsb (fun i => nth i bound 0 <=? nth i v 0) (seq 0 (length v))).
Definition ms_FilterBounded (s : mset) (bound : vec) : outcome (list bool) :=
  omap (fun g => do v <- raw_get (all s) g; vec_any_bounded bound v) (a2g s).

(** repo: MultiIndexSet.cpp:769-786 Union. *)
Definition union_step (s : mset) (p : vec * option nat) : outcome mset :=
  let '(v, st) := p in
  if lim s v then
    match st with
    | None => add_inactive_ s v
    | Some _ => do r <- ms_AddActive s v; Ok (fst r)
    end
  else Ok s.
Definition ms_Union (s rhs : mset) : outcome (mset * nat) :=
  do s1 <- ofold union_step (combine (all rhs) (g2a rhs)) s;
  Ok (s1, ms_Size s1 - ms_Size s).

(** repo: MultiIndexSet.cpp:794-810 operator=. *)
Definition ms_assign (s rhs : mset) : outcome mset :=
  if negb (dim rhs =? dim s) then Throw
  else Ok (MkSet (lim rhs) (dim s) (all rhs) (m2g rhs) (a2g rhs) (g2a rhs) (outE rhs) (inE rhs)
                 (maxo rhs)).

Definition set_lim (s : mset) (L : vec -> bool) : mset :=
  MkSet L (dim s) (all s) (m2g s) (a2g s) (g2a s) (outE s) (inE s) (maxo s).

(** repo: MultiIndexSet.cpp:203-209, dropping a rejected inactive candidate. *)
Definition drop_node (s : mset) (g : nat) : outcome mset :=
  do l <- raw_get (inE s) g;
  do o <- ofold (fun o h => do e <- raw_get o h; raw_set o h (sdel g e)) l (outE s);
  do i <- raw_set (inE s) g [];
  Ok (set_out_in s o i).

(** repo: MultiIndexSet.cpp:189-211, the loop of SetLimiter; its bound is the current
    size of allMultis, which grows while it runs. The Boolean reports an exception,
    and the state returned with it is the one the exception leaves behind. *)
Fixpoint setlim_loop (fuel : nat) (L : vec -> bool) (g : nat) (s : mset) : outcome (mset * bool) :=
  match fuel with
  | O => Fuel
  | S f =>
      if g <? length (all s) then
        do a <- is_active s g;
        do v <- at_ (all s) g;
        if a then
          if negb (L v) then Ok (s, true)
          else do s1 <- add_fwd add_inactive_ s g; setlim_loop f L (S g) s1
        else
          if negb (L v) then do s1 <- drop_node s g; setlim_loop f L (S g) s1
          else setlim_loop f L (S g) s
      else Ok (s, false)
  end.

(** repo: MultiIndexSet.cpp:182-213 SetLimiter. The fuel is the largest number of
    iterations: each active node can add at most [dim] new multi-indices. *)
Definition ms_SetLimiter (s : mset) (L : vec -> bool) : outcome (mset * bool) :=
  setlim_loop (S (length (all s) + length (a2g s) * dim s)) L 0 (set_lim s L).

(** repo: MultiIndexSet.cpp:43-75 RecursiveTotalOrderFill. [pre] is base[0..currDim)
    (the entries after currDim are overwritten before use), [k] the number of
    dimensions after currDim. *)
Definition fill_leaf (L : vec -> bool) (s : mset) (v : vec) : outcome mset :=
  if L v then do r <- ms_AddActive s v; Ok (fst r) else Ok s.
Fixpoint fill_total (L : vec -> bool) (p : nat) (k : nat) (pre : vec) (s : mset) : outcome mset :=
  match k with
  | O => ofold (fun s i => fill_leaf L s (pre ++ [i])) (seq 0 (S (p - vsum pre))) s
  | S k' => ofold (fun s i => fill_total L p k' (pre ++ [i]) s) (seq 0 (S (p - vsum pre))) s
  end.

(** repo: MultiIndexSet.cpp:8-23 CreateTotalOrder; length 0 fails the assert. *)
Definition ms_CreateTotalOrder (d p : nat) (L : vec -> bool) : outcome mset :=
  match d with O => Throw | S k => fill_total L p k [] (ms_empty d L) end.

(** repo: MultiIndexSet.cpp:78-106 RecursiveTensorFill. *)
Fixpoint fill_tensor (L : vec -> bool) (p : nat) (k : nat) (pre : vec) (s : mset) : outcome mset :=
  match k with
  | O => ofold (fun s i => fill_leaf L s (pre ++ [i])) (seq 0 (S p)) s
  | S k' => ofold (fun s i => fill_tensor L p k' (pre ++ [i]) s) (seq 0 (S p)) s
  end.

(** repo: MultiIndexSet.cpp:26-41 CreateTensorProduct. *)
Definition ms_CreateTensorProduct (d p : nat) (L : vec -> bool) : outcome mset :=
  match d with O => Throw | S k => fill_tensor L p k [] (ms_empty d L) end.

(** repo: MultiIndexSet.cpp:120-128, construction from the rows of a matrix. *)
Definition ms_of_rows (d : nat) (rows : list vec) : outcome mset :=
  ofold (fun s v => do r <- ms_AddActive s v; Ok (fst r)) rows (ms_empty d (fun _ => true)).
