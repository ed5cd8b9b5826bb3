(** Parallel loops over points: the policy of GetCachedRangePolicy and an interleaving semantics for
    the work items of Kokkos::parallel_for on threads with private scratch memory. *)
From Coq Require Import Reals ZArith NArith.
From Flocq Require Import Core.
From Verif Require Import Base.

(** Rounding of a real number to the nearest double (no overflow here: the quotient is below 2^32). *)
Definition double (x : R) : R := round radix2 (FLT_exp (-1074) 53) ZnearestE x.

(** repo: Utilities/KokkosHelpers.h:16-28. [rec] is Kokkos' recommended team size. With no points
    threadsPerTeam is 0, the quotient is 0/0, and its conversion to unsigned int is undefined.
    Result: number of teams, threads per team. *)
Definition cached_policy (numPts rec : nat) : outcome (nat * nat) :=
  let threads := Nat.min numPts rec in
  if threads =? 0 then UB else Ok (Z.to_nat (Zceil (double (INR numPts / INR threads))), threads).

(** A work item: league_rank and team_rank. *)
Definition item : Type := nat * nat.
Definition team_items (teams threads : nat) : list item := list_prod (seq 0 teams) (seq 0 threads).
(** repo: MonotoneComponent.h:275, MultivariateExpansion.h:58: the index of the point, an unsigned int *)
Definition ptInd (threads : nat) (it : item) : nat := N.to_nat (N.of_nat (fst it * threads + snd it) mod 2 ^ 32).

(** Sizes of the arrays of one loop: rows of the points, coefficients, rows of the sensitivities, rows of the output
    (all output arrays of the loop on top of each other), points, and doubles of scratch memory granted to each thread. *)
Record sizes : Type := MkSz { sz_in : nat; sz_co : nat; sz_sens : nat; sz_out : nat; sz_pts : nat; sz_scr : nat }.

(** Memory accesses of a work item. Scratch memory is addressed relative to the executing thread. *)
Inductive access : Type := APt (i j : nat) | ACo (i : nat) | ASens (i j : nat) | AOut (i j : nat) | AScr (k : nat).
Inductive cell : Type := CPt (i j : nat) | CCo (i : nat) | CSens (i j : nat) | COut (i j : nat) | CScr (thread k : nat).
Definition cell_eq (a b : cell) : {a = b} + {a <> b}.
Proof. decide equality; apply Nat.eq_dec. Defined.
Definition resolve (z : sizes) (thread : nat) (a : access) : option cell :=
  match a with
  | APt i j => if (i <? sz_in z) && (j <? sz_pts z) then Some (CPt i j) else None
  | ACo i => if i <? sz_co z then Some (CCo i) else None
  | ASens i j => if (i <? sz_sens z) && (j <? sz_pts z) then Some (CSens i j) else None
  | AOut i j => if (i <? sz_out z) && (j <? sz_pts z) then Some (COut i j) else None
  | AScr k => if k <? sz_scr z then Some (CScr thread k) else None
  end.

(** A work item is a program that reads and writes single memory cells; what it does next may depend on what it read.
    Writes to points, coefficients and sensitivities do not exist (views of const double). *)
Inductive prog : Type := Done | Rd (a : access) (k : R -> prog) | WrOut (i j : nat) (v : R) (p : prog) | WrScr (k : nat) (v : R) (p : prog) | Bad.

Definition mem : Type := cell -> R.
Definition set_cell (m : mem) (c : cell) (v : R) : mem := fun x => if cell_eq x c then v else m x.

(** One loop: its sizes, its items, the point of each, and the work for a point. *)
Record loop : Type := MkLoop { lp_sz : sizes; lp_items : list item; lp_col : item -> nat; lp_body : nat -> prog }.
(** repo: MonotoneComponent.h:277 `if(ptInd<numPts)` *)
Definition work (L : loop) (it : item) : prog := if lp_col L it <? sz_pts (lp_sz L) then lp_body L (lp_col L it) else Done.

(** Memory, the item each thread executes and what is left of it, and the items not yet started. *)
Record state : Type := MkSt { st_mem : mem; st_run : nat -> option (item * prog); st_pend : list item }.
Definition set_run (r : nat -> option (item * prog)) (s : nat) (x : option (item * prog)) : nat -> option (item * prog) := fun k => if k =? s then x else r k.

(** One step of one of the [P] threads: an idle thread takes any item, or a busy one performs one memory access, or drops a finished item. *)
Inductive step (L : loop) (P : nat) : state -> state -> Prop :=
| StStart : forall m r s it l1 l2, s < P -> r s = None -> step L P (MkSt m r (l1 ++ it :: l2)) (MkSt m (set_run r s (Some (it, work L it))) (l1 ++ l2))
| StRead : forall m r pd s it a k c, s < P -> r s = Some (it, Rd a k) -> resolve (lp_sz L) s a = Some c -> step L P (MkSt m r pd) (MkSt m (set_run r s (Some (it, k (m c)))) pd)
| StOut : forall m r pd s it i j v p c, s < P -> r s = Some (it, WrOut i j v p) -> resolve (lp_sz L) s (AOut i j) = Some c -> step L P (MkSt m r pd) (MkSt (set_cell m c v) (set_run r s (Some (it, p))) pd)
| StScr : forall m r pd s it k v p c, s < P -> r s = Some (it, WrScr k v p) -> resolve (lp_sz L) s (AScr k) = Some c -> step L P (MkSt m r pd) (MkSt (set_cell m c v) (set_run r s (Some (it, p))) pd)
| StEnd : forall m r pd s it, s < P -> r s = Some (it, Done) -> step L P (MkSt m r pd) (MkSt m (set_run r s None) pd).

(** A thread is about to leave its arrays or do something else that is undefined. *)
Definition failing (L : loop) (P : nat) (st : state) : Prop :=
  exists s it p, s < P /\ st_run st s = Some (it, p) /\
    match p with
    | Bad => True | Done => False | Rd a _ => resolve (lp_sz L) s a = None
    | WrOut i j _ _ => resolve (lp_sz L) s (AOut i j) = None | WrScr k _ _ => resolve (lp_sz L) s (AScr k) = None
    end.
Inductive steps (L : loop) (P : nat) : nat -> state -> state -> Prop :=
| StepsNil : forall st, steps L P 0 st st
| StepsCons : forall n a b c, steps L P n a b -> step L P b c -> steps L P (S n) a c.
Definition start (L : loop) (m : mem) : state := MkSt m (fun _ => None) (lp_items L).
Definition finished (P : nat) (st : state) : Prop := st_pend st = [] /\ forall s, s < P -> st_run st s = None.

(** A call that consists of several loops, each started when the one before it has ended: any schedule of each. *)
Inductive loops (P : nat) : list loop -> mem -> mem -> Prop :=
| LoopsNil : forall m, loops P [] m m
| LoopsCons : forall L Ls m n st m', steps L P n (start L m) st -> finished P st -> loops P Ls (st_mem st) m' -> loops P (L :: Ls) m m'.

(** The cell the next access of a program touches, and whether it writes. *)
Definition next_access (z : sizes) (s : nat) (p : prog) : option (cell * bool) :=
  match p with
  | Rd a _ => option_map (fun c => (c, false)) (resolve z s a)
  | WrOut i j _ _ => option_map (fun c => (c, true)) (resolve z s (AOut i j))
  | WrScr k _ _ => option_map (fun c => (c, true)) (resolve z s (AScr k))
  | _ => None
  end.
(** Two threads about to access one cell, at least one of them writing: undefined behaviour in C++. *)
Definition racing (L : loop) (P : nat) (st : state) : Prop :=
  exists s1 s2 it1 it2 p1 p2 c w1 w2, s1 < P /\ s2 < P /\ s1 <> s2 /\ st_run st s1 = Some (it1, p1) /\ st_run st s2 = Some (it2, p2) /\
    next_access (lp_sz L) s1 p1 = Some (c, w1) /\ next_access (lp_sz L) s2 p2 = Some (c, w2) /\ (w1 || w2 = true)%bool.
