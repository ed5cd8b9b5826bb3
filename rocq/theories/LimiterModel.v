(** Model of the multi-index limiters.
    repo: MParT/MultiIndices/MultiIndexLimiter.h, src/MultiIndices/MultiIndexLimiter.cpp. *)
From Coq Require Import Reals.
From Verif Require Import Base SpecLimiter MultiIndexModel.

(** [a <= b] on reals as a Boolean (the code compares doubles). *)
Definition Rleb (a b : R) : bool := if Rle_dec a b then true else false.
Definition Rltb (a b : R) : bool := if Rlt_dec a b then true else false.

(** Loop "for i in inds: if multi.Get(i)!=0 return false"; [true] at the end. *)
Fixpoint all_zero_at (m : mi) (inds : list nat) : outcome bool :=
  match inds with
  | [] => Ok true
  | i :: t => do x <- mi_Get m i; if negb (x =? 0) then Ok false else all_zero_at m t
  end.

(** repo: MultiIndexLimiter.cpp:10-22 Dimension::operator(). *)
Definition lim_dim (lo n : nat) (m : mi) : outcome bool :=
  do a <- all_zero_at m (seq 0 lo);
  if a then all_zero_at m (seq (lo + n) (mi_Length m - (lo + n))) else Ok false.

(** repo: MultiIndexLimiter.cpp:48-50 product loop of Anisotropic::operator(). *)
Fixpoint aniso_loop (w : list R) (m : mi) (i : nat) (prod : R) : outcome R :=
  match w with
  | [] => Ok prod
  | x :: t => do k <- mi_Get m i; aniso_loop t m (S i) (prod * x ^ k)%R
  end.

(** repo: MultiIndexLimiter.cpp:42-53 Anisotropic::operator(). *)
Definition lim_aniso (w : list R) (eps : R) (m : mi) : outcome bool :=
  if negb (mi_Length m =? length w) then Ok false
  else do p <- aniso_loop w m 0 1%R; Ok (Rleb eps p).

(** repo: MultiIndexLimiter.cpp:26-39 Anisotropic constructor: accepted arguments. *)
Definition aniso_ctor_ok (w : list R) (eps : R) : bool :=
  forallb (fun x => negb (Rltb 1 x || Rltb x 0)) w && negb (Rleb 1 eps || Rleb eps 0).

(** repo: MultiIndexLimiter.cpp:61-65 loop of MaxDegree::operator(). *)
Fixpoint maxdeg_loop (b : list nat) (m : mi) (i : nat) : outcome bool :=
  match b with
  | [] => Ok true
  | x :: t => do k <- mi_Get m i; if x <? k then Ok false else maxdeg_loop t m (S i)
  end.

(** repo: MultiIndexLimiter.cpp:56-66 MaxDegree::operator(). *)
Definition lim_maxdeg (b : list nat) (m : mi) : outcome bool :=
  if negb (mi_Length m =? length b) then Ok false else maxdeg_loop b m 0.

(** repo: MultiIndexLimiter.h TotalOrder (Sum() <= totalOrder), None, And, Or, Xor
    (94-159); && and || short-circuit. *)
Fixpoint lim_eval (l : limiter) (m : mi) : outcome bool :=
  match l with
  | LTotal p => Ok (mi_Sum m <=? p)
  | LDim lo n => lim_dim lo n m
  | LAniso w eps => lim_aniso w eps m
  | LMaxDeg b => lim_maxdeg b m
  | LNone => Ok true
  | LAnd a b => do x <- lim_eval a m; if x then lim_eval b m else Ok false
  | LOr a b => do x <- lim_eval a m; if x then Ok true else lim_eval b m
  | LXor a b => do x <- lim_eval a m; do y <- lim_eval b m; Ok (xorb x y)
  end.
