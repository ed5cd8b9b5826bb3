(** Specification of multi-index limiters on dense vectors. *)
From Coq Require Import List Arith Reals.
From Verif Require Import SpecMulti.
Import ListNotations.

(** The limiters a user can write down. *)
Inductive limiter : Type :=
| LTotal (p : nat)
| LDim (lo n : nat)
| LAniso (w : list R) (eps : R)
| LMaxDeg (b : list nat)
| LNone
| LAnd (l1 l2 : limiter)
| LOr (l1 l2 : limiter)
| LXor (l1 l2 : limiter).

Fixpoint wprod (w : list R) (v : vec) : R :=
  match w, v with
  | x :: w', k :: v' => (x ^ k * wprod w' v')%R
  | _, _ => 1%R
  end.

(** Which vectors a limiter should accept. *)
Fixpoint accepts (l : limiter) (v : vec) : Prop :=
  match l with
  | LTotal p => vsum v <= p
  | LDim lo n => forall i, i < length v -> (i < lo \/ lo + n <= i) -> nth i v 0 = 0
  | LAniso w eps => length v = length w /\ (eps <= wprod w v)%R
  | LMaxDeg b => length v = length b /\ forall i, i < length v -> nth i v 0 <= nth i b 0
  | LNone => True
  | LAnd a b => accepts a v /\ accepts b v
  | LOr a b => accepts a v \/ accepts b v
  | LXor a b => (accepts a v /\ ~ accepts b v) \/ (~ accepts a v /\ accepts b v)
  end.

(** No exclusive-or, and anisotropic weights as the constructor requires. *)
Fixpoint monotone_limiter (l : limiter) : Prop :=
  match l with
  | LTotal _ | LDim _ _ | LMaxDeg _ | LNone => True
  | LAniso w eps => Forall (fun x => 0 <= x <= 1)%R w /\ (0 < eps < 1)%R
  | LAnd a b | LOr a b => monotone_limiter a /\ monotone_limiter b
  | LXor _ _ => False
  end.

(** Every Dimension limiter inside starts within the first [d] dimensions. *)
Fixpoint dims_within (d : nat) (l : limiter) : Prop :=
  match l with
  | LDim lo _ => lo <= S d
  | LAnd a b | LOr a b | LXor a b => dims_within d a /\ dims_within d b
  | _ => True
  end.
