(** Vocabulary for quadrature statements (C26-C29). Does not import the model. *)
From Coq Require Import Reals.
From Coquelicot Require Import Coquelicot.
From Verif Require Import Base SpecMulti SpecExpansion.
Local Open Scope R_scope.

(** A real polynomial given by its coefficients, lowest degree first; its degree is below
    [length c]. *)
Fixpoint poly (c : list R) (x : R) : R := match c with [] => 0 | a :: t => a + x * poly t x end.

(** The sum of weights times values of [g] at the nodes. *)
Definition rule_sum (pts wts : list R) (g : R -> R) : R :=
  rsum (fun i => nth i wts 0 * g (nth i pts 0)) (length pts).

(** The same rule moved from [-1,1] to [a,b]. *)
Definition rule_on (pts wts : list R) (a b : R) (g : R -> R) : R :=
  (b - a) / 2 * rule_sum pts wts (fun t => g ((a + b) / 2 + (b - a) / 2 * t)).

(** A vector-valued integrand is a function into lists; component [i]: *)
Definition comp (f : R -> list R) (i : nat) (x : R) : R := nth i (f x) 0.

(** Simpson's rule on [a,b], and on the two halves of [a,b]. *)
Definition simpson (g : R -> R) (a b : R) : R := (b - a) / 6 * (g a + 4 * g ((a + b) / 2) + g b).
Definition simpson2 (g : R -> R) (a b : R) : R := simpson g a ((a + b) / 2) + simpson g ((a + b) / 2) b.

(** The ways of measuring a vector of [n] numbers. *)
Inductive metric : Type := First | NormInf | Norm2 | Norm1.
Fixpoint rmax (v : nat -> R) (n : nat) : R := match n with O => 0 | S k => Rmax (rmax v k) (v k) end.
Definition size_of (m : metric) (n : nat) (v : nat -> R) : R :=
  match m with
  | First => Rabs (v 0%nat)
  | NormInf => rmax (fun i => Rabs (v i)) n
  | Norm2 => sqrt (rsum (fun i => v i * v i) n)
  | Norm1 => rsum (fun i => Rabs (v i)) n
  end.

(** The two estimates agree within the tolerance. *)
Definition close (m : metric) (n : nat) (absTol relTol : R) (coarse fine : nat -> R) : Prop :=
  size_of m n (fun i => fine i - coarse i) < Rmax (relTol * size_of m n coarse) absTol.

(** Repeated bisection: the shape of a refinement, and the intervals at its leaves from left
    to right with their depths. *)
Inductive btree : Type := Leaf | Node (l r : btree).
Fixpoint leaves (T : btree) (d : nat) (a b : R) : list (nat * R * R) :=
  match T with
  | Leaf => [(d, a, b)]
  | Node l r => leaves l (S d) a ((a + b) / 2) ++ leaves r (S d) ((a + b) / 2) b
  end.
(** [stop d a b]: the interval [a,b] met at depth [d] is not divided further. *)
Fixpoint refined (stop : nat -> R -> R -> Prop) (T : btree) (d : nat) (a b : R) : Prop :=
  match T with
  | Leaf => stop d a b
  | Node l r => ~ stop d a b /\ refined stop l (S d) a ((a + b) / 2) /\ refined stop r (S d) ((a + b) / 2) b
  end.
(** Sum of an estimate over the leaves. *)
Definition over_leaves (est : R -> R -> R) (L : list (nat * R * R)) : R :=
  fold_right (fun p s => est (snd (fst p)) (snd p) + s) 0 L.

(** Consecutive intervals leading from [a] to [b]. *)
Fixpoint chain (a b : R) (L : list (nat * R * R)) : Prop :=
  match L with
  | [] => a = b
  | (_, l, r) :: t => l = a /\ chain r b t
  end.

(** When an adaptive rule with the given estimates stops dividing [a,b] at depth [d], in an
    integration over an interval of width [w]. *)
Definition adaptive_stop (m : metric) (n : nat) (absTol relTol : R) (maxSub minSub : nat) (w : R)
    (coarse fine : R -> R -> nat -> R) (d : nat) (a b : R) : Prop :=
  ((close m n absTol relTol (coarse a b) (fine a b) \/ (d + 1 = maxSub)%nat) /\ (minSub <= d)%nat)
  \/ Rabs w < / 10 ^ 14.
