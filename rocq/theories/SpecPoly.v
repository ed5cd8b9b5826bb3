(** Specification vocabulary for the one-dimensional bases. Nothing here refers to the
    model of the code. *)
From Coq Require Import Reals Factorial List.
Import ListNotations.
Local Open Scope R_scope.

(** Probabilist Hermite polynomials: He_0 = 1, He_1 = x,
    He_{k+2} = x He_{k+1} - (k+1) He_k. *)
Fixpoint He (n : nat) (x : R) : R :=
  match n with
  | O => 1
  | S m => match m with
           | O => x
           | S k => x * He m x - INR (S k) * He k x
           end
  end.

(** Physicist Hermite polynomials: H_0 = 1, H_1 = 2x, H_{k+2} = 2x H_{k+1} - 2(k+1) H_k. *)
Fixpoint Hphys (n : nat) (x : R) : R :=
  match n with
  | O => 1
  | S m => match m with
           | O => 2 * x
           | S k => 2 * x * Hphys m x - 2 * INR (S k) * Hphys k x
           end
  end.

(** Norms of the two families for their Gaussian weights. *)
Definition He_norm (n : nat) : R := sqrt (sqrt (2 * PI) * INR (fact n)).
Definition Hphys_norm (n : nat) : R := sqrt (sqrt PI * 2 ^ n * INR (fact n)).

(** Normalised Hermite functions. *)
Definition psi (n : nat) (x : R) : R :=
  Hphys n x * exp (- (x * x) / 2) / sqrt (2 ^ n * INR (fact n) * sqrt PI).

(** The basis MParT calls "Hermite functions": 1, x, psi_0, psi_1, ... *)
Definition hbasis (n : nat) (x : R) : R :=
  match n with O => 1 | S O => x | S (S k) => psi k x end.

(** A family of functions defined by a three-term recurrence. *)
Definition recurrence (a b c : nat -> R) (p0 p1 : R -> R) (P : nat -> R -> R) : Prop :=
  forall x, P 0%nat x = p0 x /\ P 1%nat x = p1 x /\
            forall k, P (S (S k)) x = (a (S (S k)) * x + b (S (S k))) * P (S k) x - c (S (S k)) * P k x.

(** The buffer [out] with its first [n] entries overwritten by f 0, ..., f (n-1). *)
Definition fill (f : nat -> R) (n : nat) (out : list R) : list R := map f (seq 0 n) ++ skipn n out.
