(** The normal distribution, independent of the model: N(mu, Sigma) on vectors of length n. *)
From Coq Require Import Reals List.
From Verif Require Import Base SpecExpansion SpecMaps.
Import ListNotations.
Local Open Scope R_scope.

Definition minus (a b : list R) : list R := vadd a (map Ropp b).
(** Symmetric positive definite matrices, as lists of rows. *)
Definition spd (n : nat) (Sigma : list (list R)) : Prop :=
  rows_of n n Sigma /\
  (forall i j, (i < n)%nat -> (j < n)%nat -> coord (nth i Sigma []) j = coord (nth j Sigma []) i) /\
  (forall x, length x = n -> x <> zeros n -> 0 < dot x (matvec Sigma x)).
Fixpoint unit_matrix (n : nat) : list (list R) :=
  match n with O => [] | S m => (1 :: zeros m) :: map (cons 0) (unit_matrix m) end.
(** [v] is the log density of N(mu, Sigma) at x; z stands for Sigma^-1 (x - mu). *)
Definition normal_logpdf (n : nat) (mu : list R) (Sigma : list (list R)) (x : list R) (v : R) : Prop :=
  exists z, length z = n /\ matvec Sigma z = minus x mu /\
    v = - / 2 * dot (minus x mu) z - / 2 * (INR n * ln (2 * PI) + ln (det n Sigma)).
(** [g] is its gradient there: Sigma g = mu - x. *)
Definition normal_score (mu : list R) (Sigma : list (list R)) (x g : list R) : Prop := matvec Sigma g = minus mu x.
