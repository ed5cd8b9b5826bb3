(** Specification vocabulary for multivariate expansions and partial derivatives. Nothing
    here refers to the model of the code. *)
From Coq Require Import Reals List.
From Coquelicot Require Import Coquelicot.
From Verif Require Import Base SpecMulti.
Import ListNotations.
Local Open Scope R_scope.

(** Sums and products over 0..n-1. *)
Fixpoint rsum (f : nat -> R) (n : nat) : R := match n with O => 0 | S m => rsum f m + f m end.
Fixpoint rprod (f : nat -> R) (n : nat) : R := match n with O => 1 | S m => rprod f m * f m end.

(** Coordinates and partial derivatives of functions of a vector. *)
Definition coord (x : list R) (j : nat) : R := nth j x 0.
Definition is_partial (F : list R -> R) (j : nat) (x : list R) (l : R) : Prop :=
  is_derive (fun t => F (upd x j t)) (coord x j) l.
Definition partial (F : list R -> R) (j : nat) (x : list R) : R :=
  Derive (fun t => F (upd x j t)) (coord x j).

(** prod_j phi_{alpha_j}(x_j), where a degree-zero factor counts as 1. *)
Definition tensor (phi : nat -> R -> R) (alpha : vec) (x : list R) : R :=
  rprod (fun j => if (nth j alpha 0 =? 0)%nat then 1 else phi (nth j alpha 0%nat) (coord x j)) (length alpha).

(** sum_k c_k prod_j phi_{alpha_kj}(x_j) *)
Definition expansion (phi : nat -> R -> R) (alphas : list vec) (c x : list R) : R :=
  rsum (fun k => coord c k * tensor phi (nth k alphas []) x) (length alphas).
