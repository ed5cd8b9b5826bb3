(** Vocabulary for the PyTorch layers (C75). Does not import the model. *)
From Coq Require Import Reals List.
From Verif Require Import Base SpecExpansion SpecMaps SpecDensity.
Import ListNotations.
Local Open Scope R_scope.

(** Rows [k] of several vectors of length [n], added up. *)
Definition sum_vecs (n : nat) (l : list (list R)) : list R := map (fun k => lsum (map (fun v => coord v k) l)) (seq 0 n).
(** One term for every point x_j with its weights s_j (of the value) and l_j (of the log determinant, None when the
    layer does not return it). *)
Fixpoint terms {A} (f : list R -> list R -> option R -> A) (xs ss : list (list R)) (ls : list (option R)) : list A :=
  match xs, ss, ls with x :: xs, s :: ss, l :: ls => f x s l :: terms f xs ss ls | _, _, _ => [] end.
Definition times (l : option R) (v : R) : R := match l with Some l => l * v | None => 0 end.
Definition plus_times (g : list R) (l : option R) (v : list R) : list R := match l with Some l => vadd g (map (Rmult l) v) | None => g end.
(** The weighted sum of outputs that a loss function is locally replaced by:
    sum_j <s_j, T(x_j;c)> + l_j log det T'(x_j;c). *)
Definition weighted (P : pmap) (c : list R) (ss : list (list R)) (ls : list (option R)) (xs : list (list R)) : R :=
  lsum (terms (fun x s l => dot s (p_eval P c x) + times l (p_logdet P c x)) xs ss ls).
(** Its gradients: for every point, and in the coefficients. *)
Definition back_inputs (P : pmap) (c : list R) (ss : list (list R)) (ls : list (option R)) (xs : list (list R)) : list (list R) :=
  terms (fun x s l => plus_times (p_grad P c x s) l (p_ldi P c x)) xs ss ls.
Definition back_coeffs (P : pmap) (c : list R) (ss : list (list R)) (ls : list (option R)) (xs : list (list R)) : list R :=
  sum_vecs (p_nc P) (terms (fun x s l => plus_times (p_cgrad P c x s) l (p_ldc P c x)) xs ss ls).
(** Sum of inner products of two lists of vectors. *)
Fixpoint dots (a b : list (list R)) : R := match a, b with u :: a, v :: b => dot u v + dots a b | _, _ => 0 end.
(** The coefficient tensor a call of a module is about: the one passed to the call, else the stored parameter. *)
Inductive meant : option nat -> option nat -> nat -> Prop :=
| meant_passed stored id : meant stored (Some id) id
| meant_stored id : meant (Some id) None id.
