(** Vocabulary for densities of transported distributions (C48-C51). Does not import the model. *)
From Coq Require Import Reals List.
From Coquelicot Require Import Coquelicot.
From Verif Require Import Base SpecExpansion SpecMaps.
Import ListNotations.
Local Open Scope R_scope.

(** The log density of x when T(x;c) has log density [lp], and its gradients, [g] being that of [lp]. *)
Definition pullback (K : pmap) (c : list R) (lp : list R -> R) (x : list R) : R := lp (p_eval K c x) + p_logdet K c x.
Definition pullback_grad (K : pmap) (c : list R) (g : list R -> list R) (x : list R) : list R :=
  vadd (p_grad K c x (g (p_eval K c x))) (p_ldi K c x).
Definition pullback_cgrad (K : pmap) (c : list R) (g : list R -> list R) (x : list R) : list R :=
  vadd (p_cgrad K c x (g (p_eval K c x))) (p_ldc K c x).

(** [g] is the gradient of [f] on vectors of length n: along every curve d/du f(y(u)) = <g(y), y'>. *)
Definition gradient_of (n : nat) (f : list R -> R) (g : list R -> list R) : Prop :=
  (forall y, length y = n -> length (g y) = n) /\
  forall (gy : R -> list R) t vy, velocity gy t vy -> length vy = n -> is_derive (fun u => f (gy u)) t (dot (g (gy t)) vy).

(** Sums over lists and means. *)
Fixpoint lsum (l : list R) : R := match l with [] => 0 | a :: l => a + lsum l end.
Definition mean (l : list R) : R := lsum l / INR (length l).
Definition vmean (n : nat) (l : list (list R)) : list R := map (fun i => mean (map (fun v => coord v i) l)) (seq 0 n).

(** The training objective: minus the mean log density of the samples pulled back by T(.;c), and its gradient in c. *)
Definition kl (K : pmap) (c : list R) (lp : list R -> R) (samples : list (list R)) : R := mean (map (fun x => - pullback K c lp x) samples).
Definition kl_grad (K : pmap) (c : list R) (g : list R -> list R) (samples : list (list R)) : list R :=
  vmean (p_nc K) (map (fun x => map Ropp (pullback_cgrad K c g x)) samples).
