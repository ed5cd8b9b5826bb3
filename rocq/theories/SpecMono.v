(** Vocabulary for statements about monotone components (C32-C36). Does not import the model. *)
From Coq Require Import Reals.
From Coquelicot Require Import Coquelicot.
From Verif Require Import Base SpecMulti SpecExpansion SpecQuad.
Local Open Scope R_scope.

(** The last coordinate of a point, and the point with its last coordinate replaced. *)
Definition last_of (x : list R) : R := coord x (length x - 1).
Definition with_last (x : list R) (t : R) : list R := upd x (length x - 1) t.

(** d/dx_d of the expansion f(x;c). *)
Definition slope (phi : nat -> R -> R) (alphas : list vec) (c x : list R) : R :=
  partial (expansion phi alphas c) (length x - 1) x.

(** The integrand over [0,1], after the substitution t = x_d * s:
    x_d * (g(df/dx_d(x_1,...,x_{d-1}, s*x_d)) + nugget). *)
Definition mono_integrand (g : R -> R) (phi : nat -> R -> R) (alphas : list vec) (nugget : R) (c x : list R) (s : R) : R :=
  last_of x * (g (slope phi alphas c (with_last x (s * last_of x))) + nugget).

(** T(x) = f(x_1,...,x_{d-1},0) + int_0^{x_d} (g(df/dx_d) + nugget) dt, with the integral replaced
    by the quadrature rule (pts, wts), given on [-1,1] and moved to [0,1]. *)
Definition mono_rule (pts wts : list R) (g : R -> R) (phi : nat -> R -> R) (alphas : list vec) (nugget : R) (c x : list R) : R :=
  rule_on pts wts 0 1 (mono_integrand g phi alphas nugget c x) + expansion phi alphas c (with_last x 0).

(** The same with the exact integral. *)
Definition mono_exact (g : R -> R) (phi : nat -> R -> R) (alphas : list vec) (c x : list R) : R :=
  expansion phi alphas c (with_last x 0) + RInt (fun t => g (slope phi alphas c (with_last x t))) 0 (last_of x).

(** A differentiable positive function with its first two derivatives. *)
Definition smooth_positive (g dg d2g : R -> R) : Prop :=
  (forall x, 0 < g x) /\ (forall x, is_derive g x (dg x)) /\ (forall x, is_derive dg x (d2g x)).
