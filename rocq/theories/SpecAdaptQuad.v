(** Vocabulary for statements about monotone components with adaptive quadrature (C72). Does not
    import the model. *)
From Coq Require Import Reals List NArith.
From Coquelicot Require Import Coquelicot.
From Verif Require Import Base SpecMulti SpecExpansion SpecQuad SpecMono SpecMaps SpecFactory.
Import ListNotations.
Local Open Scope R_scope.

(** An estimate of the integral of a function over [a,b]. *)
Definition estimate : Type := (R -> R) -> R -> R -> R.

(** Tolerances and limits of an adaptive rule with its coarse and fine estimates. *)
Record adaptive : Type := MkAd { a_abs : R; a_rel : R; a_max : nat; a_min : nat; a_coarse : estimate; a_fine : estimate }.

(** The difference of the two estimates of the integral of h over [a,b], and what is tolerated. *)
Definition gap (A : adaptive) (h : R -> R) (a b : R) : R := Rabs (a_fine A h a b - a_coarse A h a b).
Definition allowance (A : adaptive) (h : R -> R) (a b : R) : R := Rmax (a_rel A * Rabs (a_coarse A h a b)) (a_abs A).

(** The interval [a,b] met at depth d is not halved. *)
Definition halts (A : adaptive) (h : R -> R) (d : nat) (a b : R) : Prop :=
  (gap A h a b < allowance A h a b \/ (d + 1 = a_max A)%nat) /\ (a_min A <= d)%nat.

(** T is how [0,1] is halved for the integrand h. *)
Definition halved (A : adaptive) (h : R -> R) (T : btree) : Prop := refined (halts A h) T 0 0 1.

(** All intervals met. *)
Fixpoint met (T : btree) (d : nat) (a b : R) : list (nat * R * R) :=
  (d, a, b) :: match T with Leaf => [] | Node l r => met l (S d) a ((a + b) / 2) ++ met r (S d) ((a + b) / 2) b end.

(** On no interval does the difference equal the tolerance. *)
Definition decided (A : adaptive) (h : R -> R) (T : btree) : Prop :=
  forall d a b, In (d, a, b) (met T 0 0 1) -> gap A h a b <> allowance A h a b.

(** T(x) = f(x_1,...,x_{d-1},0) + int_0^{x_d} (g(df/dx_d) + nugget) dt with the integral replaced by
    the fine estimates on the intervals of the given tree. *)
Definition mono_tree (A : adaptive) (T : btree) (g : R -> R) (phi : nat -> R -> R) (alphas : list vec) (nugget : R) (c x : list R) : R :=
  over_leaves (a_fine A (mono_integrand g phi alphas nugget c x)) (leaves T 0 0 1) + expansion phi alphas c (with_last x 0).

(** The component as a map with one output. [tree h] is how [0,1] is halved for the integrand h.
    Value: [mono_tree] on the intervals for the integrand without nugget. Gradients: partial
    derivatives of the value (with the nugget term) on the intervals for the integrand with the
    nugget, kept fixed; partial derivatives of the log determinant ln g(df/dx_d). *)
Definition adaptive_pmap (d : nat) (A : adaptive) (tree : (R -> R) -> btree) (g : R -> R) (nugget : R) (v : nat -> R -> R) (alphas : list vec) : pmap :=
  let value T c x := mono_tree A T g v alphas 0 c x + nugget * last_of x in
  let logdet c x := ln (g (slope v alphas c x)) in
  MkP d 1 (length alphas)
    (fun c x => [mono_tree A (tree (mono_integrand g v alphas 0 c x)) g v alphas 0 c x])
    logdet
    (fun c x s => map (fun j => partial (fun y => coord s 0 * value (tree (mono_integrand g v alphas nugget c x)) c y) j x) (seq 0 d))
    (fun c x s => map (fun i => partial (fun e => coord s 0 * value (tree (mono_integrand g v alphas nugget c x)) e x) i c) (seq 0 (length alphas)))
    (fun c x => map (fun i => partial (fun c => logdet c x) i c) (seq 0 (length alphas)))
    (fun c x => map (fun j => partial (fun x => logdet c x) j x) (seq 0 d)).

(** A is the adaptive rule the options ask for: Simpson's rule against the same on both halves, or
    the Clenshaw-Curtis rules with 2^level+1 and 2^(level+1)+1 points, where level is
    log2(points - 2). *)
Definition describes (o : options) (A : adaptive) : Prop :=
  a_abs A = o_absTol o /\ a_rel A = o_relTol o /\ a_max A = o_maxSub o /\ a_min A = o_minSub o /\
  match o_quad o with
  | ClenshawCurtis => False
  | AdaptiveSimpson => a_coarse A = simpson /\ a_fine A = simpson2
  | AdaptiveClenshawCurtis => exists level cp cw fp fw, (2 ^ level <= o_pts o - 2 < 2 ^ S level)%nat /\
      clenshaw_curtis (2 ^ level + 1) cp cw /\ clenshaw_curtis (2 ^ (level + 1) + 1) fp fw /\
      a_coarse A = (fun h a b => rule_on cp cw a b h) /\ a_fine A = (fun h a b => rule_on fp fw a b h)
  end.
(** The options ask for an adaptive rule with sensible limits. *)
Definition asks_adaptive (o : options) : Prop :=
  o_quad o <> ClenshawCurtis /\ (1 <= o_maxSub o <= 32)%nat /\ (o_minSub o < o_maxSub o)%nat /\
  (o_quad o = AdaptiveClenshawCurtis -> (4 <= o_pts o)%nat /\ (N.of_nat (o_pts o) < 4294967296)%N).
