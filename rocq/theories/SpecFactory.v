(** Vocabulary for statements about the map factory (C47, C64): the user's options and what they
    describe. Does not import the model. *)
From Coq Require Import Reals List.
From Coquelicot Require Import Coquelicot.
From Verif Require Import Base SpecMulti SpecPoly SpecQuad SpecExpansion SpecMaps.
Import ListNotations.
Local Open Scope R_scope.

Inductive basis_type := ProbHermite | PhysHermite | HermiteFunctions.
Inductive pos_type := PExp | PSoftPlus.
Inductive quad_type := ClenshawCurtis | AdaptiveSimpson | AdaptiveClenshawCurtis.
(** MapOptions. A missing bound is an infinite one. *)
Record options : Type := MkOpt {
  o_basis : basis_type; o_LB : option R; o_UB : option R; o_pos : pos_type; o_quad : quad_type;
  o_absTol : R; o_relTol : R; o_maxSub : nat; o_minSub : nat; o_pts : nat;
  o_cont : bool; o_norm : bool; o_nugget : R }.

(** The one-dimensional functions named by the options, before linearisation. *)
Definition plain (o : options) (k : nat) (x : R) : R :=
  match o_basis o with
  | ProbHermite => He k x / (if o_norm o then He_norm k else 1)
  | PhysHermite => Hphys k x / (if o_norm o then Hphys_norm k else 1)
  | HermiteFunctions => hbasis k x
  end.
(** The point of [lb,ub] nearest to x, and the functions continued by tangents outside [lb,ub]. *)
Definition nearest (lb ub : option R) (x : R) : R :=
  let y := match lb with Some l => Rmax l x | None => x end in
  match ub with Some u => Rmin u y | None => y end.
Definition one_dim (o : options) (k : nat) (x : R) : R :=
  let p := nearest (o_LB o) (o_UB o) x in plain o k p + Derive (plain o k) p * (x - p).
(** The positive function. *)
Definition link (o : options) (x : R) : R := match o_pos o with PExp => exp x | PSoftPlus => ln (1 + exp x) end.

(** Bounds in the right order; no bounds. *)
Definition ordered (lb ub : option R) : Prop := match lb, ub with Some l, Some u => l < u | _, _ => True end.
Definition unbounded (o : options) : Prop := o_LB o = None /\ o_UB o = None.

(** Which options (with degrees up to N) the theorems of C64 are about: normalised polynomials up to
    degree 12, and, when a bound is given, polynomials that are not normalised or Hermite functions
    up to degree 14. *)
Definition degree_ok (o : options) (N : nat) : Prop :=
  match o_basis o with HermiteFunctions => True | _ => o_norm o = true -> (N <= 12)%nat end.
Definition supported (o : options) (N : nat) : Prop :=
  degree_ok o N /\ ordered (o_LB o) (o_UB o) /\
  (unbounded o \/ o_basis o <> HermiteFunctions /\ o_norm o = false \/ o_basis o = HermiteFunctions /\ (N <= 14)%nat).

(** The n-point Clenshaw-Curtis rule on [-1,1]: the nodes are cos(pi k/(n-1)) in increasing order
    (0 if n = 1) and polynomials of degree below n are integrated exactly. *)
Definition clenshaw_curtis (n : nat) (pts wts : list R) : Prop :=
  length pts = n /\ length wts = n /\
  (forall i, (i < n)%nat -> nth i pts 0 = match n with S O => 0 | _ => cos (INR (n - 1 - i) * PI / INR (n - 1)) end) /\
  forall c, (length c <= n)%nat -> is_RInt (poly c) (-1) 1 (rule_sum pts wts (poly c)).

(** Multi-indices of length d and order at most p, each exactly once. *)
Definition total_order (d p : nat) (alphas : list vec) : Prop :=
  NoDup alphas /\ forall a, In a alphas <-> length a = d /\ (vsum a <= p)%nat.

(** The map of R^dim that applies [P] to the first [act] coordinates, puts the result in coordinate
    [act] (counting from 1), and leaves the others alone. *)
Definition single_pmap (dim act : nat) (P : pmap) : pmap :=
  let res c x := coord (p_eval P c (firstn act x)) 0 in
  let at_act s := [coord s (act - 1)] in
  MkP dim dim (p_nc P)
    (fun c x => map (fun j => if (j =? act - 1)%nat then res c x else coord x j) (seq 0 dim))
    (fun c x => p_logdet P c (firstn act x))
    (fun c x s => map (fun j => (if (j <? act)%nat then coord (p_grad P c (firstn act x) (at_act s)) j else 0)
                                + (if (j =? act - 1)%nat then 0 else coord s j)) (seq 0 dim))
    (fun c x s => p_cgrad P c (firstn act x) (at_act s))
    (fun c x => p_ldc P c (firstn act x))
    (fun c x => map (fun j => if (j <? act)%nat then coord (p_ldi P c (firstn act x)) j else 0) (seq 0 dim)).
