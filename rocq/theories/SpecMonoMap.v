(** A monotone component as a map with one output, for statements about maps built from monotone
    components. Does not import the model. *)
From Coq Require Import Reals List.
From Coquelicot Require Import Coquelicot.
From Verif Require Import Base SpecMulti SpecExpansion SpecQuad SpecMono SpecMaps.
Import ListNotations.
Local Open Scope R_scope.

(** Value: f(x',0) plus the quadrature of g(df/dx_d) over [0,x_d]; log determinant: ln g(df/dx_d);
    gradients: partial derivatives of the value (with the nugget term) and of the log determinant. *)
Definition mono_pmap (d : nat) (pts wts : list R) (g : R -> R) (nugget : R) (v : nat -> R -> R) (alphas : list vec) : pmap :=
  let value c x := mono_rule pts wts g v alphas 0 c x + nugget * last_of x in
  let logdet c x := ln (g (slope v alphas c x)) in
  MkP d 1 (length alphas)
    (fun c x => [mono_rule pts wts g v alphas 0 c x])
    logdet
    (fun c x s => map (fun j => partial (fun x => coord s 0 * value c x) j x) (seq 0 d))
    (fun c x s => map (fun i => partial (fun c => coord s 0 * value c x) i c) (seq 0 (length alphas)))
    (fun c x => map (fun i => partial (fun c => logdet c x) i c) (seq 0 (length alphas)))
    (fun c x => map (fun j => partial (fun x => logdet c x) j x) (seq 0 d)).
