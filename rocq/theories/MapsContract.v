(** What it means for a map object of the model to compute a mathematical map: for
    coefficients, points, sensitivities and output arrays of the right sizes each routine
    returns normally, writes the mathematical result, and ignores the previous contents of
    the output. One predicate per routine, since some maps satisfy only some of them. *)
From Coq Require Import Reals List.
From Verif Require Import Base SpecMaps MapsModel LeafModel.
Local Open Scope R_scope.

Definition dims (K : cmap) (P : pmap) : Prop := m_in K = p_in P /\ m_out K = p_out P /\ m_nc K = p_nc P.
Definition imp_eval (K : cmap) (P : pmap) : Prop :=
  dims K P /\ forall c x old, length c = p_nc P -> length x = p_in P -> length old = p_out P ->
    m_eval K c x old = Ok (p_eval P c x) /\ length (p_eval P c x) = p_out P.
Definition imp_logdet (K : cmap) (P : pmap) : Prop :=
  dims K P /\ forall c x old, length c = p_nc P -> length x = p_in P ->
    m_logdet K c x old = Ok (Some (p_logdet P c x)).
Definition imp_grad (K : cmap) (P : pmap) : Prop :=
  dims K P /\ forall c x s old, length c = p_nc P -> length x = p_in P -> length s = p_out P -> length old = p_in P ->
    m_grad K c x s old = Ok (p_grad P c x s) /\ length (p_grad P c x s) = p_in P.
Definition imp_cgrad (K : cmap) (P : pmap) : Prop :=
  dims K P /\ forall c x s old, length c = p_nc P -> length x = p_in P -> length s = p_out P -> length old = p_nc P ->
    m_cgrad K c x s old = Ok (p_cgrad P c x s) /\ length (p_cgrad P c x s) = p_nc P.
Definition imp_ldc (K : cmap) (P : pmap) : Prop :=
  dims K P /\ forall c x old, length c = p_nc P -> length x = p_in P -> length old = p_nc P ->
    m_ldc K c x old = Ok (p_ldc P c x) /\ length (p_ldc P c x) = p_nc P.
Definition imp_ldi (K : cmap) (P : pmap) : Prop :=
  dims K P /\ forall c x old, length c = p_nc P -> length x = p_in P -> length old = p_in P ->
    m_ldi K c x old = Ok (p_ldi P c x) /\ length (p_ldi P c x) = p_in P.

(** The same for maps without coefficients, whose coefficient routines need not be callable. *)
Definition imp_cgrad0 (K : cmap) (P : pmap) : Prop :=
  dims K P /\ (p_nc P <> 0%nat -> imp_cgrad K P) /\ (p_nc P = 0%nat -> forall c x s, p_cgrad P c x s = []).
Definition imp_ldc0 (K : cmap) (P : pmap) : Prop :=
  dims K P /\ (p_nc P <> 0%nat -> imp_ldc K P) /\ (p_nc P = 0%nat -> forall c x, p_ldc P c x = []).

(** Inverse, called with [n] rows of leading inputs, returns [y] with T(leading inputs, y)
    within [tol] of the target. *)
Definition imp_inv (n : nat) (tol : R) (K : cmap) (P : pmap) : Prop :=
  dims K P /\ forall c x1 r old, length c = p_nc P -> length x1 = n -> length r = p_out P -> length old = p_out P ->
    exists y, m_inv K c x1 r old = Ok y /\ length y = p_out P /\
              close tol (p_eval P c (firstn (p_in P - p_out P) x1 ++ y)) r.
(** The trailing inputs are determined by the leading ones and the value. *)
Definition injective (P : pmap) : Prop :=
  forall c lead y y', length c = p_nc P -> length lead = (p_in P - p_out P)%nat -> length y = p_out P -> length y' = p_out P ->
    p_eval P c (lead ++ y) = p_eval P c (lead ++ y') -> y = y'.

(** What the factorisation library promises for an invertible n x n matrix M: a row permutation
    and two triangular factors with P M = L U, solves that invert the factors, and the determinant. *)
Definition lu_correct (n : nat) (M : list (list R)) (F : LU) : Prop :=
  lu_det F = det n M /\
  exists L U : list (list R), rows_of n n L /\ rows_of n n U /\
    (forall v, length v = n -> length (lu_perm F v) = n) /\
    (forall v v', length v = n -> length v' = n -> lu_perm F v = lu_perm F v' -> v = v') /\
    (forall v, length v = n -> lu_perm F (matvec M v) = matvec L (matvec U v)) /\
    (forall v, length v = n -> length (lu_lower F v) = n /\ matvec L (lu_lower F v) = v /\ lu_lower F (matvec L v) = v) /\
    (forall v, length v = n -> length (lu_upper F v) = n /\ matvec U (lu_upper F v) = v /\ lu_upper F (matvec U v) = v).
