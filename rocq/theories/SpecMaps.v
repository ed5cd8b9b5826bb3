(** Vocabulary for statements about maps built from other maps (C37-C43). Does not import the model. *)
From Coq Require Import Reals List.
From Coquelicot Require Import Coquelicot.
From Verif Require Import Base SpecExpansion.
Import ListNotations.
Local Open Scope R_scope.

(** [n] entries of [l] starting at [off]; pointwise sum; inner product; sum of a list of naturals. *)
Definition block (off n : nat) (l : list R) : list R := firstn n (skipn off l).
Fixpoint vadd (a b : list R) : list R :=
  match a, b with x :: a', y :: b' => (x + y) :: vadd a' b' | _, _ => [] end.
Fixpoint dot (a b : list R) : R :=
  match a, b with x :: a', y :: b' => x * y + dot a' b' | _, _ => 0 end.
Definition zeros (n : nat) : list R := repeat 0 n.
Definition extend (n : nat) (a : list R) : list R := a ++ zeros (n - length a).

(** A parameterised map as mathematics: dimensions and, for coefficients [c] and a point [x],
    its value, log determinant, gradient s^T dT/dx, gradient s^T dT/dc, and the gradients of
    the log determinant with respect to [c] and [x]. *)
Record pmap : Type := MkP {
  p_in : nat; p_out : nat; p_nc : nat;
  p_eval : list R -> list R -> list R;
  p_logdet : list R -> list R -> R;
  p_grad : list R -> list R -> list R -> list R;
  p_cgrad : list R -> list R -> list R -> list R;
  p_ldc : list R -> list R -> list R;
  p_ldi : list R -> list R -> list R }.

(** Triangular maps: component i sees the first p_in inputs and its own coefficients. *)
Fixpoint tri_eval (l : list pmap) (c x : list R) : list R :=
  match l with
  | [] => []
  | K :: l => p_eval K (firstn (p_nc K) c) (firstn (p_in K) x) ++ tri_eval l (skipn (p_nc K) c) x
  end.
Fixpoint tri_logdet (l : list pmap) (c x : list R) : R :=
  match l with
  | [] => 0
  | K :: l => p_logdet K (firstn (p_nc K) c) (firstn (p_in K) x) + tri_logdet l (skipn (p_nc K) c) x
  end.
Fixpoint tri_grad (l : list pmap) (n : nat) (c x s : list R) : list R :=
  match l with
  | [] => zeros n
  | K :: l => vadd (extend n (p_grad K (firstn (p_nc K) c) (firstn (p_in K) x) (firstn (p_out K) s)))
                   (tri_grad l n (skipn (p_nc K) c) x (skipn (p_out K) s))
  end.
Fixpoint tri_cgrad (l : list pmap) (c x s : list R) : list R :=
  match l with
  | [] => []
  | K :: l => p_cgrad K (firstn (p_nc K) c) (firstn (p_in K) x) (firstn (p_out K) s)
              ++ tri_cgrad l (skipn (p_nc K) c) x (skipn (p_out K) s)
  end.
Fixpoint tri_ldc (l : list pmap) (c x : list R) : list R :=
  match l with
  | [] => []
  | K :: l => p_ldc K (firstn (p_nc K) c) (firstn (p_in K) x) ++ tri_ldc l (skipn (p_nc K) c) x
  end.
Fixpoint tri_ldi (l : list pmap) (n : nat) (c x : list R) : list R :=
  match l with
  | [] => zeros n
  | K :: l => vadd (extend n (p_ldi K (firstn (p_nc K) c) (firstn (p_in K) x))) (tri_ldi l n (skipn (p_nc K) c) x)
  end.

(** Compositions: the first map of the list is applied first. Sensitivities are pulled back
    from the last layer to the first (reverse-mode chain rule). *)
Fixpoint cmp_eval (l : list pmap) (c x : list R) : list R :=
  match l with
  | [] => x
  | K :: l => cmp_eval l (skipn (p_nc K) c) (p_eval K (firstn (p_nc K) c) x)
  end.
Fixpoint cmp_logdet (l : list pmap) (c x : list R) : R :=
  match l with
  | [] => 0
  | K :: l => p_logdet K (firstn (p_nc K) c) x + cmp_logdet l (skipn (p_nc K) c) (p_eval K (firstn (p_nc K) c) x)
  end.
Fixpoint cmp_grad (l : list pmap) (c x s : list R) : list R :=
  match l with
  | [] => s
  | K :: l => p_grad K (firstn (p_nc K) c) x (cmp_grad l (skipn (p_nc K) c) (p_eval K (firstn (p_nc K) c) x) s)
  end.
Fixpoint cmp_cgrad (l : list pmap) (c x s : list R) : list R :=
  match l with
  | [] => []
  | K :: l => let c1 := firstn (p_nc K) c in let c2 := skipn (p_nc K) c in let y := p_eval K c1 x in
              p_cgrad K c1 x (cmp_grad l c2 y s) ++ cmp_cgrad l c2 y s
  end.
(** d/dx log|det| of the composition, and d/dc. *)
Fixpoint cmp_ldi (l : list pmap) (c x : list R) : list R :=
  match l with
  | [] => zeros (length x)
  | [K] => p_ldi K (firstn (p_nc K) c) x
  | K :: l => let c1 := firstn (p_nc K) c in let c2 := skipn (p_nc K) c in let y := p_eval K c1 x in
              vadd (p_grad K c1 x (cmp_ldi l c2 y)) (p_ldi K c1 x)
  end.
Fixpoint cmp_ldc (l : list pmap) (c x : list R) : list R :=
  match l with
  | [] => []
  | [K] => p_ldc K (firstn (p_nc K) c) x
  | K :: l => let c1 := firstn (p_nc K) c in let c2 := skipn (p_nc K) c in let y := p_eval K c1 x in
              vadd (p_ldc K c1 x) (p_cgrad K c1 x (cmp_ldi l c2 y)) ++ cmp_ldc l c2 y
  end.

(** [a] and [b] have the same length and differ by at most [tol] in every entry. *)
Definition close (tol : R) (a b : list R) : Prop := Forall2 (fun u v => Rabs (u - v) <= tol) a b.
(** Going forward from [y], each layer hits the next point of a list ending in [r] up to [tol]. *)
Fixpoint traced (tol : R) (l : list pmap) (c y r : list R) : Prop :=
  match l with
  | [] => y = r
  | K :: l => exists z, close tol (p_eval K (firstn (p_nc K) c) y) z /\ traced tol l (skipn (p_nc K) c) z r
  end.

(** Differentiability along every curve: [v] is the velocity of the curve [g] at time [t]. *)
Definition velocity (g : R -> list R) (t : R) (v : list R) : Prop :=
  (forall u, length (g u) = length v) /\
  forall j, (j < length v)%nat -> is_derive (fun u => coord (g u) j) t (coord v j).

(** The gradients of [K] are the derivatives of its value, jointly in coefficients and inputs:
    along any curves c(u), x(u), d/du <s, T(x(u); c(u))> = <s^T dT/dc, c'> + <s^T dT/dx, x'>. *)
Definition true_gradients (K : pmap) : Prop :=
  forall (gc gx : R -> list R) (t : R) (vc vx s : list R),
    velocity gc t vc -> velocity gx t vx ->
    length vc = p_nc K -> length vx = p_in K -> length s = p_out K ->
    is_derive (fun u => dot s (p_eval K (gc u) (gx u))) t
      (dot (p_cgrad K (gc t) (gx t) s) vc + dot (p_grad K (gc t) (gx t) s) vx).
Definition true_logdet_gradients (K : pmap) : Prop :=
  forall (gc gx : R -> list R) (t : R) (vc vx : list R),
    velocity gc t vc -> velocity gx t vx -> length vc = p_nc K -> length vx = p_in K ->
    is_derive (fun u => p_logdet K (gc u) (gx u)) t (dot (p_ldc K (gc t) (gx t)) vc + dot (p_ldi K (gc t) (gx t)) vx).
(** The routines of [K] return vectors of the declared sizes. *)
Definition sized (K : pmap) : Prop :=
  forall c x s, length c = p_nc K -> length x = p_in K -> length s = p_out K ->
    length (p_eval K c x) = p_out K /\ length (p_grad K c x s) = p_in K /\ length (p_cgrad K c x s) = p_nc K /\
    length (p_ldc K c x) = p_nc K /\ length (p_ldi K c x) = p_in K.

(** Sum of a number over a list. *)
Fixpoint nsum {A} (f : A -> nat) (l : list A) : nat := match l with [] => 0%nat | a :: l => (f a + nsum f l)%nat end.
(** The triangular map with [n] inputs, and the composition of maps of R^d. *)
Definition tri_pmap (n : nat) (l : list pmap) : pmap :=
  MkP n (nsum p_out l) (nsum p_nc l) (tri_eval l) (tri_logdet l) (tri_grad l n) (tri_cgrad l) (tri_ldc l) (tri_ldi l n).
Definition cmp_pmap (d : nat) (l : list pmap) : pmap :=
  MkP d d (nsum p_nc l) (cmp_eval l) (cmp_logdet l) (cmp_grad l) (cmp_cgrad l) (cmp_ldc l) (cmp_ldi l).

(** Matrices as lists of rows; determinant by expansion along the first row. *)
Definition matvec (A : list (list R)) (x : list R) : list R := map (fun row => dot row x) A.
Definition rows_of (m n : nat) (A : list (list R)) : Prop := length A = m /\ Forall (fun row => length row = n) A.
Definition remove_col (j : nat) (row : list R) : list R := firstn j row ++ skipn (S j) row.
Fixpoint det (n : nat) (A : list (list R)) : R :=
  match n, A with
  | O, _ => 1
  | S m, row :: rest => rsum (fun j => (-1) ^ j * coord row j * det m (map (remove_col j) rest)) n
  | S _, [] => 0
  end.
Definition columns (off n : nat) (A : list (list R)) : list (list R) := map (block off n) A.

(** x |-> trailing entries of x. *)
Definition id_pmap (n m : nat) : pmap :=
  MkP n m 0 (fun _ x => skipn (n - m) x) (fun _ _ => 0) (fun _ _ s => zeros (n - m) ++ s) (fun _ _ _ => [])
      (fun _ _ => []) (fun _ _ => zeros n).
(** x |-> A x + b, with s^T A computed column by column. *)
Definition vecmat (n : nat) (s : list R) (A : list (list R)) : list R :=
  map (fun j => dot s (map (fun row => coord row j) A)) (seq 0 n).
Definition affine_pmap (m n : nat) (A : list (list R)) (b : list R) : pmap :=
  MkP n m 0 (fun _ x => vadd (matvec A x) b) (fun _ _ => ln (Rabs (det m (columns (n - m) m A))))
      (fun _ _ s => vecmat n s A) (fun _ _ _ => []) (fun _ _ => []) (fun _ _ => zeros n).
Definition shift_pmap (b : list R) : pmap :=
  MkP (length b) (length b) 0 (fun _ x => vadd x b) (fun _ _ => 0) (fun _ _ s => s) (fun _ _ _ => []) (fun _ _ => [])
      (fun _ _ => zeros (length b)).
(** x |-> K(S(all entries of x but the last), last entry of x); [sc] are the coefficients of the summary [S]. *)
Definition summarize (S : pmap) (sc x : list R) : list R := p_eval S sc (firstn (p_in S) x) ++ skipn (p_in S) x.
Definition sum_back (S : pmap) (sc x g : list R) : list R :=
  p_grad S sc (firstn (p_in S) x) (firstn (p_out S) g) ++ skipn (p_out S) g.
Definition summarized_pmap (S : pmap) (sc : list R) (K : pmap) : pmap :=
  MkP (p_in S + 1) (p_out K) (p_nc K)
      (fun c x => p_eval K c (summarize S sc x)) (fun c x => p_logdet K c (summarize S sc x))
      (fun c x s => sum_back S sc x (p_grad K c (summarize S sc x) s))
      (fun c x s => p_cgrad K c (summarize S sc x) s)
      (fun c x => p_ldc K c (summarize S sc x))
      (fun c x => sum_back S sc x (p_ldi K c (summarize S sc x))).

(** Entry (i,j) of the Jacobian of the trailing block: derivative of output i in trailing input j. *)
Definition trailing_jacobian (K : pmap) (c x : list R) (J : list (list R)) : Prop :=
  rows_of (p_out K) (p_out K) J /\
  forall i j, (i < p_out K)%nat -> (j < p_out K)%nat ->
    is_partial (fun x => coord (p_eval K c x) i) (p_in K - p_out K + j) x (coord (nth i J []) j).
(** The log determinant is ln|det| of that matrix, which is invertible. *)
Definition true_logdet (K : pmap) : Prop :=
  forall c x, length c = p_nc K -> length x = p_in K ->
    exists J, trailing_jacobian K c x J /\ det (p_out K) J <> 0 /\ p_logdet K c x = ln (Rabs (det (p_out K) J)).
