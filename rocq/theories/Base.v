(** Shared vocabulary of the model: outcomes of C++ calls and array updates. *)
From Coq Require Export List Arith ZArith Lia Bool.
Export ListNotations.
Global Arguments Nat.ltb : simpl never.

(** Outcome of a C++ call: normal return, a thrown exception, or undefined
    behaviour (out-of-bounds raw access, read of an indeterminate value, use of
    a dangling reference). [Fuel] marks a loop cut off by the model's fuel; every
    theorem that mentions a fuelled function excludes it. *)
Inductive outcome (A : Type) : Type :=
| Ok (a : A)
| Throw
| UB
| Fuel.
Arguments Ok {A} a.
Arguments Throw {A}.
Arguments UB {A}.
Arguments Fuel {A}.

Definition obind {A B} (x : outcome A) (f : A -> outcome B) : outcome B :=
  match x with Ok a => f a | Throw => Throw | UB => UB | Fuel => Fuel end.

Notation "'do' x <- e ; f" := (obind e (fun x => f))
  (at level 200, x pattern, e at level 100, f at level 200).

(** Overwrite position [i]; a write past the end is ignored, callers check
    the bound explicitly and report [UB] or [Throw]. *)
Fixpoint upd {A} (l : list A) (i : nat) (x : A) : list A :=
  match l, i with
  | [], _ => []
  | _ :: t, O => x :: t
  | h :: t, S j => h :: upd t j x
  end.

(** std::vector::at *)
Definition at_ {A} (l : list A) (i : nat) : outcome A :=
  match nth_error l i with Some a => Ok a | None => Throw end.

(** operator[] / Kokkos view access without bounds checking. *)
Definition raw_get {A} (l : list A) (i : nat) : outcome A :=
  match nth_error l i with Some a => Ok a | None => UB end.

Definition raw_set {A} (l : list A) (i : nat) (x : A) : outcome (list A) :=
  if i <? length l then Ok (upd l i x) else UB.

(** Left fold in the outcome monad: a C++ for loop whose body may fail. *)
Fixpoint ofold {A S} (f : S -> A -> outcome S) (l : list A) (s : S) : outcome S :=
  match l with
  | [] => Ok s
  | a :: t => do s' <- f s a; ofold f t s'
  end.

Lemma upd_length {A} (l : list A) i x : length (upd l i x) = length l.
Proof. revert i; induction l as [|h t IH]; intros [|i]; cbn; congruence || auto. Qed.

Lemma nth_upd_eq {A} (l : list A) i x d : i < length l -> nth i (upd l i x) d = x.
Proof.
  revert i; induction l as [|h t IH]; intros [|i] Hi; cbn in *; try lia; auto.
  apply IH; lia.
Qed.

Lemma nth_upd_neq {A} (l : list A) i j x d : i <> j -> nth j (upd l i x) d = nth j l d.
Proof.
  revert i j; induction l as [|h t IH]; intros [|i] [|j] Hij; cbn; auto; try lia.
Qed.

Lemma nth_error_upd_eq {A} (l : list A) i x : i < length l -> nth_error (upd l i x) i = Some x.
Proof.
  revert i; induction l as [|h t IH]; intros [|i] Hi; cbn in *; try lia; auto.
  apply IH; lia.
Qed.

Lemma nth_error_upd_neq {A} (l : list A) i j x : i <> j -> nth_error (upd l i x) j = nth_error l j.
Proof.
  revert i j; induction l as [|h t IH]; intros [|i] [|j] Hij; cbn; auto; try lia.
Qed.

Lemma upd_upd_eq {A} (l : list A) i x y : upd (upd l i x) i y = upd l i y.
Proof. revert i; induction l as [|h t IH]; intros [|i]; cbn; auto; f_equal; auto. Qed.

Lemma upd_upd_comm {A} (l : list A) i j x y :
  i <> j -> upd (upd l i x) j y = upd (upd l j y) i x.
Proof.
  revert i j; induction l as [|h t IH]; intros [|i] [|j] Hij; cbn; auto; try lia.
  f_equal. apply IH. lia.
Qed.

Lemma upd_same {A} (l : list A) i d : i < length l -> upd l i (nth i l d) = l.
Proof.
  revert i; induction l as [|h t IH]; intros [|i] Hi; cbn in *; auto; try lia.
  f_equal. apply IH. lia.
Qed.

Lemma upd_app_r {A} (l1 l2 : list A) i x :
  upd (l1 ++ l2) (length l1 + i) x = l1 ++ upd l2 i x.
Proof. induction l1 as [|h t IH]; cbn; auto. f_equal; auto. Qed.

Lemma upd_app_l {A} (l1 l2 : list A) i x :
  i < length l1 -> upd (l1 ++ l2) i x = upd l1 i x ++ l2.
Proof.
  revert i; induction l1 as [|h t IH]; intros [|i] Hi; cbn in *; try lia; auto.
  f_equal; apply IH; lia.
Qed.

Lemma upd_oob {A} (l : list A) i x : length l <= i -> upd l i x = l.
Proof.
  revert i; induction l as [|h t IH]; intros [|i] Hi; cbn in *; try lia; auto.
  f_equal; apply IH; lia.
Qed.

Lemma nth_ext_eq {A} (l l' : list A) d :
  length l = length l' -> (forall i, i < length l -> nth i l d = nth i l' d) -> l = l'.
Proof. intros Hl H. apply (nth_ext l l' d d Hl). exact H. Qed.

Lemma nth_error_Some_lt {A} (l : list A) i a : nth_error l i = Some a -> i < length l.
Proof. intros H. apply nth_error_Some. congruence. Qed.

Lemma nth_error_nth_some {A} (l : list A) i d : i < length l -> nth_error l i = Some (nth i l d).
Proof. intros H. apply nth_error_nth'. exact H. Qed.

Lemma raw_get_ok {A} (l : list A) i d : i < length l -> raw_get l i = Ok (nth i l d).
Proof. intros H. unfold raw_get. rewrite (nth_error_nth' l d H). reflexivity. Qed.

Lemma raw_set_ok {A} (l : list A) i x : i < length l -> raw_set l i x = Ok (upd l i x).
Proof. intros H. unfold raw_set. apply Nat.ltb_lt in H. rewrite H. reflexivity. Qed.

Lemma ofold_app {A S} (f : S -> A -> outcome S) l1 l2 s :
  ofold f (l1 ++ l2) s = obind (ofold f l1 s) (ofold f l2).
Proof.
  revert s; induction l1 as [|a t IH]; intros s; cbn; auto.
  destruct (f s a); cbn; auto.
Qed.
