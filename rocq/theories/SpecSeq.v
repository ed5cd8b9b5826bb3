(** How Python runs through an object that only defines __getitem__ and __len__. Nothing here
    refers to the model of the code. *)
From Coq Require Import List ZArith.
Import ListNotations.
Local Open Scope Z_scope.

(** What a call from Python gives: a value, one of two exceptions, or undefined behaviour. *)
Inductive pyres (A : Type) : Type := Val (a : A) | IndexError | TypeError | Crash.
Arguments Val {A} a.
Arguments IndexError {A}.
Arguments TypeError {A}.
Arguments Crash {A}.

(** [for x in s] without __iter__: positions 0, 1, 2, ... until IndexError. [visits get i l]: from
    position [i] the loop sees the values [l] and ends. *)
Inductive visits {A : Type} (get : Z -> pyres A) : Z -> list A -> Prop :=
| vis_end i : get i = IndexError -> visits get i []
| vis_next i x l : get i = Val x -> visits get (i + 1) l -> visits get i (x :: l).

(** [for x in reversed(s)]: positions len - 1 down to 0, ending early at IndexError. *)
Inductive visits_back {A : Type} (get : Z -> pyres A) : Z -> list A -> Prop :=
| vb_end i : i < 0 -> visits_back get i []
| vb_stop i : 0 <= i -> get i = IndexError -> visits_back get i []
| vb_next i x l : 0 <= i -> get i = Val x -> visits_back get (i - 1) l -> visits_back get i (x :: l).

(** [for x in s], [for x in reversed(s)] and [x in s]. *)
Definition loop {A} (get : Z -> pyres A) (l : list A) : Prop := visits get 0 l.
Definition loop_reversed {A} (get : Z -> pyres A) (len : nat) (l : list A) : Prop := visits_back get (Z.of_nat len - 1) l.
Definition contains {A} (get : Z -> pyres A) (x : A) : Prop := exists l, loop get l /\ In x l.

Lemma visits_det {A} (get : Z -> pyres A) i l : visits get i l -> forall l', visits get i l' -> l = l'.
Proof. induction 1; intros l' H'; inversion H'; subst; try congruence. f_equal; [congruence|auto]. Qed.

Lemma visits_back_det {A} (get : Z -> pyres A) i l : visits_back get i l -> forall l', visits_back get i l' -> l = l'.
Proof.
  induction 1 as [i Hi|i Hi E|i x l Hi E H IH]; intros l' H'; inversion H'; subst; try congruence;
    try (exfalso; apply (Zlt_not_le _ _ Hi); assumption); try (exfalso; apply (Zle_not_lt _ _ Hi); assumption).
  f_equal; [congruence|auto].
Qed.
