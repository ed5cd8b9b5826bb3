(** Vocabulary for start-up and shut-down (C71). Does not import the model. *)
From Coq Require Import List Arith Bool.
Import ListNotations.

(** What a process does to the Kokkos runtime, in order; [args] are the command line arguments it hands over. *)
Inductive event : Type :=
  | Started (args : list (list nat))
  | Stopped
  | Warned.
Definition is_started (e : event) : bool := match e with Started _ => true | _ => false end.
Definition is_stopped (e : event) : bool := match e with Stopped => true | _ => false end.
Definition is_warned (e : event) : bool := match e with Warned => true | _ => false end.
Definition count (p : event -> bool) (l : list event) : nat := length (filter p l).

(** Characters are their codes; an environment variable is absent or a string. *)
Definition same_letter (a b : nat) : Prop := a = b \/ (65 <= a <= 90 /\ b = a + 32) \/ (65 <= b <= 90 /\ a = b + 32).
Definition word_off : list nat := [111; 102; 102].
(** The variable holds "off" in any capitalisation. *)
Definition says_off (v : option (list nat)) : Prop := exists s, v = Some s /\ Forall2 same_letter s word_off.

(** One command line argument "--key=value". *)
Definition option_arg (key value : list nat) : list nat := [45; 45] ++ key ++ [61] ++ value.
