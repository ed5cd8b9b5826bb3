(** Several host threads calling one MonotoneComponent. The routines share the member quad_, whose
    fields fdim_ and workspaceSize_ each of them sets before its parallel loop (repo:
    MonotoneComponent.h:270-273, 401-407, 599-605, 697-703, 770-776, 940-946); the loop then works on the
    copy of quad_ in the lambda (KOKKOS_CLASS_LAMBDA copies *this). A read or write of one field is one
    step of a sequentially consistent memory; the parallel loop of a call, which uses only the copy and
    scratch memory of its own, is one step. Calls are for one point (C55 covers batches). *)
From Coq Require Import Reals List.
From Verif Require Import Base SpecMulti PolyModel BijModel ExpansionModel QuadModel RootModel MonoModel.
Import ListNotations.

(** quad_.fdim_, quad_.workspaceSize_ *)
Record qfields : Type := MkQF { q_dim : nat; q_size : nat }.

(** Numbers returned by a call; None is NaN. *)
Definition result : Type := outcome (list (option R)).

(** A call: the argument of SetDim, and what the loop returns for fdim_ of the copy of quad_ and the
    length of the workspace. *)
Record call : Type := MkCall { c_dim : nat; c_kernel : nat -> nat -> result }.

(** Where a thread is within its first unfinished call. *)
Inductive phase : Type :=
| Idle                            (* before SetDim *)
| DimSet                          (* fdim_ written, repo: Quadrature.h:178, 527, 793 *)
| SizeSet                         (* workspaceSize_ written, repo: Quadrature.h:179, 528, 794 *)
| SizeRead (size : nat)           (* WorkspaceSize() called, repo: MonotoneComponent.h:271 *)
| Captured (size dim : nat).      (* lambda constructed, repo: MonotoneComponent.h:273 *)

Record thread : Type := MkTh { t_calls : list call; t_phase : phase; t_done : list result }.

Section Machine.
(** GetWorkspaceSize of the quadrature rule. *)
Variable W : nat -> nat.

(** One step of a thread; None when it has finished. *)
Definition th_step (q : qfields) (th : thread) : option (qfields * thread) :=
  match t_calls th with
  | [] => None
  | c :: rest =>
      let at_ p := MkTh (t_calls th) p (t_done th) in
      Some match t_phase th with
      | Idle => (MkQF (c_dim c) (q_size q), at_ DimSet)
      | DimSet => (MkQF (q_dim q) (W (c_dim c)), at_ SizeSet)
      | SizeSet => (q, at_ (SizeRead (q_size q)))
      | SizeRead w => (q, at_ (Captured w (q_dim q)))
      | Captured w d => (q, MkTh rest Idle (t_done th ++ [c_kernel c d w]))
      end
  end.

Definition system : Type := qfields * list thread.
(** Thread [i] makes a step, if it can. *)
Definition sys_step (s : system) (i : nat) : system :=
  match nth_error (snd s) i with
  | Some th => match th_step (fst s) th with Some (q, th) => (q, upd (snd s) i th) | None => s end
  | None => s
  end.
(** Any order of steps. *)
Definition sys_run (schedule : list nat) (s : system) : system := fold_left sys_step schedule s.

(** Threads that have yet to make the given calls; the fields hold what was left there. *)
Definition sys_start (q : qfields) (calls : list (list call)) : system := (q, map (fun l => MkTh l Idle []) calls).

(** The result of a call when nothing else happens. *)
Definition alone (c : call) : result := c_kernel c (c_dim c) (W (c_dim c)).
End Machine.

(** ** The calls of a component *)
(** The component with the copy of quad_ whose fdim_ is [fd]. *)
Definition captured (C : component) (fd : nat) : component :=
  MkMC (mc_w C) (mc_G C) (MkQR (qr_work (mc_Q C)) (fun _ => qr_int (mc_Q C) fd)) (mc_cont C) (mc_nugget C).
(** Scratch memory with a workspace of the given length and arbitrary contents. *)
Definition with_ws (S : scratch) (junk : nat -> R) (size : nat) : scratch :=
  MkScr (sc_cache S) (map junk (seq 0 size)) (sc_res S) (sc_work S) (sc_nodes S).

Section Calls.
Variables (C : component) (S : scratch) (junk : nat -> R).
(** repo: MonotoneComponent.h:256-299 *)
Definition call_Evaluate (pt coeffs : list R) : call :=
  MkCall 1 (fun fd size => do v <- mc_Evaluate (captured C fd) (with_ws S junk size) pt coeffs; Ok [Some v]).
(** repo: MonotoneComponent.h:331-443 *)
Definition call_Inverse (x1 : list R) (y : R) (coeffs : list R) (xtol ytol : option R) : call :=
  MkCall 1 (fun fd size => do r <- mc_Inverse (captured C fd) (with_ws S junk size) x1 y coeffs xtol ytol; Ok [fst r]).
(** repo: MonotoneComponent.h:586-637 *)
Definition call_DiscreteDerivative (pt coeffs : list R) : call :=
  MkCall 2 (fun fd size => do r <- mc_DiscreteDerivative (captured C fd) (with_ws S junk size) pt coeffs; Ok [Some (fst r); Some (snd r)]).
(** repo: MonotoneComponent.h:685-740 *)
Definition call_CoeffJacobian (pt coeffs jac : list R) : call :=
  MkCall (length coeffs + 1) (fun fd size => do r <- mc_CoeffJacobian (captured C fd) (with_ws S junk size) pt coeffs jac; Ok (Some (fst r) :: map Some (snd r))).
(** repo: MonotoneComponent.h:758-815 *)
Definition call_InputJacobian (pt coeffs jac : list R) : call :=
  MkCall (wdim (mc_w C) + 1) (fun fd size => do r <- mc_InputJacobian (captured C fd) (with_ws S junk size) pt coeffs jac; Ok (Some (fst r) :: map Some (snd r))).
(** repo: MonotoneComponent.h:929-980 *)
Definition call_DiscreteMixedJacobian (pt coeffs jac : list R) : call :=
  MkCall (length coeffs + 1) (fun fd size => do r <- mc_DiscreteMixedJacobian (captured C fd) (with_ws S junk size) pt coeffs jac; Ok (map Some r)).
End Calls.
