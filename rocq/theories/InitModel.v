(** Model of mpart::Initialize, mpart::Finalize and of the wrappers of the bindings. *)
From Verif Require Import Base SpecInit.

(** Kokkos' contract: it is started at most once and stopped at most once, while it runs; a call at
    another time aborts the process ([Throw]). *)
Inductive kokkos : Type := KNew | KUp | KDown.
(** A process: the flag of the static InitializeStatus object (Initialization.h:41-58), Kokkos, the number of
    handlers mpart::Finalize registered with std::atexit, and what has happened. *)
Record proc : Type := MkProc { p_flag : bool; p_kokkos : kokkos; p_atexit : nat; p_log : list event }.
Definition new_proc : proc := MkProc false KNew 0 [].
Definition k_initialize (args : list (list nat)) (p : proc) : outcome proc :=
  match p_kokkos p with KNew => Ok (MkProc (p_flag p) KUp (p_atexit p) (p_log p ++ [Started args])) | _ => Throw end.
Definition k_finalize (p : proc) : outcome proc :=
  match p_kokkos p with KUp => Ok (MkProc (p_flag p) KDown (p_atexit p) (p_log p ++ [Stopped])) | _ => Throw end.
(** repo: src/Initialization.cpp:6-14 (host build) *)
Definition Finalize (p : proc) : outcome proc := k_finalize p.

(** std::tolower in the "C" locale. *)
Definition tolower (c : nat) : nat := if (65 <=? c) && (c <=? 90) then c + 32 else c.
Fixpoint string_eq (a b : list nat) : bool :=
  match a, b with [], [] => true | x :: a, y :: b => (x =? y) && string_eq a b | _, _ => false end.
(** repo: MParT/Initialization.h:100-113: whether the warning is printed, given getenv("MPART_WARNINGS"). *)
Definition should_print (warningStr : option (list nat)) : bool :=
  match warningStr with
  | None => true
  | Some s => negb (string_eq (map tolower s) [111; 102; 102])
  end.
Definition warn (env : option (list nat)) (p : proc) : proc :=
  if should_print env then MkProc (p_flag p) (p_kokkos p) (p_atexit p) (p_log p ++ [Warned]) else p.
Definition register (p : proc) : proc := MkProc (p_flag p) (p_kokkos p) (S (p_atexit p)) (p_log p).
Definition set_flag (p : proc) : proc := MkProc true (p_kokkos p) (p_atexit p) (p_log p).
(** repo: MParT/Initialization.h:78-116; the arguments are those after Kokkos has taken its own away. *)
Definition Initialize (env : option (list nat)) (args : list (list nat)) (p : proc) : outcome proc :=
  if negb (p_flag p) then
    do p <- k_initialize args p;
    Ok (set_flag (register p))
  else Ok (warn env p).

(** Calls of a program with one thread, and the end of the process: the handlers run, last registered first. *)
Inductive call : Type := CInitialize (env : option (list nat)) (args : list (list nat)) | CFinalize | CKokkosInitialize (args : list (list nat)) | CKokkosFinalize.
Definition do_call (p : proc) (c : call) : outcome proc :=
  match c with CInitialize env args => Initialize env args p | CFinalize => Finalize p | CKokkosInitialize args => k_initialize args p | CKokkosFinalize => k_finalize p end.
Definition run (calls : list call) : outcome proc := ofold do_call calls new_proc.
Definition process_exit (p : proc) : outcome proc := ofold (fun p _ => Finalize p) (seq 0 (p_atexit p)) p.

(** The same call as the steps another thread can come between. repo: MParT/Initialization.h:81, 84, 93, 96, 100-114 *)
Inductive pc : Type := AtTest | AtStart | AtRegister | AtSet | AtWarn | Returned.
Record thread : Type := MkThread { t_env : option (list nat); t_args : list (list nat); t_pc : pc }.
Definition goto (t : thread) (c : pc) : thread := MkThread (t_env t) (t_args t) c.
Definition step (p : proc) (t : thread) : outcome (proc * thread) :=
  match t_pc t with
  | AtTest => Ok (p, goto t (if negb (p_flag p) then AtStart else AtWarn))
  | AtStart => do p <- k_initialize (t_args t) p; Ok (p, goto t AtRegister)
  | AtRegister => Ok (register p, goto t AtSet)
  | AtSet => Ok (set_flag p, goto t Returned)
  | AtWarn => Ok (warn (t_env t) p, goto t Returned)
  | Returned => Ok (p, t)
  end.
(** A schedule names the thread that makes the next step. *)
Definition sched_step (s : proc * list thread) (i : nat) : outcome (proc * list thread) :=
  match nth_error (snd s) i with
  | None => Ok s
  | Some t => do r <- step (fst s) t; Ok (fst r, upd (snd s) i (snd r))
  end.
Definition run_threads (schedule : list nat) (s : proc * list thread) : outcome (proc * list thread) := ofold sched_step schedule s.
Definition calling (env : option (list nat)) (args : list (list nat)) : thread := MkThread env args AtTest.

(** repo: bindings/python/src/CommonPybindUtilities.cpp:15-27, a dictionary being the list of its entries *)
Definition python_args (opts : list (list nat * list nat)) : list (list nat) := map (fun kv => [45; 45] ++ fst kv ++ [61] ++ snd kv) opts.
(** repo: bindings/julia/src/CommonJuliaUtilities.cpp:9-20; operator[] is not checked *)
Definition julia_args (opts : list (list nat)) : outcome (list (list nat)) :=
  ofold (fun args k => let i := 2 * k in do key <- raw_get opts i; do val <- raw_get opts (i + 1); Ok (args ++ [[45; 45] ++ key ++ [61] ++ val]))
    (seq 0 ((length opts + 1) / 2)) [].
