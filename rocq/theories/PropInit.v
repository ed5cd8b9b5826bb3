(** C71: repeated initialisation, and shutting down. *)
From Verif Require Import Base SpecInit InitModel.

Lemma string_eq_iff a b : string_eq a b = true <-> a = b.
Proof.
  revert b. induction a as [|x a IH]; intros [|y b]; cbn; split; intros H; try discriminate; auto.
  - apply andb_prop in H as (H1 & H2). apply Nat.eqb_eq in H1. apply IH in H2. congruence.
  - injection H as -> ->. rewrite Nat.eqb_refl. apply IH. reflexivity.
Qed.
Lemma tolower_letter c d : 97 <= d <= 122 -> tolower c = d <-> same_letter c d.
Proof.
  intros Hd. unfold tolower, same_letter. destruct (Nat.leb_spec 65 c), (Nat.leb_spec c 90); cbn [andb]; lia.
Qed.
Lemma should_print_iff env : should_print env = false <-> says_off env.
Proof.
  destruct env as [s|]; cbn; [|split; [discriminate|intros (s & H & _); discriminate]]. rewrite negb_false_iff, string_eq_iff. split.
  - intros H. exists s. split; auto. destruct s as [|a [|b [|c [|]]]]; try discriminate. cbn in H. injection H as H1 H2 H3. unfold word_off. constructor; [|constructor; [|constructor; [|constructor]]]; apply tolower_letter; auto; lia.
  - intros (s' & E & H). injection E as <-. inversion H as [|? ? ? ? A1 T1]; subst. inversion T1 as [|? ? ? ? A2 T2]; subst. inversion T2 as [|? ? ? ? A3 T3]; subst. inversion T3; subst.
    cbn [map]. apply tolower_letter in A1, A2, A3; try lia. rewrite A1, A2, A3. reflexivity.
Qed.

(** Any number of calls with any arguments: Kokkos is started once, with the arguments of the first call, and
    stopped once at the end of the process; every later call prints a warning unless the variable says off. *)
Theorem C71_once : forall env args rest,
  exists p q ws, run (CInitialize env args :: map (fun c => CInitialize (fst c) (snd c)) rest) = Ok p /\ process_exit p = Ok q /\
    p_log p = Started args :: concat ws /\ p_log q = Started args :: concat ws ++ [Stopped] /\
    Forall2 (fun c w => (says_off (fst c) -> w = []) /\ (~ says_off (fst c) -> w = [Warned])) rest ws.
Proof.
  intros env args rest. unfold run. cbn [ofold do_call Initialize new_proc p_flag negb k_initialize p_kokkos obind set_flag register p_atexit p_log app].
  assert (G : forall rest log, exists p ws, ofold do_call (map (fun c => CInitialize (fst c) (snd c)) rest) (MkProc true KUp 1 log) = Ok p /\
    p = MkProc true KUp 1 (log ++ concat ws) /\ Forall2 (fun c w => (says_off (fst c) -> w = []) /\ (~ says_off (fst c) -> w = [Warned])) rest ws).
  { clear. induction rest as [|(e, a) rest IH]; intros log.
    - exists (MkProc true KUp 1 log), []. cbn. rewrite app_nil_r. auto.
    - cbn [map ofold do_call fst snd Initialize p_flag negb obind]. unfold warn. destruct (should_print e) eqn:E; cbn [p_flag p_kokkos p_atexit p_log].
      + destruct (IH (log ++ [Warned])) as (p & ws & R & -> & F). exists (MkProc true KUp 1 ((log ++ [Warned]) ++ concat ws)), ([Warned] :: ws). split; [exact R|]. split; [cbn [concat]; rewrite <- app_assoc; reflexivity|].
        constructor; auto. cbn [fst]. split; auto. intros H. apply should_print_iff in H. congruence.
      + destruct (IH log) as (p & ws & R & -> & F). exists (MkProc true KUp 1 (log ++ concat ws)), ([] :: ws). split; [exact R|]. split; auto. constructor; auto. cbn [fst]. split; auto. intros H. exfalso. apply H, should_print_iff, E. }
  destruct (G rest [Started args]) as (p & ws & R & -> & F). eexists _, _, ws. split; [exact R|]. split; [reflexivity|]. cbn [p_log app]. auto.
Qed.
Print Assumptions C71_once.

(** Once one call has returned, other threads may call at any time: no schedule fails, starts Kokkos again or
    registers a second handler, and when all have returned each has printed its warning. *)
Theorem C71_threads_partial : forall env args p pool schedule, Initialize env args new_proc = Ok p ->
  Forall (fun t => t_pc t = AtTest) pool ->
  exists q pool', run_threads schedule (p, pool) = Ok (q, pool') /\ count is_started (p_log q) = 1 /\ count is_stopped (p_log q) = 0 /\
    (exists q', process_exit q = Ok q' /\ p_log q' = p_log q ++ [Stopped]) /\
    (Forall (fun t => t_pc t = Returned) pool' -> count is_warned (p_log q) = length (filter (fun t => should_print (t_env t)) pool)).
Proof.
  intros env args p pool schedule E HP. injection E as <-. unfold set_flag, register. cbn [p_kokkos p_atexit p_log app p_flag].
  set (owed := fun t : thread => match t_pc t with Returned => false | _ => should_print (t_env t) end).
  set (Inv := fun s : proc * list thread => exists log, fst s = MkProc true KUp 1 log /\ count is_started log = 1 /\ count is_stopped log = 0 /\
    Forall (fun t => t_pc t = AtTest \/ t_pc t = AtWarn \/ t_pc t = Returned) (snd s) /\
    count is_warned log + length (filter owed (snd s)) = length (filter (fun t => should_print (t_env t)) pool)).
  assert (I0 : Inv (MkProc true KUp 1 [Started args], pool)).
  { exists [Started args]. cbn [fst snd]. split; auto. split; auto. split; auto. split; [eapply Forall_impl; [|exact HP]; auto|]. cbn [count filter is_warned length Nat.add].
    f_equal. clear - HP. induction HP as [|t l H _ IH]; auto. cbn. unfold owed at 1. rewrite H. rewrite IH. reflexivity. }
  assert (IS : forall s i, Inv s -> exists s', sched_step s i = Ok s' /\ Inv s').
  { intros (p, l) i (log & Ep & C1 & C2 & F & C3). cbn [fst snd] in *. subst p. unfold sched_step. cbn [fst snd]. destruct (nth_error l i) as [t|] eqn:Et.
    2: { eexists. split; [reflexivity|]. exists log. auto. }
    assert (Ht : t_pc t = AtTest \/ t_pc t = AtWarn \/ t_pc t = Returned) by (rewrite Forall_forall in F; apply F; eapply nth_error_In; eauto).
    assert (FU : forall c, c = AtWarn \/ c = Returned -> Forall (fun t => t_pc t = AtTest \/ t_pc t = AtWarn \/ t_pc t = Returned) (upd l i (goto t c))).
    { intros c Hc. clear - F Hc. revert i. induction F as [|a l Ha F IH]; intros [|i]; cbn; constructor; auto. }
    assert (CU : forall t', length (filter owed (upd l i t')) + (if owed t then 1 else 0) = length (filter owed l) + (if owed t' then 1 else 0)).
    { intros t'. clear - Et. revert i Et. induction l as [|a l IH]; intros [|i] Et; try discriminate.
      - injection Et as ->. cbn [upd filter]. destruct (owed t), (owed t'); cbn [length]; lia.
      - specialize (IH i Et). cbn [upd filter]. destruct (owed a); cbn [length]; lia. }
    destruct Ht as [Ht|[Ht|Ht]]; unfold step; rewrite Ht; cbn [p_flag negb obind fst snd].
    - eexists. split; [reflexivity|]. exists log. cbn [fst snd]. split; auto. split; auto. split; auto. split; [apply FU; auto|]. specialize (CU (goto t AtWarn)).
      unfold owed at 2 4 in CU. rewrite Ht in CU. cbn [goto t_pc t_env] in CU. lia.
    - eexists. split; [reflexivity|]. specialize (CU (goto t Returned)). unfold owed at 2 4 in CU. rewrite Ht in CU. cbn [goto t_pc t_env] in CU. unfold warn. cbn [p_flag p_kokkos p_atexit p_log].
      destruct (should_print (t_env t)).
      + exists (log ++ [Warned]). cbn [fst snd]. unfold count in *. rewrite !filter_app, !app_length. cbn [filter is_started is_stopped is_warned length]. split; auto. split; [lia|]. split; [lia|]. split; [apply FU; auto|lia].
      + exists log. cbn [fst snd]. split; auto. split; auto. split; auto. split; [apply FU; auto|lia].
    - eexists. split; [reflexivity|]. exists log. cbn [fst snd]. split; auto. split; auto. split; auto.
      assert (U : upd l i t = l) by (clear - Et; revert i Et; induction l as [|a l IH]; intros [|i] Et; try discriminate; cbn in *; [congruence|rewrite IH; auto]). rewrite U. auto. }
  assert (IR : forall schedule s, Inv s -> exists s', run_threads schedule s = Ok s' /\ Inv s').
  { clear - IS. induction schedule as [|i sch IH]; intros s H; [exists s; auto|]. destruct (IS s i H) as (s1 & E1 & H1). destruct (IH s1 H1) as (s2 & E2 & H2). exists s2. split; auto. unfold run_threads in *. cbn [ofold]. rewrite E1. exact E2. }
  destruct (IR schedule _ I0) as ((q, pool') & R & (log & Eq & C1 & C2 & F & C3)). cbn [fst snd] in *. subst q. exists (MkProc true KUp 1 log), pool'. split; [exact R|]. cbn [p_log]. split; auto. split; auto. split.
  - eexists. split; [reflexivity|]. reflexivity.
  - intros HR. rewrite <- C3. replace (filter owed pool') with (@nil thread); [cbn; lia|]. clear - HR. induction HR as [|t l H _ IH]; auto. cbn. unfold owed at 1. rewrite H. exact IH.
Qed.
Print Assumptions C71_threads_partial.

(** Two threads making the first call at the same time: one schedule starts Kokkos twice. *)
Theorem C71_threads_refuted : forall e1 a1 e2 a2, run_threads [0; 1; 0; 1] (new_proc, [calling e1 a1; calling e2 a2]) = Throw.
Proof. reflexivity. Qed.
Print Assumptions C71_threads_refuted.

(** "Calls Kokkos::initialize if it hasn't been called yet": only calls through mpart::Initialize are seen. *)
Theorem C71_user_kokkos_refuted : forall env args args', run [CKokkosInitialize args; CInitialize env args'] = Throw.
Proof. reflexivity. Qed.
Print Assumptions C71_user_kokkos_refuted.

(** After Finalize the flag stays set: the handler stops Kokkos a second time at the end of the process, and a
    later Initialize returns without Kokkos running. *)
Theorem C71_finalize_refuted : forall env args env' args',
  (exists p, run [CInitialize env args; CFinalize] = Ok p /\ process_exit p = Throw) /\
  (exists p, run [CInitialize env args; CFinalize; CInitialize env' args'] = Ok p /\ p_kokkos p = KDown /\ count is_started (p_log p) = 1).
Proof.
  intros. split; eexists; (split; [reflexivity|]); [reflexivity|]. unfold warn. cbn. destruct (should_print env'); auto.
Qed.
Print Assumptions C71_finalize_refuted.

(** The wrappers of the bindings hand over "--key=value" for every entry, in order ... *)
Lemma julia_loop : forall l pre acc, ofold (fun args k => let i := 2 * k in do key <- raw_get (pre ++ flat_map (fun kv => [fst kv; snd kv]) l) i;
    do val <- raw_get (pre ++ flat_map (fun kv => [fst kv; snd kv]) l) (i + 1); Ok (args ++ [[45; 45] ++ key ++ [61] ++ val])) (seq (length pre / 2) (length l)) acc
  = Ok (acc ++ map (fun kv => option_arg (fst kv) (snd kv)) l) \/ Nat.odd (length pre) = true.
Proof.
  induction l as [|(k, v) l IH]; intros pre acc; [left; cbn; rewrite app_nil_r; reflexivity|]. destruct (Nat.odd (length pre)) eqn:O; [right; reflexivity|]. left.
  assert (EV : exists n, length pre = 2 * n) by (apply Nat.even_spec; rewrite <- Nat.negb_odd, O; reflexivity). destruct EV as (n & En).
  cbn [length seq ofold flat_map fst snd app]. rewrite En. replace (2 * n / 2) with n by (rewrite Nat.mul_comm, Nat.div_mul; lia). unfold raw_get at 1 2. rewrite !nth_error_app2 by lia. rewrite En, Nat.sub_diag. replace (2 * n + 1 - 2 * n) with 1 by lia. cbn [nth_error obind].
  destruct (IH (pre ++ [k; v]) (acc ++ [option_arg k v])) as [H|H].
  - rewrite app_length, En in H. cbn [length] in H. replace ((2 * n + 2) / 2) with (S n) in H by (replace (2 * n + 2) with (S n * 2) by lia; rewrite Nat.div_mul; lia).
    rewrite <- app_assoc in H. cbn [app] in H. cbn [map fst snd]. rewrite <- app_assoc in H. exact H.
  - rewrite app_length, En in H. replace (2 * n + length [k; v]) with (2 * (n + 1)) in H by (cbn; lia). rewrite Nat.odd_mul in H. discriminate.
Qed.
Theorem C71_bindings_partial : forall opts,
  python_args opts = map (fun kv => option_arg (fst kv) (snd kv)) opts /\
  julia_args (flat_map (fun kv => [fst kv; snd kv]) opts) = Ok (map (fun kv => option_arg (fst kv) (snd kv)) opts).
Proof.
  intros opts. split; [reflexivity|]. unfold julia_args. assert (L : length (flat_map (fun kv : list nat * list nat => [fst kv; snd kv]) opts) = 2 * length opts) by (induction opts as [|kv l IH]; auto; cbn [flat_map app length]; rewrite IH; lia).
  rewrite L. replace ((2 * length opts + 1) / 2) with (length opts) by (apply (Nat.div_unique _ _ _ 1); lia). destruct (julia_loop opts [] []) as [H|H]; [exact H|discriminate].
Qed.
Print Assumptions C71_bindings_partial.
(** ... but an odd number of strings makes the Julia wrapper read past the end. *)
Theorem C71_bindings_refuted : forall opts last, julia_args (flat_map (fun kv => [fst kv; snd kv]) opts ++ [last]) = UB.
Proof.
  intros opts last. unfold julia_args. assert (L : length (flat_map (fun kv : list nat * list nat => [fst kv; snd kv]) opts ++ [last]) = 2 * length opts + 1)
    by (rewrite app_length; cbn [length]; f_equal; induction opts as [|kv l IH]; auto; cbn [flat_map app length]; rewrite IH; lia).
  set (o := flat_map _ opts ++ [last]) in *. clearbody o. rewrite L. replace ((2 * length opts + 1 + 1) / 2) with (length opts + 1) by (apply (Nat.div_unique _ _ _ 0); lia).
  rewrite seq_app. cbn [seq Nat.add].
  assert (G : forall (f : list (list nat) -> nat -> outcome (list (list nat))) l1 l2 s, ofold f (l1 ++ l2) s = do s <- ofold f l1 s; ofold f l2 s).
  { intros f l1. induction l1 as [|a l1 IH]; intros l2 s; cbn; auto. destruct (f s a); cbn; auto. }
  assert (N : forall i, i < length o -> exists x, raw_get o i = Ok x) by (intros i Hi; unfold raw_get; destruct (nth_error o i) as [x|] eqn:E; [eauto|apply nth_error_None in E; lia]).
  rewrite G. match goal with |- obind ?e _ = _ => assert (exists r, e = Ok r) as (r & ->) end.
  { match goal with |- exists r, ofold ?f _ _ = _ => set (body := f) end. generalize (@nil (list nat)). assert (B : forall k, In k (seq 0 (length opts)) -> 2 * k + 1 < length o) by (intros k Hk; apply in_seq in Hk; lia). revert B. generalize (seq 0 (length opts)). intros ks B. induction ks as [|k ks IH]; intros acc; [eexists; reflexivity|].
    assert (Bk := B k (or_introl eq_refl)). cbn [ofold]. destruct (N (2 * k)) as (x & Ex); [lia|]. destruct (N (2 * k + 1)) as (y & Ey); [lia|].
    unfold body at 1. cbv zeta. rewrite Ex. cbn [obind]. rewrite Ey. cbn [obind]. apply IH. intros k' Hk'. apply B. right. exact Hk'. }
  cbn [obind ofold]. cbv zeta. destruct (N (2 * length opts)) as (x & Ex); [lia|]. rewrite Ex. cbn [obind]. unfold raw_get. replace (nth_error o (2 * length opts + 1)) with (@None (list nat)); [reflexivity|].
  symmetry. apply nth_error_None. lia.
Qed.
Print Assumptions C71_bindings_refuted.

(** Examples: three calls, the second with the variable set to "Off". *)
Example C71_example : exists p, run [CInitialize None [[49]]; CInitialize (Some [79; 102; 102]) [[50]]; CInitialize (Some [111; 110]) [[51]]] = Ok p /\ p_log p = [Started [[49]]; Warned] /\
  says_off (Some [79; 102; 102]) /\ ~ says_off (Some [111; 110]).
Proof.
  eexists. split; [reflexivity|]. split; [reflexivity|]. split; [apply should_print_iff; reflexivity|]. intros H. apply should_print_iff in H. discriminate H.
Qed.
Example C71_threads_example : exists p q pool', Initialize None [[49]] new_proc = Ok p /\
  run_threads [1; 0; 1; 0] (p, [calling None []; calling (Some [79; 70; 70]) []]) = Ok (q, pool') /\ Forall (fun t => t_pc t = Returned) pool' /\ p_log q = [Started [[49]]; Warned].
Proof. do 3 eexists. split; [reflexivity|]. split; [reflexivity|]. split; [repeat constructor|reflexivity]. Qed.
Example C71_bindings_example : julia_args [[107]; [49]; [108]; [50]] = Ok [[45; 45; 107; 61; 49]; [45; 45; 108; 61; 50]] /\ julia_args [[107]] = UB.
Proof. split; reflexivity. Qed.
(** The steps of a thread that runs alone are the call. *)
Lemma alone env args p : run_threads [0; 0; 0; 0] (p, [calling env args]) = do q <- Initialize env args p; Ok (q, [goto (calling env args) Returned]).
Proof.
  destruct p as (flag, k, n, log). unfold run_threads, Initialize, calling. cbn [ofold]. unfold sched_step, step. destruct flag; cbn; [unfold warn; cbn; destruct (should_print env); reflexivity|]. destruct k; reflexivity.
Qed.
