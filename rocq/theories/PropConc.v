(** C74: calls on one component from several threads. *)
From Coq Require Import Reals List Arith Lia Lra.
From Verif Require Import Base SpecMulti PolyModel PolyProofs BijModel ExpansionModel ExpansionProofs QuadModel QuadWalk RootModel MonoModel MonoProofs MonoComp SpecMono PropMono PropExpansion PropMonoRefute AdaptQuad ConcModel.
Import ListNotations.

(** A thread is preparing a call: between SetDim and the construction of the lambda. *)
Definition preparing (th : thread) (c : call) : Prop :=
  (exists rest, t_calls th = c :: rest) /\ match t_phase th with DimSet | SizeSet | SizeRead _ => True | _ => False end.
(** No two threads prepare calls with different dimensions at the same time. *)
Definition compatible (s : system) : Prop :=
  forall i j th th' c c', nth_error (snd s) i = Some th -> nth_error (snd s) j = Some th' -> preparing th c -> preparing th' c' -> c_dim c = c_dim c'.
(** ... at any time during the run. *)
Definition orderly (W : nat -> nat) (schedule : list nat) (s : system) : Prop := forall n, compatible (sys_run W (firstn n schedule) s).

Section Inv.
Variable W : nat -> nat.

Definition th_inv (q : qfields) (calls : list call) (th : thread) : Prop :=
  t_done th ++ map (alone W) (t_calls th) = map (alone W) calls /\
  match t_calls th with
  | [] => True
  | c :: _ => match t_phase th with
      | Idle => True
      | DimSet => q_dim q = c_dim c
      | SizeSet => q_dim q = c_dim c /\ q_size q = W (c_dim c)
      | SizeRead w => q_dim q = c_dim c /\ w = W (c_dim c)
      | Captured w d => d = c_dim c /\ w = W (c_dim c)
      end
  end.
Definition sys_inv (calls : list (list call)) (s : system) : Prop :=
  length (snd s) = length calls /\ forall i th l, nth_error (snd s) i = Some th -> nth_error calls i = Some l -> th_inv (fst s) l th.

Lemma start_inv q calls : sys_inv calls (sys_start q calls).
Proof.
  split; [apply map_length|]. intros i th l H1 H2. cbn [sys_start snd] in H1. rewrite nth_error_map, H2 in H1. injection H1 as <-. split; [reflexivity|].
  cbn [t_calls t_phase]. destruct l; exact I.
Qed.

Lemma nth_error_upd {A : Type} (l : list A) i j x : (i < length l)%nat -> nth_error (upd l i x) j = if (j =? i)%nat then Some x else nth_error l j.
Proof.
  intros H. destruct (Nat.eqb_spec j i) as [->|N]; [|apply nth_error_upd_neq; auto].
  revert i H. induction l as [|a l IH]; intros [|i] H; cbn in *; try lia; auto. apply IH. lia.
Qed.

Lemma step_inv calls s i : sys_inv calls s -> compatible (sys_step W s i) -> sys_inv calls (sys_step W s i).
Proof.
  intros (HL & HI) HC. unfold sys_step in *. destruct (nth_error (snd s) i) as [th|] eqn:Ei; [|split; auto].
  assert (Hi : (i < length (snd s))%nat) by (apply nth_error_Some; congruence).
  destruct (nth_error calls i) as [l|] eqn:El; [|apply nth_error_None in El; lia].
  destruct (HI i th l Ei El) as (HD & HP). unfold th_step in *. destruct (t_calls th) as [|c rest] eqn:EC; [split; auto|].
  destruct (t_phase th) eqn:EP; cbn [fst snd] in *; (split; [cbn [snd]; rewrite upd_length; exact HL|]); cbn [fst snd]; intros j th' l' Hj Hl'; rewrite nth_error_upd in Hj by auto;
    destruct (Nat.eqb_spec j i) as [->|N].
  - injection Hj as <-. rewrite El in Hl'. injection Hl' as <-. split; cbn [t_done t_calls t_phase q_dim]; auto.
  - destruct (HI j th' l' Hj Hl') as (A & B). split; [exact A|]. destruct (t_calls th') as [|c' r'] eqn:EC'; auto.
    assert (Q : forall x, t_phase th' = x -> match x with DimSet | SizeSet | SizeRead _ => True | _ => False end -> c_dim c = c_dim c').
    { intros x Ex Hx. apply (HC i j (MkTh (c :: rest) DimSet (t_done th)) th' c c'); cbn [snd].
      - rewrite nth_error_upd by auto. rewrite Nat.eqb_refl. reflexivity.
      - rewrite nth_error_upd by auto. destruct (Nat.eqb_spec j i); [contradiction|exact Hj].
      - split; [exists rest; reflexivity|exact I].
      - split; [eauto|]. rewrite Ex. exact Hx. }
    destruct (t_phase th'); auto; cbn [q_dim q_size]; [apply (Q DimSet)| |]; auto.
    + split; [apply (Q SizeSet); auto|apply B].
    + split; [apply (Q (SizeRead size)); auto|apply B].
  - injection Hj as <-. rewrite El in Hl'. injection Hl' as <-. split; cbn [t_done t_calls t_phase q_dim q_size]; auto.
  - destruct (HI j th' l' Hj Hl') as (A & B). split; [exact A|]. destruct (t_calls th') as [|c' r'] eqn:EC'; auto.
    destruct (t_phase th') eqn:EP'; auto; cbn [q_dim q_size]. destruct B as (B1 & B2). split; [exact B1|]. f_equal.
    apply (HC i j (MkTh (c :: rest) SizeSet (t_done th)) th' c c'); cbn [snd].
    + rewrite nth_error_upd by auto. rewrite Nat.eqb_refl. reflexivity.
    + rewrite nth_error_upd by auto. destruct (Nat.eqb_spec j i); [contradiction|exact Hj].
    + split; [exists rest; reflexivity|exact I].
    + split; [eauto|]. rewrite EP'. exact I.
  - injection Hj as <-. rewrite El in Hl'. injection Hl' as <-. destruct HP. split; cbn [t_done t_calls t_phase q_dim q_size]; auto.
  - apply (HI j th' l' Hj Hl').
  - injection Hj as <-. rewrite El in Hl'. injection Hl' as <-. destruct HP. split; cbn [t_done t_calls t_phase q_dim q_size]; auto.
  - apply (HI j th' l' Hj Hl').
  - injection Hj as <-. rewrite El in Hl'. injection Hl' as <-. destruct HP as (-> & ->). split; cbn [t_done t_calls t_phase q_dim q_size].
    + rewrite <- HD. cbn [map]. rewrite <- app_assoc. reflexivity.
    + destruct rest; auto.
  - apply (HI j th' l' Hj Hl').
Qed.

Lemma run_app a b s : sys_run W (a ++ b) s = sys_run W b (sys_run W a s).
Proof. apply fold_left_app. Qed.

Lemma run_inv calls s : sys_inv calls s -> forall sch, orderly W sch s -> sys_inv calls (sys_run W sch s).
Proof.
  intros H0 sch. induction sch as [|i sch IH] using rev_ind; intros HO; [exact H0|].
  rewrite run_app. cbn [sys_run fold_left]. apply step_inv.
  - apply IH. intros n. specialize (HO (Nat.min n (length sch))). rewrite firstn_app in HO.
    replace (Nat.min n (length sch) - length sch)%nat with O in HO by lia. cbn [firstn] in HO. rewrite app_nil_r in HO.
    replace (firstn n sch) with (firstn (Nat.min n (length sch)) sch); [exact HO|]. destruct (Nat.le_ge_cases n (length sch)); [rewrite Nat.min_l by auto; reflexivity|].
    rewrite Nat.min_r, !firstn_all2 by lia. reflexivity.
  - specialize (HO (length (sch ++ [i]))). rewrite firstn_all, run_app in HO. exact HO.
Qed.
End Inv.

(** Whatever the threads, calls, earlier contents of quad_ and order of the steps: if calls of different
    dimensions are not prepared at the same time (their parallel loops may overlap), then every thread has obtained
    the results its calls give alone, in order. *)
Theorem C74_orderly : forall (W : nat -> nat) (q : qfields) (calls : list (list call)) (schedule : list nat) (i : nat) (th : thread) (l : list call),
  orderly W schedule (sys_start q calls) ->
  nth_error (snd (sys_run W schedule (sys_start q calls))) i = Some th -> nth_error calls i = Some l ->
  t_done th = firstn (length (t_done th)) (map (alone W) l).
Proof.
  intros W q calls sch i th l HO H1 H2. destruct (run_inv W calls _ (start_inv W q calls) sch HO) as (_ & HI).
  destruct (HI i th l H1 H2) as (E & _). rewrite <- E, firstn_app, Nat.sub_diag, firstn_all. cbn [firstn]. rewrite app_nil_r. reflexivity.
Qed.
Print Assumptions C74_orderly.

(** Every call of every thread returns: whatever the order, once thread i has had five steps per call. *)
Definition work_left (th : thread) : nat :=
  5 * length (t_calls th) - match t_calls th with [] => 0 | _ => match t_phase th with Idle => 0 | DimSet => 1 | SizeSet => 2 | SizeRead _ => 3 | Captured _ _ => 4 end end.

Lemma step_nth W s i j : nth_error (snd (sys_step W s i)) j =
  match nth_error (snd s) j with Some th => Some (if (j =? i)%nat then match th_step W (fst s) th with Some (_, th') => th' | None => th end else th) | None => None end.
Proof.
  unfold sys_step. destruct (nth_error (snd s) i) as [th|] eqn:Ei.
  - assert (Hi : (i < length (snd s))%nat) by (apply nth_error_Some; congruence). destruct (th_step W (fst s) th) as [(q, th')|] eqn:Es.
    + cbn [snd]. rewrite nth_error_upd by auto. destruct (Nat.eqb_spec j i) as [->|N]; [rewrite Ei, Es; reflexivity|]. destruct (nth_error (snd s) j); reflexivity.
    + destruct (nth_error (snd s) j) as [t|] eqn:Ej; auto. destruct (Nat.eqb_spec j i) as [->|N]; auto. rewrite Ei in Ej. injection Ej as <-. rewrite Es. reflexivity.
  - destruct (nth_error (snd s) j) as [t|] eqn:Ej; auto. destruct (Nat.eqb_spec j i) as [->|N]; auto. congruence.
Qed.
Lemma step_work W q th : work_left (match th_step W q th with Some (_, th') => th' | None => th end) = (work_left th - 1)%nat.
Proof.
  unfold th_step, work_left. destruct (t_calls th) as [|c rest] eqn:EC; [rewrite EC; reflexivity|]. destruct (t_phase th); cbn [t_calls t_phase length]; try lia. destruct rest; cbn [length]; lia.
Qed.
Lemma run_work W : forall sch s i th, nth_error (snd s) i = Some th -> exists th', nth_error (snd (sys_run W sch s)) i = Some th' /\ work_left th' = (work_left th - count_occ Nat.eq_dec sch i)%nat.
Proof.
  induction sch as [|k sch IH]; intros s i th H; [exists th; cbn; split; [auto|lia]|]. cbn [sys_run fold_left]. fold (sys_run W sch (sys_step W s k)).
  pose proof (step_nth W s k i) as E. rewrite H in E. destruct (IH _ _ _ E) as (th' & E1 & E2). exists th'. split; [exact E1|]. rewrite E2. cbn [count_occ].
  destruct (Nat.eqb_spec i k) as [->|N]; destruct (Nat.eq_dec k _) as [e|e]; try congruence; try lia. rewrite step_work. lia.
Qed.
Theorem C74_returns : forall (W : nat -> nat) (q : qfields) (calls : list (list call)) (schedule : list nat) (i : nat) (l : list call),
  orderly W schedule (sys_start q calls) -> nth_error calls i = Some l -> (5 * length l <= count_occ Nat.eq_dec schedule i)%nat ->
  exists th, nth_error (snd (sys_run W schedule (sys_start q calls))) i = Some th /\ t_calls th = [] /\ t_done th = map (alone W) l.
Proof.
  intros W q calls sch i l HO Hl Hc. destruct (run_work W sch (sys_start q calls) i (MkTh l Idle [])) as (th & E & Ew).
  { cbn [sys_start snd]. rewrite nth_error_map, Hl. reflexivity. }
  exists th. split; [exact E|]. assert (Z : work_left th = O). { rewrite Ew. unfold work_left. cbn [t_calls t_phase]. destruct l; cbn [length] in *; lia. }
  assert (Ec : t_calls th = []). { unfold work_left in Z. destruct (t_calls th) as [|c r]; auto. cbn [length] in Z. destruct (t_phase th); lia. }
  split; [exact Ec|]. destruct (run_inv W calls _ (start_inv W q calls) sch HO) as (_ & HI). destruct (HI i th l E Hl) as (D & _). rewrite Ec in D. cbn [map] in D. rewrite app_nil_r in D. exact D.
Qed.
Print Assumptions C74_returns.

(** Two cases in which every order of steps is orderly: all calls have one dimension; there is one thread. *)
Lemma calls_kept W q calls sch : forall i th, nth_error (snd (sys_run W sch (sys_start q calls))) i = Some th -> exists l, nth_error calls i = Some l /\ incl (t_calls th) l.
Proof.
  induction sch as [|k sch IH] using rev_ind; intros i th H.
  - cbn in H. rewrite nth_error_map in H. destruct (nth_error calls i) as [l|]; [|discriminate]. injection H as <-. exists l. split; [auto|apply incl_refl].
  - rewrite run_app in H. cbn [sys_run fold_left] in H. fold (sys_run W sch (sys_start q calls)) in H. rewrite step_nth in H. destruct (nth_error (snd (sys_run W sch (sys_start q calls))) i) as [t|] eqn:E; [|discriminate].
    destruct (IH i t E) as (l & El & Hl). exists l. split; [auto|]. injection H as <-. destruct (i =? k)%nat; auto. unfold th_step. destruct (t_calls t) as [|c r] eqn:Ec; [rewrite Ec; auto|].
    destruct (t_phase t); cbn [t_calls]; auto. intros x Hx. apply Hl. right. exact Hx.
Qed.
Theorem C74_same_dimension : forall (W : nat -> nat) (n : nat) (q : qfields) (calls : list (list call)) (schedule : list nat),
  (forall l c, In l calls -> In c l -> c_dim c = n) -> orderly W schedule (sys_start q calls).
Proof.
  intros W n q calls sch H k i j th th' c c' H1 H2 ((r & P1) & _) ((r' & P2) & _).
  assert (K : forall i th c r, nth_error (snd (sys_run W (firstn k sch) (sys_start q calls))) i = Some th -> t_calls th = c :: r -> c_dim c = n).
  { intros a t x s A B. destruct (calls_kept W q calls _ a t A) as (l & El & Hl). apply (H l x); [eapply nth_error_In; eauto|]. apply Hl. rewrite B. left. reflexivity. }
  rewrite (K i th c r), (K j th' c' r'); auto.
Qed.
Print Assumptions C74_same_dimension.
Theorem C74_one_thread : forall (W : nat -> nat) (q : qfields) (l : list call) (schedule : list nat), orderly W schedule (sys_start q [l]).
Proof.
  intros W q l sch k i j th th' c c' H1 H2 ((r & P1) & _) ((r' & P2) & _).
  assert (K : forall i th, nth_error (snd (sys_run W (firstn k sch) (sys_start q [l]))) i = Some th -> i = O).
  { intros a t A. destruct (calls_kept W q [l] _ a t A) as (x & Ex & _). destruct a; auto. destruct a; discriminate Ex. }
  rewrite (K i th H1) in H1. rewrite (K j th' H2) in H2. congruence.
Qed.
Print Assumptions C74_one_thread.

(** ** The calls of a component *)
(** Alone, the calls are the routines of MonoModel with a workspace of the size the rule asks for. *)
Theorem C74_calls_alone : forall (C : component) (S : scratch) (junk : nat -> R), let W := qr_work (mc_Q C) in
  (forall pt c, alone W (call_Evaluate C S junk pt c) = (do v <- mc_Evaluate C (with_ws S junk (W 1)) pt c; Ok [Some v])) /\
  (forall x1 y c xt yt, alone W (call_Inverse C S junk x1 y c xt yt) = (do r <- mc_Inverse C (with_ws S junk (W 1)) x1 y c xt yt; Ok [fst r])) /\
  (forall pt c, alone W (call_DiscreteDerivative C S junk pt c) = (do r <- mc_DiscreteDerivative C (with_ws S junk (W 2)) pt c; Ok [Some (fst r); Some (snd r)])) /\
  (forall pt c jac, length c = w_NumCoeffs (mc_w C) -> let S' := with_ws S junk (W (length c + 1)) in
     alone W (call_CoeffJacobian C S junk pt c jac) = (do r <- mc_CoeffJacobian C S' pt c jac; Ok (Some (fst r) :: map Some (snd r))) /\
     alone W (call_DiscreteMixedJacobian C S junk pt c jac) = (do r <- mc_DiscreteMixedJacobian C S' pt c jac; Ok (map Some r))) /\
  (forall pt c jac, length pt = wdim (mc_w C) ->
     alone W (call_InputJacobian C S junk pt c jac) = (do r <- mc_InputJacobian C (with_ws S junk (W (length pt + 1))) pt c jac; Ok (Some (fst r) :: map Some (snd r)))).
Proof.
  intros C S junk W.
  assert (K : forall T cache pt c t fd, mi_size (mc_w C) (length pt) t = fd -> mi_run (captured C fd) T cache pt c t = mi_run C T cache pt c t).
  { intros T cache pt c t fd E. unfold mi_run, mi_integrate. cbn [captured mc_w mc_G mc_Q mc_cont mc_nugget qr_int]. rewrite <- E. reflexivity. }
  assert (KE : forall T cache pt x c g, mc_EvaluateSingle (captured C 1) T cache pt x c g = mc_EvaluateSingle C T cache pt x c g) by reflexivity.
  split; [|split; [|split; [|split]]].
  - reflexivity.
  - intros x1 y c xt yt. unfold alone, call_Inverse. cbn [c_dim c_kernel]. reflexivity.
  - intros pt c. unfold alone, call_DiscreteDerivative. cbn [c_dim c_kernel]. unfold mc_DiscreteDerivative. change (mc_w (captured C 2)) with (mc_w C).
    destruct (w_FillCache1 (mc_w C) _ _ _) as [k| | |]; [|reflexivity|reflexivity|reflexivity]. cbn [obind]. rewrite (K _ _ _ _ DDiagonal 2 eq_refl). reflexivity.
  - intros pt c jac Lc S'. assert (E : mi_size (mc_w C) (length pt) DParameters = (length c + 1)%nat) by (cbn [mi_size]; lia).
    assert (E' : mi_size (mc_w C) (length pt) DMixed = (length c + 1)%nat) by (cbn [mi_size]; lia).
    unfold alone, call_CoeffJacobian, call_DiscreteMixedJacobian. cbn [c_dim c_kernel]. unfold mc_CoeffJacobian, mc_DiscreteMixedJacobian. change (mc_w (captured C (length c + 1))) with (mc_w C). unfold S'.
    split; (destruct (w_FillCache1 (mc_w C) _ _ _) as [k| | |]; [|reflexivity|reflexivity|reflexivity]); cbn [obind]; [rewrite (K _ _ _ _ _ _ E)|rewrite (K _ _ _ _ _ _ E')]; reflexivity.
  - intros pt c jac Lp. assert (E : mi_size (mc_w C) (length pt) DInput = (length pt + 1)%nat) by (cbn [mi_size]; lia).
    unfold alone, call_InputJacobian. cbn [c_dim c_kernel]. rewrite <- Lp. unfold mc_InputJacobian. change (mc_w (captured C (length pt + 1))) with (mc_w C).
    destruct (w_FillCache1 (mc_w C) _ _ _) as [k| | |]; [|reflexivity|reflexivity|reflexivity]. cbn [obind]. rewrite (K _ _ _ _ _ _ E). reflexivity.
Qed.
Print Assumptions C74_calls_alone.

(** Any number of threads calling Evaluate and Inverse of one component any number of times, whatever was called
    before: in every order of the steps, the results are those of the routines alone. *)
Lemma ext_nth {A : Type} : forall l l' : list A, (forall i, nth_error l i = nth_error l' i) -> l = l'.
Proof.
  induction l as [|a l IH]; intros [|b l'] H; auto; try (specialize (H O); discriminate). f_equal; [specialize (H O); cbn in H; congruence|]. apply IH. intros i. apply (H (S i)).
Qed.
Inductive simple_call (C : component) (S : scratch) (junk : nat -> R) : call -> result -> Prop :=
| simple_evaluate pt c : simple_call C S junk (call_Evaluate C S junk pt c) (do v <- mc_Evaluate C (with_ws S junk (qr_work (mc_Q C) 1)) pt c; Ok [Some v])
| simple_inverse x1 y c xt yt : simple_call C S junk (call_Inverse C S junk x1 y c xt yt) (do r <- mc_Inverse C (with_ws S junk (qr_work (mc_Q C) 1)) x1 y c xt yt; Ok [fst r]).
Theorem C74_evaluate_inverse : forall (C : component) (S : scratch) (junk : nat -> R) (q : qfields) (calls : list (list call)) (results : list (list result)) (schedule : list nat),
  Forall2 (Forall2 (simple_call C S junk)) calls results ->
  (forall i l, nth_error calls i = Some l -> (5 * length l <= count_occ Nat.eq_dec schedule i)%nat) ->
  map t_done (snd (sys_run (qr_work (mc_Q C)) schedule (sys_start q calls))) = results.
Proof.
  intros C S junk q calls results sch HS Hc. pose proof (C74_calls_alone C S junk) as (A1 & A2 & _).
  assert (HA : forall c r, simple_call C S junk c r -> c_dim c = 1%nat /\ alone (qr_work (mc_Q C)) c = r) by (intros c r []; split; auto).
  assert (HM : map (map (alone (qr_work (mc_Q C)))) calls = results).
  { clear Hc. induction HS as [|l r calls results HF _ IH]; auto. cbn [map]. f_equal; auto.
    induction HF as [|c x l r Hx _ IHl]; auto. cbn [map]. f_equal; [apply HA, Hx|exact IHl]. }
  assert (HD : forall l c, In l calls -> In c l -> c_dim c = 1%nat).
  { intros l c Hl Hx. clear Hc HM. induction HS as [|l' r calls results HF _ IH]; [contradiction|]. destruct Hl as [<-|Hl]; [|auto].
    clear IH. induction HF as [|c' x l r Hx' _ IHl]; [contradiction|]. destruct Hx as [<-|Hx]; [eapply HA; eauto|auto]. }
  pose proof (C74_same_dimension (qr_work (mc_Q C)) 1 q calls sch HD) as HO.
  destruct (run_inv _ calls _ (start_inv _ q calls) sch HO) as (HL & _). rewrite <- HM. apply ext_nth. intros i. rewrite !nth_error_map.
  destruct (nth_error calls i) as [l|] eqn:El.
  - destruct (C74_returns _ q calls sch i l HO El (Hc i l El)) as (th & E1 & _ & E2). rewrite E1. cbn [option_map]. rewrite E2. reflexivity.
  - apply nth_error_None in El. rewrite <- HL in El. apply nth_error_None in El. rewrite El. reflexivity.
Qed.
Print Assumptions C74_evaluate_inverse.

(** ** Calls of different dimensions *)
Definition a_rule (Q : quad_rule) : Prop :=
  (exists pts wts, Q = qr_clenshaw pts wts) \/ (exists q fuel, Q = qr_simpson q fuel) \/ (exists q level fuel, Q = qr_adaptive_cc q level fuel).

Lemma wide_zero k : (2 <= k)%nat -> ofold (fun res j => raw_set res j 0%R) (seq 0 k) [0%R] = UB.
Proof. intros H. destruct k as [|[|k]]; try lia. reflexivity. Qed.
Lemma not_short : Rltb (1 - 0) midpoint_tol = false.
Proof. destruct (Rltb_spec (1 - 0) midpoint_tol); auto. unfold midpoint_tol in *. exfalso. lra. Qed.
Lemma too_wide Q k ws f r : a_rule Q -> qr_int Q 1 ws f 0 1 [0%R] = Ok r -> (2 <= k)%nat -> qr_int Q k ws f 0 1 [0%R] = UB.
Proof.
  intros [(pts & wts & ->)|[(q & fuel & ->)|(q & lev & fuel & ->)]] E H; cbn [qr_clenshaw qr_simpson qr_adaptive_cc qr_int] in *.
  - unfold cc_Integrate. rewrite not_short, wide_zero by auto. reflexivity.
  - unfold as_Integrate. cbn [set_dim q_fdim]. rewrite wide_zero by auto. reflexivity.
  - destruct (ac_make lev) as [rl| | |]; try discriminate E. cbn [obind]. unfold ac_Integrate. cbn [set_dim q_fdim]. rewrite wide_zero by auto. reflexivity.
Qed.

(** The steps of two threads with one call each: the second writes fdim_ between the first's reading of the
    workspace size and its copy of quad_. *)
Lemma cut_in W q c1 c2 : exists th, nth_error (snd (sys_run W [0; 0; 0; 1; 0; 0]%nat (sys_start q [[c1]; [c2]]))) 0 = Some th /\ t_done th = [c_kernel c1 (c_dim c2) (W (c_dim c1))].
Proof. eexists. split; reflexivity. Qed.

(** Evaluate together with any call of dimension two or more (a derivative or a Jacobian), for every component, rule, point and
    coefficients for which Evaluate alone returns: an order of the steps in which Evaluate writes past the end of its result. *)
Theorem C74_mixed_refuted : forall (C : component) (S : scratch) (junk : nat -> R) (pt c : list R) (v : R) (other : call) (q : qfields), let W := qr_work (mc_Q C) in
  a_rule (mc_Q C) -> mc_Evaluate C (with_ws S junk (W 1%nat)) pt c = Ok v -> (2 <= c_dim other)%nat ->
  exists schedule th, nth_error (snd (sys_run W schedule (sys_start q [[call_Evaluate C S junk pt c]; [other]]))) 0 = Some th /\ t_done th = [UB].
Proof.
  intros C S junk pt c v other q W HQ HE HO. exists [0; 0; 0; 1; 0; 0]%nat. destruct (cut_in W q (call_Evaluate C S junk pt c) other) as (th & E & D). exists th. split; [exact E|]. rewrite D. f_equal.
  cbn [call_Evaluate c_dim c_kernel]. unfold mc_Evaluate in *. change (mc_w (captured C (c_dim other))) with (mc_w C).
  destruct (w_FillCache1 (mc_w C) _ _ _) as [k| | |]; try discriminate HE. cbn [obind] in *. destruct (raw_get pt _) as [x| | |]; try discriminate HE. cbn [obind] in *.
  unfold mc_EvaluateSingle, mi_integrate in *. cbn [captured mc_w mc_G mc_Q qr_int] in *.
  destruct (mi_calls _ _ _ _ _ _ _ _ _ _) as [st| | |]; try discriminate HE. cbn [obind] in *.
  match type of HE with context [qr_int (mc_Q C) ?n ?ws ?f 0 1 ?res] => destruct (qr_int (mc_Q C) n ws f 0 1 res) as [r| | |] eqn:EQ end; try discriminate HE.
  cbn [mi_size] in EQ. rewrite (too_wide _ _ _ _ _ HQ EQ HO). reflexivity.
Qed.
Print Assumptions C74_mixed_refuted.

Lemma narrow pts wts ws f r0 g e d : cc_Integrate pts wts 2 ws f 0 1 [r0; g] = Ok [e; d] -> cc_Integrate pts wts 1 ws f 0 1 [r0; g] = Ok [e; g].
Proof.
  unfold cc_Integrate. rewrite not_short. cbn [seq ofold]. change (raw_set [r0; g] 0 0%R) with (Ok [0%R; g]). cbn [obind]. change (raw_set [0%R; g] 1 0%R) with (Ok [0%R; 0%R]). cbn [obind].
  assert (K : forall l w a b w' e' d',
    ofold (fun (r : list R * list R) i => do p <- raw_get pts i; do ws <- store (fst r) 0 (f (1/2 * (1 + 0 + (1 - 0) * p))%R);
        do res <- (do s' <- (do v <- raw_get (snd r) 0; do w <- raw_get wts i; do fv <- raw_get ws 0; raw_set (snd r) 0 (v + 1/2 * (1 - 0) * w * fv)%R);
                   do s' <- (do v <- raw_get s' 1; do w <- raw_get wts i; do fv <- raw_get ws 1; raw_set s' 1 (v + 1/2 * (1 - 0) * w * fv)%R); Ok s');
        Ok (ws, res)) l (w, [a; b]) = Ok (w', [e'; d']) ->
    ofold (fun (r : list R * list R) i => do p <- raw_get pts i; do ws <- store (fst r) 0 (f (1/2 * (1 + 0 + (1 - 0) * p))%R);
        do res <- (do s' <- (do v <- raw_get (snd r) 0; do w <- raw_get wts i; do fv <- raw_get ws 0; raw_set (snd r) 0 (v + 1/2 * (1 - 0) * w * fv)%R); Ok s');
        Ok (ws, res)) l (w, [a; g]) = Ok (w', [e'; g])).
  { induction l as [|i l IH]; intros w a b w' e' d'; cbn [ofold]; [intros H; injection H as <- <- <-; reflexivity|]. cbn [fst snd].
    destruct (raw_get pts i) as [p| | |]; try discriminate. cbn [obind]. destruct (store w 0 _) as [w1| | |]; try discriminate. cbn [obind].
    change (raw_get [a; b] 0) with (Ok a). change (raw_get [a; g] 0) with (Ok a). cbn [obind]. destruct (raw_get wts i) as [wi| | |]; try discriminate. cbn [obind].
    destruct (raw_get w1 0) as [f0| | |]; try discriminate. cbn [obind].
    match goal with |- context [raw_set [a; b] 0 ?x] => change (raw_set [a; b] 0 x) with (Ok [x; b]); change (raw_set [a; g] 0 x) with (Ok [x; g]) end. cbn [obind].
    match goal with |- context [raw_get [?x; b] 1] => change (raw_get [x; b] 1) with (Ok b) end. cbn [obind].
    destruct (raw_get w1 1) as [f1| | |]; try discriminate. cbn [obind].
    match goal with |- context [raw_set [?x; b] 1 ?y] => change (raw_set [x; b] 1 y) with (Ok [x; y]) end. cbn [obind]. apply IH. }
  match goal with |- (do r <- ?o; Ok (snd r)) = _ -> _ => destruct o as [(w', res)| | |] eqn:E end; try discriminate. cbn [obind snd]. intros H. injection H as ->.
  apply K in E. rewrite E. reflexivity.
Qed.

(** DiscreteDerivative together with Evaluate or Inverse: for every number g that may be in the uninitialised scratch memory, an order of
    the steps in which g is returned as the derivative (and the evaluation is right). *)
Theorem C74_garbage_refuted : forall (C : component) (S : scratch) (junk : nat -> R) (pt c pts wts : list R) (e d r0 g : R) (other : call) (q : qfields),
  mc_Q C = qr_clenshaw pts wts -> sc_res S = [r0; g] -> mc_DiscreteDerivative C (with_ws S junk 2) pt c = Ok (e, d) -> c_dim other = 1%nat ->
  exists schedule th, nth_error (snd (sys_run (fun n => n) schedule (sys_start q [[call_DiscreteDerivative C S junk pt c]; [other]]))) 0 = Some th /\
    t_done th = [Ok [Some e; Some g]].
Proof.
  intros C S junk pt c pts wts e d r0 g other q HQ HR HE HO. exists [0; 0; 0; 1; 0; 0]%nat. destruct (cut_in (fun n => n) q (call_DiscreteDerivative C S junk pt c) other) as (th & E & D).
  exists th. split; [exact E|]. rewrite D. f_equal. cbn [call_DiscreteDerivative c_dim c_kernel]. rewrite HO.
  unfold mc_DiscreteDerivative in *. change (mc_w (captured C 1)) with (mc_w C).
  destruct (w_FillCache1 (mc_w C) _ _ _) as [k| | |]; try discriminate HE. cbn [obind] in *.
  unfold mi_run in *. destruct (raw_get pt _) as [x| | |]; try discriminate HE. cbn [obind] in *.
  unfold mi_integrate in *. cbn [captured mc_w mc_G mc_Q mc_nugget qr_int] in *. destruct (mi_calls _ _ _ _ _ _ _ _ _ _) as [st| | |]; try discriminate HE. cbn [obind] in *.
  rewrite HQ in *. cbn [qr_clenshaw qr_int mi_size with_ws sc_res sc_ws sc_work sc_nodes sc_cache] in *. rewrite HR in *.
  match type of HE with context [cc_Integrate pts wts 2 ?ws ?f 0 1 ?res] => destruct (cc_Integrate pts wts 2 ws f 0 1 res) as [r| | |] eqn:EQ end; try discriminate HE. cbn [obind fst snd] in HE.
  assert (ER : exists a b, r = [a; b]). { destruct (kept_cc _ _ _ _ _ _ _ _ _ tol1 EQ) as (LR & _). cbn [length] in LR. destruct r as [|a [|b [|]]]; try discriminate LR. eauto. }
  destruct ER as (a & b & ->). rewrite (narrow _ _ _ _ _ _ _ _ EQ). cbn [obind fst snd] in *.
  change (raw_get [a; b] 0) with (Ok a) in HE. change (raw_get [a; b] 1) with (Ok b) in HE. change (raw_get [a; g] 0) with (Ok a). change (raw_get [a; g] 1) with (Ok g). cbn [obind] in *.
  destruct (w_FillCache2 _ _ _ _) as [k2| | |]; try discriminate HE. cbn [obind] in *. destruct (w_Evaluate _ _ _) as [v| | |]; try discriminate HE. cbn [obind fst snd] in *. injection HE as <- _. reflexivity.
Qed.
Print Assumptions C74_garbage_refuted.

(** A component in two variables, with a scratch memory holding 7 in the second entry of the result, meets the hypotheses of the two
    refutations at every point and for all nine coefficients: alone, both calls return. *)
Example C74_example : exists (C : component) (S : scratch) (pts wts : list R), mc_Q C = qr_clenshaw pts wts /\ a_rule (mc_Q C) /\ sc_res S = [0; 7]%R /\
  forall (junk : nat -> R) (pt c : list R), length pt = 2%nat -> length c = 9%nat ->
    (exists v, mc_Evaluate C (with_ws S junk 1) pt c = Ok v) /\ (exists e d, mc_DiscreteDerivative C (with_ws S junk 2) pt c = Ok (e, d)).
Proof.
  destruct mono_example as (v & dv & d2 & w & wts & pts & S0 & HE & _ & HG & _ & LW & HS & (LC & _) & _ & HT & _).
  exists (MkMC w pf_softplus (qr_clenshaw pts wts) false 0), (MkScr (sc_cache S0) [] [0; 7]%R [] []), pts, wts. split; [reflexivity|]. split; [unfold a_rule; left; exists pts, wts; reflexivity|]. split; [reflexivity|].
  intros junk pt c Lp Lc. split.
  - eexists. apply (C35_evaluate 2 3 ex_alphas v dv d2 (MkMC w pf_softplus (qr_clenshaw pts wts) false 0) _ pt c pts wts); auto. split; [exact LC|]. cbn. lia.
  - destruct (C35_discrete_derivative_partial 2 3 ex_alphas v dv d2 (MkMC w pf_softplus (qr_clenshaw pts wts) false 0) (with_ws (MkScr (sc_cache S0) [] [0; 7]%R [] []) junk 2) pt c pts wts) as (D & E & _); auto.
    + split; [exact LC|]. cbn. lia.
    + eauto.
Qed.
