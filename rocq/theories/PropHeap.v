(** * Coefficient storage over all histories (C44-C46)
    A history is a list of calls: the caller allocates and writes arrays, creates maps (a [leaf]
    reads its own coefficients; a [box] is a triangular or composed map; a summarised map passes
    its vector on), and calls SetCoeffs or WrapCoeffs. [reaches] follows a history; exceptions are
    caught and the program goes on. [A] is the type of coefficient values. *)
From Verif Require Import Base HeapModel HeapProofs HeapInv HeapTree HeapOwn.

Section Heap.
Context {A : Type} (zero : A) (dbg : bool).
Notation state := (state A).
Implicit Types s : state.

(** ** C44 *)
(** After every history, an evaluation that is not refused runs with exactly numCoeffs entries, for
    the map itself and for every component whose coefficients are read. *)
Theorem C44_exact_size_partial : forall h s o, reaches zero dbg h s -> runs s o = true -> 0 < nc_of s o ->
  (exists c, Coeffs s o = Some c /\ length c = nc_of s o) /\
  forall l, In l (read_by s o) -> exists c, Coeffs s l = Some c /\ length c = nc_of s l.
Proof.
  intros h s o H R P. pose proof (reaches_inv zero dbg h s H) as (HS & HV & HC).
  assert (G : good s o). { unfold runs, check in R. destruct (Nat.eqb_spec (nc_of s o) 0); [lia|]. cbn [orb] in R. destruct (saved_of s o) as [w|] eqn:E; [|discriminate]. apply Nat.eqb_eq in R. exists w. auto. }
  assert (X : forall p, good s p -> exists c, Coeffs s p = Some c /\ length c = nc_of s p).
  { intros p (w & E & L). exists (contents s w). unfold Coeffs. rewrite E. split; auto. rewrite contents_length; auto. eapply HV; eauto. }
  split; [auto|]. intros l Hl. apply X. clear R P X. revert G l Hl. induction o as [o IH] using (well_founded_induction Wf_nat.lt_wf). intros G l Hl.
  destruct (list_eq_dec Nat.eq_dec (kids_of s o) []) as [E|N].
  - unfold read_by in Hl. cbn [leaves] in Hl. rewrite E in Hl. destruct Hl as [<-|[]]. auto.
  - rewrite read_by_box in Hl by auto. apply in_flat_map in Hl. destruct Hl as (k & Hk & Hl). apply (IH k); auto; [eapply kid_lt; eauto|eapply HC; eauto].
Qed.
(** A map without coefficients reads none. *)
Theorem C44_no_coefficients : forall h s o, reaches zero dbg h s -> nc_of s o = 0 -> runs s o = true /\ used s o = [].
Proof.
  intros h s o H Z. split; [unfold runs, check; rewrite Z; reflexivity|]. pose proof (reaches_inv zero dbg h s H) as (HS & _). apply used_zero; auto.
Qed.
(** No call goes wrong except the first SetCoeffs of a triangular or composed map with too few
    entries: it ends in a failed assertion (debug build) or undefined behaviour (release build). *)
Theorem C44_only_short_first_set : forall h s p, reaches zero dbg h s -> step zero dbg s p = Abort \/ step zero dbg s p = Undef ->
  exists o v, p = Set_ o v /\ Coeffs s o = None /\ kids_of s o <> [] /\ v_len v < nc_of s o /\ step zero dbg s p = if dbg then Abort else Undef.
Proof.
  intros h s p H E. pose proof (reaches_inv zero dbg h s H) as HI. pose proof HI as (HS & _). destruct p as [d|a i x|nc|kids mv|k|o v|o v].
  - cbn in E. destruct E; discriminate.
  - cbn in E. destruct (_ <? _); destruct E; discriminate.
  - cbn in E. destruct E; discriminate.
  - exfalso. destruct ((0 <? length kids) && forallb (fun k => k <? length (objs s)) kids) eqn:C; [|cbn in E; rewrite C in E; destruct E; discriminate].
    destruct mv; [|cbn in E; rewrite C in E; destruct E; discriminate]. apply andb_true_iff in C. destruct C as (C1 & C2). apply Nat.ltb_lt in C1. rewrite forallb_forall in C2.
    destruct (move_spec zero dbg s kids HI C1) as [Q|(s1 & s2 & Q & _)]; [intros k Hk; apply Nat.ltb_lt, C2; auto|rewrite Q in E; destruct E; discriminate|rewrite Q in E; destruct E; discriminate].
  - cbn in E. destruct (_ <? _); destruct E; discriminate.
  - cbn [step] in E |- *. destruct ((o <? length (objs s)) && valid s v) eqn:C; [|destruct E; discriminate]. apply andb_true_iff in C. destruct C as (C1 & C2). apply Nat.ltb_lt in C1.
    destruct (set_spec zero dbg s o v HI C1 C2) as [Q|(s1 & w & AS & [(s2 & Q & _)|[(Q & _)|(Q & N & K & L)]])]; rewrite Q in E; try (destruct E; discriminate).
    exists o, v. split; auto. unfold Coeffs. rewrite N, Q. auto.
  - exfalso. cbn [step] in E. destruct ((o <? length (objs s)) && valid s v) eqn:C; [|destruct E; discriminate]. apply andb_true_iff in C. destruct C as (C1 & C2). apply Nat.ltb_lt in C1.
    destruct (Nat.eq_dec (v_len v) (nc_of s o)) as [Q|Q].
    + destruct (wrap_ok dbg s o v HI C1 C2 Q) as (s2 & X & _). rewrite X in E. destruct E; discriminate.
    + revert E. unfold WrapCoeffs. cbn [wrap]. destruct (nth_error (objs s) o) as [b|] eqn:Eb; [|apply nth_error_None in Eb; lia]. destruct (nth_facts s o b Eb) as (En & _).
      replace (v_len v =? o_nc b) with false by (symmetry; apply Nat.eqb_neq; congruence). intros [E|E]; discriminate.
Qed.

(** ** C45 *)
(** Histories in which no component belongs to two containers or twice to one, and the caller wraps a
    component only while its container has no coefficients: what evaluations use is what Coeffs()
    reports. *)
Theorem C45_tree_partial : forall h s o, tree_reaches zero dbg h s -> runs s o = true ->
  if nc_of s o =? 0 then used s o = [] else Coeffs s o = Some (used s o).
Proof.
  intros h s o H R. pose proof (reaches_inv zero dbg h s (tree_reaches_reaches zero dbg h s H)) as (HS & _). destruct (tree_reaches_tree zero dbg h s H) as (_ & HL).
  destruct (Nat.eqb_spec (nc_of s o) 0) as [Z|Z]; [apply used_zero; auto|]. unfold runs, check in R. destruct (Nat.eqb_spec (nc_of s o) 0); [lia|]. cbn [orb] in R.
  destruct (saved_of s o) as [w|] eqn:E; [|discriminate]. apply Nat.eqb_eq in R. unfold Coeffs. rewrite E. cbn [option_map]. f_equal. symmetry. apply used_contents; auto.
Qed.
(** A triangular or composed map built with moveCoeffs starts with the concatenation of its
    components' coefficients. All histories. *)
Theorem C45_moved : forall h s kids s', reaches zero dbg h s -> kids <> [] -> (forall k, In k kids -> k < length (objs s)) ->
  step zero dbg s (NewBox kids true) = Done s' ->
  Coeffs s' (length (objs s)) = Some (flat_map (fun k => match Coeffs s k with Some c => c | None => [] end) kids).
Proof.
  intros h s kids s' H N HK E. pose proof (reaches_inv zero dbg h s H) as HI.
  destruct (move_spec zero dbg s kids HI) as [Q|(s1 & s2 & Q & _ & OB & FR & VV & CV & UO & I1 & F & SV & _)]; auto; [destruct kids; [contradiction N; auto|cbn; lia]|congruence|].
  rewrite E in Q. injection Q as <-. unfold Coeffs at 1. rewrite SV. cbn [option_map]. f_equal. destruct F as (_ & AR & _).
  transitivity (contents s1 (MkView (length (arrs s)) 0 (total s kids))); [unfold contents, data; now rewrite AR|exact CV].
Qed.

(** ** C46 *)
(** A successful SetCoeffs makes Coeffs() equal to the given values and writes no array entry outside
    the map's own coefficients; other maps keep their views unless they are components. *)
Theorem C46_set : forall h s o v s', reaches zero dbg h s -> o < length (objs s) -> valid s v = true -> step zero dbg s (Set_ o v) = Done s' ->
  Coeffs s' o = Some (contents s v) /\
  (forall a i, a < length (arrs s) -> (forall w, saved_of s o = Some w -> ~ (v_arr w = a /\ v_off w <= i < v_off w + v_len w)) ->
     nth_error (data s' a) i = nth_error (data s a) i) /\
  (forall p, ~ desc s o p -> saved_of s' p = saved_of s p).
Proof.
  intros h s o v s' H Ho V E. pose proof (reaches_inv zero dbg h s H) as HI. cbn [step] in E. apply Nat.ltb_lt in Ho as Ho'. rewrite Ho', V in E. cbn [andb] in E.
  destruct (set_spec zero dbg s o v HI Ho V) as [Q|(s1 & w & AS & [(s2 & Q & F & SV)|[(Q & _)|(Q & _)]])]; rewrite E in Q; try discriminate; [|destruct dbg; discriminate].
  injection Q as <-. pose proof AS as (SH & SV1 & Lw & CW & Vw & PO & FR & _). pose proof F as (_ & AR & P & _). split; [|split].
  - unfold Coeffs. rewrite SV. cbn [option_map]. f_equal. rewrite <- CW. unfold contents, data. now rewrite AR.
  - intros a i Ha HC. eapply (set_entries zero dbg s o v s'); eauto.
  - intros p N. destruct (P p) as [->|((r & Hr & D) & _)].
    + apply PO. intros ->. apply N. constructor.
    + exfalso. apply N. eapply desc_first; eauto. eapply desc_shape; [apply shape_sym; exact SH|auto].
Qed.
(** It does succeed for a vector of the right size kept in another array. *)
Theorem C46_set_succeeds : forall h s o v, reaches zero dbg h s -> o < length (objs s) -> valid s v = true -> v_len v = nc_of s o ->
  (forall w, saved_of s o = Some w -> v_arr w <> v_arr v) -> exists s', step zero dbg s (Set_ o v) = Done s'.
Proof.
  intros h s o v H Ho V L D. pose proof (reaches_inv zero dbg h s H) as HI. cbn [step]. apply Nat.ltb_lt in Ho as Ho'. rewrite Ho', V. cbn [andb].
  destruct (set_spec zero dbg s o v HI Ho V) as [Q|(s1 & w & AS & [(s2 & Q & F & SV)|[(Q & N)|(Q & _ & _ & N)]])]; [|eauto|contradiction|lia].
  exfalso. assert (B : exists s1, base_SetCoeffs zero s o v = Done s1).
  { unfold base_SetCoeffs. destruct (nth_error (objs s) o) as [b|] eqn:Hb; [|apply nth_error_None in Hb; lia]. destruct (nth_facts s o b Hb) as (En & _ & _ & Es).
    assert (C : forall t x, v_arr x <> v_arr v -> v_len x = v_len v -> exists s1, copy (A := A) t x v = Done s1).
    { intros t x N1 N2. unfold copy, view_eqb, overlap. rewrite N2, Nat.eqb_refl. apply Nat.eqb_neq in N1. rewrite N1. cbn [negb andb]. eauto. }
    assert (VA : v_arr v < length (arrs s)) by (apply valid_inv in V; tauto).
    destruct (o_saved b) as [w|] eqn:Ew.
    - rewrite L, En, Nat.eqb_refl. cbn [negb]. destruct (Nat.eqb_spec (v_len w) (o_nc b)) as [X|X].
      + apply C; [apply D; congruence|congruence].
      + apply C; cbn [v_arr v_len]; [lia|congruence].
    - apply C; cbn [v_arr v_len]; [lia|congruence]. }
  destruct B as (s1 & B). unfold SetCoeffs in Q. rewrite B in Q. cbn [rbind] in Q.
  destruct (base_spec zero s o v HI Ho V) as [X|(s1' & w & X & AS)]; [congruence|]. rewrite B in X. injection X as <-.
  destruct (set_spec zero dbg s o v HI Ho V) as [Y|(s2 & w2 & AS2 & [(s3 & Y & _)|[(Y & N)|(Y & _ & _ & N)]])]; unfold SetCoeffs in Y; rewrite B in Y; cbn [rbind] in Y; [|congruence|contradiction|lia].
  assert (ST : struct s1) by (eapply struct_shape; [apply AS|apply HI]). pose proof AS as ((LL & SHo) & SV & Lw & _). destruct (SHo o) as (e1 & e2 & e3).
  destruct (nth_error (objs s1) o) as [b|] eqn:Hb; [|discriminate]. destruct (nth_facts s1 o b Hb) as (En & Ek & Ew & Es). rewrite SV in Es. rewrite <- Es in Y.
  destruct (ST o ltac:(lia)) as (K1 & K2 & K3). rewrite Ek in K1, K2, K3. rewrite Ew in K2, K3. destruct (o_whole b) eqn:W.
  - destruct (K2 eq_refl) as (k & EK & EN). rewrite EK in *. assert (Hk : k < o) by (apply K1; left; auto).
    destruct (wrap_spec dbg o s1 k w ST Hk ltac:(lia)) as (s3 & E3 & _); [congruence|]. rewrite E3 in Y. discriminate.
  - destruct (o_kids b) as [|k0 ks] eqn:EK; [discriminate|]. specialize (K3 eq_refl ltac:(discriminate)).
    destruct (slices_spec (A := A) dbg (wrap o dbg) o) with (kids := k0 :: ks) (s := s1) (v := w) (cum := 0) as (s3 & E3 & _); auto.
    { intros; apply wrap_spec; auto. } { intros k Hk. specialize (K1 k Hk). lia. } { lia. }
    rewrite E3 in Y. discriminate.
Qed.
(** Histories that never wrap an array of the caller: SetCoeffs leaves all of the caller's arrays
    alone, and writing to them changes no map's coefficients. *)
Theorem C46_callers_arrays_partial : forall h s a, lib_reaches zero dbg h s -> user_of s a = true ->
  (forall o v s', step zero dbg s (Set_ o v) = Done s' \/ step zero dbg s (Set_ o v) = Threw s' -> data s' a = data s a) /\
  (forall i x s', step zero dbg s (Write a i x) = Done s' -> forall o, Coeffs s' o = Coeffs s o).
Proof.
  intros h s a H U. pose proof (reaches_inv zero dbg h s (lib_reaches_reaches zero dbg h s H)) as HI. pose proof HI as (_ & HV & _). pose proof (lib_reaches_views zero dbg h s H) as HL.
  assert (Ha : a < length (arrs s)). { unfold user_of in U. destruct (nth_error (arrs s) a) eqn:E; [eapply nth_error_Some_lt; eauto|discriminate]. }
  split.
  - intros o v s' E. cbn [step] in E. destruct ((o <? length (objs s)) && valid s v) eqn:C; [|destruct E as [E|E]; [discriminate|injection E as <-; auto]].
    apply andb_true_iff in C. destruct C as (C1 & C2). apply Nat.ltb_lt in C1. apply nth_error_same. intros i. eapply (set_entries zero dbg s o v s'); eauto.
    intros w Ew (X & _). subst a. rewrite (HL o w Ew) in U. discriminate.
  - intros i x s' E o. destruct (write_entry zero dbg s a i x s' E) as (O & F). unfold Coeffs. rewrite (saved_objs s s' o O). destruct (saved_of s o) as [w|] eqn:Ew; auto. cbn [option_map]. f_equal.
    eapply frame_contents; eauto. intros <-. rewrite (HL o w Ew) in U. discriminate.
Qed.
End Heap.

(** ** Refutations and examples: histories over natural numbers as coefficients *)
Fixpoint run (dbg : bool) (s : state nat) (h : list (op nat)) : result nat :=
  match h with [] => Done s | p :: h => match step 0 dbg s p with Done s | Threw s => run dbg s h | r => r end end.
Lemma run_reaches dbg h : forall s s' h0, reaches 0 dbg h0 s -> run dbg s h = Done s' -> reaches 0 dbg (h0 ++ h) s'.
Proof.
  induction h as [|p h IH]; intros s s' h0 R E; cbn [run] in E.
  - injection E as <-. now rewrite app_nil_r.
  - replace (h0 ++ p :: h) with ((h0 ++ [p]) ++ h) by (rewrite <- app_assoc; reflexivity). destruct (step 0 dbg s p) as [s1|s1| |] eqn:Es; try discriminate.
    + eapply IH; eauto. eapply reach_done; eauto.
    + eapply IH; eauto. eapply reach_threw; eauto.
Qed.
Definition after (dbg : bool) (h : list (op nat)) : state nat := match run dbg (start (A := nat)) h with Done s => s | _ => start (A := nat) end.
Lemma after_reaches dbg h s : run dbg (start (A := nat)) h = Done s -> reaches 0 dbg h s.
Proof. intros E. apply (run_reaches dbg h _ _ []) in E; auto. constructor. Qed.

(** C44 fails: the first SetCoeffs of a triangular map accepts any size. With too few entries the
    components' slices leave the array. *)
Theorem C44_short_vector_refuted : exists h s p, reaches 0 false h s /\ step 0 false s p = Undef.
Proof.
  exists [NewLeaf 1; NewLeaf 1; NewBox [0; 1] false; NewArray [7]], (after false [NewLeaf 1; NewLeaf 1; NewBox [0; 1] false; NewArray [7]]), (Set_ 2 (MkView 0 0 1)).
  split; [apply after_reaches|]; reflexivity.
Qed.
(** A map without coefficients accepts a non-empty vector and then evaluates with it. *)
Theorem C44_empty_map_refuted : exists h s o c, reaches 0 true h s /\ runs s o = true /\ Coeffs s o = Some c /\ length c <> nc_of s o.
Proof.
  exists [NewLeaf 0; NewArray [7; 8]; Set_ 0 (MkView 0 0 2)], (after true [NewLeaf 0; NewArray [7; 8]; Set_ 0 (MkView 0 0 2)]), 0, [7; 8].
  split; [apply after_reaches; reflexivity|]. split; [reflexivity|]. split; [reflexivity|]. vm_compute. discriminate.
Qed.
(** C45 fails when a component belongs to two maps: setting the second one's coefficients changes
    what the first one uses, but not what it reports. *)
Theorem C45_shared_refuted : exists h s o c, reaches 0 true h s /\ runs s o = true /\ Coeffs s o = Some c /\ used s o <> c.
Proof.
  pose (h := [NewLeaf 2; NewBox [0] false; NewBox [0] false; NewArray [1; 2; 3; 4]; Set_ 1 (MkView 0 0 2); Set_ 2 (MkView 0 2 2)]).
  exists h, (after true h), 1, [1; 2]. split; [apply after_reaches; reflexivity|]. split; [reflexivity|]. split; [reflexivity|]. vm_compute. discriminate.
Qed.
(** It fails when a component appears twice in one map. *)
Theorem C45_twice_refuted : exists h s o c, reaches 0 true h s /\ runs s o = true /\ Coeffs s o = Some c /\ used s o <> c.
Proof.
  pose (h := [NewLeaf 1; NewBox [0; 0] false; NewArray [1; 2]; Set_ 1 (MkView 0 0 2)]).
  exists h, (after true h), 1, [1; 2]. split; [apply after_reaches; reflexivity|]. split; [reflexivity|]. split; [reflexivity|]. vm_compute. discriminate.
Qed.
(** It fails when the caller wraps a component of a map that has coefficients. *)
Theorem C45_rewrapped_refuted : exists h s o c, reaches 0 true h s /\ runs s o = true /\ Coeffs s o = Some c /\ used s o <> c.
Proof.
  pose (h := [NewLeaf 2; NewBox [0] false; NewArray [1; 2; 3; 4]; Set_ 1 (MkView 0 0 2); Wrap_ 0 (MkView 0 2 2)]).
  exists h, (after true h), 1, [1; 2]. split; [apply after_reaches; reflexivity|]. split; [reflexivity|]. split; [reflexivity|]. vm_compute. discriminate.
Qed.
(** C46 fails after WrapCoeffs: SetCoeffs writes the caller's array, and writing that array changes
    the map. *)
Theorem C46_wrapped_refuted :
  (exists h s o v s' a, reaches 0 true h s /\ step 0 true s (Set_ o v) = Done s' /\ user_of s a = true /\ data s' a <> data s a) /\
  exists h s o v s1 a i x s2, reaches 0 true h s /\ step 0 true s (Set_ o v) = Done s1 /\ user_of s1 a = true /\ step 0 true s1 (Write a i x) = Done s2 /\ Coeffs s2 o <> Coeffs s1 o.
Proof.
  pose (h := [NewLeaf 2; NewArray [1; 2]; NewArray [3; 4]; Wrap_ 0 (MkView 0 0 2)]).
  split.
  - exists h, (after true h), 0, (MkView 1 0 2), (after true (h ++ [Set_ 0 (MkView 1 0 2)])), 0.
    split; [apply after_reaches; reflexivity|]. split; [reflexivity|]. split; [reflexivity|]. vm_compute. discriminate.
  - exists h, (after true h), 0, (MkView 1 0 2), (after true (h ++ [Set_ 0 (MkView 1 0 2)])), 0, 1, 9, (after true (h ++ [Set_ 0 (MkView 1 0 2); Write 0 1 9])).
    split; [apply after_reaches; reflexivity|]. split; [reflexivity|]. split; [reflexivity|]. split; [reflexivity|]. vm_compute. discriminate.
Qed.
(** Setting a component's coefficients changes those of its container: another object changes. *)
Theorem C46_component_refuted : exists h s o v s' p, reaches 0 true h s /\ step 0 true s (Set_ o v) = Done s' /\ p <> o /\ Coeffs s' p <> Coeffs s p.
Proof.
  pose (h := [NewLeaf 1; NewLeaf 1; NewBox [0; 1] false; NewArray [1; 2; 3]; Set_ 2 (MkView 0 0 2)]).
  exists h, (after true h), 1, (MkView 0 2 1), (after true (h ++ [Set_ 1 (MkView 0 2 1)])), 2.
  split; [apply after_reaches; reflexivity|]. split; [reflexivity|]. split; [discriminate|]. vm_compute. discriminate.
Qed.

(** *** The hypotheses are met: a composed map of two triangular maps, with a failed call. *)
Definition demo : list (op nat) :=
  [NewLeaf 1; NewLeaf 2; NewBox [0; 1] false; NewLeaf 1; NewSummarized 3; NewBox [2; 4] false; NewArray [1; 2; 3; 4; 5];
   Set_ 5 (MkView 0 1 4); Set_ 2 (MkView 0 0 2); Set_ 2 (MkView 0 0 3)].
Example demo_reaches : reaches 0 true demo (after true demo). Proof. apply after_reaches. reflexivity. Qed.
Example demo_runs : runs (after true demo) 5 = true /\ nc_of (after true demo) 5 = 4 /\ Coeffs (after true demo) 5 = Some [1; 2; 3; 5] /\ used (after true demo) 5 = [1; 2; 3; 5] /\ read_by (after true demo) 5 = [0; 1; 3].
Proof. repeat split. Qed.
Lemma no_kids (s : state nat) k n : (forall q, n <= q -> kids_of s q = []) -> forallb (fun q => negb (existsb (Nat.eqb k) (kids_of s q))) (seq 0 n) = true -> forall q, ~ In k (kids_of s q).
Proof.
  intros H1 H2 q Hq. destruct (Nat.lt_ge_cases q n) as [L|L]; [|rewrite H1 in Hq; auto]. rewrite forallb_forall in H2. specialize (H2 q ltac:(apply in_seq; lia)).
  apply negb_true_iff in H2. assert (X : existsb (Nat.eqb k) (kids_of s q) = true) by (apply existsb_exists; exists k; split; auto; apply Nat.eqb_refl). congruence.
Qed.
(** A decidable form of the tree discipline, to run examples. *)
Definition tree_opb (s : state nat) (p : op nat) : bool :=
  let free k := forallb (fun q => negb (existsb (Nat.eqb k) (kids_of s q))) (seq 0 (length (objs s))) in
  match p with
  | NewBox kids _ => (length (nodup Nat.eq_dec kids) =? length kids) && forallb free kids
  | NewSummarized k => free k
  | Wrap_ o _ => forallb (fun q => negb (existsb (Nat.eqb o) (kids_of s q)) || match saved_of s q with None => true | _ => false end) (seq 0 (length (objs s)))
  | _ => true
  end.
Lemma tree_opb_spec s p : tree_opb s p = true -> tree_op s p.
Proof.
  assert (KN : forall q, length (objs s) <= q -> kids_of s q = []) by (intros q L; unfold kids_of; apply nth_error_None in L; now rewrite L).
  destruct p as [| | |kids mv|k| |o v]; cbn [tree_opb tree_op]; auto.
  - intros H. apply andb_true_iff in H. destruct H as (H1 & H2). apply Nat.eqb_eq in H1. split.
    + apply (@NoDup_incl_NoDup nat (nodup Nat.eq_dec kids)); [apply NoDup_nodup|lia|]. intros k Hk. apply nodup_In in Hk. auto.
    + intros k Hk. rewrite forallb_forall in H2. apply (no_kids s k (length (objs s))); auto.
  - intros H. apply (no_kids s k (length (objs s))); auto.
  - intros H q Hq. assert (L : q < length (objs s)) by (eapply kids_dom; eauto). rewrite forallb_forall in H. specialize (H q ltac:(apply in_seq; lia)).
    apply orb_true_iff in H. destruct H as [H|H]; [|destruct (saved_of s q); [discriminate|auto]]. apply negb_true_iff in H.
    assert (X : existsb (Nat.eqb o) (kids_of s q) = true) by (apply existsb_exists; exists o; split; auto; apply Nat.eqb_refl). congruence.
Qed.
Fixpoint run_tree (dbg : bool) (s : state nat) (h : list (op nat)) : option (state nat) :=
  match h with [] => Some s | p :: h => if tree_opb s p then match step 0 dbg s p with Done s | Threw s => run_tree dbg s h | _ => None end else None end.
Lemma run_tree_reaches dbg h : forall s s' h0, tree_reaches 0 dbg h0 s -> run_tree dbg s h = Some s' -> tree_reaches 0 dbg (h0 ++ h) s'.
Proof.
  induction h as [|p h IH]; intros s s' h0 R E; cbn [run_tree] in E.
  - injection E as <-. now rewrite app_nil_r.
  - replace (h0 ++ p :: h) with ((h0 ++ [p]) ++ h) by (rewrite <- app_assoc; reflexivity). destruct (tree_opb s p) eqn:T; [|discriminate]. apply tree_opb_spec in T. destruct (step 0 dbg s p) as [s1|s1| |] eqn:Es; try discriminate.
    + eapply IH; eauto. eapply tree_done; eauto.
    + eapply IH; eauto. eapply tree_threw; eauto.
Qed.
Example demo_tree : tree_reaches 0 true demo (after true demo).
Proof. apply (run_tree_reaches true demo (start (A := nat)) (after true demo) []); [constructor|reflexivity]. Qed.
Example demo_moved : let s := after true (demo ++ [NewBox [5] true]) in Coeffs s 6 = Some [1; 2; 3; 5] /\ used s 6 = [1; 2; 3; 5] /\ used s 5 = [1; 2; 3; 5].
Proof. repeat split. Qed.
Example demo_lib : lib_reaches 0 true demo (after true demo) /\ user_of (after true demo) 0 = true.
Proof.
  split; [|reflexivity]. assert (X : forall h s s' h0, forallb (fun p => match p with Wrap_ _ _ => false | _ => true end) h = true -> lib_reaches 0 true h0 s -> run true s h = Done s' -> lib_reaches 0 true (h0 ++ h) s').
  { induction h as [|p h IH]; intros s s' h0 F R E; cbn [run forallb] in *.
    - injection E as <-. now rewrite app_nil_r.
    - replace (h0 ++ p :: h) with ((h0 ++ [p]) ++ h) by (rewrite <- app_assoc; reflexivity). apply andb_true_iff in F. destruct F as (F1 & F2).
      assert (O : lib_op s p) by (destruct p; try exact I; discriminate). destruct (step 0 true s p) as [s1|s1| |] eqn:Es; try discriminate; eapply IH; eauto; [eapply lib_done|eapply lib_threw]; eauto. }
  apply (X demo (start (A := nat)) _ []); [reflexivity|constructor|reflexivity].
Qed.

Print Assumptions C44_exact_size_partial.
Print Assumptions C44_no_coefficients.
Print Assumptions C44_only_short_first_set.
Print Assumptions C44_short_vector_refuted.
Print Assumptions C44_empty_map_refuted.
Print Assumptions C45_tree_partial.
Print Assumptions C45_moved.
Print Assumptions C45_shared_refuted.
Print Assumptions C45_twice_refuted.
Print Assumptions C45_rewrapped_refuted.
Print Assumptions C46_set.
Print Assumptions C46_set_succeeds.
Print Assumptions C46_callers_arrays_partial.
Print Assumptions C46_wrapped_refuted.
Print Assumptions C46_component_refuted.
