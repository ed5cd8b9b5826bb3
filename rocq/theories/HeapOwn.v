(** Which array entries SetCoeffs writes, and who owns the arrays coefficients live in. *)
From Verif Require Import Base HeapModel HeapProofs HeapInv HeapTree.

Section Heap.
Context {A : Type} (zero : A) (dbg : bool).
Notation state := (state A).
Implicit Types s : state.

(** ** Entries written *)
Definition keeps_arrs s (r : result A) : Prop := match r with Done s' | Threw s' => arrs s' = arrs s | _ => True end.
Lemma wrap_arrs : forall fuel s o v, keeps_arrs s (wrap fuel dbg s o v).
Proof.
  induction fuel as [|f IH]; intros s o v; cbn [wrap]; [exact I|]. destruct (nth_error (objs s) o) as [b|]; [|exact I]. destruct (negb _); [reflexivity|].
  assert (P := put_saved_arrs s o v). destruct (o_whole b).
  - destruct (o_kids b) as [|k ?]; [exact P|]. specialize (IH (put_saved s o v) k v). destruct (wrap f dbg _ k v); cbn in *; congruence.
  - revert P. generalize (put_saved s o v) as s0. generalize (o_kids b) as ks, 0 as cum. induction ks as [|k ks IHk]; intros cum s0 P; cbn [slices]; [exact P|].
    destruct (_ <=? _); [|destruct dbg; exact I]. specialize (IH s0 k (MkView (v_arr v) (v_off v + cum) (nc_of s0 k))). destruct (wrap f dbg s0 k _) as [s1|s1| |]; cbn [rbind keeps_arrs] in *; try congruence; auto.
    apply IHk. congruence.
Qed.
Lemma slices_arrs f : forall ks s v cum, keeps_arrs s (slices (wrap f dbg) dbg s v cum ks).
Proof.
  induction ks as [|k ks IHk]; intros s v cum; cbn [slices]; [reflexivity|]. destruct (_ <=? _); [|destruct dbg; exact I].
  pose proof (wrap_arrs f s k (MkView (v_arr v) (v_off v + cum) (nc_of s k))) as W. destruct (wrap f dbg s k _) as [s1|s1| |]; cbn [rbind keeps_arrs] in *; try congruence; auto.
  specialize (IHk s1 v (cum + nc_of s k)). destruct (slices _ _ s1 v _ ks); cbn in *; congruence.
Qed.
Lemma set_arrs s o v s' : SetCoeffs zero dbg s o v = Done s' \/ SetCoeffs zero dbg s o v = Threw s' ->
  (exists s1, base_SetCoeffs zero s o v = Done s1 /\ arrs s' = arrs s1) \/ base_SetCoeffs zero s o v = Threw s'.
Proof.
  unfold SetCoeffs. destruct (base_SetCoeffs zero s o v) as [s1|s1| |]; cbn [rbind]; [|intros [H|H]; [discriminate|injection H as <-; auto]|intros [H|H]; discriminate|intros [H|H]; discriminate].
  intros H. left. exists s1. split; auto. destruct (nth_error (objs s1) o) as [b|]; [|destruct H; discriminate]. destruct (o_saved b) as [w|]; [|destruct H; discriminate].
  destruct (o_whole b).
  - destruct (o_kids b) as [|k ?]; [destruct H as [H|H]; [injection H as <-; auto|discriminate]|]. pose proof (wrap_arrs o s1 k w) as W. destruct H as [H|H]; rewrite H in W; exact W.
  - pose proof (slices_arrs o (o_kids b) s1 w 0) as W. destruct H as [H|H]; rewrite H in W; exact W.
Qed.

Lemma nth_error_splice (l d : list A) off i : off + length d <= length l -> ~ (off <= i < off + length d) ->
  nth_error (firstn off l ++ d ++ skipn (off + length d) l) i = nth_error l i.
Proof.
  intros L N. assert (LF : length (firstn off l) = off) by (rewrite firstn_length; lia). destruct (Nat.lt_ge_cases i off) as [Q|Q].
  - rewrite nth_error_app1 by lia. rewrite <- (firstn_skipn off l) at 2. rewrite nth_error_app1 by lia. reflexivity.
  - rewrite nth_error_app2 by lia. rewrite nth_error_app2 by lia. rewrite LF. rewrite <- (firstn_skipn (off + length d) l) at 2.
    rewrite nth_error_app2 by (rewrite firstn_length; lia). rewrite firstn_length, Nat.min_l by lia. f_equal. lia.
Qed.
Lemma nth_error_skipn' (l : list A) n i : nth_error (skipn n l) i = nth_error l (n + i).
Proof. revert l. induction n as [|n IH]; intros [|x l]; cbn; auto. now destruct i. Qed.
Lemma nth_error_firstn_lt (l : list A) n i : i < n -> nth_error (firstn n l) i = nth_error l i.
Proof. revert l i. induction n as [|n IH]; intros [|x l] [|i] H; cbn; auto; try lia. apply IH. lia. Qed.
Lemma nth_error_same (l l' : list A) : (forall i, nth_error l i = nth_error l' i) -> l = l'.
Proof.
  revert l'. induction l as [|x l IH]; intros [|y l'] H; auto; [discriminate (H 0)|discriminate (H 0)|]. pose proof (H 0) as E. injection E as ->. f_equal. apply IH. intros i. apply (H (S i)).
Qed.
Definition covers (w : view) (a i : nat) : Prop := v_arr w = a /\ v_off w <= i < v_off w + v_len w.
Lemma copy_entries s dst src s' : valid s dst = true -> valid s src = true -> copy s dst src = Done s' ->
  forall a i, ~ covers dst a i -> nth_error (data s' a) i = nth_error (data s a) i.
Proof.
  intros Vd Vs. unfold copy. destruct (Nat.eqb_spec (v_len dst) (v_len src)) as [L|]; cbn [negb]; [|discriminate]. destruct (view_eqb dst src); [intros E; injection E as <-; auto|].
  destruct (overlap dst src); [discriminate|]. intros E. injection E as <-. intros a i N. pose proof (contents_length s src Vs) as LC. apply valid_inv in Vd. destruct Vd as (V1 & V2).
  destruct (put_data_spec s (v_arr dst) (v_off dst) (contents s src)) as (Q1 & Q2 & Q3 & Q4); [auto|lia|]. destruct (Nat.eq_dec a (v_arr dst)) as [->|Na].
  - rewrite Q4. apply nth_error_splice; [lia|]. intros X. apply N. split; auto. lia.
  - destruct Q2 as (_ & Q2). destruct (Nat.lt_ge_cases a (length (arrs s))) as [La|La]; [destruct (Q2 a La) as (_ & _ & ->); auto|].
    unfold data. assert (X : nth_error (arrs s) a = None) by (apply nth_error_None; auto). rewrite X.
    assert (Y : nth_error (arrs (put_data s (v_arr dst) (v_off dst) (contents s src))) a = None) by (apply nth_error_None; lia). rewrite Y. reflexivity.
Qed.
Lemma valid_more s s' v : arrs s' = arrs s -> valid s v = true -> valid s' v = true.
Proof. intros E H. unfold valid, data in *. now rewrite E. Qed.
Lemma set_entries s o v s' : Inv s -> o < length (objs s) -> valid s v = true -> SetCoeffs zero dbg s o v = Done s' \/ SetCoeffs zero dbg s o v = Threw s' ->
  forall a i, a < length (arrs s) -> (forall w, saved_of s o = Some w -> ~ covers w a i) -> nth_error (data s' a) i = nth_error (data s a) i.
Proof.
  intros HI Ho V H a i Ha HC. pose proof HI as (_ & HV & _).
  assert (X : (exists s1, base_SetCoeffs zero s o v = Done s1 /\ arrs s' = arrs s1) \/ base_SetCoeffs zero s o v = Threw s') by (eapply set_arrs; eauto).
  destruct X as [(s1 & B & E)|B].
  2: { destruct (base_spec zero s o v HI Ho V) as [T|(s1 & w & D & _)]; [|congruence]. rewrite T in B. injection B as <-. reflexivity. }
  assert (F : forall s2 d2 w, arrs s2 = arrs (alloc s false d2) -> v_arr w = length (arrs s) -> v_off w = 0 -> v_len w = length d2 -> copy s2 w v = Done s1 -> nth_error (data s1 a) i = nth_error (data s a) i).
  { intros s2 d2 w EA WA WO WL C. destruct (alloc_spec s false d2) as (_ & Q2 & Q3 & Q4 & _).
    transitivity (nth_error (data s2 a) i).
    - eapply copy_entries; [| |exact C|].
      + apply (valid_more (alloc s false d2)); auto. apply valid_intro; rewrite WA; [lia|]. rewrite Q4. lia.
      + apply (valid_more (alloc s false d2)); auto. apply (frame_valid s _ 0); auto.
      + intros (Y & _). lia.
    - f_equal. unfold data. rewrite EA. destruct (Q2 0) as (_ & Q). destruct (Q a Ha) as (_ & _ & _). cbn [alloc arrs]. now rewrite nth_error_app1 by auto. }
  assert (ED : forall x, data s' x = data s1 x) by (intros x; unfold data; now rewrite E). rewrite ED.
  revert B. unfold base_SetCoeffs. destruct (nth_error (objs s) o) as [b|] eqn:Hb; [|discriminate]. destruct (nth_facts s o b Hb) as (En & _ & _ & Es).
  destruct (o_saved b) as [w|] eqn:Ew.
  - destruct (negb _); [discriminate|]. destruct (v_len w =? o_nc b).
    + intros C. eapply copy_entries; [| |exact C|]; auto. eapply HV; exact Es.
    + intros C. eapply F; [| | | |exact C]; [apply put_saved_arrs|reflexivity..|]. cbn [v_len]. rewrite app_length, repeat_length, firstn_length. lia.
  - intros C. eapply F; [| | | |exact C]; [apply put_saved_arrs|reflexivity..|]. cbn [v_len]. now rewrite repeat_length.
Qed.
Lemma contents_entries s s' v : valid s v = true -> (forall i, covers v (v_arr v) i -> nth_error (data s' (v_arr v)) i = nth_error (data s (v_arr v)) i) -> length (data s' (v_arr v)) = length (data s (v_arr v)) ->
  contents s' v = contents s v.
Proof.
  intros V H L. apply valid_inv in V. destruct V as (_ & V). unfold contents, covers in *. revert H L V. generalize (data s' (v_arr v)) as l', (data s (v_arr v)) as l, (v_off v) as off, (v_len v) as n. clear.
  intros l' l off n H L V. apply nth_error_same. intros j. destruct (Nat.lt_ge_cases j n) as [Q|Q].
  - rewrite !nth_error_firstn_lt by auto. rewrite !nth_error_skipn'. apply H. split; auto. lia.
  - transitivity (@None A); [|symmetry]; apply nth_error_None; rewrite firstn_length; lia.
Qed.

(** ** Arrays of the caller *)
Definition lib_views s : Prop := forall o v, saved_of s o = Some v -> user_of s (v_arr v) = false.
(** Only storage allocated by the library is ever wrapped. *)
Definition lib_op s (p : op A) : Prop := match p with Wrap_ _ v => user_of s (v_arr v) = false | _ => True end.
Inductive lib_reaches : list (op A) -> state -> Prop :=
| lib_start : lib_reaches [] (start (A := A))
| lib_done : forall h s p s', lib_reaches h s -> lib_op s p -> step zero dbg s p = Done s' -> lib_reaches (h ++ [p]) s'
| lib_threw : forall h s p s', lib_reaches h s -> lib_op s p -> step zero dbg s p = Threw s' -> lib_reaches (h ++ [p]) s'.
Lemma lib_reaches_reaches h s : lib_reaches h s -> reaches zero dbg h s.
Proof. induction 1; [constructor|eapply reach_done; eauto|eapply reach_threw; eauto]. Qed.

Lemma lib_frame s s' a : views_ok s -> frame s s' a -> (forall o v, saved_of s' o = Some v -> saved_of s o = Some v) -> lib_views s -> lib_views s'.
Proof. intros HV (_ & F) HS HL o v E. apply HS in E. pose proof (HV o v E) as V. apply valid_inv in V. destruct (F (v_arr v)) as (_ & -> & _); [lia|]. eauto. Qed.
Lemma lib_effect s s' R v : lib_views s -> user_of s (v_arr v) = false -> effect s s' R v -> lib_views s'.
Proof.
  intros HL HU (_ & AR & P & _) o w E. assert (X : user_of s' (v_arr w) = user_of s (v_arr w)) by (unfold user_of; now rewrite AR). rewrite X.
  destruct (P o) as [Q|(_ & w' & Q & _ & I & _)]; [apply (HL o); congruence|]. rewrite E in Q. injection Q as <-. rewrite I. auto.
Qed.
Lemma lib_assigned s s1 o v w : views_ok s -> lib_views s -> assigned s s1 o v w -> lib_views s1 /\ user_of s1 (v_arr w) = false.
Proof.
  intros HV HL (SH & SV & _ & _ & _ & PO & FR & _ & HG & HNG). assert (U : user_of s1 (v_arr w) = false).
  { assert (D : good s o \/ ~ good s o). { unfold good. destruct (saved_of s o) as [x|]; [|right; intros (y & Y & _); discriminate]. destruct (Nat.eq_dec (v_len x) (nc_of s o)); [left; eauto|right; intros (y & Y1 & Y2); congruence]. }
    destruct D as [G|G]; [|apply HNG; auto]. pose proof (HG G) as E. pose proof (HV o w E) as V. apply valid_inv in V. destruct FR as (_ & FR). destruct (FR (v_arr w)) as (_ & -> & _); [lia|]. eauto. }
  split; auto. intros p x E. destruct (Nat.eq_dec p o) as [->|N]; [congruence|]. rewrite PO in E by auto. pose proof (HV p x E) as V. apply valid_inv in V. destruct FR as (_ & FR). destruct (FR (v_arr x)) as (_ & -> & _); [lia|]. eauto.
Qed.
Lemma saved_add s b p v : o_saved b = None -> saved_of (add_obj s b) p = Some v -> saved_of s p = Some v.
Proof.
  intros N E. assert (Hp := saved_dom _ _ _ E). rewrite add_obj_len in Hp. destruct (Nat.eq_dec p (length (objs s))) as [->|Np].
  - unfold saved_of in E. rewrite add_obj_new in E. congruence.
  - unfold saved_of in *. rewrite add_obj_old in E by lia. auto.
Qed.
Lemma step_lib s p s' : Inv s -> lib_views s -> lib_op s p -> step zero dbg s p = Done s' \/ step zero dbg s p = Threw s' -> lib_views s'.
Proof.
  intros HI HL HP H. pose proof HI as (HS & HV & HC). destruct p as [d|a i x|nc|kids mv|k|o v|o v].
  - cbn in H. destruct H as [H|H]; [|discriminate]. injection H as <-. destruct (alloc_spec s true d) as (_ & Q2 & _). eapply (lib_frame s _ 0); auto.
  - cbn in H. destruct (Nat.ltb_spec i (length (data s a))); [|destruct H as [H|H]; [discriminate|injection H as <-; auto]].
    destruct H as [H|H]; [|discriminate]. injection H as <-.
    assert (Ha : a < length (arrs s)). { unfold data in *. destruct (nth_error (arrs s) a) eqn:Ea; [eapply nth_error_Some_lt; eauto|cbn in *; lia]. }
    destruct (put_data_spec s a i [x]) as (Q1 & Q2 & _); [auto|cbn; lia|]. eapply (lib_frame s _ a); auto. intros o v E. now rewrite (saved_objs s _ o Q1) in E.
  - cbn in H. destruct H as [H|H]; [|discriminate]. injection H as <-. apply (lib_frame s (add_obj s (MkObj nc [] false None)) 0); auto; [apply frame_same_arrs; reflexivity|]. intros o v. apply saved_add. reflexivity.
  - destruct ((0 <? length kids) && forallb (fun k => k <? length (objs s)) kids) eqn:C.
    2: { cbn in H. rewrite C in H. destruct H as [H|H]; [discriminate|injection H as <-; auto]. }
    pose proof C as C'. apply andb_true_iff in C'. destruct C' as (C1 & C2). apply Nat.ltb_lt in C1. rewrite forallb_forall in C2.
    assert (C3 : forall k, In k kids -> k < length (objs s)) by (intros k Hk; apply Nat.ltb_lt, C2; auto).
    destruct mv.
    + destruct (move_spec zero dbg s kids HI C1 C3) as [E|(s1 & s2 & E & _ & OB & FR & VV & CV & UO & I1 & F & SV & _ & EW)]; rewrite E in H.
      { destruct H as [H|H]; [discriminate|injection H as <-; auto]. } destruct H as [H|H]; [|discriminate]. injection H as <-.
      eapply (lib_effect s1 _ _ (MkView (length (arrs s)) 0 (total s kids))); [|exact UO|exact F]. eapply (lib_frame s s1); eauto. intros p v Ep. apply (saved_add s (MkObj (total s kids) kids false None)); auto. unfold saved_of in *. rewrite OB in Ep. exact Ep.
    + cbn in H. rewrite C in H. destruct H as [H|H]; [|discriminate]. injection H as <-.
      apply (lib_frame s (add_obj s (MkObj (total s kids) kids false None)) 0); auto; [apply frame_same_arrs; reflexivity|]. intros o v. apply saved_add. reflexivity.
  - cbn in H. destruct (Nat.ltb_spec k (length (objs s))); [|destruct H as [H|H]; [discriminate|injection H as <-; auto]].
    destruct H as [H|H]; [|discriminate]. injection H as <-.
    apply (lib_frame s (add_obj s (MkObj (nc_of s k) [k] true None)) 0); auto; [apply frame_same_arrs; reflexivity|]. intros o v. apply saved_add. reflexivity.
  - cbn [step] in H. destruct ((o <? length (objs s)) && valid s v) eqn:C; [|destruct H as [H|H]; [discriminate|injection H as <-; auto]].
    apply andb_true_iff in C. destruct C as (C1 & C2). apply Nat.ltb_lt in C1. destruct (set_spec zero dbg s o v HI C1 C2) as [E|(s1 & w & AS & D)].
    { rewrite E in H. destruct H as [H|H]; [discriminate|]. injection H as <-. auto. }
    destruct (lib_assigned s s1 o v w HV HL AS) as (L1 & U1). destruct D as [(s2 & E & F & _)|[(E & _)|(E & _)]]; rewrite E in H.
    + destruct H as [H|H]; [|discriminate]. injection H as <-. eapply lib_effect; eauto.
    + destruct H as [H|H]; [discriminate|]. injection H as <-. auto.
    + destruct dbg; destruct H; discriminate.
  - cbn [step] in H. destruct ((o <? length (objs s)) && valid s v) eqn:C; [|destruct H as [H|H]; [discriminate|injection H as <-; auto]].
    apply andb_true_iff in C. destruct C as (C1 & C2). apply Nat.ltb_lt in C1. destruct (Nat.eq_dec (v_len v) (nc_of s o)) as [Q|Q].
    + destruct (wrap_ok dbg s o v HI C1 C2 Q) as (s2 & E & F & _). rewrite E in H. destruct H as [H|H]; [|discriminate]. injection H as <-. eapply lib_effect; eauto.
    + revert H. unfold WrapCoeffs. cbn [wrap]. destruct (nth_error (objs s) o) as [b|] eqn:Eb; [|intros [|]; discriminate]. destruct (nth_facts s o b Eb) as (En & _).
      replace (v_len v =? o_nc b) with false by (symmetry; apply Nat.eqb_neq; congruence). cbn [negb]. intros [H|H]; [discriminate|]. injection H as <-. auto.
Qed.
Theorem lib_reaches_views h s : lib_reaches h s -> lib_views s.
Proof.
  induction 1 as [|h s p s' H IH HP E|h s p s' H IH HP E].
  - intros o v E. unfold saved_of in E. destruct o; discriminate.
  - eapply step_lib; eauto. eapply reaches_inv, lib_reaches_reaches; eauto.
  - eapply step_lib; eauto. eapply reaches_inv, lib_reaches_reaches; eauto.
Qed.
Lemma write_entry s a i x s' : step zero dbg s (Write a i x) = Done s' -> objs s' = objs s /\ frame s s' a.
Proof.
  cbn. destruct (Nat.ltb_spec i (length (data s a))); [|discriminate]. intros E. injection E as <-.
  assert (Ha : a < length (arrs s)). { unfold data in *. destruct (nth_error (arrs s) a) eqn:Ea; [eapply nth_error_Some_lt; eauto|cbn in *; lia]. }
  destruct (put_data_spec s a i [x]) as (Q1 & Q2 & _); [auto|cbn; lia|]. auto.
Qed.
End Heap.
Arguments lib_op {A}.
