(** Properties C13-C15: fixed multi-index sets. *)
From Verif Require Import Base SpecMulti SpecCount MISetModel MultiIndexProofs MISetInv MISetOps MISetLimFill MISetHist
  PropMISet FixedSetModel FixedSetProofs.

(** Any history of calls on a MultiIndexSet of length [d]. *)
Definition any_history (d : nat) (s : mset) : Prop := hist d s \/ exists grow L, reach grow d L s.

Lemma any_history_inv d s : any_history d s ->
  base s /\ dim s = d /\ forall v, In v (actives s) -> length v = dim s.
Proof.
  intros H. assert (B : base s /\ dim s = d).
  { destruct H as [H|(grow & L & H)]; [apply hist_inv; auto|].
    destruct (reach_inv _ _ _ _ H) as (F & _ & D & _). split; auto. apply F. }
  destruct B as [B D]. split; auto. split; auto. intros v Hv. apply (b_len _ B). apply active_in_all; auto.
Qed.

(** [f] lists the members of [s] at the same positions, and can find them again. *)
Definition same_contents (d : nat) (s : mset) (f : fset) : Prop :=
  f_Length f = d /\ f_Size f = ms_Size s /\
  (forall i v, ms_IndexToMulti s i = Ok v -> f_IndexToMulti f i = Ok v /\ f_MultiToIndex f v = Ok (Some i)) /\
  length (f_MaxDegrees f) = d /\
  (forall k, k < d -> largest s k (nth k (f_MaxDegrees f) 0)).

Lemma vlargest_largest s k m : base s -> vlargest (actives s) k m -> largest s k m.
Proof.
  intros B [H1 H2]. split.
  - intros v Hv. apply H1. apply member_active; auto.
  - destruct H2 as [H2|(v & Hv & E)]; auto. right. exists v. split; auto. apply member_active; auto.
Qed.

Lemma first_index_unique s i j v : base s -> nth_error (actives s) i = Some v -> first_index (actives s) v j -> j = i.
Proof.
  intros B Hi [Hj Hm]. apply (proj1 (NoDup_nth_error (actives s)) (NoDup_actives s B)); [eapply nth_error_lt; eauto|congruence].
Qed.

(** ** C13 *)

Theorem C13_fix_compressed :
  forall d s, any_history d s -> exists f, ms_Fix true s = Ok f /\ same_contents d s f.
Proof.
  intros d s H. destruct (any_history_inv d s H) as (B & D & Hl). rewrite <- D in *. clear d D.
  destruct (Fix_compressed s B Hl) as (mx & H1 & H2 & H3). exists (packed (dim s) (actives s) mx). split; auto.
  split; [reflexivity|]. split; [rewrite packed_size, actives_length; auto|]. split.
  - intros i v Hi. apply index_nth in Hi; auto. assert (Hv : length v = dim s) by (apply Hl; eapply nth_error_In; eauto).
    split; [apply packed_index; auto|].
    destruct (packed_search (dim s) (actives s) mx v Hl Hv) as [(j & Hj & E)|[Hn _]].
    + rewrite E. do 2 f_equal. eapply first_index_unique; eauto.
    + exfalso. apply Hn. eapply nth_error_In; eauto.
  - split; auto. intros k Hk. apply vlargest_largest; auto.
Qed.
Print Assumptions C13_fix_compressed.

Theorem C13_fix_dense :
  forall d s, any_history d s -> 0 < d -> exists f, ms_Fix false s = Ok f /\ same_contents d s f.
Proof.
  intros d s H Hd. destruct (any_history_inv d s H) as (B & D & Hl). rewrite <- D in *. clear d D.
  destruct (Fix_dense s B Hd Hl) as (mx & H1 & H2 & H3). exists (densed (dim s) (actives s) mx). split; auto.
  split; [reflexivity|]. split; [rewrite densed_size, actives_length; auto|]. split.
  - intros i v Hi. apply index_nth in Hi; auto. assert (Hv : length v = dim s) by (apply Hl; eapply nth_error_In; eauto).
    split; [apply densed_index; auto|].
    destruct (densed_search (dim s) (actives s) mx v Hd Hl Hv) as [(j & Hj & E)|[Hn _]].
    + rewrite E. do 2 f_equal. eapply first_index_unique; eauto.
    + exfalso. apply Hn. eapply nth_error_In; eauto.
  - split; auto. intros k Hk. apply vlargest_largest; auto.
Qed.
Print Assumptions C13_fix_dense.

(** For sets of length 0 the dense form divides by zero. *)
Theorem C13_fix_dense_length0_refuted : forall s, any_history 0 s -> ms_Fix false s = UB.
Proof.
  intros s H. destruct (any_history_inv 0 s H) as (B & D & Hl). unfold ms_Fix. rewrite D. cbn [seq Nat.mul repeat].
  assert (G : forall l, incl l (seq 0 (ms_Size s)) ->
    ofold (fun o i => do v <- ms_IndexToMulti s i;
      ofold (fun o d => do x <- at_ v d; raw_set o (d + i * 0) x) [] o) l [] = Ok []).
  { induction l as [|i l IH]; intros Hi; cbn [ofold]; auto. rewrite IndexToMulti_spec by auto.
    assert (Hin := Hi i (or_introl eq_refl)). apply in_seq in Hin. rewrite <- actives_length in Hin.
    destruct (nth_error (actives s) i) eqn:E; [|apply nth_error_None in E; lia]. cbn [obind].
    apply IH. intros j Hj. apply Hi. right. auto. }
  rewrite G by (intros i Hi; exact Hi). reflexivity.
Qed.
Print Assumptions C13_fix_dense_length0_refuted.

(** The index is not checked: one past the end reads outside the arrays. *)
Theorem C13_index_out_of_range :
  forall d s compress f i, any_history d s -> 0 < d -> ms_Fix compress s = Ok f -> ms_Size s <= i ->
    f_IndexToMulti f i = UB.
Proof.
  intros d s c f i H Hd Hf Hi. destruct (any_history_inv d s H) as (B & D & Hl). rewrite <- D in *. clear d D.
  rewrite <- actives_length in Hi. destruct c.
  - destruct (Fix_compressed s B Hl) as (mx & H1 & _). rewrite Hf in H1. injection H1 as ->. apply packed_index_oob; auto.
  - destruct (Fix_dense s B Hd Hl) as (mx & H1 & _). rewrite Hf in H1. injection H1 as ->. apply densed_index_oob; auto.
Qed.
Print Assumptions C13_index_out_of_range.

Definition fx0 : fset := MkF 0 true [] [] [] [].
Definition fxc : fset := Eval vm_compute in val fx0 (ms_Fix true ex2).
Definition fxd : fset := Eval vm_compute in val fx0 (ms_Fix false ex2).
Example C13_example :
  any_history 2 ex2 /\ ms_Fix true ex2 = Ok fxc /\ ms_Fix false ex2 = Ok fxd /\
  fstarts fxc = [0;0;1;2;4;5;7;9;10;11] /\ f_MaxDegrees fxc = [3;2] /\ f_MaxDegrees fxd = [3;2] /\
  f_IndexToMulti fxc 5 = Ok [3;1] /\ f_IndexToMulti fxd 5 = Ok [3;1] /\ f_MultiToIndex fxc [3;1] = Ok (Some 5).
Proof.
  split; [right; exists never, ex_lim; apply C08_example|]. repeat split; vm_compute; reflexivity.
Qed.

(** ** C14 *)

Theorem C14_dense_absent :
  forall d s f v, any_history d s -> 0 < d -> ms_Fix false s = Ok f -> length v = d -> ~ member s v ->
    f_MultiToIndex f v = Ok None.
Proof.
  intros d s f v H Hd Hf Hv Hm. destruct (any_history_inv d s H) as (B & D & Hl). rewrite <- D in *. clear d D.
  destruct (Fix_dense s B Hd Hl) as (mx & H1 & _). rewrite Hf in H1. injection H1 as ->.
  destruct (densed_search (dim s) (actives s) mx v Hd Hl Hv) as [(j & [Hj _] & _)|[_ E]]; auto.
  exfalso. apply Hm. apply member_active; auto. eapply nth_error_In; eauto.
Qed.
Print Assumptions C14_dense_absent.

(** In the compressed form every search for an absent multi-index reads past the end
    of the offset array. *)
Theorem C14_compressed_absent_refuted :
  forall d s f v, any_history d s -> ms_Fix true s = Ok f -> length v = d -> ~ member s v ->
    f_MultiToIndex f v = UB.
Proof.
  intros d s f v H Hf Hv Hm. destruct (any_history_inv d s H) as (B & D & Hl). rewrite <- D in *. clear d D.
  destruct (Fix_compressed s B Hl) as (mx & H1 & _). rewrite Hf in H1. injection H1 as ->.
  destruct (packed_search (dim s) (actives s) mx v Hl Hv) as [(j & [Hj _] & _)|[_ E]]; auto.
  exfalso. apply Hm. apply member_active; auto. eapply nth_error_In; eauto.
Qed.
Print Assumptions C14_compressed_absent_refuted.

(** What does hold for both forms: a search that returns normally is right. *)
Theorem C14_search_partial :
  forall d s compress f v r, any_history d s -> 0 < d -> ms_Fix compress s = Ok f -> length v = d ->
    f_MultiToIndex f v = Ok r ->
    match r with Some i => ms_IndexToMulti s i = Ok v | None => ~ member s v end.
Proof.
  intros d s c f v r H Hd Hf Hv Hr. destruct (any_history_inv d s H) as (B & D & Hl). rewrite <- D in *. clear d D. destruct c.
  - destruct (Fix_compressed s B Hl) as (mx & H1 & _). rewrite Hf in H1. injection H1 as ->.
    destruct (packed_search (dim s) (actives s) mx v Hl Hv) as [(j & [Hj _] & E)|[_ E]]; rewrite E in Hr; [|discriminate].
    injection Hr as <-. apply index_nth; auto.
  - destruct (Fix_dense s B Hd Hl) as (mx & H1 & _). rewrite Hf in H1. injection H1 as ->.
    destruct (densed_search (dim s) (actives s) mx v Hd Hl Hv) as [(j & [Hj _] & E)|[Hn E]]; rewrite E in Hr; injection Hr as <-.
    + apply index_nth; auto.
    + rewrite member_active by auto. exact Hn.
Qed.
Print Assumptions C14_search_partial.

Example C14_example : ~ member ex2 [0;3] /\ f_MultiToIndex fxc [0;3] = UB /\ f_MultiToIndex fxd [0;3] = Ok None.
Proof.
  split; [|split; vm_compute; reflexivity]. destruct C08_example as [R _]. destruct (reach_inv _ _ _ _ R) as (F & _).
  rewrite member_active by apply F. unfold active. vm_compute. intuition discriminate.
Qed.

(** ** C15 *)

Lemma vsum_repeat0 n : vsum (repeat 0 n) = 0.
Proof. induction n; cbn [repeat]; rewrite ?vsum_cons, ?vsum_nil; lia. Qed.

Lemma vsum_unit d p : forall k, k < d -> vsum (vset (repeat 0 d) k p) = p.
Proof.
  unfold vset. rewrite repeat_length. intros k Hk.
  replace (map (fun j => if j =? k then p else nth j (repeat 0 d) 0) (seq 0 d)) with (repeat 0 k ++ p :: repeat 0 (d - S k)).
  - rewrite vsum_app, vsum_cons, !vsum_repeat0. lia.
  - apply (nth_ext_eq _ _ 0); [rewrite app_length, map_length, seq_length; cbn [length]; rewrite !repeat_length; lia|].
    intros i Hi. rewrite app_length in Hi. cbn [length] in Hi. rewrite !repeat_length in Hi.
    rewrite (nth_indep (map _ _) 0 (if 0 =? k then p else nth 0 (repeat 0 d) 0)) by (rewrite map_length, seq_length; lia).
    rewrite (map_nth (fun j => if j =? k then p else nth j (repeat 0 d) 0)), seq_nth by lia. cbn [Nat.add].
    rewrite nth_repeat. destruct (Nat.eqb_spec i k) as [->|Hn].
    + rewrite app_nth2 by (rewrite repeat_length; lia). rewrite repeat_length, Nat.sub_diag. reflexivity.
    + destruct (Nat.lt_ge_cases i k).
      * rewrite app_nth1 by (rewrite repeat_length; lia). apply nth_repeat.
      * rewrite app_nth2 by (rewrite repeat_length; lia). rewrite repeat_length.
        destruct (i - k) as [|j] eqn:E; [lia|]. cbn [nth]. apply nth_repeat.
Qed.

(** The multi-indices a fixed set lists. *)
Definition fmember (f : fset) (v : vec) : Prop := exists i, i < f_Size f /\ f_IndexToMulti f i = Ok v.

Theorem C15_total_order_exact :
  forall d p, 0 < d -> exists f, f_total_order d p = Ok f /\ f_Length f = d /\
    f_Size f = choose (d + p) p /\
    (forall i, i < f_Size f -> exists v, f_IndexToMulti f i = Ok v) /\
    (forall v, fmember f v <-> length v = d /\ vsum v <= p) /\
    (forall i j v, i < f_Size f -> j < f_Size f -> f_IndexToMulti f i = Ok v -> f_IndexToMulti f j = Ok v -> i = j) /\
    f_MaxDegrees f = repeat p d.
Proof.
  intros d p Hd. destruct (total_order_packed d p Hd) as (mx & H1 & H2 & H3).
  set (vs := enum_total p (d - 1) []) in *.
  assert (HI : forall v, In v vs <-> length v = d /\ vsum v <= p).
  { intros v. unfold vs. rewrite enum_total_In by (rewrite vsum_nil; lia). split.
    - intros (t & -> & Ht & Hs). cbn [app] in *. split; [lia|auto].
    - intros [A C]. exists v. split; auto. split; [lia|auto]. }
  assert (HN : forall i v, nth_error vs i = Some v -> f_IndexToMulti (packed d vs mx) i = Ok v).
  { intros i v Hi. apply packed_index; auto. apply HI. eapply nth_error_In; eauto. }
  exists (packed d vs mx). split; auto. split; [reflexivity|]. rewrite packed_size. repeat split.
  - unfold vs. rewrite enum_total_length, vsum_nil by (rewrite vsum_nil; lia).
    replace (S (d - 1)) with d by lia. rewrite Nat.sub_0_r. apply choose_sym.
  - intros i Hi. destruct (nth_error vs i) eqn:E; [|apply nth_error_None in E; lia]. eauto.
  - destruct H as (i & Hi & E). rewrite packed_size in Hi. destruct (nth_error vs i) as [w|] eqn:Ew; [|apply nth_error_None in Ew; lia].
    rewrite (HN i w Ew) in E. injection E as ->. apply HI. eapply nth_error_In; eauto.
  - destruct H as (i & Hi & E). rewrite packed_size in Hi. destruct (nth_error vs i) as [w|] eqn:Ew; [|apply nth_error_None in Ew; lia].
    rewrite (HN i w Ew) in E. injection E as ->. apply HI. eapply nth_error_In; eauto.
  - intros H. apply HI in H. apply In_nth_error in H. destruct H as [i Hi]. exists i.
    split; [rewrite packed_size; eapply nth_error_lt; eauto|auto].
  - intros i j v Hi Hj E1 E2.
    destruct (nth_error vs i) as [w|] eqn:Ew; [|apply nth_error_None in Ew; lia].
    destruct (nth_error vs j) as [u|] eqn:Eu; [|apply nth_error_None in Eu; lia].
    rewrite (HN i w Ew) in E1. rewrite (HN j u Eu) in E2.
    apply (proj1 (NoDup_nth_error vs)); auto; [|congruence]. apply enum_total_NoDup. rewrite vsum_nil. lia.
  - apply (nth_ext_eq _ _ 0); [cbn; rewrite repeat_length; auto|]. intros k Hk. cbn [packed f_MaxDegrees fmax] in *.
    rewrite H2 in Hk. destruct (H3 k Hk) as [A C]. rewrite (nth_indep (repeat p d) 0 p) by (rewrite repeat_length; auto).
    rewrite nth_repeat. apply Nat.le_antisymm.
    + destruct C as [C|(v & Hv & E)]; [lia|]. apply HI in Hv. rewrite <- E.
      assert (G : forall (v : vec) k, nth k v 0 <= vsum v).
      { clear. induction v as [|x v IH]; intros [|k]; rewrite ?vsum_cons, ?vsum_nil; cbn [nth]; try lia. specialize (IH k). lia. }
      specialize (G v k). lia.
    + specialize (A (vset (repeat 0 d) k p)).
      assert (G : nth k (vset (repeat 0 d) k p) 0 = p).
      { unfold vset. rewrite repeat_length. rewrite (nth_indep _ 0 (if 0 =? k then p else nth 0 (repeat 0 d) 0)) by (rewrite map_length, seq_length; auto).
        rewrite (map_nth (fun j => if j =? k then p else nth j (repeat 0 d) 0)), seq_nth by auto. cbn [Nat.add]. rewrite Nat.eqb_refl. auto. }
      rewrite G in A. apply A. apply HI. split; [unfold vset; rewrite map_length, seq_length, repeat_length; auto|].
      rewrite vsum_unit by auto. lia.
Qed.
Print Assumptions C15_total_order_exact.

(** The counting recursion allocates exactly what the filling recursion writes: the
    offsets end at the allocated number of non-zeros. *)
Theorem C15_allocation_exact :
  forall k p, exists f, f_total_order (S k) p = Ok f /\
    length (fstarts f) = fst (total_size k p) + 1 /\ length (fdims f) = snd (total_size k p) /\
    length (forders f) = snd (total_size k p) /\ last (fstarts f) 0 = snd (total_size k p).
Proof.
  intros k p. destruct (total_order_packed (S k) p) as (mx & H1 & _); [lia|]. replace (S k - 1) with k in H1 by lia.
  destruct (total_size_enum p k [] p) as [E1 E2]; [rewrite vsum_nil; lia|]. unfold vnnz in E2. cbn [filter length] in E2.
  rewrite Nat.mul_0_l, Nat.add_0_r in E2. rewrite <- E1, <- E2.
  eexists. split; [exact H1|]. cbn [packed fstarts fdims forders].
  rewrite app_length, starts0_length, flat_inds_length, flat_vals_length, last_last. auto.
Qed.
Print Assumptions C15_allocation_exact.

(** Same members in the same order as MultiIndexSet::CreateTotalOrder followed by Fix(true). *)
Theorem C15_agrees_with_fix :
  forall d p, 0 < d -> exists s f, ms_CreateTotalOrder d p (fun _ => true) = Ok s /\ ms_Fix true s = Ok f /\
    f_total_order d p = Ok f.
Proof.
  intros d p Hd. destruct (CreateTotalOrder_spec d p (fun _ => true) Hd) as (s & H & G).
  assert (B := g_base _ _ _ G). assert (D := g_dim _ _ _ G). cbn [ms_empty dim] in D.
  assert (A := g_act _ _ _ G). rewrite filter_all in A. cbn [ms_empty actives a2g map app] in A.
  assert (Hl : forall v, In v (actives s) -> length v = dim s) by (intros v Hv; apply (b_len _ B); apply active_in_all; auto).
  destruct (Fix_compressed s B Hl) as (mx & H1 & H2 & H3). destruct (total_order_packed d p Hd) as (mx' & G1 & G2 & G3).
  rewrite A, D in *. exists s, (packed d (enum_total p (d - 1) []) mx). split; auto. split; auto. rewrite G1. do 2 f_equal.
  apply (nth_ext_eq _ _ 0); [congruence|]. intros k Hk. rewrite G2 in Hk.
  assert (U : forall m m', vlargest (enum_total p (d - 1) []) k m -> vlargest (enum_total p (d - 1) []) k m' -> m <= m').
  { intros m m' [_ [->|(v & Hv & <-)]] [Hm' _]; [lia|apply Hm'; auto]. }
  apply Nat.le_antisymm; apply U; auto.
Qed.
Print Assumptions C15_agrees_with_fix.

(** With dimension 0 the constructor's recursion test wraps around. *)
Theorem C15_dimension0_refuted : forall p, f_total_order 0 p = UB.
Proof. reflexivity. Qed.
Print Assumptions C15_dimension0_refuted.

Definition fxt : fset := Eval vm_compute in val fx0 (f_total_order 3 2).
Example C15_example : f_total_order 3 2 = Ok fxt /\ f_Size fxt = 10 /\ fstarts fxt = [0;0;1;2;3;5;6;7;9;11;12] /\
  f_IndexToMulti fxt 7 = Ok [1;0;1] /\ total_size 2 2 = (10, 12).
Proof. repeat split; vm_compute; reflexivity. Qed.
