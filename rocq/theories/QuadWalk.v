(** Proofs about the parts shared by the two adaptive rules: workspace accesses, error
    estimate, the path word. *)
From Coq Require Import Reals Lra NArith Psatz.
From Coquelicot Require Import Coquelicot.
From Verif Require Import Base SpecMulti SpecExpansion SpecQuad SpecPoly PolyModel PolyProofs BijProofs ExpansionProofs QuadModel.
Local Open Scope R_scope.

Definition rd (ws : list R) (p : nat) : R := nth p ws 0.

Lemma get_ok ws p : (p < length ws)%nat -> raw_get ws p = Ok (rd ws p).
Proof. intros H. now apply raw_get_ok. Qed.

Lemma store_ok ws p v : (p + length v <= length ws)%nat ->
  exists ws', store ws p v = Ok ws' /\ length ws' = length ws /\
    (forall k, (k < length v)%nat -> rd ws' (p + k) = nth k v 0) /\
    forall j, (j < p \/ p + length v <= j)%nat -> rd ws' j = rd ws j.
Proof.
  intros H. unfold store. destruct (Nat.leb_spec (p + length v) (length ws)); [|lia]. eexists. split; [reflexivity|].
  split; [rewrite !app_length, firstn_length, skipn_length; lia|]. unfold rd. split.
  - intros k Hk. rewrite app_nth2; rewrite firstn_length; [|lia]. rewrite app_nth1 by lia. f_equal. lia.
  - intros j [Hj|Hj].
    + rewrite app_nth1 by (rewrite firstn_length; lia).
      rewrite <- (firstn_skipn p ws) at 2. rewrite app_nth1 by (rewrite firstn_length; lia). reflexivity.
    + rewrite app_nth2; rewrite firstn_length; [|lia]. rewrite app_nth2 by lia. rewrite skipn_nth.
      f_equal. lia.
Qed.

Lemma set_ok ws p v : (p < length ws)%nat ->
  exists ws', raw_set ws p v = Ok ws' /\ length ws' = length ws /\ rd ws' p = v /\ forall j, j <> p -> rd ws' j = rd ws j.
Proof.
  intros H. rewrite raw_set_ok by auto. eexists. split; [reflexivity|]. split; [apply upd_length|]. unfold rd. split.
  - now apply nth_upd_eq.
  - intros j Hj. apply nth_upd_neq. auto.
Qed.

(** ** The error estimate *)

Lemma estimate_error_ok q ws (c y : nat -> R) pc pf : (1 <= q_fdim q)%nat ->
  (pc + q_fdim q <= length ws)%nat -> (pf + q_fdim q <= length ws)%nat ->
  (forall i, (i < q_fdim q)%nat -> rd ws (pc + i) = c i) -> (forall i, (i < q_fdim q)%nat -> rd ws (pf + i) = y i) ->
  EstimateError q ws pc pf = Ok (size_of (q_metric q) (q_fdim q) (fun i => y i - c i),
                                 Rmax (q_relTol q * size_of (q_metric q) (q_fdim q) c) (q_absTol q)).
Proof.
  intros F Lc Lf Hc Hy. unfold EstimateError. destruct (q_metric q); cbn [size_of].
  - rewrite !get_ok by lia. cbn [obind fst snd].
    pose proof (Hc 0%nat ltac:(lia)) as E. pose proof (Hy 0%nat ltac:(lia)) as E'. rewrite Nat.add_0_r in E, E'. now rewrite E, E'.
  - rewrite (ofold_seq _ (fun k => (rmax (fun i => Rabs (y i - c i)) k, rmax (fun i => Rabs (c i)) k))).
    + reflexivity.
    + intros o Ho. rewrite !get_ok by lia. cbn [obind fst snd]. rewrite Hc, Hy by lia.
      replace (o + 1)%nat with (S o) by lia. reflexivity.
  - rewrite (ofold_seq _ (fun k => (rsum (fun i => (y i - c i) * (y i - c i)) k, rsum (fun i => c i * c i) k))).
    + reflexivity.
    + intros o Ho. rewrite !get_ok by lia. cbn [obind fst snd]. rewrite Hc, Hy by lia.
      replace (o + 1)%nat with (S o) by lia. reflexivity.
  - rewrite (ofold_seq _ (fun k => (rsum (fun i => Rabs (y i - c i)) k, rsum (fun i => Rabs (c i)) k))).
    + reflexivity.
    + intros o Ho. rewrite !get_ok by lia. cbn [obind fst snd]. rewrite Hc, Hy by lia.
      replace (o + 1)%nat with (S o) by lia. reflexivity.
Qed.

Lemma Rltb_spec a b : Bool.reflect (a < b) (Rltb a b).
Proof. unfold Rltb. destruct (Rlt_dec a b); constructor; auto. Qed.

Lemma stop_test_spec q lb ub level (coarse fine : R -> R -> nat -> R) a b : (1 <= q_maxSub q)%nat ->
  Bool.reflect (adaptive_stop (q_metric q) (q_fdim q) (q_absTol q) (q_relTol q) (q_maxSub q) (q_minSub q) (ub - lb) coarse fine level a b)
    (stop_test q lb ub (size_of (q_metric q) (q_fdim q) (fun i => fine a b i - coarse a b i))
               (Rmax (q_relTol q * size_of (q_metric q) (q_fdim q) (coarse a b)) (q_absTol q)) level).
Proof.
  intros H. unfold stop_test, adaptive_stop, close.
  destruct (q_maxSub q) as [|m]; [lia|].
  destruct (Rltb_spec (size_of (q_metric q) (q_fdim q) (fun i => fine a b i - coarse a b i))
     (Rmax (q_relTol q * size_of (q_metric q) (q_fdim q) (coarse a b)) (q_absTol q)));
  destruct (Nat.eqb_spec level m); destruct (Nat.leb_spec0 (q_minSub q) level);
  destruct (Rltb_spec (Rabs (ub - lb)) (/ 10 ^ 14)); cbn [orb andb]; constructor;
  intuition lia.
Qed.

Lemma add_fine_ok q ws res (y : nat -> R) : (5 * q_fdim q <= length ws)%nat -> (q_fdim q <= length res)%nat ->
  (forall i, (i < q_fdim q)%nat -> rd ws (4 * q_fdim q + i) = y i) ->
  exists res', add_fine q ws res = Ok res' /\ length res' = length res /\
    forall i, (i < q_fdim q)%nat -> rd res' i = rd res i + y i.
Proof.
  intros L Lr H. unfold add_fine.
  destruct (ofold_inv (fun res i => do v <- raw_get res i; do y <- raw_get ws (4 * q_fdim q + i); raw_set res i (v + y))
     (fun k r => length r = length res /\ (forall i, (i < k)%nat -> rd r i = rd res i + y i) /\ forall i, (k <= i)%nat -> rd r i = rd res i)
     (q_fdim q) 0 res) as (r & E & A & B & C).
  - split; auto. split; auto. intros i Hi; lia.
  - intros i s Hi (A & B & C). rewrite !get_ok by lia. cbn [obind]. rewrite H by lia.
    destruct (set_ok s i (rd s i + y i)) as (s' & E & L' & V & O); [lia|]. exists s'. split; auto. split; [congruence|]. split.
    + intros j Hj. destruct (Nat.eq_dec j i) as [->|Hn]; [rewrite V, C by lia; auto|]. rewrite O by auto. apply B. lia.
    + intros j Hj. rewrite O by lia. apply C. lia.
  - exists r. split; auto.
Qed.

Lemma zero_res n res : (n <= length res)%nat ->
  exists r, ofold (fun res i => raw_set res i 0) (seq 0 n) res = Ok r /\ length r = length res /\ forall i, (i < n)%nat -> rd r i = 0.
Proof.
  intros L.
  destruct (ofold_inv (fun res i => raw_set res i 0) (fun k (r : list R) => length r = length res /\ forall i, (i < k)%nat -> rd r i = 0) n 0 res) as (r & E & A & B).
  - split; auto. intros i Hi; lia.
  - intros i s Hi (A & B). destruct (set_ok s i 0) as (s' & E & L' & V & O); [lia|]. exists s'. split; auto. split; [congruence|].
    intros j Hj. destruct (Nat.eq_dec j i) as [->|Hn]; [auto|]. rewrite O by auto. apply B. lia.
  - exists r. split; auto.
Qed.

(** ** The path word *)

Lemma seg_bit_ok sg k : (k < 32)%nat -> seg_bit sg k = Ok (N.testbit sg (N.of_nat k)).
Proof.
  intros H. unfold seg_bit. destruct (Nat.ltb_spec k 32); [|lia]. f_equal.
  change 1%N with (N.ones 1). rewrite N.land_ones.
  rewrite N.testbit_eqb. rewrite N.shiftr_div_pow2. change (2 ^ 1)%N with 2%N.
  pose proof (N.mod_upper_bound (sg / 2 ^ N.of_nat k) 2 ltac:(discriminate)) as B.
  change (N.ones 1) with 1%N. revert B. generalize ((sg / 2 ^ N.of_nat k) mod 2)%N. intros z B.
  destruct (N.eqb_spec z 0) as [E|E], (N.eqb_spec z 1) as [E'|E']; cbn [negb]; auto; lia.
Qed.

Definition bit (sg : N) (k : nat) : bool := N.testbit sg (N.of_nat k).
Definition set_bit (sg : N) (k : nat) : N := N.lor sg (N.shiftl 1 (N.of_nat k)).
Definition clear_bit (sg : N) (k : nat) : N := N.ldiff sg (N.shiftl 1 (N.of_nat k)).

Lemma one_bit k j : N.testbit (N.shiftl 1 (N.of_nat k)) (N.of_nat j) = (j =? k)%nat.
Proof.
  rewrite N.shiftl_1_l. rewrite N.pow2_bits_eqb. destruct (Nat.eqb_spec j k) as [->|H].
  - apply N.eqb_refl.
  - apply N.eqb_neq. intros E. apply H. apply Nat2N.inj. congruence.
Qed.
Lemma bit_set sg k j : bit (set_bit sg k) j = (bit sg j || (j =? k)%nat)%bool.
Proof. unfold bit, set_bit. rewrite N.lor_spec, one_bit. reflexivity. Qed.
Lemma clear_set sg k : bit sg k = false -> clear_bit (set_bit sg k) k = sg.
Proof.
  intros H. apply N.bits_inj. intros n. rewrite <- (N2Nat.id n). set (j := N.to_nat n). unfold clear_bit.
  rewrite N.ldiff_spec, one_bit. change (N.testbit (set_bit sg k) (N.of_nat j)) with (bit (set_bit sg k) j).
  rewrite bit_set. fold (bit sg j). destruct (Nat.eqb_spec j k) as [->|]; cbn [negb].
  - rewrite H. reflexivity.
  - rewrite orb_false_r, andb_true_r. reflexivity.
Qed.

Lemma climb_stop sg L : (L < 32)%nat -> (L = 0%nat \/ bit sg L = false) -> climb L sg = Ok (L, sg).
Proof.
  intros H H'. destruct L as [|L]; cbn [climb]; rewrite seg_bit_ok by auto; cbn [obind]; auto.
  destruct H' as [H'|H']; [discriminate|]. unfold bit in H'. rewrite H'. reflexivity.
Qed.
Lemma climb_up sg L : (S L < 32)%nat -> bit sg (S L) = true -> climb (S L) sg = climb L (clear_bit sg (S L)).
Proof. intros H H'. cbn [climb]. rewrite seg_bit_ok by auto. cbn [obind]. unfold bit in H'. rewrite H'. reflexivity. Qed.

(** ** Trees *)

Fixpoint tsize (T : btree) : nat := match T with Leaf => 1%nat | Node l r => S (tsize l + tsize r) end.
Lemma over_leaves_app est L1 L2 : over_leaves est (L1 ++ L2) = over_leaves est L1 + over_leaves est L2.
Proof. unfold over_leaves. induction L1 as [|p L1 IH]; cbn; [ring|]. rewrite IH. ring. Qed.

Lemma tsize_bound (stop : nat -> R -> R -> Prop) T : forall d a b m, (d < m)%nat -> (forall d a b, (d + 1 = m)%nat -> stop d a b) ->
  refined stop T d a b -> (tsize T < 2 ^ (m - d))%nat.
Proof.
  induction T as [|l IHl r IHr]; intros d a b m H Hs HR; cbn [tsize].
  - destruct (m - d)%nat as [|k] eqn:E; [lia|]. cbn. pose proof (Nat.pow_nonzero 2 k ltac:(lia)). lia.
  - destruct HR as (N & Hl & Hr). assert (d + 1 <> m)%nat by (intros E; apply N, Hs, E).
    apply (IHl (S d) _ _ m) in Hl; [|lia|auto]. apply (IHr (S d) _ _ m) in Hr; [|lia|auto].
    replace (m - d)%nat with (S (m - S d)) by lia. cbn [Nat.pow]. lia.
Qed.

Lemma leaves_chain T : forall d a b, chain a b (leaves T d a b).
Proof.
  assert (A : forall L1 a b c L2, chain a b L1 -> chain b c L2 -> chain a c (L1 ++ L2)).
  { induction L1 as [|((d & l) & r) L1 IH]; intros a b c L2; cbn [chain app]; [intros ->; auto|].
    intros (-> & H) H2. split; auto. eapply IH; eauto. }
  induction T as [|l IHl r IHr]; intros d a b; cbn [leaves chain]; auto. eapply A; eauto.
Qed.

Lemma leaves_widths T : forall d a b k l r, In (k, l, r) (leaves T d a b) -> (d <= k)%nat /\ r - l = (b - a) / 2 ^ (k - d).
Proof.
  induction T as [|T1 IH1 T2 IH2]; intros d a b k l r H; cbn [leaves] in H.
  - destruct H as [H|[]]. injection H as <- <- <-. split; [lia|]. rewrite Nat.sub_diag. cbn. field.
  - apply in_app_or in H. destruct H as [H|H].
    + apply IH1 in H. destruct H as [H E]. split; [lia|]. rewrite E. replace (k - d)%nat with (S (k - S d)) by lia. cbn [pow].
      field. apply pow_nonzero. lra.
    + apply IH2 in H. destruct H as [H E]. split; [lia|]. rewrite E. replace (k - d)%nat with (S (k - S d)) by lia. cbn [pow].
      field. apply pow_nonzero. lra.
Qed.

Lemma leaves_stop (stop : nat -> R -> R -> Prop) T : forall d a b k l r, refined stop T d a b -> In (k, l, r) (leaves T d a b) -> stop k l r.
Proof.
  induction T as [|T1 IH1 T2 IH2]; intros d a b k l r HR H; cbn [leaves] in H; cbn [refined] in HR.
  - destruct H as [H|[]]. injection H as <- <- <-. auto.
  - destruct HR as (_ & R1 & R2). apply in_app_or in H. destruct H as [H|H]; eauto.
Qed.

Lemma leaves_depth (stop : nat -> R -> R -> Prop) T : forall d a b m k l r, (d < m)%nat -> (forall d a b, (d + 1 = m)%nat -> stop d a b) ->
  refined stop T d a b -> In (k, l, r) (leaves T d a b) -> (k < m)%nat.
Proof.
  induction T as [|T1 IH1 T2 IH2]; intros d a b m k l r Hd Hs HR H; cbn [leaves] in H; cbn [refined] in HR.
  - destruct H as [H|[]]. injection H as <- <- <-. auto.
  - destruct HR as (N & R1 & R2). assert (d + 1 <> m)%nat by (intros E; apply N, Hs, E).
    apply in_app_or in H. destruct H as [H|H]; [eapply (IH1 (S d)); eauto; lia|eapply (IH2 (S d)); eauto; lia].
Qed.
