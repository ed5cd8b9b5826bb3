(** Proofs about neighbourhoods and limiters. *)
From Coq Require Import Reals Lra.
From Verif Require Import Base SpecMulti SpecLimiter MultiIndexModel LimiterModel MultiIndexProofs.

(** ** Neighbourhood *)

Lemma nb_forward_spec m : wf m ->
  nb_forward m = Ok (map (fun i => mi_of_vec (vset (dense m) i (nth i (dense m) 0 + 1)))
                         (seq 0 (mi_length m))).
Proof.
  intros H. unfold nb_forward. rewrite mi_Vector_spec by auto. cbn [obind].
  rewrite dense_length. f_equal. apply map_ext. intros i. rewrite vset_upd. reflexivity.
Qed.

Lemma nb_backward_spec m : wf m ->
  nb_backward m = Ok (map (fun i => mi_of_vec (vset (dense m) i (nth i (dense m) 0 - 1)))
                          (filter (fun i => negb (nth i (dense m) 0 =? 0)) (seq 0 (mi_length m)))).
Proof.
  intros H. unfold nb_backward. rewrite mi_Vector_spec by auto. cbn [obind].
  rewrite dense_length. f_equal. apply map_ext. intros i. rewrite vset_upd. reflexivity.
Qed.

Lemma plus_unit_iff a b i : i < length a ->
  (plus_unit a b i <-> b = vset a i (nth i a 0 + 1)).
Proof.
  intros Hi. split.
  - intros (Hl & _ & H). apply (nth_ext_eq _ _ 0).
    + rewrite vset_length. auto.
    + intros j Hj. rewrite H, nth_vset by lia.
      destruct (Nat.eqb_spec j i) as [->|]; lia.
  - intros ->. split; [rewrite vset_length; auto|]. split; auto.
    intros j. destruct (Nat.lt_ge_cases j (length a)) as [Hj|Hj].
    + rewrite nth_vset by auto. destruct (Nat.eqb_spec j i) as [->|]; lia.
    + rewrite !nth_overflow by (rewrite ?vset_length; auto).
      destruct (Nat.eqb_spec j i); lia.
Qed.

Lemma fwd_rel_vset a b :
  fwd_rel a b <-> exists i, i < length a /\ b = vset a i (nth i a 0 + 1).
Proof.
  split.
  - intros (i & H). exists i. assert (Hi : i < length a) by apply H. split; auto.
    apply plus_unit_iff; auto.
  - intros (i & Hi & H). exists i. apply plus_unit_iff; auto.
Qed.

Lemma bwd_vset a b :
  fwd_rel b a <-> exists i, i < length a /\ nth i a 0 <> 0 /\ b = vset a i (nth i a 0 - 1).
Proof.
  split.
  - intros (i & Hl & Hi & H). exists i. split; [lia|]. split.
    + rewrite H, Nat.eqb_refl. lia.
    + apply (nth_ext_eq _ _ 0); [rewrite vset_length; lia|].
      intros j Hj. rewrite nth_vset by lia. pose proof (H j) as Hj2.
      destruct (Nat.eqb_spec j i) as [->|]; lia.
  - intros (i & Hi & Hn & ->). exists i. split; [rewrite vset_length; auto|].
    split; [rewrite vset_length; auto|]. intros j.
    destruct (Nat.lt_ge_cases j (length a)) as [Hj|Hj].
    + rewrite nth_vset by auto. destruct (Nat.eqb_spec j i) as [->|]; lia.
    + rewrite !nth_overflow by (rewrite ?vset_length; auto).
      destruct (Nat.eqb_spec j i); lia.
Qed.

Lemma Forall2_le_sum a b : Forall2 le a b -> vsum a <= vsum b.
Proof. induction 1; [auto|]. rewrite !vsum_cons. lia. Qed.

Lemma Forall2_le_eq a b : Forall2 le a b -> vsum b = vsum a -> a = b.
Proof.
  induction 1 as [|x y a b Hxy H IH]; intros Hs; auto. rewrite !vsum_cons in Hs.
  apply Forall2_le_sum in H. f_equal; [lia|]. apply IH. lia.
Qed.

Lemma Forall2_le_refl a : Forall2 le a a.
Proof. induction a; constructor; auto. Qed.

Lemma plus_unit_sum a b : Forall2 le a b -> (vsum b = S (vsum a) <-> fwd_rel a b).
Proof.
  intros H. split.
  - induction H as [|x y a b Hxy H IH]; intros Hs; [discriminate|].
    rewrite !vsum_cons in Hs. pose proof (Forall2_le_sum _ _ H) as Hle.
    destruct (Nat.eq_dec x y) as [->|Hne].
    + destruct IH as (i & Hl & Hi & Hj); [lia|]. exists (S i).
      split; [cbn; lia|]. split; [cbn; lia|]. intros [|j]; cbn; [lia|]. apply Hj.
    + assert (a = b) by (apply Forall2_le_eq; auto; lia). subst b.
      exists 0. split; auto. split; [cbn; lia|]. intros [|j]; cbn; lia.
  - induction H as [|x y a b Hxy H IH]; intros (i & Hl & Hi & Hj); [cbn in Hi; lia|].
    rewrite !vsum_cons. destruct i as [|i].
    + assert (a = b).
      { apply (nth_ext_eq _ _ 0); [cbn in Hl; lia|]. intros j _. specialize (Hj (S j)).
        cbn in Hj. lia. }
      subst b. specialize (Hj 0). cbn in Hj. lia.
    + pose proof (Hj 0) as H0. cbn in H0. rewrite IH; [lia|].
      exists i. split; [cbn in Hl; lia|]. split; [cbn in Hi; lia|].
      intros j. specialize (Hj (S j)). cbn in Hj. exact Hj.
Qed.

Lemma fwd_rel_Forall2 a b : fwd_rel a b -> Forall2 le a b.
Proof.
  intros (i & Hl & Hi & H). revert b i Hl Hi H.
  induction a as [|x a IH]; intros [|y b] i Hl Hi H; cbn in *; try lia; auto.
  constructor.
  - specialize (H 0). cbn in H. lia.
  - destruct i as [|i].
    + replace b with a; [apply Forall2_le_refl|].
      apply (nth_ext_eq _ _ 0); [lia|]. intros j _. specialize (H (S j)). cbn in H. lia.
    + apply (IH b i); try lia. intros j. specialize (H (S j)). cbn in H. exact H.
Qed.

Lemma fwd_rel_nnz a b : fwd_rel a b -> vnnz a <= vnnz b <= vnnz a + 1.
Proof.
  intros (i & Hl & Hi & H). revert b i Hl Hi H. unfold vnnz.
  induction a as [|x a IH]; intros [|y b] i Hl Hi H; cbn in *; try lia.
  destruct i as [|i].
  - replace b with a.
    2:{ apply (nth_ext_eq _ _ 0); [lia|]. intros j _. specialize (H (S j)). cbn in H. lia. }
    specialize (H 0). cbn in H. replace y with (x + 1) by lia.
    destruct x; cbn; lia.
  - pose proof (H 0) as H0. cbn in H0. replace y with x by lia.
    assert (IHH := IH b i ltac:(lia) ltac:(lia)).
    cbn in IHH. destruct (IHH) as [A B].
    { intros j. specialize (H (S j)). cbn in H. exact H. }
    destruct (negb (x =? 0)); cbn; lia.
Qed.

Lemma Forall2_cons_inv {A B} (P : A -> B -> Prop) x y l l' :
  Forall2 P (x :: l) (y :: l') -> P x y /\ Forall2 P l l'.
Proof. intros H. inversion H; auto. Qed.

Lemma isfwd_loop_spec k i d a b :
  wf a -> wf b -> mi_length a = mi_length b -> i + k = mi_length b -> d <= 1 ->
  exists r, nb_isfwd_loop k i d a b = Ok r /\
    (r = true <-> Forall2 le (skipn i (dense a)) (skipn i (dense b)) /\
                  d + vsum (skipn i (dense b)) = S (vsum (skipn i (dense a)))).
Proof.
  intros Ha Hb Hab. revert i d; induction k as [|k IH]; intros i d Hi Hd; cbn [nb_isfwd_loop].
  - exists (d =? 1). split; auto. rewrite !skipn_all2 by (rewrite dense_length; lia).
    rewrite Nat.eqb_eq, !vsum_nil. split; [intros; split; auto; lia|intros [_ ?]; lia].
  - rewrite !mi_Get_dense by (auto; lia). cbn [obind].
    rewrite (skipn_cons_nth (dense a)), (skipn_cons_nth (dense b)) by (rewrite dense_length; lia).
    rewrite !vsum_cons.
    destruct (Nat.ltb_spec (nth i (dense b) 0) (nth i (dense a) 0)) as [L|L].
    + exists false. split; auto. split; [discriminate|]. intros [H _]. inversion H. lia.
    + cbv zeta.
      destruct (Nat.ltb_spec 1 (d + (nth i (dense b) 0 - nth i (dense a) 0))) as [L2|L2].
      * exists false. split; auto. split; [discriminate|]. intros [H H2]. apply Forall2_cons_inv in H. destruct H as [_ HF].
        apply Forall2_le_sum in HF. lia.
      * destruct (IH (S i) (d + (nth i (dense b) 0 - nth i (dense a) 0))) as (r & Hr & Hiff); try lia.
        exists r. split; auto. rewrite Hiff. split.
        -- intros [H1 H2]. split; [constructor; auto|lia].
        -- intros [H1 H2]. apply Forall2_cons_inv in H1. destruct H1. split; [auto|lia].
Qed.

Lemma nb_isfwd_spec a b : wf a -> wf b -> mi_length a = mi_length b ->
  exists r, nb_isfwd a b = Ok r /\ (r = true <-> fwd_rel (dense a) (dense b)).
Proof.
  intros Ha Hb Hab. unfold nb_isfwd. rewrite !wf_NumNz by auto.
  destruct ((vnnz (dense a) + 1 <? vnnz (dense b)) || (vnnz (dense b) <? vnnz (dense a))) eqn:E.
  - exists false. split; auto. split; [discriminate|]. intros H. apply fwd_rel_nnz in H.
    apply orb_true_iff in E. destruct E as [E|E]; apply Nat.ltb_lt in E; lia.
  - destruct (isfwd_loop_spec (mi_Length b) 0 0 a b) as (r & Hr & Hiff); auto.
    exists r. split; auto. rewrite Hiff. cbn [skipn plus]. split.
    + intros [H1 H2]. apply plus_unit_sum; auto.
    + intros H. split; [apply fwd_rel_Forall2; auto|].
      apply plus_unit_sum; auto. apply fwd_rel_Forall2; auto.
Qed.

(** ** Limiters *)

Lemma Rleb_iff a b : Rleb a b = true <-> (a <= b)%R.
Proof. unfold Rleb. destruct (Rle_dec a b); split; intros; auto; discriminate || contradiction. Qed.
Lemma Rltb_iff a b : Rltb a b = true <-> (a < b)%R.
Proof. unfold Rltb. destruct (Rlt_dec a b); split; intros; auto; discriminate || contradiction. Qed.

Lemma all_zero_at_spec m inds : wf m -> Forall (fun i => i <= mi_length m) inds ->
  exists r, all_zero_at m inds = Ok r /\
    (r = true <-> forall i, In i inds -> i < mi_length m -> nth i (dense m) 0 = 0).
Proof.
  intros Hm. induction inds as [|i t IH]; intros Hf; cbn [all_zero_at].
  - exists true. split; auto. split; auto. intros _ i [].
  - inversion Hf as [|? ? Hi Ht]; subst. rewrite mi_Get_spec by auto. cbn [obind].
    destruct (IH Ht) as (r & Hr & Hiff).
    destruct (Nat.eqb_spec (slook (nzInds m) (nzVals m) i) 0) as [E|E]; cbn [negb].
    + exists r. split; auto. rewrite Hiff. split.
      * intros H j [<-|Hj] Hjl; auto. rewrite nth_dense by auto. auto.
      * intros H j Hj. apply H. right; auto.
    + exists false. split; auto. split; [discriminate|]. intros H. exfalso. apply E.
      destruct (Nat.lt_ge_cases i (mi_length m)) as [L|L].
      * rewrite <- nth_dense by auto. apply H; auto. left; auto.
      * apply slook_ge. eapply Forall_impl; [|apply (wf_range _ Hm)]. cbn; intros; lia.
Qed.

Lemma lim_dim_spec lo n m : wf m -> lo <= S (mi_length m) ->
  exists r, lim_dim lo n m = Ok r /\ (r = true <-> accepts (LDim lo n) (dense m)).
Proof.
  intros Hm Hlo. unfold lim_dim, mi_Length.
  destruct (all_zero_at_spec m (seq 0 lo)) as (r1 & Hr1 & Hi1); auto.
  { apply Forall_forall. intros i Hi. apply in_seq in Hi. lia. }
  destruct (all_zero_at_spec m (seq (lo + n) (mi_length m - (lo + n)))) as (r2 & Hr2 & Hi2); auto.
  { apply Forall_forall. intros i Hi. apply in_seq in Hi. lia. }
  rewrite Hr1. cbn [obind accepts]. rewrite dense_length.
  destruct r1.
  - exists r2. split; auto. rewrite Hi2. split.
    + intros H i Hi [Hc|Hc].
      * apply Hi1; auto. apply in_seq. lia.
      * apply H; auto. apply in_seq. lia.
    + intros H i Hin Hi. apply H; auto. apply in_seq in Hin. lia.
  - exists false. split; auto. split; [discriminate|]. intros H.
    apply Hi1. intros i Hin Hi. apply H; auto. apply in_seq in Hin. lia.
Qed.

Lemma aniso_loop_spec w m i p : wf m -> i + length w = mi_length m ->
  aniso_loop w m i p = Ok (p * wprod w (skipn i (dense m)))%R.
Proof.
  intros Hm. revert i p; induction w as [|x w IH]; intros i p Hi; cbn [aniso_loop].
  - f_equal. destruct (skipn i (dense m)); cbn [wprod]; ring.
  - cbn in Hi. rewrite mi_Get_dense by (auto; lia). cbn [obind]. rewrite IH by lia.
    rewrite (skipn_cons_nth (dense m) i) by (rewrite dense_length; lia).
    cbn [wprod]. f_equal. ring.
Qed.

Lemma lim_aniso_spec w eps m : wf m ->
  exists r, lim_aniso w eps m = Ok r /\ (r = true <-> accepts (LAniso w eps) (dense m)).
Proof.
  intros Hm. unfold lim_aniso, mi_Length. cbn [accepts]. rewrite dense_length.
  destruct (Nat.eqb_spec (mi_length m) (length w)) as [E|E]; cbn [negb].
  - rewrite aniso_loop_spec by (auto; lia). cbn [obind skipn].
    eexists. split; [reflexivity|]. rewrite Rleb_iff, Rmult_1_l. tauto.
  - exists false. split; auto. split; [discriminate|]. tauto.
Qed.

Lemma maxdeg_loop_spec b m i : wf m -> i + length b = mi_length m ->
  exists r, maxdeg_loop b m i = Ok r /\
    (r = true <-> forall j, j < length b -> nth (i + j) (dense m) 0 <= nth j b 0).
Proof.
  intros Hm. revert i; induction b as [|x b IH]; intros i Hi; cbn [maxdeg_loop].
  - exists true. split; auto. split; auto. cbn. intros; lia.
  - cbn in Hi. rewrite mi_Get_dense by (auto; lia). cbn [obind].
    destruct (Nat.ltb_spec x (nth i (dense m) 0)) as [L|L].
    + exists false. split; auto. split; [discriminate|]. intros H. specialize (H 0).
      cbn in H. rewrite Nat.add_0_r in H. lia.
    + destruct (IH (S i)) as (r & Hr & Hiff); [lia|]. exists r. split; auto. rewrite Hiff. split.
      * intros H [|j] Hj; cbn in *; [rewrite Nat.add_0_r; auto|].
        replace (i + S j) with (S i + j) by lia. apply H. lia.
      * intros H j Hj. specialize (H (S j)). cbn in H. replace (i + S j) with (S i + j) in H by lia.
        apply H. lia.
Qed.

Lemma lim_maxdeg_spec b m : wf m ->
  exists r, lim_maxdeg b m = Ok r /\ (r = true <-> accepts (LMaxDeg b) (dense m)).
Proof.
  intros Hm. unfold lim_maxdeg, mi_Length. cbn [accepts]. rewrite dense_length.
  destruct (Nat.eqb_spec (mi_length m) (length b)) as [E|E]; cbn [negb].
  - destruct (maxdeg_loop_spec b m 0) as (r & Hr & Hiff); auto. exists r. split; auto.
    rewrite Hiff, E. cbn [plus]. tauto.
  - exists false. split; auto. split; [discriminate|]. tauto.
Qed.

Lemma lim_eval_spec l m : wf m -> dims_within (mi_length m) l ->
  exists r, lim_eval l m = Ok r /\ (r = true <-> accepts l (dense m)).
Proof.
  intros Hm. induction l as [p|lo n|w eps|b| |a IHa b IHb|a IHa b IHb|a IHa b IHb]; intros Hd;
    cbn [lim_eval dims_within] in *.
  - eexists. split; [reflexivity|]. rewrite Nat.leb_le, wf_Sum by auto. reflexivity.
  - apply lim_dim_spec; auto.
  - apply lim_aniso_spec; auto.
  - apply lim_maxdeg_spec; auto.
  - exists true. cbn. tauto.
  - destruct Hd as [Hda Hdb]. destruct (IHa Hda) as (ra & Ha & Hia).
    destruct (IHb Hdb) as (rb & Hb & Hib). rewrite Ha. cbn [obind accepts].
    destruct ra.
    + exists rb. split; auto. rewrite Hib. tauto.
    + exists false. split; auto. split; [discriminate|]. tauto.
  - destruct Hd as [Hda Hdb]. destruct (IHa Hda) as (ra & Ha & Hia).
    destruct (IHb Hdb) as (rb & Hb & Hib). rewrite Ha. cbn [obind accepts].
    destruct ra.
    + exists true. tauto.
    + exists rb. split; auto. rewrite Hib. split; [tauto|]. intros [H|H]; auto.
      apply Hia in H. discriminate.
  - destruct Hd as [Hda Hdb]. destruct (IHa Hda) as (ra & Ha & Hia).
    destruct (IHb Hdb) as (rb & Hb & Hib). rewrite Ha, Hb. cbn [obind accepts].
    eexists. split; [reflexivity|]. rewrite <- Hia, <- Hib. destruct ra, rb; cbn; intuition congruence.
Qed.

(** Downward closure. *)

Lemma vle_Forall2 a b : vle a b -> Forall2 le a b.
Proof.
  intros [Hl H]. revert b Hl H; induction a as [|x a IH]; intros [|y b] Hl H; cbn in *; try lia; auto.
  constructor; [apply (H 0)|]. apply IH; [lia|]. intros j. apply (H (S j)).
Qed.

Lemma wprod_nonneg w v : Forall (fun x => 0 <= x <= 1)%R w -> (0 <= wprod w v)%R.
Proof.
  intros H. revert v; induction H as [|x w Hx H IH]; intros [|k v]; cbn; try lra.
  apply Rmult_le_pos; auto. apply pow_le; lra.
Qed.

Lemma pow_anti x j k : (0 <= x <= 1)%R -> j <= k -> (x ^ k <= x ^ j)%R.
Proof.
  intros Hx H. induction H as [|k H IH]; [lra|]. cbn.
  assert (0 <= x ^ k)%R by (apply pow_le; lra). nra.
Qed.

Lemma wprod_anti w a b : Forall (fun x => 0 <= x <= 1)%R w -> Forall2 le a b ->
  (wprod w b <= wprod w a)%R.
Proof.
  intros Hw H. revert w Hw; induction H as [|x y a b Hxy H IH]; intros w Hw; [lra|].
  destruct Hw as [|z w Hz Hw]; cbn; [lra|].
  apply Rmult_le_compat.
  - apply pow_le; lra.
  - apply wprod_nonneg; auto.
  - apply pow_anti; auto.
  - apply IH; auto.
Qed.

Lemma limiter_down_closed l : monotone_limiter l -> down_closed (accepts l).
Proof.
  intros Hl a b Hab. induction l as [p|lo n|w eps|bd| |l1 IH1 l2 IH2|l1 IH1 l2 IH2|l1 IH1 l2 IH2];
    cbn [accepts monotone_limiter] in *.
  - intros H. pose proof (Forall2_le_sum _ _ (vle_Forall2 _ _ Hab)). lia.
  - intros H i Hi Hc. destruct Hab as [Hlen Hab]. specialize (Hab i).
    rewrite H in Hab by (auto; lia). lia.
  - intros [H1 H2]. split; [destruct Hab; lia|].
    apply Rle_trans with (wprod w b); auto. apply wprod_anti; [apply Hl|]. apply vle_Forall2; auto.
  - intros [H1 H2]. destruct Hab as [Hlen Hab]. split; [lia|].
    intros i Hi. specialize (H2 i). specialize (Hab i). lia.
  - auto.
  - tauto.
  - tauto.
  - tauto.
Qed.

Lemma aniso_ctor_monotone w eps : aniso_ctor_ok w eps = true -> monotone_limiter (LAniso w eps).
Proof.
  unfold aniso_ctor_ok. intros H. apply andb_true_iff in H. destruct H as [H1 H2]. cbn. split.
  - apply Forall_forall. intros x Hx. rewrite forallb_forall in H1. specialize (H1 x Hx).
    apply negb_true_iff in H1. apply orb_false_iff in H1. destruct H1 as [A B].
    split; apply Rnot_lt_le; intros C; apply Rltb_iff in C; congruence.
  - apply negb_true_iff in H2. apply orb_false_iff in H2. destruct H2 as [A B].
    split; apply Rnot_le_lt; intros C; apply Rleb_iff in C; congruence.
Qed.
