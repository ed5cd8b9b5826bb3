(** Properties C01-C05: multi-indices, their order, neighbours and limiters. *)
From Coq Require Import Reals Lra.
From Verif Require Import Base SpecMulti SpecLimiter MultiIndexModel LimiterModel
  MultiIndexProofs LimiterProofs.

(** ** C01 *)

(** After any history of in-range Set calls the object is the dense vector
    obtained by the same writes. *)
Theorem C01_multiindex_is_dense_vector :
  forall (v : vec) (h : list (nat * nat)),
    Forall (fun p => fst p < length v) h ->
    exists m, mi_sets (mi_of_vec v) h = Ok m /\
      let w := vwrites v h in
      mi_Vector m = Ok w /\
      mi_Length m = length v /\
      (forall i, i < length v -> mi_Get m i = Ok (nth i w 0)) /\
      mi_Sum m = vsum w /\ mi_Max m = vmax w /\ mi_NumNz m = vnnz w.
Proof.
  intros v h Hh.
  destruct (mi_sets_spec h (mi_of_vec v)) as (m & He & Hw & Hl & Hd).
  { apply mi_of_vec_wf. }
  { rewrite mi_of_vec_spec. exact Hh. }
  rewrite dense_of_vec in Hd. exists m. split; [exact He|]. cbv zeta. rewrite <- Hd.
  assert (Hlen : mi_length m = length v) by (rewrite Hl, mi_of_vec_spec; reflexivity).
  repeat split.
  - apply mi_Vector_spec; auto.
  - exact Hlen.
  - intros i Hi. apply mi_Get_dense; auto. lia.
  - apply wf_Sum; auto.
  - apply wf_Max; auto.
  - apply wf_NumNz; auto.
Qed.
Print Assumptions C01_multiindex_is_dense_vector.

Example C01_example :
  exists m, mi_sets (mi_of_vec [1;0;2;0]) [(1,7);(2,0);(3,5);(0,0);(3,4)] = Ok m /\
            mi_Vector m = Ok [0;7;0;4] /\ mi_Sum m = 11 /\ mi_Max m = 7 /\ mi_NumNz m = 2.
Proof. eexists. split; [reflexivity|]. vm_compute. auto. Qed.

(** Set reports whether an already non-zero entry was updated, and behaves as a
    single write. *)
Theorem C01_set_return_value :
  forall m i x v, reach m -> i < mi_Length m -> mi_Vector m = Ok v ->
    exists m', mi_Set m i x = Ok (m', negb (nth i v 0 =? 0)) /\ mi_Vector m' = Ok (vset v i x).
Proof.
  intros m i x v Hr Hi Hv. apply reach_wf in Hr. rewrite mi_Vector_spec in Hv by auto.
  injection Hv as <-. destruct (mi_Set_spec m i x Hr Hi) as (m' & He & Hw & _ & Hd).
  exists m'. split; auto. rewrite mi_Vector_spec by auto. congruence.
Qed.
Print Assumptions C01_set_return_value.

(** The constant constructor builds the constant vector whenever the length is
    positive or the value zero. *)
Theorem C01_constant_constructor :
  forall len val, (len = 0 -> val = 0) -> mi_const len val = mi_of_vec (repeat val len).
Proof. exact mi_const_of_vec. Qed.
Print Assumptions C01_constant_constructor.

(** Corner: an empty multi-index built with a non-zero value reports that value
    as its maximum although it has no entries. *)
Theorem C01_empty_constant_max_refuted :
  exists val, mi_Vector (mi_const 0 val) = Ok [] /\ mi_Max (mi_const 0 val) <> vmax [].
Proof. exists 3. split; [reflexivity|]. discriminate. Qed.
Print Assumptions C01_empty_constant_max_refuted.

(** ** C02 *)

Theorem C02_order_is_graded_lexicographic :
  forall a b va vb, reach a -> reach b -> mi_Vector a = Ok va -> mi_Vector b = Ok vb ->
    exists r, mi_lt a b = Ok r /\ (r = true <-> graded_lt va vb).
Proof.
  intros a b va vb Ha Hb Hva Hvb. apply reach_wf in Ha, Hb.
  rewrite mi_Vector_spec in Hva, Hvb by auto. injection Hva as <-. injection Hvb as <-.
  apply mi_lt_spec; auto.
Qed.
Print Assumptions C02_order_is_graded_lexicographic.

Theorem C02_equality_is_dense_equality :
  forall a b, reach a -> reach b ->
    exists r, mi_eq a b = Ok r /\ mi_ne a b = Ok (negb r) /\
      (r = true <-> mi_Vector a = mi_Vector b).
Proof.
  intros a b Ha Hb. apply reach_wf in Ha, Hb.
  destruct (mi_ne_spec a b Ha Hb) as (r & Hr & Hiff). exists (negb r).
  unfold mi_eq. rewrite Hr. split; [reflexivity|]. split; [rewrite negb_involutive; reflexivity|].
  rewrite !mi_Vector_spec by auto. destruct r; cbn.
  - split; [discriminate|]. intros H. injection H as H. apply Hiff in H. discriminate.
  - split; auto. intros _. f_equal. apply Hiff. reflexivity.
Qed.
Print Assumptions C02_equality_is_dense_equality.

Theorem C02_strict_total_order :
  forall a b c, reach a -> reach b -> reach c ->
    mi_lt a a = Ok false /\
    (mi_lt a b = Ok true -> mi_lt b c = Ok true -> mi_lt a c = Ok true) /\
    ((mi_lt a b = Ok true /\ mi_eq a b = Ok false /\ mi_lt b a = Ok false) \/
     (mi_lt a b = Ok false /\ mi_eq a b = Ok true /\ mi_lt b a = Ok false) \/
     (mi_lt a b = Ok false /\ mi_eq a b = Ok false /\ mi_lt b a = Ok true)).
Proof.
  intros a b c Ha Hb Hc. apply reach_wf in Ha, Hb, Hc.
  destruct (mi_lt_spec a a Ha Ha) as (raa & Haa & Iaa).
  destruct (mi_lt_spec a b Ha Hb) as (rab & Hab & Iab).
  destruct (mi_lt_spec b a Hb Ha) as (rba & Hba & Iba).
  destruct (mi_lt_spec b c Hb Hc) as (rbc & Hbc & Ibc).
  destruct (mi_lt_spec a c Ha Hc) as (rac & Hac & Iac).
  destruct (mi_eq_spec a b Ha Hb) as (e & He & Ie).
  rewrite Haa, Hab, Hba, Hbc, Hac, He. split; [|split].
  - destruct raa; auto. exfalso. apply (graded_irrefl (dense a)). apply Iaa. reflexivity.
  - intros H1 H2. injection H1 as ->. injection H2 as ->. f_equal. apply Iac.
    apply graded_trans with (dense b); [apply Iab|apply Ibc]; reflexivity.
  - assert (F1 : rab = true -> rba = true -> False).
    { intros H1 H2. apply (graded_irrefl (dense a)). apply graded_trans with (dense b);
      [apply Iab|apply Iba]; auto. }
    assert (F2 : e = true -> rab = true -> False).
    { intros H1 H2. apply Ie in H1. apply Iab in H2. rewrite H1 in H2. apply (graded_irrefl _ H2). }
    assert (F3 : e = true -> rba = true -> False).
    { intros H1 H2. apply Ie in H1. apply Iba in H2. rewrite H1 in H2. apply (graded_irrefl _ H2). }
    destruct (graded_total (dense a) (dense b)) as [T|[T|T]].
    + apply Iab in T. subst. destruct e, rba; try (exfalso; tauto); auto 10.
    + apply Ie in T. subst. destruct rab, rba; try (exfalso; tauto); auto 10.
    + apply Iba in T. subst. destruct e, rab; try (exfalso; tauto); auto 10.
Qed.
Print Assumptions C02_strict_total_order.

Theorem C02_derived_comparisons :
  forall a b, reach a -> reach b ->
    exists lt_ab lt_ba eq_ab,
      mi_lt a b = Ok lt_ab /\ mi_lt b a = Ok lt_ba /\ mi_eq a b = Ok eq_ab /\
      mi_gt a b = Ok lt_ba /\ mi_ge a b = Ok (orb lt_ba eq_ab) /\ mi_le a b = Ok (orb lt_ab eq_ab).
Proof.
  intros a b Ha Hb. destruct (C02_strict_total_order a b a Ha Hb Ha) as (_ & _ & H).
  unfold mi_gt, mi_ge, mi_le, mi_gt.
  destruct H as [(-> & -> & ->)|[(-> & -> & ->)|(-> & -> & ->)]]; do 3 eexists; repeat split.
Qed.
Print Assumptions C02_derived_comparisons.

Example C02_example :
  reach (mi_of_vec [0;2]) /\ reach (mi_of_vec [1;1]) /\
  mi_lt (mi_of_vec [1;1]) (mi_of_vec [0;2]) = Ok true /\
  mi_lt (mi_of_vec [0;2]) (mi_of_vec [2;0]) = Ok true.
Proof. repeat split; try apply reach_vec. Qed.

(** ** C03 *)

(** Indices beyond the length are rejected, as documented. *)
Theorem C03_out_of_range_rejected_partial :
  forall m i x, mi_Length m < i -> mi_Set m i x = Throw /\ mi_Get m i = Throw.
Proof.
  intros m i x Hi. unfold mi_Set, mi_Get, mi_Length in *.
  destruct (Nat.ltb_spec (mi_length m) i); [auto|lia].
Qed.
Print Assumptions C03_out_of_range_rejected_partial.

(** But the index equal to the length is accepted by every object, and setting
    it makes the next Vector() call write out of bounds. *)
Theorem C03_boundary_index_refuted :
  forall m x, reach m -> 0 < x ->
    mi_Get m (mi_Length m) = Ok 0 /\
    exists m', mi_Set m (mi_Length m) x = Ok (m', false) /\ mi_Vector m' = UB.
Proof.
  intros m x Hr Hx. apply reach_wf in Hr. split; [apply get_at_length; auto|].
  apply set_at_length_ub; auto.
Qed.
Print Assumptions C03_boundary_index_refuted.

Theorem C03_rejection_refuted :
  exists m i, reach m /\ mi_Length m <= i /\ mi_Set m i 1 <> Throw /\ mi_Get m i <> Throw.
Proof.
  exists (mi_of_vec [1;0;2]), 3. repeat split; [apply reach_vec|apply le_n|discriminate|discriminate].
Qed.
Print Assumptions C03_rejection_refuted.

(** ** C04 *)

Theorem C04_limiters_accept_exactly :
  forall l m v, reach m -> mi_Vector m = Ok v -> dims_within (length v) l ->
    exists r, lim_eval l m = Ok r /\ (r = true <-> accepts l v).
Proof.
  intros l m v Hr Hv Hd. apply reach_wf in Hr. rewrite mi_Vector_spec in Hv by auto.
  injection Hv as <-. rewrite dense_length in Hd. apply lim_eval_spec; auto.
Qed.
Print Assumptions C04_limiters_accept_exactly.

(** Without the side condition a Dimension limiter throws instead of deciding. *)
Theorem C04_dimension_limiter_throws_refuted :
  exists l m, reach m /\ accepts l (dense m) /\ lim_eval l m = Throw.
Proof.
  exists (LDim 3 1), (mi_of_vec [0]). split; [apply reach_vec|]. split; [|reflexivity].
  rewrite dense_of_vec. cbn. intros i Hi _. destruct i as [|[|i]]; reflexivity.
Qed.
Print Assumptions C04_dimension_limiter_throws_refuted.

Theorem C04_standard_limiters_downward_closed :
  forall l, monotone_limiter l -> down_closed (accepts l).
Proof. exact limiter_down_closed. Qed.
Print Assumptions C04_standard_limiters_downward_closed.

Theorem C04_anisotropic_constructor_guards :
  forall w eps, aniso_ctor_ok w eps = true -> down_closed (accepts (LAniso w eps)).
Proof. intros w eps H. apply limiter_down_closed, aniso_ctor_monotone, H. Qed.
Print Assumptions C04_anisotropic_constructor_guards.

Theorem C04_xor_downward_closed_refuted :
  exists a b, monotone_limiter a /\ monotone_limiter b /\ ~ down_closed (accepts (LXor a b)).
Proof.
  exists (LTotal 1), (LTotal 0). repeat split; auto. intros H.
  assert (A : accepts (LXor (LTotal 1) (LTotal 0)) [0]).
  { apply (H [0] [1]).
    - split; auto. intros [|[|j]]; cbn; lia.
    - left. unfold accepts, vsum. cbn. lia. }
  unfold accepts, vsum in A. cbn in A. lia.
Qed.
Print Assumptions C04_xor_downward_closed_refuted.

(** AnyBounded reports whether some entry reaches the bound. *)
Theorem C04_any_bounded :
  forall m b vm vb, reach m -> reach b -> mi_Vector m = Ok vm -> mi_Vector b = Ok vb ->
    (length vb < length vm -> mi_AnyBounded m b = Throw) /\
    (length vm <= length vb ->
     exists r, mi_AnyBounded m b = Ok r /\
       (r = true <-> exists j, j < length vm /\ nth j vb 0 <= nth j vm 0)).
Proof.
  intros m b vm vb Hm Hb Hvm Hvb. apply reach_wf in Hm, Hb.
  rewrite mi_Vector_spec in Hvm, Hvb by auto. injection Hvm as <-. injection Hvb as <-.
  rewrite !dense_length. split.
  - intros H. unfold mi_AnyBounded. destruct (Nat.ltb_spec (mi_length b) (mi_length m)); [auto|lia].
  - apply mi_AnyBounded_spec; auto.
Qed.
Print Assumptions C04_any_bounded.

Example C04_example :
  monotone_limiter (LAnd (LTotal 3) (LMaxDeg [2;2])) /\
  dims_within 2 (LAnd (LTotal 3) (LMaxDeg [2;2])) /\
  lim_eval (LAnd (LTotal 3) (LMaxDeg [2;2])) (mi_of_vec [2;1]) = Ok true /\
  lim_eval (LAnd (LTotal 3) (LMaxDeg [2;2])) (mi_of_vec [2;2]) = Ok false.
Proof. repeat split. Qed.

(** ** C05 *)

Theorem C05_forward_neighbors :
  forall m v, reach m -> mi_Vector m = Ok v ->
    exists l, nb_forward m = Ok l /\
      map mi_Vector l = map (fun i => Ok (vset v i (nth i v 0 + 1))) (seq 0 (length v)) /\
      (forall b, In (Ok b) (map mi_Vector l) <-> fwd_rel v b).
Proof.
  intros m v Hr Hv. apply reach_wf in Hr. rewrite mi_Vector_spec in Hv by auto.
  injection Hv as <-. rewrite nb_forward_spec by auto. eexists. split; [reflexivity|].
  assert (E : map mi_Vector (map (fun i => mi_of_vec (vset (dense m) i (nth i (dense m) 0 + 1)))
                (seq 0 (mi_length m))) =
              map (fun i => Ok (vset (dense m) i (nth i (dense m) 0 + 1))) (seq 0 (mi_length m))).
  { rewrite map_map. apply map_ext. intros i. rewrite mi_Vector_spec by apply mi_of_vec_wf.
    rewrite dense_of_vec. reflexivity. }
  rewrite dense_length. split; [exact E|]. intros b. rewrite E, in_map_iff, fwd_rel_vset.
  rewrite dense_length. split.
  - intros (i & Hi & Hin). exists i. apply in_seq in Hin. split; [lia|congruence].
  - intros (i & Hi & ->). exists i. split; auto. apply in_seq. lia.
Qed.
Print Assumptions C05_forward_neighbors.

Theorem C05_backward_neighbors :
  forall m v, reach m -> mi_Vector m = Ok v ->
    exists l, nb_backward m = Ok l /\
      map mi_Vector l =
        map (fun i => Ok (vset v i (nth i v 0 - 1)))
            (filter (fun i => negb (nth i v 0 =? 0)) (seq 0 (length v))) /\
      (forall b, In (Ok b) (map mi_Vector l) <-> fwd_rel b v).
Proof.
  intros m v Hr Hv. apply reach_wf in Hr. rewrite mi_Vector_spec in Hv by auto.
  injection Hv as <-. rewrite nb_backward_spec by auto. eexists. split; [reflexivity|].
  rewrite dense_length.
  match goal with |- ?A /\ _ => assert (E : A) end.
  { rewrite map_map. apply map_ext. intros i. rewrite mi_Vector_spec by apply mi_of_vec_wf.
    rewrite dense_of_vec. reflexivity. }
  split; [exact E|]. intros b. rewrite E, in_map_iff, bwd_vset.
  rewrite dense_length. split.
  - intros (i & Hi & Hin). exists i. apply filter_In in Hin. destruct Hin as [Hin Hn].
    apply in_seq in Hin. split; [lia|]. split; [|congruence].
    intros Hz. rewrite Hz in Hn. discriminate.
  - intros (i & Hi & Hn & ->). exists i. split; auto. apply filter_In. split.
    + apply in_seq. lia.
    + destruct (Nat.eqb_spec (nth i (dense m) 0) 0); auto.
Qed.
Print Assumptions C05_backward_neighbors.

Theorem C05_is_forward_is_backward :
  forall a b va vb, reach a -> reach b -> mi_Vector a = Ok va -> mi_Vector b = Ok vb ->
    length va = length vb ->
    exists r s, nb_isfwd a b = Ok r /\ nb_isbwd a b = Ok s /\
      (r = true <-> fwd_rel va vb) /\ (s = true <-> fwd_rel vb va).
Proof.
  intros a b va vb Ha Hb Hva Hvb Hl. apply reach_wf in Ha, Hb.
  rewrite mi_Vector_spec in Hva, Hvb by auto. injection Hva as <-. injection Hvb as <-.
  rewrite !dense_length in Hl.
  destruct (nb_isfwd_spec a b Ha Hb Hl) as (r & Hr & Ir).
  destruct (nb_isfwd_spec b a Hb Ha (eq_sym Hl)) as (s & Hs & Is).
  exists r, s. auto.
Qed.
Print Assumptions C05_is_forward_is_backward.

Example C05_example :
  nb_isfwd (mi_of_vec [1;0;2]) (mi_of_vec [1;1;2]) = Ok true /\
  nb_isfwd (mi_of_vec [1;0;2]) (mi_of_vec [0;1;2]) = Ok false /\
  nb_isbwd (mi_of_vec [1;0;2]) (mi_of_vec [1;0;1]) = Ok true.
Proof. repeat split. Qed.
