(** Properties C06-C12, C16, C58, C59: sets of multi-indices. *)
From Coq Require Import Permutation.
From Verif Require Import Base SpecMulti SpecCount SpecLimiter MISetModel MultiIndexProofs LimiterProofs
  MISetInv MISetOps MISetForce MISetLimFill MISetHist.

(** The multi-indices a user can see in a set: those IndexToMulti returns. *)
Definition member (s : mset) (v : vec) : Prop := exists i, ms_IndexToMulti s i = Ok v.

Lemma member_active s v : base s -> member s v <-> active s v.
Proof.
  intros B. unfold member, active. split.
  - intros [i H]. rewrite IndexToMulti_spec in H by auto. destruct (nth_error (actives s) i) eqn:E; [|discriminate].
    injection H as ->. eapply nth_error_In; eauto.
  - intros H. apply In_nth_error in H. destruct H as [i H]. exists i. rewrite IndexToMulti_spec, H by auto. auto.
Qed.

Lemma index_nth s i v : base s -> ms_IndexToMulti s i = Ok v <-> nth_error (actives s) i = Some v.
Proof.
  intros B. rewrite IndexToMulti_spec by auto. destruct (nth_error (actives s) i); split; congruence.
Qed.

(** No multi-index is listed twice. *)
Definition distinct (s : mset) : Prop :=
  forall i j v, ms_IndexToMulti s i = Ok v -> ms_IndexToMulti s j = Ok v -> i = j.

Lemma base_distinct s : base s -> distinct s.
Proof.
  intros B i j v Hi Hj. apply index_nth in Hi, Hj; auto.
  apply (proj1 (NoDup_nth_error (actives s)) (NoDup_actives s B)); [eapply nth_error_lt; eauto|congruence].
Qed.

(** Reading off concrete states for the examples. *)
Definition never (_ : nat) : bool := false.
Definition val {A} (d : A) (o : outcome A) : A := match o with Ok a => a | _ => d end.
Definition any (_ : vec) : bool := true.
Definition below (n : nat) (v : vec) : bool := vsum v <? n.
Definition e1 : mset := ms_empty 1 any.
Definition t11 : mset := Eval vm_compute in val e1 (ms_CreateTotalOrder 1 1 any).
Definition t21 : mset := Eval vm_compute in val e1 (ms_CreateTotalOrder 2 1 any).
Lemma t11_start : start 1 any t11.
Proof. apply (s_total 1 1). vm_compute. reflexivity. Qed.
Lemma t21_start : start 2 any t21.
Proof. apply (s_total 2 1). vm_compute. reflexivity. Qed.

(** ** C06 *)

Theorem C06_total_order_exact :
  forall d p L, 0 < d -> exists s, ms_CreateTotalOrder d p L = Ok s /\ distinct s /\
    forall v, member s v <-> length v = d /\ vsum v <= p /\ L v = true.
Proof.
  intros d p L Hd. destruct (CreateTotalOrder_spec d p L Hd) as (s & H & G). exists s. split; auto.
  assert (B := g_base _ _ _ G). split; [apply base_distinct; auto|]. intros v.
  rewrite member_active by auto. rewrite (grown_active _ _ _ v G), filter_In, enum_total_In by (rewrite vsum_nil; lia).
  split.
  - intros [[]|[(t & -> & Ht & Hs) HL]]. cbn [app] in *. split; [lia|auto].
  - intros (H1 & H2 & H3). right. split; auto. exists v. split; auto. split; [lia|auto].
Qed.
Print Assumptions C06_total_order_exact.

Lemma filter_all {A} (l : list A) : filter (fun _ => true) l = l.
Proof. induction l; cbn; congruence. Qed.

Lemma choose_sym a : forall b, choose (a + b) a = choose (a + b) b.
Proof.
  induction a as [|a IH]; intros b; cbn [Nat.add].
  - rewrite choose_0, choose_diag. reflexivity.
  - induction b as [|b IHb]; [rewrite Nat.add_0_r, choose_diag; reflexivity|].
    rewrite (choose_S (a + S b) a), (choose_S (a + S b) b), (IH (S b)).
    replace (a + S b) with (S a + b) at 2 3 by lia. cbn [Nat.add] in *. rewrite IHb. lia.
Qed.

Theorem C06_total_order_count :
  forall d p, 0 < d -> exists s, ms_CreateTotalOrder d p (fun _ => true) = Ok s /\
    ms_Size s = choose (d + p) p.
Proof.
  intros d p Hd. destruct (CreateTotalOrder_spec d p (fun _ => true) Hd) as (s & H & G). exists s. split; auto.
  rewrite <- actives_length, (g_act _ _ _ G), filter_all. cbn [ms_empty actives a2g map app].
  rewrite enum_total_length, vsum_nil by (rewrite vsum_nil; lia).
  replace (S (d - 1)) with d by lia. rewrite Nat.sub_0_r. apply choose_sym.
Qed.
Print Assumptions C06_total_order_count.

Theorem C06_zero_length_rejected : forall p L, ms_CreateTotalOrder 0 p L = Throw.
Proof. reflexivity. Qed.
Print Assumptions C06_zero_length_rejected.

Example C06_example : exists s, ms_CreateTotalOrder 2 2 (fun v => nth 0 v 0 <? 2) = Ok s /\
  map (ms_IndexToMulti s) [0;1;2;3;4;5] =
    [Ok [0;0]; Ok [0;1]; Ok [0;2]; Ok [1;0]; Ok [1;1]; Throw].
Proof. eexists. split; vm_compute; reflexivity. Qed.
Example C06_example_count : choose (3 + 4) 4 = 35.
Proof. reflexivity. Qed.

(** ** C07 *)

Theorem C07_tensor_product_exact :
  forall d p L, 0 < d -> exists s, ms_CreateTensorProduct d p L = Ok s /\ distinct s /\
    forall v, member s v <-> length v = d /\ vmax v <= p /\ L v = true.
Proof.
  intros d p L Hd. destruct (CreateTensorProduct_spec d p L Hd) as (s & H & G). exists s. split; auto.
  assert (B := g_base _ _ _ G). split; [apply base_distinct; auto|]. intros v.
  rewrite member_active by auto. rewrite (grown_active _ _ _ v G), filter_In, enum_tensor_In.
  split.
  - intros [[]|[(t & -> & Ht & Hs) HL]]. cbn [app] in *. split; [lia|auto].
  - intros (H1 & H2 & H3). right. split; auto. exists v. split; auto. split; [lia|auto].
Qed.
Print Assumptions C07_tensor_product_exact.

Theorem C07_tensor_product_count :
  forall d p, 0 < d -> exists s, ms_CreateTensorProduct d p (fun _ => true) = Ok s /\
    ms_Size s = (p + 1) ^ d.
Proof.
  intros d p Hd. destruct (CreateTensorProduct_spec d p (fun _ => true) Hd) as (s & H & G). exists s. split; auto.
  rewrite <- actives_length, (g_act _ _ _ G), filter_all. cbn [ms_empty actives a2g map app].
  rewrite enum_tensor_length. f_equal. lia.
Qed.
Print Assumptions C07_tensor_product_count.

Example C07_example : exists s, ms_CreateTensorProduct 2 1 (fun v => vsum v <? 2) = Ok s /\
  map (ms_IndexToMulti s) [0;1;2;3] = [Ok [0;0]; Ok [0;1]; Ok [1;0]; Throw].
Proof. eexists. split; vm_compute; reflexivity. Qed.

(** ** C08 *)

(** [m] is the largest [i]-th entry of a member (0 for the empty set). *)
Definition largest (s : mset) (i m : nat) : Prop :=
  (forall v, member s v -> nth i v 0 <= m) /\ (m = 0 \/ exists v, member s v /\ nth i v 0 = m).

Definition consistent (d : nat) (s : mset) : Prop :=
  (forall i, i < ms_Size s -> exists v, ms_IndexToMulti s i = Ok v /\ length v = d /\
      ms_MultiToIndex s v = Ok (Some i)) /\
  (forall i, ms_Size s <= i -> ms_IndexToMulti s i = Throw) /\
  (forall v i, ms_MultiToIndex s v = Ok (Some i) -> ms_IndexToMulti s i = Ok v) /\
  (forall v, ms_MultiToIndex s v = Ok None <-> ~ member s v) /\
  (forall v, ms_IsActive s v = Ok true <-> member s v) /\
  length (ms_MaxOrders s) = d /\
  (forall i, i < d -> largest s i (nth i (ms_MaxOrders s) 0)).

Lemma vmax_largest l m : m = vmax l -> (forall x, In x l -> x <= m) /\ (m = 0 \/ In m l).
Proof.
  intros ->. split; [apply vmax_le_iff; auto|].
  induction l as [|x l IH]; [left; reflexivity|]. rewrite vmax_cons.
  destruct (Nat.max_spec x (vmax l)) as [[_ ->]|[_ ->]]; [|right; left; auto].
  destruct IH as [->|IH]; auto. right; right; auto.
Qed.

Lemma base_consistent s : base s -> consistent (dim s) s.
Proof.
  intros B. split; [|split; [|split; [|split; [|split; [|split]]]]].
  - intros i Hi. destruct (actives_nth_lt s i Hi) as [v Hv]. exists v. split; [apply index_nth; auto|].
    split; [apply (b_len _ B), active_in_all; auto; eapply nth_error_In; eauto|].
    destruct (MultiToIndex_spec s v B) as (r & Hr & Ir). rewrite Hr. f_equal. apply Ir; auto.
  - intros i Hi. rewrite IndexToMulti_spec by auto. rewrite <- actives_length in Hi.
    rewrite (proj2 (nth_error_None _ _) Hi). auto.
  - intros v i H. destruct (MultiToIndex_spec s v B) as (r & Hr & Ir). rewrite H in Hr. injection Hr as <-.
    apply index_nth; auto. apply Ir; auto.
  - intros v. destruct (MultiToIndex_spec s v B) as (r & Hr & Ir). rewrite Hr. split.
    + intros [= ->] [i Hi]. apply index_nth in Hi; auto. apply Ir in Hi. discriminate.
    + intros H. destruct r as [i|]; auto. exfalso. apply H. exists i. apply index_nth; auto. apply Ir; auto.
  - intros v. rewrite member_active by auto. destruct (IsActive_spec s v B) as (b & Hb & Ib). rewrite Hb, <- Ib.
    split; congruence.
  - apply (b_mlen _ B).
  - intros i Hi. unfold ms_MaxOrders. destruct (vmax_largest _ _ (b_maxo _ B i Hi)) as [H1 H2]. split.
    + intros v Hv. apply member_active in Hv; auto. apply H1. apply in_map_iff. exists v. auto.
    + destruct H2 as [H2|H2]; auto. right. apply in_map_iff in H2. destruct H2 as (v & E & Hv). exists v.
      split; auto. apply member_active; auto.
Qed.

(** After every history without limiter replacement, forced activations included. *)
Theorem C08_consistent_after_any_history :
  forall grow d L s, reach grow d L s -> consistent d s.
Proof.
  intros grow d L s H. destruct (reach_inv _ _ _ _ H) as (F & _ & <- & _). apply base_consistent, F.
Qed.
Print Assumptions C08_consistent_after_any_history.

(** After every history with limiter replacements (also failed ones), without forced activations. *)
Theorem C08_consistent_with_limiter_changes :
  forall d s, hist d s -> consistent d s.
Proof. intros d s H. destruct (hist_inv _ _ H) as [B <-]. apply base_consistent, B. Qed.
Print Assumptions C08_consistent_with_limiter_changes.

(** An index keeps its multi-index forever. *)
Theorem C08_indices_stable :
  forall grow d L s s' i v, reach grow d L s -> later grow d s s' ->
    ms_IndexToMulti s i = Ok v -> ms_IndexToMulti s' i = Ok v.
Proof.
  intros grow d L s s' i v H Hl Hi. destruct (later_prefix _ _ _ _ _ H Hl) as [new E].
  destruct (reach_inv _ _ _ _ H) as (F & _). destruct (reach_inv _ _ _ _ (later_reach _ _ _ _ _ H Hl)) as (F' & _).
  apply index_nth in Hi; [|apply F]. apply index_nth; [apply F'|]. rewrite E. apply nth_error_app_l; auto.
Qed.
Print Assumptions C08_indices_stable.

Definition ex_lim (v : vec) : bool := vmax v <? 4.
Definition ex_empty : mset := ms_empty 2 ex_lim.
Definition ex0 : mset := Eval vm_compute in val ex_empty (ms_CreateTotalOrder 2 1 ex_lim).
Definition ex1 : mset := Eval vm_compute in fst (val (ex_empty, []) (ms_Expand ex0 1)).
Definition ex2 : mset := Eval vm_compute in fst (val (ex_empty, []) (ms_ForciblyActivate never 9 ex1 [3;1])).

Example C08_example :
  reach never 2 ex_lim ex2 /\ ms_Size ex0 = 3 /\ ms_Size ex1 = 5 /\ ms_Size ex2 = 9 /\ ms_MaxOrders ex2 = [3;2] /\
  ms_MultiToIndex ex2 [3;1] = Ok (Some 5) /\ ms_MultiToIndex ex2 [1;2] = Ok None /\
  later never 2 ex0 ex2.
Proof.
  assert (R0 : reach never 2 ex_lim ex0) by (apply r_start, (s_total 2 1); vm_compute; reflexivity).
  assert (T1 : step never 2 ex0 ex1).
  { eapply (t_expand _ _ _ 1). vm_compute. reflexivity. }
  assert (T2 : step never 2 ex1 ex2).
  { eapply (t_force _ _ _ [3;1] 9); [reflexivity|vm_compute; repeat constructor|vm_compute; reflexivity]. }
  split; [eapply r_step; [eapply r_step; [exact R0|exact T1]|exact T2]|].
  repeat (split; [vm_compute; reflexivity|]).
  eapply l_step; [eapply l_step; [apply l_refl|exact T1]|exact T2].
Qed.

(** ** C09 *)

Theorem C09_members_accepted_partial :
  forall grow d L s v, reach grow d L s -> member s v -> L v = true.
Proof.
  intros grow d L s v H Hv. destruct (reach_inv _ _ _ _ H) as (F & _ & _ & <-).
  apply (f_lim _ F). apply active_in_all; [apply F|]. apply member_active; auto. apply F.
Qed.
Print Assumptions C09_members_accepted_partial.

(** Replacing the limiter breaks it: a multi-index stored as inactive before the
    replacement can still be added although the limiter in place rejects it. *)
Definition c09s1 : mset := Eval vm_compute in fst (val (e1, true) (ms_SetLimiter t11 (below 2))).
Definition c09s2 : mset := Eval vm_compute in fst (val (e1, None) (ms_AddActive c09s1 [2])).
Theorem C09_after_limiter_change_refuted :
  exists s L s1 s2 r v, start 1 any s /\ ms_SetLimiter s L = Ok (s1, false) /\
    L v = false /\ ms_AddActive s1 v = Ok (s2, Some r) /\ ms_IsActive s2 v = Ok true.
Proof.
  exists t11, (below 2), c09s1, c09s2, 2, [2]. split; [exact t11_start|].
  split; [vm_compute; reflexivity|]. split; [reflexivity|]. split; vm_compute; reflexivity.
Qed.
Print Assumptions C09_after_limiter_change_refuted.

(** ** C10 *)

Theorem C10_admissible_growth_downward_closed :
  forall grow d L s, down_closed (fun v => L v = true) -> adm grow d L s -> down_closed (member s).
Proof.
  intros grow d L s HL H. assert (I := adm_inv _ _ _ _ HL H). intros a b Hab Hb.
  assert (B := f_base _ (ai_full _ _ _ I)). apply member_active in Hb; auto. apply member_active; auto.
  eapply closed_down; eauto. apply I.
Qed.
Print Assumptions C10_admissible_growth_downward_closed.

(** Plain AddActive does not have this property. *)
Definition c10s : mset := Eval vm_compute in fst (val (e1, None) (ms_AddActive e1 [2])).
Example C10_add_active_breaks_closure : exists r,
  ms_AddActive (ms_empty 1 any) [2] = Ok (c10s, r) /\ member c10s [2] /\ ~ member c10s [1].
Proof.
  exists (Some 0). split; [vm_compute; reflexivity|]. split; [exists 0; reflexivity|].
  intros [[|[|i]] H]; discriminate H.
Qed.

Definition c10_0 : mset := Eval vm_compute in fst (val (e1, None) (ms_AddActive (ms_empty 2 (below 3)) [0;0])).
Definition c10_1 : mset := Eval vm_compute in fst (val (e1, []) (ms_ExpandAll c10_0)).
Definition c10_2 : mset := Eval vm_compute in fst (val (e1, []) (ms_ExpandAll c10_1)).
Example C10_example : adm never 2 (below 3) c10_2 /\ ms_Size c10_2 = 6 /\ down_closed (fun v => below 3 v = true).
Proof.
  split; [|split; [reflexivity|]].
  - assert (A0 : adm never 2 (below 3) c10_0) by (eapply a_const; vm_compute; reflexivity).
    assert (A1 : adm never 2 (below 3) c10_1) by (eapply a_expand_all; [exact A0|vm_compute; reflexivity]).
    eapply a_expand_all; [exact A1|vm_compute; reflexivity].
  - intros a b Hab Hb. unfold below in *. apply Nat.ltb_lt in Hb. apply Nat.ltb_lt.
    assert (vsum a <= vsum b); [|lia]. clear Hb. revert b Hab.
    induction a as [|x a IH]; intros b [Hl Hle]; [rewrite vsum_nil; lia|].
    destruct b as [|y b]; [discriminate|]. rewrite !vsum_cons. assert (K := Hle 0). cbn in K.
    assert (vsum a <= vsum b); [|lia]. apply IH. split; [cbn in Hl; lia|]. intros k. exact (Hle (S k)).
Qed.

(** ** C11 *)

(** [u] may be added next: accepted, not a member, all backward neighbours members. *)
Definition addable (L : vec -> bool) (s : mset) (u : vec) : Prop :=
  ~ member s u /\ L u = true /\ forall w, fwd_rel w u -> member s w.

Lemma addable_cand L s u : base s -> lim s = L -> addable L s u <-> cand s u.
Proof.
  intros B <-. unfold addable, cand. rewrite member_active by auto. split; intros (H1 & H2 & H3); split; auto; split; auto;
  intros w Hw; apply member_active; auto.
Qed.

Theorem C11_margin :
  forall grow d L s, reach grow d L s ->
    exists l, ms_Margin s = Ok l /\ NoDup l /\
      forall u, In u l <-> L u = true /\ ~ member s u /\ exists v, member s v /\ fwd_rel v u.
Proof.
  intros grow d L s H. destruct (reach_inv _ _ _ _ H) as (F & N & _ & <-). assert (B := f_base _ F).
  destruct (Margin_spec s F N) as (l & Hl & ND & Hin). exists l. split; auto. split; auto. intros u. rewrite Hin.
  rewrite member_active by auto. split; intros (H1 & H2 & v & H3 & H4); split; auto; split; auto; exists v;
  (split; [apply member_active|]); auto.
Qed.
Print Assumptions C11_margin.

Theorem C11_reduced_margin_partial :
  forall grow d L s, down_closed (fun v => L v = true) -> adm grow d L s -> 0 < ms_Size s ->
    exists l, ms_ReducedMargin s = Ok l /\ NoDup l /\
      forall u, In u l <-> length u = d /\ addable L s u.
Proof.
  intros grow d L s HL H Hs. destruct (adm_inv _ _ _ _ HL H) as [F N D E K C].
  destruct (ReducedMargin_spec s F N K C) as (l & Hl & ND & Hin); [lia| |].
  { rewrite E. intros v w Hv Hw. apply (HL w v); auto. apply fwd_rel_vle; auto. }
  exists l. split; auto. split; auto. intros u. rewrite Hin, addable_cand, D; auto. reflexivity. apply F.
Qed.
Print Assumptions C11_reduced_margin_partial.

Theorem C11_frontier :
  forall grow d L s, reach grow d L s ->
    exists f, ms_Frontier s = Ok f /\ NoDup f /\
      forall a, In a f <-> exists v u, ms_IndexToMulti s a = Ok v /\ fwd_rel v u /\ addable L s u.
Proof.
  intros grow d L s H. destruct (reach_inv _ _ _ _ H) as (F & N & _ & E). assert (B := f_base _ F).
  destruct (Frontier_spec s B) as (f & Hf & Sf & F1 & F2). exists f. split; auto.
  split; [apply ssorted_NoDup; auto|]. intros a. split.
  - intros Ha. destruct (F1 a Ha) as (v & Hv & u & Hvu & Hc). exists v, u. split; [apply index_nth; auto|].
    split; auto. apply addable_cand; auto.
  - intros (v & u & Hv & Hvu & Hc). apply index_nth in Hv; auto. apply (F2 F N a v Hv). exists u. split; auto.
    eapply addable_cand; eauto.
Qed.
Print Assumptions C11_frontier.

Theorem C11_strict_frontier :
  forall grow d L s, reach grow d L s ->
    exists f, ms_StrictFrontier s = Ok f /\ NoDup f /\
      forall a, In a f <-> exists v, ms_IndexToMulti s a = Ok v /\
        (exists u, fwd_rel v u /\ addable L s u) /\ (forall u, fwd_rel v u -> ~ member s u).
Proof.
  intros grow d L s H. destruct (reach_inv _ _ _ _ H) as (F & N & _ & E). assert (B := f_base _ F).
  destruct (StrictFrontier_spec s F N) as (f & Hf & Sf & F1). exists f. split; auto. split; auto.
  intros a. rewrite F1. split; intros (v & Hv & (u & Hvu & Hc) & Hn); exists v;
    (split; [apply index_nth; auto|]); split.
  - exists u. split; auto. apply addable_cand; auto.
  - intros x Hx Hm. apply (Hn x Hx), member_active; auto.
  - exists u. split; auto. eapply addable_cand; eauto.
  - intros x Hx Hm. apply (Hn x Hx), member_active; auto.
Qed.
Print Assumptions C11_strict_frontier.

(** Every state of admissible growth is reachable, so the four theorems apply together. *)
Lemma adm_reach grow d L s : adm grow d L s -> reach grow d L s.
Proof.
  induction 1 as [s r H|p s H|p s H|v s s' Hs IH Hl H|a s s' rep Hs IH H|s s' rep Hs IH H|
    v fuel s s' rep Hs IH Hl Hf H|a v fuel s s' rep Hs IH Hv Hf H].
  - eapply r_step; [apply r_start, s_empty|]. eapply t_add; eauto. apply repeat_length.
  - apply r_start. eapply s_total; eauto.
  - apply r_start. eapply s_tensor; eauto.
  - eapply r_step; eauto. eapply t_activate; eauto.
  - eapply r_step; eauto. eapply t_expand; eauto.
  - eapply r_step; eauto. eapply t_expand_all; eauto.
  - eapply r_step; eauto. eapply t_force; eauto.
  - eapply r_step; eauto. eapply t_fexpand; eauto.
Qed.

Definition c11lim (v : vec) : bool := nth 0 v 0 <? 2.
Definition c11s : mset := Eval vm_compute in val e1 (ms_CreateTotalOrder 2 1 c11lim).
Example C11_example :
  adm never 2 c11lim c11s /\
  ms_Margin c11s = Ok [[1;1]; [0;2]] /\ ms_ReducedMargin c11s = Ok [[1;1]; [0;2]] /\
  ms_Frontier c11s = Ok [1;2] /\ ms_StrictFrontier c11s = Ok [1;2].
Proof. split; [apply (a_total _ _ _ 1); vm_compute; reflexivity|]. vm_compute. auto. Qed.

(** Without the restriction to admissible growth the reduced margin is not what its name
    promises, although limiter and active set are downward closed: merging in a set can
    store isolated inactive candidates, which are then reported although a backward
    neighbour is inactive. *)
Definition c11a : mset := Eval vm_compute in val e1 (ms_CreateTotalOrder 1 0 (below 5)).
Definition c11b : mset := Eval vm_compute in fst (val (e1, None) (ms_AddActive e1 [5])).
Definition c11c : mset := Eval vm_compute in fst (val (e1, 0) (ms_Union c11a c11b)).
Theorem C11_reduced_margin_after_union_refuted :
  exists s t s' n l u w, reach never 1 (below 5) s /\ reach never 1 any t /\
    ms_Union s t = Ok (s', n) /\ (forall v, member s' v <-> v = [0]) /\
    ms_ReducedMargin s' = Ok l /\ In u l /\ fwd_rel w u /\ ~ member s' w.
Proof.
  exists c11a, c11b, c11c, 0, [[1]; [4]], [4], [3].
  split; [apply r_start, (s_total 1 0); vm_compute; reflexivity|].
  split.
  { eapply r_step; [apply r_start, s_empty|].
    apply (t_add _ _ _ [5] _ (Some 0)); [reflexivity|vm_compute; reflexivity]. }
  split; [vm_compute; reflexivity|].
  assert (M : forall v, member c11c v <-> v = [0]).
  { intros v. split; [|intros ->; exists 0; reflexivity].
    intros [[|i] H]; [injection H as <-; auto|destruct i; discriminate H]. }
  split; [exact M|]. split; [vm_compute; reflexivity|].
  split; [right; left; reflexivity|]. split; [exists 0; repeat split; [auto|intros [|[|j]]; reflexivity]|].
  intros H. apply M in H. discriminate.
Qed.
Print Assumptions C11_reduced_margin_after_union_refuted.

(** ** C12 *)

Theorem C12_expand_reports_new_indices_partial :
  forall grow d L s, reach grow d L s ->
    exists s' rep, ms_ExpandAll s = Ok (s', rep) /\
      (forall i, In i rep <-> ms_Size s <= i < ms_Size s') /\
      (forall u, member s' u <-> member s u \/ (addable L s u /\ exists v, member s v /\ fwd_rel v u)).
Proof.
  intros grow d L s H. destruct (reach_inv _ _ _ _ H) as (F & N & _ & E). assert (B := f_base _ F).
  destruct (ExpandAll_spec s B) as (s' & new & rep & H1 & G & C1 & C2 & C3 & C4). exists s', rep. split; auto.
  split; [intros i; split; auto|]. intros u. rewrite !member_active by (auto; apply G).
  rewrite (grown_active _ _ _ u G). rewrite addable_cand by auto. split.
  - intros [K|K]; auto. right. destruct (C1 u K) as (K1 & v & K2 & K3). split; auto. exists v. split; auto.
    apply member_active; auto.
  - intros [K|(K1 & v & K2 & K3)]; auto. right. apply member_active in K2; auto. eapply (C2 F N v u); eauto.
Qed.
Print Assumptions C12_expand_reports_new_indices_partial.

(** Expanding a single index reports each new index exactly once, in order. *)
Theorem C12_expand_one_exact :
  forall grow d L s a v, reach grow d L s -> ms_IndexToMulti s a = Ok v ->
    exists s' n, ms_Expand s a = Ok (s', seq (ms_Size s) n) /\ ms_Size s' = ms_Size s + n /\
      (forall u, addable L s u -> fwd_rel v u -> member s' u) /\
      (forall u, member s' u -> member s u \/ (L u = true /\ fwd_rel v u)).
Proof.
  intros grow d L s a v H Hv. destruct (reach_inv _ _ _ _ H) as (F & N & _ & E). assert (B := f_base _ F).
  apply index_nth in Hv; auto. destruct (Expand_spec s a v B Hv) as (s' & new & H1 & G & C1 & C2).
  assert (B' := g_base _ _ _ G).
  exists s', (length new). split; auto. split; [|split].
  - rewrite <- !actives_length, (g_act _ _ _ G), app_length. auto.
  - intros u Hu Hvu. apply member_active; auto. apply C2; auto. eapply addable_cand; eauto.
  - intros u Hu. apply member_active in Hu; auto. apply (grown_active _ _ _ u G) in Hu.
    destruct Hu as [Hu|Hu]; [left; apply member_active; auto|]. right. destruct (C1 u Hu) as (K1 & _ & K2 & _).
    rewrite E in K1. auto.
Qed.
Print Assumptions C12_expand_one_exact.

Definition c12s : mset := Eval vm_compute in fst (val (e1, []) (ms_ExpandAll t21)).
Theorem C12_expand_duplicates_refuted :
  exists s s' rep, start 2 any s /\ ms_ExpandAll s = Ok (s', rep) /\ ~ NoDup rep.
Proof.
  exists t21, c12s, [3;4;3;5]. split; [exact t21_start|]. split; [vm_compute; reflexivity|].
  intros H. inversion H as [|? ? H1 H2]; subst. apply H1. cbn. auto.
Qed.
Print Assumptions C12_expand_duplicates_refuted.

(** ** C16 *)

Theorem C16_set_limiter_partial :
  forall d s L, hist d s ->
    exists s' threw, ms_SetLimiter s L = Ok (s', threw) /\
      (threw = true <-> exists v, member s v /\ L v = false) /\
      (forall i, ms_IndexToMulti s' i = ms_IndexToMulti s i) /\
      (threw = false ->
        exists l, ms_Margin s' = Ok l /\ NoDup l /\
          forall u, In u l <-> L u = true /\ ~ member s' u /\ exists v, member s' v /\ fwd_rel v u).
Proof.
  intros d s L H. destruct (hist_inv _ _ H) as [B D].
  destruct (SetLimiter_spec s L B) as [(s' & v & H1 & H2 & H3 & B' & L' & A')|(s' & H1 & B' & Lv & L' & D' & A' & Ok' & _)].
  - exists s', true. split; auto. split.
    + split; auto. intros _. exists v. split; auto. apply member_active; auto.
    + split; [|discriminate]. intros i. rewrite !IndexToMulti_spec, A' by auto. auto.
  - exists s', false. split; auto. split.
    + split; [discriminate|]. intros (v & Hv & Hl). apply member_active in Hv; auto. rewrite (Ok' v Hv) in Hl. discriminate.
    + split; [intros i; rewrite !IndexToMulti_spec, A' by auto; auto|]. intros _.
      destruct (Margin_live s' B' Lv) as (l & Hl & ND & Hin). exists l. split; auto. split; auto. intros u.
      rewrite Hin, L', member_active by auto. split; intros (K1 & K2 & v & K3 & K4); split; auto; split; auto;
        exists v; (split; [apply member_active|]; auto).
Qed.
Print Assumptions C16_set_limiter_partial.

(** A call that throws has already replaced the limiter: later calls behave differently. *)
Definition c16a : mset := Eval vm_compute in fst (val (e1, true) (ms_SetLimiter t11 (below 1))).
Definition c16b : mset := Eval vm_compute in fst (val (e1, None) (ms_AddActive t11 [3])).
Theorem C16_throw_changes_set_refuted :
  exists s L s' v i s1 s2, start 1 any s /\ ms_SetLimiter s L = Ok (s', true) /\
    ms_AddActive s v = Ok (s1, Some i) /\ ms_AddActive s' v = Ok (s2, None).
Proof.
  exists t11, (below 1), c16a, [3], 2, c16b, c16a. split; [exact t11_start|].
  split; [vm_compute; reflexivity|]. split; vm_compute; reflexivity.
Qed.
Print Assumptions C16_throw_changes_set_refuted.

(** After a successful replacement ReducedMargin lists multi-indices the limiter rejects. *)
Theorem C16_reduced_margin_refuted :
  exists s L s' l u, start 1 any s /\ ms_SetLimiter s L = Ok (s', false) /\
    ms_ReducedMargin s' = Ok l /\ In u l /\ L u = false.
Proof.
  exists t11, (below 2), c09s1, [[2]], [2]. split; [exact t11_start|].
  split; [vm_compute; reflexivity|]. split; [vm_compute; reflexivity|]. split; [left; auto|reflexivity].
Qed.
Print Assumptions C16_reduced_margin_refuted.

Definition c16s : mset := Eval vm_compute in val e1 (ms_CreateTotalOrder 2 1 (below 2)).
Definition c16t : mset := Eval vm_compute in fst (val (e1, true) (ms_SetLimiter c16s (below 3))).
Example C16_example : hist 2 c16s /\
  ms_SetLimiter c16s (below 3) = Ok (c16t, false) /\
  ms_Margin c16s = Ok [] /\ ms_Margin c16t = Ok [[2;0]; [1;1]; [0;2]].
Proof.
  split; [apply (h_start 2 (below 2)), (s_total 2 1); vm_compute; reflexivity|].
  split; [vm_compute; reflexivity|]. split; vm_compute; reflexivity.
Qed.

(** ** C58 *)

Theorem C58_forward_queries :
  forall grow d L s a v, reach grow d L s -> ms_IndexToMulti s a = Ok v ->
    (exists l, ms_NumForward s a = Ok (length l) /\ NoDup l /\
       forall u, In u l <-> fwd_rel v u /\ L u = true) /\
    (exists l, ms_NumActiveForward s a = Ok (length l) /\ NoDup l /\
       forall u, In u l <-> fwd_rel v u /\ member s u) /\
    (exists l, ms_AdmissibleForwardNeighbors s a = Ok l /\ NoDup l /\
       forall u, In u l <-> fwd_rel v u /\ L u = true /\ (member s u \/ forall w, fwd_rel w u -> member s w)) /\
    (exists b, ms_IsExpandable s a = Ok b /\
       (b = true <-> exists u, fwd_rel v u /\ addable L s u)).
Proof.
  intros grow d L s a v H Hv. destruct (reach_inv _ _ _ _ H) as (F & N & _ & E). assert (B := f_base _ F).
  apply index_nth in Hv; auto. split; [|split; [|split]].
  - rewrite <- E. apply NumForward_spec; auto.
  - destruct (NumActiveForward_spec s a v F N Hv) as (l & H1 & H2 & H3). exists l. split; auto. split; auto.
    intros u. rewrite H3, member_active by auto. reflexivity.
  - destruct (AdmissibleForward_spec s a v F N Hv) as (l & H1 & H2 & H3). exists l. split; auto. split; auto.
    intros u. rewrite H3, member_active, E by auto. split; intros (K1 & K2 & K3); (split; [|split]); auto;
    (destruct K3 as [K3|K3]; [left; auto|right; intros w Hw; apply member_active; auto]).
  - destruct (IsExpandable_spec s a v B Hv) as (b & H1 & H2 & H3). exists b. split; auto. split.
    + intros Hb. destruct (H2 Hb) as (u & K1 & K2). exists u. split; auto. apply addable_cand; auto.
    + intros (u & K1 & K2). apply H3; auto. exists u. split; auto. eapply addable_cand; eauto.
Qed.
Print Assumptions C58_forward_queries.

Theorem C58_backward_query :
  forall grow d L s a v, down_closed (fun v => L v = true) -> adm grow d L s -> ms_IndexToMulti s a = Ok v ->
    exists js, ms_BackwardNeighbors s a = Ok (map Some js) /\ NoDup js /\
      forall j, In j js <-> exists w, ms_IndexToMulti s j = Ok w /\ fwd_rel w v.
Proof.
  intros grow d L s a v HL H Hv. destruct (adm_inv _ _ _ _ HL H) as [F N D E K C]. assert (B := f_base _ F).
  apply index_nth in Hv; auto. destruct (BackwardNeighbors_spec s a v F C Hv) as (js & H1 & H2 & H3).
  exists js. split; auto. split; auto. intros j. rewrite H3. split; intros (w & K1 & K2); exists w; split; auto;
  apply index_nth; auto.
Qed.
Print Assumptions C58_backward_query.

(** On a set that is not downward closed BackwardNeighbors also returns the value -1
    (converted to a huge unsigned index) for inactive neighbours. *)
Theorem C58_backward_query_refuted :
  exists s a r, hist 1 s /\ a < ms_Size s /\ ms_BackwardNeighbors s a = Ok r /\ In None r.
Proof.
  exists c10s, 0, [None]. split.
  - eapply (h_add 1 e1 [2]); [apply (h_start 1 any), s_empty|reflexivity|vm_compute; reflexivity].
  - split; [vm_compute; repeat constructor|]. split; [vm_compute; reflexivity|left; auto].
Qed.
Print Assumptions C58_backward_query_refuted.

Example C58_example : ms_NumForward c11s 0 = Ok 2 /\ ms_NumActiveForward c11s 0 = Ok 2 /\
  ms_AdmissibleForwardNeighbors c11s 1 = Ok [[1;1]; [0;2]] /\ ms_BackwardNeighbors c10_2 4 = Ok [Some 1; Some 2].
Proof. vm_compute. auto. Qed.

(** ** C59 *)

(** Every call on a reachable set either succeeds, or fails in the documented cases;
    the model's fuel never runs out. *)
Theorem C59_calls_are_total_partial :
  forall grow d L s, reach grow d L s ->
    (forall v, length v = d -> exists s' r, ms_AddActive s v = Ok (s', r) /\ (r = None <-> L v = false)) /\
    (forall a, (a < ms_Size s -> exists r, ms_Expand s a = Ok r) /\ (ms_Size s <= a -> ms_Expand s a = Throw)) /\
    (exists r, ms_ExpandAll s = Ok r) /\
    (forall v, length v = d -> 0 < vsum v ->
       (exists s', ms_Activate s v = Ok s' /\ member s' v /\ L v = true /\
          (member s v \/ forall w, fwd_rel w v -> member s w)) \/
       (ms_Activate s v = Throw /\ ~ (L v = true /\ (member s v \/ forall w, fwd_rel w v -> member s w)))) /\
    (forall v fuel, length v = d -> vsum v + 2 <= fuel -> L v = false -> ms_ForciblyActivate grow fuel s v = Throw) /\
    (forall v fuel, length v = d -> vsum v + 2 <= fuel -> L v = true -> (forall n, grow n = false) ->
       exists s' k, ms_ForciblyActivate grow fuel s v = Ok (s', seq (ms_Size s) k) /\
         ms_Size s' = ms_Size s + k /\ member s' v /\
         (forall u, member s' u -> member s u \/ (L u = true /\ vle u v)) /\
         (forall u w, member s' u -> ~ member s u -> fwd_rel w u -> L w = true -> member s' w)).
Proof.
  intros grow d L s H. destruct (reach_inv _ _ _ _ H) as (F & N & D & E). assert (B := f_base _ F).
  split; [|split; [|split; [|split; [|split]]]].
  - intros v Hl. destruct (AddActive_spec s v B) as (s1 & r & new & H1 & G & C); [congruence|].
    exists s1, r. split; auto. destruct C as [(a & -> & _ & K & _)|(-> & _ & _ & K & _)].
    + split; [discriminate|]. intros K'. exfalso. rewrite <- E in K'.
      destruct K as [K|K]; [congruence|]. apply (f_lim _ F) in K. congruence.
    + rewrite E in K. tauto.
  - intros a. split; [|apply Expand_throw]. intros Ha. destruct (actives_nth_lt s a Ha) as [v Hv].
    destruct (Expand_spec s a v B Hv) as (s' & new & H1 & _). eauto.
  - destruct (ExpandAll_spec s B) as (s1 & new & rep1 & H1 & _). eauto.
  - intros v Hl Hs. destruct (Activate_spec s v B) as [(s1 & new & H1 & G & K1 & _ & K2 & K3)|[H1 H2]].
    + left. exists s1. split; auto. split; [apply member_active; auto; apply G|]. split; [congruence|].
      destruct K3 as [K3|K3]; [left; apply member_active; auto|right; intros w Hw; apply member_active; auto].
    + right. split; auto. intros [K1 K2]. apply (H2 F N Hs). split; [congruence|].
      destruct K2 as [K2|K2]; [left; apply member_active; auto|right; intros w Hw; apply member_active; auto].
  - intros v fuel Hl Hf HL. apply (ForciblyActivate_spec grow fuel s v F N); auto; congruence.
  - intros v fuel Hl Hf HL Hg. destruct (ForciblyActivate_spec grow fuel s v F N) as [_ K]; auto; [congruence|].
    destruct K as [[_ (n & Hn)]|(s1 & new & H1 & G & C1 & C2 & C3)]; [congruence|rewrite Hg in Hn; discriminate|].
    assert (B1 := g_base _ _ _ G). cbn [app] in H1.
    exists s1, (length new). split; auto. split.
    { rewrite <- !actives_length, (g_act _ _ _ G), app_length. auto. }
    split; [apply member_active; auto; apply C1; left; auto|]. split.
    + intros u Hu. apply member_active in Hu; auto. apply (grown_active _ _ _ u G) in Hu.
      destruct Hu as [Hu|Hu]; [left; apply member_active; auto|]. right. destruct (C2 u Hu) as (K1 & v' & [<-|[]] & K2).
      rewrite E in K1. auto.
    + intros u w Hu Hn Hw HLw. apply member_active; auto. apply member_active in Hu; auto.
      apply (grown_active _ _ _ u G) in Hu. destruct Hu as [Hu|Hu]; [exfalso; apply Hn, member_active; auto|].
      apply (C3 u); auto. congruence.
Qed.
Print Assumptions C59_calls_are_total_partial.

(** With a real std::vector a forced activation iterates a reference into storage that it
    reallocates. [doubling] is the usual growth policy: a push_back at size 0 or a power of
    two reallocates. *)
Definition doubling (n : nat) : bool := (n =? 0) || existsb (fun k => n =? 2 ^ k) (seq 0 n).
Theorem C59_forced_activation_refuted :
  exists d L s v fuel, start d L s /\ length v = d /\ vsum v + 2 <= fuel /\ L v = true /\
    ms_ForciblyActivate doubling fuel s v = UB.
Proof.
  exists 1, any, e1, [5], 9. split; [apply s_empty|]. split; [reflexivity|].
  split; [vm_compute; repeat constructor|]. split; [reflexivity|]. vm_compute. reflexivity.
Qed.
Print Assumptions C59_forced_activation_refuted.
