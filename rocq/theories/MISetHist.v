(** Histories of calls on a MultiIndexSet, and the invariants that hold after each. *)
From Verif Require Import Base SpecMulti SpecCount MISetModel MultiIndexProofs LimiterProofs MISetInv
  MISetOps MISetForce MISetLimFill.

(** ** Histories *)

(** Sets a user can start from: the constructors of MultiIndexSet. *)
Inductive start (d : nat) : (vec -> bool) -> mset -> Prop :=
| s_empty L : start d L (ms_empty d L)
| s_total p L s : ms_CreateTotalOrder d p L = Ok s -> start d L s
| s_tensor p L s : ms_CreateTensorProduct d p L = Ok s -> start d L s
| s_rows rows s : (forall v, In v rows -> length v = d) -> ms_of_rows d rows = Ok s ->
    start d (fun _ => true) s.

(** One successful mutating call. [grow] says which push_backs reallocate; the fuel of
    the forced activations bounds their recursion and is large enough. *)
Inductive step (grow : nat -> bool) (d : nat) (s : mset) : mset -> Prop :=
| t_add v s' r : length v = d -> ms_AddActive s v = Ok (s', r) -> step grow d s s'
| t_activate v s' : length v = d -> ms_Activate s v = Ok s' -> step grow d s s'
| t_expand a s' rep : ms_Expand s a = Ok (s', rep) -> step grow d s s'
| t_expand_all s' rep : ms_ExpandAll s = Ok (s', rep) -> step grow d s s'
| t_force v fuel s' rep : length v = d -> vsum v + 2 <= fuel ->
    ms_ForciblyActivate grow fuel s v = Ok (s', rep) -> step grow d s s'
| t_fexpand a v fuel s' rep : ms_IndexToMulti s a = Ok v -> d + vsum v + 3 <= fuel ->
    ms_ForciblyExpand grow fuel s a = Ok (s', rep) -> step grow d s s'.

(** Sets reachable without replacing the limiter [L]. *)
Inductive reach (grow : nat -> bool) (d : nat) : (vec -> bool) -> mset -> Prop :=
| r_start L s : start d L s -> reach grow d L s
| r_step L s s' : reach grow d L s -> step grow d s s' -> reach grow d L s'
| r_union L L' s t s' n : reach grow d L s -> reach grow d L' t -> ms_Union s t = Ok (s', n) ->
    reach grow d L s'
| r_assign L L' s t s' : reach grow d L s -> reach grow d L' t -> ms_assign s t = Ok s' ->
    reach grow d L' s'.

(** Later states of the same object (assignment excluded: it replaces the contents). *)
Inductive later (grow : nat -> bool) (d : nat) : mset -> mset -> Prop :=
| l_refl s : later grow d s s
| l_step s s1 s2 : later grow d s s1 -> step grow d s1 s2 -> later grow d s s2
| l_union s s1 s2 L t n : later grow d s s1 -> reach grow d L t -> ms_Union s1 t = Ok (s2, n) ->
    later grow d s s2.

(** Admissible growth: start from the constant term, a total-order or a tensor-product
    set, then expand and activate. *)
Inductive adm (grow : nat -> bool) (d : nat) (L : vec -> bool) : mset -> Prop :=
| a_const s r : ms_AddActive (ms_empty d L) (repeat 0 d) = Ok (s, r) -> adm grow d L s
| a_total p s : ms_CreateTotalOrder d p L = Ok s -> adm grow d L s
| a_tensor p s : ms_CreateTensorProduct d p L = Ok s -> adm grow d L s
| a_activate v s s' : adm grow d L s -> length v = d -> ms_Activate s v = Ok s' -> adm grow d L s'
| a_expand a s s' rep : adm grow d L s -> ms_Expand s a = Ok (s', rep) -> adm grow d L s'
| a_expand_all s s' rep : adm grow d L s -> ms_ExpandAll s = Ok (s', rep) -> adm grow d L s'
| a_force v fuel s s' rep : adm grow d L s -> length v = d -> vsum v + 2 <= fuel ->
    ms_ForciblyActivate grow fuel s v = Ok (s', rep) -> adm grow d L s'
| a_fexpand a v fuel s s' rep : adm grow d L s -> ms_IndexToMulti s a = Ok v -> d + vsum v + 3 <= fuel ->
    ms_ForciblyExpand grow fuel s a = Ok (s', rep) -> adm grow d L s'.

(** ** Each call grows the set *)

Lemma Activate_spec s v : base s ->
  (exists s' new, ms_Activate s v = Ok s' /\ grown s s' new /\ active s' v /\
     (forall u, In u new -> u = v /\ ~ active s v) /\
     lim s v = true /\ (active s v \/ forall w, fwd_rel w v -> active s w)) \/
  (ms_Activate s v = Throw /\
     (full s -> nbrs s -> 0 < vsum v -> ~ (lim s v = true /\ (active s v \/ forall w, fwd_rel w v -> active s w)))).
Proof.
  intros B. unfold ms_Activate. destruct (mfind (m2g s) v) as [g|] eqn:E.
  - apply (b_find _ B) in E. destruct (is_admissible_spec s g v B E) as (b & Hb & I1 & I2). rewrite Hb. cbn [obind].
    destruct b.
    + left. destruct (I1 eq_refl) as [H1 H2].
      destruct (activate_grown s g v B E) as (s' & a & Hs & _ & Ha & [[K1 ->]|(K1 & G & _)]).
      * exists s, []. split; auto. split; [apply grown_refl; auto|]. split; auto. split; [intros u []|auto].
      * exists s', [v]. split; auto. split; auto. split; [eapply nth_error_In; eauto|].
        split; [intros u [<-|[]]; auto|auto].
    + right. split; auto. intros F _ _ [K1 K2]. specialize (I2 F K1 K2). discriminate.
  - right. split; auto. apply mfind_none in E; auto. intros F N Hs [K1 K2].
    destruct K2 as [K2|K2]; [apply E; eapply active_in_all; eauto|].
    destruct (vbackward v) as [|w t] eqn:Ev.
    + assert (vnnz v = 0) by (rewrite <- vbackward_length, Ev; auto).
      assert (vsum v = 0); [|lia]. clear -H. induction v as [|x v IH]; [reflexivity|].
      rewrite vsum_cons. unfold vnnz in H. cbn [filter] in H. destruct (Nat.eqb_spec x 0); cbn in H; [|lia].
      rewrite IH; [lia|]. exact H.
    + assert (Hw : fwd_rel w v) by (apply vbackward_In; rewrite Ev; left; auto).
      apply E. eapply N; eauto.
Qed.

Lemma step_grown grow d s s' : full s -> nbrs s -> dim s = d -> step grow d s s' ->
  exists new, grown s s' new.
Proof.
  intros F N Hd H. assert (B := f_base _ F). destruct H as [v s' r Hl H|v s' Hl H|a s' rep H|s' rep H|v fuel s' rep Hl Hf H|a v fuel s' rep Hv Hf H].
  - destruct (AddActive_spec s v B) as (s1 & r1 & new & H1 & G & _); [congruence|]. rewrite H in H1.
    injection H1 as <- <-. eauto.
  - destruct (Activate_spec s v B) as [(s1 & new & H1 & G & _)|[H1 _]]; [|congruence]. rewrite H in H1.
    injection H1 as <-. eauto.
  - destruct (nth_error (actives s) a) as [v|] eqn:E.
    + destruct (Expand_spec s a v B E) as (s1 & new & H1 & G & _). rewrite H in H1. injection H1 as <- _. eauto.
    + apply nth_error_None in E. rewrite actives_length in E. rewrite Expand_throw in H by auto. discriminate.
  - destruct (ExpandAll_spec s B) as (s1 & new & rep1 & H1 & G & _). rewrite H in H1. injection H1 as <- _. eauto.
  - destruct (ForciblyActivate_spec grow fuel s v F N) as [K1 K2]; auto; [congruence|].
    destruct (lim s v) eqn:El; [|rewrite K1 in H by auto; discriminate].
    destruct (K2 eq_refl) as [[K _]|(s1 & new & H1 & G & _)]; [congruence|]. rewrite H in H1. injection H1 as <- _. eauto.
  - rewrite IndexToMulti_spec in Hv by auto. destruct (nth_error (actives s) a) as [u|] eqn:E; [|discriminate].
    injection Hv as ->. destruct (ForciblyExpand_spec grow fuel s a v F N E) as (us & _ & _ & [[K _]|(s1 & new & H1 & G & _)]).
    + congruence.
    + congruence.
    + rewrite H in H1. injection H1 as <- _. eauto.
Qed.

Lemma start_inv d L s : start d L s -> full s /\ nbrs s /\ dim s = d /\ lim s = L.
Proof.
  intros [L0|p L0 s0 H|p L0 s0 H|rows s0 Hr H].
  - split; [apply empty_full|]. split; [apply nbrs_empty|]. auto.
  - destruct d as [|d]; [discriminate|]. destruct (CreateTotalOrder_spec (S d) p L0) as (s1 & H1 & G); [lia|].
    rewrite H in H1. injection H1 as <-. split; [apply (g_full _ _ _ G), empty_full|].
    split; [apply (g_nbrs _ _ _ G), nbrs_empty|]. split; [apply (g_dim _ _ _ G)|apply (g_lim _ _ _ G)].
  - destruct d as [|d]; [discriminate|]. destruct (CreateTensorProduct_spec (S d) p L0) as (s1 & H1 & G); [lia|].
    rewrite H in H1. injection H1 as <-. split; [apply (g_full _ _ _ G), empty_full|].
    split; [apply (g_nbrs _ _ _ G), nbrs_empty|]. split; [apply (g_dim _ _ _ G)|apply (g_lim _ _ _ G)].
  - destruct (of_rows_spec d rows Hr (ms_empty d (fun _ => true))) as (s1 & new & H1 & G & _);
      auto using empty_full, nbrs_empty. unfold ms_of_rows in H.
    rewrite H in H1. injection H1 as <-. split; [apply (g_full _ _ _ G), empty_full|].
    split; [apply (g_nbrs _ _ _ G), nbrs_empty|]. split; [apply (g_dim _ _ _ G)|apply (g_lim _ _ _ G)].
Qed.

Lemma assign_eq s t s' : ms_assign s t = Ok s' -> s' = t.
Proof.
  unfold ms_assign. destruct (Nat.eqb_spec (dim t) (dim s)) as [E|]; cbn [negb]; [|discriminate].
  intros [= <-]. rewrite <- E. destruct t; reflexivity.
Qed.

Lemma reach_inv grow d L s : reach grow d L s -> full s /\ nbrs s /\ dim s = d /\ lim s = L.
Proof.
  induction 1 as [L s H|L s s' H IH Hs|L L' s t s' n Hs IHs Ht IHt H|L L' s t s' Hs IHs Ht IHt H].
  - apply start_inv; auto.
  - destruct IH as (F & N & D & E). destruct (step_grown grow d s s' F N D Hs) as (new & G).
    split; [apply (g_full _ _ _ G F)|]. split; [apply (g_nbrs _ _ _ G N)|].
    rewrite (g_dim _ _ _ G), (g_lim _ _ _ G). auto.
  - destruct IHs as (F & N & D & E), IHt as (F' & _ & D' & _).
    destruct (Union_spec s t (f_base _ F) (f_base _ F')) as (s1 & new & H1 & B1 & L1 & D1 & _ & F1 & N1 & _); [congruence|].
    rewrite H in H1. injection H1 as <- _. split; [auto|]. split; [auto|]. split; congruence.
  - apply assign_eq in H. subst. auto.
Qed.

Lemma later_reach grow d s s' L : reach grow d L s -> later grow d s s' -> reach grow d L s'.
Proof.
  intros H Hl. induction Hl as [s|s s1 s2 Hl IH Hs|s s1 s2 L' t n Hl IH Ht Hu]; auto.
  - exact (r_step grow d L s1 s2 (IH H) Hs).
  - exact (r_union grow d L L' s1 t s2 n (IH H) Ht Hu).
Qed.

Lemma later_prefix grow d L s s' : reach grow d L s -> later grow d s s' ->
  exists new, actives s' = actives s ++ new.
Proof.
  intros H Hl. assert (Hr := fun s' => later_reach grow d s s' L H).
  induction Hl as [s|s s1 s2 Hl IH Hs|s s1 s2 L' t n Hl IH Ht Hu].
  - exists []. rewrite app_nil_r. auto.
  - destruct IH as [n1 E1]; auto. destruct (reach_inv _ _ _ _ (Hr s1 Hl)) as (F & N & D & _).
    destruct (step_grown grow d s1 s2 F N D Hs) as (n2 & G). exists (n1 ++ n2).
    rewrite (g_act _ _ _ G), E1, app_assoc. auto.
  - destruct IH as [n1 E1]; auto. destruct (reach_inv _ _ _ _ (Hr s1 Hl)) as (F & N & D & _).
    destruct (reach_inv _ _ _ _ Ht) as (F' & _ & D' & _).
    destruct (Union_spec s1 t (f_base _ F) (f_base _ F')) as (s3 & n2 & H1 & _ & _ & _ & _ & _ & _ & Act & _); [congruence|].
    rewrite Hu in H1. injection H1 as <- _. exists (n1 ++ n2). rewrite Act, E1, app_assoc. auto.
Qed.

(** ** Admissible growth *)

Record ainv (d : nat) (L : vec -> bool) (s : mset) : Prop := {
  ai_full : full s;
  ai_nbrs : nbrs s;
  ai_dim : dim s = d;
  ai_lim : lim s = L;
  ai_linked : linked s;
  ai_closed : closed s
}.

Lemma ainv_grown d L s s' new : ainv d L s -> grown s s' new ->
  (forall u w, In u new -> fwd_rel w u -> active s' w) -> ainv d L s'.
Proof.
  intros [] G Hc. split.
  - apply (g_full _ _ _ G); auto.
  - apply (g_nbrs _ _ _ G); auto.
  - rewrite (g_dim _ _ _ G). auto.
  - rewrite (g_lim _ _ _ G). auto.
  - eapply g_linked; eauto.
  - intros v w Hv Hw. apply (grown_active _ _ _ v G) in Hv. destruct Hv as [Hv|Hv]; [|eauto].
    apply (grown_active _ _ _ w G). left. eapply ai_closed0; eauto.
Qed.

Lemma ainv_empty d L : ainv d L (ms_empty d L).
Proof. split; auto using empty_full, nbrs_empty, linked_empty. intros v w []. Qed.

Lemma fwd_vmax w v : fwd_rel w v -> vmax w <= vmax v.
Proof.
  intros H. apply vmax_le_iff. intros x Hx. apply In_nth with (d := 0) in Hx. destruct Hx as (i & Hi & <-).
  destruct (fwd_rel_vle _ _ H) as [Hl Hle]. eapply Nat.le_trans; [apply Hle|].
  assert (K := proj1 (vmax_le_iff v (vmax v)) (le_n _)). apply K. apply nth_In. lia.
Qed.

Lemma adm_inv grow d L s : down_closed (fun v => L v = true) -> adm grow d L s -> ainv d L s.
Proof.
  intros HL H. induction H as [s r H|p s H|p s H|v s s' Hs IH Hl H|a s s' rep Hs IH H|s s' rep Hs IH H|
    v fuel s s' rep Hs IH Hl Hf H|a v fuel s s' rep Hs IH Hv Hf H].
  - destruct (AddActive_spec (ms_empty d L) (repeat 0 d)) as (s1 & r1 & new & H1 & G & C).
    { apply empty_full. } { cbn. apply repeat_length. }
    rewrite H in H1. injection H1 as <- <-. apply (ainv_grown d L _ _ _ (ainv_empty d L) G).
    intros u w Hu Hw. exfalso.
    assert (u = repeat 0 d).
    { destruct C as [(a & _ & _ & _ & [[_ ->]|[_ ->]])|(_ & _ & -> & _)]; [destruct Hu|destruct Hu as [<-|[]]; auto|destruct Hu]. }
    subst u. apply fwd_rel_vsum in Hw. assert (Z : vsum (repeat 0 d) = 0).
    { clear. induction d; [reflexivity|]. cbn [repeat]. rewrite vsum_cons, IHd. reflexivity. }
    lia.
  - destruct d as [|d]; [discriminate|]. destruct (CreateTotalOrder_spec (S d) p L) as (s1 & H1 & G); [lia|].
    rewrite H in H1. injection H1 as <-. apply (ainv_grown _ L _ _ _ (ainv_empty (S d) L) G).
    intros u w Hu Hw. apply (grown_active _ _ _ w G). right. apply filter_In in Hu. destruct Hu as [Hu HLu].
    apply enum_total_In in Hu; [|rewrite vsum_nil; lia]. destruct Hu as (t & -> & Ht & Hsum). cbn [app] in *.
    apply filter_In. split; [|apply (HL w t); auto using fwd_rel_vle].
    apply enum_total_In; [rewrite vsum_nil; lia|]. exists w. split; auto. split.
    + rewrite <- Ht. symmetry. apply fwd_rel_length; auto.
    + assert (K := fwd_rel_vsum _ _ Hw). lia.
  - destruct d as [|d]; [discriminate|]. destruct (CreateTensorProduct_spec (S d) p L) as (s1 & H1 & G); [lia|].
    rewrite H in H1. injection H1 as <-. apply (ainv_grown _ L _ _ _ (ainv_empty (S d) L) G).
    intros u w Hu Hw. apply (grown_active _ _ _ w G). right. apply filter_In in Hu. destruct Hu as [Hu HLu].
    apply enum_tensor_In in Hu. destruct Hu as (t & -> & Ht & Hsum). cbn [app] in *.
    apply filter_In. split; [|apply (HL w t); auto using fwd_rel_vle].
    apply enum_tensor_In. exists w. split; auto. split.
    + rewrite <- Ht. symmetry. apply fwd_rel_length; auto.
    + assert (K := fwd_vmax _ _ Hw). lia.
  - assert (B := f_base _ (ai_full _ _ _ IH)).
    destruct (Activate_spec s v B) as [(s1 & new & H1 & G & Hav & Hnew & _ & Hb)|[H1 _]]; [|congruence].
    rewrite H in H1. injection H1 as <-. apply (ainv_grown _ _ _ _ _ IH G).
    intros u w Hu Hw. destruct (Hnew u Hu) as [-> Hna]. destruct Hb as [Hb|Hb]; [contradiction|].
    apply (grown_active _ _ _ w G). left. auto.
  - assert (B := f_base _ (ai_full _ _ _ IH)). destruct (nth_error (actives s) a) as [v|] eqn:E.
    + destruct (Expand_spec s a v B E) as (s1 & new & H1 & G & C & _). rewrite H in H1. injection H1 as <- _.
      apply (ainv_grown _ _ _ _ _ IH G). intros u w Hu Hw. destruct (C u Hu) as (_ & _ & _ & K). auto.
    + apply nth_error_None in E. rewrite actives_length in E. rewrite Expand_throw in H by auto. discriminate.
  - assert (B := f_base _ (ai_full _ _ _ IH)).
    destruct (ExpandAll_spec s B) as (s1 & new & rep1 & H1 & G & C & _). rewrite H in H1. injection H1 as <- _.
    apply (ainv_grown _ _ _ _ _ IH G). intros u w Hu Hw. destruct (C u Hu) as [(_ & _ & K) _].
    apply (grown_active _ _ _ w G). left. auto.
  - destruct IH as [F N D E K C].
    destruct (ForciblyActivate_spec grow fuel s v F N) as [K1 K2]; auto; [congruence|].
    destruct (lim s v) eqn:El; [|rewrite K1 in H by auto; discriminate].
    destruct (K2 eq_refl) as [[K3 _]|(s1 & new & H1 & G & _ & C2 & C3)]; [congruence|]. rewrite H in H1. injection H1 as <- _.
    apply (ainv_grown d L s s' new); [split; auto|auto|]. intros u w Hu Hw. apply (C3 u); auto.
    destruct (C2 u Hu) as [K4 _]. rewrite E in *. apply (HL w u); auto using fwd_rel_vle.
  - destruct IH as [F N D E K C]. assert (B := f_base _ F).
    rewrite IndexToMulti_spec in Hv by auto. destruct (nth_error (actives s) a) as [u0|] eqn:E0; [|discriminate].
    injection Hv as ->. destruct (ForciblyExpand_spec grow fuel s a v F N E0) as (us & _ & _ & [[K3 _]|(s1 & new & H1 & G & _ & C2 & C3)]).
    + congruence.
    + congruence.
    + rewrite H in H1. injection H1 as <- _.
      apply (ainv_grown d L s s' new); [split; auto|auto|]. intros u w Hu Hw. apply (C3 u); auto.
      destruct (C2 u Hu) as [K4 _]. rewrite E in *. apply (HL w u); auto using fwd_rel_vle.
Qed.

(** One-step closure gives downward closure. *)
Lemma closed_down s : closed s -> down_closed (active s).
Proof.
  intros Hc. assert (forall n a b, vsum b - vsum a = n -> vle a b -> active s b -> active s a).
  { induction n as [n IH] using lt_wf_ind. intros a b Hn Hab Hb.
    destruct (list_eq_dec Nat.eq_dec a b) as [->|Hne]; auto.
    assert (exists i, i < length b /\ nth i a 0 < nth i b 0) as (i & Hi & Hlt).
    { destruct Hab as [Hl Hle]. destruct (existsb (fun i => nth i a 0 <? nth i b 0) (seq 0 (length b))) eqn:E.
      - apply existsb_exists in E. destruct E as (i & Hi & Hlt). apply in_seq in Hi. apply Nat.ltb_lt in Hlt.
        exists i. split; [lia|auto].
      - exfalso. apply Hne. apply nth_ext_eq with 0; auto. intros i Hi.
        destruct (Nat.lt_ge_cases (nth i a 0) (nth i b 0)) as [K|K]; [|specialize (Hle i); lia].
        exfalso. assert (X : existsb (fun i => nth i a 0 <? nth i b 0) (seq 0 (length b)) = true); [|congruence].
        apply existsb_exists. exists i. split; [apply in_seq; lia|apply Nat.ltb_lt; auto]. }
    set (b' := vset b i (nth i b 0 - 1)).
    assert (Hbb : fwd_rel b' b) by (apply bwd_vset; exists i; split; [auto|split; [lia|reflexivity]]).
    destruct Hbb as [j (Hj1 & Hj2 & Hj3)].
    assert (Hbb : fwd_rel b' b) by (exists j; repeat split; auto).
    assert (Eb : nth i b' 0 = nth i b 0 - 1).
    { unfold b'. rewrite nth_vset by auto. rewrite Nat.eqb_refl. reflexivity. }
    assert (j = i).
    { destruct (Nat.eq_dec j i); auto. assert (K := Hj3 i). destruct (Nat.eqb_spec i j); [congruence|]. lia. }
    subst j.
    assert (Hs := fwd_rel_vsum _ _ Hbb).
    assert (Hab' : vle a b').
    { destruct Hab as [Hl Hle]. split; [congruence|]. intros k. assert (K := Hj3 k). specialize (Hle k).
      destruct (Nat.eqb_spec k i) as [->|]; lia. }
    assert (Hle' : vsum a <= vsum b').
    { clear - Hab'. revert Hab'. generalize b'. induction a as [|x a IHa]; intros c [Hl Hle].
      - rewrite vsum_nil. lia.
      - destruct c as [|y c]; [discriminate|]. rewrite !vsum_cons. assert (K := Hle 0). cbn in K.
        assert (vsum a <= vsum c); [|lia]. apply IHa. split; [cbn in Hl; lia|]. intros k. exact (Hle (S k)). }
    apply (IH (vsum b' - vsum a)) with b'; auto; [lia|]. eapply Hc; eauto. }
  intros a b Hab Hb. eapply H; eauto.
Qed.

(** ** Any history, limiter replacement included *)

Inductive hist (d : nat) : mset -> Prop :=
| h_start L s : start d L s -> hist d s
| h_add s v s' r : hist d s -> length v = d -> ms_AddActive s v = Ok (s', r) -> hist d s'
| h_activate s v s' : hist d s -> length v = d -> ms_Activate s v = Ok s' -> hist d s'
| h_expand s a s' rep : hist d s -> ms_Expand s a = Ok (s', rep) -> hist d s'
| h_expand_all s s' rep : hist d s -> ms_ExpandAll s = Ok (s', rep) -> hist d s'
| h_union s t s' n : hist d s -> hist d t -> ms_Union s t = Ok (s', n) -> hist d s'
| h_assign s t s' : hist d s -> hist d t -> ms_assign s t = Ok s' -> hist d s'
| h_setlim s L s' threw : hist d s -> ms_SetLimiter s L = Ok (s', threw) -> hist d s'.

Lemma SetLimiter_dim s L s' threw : base s -> ms_SetLimiter s L = Ok (s', threw) -> base s'.
Proof.
  intros B H. destruct (SetLimiter_spec s L B) as [(s1 & v & H1 & _ & _ & B1 & _)|(s1 & H1 & B1 & _)];
    rewrite H in H1; injection H1 as <- _; auto.
Qed.

Lemma setlim_loop_dim f L : forall g s s' t, base s -> setlim_loop f L g s = Ok (s', t) -> dim s' = dim s.
Proof.
  induction f as [|f IH]; intros g s s' t B H; cbn [setlim_loop] in H; [discriminate|].
  destruct (Nat.ltb_spec g (length (all s))) as [Lg|Lg].
  2:{ injection H as <- _. auto. }
  assert (Hv := all_nth s g Lg).
  destruct (is_active_spec s g _ B Hv) as (a & Ha & Ia). rewrite Ha in H. cbn [obind] in H.
  rewrite (at_ok _ _ _ Hv) in H. cbn [obind] in H. destruct a; destruct (L (nth g (all s) [])) eqn:El; cbn [negb] in H.
  - unfold add_fwd in H. rewrite (at_ok _ _ _ Hv) in H. cbn [obind] in H.
    destruct (grow_fwd_loop g _ (vforward (nth g (all s) [])) s B Hv) as (s1 & ex & H1 & B1 & X & _).
    { intros w. apply vforward_In. }
    rewrite H1 in H. cbn [obind] in H. apply IH in H; auto. rewrite H. apply (e_dim _ _ _ X).
  - injection H as <- _. auto.
  - apply IH in H; auto.
  - destruct (drop_node_spec s g _ B Hv) as (s1 & H1 & B1 & F1 & _). rewrite H1 in H. cbn [obind] in H.
    apply IH in H; auto. rewrite H. apply F1.
Qed.

Lemma hist_inv d s : hist d s -> base s /\ dim s = d.
Proof.
  induction 1 as [L s H|s v s' r Hs [B D] Hl H|s v s' Hs [B D] Hl H|s a s' rep Hs [B D] H|s s' rep Hs [B D] H|
    s t s' n Hs [B D] Ht [B' D'] H|s t s' Hs [B D] Ht [B' D'] H|s L s' threw Hs [B D] H].
  - apply start_inv in H. destruct H as (F & _ & D & _). split; auto. apply F.
  - destruct (AddActive_spec s v B) as (s1 & r1 & new & H1 & G & _); [congruence|]. rewrite H in H1.
    injection H1 as <- <-. split; [apply G|]. rewrite (g_dim _ _ _ G). auto.
  - destruct (Activate_spec s v B) as [(s1 & new & H1 & G & _)|[H1 _]]; [|congruence]. rewrite H in H1.
    injection H1 as <-. split; [apply G|]. rewrite (g_dim _ _ _ G). auto.
  - destruct (nth_error (actives s) a) as [v|] eqn:E.
    + destruct (Expand_spec s a v B E) as (s1 & new & H1 & G & _). rewrite H in H1. injection H1 as <- _.
      split; [apply G|]. rewrite (g_dim _ _ _ G). auto.
    + apply nth_error_None in E. rewrite actives_length in E. rewrite Expand_throw in H by auto. discriminate.
  - destruct (ExpandAll_spec s B) as (s1 & new & rep1 & H1 & G & _). rewrite H in H1. injection H1 as <- _.
    split; [apply G|]. rewrite (g_dim _ _ _ G). auto.
  - destruct (Union_spec s t B B') as (s1 & new & H1 & B1 & _ & D1 & _); [congruence|]. rewrite H in H1.
    injection H1 as <- _. split; auto. congruence.
  - apply assign_eq in H. subst. auto.
  - split; [eapply SetLimiter_dim; eauto|]. apply setlim_loop_dim in H; [|apply set_lim_base; auto]. rewrite H. exact D.
Qed.

(** ** Neighbour queries *)

Lemma NumForward_spec s a v : full s -> nbrs s -> nth_error (actives s) a = Some v ->
  exists l, ms_NumForward s a = Ok (length l) /\ NoDup l /\ forall u, In u l <-> fwd_rel v u /\ lim s u = true.
Proof.
  intros F N Ha. assert (B := f_base _ F). assert (Hact : active s v) by (eapply nth_error_In; eauto).
  apply actives_nth in Ha; auto. destruct Ha as (g & Hg & Hv). unfold ms_NumForward.
  rewrite (at_ok _ _ _ Hg). cbn [obind]. destruct (outE_spec s g v B Hv) as (l & Hl & Sl & Hed & Hw).
  rewrite (raw_ok _ _ _ Hl). cbn [obind]. exists (map (fun h => nth h (all s) []) l). rewrite map_length.
  split; auto. split.
  - apply NoDup_map_in; [|eapply ssorted_NoDup; eauto]. intros x y Hx Hy E.
    destruct (Hw x Hx) as (wx & Kx & _), (Hw y Hy) as (wy & Ky & _).
    eapply all_inj; eauto using nth_error_lt.
  - intros u. rewrite in_map_iff. split.
    + intros (h & <- & Hh). destruct (Hw h Hh) as (w & K1 & K2). rewrite (nth_all _ _ _ K1). split; auto.
      apply (f_lim _ F). eapply nth_error_In; eauto.
    + intros [K1 K2]. assert (Hi : In u (all s)) by (eapply N; eauto). apply In_nth_error in Hi. destruct Hi as [h Hh].
      exists h. split; [apply nth_all; auto|]. apply Hed. eapply (f_edges _ F); eauto.
Qed.

Lemma NumActiveForward_spec s a v : full s -> nbrs s -> nth_error (actives s) a = Some v ->
  exists l, ms_NumActiveForward s a = Ok (length l) /\ NoDup l /\ forall u, In u l <-> fwd_rel v u /\ active s u.
Proof.
  intros F N Ha. assert (B := f_base _ F). assert (Hact : active s v) by (eapply nth_error_In; eauto).
  apply actives_nth in Ha; auto. destruct Ha as (g & Hg & Hv). unfold ms_NumActiveForward.
  rewrite (at_ok _ _ _ Hg). cbn [obind]. destruct (outE_spec s g v B Hv) as (l & Hl & Sl & Hed & Hw).
  rewrite (raw_ok _ _ _ Hl). cbn [obind].
  rewrite count_active_ok; auto.
  2:{ intros h Hh. destruct (Hw h Hh) as (w & Kw & _). eapply nth_error_lt; eauto. }
  exists (map (fun h => nth h (all s) []) (filter (okb (is_active s)) l)). rewrite map_length.
  split; auto. split.
  - apply NoDup_map_in; [|apply NoDup_filter; eapply ssorted_NoDup; eauto]. intros x y Hx Hy E.
    apply filter_In in Hx, Hy. destruct Hx as [Hx _], Hy as [Hy _].
    destruct (Hw x Hx) as (wx & Kx & _), (Hw y Hy) as (wy & Ky & _).
    eapply all_inj; eauto using nth_error_lt.
  - intros u. rewrite in_map_iff. split.
    + intros (h & <- & Hh). apply filter_In in Hh. destruct Hh as [Hh Hb].
      destruct (Hw h Hh) as (w & K1 & K2). rewrite (nth_all _ _ _ K1). split; auto.
      eapply okb_true; [eapply is_active_spec; eauto|exact Hb].
    + intros [K1 K2]. assert (Hi := active_in_all _ _ B K2). apply In_nth_error in Hi. destruct Hi as [h Hh].
      exists h. split; [apply nth_all; auto|]. apply filter_In. split; [apply Hed; eapply (f_edges _ F); eauto|].
      eapply okb_true; [eapply is_active_spec; eauto|exact K2].
Qed.

Lemma AdmissibleForward_spec s a v : full s -> nbrs s -> nth_error (actives s) a = Some v ->
  exists l, ms_AdmissibleForwardNeighbors s a = Ok l /\ NoDup l /\
    forall u, In u l <-> fwd_rel v u /\ lim s u = true /\ (active s u \/ forall w, fwd_rel w u -> active s w).
Proof.
  intros F N Ha. assert (B := f_base _ F). assert (Hact : active s v) by (eapply nth_error_In; eauto).
  apply actives_nth in Ha; auto. destruct Ha as (g & Hg & Hv). unfold ms_AdmissibleForwardNeighbors.
  rewrite (at_ok _ _ _ Hg). cbn [obind]. destruct (outE_spec s g v B Hv) as (l & Hl & Sl & Hed & Hw).
  rewrite (raw_ok _ _ _ Hl). cbn [obind].
  rewrite ofilter_ok.
  2:{ intros h Hh. destruct (Hw h Hh) as (w & Kw & _). destruct (is_admissible_spec s h w B Kw) as (b & Hb & _). eauto. }
  cbn [obind]. rewrite (omap_ok _ (fun h => nth h (all s) [])).
  2:{ intros h Hh. apply filter_In in Hh. destruct Hh as [Hh _]. destruct (Hw h Hh) as (w & Kw & _).
      apply at_nth. eapply nth_error_lt; eauto. }
  eexists. split; [reflexivity|]. split.
  - apply NoDup_map_in; [|apply NoDup_filter; eapply ssorted_NoDup; eauto]. intros x y Hx Hy E.
    apply filter_In in Hx, Hy. destruct Hx as [Hx _], Hy as [Hy _].
    destruct (Hw x Hx) as (wx & Kx & _), (Hw y Hy) as (wy & Ky & _).
    eapply all_inj; eauto using nth_error_lt.
  - intros u. rewrite in_map_iff. split.
    + intros (h & <- & Hh). apply filter_In in Hh. destruct Hh as [Hh Hb].
      destruct (Hw h Hh) as (w & K1 & K2). rewrite (nth_all _ _ _ K1). split; auto.
      destruct (is_admissible_spec s h w B K1) as (b & Hb' & I1 & _). unfold okb in Hb. rewrite Hb' in Hb. auto.
    + intros (K1 & K2 & K3). assert (Hi : In u (all s)) by (eapply N; eauto). apply In_nth_error in Hi. destruct Hi as [h Hh].
      exists h. split; [apply nth_all; auto|]. apply filter_In. split; [apply Hed; eapply (f_edges _ F); eauto|].
      destruct (is_admissible_spec s h u B Hh) as (b & Hb' & _ & I2). unfold okb. rewrite Hb'. auto.
Qed.

Lemma BackwardNeighbors_spec s a v : full s -> closed s -> nth_error (actives s) a = Some v ->
  exists js, ms_BackwardNeighbors s a = Ok (map Some js) /\ NoDup js /\
    forall j, In j js <-> exists w, nth_error (actives s) j = Some w /\ fwd_rel w v.
Proof.
  intros F C Ha. assert (B := f_base _ F). assert (Hact : active s v) by (eapply nth_error_In; eauto).
  apply actives_nth in Ha; auto. destruct Ha as (g & Hg & Hv). unfold ms_BackwardNeighbors.
  rewrite (at_ok _ _ _ Hg). cbn [obind]. destruct (inE_spec s g v B Hv) as (l & Hl & Nl & Hed & Hw).
  rewrite (raw_ok _ _ _ Hl). cbn [obind].
  assert (HA : forall h, In h l -> exists j, nth_error (g2a s) h = Some (Some j)).
  { intros h Hh. destruct (Hw h Hh) as (w & K1 & K2). apply (active_g2a s h w B K1). eapply C; eauto. }
  set (f := fun h => match nth_error (g2a s) h with Some (Some j) => j | _ => 0 end).
  rewrite (omap_ok _ (fun h => Some (f h))).
  2:{ intros h Hh. destruct (HA h Hh) as [j Hj]. unfold f. rewrite Hj. apply at_ok; auto. }
  exists (map f l). rewrite map_map. split; [reflexivity|]. split.
  - apply NoDup_map_in; auto. intros x y Hx Hy E. unfold f in E. destruct (HA x Hx) as [i Hi], (HA y Hy) as [j Hj].
    rewrite Hi, Hj in E. subst j. apply (b_act _ B) in Hi, Hj. congruence.
  - intros j. rewrite in_map_iff. split.
    + intros (h & <- & Hh). destruct (HA h Hh) as [i Hi]. unfold f. rewrite Hi.
      destruct (Hw h Hh) as (w & K1 & K2). exists w. split; auto. apply actives_nth; auto. exists h.
      split; auto. apply (b_act _ B); auto.
    + intros (w & K1 & K2). apply actives_nth in K1; auto. destruct K1 as (h & K1 & K3). exists h.
      split; [unfold f; apply (b_act _ B) in K1; rewrite K1; auto|]. apply Hed. eapply (f_edges _ F); eauto.
Qed.
