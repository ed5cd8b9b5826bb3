(** ForciblyActivate / ForciblyExpand, SetLimiter and the recursive fills. *)
From Coq Require Import Sorted.
From Verif Require Import Base SpecMulti MISetModel MultiIndexProofs LimiterProofs MISetInv MISetOps.

(** ** Order facts *)

Lemma vle_refl v : vle v v.
Proof. split; auto. Qed.

Lemma vle_trans a b c : vle a b -> vle b c -> vle a c.
Proof. intros [L1 H1] [L2 H2]. split; [congruence|]. intros j. specialize (H1 j). specialize (H2 j). lia. Qed.

Lemma fwd_rel_vle w v : fwd_rel w v -> vle w v.
Proof.
  intros (i & L & _ & H). split; [lia|]. intros j. specialize (H j). lia.
Qed.

Lemma fwd_rel_vsum w v : fwd_rel w v -> vsum v = S (vsum w).
Proof. intros H. apply plus_unit_sum; auto. apply fwd_rel_Forall2; auto. Qed.

Lemma vnnz_le_vsum v : vnnz v <= vsum v.
Proof.
  unfold vnnz. induction v as [|x v IH]; [cbn; lia|]. rewrite vsum_cons. cbn [filter].
  destruct (Nat.eqb_spec x 0); cbn [negb length]; lia.
Qed.

(** ** Sorted lists are determined by their elements *)

Lemma ssorted_ext a : forall b, ssorted a -> ssorted b -> (forall x, In x a <-> In x b) -> a = b.
Proof.
  induction a as [|x a IH]; intros [|y b] Ha Hb H; auto.
  - exfalso. apply (H y). left; auto.
  - exfalso. apply (H x). left; auto.
  - inversion Ha as [|? ? Sa Fa]; inversion Hb as [|? ? Sb Fb]; subst.
    rewrite Forall_forall in Fa, Fb.
    assert (x = y).
    { destruct (proj1 (H x) (or_introl eq_refl)) as [|Hx]; auto.
      destruct (proj2 (H y) (or_introl eq_refl)) as [|Hy]; auto.
      specialize (Fa _ Hy). specialize (Fb _ Hx). lia. }
    subst y. f_equal. apply IH; auto. intros z. split; intros Hz.
    + destruct (proj1 (H z) (or_intror Hz)) as [->|]; auto. specialize (Fa _ Hz). lia.
    + destruct (proj2 (H z) (or_intror Hz)) as [->|]; auto. specialize (Fb _ Hz). lia.
Qed.

Lemma snext_suffix l1 : forall x l2, ssorted (l1 ++ x :: l2) ->
  snext (l1 ++ x :: l2) (Some x) = hd_error l2.
Proof.
  unfold snext. induction l1 as [|y l1 IH]; intros x l2 H; cbn [app find].
  - rewrite Nat.ltb_irrefl. inversion H as [|? ? _ F]; subst. destruct l2 as [|z l2]; auto. cbn.
    inversion F; subst. destruct (Nat.ltb_spec x z); [auto|lia].
  - inversion H as [|? ? Sx F]; subst. rewrite Forall_forall in F.
    assert (y < x) by (apply F, in_app_iff; right; left; auto).
    destruct (Nat.ltb_spec x y); [lia|]. apply IH; auto.
Qed.

(** ** Edge sets of an active node do not change any more *)

Lemma sorted_at E g l : Forall ssorted E -> nth_error E g = Some l -> ssorted l.
Proof. intros H. apply Forall_nth_error; auto. Qed.

Lemma stored_same s1 s2 new g v : grown s1 s2 new -> nth_error (all s2) g = Some v -> In v (all s1) ->
  nth_error (all s1) g = Some v.
Proof.
  intros G Hg Hi. apply In_nth_error in Hi. destruct Hi as [h Hh].
  assert (Hh2 := grown_nth _ _ _ _ _ G Hh). assert (B2 := g_base _ _ _ G).
  apply (b_find _ B2) in Hg, Hh2. congruence.
Qed.

Lemma edges_const s1 s2 new g v : full s1 -> nbrs s1 -> grown s1 s2 new ->
  nth_error (all s1) g = Some v -> active s1 v ->
  nth_error (inE s2) g = nth_error (inE s1) g /\ nth_error (outE s2) g = nth_error (outE s1) g.
Proof.
  intros F N G Hg Ha. assert (B1 := f_base _ F). assert (B2 := g_base _ _ _ G).
  assert (F2 := g_full _ _ _ G F). assert (Hg2 := grown_nth _ _ _ _ _ G Hg).
  assert (Hi : forall w, (fwd_rel w v \/ fwd_rel v w) -> In w (all s2) -> In w (all s1)).
  { intros w Hw Hin. apply (N v w); auto; [tauto|]. rewrite <- (g_lim _ _ _ G). apply (f_lim _ F2); auto. }
  split.
  - destruct (inE_spec s1 g v B1 Hg) as (l1 & E1 & _ & Hed1 & Hw1).
    destruct (inE_spec s2 g v B2 Hg2) as (l2 & E2 & _ & Hed2 & Hw2).
    rewrite E1, E2. f_equal. apply ssorted_ext; try (eapply sorted_at; [|eassumption]; apply b_sorti; auto).
    intros h. split; intros Hh.
    + destruct (Hw2 h Hh) as (w & K1 & K2). apply Hed1. eapply (f_edges _ F); eauto.
      eapply stored_same; eauto. apply Hi; auto. eapply nth_error_In; eauto.
    + destruct (Hw1 h Hh) as (w & K1 & K2). apply Hed2. eapply (f_edges _ F2); eauto.
      eapply grown_nth; eauto.
  - destruct (outE_spec s1 g v B1 Hg) as (l1 & E1 & _ & Hed1 & Hw1).
    destruct (outE_spec s2 g v B2 Hg2) as (l2 & E2 & _ & Hed2 & Hw2).
    rewrite E1, E2. f_equal. apply ssorted_ext; try (eapply sorted_at; [|eassumption]; apply b_sorto; auto).
    intros h. split; intros Hh.
    + destruct (Hw2 h Hh) as (w & K1 & K2). apply Hed1. eapply (f_edges _ F); eauto.
      eapply stored_same; eauto. apply Hi; auto. eapply nth_error_In; eauto.
    + destruct (Hw1 h Hh) as (w & K1 & K2). apply Hed2. eapply (f_edges _ F2); eauto.
      eapply grown_nth; eauto.
Qed.

(** ** Forced activation *)

(** What a forced activation of the members [vs] does, unless storage moved under
    a live reference. *)
Definition forced (grow : nat -> bool) (s : mset) (vs : list vec) (acc : list nat)
    (r : outcome (mset * list nat)) : Prop :=
  (r = UB /\ exists n, grow n = true) \/
  exists s' new, r = Ok (s', acc ++ seq (ms_Size s) (length new)) /\ grown s s' new /\
    (forall v, In v vs -> active s' v) /\
    (forall u, In u new -> lim s u = true /\ exists v, In v vs /\ vle u v) /\
    (forall u w, In u new -> fwd_rel w u -> lim s w = true -> active s' w).

Lemma moved_grow grow a b : moved grow a b = true -> exists n, grow n = true.
Proof. unfold moved. intros H. apply existsb_exists in H. destruct H as (n & _ & Hn). eauto. Qed.

Lemma seq_cat s s' new k : grown s s' new ->
  seq (ms_Size s) (length new) ++ seq (ms_Size s') k = seq (ms_Size s) (length new + k).
Proof.
  intros G. rewrite seq_app. f_equal. f_equal.
  rewrite <- !actives_length, (g_act _ _ _ G), app_length. reflexivity.
Qed.

Lemma edge_loop_forced rec grow E n0 g v0 (P : mset -> Prop) : (E = inE \/ E = outE) ->
  forall l2 l1 k cur s acc, full s -> nbrs s -> nth_error (all s) g = Some v0 -> active s v0 ->
  nth_error (E s) g = Some (l1 ++ l2) -> ssorted (l1 ++ l2) ->
  ((cur = None /\ l1 = []) \/ exists l0 x, l1 = l0 ++ [x] /\ cur = Some x) ->
  length l2 < k -> (forall h, In h l2 -> h < length (all s)) ->
  (forall s1 h acc1, full s1 -> nbrs s1 -> h < length (all s) -> In h l2 ->
     nth_error (all s1) h = nth_error (all s) h -> lim s1 = lim s ->
     forced grow s1 [nth h (all s) []] acc1 (rec s1 h acc1)) ->
  forced grow s (map (fun h => nth h (all s) []) l2) acc (edge_loop rec grow E n0 g k cur s acc).
Proof.
  intros HE. induction l2 as [|h l2 IH]; intros l1 k cur s acc F N Hg Ha He Hs Hcur Hk Hlt Hrec.
  - destruct k as [|k]; [cbn in Hk; lia|]. cbn [edge_loop]. rewrite (at_ok _ _ _ He). cbn [obind].
    assert (Hn : snext (l1 ++ []) cur = None).
    { destruct Hcur as [[-> ->]|(l0 & x & -> & ->)]; [reflexivity|]. rewrite app_nil_r.
      apply (snext_suffix l0 x []). rewrite app_nil_r in Hs. exact Hs. }
    rewrite Hn. right. exists s, []. cbn. rewrite app_nil_r. split; [reflexivity|].
    split; [apply grown_refl, F|]. split; [intros v []|]. split; [intros u []|intros u w []].
  - destruct k as [|k]; [cbn in Hk; lia|]. cbn [edge_loop]. rewrite (at_ok _ _ _ He). cbn [obind].
    assert (Hn : snext (l1 ++ h :: l2) cur = Some h).
    { destruct Hcur as [[-> ->]|(l0 & x & -> & ->)]; [reflexivity|]. rewrite <- app_assoc in *.
      apply (snext_suffix l0 x (h :: l2)). exact Hs. }
    rewrite Hn. assert (Lh : h < length (all s)) by (apply Hlt; left; auto).
    destruct (Hrec s h acc F N Lh (or_introl eq_refl) eq_refl eq_refl) as [[-> Hgr]|(s1 & n1 & H1 & G1 & A1 & C1 & D1)].
    { left. auto. }
    rewrite H1. cbn [obind]. destruct (moved grow n0 (length (all s1))) eqn:Em.
    { left. split; auto. eapply moved_grow; eauto. }
    destruct (edges_const s s1 n1 g v0 F N G1 Hg Ha) as [Ei Eo].
    assert (HE1 : nth_error (E s1) g = Some ((l1 ++ [h]) ++ l2)).
    { rewrite <- app_assoc. cbn. destruct HE as [-> | ->]; congruence. }
    assert (F1 := g_full _ _ _ G1 F). assert (N1 := g_nbrs _ _ _ G1 N).
    assert (Hsame : forall x, x < length (all s) -> nth_error (all s1) x = nth_error (all s) x).
    { intros x Hx. rewrite (all_nth s x Hx). apply (grown_nth _ _ _ _ _ G1), all_nth; auto. }
    assert (Hlen : length (all s) <= length (all s1)).
    { destruct (g_all _ _ _ G1) as [ex ->]. rewrite app_length. lia. }
    destruct (IH (l1 ++ [h]) k (Some h) s1 (acc ++ seq (ms_Size s) (length n1))) as [[-> Hgr]|(s2 & n2 & H2 & G2 & A2 & C2 & D2)]; auto.
    + apply (grown_nth _ _ _ _ _ G1); auto.
    + apply (grown_active _ _ _ _ G1); auto.
    + rewrite <- app_assoc. exact Hs.
    + right. eauto.
    + cbn in Hk. lia.
    + intros x Hx. assert (x < length (all s)) by (apply Hlt; right; auto). lia.
    + intros s2 x acc2 F2 N2 Hx Hxl Hnx Hlim.
      assert (Lx : x < length (all s)) by (apply Hlt; right; auto).
      assert (Hnth : nth x (all s1) [] = nth x (all s) []).
      { apply nth_error_nth. rewrite (Hsame x Lx). apply all_nth; auto. }
      rewrite Hnth. apply Hrec; auto; [right; auto| |rewrite Hlim; apply (g_lim _ _ _ G1)].
      rewrite Hnx. auto.
    + left. split; auto.
    + right. exists s2, (n1 ++ n2). split.
      { rewrite H2, <- app_assoc, (seq_cat _ _ _ _ G1), app_length. reflexivity. }
      split; [eapply grown_trans; eauto|].
      assert (Hmap : map (fun x => nth x (all s1) []) l2 = map (fun x => nth x (all s) []) l2).
      { apply map_ext_in. intros x Hx. apply nth_error_nth. rewrite Hsame by (apply Hlt; right; auto).
        apply all_nth, Hlt; right; auto. }
      rewrite Hmap in A2, C2. split; [|split].
      * intros v [<-|Hv]; [|auto]. apply (grown_active _ _ _ _ G2). left. apply A1. left; auto.
      * intros u Hu. apply in_app_iff in Hu. destruct Hu as [Hu|Hu].
        -- destruct (C1 u Hu) as (K1 & v & [<-|[]] & K2). split; auto. exists (nth h (all s) []).
           split; [left; auto|auto].
        -- destruct (C2 u Hu) as (K1 & v & Kv & K2). rewrite (g_lim _ _ _ G1) in K1. split; auto.
           exists v. split; [right; auto|auto].
      * intros u w Hu Hw Hl. apply in_app_iff in Hu. destruct Hu as [Hu|Hu].
        -- apply (grown_active _ _ _ _ G2). left. eapply D1; eauto.
        -- eapply D2; eauto. rewrite (g_lim _ _ _ G1). auto.
Qed.

Lemma forcibly_forced grow : forall fuel s g v acc, full s -> nbrs s ->
  nth_error (all s) g = Some v -> vsum v + 2 <= fuel ->
  forced grow s [v] acc (forcibly grow fuel s g acc).
Proof.
  induction fuel as [|f IH]; intros s g v acc F N Hg Hf; [lia|]. assert (B := f_base _ F).
  cbn [forcibly]. destruct (is_active_spec s g v B Hg) as (a & Ea & Ia). rewrite Ea. cbn [obind]. destruct a.
  - right. exists s, []. cbn. rewrite app_nil_r. split; [reflexivity|]. split; [apply grown_refl; auto|].
    split; [intros u [<-|[]]; apply Ia; auto|]. split; [intros u []|intros u w []].
  - destruct (activate_grown s g v B Hg) as (s1 & i & H1 & Hi & Hiv & Hc). rewrite H1. cbn [obind].
    rewrite (at_ok _ _ _ Hi). cbn [obind].
    destruct Hc as [[Hc _]|(Hna & G1 & ->)]; [apply Ia in Hc; discriminate|].
    assert (F1 := g_full _ _ _ G1 F). assert (N1 := g_nbrs _ _ _ G1 N). assert (B1 := f_base _ F1).
    assert (Hg1 := grown_nth _ _ _ _ _ G1 Hg).
    assert (Ha1 : active s1 v) by (apply (grown_active _ _ _ _ G1); right; left; auto).
    destruct (inE_spec s1 g v B1 Hg1) as (l & El & Hnd & Hed & Hw).
    assert (Hll : length l <= vnnz v).
    { rewrite <- vbackward_length, <- (map_length (fun h => nth h (all s1) []) l).
      apply NoDup_incl_length.
      - apply NoDup_map_in; auto. intros x y Hx Hy. apply all_inj; auto.
        + destruct (Hw x Hx) as (w & Kw & _). eapply nth_error_lt; eauto.
        + destruct (Hw y Hy) as (w & Kw & _). eapply nth_error_lt; eauto.
      - intros w Hin. apply in_map_iff in Hin. destruct Hin as (h & <- & Hh).
        destruct (Hw h Hh) as (w & K1 & K2). rewrite (nth_all _ _ _ K1). apply vbackward_In; auto. }
    assert (Hv := vnnz_le_vsum v).
    assert (Hlt : forall h, In h l -> h < length (all s1)).
    { intros h Hh. destruct (Hw h Hh) as (w & Kw & _). eapply nth_error_lt; eauto. }
    destruct (edge_loop_forced (forcibly grow f) grow inE (length (all s1)) g v (fun _ => True)
                (or_introl eq_refl) l [] f None s1 (acc ++ [ms_Size s]) F1 N1 Hg1 Ha1 El)
      as [[-> Hgr]|(s2 & n2 & H2 & G2 & A2 & C2 & D2)]; auto.
    + eapply sorted_at; [apply (b_sorti _ B1)|exact El].
    + lia.
    + intros s2 h acc2 F2 N2 Hh Hhl Hnx Hlim. destruct (Hw h Hhl) as (w & K1 & K2).
      rewrite (nth_all _ _ _ K1). apply IH; auto; [congruence|]. apply fwd_rel_vsum in K2. lia.
    + left. auto.
    + right. exists s2, ([v] ++ n2). split.
      { rewrite H2, <- app_assoc. cbn [app length seq]. f_equal. f_equal. f_equal. f_equal. f_equal.
        rewrite <- !actives_length, (g_act _ _ _ G1), app_length. cbn. lia. }
      assert (Hlv : lim s v = true) by (apply (f_lim _ F); eapply nth_error_In; eauto).
      split; [eapply grown_trans; eauto|]. split; [|split].
      * intros u [<-|[]]. apply (grown_active _ _ _ _ G2). auto.
      * intros u [<-|Hu]; [split; auto; exists v; split; [left; auto|apply vle_refl]|].
        destruct (C2 u Hu) as (K1 & w & Kw & Kle). rewrite (g_lim _ _ _ G1) in K1. split; auto.
        exists v. split; [left; auto|]. apply vle_trans with w; auto.
        apply in_map_iff in Kw. destruct Kw as (h & <- & Hh). destruct (Hw h Hh) as (w & Q1 & Q2).
        rewrite (nth_all _ _ _ Q1). apply fwd_rel_vle; auto.
      * intros u w [<-|Hu] Hwu Hl.
        -- apply A2. assert (Hin : In w (all s1)).
           { apply (N1 v w); auto. rewrite (g_lim _ _ _ G1); auto. }
           apply In_nth_error in Hin. destruct Hin as [h Hh]. apply in_map_iff. exists h.
           split; [apply nth_all; auto|]. apply Hed. eapply (f_edges _ F1); eauto.
        -- eapply D2; eauto. rewrite (g_lim _ _ _ G1). auto.
Qed.

Lemma grown_after_ext s s1 s' ex new : base s -> ext s s1 ex -> (full s -> full s1) -> (nbrs s -> nbrs s1) ->
  grown s1 s' new -> (forall w, In w ex -> active s' w) -> grown s s' new.
Proof.
  intros B X F1 N1 G Hex. assert (Eact := ext_actives _ _ _ B X). destruct G as [K1 K2 K3 K4 K5 K6 K7 K8]. split; auto.
  - rewrite K2. apply X.
  - rewrite K3. apply X.
  - destruct K4 as [ex' ->]. exists (ex ++ ex'). rewrite (e_all _ _ _ X), app_assoc. auto.
  - congruence.
  - intros w Hw. destruct (K8 w Hw) as [K|K]; auto. rewrite (e_all _ _ _ X) in K.
    apply in_app_iff in K. destruct K as [K|K]; auto.
Qed.

Lemma ForciblyActivate_spec grow fuel s v : full s -> nbrs s -> length v = dim s ->
  vsum v + 2 <= fuel ->
  (lim s v = false -> ms_ForciblyActivate grow fuel s v = Throw) /\
  (lim s v = true -> forced grow s [v] [] (ms_ForciblyActivate grow fuel s v)).
Proof.
  intros F N Hl Hf. assert (B := f_base _ F). unfold ms_ForciblyActivate. split.
  { intros ->. reflexivity. }
  intros Hlim. rewrite Hlim. cbn [negb]. destruct (mfind (m2g s) v) as [g|] eqn:E.
  - apply (b_find _ B) in E. apply forcibly_forced; auto.
  - destruct (add_inactive_spec s v B Hl) as (s1 & r & ex & H1 & B1 & X & F1 & Hr & Hex & Hnn & _).
    rewrite H1. cbn [obind]. destruct r as [g|]; [|exfalso; apply Hnn; auto].
    assert (N1 : nbrs s -> nbrs s1) by (eapply add_inactive_nbrs; eauto).
    assert (Eact := ext_actives _ _ _ B X).
    destruct (forcibly_forced grow fuel s1 g v [] (F1 F) (N1 N) Hr Hf) as [H|(s' & new & H & G & A & C & D)]; [left; auto|].
    right. exists s', new. assert (Hsz : ms_Size s1 = ms_Size s) by (rewrite <- !actives_length; congruence).
    rewrite Hsz in H. split; [exact H|]. split.
    { apply (grown_after_ext s s1 s' ex new); auto. intros w Hw. destruct (Hex w Hw) as (-> & _).
      apply A. left; auto. }
    rewrite (e_lim _ _ _ X) in *. auto.
Qed.

Lemma ForciblyExpand_spec grow fuel s a v : full s -> nbrs s -> nth_error (actives s) a = Some v ->
  dim s + vsum v + 3 <= fuel ->
  exists us, NoDup us /\ (forall u, In u us <-> fwd_rel v u /\ lim s u = true) /\
    forced grow s us [] (ms_ForciblyExpand grow fuel s a).
Proof.
  intros F N Ha Hf. assert (B := f_base _ F). unfold ms_ForciblyExpand.
  assert (La : a < length (a2g s)).
  { apply nth_error_lt in Ha. rewrite actives_length in Ha. exact Ha. }
  destruct (Nat.leb_spec (length (a2g s)) a); [lia|].
  assert (Hact : active s v) by (eapply nth_error_In; eauto).
  apply actives_nth in Ha; auto. destruct Ha as (g & Hg & Hv). rewrite (at_ok _ _ _ Hg). cbn [obind].
  destruct (outE_spec s g v B Hv) as (l & Hl & Hs & Hed & Hw).
  assert (Hlt : forall h, In h l -> h < length (all s)).
  { intros h Hh. destruct (Hw h Hh) as (w & Kw & _). eapply nth_error_lt; eauto. }
  assert (ND : NoDup (map (fun h => nth h (all s) []) l)).
  { apply NoDup_map_in; [|apply ssorted_NoDup; auto]. intros x y Hx Hy. apply all_inj; auto. }
  assert (Hlv : length v = dim s) by (apply (b_len _ B); eapply nth_error_In; eauto).
  assert (Hll : length l <= dim s).
  { rewrite <- Hlv, <- (vforward_length v), <- (map_length (fun h => nth h (all s) []) l).
    apply NoDup_incl_length; auto. intros w Hin. apply in_map_iff in Hin. destruct Hin as (h & <- & Hh).
    destruct (Hw h Hh) as (w & K1 & K2). rewrite (nth_all _ _ _ K1). apply vforward_In; auto. }
  exists (map (fun h => nth h (all s) []) l). split; auto. split.
  - intros u. rewrite in_map_iff. split.
    + intros (h & <- & Hh). destruct (Hw h Hh) as (w & K1 & K2). rewrite (nth_all _ _ _ K1). split; auto.
      apply (f_lim _ F). eapply nth_error_In; eauto.
    + intros [Hu Hlu]. assert (Hin : In u (all s)) by (apply (N v u); auto).
      apply In_nth_error in Hin. destruct Hin as [h Hh]. exists h. split; [apply nth_all; auto|].
      apply Hed. eapply (f_edges _ F); eauto.
  - apply (edge_loop_forced (forcibly grow fuel) grow outE (length (all s)) g v (fun _ => True)
             (or_intror eq_refl) l []); auto; [lia|].
    intros s1 h acc1 F1 N1 Hh Hhl Hnx Hlim. destruct (Hw h Hhl) as (w & K1 & K2).
    rewrite (nth_all _ _ _ K1). apply forcibly_forced; auto; [congruence|].
    apply fwd_rel_vsum in K2. lia.
Qed.
