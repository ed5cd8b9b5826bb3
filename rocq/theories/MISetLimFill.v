(** SetLimiter, the recursive fills, and the query functions. *)
From Coq Require Import Sorted FinFun.
From Verif Require Import Base SpecMulti SpecCount MISetModel MultiIndexProofs LimiterProofs MISetInv
  MISetOps MISetForce.

(** ** Dropping the in-edges of a node *)

Lemma drop_loop g l : forall o, (forall h, In h l -> h < length o) -> Forall ssorted o ->
  exists o', ofold (fun o h => do e <- raw_get o h; raw_set o h (sdel g e)) l o = Ok o' /\
    length o' = length o /\ Forall ssorted o' /\
    (forall x y, edge o' x y <-> edge o x y /\ ~ (In x l /\ y = g)).
Proof.
  induction l as [|h l IH]; intros o Hlt Hs.
  - exists o. split; [reflexivity|]. split; auto. split; auto. intros x y. cbn. tauto.
  - cbn [ofold]. assert (Lh : h < length o) by (apply Hlt; left; auto).
    rewrite (raw_nth _ _ []) by auto. cbn [obind]. unfold raw_set.
    destruct (Nat.ltb_spec h (length o)); [|lia]. cbn [obind].
    set (o1 := upd o h (sdel g (nth h o []))).
    assert (E1 : forall x y, edge o1 x y <-> edge o x y /\ ~ (x = h /\ y = g)).
    { intros x y. unfold edge, o1. rewrite nth_error_upd. destruct (Nat.ltb_spec h (length o)); [|lia].
      destruct (Nat.eqb_spec x h) as [->|Hn]; cbn [andb].
      - assert (N := nth_error_nth' o [] Lh). rewrite N. split.
        + intros (m & [= <-] & Hi). apply sdel_In in Hi. split; [exists (nth h o []); tauto|]. tauto.
        + intros ((m & [= <-] & Hi) & Hne). eexists. split; [reflexivity|]. apply sdel_In.
          split; auto.
      - split; [intros H1; split; [auto|tauto]|tauto]. }
    destruct (IH o1) as (o' & H1 & L & S1 & E').
    { intros x Hx. unfold o1. rewrite upd_length. apply Hlt; right; auto. }
    { apply Forall_upd; auto. apply sdel_sorted. eapply Forall_nth_error; [exact Hs|].
      apply nth_error_nth'; auto. }
    exists o'. split; [exact H1|]. split; [rewrite L; apply upd_length|]. split; auto.
    intros x y. rewrite E', E1. cbn. split.
    + intros [[K1 K2] K3]. split; auto. intros [[->|K] ->]; tauto.
    + intros [K1 K2]. split; [split; auto|]; intros [-> ->] || intros [K ->]; apply K2; auto.
Qed.

Lemma drop_node_spec s g v : base s -> nth_error (all s) g = Some v ->
  exists s', drop_node s g = Ok s' /\ base s' /\ frame s s' /\
    (forall x y, edge (outE s') x y <-> edge (outE s) x y /\ y <> g).
Proof.
  intros B Hg. unfold drop_node. destruct (inE_spec s g v B Hg) as (l & Hl & _ & Hed & Hw).
  rewrite (raw_ok _ _ _ Hl). cbn [obind].
  destruct (drop_loop g l (outE s)) as (o & Ho & Lo & So & Eo).
  { intros h Hh. rewrite (b_out _ B). destruct (Hw h Hh) as (w & Kw & _). eapply nth_error_lt; eauto. }
  { apply (b_sorto _ B). }
  rewrite Ho. cbn [obind]. unfold raw_set.
  assert (Lg : g < length (inE s)) by (eapply nth_error_lt; eauto).
  destruct (Nat.ltb_spec g (length (inE s))); [|lia]. cbn [obind].
  assert (E1 : forall x y, edge o x y <-> edge (outE s) x y /\ y <> g).
  { intros x y. rewrite Eo. split.
    - intros [K1 K2]. split; auto. intros ->. apply K2. split; auto. apply Hed; auto.
    - intros [K1 K2]. split; auto. intros [_ ->]. auto. }
  assert (E2 : forall x y, edge (upd (inE s) g []) x y <-> edge (inE s) x y /\ x <> g).
  { intros x y. unfold edge. rewrite nth_error_upd. destruct (Nat.ltb_spec g (length (inE s))); [|lia].
    destruct (Nat.eqb_spec x g) as [->|Hn]; cbn [andb].
    - split; [intros (m & [= <-] & [])|intros [_ K]; congruence].
    - split; [auto|tauto]. }
  eexists. split; [reflexivity|]. split; [|split; [repeat split|exact E1]].
  split; cbn [set_out_in lim dim all m2g a2g g2a outE inE maxo]; rewrite ?upd_length, ?Lo;
    try solve [apply (b_g2a _ B)|apply (b_out _ B)|apply (b_in _ B)|apply (b_find _ B)|
               apply (b_len _ B)|apply (b_act _ B)|apply (b_mlen _ B)|apply (b_maxo _ B)|exact So].
  - intros x y Hxy. apply E1 in Hxy. apply (b_sound _ B). tauto.
  - intros x y. rewrite E1, E2, (b_sym _ B). tauto.
  - apply Forall_upd; [apply (b_sorti _ B)|constructor].
Qed.

(** ** SetLimiter *)

(** Candidates of active members are exactly the accepted ones. *)
Record live (s : mset) : Prop := {
  l_out : forall v w, active s v -> fwd_rel v w -> lim s w = true ->
     exists g h, nth_error (all s) g = Some v /\ nth_error (all s) h = Some w /\ edge (outE s) g h;
  l_lim : forall g h v w, nth_error (all s) g = Some v -> nth_error (all s) h = Some w ->
     edge (outE s) g h -> ~ active s w -> lim s w = true
}.

Lemma full_live s : full s -> nbrs s -> live s.
Proof.
  intros F N. split.
  - intros v w Hv Hvw Hl. assert (Hi := active_in_all _ _ (f_base _ F) Hv).
    assert (Hj : In w (all s)) by (eapply N; eauto).
    apply In_nth_error in Hi, Hj. destruct Hi as [g Hg], Hj as [h Hh]. exists g, h.
    split; auto. split; auto. eapply (f_edges _ F); eauto.
  - intros g h v w _ Hh _ _. apply (f_lim _ F). eapply nth_error_In; eauto.
Qed.

Lemma set_lim_base s L : base s -> base (set_lim s L).
Proof. intros []. split; auto. Qed.

Definition nact (s : mset) (g : nat) : nat := length (filter (fun h => h <? g) (a2g s)).

Lemma nact_le s g : nact s g <= length (a2g s).
Proof. unfold nact. induction (a2g s) as [|x l IH]; cbn; [lia|]. destruct (x <? g); cbn; lia. Qed.

Lemma nact_step l : forall g, NoDup l -> In g l ->
  length (filter (fun h => h <? S g) l) = S (length (filter (fun h => h <? g) l)).
Proof.
  induction l as [|x l IH]; intros g Hnd Hi; [destruct Hi|]. inversion Hnd as [|? ? Hx Hnd']; subst.
  cbn [filter]. destruct Hi as [->|Hi].
  - destruct (Nat.ltb_spec g (S g)); [|lia]. destruct (Nat.ltb_spec g g); [lia|]. cbn [length]. f_equal.
    f_equal. apply filter_ext_in. intros y Hy. destruct (Nat.eq_dec y g) as [->|]; [contradiction|].
    destruct (Nat.ltb_spec y (S g)), (Nat.ltb_spec y g); auto; lia.
  - assert (x <> g) by congruence. specialize (IH g Hnd' Hi).
    destruct (Nat.ltb_spec x (S g)), (Nat.ltb_spec x g); cbn [length]; lia.
Qed.

Record slinv (s0 : mset) (L : vec -> bool) (g : nat) (s : mset) : Prop := {
  v_base : base s;
  v_lim : lim s = L;
  v_dim : dim s = dim s0;
  v_act : a2g s = a2g s0;
  v_acts : actives s = actives s0;
  v_all : exists ex, all s = all s0 ++ ex;
  v_len : length (all s) <= length (all s0) + nact s g * dim s0;
  v_ok : forall h v, h < g -> nth_error (all s) h = Some v -> active s v -> L v = true;
  v_fwd : forall h v w, h < g -> nth_error (all s) h = Some v -> active s v -> fwd_rel v w -> L w = true ->
     exists k, nth_error (all s) k = Some w /\ edge (outE s) h k;
  v_rej : forall h w, h < g -> nth_error (all s) h = Some w -> ~ active s w -> L w = false ->
     forall x, ~ edge (outE s) x h
}.

Lemma nact_grow s g : nact s g <= nact s (S g).
Proof.
  unfold nact. induction (a2g s) as [|x l IH]; cbn [filter]; auto.
  destruct (Nat.ltb_spec x g), (Nat.ltb_spec x (S g)); cbn [length]; lia.
Qed.

Lemma fwd_rel_dec_in h k s v w : base s -> nth_error (all s) h = Some v -> nth_error (all s) k = Some w ->
  edge (outE s) h k -> fwd_rel v w.
Proof.
  intros B Hh Hk He. destruct (b_sound _ B _ _ He) as (v' & w' & K1 & K2 & K3). congruence.
Qed.

Lemma setlim_active_step s0 L g s v : slinv s0 L g s -> nth_error (all s) g = Some v -> active s v ->
  L v = true -> exists s1, add_fwd add_inactive_ s g = Ok s1 /\ slinv s0 L (S g) s1 /\ S g <= length (all s1).
Proof.
  intros V Hv Hact El. assert (B := v_base _ _ _ _ V). assert (Lg := nth_error_lt _ _ _ Hv).
  unfold add_fwd. rewrite (at_ok _ _ _ Hv). cbn [obind].
  destruct (grow_fwd_loop g v (vforward v) s B Hv) as (s1 & ex & H1 & B1 & X & _ & Hex & Hin & Hlen & Hed).
  { intros w. apply vforward_In. }
  exists s1. split; [exact H1|].
  assert (Eact : actives s1 = actives s) by (eapply ext_actives; eauto).
  assert (Hga : In g (a2g s)).
  { apply active_iff in Hact; auto. destruct Hact as (i & g' & K1 & K2).
    apply (b_find _ B) in K2, Hv. replace g with g' by congruence. eapply nth_error_In; eauto. }
  destruct V.
  assert (Hback : forall h u, h <= g -> nth_error (all s1) h = Some u -> nth_error (all s) h = Some u).
  { intros h u Hh Hu. rewrite (e_all _ _ _ X), nth_error_app1 in Hu by lia. auto. }
  split; [split; auto|].
  - rewrite (e_lim _ _ _ X). auto.
  - rewrite (e_dim _ _ _ X). auto.
  - rewrite (e_a2g _ _ _ X). auto.
  - congruence.
  - destruct v_all0 as [e0 H0]. exists (e0 ++ ex). rewrite (e_all _ _ _ X), H0, app_assoc. auto.
  - rewrite (e_all _ _ _ X), app_length. unfold nact. rewrite (e_a2g _ _ _ X).
    rewrite nact_step by (auto using NoDup_a2g). rewrite vforward_length in Hlen.
    assert (length v = dim s0) by (rewrite <- v_dim0; apply (b_len _ B); eapply nth_error_In; eauto).
    unfold nact in v_len0. cbn [Nat.mul]. lia.
  - intros h u Hh Hu Hau. unfold active in Hau. rewrite Eact in Hau.
    apply Hback in Hu; [|lia].
    destruct (Nat.eq_dec h g) as [->|Hne]; [congruence|]. apply (v_ok0 h); auto. lia.
  - intros h u w Hh Hu Hau Huw Hlw. unfold active in Hau. rewrite Eact in Hau.
    apply Hback in Hu; [|lia].
    destruct (Nat.eq_dec h g) as [->|Hne].
    + assert (u = v) by congruence. subst u.
      assert (Hw : In w (vforward v)) by (apply vforward_In; auto).
      rewrite <- v_lim0 in Hlw. specialize (Hin w Hw Hlw). apply In_nth_error in Hin.
      destruct Hin as [k Hk]. exists k. split; auto.
      destruct (Nat.lt_ge_cases k (length (all s))) as [Lk|Lk].
      * apply (Hed k w); auto. rewrite (e_all _ _ _ X), nth_error_app1 in Hk; auto.
      * eapply (e_new _ _ _ X); eauto. congruence.
    + destruct (v_fwd0 h u w) as (k & K1 & K2); auto; [lia|]. exists k. split.
      * rewrite (e_all _ _ _ X). apply nth_error_app_l; auto.
      * apply (e_edge _ _ _ X); auto.
  - intros h w Hh Hw Hna Hlw x He. unfold active in Hna. rewrite Eact in Hna.
    assert (Hw0 := Hback h w ltac:(lia) Hw).
    destruct (e_tgt _ _ _ X _ _ He) as [K|[(w' & K1 & K2)|(a & K)]].
    + destruct (Nat.eq_dec h g) as [->|Hne].
      * assert (w = v) by congruence. subst w. apply Hna. exact Hact.
      * apply (v_rej0 h w) with x; auto. lia.
    + rewrite v_lim0 in K2. congruence.
    + apply Hna. apply (active_g2a s h w B Hw0). exists a. exact K.
  - rewrite (e_all _ _ _ X), app_length. lia.
Qed.

Lemma setlim_loop_spec s0 L : forall fuel g s, slinv s0 L g s -> g <= length (all s) ->
  length (all s0) + length (a2g s0) * dim s0 < fuel + g ->
  (exists s' v, setlim_loop fuel L g s = Ok (s', true) /\ active s0 v /\ L v = false /\
      base s' /\ lim s' = L /\ actives s' = actives s0) \/
  (exists s', setlim_loop fuel L g s = Ok (s', false) /\ slinv s0 L (length (all s')) s').
Proof.
  induction fuel as [|f IH]; intros g s V Hg Hf.
  - exfalso. assert (H1 := v_len _ _ _ _ V). assert (H2 := nact_le s g). rewrite (v_act _ _ _ _ V) in H2.
    assert (nact s g * dim s0 <= length (a2g s0) * dim s0) by (apply Nat.mul_le_mono_r; auto). lia.
  - assert (B := v_base _ _ _ _ V). cbn [setlim_loop]. destruct (Nat.ltb_spec g (length (all s))) as [Lg|Lg].
    2:{ right. exists s. split; [reflexivity|]. replace (length (all s)) with g by lia. auto. }
    assert (Hv := all_nth s g Lg). set (v := nth g (all s) []) in *.
    destruct (is_active_spec s g v B Hv) as (a & Ha & Ia). rewrite Ha. cbn [obind].
    rewrite (at_ok _ _ _ Hv). cbn [obind]. destruct a.
    + assert (Hact : active s v) by (apply Ia; auto).
      destruct (L v) eqn:El; cbn [negb].
      2:{ left. exists s, v. destruct V. split; [reflexivity|]. split; [unfold active in *; congruence|]. auto. }
      destruct (setlim_active_step s0 L g s v V Hv Hact El) as (s1 & H1 & V1 & Hl1). rewrite H1. cbn [obind].
      destruct (IH (S g) s1 V1 Hl1) as [H|H]; [lia| |]; auto.
    + assert (Hna : ~ active s v) by (intros K; apply Ia in K; discriminate).
      destruct (L v) eqn:El; cbn [negb].
      * apply IH; [|lia|lia]. destruct V. split; auto.
        -- assert (K := nact_grow s g).
           assert (nact s g * dim s0 <= nact s (S g) * dim s0) by (apply Nat.mul_le_mono_r; auto). lia.
        -- intros h u Hh Hu Hau. destruct (Nat.eq_dec h g) as [->|]; [congruence|]. apply (v_ok0 h); auto. lia.
        -- intros h u w Hh Hu Hau. destruct (Nat.eq_dec h g) as [->|]; [congruence|]. apply (v_fwd0 h); auto. lia.
        -- intros h u Hh Hu Hau Hr. destruct (Nat.eq_dec h g) as [->|]; [congruence|]. apply (v_rej0 h u); auto. lia.
      * destruct (drop_node_spec s g v B Hv) as (s1 & H1 & B1 & F1 & E1). rewrite H1. cbn [obind].
        assert (EA := actives_frame _ _ F1). destruct F1 as (Q1 & Q2 & Q3 & Q4 & Q5 & Q6 & Q7).
        apply IH; [|rewrite Q3; lia|lia]. destruct V. split; auto.
        -- congruence.
        -- congruence.
        -- congruence.
        -- congruence.
        -- rewrite Q3. auto.
        -- rewrite Q3. assert (K := nact_grow s g). unfold nact in *. rewrite Q5.
           assert (length (filter (fun h => h <? g) (a2g s)) * dim s0 <=
                   length (filter (fun h => h <? S g) (a2g s)) * dim s0) by (apply Nat.mul_le_mono_r; auto). lia.
        -- intros h u Hh Hu Hau. unfold active in Hau. rewrite EA in Hau. rewrite Q3 in Hu.
           destruct (Nat.eq_dec h g) as [->|]; [|apply (v_ok0 h); auto; lia].
           assert (u = v) by congruence. subst u. contradiction.
        -- intros h u w Hh Hu Hau Huw Hlw. unfold active in Hau. rewrite EA in Hau. rewrite Q3 in *.
           destruct (Nat.eq_dec h g) as [->|].
           { assert (u = v) by congruence. subst u. contradiction. }
           destruct (v_fwd0 h u w) as (k & K1 & K2); auto; [lia|]. exists k. split; auto.
           apply E1. split; auto. intros ->. congruence.
        -- intros h u Hh Hu Hau Hr x He. unfold active in Hau. rewrite EA in Hau. rewrite Q3 in Hu.
           apply E1 in He. destruct He as [He Hne].
           apply (v_rej0 h u) with x; auto. lia.
Qed.

Lemma active_set_lim s L v : active (set_lim s L) v <-> active s v.
Proof. reflexivity. Qed.

Lemma SetLimiter_spec s L : base s ->
  (exists s' v, ms_SetLimiter s L = Ok (s', true) /\ active s v /\ L v = false /\
      base s' /\ lim s' = L /\ actives s' = actives s) \/
  (exists s', ms_SetLimiter s L = Ok (s', false) /\ base s' /\ live s' /\ lim s' = L /\
     dim s' = dim s /\ actives s' = actives s /\ (forall v, active s v -> L v = true) /\
     exists ex, all s' = all s ++ ex).
Proof.
  intros B. unfold ms_SetLimiter.
  assert (V : slinv (set_lim s L) L 0 (set_lim s L)).
  { split; auto using set_lim_base; try (intros; lia). exists []. rewrite app_nil_r. auto. }
  destruct (setlim_loop_spec (set_lim s L) L (S (length (all s) + length (a2g s) * dim s)) 0 (set_lim s L) V)
    as [H|(s' & H & V')]; [lia|cbn [set_lim all a2g dim]; lia| |].
  - left. exact H.
  - right. exists s'. split; [exact H|]. destruct V'. split; [auto|].
    assert (EA : actives s' = actives s) by (rewrite v_acts0; reflexivity).
    split; [|split; [auto|split; [rewrite v_dim0; reflexivity|split; [auto|split; [|exact v_all0]]]]].
    + split.
      * intros v w Hv Hvw Hl. assert (Hi := active_in_all _ _ v_base0 Hv). apply In_nth_error in Hi.
        destruct Hi as [g Hg]. destruct (v_fwd0 g v w) as (k & K1 & K2); auto.
        { eapply nth_error_lt; eauto. } { congruence. } exists g, k. auto.
      * intros g h v w Hg Hh He Hna. rewrite v_lim0. destruct (L w) eqn:E; auto. exfalso.
        eapply (v_rej0 h w); eauto. eapply nth_error_lt; eauto.
    + intros v Hv. assert (Hv' : active s' v) by (unfold active in *; congruence).
      assert (Hi := active_in_all _ _ v_base0 Hv'). apply In_nth_error in Hi. destruct Hi as [g Hg].
      apply (v_ok0 g v); auto. eapply nth_error_lt; eauto.
Qed.

(** The margin under the weaker invariant left by SetLimiter. *)
Lemma Margin_live s : base s -> live s ->
  exists l, ms_Margin s = Ok l /\ NoDup l /\
    forall u, In u l <-> lim s u = true /\ ~ active s u /\ exists v, active s v /\ fwd_rel v u.
Proof.
  intros B Lv.
  destruct (collect s (margin_test s) (fun u => ~ active s u /\ lim s u = true /\
      exists v, active s v /\ fwd_rel v u) B)
    as (l & Hl & ND & Hin).
  - intros g u Hg. unfold margin_test. destruct (is_active_spec s g u B Hg) as (a & Ha & Ia).
    rewrite Ha. cbn [obind]. destruct a.
    + exists false. split; [reflexivity|]. split; [discriminate|]. intros [H _]. exfalso. apply H, Ia; auto.
    + assert (Hna : ~ active s u) by (intros H; apply Ia in H; discriminate).
      destruct (inE_spec s g u B Hg) as (l & Hl & _ & Hed & Hw). rewrite (raw_ok _ _ _ Hl). cbn [obind].
      rewrite oexists_ok.
      2:{ intros h Hh. destruct (Hw h Hh) as (w & Hw1 & _).
          destruct (is_active_spec s h w B Hw1) as (b & Hb & _). eauto. }
      eexists. split; [reflexivity|]. rewrite existsb_exists. split.
      * intros (h & Hh & Hb). split; [auto|].
        destruct (Hw h Hh) as (w & Hw1 & Hw2). split.
        { apply (l_lim _ Lv h g w u); auto. apply Hed; auto. }
        exists w. split; auto.
        eapply okb_true; [eapply is_active_spec; eauto|exact Hb].
      * intros [_ (Hlu & v & Hv & Hvu)]. destruct (l_out _ Lv v u Hv Hvu Hlu) as (h & g' & K1 & K2 & K3).
        assert (g' = g) by (apply (b_find _ B) in K2, Hg; congruence). subst g'.
        exists h. split; [apply Hed; auto|].
        eapply okb_true; [eapply is_active_spec; eauto|exact Hv].
  - exists l. split; [exact Hl|]. split; auto. intros u. rewrite Hin. split.
    + tauto.
    + intros (H1 & H2 & v & H3 & H4). split; [|split; eauto].
      destruct (l_out _ Lv v u H3 H4 H1) as (h & g' & K1 & K2 & K3). eapply nth_error_In; eauto.
Qed.

(** ** Recursive fills *)

(** The leaves in the order the recursion visits them. *)
Fixpoint enum_total (p k : nat) (pre : vec) : list vec :=
  match k with
  | O => map (fun i => pre ++ [i]) (seq 0 (S (p - vsum pre)))
  | S k' => flat_map (fun i => enum_total p k' (pre ++ [i])) (seq 0 (S (p - vsum pre)))
  end.
Fixpoint enum_tensor (p k : nat) (pre : vec) : list vec :=
  match k with
  | O => map (fun i => pre ++ [i]) (seq 0 (S p))
  | S k' => flat_map (fun i => enum_tensor p k' (pre ++ [i])) (seq 0 (S p))
  end.

Lemma ofold_map {A B S} (f : S -> B -> outcome S) (g : A -> B) l : forall s,
  ofold (fun s a => f s (g a)) l s = ofold f (map g l) s.
Proof. induction l as [|a l IH]; intros s; cbn; auto. destruct (f s (g a)); cbn; auto. Qed.

Lemma ofold_flat_map {A B S} (f : S -> B -> outcome S) (F : S -> A -> outcome S) (g : A -> list B) l :
  (forall s a, F s a = ofold f (g a) s) -> forall s, ofold F l s = ofold f (flat_map g l) s.
Proof.
  intros H. induction l as [|a l IH]; intros s; cbn; auto.
  rewrite H, ofold_app. destruct (ofold f (g a) s); cbn; auto.
Qed.

Lemma fill_total_enum L p k : forall pre s, fill_total L p k pre s = ofold (fill_leaf L) (enum_total p k pre) s.
Proof.
  induction k as [|k IH]; intros pre s; cbn [fill_total enum_total].
  - apply (ofold_map (fill_leaf L) (fun i => pre ++ [i])).
  - apply ofold_flat_map. intros s' i. apply IH.
Qed.

Lemma fill_tensor_enum L p k : forall pre s, fill_tensor L p k pre s = ofold (fill_leaf L) (enum_tensor p k pre) s.
Proof.
  induction k as [|k IH]; intros pre s; cbn [fill_tensor enum_tensor].
  - apply (ofold_map (fill_leaf L) (fun i => pre ++ [i])).
  - apply ofold_flat_map. intros s' i. apply IH.
Qed.

Lemma vsum_app a b : vsum (a ++ b) = vsum a + vsum b.
Proof. induction a as [|x a IH]; [reflexivity|]. cbn [app]. rewrite !vsum_cons. lia. Qed.

Lemma enum_total_In p k : forall pre v, vsum pre <= p ->
  In v (enum_total p k pre) <-> exists t, v = pre ++ t /\ length t = S k /\ vsum v <= p.
Proof.
  induction k as [|k IH]; intros pre v Hp; cbn [enum_total].
  - rewrite in_map_iff. split.
    + intros (i & <- & Hi). apply in_seq in Hi. exists [i]. split; auto. split; auto.
      rewrite vsum_app, vsum_cons, vsum_nil. lia.
    + intros (t & -> & Ht & Hs). destruct t as [|i [|]]; try discriminate. exists i. split; auto.
      rewrite vsum_app, vsum_cons, vsum_nil in Hs. apply in_seq. lia.
  - rewrite in_flat_map. split.
    + intros (i & Hi & Hv). apply in_seq in Hi. apply IH in Hv.
      2:{ rewrite vsum_app, vsum_cons, vsum_nil. lia. }
      destruct Hv as (t & -> & Ht & Hs). exists (i :: t). rewrite <- app_assoc in *. split; auto.
      split; [cbn; lia|auto].
    + intros (t & -> & Ht & Hs). destruct t as [|i t]; [discriminate|].
      assert (Hs' := Hs). rewrite vsum_app, vsum_cons in Hs'. exists i. split; [apply in_seq; lia|].
      apply IH. { rewrite vsum_app, vsum_cons, vsum_nil. lia. }
      exists t. rewrite <- app_assoc. split; auto.
Qed.

Lemma vmax_le_iff v p : vmax v <= p <-> forall x, In x v -> x <= p.
Proof.
  induction v as [|y v IH]; [rewrite vmax_nil; cbn; split; [tauto|lia]|].
  rewrite vmax_cons. cbn. split.
  - intros H x [<-|Hx]; [lia|]. apply IH; [lia|auto].
  - intros H. assert (y <= p) by auto. assert (vmax v <= p) by (apply IH; auto). lia.
Qed.

Lemma enum_tensor_In p k : forall pre v,
  In v (enum_tensor p k pre) <-> exists t, v = pre ++ t /\ length t = S k /\ vmax t <= p.
Proof.
  induction k as [|k IH]; intros pre v; cbn [enum_tensor].
  - rewrite in_map_iff. split.
    + intros (i & <- & Hi). apply in_seq in Hi. exists [i]. split; auto. split; auto.
      rewrite vmax_cons, vmax_nil. lia.
    + intros (t & -> & Ht & Hs). destruct t as [|i [|]]; try discriminate. exists i. split; auto.
      rewrite vmax_cons, vmax_nil in Hs. apply in_seq. lia.
  - rewrite in_flat_map. split.
    + intros (i & Hi & Hv). apply in_seq in Hi. apply IH in Hv.
      destruct Hv as (t & -> & Ht & Hs). exists (i :: t). rewrite <- app_assoc. split; auto.
      split; [cbn; lia|]. rewrite vmax_cons. lia.
    + intros (t & -> & Ht & Hs). destruct t as [|i t]; [discriminate|].
      rewrite vmax_cons in Hs. exists i. split; [apply in_seq; lia|].
      apply IH. exists t. rewrite <- app_assoc. split; auto. split; auto. lia.
Qed.

Lemma NoDup_app_intro {A} (l k : list A) : NoDup l -> NoDup k -> (forall x, In x l -> ~ In x k) -> NoDup (l ++ k).
Proof.
  induction l as [|a l IH]; intros Hl Hk H; auto. inversion Hl; subst. cbn. constructor.
  - rewrite in_app_iff. intros [?|?]; auto. apply (H a); auto. left; auto.
  - apply IH; auto. intros x Hx. apply H. right; auto.
Qed.

Lemma NoDup_flat_map {A B} (f : A -> list B) l : NoDup l -> (forall a, In a l -> NoDup (f a)) ->
  (forall a b x, In a l -> In b l -> In x (f a) -> In x (f b) -> a = b) -> NoDup (flat_map f l).
Proof.
  induction l as [|a l IH]; intros Hl Hf Hd; cbn; [constructor|]. inversion Hl; subst.
  apply NoDup_app_intro.
  - apply Hf; left; auto.
  - apply IH; auto using in_cons. intros; eapply Hd; eauto using in_cons.
  - intros x Hx Hx'. apply in_flat_map in Hx'. destruct Hx' as (b & Hb & Hxb).
    assert (a = b) by (eapply Hd; eauto using in_cons, in_eq). subst. auto.
Qed.

Lemma app_inj_mid {A} (pre : list A) i j t u : (pre ++ [i]) ++ t = (pre ++ [j]) ++ u -> i = j.
Proof. rewrite <- !app_assoc. intros H. apply app_inv_head in H. cbn in H. congruence. Qed.

Lemma enum_total_NoDup p k : forall pre, vsum pre <= p -> NoDup (enum_total p k pre).
Proof.
  induction k as [|k IH]; intros pre Hp; cbn [enum_total].
  - apply FinFun.Injective_map_NoDup; [|apply seq_NoDup].
    intros i j H. apply app_inv_head in H. congruence.
  - assert (HS : forall i, In i (seq 0 (S (p - vsum pre))) -> vsum (pre ++ [i]) <= p).
    { intros i Hi. apply in_seq in Hi. rewrite vsum_app, vsum_cons, vsum_nil. lia. }
    apply NoDup_flat_map; [apply seq_NoDup|auto|].
    intros i j v Hi Hj H1 H2. apply enum_total_In in H1, H2; auto.
    destruct H1 as (t & -> & _), H2 as (u & E & _). eapply app_inj_mid; eauto.
Qed.

Lemma enum_tensor_NoDup p k : forall pre, NoDup (enum_tensor p k pre).
Proof.
  induction k as [|k IH]; intros pre; cbn [enum_tensor].
  - apply FinFun.Injective_map_NoDup; [|apply seq_NoDup].
    intros i j H. apply app_inv_head in H. congruence.
  - apply NoDup_flat_map; [apply seq_NoDup|auto|].
    intros i j v Hi Hj H1 H2. apply enum_tensor_In in H1, H2; auto.
    destruct H1 as (t & -> & _), H2 as (u & E & _). eapply app_inj_mid; eauto.
Qed.

(** *** Counting *)

Lemma choose_0 n : choose n 0 = 1.
Proof. destruct n; reflexivity. Qed.
Lemma choose_S n k : choose (S n) (S k) = choose n k + choose n (S k).
Proof. reflexivity. Qed.
Lemma choose_gt n : forall k, n < k -> choose n k = 0.
Proof.
  induction n as [|n IH]; intros [|k] H; auto; try lia. rewrite choose_S, !IH by lia. reflexivity.
Qed.
Lemma choose_diag n : choose n n = 1.
Proof. induction n as [|n IH]; auto. rewrite choose_S, IH, choose_gt by lia. reflexivity. Qed.
Lemma choose_1 n : choose n 1 = n.
Proof. induction n as [|n IH]; auto. rewrite choose_S, choose_0, IH. reflexivity. Qed.

Lemma flat_map_length_sum {A B} (f : A -> list B) l :
  length (flat_map f l) = fold_right Nat.add 0 (map (fun a => length (f a)) l).
Proof. induction l as [|a l IH]; cbn; auto. rewrite app_length, IH. reflexivity. Qed.

Lemma hockey k q : fold_right Nat.add 0 (map (fun i => choose (S k + (q - i)) (S k)) (seq 0 (S q))) =
  choose (S (S k) + q) (S (S k)).
Proof.
  induction q as [|q IH].
  - cbn [seq map fold_right]. change (0 - 0) with 0. rewrite !Nat.add_0_r, !choose_diag. reflexivity.
  - change (seq 0 (S (S q))) with (0 :: seq 1 (S q)). rewrite <- seq_shift, map_cons, map_map.
    cbn [fold_right].
    rewrite (map_ext (fun x => choose (S k + (S q - S x)) (S k)) (fun i => choose (S k + (q - i)) (S k))) by reflexivity.
    rewrite IH. replace (S (S k) + S q) with (S (S (S k) + q)) by lia. rewrite choose_S, Nat.sub_0_r.
    f_equal. f_equal. lia.
Qed.

Lemma enum_total_length p k : forall pre, vsum pre <= p ->
  length (enum_total p k pre) = choose (S k + (p - vsum pre)) (S k).
Proof.
  induction k as [|k IH]; intros pre Hp; cbn [enum_total].
  - rewrite map_length, seq_length, choose_1. lia.
  - rewrite flat_map_length_sum.
    rewrite (map_ext_in _ (fun i => choose (S k + (p - vsum pre - i)) (S k))).
    + apply hockey.
    + intros i Hi. apply in_seq in Hi. rewrite IH; rewrite vsum_app, vsum_cons, vsum_nil; [|lia].
      f_equal. lia.
Qed.

Lemma sum_const (c : nat) l : fold_right Nat.add 0 (map (fun _ : nat => c) l) = length l * c.
Proof. induction l as [|a l IH]; cbn; auto. Qed.

Lemma enum_tensor_length p k : forall pre, length (enum_tensor p k pre) = (p + 1) ^ (S k).
Proof.
  induction k as [|k IH]; intros pre; cbn [enum_tensor].
  - rewrite map_length, seq_length. cbn. lia.
  - rewrite flat_map_length_sum, (map_ext _ (fun _ => (p + 1) ^ S k)) by auto.
    rewrite sum_const, seq_length. rewrite (Nat.pow_succ_r' _ (S k)). f_equal. lia.
Qed.

(** *** A fill over distinct leaves *)

Lemma fill_leaves L l : forall s, full s -> lim s = L -> NoDup l ->
  (forall v, In v l -> length v = dim s) -> (forall v, In v l -> ~ active s v) ->
  exists s', ofold (fill_leaf L) l s = Ok s' /\ grown s s' (filter L l).
Proof.
  induction l as [|v l IH]; intros s F HL ND Hlen Hna.
  - exists s. split; [reflexivity|]. apply grown_refl. apply F.
  - inversion ND as [|? ? Hv ND']; subst. cbn [ofold filter]. unfold fill_leaf at 1. destruct (lim s v) eqn:El.
    + destruct (AddActive_spec s v (f_base _ F)) as (s1 & r & new & H1 & G & C); [apply Hlen; left; auto|].
      rewrite H1. cbn [obind fst].
      assert (new = [v]).
      { destruct C as [(a & _ & _ & _ & [[K _]|[_ K]])|(_ & _ & _ & K & _)]; auto; [|congruence].
        exfalso. apply (Hna v); auto. left; auto. }
      subst new. destruct (IH s1) as (s' & H' & G').
      * apply (g_full _ _ _ G F).
      * apply (g_lim _ _ _ G).
      * auto.
      * intros w Hw. rewrite (g_dim _ _ _ G). apply Hlen. right; auto.
      * intros w Hw K. apply (grown_active _ _ _ w G) in K. destruct K as [K|[<-|[]]]; auto.
        apply (Hna w); auto. right; auto.
      * exists s'. split; auto. apply (grown_trans s s1 s' [v] _ G G').
    + cbn [obind]. apply IH; auto using in_cons.
Qed.

Lemma nbrs_empty d L : nbrs (ms_empty d L).
Proof. intros v w H. destruct H. Qed.
Lemma linked_empty d L : linked (ms_empty d L).
Proof. intros w H. destruct H. Qed.

Lemma CreateTotalOrder_spec d p L : 0 < d ->
  exists s, ms_CreateTotalOrder d p L = Ok s /\
    grown (ms_empty d L) s (filter L (enum_total p (d - 1) [])).
Proof.
  intros Hd. destruct d as [|k]; [lia|]. unfold ms_CreateTotalOrder. rewrite fill_total_enum.
  replace (S k - 1) with k by lia.
  apply fill_leaves; auto using empty_full.
  - apply enum_total_NoDup. rewrite vsum_nil. lia.
  - intros v Hv. apply enum_total_In in Hv; [|rewrite vsum_nil; lia]. destruct Hv as (t & -> & Ht & _). exact Ht.
Qed.

Lemma CreateTensorProduct_spec d p L : 0 < d ->
  exists s, ms_CreateTensorProduct d p L = Ok s /\
    grown (ms_empty d L) s (filter L (enum_tensor p (d - 1) [])).
Proof.
  intros Hd. destruct d as [|k]; [lia|]. unfold ms_CreateTensorProduct. rewrite fill_tensor_enum.
  replace (S k - 1) with k by lia.
  apply fill_leaves; auto using empty_full.
  - apply enum_tensor_NoDup.
  - intros v Hv. apply enum_tensor_In in Hv. destruct Hv as (t & -> & Ht & _). exact Ht.
Qed.

Lemma of_rows_spec d rows : (forall v, In v rows -> length v = d) ->
  forall s, full s -> nbrs s -> dim s = d -> lim s = (fun _ => true) ->
  exists s' new, ofold (fun s v => do r <- ms_AddActive s v; Ok (fst r)) rows s = Ok s' /\ grown s s' new /\
    forall v, active s' v <-> active s v \/ In v rows.
Proof.
  induction rows as [|v rows IH]; intros Hlen s F N Hd HL.
  - exists s, []. split; [reflexivity|]. split; [apply grown_refl, F|]. intros v. cbn. tauto.
  - cbn [ofold]. destruct (AddActive_spec s v (f_base _ F)) as (s1 & r & new & H1 & G & C).
    { rewrite Hd. apply Hlen; left; auto. }
    rewrite H1. cbn [obind fst].
    assert (A1 : forall w, active s1 w <-> active s w \/ w = v).
    { intros w. rewrite (grown_active _ _ _ w G). destruct C as [(a & _ & _ & _ & [[K ->]|[K ->]])|(_ & _ & _ & K & _)].
      - cbn. split; [tauto|]. intros [?| ->]; auto.
      - cbn. split; [intros [?|[?|[]]]; auto|intros [?|?]; auto].
      - rewrite HL in K. discriminate. }
    destruct (IH) with (s := s1) as (s' & new' & H' & G' & A').
    + intros w Hw. apply Hlen; right; auto.
    + apply (g_full _ _ _ G F).
    + apply (g_nbrs _ _ _ G N).
    + rewrite (g_dim _ _ _ G). auto.
    + rewrite (g_lim _ _ _ G). auto.
    + exists s', (new ++ new'). split; auto. split; [exact (grown_trans _ _ _ _ _ G G')|].
      intros w. rewrite A', A1. cbn. split; [intros [[?|?]|?]; auto|intros [?|[?|?]]; auto].
Qed.
