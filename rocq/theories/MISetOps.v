(** Behaviour of the MultiIndexSet operations on states satisfying the invariant. *)
From Coq Require Import Sorted.
From Verif Require Import Base SpecMulti MISetModel MultiIndexProofs LimiterProofs MISetInv.

(** ** Loops in the outcome monad *)

Definition okb {A} (f : A -> outcome bool) (x : A) : bool :=
  match f x with Ok b => b | _ => false end.

Lemma ofilter_ok {A} (f : A -> outcome bool) l :
  (forall x, In x l -> exists b, f x = Ok b) -> ofilter f l = Ok (filter (okb f) l).
Proof.
  induction l as [|x l IH]; intros H; [reflexivity|]. cbn [ofilter filter].
  destruct (H x) as [b Hb]; [left; auto|]. unfold okb at 1. rewrite Hb. cbn [obind].
  rewrite IH by (intros; apply H; right; auto). cbn [obind]. destruct b; reflexivity.
Qed.

Lemma oexists_ok {A} (f : A -> outcome bool) l :
  (forall x, In x l -> exists b, f x = Ok b) -> oexists f l = Ok (existsb (okb f) l).
Proof.
  induction l as [|x l IH]; intros H; [reflexivity|]. cbn [oexists existsb].
  destruct (H x) as [b Hb]; [left; auto|]. unfold okb at 1. rewrite Hb. cbn [obind].
  destruct b; [reflexivity|]. cbn [orb]. apply IH. intros; apply H; right; auto.
Qed.

Lemma omap_ok {A B} (f : A -> outcome B) (g : A -> B) l :
  (forall x, In x l -> f x = Ok (g x)) -> omap f l = Ok (map g l).
Proof.
  induction l as [|x l IH]; intros H; [reflexivity|]. cbn [omap map].
  rewrite H by (left; auto). cbn [obind]. rewrite IH by (intros; apply H; right; auto). reflexivity.
Qed.

Lemma okb_true {A} (f : A -> outcome bool) x (P : Prop) :
  (exists b, f x = Ok b /\ (b = true <-> P)) -> (okb f x = true <-> P).
Proof. intros (b & H & Hb). unfold okb. rewrite H. exact Hb. Qed.

Lemma NoDup_app_r {A} (l k : list A) : NoDup (l ++ k) -> NoDup k.
Proof. induction l as [|x l IH]; cbn; auto. intros H. inversion H; auto. Qed.

(** ** Lookups in terms of the list of active members *)

Lemma NoDup_all s : base s -> NoDup (all s).
Proof.
  intros B. apply NoDup_nth_error. intros i j Hi H.
  destruct (nth_error (all s) i) as [v|] eqn:E; [|apply nth_error_None in E; lia].
  symmetry in H. apply (b_find _ B) in E, H. congruence.
Qed.

Lemma NoDup_a2g s : base s -> NoDup (a2g s).
Proof.
  intros B. apply NoDup_nth_error. intros i j Hi H.
  destruct (nth_error (a2g s) i) as [g|] eqn:E; [|apply nth_error_None in E; lia].
  symmetry in H. apply (b_act _ B) in E, H. congruence.
Qed.

Lemma NoDup_map_in {A B} (f : A -> B) l :
  (forall x y, In x l -> In y l -> f x = f y -> x = y) -> NoDup l -> NoDup (map f l).
Proof.
  intros Hf. induction 1 as [|x l Hx Hl IH]; cbn; constructor.
  - intros H. apply in_map_iff in H. destruct H as (y & Hy & Hyl).
    assert (y = x) by (apply Hf; [right|left|]; auto). subst. auto.
  - apply IH. intros a b Ha Hb. apply Hf; right; auto.
Qed.

Lemma nth_all s g v : nth_error (all s) g = Some v -> nth g (all s) [] = v.
Proof. apply nth_error_nth. Qed.

Lemma all_nth s g : g < length (all s) -> nth_error (all s) g = Some (nth g (all s) []).
Proof. apply nth_error_nth'. Qed.

Lemma all_inj s g h : base s -> g < length (all s) -> h < length (all s) ->
  nth g (all s) [] = nth h (all s) [] -> g = h.
Proof.
  intros B Hg Hh H. apply (proj1 (NoDup_nth (all s) []) (NoDup_all s B)); auto.
Qed.

Lemma NoDup_actives s : base s -> NoDup (actives s).
Proof.
  intros B. apply NoDup_map_in; [|apply NoDup_a2g; auto].
  intros g h Hg Hh. apply all_inj; auto; eapply a2g_lt; eauto.
Qed.

Lemma actives_nth s a v : base s ->
  nth_error (actives s) a = Some v <->
  exists g, nth_error (a2g s) a = Some g /\ nth_error (all s) g = Some v.
Proof.
  intros B. unfold actives. rewrite nth_error_map. destruct (nth_error (a2g s) a) as [g|] eqn:E; cbn.
  - assert (L : g < length (all s)) by (eapply a2g_lt; eauto; eapply nth_error_In; eauto).
    split.
    + intros [= <-]. exists g. split; auto. apply all_nth; auto.
    + intros (g' & [= <-] & Hg'). f_equal. apply nth_all; auto.
  - split; [discriminate|]. intros (g & H & _). discriminate.
Qed.

Lemma actives_length s : length (actives s) = ms_Size s.
Proof. apply map_length. Qed.

Lemma IndexToMulti_spec s i : base s ->
  ms_IndexToMulti s i = match nth_error (actives s) i with Some v => Ok v | None => Throw end.
Proof.
  intros B. unfold ms_IndexToMulti. unfold at_ at 1. unfold actives. rewrite nth_error_map.
  destruct (nth_error (a2g s) i) as [g|] eqn:E; cbn; [|reflexivity].
  apply at_nth. eapply a2g_lt; eauto. eapply nth_error_In; eauto.
Qed.

Lemma MultiToIndex_spec s v : base s ->
  exists r, ms_MultiToIndex s v = Ok r /\ forall i, r = Some i <-> nth_error (actives s) i = Some v.
Proof.
  intros B. unfold ms_MultiToIndex. destruct (mfind (m2g s) v) as [g|] eqn:E.
  - apply (b_find _ B) in E. destruct (g2a_dec s g v B E) as [[a Ha]|Ha]; rewrite (raw_ok _ _ _ Ha);
      eexists; (split; [reflexivity|]); intros i; rewrite actives_nth by auto; split.
    + intros [= <-]. exists g. split; auto. apply (b_act _ B); auto.
    + intros (h & Hh & Hv). apply (b_find _ B) in E, Hv. replace h with g in Hh by congruence.
      apply (b_act _ B) in Hh. congruence.
    + discriminate.
    + intros (h & Hh & Hv). apply (b_find _ B) in E, Hv. replace h with g in Hh by congruence.
      apply (b_act _ B) in Hh. congruence.
  - exists None. split; [reflexivity|]. intros i. rewrite actives_nth by auto. split; [discriminate|].
    intros (h & Hh & Hv). apply (b_find _ B) in Hv. congruence.
Qed.

Lemma IsActive_spec s v : base s -> exists b, ms_IsActive s v = Ok b /\ (b = true <-> active s v).
Proof.
  intros B. unfold ms_IsActive. destruct (mfind (m2g s) v) as [g|] eqn:E.
  - apply (b_find _ B) in E. apply is_active_spec; auto.
  - exists false. split; [reflexivity|]. split; [discriminate|]. intros H.
    apply active_in_all in H; auto. apply mfind_none in E; auto.
Qed.

(** ** Growth by activations *)

Record grown (s s' : mset) (new : list vec) : Prop := {
  g_base : base s';
  g_lim : lim s' = lim s;
  g_dim : dim s' = dim s;
  g_all : exists ex, all s' = all s ++ ex;
  g_act : actives s' = actives s ++ new;
  g_full : full s -> full s';
  g_nbrs : nbrs s -> nbrs s';
  g_new : forall w, In w (all s') -> In w (all s) \/ active s' w \/
            exists v, active s' v /\ (fwd_rel v w \/ fwd_rel w v)
}.

Lemma grown_refl s : base s -> grown s s [].
Proof.
  intros B. split; auto.
  - exists []. rewrite app_nil_r. auto.
  - rewrite app_nil_r. auto.
Qed.

Lemma grown_trans s1 s2 s3 a b : grown s1 s2 a -> grown s2 s3 b -> grown s1 s3 (a ++ b).
Proof.
  intros [] []. split; auto; try congruence.
  - destruct g_all0 as [x Hx], g_all1 as [y Hy]. exists (x ++ y). rewrite Hy, Hx, app_assoc. auto.
  - rewrite g_act1, g_act0, app_assoc. auto.
  - assert (Hact : forall u, active s2 u -> active s3 u).
    { intros u Hu. unfold active. rewrite g_act1. apply in_app_iff. auto. }
    intros w Hw. destruct (g_new1 w Hw) as [K|K]; [|auto].
    destruct (g_new0 w K) as [K1|[K1|(v & K1 & K2)]]; eauto 10.
Qed.

Lemma g_linked s s' new : grown s s' new -> linked s -> linked s'.
Proof.
  intros [] Hk w Hw. destruct (g_new0 w Hw) as [K|K]; auto.
  assert (Hact : forall u, active s u -> active s' u).
  { intros u Hu. unfold active. rewrite g_act0. apply in_app_iff. auto. }
  destruct (Hk w K) as [K1|(v & K1 & K2)]; eauto 10.
Qed.

Lemma grown_nth s s' new g v : grown s s' new -> nth_error (all s) g = Some v -> nth_error (all s') g = Some v.
Proof. intros G H. destruct (g_all _ _ _ G) as [ex ->]. apply nth_error_app_l; auto. Qed.

Lemma grown_active s s' new v : grown s s' new -> active s' v <-> active s v \/ In v new.
Proof. intros G. unfold active. rewrite (g_act _ _ _ G). apply in_app_iff. Qed.

Lemma active_dec s v : {active s v} + {~ active s v}.
Proof. apply in_dec, list_eq_dec, Nat.eq_dec. Qed.

Lemma actives_index s v g a : base s -> nth_error (all s) g = Some v -> nth_error (g2a s) g = Some (Some a) ->
  nth_error (actives s) a = Some v.
Proof. intros B Hg Ha. apply actives_nth; auto. exists g. split; auto. apply (b_act _ B); auto. Qed.

(** Activate on a stored node: index reported by global2active included. *)
Lemma activate_grown s g v : base s -> nth_error (all s) g = Some v ->
  exists s' a, activate s g = Ok s' /\ nth_error (g2a s') g = Some (Some a) /\
    nth_error (actives s') a = Some v /\
    ((active s v /\ s' = s) \/ (~ active s v /\ grown s s' [v] /\ a = ms_Size s)).
Proof.
  intros B Hg. destruct (activate_spec s g v B Hg) as (s' & ex & a & H & B' & Hl & Hd & Hall & Ha & Hc & Hf).
  exists s', a. split; [exact H|]. split; [exact Ha|].
  assert (Hn : nth_error (actives s') a = Some v).
  { eapply actives_index; eauto. rewrite Hall. apply nth_error_app_l; auto. }
  split; [exact Hn|]. destruct Hc as [Hc|(Hna & Ha2 & Hact & Hex & _)]; [left; exact Hc|].
  right. split; auto. split.
  - split; auto.
    + exists ex; auto.
    + apply (activate_nbrs s g v); auto.
    + intros w Hw. rewrite Hall in Hw. apply in_app_iff in Hw. destruct Hw as [Hw|Hw]; auto.
      right. right. exists v. split; [apply (active_snoc _ _ _ _ Hact); auto|]. apply Hex; auto.
  - apply (b_act _ B') in Ha. rewrite Ha2 in Ha. apply nth_error_snoc in Ha.
    destruct Ha as [Ha|[-> _]]; auto. exfalso. apply Hna. apply active_iff; auto. eauto.
Qed.

(** AddInactive followed by nothing (used by Union). *)
Lemma add_inactive_nbrs s v s' r : base s -> length v = dim s -> add_inactive s v = Ok (s', r) ->
  nbrs s -> nbrs s'.
Proof.
  intros B Hl H Hn. destruct (add_inactive_spec s v B Hl) as (s1 & r1 & ex & H1 & B1 & X & _).
  rewrite H in H1. injection H1 as <- <-. intros x w Hx Hxw Hlw.
  unfold active in Hx. rewrite (ext_actives _ _ _ B X) in Hx. rewrite (e_lim _ _ _ X) in Hlw.
  rewrite (e_all _ _ _ X). apply in_app_iff. left. eapply Hn; eauto.
Qed.

Lemma AddActive_spec s v : base s -> length v = dim s ->
  exists s' r new, ms_AddActive s v = Ok (s', r) /\ grown s s' new /\
    ((exists a, r = Some a /\ nth_error (actives s') a = Some v /\
       (lim s v = true \/ In v (all s)) /\
       ((active s v /\ new = []) \/ (~ active s v /\ new = [v]))) \/
     (r = None /\ s' = s /\ new = [] /\ lim s v = false /\ ~ In v (all s))).
Proof.
  intros B Hl. unfold ms_AddActive.
  destruct (add_inactive_spec s v B Hl) as (s1 & r1 & ex & H1 & B1 & X & F1 & Hr & Hex & Hnn & Hin & _).
  rewrite H1. cbn [obind]. destruct r1 as [g|].
  - destruct (activate_grown s1 g v B1 Hr) as (s2 & a & H2 & Ha & Hna & Hc). rewrite H2. cbn [obind].
    rewrite (raw_ok _ _ _ Ha). cbn [obind]. exists s2, (Some a).
    assert (Eact : actives s1 = actives s) by (eapply ext_actives; eauto).
    assert (Hlim : lim s v = true \/ In v (all s)).
    { destruct (in_dec (list_eq_dec Nat.eq_dec) v (all s)) as [Hi|Hi]; auto. left.
      assert (Hv : In v (all s1)) by (eapply nth_error_In; eauto).
      rewrite (e_all _ _ _ X) in Hv. apply in_app_iff in Hv. destruct Hv as [Hv|Hv]; [contradiction|].
      apply (Hex v Hv). }
    assert (Hv2 : active s2 v) by (eapply nth_error_In; eauto).
    assert (G1 : forall new, base s2 -> lim s2 = lim s1 -> dim s2 = dim s1 -> (exists ex', all s2 = all s1 ++ ex') ->
              actives s2 = actives s1 ++ new -> (full s1 -> full s2) -> (nbrs s1 -> nbrs s2) ->
              (forall w, In w (all s2) -> In w (all s1) \/ active s2 w \/
                 exists x, active s2 x /\ (fwd_rel x w \/ fwd_rel w x)) -> grown s s2 new).
    { intros new K1 K2 K3 [ex' K4] K5 K6 K7 K8. split; auto.
      - rewrite K2. apply (e_lim _ _ _ X).
      - rewrite K3. apply (e_dim _ _ _ X).
      - exists (ex ++ ex'). rewrite K4, (e_all _ _ _ X), app_assoc. auto.
      - congruence.
      - intros Hn. apply K7. exact (add_inactive_nbrs s v s1 _ B Hl H1 Hn).
      - intros w Hw. destruct (K8 w Hw) as [Hw1|Hw1]; auto. rewrite (e_all _ _ _ X) in Hw1.
        apply in_app_iff in Hw1. destruct Hw1 as [Hw1|Hw1]; auto. destruct (Hex w Hw1) as (-> & _). auto. }
    destruct Hc as [[Hv ->]|(Hv & G & ->)].
    + exists []. split; [reflexivity|]. split.
      { apply G1; auto; [exists []; rewrite app_nil_r; auto|rewrite app_nil_r; auto]. }
      left. exists a. repeat split; auto. left. split; auto. unfold active in *. congruence.
    + exists [v]. split; [reflexivity|]. split; [destruct G; apply G1; auto|].
      left. eexists. repeat split; eauto. right. split; auto. unfold active in *. congruence.
  - destruct Hr as (-> & Hni & Hlf). exists s, None, []. split; [reflexivity|]. split; [apply grown_refl; auto|].
    right. auto.
Qed.

(** ** Admissibility *)

Lemma count_active_ok s l : base s -> (forall g, In g l -> g < length (all s)) ->
  count_active s l = Ok (length (filter (okb (is_active s)) l)).
Proof.
  intros B. induction l as [|g l IH]; intros H; [reflexivity|]. cbn [count_active filter].
  destruct (is_active_spec s g _ B (all_nth s g (H g (or_introl eq_refl)))) as (b & Hb & _).
  unfold okb at 1. rewrite Hb. cbn [obind]. rewrite IH by (intros; apply H; right; auto). cbn [obind].
  destruct b; reflexivity.
Qed.

Lemma inE_spec s g v : base s -> nth_error (all s) g = Some v ->
  exists l, nth_error (inE s) g = Some l /\ NoDup l /\
    (forall h, In h l <-> edge (outE s) h g) /\
    (forall h, In h l -> exists w, nth_error (all s) h = Some w /\ fwd_rel w v).
Proof.
  intros B Hg. assert (L : g < length (inE s)) by (rewrite (b_in _ B); eapply nth_error_lt; eauto).
  exists (nth g (inE s) []). assert (E := nth_error_nth' _ [] L). split; [exact E|].
  assert (Hed : forall h, In h (nth g (inE s) []) <-> edge (outE s) h g).
  { intros h. rewrite (b_sym _ B). unfold edge. split; [eauto|]. intros (l & El & Hi).
    rewrite E in El. injection El as <-. exact Hi. }
  split; [eapply ssorted_NoDup, Forall_nth_error; [apply (b_sorti _ B)|exact E]|]. split; [exact Hed|].
  intros h Hh. apply Hed, (b_sound _ B) in Hh. destruct Hh as (x & y & Hx & Hy & Hxy).
  exists x. split; auto. congruence.
Qed.

Lemma outE_spec s g v : base s -> nth_error (all s) g = Some v ->
  exists l, nth_error (outE s) g = Some l /\ ssorted l /\
    (forall h, In h l <-> edge (outE s) g h) /\
    (forall h, In h l -> exists w, nth_error (all s) h = Some w /\ fwd_rel v w).
Proof.
  intros B Hg. assert (L : g < length (outE s)) by (rewrite (b_out _ B); eapply nth_error_lt; eauto).
  exists (nth g (outE s) []). assert (E := nth_error_nth' _ [] L). split; [exact E|].
  assert (Hed : forall h, In h (nth g (outE s) []) <-> edge (outE s) g h).
  { intros h. unfold edge. split; [eauto|]. intros (l & El & Hi).
    rewrite E in El. injection El as <-. exact Hi. }
  split; [eapply Forall_nth_error; [apply (b_sorto _ B)|exact E]|]. split; [exact Hed|].
  intros h Hh. apply Hed, (b_sound _ B) in Hh. destruct Hh as (x & y & Hx & Hy & Hxy).
  exists y. split; auto. congruence.
Qed.

Lemma is_admissible_spec s g v : base s -> nth_error (all s) g = Some v ->
  exists b, is_admissible s g = Ok b /\
    (b = true -> lim s v = true /\ (active s v \/ forall w, fwd_rel w v -> active s w)) /\
    (full s -> lim s v = true -> (active s v \/ forall w, fwd_rel w v -> active s w) -> b = true).
Proof.
  intros B Hg. unfold is_admissible. rewrite (at_ok _ _ _ Hg). cbn [obind].
  destruct (lim s v) eqn:El; cbn [negb].
  2:{ exists false. split; [reflexivity|]. split; [discriminate|]. intros _ H. discriminate. }
  destruct (is_active_spec s g v B Hg) as (b & Hb & Ib). rewrite Hb. cbn [obind]. destruct b.
  { exists true. split; [reflexivity|]. split; auto. intros _. split; auto. left. apply Ib; auto. }
  assert (Hna : ~ active s v) by (intros H; apply Ib in H; discriminate).
  destruct (inE_spec s g v B Hg) as (l & Hl & Hnd & Hed & Hw). rewrite (at_ok _ _ _ Hl). cbn [obind].
  assert (Hlt : forall h, In h l -> h < length (all s)).
  { intros h Hh. destruct (Hw h Hh) as (w & Hw' & _). eapply nth_error_lt; eauto. }
  rewrite count_active_ok by auto. cbn [obind]. eexists. split; [reflexivity|].
  set (f := filter (okb (is_active s)) l). rewrite Nat.eqb_eq.
  assert (Hf : forall h, In h f <-> In h l /\ active s (nth h (all s) [])).
  { intros h. unfold f. rewrite filter_In. split; intros [H1 H2]; (split; [auto|]).
    - eapply okb_true; [apply is_active_spec; auto; apply all_nth; auto|exact H2].
    - eapply okb_true; [apply is_active_spec; auto; apply all_nth; auto|exact H2]. }
  assert (Nf : NoDup (map (fun h => nth h (all s) []) f)).
  { apply NoDup_map_in; [|apply NoDup_filter; auto]. intros x y Hx Hy. apply all_inj; auto.
    - apply Hlt, (proj1 (Hf x) Hx).
    - apply Hlt, (proj1 (Hf y) Hy). }
  assert (Incl : incl (map (fun h => nth h (all s) []) f) (vbackward v)).
  { intros w H. apply in_map_iff in H. destruct H as (h & <- & Hh). apply Hf in Hh.
    destruct (Hw h (proj1 Hh)) as (w & Hw1 & Hw2). rewrite (nth_all _ _ _ Hw1). apply vbackward_In; auto. }
  split.
  - intros Hc. split; auto. right. intros w Hwv. apply vbackward_In in Hwv.
    assert (I2 : incl (vbackward v) (map (fun h => nth h (all s) []) f)).
    { apply NoDup_length_incl; auto. rewrite map_length, vbackward_length. lia. }
    specialize (I2 w Hwv). apply in_map_iff in I2. destruct I2 as (h & <- & Hh). apply Hf; auto.
  - intros Hfull _ [H|H]; [contradiction|]. rewrite <- vbackward_length.
    assert (I2 : incl (vbackward v) (map (fun h => nth h (all s) []) f)).
    { intros w Hwv. apply vbackward_In in Hwv. assert (Ha := H w Hwv).
      assert (Hi := active_in_all _ _ B Ha). apply In_nth_error in Hi. destruct Hi as [h Hh].
      apply in_map_iff. exists h. split; [apply nth_all; auto|]. apply Hf.
      rewrite (nth_all _ _ _ Hh). split; auto. apply Hed. eapply (f_edges _ Hfull); eauto. }
    assert (L1 := NoDup_incl_length Nf Incl).
    assert (L2 := NoDup_incl_length (vbackward_NoDup v) I2). rewrite map_length in L1, L2. lia.
Qed.

(** A candidate: inactive, accepted, all backward neighbours active. *)
Definition cand (s : mset) (v : vec) : Prop :=
  ~ active s v /\ lim s v = true /\ forall w, fwd_rel w v -> active s w.

Lemma is_candidate_spec s g v : base s -> nth_error (all s) g = Some v ->
  exists b, is_candidate s g = Ok b /\ is_candidate' s g = Ok b /\
    (b = true -> cand s v) /\ (full s -> cand s v -> b = true).
Proof.
  intros B Hg. unfold is_candidate, is_candidate'.
  destruct (is_active_spec s g v B Hg) as (a & Ha & Ia).
  destruct (is_admissible_spec s g v B Hg) as (b & Hb & I1 & I2).
  rewrite Ha, Hb. cbn [obind]. exists (b && negb a). split; [destruct a, b; reflexivity|].
  split; [destruct a, b; reflexivity|]. split.
  - intros H. apply andb_true_iff in H. destruct H as [-> H]. destruct (I1 eq_refl) as [H1 H2].
    assert (N : ~ active s v) by (intros Hc; apply Ia in Hc; subst; discriminate).
    split; [auto|]. split; auto. destruct H2; [contradiction|auto].
  - intros Hf (H1 & H2 & H3). rewrite (I2 Hf H2 (or_intror H3)). cbn.
    destruct a; auto. exfalso. apply H1, Ia. auto.
Qed.

(** ** Expansion *)

Lemma expand_step_spec s acc g v : base s -> nth_error (all s) g = Some v ->
  exists s' new, expand_step (s, acc) g = Ok (s', acc ++ seq (ms_Size s) (length new)) /\
    grown s s' new /\ (new = [] \/ (new = [v] /\ cand s v)) /\
    (full s -> cand s v -> new = [v]).
Proof.
  intros B Hg. unfold expand_step. destruct (is_candidate_spec s g v B Hg) as (b & _ & Hb & I1 & I2).
  rewrite Hb. cbn [obind]. destruct b.
  - assert (C := I1 eq_refl). destruct (activate_grown s g v B Hg) as (s' & a & H & Ha & _ & Hc).
    rewrite H. cbn [obind]. rewrite (at_ok _ _ _ Ha). cbn [obind].
    destruct Hc as [[Hc _]|(_ & G & ->)]; [destruct C; contradiction|].
    exists s', [v]. split; [reflexivity|]. split; auto.
  - exists s, []. split; [cbn; rewrite app_nil_r; reflexivity|]. split; [apply grown_refl; auto|]. split; auto.
    intros Hf C. specialize (I2 Hf C). discriminate.
Qed.

Lemma expand_loop_spec l : forall s acc, base s -> (forall g, In g l -> g < length (all s)) ->
  exists s' new, ofold expand_step l (s, acc) = Ok (s', acc ++ seq (ms_Size s) (length new)) /\
    grown s s' new /\
    (forall v, In v new -> lim s v = true /\ ~ active s v /\
       (exists g, In g l /\ nth_error (all s) g = Some v) /\ forall w, fwd_rel w v -> active s' w) /\
    (full s -> forall g v, In g l -> nth_error (all s) g = Some v -> cand s v -> active s' v).
Proof.
  induction l as [|g l IH]; intros s acc B Hlt.
  - exists s, []. cbn. rewrite app_nil_r. split; [reflexivity|]. split; [apply grown_refl; auto|].
    split; [intros v []|intros _ g v []].
  - cbn [ofold]. assert (Hg := all_nth s g (Hlt g (or_introl eq_refl))).
    set (v := nth g (all s) []) in *.
    destruct (expand_step_spec s acc g v B Hg) as (s1 & n1 & H1 & G1 & C1 & D1). rewrite H1. cbn [obind].
    destruct (IH s1 (acc ++ seq (ms_Size s) (length n1))) as (s2 & n2 & H2 & G2 & C2 & D2).
    { apply (g_base _ _ _ G1). }
    { intros h Hh. destruct (g_all _ _ _ G1) as [ex ->]. rewrite app_length.
      assert (h < length (all s)) by (apply Hlt; right; auto). lia. }
    exists s2, (n1 ++ n2). split.
    { rewrite H2. f_equal. f_equal. rewrite app_length, seq_app, app_assoc. f_equal. f_equal.
      rewrite <- !actives_length, (g_act _ _ _ G1), app_length. reflexivity. }
    split; [eapply grown_trans; eauto|]. split.
    + intros u Hu. apply in_app_iff in Hu. destruct Hu as [Hu|Hu].
      * destruct C1 as [->|[-> Cv]]; [destruct Hu|]. destruct Hu as [<-|[]].
        destruct Cv as (K1 & K2 & K3). split; auto. split; auto.
        split; [exists g; split; [left|]; auto|]. intros w Hw. apply (grown_active _ _ _ _ G2). left.
        apply (grown_active _ _ _ _ G1). left. auto.
      * destruct (C2 u Hu) as (K1 & K2 & (h & Kh & Kv) & K3). rewrite (g_lim _ _ _ G1) in K1.
        split; auto. split; [intros Hc; apply K2, (grown_active _ _ _ _ G1); auto|].
        split; [|auto]. exists h. split; [right; auto|].
        assert (Hh : h < length (all s)) by (apply Hlt; right; auto).
        rewrite all_nth by auto. rewrite <- Kv. symmetry. apply (grown_nth _ _ _ _ _ G1). apply all_nth; auto.
    + intros Hf h u [<-|Hh] Hu Cu.
      * assert (u = v) by congruence. subst u. apply (grown_active _ _ _ _ G2). left.
        apply (grown_active _ _ _ _ G1). right. rewrite (D1 Hf Cu). left; auto.
      * destruct (active_dec s1 u) as [Ha|Ha].
        -- apply (grown_active _ _ _ _ G2). auto.
        -- apply (D2 (g_full _ _ _ G1 Hf) h u Hh (grown_nth _ _ _ _ _ G1 Hu)).
           destruct Cu as (K1 & K2 & K3). split; auto. split; [rewrite (g_lim _ _ _ G1); auto|].
           intros w Hw. apply (grown_active _ _ _ _ G1). auto.
Qed.

(** Expand(i): new members are reported with consecutive new indices. *)
Lemma Expand_spec s a v : base s -> nth_error (actives s) a = Some v ->
  exists s' new, ms_Expand s a = Ok (s', seq (ms_Size s) (length new)) /\ grown s s' new /\
    (forall u, In u new -> lim s u = true /\ ~ active s u /\ fwd_rel v u /\ forall w, fwd_rel w u -> active s' w) /\
    (full s -> nbrs s -> forall u, fwd_rel v u -> cand s u -> active s' u).
Proof.
  intros B Ha. unfold ms_Expand.
  assert (La : a < length (a2g s)).
  { apply nth_error_lt in Ha. rewrite actives_length in Ha. exact Ha. }
  destruct (Nat.leb_spec (length (a2g s)) a); [lia|].
  apply actives_nth in Ha; auto. destruct Ha as (g & Hg & Hv). rewrite (at_ok _ _ _ Hg). cbn [obind].
  destruct (outE_spec s g v B Hv) as (l & Hl & _ & Hed & Hw). rewrite (at_ok _ _ _ Hl). cbn [obind].
  destruct (expand_loop_spec l s []) as (s' & new & He & G & C & D); auto.
  { intros h Hh. destruct (Hw h Hh) as (w & Hw' & _). eapply nth_error_lt; eauto. }
  exists s', new. split; [exact He|]. split; auto. split.
  - intros u Hu. destruct (C u Hu) as (K1 & K2 & (h & Kh & Ku) & K3). split; auto. split; auto. split; auto.
    destruct (Hw h Kh) as (w & Hw1 & Hw2). congruence.
  - intros Hf Hn u Hvu Cu. assert (Hu : In u (all s)).
    { apply (Hn v u); auto; [|apply Cu]. apply active_iff; auto. eauto. }
    apply In_nth_error in Hu. destruct Hu as [h Hh]. apply (D Hf h u); auto.
    apply Hed. eapply (f_edges _ Hf); eauto.
Qed.

Lemma Expand_throw s a : ms_Size s <= a -> ms_Expand s a = Throw.
Proof. intros H. unfold ms_Expand. destruct (Nat.leb_spec (length (a2g s)) a); [auto|unfold ms_Size in H; lia]. Qed.

(** ** Frontier *)

Lemma IsExpandable_spec s a v : base s -> nth_error (actives s) a = Some v ->
  exists b, ms_IsExpandable s a = Ok b /\
    (b = true -> exists u, fwd_rel v u /\ cand s u) /\
    (full s -> nbrs s -> (exists u, fwd_rel v u /\ cand s u) -> b = true).
Proof.
  intros B Ha. unfold ms_IsExpandable. assert (Ha' := Ha).
  apply actives_nth in Ha'; auto. destruct Ha' as (g & Hg & Hv). rewrite (at_ok _ _ _ Hg). cbn [obind].
  destruct (outE_spec s g v B Hv) as (l & Hl & _ & Hed & Hw). rewrite (raw_ok _ _ _ Hl). cbn [obind].
  rewrite oexists_ok.
  2:{ intros h Hh. destruct (Hw h Hh) as (w & Hw' & _).
      destruct (is_candidate_spec s h w B Hw') as (b & Hb & _). eauto. }
  eexists. split; [reflexivity|]. split.
  - intros H. apply existsb_exists in H. destruct H as (h & Hh & Hb).
    destruct (Hw h Hh) as (w & Hw1 & Hw2). exists w. split; auto.
    destruct (is_candidate_spec s h w B Hw1) as (b & Hb' & _ & I1 & _). unfold okb in Hb. rewrite Hb' in Hb. auto.
  - intros Hf Hn (u & Hvu & Cu). assert (Hu : In u (all s)).
    { apply (Hn v u); auto; [|apply Cu]. eapply nth_error_In; eauto. }
    apply In_nth_error in Hu. destruct Hu as [h Hh]. apply existsb_exists. exists h. split.
    + apply Hed. eapply (f_edges _ Hf); eauto.
    + destruct (is_candidate_spec s h u B Hh) as (b & Hb' & _ & _ & I2). unfold okb. rewrite Hb'. auto.
Qed.

Lemma actives_nth_lt s a : a < ms_Size s -> exists v, nth_error (actives s) a = Some v.
Proof.
  intros H. destruct (nth_error (actives s) a) as [v|] eqn:E; eauto.
  apply nth_error_None in E. rewrite actives_length in E. lia.
Qed.

Lemma Frontier_spec s : base s ->
  exists f, ms_Frontier s = Ok f /\ ssorted f /\
    (forall a, In a f -> exists v, nth_error (actives s) a = Some v /\ exists u, fwd_rel v u /\ cand s u) /\
    (full s -> nbrs s -> forall a v, nth_error (actives s) a = Some v ->
       (exists u, fwd_rel v u /\ cand s u) -> In a f).
Proof.
  intros B. unfold ms_Frontier. rewrite ofilter_ok.
  2:{ intros a Ha. apply in_seq in Ha. destruct (actives_nth_lt s a) as [v Hv]; [unfold ms_Size; lia|].
      destruct (IsExpandable_spec s a v B Hv) as (b & Hb & _). eauto. }
  eexists. split; [reflexivity|]. split.
  - assert (Hs : forall k n, ssorted (seq k n)).
    { intros k n. revert k. induction n; intros k; cbn; constructor; auto.
      - apply IHn.
      - apply Forall_forall. intros x Hx. apply in_seq in Hx. lia. }
    specialize (Hs 0 (length (a2g s))). induction Hs as [|z t Hs IH Hf]; cbn; [constructor|].
    destruct (okb (ms_IsExpandable s) z); auto. constructor; auto.
    apply Forall_forall. intros y Hy. apply filter_In in Hy. rewrite Forall_forall in Hf. apply Hf, Hy.
  - split.
    + intros a Ha. apply filter_In in Ha. destruct Ha as [Ha Hb]. apply in_seq in Ha.
      destruct (actives_nth_lt s a) as [v Hv]; [unfold ms_Size; lia|]. exists v. split; auto.
      destruct (IsExpandable_spec s a v B Hv) as (b & Hb' & I1 & _). unfold okb in Hb. rewrite Hb' in Hb. auto.
    + intros Hf Hn a v Hv Hu. apply filter_In. split.
      * apply in_seq. apply nth_error_lt in Hv. rewrite actives_length in Hv. unfold ms_Size in Hv. lia.
      * destruct (IsExpandable_spec s a v B Hv) as (b & Hb' & _ & I2). unfold okb. rewrite Hb'. auto.
Qed.

(** ** Expand() *)

Lemma to_expand_spec s a v : base s -> nth_error (actives s) a = Some v ->
  exists l, to_expand s a = Ok l /\
    (forall g, In g l -> exists u, nth_error (all s) g = Some u /\ fwd_rel v u /\ cand s u) /\
    (full s -> nbrs s -> forall u, fwd_rel v u -> cand s u -> exists g, In g l /\ nth_error (all s) g = Some u).
Proof.
  intros B Ha. unfold to_expand. assert (Ha' := Ha).
  apply actives_nth in Ha'; auto. destruct Ha' as (g & Hg & Hv). rewrite (at_ok _ _ _ Hg). cbn [obind].
  destruct (outE_spec s g v B Hv) as (l & Hl & _ & Hed & Hw). rewrite (at_ok _ _ _ Hl). cbn [obind].
  rewrite ofilter_ok.
  2:{ intros h Hh. destruct (Hw h Hh) as (w & Hw' & _).
      destruct (is_candidate_spec s h w B Hw') as (b & _ & Hb & _). eauto. }
  eexists. split; [reflexivity|]. split.
  - intros h Hh. apply filter_In in Hh. destruct Hh as [Hh Hb]. destruct (Hw h Hh) as (w & Hw1 & Hw2).
    exists w. split; auto. split; auto.
    destruct (is_candidate_spec s h w B Hw1) as (b & _ & Hb' & I1 & _). unfold okb in Hb. rewrite Hb' in Hb. auto.
  - intros Hf Hn u Hvu Cu. assert (Hu : In u (all s)).
    { apply (Hn v u); auto; [|apply Cu]. eapply nth_error_In; eauto. }
    apply In_nth_error in Hu. destruct Hu as [h Hh]. exists h. split; auto. apply filter_In. split.
    + apply Hed. eapply (f_edges _ Hf); eauto.
    + destruct (is_candidate_spec s h u B Hh) as (b & _ & Hb' & _ & I2). unfold okb. rewrite Hb'. auto.
Qed.

Lemma expand_all_loop l : forall s acc, base s -> (forall g, In g l -> g < length (all s)) ->
  exists s' new rep, ofold expand_all_step l (s, acc) = Ok (s', acc ++ rep) /\ grown s s' new /\
    length rep = length l /\
    (forall v, In v new <-> ~ active s v /\ exists g, In g l /\ nth_error (all s) g = Some v) /\
    (forall i, In i rep -> exists g v, In g l /\ nth_error (all s) g = Some v /\ nth_error (actives s') i = Some v) /\
    (forall g v, In g l -> nth_error (all s) g = Some v -> exists i, In i rep /\ nth_error (actives s') i = Some v).
Proof.
  induction l as [|g l IH]; intros s acc B Hlt.
  - exists s, [], []. cbn. rewrite app_nil_r. split; [reflexivity|]. split; [apply grown_refl; auto|].
    split; [auto|]. split; [|split].
    + intros v. split; [intros []|intros (_ & g & [] & _)].
    + intros i [].
    + intros g v [].
  - cbn [ofold]. assert (Hg := all_nth s g (Hlt g (or_introl eq_refl))).
    set (v := nth g (all s) []) in *.
    destruct (activate_grown s g v B Hg) as (s1 & a & H1 & Ha & Hna & Hc).
    assert (ST : expand_all_step (s, acc) g = Ok (s1, acc ++ [a])).
    { unfold expand_all_step. rewrite H1. cbn [obind]. rewrite (at_ok _ _ _ Ha). reflexivity. }
    rewrite ST. cbn [obind].
    assert (G1 : exists n1, grown s s1 n1 /\ forall u, In u n1 <-> ~ active s u /\ u = v).
    { destruct Hc as [[Hc ->]|(Hc & G & _)].
      - exists []. split; [apply grown_refl; auto|]. intros u. split; [intros []|intros [? ->]; contradiction].
      - exists [v]. split; auto. intros u. cbn. split; [intros [<-|[]]; auto|intros [_ ->]; auto]. }
    destruct G1 as (n1 & G1 & N1).
    destruct (IH s1 (acc ++ [a])) as (s2 & n2 & rep & H2 & G2 & L2 & N2 & R2 & R3).
    { apply (g_base _ _ _ G1). }
    { intros h Hh. destruct (g_all _ _ _ G1) as [ex ->]. rewrite app_length.
      assert (h < length (all s)) by (apply Hlt; right; auto). lia. }
    assert (Hback : forall h u, In h l -> nth_error (all s1) h = Some u -> nth_error (all s) h = Some u).
    { intros h u Hh Hu. assert (Lh : h < length (all s)) by (apply Hlt; right; auto).
      rewrite all_nth by auto. rewrite <- Hu. symmetry. apply (grown_nth _ _ _ _ _ G1). apply all_nth; auto. }
    assert (Hstay : nth_error (actives s2) a = Some v).
    { rewrite (g_act _ _ _ G2). apply nth_error_app_l. exact Hna. }
    exists s2, (n1 ++ n2), (a :: rep). split.
    { rewrite H2. rewrite <- app_assoc. reflexivity. }
    split; [eapply grown_trans; eauto|]. split; [cbn; lia|]. split; [|split].
    + intros u. rewrite in_app_iff, N1, N2, (grown_active _ _ _ _ G1), N1. split.
      * intros [[K1 ->]|[K1 (h & Kh & Ku)]].
        -- split; auto. exists g. split; [left|]; auto.
        -- split; [tauto|]. exists h. split; [right; auto|auto].
      * intros [K1 (h & [<-|Kh] & Ku)].
        -- left. split; auto. congruence.
        -- destruct (list_eq_dec Nat.eq_dec u v) as [->|Hne]; [left; auto|].
           right. split; [tauto|]. exists h. split; auto. apply (grown_nth _ _ _ _ _ G1); auto.
    + intros i [<-|Hi].
      * exists g, v. split; [left; auto|]. auto.
      * destruct (R2 i Hi) as (h & u & K1 & K2 & K3). exists h, u. split; [right; auto|]. auto.
    + intros h u [<-|Hh] Hu.
      * exists a. split; [left; auto|]. congruence.
      * destruct (R3 h u Hh (grown_nth _ _ _ _ _ G1 Hu)) as (i & K1 & K2). exists i. split; [right|]; auto.
Qed.

Lemma omap_forall {A B} (f : A -> outcome B) (P : A -> B -> Prop) l :
  (forall x, In x l -> exists y, f x = Ok y /\ P x y) ->
  exists r, omap f l = Ok r /\ Forall2 P l r.
Proof.
  induction l as [|x l IH]; intros H.
  - exists []. split; [reflexivity|constructor].
  - destruct (H x) as (y & Hy & Py); [left; auto|]. destruct IH as (r & Hr & Fr); [intros; apply H; right; auto|].
    exists (y :: r). cbn. rewrite Hy, Hr. split; [reflexivity|constructor; auto].
Qed.

Lemma Forall2_In_r {A B} (P : A -> B -> Prop) l r y : Forall2 P l r -> In y r -> exists x, In x l /\ P x y.
Proof.
  induction 1 as [|a b l r Hab _ IH]; intros Hi; [destruct Hi|]. destruct Hi as [<-|Hi].
  - exists a. split; [left|]; auto.
  - destruct (IH Hi) as (x & Hx & Px). exists x. split; [right|]; auto.
Qed.

Lemma Forall2_In_l {A B} (P : A -> B -> Prop) l r x : Forall2 P l r -> In x l -> exists y, In y r /\ P x y.
Proof.
  induction 1 as [|a b l r Hab _ IH]; intros Hi; [destruct Hi|]. destruct Hi as [<-|Hi].
  - exists b. split; [left|]; auto.
  - destruct (IH Hi) as (y & Hy & Py). exists y. split; [right|]; auto.
Qed.

(** Expand(): exactly the candidates that follow an active member become active,
    and the reported indices are those of the new members, possibly repeated. *)
Lemma ExpandAll_spec s : base s ->
  exists s' new rep, ms_ExpandAll s = Ok (s', rep) /\ grown s s' new /\
    (forall u, In u new -> cand s u /\ exists v, active s v /\ fwd_rel v u) /\
    (full s -> nbrs s -> forall v u, active s v -> fwd_rel v u -> cand s u -> In u new) /\
    (forall i, In i rep -> ms_Size s <= i < ms_Size s') /\
    (forall i, ms_Size s <= i < ms_Size s' -> In i rep).
Proof.
  intros B. unfold ms_ExpandAll. destruct (Frontier_spec s B) as (f & Hf & _ & F1 & F2).
  rewrite Hf. cbn [obind].
  destruct (omap_forall (to_expand s) (fun a l => exists v, nth_error (actives s) a = Some v /\
      (forall g, In g l -> exists u, nth_error (all s) g = Some u /\ fwd_rel v u /\ cand s u) /\
      (full s -> nbrs s -> forall u, fwd_rel v u -> cand s u -> exists g, In g l /\ nth_error (all s) g = Some u)) f)
    as (ls & Hls & FA).
  { intros a Ha. destruct (F1 a Ha) as (v & Hv & _). destruct (to_expand_spec s a v B Hv) as (l & Hl & K1 & K2).
    exists l. split; auto. exists v. auto. }
  rewrite Hls. cbn [obind].
  assert (Hc : forall g, In g (concat ls) -> exists v u, active s v /\ nth_error (all s) g = Some u /\ fwd_rel v u /\ cand s u).
  { intros g Hg. apply in_concat in Hg. destruct Hg as (l & Hl & Hg).
    destruct (Forall2_In_r _ _ _ _ FA Hl) as (a & Ha & v & Hv & K1 & _). destruct (K1 g Hg) as (u & Ku).
    exists v, u. split; [eapply nth_error_In; eauto|exact Ku]. }
  destruct (expand_all_loop (concat ls) s []) as (s' & new & rep & H & G & _ & N & R1 & R2); auto.
  { intros g Hg. destruct (Hc g Hg) as (v & u & _ & Hu & _). eapply nth_error_lt; eauto. }
  exists s', new, rep. split; [exact H|]. split; auto.
  assert (Hsz : ms_Size s' = ms_Size s + length new).
  { rewrite <- !actives_length, (g_act _ _ _ G), app_length. reflexivity. }
  split; [|split; [|split]].
  - intros u Hu. apply N in Hu. destruct Hu as (_ & g & Hg & Hgu). destruct (Hc g Hg) as (v & u' & K1 & K2 & K3 & K4).
    assert (u' = u) by congruence. subst. split; auto. exists v. auto.
  - intros Hfull Hn v u Hv Hvu Cu. apply N. split; [apply Cu|].
    apply In_nth_error in Hv. destruct Hv as [a Ha].
    assert (Haf : In a f) by (eapply F2; eauto).
    destruct (Forall2_In_l _ _ _ _ FA Haf) as (l & Hl & v' & Hv' & _ & K2).
    assert (v' = v) by congruence. subst. destruct (K2 Hfull Hn u Hvu Cu) as (g & Hg & Hgu).
    exists g. split; auto. apply in_concat. eauto.
  - intros i Hi. destruct (R1 i Hi) as (g & v & Hg & Hgv & Hiv).
    split; [|apply nth_error_lt in Hiv; rewrite actives_length in Hiv; auto].
    destruct (Nat.le_gt_cases (ms_Size s) i); auto. exfalso.
    rewrite (g_act _ _ _ G), nth_error_app1 in Hiv by (rewrite actives_length; auto).
    apply nth_error_In in Hiv. destruct (Hc g Hg) as (_ & u & _ & K2 & _ & K4 & _).
    assert (u = v) by congruence. subst. contradiction.
  - intros i [H1 H2]. destruct (actives_nth_lt s' i H2) as [v Hv].
    assert (Hnew : In v new).
    { rewrite (g_act _ _ _ G), nth_error_app2 in Hv by (rewrite actives_length; auto). eapply nth_error_In; eauto. }
    apply N in Hnew. destruct Hnew as (_ & g & Hg & Hgv). destruct (R2 g v Hg Hgv) as (j & Hj & Hjv).
    replace i with j; auto. assert (ND := NoDup_actives _ (g_base _ _ _ G)).
    apply (proj1 (NoDup_nth_error (actives s')) ND); [eapply nth_error_lt; eauto|congruence].
Qed.

(** ** Margins *)

Lemma seq_g2a s g : base s -> In g (seq 0 (length (g2a s))) <-> g < length (all s).
Proof. intros B. rewrite in_seq, (b_g2a _ B). lia. Qed.

Lemma collect s (test : nat -> outcome bool) (P : vec -> Prop) : base s ->
  (forall g v, nth_error (all s) g = Some v -> exists b, test g = Ok b /\ (b = true <-> P v)) ->
  exists l, (do r <- ofilter test (seq 0 (length (g2a s))); omap (at_ (all s)) r) = Ok l /\
    NoDup l /\ forall v, In v l <-> In v (all s) /\ P v.
Proof.
  intros B Ht. rewrite ofilter_ok.
  2:{ intros g Hg. apply seq_g2a in Hg; auto. destruct (Ht g _ (all_nth _ _ Hg)) as (b & Hb & _). eauto. }
  cbn [obind]. rewrite (omap_ok _ (fun g => nth g (all s) [])).
  2:{ intros g Hg. apply filter_In in Hg. destruct Hg as [Hg _]. apply seq_g2a in Hg; auto. apply at_nth; auto. }
  eexists. split; [reflexivity|]. split.
  - apply NoDup_map_in; [|apply NoDup_filter, seq_NoDup]. intros x y Hx Hy.
    apply filter_In in Hx, Hy. destruct Hx as [Hx _], Hy as [Hy _]. apply seq_g2a in Hx, Hy; auto.
    apply all_inj; auto.
  - intros v. rewrite in_map_iff. split.
    + intros (g & <- & Hg). apply filter_In in Hg. destruct Hg as [Hg Hb]. apply seq_g2a in Hg; auto.
      split; [apply nth_In; auto|]. destruct (Ht g _ (all_nth _ _ Hg)) as (b & Hb' & I).
      unfold okb in Hb. rewrite Hb' in Hb. apply I; auto.
    + intros [Hv Pv]. apply In_nth_error in Hv. destruct Hv as [g Hg]. exists g.
      split; [apply nth_all; auto|]. apply filter_In. split; [apply seq_g2a; auto; eapply nth_error_lt; eauto|].
      destruct (Ht g v Hg) as (b & Hb' & I). unfold okb. rewrite Hb'. apply I; auto.
Qed.

Lemma Margin_spec s : full s -> nbrs s ->
  exists l, ms_Margin s = Ok l /\ NoDup l /\
    forall u, In u l <-> lim s u = true /\ ~ active s u /\ exists v, active s v /\ fwd_rel v u.
Proof.
  intros F Hn. assert (B := f_base _ F).
  destruct (collect s (margin_test s) (fun u => ~ active s u /\ exists v, active s v /\ fwd_rel v u) B)
    as (l & Hl & ND & Hin).
  - intros g u Hg. unfold margin_test. destruct (is_active_spec s g u B Hg) as (a & Ha & Ia).
    rewrite Ha. cbn [obind]. destruct a.
    + exists false. split; [reflexivity|]. split; [discriminate|]. intros [H _]. exfalso. apply H, Ia; auto.
    + destruct (inE_spec s g u B Hg) as (l & Hl & _ & Hed & Hw). rewrite (raw_ok _ _ _ Hl). cbn [obind].
      rewrite oexists_ok.
      2:{ intros h Hh. destruct (Hw h Hh) as (w & Hw1 & _).
          destruct (is_active_spec s h w B Hw1) as (b & Hb & _). eauto. }
      eexists. split; [reflexivity|]. rewrite existsb_exists. split.
      * intros (h & Hh & Hb). split; [intros H; apply Ia in H; discriminate|].
        destruct (Hw h Hh) as (w & Hw1 & Hw2). exists w. split; auto.
        eapply okb_true; [eapply is_active_spec; eauto|exact Hb].
      * intros [_ (v & Hv & Hvu)]. assert (Hi := active_in_all _ _ B Hv). apply In_nth_error in Hi.
        destruct Hi as [h Hh]. exists h. split; [apply Hed; eapply (f_edges _ F); eauto|].
        eapply okb_true; [eapply is_active_spec; eauto|exact Hv].
  - exists l. split; [exact Hl|]. split; auto. intros u. rewrite Hin. split.
    + intros (H1 & H2 & H3). split; [apply (f_lim _ F); auto|]. auto.
    + intros (H1 & H2 & v & H3 & H4). split; [|split; eauto]. eapply Hn; eauto.
Qed.

Lemma all_active_ok s l : base s -> (forall g, In g l -> g < length (all s)) ->
  forall acc, all_active s l acc = Ok (acc && forallb (okb (is_active s)) l).
Proof.
  intros B. induction l as [|g l IH]; intros H acc; cbn [all_active forallb].
  - rewrite andb_true_r. reflexivity.
  - destruct acc; cbn [andb].
    + destruct (is_active_spec s g _ B (all_nth s g (H g (or_introl eq_refl)))) as (b & Hb & _).
      unfold okb at 1. rewrite Hb. cbn [obind]. apply IH. intros; apply H; right; auto.
    + rewrite IH by (intros; apply H; right; auto). reflexivity.
Qed.

(** One-step downward closure of the active members. *)
Definition closed (s : mset) : Prop := forall v w, active s v -> fwd_rel w v -> active s w.

(** What the ReducedMargin loop computes: stored, inactive, every stored backward
    neighbour active. *)
Lemma ReducedMargin_raw s : full s ->
  exists l, ms_ReducedMargin s = Ok l /\ NoDup l /\
    forall u, In u l <-> In u (all s) /\ ~ active s u /\
      forall w, In w (all s) -> fwd_rel w u -> active s w.
Proof.
  intros F. assert (B := f_base _ F).
  apply (collect s (rmargin_test s)
           (fun u => ~ active s u /\ forall w, In w (all s) -> fwd_rel w u -> active s w) B).
  intros g u Hg. unfold rmargin_test. destruct (is_active_spec s g u B Hg) as (a & Ha & Ia).
  rewrite Ha. cbn [obind]. destruct a.
  - exists false. split; [reflexivity|]. split; [discriminate|]. intros [H _]. exfalso. apply H, Ia; auto.
  - destruct (inE_spec s g u B Hg) as (l & Hl & _ & Hed & Hw). rewrite (raw_ok _ _ _ Hl). cbn [obind].
    rewrite all_active_ok; auto.
    2:{ intros h Hh. destruct (Hw h Hh) as (w & Hw1 & _). eapply nth_error_lt; eauto. }
    cbn [andb]. eexists. split; [reflexivity|]. rewrite forallb_forall. split.
    + intros H. split; [intros Hc; apply Ia in Hc; discriminate|]. intros w Hwi Hwu.
      apply In_nth_error in Hwi. destruct Hwi as [h Hh].
      eapply okb_true; [eapply is_active_spec; eauto|]. apply H. apply Hed. eapply (f_edges _ F); eauto.
    + intros [_ H] h Hh. destruct (Hw h Hh) as (w & Hw1 & Hw2).
      eapply okb_true; [eapply is_active_spec; eauto|]. apply H; auto. eapply nth_error_In; eauto.
Qed.

Lemma plus_unit_swap a v w i j : plus_unit a v i -> plus_unit w v j -> i <> j ->
  exists b, plus_unit b a j /\ plus_unit b w i.
Proof.
  intros (L1 & I1 & H1) (L2 & I2 & H2) Hne.
  assert (Hj : nth j a 0 = nth j w 0 + 1).
  { specialize (H1 j). specialize (H2 j). rewrite Nat.eqb_refl in H2.
    destruct (Nat.eqb_spec j i); [congruence|lia]. }
  exists (vset a j (nth j a 0 - 1)). assert (Lb : length (vset a j (nth j a 0 - 1)) = length a) by apply vset_length.
  assert (Hb : forall k, nth k (vset a j (nth j a 0 - 1)) 0 = if k =? j then nth j w 0 else nth k a 0).
  { intros k. destruct (Nat.lt_ge_cases k (length a)) as [Hk|Hk].
    - rewrite nth_vset by auto. destruct (k =? j); lia.
    - rewrite nth_overflow by lia. destruct (Nat.eqb_spec k j); [lia|]. rewrite nth_overflow; lia. }
  split; (split; [lia|]); (split; [lia|]); intros k; rewrite Hb.
  - destruct (Nat.eqb_spec k j); subst; lia.
  - specialize (H1 k). specialize (H2 k).
    destruct (Nat.eqb_spec k j), (Nat.eqb_spec k i); subst; lia.
Qed.

Lemma plus_unit_fun a b c i : plus_unit a c i -> plus_unit b c i -> a = b.
Proof.
  intros (L1 & I1 & H1) (L2 & I2 & H2). apply nth_ext_eq with 0; [lia|].
  intros k _. specialize (H1 k). specialize (H2 k). lia.
Qed.

(** In a downward closed set, backward neighbours of a margin member that are
    accepted by the limiter are stored. *)
Lemma margin_backward_stored s a u w : nbrs s -> closed s -> active s a -> fwd_rel a u -> fwd_rel w u ->
  lim s w = true -> active s w \/ In w (all s).
Proof.
  intros Hn Hc Ha [i Hi] [j Hj] Hl. destruct (Nat.eq_dec i j) as [->|Hne].
  - left. rewrite <- (plus_unit_fun _ _ _ _ Hi Hj). auto.
  - right. destruct (plus_unit_swap _ _ _ _ _ Hi Hj Hne) as (b & Hb1 & Hb2).
    apply (Hn b w); auto; [|left; exists i; auto]. apply (Hc a); auto. exists j; auto.
Qed.

Lemma ReducedMargin_spec s : full s -> nbrs s -> linked s -> closed s -> ms_Size s <> 0 ->
  (forall v w, lim s v = true -> fwd_rel w v -> lim s w = true) ->
  exists l, ms_ReducedMargin s = Ok l /\ NoDup l /\
    forall u, In u l <-> length u = dim s /\ cand s u.
Proof.
  intros F Hn Hk Hc Hsz Hd. assert (B := f_base _ F).
  destruct (ReducedMargin_raw s F) as (l & Hl & ND & Hin). exists l. split; auto. split; auto.
  assert (Hnb : forall u, In u (all s) -> ~ active s u -> exists a, active s a /\ fwd_rel a u).
  { intros u Hu Hna. destruct (Hk u Hu) as [?|(v & Hv & [H|H])]; [contradiction|eauto|].
    exfalso. apply Hna. eapply Hc; eauto. }
  intros u. rewrite Hin. split.
  - intros (H1 & H2 & H3). split; [apply (b_len _ B); auto|]. split; auto.
    split; [apply (f_lim _ F); auto|]. intros w Hw.
    destruct (Hnb u H1 H2) as (a & Ha & Hau).
    destruct (margin_backward_stored s a u w Hn Hc Ha Hau Hw) as [?|Hi]; auto.
    apply (Hd u); auto. apply (f_lim _ F); auto.
  - intros (H0 & H1 & H2 & H3). split; [|split; auto].
    (* u has an active backward neighbour, or is the zero vector *)
    destruct (vbackward u) as [|w t] eqn:E.
    + exfalso. apply H1.
      (* the zero vector lies below any active member *)
      assert (Hz : forall n v, vsum v = n -> active s v -> length u = length v -> active s u).
      { induction n as [n IHn] using lt_wf_ind. intros v Hv Hva Hlen.
        destruct (vbackward v) as [|x t] eqn:Ev.
        - replace u with v; auto. apply nth_ext_eq with 0; auto. intros k Hkk.
          assert (Z : forall z, vbackward z = [] -> k < length z -> nth k z 0 = 0).
          { intros z Hz Hkz. destruct (Nat.eq_dec (nth k z 0) 0) as [|Hn0]; auto. exfalso.
            assert (I : In (vset z k (nth k z 0 - 1)) (vbackward z)).
            { apply vbackward_In, bwd_vset. exists k. auto. }
            rewrite Hz in I. destruct I. }
          rewrite !Z; auto. lia.
        - assert (Hx : fwd_rel x v) by (apply vbackward_In; rewrite Ev; left; auto).
          assert (Hs : vsum v = S (vsum x)) by (apply plus_unit_sum; auto; apply fwd_rel_Forall2; auto).
          apply (IHn (vsum x)) with x; auto; [lia|eapply Hc; eauto|].
          rewrite Hlen. apply fwd_rel_length; auto. }
      destruct (actives_nth_lt s 0) as [v Hv]; [lia|]. apply nth_error_In in Hv.
      apply (Hz (vsum v) v); auto. rewrite H0. symmetry. apply (b_len _ B).
      apply active_in_all; auto.
    + apply (Hn w u); auto; [|left]; [apply H3|]; apply vbackward_In; rewrite E; left; auto.
Qed.

Lemma StrictFrontier_spec s : full s -> nbrs s ->
  exists f, ms_StrictFrontier s = Ok f /\ NoDup f /\
    forall a, In a f <-> exists v, nth_error (actives s) a = Some v /\
       (exists u, fwd_rel v u /\ cand s u) /\ forall u, fwd_rel v u -> ~ active s u.
Proof.
  intros F Hn. assert (B := f_base _ F). unfold ms_StrictFrontier.
  destruct (Frontier_spec s B) as (f & Hf & Sf & F1 & F2). rewrite Hf. cbn [obind].
  assert (HT : forall a v, nth_error (actives s) a = Some v ->
     exists b, strict_test s a = Ok b /\ (b = true <-> forall u, fwd_rel v u -> ~ active s u)).
  { intros a v Hv. apply actives_nth in Hv; auto. destruct Hv as (g & Hg & Hv). unfold strict_test.
    rewrite (at_ok _ _ _ Hg). cbn [obind]. destruct (outE_spec s g v B Hv) as (l & Hl & _ & Hed & Hw).
    rewrite (raw_ok _ _ _ Hl). cbn [obind]. rewrite oexists_ok.
    2:{ intros h Hh. destruct (Hw h Hh) as (w & Hw1 & _).
        destruct (is_active_spec s h w B Hw1) as (b & Hb & _). eauto. }
    cbn [obind]. eexists. split; [reflexivity|]. rewrite negb_true_iff. split.
    - intros H u Hvu Hu. assert (Hi := active_in_all _ _ B Hu). apply In_nth_error in Hi. destruct Hi as [h Hh].
      assert (T : existsb (okb (is_active s)) l = true); [|congruence]. apply existsb_exists.
      exists h. split; [apply Hed; eapply (f_edges _ F); eauto|].
      eapply okb_true; [eapply is_active_spec; eauto|exact Hu].
    - intros H. destruct (existsb (okb (is_active s)) l) eqn:E; auto. apply existsb_exists in E.
      destruct E as (h & Hh & Hb). destruct (Hw h Hh) as (w & Hw1 & Hw2). exfalso. apply (H w Hw2).
      eapply okb_true; [eapply is_active_spec; eauto|exact Hb]. }
  rewrite ofilter_ok.
  2:{ intros a Ha. destruct (F1 a Ha) as (v & Hv & _). destruct (HT a v Hv) as (b & Hb & _). eauto. }
  eexists. split; [reflexivity|]. split; [apply NoDup_filter, ssorted_NoDup; auto|].
  intros a. rewrite filter_In. split.
  - intros [Ha Hb]. destruct (F1 a Ha) as (v & Hv & Hu). exists v. split; auto. split; auto.
    destruct (HT a v Hv) as (b & Hb' & I). unfold okb in Hb. rewrite Hb' in Hb. apply I; auto.
  - intros (v & Hv & Hu & Hs). split; [eapply F2; eauto|].
    destruct (HT a v Hv) as (b & Hb' & I). unfold okb. rewrite Hb'. apply I; auto.
Qed.

(** ** Union *)

Lemma union_step_spec s v st : base s -> length v = dim s ->
  exists s', union_step s (v, st) = Ok s' /\ base s' /\ lim s' = lim s /\ dim s' = dim s /\
    (exists ex, all s' = all s ++ ex) /\ (full s -> full s') /\ (nbrs s -> nbrs s') /\
    actives s' = actives s ++
      (if lim s v then match st with
        | Some _ => if in_dec (list_eq_dec Nat.eq_dec) v (actives s) then [] else [v]
        | None => [] end else []).
Proof.
  intros B Hl. unfold union_step. destruct (lim s v) eqn:El.
  - destruct st as [x|].
    + destruct (AddActive_spec s v B Hl) as (s' & r & new & H & G & C). rewrite H. cbn [obind fst].
      exists s'. split; [reflexivity|]. destruct G. repeat (split; [assumption|]).
      rewrite g_act0. f_equal. destruct C as [(a & _ & _ & _ & [[C1 ->]|[C1 ->]])|(_ & _ & _ & C & _)];
        [| |congruence]; destruct in_dec; auto; contradiction.
    + unfold add_inactive_.
      destruct (add_inactive_spec s v B Hl) as (s1 & r1 & ex & H1 & B1 & X & F1 & _).
      rewrite H1. cbn [obind fst]. exists s1. split; [reflexivity|]. split; auto.
      split; [apply X|]. split; [apply X|]. split; [exists ex; apply X|]. split; auto.
      split; [eapply add_inactive_nbrs; eauto|]. rewrite app_nil_r. eapply ext_actives; eauto.
  - exists s. split; [reflexivity|]. split; auto. split; auto. split; auto.
    split; [exists []; rewrite app_nil_r; auto|]. split; auto. split; auto. rewrite app_nil_r. auto.
Qed.

Lemma union_loop l : forall s, base s -> (forall v st, In (v, st) l -> length v = dim s) ->
  exists s' new, ofold union_step l s = Ok s' /\ base s' /\ lim s' = lim s /\ dim s' = dim s /\
    (exists ex, all s' = all s ++ ex) /\ (full s -> full s') /\ (nbrs s -> nbrs s') /\
    actives s' = actives s ++ new /\
    (forall v, In v new <-> ~ active s v /\ lim s v = true /\ exists a, In (v, Some a) l).
Proof.
  induction l as [|[v st] l IH]; intros s B Hlen.
  - exists s, []. split; [reflexivity|]. split; auto. split; auto. split; auto.
    split; [exists []; rewrite app_nil_r; auto|]. split; auto. split; auto. split; [rewrite app_nil_r; auto|].
    intros v. split; [intros []|intros (_ & _ & a & [])].
  - cbn [ofold]. destruct (union_step_spec s v st B) as (s1 & H1 & B1 & L1 & D1 & [e1 A1] & F1 & N1 & Act1).
    { eapply Hlen; left; eauto. }
    rewrite H1. cbn [obind].
    destruct (IH s1 B1) as (s2 & n2 & H2 & B2 & L2 & D2 & [e2 A2] & F2 & N2 & Act2 & I2).
    { intros u st' Hu. rewrite D1. eapply Hlen; right; eauto. }
    eexists s2, (_ ++ n2). split; [exact H2|]. split; auto. split; [congruence|]. split; [congruence|].
    split; [exists (e1 ++ e2); rewrite A2, A1, app_assoc; auto|]. split; auto. split; auto.
    split; [rewrite Act2, Act1, <- app_assoc; reflexivity|].
    intros u. rewrite in_app_iff, I2. unfold active. rewrite Act1, in_app_iff, L1.
    set (n1 := if lim s v then _ else _).
    assert (Hn1 : In u n1 <-> u = v /\ ~ In u (actives s) /\ lim s u = true /\ exists a, st = Some a).
    { unfold n1. destruct (lim s v) eqn:El; [|split; [intros []|intros (-> & _ & ? & _); congruence]].
      destruct st as [x|]; [|split; [intros []|intros (_ & _ & _ & a & Ha); discriminate]].
      destruct in_dec as [Hi|Hi].
      - split; [intros []|intros (-> & Hni & _); contradiction].
      - cbn. split; [intros [<-|[]]; eauto 10|intros (-> & _); auto]. }
    rewrite Hn1. split.
    + intros [(-> & K1 & K2 & a & ->)|(K1 & K2 & a & K3)].
      * split; auto. split; auto. exists a. left; auto.
      * split; [tauto|]. split; auto. exists a. right; auto.
    + intros (K1 & K2 & a & [K3|K3]).
      * injection K3 as <- ->. left. eauto 10.
      * destruct (list_eq_dec Nat.eq_dec u v) as [->|Hne].
        -- destruct st as [x|]; [left; eauto 10|]. right.
           split; [|eauto]. intros [K|(_ & _ & _ & b & Hb)]; [contradiction|discriminate].
        -- right. split; [|eauto]. intros [K|(K & _)]; contradiction.
Qed.

Lemma Union_spec s rhs : base s -> base rhs -> dim rhs = dim s ->
  exists s' new, ms_Union s rhs = Ok (s', length new) /\ base s' /\ lim s' = lim s /\ dim s' = dim s /\
    (exists ex, all s' = all s ++ ex) /\ (full s -> full s') /\ (nbrs s -> nbrs s') /\
    actives s' = actives s ++ new /\ NoDup new /\
    (forall v, In v new <-> active rhs v /\ ~ active s v /\ lim s v = true).
Proof.
  intros B R Hd. unfold ms_Union.
  destruct (union_loop (combine (all rhs) (g2a rhs)) s B) as (s' & new & H & B' & L & D & A & F & N & Act & I).
  { intros v st Hv. apply in_combine_l in Hv. rewrite <- Hd. apply (b_len _ R); auto. }
  rewrite H. cbn [obind]. exists s', new.
  assert (Hsz : ms_Size s' - ms_Size s = length new).
  { rewrite <- !actives_length, Act, app_length. lia. }
  rewrite Hsz. split; [reflexivity|]. split; auto. split; auto. split; auto. split; auto. split; auto.
  split; auto. split; auto. split.
  { assert (ND := NoDup_actives s' B'). rewrite Act in ND. eapply NoDup_app_r; eauto. }
  intros v. rewrite I. split.
  - intros (K1 & K2 & a & K3). split; [|auto]. apply In_nth_error in K3. destruct K3 as [g Hg].
    assert (Hg' : nth_error (all rhs) g = Some v /\ nth_error (g2a rhs) g = Some (Some a)).
    { clear - Hg. revert Hg. generalize (all rhs), (g2a rhs). intros l. revert g.
      induction l as [|x l IH]; intros [|g] [|y k] H; cbn in *; try discriminate; auto.
      injection H as -> ->. auto. }
    apply (active_g2a rhs g v R (proj1 Hg')). exists a. apply Hg'.
  - intros (K1 & K2 & K3). split; auto. split; auto.
    assert (Hi := active_in_all _ _ R K1). apply In_nth_error in Hi. destruct Hi as [g Hg].
    apply (active_g2a rhs g v R Hg) in K1. destruct K1 as [a Ha]. exists a.
    apply nth_error_In with g. clear - Hg Ha. revert Hg Ha. generalize (all rhs), (g2a rhs). intros l. revert g.
    induction l as [|x l IH]; intros [|g] [|y k] H H'; cbn in *; try discriminate; auto. congruence.
Qed.
