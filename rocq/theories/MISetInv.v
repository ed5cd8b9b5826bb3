(** Invariants of the MultiIndexSet model and their preservation. *)
From Coq Require Import Sorted.
From Verif Require Import Base SpecMulti MISetModel MultiIndexProofs LimiterProofs.

Definition edge (E : list (list nat)) (g h : nat) : Prop :=
  exists l, nth_error E g = Some l /\ In h l.

Definition ssorted (l : list nat) : Prop := StronglySorted lt l.

Definition actives (s : mset) : list vec := map (fun g => nth g (all s) []) (a2g s).

Record base (s : mset) : Prop := {
  b_g2a : length (g2a s) = length (all s);
  b_out : length (outE s) = length (all s);
  b_in : length (inE s) = length (all s);
  b_find : forall v g, mfind (m2g s) v = Some g <-> nth_error (all s) g = Some v;
  b_len : forall v, In v (all s) -> length v = dim s;
  b_act : forall a g, nth_error (a2g s) a = Some g <-> nth_error (g2a s) g = Some (Some a);
  b_sound : forall g h, edge (outE s) g h ->
    exists v w, nth_error (all s) g = Some v /\ nth_error (all s) h = Some w /\ fwd_rel v w;
  b_sym : forall g h, edge (outE s) g h <-> edge (inE s) h g;
  b_sorto : Forall ssorted (outE s);
  b_sorti : Forall ssorted (inE s);
  b_mlen : length (maxo s) = dim s;
  b_maxo : forall i, i < dim s -> nth i (maxo s) 0 = vmax (map (fun v : vec => nth i v 0) (actives s))
}.

(** Under a limiter that never changed: members accepted, edges complete. *)
Record full (s : mset) : Prop := {
  f_base : base s;
  f_lim : forall v, In v (all s) -> lim s v = true;
  f_edges : forall g h v w, nth_error (all s) g = Some v -> nth_error (all s) h = Some w ->
    fwd_rel v w -> edge (outE s) g h
}.

(** ** Lists *)

Lemma nth_error_app_l {A} (l k : list A) i x : nth_error l i = Some x -> nth_error (l ++ k) i = Some x.
Proof.
  intros H. rewrite nth_error_app1; auto. apply nth_error_Some. congruence.
Qed.

Lemma nth_error_snoc {A} (l : list A) a i x :
  nth_error (l ++ [a]) i = Some x <-> nth_error l i = Some x \/ (i = length l /\ x = a).
Proof.
  destruct (Nat.lt_ge_cases i (length l)) as [H|H].
  - rewrite nth_error_app1 by auto. split; auto. intros [?|[? ?]]; [auto|lia].
  - rewrite nth_error_app2 by auto. assert (N : nth_error l i = None) by (apply nth_error_None; lia).
    rewrite N. destruct (i - length l) as [|k] eqn:E; cbn.
    + split; [intros [= <-]; right; split; [lia|auto]|intros [?|[_ ->]]; [congruence|auto]].
    + destruct k; cbn; (split; [congruence|intros [?|[? _]]; [congruence|lia]]).
Qed.

Lemma nth_error_app_inv {A} (l k : list A) i x :
  nth_error (l ++ k) i = Some x -> nth_error l i = Some x \/ (length l <= i /\ In x k).
Proof.
  destruct (Nat.lt_ge_cases i (length l)) as [H|H].
  - rewrite nth_error_app1 by auto. auto.
  - rewrite nth_error_app2 by auto. intros E. right. split; auto. eapply nth_error_In; eauto.
Qed.

Lemma nth_error_upd {A} (l : list A) i x j :
  nth_error (upd l i x) j =
  if (j =? i) && (i <? length l) then Some x else nth_error l j.
Proof.
  destruct (Nat.eqb_spec j i) as [->|Hn]; cbn.
  - destruct (Nat.ltb_spec i (length l)).
    + apply nth_error_upd_eq; auto.
    + rewrite upd_oob by lia. auto.
  - apply nth_error_upd_neq; auto.
Qed.

Lemma vec_eqb_iff a b : vec_eqb a b = true <-> a = b.
Proof. unfold vec_eqb. destruct list_eq_dec; split; auto; discriminate. Qed.

Lemma sins_In x y l : In y (sins x l) <-> y = x \/ In y l.
Proof.
  induction l as [|z t IH]; cbn.
  - split; intros [H|H]; subst; auto; destruct H.
  - destruct (Nat.ltb_spec x z); cbn.
    + intuition.
    + destruct (Nat.eqb_spec x z); cbn; [subst; intuition|]. rewrite IH. intuition.
Qed.

Lemma sins_sorted x l : ssorted l -> ssorted (sins x l).
Proof.
  induction 1 as [|z t Hs IH Hf]; cbn.
  - repeat constructor.
  - destruct (Nat.ltb_spec x z).
    + repeat constructor; auto. eapply Forall_impl; [|exact Hf]. intros; lia.
    + destruct (Nat.eqb_spec x z); [constructor; auto|]. constructor; auto.
      apply Forall_forall. intros y Hy. apply sins_In in Hy. destruct Hy as [->|Hy]; [lia|].
      rewrite Forall_forall in Hf. auto.
Qed.

Lemma sdel_In x y l : In y (sdel x l) <-> In y l /\ y <> x.
Proof.
  unfold sdel. rewrite filter_In. destruct (Nat.eqb_spec y x); cbn; intuition congruence.
Qed.

Lemma sdel_sorted x l : ssorted l -> ssorted (sdel x l).
Proof.
  induction 1 as [|z t Hs IH Hf]; cbn; [constructor|].
  destruct (Nat.eqb_spec z x); cbn; auto. constructor; auto.
  apply Forall_forall. intros y Hy. apply sdel_In in Hy. rewrite Forall_forall in Hf. apply Hf, Hy.
Qed.

Lemma ssorted_NoDup l : ssorted l -> NoDup l.
Proof.
  induction 1 as [|z t Hs IH Hf]; constructor; auto. intros H. rewrite Forall_forall in Hf.
  specialize (Hf _ H). lia.
Qed.

Lemma Forall_upd {A} (P : A -> Prop) l i x : Forall P l -> P x -> Forall P (upd l i x).
Proof.
  intros H Hx. revert i. induction H; intros [|i]; cbn; constructor; auto.
Qed.

Lemma Forall_nth_error {A} (P : A -> Prop) l i x : Forall P l -> nth_error l i = Some x -> P x.
Proof. intros H E. rewrite Forall_forall in H. apply H. eapply nth_error_In; eauto. Qed.

Lemma edge_upd_sins E g h x y : g < length E ->
  edge (upd E g (sins h (nth g E []))) x y <-> edge E x y \/ (x = g /\ y = h).
Proof.
  intros Hg. unfold edge. rewrite nth_error_upd.
  destruct (Nat.ltb_spec g (length E)); [|lia].
  destruct (Nat.eqb_spec x g) as [->|Hn]; cbn.
  - assert (N : nth_error E g = Some (nth g E [])) by (apply nth_error_nth'; lia).
    split.
    + intros (l & [= <-] & Hi). apply sins_In in Hi. destruct Hi as [->|Hi]; auto.
      left. exists (nth g E []). auto.
    + intros [(l & El & Hi)|[_ ->]].
      * eexists. split; [reflexivity|]. apply sins_In. right. congruence.
      * eexists. split; [reflexivity|]. apply sins_In. auto.
  - split; [auto|]. intros [?|[? ?]]; [auto|congruence].
Qed.

Lemma edge_snoc E x y : edge (E ++ [[]]) x y <-> edge E x y.
Proof.
  unfold edge. split; intros (l & El & Hi).
  - apply nth_error_snoc in El. destruct El as [El|[_ ->]]; [eauto|destruct Hi].
  - exists l. split; auto. apply nth_error_app_l; auto.
Qed.

(** ** Neighbour lists *)

Lemma vforward_In v w : In w (vforward v) <-> fwd_rel v w.
Proof.
  unfold vforward. rewrite in_map_iff, fwd_rel_vset. split.
  - intros (i & <- & Hi). apply in_seq in Hi. exists i. split; [lia|auto].
  - intros (i & Hi & ->). exists i. split; auto. apply in_seq. lia.
Qed.

Lemma vbackward_In v w : In w (vbackward v) <-> fwd_rel w v.
Proof.
  unfold vbackward. rewrite in_map_iff, bwd_vset. split.
  - intros (i & <- & Hi). apply filter_In in Hi. destruct Hi as [Hi Hn]. apply in_seq in Hi.
    exists i. split; [lia|]. split; auto. intros Hz. rewrite Hz in Hn. discriminate.
  - intros (i & Hi & Hn & ->). exists i. split; auto. apply filter_In. split; [apply in_seq; lia|].
    destruct (Nat.eqb_spec (nth i v 0) 0); auto.
Qed.

Lemma fwd_rel_length v w : fwd_rel v w -> length w = length v.
Proof. intros (i & H & _). exact H. Qed.

Lemma fwd_rel_irrefl v : ~ fwd_rel v v.
Proof.
  intros (i & _ & _ & H). specialize (H i). rewrite Nat.eqb_refl in H. lia.
Qed.

Lemma vbackward_length v : length (vbackward v) = vnnz v.
Proof.
  unfold vbackward, vnnz. rewrite map_length.
  assert (H : forall k, length (filter (fun i => negb (nth (i - k) v 0 =? 0)) (seq k (length v))) =
              length (filter (fun x => negb (x =? 0)) v)).
  { induction v as [|a v IH]; intros k; [reflexivity|].
    assert (R : length (filter (fun i => negb (nth (i - k) (a :: v) 0 =? 0)) (seq (S k) (length v))) =
                length (filter (fun x => negb (x =? 0)) v)).
    { rewrite <- (IH (S k)). f_equal. apply filter_ext_in. intros i Hi. apply in_seq in Hi.
      replace (i - k) with (S (i - S k)) by lia. reflexivity. }
    change (seq k (length (a :: v))) with (k :: seq (S k) (length v)).
    remember (fun i => negb (nth (i - k) (a :: v) 0 =? 0)) as f eqn:Ef.
    cbn [filter]. replace (f k) with (negb (a =? 0)) by (subst f; rewrite Nat.sub_diag; reflexivity).
    destruct (negb (a =? 0)); cbn [length]; rewrite R; reflexivity. }
  rewrite <- (H 0). f_equal. apply filter_ext_in. intros i Hi. rewrite Nat.sub_0_r. reflexivity.
Qed.

Lemma vset_inj_idx v i j : i < length v -> nth i v 0 <> 0 ->
  vset v i (nth i v 0 - 1) = vset v j (nth j v 0 - 1) -> i = j.
Proof.
  intros Hi Hn H. apply (f_equal (fun l => nth i l 0)) in H.
  rewrite !nth_vset in H by auto. rewrite Nat.eqb_refl in H.
  destruct (Nat.eqb_spec i j); auto. lia.
Qed.

Lemma vbackward_NoDup v : NoDup (vbackward v).
Proof.
  unfold vbackward.
  assert (Hnd : NoDup (filter (fun i => negb (nth i v 0 =? 0)) (seq 0 (length v)))).
  { apply NoDup_filter, seq_NoDup. }
  assert (Hin : forall i, In i (filter (fun i => negb (nth i v 0 =? 0)) (seq 0 (length v))) ->
            i < length v /\ nth i v 0 <> 0).
  { intros i Hi. apply filter_In in Hi. destruct Hi as [Hi Hn]. apply in_seq in Hi.
    split; [lia|]. intros Hz. rewrite Hz in Hn. discriminate. }
  induction Hnd as [|i l Hni Hnd IH]; cbn; constructor.
  - intros H. apply in_map_iff in H. destruct H as (j & Hj & Hjl).
    destruct (Hin i) as [H1 H2]; [left; auto|]. apply eq_sym in Hj.
    apply vset_inj_idx in Hj; auto. subst. auto.
  - apply IH. intros j Hj. apply Hin. right; auto.
Qed.

Lemma vforward_length v : length (vforward v) = length v.
Proof. unfold vforward. rewrite map_length, seq_length. reflexivity. Qed.

(** ** Adding an edge *)

Definition add_edge (s : mset) (g h : nat) : mset :=
  set_out_in s (upd (outE s) g (sins h (nth g (outE s) [])))
               (upd (inE s) h (sins g (nth h (inE s) []))).

Definition frame (s s' : mset) : Prop :=
  lim s' = lim s /\ dim s' = dim s /\ all s' = all s /\ m2g s' = m2g s /\ a2g s' = a2g s /\
  g2a s' = g2a s /\ maxo s' = maxo s.

Lemma frame_refl s : frame s s.
Proof. repeat split. Qed.

Lemma frame_trans s1 s2 s3 : frame s1 s2 -> frame s2 s3 -> frame s1 s3.
Proof. unfold frame. intuition congruence. Qed.

Lemma actives_frame s s' : frame s s' -> actives s' = actives s.
Proof. intros (_ & _ & Ha & _ & Hb & _). unfold actives. rewrite Ha, Hb. reflexivity. Qed.

Lemma nth_error_lt {A} (l : list A) i x : nth_error l i = Some x -> i < length l.
Proof. intros H. apply nth_error_Some. congruence. Qed.

Lemma add_edge_base s g h v w : base s ->
  nth_error (all s) g = Some v -> nth_error (all s) h = Some w -> fwd_rel v w ->
  base (add_edge s g h) /\ frame s (add_edge s g h) /\
  (forall x y, edge (outE (add_edge s g h)) x y <-> edge (outE s) x y \/ (x = g /\ y = h)).
Proof.
  intros B Hg Hh Hf.
  assert (Lg : g < length (outE s)) by (rewrite (b_out _ B); eapply nth_error_lt; eauto).
  assert (Lh : h < length (inE s)) by (rewrite (b_in _ B); eapply nth_error_lt; eauto).
  assert (Ho : forall x y, edge (outE (add_edge s g h)) x y <-> edge (outE s) x y \/ (x = g /\ y = h)).
  { intros. apply edge_upd_sins; auto. }
  assert (Hi : forall x y, edge (inE (add_edge s g h)) x y <-> edge (inE s) x y \/ (x = h /\ y = g)).
  { intros. apply edge_upd_sins; auto. }
  split; [|split; [repeat split|exact Ho]].
  destruct B. split; cbn [add_edge set_out_in lim dim all m2g a2g g2a outE inE maxo];
    rewrite ?upd_length; auto.
  - intros x y Hxy. apply Ho in Hxy. destruct Hxy as [Hxy|[-> ->]]; eauto.
  - intros x y. fold (add_edge s g h).
    change (edge (outE (add_edge s g h)) x y <-> edge (inE (add_edge s g h)) y x).
    rewrite Ho, Hi, b_sym0. tauto.
  - apply Forall_upd; auto. apply sins_sorted.
    apply (Forall_nth_error _ _ _ _ b_sorto0 (nth_error_nth' _ [] Lg)).
  - apply Forall_upd; auto. apply sins_sorted.
    apply (Forall_nth_error _ _ _ _ b_sorti0 (nth_error_nth' _ [] Lh)).
Qed.

Lemma at_ok {A} (l : list A) i x : nth_error l i = Some x -> at_ l i = Ok x.
Proof. intros H. unfold at_. rewrite H. reflexivity. Qed.

Lemma at_nth {A} (l : list A) i d : i < length l -> at_ l i = Ok (nth i l d).
Proof. intros H. apply at_ok, nth_error_nth'; auto. Qed.

Lemma raw_nth {A} (l : list A) i d : i < length l -> raw_get l i = Ok (nth i l d).
Proof. intros H. unfold raw_get. rewrite (nth_error_nth' _ d) by auto. reflexivity. Qed.

Lemma raw_ok {A} (l : list A) i x : nth_error l i = Some x -> raw_get l i = Ok x.
Proof. intros H. unfold raw_get. rewrite H. reflexivity. Qed.

Lemma fwd_step_found miss s g h v nb : base s -> nth_error (all s) g = Some v ->
  mfind (m2g s) nb = Some h -> lim s nb = true ->
  fwd_step miss g s nb = Ok (add_edge s g h).
Proof.
  intros B Hg Hf Hl. unfold fwd_step. rewrite Hl, Hf.
  apply (b_find _ B) in Hf.
  rewrite (at_nth _ _ []) by (rewrite (b_in _ B); eapply nth_error_lt; eauto). cbn.
  rewrite (at_nth _ _ []) by (rewrite (b_out _ B); eapply nth_error_lt; eauto). reflexivity.
Qed.

Lemma bwd_step_found miss s g h v nb : base s -> nth_error (all s) g = Some v ->
  mfind (m2g s) nb = Some h -> lim s nb = true ->
  bwd_step miss g s nb = Ok (add_edge s h g).
Proof.
  intros B Hg Hf Hl. unfold bwd_step. rewrite Hl, Hf.
  apply (b_find _ B) in Hf.
  rewrite (at_nth _ _ []) by (rewrite (b_out _ B); eapply nth_error_lt; eauto). cbn.
  rewrite (at_nth _ _ []) by (rewrite (b_in _ B); eapply nth_error_lt; eauto). reflexivity.
Qed.

Lemma mfind_none s v : base s -> mfind (m2g s) v = None <-> ~ In v (all s).
Proof.
  intros B. split.
  - intros H Hi. apply In_nth_error in Hi. destruct Hi as [g Hg]. apply (b_find _ B) in Hg. congruence.
  - intros H. destruct (mfind (m2g s) v) as [g|] eqn:E; auto. apply (b_find _ B) in E.
    exfalso. apply H. eapply nth_error_In; eauto.
Qed.

(** The two linking loops of AddMulti. *)
Lemma link_fwd_loop g v nbs : forall s, base s -> nth_error (all s) g = Some v ->
  (forall w, In w nbs -> fwd_rel v w) ->
  exists s', ofold (fwd_step skip g) nbs s = Ok s' /\ base s' /\ frame s s' /\
    (forall x y, edge (outE s') x y <-> edge (outE s) x y \/
       (x = g /\ exists w, In w nbs /\ lim s w = true /\ nth_error (all s) y = Some w)).
Proof.
  induction nbs as [|nb nbs IH]; intros s B Hg Hn.
  - exists s. split; [reflexivity|]. split; [auto|]. split; [apply frame_refl|]. intros x y. split; auto.
    intros [?|(_ & w & [] & _)]; auto.
  - cbn [ofold]. destruct (lim s nb) eqn:El.
    + destruct (mfind (m2g s) nb) as [h|] eqn:Ef.
      * rewrite (fwd_step_found _ _ _ _ v _ B Hg Ef El). cbn [obind].
        assert (Hh := proj1 (b_find _ B nb h) Ef).
        destruct (add_edge_base s g h v nb B Hg Hh) as (B1 & F1 & E1); [apply Hn; left; auto|].
        destruct (IH (add_edge s g h)) as (s' & Hs' & B' & F' & E'); auto using in_cons.
        exists s'. split; [exact Hs'|]. split; [exact B'|]. split; [exact (frame_trans _ _ _ F1 F')|].
        intros x y. rewrite E', E1. change (lim (add_edge s g h)) with (lim s).
        change (all (add_edge s g h)) with (all s). split.
        -- intros [[H|[-> ->]]|(-> & w & Hw & H1 & H2)]; auto.
           ++ right. split; auto. exists nb. split; [left; auto|auto].
           ++ right. split; auto. exists w. split; [right; auto|auto].
        -- intros [H|(-> & w & [<-|Hw] & H1 & H2)]; auto.
           ++ left. right. split; auto. apply (b_find _ B) in H2. congruence.
           ++ right. split; auto. exists w. auto.
      * unfold fwd_step at 1. rewrite El, Ef. unfold skip at 1. cbn [obind].
        destruct (IH s) as (s' & Hs' & B' & F' & E'); auto using in_cons.
        exists s'. split; [exact Hs'|]. split; [exact B'|]. split; [exact F'|].
        intros x y. rewrite E'. split.
        -- intros [H|(-> & w & Hw & H)]; auto. right. split; auto. exists w. split; [right|]; auto.
        -- intros [H|(-> & w & [<-|Hw] & H1 & H2)]; auto.
           ++ apply (b_find _ B) in H2. congruence.
           ++ right. split; auto. exists w. auto.
    + unfold fwd_step at 1. rewrite El. cbn [obind].
      destruct (IH s) as (s' & Hs' & B' & F' & E'); auto using in_cons.
      exists s'. split; [exact Hs'|]. split; [exact B'|]. split; [exact F'|].
      intros x y. rewrite E'. split.
      * intros [H|(-> & w & Hw & H)]; auto. right. split; auto. exists w. split; [right|]; auto.
      * intros [H|(-> & w & [<-|Hw] & H1 & H2)]; auto; [congruence|].
        right. split; auto. exists w. auto.
Qed.

Lemma link_bwd_loop g v nbs : forall s, base s -> nth_error (all s) g = Some v ->
  (forall w, In w nbs -> fwd_rel w v) ->
  exists s', ofold (bwd_step skip g) nbs s = Ok s' /\ base s' /\ frame s s' /\
    (forall x y, edge (outE s') x y <-> edge (outE s) x y \/
       (y = g /\ exists w, In w nbs /\ lim s w = true /\ nth_error (all s) x = Some w)).
Proof.
  induction nbs as [|nb nbs IH]; intros s B Hg Hn.
  - exists s. split; [reflexivity|]. split; [auto|]. split; [apply frame_refl|]. intros x y. split; auto.
    intros [?|(_ & w & [] & _)]; auto.
  - cbn [ofold]. destruct (lim s nb) eqn:El.
    + destruct (mfind (m2g s) nb) as [h|] eqn:Ef.
      * rewrite (bwd_step_found _ _ _ _ v _ B Hg Ef El). cbn [obind].
        assert (Hh := proj1 (b_find _ B nb h) Ef).
        destruct (add_edge_base s h g nb v B Hh Hg) as (B1 & F1 & E1); [apply Hn; left; auto|].
        destruct (IH (add_edge s h g)) as (s' & Hs' & B' & F' & E'); auto using in_cons.
        exists s'. split; [exact Hs'|]. split; [exact B'|]. split; [exact (frame_trans _ _ _ F1 F')|].
        intros x y. rewrite E', E1. change (lim (add_edge s h g)) with (lim s).
        change (all (add_edge s h g)) with (all s). split.
        -- intros [[H|[-> ->]]|(-> & w & Hw & H1 & H2)]; auto.
           ++ right. split; auto. exists nb. split; [left; auto|auto].
           ++ right. split; auto. exists w. split; [right; auto|auto].
        -- intros [H|(-> & w & [<-|Hw] & H1 & H2)]; auto.
           ++ left. right. split; auto. apply (b_find _ B) in H2. congruence.
           ++ right. split; auto. exists w. auto.
      * unfold bwd_step at 1. rewrite El, Ef. unfold skip at 1. cbn [obind].
        destruct (IH s) as (s' & Hs' & B' & F' & E'); auto using in_cons.
        exists s'. split; [exact Hs'|]. split; [exact B'|]. split; [exact F'|].
        intros x y. rewrite E'. split.
        -- intros [H|(-> & w & Hw & H)]; auto. right. split; auto. exists w. split; [right|]; auto.
        -- intros [H|(-> & w & [<-|Hw] & H1 & H2)]; auto.
           ++ apply (b_find _ B) in H2. congruence.
           ++ right. split; auto. exists w. auto.
    + unfold bwd_step at 1. rewrite El. cbn [obind].
      destruct (IH s) as (s' & Hs' & B' & F' & E'); auto using in_cons.
      exists s'. split; [exact Hs'|]. split; [exact B'|]. split; [exact F'|].
      intros x y. rewrite E'. split.
      * intros [H|(-> & w & Hw & H)]; auto. right. split; auto. exists w. split; [right|]; auto.
      * intros [H|(-> & w & [<-|Hw] & H1 & H2)]; auto; [congruence|].
        right. split; auto. exists w. auto.
Qed.

(** ** Growth of a set by inactive members *)

Record ext (s s' : mset) (ex : list vec) : Prop := {
  e_lim : lim s' = lim s;
  e_dim : dim s' = dim s;
  e_all : all s' = all s ++ ex;
  e_a2g : a2g s' = a2g s;
  e_g2a : g2a s' = g2a s ++ repeat None (length ex);
  e_maxo : maxo s' = maxo s;
  e_edge : forall x y, edge (outE s) x y -> edge (outE s') x y;
  e_tgt : forall x y, edge (outE s') x y ->
    edge (outE s) x y \/ (exists w, nth_error (all s') y = Some w /\ lim s w = true) \/
    (exists a, nth_error (g2a s) y = Some (Some a));
  e_new : forall x y u w, nth_error (all s) x = Some u -> nth_error (all s') y = Some w ->
    length (all s) <= y -> fwd_rel u w -> lim s u = true -> edge (outE s') x y
}.

Lemma ext_refl s : ext s s [].
Proof.
  split; auto; cbn; rewrite ?app_nil_r; auto.
  intros x y u w _ H1 H2. apply nth_error_lt in H1. lia.
Qed.

Lemma ext_frame s s' : frame s s' -> (forall x y, edge (outE s) x y -> edge (outE s') x y) ->
  (forall x y, edge (outE s') x y ->
    edge (outE s) x y \/ (exists w, nth_error (all s') y = Some w /\ lim s w = true) \/
    (exists a, nth_error (g2a s) y = Some (Some a))) -> ext s s' [].
Proof.
  intros (H1 & H2 & H3 & H4 & H5 & H6 & H7) H H'. split; cbn; rewrite ?app_nil_r; auto.
  intros x y u w _ K1 K2. apply nth_error_lt in K1. rewrite H3 in K1. lia.
Qed.

Lemma ext_trans s1 s2 s3 x y : ext s1 s2 x -> ext s2 s3 y -> ext s1 s3 (x ++ y).
Proof.
  intros [] []. split; try congruence.
  - rewrite e_all1, e_all0, app_assoc. reflexivity.
  - rewrite e_g2a1, e_g2a0, app_length, repeat_app, app_assoc. reflexivity.
  - auto.
  - intros a b H. destruct (e_tgt1 a b H) as [H1|[(w & H1 & H2)|(c & Hc)]].
    + destruct (e_tgt0 a b H1) as [H2|[(w & H2 & H3)|H2]]; auto. right. left. exists w. split; auto.
      rewrite e_all1. apply nth_error_app_l; auto.
    + right. left. exists w. split; auto. congruence.
    + right. right. exists c. rewrite e_g2a0 in Hc. apply nth_error_app_inv in Hc.
      destruct Hc as [Hc|[_ Hc]]; auto. apply repeat_spec in Hc. discriminate.
  - intros a b u w Ha Hb Hle Huw Hu. destruct (Nat.lt_ge_cases b (length (all s2))) as [Hlt|Hge].
    + apply e_edge1. apply (e_new0 a b u w); auto. rewrite e_all1, nth_error_app1 in Hb; auto.
    + apply (e_new1 a b u w); auto; [rewrite e_all0; apply nth_error_app_l; auto|congruence].
Qed.

Lemma mfind_push s v w g : base s -> ~ In v (all s) ->
  mfind ((v, length (all s)) :: m2g s) w = Some g <-> nth_error (all s ++ [v]) g = Some w.
Proof.
  intros B Hn. cbn [mfind]. rewrite nth_error_snoc. destruct (vec_eqb v w) eqn:E.
  - apply vec_eqb_iff in E. subst w. split.
    + intros [= <-]. auto.
    + intros [H|[-> _]]; auto. exfalso. apply Hn. eapply nth_error_In; eauto.
  - rewrite (b_find _ B). split; auto. intros [H|[_ ->]]; auto.
    rewrite (proj2 (vec_eqb_iff v v) eq_refl) in E. discriminate.
Qed.

Lemma actives_app s ex : (forall g, In g (a2g s) -> g < length (all s)) ->
  map (fun g => nth g (all s ++ ex) []) (a2g s) = actives s.
Proof.
  intros H. unfold actives. apply map_ext_in. intros g Hg. rewrite app_nth1; auto.
Qed.

Lemma a2g_lt s g : base s -> In g (a2g s) -> g < length (all s).
Proof.
  intros B H. apply In_nth_error in H. destruct H as [a Ha]. apply (b_act _ B) in Ha.
  rewrite <- (b_g2a _ B). eapply nth_error_lt; eauto.
Qed.

Lemma push_base s v : base s -> ~ In v (all s) -> length v = dim s ->
  base (push_multi s v).
Proof.
  intros B Hn Hl. split; cbn [push_multi lim dim all m2g a2g g2a outE inE maxo];
    rewrite ?app_length; cbn [length].
  - rewrite (b_g2a _ B). reflexivity.
  - rewrite (b_out _ B). reflexivity.
  - rewrite (b_in _ B). reflexivity.
  - intros w g. apply mfind_push; auto.
  - intros w Hw. apply in_app_iff in Hw. destruct Hw as [Hw|[<-|[]]]; auto. apply (b_len _ B); auto.
  - intros a g. rewrite (b_act _ B), nth_error_snoc. split; auto. intros [H|[_ H]]; [auto|discriminate].
  - intros g h H. apply (proj1 (edge_snoc _ _ _)) in H. apply (b_sound _ B) in H.
    destruct H as (x & y & H1 & H2 & H3). exists x, y.
    split; [apply nth_error_app_l; auto|]. split; [apply nth_error_app_l; auto|auto].
  - intros g h. rewrite !edge_snoc. apply (b_sym _ B).
  - apply Forall_app. split; [apply (b_sorto _ B)|]. repeat constructor.
  - apply Forall_app. split; [apply (b_sorti _ B)|]. repeat constructor.
  - apply (b_mlen _ B).
  - intros i Hi. rewrite (b_maxo _ B) by auto.
    unfold actives at 2. cbn [push_multi all a2g]. rewrite actives_app; auto.
    intros g Hg. eapply a2g_lt; eauto.
Qed.

Lemma nth_error_last {A} (l : list A) x : nth_error (l ++ [x]) (length l) = Some x.
Proof. apply nth_error_snoc. auto. Qed.

Lemma add_multi_spec s v : base s -> ~ In v (all s) -> length v = dim s -> lim s v = true ->
  exists s', add_multi s v = Ok (s', length (all s)) /\ base s' /\ ext s s' [v] /\
    (full s -> full s').
Proof.
  intros B Hn Hl Hlim. unfold add_multi. cbv zeta.
  assert (B0 := push_base s v B Hn Hl). set (s0 := push_multi s v) in *.
  assert (Hg : nth_error (all s0) (length (all s)) = Some v) by apply nth_error_last.
  unfold add_fwd. rewrite (at_ok _ _ _ Hg). cbn [obind].
  destruct (link_fwd_loop (length (all s)) v (vforward v) s0 B0 Hg) as (s1 & H1 & B1 & F1 & E1).
  { intros w. apply vforward_In. }
  rewrite H1. cbn [obind]. unfold add_bwd.
  assert (Hg1 : nth_error (all s1) (length (all s)) = Some v).
  { destruct F1 as (_ & _ & -> & _). exact Hg. }
  rewrite (at_ok _ _ _ Hg1). cbn [obind].
  destruct (link_bwd_loop (length (all s)) v (vbackward v) s1 B1 Hg1) as (s2 & H2 & B2 & F2 & E2).
  { intros w. apply vbackward_In. }
  rewrite H2. cbn [obind]. exists s2. split; [reflexivity|]. split; [exact B2|].
  assert (F := frame_trans _ _ _ F1 F2). split.
  - destruct F as (P1 & P2 & P3 & P4 & P5 & P6 & P7). split; auto.
    { intros x y Hxy. apply E2. left. apply E1. left. apply edge_snoc. exact Hxy. }
    intros x y Hxy. rewrite P3. apply E2 in Hxy. destruct Hxy as [Hxy|(-> & w & _ & Hw & _)].
    + apply E1 in Hxy. destruct Hxy as [Hxy|(-> & w & _ & Hw & Hw')].
      * left. apply edge_snoc. exact Hxy.
      * right. left. exists w. split; auto.
    + right. left. exists v. split; auto.
    + intros x y u w Hx Hy Hle Huw Hu. rewrite P3 in Hy. apply nth_error_snoc in Hy.
      destruct Hy as [Hy|[-> ->]]; [apply nth_error_lt in Hy; lia|]. apply E2. right. split; auto.
      destruct F1 as (Q1 & _ & Q3 & _). rewrite Q1, Q3. exists u. split; [apply vbackward_In; auto|].
      split; auto. apply nth_error_app_l; auto.
  - intros Hfull. destruct F as (P1 & P2 & P3 & P4 & P5 & P6 & P7). split; auto.
    + intros w Hw. rewrite P1. rewrite P3 in Hw. apply in_app_iff in Hw.
      destruct Hw as [Hw|[<-|[]]]; [apply (f_lim _ Hfull); auto|auto].
    + intros x y a b Ha Hb Hab. rewrite P3 in Ha, Hb. change (all s0) with (all s ++ [v]) in Ha, Hb.
      apply nth_error_snoc in Ha, Hb. apply E2.
      destruct F1 as (Q1 & _ & Q3 & _). rewrite Q1, Q3. change (all s0) with (all s ++ [v]).
      change (lim s0) with (lim s).
      destruct Ha as [Ha|[-> ->]], Hb as [Hb|[-> ->]].
      * left. apply E1. left. apply edge_snoc. eapply (f_edges _ Hfull); eauto.
      * right. split; auto. exists a. split; [apply vbackward_In; auto|].
        split; [apply (f_lim _ Hfull); eapply nth_error_In; eauto|]. apply nth_error_app_l; auto.
      * left. apply E1. right. split; auto. exists b. split; [apply vforward_In; auto|].
        split; [apply (f_lim _ Hfull); eapply nth_error_In; eauto|]. apply nth_error_app_l; auto.
      * exfalso. eapply fwd_rel_irrefl; eauto.
Qed.

Lemma add_inactive_spec s v : base s -> length v = dim s ->
  exists s' r ex, add_inactive s v = Ok (s', r) /\ base s' /\ ext s s' ex /\
    (full s -> full s') /\
    match r with
    | Some g => nth_error (all s') g = Some v
    | None => s' = s /\ ~ In v (all s) /\ lim s v = false
    end /\
    (forall w, In w ex -> w = v /\ lim s v = true /\ ~ In v (all s)) /\
    (lim s v = true -> r <> None) /\ (In v (all s) -> r <> None) /\ length ex <= 1.
Proof.
  intros B Hl. unfold add_inactive. destruct (mfind (m2g s) v) as [g|] eqn:E.
  - exists s, (Some g), []. split; [reflexivity|]. split; [auto|]. split; [apply ext_refl|]. split; [auto|].
    split; [apply (b_find _ B); auto|]. split; [intros w []|]. split; [discriminate|].
    split; [discriminate|]. cbn; lia.
  - apply mfind_none in E; auto. destruct (lim s v) eqn:El.
    + destruct (add_multi_spec s v B E Hl El) as (s' & H & B' & X & Hf). rewrite H. cbn [obind fst snd].
      exists s', (Some (length (all s))), [v]. split; [reflexivity|]. split; [auto|]. split; [auto|].
      split; [auto|]. split; [rewrite (e_all _ _ _ X); apply nth_error_last|].
      split; [intros w [<-|[]]; auto|]. split; [discriminate|]. split; [discriminate|]. cbn; lia.
    + exists s, None, []. split; [reflexivity|]. split; [auto|]. split; [apply ext_refl|]. split; [auto|].
      split; [auto|]. split; [intros w []|]. split; [discriminate|]. split; [contradiction|]. cbn; lia.
Qed.

(** The two growing loops of Activate. *)
Lemma grow_fwd_loop g v nbs : forall s, base s -> nth_error (all s) g = Some v ->
  (forall w, In w nbs -> fwd_rel v w) ->
  exists s' ex, ofold (fwd_step add_inactive_ g) nbs s = Ok s' /\ base s' /\ ext s s' ex /\
    (full s -> full s') /\
    (forall w, In w ex -> In w nbs /\ lim s w = true) /\
    (forall w, In w nbs -> lim s w = true -> In w (all s')) /\ length ex <= length nbs /\
    (forall h w, In w nbs -> lim s w = true -> nth_error (all s) h = Some w -> edge (outE s') g h).
Proof.
  induction nbs as [|nb nbs IH]; intros s B Hg Hn.
  - exists s, []. split; [reflexivity|]. split; [auto|]. split; [apply ext_refl|]. split; [auto|].
    split; [intros w []|]. split; [intros w []|]. split; [auto|]. intros h w [].
  - cbn [ofold].
    assert (STEP : exists s1 ex1, fwd_step add_inactive_ g s nb = Ok s1 /\ base s1 /\ ext s s1 ex1 /\
              (full s -> full s1) /\ (forall w, In w ex1 -> w = nb /\ lim s w = true) /\
              (lim s nb = true -> In nb (all s1)) /\ length ex1 <= 1 /\
              (forall h, lim s nb = true -> nth_error (all s) h = Some nb -> edge (outE s1) g h)).
    { destruct (lim s nb) eqn:El.
      - destruct (mfind (m2g s) nb) as [h|] eqn:Ef.
        + assert (Hh := proj1 (b_find _ B nb h) Ef).
          destruct (add_edge_base s g h v nb B Hg Hh) as (B1 & F1 & E1); [apply Hn; left; auto|].
          exists (add_edge s g h), []. split; [eapply fwd_step_found; eauto|]. split; [auto|].
          split.
          { apply ext_frame; auto; [intros x y Hxy; apply E1; auto|]. intros x y Hxy. apply E1 in Hxy.
            destruct Hxy as [Hxy|[-> ->]]; auto. right. left. exists nb. auto. }
          split.
          { intros Hf. split; auto.
            - apply (f_lim _ Hf).
            - intros x y a b Ha Hb Hab. apply E1. left. eapply (f_edges _ Hf); eauto. }
          split; [intros w []|]. split; [intros _; eapply nth_error_In; exact Hh|].
          split; [cbn; lia|]. intros h' _ Hh'. apply E1. right. split; auto.
          apply (b_find _ B) in Hh'. congruence.
        + destruct (add_inactive_spec s nb B) as (s1 & r & ex & H & B1 & X & Hf & Hr & Hex & Hnn & Hin & Hlen).
          { rewrite (fwd_rel_length v nb); [|apply Hn; left; auto]. apply (b_len _ B).
            eapply nth_error_In; eauto. }
          exists s1, ex. unfold fwd_step, add_inactive_. rewrite El, Ef, H. split; [reflexivity|].
          split; [auto|]. split; [auto|]. split; [auto|]. split.
          { intros w Hw. destruct (Hex w Hw) as (-> & H1 & _). auto. }
          split.
          { intros _. destruct r as [g'|]; [eapply nth_error_In; eauto|]. exfalso. apply Hnn; auto. }
          split; [auto|]. intros h _ Hh. apply (b_find _ B) in Hh. congruence.
      - exists s, []. unfold fwd_step. rewrite El. split; [reflexivity|]. split; [auto|].
        split; [apply ext_refl|]. split; [auto|]. split; [intros w []|]. split; [discriminate|].
        split; [cbn; lia|discriminate]. }
    destruct STEP as (s1 & ex1 & H1 & B1 & X1 & Hf1 & Hex1 & Hin1 & Hlen1 & Hed1). rewrite H1. cbn [obind].
    destruct (IH s1) as (s' & ex2 & H2 & B2 & X2 & Hf2 & Hex2 & Hin2 & Hlen2 & Hed2); auto using in_cons.
    { rewrite (e_all _ _ _ X1). apply nth_error_app_l; auto. }
    exists s', (ex1 ++ ex2). split; [exact H2|]. split; [auto|]. split; [eapply ext_trans; eauto|].
    split; [auto|]. split; [|split; [|split]].
    + intros w Hw. apply in_app_iff in Hw. destruct Hw as [Hw|Hw].
      * destruct (Hex1 w Hw) as [-> ?]. split; [left; auto|auto].
      * destruct (Hex2 w Hw) as [? H]. rewrite (e_lim _ _ _ X1) in H. split; [right; auto|auto].
    + intros w [<-|Hw] Hl.
      * rewrite (e_all _ _ _ X2). apply in_app_iff. left. auto.
      * apply Hin2; auto. rewrite (e_lim _ _ _ X1). auto.
    + rewrite app_length. cbn. lia.
    + intros h w [<-|Hw] Hl Hh.
      * apply (e_edge _ _ _ X2). auto.
      * apply (Hed2 h w); auto; [rewrite (e_lim _ _ _ X1); auto|].
        rewrite (e_all _ _ _ X1). apply nth_error_app_l; auto.
Qed.

Lemma grow_bwd_loop g v nbs : forall s, base s -> nth_error (all s) g = Some v ->
  (exists a, nth_error (g2a s) g = Some (Some a)) ->
  (forall w, In w nbs -> fwd_rel w v) ->
  exists s' ex, ofold (bwd_step add_inactive_ g) nbs s = Ok s' /\ base s' /\ ext s s' ex /\
    (full s -> full s') /\
    (forall w, In w ex -> In w nbs /\ lim s w = true) /\
    (forall w, In w nbs -> lim s w = true -> In w (all s')) /\ length ex <= length nbs.
Proof.
  induction nbs as [|nb nbs IH]; intros s B Hg Hact Hn.
  - exists s, []. split; [reflexivity|]. split; [auto|]. split; [apply ext_refl|]. split; [auto|].
    split; [intros w []|]. split; [intros w []|auto].
  - cbn [ofold].
    assert (STEP : exists s1 ex1, bwd_step add_inactive_ g s nb = Ok s1 /\ base s1 /\ ext s s1 ex1 /\
              (full s -> full s1) /\ (forall w, In w ex1 -> w = nb /\ lim s w = true) /\
              (lim s nb = true -> In nb (all s1)) /\ length ex1 <= 1).
    { destruct (lim s nb) eqn:El.
      - destruct (mfind (m2g s) nb) as [h|] eqn:Ef.
        + assert (Hh := proj1 (b_find _ B nb h) Ef).
          destruct (add_edge_base s h g nb v B Hh Hg) as (B1 & F1 & E1); [apply Hn; left; auto|].
          exists (add_edge s h g), []. split; [eapply bwd_step_found; eauto|]. split; [auto|].
          split.
          { apply ext_frame; auto; [intros x y Hxy; apply E1; auto|]. intros x y Hxy. apply E1 in Hxy.
            destruct Hxy as [Hxy|[-> ->]]; auto. }
          split.
          { intros Hf. split; auto.
            - apply (f_lim _ Hf).
            - intros x y a b Ha Hb Hab. apply E1. left. eapply (f_edges _ Hf); eauto. }
          split; [intros w []|]. split; [intros _; eapply nth_error_In; exact Hh|cbn; lia].
        + destruct (add_inactive_spec s nb B) as (s1 & r & ex & H & B1 & X & Hf & Hr & Hex & Hnn & Hin & Hlen).
          { assert (L := fwd_rel_length nb v). rewrite <- L; [|apply Hn; left; auto]. apply (b_len _ B).
            eapply nth_error_In; eauto. }
          exists s1, ex. unfold bwd_step, add_inactive_. rewrite El, Ef, H. split; [reflexivity|].
          split; [auto|]. split; [auto|]. split; [auto|]. split.
          { intros w Hw. destruct (Hex w Hw) as (-> & H1 & _). auto. }
          split; [|auto].
          intros _. destruct r as [g'|]; [eapply nth_error_In; eauto|]. exfalso. apply Hnn; auto.
      - exists s, []. unfold bwd_step. rewrite El. split; [reflexivity|]. split; [auto|].
        split; [apply ext_refl|]. split; [auto|]. split; [intros w []|]. split; [discriminate|cbn; lia]. }
    destruct STEP as (s1 & ex1 & H1 & B1 & X1 & Hf1 & Hex1 & Hin1 & Hlen1). rewrite H1. cbn [obind].
    destruct (IH s1) as (s' & ex2 & H2 & B2 & X2 & Hf2 & Hex2 & Hin2 & Hlen2); auto using in_cons.
    { rewrite (e_all _ _ _ X1). apply nth_error_app_l; auto. }
    { destruct Hact as [c Hc]. exists c. rewrite (e_g2a _ _ _ X1). apply nth_error_app_l; auto. }
    exists s', (ex1 ++ ex2). split; [exact H2|]. split; [auto|]. split; [eapply ext_trans; eauto|].
    split; [auto|]. split; [|split].
    + intros w Hw. apply in_app_iff in Hw. destruct Hw as [Hw|Hw].
      * destruct (Hex1 w Hw) as [-> ?]. split; [left; auto|auto].
      * destruct (Hex2 w Hw) as [? H]. rewrite (e_lim _ _ _ X1) in H. split; [right; auto|auto].
    + intros w [<-|Hw] Hl.
      * rewrite (e_all _ _ _ X2). apply in_app_iff. left. auto.
      * apply Hin2; auto. rewrite (e_lim _ _ _ X1). auto.
    + rewrite app_length. cbn. lia.
Qed.

(** ** maxOrders *)

Lemma upd_maxo_loop v l : forall mo, length v = length mo -> (forall i, In i l -> i < length mo) ->
  NoDup l ->
  exists mo', ofold (fun mo i => do x <- at_ mo i; Ok (upd mo i (Nat.max x (nth i v 0)))) l mo = Ok mo' /\
    length mo' = length mo /\
    forall i, nth i mo' 0 = if in_dec Nat.eq_dec i l then Nat.max (nth i mo 0) (nth i v 0) else nth i mo 0.
Proof.
  induction l as [|j l IH]; intros mo Hl Hr Hnd.
  - exists mo. cbn. auto.
  - inversion Hnd as [|? ? Hj Hnd']; subst. cbn [ofold].
    rewrite (at_nth _ _ 0) by (apply Hr; left; auto). cbn [obind].
    destruct (IH (upd mo j (Nat.max (nth j mo 0) (nth j v 0)))) as (mo' & H & L & N); rewrite ?upd_length; auto.
    { intros i Hi. apply Hr; right; auto. }
    exists mo'. split; [exact H|]. split; [rewrite L, upd_length; auto|]. intros i. rewrite N.
    destruct (Nat.eq_dec j i) as [->|Hne].
    + destruct (in_dec Nat.eq_dec i l); [contradiction|].
      destruct (in_dec Nat.eq_dec i (i :: l)) as [_|C]; [|exfalso; apply C; left; auto].
      rewrite nth_upd_eq; auto. apply Hr; left; auto.
    + rewrite nth_upd_neq by auto.
      destruct (in_dec Nat.eq_dec i l), (in_dec Nat.eq_dec i (j :: l)) as [Hc|Hc]; auto.
      * exfalso. apply Hc. right; auto.
      * destruct Hc; [congruence|contradiction].
Qed.

Lemma upd_maxo_spec mo v : length v = length mo ->
  exists mo', upd_maxo mo v = Ok mo' /\ length mo' = length mo /\
    forall i, nth i mo' 0 = Nat.max (nth i mo 0) (nth i v 0).
Proof.
  intros Hl. unfold upd_maxo.
  destruct (upd_maxo_loop v (filter (fun i => negb (nth i v 0 =? 0)) (seq 0 (length v))) mo)
    as (mo' & H & L & N); auto.
  - intros i Hi. apply filter_In in Hi. destruct Hi as [Hi _]. apply in_seq in Hi. lia.
  - apply NoDup_filter, seq_NoDup.
  - exists mo'. split; [exact H|]. split; [exact L|]. intros i. rewrite N.
    destruct in_dec as [|Hn]; auto.
    destruct (Nat.lt_ge_cases i (length v)) as [Hi|Hi].
    + destruct (Nat.eqb_spec (nth i v 0) 0) as [->|Hz]; [lia|].
      exfalso. apply Hn. apply filter_In. split; [apply in_seq; lia|].
      destruct (Nat.eqb_spec (nth i v 0) 0); auto.
    + rewrite (nth_overflow v) by lia. lia.
Qed.

Lemma vmax_app a b : vmax (a ++ b) = Nat.max (vmax a) (vmax b).
Proof.
  induction a as [|x a IH]; [reflexivity|]. cbn [app]. rewrite !vmax_cons, IH. lia.
Qed.

(** ** Activation *)

Definition active (s : mset) (v : vec) : Prop := In v (actives s).

(** Every accepted neighbour of an active member is stored. *)
Definition nbrs (s : mset) : Prop :=
  forall v w, active s v -> fwd_rel v w \/ fwd_rel w v -> lim s w = true -> In w (all s).

(** Every stored member is active or a neighbour of an active one. *)
Definition linked (s : mset) : Prop :=
  forall w, In w (all s) -> active s w \/ exists v, active s v /\ (fwd_rel v w \/ fwd_rel w v).

Lemma active_iff s v : base s ->
  active s v <-> exists a g, nth_error (a2g s) a = Some g /\ nth_error (all s) g = Some v.
Proof.
  intros B. unfold active, actives. rewrite in_map_iff. split.
  - intros (g & Hv & Hg). assert (L := a2g_lt _ _ B Hg). apply In_nth_error in Hg. destruct Hg as [a Ha].
    exists a, g. split; auto. exact (eq_trans (nth_error_nth' _ [] L) (f_equal Some Hv)).
  - intros (a & g & Ha & Hg). exists g. split; [apply nth_error_nth; auto|].
    eapply nth_error_In; eauto.
Qed.

Lemma active_g2a s g v : base s -> nth_error (all s) g = Some v ->
  active s v <-> exists a, nth_error (g2a s) g = Some (Some a).
Proof.
  intros B Hg. rewrite active_iff by auto. split.
  - intros (a & g' & Ha & Hg'). exists a. apply (b_act _ B).
    apply (b_find _ B) in Hg, Hg'. congruence.
  - intros (a & Ha). exists a, g. split; auto. apply (b_act _ B); auto.
Qed.

Lemma active_in_all s v : base s -> active s v -> In v (all s).
Proof.
  intros B H. apply active_iff in H; auto. destruct H as (a & g & _ & H). eapply nth_error_In; eauto.
Qed.

Lemma g2a_dec s g v : base s -> nth_error (all s) g = Some v ->
  {a | nth_error (g2a s) g = Some (Some a)} + {nth_error (g2a s) g = Some None}.
Proof.
  intros B Hg. destruct (nth_error (g2a s) g) as [[a|]|] eqn:E.
  - left. exists a. auto.
  - right. auto.
  - exfalso. apply nth_error_None in E. rewrite (b_g2a _ B) in E. apply nth_error_lt in Hg. lia.
Qed.

Lemma is_active_spec s g v : base s -> nth_error (all s) g = Some v ->
  exists b, is_active s g = Ok b /\ (b = true <-> active s v).
Proof.
  intros B Hg. unfold is_active. destruct (g2a_dec s g v B Hg) as [[a Ha]|Ha]; rewrite (raw_ok _ _ _ Ha).
  - exists true. split; [reflexivity|]. rewrite (active_g2a _ g v) by eauto. split; eauto.
  - exists false. split; [reflexivity|]. rewrite (active_g2a _ g v) by eauto. split; [discriminate|].
    intros [a H]. congruence.
Qed.

Lemma ext_actives s s' ex : base s -> ext s s' ex -> actives s' = actives s.
Proof.
  intros B X. unfold actives at 1. rewrite (e_all _ _ _ X), (e_a2g _ _ _ X). apply actives_app.
  intros g. apply a2g_lt; auto.
Qed.

Definition mark (s : mset) (g : nat) (mo : list nat) : mset :=
  MkSet (lim s) (dim s) (all s) (m2g s) (a2g s ++ [g])
        (upd (g2a s) g (Some (length (a2g s)))) (outE s) (inE s) mo.

Lemma mark_actives s g mo v : nth_error (all s) g = Some v ->
  actives (mark s g mo) = actives s ++ [v].
Proof.
  intros H. unfold actives, mark. cbn [all a2g]. rewrite map_app. cbn.
  rewrite (nth_error_nth _ _ _ H). reflexivity.
Qed.

Lemma mark_base s g v mo : base s -> nth_error (all s) g = Some v -> nth_error (g2a s) g = Some None ->
  length mo = dim s -> (forall i, nth i mo 0 = Nat.max (nth i (maxo s) 0) (nth i v 0)) ->
  base (mark s g mo).
Proof.
  intros B Hg Hn Hl Hm. assert (Ha := mark_actives s g mo v Hg).
  assert (Lg : g < length (g2a s)) by (eapply nth_error_lt; eauto).
  split; cbn [mark lim dim all m2g a2g g2a outE inE maxo]; rewrite ?upd_length;
    try solve [apply (b_g2a _ B)|apply (b_out _ B)|apply (b_in _ B)|apply (b_find _ B)|
               apply (b_len _ B)|apply (b_sound _ B)|apply (b_sym _ B)|apply (b_sorto _ B)|
               apply (b_sorti _ B)|exact Hl].
  - intros a h. rewrite nth_error_snoc, nth_error_upd.
    destruct (Nat.ltb_spec g (length (g2a s))); [|lia]. rewrite (b_act _ B).
    destruct (Nat.eqb_spec h g) as [->|Hne]; cbn.
    + split.
      * intros [H1|[-> _]]; [congruence|auto].
      * intros [= <-]. auto.
    + split; auto. intros [H1|[_ H1]]; [auto|congruence].
  - intros i Hi. rewrite Ha, map_app, vmax_app, Hm, (b_maxo _ B) by auto. cbn [map].
    rewrite vmax_cons, vmax_nil, Nat.max_0_r. reflexivity.
Qed.

Lemma activate_spec s g v : base s -> nth_error (all s) g = Some v ->
  exists s' ex a, activate s g = Ok s' /\ base s' /\
    lim s' = lim s /\ dim s' = dim s /\ all s' = all s ++ ex /\
    nth_error (g2a s') g = Some (Some a) /\
    ((active s v /\ s' = s) \/
     (~ active s v /\ a2g s' = a2g s ++ [g] /\ actives s' = actives s ++ [v] /\
      (forall w, In w ex -> (fwd_rel v w \/ fwd_rel w v) /\ lim s w = true) /\
      (forall w, fwd_rel v w \/ fwd_rel w v -> lim s w = true -> In w (all s')))) /\
    (full s -> full s').
Proof.
  intros B Hg. unfold activate.
  destruct (g2a_dec s g v B Hg) as [[a Ha]|Hn].
  - rewrite (at_ok _ _ _ Ha). cbn [obind]. exists s, [], a. rewrite app_nil_r.
    split; [reflexivity|]. split; [auto|]. split; [auto|]. split; [auto|]. split; [auto|]. split; [auto|].
    split; [|auto]. left. split; auto. rewrite (active_g2a _ g v) by eauto. eauto.
  - rewrite (at_ok _ _ _ Hn). cbn [obind]. rewrite (at_ok _ _ _ Hg). cbn [obind].
    destruct (upd_maxo_spec (maxo s) v) as (mo & Hmo & Lmo & Nmo).
    { rewrite (b_mlen _ B). apply (b_len _ B). eapply nth_error_In; eauto. }
    rewrite Hmo. cbn [obind]. cbv zeta. fold (mark s g mo).
    assert (B1 : base (mark s g mo)).
    { exact (mark_base s g v mo B Hg Hn (eq_trans Lmo (b_mlen _ B)) Nmo). }
    unfold add_fwd, add_bwd. change (all (mark s g mo)) with (all s).
    rewrite (at_ok _ _ _ Hg). cbn [obind].
    destruct (grow_fwd_loop g v (vforward v) (mark s g mo) B1 Hg)
      as (s2 & ex2 & H2 & B2 & X2 & F2 & Hex2 & Hin2 & _ & _); [intros w; apply vforward_In|].
    rewrite H2. cbn [obind].
    assert (Hg2 : nth_error (all s2) g = Some v).
    { rewrite (e_all _ _ _ X2). apply nth_error_app_l. exact Hg. }
    rewrite (at_ok _ _ _ Hg2). cbn [obind].
    assert (Hga : nth_error (g2a (mark s g mo)) g = Some (Some (length (a2g s)))).
    { cbn. rewrite nth_error_upd, Nat.eqb_refl.
      assert (L := nth_error_lt _ _ _ Hn). destruct (Nat.ltb_spec g (length (g2a s))); [reflexivity|lia]. }
    assert (Hga2 : exists a, nth_error (g2a s2) g = Some (Some a)).
    { exists (length (a2g s)). rewrite (e_g2a _ _ _ X2). apply nth_error_app_l. exact Hga. }
    destruct (grow_bwd_loop g v (vbackward v) s2 B2 Hg2 Hga2)
      as (s3 & ex3 & H3 & B3 & X3 & F3 & Hex3 & Hin3 & _); [intros w; apply vbackward_In|].
    assert (X := ext_trans _ _ _ _ _ X2 X3).
    exists s3, (ex2 ++ ex3), (length (a2g s)). split; [exact H3|]. split; [exact B3|].
    split; [apply (e_lim _ _ _ X)|]. split; [apply (e_dim _ _ _ X)|]. split; [apply (e_all _ _ _ X)|].
    split.
    { rewrite (e_g2a _ _ _ X). apply nth_error_app_l. cbn. rewrite nth_error_upd, Nat.eqb_refl.
      assert (L := nth_error_lt _ _ _ Hn). destruct (Nat.ltb_spec g (length (g2a s))); [reflexivity|lia]. }
    split.
    { right. split; [rewrite (active_g2a _ g v) by eauto; intros [a Ha]; congruence|].
      split; [apply (e_a2g _ _ _ X)|].
      split; [rewrite (ext_actives _ _ _ B1 X); apply mark_actives; auto|]. split.
      - intros w Hw. apply in_app_iff in Hw. destruct Hw as [Hw|Hw].
        + destruct (Hex2 w Hw) as [H H']. split; [left; apply vforward_In; auto|exact H'].
        + destruct (Hex3 w Hw) as [H H']. rewrite (e_lim _ _ _ X2) in H'.
          split; [right; apply vbackward_In; auto|exact H'].
      - intros w [Hw|Hw] Hl.
        + rewrite (e_all _ _ _ X3). apply in_app_iff. left. apply Hin2; [apply vforward_In; auto|exact Hl].
        + apply Hin3; [apply vbackward_In; auto|]. rewrite (e_lim _ _ _ X2). exact Hl. }
    intros Hf. apply F3, F2. split; auto.
    + apply (f_lim _ Hf).
    + apply (f_edges _ Hf).
Qed.

Lemma active_snoc s s' v w : actives s' = actives s ++ [v] -> active s' w <-> active s w \/ w = v.
Proof.
  intros H. unfold active. rewrite H, in_app_iff. cbn. intuition.
Qed.

Lemma activate_nbrs s g v s' : base s -> nth_error (all s) g = Some v -> activate s g = Ok s' ->
  nbrs s -> nbrs s'.
Proof.
  intros B Hg Ha Hn. destruct (activate_spec s g v B Hg) as (s1 & ex & a & H & B' & Hl & Hd & Hall & _ & Hc & _).
  rewrite Ha in H. injection H as <-. destruct Hc as [[_ ->]|(_ & _ & Hact & _ & Hin)]; auto.
  intros x w Hx Hxw Hlw. rewrite Hl in Hlw. apply (active_snoc _ _ _ _ Hact) in Hx.
  destruct Hx as [Hx| ->].
  - rewrite Hall. apply in_app_iff. left. eapply Hn; eauto.
  - apply Hin; auto.
Qed.

Lemma activate_linked s g v s' : base s -> nth_error (all s) g = Some v -> activate s g = Ok s' ->
  (forall w, In w (all s) -> w = v \/ active s w \/ exists x, active s x /\ (fwd_rel x w \/ fwd_rel w x)) ->
  linked s'.
Proof.
  intros B Hg Ha Hn. destruct (activate_spec s g v B Hg) as (s1 & ex & a & H & B' & Hl & Hd & Hall & _ & Hc & _).
  rewrite Ha in H. injection H as <-. destruct Hc as [[Hv ->]|(_ & _ & Hact & Hex & _)].
  - intros w Hw. destruct (Hn w Hw) as [->|H]; auto.
  - intros w Hw. rewrite Hall in Hw. apply in_app_iff in Hw. destruct Hw as [Hw|Hw].
    + destruct (Hn w Hw) as [->|[H|(x & Hx & Hxw)]].
      * left. apply (active_snoc _ _ _ _ Hact). auto.
      * left. apply (active_snoc _ _ _ _ Hact). auto.
      * right. exists x. split; auto. apply (active_snoc _ _ _ _ Hact). auto.
    + right. exists v. split; [apply (active_snoc _ _ _ _ Hact); auto|]. apply Hex; auto.
Qed.

Lemma empty_full d L : full (ms_empty d L).
Proof.
  split.
  - split; cbn; auto.
    + intros v g. destruct g; split; discriminate.
    + intros v [].
    + intros [|a] [|g]; split; discriminate.
    + intros g h (l & Hl & _). destruct g; discriminate.
    + intros g h. split; intros (l & Hl & _); destruct g, h; discriminate.
    + apply repeat_length.
    + intros i Hi. rewrite nth_repeat. reflexivity.
  - intros v [].
  - intros [|g] h v w H; discriminate.
Qed.
