(** Lemmas about the model of TrainMapAdaptive. *)
From Coq Require Import Reals Lra.
From Verif Require Import Base SpecMulti MISetModel MultiIndexProofs LimiterProofs MISetInv MISetOps MISetForce MISetLimFill MISetHist DensityModel AdaptModel.

Lemma bind_inv {A B} (x : outcome A) (f : A -> outcome B) b : obind x f = Ok b -> exists a, x = Ok a /\ f a = Ok b.
Proof. destruct x as [a| | |]; try discriminate. intros H. exists a. auto. Qed.
Lemma raw_inv {A} (l : list A) i x : raw_get l i = Ok x -> nth_error l i = Some x.
Proof. unfold raw_get. destruct (nth_error l i); congruence. Qed.
Lemma omap_inv {A B} (f : A -> outcome B) l : forall r, omap f l = Ok r -> Forall2 (fun x y => f x = Ok y) l r.
Proof.
  induction l as [|x l IH]; intros r H; cbn [omap] in H; [injection H as <-; constructor|].
  apply bind_inv in H as (y & E & H). apply bind_inv in H as (ys & Es & H). injection H as <-. constructor; auto.
Qed.
Lemma ofilter_inv {A} (f : A -> outcome bool) l : forall r, ofilter f l = Ok r -> (forall x, In x l -> exists b, f x = Ok b) /\ forall x, In x r <-> In x l /\ f x = Ok true.
Proof.
  induction l as [|x l IH]; intros r H; cbn [ofilter] in H; [injection H as <-; split; [intros ? []|intros; cbn; tauto]|].
  apply bind_inv in H as (b & E & H). apply bind_inv in H as (ys & Es & H). injection H as <-. destruct (IH _ Es) as [I1 I2]. split.
  - intros y [->|Hy]; eauto.
  - intros y. destruct b; cbn [In].
    + rewrite I2. split; [intros [->|[]]; auto|intros [[->|] ?]; auto].
    + rewrite I2. split; [intros []; auto|]. intros [[->|] H1]; [congruence|auto].
Qed.
Lemma F2_nth {A B} (P : A -> B -> Prop) l r i x : Forall2 P l r -> nth_error l i = Some x -> exists y, nth_error r i = Some y /\ P x y.
Proof. intros H. revert i. induction H as [|a b l r Hab _ IH]; intros [|i] E; try discriminate; cbn in *; [injection E as ->; eauto|auto]. Qed.
Lemma F2_nth_r {A B} (P : A -> B -> Prop) l r i y : Forall2 P l r -> nth_error r i = Some y -> exists x, nth_error l i = Some x /\ P x y.
Proof. intros H. revert i. induction H as [|a b l r Hab _ IH]; intros [|i] E; try discriminate; cbn in *; [injection E as ->; eauto|auto]. Qed.
Lemma F2_len {A B} (P : A -> B -> Prop) l r : Forall2 P l r -> length l = length r.
Proof. induction 1; cbn; auto. Qed.

(** ** Comparisons *)
Lemma dlt_trans a b c : dlt a b = true -> dlt b c = true -> dlt a c = true.
Proof.
  destruct a, b, c; cbn; try discriminate; auto. destruct (Rlt_dec r r0), (Rlt_dec r0 r1); try discriminate. intros _ _. destruct (Rlt_dec r r1); auto. exfalso. apply n. lra.
Qed.
Lemma dlt_irrefl a : dlt a a = false.
Proof. destruct a; cbn; auto. destruct (Rlt_dec r r); auto. exfalso. lra. Qed.
Lemma dlt_not a b y : dlt a b = true -> dlt a y = false -> dlt b y = false.
Proof. intros H1 H2. destruct (dlt b y) eqn:E; auto. rewrite (dlt_trans a b y) in H2; auto. Qed.

(** ** findMaxGrad *)
Definition mx_le (p p' : dbl * option (nat * nat)) : Prop := p' = p \/ dlt (fst p) (fst p') = true.
Lemma mx_le_trans a b c : mx_le a b -> mx_le b c -> mx_le a c.
Proof. intros [->|H1] [->|H2]; [left; auto|right; auto|right; auto|right; eapply dlt_trans; eauto]. Qed.
Lemma mx_not p p' y : mx_le p p' -> dlt (fst p) y = false -> dlt (fst p') y = false.
Proof. intros [->|H] H2; auto. eapply dlt_not; eauto. Qed.
Lemma max_block_spec grad start output rm : forall p p', max_block grad start output rm p = Ok p' ->
  mx_le p p' /\ (p' = p \/ exists idx x, In idx rm /\ nth_error grad (start + idx) = Some x /\ p' = (dabs x, Some (idx, output))) /\
  forall idx, In idx rm -> exists x, nth_error grad (start + idx) = Some x /\ dlt (fst p') (dabs x) = false.
Proof.
  unfold max_block. induction rm as [|i rm IH]; intros p p' H; cbn [ofold] in H.
  - injection H as <-. split; [left; auto|]. split; auto. intros ? [].
  - apply bind_inv in H as (p1 & H1 & H). apply bind_inv in H1 as (x & Hx & H1). apply raw_inv in Hx. injection H1 as <-.
    destruct (IH _ _ H) as (M & Hp & Hall). set (p1 := if dlt (fst p) (dabs x) then (dabs x, Some (i, output)) else p) in *.
    assert (M1 : mx_le p p1) by (unfold p1; destruct (dlt (fst p) (dabs x)) eqn:D; [right; exact D|left; auto]).
    assert (N1 : dlt (fst p1) (dabs x) = false) by (unfold p1; destruct (dlt (fst p) (dabs x)) eqn:D; [apply dlt_irrefl|exact D]).
    split; [eapply mx_le_trans; eauto|]. split.
    + destruct Hp as [->|(idx & y & H2 & H3 & H4)].
      * unfold p1. destruct (dlt (fst p) (dabs x)); auto. right. exists i, x. split; [left; auto|auto].
      * right. exists idx, y. split; [right; auto|auto].
    + intros idx [<-|Hi]; auto. exists x. split; auto. eapply mx_not; eauto.
Qed.
Lemma max_blocks_spec grad rms : forall sizes start output p p', max_blocks grad rms sizes start output p = Ok p' ->
  mx_le p p' /\ (p' = p \/ exists k rm idx x, nth_error rms k = Some rm /\ In idx rm /\ nth_error grad (start + list_sum (firstn k sizes) + idx) = Some x /\ p' = (dabs x, Some (idx, output + k))) /\
  forall k rm idx, nth_error rms k = Some rm -> In idx rm -> exists x, nth_error grad (start + list_sum (firstn k sizes) + idx) = Some x /\ dlt (fst p') (dabs x) = false.
Proof.
  induction rms as [|rm rms IH]; intros sizes start output p p' H; cbn [max_blocks] in H.
  - injection H as <-. split; [left; auto|]. split; auto. intros [|k] ? ? E; discriminate E.
  - apply bind_inv in H as (p1 & H1 & H). destruct sizes as [|n sizes]; [discriminate|].
    destruct (max_block_spec _ _ _ _ _ _ H1) as (M1 & P1 & A1). destruct (IH _ _ _ _ _ H) as (M2 & P2 & A2).
    split; [eapply mx_le_trans; eauto|]. split.
    + destruct P2 as [->|(k & rm' & idx & x & E1 & E2 & E3 & E4)].
      * destruct P1 as [->|(idx & x & E1 & E2 & E3)]; auto. right. exists 0, rm, idx, x. cbn [firstn list_sum fold_right]. rewrite !Nat.add_0_r. cbn. auto.
      * right. exists (S k), rm', idx, x. split; auto. split; auto. split; [|rewrite E4; do 3 f_equal; lia]. rewrite <- E3. f_equal. cbn [firstn]. change (list_sum (n :: firstn k sizes)) with (n + list_sum (firstn k sizes)). lia.
    + intros [|k] rm' idx E Hi.
      * injection E as <-. destruct (A1 idx Hi) as (x & X1 & X2). exists x. cbn [firstn list_sum fold_right]. rewrite Nat.add_0_r. split; auto. eapply mx_not; eauto.
      * destruct (A2 k rm' idx E Hi) as (x & X1 & X2). exists x. split; auto. rewrite <- X1. f_equal. cbn [firstn]. change (list_sum (n :: firstn k sizes)) with (n + list_sum (firstn k sizes)). lia.
Qed.

(** Where the coefficients of component k start. *)
Definition offset (sets : list mset) (k : nat) : nat := list_sum (firstn k (map ms_Size sets)).
Lemma findMaxGrad_spec grad rms sets idx blk : findMaxGrad grad rms sets = Ok (Some (idx, blk)) ->
  exists rm x, nth_error rms blk = Some rm /\ In idx rm /\ nth_error grad (offset sets blk + idx) = Some x /\ dlt (Fin 0) (dabs x) = true /\
  forall k rm' idx', nth_error rms k = Some rm' -> In idx' rm' -> exists y, nth_error grad (offset sets k + idx') = Some y /\ dlt (dabs x) (dabs y) = false.
Proof.
  unfold findMaxGrad. intros H. apply bind_inv in H as (p & H & E). injection E as E. destruct (max_blocks_spec _ _ _ _ _ _ _ H) as (M & P & A).
  destruct P as [->|(k & rm & i & x & E1 & E2 & E3 & ->)]; [discriminate|]. cbn in E. injection E as -> <-. exists rm, x. split; auto. split; auto. split; auto. split.
  - destruct M as [M|M]; [discriminate|exact M].
  - exact A.
Qed.
Lemma findMaxGrad_none grad rms sets : findMaxGrad grad rms sets = Ok None -> forall k rm idx, nth_error rms k = Some rm -> In idx rm -> exists x, nth_error grad (offset sets k + idx) = Some x /\ dlt (Fin 0) (dabs x) = false.
Proof.
  unfold findMaxGrad. intros H. apply bind_inv in H as (p & H & E). injection E as E. destruct (max_blocks_spec _ _ _ _ _ _ _ H) as (M & P & A).
  destruct P as [->|(k & rm & i & x & E1 & E2 & E3 & ->)]; [|discriminate]. exact A.
Qed.
Lemma max_block_total grad start output rm : (forall i, In i rm -> start + i < length grad) -> forall p, exists p', max_block grad start output rm p = Ok p'.
Proof.
  unfold max_block. induction rm as [|i rm IH]; intros H p; cbn [ofold]; [eauto|]. unfold raw_get at 1. destruct (nth_error grad (start + i)) eqn:E; [|apply nth_error_None in E; specialize (H i (or_introl eq_refl)); lia].
  cbn [obind]. apply IH. intros j Hj. apply H. right. auto.
Qed.
Lemma max_blocks_total grad rms : forall sizes start output p, length rms <= length sizes -> (forall k rm i, nth_error rms k = Some rm -> In i rm -> start + list_sum (firstn k sizes) + i < length grad) ->
  exists p', max_blocks grad rms sizes start output p = Ok p'.
Proof.
  induction rms as [|rm rms IH]; intros sizes start output p Hl H; cbn [max_blocks]; [eauto|]. destruct sizes as [|n sizes]; [cbn in Hl; lia|].
  destruct (max_block_total grad start output rm) with (p := p) as (p1 & ->). { intros i Hi. specialize (H 0 rm i eq_refl Hi). cbn in H. lia. }
  cbn [obind]. apply IH; [cbn in Hl; lia|]. intros k rm' i E Hi. specialize (H (S k) rm' i E Hi). cbn [firstn] in H. change (list_sum (n :: firstn k sizes)) with (n + list_sum (firstn k sizes)) in H. lia.
Qed.
Lemma findMaxGrad_total grad rms sets : length rms = length sets -> (forall k rm i, nth_error rms k = Some rm -> In i rm -> offset sets k + i < length grad) -> exists r, findMaxGrad grad rms sets = Ok r.
Proof.
  intros Hl H. unfold findMaxGrad. destruct (max_blocks_total grad rms (map ms_Size sets) 0 0 (Fin 0, None)) as (p & ->); [rewrite map_length; lia|exact H|]. cbn. eauto.
Qed.

(** ** Maximum degrees *)
(** No entry reaches the maximum degree of its dimension; no maximum degrees, no restriction. *)
Definition allowed (o : atm_options) (u : vec) : Prop := maxDegrees o = [] \/ forall i, i < length u -> nth i u 0 < nth i (maxDegrees o) 0.
Lemma any_bounded_spec bound v b : vec_any_bounded bound v = Ok b -> b = false <-> forall i, i < length v -> nth i v 0 < nth i bound 0.
Proof.
  unfold vec_any_bounded. destruct (length bound <? length v); [discriminate|]. intros H. injection H as <-. split.
  - intros H i Hi. destruct (Nat.lt_ge_cases (nth i v 0) (nth i bound 0)) as [|Hge]; auto. exfalso.
    assert (X : existsb (fun i => nth i bound 0 <=? nth i v 0) (seq 0 (length v)) = true) by (apply existsb_exists; exists i; split; [apply in_seq; lia|apply Nat.leb_le; lia]). congruence.
  - intros H. destruct (existsb _ _) eqn:E; auto. apply existsb_exists in E as (i & Hi & E). apply in_seq in Hi. apply Nat.leb_le in E. specialize (H i ltac:(lia)). lia.
Qed.
Lemma FilterBounded_spec s bound l : base s -> ms_FilterBounded s bound = Ok l -> Forall2 (fun v b => vec_any_bounded bound v = Ok b) (actives s) l.
Proof.
  intros B H. unfold ms_FilterBounded in H. apply omap_inv in H. unfold actives. revert l H.
  assert (Hin : forall g, In g (a2g s) -> exists v, nth_error (all s) g = Some v).
  { intros g Hg. apply In_nth_error in Hg as (a & Ha). apply (b_act _ B) in Ha. assert (g < length (g2a s)) by (apply nth_error_Some; congruence). rewrite (b_g2a _ B) in H.
    destruct (nth_error (all s) g) eqn:E; [eauto|apply nth_error_None in E; lia]. }
  induction (a2g s) as [|g l IH]; intros r H; inversion H; subst; cbn [map]; constructor.
  - apply bind_inv in H2 as (v & Hv & H2). apply raw_inv in Hv. erewrite nth_error_nth; eauto.
  - apply IH; auto. intros g' Hg'. apply Hin. right. auto.
Qed.
Lemma FilterBounded_total s bound : base s -> dim s <= length bound -> exists l, ms_FilterBounded s bound = Ok l.
Proof.
  intros B Hd. unfold ms_FilterBounded. destruct (omap_forall (fun g => do v <- raw_get (all s) g; vec_any_bounded bound v) (fun _ _ => True) (a2g s)) as (l & -> & _); [|eauto].
  intros g Hg. apply In_nth_error in Hg as (a & Ha). apply (b_act _ B) in Ha. assert (H : g < length (g2a s)) by (apply nth_error_Some; congruence). rewrite (b_g2a _ B) in H.
  destruct (nth_error (all s) g) as [v|] eqn:E; [|apply nth_error_None in E; lia]. unfold raw_get. rewrite E. cbn [obind]. unfold vec_any_bounded.
  assert (Hv : length v = dim s) by (apply (b_len _ B); eapply nth_error_In; eauto). destruct (Nat.ltb_spec (length bound) (length v)); [lia|]. eauto.
Qed.
Lemma rm_filter_spec bound s rm rm' : base s -> rm_filter bound (s, rm) = Ok rm' -> forall i, In i rm' <-> In i rm /\ exists v, nth_error (actives s) i = Some v /\ forall k, k < length v -> nth k v 0 < nth k bound 0.
Proof.
  intros B H i. unfold rm_filter in H. cbn [fst snd] in H. apply bind_inv in H as (l & Hl & H). apply (FilterBounded_spec _ _ _ B) in Hl. apply ofilter_inv in H as (_ & ->).
  split; intros (H1 & H2); split; auto.
  - apply bind_inv in H2 as (b & Hb & H2). apply raw_inv in Hb. destruct (F2_nth_r _ _ _ _ _ Hl Hb) as (v & Hv & E). exists v. split; auto. apply (any_bounded_spec _ _ _ E). destruct b; [discriminate|auto].
  - destruct H2 as (v & Hv & H2). destruct (F2_nth _ _ _ _ _ Hl Hv) as (b & Hb & E). unfold raw_get. rewrite Hb. cbn [obind]. apply (any_bounded_spec _ _ _ E) in H2. rewrite H2. auto.
Qed.
Lemma rm_filter_total bound s rm : base s -> dim s <= length bound -> (forall i, In i rm -> i < ms_Size s) -> exists rm', rm_filter bound (s, rm) = Ok rm'.
Proof.
  intros B Hd Hr. destruct (FilterBounded_total s bound B Hd) as (l & Hl). unfold rm_filter. cbn [fst snd]. rewrite Hl. cbn [obind]. apply (FilterBounded_spec _ _ _ B) in Hl. rewrite ofilter_ok; [eauto|].
  intros i Hi. specialize (Hr i Hi). unfold raw_get. destruct (nth_error l i) eqn:E; cbn; [eauto|]. apply nth_error_None in E. rewrite <- (F2_len _ _ _ Hl) in E. unfold actives in E. rewrite map_length in E. unfold ms_Size in Hr. lia.
Qed.

Lemma Size_actives s : ms_Size s = length (actives s). Proof. unfold ms_Size, actives. rewrite map_length. reflexivity. Qed.
Lemma assign_same t s : dim t = dim s -> ms_assign t s = Ok s.
Proof. intros H. unfold ms_assign. rewrite H, Nat.eqb_refl. cbn. destruct s; reflexivity. Qed.
