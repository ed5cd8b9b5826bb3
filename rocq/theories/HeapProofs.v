(** Support lemmas about coefficient storage. *)
From Verif Require Import Base HeapModel.

Section Heap.
Context {A : Type} (zero : A).
Notation state := (state A).
Implicit Types s : state.

Definition whole_of (s : state) (o : nat) : bool := match nth_error (objs s) o with Some b => o_whole b | None => false end.
(** Two states whose objects differ only in savedCoeffs. *)
Definition same_shape (s s' : state) : Prop :=
  length (objs s) = length (objs s') /\ forall o, nc_of s o = nc_of s' o /\ kids_of s o = kids_of s' o /\ whole_of s o = whole_of s' o.
Lemma shape_refl s : same_shape s s. Proof. split; auto. Qed.
Lemma shape_trans s1 s2 s3 : same_shape s1 s2 -> same_shape s2 s3 -> same_shape s1 s3.
Proof.
  intros (L1 & H1) (L2 & H2). split; [congruence|]. intros o. destruct (H1 o) as (a & b & c). destruct (H2 o) as (d & e & f). repeat split; congruence.
Qed.
Lemma shape_sym s1 s2 : same_shape s1 s2 -> same_shape s2 s1.
Proof. intros (L & H). split; auto. intros o. destruct (H o) as (a & b & c). auto. Qed.

Lemma put_saved_shape s o v : same_shape s (put_saved s o v).
Proof.
  unfold put_saved. destruct (nth_error (objs s) o) as [b|] eqn:E; [|apply shape_refl].
  assert (Lo := nth_error_Some_lt _ _ _ E). split; [cbn; now rewrite upd_length|]. intros p. unfold nc_of, kids_of, whole_of. cbn [objs].
  destruct (Nat.eq_dec o p) as [<-|Hne]; [rewrite nth_error_upd_eq by auto; rewrite E; auto|]. rewrite nth_error_upd_neq by auto. auto.
Qed.
Lemma put_saved_same s o v : o < length (objs s) -> saved_of (put_saved s o v) o = Some v.
Proof.
  intros H. unfold put_saved, saved_of. destruct (nth_error (objs s) o) as [b|] eqn:E; [|apply nth_error_None in E; lia].
  cbn [objs]. rewrite nth_error_upd_eq by auto. reflexivity.
Qed.
Lemma put_saved_other s o v p : p <> o -> saved_of (put_saved s o v) p = saved_of s p.
Proof.
  intros H. unfold put_saved, saved_of. destruct (nth_error (objs s) o) as [b|] eqn:E; auto. cbn [objs]. now rewrite nth_error_upd_neq by auto.
Qed.
Lemma put_saved_arrs s o v : arrs (put_saved s o v) = arrs s.
Proof. unfold put_saved. now destruct (nth_error (objs s) o). Qed.
Lemma valid_arrs (s s' : state) v : arrs s = arrs s' -> valid s v = valid s' v.
Proof. intros H. unfold valid, data. now rewrite H. Qed.
Lemma contents_arrs (s s' : state) v : arrs s = arrs s' -> contents s v = contents s' v.
Proof. intros H. unfold contents, data. now rewrite H. Qed.

(** Components were created before their container and the counts add up. *)
Definition struct (s : state) : Prop := forall o, o < length (objs s) ->
  (forall k, In k (kids_of s o) -> k < o) /\
  (whole_of s o = true -> exists k, kids_of s o = [k] /\ nc_of s k = nc_of s o) /\
  (whole_of s o = false -> kids_of s o <> [] -> nc_of s o = total s (kids_of s o)).
Lemma fold_total (s : state) kids n : fold_left (fun n k => n + nc_of s k) kids n = n + total s kids.
Proof.
  unfold total. revert n. induction kids as [|k kids IH]; intros n; cbn [fold_left]; [lia|]. rewrite IH, (IH (0 + nc_of s k)). lia.
Qed.
Lemma total_cons (s : state) k kids : total s (k :: kids) = nc_of s k + total s kids.
Proof. unfold total at 1. cbn [fold_left]. rewrite fold_total. lia. Qed.
Lemma shape_total (s s' : state) kids : same_shape s s' -> total s kids = total s' kids.
Proof.
  intros (_ & H). induction kids as [|k kids IH]; auto. rewrite !total_cons, IH. destruct (H k) as (-> & _). auto.
Qed.
Lemma struct_shape s s' : same_shape s s' -> struct s -> struct s'.
Proof.
  intros HS H o Ho. pose proof HS as (L & HO). destruct (H o ltac:(lia)) as (H1 & H2 & H3). destruct (HO o) as (a & b & c).
  rewrite <- b, <- c. split; [auto|]. split.
  - intros W. destruct (H2 W) as (k & -> & E). exists k. split; auto. destruct (HO k) as (d & _). congruence.
  - intros W N. rewrite <- a, <- (shape_total s s'); auto.
Qed.

Inductive desc (s : state) (o : nat) : nat -> Prop :=
| desc_refl : desc s o o
| desc_kid : forall p k, desc s o p -> In k (kids_of s p) -> desc s o k.
Lemma desc_shape s s' o p : same_shape s s' -> desc s o p -> desc s' o p.
Proof. intros (_ & H) D. induction D; [constructor|]. econstructor; eauto. destruct (H p) as (_ & <- & _). auto. Qed.
Lemma desc_trans s o p q : desc s o p -> desc s p q -> desc s o q.
Proof. intros H1 H2. induction H2; auto. econstructor; eauto. Qed.
Lemma desc_first s o k q : In k (kids_of s o) -> desc s k q -> desc s o q.
Proof. intros H1 H2. eapply desc_trans; [|exact H2]. econstructor; [constructor|auto]. Qed.
Lemma kids_dom (s : state) p k : In k (kids_of s p) -> p < length (objs s).
Proof.
  unfold kids_of. destruct (nth_error (objs s) p) eqn:E; [intros _; eapply nth_error_Some_lt; eauto|intros []].
Qed.
Lemma desc_le s o p : struct s -> desc s o p -> p <= o.
Proof.
  intros HS D. induction D; auto. destruct (HS p (kids_dom _ _ _ H)) as (H1 & _). specialize (H1 _ H). lia.
Qed.
Lemma desc_cases s o p : desc s o p -> p = o \/ exists k, In k (kids_of s o) /\ desc s k p.
Proof.
  intros D. induction D; auto. right. destruct IHD as [->|(k' & H1 & H2)].
  - exists k. split; auto. constructor.
  - exists k'. split; auto. econstructor; eauto.
Qed.

Definition good (s : state) (o : nat) : Prop := exists w, saved_of s o = Some w /\ v_len w = nc_of s o.
Definition inside (w v : view) : Prop := v_arr w = v_arr v /\ v_off v <= v_off w /\ v_off w + v_len w <= v_off v + v_len v.

(** What wrapping does: nothing to the arrays, a view of the right size inside [v] for some
    descendants, nothing to the rest. *)
Definition effect (s s' : state) (roots : nat -> Prop) (v : view) : Prop :=
  same_shape s s' /\ arrs s' = arrs s /\
  (forall p, saved_of s' p = saved_of s p \/
     ((exists r, roots r /\ desc s r p) /\ exists w, saved_of s' p = Some w /\ v_len w = nc_of s p /\ inside w v)) /\
  (forall r p, roots r -> desc s r p -> good s' p).
Lemma effect_good s s' R v p : effect s s' R v -> good s p -> good s' p.
Proof.
  intros (HS & _ & H & _) (w & E1 & E2). destruct HS as (_ & HS). destruct (HS p) as (N & _).
  destruct (H p) as [E|(_ & w' & E & L & _)]; [exists w|exists w']; rewrite E; split; congruence.
Qed.

Section Wrap.
Variable dbg : bool.
Lemma slices_spec : forall wrapk (bound : nat),
  (forall s k v, struct s -> k < bound -> k < length (objs s) -> v_len v = nc_of s k ->
     exists s', wrapk s k v = Done s' /\ effect s s' (fun r => r = k) v /\ saved_of s' k = Some v) ->
  forall kids s v cum, struct s -> (forall k, In k kids -> k < bound /\ k < length (objs s)) -> cum + total s kids <= v_len v ->
  exists s', slices wrapk dbg s v cum kids = Done s' /\ effect s s' (fun r => In r kids) v.
Proof.
  intros wrapk bound HW. induction kids as [|k kids IH]; intros s v cum HS HK HC; cbn [slices].
  { exists s. split; auto. split; [apply shape_refl|]. split; auto. split; [auto|]. intros r p []. }
  rewrite total_cons in HC. replace (cum + nc_of s k <=? v_len v) with true by (symmetry; apply Nat.leb_le; lia).
  destruct (HK k (or_introl eq_refl)) as (Hb & Hk).
  destruct (HW s k (MkView (v_arr v) (v_off v + cum) (nc_of s k)) HS Hb Hk eq_refl) as (s1 & -> & E1 & _). cbn [rbind].
  pose proof E1 as (S1 & A1 & P1 & G1).
  destruct (IH s1 v (cum + nc_of s k)) as (s2 & -> & E2).
  { eapply struct_shape; eauto. }
  { intros k' H'. destruct (HK k' (or_intror H')). destruct S1 as (L & _). split; auto; lia. }
  { rewrite <- (shape_total s s1) by auto. lia. }
  exists s2. split; auto. pose proof E2 as (S2 & A2 & P2 & G2). split; [eapply shape_trans; eauto|]. split; [congruence|]. split.
  - intros p. destruct (P2 p) as [EQ|((r & Hr & Dr) & w & EQ & L & I)].
    + rewrite EQ. destruct (P1 p) as [?|((r & -> & Dr) & w & EQ1 & L & I)]; auto. right. split; [exists k; split; [left; auto|auto]|].
      exists w. split; auto. split; auto. destruct I as (I1 & I2 & I3). cbn in I1, I2, I3. split; [auto|]. lia.
    + right. split; [exists r; split; [right; auto|]; eapply desc_shape; [apply shape_sym|]; eauto|]. exists w. destruct S1 as (_ & S1). destruct (S1 p) as (N & _). split; auto. split; congruence.
  - intros r p [<-|Hr] D; [eapply effect_good; eauto|]. apply (G2 r p Hr). eapply desc_shape; eauto.
Qed.

Lemma nth_facts (s : state) o b : nth_error (objs s) o = Some b -> nc_of s o = o_nc b /\ kids_of s o = o_kids b /\ whole_of s o = o_whole b /\ saved_of s o = o_saved b.
Proof. unfold nc_of, kids_of, whole_of, saved_of. intros ->. auto. Qed.

Lemma wrap_spec : forall fuel s o v, struct s -> o < fuel -> o < length (objs s) -> v_len v = nc_of s o ->
  exists s', wrap fuel dbg s o v = Done s' /\ effect s s' (fun r => r = o) v /\ saved_of s' o = Some v.
Proof.
  induction fuel as [|f IH]; intros s o v HS Hf Ho Hv; [lia|]. cbn [wrap].
  destruct (nth_error (objs s) o) as [b|] eqn:E; [|apply nth_error_None in E; lia]. destruct (nth_facts s o b E) as (En & Ek & Ew & _).
  rewrite <- En, Hv, Nat.eqb_refl. cbn [negb]. cbv zeta.
  pose proof (put_saved_shape s o v) as SH. set (s1 := put_saved s o v) in *.
  assert (HS1 : struct s1) by (eapply struct_shape; eauto). destruct (HS o Ho) as (K1 & K2 & K3). rewrite Ek in K1, K2, K3. rewrite Ew in K2, K3.
  assert (L1 : length (objs s1) = length (objs s)) by (symmetry; apply SH).
  assert (SV : saved_of s1 o = Some v) by (apply put_saved_same; auto).
  assert (FIN : forall s' (R : nat -> Prop), effect s1 s' R v -> (forall r, R r <-> In r (o_kids b)) -> effect s s' (fun r => r = o) v /\ saved_of s' o = Some v).
  { intros s' R (S2 & A2 & P2 & G2) HR.
    assert (SO : saved_of s' o = Some v).
    { destruct (P2 o) as [->|((r & Hr & Dr) & _)]; auto. apply HR in Hr. apply K1 in Hr. apply desc_le in Dr; auto. lia. }
    assert (GO : good s' o). { exists v. split; auto. destruct S2 as (_ & S2). destruct (S2 o) as (<- & _). destruct SH as (_ & SH). destruct (SH o) as (<- & _). auto. }
    split; auto. split; [eapply shape_trans; eauto|]. split; [rewrite A2; apply put_saved_arrs|]. split.
    - intros p. destruct (P2 p) as [EQ|((r & Hr & Dr) & w & EQ & L & I)].
      + rewrite EQ. destruct (Nat.eq_dec p o) as [->|Hne]; [|left; apply put_saved_other; auto].
        right. split; [exists o; split; [auto|constructor]|]. exists v. split; auto. split; auto. split; auto.
      + right. split.
        * exists o. split; auto. eapply desc_first; [rewrite Ek; apply HR; eauto|]. eapply desc_shape; [apply shape_sym; eauto|auto].
        * exists w. destruct SH as (_ & SH). destruct (SH p) as (N & _). split; auto. split; [congruence|auto].
    - intros r p -> D. apply desc_cases in D. destruct D as [->|(k & Hk & D)]; auto. apply (G2 k p); [apply HR; rewrite <- Ek; auto|eapply desc_shape; eauto]. }
  destruct (o_whole b) eqn:W.
  - destruct (K2 eq_refl) as (k & EK & EN). rewrite EK in *. assert (Hk : k < o) by (apply K1; left; auto).
    destruct (IH s1 k v HS1) as (s2 & E2 & F2 & _); [lia|lia|destruct SH as (_ & SH); destruct (SH k) as (<- & _); congruence|].
    exists s2. split; auto. apply (FIN s2 (fun r => r = k)); auto. intros r. split; [intros ->; left; auto|intros [<-|[]]; auto].
  - destruct (o_kids b) as [|k0 kids] eqn:EK.
    + cbn [slices]. exists s1. split; auto. apply (FIN s1 (fun r => In r [])); [|tauto]. split; [apply shape_refl|]. split; [auto|]. split; [auto|]. intros r p [].
    + destruct (slices_spec (wrap f dbg) o) with (kids := k0 :: kids) (s := s1) (v := v) (cum := 0) as (s2 & E2 & F2).
      * intros s' k v' A1 A2 A3 A4. apply IH; auto. lia.
      * auto.
      * intros k Hk. specialize (K1 k Hk). lia.
      * rewrite <- (shape_total s s1) by auto. rewrite Hv, (K3 eq_refl) by discriminate. lia.
      * exists s2. split; auto. apply (FIN s2 (fun r => In r (k0 :: kids))); auto. tauto.
Qed.
End Wrap.

(** ** Storage *)
Lemma view_eqb_true v w : view_eqb v w = true -> v = w.
Proof.
  unfold view_eqb. intros H. apply andb_prop in H. destruct H as (H & H3). apply andb_prop in H. destruct H as (H1 & H2).
  apply Nat.eqb_eq in H1, H2, H3. destruct v, w; cbn in *; congruence.
Qed.
Lemma valid_inv (s : state) v : valid s v = true -> v_arr v < length (arrs s) /\ v_off v + v_len v <= length (data s (v_arr v)).
Proof. unfold valid. intros H. apply andb_prop in H. destruct H as (H1 & H2). apply Nat.ltb_lt in H1. apply Nat.leb_le in H2. auto. Qed.
Lemma valid_intro (s : state) v : v_arr v < length (arrs s) -> v_off v + v_len v <= length (data s (v_arr v)) -> valid s v = true.
Proof. intros H1 H2. unfold valid. apply andb_true_intro. split; [apply Nat.ltb_lt|apply Nat.leb_le]; auto. Qed.
Lemma contents_length (s : state) v : valid s v = true -> length (contents s v) = v_len v.
Proof. intros H. apply valid_inv in H. unfold contents. rewrite firstn_length, skipn_length. lia. Qed.

Definition user_of (s : state) (a : nat) : bool := match nth_error (arrs s) a with Some r => ar_user r | None => false end.
(** The arrays of [s'] extend those of [s] and agree with them except in the contents of array [a]. *)
Definition frame (s s' : state) (a : nat) : Prop :=
  length (arrs s) <= length (arrs s') /\
  forall x, x < length (arrs s) -> length (data s' x) = length (data s x) /\ user_of s' x = user_of s x /\ (x <> a -> data s' x = data s x).
Lemma frame_refl s a : frame s s a. Proof. split; auto. Qed.
Lemma frame_valid s s' a v : frame s s' a -> valid s v = true -> valid s' v = true.
Proof. intros (L & H) V. apply valid_inv in V. destruct V as (V1 & V2). destruct (H _ V1) as (E & _). apply valid_intro; [lia|]. rewrite E. auto. Qed.
Lemma frame_contents s s' a v : frame s s' a -> valid s v = true -> v_arr v <> a -> contents s' v = contents s v.
Proof. intros (L & H) V N. apply valid_inv in V. destruct V as (V1 & V2). destruct (H _ V1) as (_ & _ & E). unfold contents. now rewrite E. Qed.
Lemma frame_trans s1 s2 s3 a : frame s1 s2 a -> frame s2 s3 a -> frame s1 s3 a.
Proof.
  intros (L1 & H1) (L2 & H2). split; [lia|]. intros x Hx. destruct (H1 x Hx) as (a1 & b1 & c1). destruct (H2 x ltac:(lia)) as (a2 & b2 & c2).
  split; [congruence|]. split; [congruence|]. intros N. rewrite c2, c1; auto.
Qed.
Lemma frame_same_arrs (s s' : state) a : arrs s' = arrs s -> frame s s' a.
Proof. intros E. split; [rewrite E; auto|]. intros x Hx. unfold data, user_of. rewrite E. auto. Qed.

Lemma put_data_spec (s : state) a off (d : list A) : a < length (arrs s) -> off + length d <= length (data s a) ->
  objs (put_data s a off d) = objs s /\ frame s (put_data s a off d) a /\ length (arrs (put_data s a off d)) = length (arrs s) /\
  data (put_data s a off d) a = firstn off (data s a) ++ d ++ skipn (off + length d) (data s a).
Proof.
  intros Ha Hd. unfold put_data, data in *. destruct (nth_error (arrs s) a) as [r|] eqn:E; [|apply nth_error_None in E; lia]. cbn [arrs objs].
  split; auto. split; [|split; [now rewrite upd_length|rewrite nth_error_upd_eq by auto; reflexivity]].
  split; [cbn; now rewrite upd_length|]. intros x Hx. unfold data, user_of. cbn [arrs]. destruct (Nat.eq_dec a x) as [<-|N].
  - rewrite nth_error_upd_eq by auto. rewrite E. cbn [ar_data ar_user]. split; [|split; [auto|intros C; contradiction C; auto]].
    rewrite !app_length, firstn_length, skipn_length. lia.
  - rewrite nth_error_upd_neq by auto. auto.
Qed.
Lemma put_data_contents (s : state) a off (d : list A) : a < length (arrs s) -> off + length d <= length (data s a) ->
  contents (put_data s a off d) (MkView a off (length d)) = d.
Proof.
  intros Ha Hd. destruct (put_data_spec s a off d Ha Hd) as (_ & _ & _ & E). unfold contents. cbn [v_len v_off v_arr]. rewrite E.
  rewrite skipn_app, firstn_length, skipn_all2 by (rewrite firstn_length; lia). rewrite Nat.min_l by lia. rewrite Nat.sub_diag. cbn [app skipn].
  now rewrite firstn_app, Nat.sub_diag, firstn_all, app_nil_r.
Qed.
Lemma alloc_spec (s : state) u (d : list A) : objs (alloc s u d) = objs s /\ (forall a, frame s (alloc s u d) a) /\
  length (arrs (alloc s u d)) = S (length (arrs s)) /\ data (alloc s u d) (length (arrs s)) = d /\ user_of (alloc s u d) (length (arrs s)) = u.
Proof.
  unfold alloc. cbn [arrs objs]. split; auto. split; [|split; [rewrite app_length; cbn; lia|]].
  - intros a. split; [cbn; rewrite app_length; lia|]. intros x Hx. unfold data, user_of. cbn [arrs]. rewrite nth_error_app1 by auto. auto.
  - unfold data, user_of. cbn [arrs]. rewrite nth_error_app2, Nat.sub_diag by auto. auto.
Qed.

Lemma copy_spec (s : state) dst src : valid s dst = true -> valid s src = true -> v_len dst = v_len src ->
  copy s dst src = Threw s \/ exists s', copy s dst src = Done s' /\ objs s' = objs s /\ frame s s' (v_arr dst) /\ length (arrs s') = length (arrs s) /\ contents s' dst = contents s src.
Proof.
  intros Vd Vs L. unfold copy. rewrite L, Nat.eqb_refl. cbn [negb]. destruct (view_eqb dst src) eqn:E.
  - apply view_eqb_true in E. subst. right. exists s. split; auto. split; auto. split; [apply frame_refl|auto].
  - destruct (overlap dst src); auto. right. eexists. split; [reflexivity|].
    pose proof (contents_length s src Vs) as LC. apply valid_inv in Vd. destruct Vd as (V1 & V2).
    destruct (put_data_spec s (v_arr dst) (v_off dst) (contents s src)) as (a & b & c & d); [auto|lia|].
    split; auto. split; auto. split; auto. pose proof (put_data_contents s (v_arr dst) (v_off dst) (contents s src) V1 ltac:(lia)) as PC.
    rewrite LC, <- L in PC. destruct dst. exact PC.
Qed.
Lemma copy_disjoint (s : state) dst src : v_arr dst <> v_arr src -> v_len dst = v_len src -> copy s dst src <> Threw s.
Proof.
  intros H L. unfold copy. rewrite L, Nat.eqb_refl. cbn [negb]. unfold view_eqb, overlap. replace (v_arr dst =? v_arr src) with false by (symmetry; apply Nat.eqb_neq; auto).
  cbn [andb]. discriminate.
Qed.
End Heap.
