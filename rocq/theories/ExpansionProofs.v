(** Proofs about the expansion worker. *)
From Coq Require Import Reals Lra.
From Coquelicot Require Import Coquelicot.
From Verif Require Import Base SpecMulti MISetModel FixedSetModel FixedSetProofs SpecPoly SpecExpansion PolyModel PolyProofs LinProofs BijProofs ExpansionModel.
Local Open Scope R_scope.

(** ** Sums and products *)

Lemma rprod_ext f g n : (forall i, (i < n)%nat -> f i = g i) -> rprod f n = rprod g n.
Proof. intros H. induction n as [|n IH]; cbn [rprod]; auto. rewrite IH, H; auto. Qed.

Lemma rprod_shift f n : rprod f (S n) = f 0%nat * rprod (fun i => f (S i)) n.
Proof. induction n as [|n IH]; cbn [rprod] in *; [ring|]. rewrite IH. ring. Qed.

Lemma rprod_split f j n : (j < n)%nat ->
  rprod f n = f j * rprod (fun k => if (k =? j)%nat then 1 else f k) n.
Proof.
  induction n as [|n IH]; intros H; [lia|]. cbn [rprod]. destruct (Nat.eqb_spec n j) as [->|Hn].
  - rewrite (rprod_ext (fun k => if (k =? j)%nat then 1 else f k) f j); [ring|]. intros i Hi. destruct (Nat.eqb_spec i j); auto; lia.
  - rewrite IH by lia. ring.
Qed.

Lemma rprod_zero f j n : (j < n)%nat -> f j = 0 -> rprod f n = 0.
Proof. intros H E. rewrite (rprod_split f j) by auto. rewrite E. ring. Qed.

(** ** Loops with an invariant *)

Lemma ofold_inv {T} (body : T -> nat -> outcome T) (I : nat -> T -> Prop) n : forall k s,
  I k s -> (forall i s, (k <= i < k + n)%nat -> I i s -> exists s', body s i = Ok s' /\ I (S i) s') ->
  exists s', ofold body (seq k n) s = Ok s' /\ I (k + n)%nat s'.
Proof.
  induction n as [|n IH]; intros k s H0 H; cbn [seq ofold].
  - exists s. rewrite Nat.add_0_r. auto.
  - destruct (H k s) as (s1 & E & H1); [lia|auto|]. rewrite E. cbn [obind].
    destruct (IH (S k) s1 H1) as (s2 & E2 & H2). { intros i t Hi. apply H. lia. }
    exists s2. split; auto. replace (k + S n)%nat with (S k + n)%nat by lia. auto.
Qed.

(** ** The term loop *)

Definition pairs (v : vec) : list (nat * nat) := combine (nzinds v) (nzvals v).
Fixpoint pprod (g : nat -> nat -> R) (ps : list (nat * nat)) : R :=
  match ps with [] => 1 | p :: r => g (fst p) (snd p) * pprod g r end.

Lemma nz_loop_pairs {T} d (vs : list vec) mx i v (body : T -> nat -> nat -> outcome T) z : nth_error vs i = Some v ->
  nz_loop (packed d vs mx) i body z = ofold (fun s p => body s (fst p) (snd p)) (pairs v) z.
Proof.
  intros H. destruct (packed_split d vs mx i v H) as (a & A & A' & B & B' & H1 & H2 & H3 & H4 & H5 & H6).
  unfold nz_loop. rewrite H1, H2. cbn [obind]. rewrite H3, H4.
  replace (a + vnnz v - a)%nat with (length (nzinds v)) by (rewrite nzinds_length; lia).
  rewrite <- H5 at 1. rewrite ofold_get2 by (rewrite ?nzinds_length, ?nzvals_length; lia). reflexivity.
Qed.

Lemma pprod_dense g v : pprod g (pairs v) =
  rprod (fun k => if (nth k v 0 =? 0)%nat then 1 else g k (nth k v 0%nat)) (length v).
Proof.
  unfold pairs. rewrite nzinds_nzf, nzvals_filter.
  enough (H : forall w off, pprod g (combine (nzf off w) (filter (fun x => negb (x =? 0)%nat) w)) =
    rprod (fun k => if (nth k w 0 =? 0)%nat then 1 else g (off + k)%nat (nth k w 0%nat)) (length w)) by apply (H v 0%nat).
  induction w as [|x w IH]; intros off; [reflexivity|]. cbn [length]. rewrite rprod_shift. cbn [nth nzf filter].
  rewrite (rprod_ext _ (fun k => if (nth k w 0 =? 0)%nat then 1 else g (S off + k)%nat (nth k w 0%nat)))
    by (intros; replace (off + S i)%nat with (S off + i)%nat by lia; reflexivity).
  rewrite <- IH. destruct (x =? 0)%nat; cbn [negb combine pprod fst snd]; [ring|]. rewrite Nat.add_0_r. ring.
Qed.

Definition touches (v : vec) (j : nat) : bool := existsb (fun p => (fst p =? j)%nat) (pairs v).

Lemma touches_spec v j : (j < length v)%nat -> touches v j = negb (nth j v 0 =? 0)%nat.
Proof.
  intros H. unfold touches. apply eq_true_iff_eq. rewrite existsb_exists, negb_true_iff, Nat.eqb_neq. split.
  - intros ([k o] & Hin & E). apply Nat.eqb_eq in E. cbn in E. subst k. apply nz_pairs in Hin. destruct Hin as (_ & -> & ?). auto.
  - intros E. exists (j, nth j v 0%nat). split; [|apply Nat.eqb_refl]. apply nz_pairs. auto.
Qed.

Lemma loop_val (body : R -> nat -> nat -> outcome R) g v z :
  (forall z k o, (k < length v)%nat -> o = nth k v 0%nat -> body z k o = Ok (z * g k o)) ->
  ofold (fun s p => body s (fst p) (snd p)) (pairs v) z = Ok (z * pprod g (pairs v)).
Proof.
  intros H. assert (Hp : forall p, In p (pairs v) -> (fst p < length v)%nat /\ snd p = nth (fst p) v 0%nat).
  { intros [k o] Hin. apply nz_pairs in Hin. cbn. intuition. }
  revert z. induction (pairs v) as [|[k o] ps IH]; intros z; cbn [ofold pprod fst snd].
  - f_equal. ring.
  - destruct (Hp (k, o)) as [P1 P2]; [left; auto|]. cbn in P1, P2. rewrite H by auto. cbn [obind].
    rewrite IH by (intros; apply Hp; right; auto). f_equal. ring.
Qed.

Lemma loop_flag (body : R * bool -> nat -> nat -> outcome (R * bool)) g j v z :
  (forall z k o, (k < length v)%nat -> o = nth k v 0%nat -> body z k o = Ok (fst z * g k o, (k =? j)%nat || snd z)) ->
  ofold (fun s p => body s (fst p) (snd p)) (pairs v) z = Ok (fst z * pprod g (pairs v), touches v j || snd z).
Proof.
  intros H. unfold touches. assert (Hp : forall p, In p (pairs v) -> (fst p < length v)%nat /\ snd p = nth (fst p) v 0%nat).
  { intros [k o] Hin. apply nz_pairs in Hin. cbn. intuition. }
  revert z. induction (pairs v) as [|[k o] ps IH]; intros z; cbn [ofold pprod fst snd existsb].
  - destruct z. cbn. do 2 f_equal. ring.
  - destruct (Hp (k, o)) as [P1 P2]; [left; auto|]. cbn in P1, P2. rewrite H by auto. cbn [obind].
    rewrite IH by (intros; apply Hp; right; auto). cbn [fst snd]. do 2 f_equal; [ring|].
    destruct (k =? j)%nat, (existsb (fun p => (fst p =? j)%nat) ps); reflexivity.
Qed.

Lemma loop_flag2 (body : R * bool * bool -> nat -> nat -> outcome (R * bool * bool)) g j l v z :
  (forall z k o, (k < length v)%nat -> o = nth k v 0%nat ->
     body z k o = Ok (fst (fst z) * g k o, (k =? j)%nat || snd (fst z), (k =? l)%nat || snd z)) ->
  ofold (fun s p => body s (fst p) (snd p)) (pairs v) z =
  Ok (fst (fst z) * pprod g (pairs v), touches v j || snd (fst z), touches v l || snd z).
Proof.
  intros H. unfold touches. assert (Hp : forall p, In p (pairs v) -> (fst p < length v)%nat /\ snd p = nth (fst p) v 0%nat).
  { intros [k o] Hin. apply nz_pairs in Hin. cbn. intuition. }
  revert z. induction (pairs v) as [|[k o] ps IH]; intros z; cbn [ofold pprod fst snd existsb].
  - destruct z as [[? ?] ?]. cbn. do 3 f_equal. ring.
  - destruct (Hp (k, o)) as [P1 P2]; [left; auto|]. cbn in P1, P2. rewrite H by auto. cbn [obind].
    rewrite IH by (intros; apply Hp; right; auto). cbn [fst snd]. do 2 f_equal; [f_equal; [ring|]|].
    + destruct (k =? j)%nat, (existsb (fun p => (fst p =? j)%nat) ps); reflexivity.
    + destruct (k =? l)%nat, (existsb (fun p => (fst p =? l)%nat) ps); reflexivity.
Qed.

(** ** Segments of the cache *)

Definition slen (d : nat) (mx : list nat) (i : nat) : nat :=
  S (nth (if (i <? 2 * d)%nat then i mod d else d - 1)%nat mx 0%nat).
Fixpoint pos (d : nat) (mx : list nat) (i : nat) : nat := match i with O => 0 | S j => pos d mx j + slen d mx j end%nat.

Lemma pos_mono d mx i j : (i < j)%nat -> (pos d mx i + slen d mx i <= pos d mx j)%nat.
Proof. induction j as [|j IH]; intros H; [lia|]. cbn [pos]. destruct (Nat.eq_dec i j) as [->|]; [lia|]. specialize (IH ltac:(lia)). lia. Qed.

Definition the_worker (d : nat) (vs : list vec) mx B : worker :=
  MkW d (packed d vs mx) B (map (pos d mx) (seq 0 (2 * d + 2))) (pos d mx (2 * d + 1)).

Lemma upd_map_seq {A} (f : nat -> A) z k n : (k < n)%nat ->
  upd (map f (seq 0 k) ++ repeat z (n - k)) k (f k) = map f (seq 0 (S k)) ++ repeat z (n - S k).
Proof.
  intros H. replace (n - k)%nat with (S (n - S k)) by lia. cbn [repeat].
  replace k with (length (map f (seq 0 k)) + 0)%nat at 3 by (rewrite map_length, seq_length; lia).
  rewrite upd_app_r. cbn [upd]. rewrite seq_S, map_app, <- app_assoc. reflexivity.
Qed.

Lemma make_worker d (vs : list vec) mx B : (0 < d)%nat -> length mx = d -> w_make (packed d vs mx) B = Ok (the_worker d vs mx B).
Proof.
  intros Hd Hm. unfold w_make. cbn [f_Length f_MaxDegrees packed fdim fmax].
  set (n := (2 * d + 2)%nat).
  pose (St := fun k => (map (pos d mx) (seq 0 k) ++ repeat 0%nat (n - k), pos d mx k)).
  assert (E : forall i, seg_len d mx i = Ok (slen d mx i)).
  { intros i. unfold seg_len, slen. destruct (i <? 2 * d)%nat.
    - pose proof (Nat.mod_upper_bound i d). rewrite (raw_get_ok mx _ 0%nat) by lia. cbn [obind]. f_equal. lia.
    - rewrite (raw_get_ok mx _ 0%nat) by lia. cbn [obind]. f_equal. lia. }
  replace (repeat 0%nat n, 0%nat) with (St 0%nat) by (unfold St; cbn; rewrite Nat.sub_0_r; reflexivity).
  rewrite (ofold_seq _ St n 0).
  - cbn [obind Nat.add]. unfold St. cbn [fst]. rewrite Nat.sub_diag. cbn [repeat]. rewrite app_nil_r.
    rewrite (raw_get_ok _ _ (pos d mx 0)) by (rewrite map_length, seq_length; unfold n; lia). cbn [obind].
    unfold the_worker. fold n. rewrite map_nth, seq_nth by (unfold n; lia). reflexivity.
  - intros o Ho. unfold St. cbn [fst snd]. rewrite raw_set_ok by (rewrite app_length, map_length, seq_length, repeat_length; lia).
    cbn [obind]. rewrite E. cbn [obind]. rewrite upd_map_seq by lia. rewrite !Nat.add_1_r. reflexivity.
Qed.

Lemma seg_ok cache off n : (off + n <= length cache)%nat ->
  seg cache off n = Ok (firstn n (skipn off cache)) /\ length (firstn n (skipn off cache)) = n.
Proof.
  intros H. unfold seg. destruct (Nat.leb_spec (off + n) (length cache)); [|lia]. split; auto.
  rewrite firstn_length, skipn_length. lia.
Qed.

Lemma put_length cache off s : (off + length s <= length cache)%nat -> length (put cache off s) = length cache.
Proof. intros H. unfold put. rewrite !app_length, firstn_length, skipn_length. lia. Qed.

Lemma put_in cache off s k : (off + length s <= length cache)%nat -> (k < length s)%nat ->
  raw_get (put cache off s) (off + k) = raw_get s k.
Proof.
  intros H Hk. unfold raw_get, put. rewrite nth_error_app2; rewrite firstn_length; [|lia].
  rewrite nth_error_app1 by lia. replace (off + k - Nat.min off (length cache))%nat with k by lia. reflexivity.
Qed.

Lemma nth_error_skipn {A} (l : list A) n i : nth_error (skipn n l) i = nth_error l (n + i).
Proof. revert l. induction n; intros [|a l]; cbn; auto. destruct i; auto. Qed.
Lemma nth_error_firstn {A} (l : list A) n i : (i < n)%nat -> nth_error (firstn n l) i = nth_error l i.
Proof. revert l i. induction n; intros [|a l] [|i] H; cbn; auto; try lia. apply IHn. lia. Qed.

Lemma put_out cache off s j : (off + length s <= length cache)%nat -> (j < off \/ off + length s <= j)%nat ->
  raw_get (put cache off s) j = raw_get cache j.
Proof.
  intros H [Hj|Hj]; unfold raw_get, put.
  - rewrite nth_error_app1 by (rewrite firstn_length; lia). rewrite nth_error_firstn by lia. reflexivity.
  - rewrite nth_error_app2; rewrite firstn_length; [|lia]. rewrite nth_error_app2 by lia.
    rewrite nth_error_skipn.
    replace (off + length s + (j - Nat.min off (length cache) - length s))%nat with j by lia. reflexivity.
Qed.

(** Segment [p] of the cache holds f 0, f 1, ... *)
Definition has d mx (cache : list R) (p : nat) (f : nat -> R) : Prop :=
  forall k, (k < slen d mx p)%nat -> raw_get cache (pos d mx p + k) = Ok (f k).
Definition same d mx (c c' : list R) (p : nat) : Prop :=
  forall k, (k < slen d mx p)%nat -> raw_get c' (pos d mx p + k) = raw_get c (pos d mx p + k).
Definition room d mx (cache : list R) : Prop := (pos d mx (2 * d + 1) <= length cache)%nat.

Lemma has_same d mx c c' p f : has d mx c p f -> same d mx c c' p -> has d mx c' p f.
Proof. intros H S k Hk. rewrite S by auto. auto. Qed.
Lemma same_trans d mx a b c p : same d mx a b p -> same d mx b c p -> same d mx a c p.
Proof. intros H K k Hk. rewrite K, H; auto. Qed.

Lemma room_seg d mx cache p : room d mx cache -> (p <= 2 * d)%nat -> (pos d mx p + slen d mx p <= length cache)%nat.
Proof. intros H Hp. unfold room in H. pose proof (pos_mono d mx p (2 * d + 1) ltac:(lia)). lia. Qed.

Lemma put_seg d mx cache p s : room d mx cache -> (p <= 2 * d)%nat -> length s = slen d mx p ->
  length (put cache (pos d mx p) s) = length cache /\
  (forall f, (forall k, (k < slen d mx p)%nat -> raw_get s k = Ok (f k)) -> has d mx (put cache (pos d mx p) s) p f) /\
  forall q, q <> p -> same d mx cache (put cache (pos d mx p) s) q.
Proof.
  intros R Hp L. pose proof (room_seg d mx cache p R Hp). split; [apply put_length; lia|]. split.
  - intros f Hf k Hk. rewrite put_in by lia. auto.
  - intros q Hq k Hk. apply put_out; [lia|]. destruct (Nat.lt_ge_cases q p).
    + pose proof (pos_mono d mx q p ltac:(lia)). lia.
    + pose proof (pos_mono d mx p q ltac:(lia)). lia.
Qed.

Lemma start_get d (vs : list vec) mx B p : (p <= 2 * d + 1)%nat -> raw_get (wstart (the_worker d vs mx B)) p = Ok (pos d mx p).
Proof.
  intros H. cbn [the_worker wstart]. rewrite (raw_get_ok _ _ (pos d mx 0)) by (rewrite map_length, seq_length; lia).
  rewrite map_nth, seq_nth by lia. reflexivity.
Qed.

Lemma cget_has d (vs : list vec) mx B cache p f o : (p <= 2 * d)%nat -> has d mx cache p f -> (o < slen d mx p)%nat ->
  cget (the_worker d vs mx B) cache p o = Ok (f o).
Proof. intros Hp H Ho. unfold cget. rewrite start_get by lia. cbn [obind]. apply H. auto. Qed.

Lemma fill_raw f n out : length out = n -> (length (fill f n out) = n) /\ forall k, (k < n)%nat -> raw_get (fill f n out) k = Ok (f k).
Proof. intros L. split; [rewrite fill_length; lia|]. intros k Hk. apply fill_get; lia. Qed.

Lemma call_all_ok d (vs : list vec) mx B v N cache p m x : fills_values B v N -> (m <= N)%nat -> room d mx cache ->
  (p <= 2 * d)%nat -> slen d mx p = S m ->
  exists c', call_all (the_worker d vs mx B) cache p m x = Ok c' /\ length c' = length cache /\
    has d mx c' p (fun k => v k x) /\ forall q, q <> p -> same d mx cache c' q.
Proof.
  intros HB Hm R Hp L. pose proof (room_seg d mx cache p R Hp). unfold call_all. rewrite start_get by lia. cbn [obind].
  destruct (seg_ok cache (pos d mx p) (m + 1) ltac:(lia)) as [E1 E2]. rewrite E1. cbn [obind the_worker wbasis].
  rewrite HB by lia. cbn [obind].
  destruct (fill_raw (fun k => v k x) (S m) (firstn (m + 1) (skipn (pos d mx p) cache)) ltac:(lia)) as [F1 F2].
  destruct (put_seg d mx cache p _ R Hp (eq_trans F1 (eq_sym L))) as (P1 & P2 & P3).
  eexists. split; [reflexivity|]. split; auto. split; auto. apply P2. rewrite L. auto.
Qed.

Lemma call_derivs_ok d (vs : list vec) mx B v dv N cache p q m x : fills_derivs B v dv N -> (m <= N)%nat -> room d mx cache ->
  (p <= 2 * d)%nat -> (q <= 2 * d)%nat -> p <> q -> slen d mx p = S m -> slen d mx q = S m ->
  exists c', call_derivs (the_worker d vs mx B) cache p q m x = Ok c' /\ length c' = length cache /\
    has d mx c' p (fun k => v k x) /\ has d mx c' q (fun k => dv k x) /\
    forall r, r <> p -> r <> q -> same d mx cache c' r.
Proof.
  intros HB Hm R Hp Hq Hpq Lp Lq. pose proof (room_seg d mx cache p R Hp). pose proof (room_seg d mx cache q R Hq).
  unfold call_derivs. rewrite !start_get by lia. cbn [obind].
  destruct (seg_ok cache (pos d mx p) (m + 1) ltac:(lia)) as [E1 E2]. rewrite E1.
  destruct (seg_ok cache (pos d mx q) (m + 1) ltac:(lia)) as [E3 E4]. rewrite E3. cbn [obind the_worker wbasis].
  rewrite HB by lia. cbn [obind fst snd].
  destruct (fill_raw (fun k => v k x) (S m) (firstn (m + 1) (skipn (pos d mx p) cache)) ltac:(lia)) as [F1 F2].
  destruct (fill_raw (fun k => dv k x) (S m) (firstn (m + 1) (skipn (pos d mx q) cache)) ltac:(lia)) as [F3 F4].
  set (s1 := fill _ _ _) in *. set (s2 := fill _ _ (firstn (m + 1) (skipn (pos d mx q) cache))) in *.
  destruct (put_seg d mx cache p s1 R Hp ltac:(lia)) as (P1 & P2 & P3).
  assert (R1 : room d mx (put cache (pos d mx p) s1)) by (unfold room in *; lia).
  destruct (put_seg d mx _ q s2 R1 Hq ltac:(lia)) as (P4 & P5 & P6).
  eexists. split; [reflexivity|]. split; [lia|]. split; [|split].
  - apply has_same with (1 := P2 _ ltac:(rewrite Lp; exact F2)). apply P6. auto.
  - apply P5. rewrite Lq. exact F4.
  - intros r H1 H2. eapply same_trans; [apply P3; auto|apply P6; auto].
Qed.

Lemma call_second_ok d (vs : list vec) mx B v dv d2 N cache p q r m x : fills_second B v dv d2 N -> (m <= N)%nat -> room d mx cache ->
  (p <= 2 * d)%nat -> (q <= 2 * d)%nat -> (r <= 2 * d)%nat -> p <> q -> p <> r -> q <> r ->
  slen d mx p = S m -> slen d mx q = S m -> slen d mx r = S m ->
  exists c', call_second (the_worker d vs mx B) cache p q r m x = Ok c' /\ length c' = length cache /\
    has d mx c' p (fun k => v k x) /\ has d mx c' q (fun k => dv k x) /\ has d mx c' r (fun k => d2 k x) /\
    forall u, u <> p -> u <> q -> u <> r -> same d mx cache c' u.
Proof.
  intros HB Hm R Hp Hq Hr Hpq Hpr Hqr Lp Lq Lr. pose proof (room_seg d mx cache p R Hp). pose proof (room_seg d mx cache q R Hq).
  pose proof (room_seg d mx cache r R Hr).
  unfold call_second. rewrite !start_get by lia. cbn [obind].
  destruct (seg_ok cache (pos d mx p) (m + 1) ltac:(lia)) as [E1 E2]. rewrite E1.
  destruct (seg_ok cache (pos d mx q) (m + 1) ltac:(lia)) as [E3 E4]. rewrite E3.
  destruct (seg_ok cache (pos d mx r) (m + 1) ltac:(lia)) as [E5 E6]. rewrite E5. cbn [obind the_worker wbasis].
  rewrite HB by lia. cbn [obind fst snd].
  destruct (fill_raw (fun k => v k x) (S m) (firstn (m + 1) (skipn (pos d mx p) cache)) ltac:(lia)) as [F1 F2].
  destruct (fill_raw (fun k => dv k x) (S m) (firstn (m + 1) (skipn (pos d mx q) cache)) ltac:(lia)) as [F3 F4].
  destruct (fill_raw (fun k => d2 k x) (S m) (firstn (m + 1) (skipn (pos d mx r) cache)) ltac:(lia)) as [F5 F6].
  set (s1 := fill (fun k => v k x) _ _) in *. set (s2 := fill (fun k => dv k x) _ _) in *. set (s3 := fill (fun k => d2 k x) _ _) in *.
  destruct (put_seg d mx cache p s1 R Hp ltac:(lia)) as (P1 & P2 & P3).
  assert (R1 : room d mx (put cache (pos d mx p) s1)) by (unfold room in *; lia).
  destruct (put_seg d mx _ q s2 R1 Hq ltac:(lia)) as (P4 & P5 & P6).
  assert (R2 : room d mx (put (put cache (pos d mx p) s1) (pos d mx q) s2)) by (unfold room in *; lia).
  destruct (put_seg d mx _ r s3 R2 Hr ltac:(lia)) as (P7 & P8 & P9).
  eexists. split; [reflexivity|]. split; [lia|]. split; [|split; [|split]].
  - apply has_same with (1 := P2 _ ltac:(rewrite Lp; exact F2)). eapply same_trans; [apply P6|apply P9]; auto.
  - apply has_same with (1 := P5 _ ltac:(rewrite Lq; exact F4)). apply P9. auto.
  - apply P8. rewrite Lr. exact F6.
  - intros u H2 H3 H4. eapply same_trans; [apply P3; auto|]. eapply same_trans; [apply P6; auto|apply P9; auto].
Qed.

(** ** Filling the cache *)

Lemma slen_val d mx j : (j < d)%nat -> slen d mx j = S (nth j mx 0%nat).
Proof. intros H. unfold slen. destruct (Nat.ltb_spec j (2 * d)); [|lia]. rewrite Nat.mod_small by auto. reflexivity. Qed.
Lemma slen_der d mx j : (j < d)%nat -> slen d mx (d + j) = S (nth j mx 0%nat).
Proof.
  intros H. unfold slen. destruct (Nat.ltb_spec (d + j) (2 * d)); [|lia].
  replace (d + j)%nat with (j + 1 * d)%nat by lia. rewrite Nat.mod_add, Nat.mod_small by lia. reflexivity.
Qed.
Lemma slen_second d mx : slen d mx (2 * d) = S (nth (d - 1) mx 0%nat).
Proof. unfold slen. destruct (Nat.ltb_spec (2 * d) (2 * d)); [lia|]. reflexivity. Qed.

Definition in_flag (t : deriv_type) : bool := match t with DInput | DMixedInput => true | _ => false end.
Definition last_val (t : deriv_type) : bool := match t with DMixed => false | _ => true end.
Definition last_der (t : deriv_type) : bool := match t with DDiagonal | DDiagonal2 | DInput | DMixedInput => true | _ => false end.
Definition last_second (t : deriv_type) : bool := match t with DDiagonal2 | DMixedInput => true | _ => false end.

Section Fill.
Variables (d N : nat) (vs : list vec) (mx : list nat) (B : basis) (v dv d2 : nat -> R -> R).
Hypothesis Hd : (0 < d)%nat.
Hypothesis Hmx : length mx = d.
Hypothesis HN : forall j, (j < d)%nat -> (nth j mx 0 <= N)%nat.
Hypothesis HB0 : fills_values B v N.
Hypothesis HB1 : fills_derivs B v dv N.
Hypothesis HB2 : fills_second B v dv d2 N.
Notation W := (the_worker d vs mx B).

Lemma FillCache1_ok t cache pt : room d mx cache -> (d - 1 <= length pt)%nat ->
  exists c', w_FillCache1 W cache pt t = Ok c' /\ length c' = length cache /\
    (forall j, (j < d - 1)%nat -> has d mx c' j (fun k => v k (coord pt j))) /\
    (in_flag t = true -> forall j, (j < d - 1)%nat -> has d mx c' (d + j) (fun k => dv k (coord pt j))).
Proof.
  intros R Hpt. unfold w_FillCache1. cbn [the_worker wdim wset]. change (f_MaxDegrees (packed d vs mx)) with mx.
  destruct (ofold_inv (fun cache d0 => do x <- raw_get pt d0; do m <- raw_get mx d0;
      match t with DInput | DMixedInput => call_derivs W cache d0 (d0 + d) m x | _ => call_all W cache d0 m x end)
    (fun n c' => length c' = length cache /\
      (forall j, (j < n)%nat -> has d mx c' j (fun k => v k (coord pt j))) /\
      (in_flag t = true -> forall j, (j < n)%nat -> has d mx c' (d + j) (fun k => dv k (coord pt j)))) (d - 1) 0 cache)
    as (c' & E & H).
  - split; auto. split; [|intros _]; intros; lia.
  - intros i s Hi (L & H1 & H2). rewrite (raw_get_ok pt i 0), (raw_get_ok mx i 0%nat) by lia. cbn [obind].
    assert (Rs : room d mx s) by (unfold room in *; lia).
    destruct (in_flag t) eqn:F.
    + destruct (call_derivs_ok d vs mx B v dv N s i (d + i) (nth i mx 0%nat) (nth i pt 0)) as (c' & C1 & C2 & C3 & C4 & C5); auto;
        try lia; [apply HN; lia|apply slen_val; lia|apply slen_der; lia|].
      exists c'. split. { rewrite (Nat.add_comm i d). destruct t; try discriminate; exact C1. }
      split; [lia|]. split; [|intros _]; intros j Hj; (destruct (Nat.eq_dec j i) as [->|]; [assumption|]).
      * apply has_same with (1 := H1 j ltac:(lia)). apply C5; lia.
      * apply has_same with (1 := H2 eq_refl j ltac:(lia)). apply C5; lia.
    + destruct (call_all_ok d vs mx B v N s i (nth i mx 0%nat) (nth i pt 0)) as (c' & C1 & C2 & C3 & C4); auto;
        try lia; [apply HN; lia|apply slen_val; lia|].
      exists c'. split. { destruct t; try discriminate; exact C1. }
      split; [lia|]. split; [|discriminate]. intros j Hj; (destruct (Nat.eq_dec j i) as [->|]; [assumption|]).
      apply has_same with (1 := H1 j ltac:(lia)). apply C4; lia.
  - exists c'. split; [exact E|]. exact H.
Qed.

Lemma FillCache2_ok t cache xd : room d mx cache ->
  exists c', w_FillCache2 W cache xd t = Ok c' /\ length c' = length cache /\
    (last_val t = true -> has d mx c' (d - 1) (fun k => v k xd)) /\
    (last_der t = true -> has d mx c' (d + (d - 1)) (fun k => dv k xd)) /\
    (last_second t = true -> has d mx c' (2 * d) (fun k => d2 k xd)) /\
    forall q, q <> (d - 1)%nat -> q <> (d + (d - 1))%nat -> q <> (2 * d)%nat -> same d mx cache c' q.
Proof.
  intros R. unfold w_FillCache2. cbn [the_worker wdim wset]. change (f_MaxDegrees (packed d vs mx)) with mx.
  rewrite (raw_get_ok mx (d - 1) 0%nat) by lia. cbn [obind].
  replace (2 * d - 1)%nat with (d + (d - 1))%nat by lia.
  assert (A : exists c', call_all W cache (d - 1) (nth (d - 1) mx 0%nat) xd = Ok c' /\ length c' = length cache /\
    has d mx c' (d - 1) (fun k => v k xd) /\ forall q, q <> (d - 1)%nat -> same d mx cache c' q).
  { eapply call_all_ok; eauto; try lia; [apply HN; lia|apply slen_val; lia]. }
  assert (D : exists c', call_derivs W cache (d - 1) (d + (d - 1)) (nth (d - 1) mx 0%nat) xd = Ok c' /\ length c' = length cache /\
    has d mx c' (d - 1) (fun k => v k xd) /\ has d mx c' (d + (d - 1)) (fun k => dv k xd) /\
    forall r, r <> (d - 1)%nat -> r <> (d + (d - 1))%nat -> same d mx cache c' r).
  { eapply call_derivs_ok; eauto; try lia; [apply HN; lia|apply slen_val; lia|apply slen_der; lia]. }
  assert (S : exists c', call_second W cache (d - 1) (d + (d - 1)) (2 * d) (nth (d - 1) mx 0%nat) xd = Ok c' /\ length c' = length cache /\
    has d mx c' (d - 1) (fun k => v k xd) /\ has d mx c' (d + (d - 1)) (fun k => dv k xd) /\ has d mx c' (2 * d) (fun k => d2 k xd) /\
    forall u, u <> (d - 1)%nat -> u <> (d + (d - 1))%nat -> u <> (2 * d)%nat -> same d mx cache c' u).
  { eapply call_second_ok; eauto; try lia; [apply HN; lia|apply slen_val; lia|apply slen_der; lia|apply slen_second]. }
  destruct A as (ca & A1 & A2 & A3 & A4), D as (cd & D1 & D2 & D3 & D4 & D5), S as (cs & S1 & S2 & S3 & S4 & S5 & S6).
  destruct t; cbn [last_val last_der last_second].
  1,2: exists ca; repeat (split; auto; try discriminate).
  1,4: exists cd; repeat (split; auto; try discriminate).
  1,3: exists cs; repeat (split; auto; try discriminate).
  exists cache. repeat (split; auto; try discriminate). 
Qed.

(** What a filled cache holds: values, first derivatives (with respect to all inputs or to the
    last one only) and second derivatives in the last input. *)
Definition cache_vals (c pt : list R) : Prop := forall j, (j < d)%nat -> has d mx c j (fun k => v k (coord pt j)).
Definition cache_ders (c pt : list R) : Prop := forall j, (j < d)%nat -> has d mx c (d + j) (fun k => dv k (coord pt j)).
Definition cache_last (c pt : list R) : Prop := has d mx c (d + (d - 1)) (fun k => dv k (coord pt (d - 1))).
Definition cache_second (c pt : list R) : Prop := has d mx c (2 * d) (fun k => d2 k (coord pt (d - 1))).

Lemma Fill_ok t cache pt : room d mx cache -> length pt = d ->
  exists c', w_Fill W cache pt t = Ok c' /\ length c' = length cache /\
    (last_val t = true -> cache_vals c' pt) /\ (in_flag t = true -> cache_ders c' pt) /\
    (last_der t = true -> cache_last c' pt) /\ (last_second t = true -> cache_second c' pt).
Proof.
  intros R Hp. unfold w_Fill. destruct (FillCache1_ok t cache pt R ltac:(lia)) as (c1 & E1 & L1 & V1 & D1).
  rewrite E1. cbn [obind]. rewrite Hp. rewrite (raw_get_ok pt (d - 1) 0) by lia. cbn [obind].
  destruct (FillCache2_ok t c1 (nth (d - 1) pt 0)) as (c2 & E2 & L2 & V2 & D2 & S2 & F2); [unfold room in *; lia|].
  exists c2. split; auto. split; [lia|]. split; [|split; [|split]].
  - intros Ht j Hj. destruct (Nat.eq_dec j (d - 1)) as [->|]; [apply V2; auto|].
    apply has_same with (1 := V1 j ltac:(lia)). apply F2; lia.
  - intros Ht j Hj. destruct (Nat.eq_dec j (d - 1)) as [->|]; [apply D2; destruct t; auto|].
    apply has_same with (1 := D1 Ht j ltac:(lia)). apply F2; lia.
  - auto.
  - auto.
Qed.
End Fill.
