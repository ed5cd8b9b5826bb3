(** Proofs about the Clenshaw-Curtis rule. *)
From Coq Require Import Reals Lra Psatz.
From Coquelicot Require Import Coquelicot.
From Verif Require Import Base SpecMulti SpecExpansion SpecQuad SpecPoly PolyModel PolyProofs BijProofs QuadModel.
Local Open Scope R_scope.

(** ** Finite sums *)

Lemma rsum_plus f g n : rsum (fun i => f i + g i) n = rsum f n + rsum g n.
Proof. induction n as [|n IH]; cbn [rsum]; [ring|]. rewrite IH. ring. Qed.
Lemma rsum_scal c f n : rsum (fun i => c * f i) n = c * rsum f n.
Proof. induction n as [|n IH]; cbn [rsum]; [ring|]. rewrite IH. ring. Qed.
Lemma rsum_shift f n : rsum f (S n) = f 0%nat + rsum (fun i => f (S i)) n.
Proof. induction n as [|n IH]; cbn [rsum] in *; [ring|]. rewrite IH. ring. Qed.
Lemma rsum_swap (f : nat -> nat -> R) n m : rsum (fun i => rsum (fun j => f i j) m) n = rsum (fun j => rsum (fun i => f i j) n) m.
Proof.
  induction n as [|n IH]; cbn [rsum].
  - induction m as [|m IHm]; cbn [rsum]; auto. rewrite <- IHm. ring.
  - rewrite IH, <- rsum_plus. reflexivity.
Qed.
Lemma rsum_pick f k n : (k < n)%nat -> (forall i, (i < n)%nat -> i <> k -> f i = 0) -> rsum f n = f k.
Proof.
  induction n as [|n IH]; intros Hk H; [lia|]. cbn [rsum]. destruct (Nat.eq_dec k n) as [->|Hn].
  - rewrite (rsum_ext f (fun _ => 0)) by (intros; apply H; lia).
    assert (E : forall m, rsum (fun _ => 0) m = 0) by (induction m as [|m IHm]; cbn [rsum]; [auto|rewrite IHm; ring]).
    rewrite E. ring.
  - rewrite IH by (try lia; intros; apply H; lia). rewrite (H n) by lia. ring.
Qed.
Lemma rsum_zero f n : (forall i, (i < n)%nat -> f i = 0) -> rsum f n = 0.
Proof. intros H. induction n as [|n IH]; cbn [rsum]; auto. rewrite IH, H by auto. ring. Qed.
Lemma rsum_le f g n : (forall i, (i < n)%nat -> f i <= g i) -> rsum f n <= rsum g n.
Proof. intros H. induction n as [|n IH]; cbn [rsum]; [lra|]. specialize (H n ltac:(lia)) as Hn. assert (rsum f n <= rsum g n) by (apply IH; auto). lra. Qed.
Lemma rsum_telescope f n : rsum (fun i => f (S i) - f i) n = f n - f 0%nat.
Proof. induction n as [|n IH]; cbn [rsum]; [ring|]. rewrite IH. ring. Qed.

(** ** What GetRule computes *)

Definition cc_theta (N i : nat) : R := INR i * PI / INR N.
Definition cc_b (N j : nat) : R := if (2 * (j + 1) =? N)%nat then 1 else 2.
Definition cc_u (N : nat) (th : R) (J : nat) : R :=
  1 - rsum (fun j => cc_b N j * cos (2 * INR (j + 1) * th) / INR (4 * (j + 1) * (j + 1) - 1)) J.
Definition cc_c (N i : nat) : R := if (i =? 0)%nat || (i =? N)%nat then 1 else 2.
Definition cc_w (N i : nat) : R := cc_c N i * cc_u N (cc_theta N i) (N / 2) / INR N.
Definition cc_x (N i : nat) : R := cos (INR (N - i) * PI / INR N).

Lemma fill_whole f n out : length out = n -> fill f n out = map f (seq 0 n).
Proof. intros L. unfold fill. rewrite skipn_all2 by lia. apply app_nil_r. Qed.

Lemma upd_map f n k (v : R) : (k < n)%nat -> v = f k -> upd (map f (seq 0 n)) k v = map f (seq 0 n).
Proof.
  intros Hk ->. replace (f k) with (nth k (map f (seq 0 n)) 0); [apply upd_same; rewrite map_length, seq_length; lia|].
  rewrite nth_indep with (d' := f 0%nat) by (rewrite map_length, seq_length; lia). rewrite map_nth, seq_nth by lia. reflexivity.
Qed.

Lemma nth_map_seq (f : nat -> R) n k d : (k < n)%nat -> nth k (map f (seq 0 n)) d = f k.
Proof.
  intros H. rewrite nth_indep with (d' := f 0%nat) by (rewrite map_length, seq_length; lia).
  rewrite map_nth, seq_nth by lia. reflexivity.
Qed.

(** replacing position k of a mapped list *)
Lemma upd_map_change (f g : nat -> R) n k : (forall i, (i < n)%nat -> i <> k -> f i = g i) -> (k < n)%nat ->
  upd (map f (seq 0 n)) k (g k) = map g (seq 0 n).
Proof.
  intros H Hk. apply nth_ext_eq with (d := 0).
  - rewrite upd_length, !map_length. reflexivity.
  - intros i Hi. rewrite upd_length, map_length, seq_length in Hi. destruct (Nat.eq_dec k i) as [->|Hn].
    + rewrite nth_upd_eq by (rewrite map_length, seq_length; lia). now rewrite nth_map_seq.
    + rewrite nth_upd_neq by auto. rewrite !nth_map_seq by lia. apply H; auto.
Qed.

Lemma INR_S_pos n : 0 < INR (S n).
Proof. apply lt_0_INR. lia. Qed.

Lemma GetRule_ok N wts pts : (1 <= N)%nat -> length wts = S N -> length pts = S N ->
  GetRule (S N) wts pts = Ok (map (cc_w N) (seq 0 (S N)), map (cc_x N) (seq 0 (S N))).
Proof.
  intros HN Lw Lp. unfold GetRule. destruct N as [|N0]; [lia|]. set (N := S N0) in *.
  replace (S N - 1)%nat with N by lia.
  rewrite (ofold_write (cc_x N) _ (S N) pts); [|auto|].
  2:{ intros o j Hj. unfold cc_x. do 5 f_equal. lia. }
  cbn [obind].
  assert (HR : 0 < INR N) by (apply lt_0_INR; lia).
  assert (LL : length (map (cc_x N) (seq 0 (S N))) = S N) by (rewrite map_length, seq_length; auto).
  assert (X0 : -1 = cc_x N 0).
  { unfold cc_x. rewrite Nat.sub_0_r. replace (INR N * PI / INR N) with PI by (field; lra). now rewrite cos_PI. }
  assert (XN : 1 = cc_x N N).
  { unfold cc_x. rewrite Nat.sub_diag. cbn [INR]. replace (0 * PI / INR N) with 0 by (field; lra). now rewrite cos_0. }
  rewrite raw_set_ok by lia. cbn [obind]. rewrite (upd_map (cc_x N)) by (auto; lia).
  assert (XM : (S N mod 2 =? 1)%nat = true -> 0 = cc_x N (N / 2)).
  { intros E. apply Nat.eqb_eq in E. pose proof (Nat.div_mod N 2 ltac:(lia)). pose proof (Nat.div_mod (S N) 2 ltac:(lia)).
    pose proof (Nat.mod_upper_bound N 2 ltac:(lia)). set (k := (N / 2)%nat) in *.
    assert (N = 2 * k)%nat by lia.
    unfold cc_x. replace (N - k)%nat with k by lia. replace (INR N) with (2 * INR k) by (rewrite H2, mult_INR; cbn; ring).
    replace (INR k * PI / (2 * INR k)) with (PI / 2); [now rewrite cos_PI2|].
    assert (INR k <> 0) by (apply not_0_INR; lia). field; auto. }
  assert (EM : (if (S N mod 2 =? 1)%nat then raw_set (map (cc_x N) (seq 0 (S N))) (N / 2) 0 else Ok (map (cc_x N) (seq 0 (S N))))
             = Ok (map (cc_x N) (seq 0 (S N)))).
  { destruct (S N mod 2 =? 1)%nat eqn:E; auto. pose proof (Nat.div_lt N 2 ltac:(lia) ltac:(lia)).
    rewrite raw_set_ok by lia. rewrite (upd_map (cc_x N)) by (auto; lia). reflexivity. }
  rewrite EM. cbn [obind]. rewrite raw_set_ok by lia. cbn [obind]. rewrite (upd_map (cc_x N)) by (auto; lia).
  (* weights *)
  rewrite (ofold_write (fun i => cc_u N (cc_theta N i) (N / 2)) _ (S N) wts); [|auto|].
  2:{ intros o j Hj. unfold raw_set at 1. destruct (Nat.ltb_spec j (length o)) as [Hl|Hl]; cbn [obind].
      2:{ unfold raw_set. destruct (Nat.ltb_spec j (length o)); [lia|reflexivity]. }
      replace (upd o j 1) with (upd o j (cc_u N (cc_theta N j) 0)) by (unfold cc_u; cbn [rsum]; f_equal; ring).
      rewrite (ofold_seq _ (fun k => upd o j (cc_u N (cc_theta N j) k))).
      - rewrite raw_set_ok by lia. reflexivity.
      - intros k Hk. rewrite raw_get_ok with (d := 0) by (rewrite upd_length; lia). cbn [obind].
        rewrite nth_upd_eq by lia. rewrite raw_set_ok by (rewrite upd_length; lia). rewrite upd_upd_eq.
        do 2 f_equal. replace (k + 1)%nat with (S k) by lia. unfold cc_u. cbn [rsum]. unfold cc_b, cc_theta.
        replace (S k) with (k + 1)%nat by lia. ring. }
  cbn [obind].
  set (u := fun i => cc_u N (cc_theta N i) (N / 2)).
  assert (SN : INR (S N) - 1 = INR N) by (rewrite S_INR; ring). rewrite SN.
  rewrite raw_get_ok with (d := 0) by (rewrite map_length, seq_length; lia). cbn [obind].
  rewrite nth_map_seq by lia. rewrite raw_set_ok by (rewrite map_length, seq_length; lia). cbn [obind].
  set (v := fun k i => if (i <? k)%nat then (if (i =? 0)%nat then u i / INR N else 2 * u i / INR N) else u i).
  replace (upd (map u (seq 0 (S N))) 0 (u 0%nat / INR N)) with (map (v 1%nat) (seq 0 (S N))).
  2:{ symmetry. change (u 0%nat / INR N) with (v 1%nat 0%nat). apply upd_map_change; [|lia].
      intros i Hi Hn. unfold v. destruct (Nat.ltb_spec i 1); auto; lia. }
  replace (S N - 2)%nat with (N - 1)%nat by lia.
  rewrite (ofold_seq _ (fun k => map (v k) (seq 0 (S N)))).
  2:{ intros k Hk. rewrite raw_get_ok with (d := 0) by (rewrite map_length, seq_length; lia). cbn [obind].
      rewrite nth_map_seq by lia. rewrite raw_set_ok by (rewrite map_length, seq_length; lia). f_equal.
      replace (2 * v k k / INR N) with (v (k + 1)%nat k).
      - apply upd_map_change; [|lia]. intros i Hi Hn. unfold v.
        destruct (Nat.ltb_spec i k), (Nat.ltb_spec i (k + 1)); auto; lia.
      - unfold v. destruct (Nat.ltb_spec k (k + 1)), (Nat.ltb_spec k k), (Nat.eqb_spec k 0); try lia. reflexivity. }
  cbn [obind]. replace (1 + (N - 1))%nat with N by lia.
  rewrite raw_get_ok with (d := 0) by (rewrite map_length, seq_length; lia). cbn [obind].
  rewrite nth_map_seq by lia. rewrite raw_set_ok by (rewrite map_length, seq_length; lia). cbn [obind].
  f_equal. f_equal. replace (v N N / INR N) with (cc_w N N).
  - apply upd_map_change; [|lia]. intros i Hi Hn. unfold v, cc_w, cc_c, u.
    destruct (Nat.ltb_spec i N); [|lia]. destruct (Nat.eqb_spec i 0), (Nat.eqb_spec i N); cbn [orb]; try lia; field; lra.
  - unfold v, cc_w, cc_c, u. destruct (Nat.ltb_spec N N); [lia|]. rewrite Nat.eqb_refl, orb_true_r. field; lra.
Qed.

(** ** Trapezoidal sums of cosines *)

Lemma rsum_app f n m : rsum f (n + m) = rsum f n + rsum (fun i => f (n + i)%nat) m.
Proof. induction m as [|m IH]; cbn [rsum]; [rewrite Nat.add_0_r; ring|]. rewrite Nat.add_succ_r. cbn [rsum]. rewrite IH. ring. Qed.

Lemma trap g N : (1 <= N)%nat -> rsum (fun i => cc_c N i * g i) (S N) = rsum (fun i => g i + g (S i)) N.
Proof.
  intros HN. destruct N as [|M]; [lia|]. rewrite rsum_shift. cbn [rsum].
  rewrite rsum_plus. pose proof (rsum_shift g M) as Eg. cbn [rsum] in Eg.
  rewrite (rsum_ext (fun i => cc_c (S M) (S i) * g (S i)) (fun i => 2 * g (S i))).
  2:{ intros i Hi. unfold cc_c. destruct (Nat.eqb_spec (S i) 0), (Nat.eqb_spec (S i) (S M)); try lia. reflexivity. }
  rewrite rsum_scal. unfold cc_c at 1 2. cbn [Nat.eqb orb]. rewrite Nat.eqb_refl. lra.
Qed.

Lemma sin_nat_PI m : sin (INR m * PI) = 0.
Proof. apply sin_eq_0_1. exists (Z.of_nat m). now rewrite <- INR_IZR_INZ. Qed.

Lemma cos_nat_PI m : cos (INR m * PI) = (-1) ^ m.
Proof.
  induction m as [|m IH]; [cbn; now rewrite Rmult_0_l, cos_0|].
  rewrite S_INR, Rmult_plus_distr_r, Rmult_1_l, neg_cos, IH. cbn [pow]. ring.
Qed.

Definition cc_S (N m : nat) : R := rsum (fun i => cc_c N i * cos (INR m * cc_theta N i)) (S N).

Lemma cc_S_zero N m : (0 < m < 2 * N)%nat -> cc_S N m = 0.
Proof.
  intros H. unfold cc_S. rewrite trap by lia.
  assert (HN : 0 < INR N) by (apply lt_0_INR; lia).
  set (h := INR m * PI / INR N).
  assert (E : 2 * sin (h / 2) * rsum (fun i => cos (INR m * cc_theta N i) + cos (INR m * cc_theta N (S i))) N
            = 2 * cos (h / 2) * rsum (fun i => sin (INR (S i) * h) - sin (INR i * h)) N).
  { rewrite <- !rsum_scal. apply rsum_ext. intros i _.
    replace (INR m * cc_theta N i) with (INR i * h) by (unfold cc_theta, h; field; lra).
    replace (INR m * cc_theta N (S i)) with (INR (S i) * h) by (unfold cc_theta, h; field; lra).
    rewrite S_INR. set (A := (INR i + 1/2) * h).
    replace (INR i * h) with (A - h / 2) by (unfold A; field). replace ((INR i + 1) * h) with (A + h / 2) by (unfold A; field).
    rewrite cos_minus, cos_plus, sin_minus, sin_plus. ring. }
  rewrite (rsum_telescope (fun i => sin (INR i * h))) in E.
  replace (INR N * h) with (INR m * PI) in E by (unfold h; field; lra).
  rewrite sin_nat_PI in E. cbn [INR] in E. rewrite Rmult_0_l, sin_0, Rminus_0_r, Rmult_0_r in E.
  assert (0 < sin (h / 2)).
  { assert (0 < INR m) by (apply lt_0_INR; lia). assert (INR m < 2 * INR N) by (replace 2 with (INR 2) by reflexivity; rewrite <- mult_INR; apply lt_INR; lia).
    pose proof PI_RGT_0. apply sin_gt_0.
    - unfold h. apply Rdiv_lt_0_compat; [|lra]. apply Rdiv_lt_0_compat; nra.
    - unfold h. apply Rmult_lt_reg_r with (2 * INR N); [lra|]. replace (INR m * PI / INR N / 2 * (2 * INR N)) with (INR m * PI) by (field; lra). nra. }
  apply Rmult_integral in E. destruct E as [E|E]; [lra|auto].
Qed.

Lemma cc_S_full N m : (1 <= N)%nat -> (m = 0 \/ m = 2 * N)%nat -> cc_S N m = 2 * INR N.
Proof.
  intros HN Hm. unfold cc_S. rewrite trap by lia. assert (0 < INR N) by (apply lt_0_INR; lia).
  rewrite (rsum_ext _ (fun _ => 2)).
  - clear. induction N as [|N IH]; [cbn; ring|]. cbn [rsum]. rewrite IH, S_INR. ring.
  - assert (A : forall i, cos (INR m * cc_theta N i) = 1).
    { intros i. destruct Hm as [->| ->]; [cbn [INR]; now rewrite Rmult_0_l, cos_0|].
      replace (INR (2 * N) * cc_theta N i) with (0 + 2 * INR i * PI).
      - rewrite cos_period. apply cos_0.
      - unfold cc_theta. rewrite mult_INR. cbn [INR]. field. lra. }
    intros i _. rewrite !A. ring.
Qed.

Lemma cos_cos a b : cos a * cos b = (cos (a + b) + cos (a - b)) / 2.
Proof. rewrite cos_plus, cos_minus. field. Qed.

Lemma cc_orth N k j : (1 <= N)%nat -> (k <= N)%nat -> (j < N / 2)%nat ->
  rsum (fun i => cc_c N i * (cos (2 * INR (j + 1) * cc_theta N i) * cos (INR k * cc_theta N i))) (S N) * cc_b N j
  = if (k =? 2 * (j + 1))%nat then 2 * INR N else 0.
Proof.
  intros HN Hk Hj. set (l := (2 * (j + 1))%nat). assert (Hl : (2 <= l <= N)%nat).
  { unfold l. pose proof (Nat.div_mod N 2 ltac:(lia)). lia. }
  set (df := (if k <=? l then l - k else k - l)%nat).
  assert (E : rsum (fun i => cc_c N i * (cos (2 * INR (j + 1) * cc_theta N i) * cos (INR k * cc_theta N i))) (S N)
            = (cc_S N (l + k) + cc_S N df) / 2).
  { unfold cc_S. rewrite <- rsum_plus. unfold Rdiv. rewrite (Rmult_comm _ (/2)). rewrite <- rsum_scal.
    apply rsum_ext. intros i _. replace (2 * INR (j + 1)) with (INR l) by (unfold l; rewrite mult_INR; cbn; ring).
    rewrite cos_cos. rewrite plus_INR.
    replace (INR l * cc_theta N i + INR k * cc_theta N i) with ((INR l + INR k) * cc_theta N i) by ring.
    replace (cos (INR l * cc_theta N i - INR k * cc_theta N i)) with (cos (INR df * cc_theta N i)); [field|].
    unfold df. destruct (Nat.leb_spec k l).
    - rewrite minus_INR by lia. f_equal. ring.
    - rewrite minus_INR by lia. rewrite <- cos_neg. f_equal. ring. }
  rewrite E. unfold cc_b. fold l.
  destruct (Nat.eqb_spec k l) as [->|Hn].
  - assert (D : df = 0%nat) by (unfold df; destruct (Nat.leb_spec l l); lia). rewrite D, (cc_S_full N 0) by auto.
    destruct (Nat.eqb_spec l N) as [->|Hl2].
    + rewrite cc_S_full by lia. field.
    + rewrite cc_S_zero by lia. field.
  - rewrite (cc_S_zero N (l + k)) by lia. rewrite (cc_S_zero N df); [field|]. unfold df. destruct (Nat.leb_spec k l); lia.
Qed.

(** ** Chebyshev polynomials *)

Fixpoint cheb2 (n : nat) (x : R) : R * R :=
  match n with O => (1, x) | S m => let p := cheb2 m x in (snd p, 2 * x * snd p - fst p) end.
Definition cheb (n : nat) (x : R) : R := fst (cheb2 n x).
Lemma cheb_SS n x : cheb (S (S n)) x = 2 * x * cheb (S n) x - cheb n x.
Proof. reflexivity. Qed.
Fixpoint chebu2 (n : nat) (x : R) : R * R :=
  match n with O => (1, 2 * x) | S m => let p := chebu2 m x in (snd p, 2 * x * snd p - fst p) end.
Definition chebu (n : nat) (x : R) : R := fst (chebu2 n x).
Lemma chebu_SS n x : chebu (S (S n)) x = 2 * x * chebu (S n) x - chebu n x.
Proof. reflexivity. Qed.

Lemma cheb_cos n : forall t, cheb n (cos t) = cos (INR n * t).
Proof.
  assert (H : forall n t, cheb n (cos t) = cos (INR n * t) /\ cheb (S n) (cos t) = cos (INR (S n) * t)).
  { clear n. induction n as [|n IH]; intros t.
    - split; unfold cheb; cbn [cheb2 fst snd]; [cbn [INR]; now rewrite Rmult_0_l, cos_0|]. cbn [INR]. now rewrite Rmult_1_l.
    - destruct (IH t) as [A B]. split; auto. rewrite cheb_SS, A, B. rewrite !S_INR.
      replace ((INR n + 1 + 1) * t) with ((INR n + 1) * t + t) by ring.
      replace (INR n * t) with ((INR n + 1) * t - t) by ring. rewrite cos_plus, cos_minus. ring. }
  intros t. apply H.
Qed.

Lemma cheb_u n x : 2 * cheb (S (S n)) x = chebu (S (S n)) x - chebu n x.
Proof.
  assert (H : forall n, 2 * cheb (S (S n)) x = chebu (S (S n)) x - chebu n x /\ 2 * cheb (S (S (S n))) x = chebu (S (S (S n))) x - chebu (S n) x).
  { clear n. induction n as [|n [A B]].
    - split; unfold cheb, chebu; cbn [cheb2 chebu2 fst snd]; ring.
    - split; auto. rewrite (cheb_SS (S (S n))), (chebu_SS (S (S n))). rewrite (chebu_SS n).
      replace (2 * (2 * x * cheb (S (S (S n))) x - cheb (S (S n)) x)) with (2 * x * (2 * cheb (S (S (S n))) x) - 2 * cheb (S (S n)) x) by ring.
      rewrite A, B. rewrite !(chebu_SS n). ring. }
  apply H.
Qed.

Lemma cheb_derive n x : is_derive (cheb (S n)) x (INR (S n) * chebu n x).
Proof.
  assert (H : forall n, is_derive (cheb (S n)) x (INR (S n) * chebu n x) /\ is_derive (cheb (S (S n))) x (INR (S (S n)) * chebu (S n) x)).
  { clear n. induction n as [|n [A B]].
    - split.
      + apply is_derive_ext with (f := fun t : R => t); [reflexivity|]. cbn [INR]. unfold chebu. cbn [chebu2 fst].
        rewrite Rmult_1_l. apply (is_derive_id (K := R_AbsRing)).
      + apply is_derive_ext with (f := fun t : R => 2 * t * t - 1); [intros t; unfold cheb; cbn [cheb2 fst snd]; reflexivity|].
        auto_derive; auto. unfold chebu. cbn [chebu2 fst snd INR]. ring.
    - split; auto.
      apply is_derive_ext with (f := fun t : R => 2 * t * cheb (S (S n)) t - cheb (S n) t); [reflexivity|].
      auto_derive; [split; [eexists; apply B|split; [eexists; apply A|auto]]|].
      rewrite (is_derive_unique (fun t : R => cheb (S (S n)) t) x _ B). rewrite (is_derive_unique (fun t : R => cheb (S n) t) x _ A).
      rewrite chebu_SS. pose proof (cheb_u n x) as U. rewrite chebu_SS in U.
      rewrite !S_INR. replace (2 * 1 * cheb (S (S n)) x) with (2 * cheb (S (S n)) x) by ring. rewrite U. ring. }
  apply H.
Qed.

Lemma cheb_cont n x : continuous (cheb n) x.
Proof.
  destruct n as [|n]; [apply continuous_const|]. apply (ex_derive_continuous (cheb (S n))). eexists. apply cheb_derive.
Qed.

Lemma cheb_1 n : cheb n 1 = 1.
Proof. rewrite <- cos_0. rewrite cheb_cos, Rmult_0_r. reflexivity. Qed.
Lemma cheb_m1 n : cheb n (-1) = (-1) ^ n.
Proof. rewrite <- cos_PI. rewrite cheb_cos. now rewrite cos_nat_PI, cos_PI. Qed.

(** The integral of the n-th Chebyshev polynomial over [-1,1]. *)
Definition cheb_int (n : nat) : R := if Nat.even n then 2 / (1 - INR n * INR n) else 0.

Lemma pow_m1 n : (-1) ^ n = if Nat.even n then 1 else -1.
Proof.
  induction n as [|n IH]; [reflexivity|]. cbn [pow]. rewrite IH, Nat.even_succ, <- Nat.negb_even.
  destruct (Nat.even n); cbn [negb]; ring.
Qed.

Lemma cheb_RInt n : is_RInt (cheb n) (-1) 1 (cheb_int n).
Proof.
  destruct n as [|[|n]].
  - replace (cheb_int 0) with (scal (1 - (-1)) 1) by (unfold cheb_int, scal; cbn; unfold mult; cbn; field). apply (is_RInt_const (V := R_NormedModule)).
  - replace (cheb_int 1) with (minus (1 * 1 / 2) (-1 * -1 / 2)) by (unfold cheb_int, minus, plus, opp; cbn; field).
    apply (is_RInt_derive (fun t => t * t / 2)).
    + intros x _. auto_derive; auto. unfold cheb. cbn [cheb2 fst snd]. field.
    + intros x _. apply cheb_cont.
  - set (k := S (S n)).
    set (A := fun t => cheb (S k) t / (2 * INR (S k)) - cheb (S n) t / (2 * INR (S n))).
    assert (P1 : 0 < INR (S k)) by apply INR_S_pos. assert (P2 : 0 < INR (S n)) by apply INR_S_pos.
    replace (cheb_int k) with (minus (A 1) (A (-1))).
    + apply (is_RInt_derive A); [|intros; apply cheb_cont].
      intros x _. unfold A. pose proof (cheb_derive k x) as D1. pose proof (cheb_derive n x) as D2.
      revert D1 D2 P1 P2. generalize (INR (S k)) (INR (S n)). intros p1 p2 D1 D2 P1 P2. auto_derive; [split; [eexists; apply D1|split; [eexists; apply D2|auto]]|].
      rewrite (is_derive_unique (fun t : R => cheb (S k) t) x _ D1).
      rewrite (is_derive_unique (fun t : R => cheb (S n) t) x _ D2).
      pose proof (cheb_u n x) as U. fold k in U. apply Rmult_eq_reg_l with 2; [|lra]. rewrite U. field. lra.
    + unfold minus, plus, opp. cbn [AbelianGroup.sort NormedModuleAux.AbelianGroup]. unfold A.
      change (cheb (S k) 1 / (2 * INR (S k)) - cheb (S n) 1 / (2 * INR (S n)) - (cheb (S k) (-1) / (2 * INR (S k)) - cheb (S n) (-1) / (2 * INR (S n))) = cheb_int k).
      rewrite !cheb_1, !cheb_m1. rewrite !pow_m1. unfold cheb_int, k. rewrite !Nat.even_succ_succ. rewrite !S_INR.
      replace (Nat.even (S n)) with (negb (Nat.even n)) by (rewrite Nat.even_succ, <- Nat.negb_even; auto).
      pose proof (pos_INR n). destruct (Nat.even n); cbn [negb]; field; repeat split; try lra; nra.
Qed.

(** ** Exactness *)

Definition cc_pts (N : nat) : list R := map (cc_x N) (seq 0 (S N)).
Definition cc_wts (N : nat) : list R := map (cc_w N) (seq 0 (S N)).

Lemma cc_pts_length N : length (cc_pts N) = S N.
Proof. unfold cc_pts. now rewrite map_length, seq_length. Qed.
Lemma cc_wts_length N : length (cc_wts N) = S N.
Proof. unfold cc_wts. now rewrite map_length, seq_length. Qed.

Lemma rule_sum_cc N g : rule_sum (cc_pts N) (cc_wts N) g = rsum (fun i => cc_w N i * g (cc_x N i)) (S N).
Proof.
  unfold rule_sum. rewrite cc_pts_length. apply rsum_ext. intros i Hi. unfold cc_pts, cc_wts. now rewrite !nth_map_seq.
Qed.

Lemma cc_x_theta N i : (1 <= N)%nat -> (i <= N)%nat -> cc_x N i = cos (PI - cc_theta N i).
Proof.
  intros HN Hi. unfold cc_x, cc_theta. f_equal. rewrite minus_INR by lia. assert (0 < INR N) by (apply lt_0_INR; lia). field. lra.
Qed.

Lemma cheb_node N k i : (1 <= N)%nat -> (i <= N)%nat -> cheb k (cc_x N i) = (-1) ^ k * cos (INR k * cc_theta N i).
Proof.
  intros HN Hi. rewrite cc_x_theta, cheb_cos by auto.
  replace (INR k * (PI - cc_theta N i)) with (INR k * PI - INR k * cc_theta N i) by ring.
  rewrite cos_minus, sin_nat_PI, cos_nat_PI. ring.
Qed.

Lemma cc_cheb N k : (1 <= N)%nat -> (k <= N)%nat -> rule_sum (cc_pts N) (cc_wts N) (cheb k) = cheb_int k.
Proof.
  intros HN Hk. rewrite rule_sum_cc. assert (HR : 0 < INR N) by (apply lt_0_INR; lia).
  set (d := fun j => INR (4 * (j + 1) * (j + 1) - 1)).
  rewrite (rsum_ext _ (fun i => (-1) ^ k / INR N * (cc_c N i * cos (INR k * cc_theta N i)
     - rsum (fun j => cc_b N j / d j * (cc_c N i * (cos (2 * INR (j + 1) * cc_theta N i) * cos (INR k * cc_theta N i)))) (N / 2)))).
  2:{ intros i Hi. rewrite cheb_node by lia. unfold cc_w, cc_u. fold d.
      rewrite (rsum_ext (fun j => cc_b N j / d j * _) (fun j => cc_c N i * cos (INR k * cc_theta N i) * (cc_b N j * cos (2 * INR (j + 1) * cc_theta N i) / d j))).
      2:{ intros j _. unfold Rdiv. ring. }
      rewrite rsum_scal. unfold d. field. lra. }
  rewrite rsum_scal. unfold Rminus. rewrite rsum_plus. fold (cc_S N k).
  rewrite (rsum_ext (fun i => - _) (fun i => -1 * rsum (fun j => cc_b N j / d j * (cc_c N i * (cos (2 * INR (j + 1) * cc_theta N i) * cos (INR k * cc_theta N i)))) (N / 2))) by (intros; ring).
  rewrite rsum_scal, rsum_swap.
  rewrite (rsum_ext _ (fun j => (if (k =? 2 * (j + 1))%nat then 2 * INR N else 0) / d j)).
  2:{ intros j Hj. rewrite rsum_scal. rewrite <- (cc_orth N k j) by auto. unfold Rdiv. ring. }
  rewrite pow_m1. unfold cheb_int. destruct (Nat.even k) eqn:Ev.
  - apply Nat.even_spec in Ev. destruct Ev as [m Em]. destruct m as [|m].
    + replace k with 0%nat by lia. rewrite cc_S_full by auto. rewrite rsum_zero; [cbn [INR]; field; lra|].
      intros j _. destruct (Nat.eqb_spec 0 (2 * (j + 1))); [lia|]. unfold Rdiv. ring.
    + rewrite cc_S_zero by lia. rewrite (rsum_pick _ m).
      * destruct (Nat.eqb_spec k (2 * (m + 1))); [|lia]. unfold d. rewrite e.
        replace (INR (4 * (m + 1) * (m + 1) - 1)) with (INR (2 * (m + 1)) * INR (2 * (m + 1)) - 1).
        2:{ rewrite minus_INR by nia. rewrite <- mult_INR. cbn [INR]. f_equal. f_equal. nia. }
        assert (2 <= INR (2 * (m + 1))) by (replace 2 with (INR 2) by reflexivity; apply le_INR; lia).
        field. repeat split; try lra; nra.
      * pose proof (Nat.div_mod N 2 ltac:(lia)). pose proof (Nat.mod_upper_bound N 2 ltac:(lia)). lia.
      * intros j Hj Hn. destruct (Nat.eqb_spec k (2 * (j + 1))); [lia|]. unfold Rdiv. ring.
  - assert (k <> 0%nat) by (intros ->; discriminate). rewrite cc_S_zero by lia. rewrite rsum_zero; [unfold Rdiv; ring|].
    intros j _. destruct (Nat.eqb_spec k (2 * (j + 1))) as [->|]; [|unfold Rdiv; ring].
    rewrite Nat.even_mul in Ev. discriminate.
Qed.

(** Functions spanned by the Chebyshev polynomials of degree below n. *)
Inductive cspan (n : nat) : (R -> R) -> Prop :=
| cs_cheb k : (k < n)%nat -> cspan n (cheb k)
| cs_zero : cspan n (fun _ => 0)
| cs_plus f g : cspan n f -> cspan n g -> cspan n (fun x => f x + g x)
| cs_scal c f : cspan n f -> cspan n (fun x => c * f x)
| cs_ext f g : (forall x, f x = g x) -> cspan n f -> cspan n g.

Lemma cspan_mono n m g : (n <= m)%nat -> cspan n g -> cspan m g.
Proof.
  intros H S. induction S.
  - apply cs_cheb; lia.
  - apply cs_zero.
  - now apply cs_plus.
  - now apply cs_scal.
  - eapply cs_ext; eauto.
Qed.

Lemma cspan_x n g : cspan n g -> cspan (S n) (fun x => x * g x).
Proof.
  intros S. induction S as [k Hk| |f g Hf IHf Hg IHg|c f Hf IHf|f g E Hf IHf].
  - destruct k as [|k].
    + eapply cs_ext; [|apply (cs_cheb _ 1); lia]. intros x. unfold cheb. cbn. ring.
    + eapply cs_ext; [|apply (cs_scal _ (1/2)), cs_plus; [apply (cs_cheb _ (S (S k)))|apply (cs_cheb _ k)]; lia].
      intros x. cbv beta. rewrite cheb_SS. field.
  - eapply cs_ext; [|apply cs_zero]. intros x. cbv beta. ring.
  - eapply cs_ext; [|apply (cs_plus _ _ _ IHf IHg)]. intros x. cbv beta. ring.
  - eapply cs_ext; [|apply (cs_scal _ c _ IHf)]. intros x. cbv beta. ring.
  - eapply cs_ext; [|apply IHf]. intros x. cbv beta. now rewrite E.
Qed.

Lemma cspan_const n c : (1 <= n)%nat -> cspan n (fun _ => c).
Proof. intros H. eapply cs_ext; [|apply (cs_scal _ c), (cs_cheb _ 0); lia]. intros x. unfold cheb. cbn. ring. Qed.

Lemma cspan_poly m s c : cspan (length c) (fun t => poly c (m + s * t)).
Proof.
  induction c as [|a c IH]; cbn [poly length].
  - apply cs_zero.
  - apply cs_plus; [apply cspan_const; lia|].
    eapply cs_ext; [|apply cs_plus; [apply (cs_scal _ m), (cspan_mono (length c)); [lia|apply IH]
                                    |apply (cs_scal _ s), (cspan_x _ _ IH)]].
    intros x. cbv beta. ring.
Qed.

Lemma rule_sum_ext pts wts f g : (forall x, f x = g x) -> rule_sum pts wts f = rule_sum pts wts g.
Proof. intros H. apply rsum_ext. intros i _. now rewrite H. Qed.
Lemma rule_sum_plus pts wts f g : rule_sum pts wts (fun x => f x + g x) = rule_sum pts wts f + rule_sum pts wts g.
Proof. unfold rule_sum. rewrite <- rsum_plus. apply rsum_ext. intros; ring. Qed.
Lemma rule_sum_scal pts wts c f : rule_sum pts wts (fun x => c * f x) = c * rule_sum pts wts f.
Proof. unfold rule_sum. rewrite <- rsum_scal. apply rsum_ext. intros; ring. Qed.

Lemma cspan_exact N g : (1 <= N)%nat -> cspan (S N) g -> is_RInt g (-1) 1 (rule_sum (cc_pts N) (cc_wts N) g).
Proof.
  intros HN S. induction S as [k Hk| |f g Hf IHf Hg IHg|c f Hf IHf|f g E Hf IHf].
  - rewrite cc_cheb by lia. apply cheb_RInt.
  - replace (rule_sum (cc_pts N) (cc_wts N) (fun _ => 0)) with (scal (1 - (-1)) 0).
    + apply (is_RInt_const (V := R_NormedModule)).
    + unfold rule_sum. rewrite rsum_zero by (intros; ring). unfold scal; cbn; unfold mult; cbn. ring.
  - rewrite rule_sum_plus. apply (is_RInt_plus (V := R_NormedModule)); auto.
  - rewrite rule_sum_scal. apply (is_RInt_scal (V := R_NormedModule)); auto.
  - rewrite <- (rule_sum_ext _ _ f g E). eapply is_RInt_ext; [|apply IHf]. intros x _. apply E.
Qed.

(** The rule with one point. *)
Lemma GetRule_one wts pts : length wts = 1%nat -> length pts = 1%nat -> GetRule 1 wts pts = Ok ([2], [0]).
Proof.
  intros Lw Lp. destruct wts as [|w [|? ?]], pts as [|p [|? ?]]; cbn in Lw, Lp; try lia. reflexivity.
Qed.

Lemma one_exact c m s : (length c <= 1)%nat ->
  is_RInt (fun t => poly c (m + s * t)) (-1) 1 (rule_sum [0] [2] (fun t => poly c (m + s * t))).
Proof.
  intros L. destruct c as [|a [|? ?]]; cbn in L; try lia.
  - apply is_RInt_ext with (f := fun _ => 0); [reflexivity|]. replace (rule_sum _ _ _) with (scal (1 - (-1)) 0).
    + apply (is_RInt_const (V := R_NormedModule)).
    + unfold rule_sum, scal; cbn; unfold mult; cbn. ring.
  - apply is_RInt_ext with (f := fun _ => a); [intros x _; cbn; ring|]. replace (rule_sum _ _ _) with (scal (1 - (-1)) a).
    + apply (is_RInt_const (V := R_NormedModule)).
    + unfold rule_sum, scal; cbn; unfold mult; cbn. ring.
Qed.

(** From [-1,1] to [a,b]. *)
Lemma move_interval g a b I : is_RInt (fun t => g ((a + b) / 2 + (b - a) / 2 * t)) (-1) 1 I -> is_RInt g a b ((b - a) / 2 * I).
Proof.
  intros H. destruct (Req_dec a b) as [->|Hab].
  - replace ((b - b) / 2 * I) with (zero : R_NormedModule) by (unfold zero; cbn; field). apply is_RInt_point.
  - set (u := 2 / (b - a)). set (v := - (a + b) / (b - a)).
    assert (Hu : b - a <> 0) by lra.
    assert (H' : is_RInt (fun t => g ((a + b) / 2 + (b - a) / 2 * t)) (u * a + v) (u * b + v) I).
    { replace (u * a + v) with (-1) by (unfold u, v; field; auto). replace (u * b + v) with 1 by (unfold u, v; field; auto). auto. }
    apply (is_RInt_comp_lin (V := R_NormedModule)) in H'.
    apply (is_RInt_scal (V := R_NormedModule) _ _ _ ((b - a) / 2)) in H'.
    eapply is_RInt_ext; [|apply H']. intros x _. cbv beta. unfold scal; cbn; unfold mult; cbn.
    replace ((a + b) / 2 + (b - a) / 2 * (u * x + v)) with x by (unfold u, v; field; auto). unfold u. field. auto.
Qed.

(** ** Signs and order *)

Lemma cc_u_pos N th : (1 <= N)%nat -> 0 < cc_u N th (N / 2).
Proof.
  intros HN. unfold cc_u. set (J := (N / 2)%nat).
  assert (B : rsum (fun j => cc_b N j * cos (2 * INR (j + 1) * th) / INR (4 * (j + 1) * (j + 1) - 1)) J
              <= rsum (fun j => - / (2 * INR (S j) + 1) - - / (2 * INR j + 1)) J).
  { apply rsum_le. intros j Hj.
    assert (D : INR (4 * (j + 1) * (j + 1) - 1) = (2 * INR j + 1) * (2 * INR (S j) + 1)).
    { rewrite S_INR. rewrite minus_INR by nia. rewrite !mult_INR, plus_INR. cbn [INR]. ring. }
    rewrite D, S_INR. pose proof (pos_INR j). pose proof (COS_bound (2 * INR (j + 1) * th)) as [_ Hc].
    replace (- / (2 * (INR j + 1) + 1) - - / (2 * INR j + 1)) with (2 / ((2 * INR j + 1) * (2 * (INR j + 1) + 1))) by (field; split; lra).
    apply Rmult_le_compat_r; [left; apply Rinv_0_lt_compat; nra|].
    unfold cc_b. destruct (2 * (j + 1) =? N)%nat; lra. }
  rewrite (rsum_telescope (fun j => - / (2 * INR j + 1))) in B. cbn [INR] in B.
  assert (0 < / (2 * INR J + 1)) by (apply Rinv_0_lt_compat; pose proof (pos_INR J); lra).
  replace (- - / (2 * 0 + 1)) with 1 in B by field. lra.
Qed.

Lemma cc_w_pos N i : (1 <= N)%nat -> 0 < cc_w N i.
Proof.
  intros HN. unfold cc_w. apply Rdiv_lt_0_compat; [|apply lt_0_INR; lia].
  apply Rmult_lt_0_compat; [|apply cc_u_pos; auto]. unfold cc_c. destruct ((i =? 0)%nat || (i =? N)%nat); lra.
Qed.

Lemma cc_x_incr N i j : (1 <= N)%nat -> (i < j)%nat -> (j <= N)%nat -> cc_x N i < cc_x N j.
Proof.
  intros HN Hij Hj. unfold cc_x. assert (0 < INR N) by (apply lt_0_INR; lia). pose proof PI_RGT_0.
  assert (B : forall k, (k <= N)%nat -> 0 <= INR (N - k) * PI / INR N <= PI).
  { intros k Hk. pose proof (pos_INR (N - k)). assert (INR (N - k) <= INR N) by (apply le_INR; lia). split.
    - apply Rdiv_le_0_compat; nra.
    - apply Rmult_le_reg_r with (INR N); auto. unfold Rdiv. rewrite Rmult_assoc, Rinv_l by lra. nra. }
  apply cos_decreasing_1; try (apply B; lia).
  assert (INR (N - j) < INR (N - i)) by (apply lt_INR; lia).
  unfold Rdiv. apply Rmult_lt_compat_r; [apply Rinv_0_lt_compat; auto|]. nra.
Qed.

Lemma cc_x_sym N i : (1 <= N)%nat -> (i <= N)%nat -> cc_x N (N - i) = - cc_x N i.
Proof.
  intros HN Hi. unfold cc_x. replace (N - (N - i))%nat with i by lia. assert (0 < INR N) by (apply lt_0_INR; lia).
  replace (INR (N - i) * PI / INR N) with (PI - INR i * PI / INR N) by (rewrite minus_INR by lia; field; lra).
  rewrite cos_minus, cos_PI, sin_PI. ring.
Qed.

Lemma cc_w_sym N i : (1 <= N)%nat -> (i <= N)%nat -> cc_w N (N - i) = cc_w N i.
Proof.
  intros HN Hi. unfold cc_w. assert (0 < INR N) by (apply lt_0_INR; lia). f_equal. f_equal.
  - unfold cc_c. destruct (Nat.eqb_spec (N - i) 0), (Nat.eqb_spec (N - i) N), (Nat.eqb_spec i 0), (Nat.eqb_spec i N); cbn [orb]; auto; lia.
  - unfold cc_u. f_equal. apply rsum_ext. intros j _. f_equal. f_equal. unfold cc_theta.
    replace (2 * INR (j + 1) * (INR (N - i) * PI / INR N)) with (- (2 * INR (j + 1) * (INR i * PI / INR N)) + 2 * INR (j + 1) * PI).
    + rewrite cos_period. apply cos_neg.
    + rewrite minus_INR by lia. field. lra.
Qed.

Lemma cc_x_bound N i : -1 <= cc_x N i <= 1.
Proof. apply COS_bound. Qed.

Lemma cc_nested N i : (1 <= N)%nat -> (i <= N)%nat -> cc_x (2 * N) (2 * i) = cc_x N i.
Proof.
  intros HN Hi. unfold cc_x. f_equal. replace (2 * N - 2 * i)%nat with (2 * (N - i))%nat by lia.
  rewrite !mult_INR. cbn [INR]. assert (0 < INR N) by (apply lt_0_INR; lia). field. lra.
Qed.
