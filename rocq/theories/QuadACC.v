(** Proofs about AdaptiveClenshawCurtis. *)
From Coq Require Import Reals Lra NArith Psatz.
From Coquelicot Require Import Coquelicot.
From Verif Require Import Base SpecMulti SpecExpansion SpecQuad SpecPoly PolyModel PolyProofs BijProofs ExpansionProofs ExpansionDeriv
  QuadModel QuadCC QuadWalk.
Local Open Scope R_scope.

(** ** Splitting the fine rule into its coarse and its new points *)

Lemma rsum_even_odd h N : rsum h (2 * N + 1) = rsum (fun i => h (2 * i)%nat) (N + 1) + rsum (fun i => h (2 * i + 1)%nat) N.
Proof.
  induction N as [|N IH]; [cbn; ring|].
  replace (2 * S N + 1)%nat with (S (S (2 * N + 1))) by lia. replace (S N + 1)%nat with (S (N + 1)) by lia. cbn [rsum].
  rewrite IH. replace (2 * (N + 1))%nat with (S (2 * N + 1)) by lia. ring.
Qed.

Lemma rsum_thirds k M : (1 <= M)%nat -> rsum k (2 * M + 1) = k 0%nat + k M + k (2 * M)%nat
  + rsum (fun i => k (1 + i)%nat) (M - 1) + rsum (fun i => k (M + 1 + i)%nat) (M - 1).
Proof.
  intros H. replace (2 * M + 1)%nat with (1 + ((M - 1) + (1 + ((M - 1) + 1))))%nat by lia.
  rewrite rsum_app. rewrite (rsum_app (fun i => k (1 + i)%nat)). rewrite (rsum_app (fun i => k (1 + (M - 1 + i))%nat)).
  rewrite (rsum_app (fun i => k (1 + (M - 1 + (1 + i)))%nat)). cbn [rsum].
  rewrite (rsum_ext (fun i => k (1 + (M - 1 + (1 + i)))%nat) (fun i => k (M + 1 + i)%nat)) by (intros; f_equal; lia).
  replace (1 + (M - 1 + (1 + (M - 1 + 0))))%nat with (2 * M)%nat by lia. replace (1 + (M - 1 + 0))%nat with M by lia. ring.
Qed.

Section ACC.
Context (q : quad) (M : nat) (f : R -> list R) (lb ub : R).
Let fd := q_fdim q.
Let N := (2 * M)%nat.
Let rl := MkRules (cc_pts N) (cc_wts N) (cc_pts (2 * N)) (cc_wts (2 * N)).
Context (HM : (1 <= M)%nat).
Context (Hfd : (1 <= fd)%nat) (Hf : forall x, length (f x) = fd).
Context (Hm1 : (1 <= q_maxSub q)%nat) (Hm32 : (q_maxSub q <= 32)%nat) (Hmin : (q_minSub q < q_maxSub q)%nat).

Definition c_coarse (a b : R) (i : nat) : R := rule_on (cc_pts N) (cc_wts N) a b (comp f i).
Definition c_fine (a b : R) (i : nat) : R := rule_on (cc_pts (2 * N)) (cc_wts (2 * N)) a b (comp f i).
Definition c_stop := adaptive_stop (q_metric q) fd (q_absTol q) (q_relTol q) (q_maxSub q) (q_minSub q) (ub - lb) c_coarse c_fine.

Definition lowc (st p : nat) : Prop := (p + fd <= 2 * fd \/ (5 * fd <= p /\ p + fd <= st))%nat.
Definition holdc (ws : list R) (p : nat) (x : R) : Prop := forall i, (i < fd)%nat -> rd ws (p + i) = comp f i x.
Definition keepc (st : nat) (ws ws' : list R) : Prop :=
  length ws' = length ws /\ forall j, (j < st)%nat -> (j < 2 * fd \/ 5 * fd <= j)%nat -> rd ws' j = rd ws j.

Lemma keepc_trans st ws1 ws2 ws3 : keepc st ws1 ws2 -> keepc st ws2 ws3 -> keepc st ws1 ws3.
Proof. intros [L H] [L' H']. split; [congruence|]. intros j Hj Hj'. rewrite H', H; auto. Qed.
Lemma keepc_less st st' ws1 ws2 : (st <= st')%nat -> keepc st' ws1 ws2 -> keepc st ws1 ws2.
Proof. intros Hs [L H]. split; auto. intros j Hj Hj'. apply H; auto. lia. Qed.
Lemma keepc_holds st ws ws' p x : keepc st ws ws' -> (5 * fd <= st)%nat -> lowc st p -> holdc ws p x -> holdc ws' p x.
Proof. intros [L H] H5 Hp Hh i Hi. rewrite H; [apply Hh; auto| |]; unfold lowc in Hp; lia. Qed.

Lemma cstart_S L : ac_start fd (S L) = (ac_start fd L + fd + 2)%nat.
Proof. unfold ac_start. nia. Qed.
Lemma cstart_0 : ac_start fd 0 = (5 * fd)%nat.
Proof. unfold ac_start. nia. Qed.
Lemma cstart_5 L : (5 * fd <= ac_start fd L)%nat.
Proof. unfold ac_start. nia. Qed.
Lemma cstart_room L : (L < q_maxSub q)%nat -> (ac_start fd L + 2 + fd <= ac_WorkspaceSize (q_maxSub q) fd)%nat.
Proof. intros H. unfold ac_start, ac_WorkspaceSize. nia. Qed.

Lemma halfc a b : 1 / 2 * (a + b) = (a + b) / 2.
Proof. field. Qed.

(** The workspace [w] holds the partial sums C and F and otherwise what [w0] holds. *)
Definition sums (w0 w : list R) (C F : nat -> R) : Prop :=
  length w = length w0 /\ (forall j, (j < 2 * fd \/ 5 * fd <= j)%nat -> rd w j = rd w0 j) /\
  (forall j, (j < fd)%nat -> rd w (3 * fd + j) = C j) /\ (forall j, (j < fd)%nat -> rd w (4 * fd + j) = F j).

Lemma sums_ext w0 w C F C' F' : (forall j, (j < fd)%nat -> C j = C' j) -> (forall j, (j < fd)%nat -> F j = F' j) -> sums w0 w C F -> sums w0 w C' F'.
Proof. intros HC HF (A & B & D & E). split; [auto|]. split; [auto|]. split; intros j Hj; rewrite <- ?HC, <- ?HF; auto. Qed.

(** One of the points of the coarse rule. *)
Lemma both_ok w0 w C F mid scale i p cw fw : (5 * fd <= length w0)%nat -> sums w0 w C F ->
  raw_get (coarsePts rl) i = Ok p -> raw_get (coarseWts rl) i = Ok cw -> raw_get (fineWts rl) (2 * i) = Ok fw ->
  exists w', (do p <- raw_get (coarsePts rl) i;
    do ws <- store w (2 * fd) (f (mid + scale * p));
    ofold (fun ws j =>
      do v <- raw_get ws (2 * fd + j);
      do cw <- raw_get (coarseWts rl) i; do x <- raw_get ws (3 * fd + j);
      do ws <- raw_set ws (3 * fd + j) (x + scale * cw * v);
      do fw <- raw_get (fineWts rl) (2 * i); do y <- raw_get ws (4 * fd + j);
      raw_set ws (4 * fd + j) (y + scale * fw * v)) (seq 0 fd) ws) = Ok w' /\
    sums w0 w' (fun j => C j + scale * cw * comp f j (mid + scale * p)) (fun j => F j + scale * fw * comp f j (mid + scale * p)).
Proof.
  intros L5 (Lw & Kw & Cw & Fw) Ep Ec Ef. rewrite Ep. cbn [obind].
  destruct (store_ok w (2 * fd) (f (mid + scale * p))) as (w1 & E1 & L1 & I1 & O1); [rewrite Hf; lia|].
  rewrite Hf in I1, O1. rewrite E1. cbn [obind]. rewrite Ec, Ef.
  destruct (ofold_inv (fun ws j =>
      do v <- raw_get ws (2 * fd + j);
      do cw <- Ok cw; do x <- raw_get ws (3 * fd + j);
      do ws <- raw_set ws (3 * fd + j) (x + scale * cw * v);
      do fw <- Ok fw; do y <- raw_get ws (4 * fd + j);
      raw_set ws (4 * fd + j) (y + scale * fw * v))
    (fun k u => length u = length w0 /\ (forall j, (j < 3 * fd \/ 5 * fd <= j)%nat -> rd u j = rd w1 j) /\
       (forall j, (j < k)%nat -> rd u (3 * fd + j) = C j + scale * cw * comp f j (mid + scale * p)) /\
       (forall j, (j < k)%nat -> rd u (4 * fd + j) = F j + scale * fw * comp f j (mid + scale * p)) /\
       (forall j, (k <= j < fd)%nat -> rd u (3 * fd + j) = C j) /\ (forall j, (k <= j < fd)%nat -> rd u (4 * fd + j) = F j))
    fd 0 w1) as (u & E & Lu & Ku & Cu & Fu & _ & _).
  - split; [congruence|]. split; auto. split; [intros; lia|]. split; [intros; lia|]. split; intros j Hj; rewrite O1 by lia; auto. apply Cw; lia. apply Fw; lia.
  - intros i0 u Hi (Lu & Ku & Cu & Fu & Cu' & Fu').
    rewrite (get_ok u (2 * fd + i0)) by lia. cbn [obind]. rewrite (get_ok u (3 * fd + i0)) by lia. cbn [obind].
    rewrite (Ku (2 * fd + i0)%nat) by lia. rewrite I1 by lia. rewrite Cu' by lia.
    destruct (set_ok u (3 * fd + i0) (C i0 + scale * cw * nth i0 (f (mid + scale * p)) 0)) as (u1 & E2 & L2 & V2 & O2); [lia|].
    rewrite E2. cbn [obind]. rewrite get_ok by lia. cbn [obind]. rewrite O2 by lia. rewrite Fu' by lia.
    destruct (set_ok u1 (4 * fd + i0) (F i0 + scale * fw * nth i0 (f (mid + scale * p)) 0)) as (u2 & E3 & L3 & V3 & O3); [lia|].
    rewrite E3. exists u2. split; auto. split; [congruence|]. split; [|split; [|split; [|split]]].
    + intros j Hj. rewrite O3, O2 by lia. auto.
    + intros j Hj. destruct (Nat.eq_dec j i0) as [->|Hn]; [rewrite O3 by lia; rewrite V2; reflexivity|]. rewrite O3, O2 by lia. apply Cu. lia.
    + intros j Hj. destruct (Nat.eq_dec j i0) as [->|Hn]; [rewrite V3; reflexivity|]. rewrite O3, O2 by lia. apply Fu. lia.
    + intros j Hj. rewrite O3, O2 by lia. apply Cu'. lia.
    + intros j Hj. rewrite O3, O2 by lia. apply Fu'. lia.
  - exists u. split; [exact E|]. split; auto. split; [|split; auto]. intros j Hj. rewrite Ku by lia. rewrite O1 by lia. auto.
Qed.

(** One of the points that are only in the fine rule. *)
Lemma only_fine_ok w0 w C F mid scale i p fw : (5 * fd <= length w0)%nat -> sums w0 w C F ->
  raw_get (finePts rl) i = Ok p -> raw_get (fineWts rl) i = Ok fw ->
  exists w', (do p <- raw_get (finePts rl) i;
    do ws <- store w (2 * fd) (f (mid + scale * p));
    ofold (fun ws j =>
      do v <- raw_get ws (2 * fd + j); do fw <- raw_get (fineWts rl) i; do y <- raw_get ws (4 * fd + j);
      raw_set ws (4 * fd + j) (y + scale * fw * v)) (seq 0 fd) ws) = Ok w' /\
    sums w0 w' C (fun j => F j + scale * fw * comp f j (mid + scale * p)).
Proof.
  intros L5 (Lw & Kw & Cw & Fw) Ep Ef. rewrite Ep. cbn [obind].
  destruct (store_ok w (2 * fd) (f (mid + scale * p))) as (w1 & E1 & L1 & I1 & O1); [rewrite Hf; lia|].
  rewrite Hf in I1, O1. rewrite E1. cbn [obind]. rewrite Ef.
  destruct (ofold_inv (fun ws j =>
      do v <- raw_get ws (2 * fd + j); do fw <- Ok fw; do y <- raw_get ws (4 * fd + j);
      raw_set ws (4 * fd + j) (y + scale * fw * v))
    (fun k u => length u = length w0 /\ (forall j, (j < 4 * fd \/ 5 * fd <= j)%nat -> rd u j = rd w1 j) /\
       (forall j, (j < k)%nat -> rd u (4 * fd + j) = F j + scale * fw * comp f j (mid + scale * p)) /\
       (forall j, (k <= j < fd)%nat -> rd u (4 * fd + j) = F j))
    fd 0 w1) as (u & E & Lu & Ku & Fu & _).
  - split; [congruence|]. split; auto. split; [intros; lia|]. intros j Hj; rewrite O1 by lia; auto. apply Fw; lia.
  - intros i0 u Hi (Lu & Ku & Fu & Fu').
    rewrite (get_ok u (2 * fd + i0)) by lia. cbn [obind]. rewrite (get_ok u (4 * fd + i0)) by lia. cbn [obind].
    rewrite (Ku (2 * fd + i0)%nat) by lia. rewrite I1 by lia. rewrite Fu' by lia.
    destruct (set_ok u (4 * fd + i0) (F i0 + scale * fw * nth i0 (f (mid + scale * p)) 0)) as (u1 & E2 & L2 & V2 & O2); [lia|].
    rewrite E2. exists u1. split; auto. split; [congruence|]. split; [|split].
    + intros j Hj. rewrite O2 by lia. auto.
    + intros j Hj. destruct (Nat.eq_dec j i0) as [->|Hn]; [rewrite V2; reflexivity|]. rewrite O2 by lia. apply Fu. lia.
    + intros j Hj. rewrite O2 by lia. apply Fu'. lia.
  - exists u. split; [exact E|]. split; auto. split; [intros j Hj; rewrite Ku by lia; rewrite O1 by lia; auto|].
    split; auto. intros j Hj. rewrite Ku by lia. rewrite O1 by lia. auto.
Qed.

Lemma cpt i : (i <= N)%nat -> raw_get (coarsePts rl) i = Ok (cc_x N i).
Proof. intros H. unfold rl. cbn [coarsePts]. rewrite raw_get_ok with (d := 0) by (rewrite cc_pts_length; lia). unfold cc_pts. now rewrite nth_map_seq by lia. Qed.
Lemma cwt i : (i <= N)%nat -> raw_get (coarseWts rl) i = Ok (cc_w N i).
Proof. intros H. unfold rl. cbn [coarseWts]. rewrite raw_get_ok with (d := 0) by (rewrite cc_wts_length; lia). unfold cc_wts. now rewrite nth_map_seq by lia. Qed.
Lemma fpt i : (i <= 2 * N)%nat -> raw_get (finePts rl) i = Ok (cc_x (2 * N) i).
Proof. intros H. unfold rl. cbn [finePts]. rewrite raw_get_ok with (d := 0) by (rewrite cc_pts_length; lia). unfold cc_pts. now rewrite nth_map_seq by lia. Qed.
Lemma fwt i : (i <= 2 * N)%nat -> raw_get (fineWts rl) i = Ok (cc_w (2 * N) i).
Proof. intros H. unfold rl. cbn [fineWts]. rewrite raw_get_ok with (d := 0) by (rewrite cc_wts_length; lia). unfold cc_wts. now rewrite nth_map_seq by lia. Qed.

Lemma cc_x_ends K : (1 <= K)%nat -> cc_x K 0 = -1 /\ cc_x K K = 1.
Proof.
  intros H. assert (0 < INR K) by (apply lt_0_INR; lia). unfold cc_x. rewrite Nat.sub_0_r, Nat.sub_diag. cbn [INR]. split.
  - replace (INR K * PI / INR K) with PI by (field; lra). apply cos_PI.
  - replace (0 * PI / INR K) with 0 by (field; lra). apply cos_0.
Qed.
Lemma cc_x_mid K : (1 <= K)%nat -> cc_x (2 * K) K = 0.
Proof.
  intros H. assert (0 < INR K) by (apply lt_0_INR; lia). unfold cc_x. replace (2 * K - K)%nat with K by lia. rewrite mult_INR. cbn [INR].
  replace (INR K * PI / ((1 + 1) * INR K)) with (PI / 2) by (field; lra). apply cos_PI2.
Qed.

(** Partial sums over coarse points (weights [w], nodes of the coarse rule). *)
Definition csum (a b : R) (w : nat -> R) (i0 k j : nat) : R :=
  rsum (fun i => (b - a) / 2 * w (i0 + i)%nat * comp f j ((a + b) / 2 + (b - a) / 2 * cc_x N (i0 + i))) k.
Definition osum (a b : R) (k j : nat) : R :=
  rsum (fun i => (b - a) / 2 * cc_w (2 * N) (2 * i + 1) * comp f j ((a + b) / 2 + (b - a) / 2 * cc_x (2 * N) (2 * i + 1))) k.

Definition three (a b w0 wm wr : R) (j : nat) : R :=
  (b - a) / 2 * w0 * comp f j a + (b - a) / 2 * wm * comp f j ((a + b) / 2) + (b - a) / 2 * wr * comp f j b.

Lemma at_nodes a b x : x = -1 -> (a + b) / 2 + (b - a) / 2 * x = a.
Proof. intros ->. field. Qed.
Lemma at_nodes0 a b x : x = 0 -> (a + b) / 2 + (b - a) / 2 * x = (a + b) / 2.
Proof. intros ->. field. Qed.
Lemma at_nodes1 a b x : x = 1 -> (a + b) / 2 + (b - a) / 2 * x = b.
Proof. intros ->. field. Qed.

Lemma coarse_split a b j : c_coarse a b j
  = three a b (cc_w N 0) (cc_w N M) (cc_w N N) j + csum a b (cc_w N) 1 (M - 1) j + csum a b (cc_w N) (M + 1) (M - 1) j.
Proof.
  unfold c_coarse, rule_on. rewrite rule_sum_cc. replace (S N) with (2 * M + 1)%nat by (unfold N; lia).
  rewrite <- rsum_scal. rewrite (rsum_thirds _ M HM). fold N.
  destruct (cc_x_ends N ltac:(unfold N; lia)) as [X0 X1]. pose proof (cc_x_mid M HM) as Xm. fold N in Xm.
  rewrite (at_nodes a b _ X0), (at_nodes0 a b _ Xm), (at_nodes1 a b _ X1). unfold three, csum.
  rewrite (rsum_ext (fun i => (b - a) / 2 * (cc_w N (1 + i) * comp f j ((a + b) / 2 + (b - a) / 2 * cc_x N (1 + i))))
     (fun i => (b - a) / 2 * cc_w N (1 + i) * comp f j ((a + b) / 2 + (b - a) / 2 * cc_x N (1 + i)))) by (intros; ring).
  rewrite (rsum_ext (fun i => (b - a) / 2 * (cc_w N (M + 1 + i) * comp f j ((a + b) / 2 + (b - a) / 2 * cc_x N (M + 1 + i))))
     (fun i => (b - a) / 2 * cc_w N (M + 1 + i) * comp f j ((a + b) / 2 + (b - a) / 2 * cc_x N (M + 1 + i)))) by (intros; ring).
  ring.
Qed.

Lemma fine_split a b j : c_fine a b j
  = three a b (cc_w (2 * N) 0) (cc_w (2 * N) N) (cc_w (2 * N) (2 * N)) j
    + csum a b (fun i => cc_w (2 * N) (2 * i)) 1 (M - 1) j + csum a b (fun i => cc_w (2 * N) (2 * i)) (M + 1) (M - 1) j + osum a b N j.
Proof.
  unfold c_fine, rule_on. rewrite rule_sum_cc. replace (S (2 * N)) with (2 * N + 1)%nat by lia.
  rewrite <- rsum_scal. rewrite rsum_even_odd. replace (N + 1)%nat with (2 * M + 1)%nat by (unfold N; lia).
  rewrite (rsum_ext (fun i => (b - a) / 2 * (cc_w (2 * N) (2 * i) * comp f j ((a + b) / 2 + (b - a) / 2 * cc_x (2 * N) (2 * i))))
     (fun i => (b - a) / 2 * cc_w (2 * N) (2 * i) * comp f j ((a + b) / 2 + (b - a) / 2 * cc_x N i))).
  2:{ intros i Hi. rewrite cc_nested by (unfold N; lia). ring. }
  rewrite (rsum_thirds _ M HM). fold N. replace (2 * M)%nat with N by reflexivity. replace (2 * 0)%nat with 0%nat by lia.
  destruct (cc_x_ends N ltac:(unfold N; lia)) as [X0 X1]. pose proof (cc_x_mid M HM) as Xm. fold N in Xm.
  rewrite (at_nodes a b _ X0), (at_nodes0 a b _ Xm), (at_nodes1 a b _ X1). unfold three, csum, osum.
  rewrite (rsum_ext (fun i => (b - a) / 2 * (cc_w (2 * N) (2 * i + 1) * _))
     (fun i => (b - a) / 2 * cc_w (2 * N) (2 * i + 1) * comp f j ((a + b) / 2 + (b - a) / 2 * cc_x (2 * N) (2 * i + 1)))) by (intros; ring).
  ring.
Qed.

Lemma acc_estimate_ok ws st lv rv a b : (5 * fd <= st)%nat -> (st + 2 + fd <= length ws)%nat ->
  lowc st lv -> lowc st rv -> rd ws st = a -> rd ws (st + 1) = b -> holdc ws lv a -> holdc ws rv b ->
  exists ws', ac_estimate q rl f ws st lv rv = Ok ws' /\ keepc (st + 2) ws ws' /\
    (forall i, (i < fd)%nat -> rd ws' (3 * fd + i) = c_coarse a b i) /\
    (forall i, (i < fd)%nat -> rd ws' (4 * fd + i) = c_fine a b i) /\
    holdc ws' (st + 2) ((a + b) / 2).
Proof.
  intros H5 Hl Pl Pr Ea Eb Vl Vr. unfold ac_estimate. fold fd.
  rewrite !get_ok by lia. cbn [obind]. rewrite Ea, Eb, !halfc.
  replace (1 / 2 * (b - a)) with ((b - a) / 2) by field.
  destruct (store_ok ws (st + 2) (f ((a + b) / 2))) as (w1 & E1 & L1 & I1 & O1); [rewrite Hf; lia|].
  rewrite Hf in I1, O1. rewrite E1. cbn [obind].
  replace (length (coarseWts rl) - 1)%nat with N by (unfold rl; cbn [coarseWts]; rewrite cc_wts_length; lia).
  replace (length (fineWts rl) - 1)%nat with (2 * N)%nat by (unfold rl; cbn [fineWts]; rewrite cc_wts_length; lia).
  replace (N / 2)%nat with M by (unfold N; rewrite Nat.mul_comm, Nat.div_mul; lia).
  replace (2 * N / 2)%nat with N by (rewrite Nat.mul_comm, Nat.div_mul; lia).
  assert (K : keepc (st + 2) ws w1).
  { split; [congruence|]. intros j Hj Hj'. rewrite O1 by lia. reflexivity. }
  assert (Hmid : holdc w1 (st + 2) ((a + b) / 2)).
  { intros i Hi. rewrite I1 by lia. reflexivity. }
  assert (LO : forall p x, lowc st p -> holdc ws p x -> holdc w1 p x).
  { intros p x Hp. apply (keepc_holds (st + 2) ws w1); auto; [lia|]. unfold lowc in *. lia. }
  clear E1 I1 O1.
  rewrite (cwt 0), (cwt M), (cwt N), (fwt 0), (fwt N), (fwt (2 * N)) by (unfold N; lia).
  match goal with |- context [ofold ?body (seq 0 fd) w1] =>
    destruct (ofold_inv body
    (fun k w => length w = length ws /\ (forall j, (j < 3 * fd \/ 5 * fd <= j)%nat -> rd w j = rd w1 j) /\
       (forall i, (i < k)%nat -> rd w (3 * fd + i) = three a b (cc_w N 0) (cc_w N M) (cc_w N N) i) /\
       (forall i, (i < k)%nat -> rd w (4 * fd + i) = three a b (cc_w (2 * N) 0) (cc_w (2 * N) N) (cc_w (2 * N) (2 * N)) i))
    fd 0 w1) as (w & E & Lw & Kw & Cw & Fw)
  end.
  { split; auto. split; auto. split; intros i Hi; lia. }
  { intros i w Hi (Lw & Kw & Cw & Fw).
    rewrite (get_ok w (lv + i)) by (unfold lowc in *; lia). cbn [obind].
    rewrite (get_ok w (st + 2 + i)) by lia. cbn [obind].
    rewrite (get_ok w (rv + i)) by (unfold lowc in *; lia). cbn [obind].
    rewrite (Kw (lv + i)%nat), (Kw (rv + i)%nat), (Kw (st + 2 + i)%nat) by (unfold lowc in *; lia).
    rewrite (LO lv a Pl Vl), (LO rv _ Pr Vr), Hmid by lia.
    destruct (set_ok w (3 * fd + i) ((b - a) / 2 * cc_w N 0 * comp f i a)) as (u1 & E1 & Lu1 & V1 & O1); [lia|].
    rewrite E1. cbn [obind]. rewrite get_ok by lia. cbn [obind]. rewrite V1.
    match goal with |- context [raw_set u1 ?p ?v] => destruct (set_ok u1 p v) as (u2 & E2 & Lu2 & V2 & O2); [lia|] end.
    rewrite E2. cbn [obind]. rewrite get_ok by lia. cbn [obind]. rewrite V2.
    match goal with |- context [raw_set u2 ?p ?v] => destruct (set_ok u2 p v) as (u3 & E3 & Lu3 & V3 & O3); [lia|] end.
    rewrite E3. cbn [obind].
    match goal with |- context [raw_set u3 ?p ?v] => destruct (set_ok u3 p v) as (u4 & E4 & Lu4 & V4 & O4); [lia|] end.
    rewrite E4. cbn [obind]. rewrite get_ok by lia. cbn [obind]. rewrite V4.
    match goal with |- context [raw_set u4 ?p ?v] => destruct (set_ok u4 p v) as (u5 & E5 & Lu5 & V5 & O5); [lia|] end.
    rewrite E5. cbn [obind]. rewrite get_ok by lia. cbn [obind]. rewrite V5.
    match goal with |- context [raw_set u5 ?p ?v] => destruct (set_ok u5 p v) as (u6 & E6 & Lu6 & V6 & O6); [lia|] end.
    rewrite E6. exists u6. split; auto. split; [congruence|]. split; [|split].
    - intros j Hj. rewrite O6, O5, O4, O3, O2, O1 by lia. auto.
    - intros j Hj. rewrite O6, O5, O4 by lia. destruct (Nat.eq_dec j i) as [->|Hn]; [rewrite V3; reflexivity|].
      rewrite O3, O2, O1 by lia. apply Cw. lia.
    - intros j Hj. destruct (Nat.eq_dec j i) as [->|Hn]; [rewrite V6; reflexivity|]. rewrite O6, O5, O4, O3, O2, O1 by lia. apply Fw. lia. }
  rewrite E. cbn [obind]. cbn [Nat.add] in Cw, Fw.
  assert (S0 : sums w1 w (three a b (cc_w N 0) (cc_w N M) (cc_w N N)) (three a b (cc_w (2 * N) 0) (cc_w (2 * N) N) (cc_w (2 * N) (2 * N)))).
  { split; [congruence|]. split; [intros j Hj; apply Kw; lia|]. auto. }
  clear E Lw Kw Cw Fw.
  assert (BOTH : forall i0 k C F w, (i0 + k <= N + 1)%nat -> sums w1 w C F -> exists w',
    ofold (fun ws i =>
    do p <- raw_get (coarsePts rl) i;
    do ws <- store ws (2 * fd) (f ((a + b) / 2 + (b - a) / 2 * p));
    ofold (fun ws j =>
      do v <- raw_get ws (2 * fd + j);
      do cw <- raw_get (coarseWts rl) i; do x <- raw_get ws (3 * fd + j);
      do ws <- raw_set ws (3 * fd + j) (x + (b - a) / 2 * cw * v);
      do fw <- raw_get (fineWts rl) (2 * i); do y <- raw_get ws (4 * fd + j);
      raw_set ws (4 * fd + j) (y + (b - a) / 2 * fw * v)) (seq 0 fd) ws) (seq i0 k) w = Ok w' /\
    sums w1 w' (fun j => C j + csum a b (cc_w N) i0 k j) (fun j => F j + csum a b (fun i => cc_w (2 * N) (2 * i)) i0 k j)).
  { intros i0 k C F w2 Hk S2.
    destruct (ofold_inv (fun ws i =>
    do p <- raw_get (coarsePts rl) i;
    do ws <- store ws (2 * fd) (f ((a + b) / 2 + (b - a) / 2 * p));
    ofold (fun ws j =>
      do v <- raw_get ws (2 * fd + j);
      do cw <- raw_get (coarseWts rl) i; do x <- raw_get ws (3 * fd + j);
      do ws <- raw_set ws (3 * fd + j) (x + (b - a) / 2 * cw * v);
      do fw <- raw_get (fineWts rl) (2 * i); do y <- raw_get ws (4 * fd + j);
      raw_set ws (4 * fd + j) (y + (b - a) / 2 * fw * v)) (seq 0 fd) ws)
      (fun n w => sums w1 w (fun j => C j + csum a b (cc_w N) i0 (n - i0) j) (fun j => F j + csum a b (fun i => cc_w (2 * N) (2 * i)) i0 (n - i0) j))
      k i0 w2) as (w3 & E3 & S3).
    - rewrite Nat.sub_diag. eapply sums_ext; [| |exact S2]; intros; unfold csum; cbn [rsum]; ring.
    - intros i w3 Hi S3.
      destruct (both_ok w1 w3 _ _ ((a + b) / 2) ((b - a) / 2) i _ _ _ ltac:(lia) S3 (cpt i ltac:(lia)) (cwt i ltac:(lia)) (fwt (2 * i) ltac:(lia))) as (w4 & E4 & S4).
      exists w4. split; [exact E4|]. eapply sums_ext; [| |exact S4]; intros j Hj; cbv beta;
        replace (S i - i0)%nat with (S (i - i0)) by lia; unfold csum; cbn [rsum]; replace (i0 + (i - i0))%nat with i by lia; ring.
    - exists w3. split; auto. replace (i0 + k - i0)%nat with k in S3 by lia. exact S3. }
  destruct (BOTH 1%nat (M - 1)%nat _ _ w ltac:(unfold N; lia) S0) as (w2 & E2 & S2). rewrite E2. cbn [obind].
  replace (N - (M + 1))%nat with (M - 1)%nat by (unfold N; lia).
  destruct (BOTH (M + 1)%nat (M - 1)%nat _ _ w2 ltac:(unfold N; lia) S2) as (w3 & E3 & S3). rewrite E3. cbn [obind].
  replace (length (finePts rl)) with (2 * N + 1)%nat by (unfold rl; cbn [finePts]; rewrite cc_pts_length; lia).
  unfold odds. replace ((2 * N + 1) / 2)%nat with N by (rewrite Nat.add_comm, Nat.mul_comm, Nat.div_add; cbn; lia).
  rewrite ofold_map.
  match goal with |- context [ofold ?body (seq 0 N) w3] =>
    destruct (ofold_inv body (fun n w => sums w1 w
       (fun j => three a b (cc_w N 0) (cc_w N M) (cc_w N N) j + csum a b (cc_w N) 1 (M - 1) j + csum a b (cc_w N) (M + 1) (M - 1) j)
       (fun j => three a b (cc_w (2 * N) 0) (cc_w (2 * N) N) (cc_w (2 * N) (2 * N)) j
         + csum a b (fun i => cc_w (2 * N) (2 * i)) 1 (M - 1) j + csum a b (fun i => cc_w (2 * N) (2 * i)) (M + 1) (M - 1) j + osum a b n j)) N 0 w3)
      as (w4 & E4 & S4)
  end.
  { eapply sums_ext; [| |exact S3]; intros j Hj; auto. unfold osum. cbn [rsum]. ring. }
  { intros i w4 Hi S4.
    destruct (only_fine_ok w1 w4 _ _ ((a + b) / 2) ((b - a) / 2) (2 * i + 1) _ _ ltac:(lia) S4 (fpt (2 * i + 1) ltac:(lia)) (fwt (2 * i + 1) ltac:(lia))) as (w5 & E5 & S5).
    exists w5. split; [exact E5|]. eapply sums_ext; [| |exact S5]; intros j Hj; auto. unfold osum. cbn [rsum]. ring. }
  rewrite E4. exists w4. split; auto. destruct S4 as (L4 & K4 & C4 & F4). split; [|split; [|split]].
  - split; [congruence|]. intros j Hj Hj'. rewrite K4 by lia. apply K; auto.
  - intros i Hi. rewrite C4 by auto. symmetry. apply coarse_split.
  - intros i Hi. rewrite F4 by auto. symmetry. apply fine_split.
  - intros i Hi. rewrite K4 by lia. apply Hmid. auto.
Qed.

(** ** The positions found by UpdateValues *)

Lemma cuv_S L sg : ac_UpdateValues fd (S L) sg = do p <- ac_UpdateValues fd L sg;
    do b <- seg_bit sg (L + 1);
    if b then Ok ((ac_start fd L + 2)%nat, snd p) else Ok (fst p, (ac_start fd L + 2)%nat).
Proof.
  unfold ac_UpdateValues at 1. rewrite seq_S, ofold_app. cbn [Nat.add]. fold (ac_UpdateValues fd L sg).
  destruct (ac_UpdateValues fd L sg) as [(lv & rv)| | |]; cbn [obind ofold fst snd]; auto.
  replace ((L + 5) * fd + 2 * (L + 1))%nat with (ac_start fd L + 2)%nat by (unfold ac_start; nia).
  destruct (seg_bit sg (L + 1)) as [[|]| | |]; cbn [obind]; auto.
Qed.

Lemma cuv_bits L sg sg' : (L < 32)%nat -> (forall k, (k <= L)%nat -> bit sg k = bit sg' k) -> ac_UpdateValues fd L sg = ac_UpdateValues fd L sg'.
Proof.
  intros HL. induction L as [|L IH]; intros H; [reflexivity|]. rewrite !cuv_S, IH by (auto; lia).
  rewrite !seg_bit_ok by lia. fold (bit sg (L + 1)) (bit sg' (L + 1)). rewrite (H (L + 1)%nat) by lia. reflexivity.
Qed.

Lemma cuv_low L sg : (L < 32)%nat -> exists lv rv, ac_UpdateValues fd L sg = Ok (lv, rv) /\
  lowc (ac_start fd L) lv /\ lowc (ac_start fd L) rv.
Proof.
  intros HL. induction L as [|L IH].
  - exists 0%nat, fd. split; [reflexivity|]. unfold lowc. lia.
  - destruct IH as (lv & rv & E & A & C); [lia|]. rewrite cuv_S, E. cbn [obind fst snd].
    rewrite seg_bit_ok by lia. cbn [obind]. pose proof (cstart_5 L). pose proof (cstart_S L).
    destruct (N.testbit sg (N.of_nat (L + 1))); eexists _, _; (split; [reflexivity|]); unfold lowc in *; lia.
Qed.

Definition ac_next (fuel : nat) (ws res : list R) (level : nat) (sg : BinNums.N) : outcome (list R) :=
  do p <- climb level sg;
  let level := fst p in
  if (level =? 0)%nat then Ok res
  else
    let sg := N.lor (snd p) (N.shiftl 1 (N.of_nat level)) in
    let st := ac_start fd level in
    let prev := ac_start fd (level - 1) in
    do a <- raw_get ws prev;
    do b <- raw_get ws (prev + 1);
    do ws <- raw_set ws st (1/2 * (a + b));
    do b <- raw_get ws (prev + 1);
    do ws <- raw_set ws (st + 1) b;
    do u <- ac_UpdateValues fd level sg;
    ac_loop q rl f lb ub fuel ws res level sg st (fst u) (snd u).

Lemma csubtree n : forall L a b sg lv rv ws res, (L + n + 1 = q_maxSub q)%nat ->
  (ac_WorkspaceSize (q_maxSub q) fd <= length ws)%nat -> (fd <= length res)%nat ->
  (forall k, (L < k)%nat -> bit sg k = false) ->
  ac_UpdateValues fd L sg = Ok (lv, rv) ->
  rd ws (ac_start fd L) = a -> rd ws (ac_start fd L + 1) = b ->
  holdc ws lv a -> holdc ws rv b ->
  exists T ws' res', refined c_stop T L a b /\ keepc (ac_start fd L + 2) ws ws' /\ length res' = length res /\
    (forall i, (i < fd)%nat -> rd res' i = rd res i + over_leaves (fun l r => c_fine l r i) (leaves T L a b)) /\
    forall fuel, ac_loop q rl f lb ub (tsize T + fuel) ws res L sg (ac_start fd L) lv rv = ac_next fuel ws' res' L sg.
Proof.
  induction n as [n IH] using lt_wf_ind; intros L a b sg lv rv ws res HL Lw Lr Hsg Huv Ea Eb Vl Vr.
  pose proof (cstart_room L ltac:(lia)) as Room; pose proof (cstart_5 L) as H5.
  destruct (cuv_low L sg ltac:(lia)) as (lv' & rv' & Huv' & Pl & Pr); rewrite Huv in Huv'; injection Huv' as <- <-.
  destruct (acc_estimate_ok ws (ac_start fd L) lv rv a b H5 ltac:(lia) Pl Pr Ea Eb Vl Vr)
    as (w1 & E1 & K1 & C1 & F1 & Hmid).
  assert (L1 : length w1 = length ws) by apply K1.
  assert (W5 : (5 * fd <= length w1)%nat) by lia.
  pose proof (estimate_error_ok q w1 (c_coarse a b) (c_fine a b) (3 * fd) (4 * fd) Hfd ltac:(fold fd; lia) ltac:(fold fd; lia) C1 F1) as EE.
  assert (ST : Bool.reflect (c_stop L a b) (stop_test q lb ub (size_of (q_metric q) (q_fdim q) (fun i => c_fine a b i - c_coarse a b i))
               (Rmax (q_relTol q * size_of (q_metric q) (q_fdim q) (c_coarse a b)) (q_absTol q)) L))
    by exact (stop_test_spec q lb ub L c_coarse c_fine a b Hm1).
  destruct (add_fine_ok q w1 res (c_fine a b) ltac:(fold fd; lia) Lr F1) as (res1 & E2 & Lr1 & R1).
  assert (Ea1 : rd w1 (ac_start fd L) = a) by (rewrite (proj2 K1) by lia; auto).
  assert (Eb1 : rd w1 (ac_start fd L + 1) = b) by (rewrite (proj2 K1) by lia; auto).
  destruct (Bool.reflect_dec _ _ ST) as [HS|NS].
  { exists Leaf, w1, res1; (split; [exact HS|]); (split; [exact K1|]); (split; [exact Lr1|]); split;
    [intros i Hi; rewrite R1 by auto; cbn [leaves]; unfold over_leaves; cbn; ring|
     intros fuel; cbn [tsize Nat.add ac_loop]; fold fd; rewrite E1; cbn [obind]; rewrite EE; cbn [obind];
     rewrite !get_ok by lia; cbn [obind fst snd]; destruct ST as [_|NS]; [|contradiction]; rewrite E2; reflexivity]. }
  assert (Hn : n <> 0%nat) by (intros ->; apply NS; left; split; [right; lia|lia]).
  destruct n as [|n]; [lia|]. specialize (IH n ltac:(lia)).
  clear E2 R1 Lr1 res1.
  pose proof (cstart_S L) as SS. pose proof (cstart_room (S L) ltac:(lia)) as Room'.
  destruct (set_ok w1 (ac_start fd (S L)) a) as (w2 & E2 & L2 & V2 & O2); [lia|].
  destruct (set_ok w2 (ac_start fd (S L) + 1) ((a + b) / 2)) as (w3 & E3 & L3 & V3 & O3); [lia|].
  assert (K3 : keepc (ac_start fd (S L)) w1 w3).
  { split; [congruence|]. intros j Hj _. rewrite O3, O2 by lia. reflexivity. }
  assert (Huv2 : ac_UpdateValues fd (S L) sg = Ok (lv, (ac_start fd L + 2)%nat)).
  { rewrite cuv_S, Huv. cbn [obind]. rewrite seg_bit_ok by lia. cbn [obind].
    change (N.testbit sg (N.of_nat (L + 1))) with (bit sg (L + 1)). rewrite Hsg by lia. reflexivity. }
  assert (KW : forall p x, lowc (ac_start fd L) p -> holdc ws p x -> holdc w3 p x).
  { intros p x Hp Hh. apply (keepc_holds (ac_start fd (S L)) w1 w3); auto; [lia|unfold lowc in *; lia|].
    apply (keepc_holds (ac_start fd L + 2) ws w1); auto; [lia|unfold lowc in *; lia]. }
  destruct (IH (S L) a ((a + b) / 2) sg lv (ac_start fd L + 2)%nat w3 res) as (T1 & w4 & r4 & RF1 & K4 & Lr4 & R4 & RUN1); auto.
  { lia. } { congruence. } { intros k Hk. apply Hsg. lia. } { rewrite O3 by lia. auto. }
  { apply (keepc_holds (ac_start fd (S L)) w1 w3); auto; [lia|unfold lowc; lia]. }
  assert (L4 : length w4 = length ws) by (destruct K4 as [K4 _]; congruence).
  assert (Ea4 : rd w4 (ac_start fd L) = a) by (rewrite (proj2 K4), (proj2 K3) by lia; auto).
  assert (Eb4 : rd w4 (ac_start fd L + 1) = b) by (rewrite (proj2 K4), (proj2 K3) by lia; auto).
  destruct (set_ok w4 (ac_start fd (S L)) ((a + b) / 2)) as (w5 & E5 & L5 & V5 & O5); [lia|].
  destruct (set_ok w5 (ac_start fd (S L) + 1) b) as (w6 & E6 & L6 & V6 & O6); [lia|].
  assert (K6 : keepc (ac_start fd (S L)) w4 w6).
  { split; [congruence|]. intros j Hj _. rewrite O6, O5 by lia. reflexivity. }
  set (sg' := set_bit sg (S L)).
  assert (Bs : forall k, bit sg' k = (bit sg k || (k =? S L)%nat)%bool) by (intros; apply bit_set).
  assert (Huv3 : ac_UpdateValues fd (S L) sg' = Ok ((ac_start fd L + 2)%nat, rv)).
  { rewrite cuv_S. rewrite (cuv_bits L sg' sg); [|lia|intros k Hk; rewrite Bs; destruct (Nat.eqb_spec k (S L)); [lia|apply orb_false_r]].
    rewrite Huv. cbn [obind]. rewrite seg_bit_ok by lia. cbn [obind].
    change (N.testbit sg' (N.of_nat (L + 1))) with (bit sg' (L + 1)). rewrite Bs.
    replace (L + 1)%nat with (S L) by lia. rewrite Nat.eqb_refl, orb_true_r. reflexivity. }
  assert (KW2 : forall p x, lowc (ac_start fd (S L)) p -> holdc w3 p x -> holdc w6 p x).
  { intros p x Hp Hh. apply (keepc_holds (ac_start fd (S L)) w4 w6); auto; [lia|].
    apply (keepc_holds (ac_start fd (S L) + 2) w3 w4); auto; [lia|unfold lowc in *; lia]. }
  destruct (IH (S L) ((a + b) / 2) b sg' (ac_start fd L + 2)%nat rv w6 r4) as (T2 & w7 & r7 & RF2 & K7 & Lr7 & R7 & RUN2); auto.
  { lia. } { lia. } { lia. }
  { intros k Hk. rewrite Bs. rewrite Hsg by lia. destruct (Nat.eqb_spec k (S L)); [lia|reflexivity]. }
  { rewrite O6 by lia. auto. }
  { apply KW2; [unfold lowc; lia|]. apply (keepc_holds (ac_start fd (S L)) w1 w3); auto; [lia|unfold lowc; lia]. }
  { apply KW2; [unfold lowc in *; lia|]. apply KW; auto. }
  exists (Node T1 T2), w7, r7. split; [cbn [refined]; auto|]. split; [|split; [lia|split]].
  - apply keepc_trans with w1; auto. apply keepc_trans with w3; [apply (keepc_less _ (ac_start fd (S L))); auto; lia|].
    apply keepc_trans with w4; [apply (keepc_less _ (ac_start fd (S L) + 2)); auto; lia|].
    apply keepc_trans with w6; [apply (keepc_less _ (ac_start fd (S L))); auto; lia|].
    apply (keepc_less _ (ac_start fd (S L) + 2)); auto; lia.
  - intros i Hi. rewrite R7, R4 by auto. cbn [leaves]. rewrite over_leaves_app. ring.
  - intros fuel. cbn [tsize]. replace (S (tsize T1 + tsize T2) + fuel)%nat with (S (tsize T1 + (tsize T2 + fuel))) by lia.
    cbn [ac_loop]. fold fd. rewrite E1. cbn [obind]. rewrite EE. cbn [obind]. rewrite !get_ok by lia. cbn [obind fst snd].
    destruct ST as [HS|_]; [contradiction|].
    rewrite Ea1, Eb1, halfc. rewrite E2. cbn [obind]. rewrite E3. cbn [obind]. rewrite RUN1. unfold ac_next at 1.
    rewrite (climb_stop sg (S L)); [|lia|right; apply Hsg; lia]. cbn [obind fst snd Nat.eqb].
    replace (S L - 1)%nat with L by lia. fold (set_bit sg (S L)). fold sg'. rewrite !get_ok by lia. cbn [obind]. rewrite Ea4, Eb4, halfc.
    rewrite E5. cbn [obind]. rewrite get_ok by lia. cbn [obind].
    assert (X : rd w5 (ac_start fd L + 1) = b) by (rewrite O5 by lia; auto). rewrite X, E6. cbn [obind]. rewrite Huv3. cbn [obind fst snd].
    rewrite RUN2. unfold ac_next. rewrite climb_up; [|lia|rewrite Bs, Nat.eqb_refl; apply orb_true_r].
    unfold sg'. rewrite clear_set by (apply Hsg; lia). reflexivity.
Qed.

Lemma acc_run ws res fuel : (ac_WorkspaceSize (q_maxSub q) fd <= length ws)%nat -> (fd <= length res)%nat -> (2 ^ q_maxSub q <= fuel)%nat ->
  exists T res', refined c_stop T 0 lb ub /\ ac_Integrate q rl fuel ws f lb ub res = Ok res' /\ length res' = length res /\
    forall i, (i < fd)%nat -> rd res' i = over_leaves (fun l r => c_fine l r i) (leaves T 0 lb ub).
Proof.
  intros Lw Lr Hfuel. unfold ac_Integrate. fold fd. pose proof (cstart_room 0 ltac:(lia)) as Room. rewrite cstart_0 in Room.
  destruct (zero_res fd res Lr) as (r0 & E0 & Lr0 & Z0). rewrite E0. cbn [obind].
  destruct (store_ok ws 0 (f lb)) as (w1 & E1 & L1 & I1 & O1); [rewrite Hf; lia|]. rewrite Hf in I1, O1. rewrite E1. cbn [obind].
  destruct (store_ok w1 fd (f ub)) as (w2 & E2 & L2 & I2 & O2); [rewrite Hf; lia|]. rewrite Hf in I2, O2. rewrite E2. cbn [obind].
  destruct (set_ok w2 (5 * fd) lb) as (w4 & E4 & L4 & V4 & O4); [lia|]. rewrite E4. cbn [obind].
  destruct (set_ok w4 (5 * fd + 1) ub) as (w5 & E5 & L5 & V5 & O5); [lia|]. rewrite E5. cbn [obind].
  destruct (csubtree (q_maxSub q - 1) 0 lb ub 0%N 0%nat fd w5 r0) as (T & w' & r' & RF & _ & Lr' & R' & RUN).
  - lia.
  - lia.
  - lia.
  - intros k _. unfold bit. apply N.bits_0.
  - reflexivity.
  - rewrite cstart_0, O5 by lia. auto.
  - rewrite cstart_0. auto.
  - intros i Hi. cbn [Nat.add]. rewrite O5, O4, O2 by lia. pose proof (I1 i Hi) as X. cbn [Nat.add] in X. rewrite X. reflexivity.
  - intros i Hi. rewrite O5, O4, I2 by lia. reflexivity.
  - exists T, r'. split; [auto|]. split; [|split; [lia|]].
    + pose proof (tsize_bound c_stop T 0 lb ub (q_maxSub q) ltac:(lia)) as B. rewrite Nat.sub_0_r in B.
      assert (HT : (tsize T < 2 ^ q_maxSub q)%nat) by (apply B; auto; intros d x y Hd; left; split; [right; auto|lia]).
      specialize (RUN (fuel - tsize T)%nat). replace (tsize T + (fuel - tsize T))%nat with fuel in RUN by lia.
      rewrite cstart_0 in RUN. rewrite RUN. unfold ac_next. rewrite climb_stop by (auto; lia). reflexivity.
    + intros i Hi. rewrite R', Z0 by auto. ring.
Qed.
End ACC.

Lemma ac_make_ok level : (1 <= level)%nat ->
  ac_make level = Ok (MkRules (cc_pts (2 ^ level)) (cc_wts (2 ^ level)) (cc_pts (2 * 2 ^ level)) (cc_wts (2 * 2 ^ level))).
Proof.
  intros H. unfold ac_make. assert (P : (2 <= 2 ^ level)%nat) by (destruct level as [|l]; [lia|]; cbn; pose proof (Nat.pow_nonzero 2 l ltac:(lia)); lia).
  destruct (Nat.ltb_spec (2 ^ level + 1) 3); [lia|]. rewrite !(Nat.add_1_r (2 ^ _)), (Nat.add_1_r level). cbn [Nat.pow] || idtac.
  rewrite !GetRule_ok by (rewrite ?repeat_length; lia). reflexivity.
Qed.
