(** Remaining quadrature lemmas: ClenshawCurtisQuadrature::Integrate, reversed intervals,
    polynomial exactness, too many forced subdivisions. *)
From Coq Require Import Reals Lra NArith Psatz.
From Coquelicot Require Import Coquelicot.
From Verif Require Import Base SpecMulti SpecExpansion SpecQuad SpecPoly PolyModel PolyProofs BijProofs ExpansionProofs ExpansionDeriv
  QuadModel QuadCC QuadWalk QuadSimpson QuadACC.
Local Open Scope R_scope.

(** ** ClenshawCurtisQuadrature *)

Lemma cc_Integrate_short pts wts fd ws f lb ub res : (forall x, length (f x) = fd) -> (fd <= length res)%nat -> ub - lb < midpoint_tol ->
  exists res', cc_Integrate pts wts fd ws f lb ub res = Ok res' /\ length res' = length res /\
    forall i, (i < fd)%nat -> rd res' i = (ub - lb) * comp f i ((lb + ub) / 2).
Proof.
  intros Hf Lr H. unfold cc_Integrate. destruct (Rltb_spec (ub - lb) midpoint_tol) as [_|N]; [|contradiction].
  replace (1 / 2 * (ub + lb)) with ((lb + ub) / 2) by field.
  destruct (store_ok res 0 (f ((lb + ub) / 2))) as (r1 & E1 & L1 & I1 & _); [rewrite Hf; lia|]. rewrite E1. cbn [obind]. rewrite Hf in I1.
  destruct (ofold_inv (fun res i => do v <- raw_get res i; raw_set res i (v * (ub - lb)))
    (fun k r => length r = length res /\ (forall i, (i < k)%nat -> rd r i = (ub - lb) * comp f i ((lb + ub) / 2)) /\
      forall i, (k <= i < fd)%nat -> rd r i = comp f i ((lb + ub) / 2)) fd 0 r1) as (r & E & Lr' & V & _).
  - split; [congruence|]. split; [intros; lia|]. intros i Hi. rewrite <- (Nat.add_0_l i) at 1. rewrite I1 by lia. reflexivity.
  - intros i r Hi (Lr' & V & V'). rewrite get_ok by lia. cbn [obind].
    destruct (set_ok r i (rd r i * (ub - lb))) as (r2 & E2 & L2 & V2 & O2); [lia|]. rewrite E2. exists r2. split; auto.
    split; [congruence|]. split; intros j Hj.
    + destruct (Nat.eq_dec j i) as [->|Hn]; [rewrite V2, V' by lia; ring|]. rewrite O2 by lia. apply V. lia.
    + rewrite O2 by lia. apply V'. lia.
  - exists r. auto.
Qed.

Lemma cc_Integrate_long pts wts fd ws f lb ub res : (forall x, length (f x) = fd) -> (fd <= length res)%nat -> (fd <= length ws)%nat ->
  length wts = length pts -> midpoint_tol <= ub - lb ->
  exists res', cc_Integrate pts wts fd ws f lb ub res = Ok res' /\ length res' = length res /\
    forall i, (i < fd)%nat -> rd res' i = rule_on pts wts lb ub (comp f i).
Proof.
  intros Hf Lr Lw Lp H. unfold cc_Integrate. destruct (Rltb_spec (ub - lb) midpoint_tol) as [N|_]; [lra|].
  destruct (ofold_inv (fun res j => raw_set res j 0)
    (fun k r => length r = length res /\ forall i, (i < k)%nat -> rd r i = 0) fd 0 res) as (r0 & E0 & L0 & Z0).
  { split; auto. intros; lia. }
  { intros i r Hi (Lr' & V). destruct (set_ok r i 0) as (r2 & E2 & L2 & V2 & O2); [lia|]. rewrite E2. exists r2. split; auto.
    split; [congruence|]. intros j Hj. destruct (Nat.eq_dec j i) as [->|Hn]; auto. rewrite O2 by lia. apply V. lia. }
  rewrite E0. cbn [obind].
  match goal with |- context [ofold ?body (seq 0 (length pts)) (ws, r0)] =>
    destruct (ofold_inv body (fun k (r : list R * list R) => length (fst r) = length ws /\ length (snd r) = length res /\
       forall j, (j < fd)%nat -> rd (snd r) j = rsum (fun i => (ub - lb) / 2 * (nth i wts 0 * comp f j ((lb + ub) / 2 + (ub - lb) / 2 * nth i pts 0))) k)
       (length pts) 0 (ws, r0)) as ((w & r) & E & Lw' & Lr' & V) end.
  - cbn [fst snd]. split; [reflexivity|]. split; [exact L0|]. intros j Hj. unfold rd in *. cbn [rsum]. rewrite (Z0 j) by lia. reflexivity.
  - intros i (w & r) Hi. cbn [fst snd]. intros (Lw' & Lr' & V).
    rewrite raw_get_ok with (d := 0) by lia. cbn [obind].
    replace (1 / 2 * (ub + lb + (ub - lb) * nth i pts 0)) with ((lb + ub) / 2 + (ub - lb) / 2 * nth i pts 0) by field.
    set (x := (lb + ub) / 2 + (ub - lb) / 2 * nth i pts 0) in *.
    destruct (store_ok w 0 (f x)) as (w1 & E1 & L1 & I1 & _); [rewrite Hf; lia|]. rewrite E1. cbn [obind]. rewrite Hf in I1.
    rewrite (raw_get_ok wts i 0) by lia.
    match goal with |- context [ofold ?body (seq 0 fd) r] =>
      destruct (ofold_inv body (fun k u => length u = length res /\ (forall j, (k <= j < fd)%nat -> rd u j = rd r j) /\
         forall j, (j < k)%nat -> rd u j = rd r j + (ub - lb) / 2 * (nth i wts 0 * comp f j x)) fd 0 r) as (u & Eu & Lu & _ & Vu) end.
    + split; auto. split; [auto|]. intros; lia.
    + intros j u Hj (Lu & Ku & Vu). rewrite (get_ok u j) by lia. cbn [obind]. rewrite (get_ok w1 j) by lia. cbn [obind].
      pose proof (I1 j ltac:(lia)) as X. cbn [Nat.add] in X. rewrite X, Ku by lia.
      match goal with |- context [raw_set u j ?v] => destruct (set_ok u j v) as (u2 & E2 & L2 & V2 & O2); [lia|] end.
      rewrite E2. exists u2. split; auto. split; [congruence|]. split; intros k Hk.
      * rewrite O2 by lia. apply Ku. lia.
      * destruct (Nat.eq_dec k j) as [->|Hn]; [rewrite V2; unfold comp; field|]. rewrite O2 by lia. apply Vu. lia.
    + rewrite Eu. cbn [obind]. eexists. split; [reflexivity|]. cbn [fst snd]. split; [congruence|]. split; auto.
      intros j Hj. rewrite Vu by lia. rewrite V by lia. cbn [rsum]. fold x. ring.
  - rewrite E. cbn [obind snd] in *. exists r. split; auto. split; auto. intros i Hi. cbn [Nat.add] in V. rewrite V by auto.
    unfold rule_on, rule_sum. rewrite rsum_scal. reflexivity.
Qed.

(** ** Reversed intervals *)

Fixpoint mirror (T : btree) : btree := match T with Leaf => Leaf | Node l r => Node (mirror r) (mirror l) end.

Lemma refined_mirror (stop stop' : nat -> R -> R -> Prop) T : (forall d a b, stop d a b <-> stop' d b a) ->
  forall d a b, refined stop T d a b -> refined stop' (mirror T) d b a.
Proof.
  intros H. induction T as [|l IHl r IHr]; intros d a b; cbn [refined mirror]; [apply H|].
  intros (N & A & B). rewrite (Rplus_comm b a). split; [intros X; apply N, H; auto|]. split; auto.
Qed.

Lemma refined_unique (stop : nat -> R -> R -> Prop) T : forall T' d a b, refined stop T d a b -> refined stop T' d a b -> T = T'.
Proof.
  induction T as [|l IHl r IHr]; intros [|l' r'] d a b; cbn [refined]; try tauto.
  intros (N & A & B) (N' & A' & B'). f_equal; eauto.
Qed.

Lemma mirror_leaves est est' T : (forall a b, est b a = - est' a b) -> forall d a b,
  over_leaves est (leaves (mirror T) d b a) = - over_leaves est' (leaves T d a b).
Proof.
  intros H. induction T as [|l IHl r IHr]; intros d a b; cbn [mirror leaves].
  - unfold over_leaves. cbn. rewrite H. ring.
  - rewrite !over_leaves_app. rewrite (Rplus_comm b a). rewrite IHl, IHr. ring.
Qed.

Lemma rmax_ext v w n : (forall i, (i < n)%nat -> v i = w i) -> rmax v n = rmax w n.
Proof. induction n as [|n IH]; intros H; cbn [rmax]; auto. rewrite IH, H; auto. Qed.

Lemma size_of_opp m n v w : (0 < n)%nat -> (forall i, v i = - w i) -> size_of m n v = size_of m n w.
Proof.
  intros Hn H. destruct m; cbn [size_of].
  - rewrite H. apply Rabs_Ropp.
  - apply rmax_ext. intros. rewrite H. apply Rabs_Ropp.
  - f_equal. apply rsum_ext. intros. rewrite H. ring.
  - apply rsum_ext. intros. rewrite H. apply Rabs_Ropp.
Qed.

Lemma adaptive_stop_mirror m n absTol relTol maxSub minSub w C F : (0 < n)%nat ->
  (forall a b i, C b a i = - C a b i) -> (forall a b i, F b a i = - F a b i) -> forall d a b,
  adaptive_stop m n absTol relTol maxSub minSub w C F d a b <-> adaptive_stop m n absTol relTol maxSub minSub (- w) C F d b a.
Proof.
  intros Hn HC HF d a b. unfold adaptive_stop, close. rewrite Rabs_Ropp.
  rewrite (size_of_opp m n (fun i => F b a i - C b a i) (fun i => F a b i - C a b i)) by (auto; intros; rewrite HC, HF; ring).
  rewrite (size_of_opp m n (C b a) (C a b)) by auto. tauto.
Qed.

Lemma simpson_mirror g a b : simpson g b a = - simpson g a b.
Proof. unfold simpson. rewrite (Rplus_comm b a). field. Qed.
Lemma simpson2_mirror g a b : simpson2 g b a = - simpson2 g a b.
Proof. unfold simpson2. rewrite (Rplus_comm b a). rewrite (simpson_mirror g _ b), (simpson_mirror g a). ring. Qed.

Lemma rsum_rev h n : rsum h (S n) = rsum (fun i => h (n - i)%nat) (S n).
Proof.
  induction n as [|n IH]; [reflexivity|].
  rewrite (rsum_shift (fun i => h (S n - i)%nat) (S n)), Nat.sub_0_r.
  rewrite (rsum_ext (fun i => h (S n - S i)%nat) (fun i => h (n - i)%nat)) by (intros; reflexivity).
  rewrite <- IH. cbn [rsum]. ring.
Qed.

Lemma cc_rule_mirror N g a b : (1 <= N)%nat -> rule_on (cc_pts N) (cc_wts N) b a g = - rule_on (cc_pts N) (cc_wts N) a b g.
Proof.
  intros HN. unfold rule_on. rewrite !rule_sum_cc. rewrite rsum_rev.
  rewrite (rsum_ext (fun i => cc_w N (N - i) * g ((b + a) / 2 + (a - b) / 2 * cc_x N (N - i)))
     (fun i => cc_w N i * g ((a + b) / 2 + (b - a) / 2 * cc_x N i))).
  - field.
  - intros i Hi. rewrite cc_w_sym, cc_x_sym by lia. f_equal. f_equal. field.
Qed.

(** ** Exactness for polynomials *)

Lemma is_RInt_pow n a b : is_RInt (fun x => x ^ n) a b (b ^ S n / INR (S n) - a ^ S n / INR (S n)).
Proof.
  assert (P : INR (S n) <> 0) by (apply not_0_INR; lia).
  apply (is_RInt_derive (fun x => x ^ S n / INR (S n)) (fun x => x ^ n)).
  - intros x _. replace (x ^ n) with (/ INR (S n) * (INR (S n) * 1 * x ^ Nat.pred (S n))) by (cbn [Nat.pred]; field; auto).
    apply is_derive_ext with (f := fun x => / INR (S n) * x ^ S n); [intros; unfold Rdiv; apply Rmult_comm|].
    apply is_derive_scal. apply is_derive_pow. apply (is_derive_id (K := R_AbsRing)).
  - intros x _. apply (ex_derive_continuous (fun x => x ^ n)). apply ex_derive_pow. apply (ex_derive_id (K := R_AbsRing)).
Qed.

Lemma simpson_cubic c a b : (length c <= 4)%nat -> is_RInt (poly c) a b (simpson (poly c) a b).
Proof.
  intros L.
  assert (G : forall c0 c1 c2 c3, is_RInt (poly [c0; c1; c2; c3]) a b (simpson (poly [c0; c1; c2; c3]) a b)).
  { intros c0 c1 c2 c3.
    pose proof (is_RInt_plus (V := R_NormedModule) _ _ a b _ _
      (is_RInt_plus (V := R_NormedModule) _ _ a b _ _ (is_RInt_scal (V := R_NormedModule) _ a b c0 _ (is_RInt_pow 0 a b))
         (is_RInt_scal (V := R_NormedModule) _ a b c1 _ (is_RInt_pow 1 a b)))
      (is_RInt_plus (V := R_NormedModule) _ _ a b _ _ (is_RInt_scal (V := R_NormedModule) _ a b c2 _ (is_RInt_pow 2 a b))
         (is_RInt_scal (V := R_NormedModule) _ a b c3 _ (is_RInt_pow 3 a b)))) as H.
    match type of H with is_RInt ?g _ _ ?I =>
      replace (simpson (poly [c0; c1; c2; c3]) a b) with I; [apply is_RInt_ext with (f := g); [|exact H]|] end.
    - intros x _. change (c0 * x ^ 0 + c1 * x ^ 1 + (c2 * x ^ 2 + c3 * x ^ 3) = poly [c0; c1; c2; c3] x). cbn [poly]. ring.
    - clear H. change (c0 * (b ^ 1 / INR 1 - a ^ 1 / INR 1) + c1 * (b ^ 2 / INR 2 - a ^ 2 / INR 2)
        + (c2 * (b ^ 3 / INR 3 - a ^ 3 / INR 3) + c3 * (b ^ 4 / INR 4 - a ^ 4 / INR 4)) = simpson (poly [c0; c1; c2; c3]) a b).
      unfold simpson. cbn [poly INR]. field. }
  assert (Z : forall u v, (forall x, poly u x = poly v x) -> is_RInt (poly v) a b (simpson (poly v) a b) -> is_RInt (poly u) a b (simpson (poly u) a b)).
  { intros u v H H'. unfold simpson. rewrite !H. apply is_RInt_ext with (f := poly v); [intros; symmetry; apply H|]. exact H'. }
  destruct c as [|c0 [|c1 [|c2 [|c3 [|? ?]]]]]; cbn in L; try lia.
  - apply (Z _ [0; 0; 0; 0]); [intros; cbn; ring|apply G].
  - apply (Z _ [c0; 0; 0; 0]); [intros; cbn; ring|apply G].
  - apply (Z _ [c0; c1; 0; 0]); [intros; cbn; ring|apply G].
  - apply (Z _ [c0; c1; c2; 0]); [intros; cbn; ring|apply G].
  - apply G.
Qed.

Lemma over_leaves_RInt g est T : (forall a b, is_RInt g a b (est a b)) -> forall d a b, is_RInt g a b (over_leaves est (leaves T d a b)).
Proof.
  intros H. induction T as [|l IHl r IHr]; intros d a b; cbn [leaves].
  - unfold over_leaves. cbn. rewrite Rplus_0_r. apply H.
  - rewrite over_leaves_app. apply (is_RInt_Chasles (V := R_NormedModule)) with ((a + b) / 2); auto.
Qed.

Lemma cc_on_exact N c a b : (1 <= N)%nat -> (length c <= S N)%nat -> is_RInt (poly c) a b (rule_on (cc_pts N) (cc_wts N) a b (poly c)).
Proof.
  intros HN L. unfold rule_on. apply move_interval. apply cspan_exact; auto. apply (cspan_mono (length c)); auto. apply cspan_poly.
Qed.
