(** Adaptive Simpson quadrature of x*exp(s*x) over s in [0,1]: the value jumps down where the
    interval is first halved (for C72). *)
From Coq Require Import Reals Lra Lia.
From Coquelicot Require Import Coquelicot.
From Verif Require Import Base SpecMulti SpecExpansion SpecQuad SpecMono SpecAdaptQuad QuadModel QuadWalk QuadProofs AdaptQuad.
Local Open Scope R_scope.

Definition hx (x s : R) : R := x * (exp (s * x) + 0).

Lemma exp_diff x a b : simpson (hx x) a b - simpson2 (hx x) a b = x * (b - a) / 12 * exp (a * x) * (exp ((b - a) * x / 4) - 1) ^ 4.
Proof.
  unfold simpson2, simpson, hx. set (e := exp (a * x)). set (u := exp ((b - a) * x / 4)).
  assert (E1 : exp ((a + (a + b) / 2) / 2 * x) = e * u) by (unfold e, u; rewrite <- exp_plus; f_equal; field).
  assert (E2 : exp ((a + b) / 2 * x) = e * u * u) by (unfold e, u; rewrite <- !exp_plus; f_equal; field).
  assert (E3 : exp (((a + b) / 2 + b) / 2 * x) = e * u * u * u) by (unfold e, u; rewrite <- !exp_plus; f_equal; field).
  assert (E4 : exp (b * x) = e * u * u * u * u) by (unfold e, u; rewrite <- !exp_plus; f_equal; field).
  rewrite E1, E2, E3, E4. fold e. field.
Qed.
Lemma exp_diff_pos x a b : 0 < x -> a < b -> simpson2 (hx x) a b < simpson (hx x) a b.
Proof.
  intros Hx Hab. enough (0 < simpson (hx x) a b - simpson2 (hx x) a b) by lra. rewrite exp_diff.
  assert (1 < exp ((b - a) * x / 4)). { rewrite <- exp_0 at 1. apply exp_increasing. assert (0 < (b - a) * x) by (apply Rmult_lt_0_compat; lra). lra. }
  pose proof (exp_pos (a * x)). apply Rmult_lt_0_compat; [apply Rmult_lt_0_compat; [|lra]|apply pow_lt; lra].
  assert (0 < x * (b - a)) by (apply Rmult_lt_0_compat; lra). lra.
Qed.
Lemma tree_le x T : 0 < x -> forall d a b, a < b -> over_leaves (simpson2 (hx x)) (leaves T d a b) <= simpson2 (hx x) a b.
Proof.
  intros Hx. induction T as [|l IHl r IHr]; intros d a b Hab; cbn [leaves].
  - unfold over_leaves. cbn [fold_right fst snd]. lra.
  - rewrite over_leaves_app. specialize (IHl (S d) a ((a + b) / 2) ltac:(lra)). specialize (IHr (S d) ((a + b) / 2) b ltac:(lra)).
    pose proof (exp_diff_pos x a ((a + b) / 2) Hx ltac:(lra)). pose proof (exp_diff_pos x ((a + b) / 2) b Hx ltac:(lra)). unfold simpson2 at 3. lra.
Qed.
(** The first zero of a continuous function. *)
Lemma first_zero (P : R -> R) x1 : (forall x, continuous P x) -> P 0 < 0 -> 0 < x1 -> 0 < P x1 -> exists m, 0 < m /\ P m = 0 /\ forall y, 0 <= y < m -> P y < 0.
Proof.
  intros HC H0 Hx1 H1. set (U := fun x => 0 <= x <= x1 /\ forall y, 0 <= y <= x -> P y < 0).
  destruct (completeness U) as (m & M1 & M2).
  - exists x1. intros x (Hx & _). lra.
  - exists 0. split; [lra|]. intros y Hy. replace y with 0 by lra. auto.
  - assert (Hm : 0 <= m <= x1). { split; [apply M1; split; [lra|intros y Hy; replace y with 0 by lra; auto]|apply M2; intros x (Hx & _); lra]. }
    assert (HL : forall y, 0 <= y < m -> P y < 0).
    { intros y Hy. destruct (Rlt_dec (P y) 0) as [|n]; auto. exfalso. assert (m <= y); [|lra]. apply M2. intros x (Hx & HU).
      destruct (Rle_dec x y); auto. exfalso. apply n. apply HU. lra. }
    assert (Z : P m = 0).
    { destruct (Rtotal_order (P m) 0) as [L|[L|L]]; auto; exfalso.
      - destruct (below_local P (fun _ => 0) m (HC m) (continuous_const _ _) L) as (e & He).
        assert (m < x1). { destruct (Rle_lt_dec x1 m); auto. assert (m = x1) by lra. subst m. lra. }
        set (z := Rmin (m + e / 2) x1). pose proof (cond_pos e).
        assert (m < z) by (unfold z; apply Rmin_glb_lt; lra).
        assert (z <= m); [|lra]. apply M1. split; [unfold z; split; [apply Rmin_glb; lra|apply Rmin_r]|].
        intros y Hy. destruct (Rlt_le_dec y m); [apply HL; lra|]. apply He. unfold ball. cbn. unfold AbsRing_ball, abs, minus, plus, opp. cbn.
        assert (z <= m + e / 2) by apply Rmin_l. rewrite Rabs_right; lra.
      - destruct (below_local (fun _ => 0) P m (continuous_const _ _) (HC m) L) as (e & He). pose proof (cond_pos e).
        destruct (Rle_lt_dec m 0); [assert (m = 0) by lra; subst m; lra|].
        set (z := Rmax 0 (m - e / 2)). assert (z < m) by (unfold z; apply Rmax_lub_lt; lra). assert (0 <= z) by apply Rmax_l. assert (m - e / 2 <= z) by apply Rmax_r.
        pose proof (HL z ltac:(lra)). enough (0 < P z) by lra. apply He. unfold ball. cbn. unfold AbsRing_ball, abs, minus, plus, opp. cbn. rewrite Rabs_left; lra. }
    exists m. split; [|auto]. destruct (Rle_lt_dec m 0); [|auto]. assert (m = 0) by lra. subst m. lra.
Qed.

Lemma nice (x : R) : ex_derive (fun x => simpson (hx x) 0 1) x /\ ex_derive (fun x => simpson2 (hx x) 0 1) x.
Proof. split; unfold simpson2, simpson, hx; auto_derive; auto. Qed.
Lemma simpson_cont x : continuous (fun x => simpson (hx x) 0 1) x.
Proof. apply (ex_derive_continuous (K := R_AbsRing) (V := R_NormedModule) (fun x => simpson (hx x) 0 1)). apply nice. Qed.
Lemma simpson2_cont x : continuous (fun x => simpson2 (hx x) 0 1) x.
Proof. apply (ex_derive_continuous (K := R_AbsRing) (V := R_NormedModule) (fun x => simpson2 (hx x) 0 1)). apply nice. Qed.

Lemma simpson_pos x : 0 < x -> 0 < simpson (hx x) 0 1.
Proof.
  intros Hx. unfold simpson, hx. pose proof (exp_pos (0 * x)). pose proof (exp_pos ((0 + 1) / 2 * x)). pose proof (exp_pos (1 * x)).
  assert (forall u, 0 < u -> 0 < x * (u + 0)) by (intros u Hu; apply Rmult_lt_0_compat; lra).
  apply Rmult_lt_0_compat; [lra|]. specialize (H2 _ H) as A1. specialize (H2 _ H0) as A2. specialize (H2 _ H1) as A3. lra.
Qed.

(** The interval is halved for large x. *)
Lemma beyond absT relT : relT < 1 / 2 -> exists x, 0 < x /\ Rmax (relT * simpson (hx x) 0 1) absT < simpson (hx x) 0 1 - simpson2 (hx x) 0 1.
Proof.
  intros Hr. set (e := 1 - 2 * relT). assert (He : 0 < e) by (unfold e; lra).
  set (u := 3 + 9 / e + 12 * Rabs absT). assert (H9 : 0 < 9 / e) by (apply Rdiv_lt_0_compat; lra). pose proof (Rabs_pos absT). pose proof (Rle_abs absT).
  assert (U3 : 3 < u) by (unfold u; lra).
  assert (Ue : 9 < e * u). { unfold u. replace (e * (3 + 9 / e + 12 * Rabs absT)) with (9 + e * 3 + e * (12 * Rabs absT)) by (field; lra). assert (0 <= e * (12 * Rabs absT)) by (apply Rmult_le_pos; lra). lra. }
  set (x := 4 * ln u). assert (Eu : exp (x / 4) = u) by (unfold x; replace (4 * ln u / 4) with (ln u) by field; apply exp_ln; lra).
  assert (L1 : 1 < ln u). { rewrite <- (ln_exp 1). apply ln_increasing; [apply exp_pos|]. pose proof exp_le_3 as E3. lra. }
  assert (Hx : 4 < x) by (unfold x; lra). exists x. split; [lra|].
  assert (ES : simpson (hx x) 0 1 = x / 6 * (1 + 4 * u ^ 2 + u ^ 4)).
  { unfold simpson, hx. rewrite Rmult_0_l, exp_0, Rmult_1_l. replace ((0 + 1) / 2 * x) with (x / 4 + x / 4) by field.
    replace (exp x) with (exp (x / 4 + x / 4 + x / 4 + x / 4)) by (f_equal; field). rewrite !exp_plus, Eu. field. }
  rewrite exp_diff. replace ((1 - 0) * x / 4) with (x / 4) by field. rewrite Eu, Rmult_0_l, exp_0.
  replace (x * (1 - 0) / 12 * 1 * (u - 1) ^ 4) with (x / 12 * (u - 1) ^ 4) by field.
  apply Rmax_lub_lt.
  - rewrite ES. replace relT with ((1 - e) / 2) by (unfold e; field).
    replace ((1 - e) / 2 * (x / 6 * (1 + 4 * u ^ 2 + u ^ 4))) with (x / 12 * ((1 - e) * (1 + 4 * u ^ 2 + u ^ 4))) by field.
    apply Rmult_lt_compat_l; [lra|].
    assert (U2 : 0 < u ^ 2) by (apply pow_lt; lra). assert (U3' : 0 < u ^ 3) by (apply pow_lt; lra).
    assert (Q1 : 9 * u ^ 3 < e * u ^ 4). { replace (e * u ^ 4) with (e * u * u ^ 3) by ring. apply Rmult_lt_compat_r; lra. }
    assert (Q2 : (1 - e) * (1 + 4 * u ^ 2) <= 5 * u ^ 3).
    { assert (1 <= u ^ 2) by (apply pow_R1_Rle; lra). assert (u ^ 2 <= u ^ 3). { replace (u ^ 3) with (u * u ^ 2) by ring. assert (0 <= (u - 1) * u ^ 2) by (apply Rmult_le_pos; lra). lra. }
      assert (0 <= e * (1 + 4 * u ^ 2)) by (apply Rmult_le_pos; lra). lra. }
    assert (Q3 : u ^ 4 - 4 * u ^ 3 < (u - 1) ^ 4). { replace ((u - 1) ^ 4) with (u ^ 4 - 4 * u ^ 3 + (6 * u ^ 2 - 4 * u + 1)) by ring. replace (u ^ 2) with (u * u) by ring. assert (0 <= (u - 3) * u) by (apply Rmult_le_pos; lra). lra. }
    lra.
  - assert (1 <= (u - 1) ^ 3) by (apply pow_R1_Rle; lra).
    assert (u - 1 <= (u - 1) ^ 4). { replace ((u - 1) ^ 4) with ((u - 1) * (u - 1) ^ 3) by ring. assert (0 <= (u - 1) * ((u - 1) ^ 3 - 1)) by (apply Rmult_le_pos; lra). lra. }
    assert (x / 12 * (u - 1) ^ 4 >= 1 / 3 * (u - 1)). { assert (0 <= (x / 12 - 1 / 3) * (u - 1) ^ 4) by (apply Rmult_le_pos; lra). lra. }
    unfold u in *. lra.
Qed.

Lemma jump (A : adaptive) : a_coarse A = simpson -> a_fine A = simpson2 -> 0 < a_abs A -> a_rel A < 1 / 2 -> (2 <= a_max A)%nat -> a_min A = 0%nat ->
  exists m delta, 0 < m /\ 0 < delta /\ (forall T, halved A (hx m) T -> over_leaves (a_fine A (hx m)) (leaves T 0 0 1) + delta < simpson2 (hx m) 0 1) /\
    forall y, 0 < y < m -> halved A (hx y) Leaf.
Proof.
  intros Ec Ef Ha Hr Hm Hz.
  set (P := fun x => (simpson (hx x) 0 1 - simpson2 (hx x) 0 1) - Rmax (a_rel A * simpson (hx x) 0 1) (a_abs A)).
  destruct (beyond (a_abs A) (a_rel A) Hr) as (x1 & Hx1 & Hb).
  destruct (first_zero P x1) as (m & M0 & MZ & ML); [|unfold P|auto|unfold P; lra|].
  { intros x. apply (continuous_minus (V := R_NormedModule)); [apply (continuous_minus (V := R_NormedModule)); [apply simpson_cont|apply simpson2_cont]|].
    apply cont_Rmax; [|apply continuous_const]. apply (continuous_mult (K := R_AbsRing)); [apply continuous_const|apply simpson_cont]. }
  { rewrite exp_diff. replace (simpson (hx 0) 0 1) with 0 by (unfold simpson, hx; ring). rewrite Rmult_0_r, Rmax_right by lra. lra. }
  assert (HH : forall x, 0 < x -> (gap A (hx x) 0 1 < allowance A (hx x) 0 1 <-> P x < 0)).
  { intros x Hx. unfold gap, allowance, P. rewrite Ec, Ef. pose proof (exp_diff_pos x 0 1 Hx ltac:(lra)). pose proof (simpson_pos x Hx). rewrite Rabs_left by lra. rewrite (Rabs_right (simpson (hx x) 0 1)) by lra. lra. }
  set (q := simpson2 (hx m) 0 ((0 + 1) / 2) + simpson2 (hx m) ((0 + 1) / 2) 1).
  assert (Hq : q < simpson2 (hx m) 0 1).
  { pose proof (exp_diff_pos m 0 ((0 + 1) / 2) M0 ltac:(lra)). pose proof (exp_diff_pos m ((0 + 1) / 2) 1 M0 ltac:(lra)). unfold q. unfold simpson2 at 3. lra. }
  exists m, ((simpson2 (hx m) 0 1 - q) / 2). split; [auto|]. split; [lra|]. split.
  - intros T HT. destruct T as [|l r].
    + exfalso. unfold halved in HT. cbn [refined] in HT. destruct HT as ([K|K] & _); [apply HH in K; [lra|auto]|lia].
    + rewrite Ef. cbn [leaves]. rewrite over_leaves_app. pose proof (tree_le m l M0 1 0 ((0 + 1) / 2) ltac:(lra)). pose proof (tree_le m r M0 1 ((0 + 1) / 2) 1 ltac:(lra)).
      unfold q in *. lra.
  - intros y Hy. unfold halved. cbn [refined]. split; [left|lia]. apply HH; [lra|]. apply ML. lra.
Qed.
