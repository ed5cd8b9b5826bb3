(** C70: the positive functions and the logistic function in double precision. *)
From Coq Require Import Reals ZArith Bool Lia Lra.
From Flocq Require Import Core BinarySingleNaN.
From Verif Require Import SpecDouble DoubleModel DoubleProofs.
Local Open Scope R_scope.

Lemma bp0 : bp 0 = 1. Proof. reflexivity. Qed.
Lemma bpS e : bp (e + 1) = 2 * bp e. Proof. rewrite bpow_plus. change (bp 1) with 2. ring. Qed.
Lemma bp_neg e : bp (- e) = / bp e. Proof. apply bpow_opp. Qed.
Lemma exp_le a b : a <= b -> exp a <= exp b. Proof. intros [H| ->]; [left; apply exp_increasing, H|right; reflexivity]. Qed.
Lemma exp_m37 : exp (-37) <= bp (-53). Proof. change (-37) with (- (37)). change (-53)%Z with (- (53))%Z. rewrite exp_Ropp, bp_neg. apply Rinv_le_contravar; [apply bp_pos|apply e37]. Qed.
Lemma exp_m36 : bp (-52) <= exp (-36). Proof. change (-36) with (- (36)). change (-52)%Z with (- (52))%Z. rewrite exp_Ropp, bp_neg. apply Rinv_le_contravar; [apply exp_pos|apply e36]. Qed.
Lemma ln_lip a b : 1 <= a -> 1 <= b -> Rabs (ln a - ln b) <= Rabs (a - b).
Proof.
  assert (G : forall a b, 1 <= a -> a <= b -> ln b - ln a <= b - a).
  { intros u v Hu Hv. replace (ln v - ln u) with (ln (v / u)) by (unfold Rdiv; rewrite ln_mult, ln_Rinv by (try apply Rinv_0_lt_compat; lra); reflexivity). replace (v / u) with (1 + (v - u) / u) by (field; lra). apply Rle_trans with ((v - u) / u).
    - assert (0 <= (v - u) / u) by (apply Rle_mult_inv_pos; lra). rewrite <- (ln_exp ((v - u) / u)) at 2. destruct (exp_ineq1_le ((v - u) / u)) as [E|E].
      + left. apply ln_increasing; lra.
      + right. rewrite E. reflexivity.
    - apply (Rmult_le_reg_r u); [lra|]. unfold Rdiv. rewrite Rmult_assoc, Rinv_l by lra. nra. }
  intros Ha Hb. destruct (Rle_dec a b) as [H|H].
  - pose proof (G a b Ha H). assert (ln a <= ln b) by (destruct (Rle_lt_or_eq_dec _ _ H) as [E|E]; [left; apply ln_increasing; lra|rewrite E; right; reflexivity]).
    rewrite (Rabs_minus_sym (ln a)), (Rabs_minus_sym a), !Rabs_pos_eq by lra. lra.
  - pose proof (G b a Hb ltac:(lra)). assert (ln b <= ln a) by (left; apply ln_increasing; lra). rewrite !Rabs_pos_eq by lra. lra.
Qed.
Lemma ln_2_le : ln 2 <= 1.
Proof. rewrite <- (ln_exp 1). destruct (exp_ineq1_le 1) as [E|E]; [left; apply ln_increasing; lra|right; f_equal; lra]. Qed.
(** Half of u is below ln (1+u). *)
Lemma ln_half u : 0 < u <= 1 -> u / 2 <= ln (1 + u).
Proof.
  intros Hu. rewrite <- (ln_exp (u / 2)). assert (E : exp (u / 2) <= 1 + u).
  { pose proof (exp_ineq1_le (- (u / 2))) as G. rewrite exp_Ropp in G. pose proof (exp_pos (u / 2)) as P.
    apply Rinv_le_contravar in G; [|lra]. rewrite Rinv_inv in G. apply (Rle_trans _ _ _ G). apply (Rmult_le_reg_r (1 + - (u / 2))); [lra|]. rewrite Rinv_l by lra. nra. }
  destruct E as [E|E]; [left; apply ln_increasing; [apply exp_pos|exact E]|right; rewrite E; reflexivity].
Qed.

Section Soft.
Variables (L : libm) (HL : good_libm L) (x : double) (Fx : finite x).
Let a := Rabs (real x).
Lemma neg_abs : finite (dmul dm1 (Babs x)) /\ real (dmul dm1 (Babs x)) = - a.
Proof.
  assert (FA : finite (Babs x)) by (unfold finite; rewrite is_finite_Babs; exact Fx). assert (RA : real (Babs x) = a) by apply B2R_Babs.
  destruct dm1_ok as (F1 & R1). destruct (dmul_ok dm1 (Babs x) F1 FA) as (F & R).
  - rewrite R1, RA. replace (-1 * a) with (- a) by ring. rewrite Rabs_Ropp. unfold a. rewrite Rabs_Rabsolu. apply finite_largest, Fx.
  - split; [exact F|]. rewrite R, R1, RA. replace (-1 * a) with (- a) by ring. apply nearest_fmt, fmt_opp. rewrite <- RA. apply real_fmt.
Qed.
Let y := l_exp L (dmul dm1 (Babs x)).
Lemma y_ok : finite y /\ 0 <= real y <= 1 /\ Rabs (real y - exp (- a)) <= bp (-53) /\ (37 <= a -> real y <= bp (-53)) /\ (a <= 36 -> bp (-52) <= real y).
Proof.
  destruct neg_abs as (F & R). destruct HL as (H & _). specialize (H _ F). rewrite R in H. fold y in H.
  assert (A0 : 0 <= a) by apply Rabs_pos. pose proof (exp_pos (- a)) as P. assert (E1 : exp (- a) <= 1) by (rewrite <- exp_0; apply exp_le; lra).
  pose proof largest_pos as LP. assert (B : Rabs (exp (- a)) <= largest) by (rewrite Rabs_pos_eq; lra).
  destruct (faithful_between _ _ 0 1 H B fmt_0 fmt_1 ltac:(lra) E1) as (Fy & Hy). split; [exact Fy|]. split; [exact Hy|]. split; [|split].
  - apply (faithful_error _ _ 0 H B); [rewrite Rabs_pos_eq; [exact E1|lra]|lia].
  - intros Ha. apply (faithful_between _ _ 0 (bp (-53)) H B fmt_0); [apply fmt_bp; lia|lra|]. apply Rle_trans with (2 := exp_m37). apply exp_le. lra.
  - intros Ha. apply (faithful_between _ _ (bp (-52)) 1 H B); [apply fmt_bp; lia|apply fmt_1| |exact E1]. apply Rle_trans with (1 := exp_m36). apply exp_le. lra.
Qed.
Let s := dadd d1 y.
Lemma tie_one : nearest (1 + bp (-53)) = 1.
Proof.
  apply Rle_antisym; [|apply nearest_ge; [apply fmt_1|pose proof (bp_pos (-53)); lra]].
  (* the midpoint between 1 and its successor goes to the even one *)
  assert (E : 1 + bp (-53) = IZR (2 ^ 53 + 1) * bp (-53)).
  { rewrite plus_IZR, Rmult_plus_distr_r, Rmult_1_l. f_equal. change (IZR (2 ^ 53)) with (bp 53). rewrite <- bpow_plus. reflexivity. }
  unfold nearest, round. rewrite E. assert (C : cexp radix2 fexp64 (IZR (2 ^ 53 + 1) * bp (-53)) = (-52)%Z).
  { unfold cexp. rewrite (mag_unique radix2 _ 1); [reflexivity|]. rewrite <- E. rewrite Rabs_pos_eq by (pose proof (bp_pos (-53)); lra). change (bp (1 - 1)) with 1. change (bp 1) with 2.
    pose proof (bp_pos (-53)). assert (bp (-53) < bp 0) by (apply bpow_lt; lia). rewrite bp0 in *. lra. }
  unfold scaled_mantissa. rewrite C. replace (IZR (2 ^ 53 + 1) * bp (-53) * bp (- -52)) with (IZR (2 ^ 52) + / 2).
  2: { rewrite Rmult_assoc, <- bpow_plus. change (-53 + - -52)%Z with (-1)%Z. change (bp (-1)) with (/ 2). rewrite plus_IZR. change (IZR (2 ^ 53)) with (IZR (2 * 2 ^ 52)). rewrite mult_IZR. lra. }
  assert (FL : Zfloor (IZR (2 ^ 52) + / 2) = (2 ^ 52)%Z) by (apply Zfloor_imp; rewrite plus_IZR; lra).
  unfold ZnearestE, Znearest. rewrite FL. rewrite Rcompare_Eq by lra. change (negb (Z.even (2 ^ 52))) with false. cbn [Z.opp]. unfold F2R. cbn [Fnum Fexp]. right.
  change (IZR (2 ^ 52)) with (bp 52). rewrite <- bpow_plus. reflexivity.
Qed.
Lemma s_ok : finite s /\ 1 <= real s <= 2 /\ Rabs (real s - (1 + exp (- a))) <= bp (-52) /\ (37 <= a -> real s = 1) /\ (a <= 36 -> 1 + bp (-52) <= real s).
Proof.
  destruct y_ok as (Fy & Hy & Ey & Y1 & Y2). destruct d1_ok as (F1 & R1). pose proof (bp_largest 1 ltac:(lia)) as LP. change (bp 1) with 2 in LP.
  destruct (dadd_ok d1 y F1 Fy) as (Fs & Rs & _); [rewrite R1, Rabs_pos_eq; lra|]. rewrite R1 in Rs. fold s in Fs, Rs. rewrite Rs. split; [exact Fs|]. split; [|split; [|split]].
  - split; [apply nearest_ge; [apply fmt_1|lra]|apply nearest_le; [apply (fmt_bp 1); lia|lra]].
  - pose proof (nearest_error (1 + real y) 1 ltac:(rewrite Rabs_pos_eq by lra; change (bp 1) with 2; lra) ltac:(lia)) as E. change (1 - 54)%Z with (-53)%Z in E.
    replace (bp (-52)) with (bp (-53) + bp (-53)) by (change (-52)%Z with (-53 + 1)%Z; rewrite bpS; ring).
    replace (nearest (1 + real y) - (1 + exp (- a))) with ((nearest (1 + real y) - (1 + real y)) + (real y - exp (- a))) by ring. apply (Rle_trans _ _ _ (Rabs_triang _ _)). lra.
  - intros Ha. specialize (Y1 Ha). apply Rle_antisym; [|apply nearest_ge; [apply fmt_1|lra]]. apply Rle_trans with (2 := Req_le _ _ tie_one). apply nearest_mono. lra.
  - intros Ha. specialize (Y2 Ha). apply nearest_ge; [|lra]. replace (1 + bp (-52)) with (IZR (2 ^ 52 + 1) * bp (-52)); [apply fmt_int; lia|].
    rewrite plus_IZR, Rmult_plus_distr_r, Rmult_1_l. f_equal. change (IZR (2 ^ 52)) with (bp 52). rewrite <- bpow_plus. reflexivity.
Qed.
Let g := l_log L s.
Lemma g_ok : finite g /\ 0 <= real g <= 1 /\ Rabs (real g - ln (1 + exp (- a))) <= bp (-51) /\ (37 <= a -> real g = 0) /\ (a <= 36 -> bp (-53) <= real g).
Proof.
  destruct s_ok as (Fs & Hs & Es & S1 & S2). destruct HL as (_ & _ & _ & _ & H & _). specialize (H s Fs ltac:(lra)). fold g in H.
  assert (L0 : 0 <= ln (real s)) by (rewrite <- ln_1; destruct (Rle_lt_or_eq_dec 1 (real s) ltac:(lra)) as [E|E]; [left; apply ln_increasing; lra|right; rewrite <- E; reflexivity]).
  assert (L1 : ln (real s) <= 1) by (apply Rle_trans with (2 := ln_2_le); destruct (Rle_lt_or_eq_dec (real s) 2 ltac:(lra)) as [E|E]; [left; apply ln_increasing; lra|right; rewrite <- E; reflexivity]).
  pose proof largest_pos as LP. assert (B : Rabs (ln (real s)) <= largest) by (rewrite Rabs_pos_eq; lra).
  destruct (faithful_between _ _ 0 1 H B fmt_0 fmt_1 L0 L1) as (Fg & Hg). split; [exact Fg|]. split; [exact Hg|]. split; [|split].
  - destruct (faithful_error _ _ 0 H B ltac:(rewrite bp0, Rabs_pos_eq; lra) ltac:(lia)) as (_ & E). change (0 - 53)%Z with (-53)%Z in E.
    pose proof (exp_pos (- a)) as P. pose proof (ln_lip (real s) (1 + exp (- a)) ltac:(lra) ltac:(lra)) as LL.
    replace (real g - ln (1 + exp (- a))) with ((real g - ln (real s)) + (ln (real s) - ln (1 + exp (- a)))) by ring. apply (Rle_trans _ _ _ (Rabs_triang _ _)).
    replace (bp (-51)) with (2 * bp (-52)) by (rewrite <- bpS; reflexivity). pose proof (bp_le (-53) (-52) ltac:(lia)). lra.
  - intros Ha. rewrite (S1 Ha), ln_1 in H. apply Rle_antisym; [|lra]. apply (faithful_between 0 g 0 0 H); auto using fmt_0; try lra. rewrite Rabs_R0. lra.
  - intros Ha. specialize (S2 Ha). apply (faithful_between _ _ (bp (-53)) 1 H B); [apply fmt_bp; lia|apply fmt_1| |exact L1].
    pose proof (bp_pos (-52)) as P. assert (P1 : bp (-52) <= 1) by (apply (bp_le (-52) 0); lia). pose proof (ln_half (bp (-52)) ltac:(lra)) as LH.
    replace (bp (-53)) with (bp (-52) / 2) by (change (-52)%Z with (-53 + 1)%Z; rewrite bpS; field). apply (Rle_trans _ _ _ LH). destruct S2 as [S2|S2]; [left; apply ln_increasing; lra|right; rewrite S2; reflexivity].
Qed.
Let m := Rmax (real x) 0.
Lemma soft_ok : finite (f_SoftPlus_Evaluate L x) /\ real (f_SoftPlus_Evaluate L x) = nearest (real g + m).
Proof.
  destruct g_ok as (Fg & Hg & _ & G1 & _). destruct d0_ok as (F0 & R0). destruct (dfmax_ok x d0 Fx F0) as (Fm & Rm). rewrite R0 in Rm. fold m in Rm.
  assert (M : 0 <= m <= a) by (unfold m, a; split; [apply Rmax_r|apply Rmax_lub; [apply Rle_abs|apply Rabs_pos]]).
  destruct (dadd_ok g (dfmax x d0) Fg Fm) as (F & R & _).
  - rewrite Rm. rewrite Rabs_pos_eq by lra. destruct (Rle_dec 37 a) as [Ha|Ha].
    + rewrite (G1 Ha). pose proof (finite_largest x Fx). fold a in H. lra.
    + pose proof (bp_largest 6 ltac:(lia)) as B. change (bp 6) with 64 in B. lra.
  - split; [exact F|]. rewrite <- Rm. exact R.
Qed.
End Soft.

(** What SoftPlus computes: a finite number that is not negative and close to ln (1 + exp x), for every
    finite argument and every library within its contract. *)
Theorem C70_softplus : forall L x, good_libm L -> finite x ->
  let r := f_SoftPlus_Evaluate L x in
  finite r /\ 0 <= real r /\ Rabs (real r - ln (1 + exp (real x))) <= / 2 ^ 50 * (1 + Rmax (real x) 0).
Proof.
  intros L x HL Fx r. unfold r. destruct (soft_ok L HL x Fx) as (F & R). destruct (g_ok L HL x Fx) as (_ & Hg & Eg & _). rewrite R. set (m := Rmax (real x) 0) in *. match type of Hg with _ <= ?e <= _ => set (g := e) in * end.
  assert (M : 0 <= m) by apply Rmax_r. split; [exact F|]. split; [apply nearest_ge; [apply fmt_0|lra]|].
  assert (EX : ln (1 + exp (real x)) = ln (1 + exp (- Rabs (real x))) + m).
  { unfold m. destruct (Rle_dec 0 (real x)) as [P|P].
    - rewrite Rabs_pos_eq, Rmax_left by lra. rewrite <- (ln_exp (real x)) at 3. pose proof (exp_pos (real x)). pose proof (exp_pos (- real x)). rewrite <- ln_mult by lra. f_equal.
      rewrite Rmult_plus_distr_r, <- exp_plus. replace (- real x + real x) with 0 by ring. rewrite exp_0. ring.
    - rewrite Rabs_left, Rmax_right, Ropp_involutive by lra. ring. }
  rewrite EX. assert (EN : Rabs (nearest (g + m) - (g + m)) <= bp (-53) * (1 + (g + m))).
  { destruct (Rle_dec (g + m) 1) as [H|H].
    - apply Rle_trans with (bp (0 - 54)); [apply nearest_error; [rewrite Rabs_pos_eq by lra; exact H|lia]|]. change (0 - 54)%Z with (-54)%Z. pose proof (bp_le (-54) (-53) ltac:(lia)). pose proof (bp_pos (-53)). nra.
    - pose proof (error_le_half_ulp radix2 fexp64 (fun n => negb (Z.even n)) (g + m)) as E. fold (nearest (g + m)) in E.
      pose proof (ulp_FLT_le radix2 (-1074) 53 (g + m)) as U. change (FLT_exp (-1074) 53) with fexp64 in U. rewrite Rabs_pos_eq in U by lra. change (-1074 + 53 - 1)%Z with (-1022)%Z in U. specialize (U ltac:(pose proof (bp_le (-1022) 0 ltac:(lia)) as X; rewrite bp0 in X; lra)). change (1 - 53)%Z with (-52)%Z in U.
      assert (B : bp (-52) = 2 * bp (-53)) by (rewrite <- bpS; reflexivity). rewrite B in U. pose proof (bp_pos (-53)). nra. }
  replace (nearest (g + m) - (ln (1 + exp (- Rabs (real x))) + m)) with ((nearest (g + m) - (g + m)) + (g - ln (1 + exp (- Rabs (real x))))) by ring. apply (Rle_trans _ _ _ (Rabs_triang _ _)).
  replace (/ 2 ^ 50) with (bp (-50)) by (rewrite pow_bp, <- bp_neg; reflexivity).
  assert (B1 : bp (-50) = 2 * bp (-51)) by (rewrite <- bpS; reflexivity). assert (B2 : bp (-51) = 2 * bp (-52)) by (rewrite <- bpS; reflexivity). assert (B3 : bp (-52) = 2 * bp (-53)) by (rewrite <- bpS; reflexivity).
  pose proof (bp_pos (-53)). assert (bp (-53) * (1 + (g + m)) <= bp (-53) * (2 + m)) by (apply Rmult_le_compat_l; lra). nra.
Qed.
Print Assumptions C70_softplus.

(** It is positive for arguments from -36 upwards ... *)
Theorem C70_positive_partial : forall L x, good_libm L -> finite x -> -36 <= real x -> positive_double (f_SoftPlus_Evaluate L x).
Proof.
  intros L x HL Fx Hx. destruct (soft_ok L HL x Fx) as (F & R). destruct (g_ok L HL x Fx) as (_ & Hg & _ & _ & G2). split; [exact F|]. rewrite R.
  destruct (Rle_dec (real x) 36) as [H|H].
  - assert (Ha : Rabs (real x) <= 36) by (apply Rabs_le; lra). specialize (G2 Ha). pose proof (Rmax_r (real x) 0). apply Rlt_le_trans with (bp (-53)); [apply bp_pos|]. apply nearest_ge; [apply fmt_bp; lia|lra].
  - rewrite Rmax_left by lra. apply Rlt_le_trans with (real x); [lra|]. apply nearest_ge; [apply real_fmt|lra].
Qed.
Print Assumptions C70_positive_partial.

(** ... and zero for every argument up to -37: the reported derivative of a component is then zero, its
    log determinant minus infinity, and Inverse does not bring back the argument. *)
Theorem C70_positive_refuted : forall L x, good_libm L -> finite x -> real x <= -37 ->
  let r := f_SoftPlus_Evaluate L x in
  finite r /\ real r = 0 /\ ~ positive_double r /\ f_log_step L r = ninf /\ f_SoftPlus_Inverse L r = ninf.
Proof.
  intros L x HL Fx Hx r. unfold r. destruct (soft_ok L HL x Fx) as (F & R). destruct (g_ok L HL x Fx) as (_ & Hg & _ & G1 & _).
  assert (Z : real (f_SoftPlus_Evaluate L x) = 0) by (rewrite R, G1, Rmax_right by (try rewrite Rabs_left; lra); rewrite Rplus_0_r; apply nearest_fmt, fmt_0).
  split; [exact F|]. split; [exact Z|]. split; [intros (_ & P); lra|]. destruct d0_ok as (F0 & R0). split.
  - unfold f_log_step. replace (dle _ d0) with true; [reflexivity|]. symmetry. apply dle_ok; auto. lra.
  - unfold f_SoftPlus_Inverse. set (z := f_SoftPlus_Evaluate L x) in *. destruct HL as (H & _ & _ & _ & _ & H0 & _). specialize (H z F). rewrite Z, exp_0 in H. pose proof largest_pos as LP.
    destruct (faithful_between 1 _ 1 1 H ltac:(rewrite Rabs_pos_eq; lra) fmt_1 fmt_1 ltac:(lra) ltac:(lra)) as (Fe & He). destruct d1_ok as (F1 & R1).
    destruct (dsub_ok (l_exp L z) d1 Fe F1) as (Fd & Rd & _); [rewrite R1; replace (real (l_exp L z) - 1) with 0 by lra; rewrite Rabs_R0; lra|].
    rewrite H0; [|exact Fd|]. 2: { rewrite Rd, R1. replace (real (l_exp L z) - 1) with 0 by lra. apply nearest_fmt, fmt_0. }
    clear - F. unfold dfmin. destruct z as [b|b| |b k e E]; try discriminate F; [|destruct b]; reflexivity.
Qed.
Print Assumptions C70_positive_refuted.

(** The exponential is positive and finite between -708 and 708 ... *)
Theorem C70_exp_partial : forall L x, good_libm L -> finite x -> -708 <= real x <= 708 -> positive_double (f_Exp_Evaluate L x).
Proof.
  intros L x (H & _) Fx Hx. specialize (H x Fx). pose proof (exp_pos (real x)) as P.
  assert (U : exp (real x) <= bp 1023) by (apply Rle_trans with (2 := e708), exp_le; lra).
  assert (B : bp (-1023) <= exp (real x)).
  { apply Rle_trans with (exp (-708)); [|apply exp_le; lra]. change (-708) with (- (708)). change (-1023)%Z with (- (1023))%Z. rewrite bp_neg, exp_Ropp. apply Rinv_le_contravar; [apply exp_pos|apply e708]. }
  destruct (faithful_between _ _ (bp (-1023)) (bp 1023) H) as (F & R); auto; try (apply fmt_bp; lia).
  - rewrite Rabs_pos_eq by lra. pose proof (bp_largest 1023 ltac:(lia)). lra.
  - split; [exact F|]. pose proof (bp_pos (-1023)). unfold f_Exp_Evaluate. lra.
Qed.
Print Assumptions C70_exp_partial.

(** ... and zero at every argument up to -750 when the library rounds correctly. *)
Theorem C70_exp_refuted : forall L x, (forall x, finite x -> exp (real x) <= 1 -> finite (l_exp L x) /\ real (l_exp L x) = nearest (exp (real x))) ->
  finite x -> real x <= -750 -> ~ positive_double (f_Exp_Evaluate L x) /\ f_log_step L (f_Exp_Evaluate L x) = ninf.
Proof.
  intros L x H Fx Hx. unfold f_Exp_Evaluate. destruct (H x Fx) as (F & R); [rewrite <- exp_0; apply exp_le; lra|].
  assert (B : exp (real x) <= bp (-1076)).
  { apply Rle_trans with (exp (-750)); [apply exp_le; lra|]. change (-750) with (- (750)). change (-1076)%Z with (- (1076))%Z. rewrite bp_neg, exp_Ropp. apply Rinv_le_contravar; [apply bp_pos|apply e750]. }
  assert (Z : real (l_exp L x) = 0).
  { rewrite R. unfold nearest. pose proof (exp_pos (real x)) as P. destruct (mag radix2 (exp (real x))) as (ex & Hex). specialize (Hex ltac:(lra)). rewrite Rabs_pos_eq in Hex by lra.
    apply (round_N_small_pos radix2 fexp64 _ _ ex); [exact Hex|]. rewrite fexp64_eq. assert (ex - 1 <= -1076)%Z; [|lia]. apply (le_bpow radix2). lra. }
  split; [intros (_ & Q); lra|]. unfold f_log_step. replace (dle _ d0) with true; [reflexivity|]. symmetry. destruct d0_ok as (F0 & R0). apply dle_ok; auto. lra.
Qed.
Print Assumptions C70_exp_refuted.

(** ** The logistic function *)
Lemma tanh_form y : tanh y = 1 - 2 / (exp (2 * y) + 1).
Proof.
  unfold tanh, sinh, cosh. replace (2 * y) with (y + y) by ring. rewrite exp_plus, exp_Ropp. pose proof (exp_pos y) as P. assert (exp y * exp y + 1 <> 0) by nra. field. repeat split; try lra; nra.
Qed.
Lemma tanh_range y : -1 <= tanh y <= 1.
Proof.
  rewrite tanh_form. pose proof (exp_pos (2 * y)) as P. assert (0 <= 2 / (exp (2 * y) + 1) <= 2); [|lra]. split; [apply Rle_mult_inv_pos; lra|].
  apply (Rmult_le_reg_r (exp (2 * y) + 1)); [lra|]. unfold Rdiv. rewrite Rmult_assoc, Rinv_l by lra. lra.
Qed.
Lemma fmt_neg1 : fmt (-1). Proof. change (-1) with (- (1)). apply fmt_opp, fmt_1. Qed.
Lemma fmt_half : fmt (/ 2). Proof. apply (fmt_bp (-1)). lia. Qed.

Section Logi.
Variables (L : libm) (HL : good_libm L) (x : double) (Fx : finite x).
Let h := ddiv x d2.
Lemma h_ok : finite h /\ real h = nearest (real x / 2).
Proof.
  destruct d2_ok as (F2 & R2). pose proof (finite_largest x Fx) as B. destruct (ddiv_ok x d2 Fx) as (F & R); rewrite ?R2 in *; [lra| |].
  - unfold Rdiv. rewrite Rabs_mult, (Rabs_pos_eq (/ 2)) by lra. pose proof (Rabs_pos (real x)). lra.
  - split; auto.
Qed.
Let t := l_tanh L h.
Lemma t_ok : finite t /\ -1 <= real t <= 1 /\ forall f, fmt f -> f <= tanh (real h) -> f <= real t.
Proof.
  destruct h_ok as (F & _). destruct HL as (_ & _ & _ & _ & _ & _ & _ & _ & H & _). specialize (H h F). fold t in H. pose proof (tanh_range (real h)) as T. pose proof largest_pos as LP.
  assert (B : Rabs (tanh (real h)) <= largest) by (apply Rabs_le; lra). destruct (faithful_between _ _ (-1) 1 H B fmt_neg1 fmt_1 ltac:(lra) ltac:(lra)) as (Ft & Ht). split; [exact Ft|]. split; [exact Ht|].
  intros f Hf Hl. apply (faithful_between _ _ f 1 H B Hf fmt_1 Hl). lra.
Qed.
Lemma logi_ok : finite (f_Logistic_Evaluate L x) /\ real (f_Logistic_Evaluate L x) = nearest (/ 2 + nearest (/ 2 * real t)) /\ - / 2 <= nearest (/ 2 * real t) <= / 2.
Proof.
  destruct t_ok as (Ft & Ht & _). destruct dhalf_ok as (Fh & Rh). pose proof largest_pos as LP. destruct (dmul_ok dhalf t Fh Ft) as (Fm & Rm); [rewrite Rh; apply Rabs_le; lra|]. rewrite Rh in Rm.
  assert (M : - / 2 <= nearest (/ 2 * real t) <= / 2) by (split; [apply nearest_ge; [apply fmt_opp, fmt_half|lra]|apply nearest_le; [apply fmt_half|lra]]).
  destruct (dadd_ok dhalf (dmul dhalf t) Fh Fm) as (F & R & _); [rewrite Rh, Rm; apply Rabs_le; lra|]. rewrite Rh, Rm in R. split; [exact F|]. split; [exact R|exact M].
Qed.
End Logi.

(** Every finite argument gives a number between zero and one. *)
Theorem C70_logistic : forall L x, good_libm L -> finite x -> finite (f_Logistic_Evaluate L x) /\ 0 <= real (f_Logistic_Evaluate L x) <= 1.
Proof.
  intros L x HL Fx. destruct (logi_ok L HL x Fx) as (F & R & M). split; [exact F|]. rewrite R. split; [apply nearest_ge; [apply fmt_0|lra]|apply nearest_le; [apply fmt_1|lra]].
Qed.
Print Assumptions C70_logistic.

Lemma fmt_1m : fmt (1 - bp (-53)).
Proof.
  replace (1 - bp (-53)) with (IZR (2 ^ 53 - 1) * bp (-53)); [apply fmt_int; lia|]. rewrite minus_IZR, Rmult_minus_distr_r, Rmult_1_l. f_equal. change (IZR (2 ^ 53)) with (bp 53). rewrite <- bpow_plus. reflexivity.
Qed.
Lemma fmt_hm : fmt (/ 2 - bp (-54)).
Proof.
  replace (/ 2 - bp (-54)) with (IZR (2 ^ 53 - 1) * bp (-54)); [apply fmt_int; lia|]. rewrite minus_IZR, Rmult_minus_distr_r, Rmult_1_l. f_equal. change (IZR (2 ^ 53)) with (bp 53). rewrite <- bpow_plus. reflexivity.
Qed.
Lemma tie_below_one : nearest (1 - bp (-54)) = 1.
Proof.
  assert (E : 1 - bp (-54) = IZR (2 ^ 54 - 1) * bp (-54)).
  { rewrite minus_IZR, Rmult_minus_distr_r, Rmult_1_l. f_equal. change (IZR (2 ^ 54)) with (bp 54). rewrite <- bpow_plus. reflexivity. }
  unfold nearest, round. rewrite E. assert (C : cexp radix2 fexp64 (IZR (2 ^ 54 - 1) * bp (-54)) = (-53)%Z).
  { unfold cexp. rewrite (mag_unique radix2 _ 0); [reflexivity|]. rewrite <- E. pose proof (bp_pos (-54)). pose proof (bp_le (-54) (-1) ltac:(lia)) as G. change (bp (-1)) with (/ 2) in G. rewrite Rabs_pos_eq by lra. change (bp (0 - 1)) with (/ 2). change (bp 0) with 1. lra. }
  unfold scaled_mantissa. rewrite C. replace (IZR (2 ^ 54 - 1) * bp (-54) * bp (- -53)) with (IZR (2 ^ 53 - 1) + / 2).
  2: { rewrite Rmult_assoc, <- bpow_plus. change (-54 + - -53)%Z with (-1)%Z. change (bp (-1)) with (/ 2). rewrite !minus_IZR. change (IZR (2 ^ 54)) with (IZR (2 * 2 ^ 53)). rewrite mult_IZR. lra. }
  assert (FL : Zfloor (IZR (2 ^ 53 - 1) + / 2) = (2 ^ 53 - 1)%Z) by (apply Zfloor_imp; rewrite plus_IZR; lra).
  unfold ZnearestE, Znearest. rewrite FL. rewrite Rcompare_Eq by lra. change (negb (Z.even (2 ^ 53 - 1))) with true. cbn [Z.opp]. rewrite Zceil_floor_neq by (rewrite FL; lra). rewrite FL. unfold F2R. cbn [Fnum Fexp].
  change (2 ^ 53 - 1 + 1)%Z with (2 ^ 53)%Z. change (IZR (2 ^ 53)) with (bp 53). rewrite <- bpow_plus. reflexivity.
Qed.
(** From 40 upwards the function is the constant one: the derivative is zero and Inverse gives infinity. *)
Theorem C70_logistic_refuted : forall L x, good_libm L -> finite x -> 40 <= real x ->
  f_Logistic_Evaluate L x = d1 /\ f_Logistic_Inverse L (f_Logistic_Evaluate L x) = pinf /\ real (f_Logistic_Derivative L x) = 0.
Proof.
  intros L x HL Fx Hx. destruct (logi_ok L HL x Fx) as (F & R & M). destruct (t_ok L HL x Fx) as (_ & Ht & Hf). destruct (h_ok x Fx) as (_ & Rh).
  assert (H20 : 20 <= nearest (real x / 2)) by (apply nearest_ge; [replace 20 with (IZR 5 * bp 2) by (change (bp 2) with 4; lra); apply fmt_int; lia|lra]).
  assert (T : 1 - bp (-53) <= tanh (real (ddiv x d2))).
  { rewrite Rh, tanh_form. apply Rplus_le_compat_l, Ropp_le_contravar. set (z := nearest (real x / 2)) in *.
    assert (G : bp 55 <= exp (2 * z)) by (apply Rle_trans with (1 := e40), exp_le; lra). pose proof (bp_pos 55) as P. apply Rle_trans with (2 * / bp 55).
    - apply Rmult_le_compat_l; [lra|]. apply Rinv_le_contravar; lra.
    - rewrite <- bp_neg. change (- (55))%Z with (-55)%Z. pose proof (bp_le (-54) (-53) ltac:(lia)). replace (2 * bp (-55)) with (bp (-54)) by (rewrite <- bpS; reflexivity). exact H. }
  specialize (Hf _ fmt_1m T). match type of Ht with _ <= ?e <= _ => set (t := e) in * end.
  assert (M2 : / 2 - bp (-54) <= nearest (/ 2 * t)).
  { apply nearest_ge; [apply fmt_hm|]. replace (bp (-54)) with (/ 2 * bp (-53)); [lra|]. change (-53)%Z with (-54 + 1)%Z. rewrite bpS. field. }
  assert (V : real (f_Logistic_Evaluate L x) = 1).
  { rewrite R. apply Rle_antisym; [apply nearest_le; [apply fmt_1|lra]|]. apply Rle_trans with (1 := Req_le _ _ (eq_sym tie_below_one)). apply nearest_mono. lra. }
  assert (E : f_Logistic_Evaluate L x = d1).
  { destruct d1_ok as (_ & R1). unfold real in *. apply B2R_inj; [apply is_finite_strict_B2R; rewrite V; lra|reflexivity|]. rewrite V, R1. reflexivity. }
  split; [exact E|]. unfold f_Logistic_Derivative. rewrite E. split.
  - unfold f_Logistic_Inverse. change (dgt d1 d1) with false. change (ddiv d1 (dsub d1 d1)) with pinf. apply HL.
  - change (dmul d1 (dsub d1 d1)) with d0. apply d0_ok.
Qed.
Print Assumptions C70_logistic_refuted.

(** ** Such libraries exist: round down within the range. *)
Definition of_real (r : R) : double :=
  if Rle_dec (Rabs r) largest then dconst (Zfloor (scaled_mantissa radix2 fexp64 r)) (cexp radix2 fexp64 r) else if Rlt_dec 0 r then pinf else ninf.
Lemma of_real_faithful r : faithful r (of_real r).
Proof.
  unfold of_real. pose proof largest_pos as LP. destruct (Rle_dec (Rabs r) largest) as [H|H].
  - split; [|split; intros Q; exfalso; apply Rabs_le_inv in H; lra]. intros _. set (m := Zfloor _). set (e := cexp _ _ _).
    pose proof (binary_normalize_correct 53 1024 prec64 emax64 mode_NE m e false) as C. cbv zeta in C. change (F2R (Float radix2 m e)) with (below r) in C.
    change (round radix2 (SpecFloat.fexp 53 1024) (round_mode mode_NE) (below r)) with (nearest (below r)) in C. assert (FB : fmt (below r)) by (apply generic_format_round; auto with typeclass_instances).
    rewrite nearest_fmt in C by exact FB. apply Rabs_le_inv in H. rewrite Rlt_bool_true in C.
    + destruct C as (C1 & C2 & _). split; [exact C2|left; exact C1].
    + apply Rle_lt_trans with (2 := largest_lt). apply Rabs_le. split; [apply below_ge; [apply fmt_opp, largest_fmt|lra]|]. pose proof (below_le r). lra.
  - split; [intros Q; contradiction|]. destruct (Rlt_dec 0 r) as [Q|Q]; split; intros; auto; exfalso; lra.
Qed.
Definition some_libm : libm := MkLib
  (fun x => match x with B754_nan => nan | B754_infinity false => pinf | B754_infinity true => d0 | _ => of_real (exp (real x)) end)
  (fun x => match x with B754_nan => nan | B754_infinity false => pinf | B754_infinity true => nan | B754_zero _ => ninf | _ => of_real (ln (real x)) end)
  (fun x => match x with B754_nan => nan | _ => of_real (tanh (real x)) end).
Example libm_exists : good_libm some_libm.
Proof.
  unfold good_libm, some_libm. cbn [l_exp l_log l_tanh]. split; [|split; [reflexivity|split; [exact d0_ok|split; [reflexivity|split; [|split; [|split; [reflexivity|split; [reflexivity|split; [|reflexivity]]]]]]]]].
  - intros [b|b| |b k e E] Fx; try discriminate Fx; apply of_real_faithful.
  - intros [b|b| |b k e E] Fx P; try discriminate Fx; [cbn in P; lra|apply of_real_faithful].
  - intros [b|b| |b k e E] Fx P; try discriminate Fx; [reflexivity|]. exfalso. revert P. apply F2R_neq_0. destruct b; discriminate.
  - intros [b|b| |b k e E] Fx; try discriminate Fx; apply of_real_faithful.
Qed.
(** Arguments in the ranges of the theorems. *)
Example arguments : (exists x, finite x /\ -36 <= real x) /\ (exists x, finite x /\ real x <= -37) /\ (exists x, finite x /\ real x <= -750) /\ (exists x, finite x /\ 40 <= real x).
Proof.
  assert (G : forall m, (Z.abs m < 2 ^ 20)%Z -> finite (dconst m 0) /\ real (dconst m 0) = IZR m).
  { intros m Hm. destruct (dconst_ok m 0) as (F & R); try lia.
    - change (bp 0) with 1. rewrite Rmult_1_r, <- abs_IZR. apply Rle_trans with (bp 20); [|apply bp_largest; lia]. change (bp 20) with (IZR (2 ^ 20)). apply IZR_le. lia.
    - split; [exact F|]. rewrite R. change (bp 0) with 1. ring. }
  destruct (G (-1)%Z eq_refl) as (F1 & R1). destruct (G (-1000)%Z eq_refl) as (F2 & R2). destruct (G 40%Z eq_refl) as (F3 & R3).
  repeat split; [exists (dconst (-1) 0)|exists (dconst (-1000) 0)|exists (dconst (-1000) 0)|exists (dconst 40 0)]; split; auto; rewrite ?R1, ?R2, ?R3; lra.
Qed.
(** A library that rounds correctly, as C70_exp_refuted asks. *)
Example rounding_exp_exists : exists L, forall x, finite x -> exp (real x) <= 1 -> finite (l_exp L x) /\ real (l_exp L x) = nearest (exp (real x)).
Proof.
  exists (MkLib (fun x => dconst (ZnearestE (scaled_mantissa radix2 fexp64 (exp (real x)))) (cexp radix2 fexp64 (exp (real x)))) (fun x => x) (fun x => x)).
  intros x _ E. cbn [l_exp]. set (r := exp (real x)) in *. assert (P : 0 < r) by apply exp_pos. set (m := ZnearestE _). set (e := cexp _ _ _).
  pose proof (binary_normalize_correct 53 1024 prec64 emax64 mode_NE m e false) as C. cbv zeta in C. change (F2R (Float radix2 m e)) with (nearest r) in C.
  change (round radix2 (SpecFloat.fexp 53 1024) (round_mode mode_NE) (nearest r)) with (nearest (nearest r)) in C. assert (FB : fmt (nearest r)) by (apply generic_format_round; auto with typeclass_instances).
  rewrite nearest_fmt in C by exact FB. rewrite Rlt_bool_true in C; [destruct C as (C1 & C2 & _); split; [exact C2|exact C1]|].
  apply round_small. rewrite Rabs_pos_eq by lra. pose proof largest_pos. lra.
Qed.
