(** Lemmas about double precision arithmetic and the exponential at numbers of moderate size. *)
From Coq Require Import Reals ZArith Bool Lia Lra Psatz.
From Flocq Require Import Core BinarySingleNaN.
From Verif Require Import SpecDouble DoubleModel.
Local Open Scope R_scope.

#[global] Instance vexp64 : Valid_exp fexp64. Proof. unfold fexp64. apply fexp_correct. reflexivity. Qed.
Notation bp e := (bpow radix2 e).
Definition fmt (r : R) : Prop := generic_format radix2 fexp64 r.

(** ** Rounding *)
Lemma nearest_mono a b : a <= b -> nearest a <= nearest b. Proof. apply round_le; auto with typeclass_instances. Qed.
Lemma below_mono a b : a <= b -> below a <= below b. Proof. apply round_le; auto with typeclass_instances. Qed.
Lemma above_mono a b : a <= b -> above a <= above b. Proof. apply round_le; auto with typeclass_instances. Qed.
Lemma nearest_fmt r : fmt r -> nearest r = r. Proof. apply round_generic; auto with typeclass_instances. Qed.
Lemma below_fmt r : fmt r -> below r = r. Proof. apply round_generic; auto with typeclass_instances. Qed.
Lemma above_fmt r : fmt r -> above r = r. Proof. apply round_generic; auto with typeclass_instances. Qed.
Lemma real_fmt x : fmt (real x). Proof. apply generic_format_B2R. Qed.
Lemma fexp64_eq e : fexp64 e = Z.max (e - 53) (-1074). Proof. reflexivity. Qed.
(** Doubles among the numbers m * 2^e. *)
Lemma fmt_int m e : (Z.abs m < 2 ^ 53)%Z -> (-1074 <= e)%Z -> fmt (IZR m * bp e).
Proof.
  intros Hm He. apply (generic_format_FLT radix2 (-1074) 53). exists (Float radix2 m e); auto.
Qed.
Lemma fmt_bp e : (-1074 <= e)%Z -> fmt (bp e).
Proof. intros H. rewrite <- (Rmult_1_l (bp e)). apply (fmt_int 1); auto. reflexivity. Qed.
Lemma fmt_0 : fmt 0. Proof. apply generic_format_0. Qed.
Lemma fmt_1 : fmt 1. Proof. apply (fmt_bp 0). lia. Qed.
Lemma below_le r : below r <= r. Proof. apply round_DN_pt; auto with typeclass_instances. Qed.
Lemma above_ge r : r <= above r. Proof. apply round_UP_pt; auto with typeclass_instances. Qed.
Lemma below_ge f r : fmt f -> f <= r -> f <= below r. Proof. intros F H. rewrite <- (below_fmt f F). apply below_mono, H. Qed.
Lemma above_le f r : fmt f -> r <= f -> above r <= f. Proof. intros F H. rewrite <- (above_fmt f F). apply above_mono, H. Qed.
Lemma nearest_ge f r : fmt f -> f <= r -> f <= nearest r. Proof. intros F H. rewrite <- (nearest_fmt f F). apply nearest_mono, H. Qed.
Lemma nearest_le f r : fmt f -> r <= f -> nearest r <= f. Proof. intros F H. rewrite <- (nearest_fmt f F). apply nearest_mono, H. Qed.
Lemma fmt_opp r : fmt r -> fmt (- r). Proof. apply generic_format_opp. Qed.
Lemma largest_fmt : fmt largest.
Proof.
  replace largest with (IZR (2 ^ 53 - 1) * bp 971); [apply fmt_int; lia|]. unfold largest. rewrite minus_IZR, Rmult_minus_distr_r, Rmult_1_l. f_equal.
  change 1024%Z with (53 + 971)%Z. rewrite bpow_plus. reflexivity.
Qed.
Lemma largest_lt : largest < bp 1024. Proof. unfold largest. pose proof (bpow_gt_0 radix2 971). lra. Qed.
Lemma bp_le a b : (a <= b)%Z -> bp a <= bp b. Proof. apply bpow_le. Qed.
Lemma bp_pos a : 0 < bp a. Proof. apply bpow_gt_0. Qed.
Lemma bp_largest e : (e <= 1023)%Z -> bp e <= largest.
Proof.
  intros H. unfold largest. pose proof (bp_le e 1023 H). assert (bp 1024 = 2 * bp 1023) by (change 1024%Z with (1 + 1023)%Z; rewrite bpow_plus; reflexivity).
  pose proof (bp_le 971 1023 ltac:(lia)). lra.
Qed.
Lemma largest_pos : 1 <= largest. Proof. apply (bp_largest 0). lia. Qed.
Lemma finite_largest x : finite x -> Rabs (real x) <= largest.
Proof.
  intros _. unfold real. pose proof (abs_B2R_le_emax_minus_prec 53 1024 emax64 x) as H. unfold largest. exact H.
Qed.
(** Between a lower and an upper double, rounding stays there. *)
Lemma round_small r : Rabs r <= largest -> Rabs (nearest r) < bp 1024.
Proof.
  intros H. apply Rle_lt_trans with largest; [|apply largest_lt]. apply Rabs_le_inv in H. apply Rabs_le. split.
  - apply nearest_ge; [apply fmt_opp, largest_fmt|lra].
  - apply nearest_le; [apply largest_fmt|lra].
Qed.

(** ** Operations on finite numbers without overflow *)
Lemma dadd_ok x y : finite x -> finite y -> Rabs (real x + real y) <= largest -> finite (dadd x y) /\ real (dadd x y) = nearest (real x + real y) /\
  Bsign (dadd x y) = match Rcompare (real x + real y) 0 with Eq => andb (Bsign x) (Bsign y) | Lt => true | Gt => false end.
Proof.
  intros Fx Fy H. pose proof (Bplus_correct 53 1024 prec64 emax64 mode_NE x y Fx Fy) as C. rewrite Rlt_bool_true in C by (apply round_small, H).
  destruct C as (C1 & C2 & C3). split; [exact C2|]. split; [exact C1|exact C3].
Qed.
Lemma dsub_ok x y : finite x -> finite y -> Rabs (real x - real y) <= largest -> finite (dsub x y) /\ real (dsub x y) = nearest (real x - real y) /\
  Bsign (dsub x y) = match Rcompare (real x - real y) 0 with Eq => andb (Bsign x) (negb (Bsign y)) | Lt => true | Gt => false end.
Proof.
  intros Fx Fy H. pose proof (Bminus_correct 53 1024 prec64 emax64 mode_NE x y Fx Fy) as C. rewrite Rlt_bool_true in C by (apply round_small, H).
  destruct C as (C1 & C2 & C3). split; [exact C2|]. split; [exact C1|exact C3].
Qed.
Lemma dmul_ok x y : finite x -> finite y -> Rabs (real x * real y) <= largest -> finite (dmul x y) /\ real (dmul x y) = nearest (real x * real y).
Proof.
  intros Fx Fy H. pose proof (Bmult_correct 53 1024 prec64 emax64 mode_NE x y) as C. rewrite Rlt_bool_true in C by (apply round_small, H).
  destruct C as (C1 & C2 & _). unfold finite, dmul. rewrite C2. split; [rewrite Fx, Fy; reflexivity|exact C1].
Qed.
Lemma ddiv_ok x y : finite x -> real y <> 0 -> Rabs (real x / real y) <= largest -> finite (ddiv x y) /\ real (ddiv x y) = nearest (real x / real y).
Proof.
  intros Fx Fy H. pose proof (Bdiv_correct 53 1024 prec64 emax64 mode_NE x y Fy) as C. rewrite Rlt_bool_true in C by (apply round_small, H).
  destruct C as (C1 & C2 & _). unfold finite, ddiv. rewrite C2. auto.
Qed.
Lemma dconst_ok m e : (Z.abs m < 2 ^ 53)%Z -> (-1074 <= e)%Z -> Rabs (IZR m * bp e) <= largest -> finite (dconst m e) /\ real (dconst m e) = IZR m * bp e.
Proof.
  intros Hm He H. pose proof (binary_normalize_correct 53 1024 prec64 emax64 mode_NE m e false) as C. cbv zeta in C.
  change (F2R (Float radix2 m e)) with (IZR m * bp e) in C. rewrite Rlt_bool_true in C by (apply round_small, H). destruct C as (C1 & C2 & _). split; [exact C2|].
  unfold real, dconst. rewrite C1. apply nearest_fmt, fmt_int; auto.
Qed.
Lemma d0_ok : finite d0 /\ real d0 = 0. Proof. split; reflexivity. Qed.
Lemma d1_ok : finite d1 /\ real d1 = 1.
Proof. destruct (dconst_ok 1 0) as (A & B); try lia. - rewrite Rmult_1_l, Rabs_pos_eq by apply bpow_ge_0. apply bp_largest. lia. - split; [exact A|]. unfold d1. rewrite B. cbn. ring. Qed.
Lemma d2_ok : finite d2 /\ real d2 = 2.
Proof. destruct (dconst_ok 2 0) as (A & B); try lia. - change (IZR 2 * bp 0) with (bp 1 * 1). rewrite Rmult_1_r, Rabs_pos_eq by apply bpow_ge_0. apply bp_largest. lia. - split; [exact A|]. unfold d2. rewrite B. cbn. ring. Qed.
Lemma dm1_ok : finite dm1 /\ real dm1 = -1.
Proof. destruct (dconst_ok (-1) 0) as (A & B); try lia. - cbn. rewrite Rabs_left by lra. pose proof largest_pos. lra. - split; [exact A|]. unfold dm1. rewrite B. cbn. ring. Qed.
Lemma dhalf_ok : finite dhalf /\ real dhalf = / 2.
Proof. destruct (dconst_ok 1 (-1)) as (A & B); try lia. - rewrite Rmult_1_l, Rabs_pos_eq by apply bpow_ge_0. apply bp_largest. lia. - split; [exact A|]. unfold dhalf. rewrite B. cbn. lra. Qed.
Lemma dfmax_ok x y : finite x -> finite y -> finite (dfmax x y) /\ real (dfmax x y) = Rmax (real x) (real y).
Proof.
  intros Fx Fy. unfold dfmax. rewrite (Bcompare_correct 53 1024 x y Fx Fy). fold (real x) (real y). destruct (Rcompare_spec (real x) (real y)) as [H|H|H]; split; auto.
  - rewrite Rmax_right by lra. reflexivity.
  - rewrite Rmax_right by lra. reflexivity.
  - rewrite Rmax_left by lra. reflexivity.
Qed.
Lemma dle_ok x y : finite x -> finite y -> dle x y = true <-> real x <= real y.
Proof.
  intros Fx Fy. unfold dle. rewrite (Bcompare_correct 53 1024 x y Fx Fy). fold (real x) (real y). destruct (Rcompare_spec (real x) (real y)) as [H|H|H]; split; intros; auto; try lra; discriminate.
Qed.
Lemma dgt_ok x y : finite x -> finite y -> dgt x y = true <-> real y < real x.
Proof.
  intros Fx Fy. unfold dgt. rewrite (Bcompare_correct 53 1024 x y Fx Fy). fold (real x) (real y). destruct (Rcompare_spec (real x) (real y)) as [H|H|H]; split; intros; auto; try lra; discriminate.
Qed.

(** ** Half a unit in the last place *)
Lemma nearest_error r e : Rabs r <= bp e -> (-1021 <= e)%Z -> Rabs (nearest r - r) <= bp (e - 54).
Proof.
  intros H He. destruct (Req_dec r 0) as [->|Hr].
  - rewrite nearest_fmt by apply fmt_0. rewrite Rminus_0_r, Rabs_R0. apply bpow_ge_0.
  - pose proof (error_le_half_ulp radix2 fexp64 (fun n => negb (Z.even n)) r) as E. fold (nearest r) in E.
    destruct (Rle_lt_or_eq_dec _ _ H) as [H'|H'].
    + apply (Rle_trans _ _ _ E). replace (bp (e - 54)) with (/ 2 * bp (e - 53)) by (replace (e - 54)%Z with (-1 + (e - 53))%Z by lia; rewrite bpow_plus; reflexivity).
      apply Rmult_le_compat_l; [lra|]. rewrite ulp_neq_0 by auto. apply bpow_le. unfold cexp. rewrite fexp64_eq.
      assert (mag radix2 r <= e)%Z by (apply mag_le_bpow; auto). lia.
    + assert (F : fmt r).
      { destruct (Rle_dec 0 r) as [P|P]; [rewrite Rabs_pos_eq in H' by auto; rewrite H'; apply fmt_bp; lia|]. rewrite Rabs_left in H' by lra. replace r with (- bp e) by lra. apply fmt_opp, fmt_bp. lia. }
      rewrite nearest_fmt by auto. rewrite Rminus_diag_eq, Rabs_R0 by auto. apply bpow_ge_0.
Qed.
(** A faithful result is within one unit. *)
Lemma faithful_error r y e : faithful r y -> Rabs r <= largest -> Rabs r <= bp e -> (-1021 <= e)%Z -> finite y /\ Rabs (real y - r) <= bp (e - 53).
Proof.
  intros (H & _) HL He Hee. destruct (H HL) as (Fy & HV). split; [exact Fy|].
  assert (U : ulp radix2 fexp64 r <= bp (e - 53) \/ fmt r).
  { destruct (Req_dec r 0) as [->|Hr]; [right; apply fmt_0|]. destruct (Rle_lt_or_eq_dec _ _ He) as [H'|H'].
    - left. rewrite ulp_neq_0 by auto. apply bpow_le. unfold cexp. rewrite fexp64_eq. assert (mag radix2 r <= e)%Z by (apply mag_le_bpow; auto). lia.
    - right. destruct (Rle_dec 0 r) as [P|P]; [rewrite Rabs_pos_eq in H' by auto; rewrite H'; apply fmt_bp; lia|]. rewrite Rabs_left in H' by lra. replace r with (- bp e) by lra. apply fmt_opp, fmt_bp. lia. }
  destruct U as [U|U].
  - destruct HV as [-> | ->]; (apply Rle_trans with (2 := U)); apply error_le_ulp; auto with typeclass_instances.
  - destruct HV as [-> | ->]; [rewrite below_fmt by auto|rewrite above_fmt by auto]; rewrite Rminus_diag_eq, Rabs_R0 by auto; apply bpow_ge_0.
Qed.
Lemma faithful_between r y a b : faithful r y -> Rabs r <= largest -> fmt a -> fmt b -> a <= r -> r <= b -> finite y /\ a <= real y <= b.
Proof.
  intros (H & _) HL Fa Fb Ha Hb. destruct (H HL) as (Fy & HV). split; [exact Fy|]. pose proof (below_ge a r Fa Ha). pose proof (above_le b r Fb Hb). pose proof (below_le r). pose proof (above_ge r).
  destruct HV as [-> | ->]; lra.
Qed.

(** ** The exponential function at whole numbers *)
Lemma exp_pow x n : exp x ^ n = exp (INR n * x).
Proof. induction n as [|n IH]; [cbn; rewrite Rmult_0_l, exp_0; reflexivity|]. rewrite S_INR, Rmult_plus_distr_r, Rmult_1_l, exp_plus, <- IH. cbn. ring. Qed.
Lemma exp_inv_ge h : exp (- h) >= 1 - h. Proof. pose proof (exp_ineq1_le (- h)). lra. Qed.
(** 2.7077 < e < 2.7212 by repeated squaring, and whole powers of e against powers of two. *)
Lemma sq_up h a b : exp h <= a -> a * a <= b -> exp (2 * h) <= b.
Proof. intros H1 H2. replace (2 * h) with (h + h) by ring. rewrite exp_plus. pose proof (exp_pos h). apply Rle_trans with (a * a); auto. apply Rmult_le_compat; lra. Qed.
Lemma sq_lo h a b : 0 <= a -> a <= exp h -> b <= a * a -> b <= exp (2 * h).
Proof. intros H0 H1 H2. replace (2 * h) with (h + h) by ring. rewrite exp_plus. apply Rle_trans with (a * a); auto. apply Rmult_le_compat; lra. Qed.
Lemma e_up : exp 1 <= (1360551 / 500000).
Proof.
  assert (H : exp (/ 512) <= (1001957 / 1000000)).
  { pose proof (exp_inv_ge (/ 512)) as G. rewrite exp_Ropp in G. apply Rge_le, Rinv_le_contravar in G; [|lra]. rewrite Rinv_inv in G. lra. }
  apply (sq_up _ _ (10039179 / 10000000)) in H; [|lra].
  apply (sq_up _ _ (629907 / 625000)) in H; [|lra].
  apply (sq_up _ _ (10157641 / 10000000)) in H; [|lra].
  apply (sq_up _ _ (1289721 / 1250000)) in H; [|lra].
  apply (sq_up _ _ (5322817 / 5000000)) in H; [|lra].
  apply (sq_up _ _ (11332953 / 10000000)) in H; [|lra].
  apply (sq_up _ _ (12843583 / 10000000)) in H; [|lra].
  apply (sq_up _ _ (16495763 / 10000000)) in H; [|lra].
  apply (sq_up _ _ (1360551 / 500000)) in H; [|lra].
  replace (2 * (2 * (2 * (2 * (2 * (2 * (2 * (2 * (2 * / 512))))))))) with 1 in H by lra. exact H.
Qed.
Lemma e_lo : (13538619 / 5000000) <= exp 1.
Proof.
  assert (H : (129 / 128) <= exp (/ 128)) by (pose proof (exp_ineq1_le (/ 128)); lra).
  apply (sq_lo _ _ (507843 / 500000)) in H; [|lra|lra].
  apply (sq_lo _ _ (515809 / 500000)) in H; [|lra|lra].
  apply (sq_lo _ _ (2660589 / 2500000)) in H; [|lra|lra].
  apply (sq_lo _ _ (5662987 / 5000000)) in H; [|lra|lra].
  apply (sq_lo _ _ (1603471 / 1250000)) in H; [|lra|lra].
  apply (sq_lo _ _ (16455163 / 10000000)) in H; [|lra|lra].
  apply (sq_lo _ _ (13538619 / 5000000)) in H; [|lra|lra].
  replace (2 * (2 * (2 * (2 * (2 * (2 * (2 * / 128))))))) with 1 in H by lra. exact H.
Qed.
Lemma exp_upper (p q : nat) : (1360551 ^ Z.of_nat p <= 2 ^ Z.of_nat q * 500000 ^ Z.of_nat p)%Z -> exp (INR p) <= 2 ^ q.
Proof.
  intros H. replace (exp (INR p)) with (exp 1 ^ p) by (rewrite exp_pow; f_equal; ring). apply Rle_trans with ((1360551 / 500000) ^ p).
  - apply pow_incr. split; [left; apply exp_pos|apply e_up].
  - unfold Rdiv. rewrite Rpow_mult_distr, pow_inv. apply (Rmult_le_reg_r (500000 ^ p)); [apply pow_lt; lra|]. rewrite Rmult_assoc, Rinv_l, Rmult_1_r by (apply pow_nonzero; lra).
    rewrite !pow_IZR, <- mult_IZR. apply IZR_le. exact H.
Qed.
Lemma exp_lower (p q : nat) : (2 ^ Z.of_nat q * 5000000 ^ Z.of_nat p <= 13538619 ^ Z.of_nat p)%Z -> 2 ^ q <= exp (INR p).
Proof.
  intros H. replace (exp (INR p)) with (exp 1 ^ p) by (rewrite exp_pow; f_equal; ring). apply Rle_trans with ((13538619 / 5000000) ^ p).
  - unfold Rdiv. rewrite Rpow_mult_distr, pow_inv. apply (Rmult_le_reg_r (5000000 ^ p)); [apply pow_lt; lra|]. rewrite Rmult_assoc, Rinv_l, Rmult_1_r by (apply pow_nonzero; lra).
    rewrite !pow_IZR, <- mult_IZR. apply IZR_le. exact H.
  - apply pow_incr. split; [lra|apply e_lo].
Qed.
Lemma pow_bp q : 2 ^ q = bp (Z.of_nat q).
Proof. rewrite <- (IZR_Zpower radix2) by lia. cbn [radix_val radix2]. rewrite <- pow_IZR. reflexivity. Qed.
Lemma e36 : exp 36 <= bp 52.
Proof. change 52%Z with (Z.of_nat 52). rewrite <- pow_bp. replace 36 with (INR 36) by (rewrite INR_IZR_INZ; reflexivity). apply (exp_upper 36 52). apply Z.leb_le. vm_compute. reflexivity. Qed.
Lemma e37 : bp 53 <= exp 37.
Proof. change 53%Z with (Z.of_nat 53). rewrite <- pow_bp. replace 37 with (INR 37) by (rewrite INR_IZR_INZ; reflexivity). apply (exp_lower 37 53). apply Z.leb_le. vm_compute. reflexivity. Qed.
Lemma e40 : bp 55 <= exp 40.
Proof. change 55%Z with (Z.of_nat 55). rewrite <- pow_bp. replace 40 with (INR 40) by (rewrite INR_IZR_INZ; reflexivity). apply (exp_lower 40 55). apply Z.leb_le. vm_compute. reflexivity. Qed.
Lemma e708 : exp 708 <= bp 1023.
Proof. change 1023%Z with (Z.of_nat 1023). rewrite <- pow_bp. replace 708 with (INR 708) by (rewrite INR_IZR_INZ; reflexivity). apply (exp_upper 708 1023). apply Z.leb_le. vm_compute. reflexivity. Qed.
Lemma e750 : bp 1076 <= exp 750.
Proof. change 1076%Z with (Z.of_nat 1076). rewrite <- pow_bp. replace 750 with (INR 750) by (rewrite INR_IZR_INZ; reflexivity). apply (exp_lower 750 1076). apply Z.leb_le. vm_compute. reflexivity. Qed.
