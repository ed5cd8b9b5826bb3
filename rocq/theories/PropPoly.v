(** Properties C17-C23 and C56: one-dimensional bases, bijectors and sigmoids. *)
From Coq Require Import Reals Lra Factorial.
From Coquelicot Require Import Coquelicot.
From Verif Require Import Base SpecPoly SpecExpansion PolyModel PolyProofs LinProofs BijModel BijProofs.
Local Open Scope R_scope.

(** ** C17 *)

(** Evaluate(n,x) is the polynomial of the recurrence, divided by Normalization(n) when
    normalisation is requested, for every family, degree and point. *)
Theorem C17_evaluate_recurrence : forall M nz Q n x,
  recurrence (ak M) (bk M) (ck M) (phi0 M) (phi1 M) Q ->
  Evaluate M nz n x = Q n x / (if nz then Normalization M n else 1).
Proof. intros M nz Q n x H. rewrite (recurrence_unique M Q H). apply Evaluate_P. Qed.
Print Assumptions C17_evaluate_recurrence.

(** The three array routines write Evaluate(k,x) into entries 0..n of the value array,
    whatever the arrays held before, and change no other entry of it. *)
Theorem C17_arrays_agree : forall M nz n x vals derivs second,
  (n < length vals)%nat -> (n < length derivs)%nat -> (n < length second)%nat ->
  let good := fill (fun k => Evaluate M nz k x) (S n) vals in
  EvaluateAll M nz vals n x = Ok good /\
  (exists d, EvaluateDerivatives M nz vals derivs n x = Ok (good, d)) /\
  (exists d d2, EvaluateSecondDerivatives M nz vals derivs second n x = Ok (good, d, d2)).
Proof.
  intros M nz n x vals derivs second L1 L2 L3 good.
  assert (E : good = fill (fun k => P M k x / norm_of M nz k) (S n) vals).
  { apply fill_ext. intros. apply Evaluate_P. }
  rewrite E. split; [|split].
  - apply EvaluateAll_P. auto.
  - eexists. apply EvaluateDerivatives_P; auto.
  - do 2 eexists. apply EvaluateSecondDerivatives_P; auto.
Qed.
Print Assumptions C17_arrays_agree.

(** The two families of the library are the textbook ones. *)
Theorem C17_hermite : forall n x,
  Evaluate ProbabilistHermite false n x = He n x /\ Evaluate PhysicistHermite false n x = Hphys n x.
Proof. intros n x. rewrite !Evaluate_P, P_prob, P_phys. unfold norm_of. rewrite !Rdiv_1. auto. Qed.
Print Assumptions C17_hermite.

Example C17_example : EvaluateAll ProbabilistHermite false [7; 7; 7; 7; 7] 3 2 = Ok [1; 2; 3; 2; 7].
Proof. rewrite EvaluateAll_P by (cbn; lia). unfold fill, norm_of, P. cbn. repeat f_equal; field. Qed.
Example C17_example_recurrence : recurrence (ak ProbabilistHermite) (bk ProbabilistHermite) (ck ProbabilistHermite)
  (phi0 ProbabilistHermite) (phi1 ProbabilistHermite) He.
Proof.
  intros x. split; [|split]; auto. intros k. cbn [ak bk ck ProbabilistHermite].
  change (He (S (S k)) x) with (x * He (S k) x - INR (S k) * He k x). rewrite (S_INR (S k)). ring.
Qed.

(** ** C18 *)

(** What the array routines write as derivatives are the first and second derivatives of
    the values they write, for every family whose phi0 is constant and phi1 affine. *)
Theorem C18_arrays_true_derivatives : forall M nz n x vals derivs second,
  proper M -> (n < length vals)%nat -> (n < length derivs)%nat -> (n < length second)%nat ->
  exists d d2 : nat -> R,
    EvaluateDerivatives1 M nz derivs n x = Ok (fill d (S n) derivs) /\
    EvaluateDerivatives M nz vals derivs n x = Ok (fill (fun k => Evaluate M nz k x) (S n) vals, fill d (S n) derivs) /\
    EvaluateSecondDerivatives M nz vals derivs second n x =
      Ok (fill (fun k => Evaluate M nz k x) (S n) vals, fill d (S n) derivs, fill d2 (S n) second) /\
    forall k, is_derive (Evaluate M nz k) x (d k) /\ is_derive_n (Evaluate M nz k) 2 x (d2 k).
Proof.
  intros M nz n x vals derivs second HM L1 L2 L3.
  exists (fun k => DP M k x / norm_of M nz k), (fun k => D2P M k x / norm_of M nz k).
  assert (E : fill (fun k => Evaluate M nz k x) (S n) vals = fill (fun k => P M k x / norm_of M nz k) (S n) vals).
  { apply fill_ext. intros. apply Evaluate_P. }
  assert (D : forall k t, is_derive (Evaluate M nz k) t (DP M k t / norm_of M nz k)).
  { intros k t. apply (is_derive_ext (fun t => P M k t / norm_of M nz k)).
    - intros. symmetry. apply Evaluate_P.
    - apply is_derive_div_const. apply P_derive; auto. }
  rewrite E. repeat apply conj.
  - apply EvaluateDerivatives1_P; auto.
  - apply EvaluateDerivatives_P; auto.
  - apply EvaluateSecondDerivatives_P; auto.
  - intros k. split; [apply D|]. cbn.
    apply (is_derive_ext (fun t => DP M k t / norm_of M nz k)).
    + intros t. symmetry. apply is_derive_unique, D.
    + apply is_derive_div_const. apply DP_derive; auto.
Qed.
Print Assumptions C18_arrays_true_derivatives.

(** Derivative(n,x) is right except possibly at n=1 with normalisation; SecondDerivative
    is always right. The missing case is refuted below. *)
Theorem C18_single_degree_partial : forall M nz n x, proper M ->
  (n <> 1%nat \/ nz = false -> is_derive (Evaluate M nz n) x (Derivative M nz n x)) /\
  is_derive_n (Evaluate M nz n) 2 x (SecondDerivative M nz n x).
Proof.
  intros M nz n x HM.
  assert (D : forall k t, is_derive (Evaluate M nz k) t (DP M k t / norm_of M nz k)).
  { intros k t. apply (is_derive_ext (fun t => P M k t / norm_of M nz k)).
    - intros. symmetry. apply Evaluate_P.
    - apply is_derive_div_const. apply P_derive; auto. }
  split.
  - intros H. destruct (Nat.eq_dec n 1) as [->|Hn].
    + destruct H as [H| ->]; [congruence|]. replace (Derivative M false 1 x) with (DP M 1 x / norm_of M false 1); [apply D|].
      cbn. apply Rdiv_1.
    + rewrite Derivative_P by auto. apply D.
  - rewrite SecondDerivative_P. cbn. apply (is_derive_ext (fun t => DP M n t / norm_of M nz n)).
    + intros t. symmetry. apply is_derive_unique, D.
    + apply is_derive_div_const. apply DP_derive; auto.
Qed.
Print Assumptions C18_single_degree_partial.

Lemma PI_gt1 : 1 < PI.
Proof. pose proof PI2_3_2. lra. Qed.
Lemma sqrt_gt1 y : 1 < y -> 1 < sqrt y.
Proof. intros H. rewrite <- sqrt_1. apply sqrt_lt_1; lra. Qed.

Lemma div_gt1 c s : 0 < c -> 1 < s -> c <> c / s.
Proof.
  intros Hc Hs E. apply (f_equal (fun r => r * s)) in E.
  replace (c / s * s) with c in E by (field; lra). nra.
Qed.

(** Derivative(1,x) of a normalised basis is not the derivative, at any point. *)
Theorem C18_degree1_normalised_refuted : forall x,
  ~ is_derive (Evaluate ProbabilistHermite true 1) x (Derivative ProbabilistHermite true 1 x) /\
  ~ is_derive (Evaluate PhysicistHermite true 1) x (Derivative PhysicistHermite true 1 x).
Proof.
  intros x. pose proof PI_gt1 as HP. split; intros H.
  - assert (H' : is_derive (Evaluate ProbabilistHermite true 1) x (1 / sqrt (sqrt (2 * PI) * IZR 1))).
    { apply (is_derive_div_const (fun t => t)). apply (is_derive_id x). }
    apply is_derive_unique in H. apply is_derive_unique in H'. rewrite H in H'.
    apply div_gt1 in H'; auto; [lra|]. rewrite Rmult_1_r. apply sqrt_gt1, sqrt_gt1. lra.
  - assert (H' : is_derive (Evaluate PhysicistHermite true 1) x (2 / sqrt (sqrt PI * (2 * 1) * IZR 1))).
    { apply (is_derive_div_const (fun t => 2 * t)). auto_derive; auto. ring. }
    apply is_derive_unique in H. apply is_derive_unique in H'. rewrite H in H'.
    apply div_gt1 in H'; auto; [lra|]. apply sqrt_gt1. pose proof (sqrt_gt1 PI HP). lra.
Qed.
Print Assumptions C18_degree1_normalised_refuted.

Example C18_proper_families : proper ProbabilistHermite /\ proper PhysicistHermite.
Proof. split; [apply proper_prob|apply proper_phys]. Qed.
Example C18_example : Derivative PhysicistHermite false 3 1 = 12.
Proof. rewrite Derivative_P by discriminate. unfold DP, P, norm_of; cbn. field. Qed.

(** ** C19 *)

(** Up to degree 12 the norm used is the true norm. Missing: the other degrees, refuted below. *)
Theorem C19_true_norm_partial : forall n x, (n <= 12)%nat ->
  Evaluate ProbabilistHermite true n x = He n x / He_norm n /\
  Evaluate PhysicistHermite true n x = Hphys n x / Hphys_norm n.
Proof.
  intros n x H. rewrite !Evaluate_P, P_prob, P_phys. unfold norm_of, He_norm, Hphys_norm. cbn [Normalization ProbabilistHermite PhysicistHermite].
  rewrite Factorial_small, INR_fact by auto. auto.
Qed.
Print Assumptions C19_true_norm_partial.

(** From degree 13 on the norm used is strictly smaller than the true norm. *)
Theorem C19_norm_from_13_refuted : forall n, (13 <= n)%nat ->
  Normalization ProbabilistHermite n < He_norm n /\ Normalization PhysicistHermite n < Hphys_norm n.
Proof.
  intros n H. unfold He_norm, Hphys_norm. cbn [Normalization ProbabilistHermite PhysicistHermite].
  rewrite INR_fact. assert (L : IZR (Factorial n) < IZR (zfact n)) by (apply IZR_lt, Factorial_large; auto).
  assert (N : 0 <= IZR (Factorial n)) by (apply IZR_le, Factorial_nonneg).
  pose proof sqrt_2pi_pos. pose proof sqrt_pi_pos. pose proof (pow2_pos n).
  assert (0 < sqrt PI * 2 ^ n) by (apply Rmult_lt_0_compat; auto).
  split; apply sqrt_lt_1_alt; (split; [apply Rmult_le_pos; lra|apply Rmult_lt_compat_l; auto]).
Qed.
Print Assumptions C19_norm_from_13_refuted.

(** From degree 34 on the code divides by zero. *)
Theorem C19_norm_from_34_refuted : forall n, (34 <= n)%nat ->
  Normalization ProbabilistHermite n = 0 /\ Normalization PhysicistHermite n = 0.
Proof.
  intros n H. cbn [Normalization ProbabilistHermite PhysicistHermite]. rewrite Factorial_zero by auto.
  rewrite !Rmult_0_r, sqrt_0. auto.
Qed.
Print Assumptions C19_norm_from_34_refuted.

(** Up to degree 33 the code never divides by zero. *)
Theorem C19_no_division_by_zero_partial : forall n, (n <= 33)%nat ->
  0 < Normalization ProbabilistHermite n /\ 0 < Normalization PhysicistHermite n.
Proof.
  intros n H. cbn [Normalization ProbabilistHermite PhysicistHermite].
  assert (L : 0 < IZR (Factorial n)) by (apply IZR_lt, Factorial_nonzero; auto).
  pose proof sqrt_2pi_pos. pose proof sqrt_pi_pos. pose proof (pow2_pos n).
  split; apply sqrt_lt_R0; repeat apply Rmult_lt_0_compat; auto.
Qed.
Print Assumptions C19_no_division_by_zero_partial.

Example C19_example : Factorial 12 = 479001600%Z /\ Factorial 13 = 1932053504%Z.
Proof. split; vm_compute; reflexivity. Qed.

(** ** C20 *)

(** For every index the array routines write 1, x, psi_0, psi_1, ... and their true first and
    second derivatives. *)
Theorem C20_arrays : forall n x vals derivs second,
  (n < length vals)%nat -> (n < length derivs)%nat -> (n < length second)%nat ->
  exists d d2 : nat -> R,
    hf_EvaluateAll vals n x = Ok (fill (fun k => hbasis k x) (S n) vals) /\
    hf_EvaluateDerivatives vals derivs n x = Ok (fill (fun k => hbasis k x) (S n) vals, fill d (S n) derivs) /\
    hf_EvaluateSecondDerivatives vals derivs second n x =
      Ok (fill (fun k => hbasis k x) (S n) vals, fill d (S n) derivs, fill d2 (S n) second) /\
    forall k, is_derive (hbasis k) x (d k) /\ is_derive_n (hbasis k) 2 x (d2 k).
Proof.
  intros n x vals derivs second L1 L2 L3. exists (fun k => dhbasis k x), (fun k => d2hbasis k x).
  repeat apply conj.
  - apply hf_EvaluateAll_spec; auto.
  - apply hf_EvaluateDerivatives_spec; auto.
  - apply hf_EvaluateSecondDerivatives_spec; auto.
  - intros k. split; [apply hbasis_derive|]. cbn. apply (is_derive_ext (dhbasis k)).
    + intros t. symmetry. apply is_derive_unique, hbasis_derive.
    + apply dhbasis_derive.
Qed.
Print Assumptions C20_arrays.

(** The single-index routines agree up to index 14. Missing: larger indices and
    SecondDerivative, refuted below. *)
Theorem C20_single_index_partial : forall n x, (n <= 14)%nat ->
  hf_Evaluate n x = hbasis n x /\ is_derive (hbasis n) x (hf_Derivative n x).
Proof.
  intros n x H. destruct n as [|[|n]].
  - split; [reflexivity|apply (hbasis_derive 0)].
  - split; [reflexivity|apply (hbasis_derive 1)].
  - split; [apply hf_Evaluate_psi; lia|]. rewrite hf_Derivative_psi by lia. apply (hbasis_derive (S (S n))).
Qed.
Print Assumptions C20_single_index_partial.

Lemma hf_scaling_large n : (13 <= n <= 33)%nat -> hs n < hf_scaling n.
Proof.
  intros H. unfold hf_scaling, pow_mhalf, hs. rewrite INR_fact.
  assert (L : IZR (Factorial n) < IZR (zfact n)) by (apply IZR_lt, Factorial_large; lia).
  assert (N : 0 < IZR (Factorial n)) by (apply IZR_lt, Factorial_nonzero; lia).
  pose proof sqrt_pi_pos. pose proof (pow2_pos n).
  assert (A : 0 < 2 ^ n * IZR (Factorial n) * sqrt PI) by (repeat apply Rmult_lt_0_compat; auto).
  assert (B : 2 ^ n * IZR (Factorial n) * sqrt PI < 2 ^ n * IZR (zfact n) * sqrt PI).
  { apply Rmult_lt_compat_r; auto. apply Rmult_lt_compat_l; auto. }
  apply Rinv_lt_contravar.
  - apply Rmult_lt_0_compat; apply sqrt_lt_R0; lra.
  - apply sqrt_lt_1; lra.
Qed.

(** Indices 15..35: Evaluate(n,x) differs from what EvaluateAll writes at every point that is
    not a zero of the function, and such points exist. *)
Theorem C20_evaluate_large_index_refuted : forall n, (15 <= n <= 35)%nat ->
  (forall x, hbasis n x <> 0 -> hf_Evaluate n x <> hbasis n x) /\ (exists x, hbasis n x <> 0).
Proof.
  intros n H. destruct n as [|[|n]]; try lia. split.
  - intros x Hx. cbn [hbasis hf_Evaluate] in *. rewrite Evaluate_P, P_phys. rewrite psi_eq in *. unfold norm_of. rewrite Rdiv_1.
    change (exp (- (1/2) * x * x)) with (he x). intros E.
    pose proof (hf_scaling_large n ltac:(lia)). pose proof (he_pos x). pose proof (hs_pos n).
    assert (Hphys n x <> 0). { intros Z. apply Hx. rewrite Z. ring. }
    assert (D : (hf_scaling n - hs n) * (he x * Hphys n x) = 0) by lra.
    apply Rmult_integral in D. destruct D as [D|D]; [lra|]. apply Rmult_integral in D. lra.
  - exists (2 * INR n). cbn [hbasis]. rewrite psi_eq.
    assert (A : 1 <= INR n) by (apply (le_INR 1); lia).
    destruct (Hphys_pos n (2 * INR n) ltac:(lra) ltac:(nra) n ltac:(lia)) as [B _].
    pose proof (he_pos (2 * INR n)). pose proof (hs_pos n).
    assert (0 < hs n * he (2 * INR n) * Hphys n (2 * INR n)) by (repeat apply Rmult_lt_0_compat; auto). lra.
Qed.
Print Assumptions C20_evaluate_large_index_refuted.

(** SecondDerivative(n,.) is wrong for every index 2..37. *)
Theorem C20_second_derivative_refuted : forall n, (2 <= n <= 37)%nat ->
  exists x, ~ is_derive_n (hbasis n) 2 x (hf_SecondDerivative n x).
Proof.
  intros n H. destruct n as [|[|n]]; try lia.
  assert (N0 : 0 <= INR n) by apply pos_INR.
  set (x := sqrt (2 * INR n + 1)). exists x. intros D.
  assert (X2 : x * x = 2 * INR n + 1) by (apply sqrt_sqrt; lra).
  assert (XP : 0 < x) by (apply sqrt_lt_R0; lra).
  assert (T : is_derive_n (hbasis (S (S n))) 2 x (d2hbasis (S (S n)) x)).
  { cbn. apply (is_derive_ext (dhbasis (S (S n)))).
    + intros t. symmetry. apply (is_derive_unique (hbasis (S (S n)))), hbasis_derive.
    + apply dhbasis_derive. }
  apply is_derive_n_unique in D. apply is_derive_n_unique in T. rewrite D in T.
  cbn [d2hbasis hf_SecondDerivative] in T. rewrite X2 in T.
  assert (V : 0 < hf_Evaluate n x).
  { destruct n as [|[|m]]; [cbn; lra|exact XP|]. cbn [hf_Evaluate].
    rewrite Evaluate_P, P_phys. unfold norm_of. rewrite Rdiv_1.
    apply Rmult_lt_0_compat; [apply Rmult_lt_0_compat; [|apply exp_pos]|].
    - unfold hf_scaling, pow_mhalf. apply Rinv_0_lt_compat, sqrt_lt_R0.
      pose proof sqrt_pi_pos. pose proof (pow2_pos m).
      assert (0 < IZR (Factorial m)) by (apply IZR_lt, Factorial_nonzero; lia).
      repeat apply Rmult_lt_0_compat; auto.
    - apply (Hphys_pos m x XP); auto. rewrite X2, !S_INR. lra. }
  replace (INR (S (S n))) with (INR n + 2) in T by (rewrite !S_INR; ring).
  assert (hf_Evaluate n x = 0) by lra. lra.
Qed.
Print Assumptions C20_second_derivative_refuted.

Example C20_example : hf_SecondDerivative 2 1 = -4 /\ d2hbasis 2 1 = 0.
Proof. cbn. split; ring. Qed.

(** ** C21 *)

(** [B] is a basis whose array routines fill v_k and its derivatives d_k, d2_k up to degree N. *)
Definition array_basis (B : basis) (v d d2 : nat -> R -> R) (N : nat) : Prop :=
  fills_values B v N /\ fills_derivs B v d N /\ fills_second B v d d2 N /\
  (forall k x, (k <= N)%nat -> is_derive (v k) x (d k x) /\ is_derive (d k) x (d2 k x)).
(** The single-index routines of [B] return the same values. *)
Definition scalar_basis (B : basis) (v d d2 : nat -> R -> R) (N : nat) : Prop :=
  forall k x, (k <= N)%nat -> b_eval B k x = v k x /\ b_deriv B k x = d k x /\ b_deriv2 B k x = d2 k x.

(** [w] with derivative [w'] is the C1 extension of [v] that is affine outside [lb,ub], and
    [w''] is its second derivative away from the bounds, zero outside. *)
Definition c1_affine_extension (v w w' w'' : R -> R) (lb ub : R) : Prop :=
  (forall x, lb <= x <= ub -> w x = v x) /\
  (forall x, is_derive w x (w' x)) /\
  (forall x, x <= lb -> w x = w lb + w' lb * (x - lb)) /\
  (forall x, ub <= x -> w x = w ub + w' ub * (x - ub)) /\
  (forall x, x <> lb -> x <> ub -> is_derive w' x (w'' x)) /\
  (forall x, x < lb \/ ub < x -> w'' x = 0).

Lemma ext_spec (v d d2 : R -> R) lb ub : lb < ub -> (forall x, is_derive v x (d x) /\ is_derive d x (d2 x)) ->
  c1_affine_extension v (ext v d lb ub) (extd d lb ub) (extd2 d2 lb ub) lb ub.
Proof.
  intros L H. repeat apply conj.
  - intros x Hx. unfold ext. rewrite !Rltb_false by lra. auto.
  - apply ext_derive; auto. intros; apply H.
  - intros x Hx. unfold ext, extd. rewrite (Rltb_false lb lb), (Rltb_false ub lb), (Rltb_false ub x) by lra.
    destruct (Rle_lt_or_eq_dec _ _ Hx) as [A| ->].
    + now rewrite Rltb_true by auto.
    + rewrite Rltb_false by lra. ring.
  - intros x Hx. unfold ext, extd. rewrite (Rltb_false ub lb), (Rltb_false ub ub), (Rltb_false x lb) by lra.
    destruct (Rle_lt_or_eq_dec _ _ Hx) as [A|A].
    + now rewrite Rltb_true by auto.
    + subst x. rewrite Rltb_false by lra. ring.
  - intros x N1 N2. apply extd_derive; auto. intros; apply H.
  - intros x [A|A]; unfold extd2.
    + now rewrite Rltb_true.
    + rewrite (Rltb_false x lb) by lra. now rewrite Rltb_true.
Qed.

(** The array routines with derivatives are right for every base basis. *)
Theorem C21_derivative_arrays : forall B v d d2 N lb ub, lb < ub -> array_basis B v d d2 N ->
  exists w w' w'' : nat -> R -> R,
    fills_derivs (linearized B lb ub) w w' N /\
    fills_second (linearized B lb ub) w w' w'' N /\
    forall k, (k <= N)%nat -> c1_affine_extension (v k) (w k) (w' k) (w'' k) lb ub.
Proof.
  intros B v d d2 N lb ub L (H1 & H2 & H3 & H4).
  exists (fun k => ext (v k) (d k) lb ub), (fun k => extd (d k) lb ub), (fun k => extd2 (d2 k) lb ub).
  split; [apply lin_derivs_spec; auto|]. split; [apply lin_second_spec; auto|].
  intros k Hk. apply ext_spec; auto.
Qed.
Print Assumptions C21_derivative_arrays.

(** All six routines are right, and agree, when the base basis' single-index routines are. *)
Theorem C21_all_routines : forall B v d d2 N lb ub, lb < ub -> array_basis B v d d2 N -> scalar_basis B v d d2 N ->
  exists w w' w'' : nat -> R -> R,
    fills_values (linearized B lb ub) w N /\
    fills_derivs (linearized B lb ub) w w' N /\
    fills_second (linearized B lb ub) w w' w'' N /\
    scalar_basis (linearized B lb ub) w w' w'' N /\
    forall k, (k <= N)%nat -> c1_affine_extension (v k) (w k) (w' k) (w'' k) lb ub.
Proof.
  intros B v d d2 N lb ub L (H1 & H2 & H3 & H4) HS.
  exists (fun k => ext (v k) (d k) lb ub), (fun k => extd (d k) lb ub), (fun k => extd2 (d2 k) lb ub).
  split; [apply lin_all_spec; auto; intros; apply HS; auto|].
  split; [apply lin_derivs_spec; auto|]. split; [apply lin_second_spec; auto|]. split.
  - intros k x Hk. cbn. unfold lin_eval, lin_deriv, lin_deriv2, ext, extd, extd2.
    destruct (HS k lb Hk) as (E1 & E2 & E3), (HS k ub Hk) as (F1 & F2 & F3), (HS k x Hk) as (G1 & G2 & G3).
    rewrite E1, E2, F1, F2, G1, G2, G3. auto.
  - intros k Hk. apply ext_spec; auto.
Qed.
Print Assumptions C21_all_routines.

Lemma poly_array_basis M nz N : proper M ->
  array_basis (poly_basis M nz) (fun k x => P M k x / norm_of M nz k) (fun k x => DP M k x / norm_of M nz k)
    (fun k x => D2P M k x / norm_of M nz k) N.
Proof.
  intros HM. split; [|split; [|split]].
  - intros n x out _ L. apply EvaluateAll_P; auto.
  - intros n x a b _ L1 L2. apply EvaluateDerivatives_P; auto.
  - intros n x a b c _ L1 L2 L3. apply EvaluateSecondDerivatives_P; auto.
  - intros k x _. split; apply is_derive_div_const; [apply P_derive|apply DP_derive]; auto.
Qed.

(** Unnormalised polynomials meet both hypotheses; normalised polynomials and Hermite
    functions meet the first one. *)
Example C21_bases : forall N,
  (exists v d d2, array_basis (poly_basis ProbabilistHermite false) v d d2 N /\ scalar_basis (poly_basis ProbabilistHermite false) v d d2 N) /\
  (exists v d d2, array_basis (poly_basis PhysicistHermite true) v d d2 N) /\
  (exists d d2, array_basis hermite_functions hbasis d d2 N).
Proof.
  intros N. split; [|split].
  - do 3 eexists. split; [apply poly_array_basis, proper_prob|].
    intros k x _. cbn. rewrite Evaluate_P, SecondDerivative_P. split; [auto|split; auto].
    destruct (Nat.eq_dec k 1) as [->|Hk]; [symmetry; apply Rdiv_1|]. now rewrite Derivative_P.
  - do 3 eexists. apply poly_array_basis, proper_phys.
  - exists dhbasis, d2hbasis. split; [|split; [|split]].
    + intros n x out _ L. apply hf_EvaluateAll_spec; auto.
    + intros n x a b _ L1 L2. apply hf_EvaluateDerivatives_spec; auto.
    + intros n x a b c _ L1 L2 L3. apply hf_EvaluateSecondDerivatives_spec; auto.
    + intros k x _. split; [apply hbasis_derive|apply dhbasis_derive].
Qed.

(** For the normalised polynomials MParT uses by default, Derivative(1,.) is wrong (C18), so
    outside the interval EvaluateAll and EvaluateDerivatives disagree on degree 1. *)
Theorem C21_normalised_values_disagree_refuted : forall lb ub x a0 a1 d0 d1, lb < ub -> x < lb ->
  exists p q v v' w w',
    lin_all (poly_basis ProbabilistHermite true) lb ub [a0; a1] 1 x = Ok [p; v] /\
    lin_derivs (poly_basis ProbabilistHermite true) lb ub [a0; a1] [d0; d1] 1 x = Ok ([q; v'], [w; w']) /\
    v <> v'.
Proof.
  intros lb ub x a0 a1 d0 d1 L Hx.
  pose (B := poly_basis ProbabilistHermite true).
  destruct (poly_array_basis ProbabilistHermite true 1 proper_prob) as (H1 & H2 & _ & _).
  pose (d := fun k x => b_deriv B k x).
  pose proof (lin_all_spec B _ d lb ub 1 H1 (fun k x _ => eq_refl) 1%nat x [a0; a1] ltac:(lia) ltac:(cbn; lia)) as E1.
  pose proof (lin_derivs_spec B _ _ lb ub 1 H2 1%nat x [a0; a1] [d0; d1] ltac:(lia) ltac:(cbn; lia) ltac:(cbn; lia)) as E2.
  unfold fill in E1, E2. cbn [seq map skipn app] in E1, E2.
  do 6 eexists. split; [exact E1|]. split; [exact E2|].
  unfold ext. rewrite Rltb_true by auto. unfold d, B. cbn [b_deriv poly_basis Derivative]. unfold DP, norm_of.
  set (s := Normalization ProbabilistHermite 1).
  cbn [phi1_deriv ProbabilistHermite].
  assert (S1 : 1 < s).
  { unfold s. cbn [Normalization ProbabilistHermite]. change (Factorial 1) with 1%Z. rewrite Rmult_1_r.
    pose proof PI_gt1. apply sqrt_gt1, sqrt_gt1. lra. }
  intros E. assert (E' : (1 - 1 / s) * (x - lb) = 0) by lra.
  apply Rmult_integral in E'. destruct E' as [E'|E']; [|lra].
  apply (div_gt1 1 s); lra.
Qed.
Print Assumptions C21_normalised_values_disagree_refuted.

(** ** C22 *)
Definition positive_bijector (f f' f'' finv : R -> R) : Prop :=
  (forall x, 0 < f x) /\
  (forall x y, x < y -> f x < f y) /\
  (forall x, is_derive f x (f' x)) /\
  (forall x, is_derive f' x (f'' x)) /\
  (forall x, finv (f x) = x) /\
  (forall y, 0 < y -> f (finv y) = y).

Theorem C22_softplus :
  positive_bijector SoftPlus_Evaluate SoftPlus_Derivative SoftPlus_SecondDerivative SoftPlus_Inverse.
Proof.
  repeat apply conj.
  - apply softplus_pos. - apply softplus_incr. - apply softplus_derive. - apply softplus_derive2.
  - apply softplus_inv_l. - apply softplus_inv_r.
Qed.
Print Assumptions C22_softplus.

(** SoftPlus is log(1+exp x). *)
Theorem C22_softplus_formula : forall x, SoftPlus_Evaluate x = ln (1 + exp x).
Proof. exact softplus_eq. Qed.
Print Assumptions C22_softplus_formula.

Theorem C22_exp : positive_bijector Exp_Evaluate Exp_Derivative Exp_SecondDerivative Exp_Inverse.
Proof.
  repeat apply conj.
  - apply exp_pos. - apply exp_increasing.
  - intros x. unfold Exp_Evaluate, Exp_Derivative. auto_derive; auto. ring.
  - intros x. unfold Exp_SecondDerivative, Exp_Derivative. auto_derive; auto. ring.
  - apply ln_exp. - apply exp_ln.
Qed.
Print Assumptions C22_exp.

Example C22_example : SoftPlus_Evaluate 0 = ln 2 /\ SoftPlus_Inverse (ln 2) = 0 /\ SoftPlus_Derivative 0 = 1/2.
Proof.
  assert (E : SoftPlus_Evaluate 0 = ln 2) by (rewrite softplus_eq, exp_0; f_equal; ring).
  split; auto. split.
  - rewrite <- E. apply softplus_inv_l.
  - unfold SoftPlus_Derivative. rewrite Rmult_0_r, exp_0. field.
Qed.

(** ** C23 *)
Theorem C23_logistic :
  (forall x, 0 < Logistic_Evaluate x < 1) /\
  (forall x y, x < y -> Logistic_Evaluate x < Logistic_Evaluate y) /\
  (forall x, Logistic_Inverse (Logistic_Evaluate x) = x) /\
  (forall y, 0 < y < 1 -> Logistic_Evaluate (Logistic_Inverse y) = y) /\
  (forall x, is_derive Logistic_Evaluate x (Logistic_Derivative x)) /\
  (forall x, Logistic_Evaluate (- x) = 1 - Logistic_Evaluate x).
Proof.
  repeat apply conj.
  - apply logistic_range. - apply logistic_incr. - apply logistic_inv_l. - apply logistic_inv_r.
  - apply logistic_derive. - apply logistic_sym.
Qed.
Print Assumptions C23_logistic.

Example C23_example : Logistic_Evaluate 0 = 1/2 /\ Logistic_Derivative 0 = 1/4.
Proof. unfold Logistic_Derivative. rewrite logistic_eq, exp_0. split; field. Qed.

(** ** C56 *)

(** Evaluate is the stated sigmoid expansion at every point. *)
Theorem C56_evaluate : forall s pts, sg_wf s -> sg_Evaluate s pts = Ok (map (sg_fun s) pts).
Proof.
  intros s pts W. rewrite sg_Evaluate_spec by auto. f_equal.
  rewrite <- (map_map (fun j => nth j pts 0) (sg_fun s)). now rewrite map_nth_seq.
Qed.
Print Assumptions C56_evaluate.

(** Gradient(pts,sens) should be the derivative at pts times sens. It is not, already for one
    centre, one point and one sensitivity. *)
Theorem C56_gradient_refuted : exists s pts sens d, sg_wf s /\
  is_derive (sg_fun s) (nth 0 pts 0) d /\ length pts = 1%nat /\ length sens = 1%nat /\
  sg_Gradient s pts sens <> Ok [d * nth 0 sens 0].
Proof.
  exists (MkSig [0] [1] [1]), [0], [2], (1/4). split; [split; auto|]. split; [|split; [auto|split; auto]].
  - cbn [nth]. replace (1/4) with (sg_der (MkSig [0] [1] [1]) 0). { apply sg_derive. }
    unfold sg_der, sg_at. cbn. replace (1 * (0 - 0)) with 0 by ring. unfold Logistic_Derivative. rewrite logistic_eq, exp_0. field.
  - unfold sg_Gradient. rewrite sg_GradientImpl_spec by (auto; split; auto). cbn. intros E. inversion E as [E']. lra.
Qed.
Print Assumptions C56_gradient_refuted.

(** What the call returns for every input: points and sensitivities are exchanged. *)
Theorem C56_gradient_exchanged_refuted : forall s pts sens, sg_wf s -> length sens = length pts ->
  sg_Gradient s pts sens = Ok (map (fun j => nth j pts 0 * sg_der s (nth j sens 0)) (seq 0 (length sens))).
Proof. intros s pts sens W L. unfold sg_Gradient. apply sg_GradientImpl_spec; auto. now rewrite repeat_length. Qed.
Print Assumptions C56_gradient_exchanged_refuted.

(** Called with its arguments exchanged, as the unit tests do, Gradient is the derivative of
    Evaluate times the sensitivity and CoeffGrad row i is the derivative with respect to
    coefficient i times the sensitivity. Missing: the documented argument order. *)
Theorem C56_exchanged_call_partial : forall s pts sens, sg_wf s -> length sens = length pts ->
  exists d : R -> R, (forall x, is_derive (sg_fun s) x (d x)) /\
    sg_Gradient s sens pts = Ok (map (fun j => nth j sens 0 * d (nth j pts 0)) (seq 0 (length pts))) /\
    forall i, (i < sg_numCoeffs s)%nat -> exists g : R -> R,
      sg_CoeffGrad s sens pts i = Ok (map (fun j => nth j sens 0 * g (nth j pts 0)) (seq 0 (length pts))) /\
      forall x a, sg_fun (MkSig (sg_centers s) (sg_widths s) (upd (sg_coeffs s) i (nth i (sg_coeffs s) 0 + a))) x =
                  sg_fun s x + a * g x.
Proof.
  intros s pts sens W L. exists (sg_der s). split; [apply sg_derive|]. split.
  - unfold sg_Gradient. apply sg_GradientImpl_spec; auto. now rewrite repeat_length.
  - intros i Hi. exists (fun x => Logistic_Evaluate (sg_at (sg_widths s) i * (x - sg_at (sg_centers s) i))). split.
    + unfold sg_CoeffGrad. apply sg_CoeffGradRow_spec; auto. now rewrite repeat_length.
    + intros x a. unfold sg_fun, sg_numCoeffs in *. cbn [sg_centers sg_widths sg_coeffs].
      destruct W as [W1 W2]. apply rsum_change with (i := i); auto.
      * unfold sg_at. rewrite nth_upd_eq by lia. ring.
      * intros j Hj. unfold sg_at. rewrite nth_upd_neq by lia; reflexivity.
Qed.
Print Assumptions C56_exchanged_call_partial.
