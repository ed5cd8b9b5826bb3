(** Proofs about the positive bijectors and the logistic sigmoid. *)
From Coq Require Import Reals Lra.
From Coquelicot Require Import Coquelicot.
From Verif Require Import Base BijModel SpecPoly SpecExpansion PolyProofs.
Local Open Scope R_scope.

Lemma softplus_eq x : SoftPlus_Evaluate x = ln (1 + exp x).
Proof.
  unfold SoftPlus_Evaluate, fmax. pose proof (exp_pos x) as E. pose proof (exp_pos (-1 * x)) as E'.
  destruct (Rle_lt_dec 0 x).
  - rewrite Rabs_pos_eq, Rmax_left by lra. rewrite <- (ln_exp x) at 2.
    rewrite <- ln_mult by lra. f_equal. rewrite Rmult_plus_distr_r, <- exp_plus.
    replace (-1 * x + x) with 0 by ring. rewrite exp_0. ring.
  - rewrite Rabs_left, Rmax_right by lra. replace (-1 * - x) with x by ring. ring.
Qed.

Lemma softplus_pos x : 0 < SoftPlus_Evaluate x.
Proof. rewrite softplus_eq. rewrite <- ln_1. apply ln_increasing; pose proof (exp_pos x); lra. Qed.

Lemma softplus_incr x y : x < y -> SoftPlus_Evaluate x < SoftPlus_Evaluate y.
Proof. intros H. rewrite !softplus_eq. apply ln_increasing; pose proof (exp_pos x); pose proof (exp_increasing _ _ H); lra. Qed.

Lemma softplus_derive x : is_derive SoftPlus_Evaluate x (SoftPlus_Derivative x).
Proof.
  apply (is_derive_ext (fun t => ln (1 + exp t))). { intros t. symmetry. apply softplus_eq. }
  unfold SoftPlus_Derivative. replace (-1 * x) with (- x) by ring. rewrite exp_Ropp. pose proof (exp_pos x).
  auto_derive; [lra|]. field. lra.
Qed.

Lemma softplus_derive2 x : is_derive SoftPlus_Derivative x (SoftPlus_SecondDerivative x).
Proof.
  unfold SoftPlus_Derivative, SoftPlus_SecondDerivative. pose proof (exp_pos (-1 * x)).
  auto_derive; [lra|]. replace (-1 * x) with (- x) by ring. rewrite exp_Ropp. pose proof (exp_pos x).
  field. split; [lra|]. nra.
Qed.

Lemma softplus_inv_l x : SoftPlus_Inverse (SoftPlus_Evaluate x) = x.
Proof.
  unfold SoftPlus_Inverse, fmin. rewrite softplus_eq. pose proof (exp_pos x). rewrite exp_ln by lra.
  replace (1 + exp x - 1) with (exp x) by ring. rewrite ln_exp. apply Rmin_left. rewrite <- (ln_exp x) at 1.
  left. apply ln_increasing; lra.
Qed.

Lemma softplus_inv_r y : 0 < y -> SoftPlus_Evaluate (SoftPlus_Inverse y) = y.
Proof.
  intros H. assert (E : 0 < exp y - 1). { pose proof (exp_increasing 0 y H) as A. rewrite exp_0 in A. lra. }
  unfold SoftPlus_Inverse, fmin. rewrite Rmin_left.
  - rewrite softplus_eq, exp_ln by auto. replace (1 + (exp y - 1)) with (exp y) by ring. apply ln_exp.
  - rewrite <- (ln_exp y) at 2. left. apply ln_increasing; lra.
Qed.

(** tanh(x/2) in terms of exp x. *)
Lemma logistic_eq x : Logistic_Evaluate x = exp x / (1 + exp x).
Proof.
  unfold Logistic_Evaluate, tanh, sinh, cosh.
  assert (E : exp x = exp (x / 2) * exp (x / 2)) by (rewrite <- exp_plus; f_equal; field).
  rewrite E, exp_Ropp. pose proof (exp_pos (x / 2)). field. repeat split; nra.
Qed.

Lemma logistic_range x : 0 < Logistic_Evaluate x < 1.
Proof.
  rewrite logistic_eq. pose proof (exp_pos x). split.
  - apply Rdiv_lt_0_compat; lra.
  - apply Rmult_lt_reg_r with (1 + exp x); [lra|]. unfold Rdiv. rewrite Rmult_assoc, Rinv_l by lra. lra.
Qed.

Lemma logistic_derive x : is_derive Logistic_Evaluate x (Logistic_Derivative x).
Proof.
  apply (is_derive_ext (fun t => exp t / (1 + exp t))). { intros t. symmetry. apply logistic_eq. }
  unfold Logistic_Derivative. cbv zeta. rewrite logistic_eq. pose proof (exp_pos x). auto_derive; [lra|].
  field. lra.
Qed.

Lemma logistic_incr x y : x < y -> Logistic_Evaluate x < Logistic_Evaluate y.
Proof.
  intros H. rewrite !logistic_eq. pose proof (exp_pos x). pose proof (exp_pos y). pose proof (exp_increasing _ _ H).
  apply Rmult_lt_reg_r with ((1 + exp x) * (1 + exp y)); [nra|].
  replace (exp x / (1 + exp x) * ((1 + exp x) * (1 + exp y))) with (exp x * (1 + exp y)) by (field; lra).
  replace (exp y / (1 + exp y) * ((1 + exp x) * (1 + exp y))) with (exp y * (1 + exp x)) by (field; lra).
  nra.
Qed.

Lemma logistic_inv_l x : Logistic_Inverse (Logistic_Evaluate x) = x.
Proof.
  unfold Logistic_Inverse. pose proof (logistic_range x). destruct (Rgt_dec _ _); [lra|].
  rewrite logistic_eq. pose proof (exp_pos x).
  replace (exp x / (1 + exp x) / (1 - exp x / (1 + exp x))) with (exp x). { apply ln_exp. }
  field. split; lra.
Qed.

Lemma logistic_inv_r y : 0 < y < 1 -> Logistic_Evaluate (Logistic_Inverse y) = y.
Proof.
  intros H. unfold Logistic_Inverse. destruct (Rgt_dec _ _); [lra|].
  rewrite logistic_eq, exp_ln.
  - field. lra.
  - apply Rdiv_lt_0_compat; lra.
Qed.

Lemma logistic_sym x : Logistic_Evaluate (- x) = 1 - Logistic_Evaluate x.
Proof. rewrite !logistic_eq, exp_Ropp. pose proof (exp_pos x). field. lra. Qed.

(** ** Sigmoid1d *)

Lemma ofold_sum (f : nat -> R) (body : R -> nat -> outcome R) n :
  (forall acc i, (i < n)%nat -> body acc i = Ok (acc + f i)) -> ofold body (seq 0 n) 0 = Ok (rsum f n).
Proof.
  intros H. change 0 with (rsum f 0). rewrite (ofold_seq _ (rsum f)); [reflexivity|].
  intros o Ho. rewrite H by lia. replace (o + 1)%nat with (S o) by lia. reflexivity.
Qed.

Lemma rsum_ext f g n : (forall i, (i < n)%nat -> f i = g i) -> rsum f n = rsum g n.
Proof. intros H. induction n as [|n IH]; cbn [rsum]; auto. rewrite IH, H; auto. Qed.

Lemma rsum_change f g n i c : (i < n)%nat -> g i = f i + c -> (forall j, j <> i -> g j = f j) -> rsum g n = rsum f n + c.
Proof.
  intros Hi E H. induction n as [|n IH]; [lia|]. cbn [rsum]. destruct (Nat.eq_dec i n) as [->|Hn].
  - rewrite E, (rsum_ext g f) by (intros; apply H; lia). ring.
  - rewrite IH by lia. rewrite (H n) by auto. ring.
Qed.

(** A loop writing g j to every position of a buffer of n entries. *)
Lemma ofold_write (g : nat -> R) (body : list R -> nat -> outcome (list R)) n (out : list R) : length out = n ->
  (forall o j, (j < n)%nat -> body o j = raw_set o j (g j)) -> ofold body (seq 0 n) out = Ok (map g (seq 0 n)).
Proof.
  intros L H. rewrite <- (fill_0 g out).
  rewrite (ofold_seq _ (fun k => fill g k out)).
  - cbn [Nat.add]. unfold fill. rewrite skipn_all2 by lia. now rewrite app_nil_r.
  - intros o Ho. rewrite H by lia. rewrite fill_set by (auto; lia). do 2 f_equal. lia.
Qed.

Lemma map_nth_seq {A} (l : list A) d : map (fun j => nth j l d) (seq 0 (length l)) = l.
Proof. induction l as [|h t IH]; cbn; auto. f_equal. rewrite <- seq_shift, map_map. exact IH. Qed.

Definition sg_wf (s : sigmoid1d) : Prop :=
  length (sg_centers s) = length (sg_widths s) /\ length (sg_coeffs s) = length (sg_widths s).

(** The function a Sigmoid1d stands for and its partial derivatives. *)
Definition sg_at (l : list R) (i : nat) := nth i l 0.
Definition sg_fun (s : sigmoid1d) (x : R) : R :=
  rsum (fun i => sg_at (sg_coeffs s) i * Logistic_Evaluate (sg_at (sg_widths s) i * (x - sg_at (sg_centers s) i))) (sg_numCoeffs s).
Definition sg_der (s : sigmoid1d) (x : R) : R :=
  rsum (fun i => sg_at (sg_coeffs s) i * sg_at (sg_widths s) i * Logistic_Derivative (sg_at (sg_widths s) i * (x - sg_at (sg_centers s) i)))
    (sg_numCoeffs s).

Lemma sg_arg_ok s p i : sg_wf s -> (i < sg_numCoeffs s)%nat ->
  sg_arg s p i = Ok (sg_at (sg_widths s) i * (p - sg_at (sg_centers s) i)).
Proof.
  intros [H1 H2] Hi. unfold sg_numCoeffs in Hi. unfold sg_arg.
  rewrite !raw_get_ok with (d := 0) by lia. reflexivity.
Qed.

Lemma sg_Evaluate_spec s pts : sg_wf s -> sg_Evaluate s pts = Ok (map (fun j => sg_fun s (nth j pts 0)) (seq 0 (length pts))).
Proof.
  intros W. unfold sg_Evaluate, sg_EvaluateImpl. apply ofold_write; [apply repeat_length|].
  intros o j Hj. erewrite ofold_sum; [reflexivity|]. intros acc i Hi. destruct W as [W1 W2]. unfold sg_numCoeffs in Hi.
  rewrite (raw_get_ok pts j 0) by lia. cbn [obind]. rewrite (raw_get_ok (sg_coeffs s) i 0) by lia. cbn [obind].
  rewrite sg_arg_ok by (split || auto; auto). reflexivity.
Qed.

Lemma sg_GradientImpl_spec s sens pts out : sg_wf s -> length sens = length pts -> length out = length pts ->
  sg_GradientImpl s sens pts out = Ok (map (fun j => nth j sens 0 * sg_der s (nth j pts 0)) (seq 0 (length pts))).
Proof.
  intros W L L'. unfold sg_GradientImpl. apply ofold_write; auto.
  intros o j Hj. erewrite ofold_sum.
  - cbn [obind]. rewrite (raw_get_ok sens j 0) by lia. cbn [obind]. reflexivity.
  - intros acc i Hi. destruct W as [W1 W2]. unfold sg_numCoeffs in Hi.
    rewrite (raw_get_ok pts j 0) by lia. cbn [obind]. rewrite (raw_get_ok (sg_coeffs s) i 0) by lia. cbn [obind].
    rewrite (raw_get_ok (sg_widths s) i 0) by lia. cbn [obind].
    rewrite sg_arg_ok by (split || auto; auto). reflexivity.
Qed.

Lemma sg_CoeffGradRow_spec s sens pts i out : sg_wf s -> length sens = length pts -> length out = length pts -> (i < sg_numCoeffs s)%nat ->
  sg_CoeffGradRow s sens pts i out =
  Ok (map (fun j => nth j sens 0 * Logistic_Evaluate (sg_at (sg_widths s) i * (nth j pts 0 - sg_at (sg_centers s) i))) (seq 0 (length pts))).
Proof.
  intros W L L' Hi. unfold sg_CoeffGradRow. rewrite L. apply ofold_write; auto.
  intros o j Hj. rewrite (raw_get_ok sens j 0) by lia. cbn [obind]. rewrite (raw_get_ok pts j 0) by lia. cbn [obind].
  rewrite sg_arg_ok by auto. reflexivity.
Qed.

Lemma rsum_derive (f f' : nat -> R -> R) n x : (forall i, is_derive (f i) x (f' i x)) ->
  is_derive (fun t => rsum (fun i => f i t) n) x (rsum (fun i => f' i x) n).
Proof.
  intros H. induction n as [|n IH]; cbn [rsum].
  - apply (is_derive_const 0 x).
  - apply (is_derive_plus (fun t => rsum (fun i => f i t) n) (f n)); auto.
Qed.

Lemma sg_derive s x : is_derive (sg_fun s) x (sg_der s x).
Proof.
  unfold sg_fun, sg_der.
  apply (rsum_derive (fun i t => sg_at (sg_coeffs s) i * Logistic_Evaluate (sg_at (sg_widths s) i * (t - sg_at (sg_centers s) i)))
     (fun i t => sg_at (sg_coeffs s) i * sg_at (sg_widths s) i * Logistic_Derivative (sg_at (sg_widths s) i * (t - sg_at (sg_centers s) i)))).
  intros i. set (a := sg_at _ i). set (w := sg_at _ i). set (c := sg_at _ i).
  pose proof (logistic_derive (w * (x - c))) as H.
  auto_derive.
  - exists (Logistic_Derivative (w * (x - c))). exact H.
  - unfold Rminus in *. rewrite (is_derive_unique (fun x : R => Logistic_Evaluate x) _ _ H). ring.
Qed.
