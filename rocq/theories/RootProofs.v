(** Proofs about bracketing and the ITP iteration. *)
From Coq Require Import Reals ZArith Lra Psatz.
From Coquelicot Require Import Coquelicot.
From Verif Require Import Base SpecRoot PolyModel QuadWalk RootModel.
Local Open Scope R_scope.

(** ** FindBracket *)

Definition flat_somewhere (f : R -> R) : Prop := exists a b, 10 < b - a /\ Rabs ((f b - f a) / (b - a)) < / 10 ^ 12.

Lemma flat_test_true b : flat_test b = true -> Rabs ((b_yub b - b_ylb b) / (b_xub b - b_xlb b)) < / 10 ^ 12 /\ 10 < b_xub b - b_xlb b.
Proof.
  unfold flat_test. destruct (Rltb_spec (Rabs ((b_yub b - b_ylb b) / (b_xub b - b_xlb b))) (/ 10 ^ 12)), (Rltb_spec 10 (b_xub b - b_xlb b));
    cbn; intros H; try discriminate; auto.
Qed.

Lemma lower_loop_ok f yd n : forall step b b' info, 0 < step -> b_yub b = f (b_xub b) -> yd < b_yub b ->
  lower_loop f yd n step b = (b', info) ->
  (info = 0%Z /\ b_ylb b' = f (b_xlb b') /\ b_yub b' = f (b_xub b') /\ b_xlb b' < b_xub b' /\ b_ylb b' <= yd < b_yub b' /\
     b_xub b' <= b_xub b /\ 2 * (b_xub b' - b_xlb b') <= step * 2 ^ n)
  \/ (info = (-1)%Z /\ flat_somewhere f)
  \/ (info = (-2)%Z /\ yd < f (b_xub b - step * (2 ^ n - 1))).
Proof.
  induction n as [|n IH]; intros step b b' info Hs Hy Hd E; cbn [lower_loop] in E.
  - injection E as <- <-. right; right. split; auto. replace (b_xub b - step * (2 ^ 0 - 1)) with (b_xub b) by (cbn; ring). rewrite <- Hy. auto.
  - set (x := b_xub b - step) in *. cbn [b_ylb b_xlb] in E.
    destruct (flat_test (MkBr x (f x) (b_xub b) (b_yub b))) eqn:EF.
    + injection E as <- <-. right; left. split; auto. apply flat_test_true in EF. cbn in EF. exists x, (b_xub b). rewrite <- Hy. tauto.
    + destruct (Rltb_spec yd (f x)) as [HL|HL].
      * apply IH in E; cbn [b_yub b_xub] in *; auto; [|lra].
        destruct E as [(A & B & C & D & F & G & H)|[E|[A B]]]; [left|tauto|right; right].
        -- split; [auto|]. split; [auto|]. split; [auto|]. split; [auto|]. split; [auto|]. split; [unfold x in G; lra|cbn [pow]; lra].
        -- split; auto. replace (b_xub b - step * (2 ^ S n - 1)) with (x - step * 2 * (2 ^ n - 1)) by (unfold x; cbn [pow]; ring). auto.
      * injection E as <- <-. left. cbn. split; [auto|]. split; [auto|]. split; [auto|]. split; [unfold x; lra|]. split; [lra|]. split; [lra|].
        replace (b_xub b - x) with step by (unfold x; ring). pose proof (pow_R1_Rle 2 n ltac:(lra)). nra.
Qed.

Lemma upper_loop_ok f yd n : forall step b b' info, 0 < step -> b_ylb b = f (b_xlb b) -> b_ylb b <= yd ->
  upper_loop f yd n step b = (b', info) ->
  (info = 0%Z /\ b_ylb b' = f (b_xlb b') /\ b_yub b' = f (b_xub b') /\ b_xlb b' < b_xub b' /\ b_ylb b' <= yd <= b_yub b' /\
     b_xlb b <= b_xlb b' /\ 2 * (b_xub b' - b_xlb b') <= step * 2 ^ n)
  \/ (info = (-1)%Z /\ flat_somewhere f)
  \/ (info = (-2)%Z /\ (b_ylb b < yd -> f (b_xlb b + step * (2 ^ n - 1)) < yd) /\ ((0 < n)%nat -> f (b_xlb b + step * (2 ^ n - 1)) < yd)).
Proof.
  induction n as [|n IH]; intros step b b' info Hs Hy Hd E; cbn [upper_loop] in E.
  - injection E as <- <-. right; right. split; auto. replace (b_xlb b + step * (2 ^ 0 - 1)) with (b_xlb b) by (cbn; ring). rewrite <- Hy. split; [auto|lia].
  - set (x := b_xlb b + step) in *. cbn [b_ylb b_xlb b_xub b_yub] in E.
    destruct (flat_test (MkBr (b_xlb b) (b_ylb b) x (f x))) eqn:EF.
    + injection E as <- <-. right; left. split; auto. apply flat_test_true in EF. cbn in EF. exists (b_xlb b), x. rewrite <- Hy. tauto.
    + destruct (Rltb_spec (f x) yd) as [HL|HL].
      * apply IH in E; cbn [b_ylb b_xlb] in *; auto; [|lra|lra].
        destruct E as [(A & B & C & D & F & G & H)|[E|[A [B _]]]]; [left|tauto|right; right].
        -- split; [auto|]. split; [auto|]. split; [auto|]. split; [auto|]. split; [auto|]. split; [unfold x in G; lra|cbn [pow]; lra].
        -- assert (f (b_xlb b + step * (2 ^ S n - 1)) < yd); [|split; auto].
           replace (b_xlb b + step * (2 ^ S n - 1)) with (x + step * 2 * (2 ^ n - 1)) by (unfold x; cbn [pow]; ring). auto.
      * injection E as <- <-. left. cbn. split; [auto|]. split; [auto|]. split; [auto|]. split; [unfold x; lra|]. split; [lra|]. split; [lra|].
        replace (x - b_xlb b) with step by (unfold x; ring). pose proof (pow_R1_Rle 2 n ltac:(lra)). nra.
Qed.

Lemma find_bracket_ok f x0 x1 yd b info : FindBracket f x0 x1 yd = (b, info) ->
  (info = 0%Z /\ b_ylb b = f (b_xlb b) /\ b_yub b = f (b_xub b) /\ b_xlb b < b_xub b /\ b_ylb b <= yd <= b_yub b /\
     (b_xub b <= x0 \/ x0 <= b_xlb b) /\ 2 * (b_xub b - b_xlb b) <= 2 ^ 128)
  \/ (info = (-1)%Z /\ flat_somewhere f)
  \/ (info = (-2)%Z /\ (yd < f (x0 - (2 ^ 128 - 1)) \/ f (x0 + (2 ^ 128 - 1)) < yd)).
Proof.
  unfold FindBracket. destruct (Rltb_spec yd (f x0)) as [H|H]; intros E.
  - apply lower_loop_ok in E; auto; [|lra]. change bracket_its with 128%nat in E. rewrite !Rmult_1_l in E. cbn [b_xub b_yub] in E.
    destruct E as [(A & B & C & D & F & G & I)|[E|E]]; [left|right; left; auto|right; right; tauto]. repeat (split; auto); tauto || lra.
  - apply upper_loop_ok in E; cbn; auto; [|lra|lra]. change bracket_its with 128%nat in E. rewrite !Rmult_1_l in E. cbn [b_xlb b_ylb] in E.
    destruct E as [(A & B & C & D & F & G & I)|[E|(E & _ & E2)]]; [left|right; left; auto|right; right].
    + repeat (split; auto); tauto || lra.
    + split; auto. right. apply E2. lia.
Qed.

(** ** The ITP point *)

Lemma itp_point b k1 k2 nhalf n0 it xtol : 0 <= k1 ->
  let A := xtol * Rpower 2 (nhalf + n0 - INR it) in b_xub b - b_xlb b <= 2 * A ->
  b_xub b - A <= Find_x_ITP b k1 k2 nhalf n0 it xtol <= b_xlb b + A.
Proof.
  intros Hk A HA. unfold Find_x_ITP. fold A.
  set (w := b_xub b - b_xlb b) in *. set (xb := 1 / 2 * (b_xub b + b_xlb b)).
  set (xf := (b_xub b * b_ylb b - b_xlb b * b_yub b) / (b_ylb b - b_yub b)).
  set (sigma := if Rltb 0 (xb - xf) then 1 else -1). set (delta := Rmin (k1 * Rpower w k2) (Rabs (xb - xf))).
  assert (S : sigma = 1 \/ sigma = -1) by (unfold sigma; destruct (Rltb 0 (xb - xf)); auto).
  set (rho := Rmin (A - 1 / 2 * w) (Rabs (xf + delta * sigma - xb))).
  assert (R1 : 0 <= rho) by (apply Rmin_glb; [lra|apply Rabs_pos]).
  assert (R2 : rho <= A - 1 / 2 * w) by apply Rmin_l.
  unfold xb, w in *. destruct S as [-> | ->]; lra.
Qed.

(** ** The iteration *)

Definition brackets (f : R -> R) (yd : R) (b : bracket) : Prop :=
  b_ylb b = f (b_xlb b) /\ b_yub b = f (b_xub b) /\ b_xlb b < b_xub b /\ b_ylb b <= yd <= b_yub b.

Lemma nondecreasing_lt f a b : nondecreasing f -> f a < f b -> a < b.
Proof. intros H L. destruct (Rlt_le_dec a b) as [|C]; auto. specialize (H b a C). lra. Qed.

Section Iteration.
Context (f : R -> R) (yd xtol ftol nhalf : R).
Context (Hf : nondecreasing f) (Hx : 0 < xtol) (Hft : 0 < ftol).

Definition width_le (b : bracket) (it : nat) : Prop := b_xub b - b_xlb b <= xtol * Rpower 2 (nhalf + 2 - INR it).

Lemma Rpower2_S e : Rpower 2 (e + 1) = 2 * Rpower 2 e.
Proof. rewrite Rpower_plus, Rpower_1 by lra. ring. Qed.
Lemma Rpower2_pos e : 0 < Rpower 2 e.
Proof. apply exp_pos. Qed.

Lemma itp_step it b : brackets f yd b -> width_le b it ->
  let xc := Find_x_ITP b (1/10) 2 nhalf 1 it xtol in
  ~ Rabs (f xc - yd) < ftol ->
  let b' := if Rltb yd (f xc) then MkBr (b_xlb b) (b_ylb b) xc (f xc) else MkBr xc (f xc) (b_xub b) (b_yub b) in
  brackets f yd b' /\ width_le b' (S it).
Proof.
  intros (E1 & E2 & Hw & Hy) W xc Hn.
  assert (P : b_xub b - b_xlb b <= 2 * (xtol * Rpower 2 (nhalf + 1 - INR it))).
  { unfold width_le in W. replace (nhalf + 2 - INR it) with (nhalf + 1 - INR it + 1) in W by ring. rewrite Rpower2_S in W. lra. }
  pose proof (itp_point b (1/10) 2 nhalf 1 it xtol ltac:(lra) P) as Q. cbv zeta in Q. fold xc in Q.
  assert (WS : xtol * Rpower 2 (nhalf + 2 - INR (S it)) = xtol * Rpower 2 (nhalf + 1 - INR it)) by (rewrite S_INR; do 2 f_equal; ring).
  destruct (Rltb_spec yd (f xc)) as [H|H]; unfold brackets, width_le; cbn [b_xlb b_ylb b_xub b_yub]; rewrite WS.
  - split; [|lra]. split; auto. split; auto. split; [|lra]. apply (nondecreasing_lt f); auto. lra.
  - assert (f xc < yd). { destruct (Req_dec (f xc) yd) as [E|E]; [|lra]. exfalso. apply Hn. rewrite E. replace (yd - yd) with 0 by ring. rewrite Rabs_R0. auto. }
    split; [|lra]. split; auto. split; auto. split; [|lra]. apply (nondecreasing_lt f); auto. lra.
Qed.

(** Whatever the number of iterations, the loop ends with a bracket of the stated width. *)
Lemma itp_loop_kept n : forall it b, brackets f yd b -> width_le b it ->
  match itp_loop f yd xtol ftol nhalf n it b with
  | Returned xc it' => Rabs (f xc - yd) < ftol /\ (it <= it' < it + n)%nat
  | Left b' it' => brackets f yd b' /\ (it <= it' <= it + n)%nat
  end.
Proof.
  induction n as [|n IH]; intros it b B W; cbn [itp_loop]; [split; auto; lia|].
  destruct (Rltb_spec (Rabs (f (Find_x_ITP b (1 / 10) 2 nhalf 1 it xtol) - yd)) ftol) as [H|H]; [split; auto; lia|].
  destruct (itp_step it b B W H) as [B' W'].
  match goal with |- context [if (?p || ?q)%bool then _ else _] => destruct (p || q)%bool end; [split; auto; lia|].
  specialize (IH (S it) _ B' W'). destruct (itp_loop _ _ _ _ _ _ _ _); destruct IH; split; auto; lia.
Qed.

Lemma itp_loop_converges n : forall it b, brackets f yd b -> width_le b it -> ((1 <= it)%nat -> xtol <= b_xub b - b_xlb b) ->
  (1 <= it + n)%nat -> nhalf + 2 < INR (it + n) ->
  match itp_loop f yd xtol ftol nhalf n it b with
  | Returned xc it' => Rabs (f xc - yd) < ftol /\ (it' = 0%nat \/ INR it' <= nhalf + 2)
  | Left b' it' => brackets f yd b' /\ (it' = 0%nat \/ INR it' <= nhalf + 2) /\ (it' < it + n)%nat /\
      (b_xub b' - b_xlb b' < xtol \/ b_yub b' - b_ylb b' < ftol)
  end.
Proof.
  induction n as [|n IH]; intros it b B W NC L1 L2.
  - exfalso. rewrite Nat.add_0_r in *. specialize (NC L1). unfold width_le in W.
    assert (Rpower 2 (nhalf + 2 - INR it) < 1).
    { rewrite <- (Rpower_O 2) by lra. apply Rpower_lt; lra. }
    nra.
  - assert (IT : it = 0%nat \/ INR it <= nhalf + 2).
    { destruct it as [|i]; auto. right. specialize (NC ltac:(lia)). unfold width_le in W.
      destruct (Rle_lt_dec (INR (S i)) (nhalf + 2)) as [|C]; auto. exfalso.
      assert (Rpower 2 (nhalf + 2 - INR (S i)) < 1) by (rewrite <- (Rpower_O 2) by lra; apply Rpower_lt; lra). nra. }
    cbn [itp_loop].
    destruct (Rltb_spec (Rabs (f (Find_x_ITP b (1 / 10) 2 nhalf 1 it xtol) - yd)) ftol) as [H|H]; [split; auto|].
    destruct (itp_step it b B W H) as [B' W']. set (b1 := if Rltb yd _ then _ else _) in *.
    destruct (Rltb_spec (b_xub b1 - b_xlb b1) xtol) as [X|X]; cbn [orb]; [split; auto; split; auto; split; [lia|auto]|].
    destruct (Rltb_spec (b_yub b1 - b_ylb b1) ftol) as [Y|Y]; cbn [orb]; [split; auto; split; auto; split; [lia|auto]|].
    specialize (IH (S it) b1 B' W' ltac:(intros; lra) ltac:(lia)). replace (S it + n)%nat with (it + S n)%nat in IH by lia. apply IH. auto.
Qed.
End Iteration.

Lemma ceiling_ge x : x <= ceiling x < x + 1.
Proof. unfold ceiling. pose proof (base_Int_part (- x)) as [A B]. lra. Qed.

Lemma ln2_pos : 0 < ln 2.
Proof. rewrite <- ln_1. apply ln_increasing; lra. Qed.

Lemma Rpower2_log x : 0 < x -> Rpower 2 (log_2 x) = x.
Proof. intros H. unfold Rpower, log_2. pose proof ln2_pos. replace (ln x / ln 2 * ln 2) with (ln x) by (field; lra). apply exp_ln. auto. Qed.

Lemma nhalf_width b xtol : 0 < xtol -> b_xlb b < b_xub b -> b_xub b - b_xlb b <= xtol * Rpower 2 (itp_nhalf b xtol + 2 - INR 0).
Proof.
  intros Hx Hw. unfold itp_nhalf. set (z := 1 / 2 * (b_xub b - b_xlb b) / xtol).
  assert (Hz : 0 < z) by (unfold z; apply Rdiv_lt_0_compat; lra).
  pose proof (ceiling_ge (log_2 z)) as [C _]. cbn [INR].
  replace (ceiling (log_2 z) + 2 - 0) with (ceiling (log_2 z) + 1 + 1) by ring. rewrite !Rpower2_S.
  assert (z <= Rpower 2 (ceiling (log_2 z))). { rewrite <- (Rpower2_log z Hz) at 1. apply Rle_Rpower; lra. }
  assert (b_xub b - b_xlb b = 2 * (xtol * z)) by (unfold z; field; lra). pose proof (Rpower2_pos (ceiling (log_2 z))). nra.
Qed.

Lemma log_2_le x e : 0 < x -> x <= Rpower 2 e -> log_2 x <= e.
Proof.
  intros H L. unfold log_2. pose proof ln2_pos. apply Rmult_le_reg_r with (ln 2); auto.
  replace (ln x / ln 2 * ln 2) with (ln x) by (field; lra).
  replace (e * ln 2) with (ln (Rpower 2 e)) by (unfold Rpower; apply ln_exp).
  destruct L as [L | ->]; [left; apply ln_increasing; auto|lra].
Qed.
