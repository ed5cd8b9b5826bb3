(** Theorems C30, C31, C61: bracketing and the bracketed inverse. [f] is any real function. *)
From Coq Require Import Reals ZArith Lra Psatz.
From Coquelicot Require Import Coquelicot.
From Verif Require Import Base SpecRoot PolyModel QuadWalk RootModel RootProofs.
Local Open Scope R_scope.

(** ** C30 *)

(** FindBracket is a total function; its report is one of three codes. On success the
    bracket encloses the target; the two failures mean what they say. *)
Theorem C30_find_bracket : forall (f : R -> R) (x0 x1 y : R) (b : bracket) (info : Z),
  FindBracket f x0 x1 y = (b, info) ->
  (info = 0%Z \/ info = (-1)%Z \/ info = (-2)%Z) /\
  (info = 0%Z -> b_xlb b < b_xub b /\ f (b_xlb b) <= y <= f (b_xub b) /\
     b_ylb b = f (b_xlb b) /\ b_yub b = f (b_xub b) /\ b_xub b - b_xlb b <= 2 ^ 127) /\
  (info = (-1)%Z -> exists l r, 10 < r - l /\ Rabs ((f r - f l) / (r - l)) < / 10 ^ 12) /\
  (info = (-2)%Z -> y < f (x0 - (2 ^ 128 - 1)) \/ f (x0 + (2 ^ 128 - 1)) < y).
Proof.
  intros f x0 x1 y b info E. apply find_bracket_ok in E.
  destruct E as [(-> & A & B & C & D & F & G)|[(-> & E)|(-> & E)]].
  - split; [auto|]. split; [intros _|split; discriminate]. rewrite <- A, <- B. repeat (split; [auto; tauto|]).
    change (2 ^ 128) with (2 * 2 ^ 127) in G. lra.
  - split; [auto|]. split; [discriminate|]. split; [auto|discriminate].
  - split; [auto|]. split; [discriminate|]. split; [discriminate|auto].
Qed.
Print Assumptions C30_find_bracket.

(** Success for every function that is nowhere flat, when the target lies between the values
    at distance 2^128-1 to either side of the starting point. *)
Theorem C30_reaches_target : forall (f : R -> R) (x0 x1 y : R),
  nowhere_flat f -> f (x0 - (2 ^ 128 - 1)) <= y <= f (x0 + (2 ^ 128 - 1)) ->
  snd (FindBracket f x0 x1 y) = 0%Z.
Proof.
  intros f x0 x1 y NF R. destruct (FindBracket f x0 x1 y) as [b info] eqn:E. cbn [snd]. apply find_bracket_ok in E.
  destruct E as [(-> & _)|[(-> & l & r & W & F)|(-> & E)]]; auto; exfalso; [|lra].
  pose proof (NF l r W) as N. assert (P : / 10 ^ 12 <= (f r - f l) / (r - l)).
  { apply Rmult_le_reg_r with (r - l); [lra|]. unfold Rdiv. rewrite (Rmult_assoc (f r - f l)), Rinv_l by lra. lra. }
  pose proof (Rle_abs ((f r - f l) / (r - l))). lra.
Qed.
Print Assumptions C30_reaches_target.

Example C30_identity : nowhere_flat (fun x => x) /\ snd (FindBracket (fun x => x) 0 0 1000) = 0%Z.
Proof.
  assert (N : nowhere_flat (fun x => x)) by (intros a b H; lra).
  split; auto. apply C30_reaches_target; auto.
  assert (H : 2 ^ 10 <= 2 ^ 128) by (apply Rle_pow; [lra|repeat constructor]). generalize dependent (2 ^ 128). intros P HP. cbn [pow] in HP. lra.
Qed.
Example C30_flat_reported : snd (FindBracket (fun x => 0) 0 0 1) = (-1)%Z.
Proof.
  unfold FindBracket. destruct (Rltb_spec 1 0); [lra|]. unfold bracket_its. change 128%nat with (S (S (S (S 124)))).
  assert (S0 : forall k st b, b_ylb b = 0 -> (10 < st -> False) -> upper_loop (fun _ => 0) 1 (S k) st b
     = upper_loop (fun _ => 0) 1 k (st * 2) (MkBr (b_xlb b + st) 0 (b_xlb b + st) 0)).
  { intros k st b Hb H. cbn [upper_loop b_yub b_xub b_xlb b_ylb]. unfold flat_test at 1. cbn [b_yub b_xub b_xlb b_ylb].
    destruct (Rltb_spec 10 (b_xlb b + st - b_xlb b)); [exfalso; apply H; lra|]. rewrite andb_false_r. destruct (Rltb_spec 0 1); [reflexivity|lra]. }
  do 4 (rewrite S0 by (cbn; auto; lra)). change 124%nat with (S 123). generalize 123%nat. intros k. cbn [upper_loop b_yub b_xub b_xlb b_ylb]. unfold flat_test at 1.
  cbn [b_yub b_xub b_xlb b_ylb].
  match goal with |- context [Rltb (Rabs ?e) _] => replace e with 0 by (unfold Rdiv; ring) end. rewrite Rabs_R0.
  destruct (Rltb_spec 0 (/ 10 ^ 12)) as [_|N]; [|exfalso; apply N; apply Rinv_0_lt_compat; apply pow_lt; lra].
  match goal with |- context [Rltb 10 ?e] => destruct (Rltb_spec 10 e) as [_|N]; [|lra] end. reflexivity.
Qed.

(** ** C31 *)

(** At every iteration the bracket encloses the target: stop the loop after any number n of
    iterations. *)
Theorem C31_bracket_kept : forall (f : R -> R) (y xtol ftol : R) (n : nat) (b b' : bracket) (it : nat),
  nondecreasing f -> 0 < xtol -> 0 < ftol ->
  b_ylb b = f (b_xlb b) -> b_yub b = f (b_xub b) -> b_xlb b < b_xub b -> f (b_xlb b) <= y <= f (b_xub b) ->
  itp_loop f y xtol ftol (itp_nhalf b xtol) n 0 b = Left b' it ->
  b_xlb b' < b_xub b' /\ f (b_xlb b') <= y <= f (b_xub b') /\ (it <= n)%nat.
Proof.
  intros f y xtol ftol n b b' it Hf Hx Ht E1 E2 Hw Hy E.
  pose proof (itp_loop_kept f y xtol ftol (itp_nhalf b xtol) Hf Ht n 0 b) as K. rewrite E in K.
  destruct K as ((A & B & C & D) & F).
  - unfold brackets. rewrite E1, E2. auto.
  - apply nhalf_width; auto.
  - rewrite <- A, <- B. split; [auto|]. split; [auto|lia].
Qed.
Print Assumptions C31_bracket_kept.

(** The number of iterations: the loop ends in iteration number it+1 with it = 0 or
    it <= ceil(log2(width/(2 xtol))) + 2, whenever the limit n is larger; it has then
    converged in x or in f. *)
Theorem C31_iterations : forall (f : R -> R) (y xtol ftol : R) (n : nat) (b : bracket),
  nondecreasing f -> 0 < xtol -> 0 < ftol ->
  b_ylb b = f (b_xlb b) -> b_yub b = f (b_xub b) -> b_xlb b < b_xub b -> f (b_xlb b) <= y <= f (b_xub b) ->
  let nhalf := ceiling (log_2 ((b_xub b - b_xlb b) / (2 * xtol))) in
  (1 <= n)%nat -> nhalf + 2 < INR n ->
  match itp_loop f y xtol ftol (itp_nhalf b xtol) n 0 b with
  | Returned xc it => Rabs (f xc - y) < ftol /\ (it = 0%nat \/ INR it <= nhalf + 2)
  | Left b' it => f (b_xlb b') <= y <= f (b_xub b') /\ b_xlb b' < b_xub b' /\ (it = 0%nat \/ INR it <= nhalf + 2) /\
      (b_xub b' - b_xlb b' < xtol \/ f (b_xub b') - f (b_xlb b') < ftol)
  end.
Proof.
  intros f y xtol ftol n b Hf Hx Ht E1 E2 Hw Hy nhalf Hn Hl.
  assert (EN : itp_nhalf b xtol = nhalf) by (unfold itp_nhalf, nhalf; do 2 f_equal; field; lra).
  pose proof (nhalf_width b xtol Hx Hw) as W. rewrite EN in *.
  pose proof (itp_loop_converges f y xtol ftol nhalf Hf Hx Ht n 0 b) as K. cbn [Nat.add] in K.
  destruct (itp_loop f y xtol ftol nhalf n 0 b) as [xc it|b' it].
  - apply K; auto; [|lia]. unfold brackets. rewrite E1, E2. auto.
  - destruct K as ((A & B & C & D) & F & G & H); auto; [unfold brackets; rewrite E1, E2; auto|lia|].
    rewrite <- A, <- B. auto.
Qed.
Print Assumptions C31_iterations.

Lemma width_127 w : 2 * w <= 2 ^ 128 -> w <= 2 ^ 127.
Proof. change (2 ^ 128) with (2 * 2 ^ 127). intros H. lra. Qed.
Lemma INR_126 : INR 126 = 126.
Proof. rewrite INR_IZR_INZ. reflexivity. Qed.
Lemma INR_itp_its : INR (0 + itp_its) = 100 * 100.
Proof. unfold itp_its. rewrite Nat.add_0_l, mult_INR. rewrite INR_IZR_INZ. reflexivity. Qed.

Lemma nhalf_small b xtol : Rpower 2 (- 1074) <= xtol -> b_xlb b < b_xub b -> b_xub b - b_xlb b <= 2 ^ 127 ->
  itp_nhalf b xtol + 2 < INR (0 + itp_its).
Proof.
  intros Hx C G. assert (Hx0 : 0 < xtol) by (pose proof (Rpower2_pos (-1074)); lra).
  unfold itp_nhalf. set (z := 1 / 2 * (b_xub b - b_xlb b) / xtol).
  assert (Hz : 0 < z) by (unfold z; apply Rdiv_lt_0_compat; lra).
  assert (log_2 z <= 1200).
  { apply log_2_le; auto. unfold z. apply Rmult_le_reg_r with xtol; auto. unfold Rdiv. rewrite (Rmult_assoc _ (/ xtol)), Rinv_l by lra. rewrite Rmult_1_r.
    apply Rle_trans with (Rpower 2 1200 * Rpower 2 (- 1074)); [|apply Rmult_le_compat_l; [left; apply Rpower2_pos|auto]].
    rewrite <- Rpower_plus. apply Rle_trans with (Rpower 2 126); [|apply Rle_Rpower; lra].
    rewrite <- INR_126, Rpower_pow by lra. change (2 ^ 127) with (2 * 2 ^ 126) in G. lra. }
  pose proof (ceiling_ge (log_2 z)). rewrite INR_itp_its. lra.
Qed.

(** The inverse: every continuous nondecreasing function, every target and starting point,
    every positive ftol and every xtol not below the smallest positive double. *)
Theorem C31_inverse : forall (f : R -> R) (y x0 xtol ftol : R) (res : option R) (info : Z),
  (forall x, continuous f x) -> nondecreasing f -> Rpower 2 (- 1074) <= xtol -> 0 < ftol ->
  InverseSingleBracket f y x0 xtol ftol = (res, info) ->
  (info = 0%Z /\ exists x root, res = Some x /\ f root = y /\ (Rabs (f x - y) < ftol \/ Rabs (x - root) <= xtol)) \/
  (info = (-2)%Z /\ res = None /\ snd (FindBracket f x0 x0 y) <> 0%Z).
Proof.
  intros f y x0 xtol ftol res info Hc Hf Hx Ht E. assert (Hx0 : 0 < xtol) by (pose proof (Rpower2_pos (-1074)); lra).
  assert (LN : (1 <= 0 + itp_its)%nat) by (unfold itp_its; lia). pose proof nhalf_small as NS.
  unfold InverseSingleBracket in E. generalize dependent itp_its. intros its E LN NS.
  destruct (FindBracket f x0 x0 y) as [b binfo] eqn:EB. cbn [snd].
  apply find_bracket_ok in EB. destruct EB as [(-> & A & B & C & D & F & G)|[(-> & _)|(-> & _)]].
  2,3: cbn in E; injection E as <- <-; right; repeat split; auto; discriminate.
  destruct (Rltb_spec y (b_ylb b)) as [N|_]; [lra|]. destruct (Rltb_spec (b_yub b) y) as [N|_]; [lra|]. cbn [Z.ltb Z.compare orb] in E.
  left.
  assert (IV : forall b', brackets f y b' -> exists root, f root = y /\ b_xlb b' <= root <= b_xub b').
  { intros b' (P1 & P2 & P3 & P4). destruct (IVT_gen f (b_xlb b') (b_xub b') y) as (root & P5 & P6).
    - intros x. apply continuity_pt_filterlim. apply Hc.
    - rewrite <- P1, <- P2. rewrite Rmin_left, Rmax_right by lra. auto.
    - exists root. split; auto. rewrite Rmin_left, Rmax_right in P5 by lra. auto. }
  pose proof (NS b xtol Hx C (width_127 _ G)) as L.
  pose proof (itp_loop_converges f y xtol ftol (itp_nhalf b xtol) Hf Hx0 Ht its 0 b) as K.
  destruct (itp_loop f y xtol ftol (itp_nhalf b xtol) its 0 b) as [xc it|b' it].
  - injection E as <- <-. split; auto. destruct K as (K1 & K2); auto.
    + unfold brackets; auto.
    + apply nhalf_width; auto.
    + lia.
    + destruct (IV b) as (root & R1 & R2); [unfold brackets; auto|]. exists xc, root. auto.
  - injection E as <- <-. destruct K as (K1 & K2 & K3 & K4); auto.
    + unfold brackets; auto.
    + apply nhalf_width; auto.
    + lia.
    + destruct (Nat.ltb_spec its it) as [Hl|Hl]; [cbn [Nat.add] in K3; lia|]. split; auto.
      destruct (IV b' K1) as (root & R1 & R2). exists (1 / 2 * (b_xub b' + b_xlb b')), root. split; auto. split; auto.
      destruct K1 as (P1 & P2 & P3 & P4). destruct K4 as [K4|K4].
      * right. apply Rabs_le. lra.
      * left. pose proof (Hf (b_xlb b') (1 / 2 * (b_xub b' + b_xlb b')) ltac:(lra)). pose proof (Hf (1 / 2 * (b_xub b' + b_xlb b')) (b_xub b') ltac:(lra)).
        apply Rabs_def1; lra.
Qed.
Print Assumptions C31_inverse.

(** For strictly increasing f the root is unique, so the conclusion is about the root. *)
Theorem C31_root_unique : forall (f : R -> R) (y r1 r2 : R), strictly_increasing f -> f r1 = y -> f r2 = y -> r1 = r2.
Proof.
  intros f y r1 r2 H E1 E2. destruct (Rtotal_order r1 r2) as [L|[L|L]]; auto; apply H in L; lra.
Qed.
Print Assumptions C31_root_unique.

(** info = -1, documented as "maximum number of iterations exceeded", is never reported. *)
Theorem C31_info_codes : forall (f : R -> R) (y x0 xtol ftol : R),
  snd (InverseSingleBracket f y x0 xtol ftol) = 0%Z \/ snd (InverseSingleBracket f y x0 xtol ftol) = (-2)%Z.
Proof.
  intros f y x0 xtol ftol. unfold InverseSingleBracket. destruct (FindBracket f x0 x0 y) as [b binfo].
  destruct ((binfo <? 0)%Z || _)%bool; [right; reflexivity|left].
  assert (K : forall n it b, match itp_loop f y xtol ftol (itp_nhalf b xtol) n it b with Returned _ _ => True | Left _ it' => (it' <= it + n)%nat end) .
  { intros n it b0. generalize (itp_nhalf b0 xtol). intros nh. revert it b0. induction n as [|n IH]; intros it b0; cbn [itp_loop]; [lia|].
    destruct (Rltb (Rabs _) ftol); auto. match goal with |- context [if (?p || ?q)%bool then _ else _] => destruct (p || q)%bool end; [lia|].
    specialize (IH (S it)). match goal with |- context [itp_loop _ _ _ _ _ n (S it) ?bb] => specialize (IH bb) end.
    destruct (itp_loop _ _ _ _ _ _ _ _); auto. lia. }
  specialize (K itp_its 0%nat b). destruct (itp_loop f y xtol ftol (itp_nhalf b xtol) itp_its 0 b) as [xc it|b' it]; cbn [snd]; auto.
  destruct (Nat.ltb_spec itp_its it); [cbn [Nat.add] in K; lia|reflexivity].
Qed.
Print Assumptions C31_info_codes.

(** The hypotheses are met by x^3 and default-like tolerances. *)
Example C31_hypotheses_met : (forall x, continuous (fun x : R => x ^ 3) x) /\ nondecreasing (fun x => x ^ 3) /\ Rpower 2 (- 1074) <= / 2 ^ 20 /\
  0 < / 10 ^ 6.
Proof.
  split; [|split; [|split]].
  - intros x. apply (ex_derive_continuous (fun x : R => x ^ 3)). auto_derive. auto.
  - intros a b H. assert (P : 0 <= a * a + a * b + b * b) by nra.
    assert (Q : 0 <= (b - a) * (a * a + a * b + b * b)) by (apply Rmult_le_pos; lra).
    replace (b ^ 3) with (a ^ 3 + (b - a) * (a * a + a * b + b * b)) by ring. lra.
  - rewrite <- Rpower_pow, <- Rpower_Ropp by lra. apply Rle_Rpower; [lra|]. cbn [INR]. lra.
  - apply Rinv_0_lt_compat, pow_lt. lra.
Qed.

(** ** C61 *)

(** The search evaluates f outside the bracket it was given. Here f(x) = x+10, the target is
    10.5, the starting point 0, xtol = 0.3: the bracket is [0,1] and the first trial point is
    -0.2. *)
Theorem C61_trial_outside_bracket_refuted :
  let f := fun x => x + 10 in
  FindBracket f 0 0 (21/2) = (MkBr 0 10 1 11, 0%Z) /\
  Find_x_ITP (MkBr 0 10 1 11) (1/10) 2 (itp_nhalf (MkBr 0 10 1 11) (3/10)) 1 0 (3/10) = -1/5.
Proof.
  cbv zeta. split.
  - unfold FindBracket. destruct (Rltb_spec (21 / 2) (0 + 10)); [lra|]. unfold bracket_its. change 128%nat with (S 127). generalize 127%nat. intros k. cbn [upper_loop b_xlb b_ylb].
    unfold flat_test. cbn [b_xlb b_ylb b_xub b_yub]. destruct (Rltb_spec 10 (0 + 1 - 0)); [lra|]. rewrite andb_false_r.
    destruct (Rltb_spec (0 + 1 + 10) (21 / 2)); [lra|]. f_equal. f_equal; ring.
  - assert (N : itp_nhalf (MkBr 0 10 1 11) (3 / 10) = 1).
    { unfold itp_nhalf. cbn [b_xub b_xlb]. replace (1 / 2 * (1 - 0) / (3 / 10)) with (5 / 3) by field.
      assert (A : 0 < log_2 (5 / 3)) by (unfold log_2; apply Rdiv_lt_0_compat; [rewrite <- ln_1; apply ln_increasing; lra|apply ln2_pos]).
      assert (B : log_2 (5 / 3) <= 1) by (apply log_2_le; [lra|rewrite Rpower_1; lra]).
      pose proof (ceiling_ge (log_2 (5 / 3))) as [C D]. unfold ceiling in *. set (k := Int_part (- log_2 (5 / 3))) in *.
      assert (k = (-1)%Z); [|subst k; rewrite H; cbn; ring].
      assert (-2 < k < 0)%Z; [|lia]. split; apply lt_IZR; lra. }
    rewrite N. unfold Find_x_ITP. cbn [b_xub b_xlb b_ylb b_yub INR].
    replace ((1 * 10 - 0 * 11) / (10 - 11)) with (-10) by field. replace (1 / 2 * (1 + 0) - -10) with (21 / 2) by field.
    destruct (Rltb_spec 0 (21 / 2)); [|lra]. replace (1 - 0) with 1 by ring. replace (Rpower 1 2) with 1 by (unfold Rpower; rewrite ln_1, Rmult_0_r, exp_0; reflexivity).
    rewrite (Rabs_right (21 / 2)) by lra. rewrite (Rmin_left (1 / 10 * 1)) by lra.
    replace (1 + 1 - 0) with (INR 2) by (cbn; ring). rewrite Rpower_pow by lra.
    rewrite Rabs_left by lra. rewrite Rmin_left by (cbn; lra). cbn. field.
Qed.
Print Assumptions C61_trial_outside_bracket_refuted.

(** What does hold: every trial point lies within twice the width from either end. *)
Theorem C61_trial_point_partial : forall (b : bracket) (xtol : R), 0 < xtol -> b_xlb b < b_xub b ->
  let w := b_xub b - b_xlb b in
  Rabs (Find_x_ITP b (1/10) 2 (itp_nhalf b xtol) 1 0 xtol - 1/2 * (b_xub b + b_xlb b)) <= 3/2 * w.
Proof.
  intros b xtol Hx Hw w. set (z := 1 / 2 * w / xtol). assert (Hz : 0 < z) by (unfold z, w; apply Rdiv_lt_0_compat; lra).
  pose proof (ceiling_ge (log_2 z)) as [C1 C2].
  assert (U : Rpower 2 (itp_nhalf b xtol) <= 2 * z).
  { unfold itp_nhalf. fold w z. rewrite <- (Rpower2_log z Hz) at 2. rewrite <- Rpower2_S. apply Rle_Rpower; lra. }
  assert (Lo : z <= Rpower 2 (itp_nhalf b xtol)).
  { unfold itp_nhalf. fold w z. rewrite <- (Rpower2_log z Hz) at 1. apply Rle_Rpower; lra. }
  assert (XZ : xtol * z = 1 / 2 * w) by (unfold z; field; lra).
  pose proof (itp_point b (1/10) 2 (itp_nhalf b xtol) 1 0 xtol ltac:(lra)) as P. cbv zeta in P. cbn [INR] in P.
  replace (itp_nhalf b xtol + 1 - 0) with (itp_nhalf b xtol + 1) in P by ring. rewrite Rpower2_S in P.
  fold w in P. set (A := xtol * (2 * Rpower 2 (itp_nhalf b xtol))) in *.
  assert (A1 : w <= A) by (unfold A; nra). assert (A2 : A <= 2 * w) by (unfold A; nra).
  specialize (P ltac:(unfold w in *; lra)). unfold w in *. apply Rabs_le. lra.
Qed.
Print Assumptions C61_trial_point_partial.
