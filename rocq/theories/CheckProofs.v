(** GetNextCheckpoint: no overflow, no division by zero, and the loop ends. *)
From Coq Require Import ZArith List Lia.
From Verif Require Import Base MapsModel.
Import ListNotations.
Local Open Scope Z_scope.

(** Up to 2^15 layers and 2^31 - 1 checkpoints. *)
Definition layer_bound : nat := Z.to_nat (2 ^ 15).

Lemma ck_ok z : - 2 ^ 31 <= z -> z < 2 ^ 31 -> ck z = Ok z.
Proof.
  intros H1 H2. unfold ck. destruct (Z.leb_spec (- 2 ^ 31) z); [|lia]. destruct (Z.ltb_spec z (2 ^ 31)); [|lia]. reflexivity.
Qed.

Lemma div_le_self a b k : 0 <= a -> 0 < b -> 0 <= k -> 0 <= a * b / (b + k) <= a.
Proof.
  intros Ha Hb Hk. split; [apply Z.div_pos; nia|].
  apply Z.div_le_upper_bound; nia.
Qed.

Section Grow.
Variables n avail : Z.
Hypothesis Hn : 2 <= n <= 2 ^ 15.
Hypothesis Ha : 1 <= avail < 2 ^ 31 - 1.

Lemma grow_ok fuel : forall reps range,
  0 <= reps -> reps + 1 <= range -> n - reps <= Z.of_nat fuel ->
  (reps = 0 /\ range = 1) \/
  (exists r', 1 <= reps /\ 1 <= r' < n /\ reps <= r' /\ r' * (reps + avail) < 2 ^ 31 /\ range = r' * (reps + avail) / reps /\
              (avail <= 2 ^ 15 \/ (r' = 1 /\ reps = 1))) ->
  (0 < Z.of_nat fuel) ->
  exists reps' range', grow fuel n avail reps range = Ok (reps', range') /\
    exists r', 1 <= reps' /\ 1 <= r' < n /\ reps' <= r' /\ r' * (reps' + avail) < 2 ^ 31 /\ range' = r' * (reps' + avail) / reps' /\
              (avail <= 2 ^ 15 \/ (r' = 1 /\ reps' = 1)).
Proof.
  induction fuel as [|fuel IH]; intros reps range H0 Hr Hf Hs Hpos; [lia|].
  cbn [grow]. destruct (Z.ltb_spec range n) as [Hlt|Hge].
  - assert (HA : avail <= 2 ^ 15 \/ (range = 1 /\ reps = 0)).
    { destruct Hs as [[-> ->]|(r' & K1 & K2 & K3 & K4 & K5 & [K6|[K6 K7]])]; auto.
      left. subst r' reps. rewrite Z.div_1_r in K5. lia. }
    assert (Hp : range * (reps + 1 + avail) < 2 ^ 31).
    { destruct HA as [HA|[-> ->]]; [|lia].
      assert (range <= 2 ^ 15 - 1) by lia. assert (reps + 1 + avail <= 2 ^ 16 - 1) by lia.
      assert (range * (reps + 1 + avail) <= (2 ^ 15 - 1) * (2 ^ 16 - 1)) by (apply Z.mul_le_mono_nonneg; lia). lia. }
    rewrite ck_ok by nia. cbn [obind].
    assert (Hd : range + 1 <= range * (reps + 1 + avail) / (reps + 1)).
    { apply Z.div_le_lower_bound; [lia|]. nia. }
    apply IH; try lia.
    + right. exists range. repeat split; try lia; try (destruct HA as [HA|[-> ->]]; [left; lia|right; lia]).
  - destruct Hs as [[-> ->]|Hs]; [lia|]. exists reps, range. split; [reflexivity|exact Hs].
Qed.
End Grow.

Lemma next_ok layers curr rest maxSaves L : layers = curr :: rest -> (curr < L)%nat -> (L < layer_bound)%nat ->
  (length layers <= maxSaves)%nat -> Z.of_nat maxSaves < 2 ^ 31 ->
  exists z, chk_Next layers maxSaves L = Ok z /\ (length layers = maxSaves -> z = -1).
Proof.
  intros -> Hc HL Hlen Hmax. unfold chk_Next.
  assert (HB : Z.of_nat L < 2 ^ 15) by (unfold layer_bound in HL; lia).
  set (avail := Z.of_nat maxSaves - Z.of_nat (length (curr :: rest))).
  assert (Hav : 0 <= avail < 2 ^ 31 - 1) by (unfold avail; cbn [length] in *; lia).
  destruct (Z.eqb_spec avail 0) as [Hz|Hz].
  { exists (-1). split; [reflexivity|auto]. }
  assert (Hnot : length (curr :: rest) = maxSaves -> False) by (intros E; apply Hz; unfold avail; lia).
  destruct (grow_ok (Z.of_nat L + 1 - Z.of_nat curr) avail ltac:(lia) ltac:(lia) (S (S L)) 0 1 ltac:(lia) ltac:(lia) ltac:(lia)
             (or_introl (conj eq_refl eq_refl)) ltac:(lia)) as (reps & range & HG & r' & K1 & K2 & K3 & K4 & K5 & K6).
  rewrite HG. cbn [obind]. set (n := Z.of_nat L + 1 - Z.of_nat curr) in *. assert (Hn : n <= 2 ^ 15) by (unfold n; lia).
  assert (Hp1 : 0 <= range * reps <= r' * (reps + avail)).
  { subst range. split; [apply Z.mul_nonneg_nonneg; [apply Z.div_pos; nia|lia]|]. rewrite Z.mul_comm. apply Z.mul_div_le. lia. }
  rewrite ck_ok by lia. cbn [obind].
  set (b1 := range * reps / (avail + reps)).
  assert (Hb1 : 0 <= b1 <= r').
  { unfold b1. split; [apply Z.div_pos; lia|]. apply Z.div_le_upper_bound; nia. }
  clearbody b1.
  assert (Hbb : forall k, 0 <= k <= avail -> 0 <= b1 * k < 2 ^ 31).
  { intros k Hk. split; [nia|]. destruct K6 as [K6|[K6 K7]].
    - assert (b1 * k <= 2 ^ 15 * 2 ^ 15) by (apply Z.mul_le_mono_nonneg; lia). lia.
    - assert (b1 * k <= 1 * avail) by (apply Z.mul_le_mono_nonneg; lia). lia. }
  assert (E2 : exists b2, (if 1 <? avail then do p <- ck (b1 * avail); Ok (p / (avail + reps - 1)) else Ok 1) = Ok b2 /\ 0 <= b2 /\ (b2 <= b1 \/ (b2 <= 1 /\ avail = 1))).
  { destruct (Z.ltb_spec 1 avail) as [H|H].
    - pose proof (Hbb avail ltac:(lia)). rewrite ck_ok by lia. cbn [obind]. eexists. split; [reflexivity|].
      replace (avail + reps - 1) with (avail + (reps - 1)) by lia.
      destruct (div_le_self b1 avail (reps - 1)); lia.
    - exists 1. split; [reflexivity|]. lia. }
  destruct E2 as (b2 & E2 & Hb2 & Hb2'). rewrite E2. cbn [obind].
  assert (E3 : exists b3, (if avail =? 1 then Ok 0 else
                   if 2 <? avail then do p <- ck (b2 * (avail - 1)); Ok (p / (avail + reps - 2)) else Ok 1) = Ok b3 /\ 0 <= b3 /\ (b3 <= b1 \/ avail <= 2)).
  { destruct (Z.eqb_spec avail 1) as [H|H]; [exists 0; split; [reflexivity|lia]|].
    destruct (Z.ltb_spec 2 avail) as [H'|H'].
    - destruct Hb2' as [Hb2'|Hb2']; [|lia]. pose proof (Hbb (avail - 1) ltac:(lia)).
      assert (0 <= b2 * (avail - 1) <= b1 * (avail - 1)) by (split; [apply Z.mul_nonneg_nonneg; lia | apply Z.mul_le_mono_nonneg_r; lia]).
      rewrite ck_ok by lia. cbn [obind]. eexists. split; [reflexivity|].
      replace (avail + reps - 2) with (avail - 1 + (reps - 1)) by lia.
      destruct (div_le_self b2 (avail - 1) (reps - 1)); lia.
    - exists 1. split; [reflexivity|]. lia. }
  destruct E3 as (b3 & E3 & Hb3 & Hb3'). rewrite E3. cbn [obind].
  assert (Hp4 : 0 <= b2 * (reps - 1) < 2 ^ 31).
  { split; [nia|]. assert (b2 <= 2 ^ 15) by lia. assert (reps - 1 <= 2 ^ 15) by lia.
    assert (b2 * (reps - 1) <= 2 ^ 15 * 2 ^ 15) by (apply Z.mul_le_mono_nonneg; lia). lia. }
  rewrite ck_ok by lia. cbn [obind].
  assert (E5 : exists b5, (if avail <? 3 then Ok 0 else
                   if 3 <? avail then do p <- ck (b3 * (avail - 2)); Ok (p / reps) else Ok 1) = Ok b5).
  { destruct (Z.ltb_spec avail 3) as [H|H]; [eexists; reflexivity|].
    destruct (Z.ltb_spec 3 avail) as [H'|H']; [|eexists; reflexivity].
    destruct Hb3' as [Hb3'|Hb3']; [|lia]. pose proof (Hbb (avail - 2) ltac:(lia)).
    assert (0 <= b3 * (avail - 2) <= b1 * (avail - 2)) by (split; [apply Z.mul_nonneg_nonneg; lia | apply Z.mul_le_mono_nonneg_r; lia]).
    rewrite ck_ok by lia. eexists; reflexivity. }
  destruct E5 as (b5 & E5). rewrite E5. cbn [obind]. eexists. split; [reflexivity|]. intros E. elim (Hnot E).
Qed.
