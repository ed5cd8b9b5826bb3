(** Proofs about orthogonal polynomials and Hermite functions. *)
From Coq Require Import Reals ZArith Lra Factorial.
From Coquelicot Require Import Coquelicot.
From Verif Require Import Base SpecPoly PolyModel.
Local Open Scope R_scope.

(** ** Buffers *)

Lemma fill_length f n out : (n <= length out)%nat -> length (fill f n out) = length out.
Proof. intros H. unfold fill. rewrite app_length, map_length, seq_length, skipn_length. lia. Qed.

Lemma fill_0 f out : fill f 0 out = out.
Proof. reflexivity. Qed.

Lemma fill_nth_lt f n out i d : (i < n)%nat -> nth i (fill f n out) d = f i.
Proof.
  intros H. unfold fill. rewrite app_nth1 by (rewrite map_length, seq_length; lia).
  rewrite nth_indep with (d' := f 0%nat) by (rewrite map_length, seq_length; lia).
  rewrite map_nth. rewrite seq_nth by lia. reflexivity.
Qed.

Lemma skipn_nth {A} (l : list A) n i d : nth i (skipn n l) d = nth (n + i) l d.
Proof. revert l; induction n as [|n IH]; intros [|h t]; cbn; auto. destruct i; auto. Qed.

Lemma fill_nth_ge f n out i d : (n <= i)%nat -> nth i (fill f n out) d = nth i out d.
Proof.
  intros H. unfold fill. rewrite app_nth2 by (rewrite map_length, seq_length; lia).
  rewrite map_length, seq_length, skipn_nth. f_equal. lia.
Qed.

Lemma fill_get f n out i : (i < n)%nat -> (n <= length out)%nat -> raw_get (fill f n out) i = Ok (f i).
Proof.
  intros H L. rewrite raw_get_ok with (d := 0) by (rewrite fill_length; lia).
  now rewrite fill_nth_lt.
Qed.

Lemma fill_get_ge f n out i : (n <= i)%nat -> (n <= length out)%nat -> raw_get (fill f n out) i = raw_get out i.
Proof.
  intros H L. destruct (Nat.lt_ge_cases i (length out)).
  - rewrite !raw_get_ok with (d := 0) by (try rewrite fill_length; lia). now rewrite fill_nth_ge.
  - unfold raw_get. rewrite !(proj2 (nth_error_None _ _)); auto. rewrite fill_length; lia.
Qed.

Lemma fill_set f n out v : (n < length out)%nat -> v = f n -> raw_set (fill f n out) n v = Ok (fill f (S n) out).
Proof.
  intros H ->. rewrite raw_set_ok by (rewrite fill_length; lia). f_equal.
  apply nth_ext_eq with (d := 0).
  - rewrite upd_length, !fill_length; lia.
  - intros i Hi. rewrite upd_length, fill_length in Hi by lia.
    destruct (Nat.eq_dec i n) as [->|Hn].
    + rewrite nth_upd_eq by (rewrite fill_length; lia). rewrite fill_nth_lt; auto; lia.
    + rewrite nth_upd_neq by auto. destruct (Nat.lt_ge_cases i n).
      * rewrite !fill_nth_lt; auto; lia.
      * rewrite !fill_nth_ge; auto; lia.
Qed.

Lemma fill_fill f g n out : (n <= length out)%nat -> fill f n (fill g n out) = fill f n out.
Proof.
  intros H. apply nth_ext_eq with (d := 0); rewrite ?fill_length; auto; try rewrite fill_length; auto.
  intros i Hi. destruct (Nat.lt_ge_cases i n).
  - rewrite !fill_nth_lt; auto.
  - rewrite !fill_nth_ge; auto.
Qed.

Lemma fill_ext f g n out : (forall i, (i < n)%nat -> f i = g i) -> fill f n out = fill g n out.
Proof.
  intros H. unfold fill. f_equal. apply map_ext_in. intros i Hi. apply in_seq in Hi. apply H. lia.
Qed.

Lemma fill_cons f n v out : fill f (S n) (v :: out) = f 0%nat :: fill (fun i => f (S i)) n out.
Proof. unfold fill. cbn [seq map skipn app]. rewrite <- seq_shift, map_map. reflexivity. Qed.

(** A loop over consecutive indices keeps an indexed invariant. *)
Lemma ofold_seq {T} (body : T -> nat -> outcome T) (St : nat -> T) m : forall k,
  (forall o, (k <= o < k + m)%nat -> body (St o) o = Ok (St (o + 1)%nat)) ->
  ofold body (seq k m) (St k) = Ok (St (k + m)%nat).
Proof.
  induction m as [|m IH]; intros k H; cbn [seq ofold].
  - rewrite Nat.add_0_r. reflexivity.
  - rewrite H by lia. cbn [obind]. replace (k + 1)%nat with (S k) by lia.
    rewrite IH by (intros o Ho; apply H; lia). replace (S k + m)%nat with (k + S m)%nat by lia. reflexivity.
Qed.

Lemma fold_seq {T} (body : T -> nat -> T) (St : nat -> T) m : forall k,
  (forall o, (k <= o < k + m)%nat -> body (St o) o = St (o + 1)%nat) ->
  fold_left body (seq k m) (St k) = St (k + m)%nat.
Proof.
  induction m as [|m IH]; intros k H; cbn [seq fold_left].
  - rewrite Nat.add_0_r. reflexivity.
  - rewrite H by lia. replace (k + 1)%nat with (S k) by lia.
    rewrite IH by (intros o Ho; apply H; lia). f_equal; lia.
Qed.

(** ** The polynomials of a mixer and their formal derivatives *)
Fixpoint P (M : mixer) (n : nat) (x : R) : R :=
  match n with
  | O => phi0 M x
  | S m => match m with
           | O => phi1 M x
           | S k => (ak M (S m) * x + bk M (S m)) * P M m x - ck M (S m) * P M k x
           end
  end.
Fixpoint DP (M : mixer) (n : nat) (x : R) : R :=
  match n with
  | O => 0
  | S m => match m with
           | O => phi1_deriv M x
           | S k => ak M (S m) * P M m x + (ak M (S m) * x + bk M (S m)) * DP M m x - ck M (S m) * DP M k x
           end
  end.
Fixpoint D2P (M : mixer) (n : nat) (x : R) : R :=
  match n with
  | O => 0
  | S m => match m with
           | O => 0
           | S k => ak M (S m) * DP M m x + ak M (S m) * DP M m x
                    + (ak M (S m) * x + bk M (S m)) * D2P M m x - ck M (S m) * D2P M k x
           end
  end.

Definition norm_of (M : mixer) (nz : bool) (n : nat) : R := if nz then Normalization M n else 1.

Lemma P_SS M k x : P M (S (S k)) x = (ak M (S (S k)) * x + bk M (S (S k))) * P M (S k) x - ck M (S (S k)) * P M k x.
Proof. reflexivity. Qed.
Lemma DP_SS M k x : DP M (S (S k)) x =
  ak M (S (S k)) * P M (S k) x + (ak M (S (S k)) * x + bk M (S (S k))) * DP M (S k) x - ck M (S (S k)) * DP M k x.
Proof. reflexivity. Qed.
Lemma D2P_SS M k x : D2P M (S (S k)) x =
  ak M (S (S k)) * DP M (S k) x + ak M (S (S k)) * DP M (S k) x
  + (ak M (S (S k)) * x + bk M (S (S k))) * D2P M (S k) x - ck M (S (S k)) * D2P M k x.
Proof. reflexivity. Qed.
Global Arguments P : simpl never.
Global Arguments DP : simpl never.
Global Arguments D2P : simpl never.

Lemma two_steps (Q : nat -> Prop) : Q 0%nat -> Q 1%nat -> (forall k, Q k -> Q (S k) -> Q (S (S k))) -> forall n, Q n.
Proof.
  intros H0 H1 HS n. enough (Q n /\ Q (S n)) by tauto.
  induction n as [|n [A B]]; split; auto.
Qed.

Lemma recurrence_unique M Q : recurrence (ak M) (bk M) (ck M) (phi0 M) (phi1 M) Q -> forall n x, Q n x = P M n x.
Proof.
  intros H n x. destruct (H x) as (A & B & C). pattern n. apply two_steps; auto.
  intros k E0 E1. rewrite C, E0, E1. reflexivity.
Qed.

Lemma recurrence_P M : recurrence (ak M) (bk M) (ck M) (phi0 M) (phi1 M) (P M).
Proof. intros x. repeat split. Qed.

(** ** Filling loops *)

Lemma sub1 k : (S (S k) - 1)%nat = S k. Proof. lia. Qed.
Lemma sub2 k : (S (S k) - 2)%nat = k. Proof. lia. Qed.

Lemma divide_all_spec M n f out : (n < length out)%nat ->
  divide_all M n (fill f (S n) out) = Ok (fill (fun i => f i / Normalization M i) (S n) out).
Proof.
  intros L. unfold divide_all.
  pose (g := fun i => f i / Normalization M i).
  pose (St := fun k => fill g k (fill f (S n) out)).
  change (fill f (S n) out) with (St 0%nat) at 1.
  rewrite (ofold_seq _ St (S n) 0).
  - cbn [Nat.add]. unfold St. rewrite fill_fill by lia. reflexivity.
  - intros o Ho. unfold St. rewrite fill_get_ge by (rewrite ?fill_length; lia).
    rewrite fill_get by lia. cbn [obind].
    rewrite fill_set; [| rewrite fill_length; lia | reflexivity].
    now replace (o + 1)%nat with (S o) by lia.
Qed.

(** The two initial writes leave the buffer filled up to min(1,n). *)
Lemma init_fill f n out a b : (n < length out)%nat -> a = f 0%nat -> b = f 1%nat ->
  (do out <- raw_set out 0 a; (if (0 <? n)%nat then raw_set out 1 b else Ok out)) = Ok (fill f (min 2 (S n)) out).
Proof.
  intros L -> ->. replace (raw_set out 0 (f 0%nat)) with (raw_set (fill f 0 out) 0 (f 0%nat)) by now rewrite fill_0.
  rewrite fill_set by (auto; lia). cbn [obind].
  destruct (Nat.ltb_spec 0 n).
  - rewrite fill_set by (auto; lia). destruct n; [lia|]. reflexivity.
  - destruct n; [|lia]. reflexivity.
Qed.

Lemma min2 n : (2 + (n - 1))%nat = max 2 (S n). Proof. lia. Qed.

Ltac fillstep :=
  match goal with
  | |- context[raw_get (fill ?f ?n ?o) ?i] => rewrite (fill_get f n o i) by lia; cbn [obind]
  end.

Definition All0 (M : mixer) (out : list R) (n : nat) (x : R) : outcome (list R) :=
  ofold (fun out o =>
              do v1 <- raw_get out (o - 1);
              do v2 <- raw_get out (o - 2);
              raw_set out o ((ak M o * x + bk M o) * v1 - ck M o * v2))
            (seq 2 (n - 1)) out.

Lemma EvaluateAll_P M nz out n x : (n < length out)%nat ->
  EvaluateAll M nz out n x = Ok (fill (fun k => P M k x / norm_of M nz k) (S n) out).
Proof.
  intros L. unfold EvaluateAll.
  assert (E : (do out <- raw_set out 0 (phi0 M x); do out <- (if 0 <? n then raw_set out 1 (phi1 M x) else Ok out)%nat;
     All0 M out n x) = Ok (fill (fun k => P M k x) (S n) out)).
  { assert (I := init_fill (fun k => P M k x) n out (phi0 M x) (phi1 M x) L eq_refl eq_refl).
    destruct (raw_set out 0 (phi0 M x)) as [o1| | |] eqn:E1; try discriminate. cbn [obind] in I |- *.
    rewrite I. cbn [obind]. unfold All0. destruct n as [|n].
    - reflexivity.
    - replace (Nat.min 2 (S (S n))) with 2%nat by lia.
      rewrite (ofold_seq _ (fun k => fill (fun k => P M k x) k out)).
      + replace (2 + (S n - 1))%nat with (S (S n)) by lia. reflexivity.
      + intros o Ho. destruct o as [|[|o]]; try lia. rewrite sub1, sub2. repeat fillstep.
        rewrite fill_set; [now replace (S (S o) + 1)%nat with (S (S (S o))) by lia | lia | reflexivity]. }
  unfold All0 in E.
  destruct (raw_set out 0 (phi0 M x)) as [o1| | |]; try discriminate. cbn [obind] in E |- *.
  destruct (if (0 <? n)%nat then raw_set o1 1 (phi1 M x) else Ok o1) as [o2| | |]; try discriminate. cbn [obind] in E |- *.
  rewrite E. cbn [obind]. destruct nz.
  - rewrite divide_all_spec by auto. reflexivity.
  - f_equal. apply fill_ext. intros. unfold norm_of. field.
Qed.

Lemma init0 f out a : (0 < length out)%nat -> a = f 0%nat -> raw_set out 0 a = Ok (fill f 1 out).
Proof. intros L ->. rewrite <- (fill_0 f out) at 1. now rewrite fill_set. Qed.

Lemma init1 f n out b : (n < length out)%nat -> b = f 1%nat ->
  (if (0 <? n)%nat then raw_set (fill f 1 out) 1 b else Ok (fill f 1 out)) = Ok (fill f (min 2 (S n)) out).
Proof.
  intros L ->. destruct (Nat.ltb_spec 0 n).
  - rewrite fill_set by (auto; lia). destruct n; [lia|]. reflexivity.
  - destruct n; [|lia]. reflexivity.
Qed.

Lemma EvaluateDerivatives1_P M nz out n x : (n < length out)%nat ->
  EvaluateDerivatives1 M nz out n x = Ok (fill (fun k => DP M k x / norm_of M nz k) (S n) out).
Proof.
  intros L. unfold EvaluateDerivatives1.
  rewrite (init0 (fun k => DP M k x)) by (auto; lia). cbn [obind].
  rewrite init1 by auto. cbn [obind].
  pose (St := fun k => (P M (k - 2) x, P M (k - 1) x, fill (fun k => DP M k x) k out)).
  destruct n as [|n].
  - cbn [Nat.sub seq ofold obind]. destruct nz.
    + replace (Nat.min 2 1) with 1%nat by lia. rewrite divide_all_spec by auto. reflexivity.
    + f_equal. apply fill_ext. intros. unfold norm_of. field.
  - replace (Nat.min 2 (S (S n))) with 2%nat by lia.
    change (phi0 M x, phi1 M x, fill (fun k => DP M k x) 2 out) with (St 2%nat).
    rewrite (ofold_seq _ St).
    + cbn [obind]. unfold St. replace (2 + (S n - 1))%nat with (S (S n)) by lia. destruct nz.
      * rewrite divide_all_spec by auto. reflexivity.
      * f_equal. apply fill_ext. intros. unfold norm_of. field.
    + intros o Ho. destruct o as [|[|o]]; try lia. unfold St.
      rewrite sub1, sub2. repeat fillstep. rewrite fill_set by (auto; lia). cbn [obind].
      replace (S (S o) + 1)%nat with (S (S (S o))) by lia. rewrite sub1, sub2. reflexivity.
Qed.

Lemma EvaluateDerivatives_P M nz vals derivs n x : (n < length vals)%nat -> (n < length derivs)%nat ->
  EvaluateDerivatives M nz vals derivs n x =
  Ok (fill (fun k => P M k x / norm_of M nz k) (S n) vals, fill (fun k => DP M k x / norm_of M nz k) (S n) derivs).
Proof.
  intros L L'. unfold EvaluateDerivatives.
  rewrite (init0 (fun k => P M k x)) by (auto; lia). cbn [obind].
  rewrite (init0 (fun k => DP M k x)) by (auto; lia). cbn [obind].
  rewrite init1 by auto. cbn [obind]. rewrite init1 by auto. cbn [obind].
  pose (St := fun k => (fill (fun k => P M k x) k vals, fill (fun k => DP M k x) k derivs)).
  change (fill (fun k => P M k x) (Nat.min 2 (S n)) vals, fill (fun k => DP M k x) (Nat.min 2 (S n)) derivs)
    with (St (Nat.min 2 (S n))).
  assert (E : ofold (fun (r : list R * list R) o =>
              let '(vals, derivs) := r in
              do v1 <- raw_get vals (o - 1);
              do v2 <- raw_get vals (o - 2);
              do vals <- raw_set vals o ((ak M o * x + bk M o) * v1 - ck M o * v2);
              do d1 <- raw_get derivs (o - 1);
              do d2 <- raw_get derivs (o - 2);
              do derivs <- raw_set derivs o (ak M o * v1 + (ak M o * x + bk M o) * d1 - ck M o * d2);
              Ok (vals, derivs)) (seq 2 (n - 1)) (St (Nat.min 2 (S n))) = Ok (St (S n))).
  { destruct n as [|n]; [reflexivity|]. replace (Nat.min 2 (S (S n))) with 2%nat by lia.
    rewrite (ofold_seq _ St).
    - replace (2 + (S n - 1))%nat with (S (S n)) by lia. reflexivity.
    - intros o Ho. destruct o as [|[|o]]; try lia. unfold St.
      rewrite sub1, sub2. repeat fillstep. rewrite fill_set by (auto; lia). cbn [obind].
      repeat fillstep. rewrite fill_set by (auto; lia). cbn [obind].
      replace (S (S o) + 1)%nat with (S (S (S o))) by lia. reflexivity. }
  rewrite E. cbn [obind]. unfold St. destruct nz.
  - rewrite !divide_all_spec by auto. reflexivity.
  - f_equal. f_equal; apply fill_ext; intros; unfold norm_of; field.
Qed.

Lemma EvaluateSecondDerivatives_P M nz vals derivs second n x :
  (n < length vals)%nat -> (n < length derivs)%nat -> (n < length second)%nat ->
  EvaluateSecondDerivatives M nz vals derivs second n x =
  Ok (fill (fun k => P M k x / norm_of M nz k) (S n) vals, fill (fun k => DP M k x / norm_of M nz k) (S n) derivs,
      fill (fun k => D2P M k x / norm_of M nz k) (S n) second).
Proof.
  intros L L' L''. unfold EvaluateSecondDerivatives.
  rewrite (init0 (fun k => P M k x)) by (auto; lia). cbn [obind].
  rewrite (init0 (fun k => DP M k x)) by (auto; lia). cbn [obind].
  rewrite (init0 (fun k => D2P M k x)) by (auto; lia). cbn [obind].
  rewrite init1 by auto. cbn [obind]. rewrite init1 by auto. cbn [obind]. rewrite init1 by auto. cbn [obind].
  pose (St := fun k => (fill (fun k => P M k x) k vals, fill (fun k => DP M k x) k derivs, fill (fun k => D2P M k x) k second)).
  change (fill (fun k => P M k x) (Nat.min 2 (S n)) vals, fill (fun k => DP M k x) (Nat.min 2 (S n)) derivs,
          fill (fun k => D2P M k x) (Nat.min 2 (S n)) second)
    with (St (Nat.min 2 (S n))).
  match goal with |- obind (ofold ?f ?l ?s) _ = _ => assert (E : ofold f l s = Ok (St (S n))) end.
  { destruct n as [|n]; [reflexivity|]. replace (Nat.min 2 (S (S n))) with 2%nat by lia.
    rewrite (ofold_seq _ St).
    - replace (2 + (S n - 1))%nat with (S (S n)) by lia. reflexivity.
    - intros o Ho. destruct o as [|[|o]]; try lia. unfold St.
      rewrite sub1, sub2. repeat fillstep. rewrite fill_set by (auto; lia). cbn [obind].
      repeat fillstep. rewrite fill_set by (auto; lia). cbn [obind].
      repeat fillstep. rewrite fill_set by (auto; lia). cbn [obind].
      replace (S (S o) + 1)%nat with (S (S (S o))) by lia. reflexivity. }
  rewrite E. cbn [obind]. unfold St. destruct nz.
  - rewrite !divide_all_spec by auto. reflexivity.
  - f_equal. f_equal; [f_equal|]; apply fill_ext; intros; unfold norm_of; field.
Qed.

(** ** Single-degree routines *)

(** Clenshaw's coefficients, from the top: b_n = 1, b_{n+1} = 0. *)
Lemma clenshaw_loop M x n : forall m, (m <= n)%nat ->
  forall s, s = fold_left (fun (y : R * R * R) k =>
          let '(yk2, yk1, yk) := y in
          (yk1, yk, (ak M (k + 1)%nat * x + bk M (k + 1)%nat) * yk + - ck M (k + 2)%nat * yk1))
        (rev (seq m (n - m))) (0, 0, 1) ->
  (0 < m)%nat ->
  P M n x = snd s * P M m x - ck M (m + 1)%nat * snd (fst s) * P M (m - 1) x.
Proof.
  intros m Hm. remember (n - m)%nat as d eqn:D. revert m Hm D.
  induction d as [|d IH]; intros m Hm D s -> Hp.
  - replace m with n by lia. cbn. ring.
  - cbn [seq rev]. rewrite fold_left_app. cbn [fold_left].
    specialize (IH (S m) ltac:(lia) ltac:(lia) _ eq_refl ltac:(lia)).
    match goal with |- context[fold_left ?f ?l ?s] => destruct (fold_left f l s) as [[y2 y1] y] end.
    cbn [fst snd] in *. rewrite IH. destruct m as [|m]; [lia|].
    rewrite P_SS. replace (S (S m) + 1)%nat with (S (S (S m))) by lia.
    replace (S m + 1)%nat with (S (S m)) by lia. replace (S m + 2)%nat with (S (S (S m))) by lia.
    replace (S (S m) - 1)%nat with (S m) by lia. replace (S m - 1)%nat with m by lia. ring.
Qed.

Lemma Evaluate_P M nz n x : Evaluate M nz n x = P M n x / norm_of M nz n.
Proof.
  unfold Evaluate. destruct n as [|[|n]]; try reflexivity.
  pose proof (clenshaw_loop M x (S (S n)) 1%nat ltac:(lia) _ eq_refl ltac:(lia)) as C.
  replace (S (S n) - 1)%nat with (S n) in C by lia.
  assert (RV : rev (seq 0 (S (S n))) = rev (seq 1 (S n)) ++ [0%nat]) by reflexivity.
  rewrite RV, fold_left_app. remember (rev (seq 1 (S n))) as l eqn:El. cbn [fold_left].
  match type of C with context[fold_left ?f ?l ?s] => destruct (fold_left f l s) as [[y2 y1] y] eqn:E end.
  cbn [fst snd Nat.add Nat.sub] in C. cbv zeta.
  fold (norm_of M nz (S (S n))). rewrite C. unfold Rdiv. f_equal.
  change (P M 1 x) with (phi1 M x). change (P M 0 x) with (phi0 M x). ring.
Qed.

Lemma Derivative_P M nz n x : n <> 1%nat -> Derivative M nz n x = DP M n x / norm_of M nz n.
Proof.
  intros Hn. unfold Derivative. destruct n as [|[|n]]; try congruence.
  - change (DP M 0 x) with 0. unfold Rdiv. ring.
  - pose (St := fun k => (P M (k - 2) x, P M (k - 1) x, DP M (k - 2) x, DP M (k - 1) x)).
    change (phi0 M x, phi1 M x, 0, phi1_deriv M x) with (St 2%nat).
    rewrite (fold_seq _ St).
    + unfold St. replace (2 + (S (S n) - 1) - 1)%nat with (S (S n)) by lia.
      unfold norm_of. destruct nz; auto. field.
    + intros o Ho. destruct o as [|[|o]]; try lia. unfold St.
      replace (S (S o) + 1)%nat with (S (S (S o))) by lia. rewrite !sub1, !sub2. reflexivity.
Qed.

Lemma SecondDerivative_P M nz n x : SecondDerivative M nz n x = D2P M n x / norm_of M nz n.
Proof.
  unfold SecondDerivative. destruct n as [|[|n]].
  - change (D2P M 0 x) with 0. unfold Rdiv. ring.
  - change (D2P M 1 x) with 0. unfold Rdiv. ring.
  - pose (St := fun k => (P M (k - 2) x, P M (k - 1) x, DP M (k - 2) x, DP M (k - 1) x, D2P M (k - 2) x, D2P M (k - 1) x)).
    change (phi0 M x, phi1 M x, 0, phi1_deriv M x, 0, 0) with (St 2%nat).
    rewrite (fold_seq _ St).
    + unfold St. replace (2 + (S (S n) - 1) - 1)%nat with (S (S n)) by lia.
      unfold norm_of. destruct nz; auto. field.
    + intros o Ho. destruct o as [|[|o]]; try lia. unfold St.
      replace (S (S o) + 1)%nat with (S (S (S o))) by lia. rewrite !sub1, !sub2. reflexivity.
Qed.

(** ** True derivatives *)

(** phi0 is constant, phi1 is affine and phi1_deriv is its derivative. *)
Definition proper (M : mixer) : Prop :=
  forall x, is_derive (phi0 M) x 0 /\ is_derive (phi1 M) x (phi1_deriv M x) /\ is_derive (phi1_deriv M) x 0.

Lemma P_derive M : proper M -> forall n x, is_derive (P M n) x (DP M n x).
Proof.
  intros H n x. pattern n. apply two_steps.
  - apply H.
  - apply H.
  - intros k H0 H1. rewrite DP_SS.
    apply (is_derive_ext (fun t => (ak M (S (S k)) * t + bk M (S (S k))) * P M (S k) t - ck M (S (S k)) * P M k t)).
    { intros t. reflexivity. }
    auto_derive.
    + split; [exists (DP M (S k) x); exact H1|]. split; auto. exists (DP M k x). exact H0.
    + rewrite (is_derive_unique (fun x : R => P M (S k) x) x _ H1), (is_derive_unique (fun x : R => P M k x) x _ H0). ring.
Qed.

Lemma DP_derive M : proper M -> forall n x, is_derive (DP M n) x (D2P M n x).
Proof.
  intros H n x. pattern n. apply two_steps.
  - apply (is_derive_const 0 x).
  - apply H.
  - intros k H0 H1. rewrite D2P_SS. pose proof (P_derive M H (S k) x) as H2.
    apply (is_derive_ext (fun t => ak M (S (S k)) * P M (S k) t + (ak M (S (S k)) * t + bk M (S (S k))) * DP M (S k) t - ck M (S (S k)) * DP M k t)).
    { intros t. reflexivity. }
    auto_derive.
    + repeat split; auto. { exists (DP M (S k) x); exact H2. } { exists (D2P M (S k) x); exact H1. } exists (D2P M k x). exact H0.
    + rewrite (is_derive_unique (fun x : R => P M (S k) x) x _ H2), (is_derive_unique (fun x : R => DP M (S k) x) x _ H1),
        (is_derive_unique (fun x : R => DP M k x) x _ H0). ring.
Qed.

Lemma is_derive_div_const f x l c : is_derive f x l -> is_derive (fun t => f t / c) x (l / c).
Proof.
  intros H. unfold Rdiv. apply (is_derive_ext (fun t => scal (/ c) (f t))).
  - intros t. unfold scal; cbn; unfold mult; cbn. ring.
  - replace (l * / c) with (scal (/ c) l) by (unfold scal; cbn; unfold mult; cbn; ring).
    apply is_derive_scal. exact H.
Qed.

Lemma proper_prob : proper ProbabilistHermite.
Proof. intros x. cbn. split; [|split]; auto_derive; auto. Qed.
Lemma proper_phys : proper PhysicistHermite.
Proof. intros x. cbn. split; [|split]; auto_derive; auto; ring. Qed.

Lemma P_prob n x : P ProbabilistHermite n x = He n x.
Proof.
  pattern n. apply two_steps; auto. intros k H0 H1. rewrite P_SS, H0, H1.
  cbn [ak bk ck ProbabilistHermite]. change (He (S (S k)) x) with (x * He (S k) x - INR (S k) * He k x).
  rewrite (S_INR (S k)). ring.
Qed.
Lemma P_phys n x : P PhysicistHermite n x = Hphys n x.
Proof.
  pattern n. apply two_steps; auto. intros k H0 H1. rewrite P_SS, H0, H1.
  cbn [ak bk ck PhysicistHermite]. change (Hphys (S (S k)) x) with (2 * x * Hphys (S k) x - 2 * INR (S k) * Hphys k x).
  rewrite (S_INR (S k)). ring.
Qed.

(** ** 32-bit factorial *)
Fixpoint zfact (n : nat) : Z := match n with O => 1%Z | S m => (zfact m * Z.of_nat (S m))%Z end.
Lemma zfact_fact n : zfact n = Z.of_nat (fact n).
Proof.
  induction n as [|n IH]; auto. cbn [zfact]. rewrite IH.
  change (fact (S n)) with (S n * fact n)%nat. rewrite Nat2Z.inj_mul. ring.
Qed.

Lemma Factorial_mod n : Factorial n = (zfact n mod two32)%Z.
Proof.
  unfold Factorial. destruct n as [|n]; [reflexivity|].
  replace (S n - 1)%nat with n by lia.
  pose (St := fun k => (zfact (k - 1) mod two32)%Z).
  change 1%Z with (St 2%nat). rewrite (fold_seq _ St).
  - unfold St. replace (2 + n - 1)%nat with (S n) by lia. reflexivity.
  - intros o Ho. unfold St. replace (o + 1 - 1)%nat with o by lia. destruct o as [|o]; [lia|].
    replace (S o - 1)%nat with o by lia. cbn [zfact]. rewrite Zmult_mod_idemp_l. reflexivity.
Qed.

Lemma zfact_pos n : (0 < zfact n)%Z.
Proof. induction n; cbn [zfact]; lia. Qed.

Lemma zfact_le n m : (n <= m)%nat -> (zfact n <= zfact m)%Z.
Proof. intros H. induction H; [lia|]. cbn [zfact]. pose proof (zfact_pos m). nia. Qed.

Lemma Factorial_small n : (n <= 12)%nat -> Factorial n = zfact n.
Proof.
  intros H. rewrite Factorial_mod. apply Z.mod_small. split; [pose proof (zfact_pos n); lia|].
  apply Z.le_lt_trans with (zfact 12); [apply zfact_le; lia|]. vm_compute. reflexivity.
Qed.

Lemma Factorial_large n : (13 <= n)%nat -> (Factorial n < zfact n)%Z.
Proof.
  intros H. rewrite Factorial_mod. apply Z.lt_le_trans with two32.
  - apply Z.mod_pos_bound. reflexivity.
  - apply Z.le_trans with (zfact 13); [|apply zfact_le; lia]. vm_compute. discriminate.
Qed.

Lemma Factorial_zero n : (34 <= n)%nat -> Factorial n = 0%Z.
Proof.
  intros H. rewrite Factorial_mod. induction H as [|m H IH].
  - vm_compute. reflexivity.
  - cbn [zfact]. rewrite Z.mul_mod, IH by discriminate. reflexivity.
Qed.

Lemma Factorial_nonneg n : (0 <= Factorial n)%Z.
Proof. rewrite Factorial_mod. apply Z.mod_pos_bound. reflexivity. Qed.

Lemma Factorial_nonzero n : (n <= 33)%nat -> (0 < Factorial n)%Z.
Proof.
  intros H. do 34 (destruct n as [|n]; [vm_compute; reflexivity|]). lia.
Qed.

Lemma INR_fact n : INR (fact n) = IZR (zfact n).
Proof. rewrite zfact_fact. now rewrite INR_IZR_INZ. Qed.

Lemma sqrt_pi_pos : 0 < sqrt PI.
Proof. apply sqrt_lt_R0, PI_RGT_0. Qed.
Lemma sqrt_2pi_pos : 0 < sqrt (2 * PI).
Proof. apply sqrt_lt_R0. pose proof PI_RGT_0. lra. Qed.
Lemma pow2_pos n : 0 < 2 ^ n.
Proof. apply pow_lt. lra. Qed.

(** ** Hermite functions *)
Definition hs (n : nat) : R := / sqrt (2 ^ n * INR (fact n) * sqrt PI).
Definition he (x : R) : R := exp (- (1/2) * x * x).

Lemma hs_arg_pos n : 0 < 2 ^ n * INR (fact n) * sqrt PI.
Proof. apply Rmult_lt_0_compat; [|apply sqrt_pi_pos]. apply Rmult_lt_0_compat; [apply pow2_pos|]. apply INR_fact_lt_0. Qed.

Lemma hs_pos n : 0 < hs n.
Proof. apply Rinv_0_lt_compat, sqrt_lt_R0, hs_arg_pos. Qed.

Lemma he_pos x : 0 < he x.
Proof. apply exp_pos. Qed.

Lemma psi_eq n x : psi n x = hs n * he x * Hphys n x.
Proof. unfold psi, hs, he. replace (- (x * x) / 2) with (- (1/2) * x * x) by field. unfold Rdiv. ring. Qed.

Lemma hs_S n : hs (S n) = hs n / (2 * sqrt (1/2 * INR (S n))).
Proof.
  assert (HP : 0 < INR (S n)) by (apply lt_0_INR; lia).
  assert (E : 2 * sqrt (1/2 * INR (S n)) = sqrt (Rsqr 2 * (1/2 * INR (S n)))).
  { rewrite (sqrt_mult (Rsqr 2) (1/2 * INR (S n))) by (unfold Rsqr; lra). rewrite sqrt_Rsqr by lra. reflexivity. }
  rewrite E. unfold hs.
  change (fact (S n)) with (S n * fact n)%nat. rewrite mult_INR.
  replace (2 ^ S n * (INR (S n) * INR (fact n)) * sqrt PI)
    with ((2 ^ n * INR (fact n) * sqrt PI) * (Rsqr 2 * (1/2 * INR (S n)))) by (unfold Rsqr; cbn [pow]; field).
  pose proof (hs_arg_pos n).
  rewrite sqrt_mult; [|lra|unfold Rsqr; lra].
  unfold Rdiv. rewrite Rinv_mult. reflexivity.
Qed.

Lemma hs_0 : hs 0 = Rpower PI (-1/4).
Proof.
  unfold hs. cbn [pow fact INR]. rewrite !Rmult_1_l.
  replace (-1/4) with (- (/2 * /2)) by field. rewrite Rpower_Ropp, <- Rpower_mult, !Rpower_sqrt; auto.
  - apply PI_RGT_0.
  - rewrite Rpower_sqrt by apply PI_RGT_0. apply sqrt_pi_pos.
Qed.

Lemma Hphys_SS k x : Hphys (S (S k)) x = 2 * x * Hphys (S k) x - 2 * INR (S k) * Hphys k x.
Proof. reflexivity. Qed.

Lemma psi_rec k x : psi (S (S k)) x =
  (x * psi (S k) x - sqrt (1/2 * (INR (S (S k)) - 1)) * psi k x) / sqrt (1/2 * INR (S (S k))).
Proof.
  rewrite !psi_eq, Hphys_SS. rewrite (hs_S (S k)), (hs_S k).
  replace (INR (S (S k)) - 1) with (INR (S k)) by (rewrite (S_INR (S k)); ring).
  assert (HP : 0 < INR (S k)) by (apply lt_0_INR; lia).
  assert (HP2 : 0 < INR (S (S k))) by (apply lt_0_INR; lia).
  assert (B2 : sqrt (1/2 * INR (S k)) * sqrt (1/2 * INR (S k)) = 1/2 * INR (S k)) by (apply sqrt_sqrt; lra).
  assert (BP : 0 < sqrt (1/2 * INR (S k))) by (apply sqrt_lt_R0; lra).
  assert (AP : 0 < sqrt (1/2 * INR (S (S k)))) by (apply sqrt_lt_R0; lra).
  set (B := sqrt (1/2 * INR (S k))) in *. set (A := sqrt (1/2 * INR (S (S k)))) in *.
  replace (2 * INR (S k)) with (4 * (B * B)) by (rewrite B2; field).
  field. lra.
Qed.

Lemma psi_0 x : psi 0 x = Rpower PI (-1/4) * he x.
Proof. rewrite psi_eq, hs_0. cbn [Hphys]. ring. Qed.

Lemma psi_1 x : psi 1 x = sqrt 2 * x * psi 0 x.
Proof.
  rewrite !psi_eq, hs_S. cbn [Hphys INR]. rewrite Rmult_1_r.
  assert (E : sqrt (1/2) = / sqrt 2).
  { replace (1/2) with (/2) by field. apply sqrt_inv. }
  rewrite E. assert (0 < sqrt 2) by (apply sqrt_lt_R0; lra).
  field. lra.
Qed.

Lemma hf_EvaluateAll_spec out n x : (n < length out)%nat ->
  hf_EvaluateAll out n x = Ok (fill (fun k => hbasis k x) (S n) out).
Proof.
  intros L. unfold hf_EvaluateAll.
  rewrite (init0 (fun k => hbasis k x)) by (auto; lia). cbn [obind].
  destruct (Nat.ltb_spec 0 n); [|replace n with 0%nat by lia; reflexivity].
  rewrite fill_set by (auto; lia). cbn [obind].
  destruct (Nat.ltb_spec 1 n); [|replace n with 1%nat by lia; reflexivity].
  rewrite fill_set; [|lia|symmetry; apply psi_0]. cbn [obind].
  destruct (Nat.ltb_spec 2 n); [|replace n with 2%nat by lia; reflexivity].
  fillstep. rewrite fill_set; [|lia|symmetry; apply psi_1]. cbn [obind].
  pose (St := fun k => fill (fun k => hbasis k x) (k + 2) out).
  change (fill (fun k => hbasis k x) 4 out) with (St 2%nat).
  rewrite (ofold_seq _ St).
  - unfold St. replace (2 + (n - 3) + 2)%nat with (S n) by lia. reflexivity.
  - intros o Ho. unfold St. destruct o as [|[|o]]; try lia.
    replace (S (S o) + 2)%nat with (S (S (S (S o)))) by lia.
    replace (S (S o) + 1)%nat with (S (S (S o))) by lia.
    repeat fillstep. replace (S (S (S o)) + 2)%nat with (S (S (S (S (S o))))) by lia.
    rewrite fill_set; [reflexivity|lia|]. symmetry. apply psi_rec.
Qed.

(** The derivative of H_{n+1} is 2(n+1) H_n. *)
Notation PH := PhysicistHermite.

Lemma DP_phys n x : DP PH (S n) x = 2 * INR (S n) * P PH n x.
Proof.
  pattern n. apply two_steps.
  - cbn. unfold DP, P; cbn. ring.
  - unfold DP, P; cbn. ring.
  - intros k H0 H1. rewrite DP_SS, H0, H1, !P_SS. cbn [ak bk ck PhysicistHermite]. rewrite !S_INR. ring.
Qed.

Lemma D2P_phys n x : D2P PH (S n) x = 2 * INR (S n) * DP PH n x.
Proof.
  assert (H := DP_derive PH proper_phys (S n) x).
  assert (H' : is_derive (DP PH (S n)) x (2 * INR (S n) * DP PH n x)).
  { apply (is_derive_ext (fun t => scal (2 * INR (S n)) (P PH n t))).
    - intros t. symmetry. apply DP_phys.
    - apply (is_derive_scal (P PH n) x (2 * INR (S n))). apply P_derive, proper_phys. }
  rewrite <- (is_derive_unique _ _ _ H). apply is_derive_unique. exact H'.
Qed.

(** Hermite's differential equation. *)
Lemma hermite_ode n x : D2P PH n x = 2 * x * DP PH n x - 2 * INR n * P PH n x.
Proof.
  destruct n as [|m].
  - change (D2P PH 0 x) with 0. change (DP PH 0 x) with 0. cbn [INR]. ring.
  - rewrite D2P_phys, DP_phys. destruct m as [|k].
    + unfold DP, P; cbn. ring.
    + rewrite DP_phys, !P_SS. cbn [ak bk ck PhysicistHermite]. rewrite !S_INR. ring.
Qed.

Definition dpsi (n : nat) (x : R) : R := hs n * he x * (DP PH n x - x * P PH n x).

Lemma psi_derive n x : is_derive (psi n) x (dpsi n x).
Proof.
  apply (is_derive_ext (fun t => hs n * exp (- (1/2) * t * t) * P PH n t)).
  { intros t. rewrite psi_eq, P_phys. reflexivity. }
  pose proof (P_derive PH proper_phys n x) as H.
  auto_derive.
  - exists (DP PH n x). exact H.
  - rewrite (is_derive_unique (fun x : R => P PH n x) x _ H). unfold dpsi, he. field.
Qed.

Lemma dpsi_derive n x : is_derive (dpsi n) x (- (2 * INR n + 1 - x * x) * psi n x).
Proof.
  pose proof (P_derive PH proper_phys n x) as H. pose proof (DP_derive PH proper_phys n x) as H2.
  unfold dpsi at 1. unfold he. auto_derive.
  - repeat split; auto. { exists (D2P PH n x). exact H2. } exists (DP PH n x). exact H.
  - rewrite (is_derive_unique (fun x : R => P PH n x) x _ H), (is_derive_unique (fun x : R => DP PH n x) x _ H2).
    rewrite hermite_ode, psi_eq, <- P_phys. unfold he. field.
Qed.

Definition dhbasis (n : nat) (x : R) : R := match n with O => 0 | S O => 1 | S (S k) => dpsi k x end.
Definition d2hbasis (n : nat) (x : R) : R :=
  match n with O => 0 | S O => 0 | S (S k) => - (2 * INR k + 1 - x * x) * psi k x end.

Lemma hbasis_derive n x : is_derive (hbasis n) x (dhbasis n x).
Proof.
  destruct n as [|[|k]].
  - apply (is_derive_const 1 x).
  - apply (is_derive_id x).
  - apply psi_derive.
Qed.
Lemma dhbasis_derive n x : is_derive (dhbasis n) x (d2hbasis n x).
Proof.
  destruct n as [|[|k]].
  - apply (is_derive_const 0 x).
  - apply (is_derive_const 1 x).
  - apply dpsi_derive.
Qed.

Lemma pow_mhalf_hs i : Rpower PI (-1/4) * pow_mhalf (2 ^ i * INR (fact i)) = hs i.
Proof.
  rewrite <- hs_0. unfold hs, pow_mhalf. cbn [pow fact INR]. rewrite !Rmult_1_l.
  rewrite <- Rinv_mult. f_equal. rewrite <- sqrt_mult.
  - f_equal. ring.
  - apply sqrt_pos.
  - pose proof (pow2_pos i). pose proof (INR_fact_lt_0 i). nra.
Qed.

Definition tail2 (a b : R) (h : nat -> R) (k : nat) : R := match k with O => a | S O => b | S (S j) => h j end.

Lemma fill_tail2 f h m v : (m + 2 <= length v)%nat ->
  firstn 2 (fill f 2 v) ++ fill h m (skipn 2 v) = fill (tail2 (f 0%nat) (f 1%nat) h) (S (S m)) v.
Proof.
  intros H. destruct v as [|a [|b v]]; cbn [length] in H; try lia.
  rewrite !fill_cons. reflexivity.
Qed.

Lemma skipn_fill2 f v : (2 <= length v)%nat -> skipn 2 (fill f 2 v) = skipn 2 v.
Proof. intros H. destruct v as [|a [|b v]]; cbn [length] in H; try lia. reflexivity. Qed.

Lemma fill_same f g k n out : (k <= n)%nat -> (n <= length out)%nat -> (forall i, (i < k)%nat -> f i = g i) ->
  fill f k (fill g n out) = fill g n out.
Proof.
  intros H L E. apply nth_ext_eq with (d := 0).
  - rewrite !fill_length; rewrite ?fill_length; lia.
  - intros i Hi. destruct (Nat.lt_ge_cases i k).
    + rewrite !fill_nth_lt by lia. auto.
    + rewrite (fill_nth_ge f); auto.
Qed.

(** A fill loop over a buffer already filled by [g]. *)
Definition over (f g : nat -> R) (n k : nat) (out : list R) : list R := fill f k (fill g n out).
Lemma over_get f g n k out i : (k <= i < n)%nat -> (n <= length out)%nat -> raw_get (over f g n k out) i = Ok (g i).
Proof. intros H L. unfold over. rewrite fill_get_ge by (rewrite ?fill_length; lia). rewrite fill_get by lia. auto. Qed.
Lemma over_set f g n k out v : (k < n)%nat -> (n <= length out)%nat -> v = f k ->
  raw_set (over f g n k out) k v = Ok (over f g n (S k) out).
Proof. intros H L E. unfold over. apply fill_set; auto. rewrite fill_length; lia. Qed.
Lemma over_done f g n out : (n <= length out)%nat -> over f g n n out = fill f n out.
Proof. intros L. apply fill_fill. auto. Qed.

Lemma hf_EvaluateDerivatives_spec vals derivs n x : (n < length vals)%nat -> (n < length derivs)%nat ->
  hf_EvaluateDerivatives vals derivs n x =
  Ok (fill (fun k => hbasis k x) (S n) vals, fill (fun k => dhbasis k x) (S n) derivs).
Proof.
  intros L L'. unfold hf_EvaluateDerivatives.
  rewrite (init0 (fun k => hbasis k x)) by (auto; lia). cbn [obind].
  rewrite (init0 (fun k => dhbasis k x)) by (auto; lia). cbn [obind].
  destruct (Nat.ltb_spec 0 n); [|replace n with 0%nat by lia; reflexivity].
  rewrite fill_set by (auto; lia). cbn [obind]. rewrite fill_set by (auto; lia). cbn [obind].
  destruct (Nat.ltb_spec 1 n); [|replace n with 1%nat by lia; reflexivity].
  rewrite !skipn_fill2 by lia.
  rewrite EvaluateDerivatives_P by (rewrite skipn_length; lia). cbn [obind fst snd].
  rewrite !fill_tail2 by lia. cbn [hbasis dhbasis].
  replace (S (S (S (n - 2)))) with (S n) by lia.
  set (gv := tail2 1 x _). set (gd := tail2 0 1 _).
  assert (EV : fill gv (S n) vals = over (fun k => hbasis k x) gv (S n) 2 vals).
  { symmetry. apply fill_same; try lia. intros [|[|i]] Hi; auto; lia. }
  assert (ED : fill gd (S n) derivs = over (fun k => dhbasis k x) gd (S n) 2 derivs).
  { symmetry. apply fill_same; try lia. intros [|[|i]] Hi; auto; lia. }
  rewrite EV, ED. clear EV ED.
  rewrite over_get by lia. cbn [obind]. rewrite over_get by lia. cbn [obind].
  change (exp (- (1/2) * x * x)) with (he x).
  rewrite over_set; [|lia|lia|]. cbn [obind].
  2: { cbn. unfold dpsi. rewrite hs_0. unfold norm_of. rewrite !Rdiv_1. ring. }
  rewrite over_set; [|lia|lia|]. cbn [obind].
  2: { cbn. rewrite psi_eq, hs_0, <- P_phys. unfold norm_of. rewrite !Rdiv_1. ring. }
  pose (St := fun i => (INR (fact (i - 1)), over (fun k => hbasis k x) gv (S n) (i + 2) vals,
                        over (fun k => dhbasis k x) gd (S n) (i + 2) derivs)).
  change (1, over (fun k => hbasis k x) gv (S n) 3 vals, over (fun k => dhbasis k x) gd (S n) 3 derivs) with (St 1%nat).
  rewrite (ofold_seq _ St).
  - cbn [obind]. unfold St. replace (1 + (n - 2) + 2)%nat with (S n) by lia. rewrite !over_done by lia. reflexivity.
  - intros o Ho. unfold St. rewrite over_get by lia. cbn [obind]. rewrite over_get by lia. cbn [obind].
    destruct o as [|o]; [lia|].
    replace (S o - 1)%nat with o by lia. replace (S o + 2)%nat with (S (S (S o))) by lia.
    replace (S o + 1 - 1)%nat with (S o) by lia. replace (S o + 1 + 2)%nat with (S (S (S (S o)))) by lia.
    assert (F : INR (fact o) * INR (S o) = INR (fact (S o))) by (rewrite <- mult_INR; f_equal; cbn [fact]; lia).
    rewrite F.
    replace (Rpower PI (-1 / 4) * he x * pow_mhalf (2 ^ S o * INR (fact (S o)))) with (hs (S o) * he x)
      by (rewrite <- pow_mhalf_hs; ring).
    rewrite over_set; [|lia|lia|]. cbn [obind].
    2: { unfold gd, gv. cbn [tail2 dhbasis]. unfold dpsi, norm_of. rewrite !Rdiv_1. ring. }
    rewrite over_set; [|lia|lia|]. cbn [obind].
    2: { unfold gd, gv. cbn [tail2 hbasis]. rewrite psi_eq, <- P_phys. unfold norm_of. rewrite !Rdiv_1. ring. }
    reflexivity.
Qed.

Lemma hf_EvaluateSecondDerivatives_spec vals derivs d2 n x :
  (n < length vals)%nat -> (n < length derivs)%nat -> (n < length d2)%nat ->
  hf_EvaluateSecondDerivatives vals derivs d2 n x =
  Ok (fill (fun k => hbasis k x) (S n) vals, fill (fun k => dhbasis k x) (S n) derivs, fill (fun k => d2hbasis k x) (S n) d2).
Proof.
  intros L L' L''. unfold hf_EvaluateSecondDerivatives.
  rewrite hf_EvaluateDerivatives_spec by auto. cbn [obind].
  rewrite (init0 (fun k => d2hbasis k x)) by (auto; lia). cbn [obind].
  rewrite init1 by auto. cbn [obind].
  destruct (Nat.ltb_spec 1 n).
  - replace (Nat.min 2 (S n)) with 2%nat by lia.
    pose (St := fun k => fill (fun k => d2hbasis k x) (k + 2) d2).
    change (fill (fun k => d2hbasis k x) 2 d2) with (St 0%nat).
    rewrite (ofold_seq _ St).
    + unfold St. replace (0 + (n - 1) + 2)%nat with (S n) by lia. reflexivity.
    + intros o Ho. unfold St. fillstep. rewrite fill_set; [|lia|].
      * do 2 f_equal; lia.
      * replace (o + 2)%nat with (S (S o)) by lia. reflexivity.
  - cbn [obind]. replace (Nat.min 2 (S n)) with (S n) by lia. reflexivity.
Qed.

Lemma hf_Evaluate_psi n x : (n <= 12)%nat -> hf_Evaluate (S (S n)) x = psi n x.
Proof.
  intros H. cbn [hf_Evaluate]. rewrite Evaluate_P, P_phys, psi_eq. unfold norm_of. rewrite Rdiv_1.
  unfold hf_scaling, pow_mhalf, hs, he. rewrite Factorial_small by auto. rewrite INR_fact. reflexivity.
Qed.

Lemma hf_Derivative_psi n x : (n <= 12)%nat -> hf_Derivative (S (S n)) x = dpsi n x.
Proof.
  intros H. cbn [hf_Derivative]. rewrite Evaluate_P. unfold dpsi, he, hf_scaling, pow_mhalf, hs.
  rewrite Factorial_small, INR_fact by auto.
  assert (E : Derivative PH false n x = DP PH n x).
  { destruct (Nat.eq_dec n 1) as [->|Hn]; [reflexivity|]. rewrite Derivative_P by auto. unfold norm_of. apply Rdiv_1. }
  rewrite E. unfold norm_of. rewrite Rdiv_1. ring.
Qed.

Lemma Hphys_pos m x : 0 < x -> 2 * INR m <= x * x -> forall k, (k <= m)%nat -> 0 < Hphys k x /\ x * Hphys k x <= Hphys (S k) x.
Proof.
  intros Hx Hm. induction k as [|k IH]; intros Hk.
  - cbn. lra.
  - destruct IH as [A B]; [lia|]. assert (C : 0 < Hphys (S k) x) by nra. split; auto.
    rewrite Hphys_SS. assert (D : INR (S k) <= INR m) by (apply le_INR; lia).
    assert (E : 0 < INR (S k)) by (apply lt_0_INR; lia).
    assert (F : x * (INR (S k) * Hphys k x) <= INR (S k) * Hphys (S k) x) by nra.
    assert (G : 2 * (x * (INR (S k) * Hphys k x)) <= x * x * Hphys (S k) x) by nra.
    assert (K : 2 * (INR (S k) * Hphys k x) <= x * Hphys (S k) x).
    { apply Rmult_le_reg_l with x; auto. nra. }
    lra.
Qed.
