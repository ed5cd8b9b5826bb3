(** The determinant is the only alternating multilinear form that is 1 at the identity; hence it is
    multiplicative. Matrices are functions here; the last part connects them to lists of rows. *)
From Coq Require Import Reals List Lia Lra FunctionalExtensionality.
From Verif Require Import Base SpecExpansion SpecMaps QuadCC.
Import ListNotations.
Local Open Scope R_scope.

Definition mtx := nat -> nat -> R.
Definition skip (j k : nat) : nat := if (k <? j)%nat then k else S k.
Definition minor (A : mtx) (j : nat) : mtx := fun i k => A (S i) (skip j k).
Fixpoint D (n : nat) (A : mtx) : R :=
  match n with O => 1 | S m => rsum (fun j => (-1) ^ j * A 0%nat j * D m (minor A j)) (S m) end.
Definition setrow (A : mtx) (i : nat) (r : nat -> R) : mtx := fun i' => if (i' =? i)%nat then r else A i'.
Definition one : mtx := fun i j => if (i =? j)%nat then 1 else 0.

Lemma rsum_ext' f g n : (forall i, (i < n)%nat -> f i = g i) -> rsum f n = rsum g n.
Proof. induction n as [|n IH]; intros H; cbn; auto. rewrite IH, H; auto. Qed.

Lemma D_ext n : forall A B : mtx, (forall i j, (i < n)%nat -> (j < n)%nat -> A i j = B i j) -> D n A = D n B.
Proof.
  induction n as [|n IH]; intros A B H; auto. cbn [D]. apply rsum_ext'. intros j Hj. rewrite H by lia. f_equal. apply IH.
  intros i k Hi Hk. unfold minor. apply H; [lia|]. unfold skip. destruct (Nat.ltb_spec k j); lia.
Qed.

Record altform (n : nat) (F : mtx -> R) : Prop := {
  af_ext : forall A B, (forall i j, (i < n)%nat -> (j < n)%nat -> A i j = B i j) -> F A = F B;
  af_lin : forall A i a r s, (i < n)%nat -> F (setrow A i (fun k => a * r k + s k)) = a * F (setrow A i r) + F (setrow A i s);
  af_alt : forall A i, (S i < n)%nat -> (forall j, A i j = A (S i) j) -> F A = 0 }.

Lemma minor_setrow_S A i r j : minor (setrow A (S i) r) j = setrow (minor A j) i (fun k => r (skip j k)).
Proof.
  apply functional_extensionality; intros i'. apply functional_extensionality; intros k. unfold minor, setrow. cbn [Nat.eqb].
  destruct (Nat.eqb_spec i' i); auto.
Qed.
Lemma minor_setrow_0 A r j : minor (setrow A 0 r) j = minor A j.
Proof. reflexivity. Qed.

Lemma D_lin n : forall A i a r s, (i < n)%nat -> D n (setrow A i (fun k => a * r k + s k)) = a * D n (setrow A i r) + D n (setrow A i s).
Proof.
  induction n as [|n IH]; intros A i a r s Hi; [lia|]. cbn [D]. rewrite <- rsum_scal, <- rsum_plus. apply rsum_ext'. intros j Hj.
  destruct i as [|i].
  - rewrite !minor_setrow_0. unfold setrow. cbn [Nat.eqb]. ring.
  - rewrite !minor_setrow_S. rewrite (IH (minor A j) i a (fun k => r (skip j k)) (fun k => s (skip j k))) by lia.
    change (setrow A (S i) (fun k => a * r k + s k) 0%nat j) with (A 0%nat j). change (setrow A (S i) r 0%nat j) with (A 0%nat j).
    change (setrow A (S i) s 0%nat j) with (A 0%nat j). ring.
Qed.

Lemma pair_cancel (T : nat -> nat -> R) m : (forall j k, (j <= k)%nat -> (k < m)%nat -> T j k + T (S k) j = 0) ->
  rsum (fun j => rsum (fun k => T j k) m) (S m) = 0.
Proof.
  induction m as [|m IH]; intros H; [cbn; ring|].
  assert (E : rsum (fun j => rsum (fun k => T j k) (S m)) (S (S m)) =
              rsum (fun j => rsum (fun k => T j k) m) (S m) + (rsum (fun j => T j m) (S m) + rsum (fun k => T (S m) k) (S m))).
  { change (rsum (fun j => rsum (fun k => T j k) (S m)) (S (S m))) with
      (rsum (fun j => rsum (fun k => T j k) m + T j m) (S m) + rsum (fun k => T (S m) k) (S m)). rewrite rsum_plus. ring. }
  rewrite E, IH by (intros; apply H; lia). rewrite <- rsum_plus, rsum_zero; [ring|]. intros i Hi. apply H; lia.
Qed.
Lemma skip_skip j k l : (j <= k)%nat -> skip j (skip k l) = skip (S k) (skip j l).
Proof.
  intros H. unfold skip. destruct (Nat.ltb_spec l k), (Nat.ltb_spec l j); try lia.
  - destruct (Nat.ltb_spec l j), (Nat.ltb_spec l (S k)); lia.
  - destruct (Nat.ltb_spec l j), (Nat.ltb_spec (S l) (S k)); lia.
  - destruct (Nat.ltb_spec (S l) j), (Nat.ltb_spec (S l) (S k)); lia.
Qed.

Lemma D_alt n : forall A i, (S i < n)%nat -> (forall j, A i j = A (S i) j) -> D n A = 0.
Proof.
  induction n as [|n IH]; intros A i Hi H; [lia|]. destruct i as [|i].
  - destruct n as [|m]; [lia|]. cbn [D].
    rewrite (rsum_ext' _ (fun j => rsum (fun k => (-1) ^ j * A 0%nat j * ((-1) ^ k * A 1%nat (skip j k) * D m (minor (minor A j) k))) (S m))).
    2:{ intros j _. rewrite rsum_scal. reflexivity. }
    apply pair_cancel. intros j k Hjk Hk.
    assert (E : minor (minor A (S k)) j = minor (minor A j) k).
    { apply functional_extensionality; intros i. apply functional_extensionality; intros l. unfold minor. rewrite (skip_skip j k l) by auto. reflexivity. }
    rewrite E, <- !H. assert (skip j k = S k) as -> by (unfold skip; destruct (Nat.ltb_spec k j); lia).
    assert (skip (S k) j = j) as -> by (unfold skip; destruct (Nat.ltb_spec j (S k)); lia). cbn [pow]. ring.
  - cbn [D]. apply rsum_zero. intros j Hj. rewrite (IH (minor A j) i); [ring|lia|]. intros k. unfold minor. apply H.
Qed.
Lemma D_altform n : altform n (D n).
Proof. split; [apply D_ext|apply D_lin|apply D_alt]. Qed.

Section Form.
Variables (n : nat) (F : mtx -> R).
Hypothesis HF : altform n F.

Lemma setrow_same A i r : setrow A i r i = r.
Proof. unfold setrow. rewrite Nat.eqb_refl. reflexivity. Qed.
Lemma setrow_other A i j r : j <> i -> setrow A i r j = A j.
Proof. intros H. unfold setrow. destruct (Nat.eqb_spec j i); congruence. Qed.
Lemma setrow_id A i : setrow A i (A i) = A.
Proof. apply functional_extensionality; intros k. unfold setrow. destruct (Nat.eqb_spec k i); congruence. Qed.
Lemma setrow_comm A i j r s : i <> j -> setrow (setrow A i r) j s = setrow (setrow A j s) i r.
Proof.
  intros H. apply functional_extensionality; intros k. unfold setrow. destruct (Nat.eqb_spec k j), (Nat.eqb_spec k i); congruence.
Qed.
Lemma setrow_twice A i r s : setrow (setrow A i r) i s = setrow A i s.
Proof. apply functional_extensionality; intros k. unfold setrow. destruct (Nat.eqb_spec k i); congruence. Qed.
Definition swaprows (A : mtx) (i j : nat) : mtx := setrow (setrow A i (A j)) j (A i).

Lemma F_add A i r s : (i < n)%nat -> F (setrow A i (fun k => r k + s k)) = F (setrow A i r) + F (setrow A i s).
Proof.
  intros H. transitivity (F (setrow A i (fun k => 1 * r k + s k))).
  - f_equal. f_equal. apply functional_extensionality; intros k. ring.
  - rewrite (af_lin n F HF) by auto. ring.
Qed.
(** Equal rows at two places i, j kill F for all matrices: then exchanging rows there changes the sign. *)
Lemma F_swap_of i j : (i < n)%nat -> (j < n)%nat -> i <> j -> (forall A, A i = A j -> F A = 0) ->
  forall A, F (swaprows A i j) = - F A.
Proof.
  intros Hi Hj Hij H A. pose (r := A i). pose (s := A j). pose (X := fun u v => F (setrow (setrow A i u) j v)).
  assert (Z : forall u, X u u = 0).
  { intros u. apply H. rewrite setrow_same. rewrite setrow_other by auto. apply setrow_same. }
  assert (A1 : forall u v w, X (fun k => u k + v k) w = X u w + X v w).
  { intros u v w. unfold X. rewrite !(setrow_comm A i j) by auto. apply F_add. auto. }
  assert (A2 : forall u v w, X w (fun k => u k + v k) = X w u + X w v).
  { intros u v w. unfold X. apply F_add. auto. }
  pose proof (Z (fun k => r k + s k)) as E. rewrite A1, !A2, !Z in E.
  assert (E1 : X r s = F A) by (unfold X, r, s; f_equal; rewrite setrow_id; apply setrow_id).
  assert (E2 : X s r = F (swaprows A i j)) by reflexivity. lra.
Qed.
Lemma F_alt : forall k i A, (i < k)%nat -> (k < n)%nat -> A i = A k -> F A = 0.
Proof.
  induction k as [|k IH]; intros i A Hi Hk E; [lia|]. destruct (Nat.eq_dec i k) as [->|N].
  - apply (af_alt n F HF) with (i := k); auto. intros j. rewrite E. auto.
  - assert (Hs : F (swaprows A k (S k)) = - F A).
    { apply F_swap_of; try lia. intros B EB. apply (af_alt n F HF) with (i := k); auto. intros j. rewrite EB. auto. }
    assert (F (swaprows A k (S k)) = 0); [|lra]. apply (IH i); try lia. unfold swaprows.
    rewrite setrow_other by lia. rewrite setrow_other by lia. rewrite setrow_other by lia. rewrite setrow_same. auto.
Qed.
Lemma F_swap i j A : (i < j)%nat -> (j < n)%nat -> F (swaprows A i j) = - F A.
Proof. intros H1 H2. apply F_swap_of; try lia. intros B E. apply (F_alt j i); auto. Qed.
Lemma F_zero_row A i : (i < n)%nat -> F (setrow A i (fun _ => 0)) = 0.
Proof.
  intros H. pose proof (F_add A i (fun _ => 0) (fun _ => 0) H) as E.
  assert (Z : (fun _ : nat => 0 + 0) = (fun _ : nat => 0)) by (apply functional_extensionality; intros; ring). cbv beta in E. rewrite Z in E. lra.
Qed.
(** Adding a multiple of row 0 to a later row. *)
Lemma F_shear A i a : (0 < i)%nat -> (i < n)%nat -> F (setrow A i (fun k => a * A 0%nat k + A i k)) = F A.
Proof.
  intros H0 Hi. rewrite (af_lin n F HF) by auto. rewrite setrow_id. rewrite (F_alt i 0 (setrow A i (A 0%nat))); [ring|auto|auto|].
  rewrite setrow_same. apply setrow_other. lia.
Qed.
Definition unit_row (j : nat) : nat -> R := fun k => if (k =? j)%nat then 1 else 0.
Lemma F_expand A i m (c : nat -> R) : (i < n)%nat -> F (setrow A i (fun k => rsum (fun j => c j * unit_row j k) m)) = rsum (fun j => c j * F (setrow A i (unit_row j))) m.
Proof.
  intros Hi. induction m as [|m IH]; [apply F_zero_row; auto|]. cbn [rsum]. rewrite <- IH.
  transitivity (F (setrow A i (fun k => c m * unit_row m k + rsum (fun j => c j * unit_row j k) m))).
  - f_equal. f_equal. apply functional_extensionality; intros k. ring.
  - rewrite (af_lin n F HF) by auto. ring.
Qed.
End Form.

Definition ins (j : nat) (b : nat -> R) : nat -> R := fun k => if (k <? j)%nat then b k else if (k =? j)%nat then 0 else b (k - 1)%nat.
(** Row 0 is the j-th unit row, the others are the rows of B with a zero inserted at column j. *)
Definition grow (j : nat) (B : mtx) : mtx := fun i => match i with O => unit_row j | S i => ins j (B i) end.
Lemma grow_setrow j B i r : grow j (setrow B i r) = setrow (grow j B) (S i) (ins j r).
Proof.
  apply functional_extensionality; intros [|i']; [reflexivity|]. cbn [grow]. unfold setrow. cbn [Nat.eqb]. destruct (Nat.eqb_spec i' i); auto.
Qed.
Lemma grow_altform m F j : (j <= m)%nat -> altform (S m) F -> altform m (fun B => F (grow j B)).
Proof.
  intros Hj HF. split.
  - intros A B H. apply (af_ext _ _ HF). intros [|i] k Hi Hk; auto. cbn [grow]. unfold ins. destruct (Nat.ltb_spec k j); [apply H; lia|].
    destruct (Nat.eqb_spec k j); auto. apply H; lia.
  - intros A i a r s Hi. rewrite !grow_setrow.
    replace (ins j (fun k => a * r k + s k)) with (fun k => a * ins j r k + ins j s k).
    + apply (af_lin _ _ HF). lia.
    + apply functional_extensionality; intros k. unfold ins. destruct (k <? j)%nat; auto. destruct (k =? j)%nat; ring.
  - intros A i Hi H. apply (af_alt _ _ HF) with (i := S i); [lia|]. intros k. cbn [grow]. unfold ins. rewrite !H. auto.
Qed.

Lemma clear_column m F A j : altform (S m) F -> (j <= m)%nat -> F (setrow A 0 (unit_row j)) = F (grow j (minor A j)).
Proof.
  intros HF Hj. pose (st := fun k : nat => (fun i => match i with O => unit_row j | S i' => if (i' <? k)%nat then ins j (minor A j i') else A (S i') end) : mtx).
  assert (H0 : F (setrow A 0 (unit_row j)) = F (st 0%nat)).
  { f_equal. apply functional_extensionality; intros [|i]; reflexivity. }
  assert (HS : forall k, (k < m)%nat -> F (st k) = F (st (S k))).
  { intros k Hk. rewrite <- (F_shear (S m) F HF (st k) (S k) (- A (S k) j)) by lia. apply (af_ext _ _ HF). intros i l Hi Hl. unfold setrow, st.
    destruct i as [|i]; [reflexivity|]. cbn [Nat.eqb]. destruct (Nat.eqb_spec i k) as [->|Nk].
    - destruct (Nat.ltb_spec k k), (Nat.ltb_spec k (S k)); try lia. unfold ins, unit_row, minor, skip.
      destruct (Nat.ltb_spec l j), (Nat.eqb_spec l j); subst; try lia; try ring.
      destruct (Nat.ltb_spec (l - 1) j); [lia|]. replace (S (l - 1)) with l by lia. ring.
    - destruct (Nat.ltb_spec i k), (Nat.ltb_spec i (S k)); auto; lia. }
  assert (HM : forall k, (k <= m)%nat -> F (st 0%nat) = F (st k)).
  { induction k as [|k IH]; intros Hk; auto. rewrite IH, HS by lia. reflexivity. }
  rewrite H0, (HM m) by lia. apply (af_ext _ _ HF). intros [|i] l Hi Hl; [reflexivity|]. unfold st. destruct (Nat.ltb_spec i m); [reflexivity|lia].
Qed.

Lemma grow_one m F : altform (S m) F -> forall j, (j <= m)%nat -> F (grow j one) = (-1) ^ j * F one.
Proof.
  intros HF. induction j as [|j IH]; intros Hj.
  - cbn [pow]. rewrite Rmult_1_l. apply (af_ext _ _ HF). intros [|i] k Hi Hk; cbn [grow]; unfold unit_row, ins, one; destruct k as [|k]; cbn; auto.
    rewrite Nat.sub_0_r. reflexivity.
  - cbn [pow]. transitivity (- F (grow j one)); [|rewrite IH by lia; ring]. rewrite <- (F_swap (S m) F HF 0 (S j)) by lia.
    apply (af_ext _ _ HF). intros [|i] k Hi Hk.
    + cbn [grow]. unfold swaprows. rewrite setrow_other by lia. rewrite setrow_same. cbn [grow]. unfold unit_row, ins, one.
      destruct (Nat.eqb_spec k (S j)), (Nat.ltb_spec k j), (Nat.eqb_spec k j), (Nat.eqb_spec j k), (Nat.eqb_spec j (k - 1)); auto; lia.
    + unfold swaprows. destruct (Nat.eq_dec i j) as [->|N].
      * rewrite setrow_same. cbn [grow]. unfold unit_row, ins, one.
        destruct (Nat.ltb_spec k (S j)), (Nat.eqb_spec k (S j)), (Nat.eqb_spec j k), (Nat.eqb_spec k j), (Nat.eqb_spec j (k - 1)); auto; lia.
      * rewrite setrow_other by lia. rewrite setrow_other by lia. cbn [grow]. unfold ins, one.
        destruct (Nat.ltb_spec k (S j)), (Nat.eqb_spec k (S j)), (Nat.ltb_spec k j), (Nat.eqb_spec k j), (Nat.eqb_spec i k), (Nat.eqb_spec i (k - 1)); auto; lia.
Qed.

Theorem D_unique : forall n F, altform n F -> forall A, F A = F one * D n A.
Proof.
  induction n as [|m IH]; intros F HF A.
  - cbn. rewrite Rmult_1_r. apply (af_ext _ _ HF). intros; lia.
  - transitivity (F (setrow A 0 (fun k => rsum (fun j => A 0%nat j * unit_row j k) (S m)))).
    + apply (af_ext _ _ HF). intros [|i] k Hi Hk; [|reflexivity]. rewrite setrow_same.
      rewrite (rsum_pick _ k); [|exact Hk|intros j _ Hjk; unfold unit_row; destruct (Nat.eqb_spec k j); [congruence|ring]].
      unfold unit_row. rewrite Nat.eqb_refl. ring.
    + rewrite (F_expand (S m) F HF) by lia. cbn [D]. rewrite <- rsum_scal. apply rsum_ext'. intros j Hj.
      rewrite (clear_column m) by (auto; lia). rewrite (IH (fun B => F (grow j B)) (grow_altform m F j ltac:(lia) HF)).
      rewrite (grow_one m) by (auto; lia). ring.
Qed.

Definition mmul (n : nat) (A B : mtx) : mtx := fun i j => rsum (fun k => A i k * B k j) n.
Theorem D_mul n A B : D n (mmul n A B) = D n A * D n B.
Proof.
  assert (HF : altform n (fun A => D n (mmul n A B))).
  { assert (E : forall A i r, mmul n (setrow A i r) B = setrow (mmul n A B) i (fun j => rsum (fun k => r k * B k j) n)).
    { intros A' i r. apply functional_extensionality; intros i'. apply functional_extensionality; intros j. unfold mmul, setrow.
      destruct (Nat.eqb_spec i' i); auto. }
    split.
    - intros A1 A2 H. apply D_ext. intros i j Hi Hj. unfold mmul. apply rsum_ext'. intros k Hk. rewrite H; auto.
    - intros A' i a r s Hi. rewrite !E. rewrite <- D_lin by auto. f_equal. f_equal. apply functional_extensionality; intros j.
      rewrite <- rsum_scal, <- rsum_plus. apply rsum_ext'. intros k _. ring.
    - intros A' i Hi H. apply D_alt with (i := i); auto. intros j. unfold mmul. apply rsum_ext'. intros k _. rewrite H. auto. }
  rewrite (D_unique n _ HF A). rewrite Rmult_comm. f_equal. apply D_ext. intros i j Hi Hj. unfold mmul, one.
  rewrite (rsum_pick _ i); [|exact Hi|intros k _ Hk; destruct (Nat.eqb_spec i k); [congruence|ring]]. rewrite Nat.eqb_refl. ring.
Qed.
Print Assumptions D_mul.

(** Triangular matrices. *)
Lemma D_zero_column n : forall A c, (c < n)%nat -> (forall i, (i < n)%nat -> A i c = 0) -> D n A = 0.
Proof.
  induction n as [|n IH]; intros A c Hc H; [lia|]. cbn [D]. apply rsum_zero. intros j Hj. destruct (Nat.eq_dec j c) as [->|N].
  - rewrite H by lia. ring.
  - rewrite (IH (minor A j) (if (c <? j)%nat then c else c - 1)%nat); [ring| |].
    + destruct (Nat.ltb_spec c j); lia.
    + intros i Hi. unfold minor, skip. destruct (Nat.ltb_spec c j).
      * destruct (Nat.ltb_spec c j); [apply H|]; lia.
      * destruct (Nat.ltb_spec (c - 1) j); [lia|]. replace (S (c - 1)) with c by lia. apply H. lia.
Qed.
Definition lower (n : nat) (A : mtx) : Prop := forall i j, (i < n)%nat -> (j < n)%nat -> (i < j)%nat -> A i j = 0.
Definition upper (n : nat) (A : mtx) : Prop := forall i j, (i < n)%nat -> (j < n)%nat -> (j < i)%nat -> A i j = 0.
Lemma rprod_shift f m : rprod f (S m) = f 0%nat * rprod (fun i => f (S i)) m.
Proof. induction m as [|m IHm]; [cbn; ring|]. change (rprod f (S (S m))) with (rprod f (S m) * f (S m)). rewrite IHm. cbn [rprod]. ring. Qed.
Lemma D_lower n : forall A, lower n A -> D n A = rprod (fun i => A i i) n.
Proof.
  induction n as [|n IH]; intros A H; auto. cbn [D]. rewrite (rsum_pick _ 0%nat); [|lia|].
  - rewrite IH.
    + rewrite rprod_shift. change (minor A 0) with (fun i k => A (S i) (S k)). cbn [pow]. ring.
    + intros i j Hi Hj Hij. unfold minor, skip. destruct (Nat.ltb_spec j 0); [lia|]. apply H; lia.
  - intros j Hj N. rewrite (H 0%nat j) by lia. ring.
Qed.
Lemma D_upper n : forall A, upper n A -> D n A = rprod (fun i => A i i) n.
Proof.
  induction n as [|n IH]; intros A H; auto. cbn [D]. rewrite (rsum_pick _ 0%nat); [|lia|].
  - rewrite IH.
    + rewrite rprod_shift. change (minor A 0) with (fun i k => A (S i) (S k)). cbn [pow]. ring.
    + intros i j Hi Hj Hij. unfold minor, skip. destruct (Nat.ltb_spec j 0); [lia|]. apply H; lia.
  - intros j Hj N. rewrite (D_zero_column n (minor A j) 0); [ring|lia|]. intros i Hi. unfold minor, skip.
    destruct (Nat.ltb_spec 0 j); [|lia]. apply H; lia.
Qed.

(** Lists of rows. *)
Definition entry (A : list (list R)) : mtx := fun i j => coord (nth i A []) j.
Lemma coord_remove j r k : coord (remove_col j r) k = coord r (skip j k).
Proof.
  unfold coord, remove_col, skip. revert j k. induction r as [|a r IH]; intros j k.
  - rewrite firstn_nil, skipn_nil. cbn [app]. destruct (k <? j)%nat, k; reflexivity.
  - destruct j as [|j].
    + cbn [firstn skipn app]. destruct (Nat.ltb_spec k 0); [lia|]. reflexivity.
    + cbn [firstn skipn app]. destruct k as [|k]; [reflexivity|]. cbn [nth]. rewrite IH.
      destruct (Nat.ltb_spec k j), (Nat.ltb_spec (S k) (S j)); auto; lia.
Qed.
Lemma det_D n : forall A, length A = n -> det n A = D n (entry A).
Proof.
  induction n as [|n IH]; intros A L; auto. destruct A as [|row rest]; [discriminate|]. cbn [det D]. apply rsum_ext'. intros j Hj.
  rewrite IH by (rewrite map_length; cbn in L; lia). f_equal. apply D_ext. intros i k Hi Hk. unfold entry, minor. cbn [nth].
  rewrite (nth_indep _ [] (remove_col j [])) by (rewrite map_length; cbn in L; lia). rewrite map_nth. apply coord_remove.
Qed.
Lemma dot_rsum a b n : length a = n -> dot a b = rsum (fun k => coord a k * coord b k) n.
Proof.
  revert b n. induction a as [|x a IH]; intros b n <-; [reflexivity|]. cbn [length]. rewrite rsum_shift. destruct b as [|y b].
  - cbn [dot]. unfold coord at 2. cbn [nth]. symmetry. rewrite rsum_zero; [ring|]. intros i Hi. unfold coord at 2. cbn. ring.
  - cbn [dot]. unfold coord at 1 2. cbn [nth]. f_equal. apply IH. reflexivity.
Qed.
Definition matmul (n : nat) (A B : list (list R)) : list (list R) := map (fun r => vecmat n r B) A.
Lemma entry_matmul n A B i j : rows_of n n A -> rows_of n n B -> (i < n)%nat -> (j < n)%nat -> entry (matmul n A B) i j = mmul n (entry A) (entry B) i j.
Proof.
  intros [LA FA] [LB FB] Hi Hj. unfold entry, matmul. rewrite (nth_indep _ [] (vecmat n [] B)) by (rewrite map_length; lia).
  rewrite map_nth with (f := fun r => vecmat n r B). unfold vecmat, coord at 1. rewrite (nth_indep _ 0 (dot (nth i A []) (map (fun row => coord row 0) B))) by (rewrite map_length, seq_length; auto).
  rewrite map_nth with (f := fun j => dot (nth i A []) (map (fun row => coord row j) B)), seq_nth by auto. cbn [Nat.add].
  rewrite (dot_rsum _ _ n) by (rewrite Forall_forall in FA; apply FA, nth_In; lia). unfold mmul, entry. apply rsum_ext'. intros k Hk. f_equal.
  unfold coord at 1. rewrite (nth_indep _ 0 (coord [] j)) by (rewrite map_length; lia). rewrite map_nth with (f := fun row => coord row j). reflexivity.
Qed.
Theorem det_mul n A B : rows_of n n A -> rows_of n n B -> det n (matmul n A B) = det n A * det n B.
Proof.
  intros HA HB. rewrite !det_D; [|apply HB|apply HA|unfold matmul; rewrite map_length; apply HA].
  rewrite <- D_mul. apply D_ext. intros i j Hi Hj. apply entry_matmul; auto.
Qed.
