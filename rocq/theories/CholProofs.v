(** Every symmetric positive definite matrix has a Cholesky factorisation; triangular systems can be solved. *)
From Coq Require Import Reals List Lia Lra FunctionalExtensionality.
From Verif Require Import Base SpecExpansion SpecMaps SpecGauss QuadCC DetMul.
Import ListNotations.
Local Open Scope R_scope.

Definition qf (n : nat) (A : mtx) (x : nat -> R) : R := rsum (fun i => rsum (fun j => x i * A i j * x j) n) n.
Definition fsym (n : nat) (A : mtx) : Prop := forall i j, (i < n)%nat -> (j < n)%nat -> A i j = A j i.
Definition fpos (n : nat) (A : mtx) : Prop := forall x, (exists i, (i < n)%nat /\ x i <> 0) -> 0 < qf n A x.
Definition schur (A : mtx) : mtx := fun i j => A (S i) (S j) - A (S i) 0%nat * A (S j) 0%nat / A 0%nat 0%nat.
Fixpoint chL (n : nat) (A : mtx) (i j : nat) : R :=
  match n with
  | O => 0
  | S m => match j with
           | O => match i with O => sqrt (A 0%nat 0%nat) | S _ => A i 0%nat / sqrt (A 0%nat 0%nat) end
           | S j => match i with O => 0 | S i => chL m (schur A) i j end
           end
  end.
Lemma rsum_pick0 f n : (forall i, (0 < i)%nat -> f i = 0) -> (0 < n)%nat -> rsum f n = f 0%nat.
Proof. intros H Hn. apply rsum_pick; auto. intros i _ Hi. apply H. lia. Qed.
Lemma fpos_head m A : fpos (S m) A -> 0 < A 0%nat 0%nat.
Proof.
  intros H. specialize (H (fun i => if (i =? 0)%nat then 1 else 0)). unfold qf in H.
  rewrite rsum_pick0 in H; [|intros i Hi; apply rsum_zero; intros j _; destruct (Nat.eqb_spec i 0); [lia|ring]|lia].
  rewrite rsum_pick0 in H; [|intros j Hj; destruct (Nat.eqb_spec j 0); [lia|ring]|lia]. cbn in H. rewrite Rmult_1_l, Rmult_1_r in H. apply H.
  exists 0%nat. split; [lia|]. cbn. lra.
Qed.
Lemma qf_split m A x : (forall i j, (i < S m)%nat -> (j < S m)%nat -> A i j = A j i) ->
  qf (S m) A x = A 0%nat 0%nat * (x 0%nat * x 0%nat) + 2 * x 0%nat * rsum (fun i => A (S i) 0%nat * x (S i)) m + qf m (fun i j => A (S i) (S j)) (fun i => x (S i)).
Proof.
  intros Hs. unfold qf. rewrite rsum_shift. rewrite (rsum_shift (fun j => x 0%nat * A 0%nat j * x j)).
  rewrite (rsum_ext' (fun i => rsum (fun j => x (S i) * A (S i) j * x j) (S m)) (fun i => x (S i) * A (S i) 0%nat * x 0%nat + rsum (fun j => x (S i) * A (S i) (S j) * x (S j)) m)).
  2:{ intros i Hi. rewrite rsum_shift. reflexivity. }
  rewrite rsum_plus. rewrite (rsum_ext' (fun i => x 0%nat * A 0%nat (S i) * x (S i)) (fun i => x 0%nat * (A (S i) 0%nat * x (S i)))).
  2:{ intros i Hi. rewrite (Hs 0%nat (S i)) by lia. ring. }
  rewrite (rsum_ext' (fun i => x (S i) * A (S i) 0%nat * x 0%nat) (fun i => x 0%nat * (A (S i) 0%nat * x (S i)))) by (intros; ring).
  rewrite !rsum_scal. ring.
Qed.
Lemma qf_schur m A y : qf m (schur A) y = qf m (fun i j => A (S i) (S j)) y - / A 0%nat 0%nat * (rsum (fun i => A (S i) 0%nat * y i) m * rsum (fun i => A (S i) 0%nat * y i) m).
Proof.
  unfold qf. set (s := rsum (fun i => A (S i) 0%nat * y i) m).
  assert (E : / A 0%nat 0%nat * (s * s) = rsum (fun i => rsum (fun j => / A 0%nat 0%nat * ((A (S i) 0%nat * y i) * (A (S j) 0%nat * y j))) m) m).
  { rewrite (rsum_ext' _ (fun i => / A 0%nat 0%nat * s * (A (S i) 0%nat * y i))).
    - rewrite rsum_scal. fold s. ring.
    - intros i _. rewrite rsum_scal, rsum_scal. fold s. ring. }
  rewrite E. enough (rsum (fun i => rsum (fun j => y i * schur A i j * y j) m) m + rsum (fun i => rsum (fun j => / A 0%nat 0%nat * ((A (S i) 0%nat * y i) * (A (S j) 0%nat * y j))) m) m
     = rsum (fun i => rsum (fun j => y i * A (S i) (S j) * y j) m) m) by lra.
  rewrite <- rsum_plus. apply rsum_ext'. intros i _. rewrite <- rsum_plus. apply rsum_ext'. intros j _. unfold schur, Rdiv. ring.
Qed.
Lemma schur_sym m A : fsym (S m) A -> fsym m (schur A).
Proof. intros H i j Hi Hj. unfold schur. rewrite (H (S i) (S j)) by lia. unfold Rdiv. ring. Qed.
Lemma schur_pos m A : fsym (S m) A -> fpos (S m) A -> fpos m (schur A).
Proof.
  intros Hs Hp y [i [Hi Hy]]. pose proof (fpos_head m A Hp) as Ha. rewrite qf_schur.
  set (s := rsum (fun i => A (S i) 0%nat * y i) m). pose (x := fun i : nat => match i with O => - s / A 0%nat 0%nat | S i => y i end).
  assert (P : 0 < qf (S m) A x) by (apply Hp; exists (S i); split; [lia|exact Hy]).
  rewrite qf_split in P by auto. change (fun i => x (S i)) with y in P. change (rsum (fun i => A (S i) 0%nat * x (S i)) m) with s in P.
  change (x 0%nat) with (- s / A 0%nat 0%nat) in P.
  replace (A 0%nat 0%nat * (- s / A 0%nat 0%nat * (- s / A 0%nat 0%nat)) + 2 * (- s / A 0%nat 0%nat) * s) with (- (/ A 0%nat 0%nat * (s * s))) in P by (field; lra). lra.
Qed.
Lemma chL_lower n : forall A i j, (i < j)%nat -> chL n A i j = 0.
Proof. induction n as [|n IH]; intros A i j H; auto. destruct j as [|j]; [lia|]. destruct i as [|i]; auto. apply IH. lia. Qed.
Lemma chL_diag n : forall A, fsym n A -> fpos n A -> forall i, (i < n)%nat -> 0 < chL n A i i.
Proof.
  induction n as [|n IH]; intros A Hs Hp i Hi; [lia|]. destruct i as [|i]; cbn [chL].
  - apply sqrt_lt_R0. apply (fpos_head n). auto.
  - apply IH; [apply schur_sym|apply schur_pos|lia]; auto.
Qed.
Lemma chL_factor n : forall A, fsym n A -> fpos n A -> forall i j, (i < n)%nat -> (j < n)%nat -> rsum (fun k => chL n A i k * chL n A j k) n = A i j.
Proof.
  induction n as [|n IH]; intros A Hs Hp i j Hi Hj; [lia|]. rewrite rsum_shift. pose proof (fpos_head n A Hp) as Ha.
  assert (Q : sqrt (A 0%nat 0%nat) * sqrt (A 0%nat 0%nat) = A 0%nat 0%nat) by (apply sqrt_sqrt; lra).
  assert (Q0 : 0 < sqrt (A 0%nat 0%nat)) by (apply sqrt_lt_R0; auto).
  destruct i as [|i]; [|destruct j as [|j]].
  - rewrite rsum_zero by (intros k _; cbn [chL]; ring). cbn [chL]. destruct j as [|j]; [lra|]. rewrite (Hs 0%nat (S j)) by lia. field. lra.
  - rewrite rsum_zero by (intros k _; cbn [chL]; ring). cbn [chL]. field. lra.
  - cbn [chL]. rewrite IH; try lia; [|apply schur_sym; auto|apply schur_pos; auto]. unfold schur.
    replace (A (S i) 0%nat / sqrt (A 0%nat 0%nat) * (A (S j) 0%nat / sqrt (A 0%nat 0%nat))) with (A (S i) 0%nat * A (S j) 0%nat / (sqrt (A 0%nat 0%nat) * sqrt (A 0%nat 0%nat))) by (field; lra).
    rewrite Q. ring.
Qed.

(** Triangular solves: L x = b and L^T x = b. *)
Definition sub (L : mtx) : mtx := fun i j => L (S i) (S j).
Fixpoint fsolve (n : nat) (L : mtx) (b : nat -> R) (i : nat) : R :=
  match n with
  | O => 0
  | S m => match i with O => b 0%nat / L 0%nat 0%nat | S i => fsolve m (sub L) (fun k => b (S k) - L (S k) 0%nat * (b 0%nat / L 0%nat 0%nat)) i end
  end.
Fixpoint usolve (n : nat) (L : mtx) (b : nat -> R) (i : nat) : R :=
  match n with
  | O => 0
  | S m => let x := usolve m (sub L) (fun k => b (S k)) in
           match i with O => (b 0%nat - rsum (fun k => L (S k) 0%nat * x k) m) / L 0%nat 0%nat | S i => x i end
  end.
Lemma fsolve_ok n : forall L b, (forall i j, (i < j)%nat -> (j < n)%nat -> L i j = 0) -> (forall i, (i < n)%nat -> L i i <> 0) ->
  forall i, (i < n)%nat -> rsum (fun k => L i k * fsolve n L b k) n = b i.
Proof.
  induction n as [|n IH]; intros L b Hl Hd i Hi; [lia|]. rewrite rsum_shift. cbn [fsolve]. destruct i as [|i].
  - rewrite rsum_zero by (intros k Hk; rewrite (Hl 0%nat (S k)) by lia; ring). field. apply Hd. lia.
  - change (rsum (fun k => L (S i) (S k) * fsolve n (sub L) (fun k => b (S k) - L (S k) 0%nat * (b 0%nat / L 0%nat 0%nat)) k) n)
      with (rsum (fun k => sub L i k * fsolve n (sub L) (fun k => b (S k) - L (S k) 0%nat * (b 0%nat / L 0%nat 0%nat)) k) n).
    rewrite IH; [ring| | |lia]; unfold sub; intros; [apply Hl|apply Hd]; lia.
Qed.
Lemma usolve_ok n : forall L b, (forall i j, (i < j)%nat -> (j < n)%nat -> L i j = 0) -> (forall i, (i < n)%nat -> L i i <> 0) ->
  forall i, (i < n)%nat -> rsum (fun k => L k i * usolve n L b k) n = b i.
Proof.
  induction n as [|n IH]; intros L b Hl Hd i Hi; [lia|]. rewrite rsum_shift. cbn [usolve]. destruct i as [|i].
  - field. apply Hd. lia.
  - rewrite (Hl 0%nat (S i)) by lia.
    change (rsum (fun k => L (S k) (S i) * usolve n (sub L) (fun k => b (S k)) k) n) with (rsum (fun k => sub L k i * usolve n (sub L) (fun k => b (S k)) k) n).
    rewrite IH; [ring| | |lia]; unfold sub; intros; [apply Hl|apply Hd]; lia.
Qed.

(** ** Lists *)
Lemma list_ext n (a b : list R) : length a = n -> length b = n -> (forall i, (i < n)%nat -> coord a i = coord b i) -> a = b.
Proof. intros Ha Hb H. apply (nth_ext _ _ 0 0); [congruence|]. intros i Hi. apply H. lia. Qed.
Lemma row_length n A i : rows_of n n A -> (i < n)%nat -> length (nth i A []) = n.
Proof. intros [H1 H2] Hi. rewrite Forall_forall in H2. apply H2, nth_In. lia. Qed.
Lemma coord_map_seq' (f : nat -> R) n i : (i < n)%nat -> coord (map f (seq 0 n)) i = f i.
Proof. intros H. unfold coord. rewrite (nth_indep _ 0 (f 0%nat)) by (rewrite map_length, seq_length; auto). rewrite map_nth, seq_nth by auto. reflexivity. Qed.
Lemma coord_matvec m n A x i : rows_of m n A -> (i < m)%nat -> coord (matvec A x) i = dot (nth i A []) x.
Proof.
  intros [HA _] Hi. unfold coord, matvec. rewrite (nth_indep _ 0 (dot [] x)) by (rewrite map_length; lia). rewrite map_nth with (f := fun row => dot row x). reflexivity.
Qed.
Lemma matvec_rsum n A x i : rows_of n n A -> (i < n)%nat -> coord (matvec A x) i = rsum (fun j => entry A i j * coord x j) n.
Proof. intros HA Hi. rewrite (coord_matvec n n) by auto. apply dot_rsum. apply row_length; auto. Qed.
Lemma vecmat_rsum n A x i : rows_of n n A -> length x = n -> (i < n)%nat -> coord (vecmat n x A) i = rsum (fun k => entry A k i * coord x k) n.
Proof.
  intros HA Hx Hi. unfold vecmat. rewrite coord_map_seq' by auto. rewrite (dot_rsum _ _ n) by auto. apply rsum_ext'. intros k Hk.
  rewrite Rmult_comm. f_equal. unfold coord, entry, coord. rewrite (nth_indep _ 0 (nth i [] 0)) by (rewrite map_length; destruct HA; lia).
  rewrite map_nth with (f := fun row => nth i row 0). reflexivity.
Qed.
Definition of_entries (n : nat) (A : mtx) : list (list R) := map (fun i => map (fun j => A i j) (seq 0 n)) (seq 0 n).
Lemma of_entries_rows n A : rows_of n n (of_entries n A).
Proof.
  split; [unfold of_entries; rewrite map_length, seq_length; auto|]. apply Forall_forall. intros r Hr. apply in_map_iff in Hr as [i [<- _]].
  rewrite map_length, seq_length. reflexivity.
Qed.
Lemma entry_of_entries n A i j : (i < n)%nat -> (j < n)%nat -> entry (of_entries n A) i j = A i j.
Proof.
  intros Hi Hj. unfold entry, of_entries. rewrite (nth_indep _ [] (map (fun j => A 0%nat j) (seq 0 n))) by (rewrite map_length, seq_length; auto).
  rewrite map_nth with (f := fun i => map (fun j => A i j) (seq 0 n)), seq_nth by auto. apply coord_map_seq'. auto.
Qed.
Lemma spd_functional n Sg : spd n Sg -> fsym n (entry Sg) /\ fpos n (entry Sg).
Proof.
  intros (HR & HS & HP). split; [exact HS|]. intros x [i [Hi Hx]]. specialize (HP (map x (seq 0 n))).
  rewrite (dot_rsum _ _ n) in HP by (rewrite map_length, seq_length; auto). unfold qf.
  rewrite (rsum_ext' (fun i => rsum (fun j => x i * entry Sg i j * x j) n) (fun k => coord (map x (seq 0 n)) k * coord (matvec Sg (map x (seq 0 n))) k)).
  - apply HP; [rewrite map_length, seq_length; reflexivity|]. intros E. apply Hx. rewrite <- (coord_map_seq' x n i Hi), E. unfold coord, zeros. apply nth_repeat.
  - intros k Hk. rewrite coord_map_seq' by auto. rewrite (matvec_rsum n) by auto. rewrite <- rsum_scal. apply rsum_ext'. intros j Hj. rewrite coord_map_seq' by auto. ring.
Qed.

(** What a Cholesky factorisation of [Sg] is: lower triangular L with positive diagonal and Sg = L L^T. *)
Definition chol_factor (n : nat) (Sg L : list (list R)) : Prop :=
  rows_of n n L /\ (forall i j, (i < j)%nat -> (j < n)%nat -> entry L i j = 0) /\ (forall i, (i < n)%nat -> 0 < entry L i i) /\
  (forall i j, (i < n)%nat -> (j < n)%nat -> entry Sg i j = dot (nth i L []) (nth j L [])).
Definition chol_list (n : nat) (Sg : list (list R)) : list (list R) := of_entries n (chL n (entry Sg)).
Lemma chol_list_ok n Sg : spd n Sg -> chol_factor n Sg (chol_list n Sg).
Proof.
  intros H. destruct (spd_functional n Sg H) as [H1 H2]. split; [apply of_entries_rows|]. split; [|split].
  - intros i j Hij Hj. unfold chol_list. rewrite entry_of_entries by lia. apply chL_lower. auto.
  - intros i Hi. unfold chol_list. rewrite entry_of_entries by lia. apply chL_diag; auto.
  - intros i j Hi Hj. rewrite (dot_rsum _ _ n) by (apply row_length; [apply of_entries_rows|auto]).
    rewrite <- (chL_factor n (entry Sg) H1 H2 i j Hi Hj). apply rsum_ext'. intros k Hk.
    change (coord (nth i (chol_list n Sg) []) k) with (entry (chol_list n Sg) i k). change (coord (nth j (chol_list n Sg) []) k) with (entry (chol_list n Sg) j k).
    unfold chol_list. rewrite !entry_of_entries by auto. reflexivity.
Qed.
Definition fsolve_list (n : nat) (L : list (list R)) (b : list R) : list R := map (fsolve n (entry L) (coord b)) (seq 0 n).
Definition usolve_list (n : nat) (L : list (list R)) (b : list R) : list R := map (usolve n (entry L) (coord b)) (seq 0 n).
Lemma fsolve_list_ok n Sg L b : chol_factor n Sg L -> length b = n -> length (fsolve_list n L b) = n /\ matvec L (fsolve_list n L b) = b.
Proof.
  intros (HR & Hl & Hd & _) Hb. split; [unfold fsolve_list; rewrite map_length, seq_length; auto|].
  apply (list_ext n); auto; [unfold matvec; rewrite map_length; apply HR|]. intros i Hi. rewrite (matvec_rsum n) by auto.
  rewrite <- (fsolve_ok n (entry L) (coord b) Hl ltac:(intros k Hk; specialize (Hd k Hk); lra) i Hi). apply rsum_ext'. intros j Hj. unfold fsolve_list. rewrite coord_map_seq' by auto. reflexivity.
Qed.
Lemma usolve_list_ok n Sg L b : chol_factor n Sg L -> length b = n -> length (usolve_list n L b) = n /\ vecmat n (usolve_list n L b) L = b.
Proof.
  intros (HR & Hl & Hd & _) Hb. assert (Hlen : length (usolve_list n L b) = n) by (unfold usolve_list; rewrite map_length, seq_length; auto). split; auto.
  apply (list_ext n); auto; [unfold vecmat; rewrite map_length, seq_length; reflexivity|]. intros i Hi. rewrite (vecmat_rsum n) by auto.
  rewrite <- (usolve_ok n (entry L) (coord b) Hl ltac:(intros k Hk; specialize (Hd k Hk); lra) i Hi). apply rsum_ext'. intros j Hj. unfold usolve_list. rewrite coord_map_seq' by auto. reflexivity.
Qed.

(** ** What a factorisation gives *)
Lemma chol_det n Sg L : rows_of n n Sg -> chol_factor n Sg L -> det n Sg = rprod (fun i => entry L i i) n * rprod (fun i => entry L i i) n.
Proof.
  intros HS (HR & Hl & Hd & HF). rewrite det_D by apply HS.
  rewrite <- (D_lower n (entry L)) at 1 by (intros i j Hi Hj Hij; apply Hl; auto).
  rewrite <- (D_upper n (fun i j => entry L j i)) by (intros i j Hi Hj Hij; apply Hl; auto). rewrite <- D_mul. apply D_ext. intros i j Hi Hj.
  rewrite HF by auto. apply dot_rsum. apply row_length; auto.
Qed.
Lemma rprod_pos f n : (forall i, (i < n)%nat -> 0 < f i) -> 0 < rprod f n.
Proof. intros H. induction n as [|n IH]; cbn; [lra|]. apply Rmult_lt_0_compat; auto. Qed.
Lemma chol_matvec n Sg L z : rows_of n n Sg -> chol_factor n Sg L -> length z = n -> matvec Sg z = matvec L (vecmat n z L).
Proof.
  intros HS (HR & Hl & Hd & HF) Hz. apply (list_ext n); [unfold matvec; rewrite map_length; apply HS|unfold matvec; rewrite map_length; apply HR|].
  intros i Hi. rewrite !(matvec_rsum n) by auto.
  rewrite (rsum_ext' (fun j => entry Sg i j * coord z j) (fun j => rsum (fun k => entry L i k * entry L j k * coord z j) n)).
  - rewrite rsum_swap. apply rsum_ext'. intros k Hk. rewrite (vecmat_rsum n) by auto. rewrite <- rsum_scal. apply rsum_ext'. intros j Hj. ring.
  - intros j Hj. rewrite HF by auto. rewrite (dot_rsum _ _ n) by (apply row_length; auto). rewrite Rmult_comm, <- rsum_scal. apply rsum_ext'. intros k Hk.
    unfold entry. ring.
Qed.
Lemma dot_mv n A s v : rows_of n n A -> length s = n -> length v = n -> dot s (matvec A v) = dot (vecmat n s A) v.
Proof.
  intros HA Hs Hv. rewrite (dot_rsum s _ n), (dot_rsum (vecmat n s A) _ n) by (auto; unfold vecmat; rewrite map_length, seq_length; auto).
  rewrite (rsum_ext' (fun k => coord s k * coord (matvec A v) k) (fun k => rsum (fun j => entry A k j * coord s k * coord v j) n)).
  - rewrite rsum_swap. apply rsum_ext'. intros j Hj. rewrite (vecmat_rsum n) by auto. rewrite Rmult_comm, <- rsum_scal. apply rsum_ext'. intros; ring.
  - intros k Hk. rewrite (matvec_rsum n) by auto. rewrite <- rsum_scal. apply rsum_ext'. intros; ring.
Qed.
Lemma dot_sym_mv n A s v : rows_of n n A -> fsym n (entry A) -> length s = n -> length v = n -> dot s (matvec A v) = dot (matvec A s) v.
Proof.
  intros HA HS Hs Hv. rewrite (dot_mv n) by auto. f_equal. apply (list_ext n); [unfold vecmat; rewrite map_length, seq_length; auto|unfold matvec; rewrite map_length; apply HA|].
  intros i Hi. rewrite (vecmat_rsum n), (matvec_rsum n) by auto. apply rsum_ext'. intros k Hk. rewrite (HS k i) by auto. reflexivity.
Qed.
