(** The gradients of a monotone component, given as partial derivatives, describe the change of the
    component along every differentiable curve of coefficients and points. *)
From Coq Require Import Reals List Lia Lra.
From Coquelicot Require Import Coquelicot.
From Verif Require Import Base SpecMulti SpecExpansion SpecQuad SpecMono SpecMaps SpecMonoMap.
Import ListNotations.
Local Open Scope R_scope.

(** * Functions of (c, x) that are differentiable along every curve *)
Section Along.
Variables (nc nx : nat).
Definition lin (Gc Gx : nat -> R) (vc vx : list R) : R := rsum (fun i => Gc i * coord vc i) nc + rsum (fun j => Gx j * coord vx j) nx.
Definition along_at (F : list R -> list R -> R) (c x : list R) (Gc Gx : nat -> R) : Prop :=
  forall gc gx t vc vx, velocity gc t vc -> velocity gx t vx -> length vc = nc -> length vx = nx -> gc t = c -> gx t = x ->
    is_derive (fun u => F (gc u) (gx u)) t (lin Gc Gx vc vx).
Definition along (F : list R -> list R -> R) : Prop := forall c x, length c = nc -> length x = nx -> exists Gc Gx, along_at F c x Gc Gx.

Lemma rsum_ext f g n : (forall i, (i < n)%nat -> f i = g i) -> rsum f n = rsum g n.
Proof. induction n as [|n IH]; intros H; cbn [rsum]; auto. rewrite IH, H by auto. reflexivity. Qed.
Lemma rsum_plus f g n : rsum (fun i => f i + g i) n = rsum f n + rsum g n.
Proof. induction n as [|n IH]; cbn [rsum]; [ring|rewrite IH; ring]. Qed.
Lemma rsum_scal a f n : rsum (fun i => a * f i) n = a * rsum f n.
Proof. induction n as [|n IH]; cbn [rsum]; [ring|rewrite IH; ring]. Qed.
Lemma rsum_unit a n i : (i < n)%nat -> rsum (fun k => (if Nat.eqb k i then 1 else 0) * a k) n = a i.
Proof.
  intros H. induction n as [|n IH]; [lia|]. cbn [rsum]. destruct (Nat.eq_dec i n) as [->|].
  - rewrite Nat.eqb_refl. rewrite (rsum_ext _ (fun _ => 0 * 0)); [rewrite rsum_scal; ring|]. intros k Hk. destruct (Nat.eqb_spec k n); [lia|ring].
  - rewrite IH by lia. destruct (Nat.eqb_spec n i); [lia|ring].
Qed.
Lemma lin_plus a b a' b' vc vx : lin (fun i => a i + a' i) (fun i => b i + b' i) vc vx = lin a b vc vx + lin a' b' vc vx.
Proof.
  unfold lin. rewrite (rsum_ext (fun i => (a i + a' i) * coord vc i) (fun i => a i * coord vc i + a' i * coord vc i)) by (intros; ring).
  rewrite (rsum_ext (fun i => (b i + b' i) * coord vx i) (fun i => b i * coord vx i + b' i * coord vx i)) by (intros; ring). rewrite !rsum_plus. ring.
Qed.
Lemma lin_scal k a b vc vx : lin (fun i => k * a i) (fun i => k * b i) vc vx = k * lin a b vc vx.
Proof.
  unfold lin. rewrite (rsum_ext (fun i => k * a i * coord vc i) (fun i => k * (a i * coord vc i))) by (intros; ring).
  rewrite (rsum_ext (fun i => k * b i * coord vx i) (fun i => k * (b i * coord vx i))) by (intros; ring). rewrite !rsum_scal. ring.
Qed.

Lemma velocity_length g t v u n : velocity g t v -> length v = n -> length (g u) = n.
Proof. intros (H & _) <-. apply H. Qed.
Lemma along_ext F G : (forall c x, length c = nc -> length x = nx -> F c x = G c x) -> along F -> along G.
Proof.
  intros E HF c x Lc Lx. destruct (HF c x Lc Lx) as (Gc & Gx & H). exists Gc, Gx. intros gc gx t vc vx V1 V2 L1 L2 E1 E2.
  apply (is_derive_ext (fun u => F (gc u) (gx u))); [|apply H; auto]. intros u. apply E; [apply (velocity_length gc t vc)|apply (velocity_length gx t vx)]; auto.
Qed.
Lemma along_const a : along (fun _ _ => a).
Proof.
  intros c x _ _. exists (fun _ => 0), (fun _ => 0). intros gc gx t vc vx _ _ _ _ _ _. replace (lin _ _ _ _) with 0; [apply (is_derive_const (K := R_AbsRing) (V := R_NormedModule))|].
  unfold lin. rewrite !rsum_scal. ring.
Qed.
Lemma along_coeff i : (i < nc)%nat -> along (fun c _ => coord c i).
Proof.
  intros Hi c x _ _. exists (fun k => if Nat.eqb k i then 1 else 0), (fun _ => 0). intros gc gx t vc vx V1 _ L1 _ _ _.
  unfold lin. rewrite rsum_unit, rsum_scal by auto. replace (coord vc i + 0 * _) with (coord vc i) by ring. apply V1. lia.
Qed.
Lemma along_point j : (j < nx)%nat -> along (fun _ x => coord x j).
Proof.
  intros Hj c x _ _. exists (fun _ => 0), (fun k => if Nat.eqb k j then 1 else 0). intros gc gx t vc vx _ V2 _ L2 _ _.
  unfold lin. rewrite rsum_unit, rsum_scal by auto. replace (0 * _ + coord vx j) with (coord vx j) by ring. apply V2. lia.
Qed.
Lemma along_plus F G : along F -> along G -> along (fun c x => F c x + G c x).
Proof.
  intros HF HG c x Lc Lx. destruct (HF c x Lc Lx) as (a & b & A). destruct (HG c x Lc Lx) as (a' & b' & A').
  exists (fun i => a i + a' i), (fun i => b i + b' i). intros gc gx t vc vx V1 V2 L1 L2 E1 E2. rewrite lin_plus.
  apply (is_derive_plus (K := R_AbsRing) (V := R_NormedModule)); auto.
Qed.
Lemma along_mult F G : along F -> along G -> along (fun c x => F c x * G c x).
Proof.
  intros HF HG c x Lc Lx. destruct (HF c x Lc Lx) as (a & b & A). destruct (HG c x Lc Lx) as (a' & b' & A').
  exists (fun i => G c x * a i + F c x * a' i), (fun i => G c x * b i + F c x * b' i). intros gc gx t vc vx V1 V2 L1 L2 E1 E2.
  rewrite (lin_plus (fun i => G c x * a i) (fun i => G c x * b i)), !lin_scal.
  replace (G c x * lin a b vc vx + F c x * lin a' b' vc vx) with (lin a b vc vx * G (gc t) (gx t) + F (gc t) (gx t) * lin a' b' vc vx) by (rewrite E1, E2; ring).
  apply (is_derive_mult (fun u => F (gc u) (gx u)) (fun u => G (gc u) (gx u)) t _ _ (A gc gx t vc vx V1 V2 L1 L2 E1 E2) (A' gc gx t vc vx V1 V2 L1 L2 E1 E2)). intros; apply Rmult_comm.
Qed.
Lemma along_comp h F : (forall c x, length c = nc -> length x = nx -> exists l, is_derive h (F c x) l) -> along F -> along (fun c x => h (F c x)).
Proof.
  intros Hh HF c x Lc Lx. destruct (HF c x Lc Lx) as (a & b & A). destruct (Hh c x Lc Lx) as (l & Hl).
  exists (fun i => l * a i), (fun i => l * b i). intros gc gx t vc vx V1 V2 L1 L2 E1 E2. rewrite lin_scal, Rmult_comm.
  apply (is_derive_comp h (fun u => F (gc u) (gx u)) t l (lin a b vc vx)); [rewrite E1, E2; exact Hl|apply A; auto].
Qed.
Lemma along_rsum F n : (forall k, (k < n)%nat -> along (F k)) -> along (fun c x => rsum (fun k => F k c x) n).
Proof. induction n as [|n IH]; intros H; cbn [rsum]; [apply along_const|]. apply along_plus; auto. Qed.
Lemma along_rprod F n : (forall k, (k < n)%nat -> along (F k)) -> along (fun c x => rprod (fun k => F k c x) n).
Proof. induction n as [|n IH]; intros H; cbn [rprod]; [apply along_const|]. apply along_mult; auto. Qed.

(** Coordinate lines. *)
Definition unit_vec (n i : nat) : list R := map (fun k => if Nat.eqb k i then 1 else 0) (seq 0 n).
Lemma coord_unit n i k : (k < n)%nat -> coord (unit_vec n i) k = if Nat.eqb k i then 1 else 0.
Proof.
  intros H. unfold coord, unit_vec. rewrite (nth_indep _ 0 ((fun k => if Nat.eqb k i then 1 else 0) 0%nat)) by (rewrite map_length, seq_length; auto).
  rewrite (map_nth (fun k => if Nat.eqb k i then 1 else 0)), seq_nth by auto. reflexivity.
Qed.
Lemma unit_length n i : length (unit_vec n i) = n.
Proof. unfold unit_vec. rewrite map_length, seq_length. reflexivity. Qed.
Lemma line_velocity (x : list R) j t : (j < length x)%nat -> velocity (fun u => upd x j u) t (unit_vec (length x) j).
Proof.
  intros Hj. split; [intros u; rewrite upd_length, unit_length; reflexivity|]. intros k Hk. rewrite unit_length in Hk. rewrite coord_unit by auto.
  destruct (Nat.eqb_spec k j) as [->|N].
  - apply (is_derive_ext (fun u => u)); [intros u; unfold coord; rewrite nth_upd_eq by auto; reflexivity|apply (is_derive_id (K := R_AbsRing))].
  - apply (is_derive_ext (fun _ => coord x k)); [intros u; unfold coord; rewrite nth_upd_neq by auto; reflexivity|apply (is_derive_const (K := R_AbsRing) (V := R_NormedModule))].
Qed.
Lemma still_velocity (c : list R) t : velocity (fun _ => c) t (repeat 0 (length c)).
Proof.
  split; [intros _; rewrite repeat_length; reflexivity|]. intros k Hk. unfold coord. rewrite nth_repeat. apply (is_derive_const (K := R_AbsRing) (V := R_NormedModule)).
Qed.
Lemma upd_self (x : list R) j : (j < length x)%nat -> upd x j (coord x j) = x.
Proof.
  intros H. apply (nth_ext _ _ 0 0); [apply upd_length|]. intros k Hk. rewrite upd_length in Hk. destruct (Nat.eq_dec k j) as [->|]; [apply nth_upd_eq; auto|apply nth_upd_neq; auto].
Qed.
Lemma rsum_zero a n k : rsum (fun i => a i * coord (repeat 0 k) i) n = 0.
Proof. rewrite (rsum_ext _ (fun i => 0 * a i)); [rewrite rsum_scal; ring|]. intros i _. unfold coord. rewrite nth_repeat. ring. Qed.
Lemma rsum_units a n i : (i < n)%nat -> rsum (fun k => a k * coord (unit_vec n i) k) n = a i.
Proof. intros H. rewrite (rsum_ext _ (fun k => (if Nat.eqb k i then 1 else 0) * a k)); [apply rsum_unit; auto|]. intros k Hk. rewrite coord_unit by auto. ring. Qed.

(** A function differentiable along every curve has the partial derivatives as gradient. *)
Lemma along_partials F c x : along F -> length c = nc -> length x = nx ->
  along_at F c x (fun i => partial (fun c => F c x) i c) (fun j => partial (fun x => F c x) j x).
Proof.
  intros HF Lc Lx. destruct (HF c x Lc Lx) as (Gc & Gx & H).
  assert (PC : forall i, (i < nc)%nat -> partial (fun c => F c x) i c = Gc i).
  { intros i Hi. unfold partial. apply is_derive_unique.
    pose proof (H (fun u => upd c i u) (fun _ => x) (coord c i) (unit_vec (length c) i) (repeat 0 (length x)) (line_velocity c i _ ltac:(lia)) (still_velocity x _)) as D.
    rewrite unit_length, repeat_length, Lc in D. specialize (D eq_refl Lx (upd_self c i ltac:(lia)) eq_refl).
    unfold lin in D. rewrite rsum_zero, rsum_units, Rplus_0_r in D by auto. exact D. }
  assert (PX : forall j, (j < nx)%nat -> partial (fun x => F c x) j x = Gx j).
  { intros j Hj. unfold partial. apply is_derive_unique.
    pose proof (H (fun _ => c) (fun u => upd x j u) (coord x j) (repeat 0 (length c)) (unit_vec (length x) j) (still_velocity c _) (line_velocity x j _ ltac:(lia))) as D.
    rewrite unit_length, repeat_length, Lx in D. specialize (D Lc eq_refl eq_refl (upd_self x j ltac:(lia))).
    unfold lin in D. rewrite rsum_zero, rsum_units, Rplus_0_l in D by auto. exact D. }
  intros gc gx t vc vx V1 V2 L1 L2 E1 E2. replace (lin _ _ vc vx) with (lin Gc Gx vc vx); [apply H; auto|].
  unfold lin. f_equal; apply rsum_ext; intros k Hk; [rewrite PC|rewrite PX]; auto.
Qed.
End Along.

Lemma dot_rsum (f : nat -> R) n : forall (v : list R), length v = n -> dot (map f (seq 0 n)) v = rsum (fun i => f i * coord v i) n.
Proof.
  assert (G : forall n f (v : list R) k, length v = n -> dot (map f (seq k n)) v = rsum (fun i => f (k + i)%nat * coord v i) n).
  { clear. induction n as [|n IH]; intros f v k L; [reflexivity|]. destruct v as [|a v]; [discriminate|]. cbn [seq map dot]. rewrite IH by (cbn in L; lia).
    assert (X : forall m (h : nat -> R), rsum h (S m) = h 0%nat + rsum (fun i => h (S i)) m).
    { clear. induction m as [|m IHm]; intros h; cbn [rsum]; [ring|]. cbn [rsum] in IHm. rewrite IHm. ring. }
    rewrite X. f_equal; [unfold coord; cbn [nth]; f_equal; f_equal; lia|]. apply rsum_ext. intros i _. unfold coord. cbn [nth]. f_equal. f_equal. lia. }
  intros v L. rewrite G by auto. reflexivity.
Qed.

(** * The monotone component *)
Section Component.
Variables (m N : nat) (pts wts : list R) (g dg : R -> R) (v dv d2 : nat -> R -> R) (alphas : list vec).
Let d := S m.
Hypothesis Hg : forall y, is_derive g y (dg y).
Hypothesis Hdv : forall k y, (k <= N)%nat -> is_derive (v k) y (dv k y).
Hypothesis Hd2 : forall k y, (k <= N)%nat -> is_derive (dv k) y (d2 k y).
Hypothesis HL : forall al, In al alphas -> length al = d.
Hypothesis HD : forall al k, In al alphas -> (nth k al 0 <= N)%nat.
Let nc := length alphas.

Definition fac (k : nat) (y : R) : R := if (k =? 0)%nat then 1 else v k y.
Definition dfac (k : nat) (y : R) : R := if (k =? 0)%nat then 0 else dv k y.
Definition pre (al : vec) (x : list R) : R := rprod (fun j => fac (nth j al 0%nat) (coord x j)) m.
Lemma fac_derive k y : (k <= N)%nat -> is_derive (fac k) y (dfac k y).
Proof. intros H. unfold fac, dfac. destruct (k =? 0)%nat; [apply (is_derive_const (K := R_AbsRing) (V := R_NormedModule))|apply Hdv; auto]. Qed.
Lemma dfac_derive k y : (k <= N)%nat -> exists l, is_derive (dfac k) y l.
Proof. intros H. unfold dfac. destruct (k =? 0)%nat; eexists; [apply (is_derive_const (K := R_AbsRing) (V := R_NormedModule))|apply Hd2; auto]. Qed.
Lemma rprod_ext f h n : (forall i, (i < n)%nat -> f i = h i) -> rprod f n = rprod h n.
Proof. induction n as [|n IH]; intros H; cbn [rprod]; auto. rewrite IH, H by auto. reflexivity. Qed.
Lemma tensor_last al x T : length al = d -> length x = d -> tensor v al (upd x m T) = pre al x * fac (nth m al 0%nat) T.
Proof.
  intros La Lx. unfold tensor. rewrite La. unfold d. cbn [rprod]. f_equal.
  - apply rprod_ext. intros j Hj. unfold fac. destruct (_ =? 0)%nat; auto. f_equal. unfold coord. apply nth_upd_neq. lia.
  - unfold fac. destruct (_ =? 0)%nat; auto. f_equal. unfold coord. apply nth_upd_eq. unfold d in Lx. lia.
Qed.
Lemma in_alphas k : (k < nc)%nat -> In (nth k alphas []) alphas.
Proof. apply nth_In. Qed.
Lemma expansion_last c x T : length x = d -> expansion v alphas c (upd x m T) = rsum (fun k => coord c k * (pre (nth k alphas []) x * fac (nth m (nth k alphas []) 0%nat) T)) nc.
Proof. intros Lx. unfold expansion. apply rsum_ext. intros k Hk. rewrite tensor_last; auto. apply HL, in_alphas, Hk. Qed.
Lemma upd_twice (x : list R) j a b : upd (upd x j a) j b = upd x j b.
Proof.
  apply (nth_ext _ _ 0 0); [rewrite !upd_length; auto|]. intros k Hk. rewrite !upd_length in Hk. destruct (Nat.eq_dec k j) as [->|]; [rewrite !nth_upd_eq by (rewrite ?upd_length; auto); auto|].
  rewrite !nth_upd_neq by auto. reflexivity.
Qed.
Lemma slope_last c x T : length x = d -> slope v alphas c (upd x m T) = rsum (fun k => coord c k * (pre (nth k alphas []) x * dfac (nth m (nth k alphas []) 0%nat) T)) nc.
Proof.
  intros Lx. unfold slope, partial. rewrite upd_length, Lx. unfold d. rewrite Nat.sub_succ, Nat.sub_0_r. apply is_derive_unique.
  assert (EC : coord (upd x m T) m = T) by (unfold coord; apply nth_upd_eq; unfold d in Lx; lia). rewrite EC.
  apply (is_derive_ext (fun u => rsum (fun k => coord c k * (pre (nth k alphas []) x * fac (nth m (nth k alphas []) 0%nat) u)) nc)).
  - intros u. rewrite upd_twice. symmetry. apply expansion_last, Lx.
  - assert (G : forall n, (n <= nc)%nat -> is_derive (fun u => rsum (fun k => coord c k * (pre (nth k alphas []) x * fac (nth m (nth k alphas []) 0%nat) u)) n) T
        (rsum (fun k => coord c k * (pre (nth k alphas []) x * dfac (nth m (nth k alphas []) 0%nat) T)) n)).
    { induction n as [|n IH]; intros Hn; cbn [rsum]; [apply (is_derive_const (K := R_AbsRing) (V := R_NormedModule))|].
      apply (is_derive_plus (K := R_AbsRing) (V := R_NormedModule)); [apply IH; lia|].
      apply (is_derive_ext (fun u => coord c n * pre (nth n alphas []) x * fac (nth m (nth n alphas []) 0%nat) u)); [intros u; apply Rmult_assoc|].
      replace (coord c n * (pre (nth n alphas []) x * dfac (nth m (nth n alphas []) 0%nat) T)) with (coord c n * pre (nth n alphas []) x * dfac (nth m (nth n alphas []) 0%nat) T) by ring.
      apply is_derive_scal. apply fac_derive. apply HD, in_alphas. lia. }
    apply G. lia.
Qed.
Lemma along_pre al : In al alphas -> along nc d (fun _ x => pre al x).
Proof.
  intros Hal. unfold pre. apply (along_rprod nc d (fun j _ x => fac (nth j al 0%nat) (coord x j))). intros j Hj.
  apply (along_comp nc d (fac (nth j al 0%nat)) (fun _ x => coord x j)); [|apply along_point; unfold d; lia]. intros c x _ _. eexists. apply fac_derive, HD, Hal.
Qed.
(** f and its slope at a last coordinate that may itself move. *)
Lemma along_expansion H : along nc d H -> along nc d (fun c x => expansion v alphas c (with_last x (H c x))).
Proof.
  intros HH. apply (along_ext nc d (fun c x => rsum (fun k => coord c k * (pre (nth k alphas []) x * fac (nth m (nth k alphas []) 0%nat) (H c x))) nc)).
  - intros c x _ Lx. unfold with_last. rewrite Lx. unfold d. rewrite Nat.sub_succ, Nat.sub_0_r. symmetry. apply expansion_last, Lx.
  - apply (along_rsum nc d (fun k c x => coord c k * (pre (nth k alphas []) x * fac (nth m (nth k alphas []) 0%nat) (H c x)))). intros k Hk.
    apply (along_mult nc d (fun c _ => coord c k)); [apply along_coeff; auto|]. apply (along_mult nc d (fun _ x => pre (nth k alphas []) x)); [apply along_pre, in_alphas, Hk|].
    apply along_comp; auto. intros c x _ _. eexists. apply fac_derive, HD, in_alphas, Hk.
Qed.
Lemma along_slope_at H : along nc d H -> along nc d (fun c x => slope v alphas c (with_last x (H c x))).
Proof.
  intros HH. apply (along_ext nc d (fun c x => rsum (fun k => coord c k * (pre (nth k alphas []) x * dfac (nth m (nth k alphas []) 0%nat) (H c x))) nc)).
  - intros c x _ Lx. unfold with_last. rewrite Lx. unfold d. rewrite Nat.sub_succ, Nat.sub_0_r. symmetry. apply slope_last, Lx.
  - apply (along_rsum nc d (fun k c x => coord c k * (pre (nth k alphas []) x * dfac (nth m (nth k alphas []) 0%nat) (H c x)))). intros k Hk.
    apply (along_mult nc d (fun c _ => coord c k)); [apply along_coeff; auto|]. apply (along_mult nc d (fun _ x => pre (nth k alphas []) x)); [apply along_pre, in_alphas, Hk|].
    apply along_comp; auto. intros c x _ _. apply dfac_derive, HD, in_alphas, Hk.
Qed.
Lemma along_last : along nc d (fun _ x => last_of x).
Proof.
  apply (along_ext nc d (fun _ x => coord x m)); [|apply along_point; unfold d; lia]. intros c x _ Lx. unfold last_of. rewrite Lx. unfold d. rewrite Nat.sub_succ, Nat.sub_0_r. reflexivity.
Qed.
Lemma along_value nugget0 : along nc d (fun c x => mono_rule pts wts g v alphas nugget0 c x).
Proof.
  unfold mono_rule. apply (along_plus nc d (fun c x => rule_on pts wts 0 1 (mono_integrand g v alphas nugget0 c x))).
  - unfold rule_on. apply (along_mult nc d (fun _ _ => (1 - 0) / 2)); [apply along_const|].
    assert (G : forall (F : list R -> list R -> R -> R), (forall s, along nc d (fun c x => F c x s)) -> forall p w, along nc d (fun c x => rule_sum p w (F c x))).
    { intros F HF p w. unfold rule_sum. apply (along_rsum nc d (fun k c x => nth k w 0 * F c x (nth k p 0))). intros k _.
      apply (along_mult nc d (fun _ _ => nth k w 0)); [apply along_const|apply HF]. }
    apply (G (fun c x t => mono_integrand g v alphas nugget0 c x ((0 + 1) / 2 + (1 - 0) / 2 * t))). intros s. unfold mono_integrand.
    apply (along_mult nc d (fun _ x => last_of x)); [apply along_last|]. apply (along_plus nc d (fun c x => g (slope v alphas c (with_last x (((0 + 1) / 2 + (1 - 0) / 2 * s) * last_of x))))); [|apply along_const].
    apply (along_comp nc d g); [intros; eexists; apply Hg|]. apply (along_slope_at (fun c x => ((0 + 1) / 2 + (1 - 0) / 2 * s) * last_of x)).
    apply (along_mult nc d (fun _ _ => (0 + 1) / 2 + (1 - 0) / 2 * s)); [apply along_const|apply along_last].
  - apply (along_expansion (fun _ _ => 0)). apply along_const.
Qed.
Lemma with_last_self x : length x = d -> with_last x (last_of x) = x.
Proof. intros L. unfold with_last, last_of. apply upd_self. rewrite L. unfold d. lia. Qed.
Lemma along_logdet : (forall y, 0 < g y) -> along nc d (fun c x => ln (g (slope v alphas c x))).
Proof.
  intros Hp. apply (along_comp nc d ln).
  - intros c x _ _. eexists. apply is_derive_ln, Hp.
  - apply (along_comp nc d g); [intros; eexists; apply Hg|]. apply (along_ext nc d (fun c x => slope v alphas c (with_last x (last_of x)))).
    + intros c x _ Lx. rewrite with_last_self by auto. reflexivity.
    + apply (along_slope_at (fun _ x => last_of x)), along_last.
Qed.

Lemma mono_sized nugget : sized (mono_pmap d pts wts g nugget v alphas).
Proof. intros c x s _ _ _. cbn [mono_pmap p_eval p_grad p_cgrad p_ldc p_ldi p_out p_in p_nc]. rewrite !map_length, !seq_length. auto. Qed.
Lemma mono_true : true_gradients (mono_pmap d pts wts g 0 v alphas).
Proof.
  intros gc gx t vc vx s V1 V2 L1 L2 Ls. cbn [mono_pmap p_eval p_grad p_cgrad p_nc p_in p_out] in *. destruct s as [|s [|]]; try discriminate. cbn [coord nth]. rewrite !dot_rsum by auto.
  pose (F := fun c x => s * (mono_rule pts wts g v alphas 0 c x + 0 * last_of x)).
  assert (HF : along nc d F).
  { unfold F. apply (along_mult nc d (fun _ _ => s)); [apply along_const|]. apply (along_plus nc d (fun c x => mono_rule pts wts g v alphas 0 c x)); [apply along_value|].
    apply (along_mult nc d (fun _ _ => 0)); [apply along_const|apply along_last]. }
  apply (is_derive_ext (fun u => F (gc u) (gx u))); [intros u; unfold F; cbn [dot]; rewrite Rmult_0_l, !Rplus_0_r; reflexivity|].
  apply (along_partials nc d F (gc t) (gx t) HF); auto; [apply (velocity_length gc t vc)|apply (velocity_length gx t vx)]; auto.
Qed.
Lemma mono_true_logdet nugget : (forall y, 0 < g y) -> true_logdet_gradients (mono_pmap d pts wts g nugget v alphas).
Proof.
  intros Hp gc gx t vc vx V1 V2 L1 L2. cbn [mono_pmap p_logdet p_ldc p_ldi p_nc p_in] in *. rewrite !dot_rsum by auto.
  apply (along_partials nc d (fun c x => ln (g (slope v alphas c x))) (gc t) (gx t) (along_logdet Hp)); auto; [apply (velocity_length gc t vc)|apply (velocity_length gx t vx)]; auto.
Qed.
End Component.
