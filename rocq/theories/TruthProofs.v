(** Gradients of triangular maps, compositions and the leaf maps are derivatives. *)
From Coq Require Import Reals List Lra Lia.
From Coquelicot Require Import Coquelicot.
From Verif Require Import Base SpecExpansion SpecMaps ExpansionModel MapsModel MapsContract MapsProofs ComposedProofs.
Import ListNotations.
Local Open Scope R_scope.

(** * Inner products *)
Lemma dot_app a1 a2 b1 b2 : length a1 = length b1 -> dot (a1 ++ a2) (b1 ++ b2) = dot a1 b1 + dot a2 b2.
Proof.
  revert b1. induction a1 as [|x a1 IH]; intros [|y b1] H; cbn in *; try discriminate; [ring|].
  rewrite IH by congruence. ring.
Qed.
Lemma dot_nil_r a : dot a [] = 0. Proof. destruct a; reflexivity. Qed.
Lemma dot_vadd_l a b v : length a = length b -> dot (vadd a b) v = dot a v + dot b v.
Proof.
  revert b v. induction a as [|x a IH]; intros [|y b] v H; cbn in *; try discriminate; [ring|].
  destruct v as [|z v]; [ring|]. rewrite IH by congruence. ring.
Qed.
Lemma dot_zeros_l n v : dot (zeros n) v = 0.
Proof. revert v. induction n as [|n IH]; intros [|y v]; cbn; auto. unfold zeros in IH. rewrite IH. ring. Qed.
Lemma dot_extend n a v : length v = n -> (length a <= n)%nat -> dot (extend n a) v = dot a (firstn (length a) v).
Proof.
  intros Hv Ha. unfold extend. rewrite <- (firstn_skipn (length a) v) at 1.
  rewrite dot_app by (rewrite firstn_len; lia). rewrite dot_zeros_l. ring.
Qed.
Lemma dot_split s a b : (length a <= length s)%nat -> dot s (a ++ b) = dot (firstn (length a) s) a + dot (skipn (length a) s) b.
Proof. intros H. rewrite <- (firstn_skipn (length a) s) at 1. apply dot_app. rewrite firstn_len; lia. Qed.

Lemma coord_map_seq (f : nat -> R) n j : (j < n)%nat -> coord (map f (seq 0 n)) j = f j.
Proof.
  intros H. unfold coord. rewrite nth_indep with (d' := f 0%nat) by (rewrite map_length, seq_length; auto).
  rewrite (map_nth f (seq 0 n) 0%nat j). rewrite seq_nth by auto. reflexivity.
Qed.

(** * Velocities *)
Lemma coord_firstn k l j : (j < k)%nat -> coord (firstn k l) j = coord l j.
Proof.
  unfold coord. revert l j. induction k as [|k IH]; intros [|a l] [|j] H; cbn; auto; try lia. apply IH. lia.
Qed.
Lemma coord_skipn k l j : coord (skipn k l) j = coord l (k + j).
Proof. unfold coord. revert l. induction k as [|k IH]; intros [|a l]; cbn; auto. destruct j; reflexivity. Qed.
Lemma velocity_firstn g t v k : velocity g t v -> velocity (fun u => firstn k (g u)) t (firstn k v).
Proof.
  intros [H1 H2]. split; [intros u; rewrite !firstn_length, H1; auto|].
  intros j Hj. rewrite firstn_length in Hj. rewrite coord_firstn by lia.
  eapply is_derive_ext; [|apply (H2 j); lia]. intros u. cbn. symmetry. apply coord_firstn. lia.
Qed.
Lemma velocity_skipn g t v k : velocity g t v -> velocity (fun u => skipn k (g u)) t (skipn k v).
Proof.
  intros [H1 H2]. split; [intros u; rewrite !skipn_length, H1; auto|].
  intros j Hj. rewrite skipn_length in Hj. rewrite coord_skipn.
  eapply is_derive_ext; [|apply (H2 (k + j)%nat); lia]. intros u. cbn. symmetry. apply coord_skipn.
Qed.
Lemma velocity_len g t v n : velocity g t v -> length v = n -> forall u, length (g u) = n.
Proof. intros [H _] E u. rewrite H. exact E. Qed.
Lemma velocity_app g1 g2 t v1 v2 : velocity g1 t v1 -> velocity g2 t v2 -> velocity (fun u => g1 u ++ g2 u) t (v1 ++ v2).
Proof.
  intros [A1 A2] [B1 B2]. split; [intros u; rewrite !app_length, A1, B1; auto|].
  intros j Hj. rewrite app_length in Hj. unfold coord. destruct (Nat.lt_ge_cases j (length v1)) as [H|H].
  - rewrite app_nth1 by auto. eapply is_derive_ext; [|apply (A2 j); auto]. intros u. cbn. rewrite app_nth1 by (rewrite A1; auto). reflexivity.
  - rewrite app_nth2 by auto. eapply is_derive_ext; [|apply (B2 (j - length v1)%nat); lia].
    intros u. cbn. rewrite app_nth2 by (rewrite A1; auto). rewrite A1. reflexivity.
Qed.

(** The derivative of an inner product with a fixed vector. *)
Lemma dot_derive s g t v : velocity g t v -> is_derive (fun u => dot s (g u)) t (dot s v).
Proof.
  revert g v. induction s as [|a s IH]; intros g v H.
  - cbn. apply @is_derive_const.
  - destruct v as [|w v].
    + rewrite dot_nil_r. eapply is_derive_ext; [|apply (@is_derive_const _ R_NormedModule 0)].
      intros u. cbn. destruct H as [H _]. specialize (H u). destruct (g u); [reflexivity|discriminate].
    + destruct H as [H1 H2].
      assert (H0 := H2 0%nat ltac:(cbn; lia)).
      assert (Ht : velocity (fun u => skipn 1 (g u)) t v) by (apply (velocity_skipn g t (w :: v) 1); split; auto).
      specialize (IH _ _ Ht). cbn [dot].
      eapply is_derive_ext with (f := fun u => a * coord (g u) 0 + dot s (skipn 1 (g u))).
      { intros u. specialize (H1 u). destruct (g u) as [|y l]; [discriminate|]. reflexivity. }
      change (coord (w :: v) 0) with w in H0.
      apply (@is_derive_plus R_AbsRing R_NormedModule); [|exact IH]. apply is_derive_scal. exact H0.
Qed.

(** The value of a map along curves has a velocity, and its pairing with [s] is the one given by the gradients. *)
Definition basis_vec (n i : nat) : list R := upd (zeros n) i 1.
Lemma basis_length n i : length (basis_vec n i) = n.
Proof. unfold basis_vec. rewrite upd_length. apply repeat_length. Qed.
Lemma dot_basis n i v : (i < n)%nat -> length v = n -> dot (basis_vec n i) v = coord v i.
Proof.
  revert i v. induction n as [|n IH]; intros i v Hi Hv; [lia|]. destruct v as [|w v]; [discriminate|].
  unfold basis_vec, zeros. cbn [repeat]. destruct i as [|i].
  - cbn [upd dot]. change (repeat 0 n) with (zeros n). rewrite dot_zeros_l. unfold coord. cbn. ring.
  - cbn [upd dot]. specialize (IH i v ltac:(lia) ltac:(cbn in Hv; lia)). unfold basis_vec, zeros in IH. rewrite IH. unfold coord. cbn. ring.
Qed.

Lemma value_velocity K gc gx t vc vx : sized K -> true_gradients K -> velocity gc t vc -> velocity gx t vx ->
  length vc = p_nc K -> length vx = p_in K ->
  exists w, velocity (fun u => p_eval K (gc u) (gx u)) t w /\ length w = p_out K /\
    forall s, length s = p_out K -> dot s w = dot (p_cgrad K (gc t) (gx t) s) vc + dot (p_grad K (gc t) (gx t) s) vx.
Proof.
  intros HS HT Hgc Hgx Lc Lx.
  set (w := map (fun i => dot (p_cgrad K (gc t) (gx t) (basis_vec (p_out K) i)) vc
                          + dot (p_grad K (gc t) (gx t) (basis_vec (p_out K) i)) vx) (seq 0 (p_out K))).
  assert (Lw : length w = p_out K) by (unfold w; rewrite map_length, seq_length; auto).
  assert (HL : forall u, length (p_eval K (gc u) (gx u)) = p_out K).
  { intros u. apply (HS (gc u) (gx u) (zeros (p_out K))); [eapply velocity_len; eauto | eapply velocity_len; eauto | apply repeat_length]. }
  assert (HV : velocity (fun u => p_eval K (gc u) (gx u)) t w).
  { split; [intros u; rewrite HL; auto|]. intros j Hj. rewrite Lw in Hj.
    assert (Hc : coord w j = dot (p_cgrad K (gc t) (gx t) (basis_vec (p_out K) j)) vc + dot (p_grad K (gc t) (gx t) (basis_vec (p_out K) j)) vx).
    { unfold w. apply coord_map_seq. exact Hj. }
    rewrite Hc. eapply is_derive_ext; [|apply (HT gc gx t vc vx (basis_vec (p_out K) j)); auto; apply basis_length].
    intros u. cbn. apply dot_basis; auto. }
  exists w. split; [exact HV|]. split; [exact Lw|]. intros s Ls.
  apply (eq_trans (eq_sym (is_derive_unique _ _ _ (dot_derive s _ _ _ HV)))).
  apply is_derive_unique. apply HT; auto.
Qed.

(** * Triangular maps *)
Lemma tri_eval_len l c x : Forall sized l -> length c = nsum p_nc l -> Forall (fun K => p_in K <= length x)%nat l ->
  length (tri_eval l c x) = nsum p_out l.
Proof.
  revert c. induction l as [|K l IH]; intros c HS Hc Hx; [reflexivity|]. cbn [tri_eval nsum] in *.
  inversion HS as [|? ? S1 S2]; inversion Hx as [|? ? X1 X2]; subst. rewrite app_length.
  destruct (S1 (firstn (p_nc K) c) (firstn (p_in K) x) (zeros (p_out K))) as (-> & _);
    [rewrite firstn_len; lia | rewrite firstn_len; lia | apply repeat_length |].
  rewrite IH; auto. rewrite skipn_length. lia.
Qed.
Lemma tri_true n l : Forall sized l -> Forall true_gradients l -> Forall (fun K => p_in K <= n)%nat l -> true_gradients (tri_pmap n l).
Proof.
  intros HS HT HN. unfold true_gradients. cbn [tri_pmap p_nc p_in p_out p_eval p_cgrad p_grad].
  induction l as [|K l IH]; intros gc gx t vc vx s Hgc Hgx Lc Lx Ls.
  - cbn [tri_eval tri_cgrad tri_grad]. cbn [dot]. rewrite dot_zeros_l, Rplus_0_r.
    eapply is_derive_ext; [|apply (@is_derive_const _ R_NormedModule 0)]. intros u. symmetry. apply dot_nil_r.
  - inversion HS as [|? ? S1 S2]; inversion HT as [|? ? T1 T2]; inversion HN as [|? ? N1 N2]; subst.
    cbn [nsum] in *. cbn [tri_eval tri_cgrad tri_grad].
    specialize (IH S2 T2 N2 (fun u => skipn (p_nc K) (gc u)) gx t (skipn (p_nc K) vc) vx (skipn (p_out K) s)
      (velocity_skipn _ _ _ _ Hgc) Hgx ltac:(rewrite skipn_length; lia) eq_refl ltac:(rewrite skipn_length; lia)).
    pose proof (T1 (fun u => firstn (p_nc K) (gc u)) (fun u => firstn (p_in K) (gx u)) t (firstn (p_nc K) vc) (firstn (p_in K) vx)
      (firstn (p_out K) s) (velocity_firstn _ _ _ _ Hgc) (velocity_firstn _ _ _ _ Hgx)
      ltac:(rewrite firstn_len; lia) ltac:(rewrite firstn_len; lia) ltac:(rewrite firstn_len; lia)) as HK.
    pose proof (velocity_len _ _ _ _ Hgc Lc) as Lgc. pose proof (velocity_len _ _ _ _ Hgx eq_refl) as Lgx.
    assert (SZ : forall u, _) by (intros u; exact (S1 (firstn (p_nc K) (gc u)) (firstn (p_in K) (gx u)) (firstn (p_out K) s)
      ltac:(rewrite firstn_len; [auto|rewrite Lgc; lia]) ltac:(rewrite firstn_len; [auto|rewrite Lgx; lia]) ltac:(rewrite firstn_len; lia))).
    destruct (SZ t) as (Z1 & Z2 & Z3 & _).
    eapply is_derive_ext; [intros u; symmetry; rewrite dot_split; [|rewrite (proj1 (SZ u)); lia]; rewrite (proj1 (SZ u)); reflexivity|].
    match goal with |- is_derive _ _ ?D => match type of HK with is_derive _ _ ?A => match type of IH with is_derive _ _ ?B =>
      replace D with (A + B) end end end.
    + apply (@is_derive_plus R_AbsRing R_NormedModule _ _ _ _ _ HK IH).
    + rewrite <- (firstn_skipn (p_nc K) vc) at 3. rewrite dot_app by (rewrite Z3, firstn_len; lia).
      assert (LG : length (tri_grad l (length vx) (skipn (p_nc K) (gc t)) (gx t) (skipn (p_out K) s)) = length vx).
      { specialize (Lgc t). specialize (Lgx t). clear - S2 N2 Lgc Lgx Ls. revert Lgc Ls. generalize (gc t) as c. intros c.
        generalize (p_nc K) as k, (p_out K) as o. intros k o Hc Hs.
        assert (E1 : length (skipn k c) = nsum p_nc l) by (rewrite skipn_length; lia).
        assert (E2 : length (skipn o s) = nsum p_out l) by (rewrite skipn_length; lia).
        revert E1 E2. generalize (skipn k c) as c', (skipn o s) as s'. clear Hc Hs k o.
        induction l as [|Q l IH]; intros c' s' E1 E2; [apply repeat_length|].
        inversion S2 as [|? ? A1 A2]; inversion N2 as [|? ? B1 B2]; subst. cbn [tri_grad nsum] in *.
        destruct (A1 (firstn (p_nc Q) c') (firstn (p_in Q) (gx t)) (firstn (p_out Q) s')) as (_ & G & _);
          [rewrite firstn_len; lia | rewrite firstn_len; [auto|rewrite Lgx; lia] | rewrite firstn_len; lia |].
        assert (EL : length (extend (length vx) (p_grad Q (firstn (p_nc Q) c') (firstn (p_in Q) (gx t)) (firstn (p_out Q) s'))) = length vx)
          by (apply extend_length; rewrite G; exact B1).
        rewrite vadd_length; [exact EL|]. rewrite EL. symmetry. apply IH; auto; rewrite skipn_length; lia. }
      rewrite dot_vadd_l.
      * rewrite dot_extend by (auto; rewrite Z2; auto). rewrite Z2. ring.
      * rewrite extend_length by (rewrite Z2; auto). rewrite LG. reflexivity.
Qed.
Lemma tri_ldi_len l n c x : Forall sized l -> length c = nsum p_nc l -> Forall (fun K => p_in K <= n)%nat l -> (length x = n)%nat ->
  length (tri_ldi l n c x) = n.
Proof.
  revert c. induction l as [|K l IH]; intros c HS Hc Hx Lx; [apply repeat_length|]. cbn [tri_ldi nsum] in *.
  inversion HS as [|? ? S1 S2]; inversion Hx as [|? ? X1 X2]; subst.
  destruct (S1 (firstn (p_nc K) c) (firstn (p_in K) x) (zeros (p_out K))) as (_ & _ & _ & _ & G);
    [rewrite firstn_len; lia | rewrite firstn_len; lia | apply repeat_length |].
  assert (EL : length (extend (length x) (p_ldi K (firstn (p_nc K) c) (firstn (p_in K) x))) = length x) by (apply extend_length; lia).
  rewrite vadd_length; rewrite EL; auto. symmetry. apply IH; auto. rewrite skipn_length; lia.
Qed.
Lemma tri_true_logdet n l : Forall sized l -> Forall true_logdet_gradients l -> Forall (fun K => p_in K <= n)%nat l ->
  true_logdet_gradients (tri_pmap n l).
Proof.
  intros HS HT HN. unfold true_logdet_gradients. cbn [tri_pmap p_nc p_in p_out p_logdet p_ldc p_ldi].
  induction l as [|K l IH]; intros gc gx t vc vx Hgc Hgx Lc Lx.
  - cbn [tri_logdet tri_ldc tri_ldi dot]. rewrite dot_zeros_l, Rplus_0_r. apply @is_derive_const.
  - inversion HS as [|? ? S1 S2]; inversion HT as [|? ? T1 T2]; inversion HN as [|? ? N1 N2]; subst.
    cbn [nsum] in *. cbn [tri_logdet tri_ldc tri_ldi].
    specialize (IH S2 T2 N2 (fun u => skipn (p_nc K) (gc u)) gx t (skipn (p_nc K) vc) vx
      (velocity_skipn _ _ _ _ Hgc) Hgx ltac:(rewrite skipn_length; lia) eq_refl).
    pose proof (T1 (fun u => firstn (p_nc K) (gc u)) (fun u => firstn (p_in K) (gx u)) t (firstn (p_nc K) vc) (firstn (p_in K) vx)
      (velocity_firstn _ _ _ _ Hgc) (velocity_firstn _ _ _ _ Hgx)
      ltac:(rewrite firstn_len; lia) ltac:(rewrite firstn_len; lia)) as HK.
    pose proof (velocity_len _ _ _ _ Hgc Lc) as Lgc. pose proof (velocity_len _ _ _ _ Hgx eq_refl) as Lgx.
    destruct (S1 (firstn (p_nc K) (gc t)) (firstn (p_in K) (gx t)) (zeros (p_out K))
      ltac:(rewrite firstn_len; [auto|rewrite Lgc; lia]) ltac:(rewrite firstn_len; [auto|rewrite Lgx; lia]) ltac:(apply repeat_length))
      as (_ & _ & _ & Z3 & Z2).
    match goal with |- is_derive _ _ ?D => match type of HK with is_derive _ _ ?A => match type of IH with is_derive _ _ ?B =>
      replace D with (A + B) end end end.
    + apply (@is_derive_plus R_AbsRing R_NormedModule _ _ _ _ _ HK IH).
    + rewrite <- (firstn_skipn (p_nc K) vc) at 3. rewrite dot_app by (rewrite Z3, firstn_len; lia).
      rewrite dot_vadd_l.
      * rewrite dot_extend by (auto; rewrite Z2; auto). rewrite Z2. ring.
      * rewrite extend_length by (rewrite Z2; auto). rewrite tri_ldi_len; auto. rewrite skipn_length, Lgc. lia.
Qed.

(** * Compositions *)
Definition on (d : nat) (l : list pmap) : Prop := Forall (fun K => p_in K = d /\ p_out K = d) l.
Lemma cmp_sizes d l : Forall sized l -> on d l -> forall c x s, length c = nsum p_nc l -> length x = d -> length s = d ->
  length (cmp_eval l c x) = d /\ length (cmp_grad l c x s) = d /\ length (cmp_cgrad l c x s) = nsum p_nc l /\
  length (cmp_ldc l c x) = nsum p_nc l /\ length (cmp_ldi l c x) = d.
Proof.
  intros HS HO. induction l as [|K l IH]; intros c x s Hc Hx Hs.
  - cbn. unfold zeros. rewrite repeat_length. auto.
  - inversion HS as [|? ? S1 S2]; inversion HO as [|? ? [O1 O2] O3]; subst. cbn [nsum] in Hc.
    assert (F : length (firstn (p_nc K) c) = p_nc K) by (rewrite firstn_len; lia).
    assert (F2 : length (skipn (p_nc K) c) = nsum p_nc l) by (rewrite skipn_length; lia).
    specialize (IH S2 O3). cbn [cmp_eval cmp_grad cmp_cgrad].
    destruct (S1 (firstn (p_nc K) c) x s F ltac:(lia) ltac:(lia)) as (E1 & _ & _ & E4 & E5).
    destruct (IH (skipn (p_nc K) c) (p_eval K (firstn (p_nc K) c) x) s F2 ltac:(lia) Hs) as (I1 & I2 & I3 & I4 & I5).
    destruct (S1 (firstn (p_nc K) c) x _ F ltac:(lia) ltac:(rewrite I2; lia)) as (_ & G2 & G3 & _ & _).
    split; [exact I1|]. split; [rewrite G2; auto|]. split; [rewrite app_length; cbn [nsum]; lia|].
    destruct l as [|Q l].
    + cbn [cmp_ldc cmp_ldi nsum]. lia.
    + destruct (S1 (firstn (p_nc K) c) x _ F ltac:(lia) ltac:(rewrite I5; lia)) as (_ & L2 & L3 & _ & _).
      split.
      * change (cmp_ldc (K :: Q :: l) c x) with (vadd (p_ldc K (firstn (p_nc K) c) x)
          (p_cgrad K (firstn (p_nc K) c) x (cmp_ldi (Q :: l) (skipn (p_nc K) c) (p_eval K (firstn (p_nc K) c) x)))
          ++ cmp_ldc (Q :: l) (skipn (p_nc K) c) (p_eval K (firstn (p_nc K) c) x)).
        rewrite app_length, vadd_length by lia. rewrite I4. cbn [nsum]. lia.
      * change (cmp_ldi (K :: Q :: l) c x) with (vadd (p_grad K (firstn (p_nc K) c) x
          (cmp_ldi (Q :: l) (skipn (p_nc K) c) (p_eval K (firstn (p_nc K) c) x))) (p_ldi K (firstn (p_nc K) c) x)).
        rewrite vadd_length by lia. lia.
Qed.
Lemma cmp_true d l : Forall sized l -> on d l -> Forall true_gradients l -> true_gradients (cmp_pmap d l).
Proof.
  intros HS HO HT. unfold true_gradients. cbn [cmp_pmap p_nc p_in p_out p_eval p_cgrad p_grad].
  induction l as [|K l IH]; intros gc gx t vc vx s Hgc Hgx Lc Lx Ls.
  - cbn [cmp_eval cmp_cgrad cmp_grad dot]. rewrite Rplus_0_l. apply dot_derive. exact Hgx.
  - inversion HS as [|? ? S1 S2]; inversion HO as [|? ? [O1 O2] O3]; inversion HT as [|? ? T1 T2]; subst. cbn [nsum] in Lc.
    cbn [cmp_eval cmp_grad cmp_cgrad].
    pose proof (velocity_len _ _ _ _ Hgc Lc) as Lgc. pose proof (velocity_len _ _ _ _ Hgx eq_refl) as Lgx.
    destruct (value_velocity K (fun u => firstn (p_nc K) (gc u)) gx t (firstn (p_nc K) vc) vx S1 T1 (velocity_firstn _ _ _ _ Hgc) Hgx
      ltac:(rewrite firstn_len; lia) ltac:(lia)) as (w & HW & LW & HD).
    pose proof (IH S2 O3 T2 (fun u => skipn (p_nc K) (gc u)) _ t (skipn (p_nc K) vc) w s (velocity_skipn _ _ _ _ Hgc) HW
      ltac:(rewrite skipn_length; lia) ltac:(lia) Ls) as H. cbn beta in H.
    assert (F : length (firstn (p_nc K) (gc t)) = p_nc K) by (rewrite firstn_len; [auto|rewrite Lgc; lia]).
    destruct (S1 (firstn (p_nc K) (gc t)) (gx t) s F ltac:(rewrite Lgx; lia) ltac:(lia)) as (E1 & _).
    destruct (cmp_sizes _ _ S2 O3 (skipn (p_nc K) (gc t)) (p_eval K (firstn (p_nc K) (gc t)) (gx t)) s
       ltac:(rewrite skipn_length, Lgc; lia) ltac:(lia) ltac:(lia)) as (_ & I2 & I3 & _).
    rewrite HD in H by (rewrite I2; lia).
    match goal with |- is_derive _ _ ?D => match type of H with is_derive _ _ ?A => replace D with A end end; [exact H|].
    rewrite <- (firstn_skipn (p_nc K) vc) at 3.
    destruct (S1 (firstn (p_nc K) (gc t)) (gx t) _ F ltac:(rewrite Lgx; lia) ltac:(rewrite I2; lia)) as (_ & _ & E3 & _).
    rewrite dot_app by (rewrite E3, firstn_len; lia). ring.
Qed.
Lemma cmp_true_logdet d l : Forall sized l -> on d l -> Forall true_gradients l -> Forall true_logdet_gradients l ->
  true_logdet_gradients (cmp_pmap d l).
Proof.
  intros HS HO HT HL. unfold true_logdet_gradients. cbn [cmp_pmap p_nc p_in p_out p_logdet p_ldc p_ldi].
  induction l as [|K l IH]; intros gc gx t vc vx Hgc Hgx Lc Lx.
  - cbn [cmp_logdet cmp_ldc cmp_ldi dot]. rewrite dot_zeros_l, Rplus_0_r. apply @is_derive_const.
  - inversion HS as [|? ? S1 S2]; inversion HO as [|? ? [O1 O2] O3]; inversion HT as [|? ? T1 T2]; inversion HL as [|? ? M1 M2]; subst. cbn [nsum] in Lc.
    pose proof (velocity_len _ _ _ _ Hgc Lc) as Lgc. pose proof (velocity_len _ _ _ _ Hgx eq_refl) as Lgx.
    assert (F : length (firstn (p_nc K) (gc t)) = p_nc K) by (rewrite firstn_len; [auto|rewrite Lgc; lia]).
    pose proof (M1 (fun u => firstn (p_nc K) (gc u)) gx t (firstn (p_nc K) vc) vx (velocity_firstn _ _ _ _ Hgc) Hgx
      ltac:(rewrite firstn_len; lia) ltac:(lia)) as HK. cbn beta in HK.
    destruct l as [|Q l].
    + cbn [nsum] in Lc. cbn [cmp_logdet cmp_ldc cmp_ldi]. rewrite (firstn_all2 vc) in HK by lia.
      eapply is_derive_ext; [|exact HK]. intros u. cbn. ring.
    + destruct (value_velocity K (fun u => firstn (p_nc K) (gc u)) gx t (firstn (p_nc K) vc) vx S1 T1 (velocity_firstn _ _ _ _ Hgc) Hgx
        ltac:(rewrite firstn_len; lia) ltac:(lia)) as (w & HW & LW & HD).
      pose proof (IH S2 O3 T2 M2 (fun u => skipn (p_nc K) (gc u)) _ t (skipn (p_nc K) vc) w (velocity_skipn _ _ _ _ Hgc) HW
        ltac:(rewrite skipn_length; lia) ltac:(lia)) as H. cbn beta in H.
      set (c1 := firstn (p_nc K) (gc t)) in *. set (c2 := skipn (p_nc K) (gc t)) in *. set (y := p_eval K c1 (gx t)) in *.
      change (cmp_ldc (K :: Q :: l) (gc t) (gx t)) with (vadd (p_ldc K c1 (gx t)) (p_cgrad K c1 (gx t) (cmp_ldi (Q :: l) c2 y)) ++ cmp_ldc (Q :: l) c2 y).
      change (cmp_ldi (K :: Q :: l) (gc t) (gx t)) with (vadd (p_grad K c1 (gx t) (cmp_ldi (Q :: l) c2 y)) (p_ldi K c1 (gx t))).
      destruct (S1 c1 (gx t) (zeros (length vx)) F ltac:(rewrite Lgx; lia) ltac:(unfold zeros; rewrite repeat_length; lia)) as (E1 & _ & _ & E4 & E5).
      destruct (cmp_sizes _ _ S2 O3 c2 y (zeros (length vx))
         ltac:(unfold c2; rewrite skipn_length, Lgc; lia) ltac:(unfold y; lia) ltac:(unfold zeros; rewrite repeat_length; lia)) as (_ & _ & _ & _ & I5).
      destruct (S1 c1 (gx t) (cmp_ldi (Q :: l) c2 y) F ltac:(rewrite Lgx; lia) ltac:(rewrite I5; lia)) as (_ & E2 & E3 & _ & _).
      rewrite HD in H by (rewrite I5; lia).
      match goal with |- is_derive _ _ ?D => match type of HK with is_derive _ _ ?A => match type of H with is_derive _ _ ?B =>
        replace D with (A + B) end end end.
      * apply (@is_derive_plus R_AbsRing R_NormedModule _ _ _ _ _ HK H).
      * rewrite <- (firstn_skipn (p_nc K) vc) at 4.
        rewrite dot_app by (rewrite vadd_length by lia; rewrite E4, firstn_len; lia).
        rewrite !dot_vadd_l by lia. ring.
Qed.
