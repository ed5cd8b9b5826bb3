(** Log determinants are ln|det| of the Jacobian in the trailing inputs: identity, summarised and
    triangular maps. Contracts of the offset map and of summarised maps. *)
From Coq Require Import Reals List Lra Lia.
From Coquelicot Require Import Coquelicot.
From Verif Require Import Base SpecExpansion SpecMaps ExpansionModel MapsModel LeafModel MapsContract MapsProofs ComposedProofs TruthProofs LeafProofs.
Import ListNotations.
Local Open Scope R_scope.

(** * Block triangular determinants *)
Lemma rsum_ext f g n : (forall i, (i < n)%nat -> f i = g i) -> rsum f n = rsum g n.
Proof. intros H. induction n as [|n IH]; cbn; [auto|]. rewrite IH, H; auto. Qed.
Lemma rsum_plus f a b : rsum f (a + b) = rsum f a + rsum (fun i => f (a + i)%nat) b.
Proof. induction b as [|b IH]; [rewrite Nat.add_0_r; cbn; ring|]. rewrite Nat.add_succ_r. cbn. rewrite IH. ring. Qed.
Lemma rsum_zero f n : (forall i, (i < n)%nat -> f i = 0) -> rsum f n = 0.
Proof. intros H. rewrite (rsum_ext f (fun _ => 0) n H). clear H. induction n; cbn; lra. Qed.
Lemma rsum_scal_r f k n : rsum (fun i => f i * k) n = rsum f n * k.
Proof. induction n as [|n IH]; cbn; [ring|]. rewrite IH. ring. Qed.

Definition beside (C D : list (list R)) : list (list R) := map (fun p => fst p ++ snd p) (combine C D).
Definition padded (m : nat) (A : list (list R)) : list (list R) := map (fun r => r ++ zeros m) A.
Lemma remove_app j (r z : list R) : (j < length r)%nat -> remove_col j (r ++ z) = remove_col j r ++ z.
Proof.
  intros H. unfold remove_col. rewrite firstn_app, skipn_app. replace (j - length r)%nat with 0%nat by lia.
  replace (S j - length r)%nat with 0%nat by lia. cbn [firstn skipn]. rewrite app_nil_r, app_assoc. reflexivity.
Qed.
Lemma remove_length j r : (j < length r)%nat -> length (remove_col j r) = (length r - 1)%nat.
Proof. intros H. unfold remove_col. rewrite app_length, firstn_length, skipn_length. lia. Qed.
Lemma remove_padded j m k A : Forall (fun r => length r = k) A -> (j < k)%nat -> map (remove_col j) (padded m A) = padded m (map (remove_col j) A).
Proof.
  intros H Hj. unfold padded. induction H as [|r A Hr _ IH]; [reflexivity|]. cbn [map]. rewrite IH, remove_app by lia. reflexivity.
Qed.
Lemma remove_beside j k C D : Forall (fun r => length r = k) C -> (j < k)%nat -> map (remove_col j) (beside C D) = beside (map (remove_col j) C) D.
Proof.
  intros H Hj. unfold beside. revert D. induction H as [|r C Hr _ IH]; intros [|d D]; [reflexivity..|]. cbn [map combine fst snd].
  rewrite IH, remove_app by lia. reflexivity.
Qed.
Lemma remove_rows j k (A : list (list R)) : Forall (fun r => length r = S k) A -> (j < S k)%nat -> Forall (fun r => length r = k) (map (remove_col j) A).
Proof.
  intros H Hj. induction H as [|r A Hr _ IH]; cbn [map]; constructor; auto. rewrite remove_length; lia.
Qed.
Lemma beside_nil C D : Forall (fun r => length r = 0%nat) C -> length C = length D -> beside C D = D.
Proof.
  intros H. revert D. induction H as [|r C Hr _ IH]; intros [|d D] HL; cbn in *; try discriminate; auto.
  destruct r; [|discriminate]. cbn. f_equal. apply IH. congruence.
Qed.
Lemma det_block k m : forall A C D, rows_of k k A -> rows_of m k C -> rows_of m m D ->
  det (k + m) (padded m A ++ beside C D) = det k A * det m D.
Proof.
  induction k as [|k IH]; intros A C D [A1 A2] [C1 C2] HD.
  - destruct A; [|discriminate]. cbn [padded map app det Nat.add]. rewrite beside_nil; auto; [|destruct HD; congruence]. ring.
  - destruct A as [|row A]; [discriminate|]. cbn [padded map app]. fold (padded m A). pose proof (Forall_inv A2) as R1. pose proof (Forall_inv_tail A2) as R2. cbn beta in R1.
    cbn [Nat.add det]. change (S (k + m)) with (S k + m)%nat. rewrite rsum_plus.
    rewrite (rsum_zero _ m).
    + rewrite Rplus_0_r, <- rsum_scal_r. apply rsum_ext. intros j Hj.
      rewrite map_app, (remove_padded j m (S k)), (remove_beside j (S k)) by (auto; lia).
      rewrite IH; [|split; [rewrite map_length; cbn in A1; lia|apply remove_rows; auto] | split; [rewrite map_length; auto|apply remove_rows; auto] | exact HD].
      unfold coord. rewrite app_nth1 by lia. ring.
    + intros i Hi. replace (coord (row ++ zeros m) (S k + i)) with 0; [ring|].
      unfold coord, zeros. rewrite app_nth2 by lia. symmetry. apply nth_repeat.
Qed.
Definition id_matrix (m : nat) : list (list R) := map (basis_vec m) (seq 0 m).
Lemma id_matrix_S m : id_matrix (S m) = padded m [[1]] ++ beside (repeat [0] m) (id_matrix m).
Proof.
  unfold id_matrix, padded, beside. cbn [seq map app]. f_equal. rewrite <- seq_shift, map_map.
  assert (E : forall l, map (fun i => basis_vec (S m) (S i)) l = map (fun p => fst p ++ snd p) (combine (repeat [0] (length l)) (map (basis_vec m) l))).
  { induction l as [|i l IHl]; [reflexivity|]. cbn [map length repeat combine fst snd]. rewrite IHl. reflexivity. }
  rewrite E, seq_length. reflexivity.
Qed.
Lemma id_matrix_rows m : rows_of m m (id_matrix m).
Proof.
  unfold id_matrix. split; [rewrite map_length, seq_length; auto|]. apply Forall_forall. intros r Hr. apply in_map_iff in Hr.
  destruct Hr as (i & <- & _). apply basis_length.
Qed.
Lemma det_id m : det m (id_matrix m) = 1.
Proof.
  induction m as [|m IH]; [reflexivity|]. rewrite id_matrix_S. change (S m) with (1 + m)%nat. rewrite det_block.
  - rewrite IH. cbn. unfold coord. cbn. ring.
  - repeat constructor.
  - split; [apply repeat_length|]. apply Forall_forall. intros r Hr. apply repeat_spec in Hr. subst. reflexivity.
  - apply id_matrix_rows.
Qed.
Lemma nth_id_matrix m i : (i < m)%nat -> nth i (id_matrix m) [] = basis_vec m i.
Proof.
  intros H. unfold id_matrix. rewrite nth_indep with (d' := basis_vec m 0) by (rewrite map_length, seq_length; auto).
  rewrite map_nth, seq_nth by auto. reflexivity.
Qed.

(** * Identity *)
Lemma id_true_logdet n m : (m <= n)%nat -> true_logdet (id_pmap n m).
Proof.
  intros Hmn c x _ Hx. cbn in *. exists (id_matrix m). rewrite det_id. split; [|split; [lra|rewrite Rabs_R1, ln_1; reflexivity]].
  split; [apply id_matrix_rows|]. cbn. intros i j Hi Hj. rewrite nth_id_matrix by auto. unfold is_partial.
  pose proof (upd_velocity x (n - m + j) ltac:(lia)) as HV. apply (velocity_skipn _ _ _ (n - m)) in HV. destruct HV as [_ HV].
  specialize (HV i ltac:(rewrite skipn_length, basis_length; lia)). rewrite coord_skipn in HV.
  replace (coord (basis_vec m i) j) with (coord (basis_vec (length x) (n - m + j)) (n - m + i)); [exact HV|].
  rewrite <- (dot_basis (length x) (n - m + i)) by (rewrite ?basis_length; lia). rewrite dot_comm, dot_basis by (rewrite ?basis_length; lia).
  unfold basis_vec, coord. clear HV. rewrite Hx. replace (zeros n) with (zeros (n - m) ++ zeros m)
    by (unfold zeros; rewrite <- repeat_app; f_equal; lia).
  assert (EU : forall (a b : list R) k v, upd (a ++ b) (length a + k) v = a ++ upd b k v).
  { clear. induction a as [|y a IH]; intros b k v; cbn; auto. f_equal. apply IH. }
  pose proof (EU (zeros (n - m)) (zeros m) i 1) as E1. rewrite zeros_length in E1. rewrite E1. rewrite app_nth2; rewrite zeros_length; [|lia].
  f_equal. lia.
Qed.

(** * Offset maps *)
Section Offset.
Variable b : list R.
Let f := aff_make_b b.
Lemma shift_dims : dims (aff_map f) (shift_pmap b). Proof. repeat split. Qed.
Lemma shift_imp_eval : imp_eval (aff_map f) (shift_pmap b).
Proof.
  split; [apply shift_dims|]. cbn. intros c x old _ Hx Ho. unfold aff_Evaluate. cbn. rewrite deep_copy_ok by lia. cbn [obind].
  split; [|rewrite vadd_length; lia]. destruct (Nat.ltb_spec 0 (length b)) as [Hp|Hz].
  - rewrite <- Hx. fold (add_into (length x) x b). apply add_same. lia.
  - rewrite (len0 b) by lia. destruct x; [reflexivity|cbn in *; lia].
Qed.
Lemma shift_imp_logdet : imp_logdet (aff_map f) (shift_pmap b).
Proof. split; [apply shift_dims|]. auto. Qed.
Lemma shift_imp_grad : imp_grad (aff_map f) (shift_pmap b).
Proof.
  split; [apply shift_dims|]. cbn. intros c x s old _ Hx Hs Ho. unfold aff_Gradient. cbn. rewrite deep_copy_ok by lia. auto.
Qed.
Lemma shift_imp_cgrad : imp_cgrad (aff_map f) (shift_pmap b).
Proof. split; [apply shift_dims|]. cbn. intros c x s old _ _ _ Ho. rewrite (len0 old Ho). auto. Qed.
Lemma shift_imp_ldc : imp_ldc (aff_map f) (shift_pmap b).
Proof. split; [apply shift_dims|]. cbn. intros c x old _ _ Ho. rewrite (len0 old Ho). auto. Qed.
Lemma shift_imp_inv n1 : imp_inv n1 0 (aff_map f) (shift_pmap b).
Proof.
  split; [apply shift_dims|]. cbn. intros c x1 r old _ Hx Hr Ho. unfold aff_Inverse. cbn. rewrite Nat.sub_diag. cbn [firstn app].
  exists (vsub r b). split; [|split; [rewrite vsub_length; lia|rewrite cancel0 by lia; apply close_refl]].
  destruct (Nat.ltb_spec 0 (length b)) as [Hp|Hz].
  - rewrite sub_all by lia. reflexivity.
  - rewrite deep_copy_ok by lia. rewrite (len0 b) by lia. rewrite (len0 r) by lia. reflexivity.
Qed.
Lemma shift_injective : injective (shift_pmap b).
Proof.
  intros c lead y y' _ Hl Hy Hy' E. cbn in *. rewrite Nat.sub_diag in Hl. rewrite (len0 lead Hl) in E. cbn in E.
  eapply vadd_inj_r; [| |exact E]; lia.
Qed.
Lemma shift_true_logdet : true_logdet (shift_pmap b).
Proof.
  intros c x _ Hx. cbn in *. exists (id_matrix (length b)). rewrite det_id. split; [|split; [lra|rewrite Rabs_R1, ln_1; reflexivity]].
  split; [apply id_matrix_rows|]. cbn. intros i j Hi Hj. rewrite nth_id_matrix by auto. unfold is_partial. rewrite Nat.sub_diag. cbn [Nat.add].
  pose proof (upd_velocity x j ltac:(lia)) as HV. apply (vadd_const_velocity b) in HV; [|rewrite basis_length; lia]. destruct HV as [_ HV].
  specialize (HV i ltac:(rewrite basis_length; lia)).
  replace (coord (basis_vec (length b) i) j) with (coord (basis_vec (length x) j) i); [exact HV|]. rewrite Hx.
  rewrite <- (dot_basis (length b) i) by (rewrite ?basis_length; lia). rewrite dot_comm. apply dot_basis; rewrite ?basis_length; lia.
Qed.
Lemma shift_true_logdet_gradients : true_logdet_gradients (shift_pmap b).
Proof. intros gc gx t vc vx Hgc Hgx Lc Lx. cbn. rewrite dot_zeros_l, Rplus_0_l. apply @is_derive_const. Qed.
End Offset.

(** * Summarised maps *)
Section Summarised.
Variables (S : cmap) (PS : pmap) (sc : list R) (K : cmap) (PK : pmap).
Hypothesis HSE : imp_eval S PS.
Hypothesis Hsc : length sc = p_nc PS.
Hypothesis HKi : p_in PK = (p_out PS + 1)%nat.
Hypothesis HKo : p_out PK = 1%nat.
Hypothesis HKD : dims K PK.
Let P := summarized_pmap PS sc PK.
Lemma sm_dims : dims (sm_map S sc K) P.
Proof. destruct HSE as ((D1 & D2 & D3) & _), HKD as (E1 & E2 & E3). unfold P. repeat split; cbn; congruence. Qed.
Lemma S_len x : (p_in PS <= length x)%nat -> length (p_eval PS sc (firstn (p_in PS) x)) = p_out PS.
Proof.
  intros Hx. destruct HSE as (_ & H). destruct (H sc (firstn (p_in PS) x) (fresh (p_out PS))) as [_ ->]; auto using fresh_length.
  rewrite firstn_len; lia.
Qed.
Lemma summarize_len x : length x = (p_in PS + 1)%nat -> length (summarize PS sc x) = p_in PK.
Proof. intros Hx. unfold summarize. rewrite app_length, S_len by lia. rewrite skipn_length. lia. Qed.
Lemma sm_Summarize_ok x : length x = (p_in PS + 1)%nat -> sm_Summarize S sc x (fresh (m_in K)) = Ok (summarize PS sc x).
Proof.
  intros Hx. destruct HSE as ((D1 & D2 & D3) & HE). destruct HKD as (E1 & E2 & E3). unfold sm_Summarize. rewrite D1, D2, E1.
  rewrite seg_0 by lia. cbn [obind].
  unfold seg at 1. destruct (Nat.leb_spec (p_in PS + 1) (length x)) as [_|Hn]; [|lia]. cbn [obind].
  rewrite seg_0 by (rewrite fresh_length; lia). cbn [obind].
  destruct (HE sc (firstn (p_in PS) x) (firstn (p_out PS) (fresh (p_in PK)))) as [-> HL];
    [auto | rewrite firstn_len; lia | rewrite firstn_len; rewrite ?fresh_length; lia |]. cbn [obind].
  rewrite put_0, HL. rewrite seg_app' by (rewrite ?skipn_length, ?fresh_length; lia). cbn [obind].
  assert (L1 : length (firstn 1 (skipn (p_in PS) x)) = 1%nat) by (rewrite firstn_len; rewrite ?skipn_length; lia).
  rewrite deep_copy_ok by (rewrite L1, firstn_len; rewrite ?skipn_length, ?fresh_length; lia). cbn [obind].
  rewrite put_app' by lia. rewrite L1. f_equal. unfold summarize. f_equal.
  rewrite (skipn_all2 (skipn (p_out PS) (fresh (p_in PK)))) by (rewrite skipn_length, fresh_length; lia).
  rewrite app_nil_r. apply firstn_all2. rewrite skipn_length. lia.
Qed.
Lemma sm_imp_eval : imp_eval K PK -> imp_eval (sm_map S sc K) P.
Proof.
  intros (_ & HK). split; [apply sm_dims|]. unfold P. cbn. intros c x old Hc Hx Ho. unfold sm_Evaluate.
  rewrite sm_Summarize_ok by auto. cbn [obind]. apply HK; auto. apply summarize_len; auto.
Qed.
Lemma sm_imp_logdet : imp_logdet K PK -> imp_logdet (sm_map S sc K) P.
Proof.
  intros (_ & HK). split; [apply sm_dims|]. unfold P. cbn. intros c x old Hc Hx. unfold sm_LogDeterminant.
  rewrite sm_Summarize_ok by auto. cbn [obind]. apply HK; auto. apply summarize_len; auto.
Qed.
Lemma sm_imp_cgrad : imp_cgrad K PK -> imp_cgrad (sm_map S sc K) P.
Proof.
  intros (_ & HK). split; [apply sm_dims|]. unfold P. cbn. intros c x s old Hc Hx Hs Ho. unfold sm_CoeffGrad.
  rewrite sm_Summarize_ok by auto. cbn [obind]. apply HK; auto. apply summarize_len; auto.
Qed.
Lemma sm_imp_ldc : imp_ldc K PK -> imp_ldc (sm_map S sc K) P.
Proof.
  intros (_ & HK). split; [apply sm_dims|]. unfold P. cbn. intros c x old Hc Hx Ho. unfold sm_LogDetCoeffGrad.
  rewrite sm_Summarize_ok by auto. cbn [obind]. apply HK; auto. apply summarize_len; auto.
Qed.
Hypothesis HSG : imp_grad S PS.
Lemma skipn_all1 (A : Type) (l : list A) n : length l = (n + 1)%nat -> firstn 1 (skipn n l) = skipn n l.
Proof. intros H. apply firstn_all2. rewrite skipn_length. lia. Qed.
Lemma sm_imp_grad : imp_grad K PK -> imp_grad (sm_map S sc K) P.
Proof.
  intros (_ & HK). split; [apply sm_dims|]. unfold P. cbn. intros c x s old Hc Hx Hs Ho. unfold sm_Gradient.
  rewrite sm_Summarize_ok by auto. cbn [obind]. destruct HKD as (E1 & E2 & E3). destruct HSG as ((D1 & D2 & D3) & HG).
  destruct (HK c (summarize PS sc x) s (fresh (m_in K)) Hc (summarize_len x Hx) Hs ltac:(rewrite fresh_length; auto)) as [-> HL]. cbn [obind].
  set (g := p_grad PK c (summarize PS sc x) s) in *. rewrite D1, D2.
  rewrite seg_0 by lia. cbn [obind]. unfold seg at 1. destruct (Nat.leb_spec (p_out PS + 1) (length g)) as [_|Hn]; [|lia]. cbn [obind].
  rewrite skipn_all1 by lia. rewrite (seg_0 x) by lia. cbn [obind]. rewrite (seg_0 old) by lia. cbn [obind].
  destruct (HG sc (firstn (p_in PS) x) (firstn (p_out PS) g) (firstn (p_in PS) old)) as [-> HL2];
    [auto | rewrite firstn_len; lia | rewrite firstn_len; lia | rewrite firstn_len; lia |]. cbn [obind].
  rewrite put_0, HL2. rewrite seg_app' by (rewrite ?skipn_length; lia). cbn [obind].
  rewrite skipn_all1 by lia. rewrite deep_copy_ok by (rewrite !skipn_length; lia). cbn [obind].
  rewrite put_app' by lia. rewrite (skipn_all2 (skipn (p_in PS) old)) by (rewrite !skipn_length; lia). rewrite app_nil_r.
  split; [reflexivity|]. unfold sum_back. rewrite app_length, HL2, skipn_length. lia.
Qed.
Lemma sm_imp_ldi : imp_ldi K PK -> imp_ldi (sm_map S sc K) P.
Proof.
  intros (_ & HK). split; [apply sm_dims|]. unfold P. cbn. intros c x old Hc Hx Ho. unfold sm_LogDetInputGrad.
  rewrite sm_Summarize_ok by auto. cbn [obind]. destruct HKD as (E1 & E2 & E3). destruct HSG as ((D1 & D2 & D3) & HG).
  destruct (HK c (summarize PS sc x) (fresh (m_in K)) Hc (summarize_len x Hx) ltac:(rewrite fresh_length; auto)) as [-> HL]. cbn [obind].
  set (g := p_ldi PK c (summarize PS sc x)) in *. rewrite D1, D2.
  rewrite seg_0 by lia. cbn [obind]. unfold seg at 1. destruct (Nat.leb_spec (p_out PS + 1) (length g)) as [_|Hn]; [|lia]. cbn [obind].
  rewrite skipn_all1 by lia. rewrite (seg_0 x) by lia. cbn [obind].
  destruct (HG sc (firstn (p_in PS) x) (firstn (p_out PS) g) (fresh (p_in PS))) as [-> HL2];
    [auto | rewrite firstn_len; lia | rewrite firstn_len; lia | apply fresh_length |]. cbn [obind].
  rewrite (seg_0 old) by lia. cbn [obind]. rewrite deep_copy_ok by (rewrite firstn_len; lia). cbn [obind].
  rewrite put_0, HL2. rewrite seg_app' by (rewrite ?skipn_length; lia). cbn [obind].
  rewrite skipn_all1 by lia. rewrite deep_copy_ok by (rewrite !skipn_length; lia). cbn [obind].
  rewrite put_app' by lia. rewrite (skipn_all2 (skipn (p_in PS) old)) by (rewrite !skipn_length; lia). rewrite app_nil_r.
  split; [reflexivity|]. unfold sum_back. rewrite app_length, HL2, skipn_length. lia.
Qed.
Lemma sm_imp_inv n1 tol : (p_in PS <= n1)%nat -> imp_inv (p_out PS) tol K PK -> imp_inv n1 tol (sm_map S sc K) P.
Proof.
  intros Hn (_ & HK). split; [apply sm_dims|]. unfold P. cbn. intros c x1 r old Hc Hx Hr Ho. unfold sm_Inverse.
  destruct HSE as ((D1 & D2 & D3) & HE). rewrite D1, D2, D3, Hsc, Nat.eqb_refl. rewrite seg_0 by lia. cbn [obind].
  destruct (HE sc (firstn (p_in PS) x1) (fresh (p_out PS))) as [-> HL]; [auto | rewrite firstn_len; lia | apply fresh_length |]. cbn [obind].
  destruct (HK c (p_eval PS sc (firstn (p_in PS) x1)) r old Hc HL Hr Ho) as (y & E & Ly & Hy).
  exists y. split; [exact E|]. split; [exact Ly|]. rewrite HKi, HKo in Hy. rewrite HKo in *.
  rewrite Nat.add_sub in *. rewrite (firstn_all2 (p_eval PS _ _)) in Hy by lia.
  unfold summarize. rewrite firstn_app, skipn_app, firstn_length.
  replace (p_in PS - Nat.min (p_in PS) (length x1))%nat with 0%nat by lia. rewrite firstn_firstn, Nat.min_id, firstn_O, app_nil_r.
  rewrite skipn_all2 by (rewrite firstn_length; lia). exact Hy.
Qed.
Lemma sm_injective : injective PK -> injective P.
Proof.
  intros HJ c lead y y' Hc Hl Hy Hy' E. unfold P in *. cbn in *. rewrite HKo in *. rewrite Nat.add_sub in Hl.
  unfold summarize in E. rewrite !firstn_app, !skipn_app, Hl, Nat.sub_diag in E. rewrite !firstn_O, app_nil_r in E.
  rewrite !skipn_all2 in E by lia. cbn [app skipn] in E.
  apply (HJ c (p_eval PS sc (firstn (p_in PS) lead)) y y'); auto; try lia. rewrite S_len by lia. lia.
Qed.
End Summarised.

Lemma summarized_sized PS sc PK : sized PS -> sized PK -> length sc = p_nc PS -> p_in PK = (p_out PS + 1)%nat -> sized (summarized_pmap PS sc PK).
Proof.
  intros HS HK Hsc Hi c x s Hc Hx Hs. cbn in *.
  assert (L0 : length (p_eval PS sc (firstn (p_in PS) x)) = p_out PS).
  { apply (HS sc (firstn (p_in PS) x) (zeros (p_out PS))); auto using zeros_length. rewrite firstn_len; lia. }
  assert (LS : length (summarize PS sc x) = p_in PK) by (unfold summarize; rewrite app_length, L0, skipn_length; lia).
  destruct (HK c (summarize PS sc x) s Hc LS Hs) as (E1 & E2 & E3 & E4 & E5).
  assert (LB : forall g, length g = p_in PK -> length (sum_back PS sc x g) = (p_in PS + 1)%nat).
  { intros g Hg. unfold sum_back. rewrite app_length, skipn_length.
    destruct (HS sc (firstn (p_in PS) x) (firstn (p_out PS) g)) as (_ & -> & _); auto; try (rewrite firstn_len; lia). lia. }
  repeat split; auto.
Qed.
Lemma const_velocity c t : velocity (fun _ => c) t (zeros (length c)).
Proof.
  split; [intros u; rewrite zeros_length; auto|]. intros j Hj. replace (coord (zeros (length c)) j) with 0 by (unfold coord, zeros; symmetry; apply nth_repeat).
  apply (@is_derive_const _ R_NormedModule).
Qed.
Lemma dot_zeros_r v n : dot v (zeros n) = 0. Proof. rewrite dot_comm. apply dot_zeros_l. Qed.
(** The summary followed by the last input has a velocity, and sum_back is its transpose. *)
Lemma summarize_velocity PS sc gx t vx : sized PS -> true_gradients PS -> length sc = p_nc PS -> velocity gx t vx -> length vx = (p_in PS + 1)%nat ->
  exists w, velocity (fun u => summarize PS sc (gx u)) t w /\ length w = (p_out PS + 1)%nat /\
    forall g, length g = (p_out PS + 1)%nat -> dot g w = dot (sum_back PS sc (gx t) g) vx.
Proof.
  intros HS HT Hsc Hgx Lx.
  destruct (value_velocity PS (fun _ => sc) (fun u => firstn (p_in PS) (gx u)) t (zeros (length sc)) (firstn (p_in PS) vx) HS HT
    (const_velocity sc t) (velocity_firstn _ _ _ _ Hgx) ltac:(rewrite zeros_length; auto) ltac:(rewrite firstn_len; lia)) as (w & HW & LW & HD).
  exists (w ++ skipn (p_in PS) vx). split; [|split].
  - apply velocity_app; [exact HW|]. apply (velocity_skipn _ _ _ _ Hgx).
  - rewrite app_length, skipn_length. lia.
  - intros g Lg. rewrite dot_split by lia. rewrite LW. rewrite HD by (rewrite firstn_len; lia). rewrite dot_zeros_r, Rplus_0_l.
    unfold sum_back. rewrite <- (firstn_skipn (p_in PS) vx) at 3. rewrite dot_app; [reflexivity|].
    pose proof (velocity_len _ _ _ _ Hgx Lx t) as Lg'.
    destruct (HS sc (firstn (p_in PS) (gx t)) (firstn (p_out PS) g)) as (_ & -> & _); auto; rewrite firstn_len; lia.
Qed.
Lemma summarized_true PS sc PK : sized PS -> true_gradients PS -> length sc = p_nc PS -> p_in PK = (p_out PS + 1)%nat ->
  sized PK -> true_gradients PK -> true_gradients (summarized_pmap PS sc PK).
Proof.
  intros HS HTS Hsc Hi HZ HTK gc gx t vc vx s Hgc Hgx Lc Lx Ls. cbn in *.
  destruct (summarize_velocity PS sc gx t vx HS HTS Hsc Hgx Lx) as (w & HW & LW & HD).
  pose proof (HTK gc _ t vc w s Hgc HW Lc ltac:(lia) Ls) as H. cbn beta in H. rewrite HD in H; [exact H|].
  rewrite <- Hi. apply (HZ (gc t) (summarize PS sc (gx t)) s); auto.
  - eapply velocity_len; eauto. - rewrite Hi. apply (velocity_len _ _ _ _ HW LW).
Qed.
Lemma summarized_true_logdet_gradients PS sc PK : sized PS -> true_gradients PS -> length sc = p_nc PS -> p_in PK = (p_out PS + 1)%nat ->
  sized PK -> true_logdet_gradients PK -> true_logdet_gradients (summarized_pmap PS sc PK).
Proof.
  intros HS HTS Hsc Hi HZ HTK gc gx t vc vx Hgc Hgx Lc Lx. cbn in *.
  destruct (summarize_velocity PS sc gx t vx HS HTS Hsc Hgx Lx) as (w & HW & LW & HD).
  pose proof (HTK gc _ t vc w Hgc HW Lc ltac:(lia)) as H. cbn beta in H. rewrite HD in H; [exact H|].
  rewrite <- Hi. apply (HZ (gc t) (summarize PS sc (gx t)) (zeros (p_out PK))); auto using zeros_length.
  - eapply velocity_len; eauto. - rewrite Hi. apply (velocity_len _ _ _ _ HW LW).
Qed.
Lemma upd_app_r (a b : list R) k v : upd (a ++ b) (length a + k) v = a ++ upd b k v.
Proof. induction a as [|y a IH]; cbn; auto. f_equal. apply IH. Qed.
Lemma summarized_true_logdet PS sc PK : sized PS -> length sc = p_nc PS -> p_in PK = (p_out PS + 1)%nat -> p_out PK = 1%nat ->
  true_logdet PK -> true_logdet (summarized_pmap PS sc PK).
Proof.
  intros HS Hsc Hi Ho HK c x Hc Hx. cbn in *.
  assert (L0 : length (p_eval PS sc (firstn (p_in PS) x)) = p_out PS).
  { apply (HS sc (firstn (p_in PS) x) (zeros (p_out PS))); auto using zeros_length. rewrite firstn_len; lia. }
  assert (LS : length (summarize PS sc x) = p_in PK) by (unfold summarize; rewrite app_length, L0, skipn_length; lia).
  destruct (HK c (summarize PS sc x) Hc LS) as (J & [J1 J2] & J3 & J4). exists J. split; [|split; auto].
  split; [exact J1|]. cbn. intros i j Hi' Hj. specialize (J2 i j Hi' Hj). unfold is_partial in *. rewrite Ho in *. rewrite Hi in J2. rewrite Nat.add_sub in *.
  replace j with 0%nat in * by lia. rewrite !Nat.add_0_r in *.
  assert (EX : exists z, skipn (p_in PS) x = [z]).
  { assert (HL : length (skipn (p_in PS) x) = 1%nat) by (rewrite skipn_length; lia). destruct (skipn (p_in PS) x) as [|z [|? ?]]; try discriminate. eauto. }
  destruct EX as (z & EZ).
  assert (Lf : length (firstn (p_in PS) x) = p_in PS) by (rewrite firstn_len; lia).
  assert (EC : coord x (p_in PS) = z).
  { rewrite <- (Nat.add_0_r (p_in PS)). rewrite <- coord_skipn, EZ. reflexivity. }
  assert (EC2 : coord (summarize PS sc x) (p_out PS) = z).
  { unfold summarize. rewrite EZ. unfold coord. rewrite app_nth2 by lia. rewrite L0, Nat.sub_diag. reflexivity. }
  rewrite EC2 in J2. rewrite EC. eapply is_derive_ext; [|exact J2]. intros u. cbn beta. f_equal. f_equal.
  assert (EU : upd x (p_in PS) u = firstn (p_in PS) x ++ [u]).
  { rewrite <- (firstn_skipn (p_in PS) x) at 1. rewrite EZ. rewrite <- Lf at 2. rewrite <- (Nat.add_0_r (length (firstn (p_in PS) x))).
    rewrite upd_app_r. reflexivity. }
  rewrite EU. unfold summarize. rewrite firstn_app, skipn_app, Lf, Nat.sub_diag, firstn_firstn, Nat.min_id, firstn_O, app_nil_r.
  rewrite (skipn_all2 (firstn (p_in PS) x)) by lia. cbn [app skipn]. rewrite EZ.
  pose proof (upd_app_r (p_eval PS sc (firstn (p_in PS) x)) [z] 0 u) as EA. rewrite L0, Nat.add_0_r in EA. rewrite EA. reflexivity.
Qed.

(** * Triangular maps *)
Fixpoint pchain (e : nat) (l : list pmap) : Prop :=
  match l with [] => True | K :: l => p_in K = (e + p_out K)%nat /\ pchain (p_in K) l end.
Lemma pchain_le e l n : pchain e l -> n = (e + nsum p_out l)%nat -> Forall (fun K => p_in K <= n)%nat l.
Proof.
  revert e. induction l as [|K l IH]; intros e H E; [constructor|]. destruct H as [H1 H2]. cbn [nsum] in E.
  constructor; [lia|]. apply (IH (p_in K)); [exact H2|lia].
Qed.
(** Partial derivatives from gradients. *)
Lemma partial_of_gradient Q c x i j : sized Q -> true_gradients Q -> length c = p_nc Q -> length x = p_in Q -> (i < p_out Q)%nat -> (j < p_in Q)%nat ->
  is_partial (fun x => coord (p_eval Q c x) i) j x (coord (p_grad Q c x (basis_vec (p_out Q) i)) j).
Proof.
  intros HS HT Hc Hx Hi Hj. unfold is_partial.
  pose proof (HT (fun _ => c) (fun u => upd x j u) (coord x j) _ _ (basis_vec (p_out Q) i) (const_velocity c _) (upd_velocity x j ltac:(lia))
    ltac:(rewrite zeros_length; auto) ltac:(rewrite basis_length; auto) (basis_length _ _)) as H. cbn beta in H.
  rewrite dot_zeros_r, Rplus_0_l, upd_coord in H. rewrite (dot_comm (p_grad _ _ _ _)) in H.
  rewrite dot_basis in H; [|lia|].
  - eapply is_derive_ext; [|exact H]. intros u. cbn beta. apply dot_basis; auto.
    apply (HS c (upd x j u) (zeros (p_out Q))); auto using zeros_length. rewrite upd_length. auto.
  - rewrite Hx. apply (HS c x (basis_vec (p_out Q) i)); auto. apply basis_length.
Qed.
Lemma tri_sized n l : Forall sized l -> Forall (fun K => p_in K <= n)%nat l -> sized (tri_pmap n l).
Proof.
  intros HS HN c x s Hc Hx Hs. cbn in *.
  assert (HN' : Forall (fun K => p_in K <= length x)%nat l) by (eapply Forall_impl; [|exact HN]; cbn; intros; lia).
  split; [apply tri_eval_len; auto|]. split; [|split; [|split; [|apply tri_ldi_len; auto]]].
  - clear HN'. revert c s Hc Hs. induction l as [|K l IH]; intros c s Hc Hs; [apply zeros_length|]. cbn [tri_grad nsum] in *.
    inversion HS as [|? ? S1 S2]; inversion HN as [|? ? N1 N2]; subst.
    destruct (S1 (firstn (p_nc K) c) (firstn (p_in K) x) (firstn (p_out K) s)) as (_ & E & _); try (rewrite firstn_len; lia).
    rewrite vadd_length; rewrite extend_length by lia; [reflexivity|]. symmetry. apply IH; auto; rewrite skipn_length; lia.
  - clear HN'. revert c s Hc Hs. induction l as [|K l IH]; intros c s Hc Hs; [reflexivity|]. cbn [tri_cgrad nsum] in *.
    inversion HS as [|? ? S1 S2]; inversion HN as [|? ? N1 N2]; subst.
    destruct (S1 (firstn (p_nc K) c) (firstn (p_in K) x) (firstn (p_out K) s)) as (_ & _ & E & _); try (rewrite firstn_len; lia).
    rewrite app_length, E, IH; auto; rewrite skipn_length; lia.
  - clear HN' s Hs. revert c Hc. induction l as [|K l IH]; intros c Hc; [reflexivity|]. cbn [tri_ldc nsum] in *.
    inversion HS as [|? ? S1 S2]; inversion HN as [|? ? N1 N2]; subst.
    destruct (S1 (firstn (p_nc K) c) (firstn (p_in K) x) (zeros (p_out K))) as (_ & _ & _ & E & _); try (rewrite firstn_len; lia); auto using zeros_length.
    rewrite app_length, E, IH; auto; rewrite skipn_length; lia.
Qed.
Lemma coord_app_l (a b : list R) i : (i < length a)%nat -> coord (a ++ b) i = coord a i.
Proof. intros H. unfold coord. apply app_nth1. exact H. Qed.
Lemma coord_app_r (a b : list R) i : (length a <= i)%nat -> coord (a ++ b) i = coord b (i - length a).
Proof. intros H. unfold coord. apply app_nth2. lia. Qed.
Lemma nth_padded m A i : (i < length A)%nat -> nth i (padded m A) [] = nth i A [] ++ zeros m.
Proof.
  intros H. unfold padded. rewrite nth_indep with (d' := [] ++ zeros m) by (rewrite map_length; auto). apply (map_nth (fun r => r ++ zeros m)).
Qed.
Lemma nth_beside C D i : length C = length D -> nth i (beside C D) [] = nth i C [] ++ nth i D [].
Proof.
  revert D i. induction C as [|r C IH]; intros [|d D] i H; cbn in *; try discriminate; [destruct i; reflexivity|].
  destruct i as [|i]; [reflexivity|]. apply IH. congruence.
Qed.
Lemma upd_firstn_lt (x : list R) j k u : (j < k)%nat -> firstn k (upd x j u) = upd (firstn k x) j u.
Proof. revert x j. induction k as [|k IH]; intros [|a x] [|j] H; cbn; auto; try lia. f_equal. apply IH. lia. Qed.
Lemma upd_firstn_ge (x : list R) j k u : (k <= j)%nat -> firstn k (upd x j u) = firstn k x.
Proof. revert x j. induction k as [|k IH]; intros [|a x] [|j] H; cbn; auto; try lia. f_equal. apply IH. lia. Qed.
Lemma tri_true_logdet_jac l : Forall sized l -> Forall true_gradients l -> Forall true_logdet l ->
  forall e n c x, pchain e l -> n = (e + nsum p_out l)%nat -> length c = nsum p_nc l -> length x = n ->
  exists J, rows_of (nsum p_out l) (nsum p_out l) J /\
    (forall i j, (i < nsum p_out l)%nat -> (j < nsum p_out l)%nat ->
       is_partial (fun x => coord (tri_eval l c x) i) (e + j) x (coord (nth i J []) j)) /\
    det (nsum p_out l) J <> 0 /\ tri_logdet l c x = ln (Rabs (det (nsum p_out l) J)).
Proof.
  intros HS HT HL. induction l as [|K l IH]; intros e n c x Hch En Hc Hx.
  - exists []. cbn. split; [repeat constructor|]. split; [intros; lia|]. split; [lra|]. rewrite Rabs_R1, ln_1. reflexivity.
  - pose proof (Forall_inv HS) as S1. pose proof (Forall_inv HT) as T1. pose proof (Forall_inv HL) as L1.
    pose proof (Forall_inv_tail HS) as S2. pose proof (Forall_inv_tail HT) as T2. pose proof (Forall_inv_tail HL) as L2.
    clear HS HT HL. destruct Hch as [Hin Hch]. cbn [nsum] in En, Hc.
    set (m := p_out K) in *. set (M := nsum p_out l) in *.
    destruct (IH S2 T2 L2 (p_in K) n (skipn (p_nc K) c) x Hch ltac:(lia) ltac:(rewrite skipn_length; lia) Hx) as (J' & [R1 R2] & HP' & HD' & HE').
    assert (Lcf : length (firstn (p_nc K) c) = p_nc K) by (rewrite firstn_len; lia).
    assert (Lxf : length (firstn (p_in K) x) = p_in K) by (rewrite firstn_len; lia).
    destruct (L1 (firstn (p_nc K) c) (firstn (p_in K) x) Lcf Lxf) as (JK & [[K1 K2] HPK] & HDK & HEK). fold m in K1, K2, HPK, HDK, HEK.
    pose proof (pchain_le _ _ n Hch ltac:(lia)) as HN.
    pose proof (tri_sized n l S2 HN) as HSz. pose proof (tri_true n l S2 T2 HN) as HTr.
    set (C := map (fun i => map (fun j => coord (tri_grad l n (skipn (p_nc K) c) x (basis_vec M i)) (e + j)) (seq 0 m)) (seq 0 M)).
    assert (HC : rows_of M m C).
    { unfold C. split; [rewrite map_length, seq_length; auto|]. apply Forall_forall. intros r Hr. apply in_map_iff in Hr.
      destruct Hr as (i & <- & _). rewrite map_length, seq_length. reflexivity. }
    exists (padded M JK ++ beside C J'). cbn [nsum]. fold m M.
    assert (HB : length (beside C J') = M) by (unfold beside; rewrite map_length, combine_length; destruct HC; lia).
    assert (Lpad : length (padded M JK) = m) by (unfold padded; rewrite map_length; auto).
    rewrite (det_block m M JK C J') by (try exact HC; split; auto).
    assert (LE : forall x', length x' = n -> length (p_eval K (firstn (p_nc K) c) (firstn (p_in K) x')) = m).
    { intros x' Hx'. apply (S1 (firstn (p_nc K) c) (firstn (p_in K) x') (zeros m)); auto using zeros_length. rewrite firstn_len; lia. }
    split; [|split; [|split]].
    + split; [rewrite app_length; lia|]. apply Forall_app. split.
      * unfold padded. apply Forall_forall. intros r Hr. apply in_map_iff in Hr. destruct Hr as (r' & <- & Hr).
        rewrite Forall_forall in K2. rewrite app_length, zeros_length, (K2 _ Hr). reflexivity.
      * apply Forall_forall. intros r Hr. unfold beside in Hr. apply in_map_iff in Hr. destruct Hr as ([r1 r2] & <- & Hr).
        destruct HC as [HC1 HC2]. rewrite Forall_forall in HC2, R2. cbn [fst snd]. rewrite app_length.
        rewrite (HC2 r1), (R2 r2); auto. { eapply in_combine_r; eauto. } { eapply in_combine_l; eauto. }
    + intros i j Hi Hj. cbn [tri_eval]. unfold is_partial. destruct (Nat.lt_ge_cases i m) as [Hlt|Hge].
      * rewrite app_nth1 by lia. rewrite nth_padded by lia.
        assert (Lr : length (nth i JK []) = m) by (rewrite Forall_forall in K2; apply K2; apply nth_In; lia).
        assert (EF : forall u, coord (p_eval K (firstn (p_nc K) c) (firstn (p_in K) (upd x (e + j) u)) ++ tri_eval l (skipn (p_nc K) c) (upd x (e + j) u)) i
                  = coord (p_eval K (firstn (p_nc K) c) (firstn (p_in K) (upd x (e + j) u))) i).
        { intros u. apply coord_app_l. rewrite LE; [auto|]. rewrite upd_length. auto. }
        eapply is_derive_ext; [intros u; symmetry; apply EF|].
        destruct (Nat.lt_ge_cases j m) as [Hjl|Hjg].
        -- rewrite coord_app_l by lia. specialize (HPK i j Hlt Hjl). unfold is_partial in HPK.
           replace (p_in K - m + j)%nat with (e + j)%nat in HPK by (unfold m in *; lia). rewrite coord_firstn in HPK by lia.
           eapply is_derive_ext; [|exact HPK]. intros u. cbn beta. rewrite upd_firstn_lt by lia. reflexivity.
        -- rewrite coord_app_r by lia. replace (coord (zeros M) (j - length (nth i JK []))) with 0 by (unfold coord, zeros; symmetry; apply nth_repeat).
           eapply is_derive_ext; [intros u; rewrite upd_firstn_ge by lia; reflexivity|]. apply (@is_derive_const _ R_NormedModule).
      * rewrite app_nth2 by lia. rewrite Lpad. destruct HC as [HC1 HC2]. rewrite nth_beside by lia.
        assert (Hi' : (i - m < M)%nat) by lia.
        assert (Lr : length (nth (i - m) C []) = m) by (rewrite Forall_forall in HC2; apply HC2; apply nth_In; lia).
        assert (EF : forall u, coord (p_eval K (firstn (p_nc K) c) (firstn (p_in K) (upd x (e + j) u)) ++ tri_eval l (skipn (p_nc K) c) (upd x (e + j) u)) i
                  = coord (tri_eval l (skipn (p_nc K) c) (upd x (e + j) u)) (i - m)).
        { intros u. rewrite coord_app_r; rewrite LE by (rewrite upd_length; auto); [reflexivity|lia]. }
        eapply is_derive_ext; [intros u; symmetry; apply EF|].
        destruct (Nat.lt_ge_cases j m) as [Hjl|Hjg].
        -- rewrite coord_app_l by lia.
           assert (EC : coord (nth (i - m) C []) j = coord (tri_grad l n (skipn (p_nc K) c) x (basis_vec M (i - m))) (e + j)).
           { unfold C. rewrite nth_indep with (d' := (fun i => map (fun j => coord (tri_grad l n (skipn (p_nc K) c) x (basis_vec M i)) (e + j)) (seq 0 m)) 0%nat)
               by (rewrite map_length, seq_length; auto).
             rewrite (map_nth (fun i => map (fun j => coord (tri_grad l n (skipn (p_nc K) c) x (basis_vec M i)) (e + j)) (seq 0 m))).
             rewrite seq_nth by auto. apply (coord_map_seq (fun j => coord (tri_grad l n (skipn (p_nc K) c) x (basis_vec M (i - m))) (e + j))). auto. }
           rewrite EC.
           apply (partial_of_gradient (tri_pmap n l) (skipn (p_nc K) c) x (i - m) (e + j) HSz HTr); cbn; auto; try lia. rewrite skipn_length. lia.
        -- rewrite coord_app_r by lia. rewrite Lr. specialize (HP' (i - m)%nat (j - m)%nat Hi' ltac:(lia)). unfold is_partial in HP'.
           replace (p_in K + (j - m))%nat with (e + j)%nat in HP' by (unfold m in *; lia). exact HP'.
    + apply Rmult_integral_contrapositive_currified; auto.
    + cbn [tri_logdet]. rewrite HE', HEK. rewrite Rabs_mult, ln_mult; [reflexivity|apply Rabs_pos_lt; auto|apply Rabs_pos_lt; auto].
Qed.
Lemma tri_is_true_logdet e n l : Forall sized l -> Forall true_gradients l -> Forall true_logdet l -> pchain e l -> n = (e + nsum p_out l)%nat ->
  true_logdet (tri_pmap n l).
Proof.
  intros HS HT HL Hch En c x Hc Hx. cbn in *.
  destruct (tri_true_logdet_jac l HS HT HL e n c x Hch En Hc Hx) as (J & H1 & H2 & H3 & H4).
  exists J. split; [|split; [exact H3|exact H4]]. split; [exact H1|]. intros i j Hi Hj. cbn [tri_pmap p_in p_out p_eval].
  replace (n - nsum p_out l)%nat with e by lia. apply H2; assumption.
Qed.
