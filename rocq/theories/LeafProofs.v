(** Identity, affine and summarised maps meet their contracts. *)
From Coq Require Import Reals List Lra Lia.
From Coquelicot Require Import Coquelicot.
From Verif Require Import Base SpecExpansion SpecMaps ExpansionModel MapsModel LeafModel MapsContract MapsProofs ComposedProofs TruthProofs.
Import ListNotations.
Local Open Scope R_scope.

Lemma len0 (l : list R) : length l = 0%nat -> l = []. Proof. destruct l; [auto|discriminate]. Qed.

(** * Identity *)
Section Identity.
Variables (dbg : bool) (n m : nat).
Hypothesis Hmn : (m <= n)%nat.
Lemma id_dims : dims (id_map dbg n m) (id_pmap n m). Proof. repeat split. Qed.
Lemma id_imp_eval : imp_eval (id_map dbg n m) (id_pmap n m).
Proof.
  split; [apply id_dims|]. cbn. intros c x old _ Hx Ho. unfold id_Evaluate, seg.
  destruct (Nat.leb_spec (n - m + m) (length x)) as [_|H]; [|lia]. cbn [obind].
  assert (HL : length (skipn (n - m) x) = m) by (rewrite skipn_length; lia).
  rewrite firstn_all2 by lia. rewrite deep_copy_ok by lia. auto.
Qed.
Lemma id_imp_logdet : imp_logdet (id_map dbg n m) (id_pmap n m).
Proof. split; [apply id_dims|]. auto. Qed.
Lemma id_imp_grad : imp_grad (id_map dbg n m) (id_pmap n m).
Proof.
  split; [apply id_dims|]. cbn. intros c x s old _ Hx Hs Ho. unfold id_Gradient.
  pose proof (zero_loop [] old (n - m) ltac:(lia)) as H. cbn [length app] in H. rewrite H. cbn [obind].
  rewrite seg_app' by (rewrite ?fresh_length, ?skipn_length; lia). cbn [obind].
  rewrite deep_copy_ok by (rewrite firstn_len; rewrite ?skipn_length; lia). cbn [obind].
  rewrite put_app' by (rewrite fresh_length; lia). rewrite skipn_all2 by (rewrite skipn_length; lia). rewrite app_nil_r.
  split; [reflexivity|]. rewrite app_length. unfold zeros. rewrite repeat_length. lia.
Qed.
Lemma id_imp_cgrad : dbg = false -> imp_cgrad (id_map dbg n m) (id_pmap n m).
Proof. intros E. split; [apply id_dims|]. cbn. intros c x s old _ _ _ Ho. rewrite E, (len0 old Ho). auto. Qed.
Lemma id_imp_ldc : dbg = false -> imp_ldc (id_map dbg n m) (id_pmap n m).
Proof. intros E. split; [apply id_dims|]. cbn. intros c x old _ _ Ho. rewrite E, (len0 old Ho). auto. Qed.
Lemma id_imp_cgrad0 : imp_cgrad0 (id_map dbg n m) (id_pmap n m).
Proof. split; [apply id_dims|]. cbn. split; auto; lia. Qed.
Lemma id_imp_ldc0 : imp_ldc0 (id_map dbg n m) (id_pmap n m).
Proof. split; [apply id_dims|]. cbn. split; auto; lia. Qed.
Lemma id_imp_ldi : imp_ldi (id_map dbg n m) (id_pmap n m).
Proof.
  split; [apply id_dims|]. cbn. intros c x old _ _ Ho. rewrite Ho. split; [reflexivity|]. apply repeat_length.
Qed.
Lemma id_imp_inv n1 : (n - m <= n1)%nat -> imp_inv n1 0 (id_map dbg n m) (id_pmap n m).
Proof.
  intros Hn1. split; [apply id_dims|]. cbn. intros c x1 r old _ Hx Hr Ho. exists r. rewrite deep_copy_ok by lia.
  split; [reflexivity|]. split; [exact Hr|].
  rewrite skipn_app, firstn_length. replace (n - m - Nat.min (n - m) (length x1))%nat with 0%nat by lia.
  rewrite skipn_all2 by (rewrite firstn_length; lia). apply close_refl.
Qed.
Lemma id_injective : injective (id_pmap n m).
Proof.
  intros c lead y y' _ Hl Hy Hy' E. cbn in *. rewrite !skipn_app, Hl, Nat.sub_diag in E. rewrite skipn_all2 in E by lia. exact E.
Qed.
Lemma id_sized : sized (id_pmap n m).
Proof.
  intros c x s _ Hx Hs. cbn in *. unfold zeros. rewrite skipn_length, app_length, !repeat_length. repeat split; lia.
Qed.
Lemma id_true : true_gradients (id_pmap n m).
Proof.
  intros gc gx t vc vx s Hgc Hgx Lc Lx Ls. cbn in *. rewrite Rplus_0_l.
  rewrite <- (firstn_skipn (n - m) vx), dot_app by (unfold zeros; rewrite repeat_length, firstn_len; lia).
  rewrite dot_zeros_l, Rplus_0_l. apply dot_derive. apply (velocity_skipn gx t vx (n - m)). exact Hgx.
Qed.
Lemma id_true_logdet_gradients : true_logdet_gradients (id_pmap n m).
Proof.
  intros gc gx t vc vx Hgc Hgx Lc Lx. cbn. rewrite dot_zeros_l, Rplus_0_l. apply @is_derive_const.
Qed.
End Identity.

(** * Matrices *)
Lemma rowdot_dot a x : rowdot a x = dot a x. Proof. reflexivity. Qed.
Lemma dot_comm a b : dot a b = dot b a.
Proof. revert b. induction a as [|x a IH]; intros [|y b]; cbn; auto. rewrite IH. ring. Qed.
Lemma matvec_length A x : length (matvec A x) = length A. Proof. apply map_length. Qed.
Definition vsub (a b : list R) : list R := vadd a (map Ropp b).
Lemma dgemv_ok alpha A x beta y m : rows_of m (length x) A -> length y = m ->
  dgemv alpha A x beta y = Ok (map (fun ry => beta * snd ry + alpha * rowdot (fst ry) x) (combine A y)).
Proof.
  intros [H1 H2] Hy. unfold dgemv. rewrite H1, Hy, Nat.eqb_refl. cbn [andb].
  replace (forallb _ A) with true; [reflexivity|]. symmetry. apply forallb_forall. rewrite Forall_forall in H2.
  intros row Hr. apply Nat.eqb_eq. auto.
Qed.
Lemma dgemv_mult A x y m : rows_of m (length x) A -> length y = m -> dgemv 1 A x 0 y = Ok (matvec A x).
Proof.
  intros H Hy. rewrite (dgemv_ok _ _ _ _ _ _ H Hy). f_equal. unfold matvec. destruct H as [H _].
  revert y m H Hy. induction A as [|row A IH]; intros y m H Hy; [reflexivity|]. destruct y as [|b y]; [cbn in *; lia|].
  cbn [combine map fst snd]. rewrite (IH y (length A) eq_refl) by (cbn in *; lia). f_equal. rewrite rowdot_dot. ring.
Qed.
Lemma dgemv_sub A x y m : rows_of m (length x) A -> length y = m -> dgemv (-1) A x 1 y = Ok (vsub y (matvec A x)).
Proof.
  intros H Hy. rewrite (dgemv_ok _ _ _ _ _ _ H Hy). f_equal. unfold matvec, vsub. destruct H as [H _].
  revert y m H Hy. induction A as [|row A IH]; intros y m H Hy; [destruct y; reflexivity|]. destruct y as [|b y]; [cbn in *; lia|].
  cbn [combine map fst snd vadd]. rewrite (IH y (length A) eq_refl) by (cbn in *; lia). f_equal. rewrite rowdot_dot. ring.
Qed.
Lemma transpose_rows A n m : rows_of m n A -> rows_of n m (transpose n A).
Proof.
  intros [H1 H2]. unfold transpose. split; [rewrite map_length, seq_length; auto|].
  apply Forall_forall. intros row Hr. apply in_map_iff in Hr. destruct Hr as (j & <- & _). rewrite map_length. exact H1.
Qed.
Lemma matvec_transpose A n s : matvec (transpose n A) s = vecmat n s A.
Proof.
  unfold matvec, transpose, vecmat. rewrite map_map. apply map_ext. intros j. rewrite dot_comm. reflexivity.
Qed.
Lemma matvec_app A k lead y : length lead = k -> Forall (fun row => (k <= length row)%nat) A ->
  matvec A (lead ++ y) = vadd (matvec (map (firstn k) A) lead) (matvec (map (skipn k) A) y).
Proof.
  intros Hl H. induction H as [|row A H1 _ IH]; [reflexivity|]. cbn [map matvec vadd]. f_equal; [|exact IH].
  rewrite <- (firstn_skipn k row) at 1. apply dot_app. rewrite firstn_len; lia.
Qed.
Lemma cancel p r b : length p = length r -> length b = length r -> vadd (vadd p (vsub (vsub r b) p)) b = r.
Proof.
  unfold vsub. revert r b. induction p as [|x p IH]; intros [|y r] [|z b] H1 H2; cbn in *; try discriminate; auto.
  f_equal; [ring|]. apply IH; congruence.
Qed.
Lemma cancel0 r b : length b = length r -> vadd (vsub r b) b = r.
Proof.
  unfold vsub. revert b. induction r as [|y r IH]; intros [|z b] H2; cbn in *; try discriminate; auto.
  f_equal; [ring|]. apply IH; congruence.
Qed.
Lemma vadd_inj_r a a' b : length a = length b -> length a' = length b -> vadd a b = vadd a' b -> a = a'.
Proof.
  revert a' b. induction a as [|x a IH]; intros [|x' a'] [|y b] H H' E; cbn in *; try discriminate; auto.
  injection E as E1 E2. f_equal; [lra|]. eapply IH; [| |exact E2]; congruence.
Qed.
Lemma vadd_inj_l a b b' : length a = length b -> length a = length b' -> vadd a b = vadd a b' -> b = b'.
Proof.
  revert b b'. induction a as [|x a IH]; intros [|y b] [|y' b'] H H' E; cbn in *; try discriminate; auto.
  injection E as E1 E2. f_equal; [lra|]. apply IH; congruence.
Qed.
Lemma vsub_length a b : length a = length b -> length (vsub a b) = length a.
Proof. intros H. unfold vsub. apply vadd_length. rewrite map_length. exact H. Qed.

Lemma sub_loop (pre out rpre r bpre b : list R) n : length pre = length rpre -> length pre = length bpre ->
  length out = n -> length r = n -> length b = n ->
  ofold (fun out i => do a <- raw_get (rpre ++ r) i; do b <- raw_get (bpre ++ b) i; raw_set out i (a - b)) (seq (length pre) n) (pre ++ out)
  = Ok (pre ++ vsub r b).
Proof.
  revert pre out rpre r bpre b. induction n as [|n IH]; intros pre out rpre r bpre b H1 H2 Ho Hr Hb.
  - rewrite (len0 r Hr), (len0 b Hb), (len0 out Ho). reflexivity.
  - destruct out as [|o out]; [discriminate|]. destruct r as [|y r]; [discriminate|]. destruct b as [|z b]; [discriminate|].
    cbn [seq ofold]. unfold raw_get, raw_set. rewrite !nth_error_app2 by lia. rewrite <- H1, <- H2, Nat.sub_diag. cbn [nth_error obind].
    rewrite app_length. cbn [length]. destruct (Nat.ltb_spec (length pre) (length pre + S (length out))) as [_|Hx]; [|lia].
    assert (EU : upd (pre ++ o :: out) (length pre) (y - z) = (pre ++ [y - z]) ++ out).
    { clear. induction pre as [|p pre IH]; cbn; [reflexivity|]. f_equal. exact IH. }
    rewrite EU.
    specialize (IH (pre ++ [y - z]) out (rpre ++ [y]) r (bpre ++ [z]) b).
    rewrite !app_length in IH. cbn [length] in IH. rewrite !Nat.add_1_r in IH. unfold raw_get, raw_set in IH. rewrite <- !app_assoc in IH.
    cbn [app] in IH. cbn [obind]. rewrite <- app_assoc. cbn [app].
    rewrite IH; [reflexivity| lia | lia | cbn in *; lia | cbn in *; lia | cbn in *; lia].
Qed.
Lemma sub_all (out r b : list R) n : length out = n -> length r = n -> length b = n ->
  ofold (fun out i => do a <- raw_get r i; do b <- raw_get b i; raw_set out i (a - b)) (seq 0 n) out = Ok (vsub r b).
Proof. intros. apply (sub_loop [] out [] r [] b n); auto. Qed.

(** * Affine maps *)
Section Affine.
Variables (lib : list (list R) -> LU) (A : list (list R)) (b : list R) (m n : nat).
Hypothesis HA : rows_of m n A.
Hypothesis Hm : (0 < m <= n)%nat.
Hypothesis Hb : b = [] \/ length b = m.
Let off : list R := if (0 <? length b)%nat then b else zeros m.
Let f := aff_make_A lib A b.
Let P := affine_pmap m n A off.

Lemma aff_ncols : ncols A = n.
Proof.
  destruct HA as [H1 H2]. unfold ncols. destruct A as [|row A']; [cbn in H1; lia|]. inversion H2; auto.
Qed.
Lemma off_len : length off = m.
Proof.
  unfold off. destruct Hb as [->|H]; [apply repeat_length|]. destruct (Nat.ltb_spec 0 (length b)); [auto|lia].
Qed.
Lemma aff_dims : dims (aff_map f) P.
Proof. unfold f. repeat split; cbn; [apply aff_ncols | apply HA]. Qed.
Lemma aff_shape : length A = m /\ Forall (fun row => length row = n) A. Proof. exact HA. Qed.
Lemma aff_add0 y : length y = m -> b = [] -> vadd y off = y.
Proof. intros Hy ->. unfold off. cbn. rewrite <- Hy. apply vadd_zeros_r. Qed.

Lemma aff_imp_eval : imp_eval (aff_map f) P.
Proof.
  split; [apply aff_dims|]. unfold f, P. cbn [aff_map m_eval affine_pmap p_eval p_nc p_in p_out]. intros c x old _ Hx Ho.
  unfold aff_Evaluate. cbn [aff_make_A af_A af_b af_out]. destruct aff_shape as [H1 H2]. rewrite H1.
  destruct (Nat.ltb_spec 0 m) as [_|Hz]; [|lia].
  rewrite zero_all by lia. cbn [obind]. rewrite (dgemv_mult A x (fresh m) m) by (rewrite ?Hx, ?fresh_length; auto). cbn [obind].
  assert (HL : length (matvec A x) = m) by (rewrite matvec_length; exact H1).
  assert (HV : length (vadd (matvec A x) off) = m) by (rewrite vadd_length; rewrite HL, ?off_len; auto).
  split; [|exact HV].
  unfold off in *. destruct (Nat.ltb_spec 0 (length b)) as [Hp|Hz].
  - destruct Hb as [E|Hlb]; [rewrite E in Hp; cbn in Hp; lia|]. rewrite <- HL.
    fold (add_into (length (matvec A x)) (matvec A x) b). apply add_same. lia.
  - rewrite <- HL at 1. rewrite vadd_zeros_r. reflexivity.
Qed.
Lemma aff_imp_grad : imp_grad (aff_map f) P.
Proof.
  split; [apply aff_dims|]. unfold f, P. cbn [aff_map m_grad affine_pmap p_grad p_nc p_in p_out]. intros c x s old _ Hx Hs Ho.
  unfold aff_Gradient. cbn [aff_make_A af_A af_b af_out]. destruct aff_shape as [H1 H2]. rewrite H1.
  destruct (Nat.ltb_spec 0 m) as [_|Hz]; [|lia]. rewrite aff_ncols.
  rewrite (dgemv_mult _ s old n) by (rewrite ?Hs; auto; apply transpose_rows; exact HA).
  rewrite matvec_transpose. split; [reflexivity|]. unfold vecmat. rewrite map_length, seq_length. reflexivity.
Qed.
Lemma aff_imp_cgrad : imp_cgrad (aff_map f) P.
Proof. split; [apply aff_dims|]. cbn. intros c x s old _ _ _ Ho. rewrite (len0 old Ho). auto. Qed.
Lemma aff_imp_ldc : imp_ldc (aff_map f) P.
Proof. split; [apply aff_dims|]. cbn. intros c x old _ _ Ho. rewrite (len0 old Ho). auto. Qed.

Lemma aff_block_columns : aff_block A = columns (n - m) m A.
Proof.
  unfold aff_block, columns, block. destruct aff_shape as [H1 H2]. rewrite aff_ncols, H1.
  assert (E : map (skipn (n - m)) A = map (fun l : list R => firstn m (skipn (n - m) l)) A).
  { clear - H2 Hm. induction H2 as [|row l Hr _ IH]; [reflexivity|]. cbn [map]. rewrite IH. f_equal.
    rewrite firstn_all2; [reflexivity|]. rewrite skipn_length. lia. }
  destruct (Nat.eqb_spec m n) as [->|Hne]; [|exact E].
  rewrite <- E, Nat.sub_diag. symmetry. rewrite <- (map_id A) at 2. apply map_ext. reflexivity.
Qed.
Hypothesis HLU : lu_correct m (aff_block A) (lib (aff_block A)).
Hypothesis Hdet : det m (columns (n - m) m A) <> 0.
Lemma aff_imp_logdet : imp_logdet (aff_map f) P.
Proof.
  split; [apply aff_dims|]. unfold f, P. cbn [aff_map m_logdet affine_pmap p_logdet]. intros c x old _ _.
  cbn [aff_make_A af_logdet]. destruct HLU as [-> _]. rewrite aff_block_columns. unfold log_abs.
  destruct (Req_EM_T _ 0) as [E|_]; [contradiction|]. reflexivity.
Qed.
Lemma lu_solve_ok v : length v = m -> length (lu_solveInPlace (lib (aff_block A)) v) = m /\
  matvec (aff_block A) (lu_solveInPlace (lib (aff_block A)) v) = v /\
  lu_solveInPlace (lib (aff_block A)) (matvec (aff_block A) v) = v.
Proof.
  intros Hv. destruct HLU as (_ & L & U & HL & HU & P1 & P2 & P3 & L1 & U1). unfold lu_solveInPlace.
  set (F := lib (aff_block A)) in *.
  destruct (L1 (lu_perm F v) (P1 v Hv)) as (A1 & A2 & A3).
  destruct (U1 _ A1) as (B1 & B2 & B3). split; [exact B1|]. split.
  - apply P2; [rewrite matvec_length; rewrite aff_block_columns; unfold columns; rewrite map_length; apply HA | exact Hv |].
    rewrite P3 by exact B1. rewrite B2, A2. reflexivity.
  - rewrite P3 by exact Hv. assert (LU' : length (matvec U v) = m) by (rewrite matvec_length; apply HU).
    destruct (L1 _ LU') as (_ & _ & ->). apply U1. exact Hv.
Qed.
Lemma aff_split lead y : length lead = (n - m)%nat ->
  matvec A (lead ++ y) = vadd (matvec (map (firstn (n - m)) A) lead) (matvec (aff_block A) y).
Proof.
  intros Hl. rewrite aff_block_columns. destruct aff_shape as [H1 H2].
  rewrite (matvec_app A (n - m) lead y Hl) by (eapply Forall_impl; [|exact H2]; cbn; intros; lia). f_equal.
  unfold matvec, columns, block. rewrite !map_map. clear - H2 Hm.
  induction H2 as [|row l Hr _ IH]; [reflexivity|]. cbn [map]. rewrite IH. do 2 f_equal. rewrite firstn_all2; [reflexivity|]. rewrite skipn_length. lia.
Qed.
Lemma aff_imp_inv n1 : (n - m <= n1)%nat -> imp_inv n1 0 (aff_map f) P.
Proof.
  intros Hn1. split; [apply aff_dims|]. unfold f, P. cbn [aff_map m_inv affine_pmap p_eval p_nc p_in p_out].
  intros c x1 r old _ Hx1 Hr Ho. unfold aff_Inverse. cbn [aff_make_A af_A af_b af_out af_lu]. destruct aff_shape as [H1 H2]. rewrite H1, aff_ncols.
  set (lead := firstn (n - m) x1). assert (Hl : length lead = (n - m)%nat) by (apply firstn_len; lia).
  assert (E1 : (if (0 <? length b)%nat
      then ofold (fun out i => do a <- raw_get r i; do b <- raw_get b i; raw_set out i (a - b)) (seq 0 m) old
      else deep_copy old r) = Ok (vsub r off)).
  { unfold off. destruct (Nat.ltb_spec 0 (length b)) as [Hp|Hz].
    - destruct Hb as [E|Hlb]; [rewrite E in Hp; cbn in Hp; lia|]. apply sub_all; auto.
    - rewrite deep_copy_ok by lia. f_equal. unfold vsub, zeros. rewrite <- Hr. clear. induction r as [|a r IH]; [reflexivity|].
      cbn [length repeat map vadd]. rewrite <- IH. f_equal. ring. }
  rewrite E1. cbn [obind]. destruct (Nat.ltb_spec 0 m) as [_|Hz]; [|lia].
  pose proof off_len as Hoff.
  assert (Hvs : length (vsub r off) = m) by (rewrite vsub_length; lia).
  assert (E2 : (if (m =? n)%nat then Ok (vsub r off) else
      do xsub <- seg x1 0 (n - m); dgemv (-1) (map (firstn (n - m)) A) xsub 1 (vsub r off))
      = Ok (vsub (vsub r off) (matvec (map (firstn (n - m)) A) lead))).
  { destruct (Nat.eqb_spec m n) as [E|Hne].
    - unfold lead. rewrite E, Nat.sub_diag. f_equal. change (firstn 0 x1) with (@nil R).
      assert (EZ : matvec (map (firstn 0) A) [] = zeros (length A)).
      { unfold matvec. rewrite map_map. clear. induction A as [|row l IH]; [reflexivity|]. cbn [map length]. unfold zeros in *. cbn [repeat]. rewrite <- IH. reflexivity. }
      rewrite EZ, H1. symmetry. rewrite <- Hvs. change (vsub (vsub r off) (zeros (length (vsub r off)))) with (vadd (vsub r off) (map Ropp (zeros (length (vsub r off))))). generalize (vsub r off) as l. clear.
      induction l as [|a l IH]; [reflexivity|]. unfold zeros in *. cbn [length repeat map vadd]. rewrite IH. f_equal. ring.
    - rewrite seg_0 by lia. cbn [obind]. fold lead. rewrite (dgemv_sub _ lead (vsub r off) m); auto.
      split; [rewrite map_length; auto|]. apply Forall_forall. intros row Hin. apply in_map_iff in Hin. destruct Hin as (row' & <- & Hin).
      rewrite Forall_forall in H2. rewrite firstn_len; [lia|]. rewrite (H2 _ Hin). lia. }
  rewrite E2. cbn [obind].
  set (p := matvec (map (firstn (n - m)) A) lead).
  assert (Hp : length p = m) by (unfold p; rewrite matvec_length, map_length; auto).
  destruct (lu_solve_ok (vsub (vsub r off) p) ltac:(rewrite vsub_length; lia)) as (S1 & S2 & _).
  eexists. split; [reflexivity|]. split; [exact S1|].
  fold lead. rewrite (aff_split _ _ Hl). rewrite S2. fold p. rewrite cancel by lia. apply close_refl.
Qed.
Lemma aff_injective : injective P.
Proof.
  intros c lead y y' _ Hl Hy Hy' E. unfold P in *. cbn [affine_pmap p_eval p_in p_out] in *.
  pose proof off_len as Ho. destruct aff_shape as [H1 H2].
  apply vadd_inj_r in E; [|rewrite matvec_length; lia|rewrite matvec_length; lia].
  rewrite !aff_split in E by exact Hl.
  assert (HL : length (aff_block A) = m) by (rewrite aff_block_columns; unfold columns; rewrite map_length; auto).
  apply vadd_inj_l in E; [|rewrite !matvec_length, map_length; lia|rewrite !matvec_length, map_length; lia].
  destruct (lu_solve_ok y Hy) as (_ & _ & <-). destruct (lu_solve_ok y' Hy') as (_ & _ & <-). rewrite E. reflexivity.
Qed.
End Affine.

(** Linear algebra of the affine map as mathematics. *)
Lemma vecmat_cons n a s row A : length row = n -> vecmat n (a :: s) (row :: A) = vadd (map (Rmult a) row) (vecmat n s A).
Proof.
  intros Hr. unfold vecmat. cbn [map dot]. subst n.
  enough (H : forall k pre, (forall j, (j < length row)%nat -> coord (pre ++ row) (length pre + j) = coord row j) -> k = length pre ->
     map (fun j => a * coord (pre ++ row) j + dot s (map (fun r => coord r j) A)) (seq k (length row))
     = vadd (map (Rmult a) row) (map (fun j => dot s (map (fun r => coord r j) A)) (seq k (length row)))).
  { apply (H 0%nat []); auto. }
  induction row as [|x row IH]; intros k pre HP ->; [reflexivity|].
  cbn [length seq map vadd]. f_equal.
  - f_equal. f_equal. unfold coord. rewrite app_nth2 by lia. rewrite Nat.sub_diag. reflexivity.
  - specialize (IH (S (length pre)) (pre ++ [x])). rewrite <- app_assoc in IH. cbn [app] in IH. apply IH.
    + intros j Hj. unfold coord. rewrite app_nth2; rewrite app_length; cbn [length]; [|lia].
      replace (length pre + 1 + j - length pre)%nat with (S j) by lia. reflexivity.
    + rewrite app_length. cbn. lia.
Qed.
Lemma dot_scale a row v : dot (map (Rmult a) row) v = a * dot row v.
Proof. revert v. induction row as [|x row IH]; intros [|y v]; cbn; try ring. rewrite IH. ring. Qed.
Lemma vecmat_length n s A : length (vecmat n s A) = n. Proof. unfold vecmat. rewrite map_length, seq_length. reflexivity. Qed.
Lemma vecmat_nil n A : vecmat n [] A = zeros n.
Proof. unfold vecmat, zeros. cbn [dot]. generalize 0%nat. induction n as [|n IH]; intros k; cbn; auto. rewrite IH. reflexivity. Qed.
Lemma vecmat_nil_r n s : vecmat n s [] = zeros n.
Proof. unfold vecmat, zeros. cbn [map]. rewrite dot_nil_r. generalize 0%nat. induction n as [|n IH]; intros k; cbn; auto. rewrite IH. reflexivity. Qed.
Lemma dot_matvec n s A v : Forall (fun row => length row = n) A -> length v = n -> dot s (matvec A v) = dot (vecmat n s A) v.
Proof.
  intros H Hv. revert s. induction H as [|row A Hr _ IH]; intros s.
  - cbn. rewrite dot_nil_r, vecmat_nil_r, dot_zeros_l. reflexivity.
  - destruct s as [|a s]; [rewrite vecmat_nil, dot_zeros_l; reflexivity|].
    cbn [matvec map dot]. rewrite vecmat_cons by exact Hr. rewrite dot_vadd_l by (rewrite map_length, vecmat_length; auto).
    rewrite dot_scale. f_equal. apply IH.
Qed.
Lemma matvec_velocity A g t v : velocity g t v -> velocity (fun u => matvec A (g u)) t (matvec A v).
Proof.
  intros H. split; [intros u; rewrite !matvec_length; auto|]. intros j Hj. rewrite matvec_length in Hj.
  assert (E : forall x, coord (matvec A x) j = dot (nth j A []) x).
  { intros x. unfold coord, matvec. change 0 with (dot [] x) at 1. rewrite (map_nth (fun row => dot row x)). reflexivity. }
  rewrite E. eapply is_derive_ext; [intros u; symmetry; apply E|]. apply dot_derive. exact H.
Qed.
Lemma vadd_const_velocity b g t v : length v = length b -> velocity g t v -> velocity (fun u => vadd (g u) b) t v.
Proof.
  intros Hb [H1 H2]. split; [intros u; rewrite vadd_length; rewrite H1; auto|]. intros j Hj.
  assert (E : forall a, length a = length b -> (j < length b)%nat -> coord (vadd a b) j = coord a j + coord b j).
  { clear. intros a. revert b j. unfold coord. induction a as [|x a IH]; intros [|y b] [|j] H Hj; cbn in *; try lia; try discriminate; auto. apply IH; lia. }
  eapply is_derive_ext; [intros u; symmetry; apply E; [rewrite H1; auto|lia]|].
  replace (coord v j) with (coord v j + 0) by ring.
  apply (@is_derive_plus R_AbsRing R_NormedModule); [apply H2; auto|apply @is_derive_const].
Qed.
Lemma zeros_length n : length (zeros n) = n. Proof. apply repeat_length. Qed.
Lemma affine_sized m n A b : rows_of m n A -> length b = m -> sized (affine_pmap m n A b).
Proof.
  intros [H1 H2] Hb c x s Hc Hx Hs. cbn in *. rewrite vecmat_length, zeros_length. repeat split; auto.
  rewrite vadd_length; rewrite matvec_length; lia.
Qed.
Lemma affine_true m n A b : rows_of m n A -> length b = m -> true_gradients (affine_pmap m n A b).
Proof.
  intros [H1 H2] Hb gc gx t vc vx s Hgc Hgx Lc Lx Ls. cbn in *. rewrite Rplus_0_l.
  rewrite <- (dot_matvec n s A vx H2 Lx). apply dot_derive. apply vadd_const_velocity; [rewrite matvec_length; lia|].
  apply matvec_velocity. exact Hgx.
Qed.
Lemma affine_true_logdet_gradients m n A b : true_logdet_gradients (affine_pmap m n A b).
Proof. intros gc gx t vc vx Hgc Hgx Lc Lx. cbn. rewrite dot_zeros_l, Rplus_0_l. apply @is_derive_const. Qed.
Lemma shift_sized b : sized (shift_pmap b).
Proof.
  intros c x s Hc Hx Hs. cbn in *. rewrite zeros_length. repeat split; auto. rewrite vadd_length; lia.
Qed.
Lemma shift_true b : true_gradients (shift_pmap b).
Proof.
  intros gc gx t vc vx s Hgc Hgx Lc Lx Ls. cbn in *. rewrite Rplus_0_l. apply dot_derive. apply vadd_const_velocity; auto.
Qed.

(** * Jacobians and determinants *)
Lemma upd_velocity x k : (k < length x)%nat -> velocity (fun u => upd x k u) (coord x k) (basis_vec (length x) k).
Proof.
  intros Hk. split; [intros u; rewrite upd_length, basis_length; auto|]. intros j Hj. rewrite basis_length in Hj.
  assert (E : forall l k j u, (k < length l)%nat -> coord (upd l k u) j = if (j =? k)%nat then u else coord l j).
  { clear. unfold coord. induction l as [|a l IH]; intros [|k] j u H; cbn [length] in H; try lia.
    - destruct j as [|j]; reflexivity.
    - destruct j as [|j]; [reflexivity|]. cbn [upd nth]. rewrite IH by lia. reflexivity. }
  eapply is_derive_ext; [intros u; symmetry; apply E; auto|].
  unfold basis_vec. rewrite E by (rewrite zeros_length; auto). destruct (Nat.eqb_spec j k) as [->|Hne].
  - apply @is_derive_id.
  - replace (coord (zeros (length x)) j) with 0 by (unfold coord, zeros; symmetry; apply nth_repeat).
    apply (@is_derive_const _ R_NormedModule).
Qed.
Lemma upd_coord x k : upd x k (coord x k) = x.
Proof. unfold coord. revert k. induction x as [|a x IH]; intros [|k]; cbn; auto. f_equal. apply IH. Qed.
Lemma nth_columns A i off m : (i < length A)%nat -> nth i (columns off m A) [] = block off m (nth i A []).
Proof.
  intros H. unfold columns. rewrite nth_indep with (d' := block off m []) by (rewrite map_length; auto). apply map_nth.
Qed.
Lemma affine_true_logdet m n A b : rows_of m n A -> (m <= n)%nat -> length b = m -> det m (columns (n - m) m A) <> 0 ->
  true_logdet (affine_pmap m n A b).
Proof.
  intros [H1 H2] Hmn Hb Hdet c x _ Hx. cbn in *. exists (columns (n - m) m A). split; [|split; auto].
  split.
  - cbn. split; [unfold columns; rewrite map_length; auto|]. apply Forall_forall. intros row Hin. apply in_map_iff in Hin.
    destruct Hin as (row' & <- & Hin). rewrite Forall_forall in H2. unfold block. rewrite firstn_len; [auto|]. rewrite skipn_length, (H2 _ Hin). lia.
  - cbn. intros i j Hi Hj. rewrite nth_columns by lia. unfold block. rewrite coord_firstn by lia. rewrite coord_skipn.
    assert (Hk : (n - m + j < length x)%nat) by lia.
    pose proof (matvec_velocity A _ _ _ (upd_velocity x (n - m + j) Hk)) as HV.
    apply (vadd_const_velocity b) in HV; [|rewrite matvec_length; lia]. destruct HV as [_ HV].
    specialize (HV i ltac:(rewrite matvec_length; lia)). unfold is_partial.
    replace (coord (nth i A []) (n - m + j)) with (coord (matvec A (basis_vec (length x) (n - m + j))) i); [exact HV|].
    unfold coord at 1, matvec. change 0 with (dot [] (basis_vec (length x) (n - m + j))).
    rewrite (map_nth (fun row => dot row (basis_vec (length x) (n - m + j)))). rewrite dot_comm.
    apply dot_basis; [auto|]. rewrite Hx. rewrite Forall_forall in H2. apply H2. apply nth_In. lia.
Qed.
