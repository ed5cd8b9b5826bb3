(** Theorems C67, C68, C69 and the layouts of C43: arrays in memory. *)
From Coq Require Import Reals List Arith Lia Lra.
From Verif Require Import Base MISetModel MISetOps BijModel MapsModel SpecMaps MapsContract LeafModel LeafProofs DensityModel DensityProofs GaussModel GaussProofs LayoutModel SpecLayout LayoutProofs.
Import ListNotations.
Local Open Scope nat_scope.

(** * C67: array conversions show the same entries. *)
(** Eigen matrices of either storage order, with any strides (blocks, transposes, every second row). *)
Theorem C67_eigen_to_view : forall e,
  (e_rowmajor e = false -> same_entries (of_emat e) (of_view (MatToKokkos_col e))) /\
  (e_rowmajor e = true -> same_entries (of_emat e) (of_view (MatToKokkos_row e))).
Proof.
  intros e. split; intros H; (split; [reflexivity|]); (split; [reflexivity|]); intros i j _; cbn [of_emat of_view ar_at]; unfold e_addr, v2_addr; rewrite H; cbn; lia.
Qed.
Print Assumptions C67_eigen_to_view.
Example C67_eigen_to_view_case : (* block(1,2,2,2) of a 4 x 5 column-major matrix *)
  ar_at (of_view (MatToKokkos_col (MkE false 9 2 2 4 1))) 1 1 = 14 /\ ar_at (of_view (MatToKokkos_row (MkE true 7 2 2 5 1))) 1 1 = 13.
Proof. split; reflexivity. Qed.

(** Views of every layout, whole or parts, with and without assertions; the result agrees entry by entry. *)
Theorem C67_view_to_eigen : forall dbg v, kokkos_view v ->
  exists e, KokkosToMat dbg v = Ok e /\ same_entries (of_view v) (of_emat e).
Proof. intros. apply to_mat. auto. Qed.
Print Assumptions C67_view_to_eigen.
Example C67_view_to_eigen_case : kokkos_view (MkV2 LayoutLeft 3 2 2 1 7) /\ kokkos_view (MkV2 LayoutRight 3 2 2 7 1) /\
  (forall l d r c, kokkos_view (kview l d r c)) /\ KokkosToMat true (MkV2 LayoutLeft 3 2 2 1 7) = Ok (MkE false 3 2 2 7 1).
Proof. split; [cbn; lia|]. split; [cbn; lia|]. split; [apply kview_kokkos|reflexivity]. Qed.

(** There and back again. *)
Theorem C67_roundtrip : forall dbg e, exists e',
  KokkosToMat dbg (if e_rowmajor e then MatToKokkos_row e else MatToKokkos_col e) = Ok e' /\ same_entries (of_emat e) (of_emat e').
Proof.
  intros dbg e. destruct (C67_eigen_to_view e) as (H1 & H2). destruct (e_rowmajor e) eqn:E.
  - eexists. split; [reflexivity|]. specialize (H2 eq_refl). destruct H2 as (A & B & D). split; [exact A|]. split; [exact B|]. intros i j H. rewrite D by auto. reflexivity.
  - eexists. split; [reflexivity|]. specialize (H1 eq_refl). destruct H1 as (A & B & D). split; [exact A|]. split; [exact B|]. intros i j H. rewrite D by auto. reflexivity.
Qed.
Print Assumptions C67_roundtrip.

(** Vectors: Eigen vectors with any stride, views with any stride, std::vectors, raw pointers and tuples. *)
Theorem C67_vectors : forall (e : evec) (v : view1) ptr len stride (mem : list R),
  (v1_strided v = false -> v1_stride v = 1) ->
  (v1_len (VecToKokkos e) = ev_len e /\ forall i, v1_addr (VecToKokkos e) i = ev_addr e i) /\
  (ev_len (KokkosToVec v) = v1_len v /\ forall i, ev_addr (KokkosToVec v) i = v1_addr v i) /\
  (v1_len (VecToKokkos_std ptr len) = len /\ v1_len (ToKokkos1 ptr len) = len /\ v1_len (ToKokkos_tuple1 (ptr, len, stride)) = len /\
   forall i, v1_addr (VecToKokkos_std ptr len) i = ptr + i /\ v1_addr (ToKokkos1 ptr len) i = ptr + i /\
             v1_addr (ToKokkos_tuple1 (ptr, len, stride)) i = ptr + i * stride) /\
  ((forall i, i < v1_len v -> v1_addr v i < length mem) -> KokkosToStd mem v = Ok (map (fun i => nth (v1_addr v i) mem 0%R) (seq 0 (v1_len v)))).
Proof.
  intros e v ptr len stride mem Hv. split; [split; reflexivity|]. split; [|split].
  - unfold KokkosToVec. destruct (v1_strided v); (split; [reflexivity|]); intros i; unfold ev_addr, v1_addr; cbn [ev_data ev_inner]; auto. rewrite Hv by auto. reflexivity.
  - repeat split; unfold v1_addr; cbn; lia.
  - intros H. unfold KokkosToStd. rewrite (GaussProofs.omap_ok _ (fun i => nth (v1_addr v i) mem 0%R)); [reflexivity|]. intros i Hi. apply in_seq in Hi. apply raw_get_nth, H. lia.
Qed.
Print Assumptions C67_vectors.
Example C67_vectors_case : (v1_strided (MkV1 true 1 2 3) = false -> v1_stride (MkV1 true 1 2 3) = 1) /\
  KokkosToStd [10; 11; 12; 13; 14; 15]%R (MkV1 true 1 2 3) = Ok [11; 14]%R.
Proof. split; [discriminate|reflexivity]. Qed.

(** Matrices around raw memory and around std::vectors. The rows of a std::vector follow each other; when
    its size is not a multiple of the number of columns the last [size mod cols] entries are left out. *)
Theorem C67_raw : forall ptr rows cols rs cs,
  same_entries (of_view (ToKokkos2 LayoutLeft ptr rows cols)) (MkArr rows cols (fun i j => ptr + i + j * rows)) /\
  same_entries (of_view (ToKokkos2 LayoutRight ptr rows cols)) (MkArr rows cols (fun i j => ptr + i * cols + j)) /\
  same_entries (of_view (ToKokkos_tuple2 (ptr, (rows, cols), (rs, cs)))) (MkArr rows cols (fun i j => ptr + i * rs + j * cs)).
Proof. intros. repeat split; cbn; intros i j _; unfold v2_addr; cbn; lia. Qed.
Print Assumptions C67_raw.
Theorem C67_std_matrix : forall ptr size cols, 0 < cols ->
  exists v, MatToKokkos_std ptr size cols = Ok v /\
    same_entries (of_view v) (MkArr (size / cols) cols (fun i j => ptr + i * cols + j)) /\
    (forall p, addressed (of_view v) p <-> ptr <= p < ptr + (size - size mod cols)).
Proof.
  intros ptr size cols Hc. unfold MatToKokkos_std. destruct (Nat.eqb_spec cols 0) as [|_]; [lia|]. eexists. split; [reflexivity|].
  pose proof (Nat.div_mod size cols ltac:(lia)) as DM. pose proof (Nat.mod_upper_bound size cols ltac:(lia)) as MU.
  split; [repeat split; intros i j _; cbn; unfold v2_addr; cbn; lia|].
  intros p. unfold addressed. cbn. unfold v2_addr; cbn. replace (size - size mod cols) with ((size / cols) * cols) by lia. split.
  - intros (i & j & (Hi & Hj) & <-). cbn in *. nia.
  - intros (H1 & H2). exists ((p - ptr) / cols), ((p - ptr) mod cols). pose proof (Nat.div_mod (p - ptr) cols ltac:(lia)). pose proof (Nat.mod_upper_bound (p - ptr) cols ltac:(lia)).
    split; [split; cbn; [apply Nat.div_lt_upper_bound; lia|lia]|lia].
Qed.
Print Assumptions C67_std_matrix.
Example C67_std_matrix_case : exists v, MatToKokkos_std 0 7 3 = Ok v /\ v2_rows v = 2 /\ v2_addr v 1 2 = 5.
Proof. eexists. repeat split. Qed.
Theorem C67_std_matrix_refuted : forall ptr size, MatToKokkos_std ptr size 0 = UB.
Proof. reflexivity. Qed.
Print Assumptions C67_std_matrix_refuted.

(** Constant Eigen references: right when the rows (columns) follow each other without gaps, or there is
    one only. *)
Theorem C67_const_partial : forall e, e_inner e = 1 ->
  (e_rowmajor e = true -> e_outer e = e_cols e \/ e_rows e <= 1 -> same_entries (of_emat e) (of_view (ConstRowMatToKokkos e))) /\
  (e_rowmajor e = false -> e_outer e = e_rows e \/ e_cols e <= 1 -> same_entries (of_emat e) (of_view (ConstColMatToKokkos e))).
Proof.
  intros e HI. split.
  - intros R O. apply const_row_same. repeat split; auto.
  - intros R O. repeat split. intros i j (Hi & Hj). cbn in Hi, Hj. cbn [of_emat of_view ar_at]. unfold e_addr, v2_addr. rewrite R, HI. cbn.
    destruct O as [->|O]; [lia|]. replace j with 0 by lia. lia.
Qed.
Print Assumptions C67_const_partial.
Example C67_const_partial_case : let e := MkE true 0 2 3 3 1 in e_inner e = 1 /\ e_rowmajor e = true /\ e_outer e = e_cols e /\ v2_addr (ConstRowMatToKokkos e) 1 2 = 5.
Proof. repeat split. Qed.
(** The full claim (any outer stride) is false: in every block of a wider matrix, every entry outside the
    first row (column) is taken from the wrong place. *)
Theorem C67_const_refuted : forall e, e_inner e = 1 ->
  (e_rowmajor e = true -> e_outer e <> e_cols e -> forall i j, in_array (of_emat e) i j -> 0 < i -> ar_at (of_view (ConstRowMatToKokkos e)) i j <> ar_at (of_emat e) i j) /\
  (e_rowmajor e = false -> e_outer e <> e_rows e -> forall i j, in_array (of_emat e) i j -> 0 < j -> ar_at (of_view (ConstColMatToKokkos e)) i j <> ar_at (of_emat e) i j).
Proof.
  intros e HI. split; intros R O i j _ Hp; cbn [of_emat of_view ar_at]; unfold e_addr, v2_addr; rewrite R, HI; cbn; intros E; apply O; nia.
Qed.
Print Assumptions C67_const_refuted.
Example C67_const_refuted_case : let e := MkE true 0 2 2 3 1 in (* leftCols(2) of a 2 x 3 matrix *)
  e_inner e = 1 /\ e_outer e <> e_cols e /\ in_array (of_emat e) 1 1 /\ ar_at (of_view (ConstRowMatToKokkos e)) 1 1 = 3 /\ ar_at (of_emat e) 1 1 = 4.
Proof. cbv zeta. split; [reflexivity|]. split; [cbn; lia|]. split; [split; cbn; lia|]. split; reflexivity. Qed.

(** * C69: matrix products and sums. *)
(** C := beta C + alpha op(A) op(B) for arrays with any strides and transposes; A and B may share memory
    with C and with each other; nothing else changes. *)
Theorem C69_product_into : forall dbg (alpha beta : R) A B C (mem : list R),
  kokkos_view (t_view A) -> kokkos_view (t_view B) -> kokkos_view C ->
  let a := of_tview A in let b := of_tview B in let c := of_view C in
  ar_cols a = ar_rows b -> ar_rows c = ar_rows a -> ar_cols c = ar_cols b ->
  inside (length mem) a -> inside (length mem) b -> inside (length mem) c -> no_overlap c ->
  exists mem', dgemm R 0%R Rplus Rmult dbg alpha A B beta C mem = Ok mem' /\ length mem' = length mem /\
    (forall i j, in_array c i j -> entry mem' c i j =
       (beta * entry mem c i j + alpha * sum_to (ar_cols a) (fun k => entry mem a i k * entry mem b k j))%R) /\
    (forall p, ~ addressed c p -> nth p mem' 0%R = nth p mem 0%R).
Proof. intros. apply dgemm_ok; auto. Qed.
Print Assumptions C69_product_into.
(** A squared into itself: A = B = C. *)
Example C69_product_into_case : let A := kview LayoutRight 0 2 2 in let t := MkT A false in
  kokkos_view A /\ ar_cols (of_tview t) = ar_rows (of_tview t) /\ inside (length [1; 2; 3; 4]%R) (of_view A) /\ no_overlap (of_view A).
Proof.
  cbn. split; [lia|]. split; [reflexivity|]. split.
  - intros i j (Hi & Hj). cbn in *. unfold v2_addr; cbn. lia.
  - intros i j i' j' (Hi & Hj) (Hi' & Hj'). cbn in *. unfold v2_addr; cbn. lia.
Qed.

(** op(A) * op(B) in new memory. *)
Theorem C69_product : forall dbg A B (mem : list R),
  kokkos_view (t_view A) -> kokkos_view (t_view B) ->
  let a := of_tview A in let b := of_tview B in
  ar_cols a = ar_rows b -> inside (length mem) a -> inside (length mem) b ->
  exists mem' C, mat_mul R 0%R Rplus Rmult dbg 1%R A B mem = Ok (mem', C) /\ ar_rows (of_view C) = ar_rows a /\ ar_cols (of_view C) = ar_cols b /\
    inside (length mem') (of_view C) /\
    (forall i j, in_array (of_view C) i j -> entry mem' (of_view C) i j = sum_to (ar_cols a) (fun k => entry mem a i k * entry mem b k j)%R) /\
    (forall p, p < length mem -> nth p mem' 0%R = nth p mem 0%R).
Proof.
  intros dbg A B mem VA VB a b D IA IB. unfold mat_mul. rewrite t_cols_of, t_rows_of. fold a b. rewrite D, Nat.eqb_refl. cbn [negb]. rewrite andb_false_r. cbn [convert obind].
  rewrite t_rows_of, t_cols_of. fold a b. set (C := MkV2 LayoutStride _ _ _ _ _). set (m1 := mem ++ repeat 0%R (ar_rows a * ar_cols b)).
  assert (Lm : length m1 = length mem + ar_rows a * ar_cols b) by (unfold m1; rewrite app_length, repeat_length; reflexivity).
  assert (ADDR : forall i j, in_array (of_view C) i j -> length mem <= v2_addr C i j < length m1).
  { intros i j (Hi & Hj). cbn in Hi, Hj. unfold v2_addr; cbn. rewrite Lm. nia. }
  assert (EN : forall x, inside (length mem) x -> inside (length m1) x) by (intros x Hx i j H; specialize (Hx i j H); lia).
  assert (OLD : forall x i j, inside (length mem) x -> in_array x i j -> entry m1 x i j = entry mem x i j) by (intros x i j Hx H; unfold entry, m1; apply app_nth1; apply (Hx i j H)).
  destruct (dgemm_ok dbg 1%R 0%R A B C m1 VA VB I) as (mem' & E & L & HV & HF); auto.
  - intros i j H. apply ADDR. exact H.
  - intros i j i' j' (Hi & Hj) (Hi' & Hj') E. cbn in *. unfold v2_addr in E; cbn in E. assert (j = j') by nia. subst. split; lia.
  - rewrite E. cbn [obind]. exists mem', C. split; [reflexivity|]. split; [reflexivity|]. split; [reflexivity|]. split; [intros i j H; rewrite L; apply ADDR; exact H|]. split.
    + intros i j H. rewrite HV by exact H. unfold gemm_value. fold a b.
      assert (S : forall n, n <= ar_cols a -> sum_to n (fun k => entry m1 a i k * entry m1 b k j)%R = sum_to n (fun k => entry mem a i k * entry mem b k j)%R).
      { induction n as [|n IHn]; intros Hn; cbn [sum_to]; auto. destruct H as (Hi & Hj). cbn in Hi, Hj. rewrite IHn by lia. rewrite !OLD by (auto; split; lia). reflexivity. }
      rewrite S by lia. rewrite ?D. ring.
    + intros p Hp. rewrite HF; [unfold m1; apply app_nth1; exact Hp|]. intros (i & j & H & Ep). pose proof (ADDR i j H). cbn in Ep. lia.
Qed.
Print Assumptions C69_product.
Example C69_product_case : let A := transpose_view (kview LayoutRight 0 2 3) in let B := MkT (kview LayoutLeft 6 2 2) false in
  kokkos_view (t_view A) /\ kokkos_view (t_view B) /\ ar_cols (of_tview A) = ar_rows (of_tview B) /\ inside 10 (of_tview A) /\ inside 10 (of_tview B).
Proof. cbn. repeat split; try lia; intros i j (Hi & Hj); cbn in *; unfold v2_addr; cbn; lia. Qed.

(** x += y, whichever way the loads and stores of different entries are interleaved, if y is x itself or
    shares no memory with x. A schedule gives every entry at least its three accesses. *)
Theorem C69_sum : forall x y (mem : list R) schedule,
  let ax := of_view x in let ay := of_view y in
  ar_rows ay = ar_rows ax -> ar_cols ay = ar_cols ax -> inside (length mem) ax -> inside (length mem) ay -> no_overlap ax ->
  apart ax ay \/ same_entries ax ay ->
  (forall p, In p schedule -> in_array ax (fst p) (snd p)) -> (forall i j, in_array ax i j -> 3 <= turns (i, j) schedule) ->
  exists mem' pc, AddInPlace R Rplus x y schedule mem = Ok (mem', pc) /\ length mem' = length mem /\
    (forall i j, in_array ax i j -> pc (i, j) = ADone /\ entry mem' ax i j = (entry mem ax i j + entry mem ay i j)%R) /\
    (forall p, ~ addressed ax p -> nth p mem' 0%R = nth p mem 0%R).
Proof. intros. apply add_all; auto. Qed.
Print Assumptions C69_sum.
Example C69_sum_case : let x := kview LayoutLeft 0 1 2 in let y := kview LayoutRight 2 1 2 in
  apart (of_view x) (of_view y) /\ no_overlap (of_view x) /\ turns (0, 1) [(0, 0); (0, 1); (0, 1); (0, 0); (0, 1); (0, 0)] = 3 /\
  exists pc, AddInPlace R Rplus x y [(0, 0); (0, 1); (0, 1); (0, 0); (0, 1); (0, 0)] [1; 2; 3; 4]%R = Ok ([1 + 3; 2 + 4; 3; 4]%R, pc).
Proof.
  cbn. split; [|split; [|split; [reflexivity|eexists; reflexivity]]].
  - intros i j i' j' (Hi & Hj) (Hi' & Hj'). cbn in *. unfold v2_addr; cbn. lia.
  - intros i j i' j' (Hi & Hj) (Hi' & Hj'). cbn in *. unfold v2_addr; cbn. lia.
Qed.
(** If y overlaps x in part, the result depends on the schedule: x += y where y is x moved by one. *)
Theorem C69_overlap_refuted : exists x y (mem : list R) s1 s2 m1 m2 p1 p2,
  no_overlap (of_view x) /\ inside (length mem) (of_view x) /\ inside (length mem) (of_view y) /\
  v2_rows x = v2_rows y /\ v2_cols x = v2_cols y /\
  (forall i j, in_array (of_view x) i j -> 3 <= turns (i, j) s1 /\ 3 <= turns (i, j) s2) /\
  AddInPlace R Rplus x y s1 mem = Ok (m1, p1) /\ AddInPlace R Rplus x y s2 mem = Ok (m2, p2) /\ m1 <> m2.
Proof.
  exists (kview LayoutLeft 0 2 1), (kview LayoutLeft 1 2 1), [1; 1; 1]%R, [(0, 0); (0, 0); (0, 0); (1, 0); (1, 0); (1, 0)], [(1, 0); (1, 0); (1, 0); (0, 0); (0, 0); (0, 0)].
  do 4 eexists.
  split; [intros i j i' j' (Hi & Hj) (Hi' & Hj') E; cbn in *; unfold v2_addr in *; cbn in *; lia|].
  split; [intros i j (Hi & Hj); cbn in *; unfold v2_addr; cbn; lia|]. split; [intros i j (Hi & Hj); cbn in *; unfold v2_addr; cbn; lia|].
  split; [reflexivity|]. split; [reflexivity|].
  split; [intros i j (Hi & Hj); cbn in Hi, Hj; replace j with 0 by lia; destruct i as [|[|i]]; cbn; lia|].
  split; [reflexivity|]. split; [reflexivity|].
  intros E. injection E as E1. lra.
Qed.
Print Assumptions C69_overlap_refuted.

(** * C68: the overloads for Eigen matrices give what the overloads for arrays give. *)
(** The array a packed matrix shows. *)
Definition as_array (mem : list R) (e : emat) : matrix := right_mat (e_rows e) (shown mem (of_emat e)).
Definition columns (r : outcome matrix) : outcome (list (list R)) := do m <- r; Ok (mx_cols m).
Lemma shown_length mem a : length (shown mem a) = ar_cols a.
Proof. unfold shown. rewrite map_length, seq_length. reflexivity. Qed.
Lemma shown_rows mem a : Forall (fun c => length c = ar_rows a) (shown mem a).
Proof. unfold shown. apply Forall_forall. intros c H. apply in_map_iff in H. destruct H as (j & <- & _). rewrite map_length, seq_length. reflexivity. Qed.
Theorem C68_packed : forall M (mem : list R) pts other, packed pts -> packed other ->
  inside (length mem) (of_emat pts) -> inside (length mem) (of_emat other) ->
  let X := as_array mem pts in let Y := as_array mem other in
  e_LogDeterminant M mem pts = o_LogDeterminant M X /\
  e_CoeffGrad M mem pts other = columns (o_CoeffGrad M X Y) /\
  e_Inverse M mem pts other = columns (o_Inverse M X Y) /\
  e_LogDeterminantCoeffGrad M mem pts = columns (o_LogDeterminantCoeffGrad M X) /\
  e_LogDeterminantInputGrad M mem pts = columns (o_LogDeterminantInputGrad M X).
Proof.
  intros M mem pts other P1 P2 I1 I2 X Y.
  unfold e_LogDeterminant, e_CoeffGrad, e_Inverse, e_LogDeterminantCoeffGrad, e_LogDeterminantInputGrad, o_LogDeterminant, o_CoeffGrad, o_Inverse, o_LogDeterminantCoeffGrad, o_LogDeterminantInputGrad.
  rewrite (packed_view mem pts P1 I1), (packed_view mem other P2 I2). fold X Y. destruct (o_check M) eqn:EC; cbn [negb obind]; [|repeat split; reflexivity].
  split; [reflexivity|]. repeat split.
  - destruct (each2 _ _ _ _) as [r| | |] eqn:E; cbn [obind columns]; auto. apply each2_length in E; rewrite as_right_alloc; [reflexivity|rewrite E; cbn; apply repeat_length].
  - destruct (negb _); [reflexivity|]. destruct (each2 _ _ _ _) as [r| | |] eqn:E; cbn [obind columns]; auto. apply each2_length in E; rewrite as_right_alloc; [reflexivity|rewrite E; cbn; apply repeat_length].
  - destruct (each _ _ _) as [r| | |] eqn:E; cbn [obind columns]; auto. apply each_length in E; rewrite as_right_alloc; [reflexivity|rewrite E; cbn; apply repeat_length].
  - destruct (each _ _ _) as [r| | |] eqn:E; cbn [obind columns]; auto. apply each_length in E; rewrite as_right_alloc; [reflexivity|rewrite E; cbn; apply repeat_length].
Qed.
Print Assumptions C68_packed.
(** Evaluate and Gradient write into memory the Eigen overload has not initialised: equal for maps that
    fulfil their contract (the result does not depend on what the output held). *)
Theorem C68_uninitialised : forall M P (mem : list R) pts sens (junk : list (list R)), packed pts -> packed sens ->
  inside (length mem) (of_emat pts) -> inside (length mem) (of_emat sens) ->
  e_rows pts = m_in (o_map M) -> e_rows sens = m_out (o_map M) -> e_cols sens = e_cols pts -> length (o_c M) = m_nc (o_map M) ->
  length junk = e_cols pts ->
  let X := as_array mem pts in let S := as_array mem sens in
  (imp_eval (o_map M) P -> Forall (fun c => length c = m_out (o_map M)) junk -> e_Evaluate M mem pts junk = columns (o_Evaluate M X)) /\
  (imp_grad (o_map M) P -> Forall (fun c => length c = m_in (o_map M)) junk -> e_Gradient M mem pts sens junk = columns (o_Gradient M X S)).
Proof.
  intros M P mem pts sens junk P1 P2 I1 I2 R1 R2 C2 LC LJ X S. pose proof (shown_length mem (of_emat pts)) as L1. pose proof (shown_length mem (of_emat sens)) as L2.
  pose proof (shown_rows mem (of_emat pts)) as F1. pose proof (shown_rows mem (of_emat sens)) as F2. cbn [of_emat ar_rows ar_cols] in L1, L2, F1, F2.
  assert (FR : forall n k, Forall (fun c => length c = n) (repeat (fresh n) k)) by (intros; apply Forall_forall; intros c Hc; apply repeat_spec in Hc; subst; apply repeat_length).
  unfold e_Evaluate, e_Gradient, o_Evaluate, o_Gradient. rewrite (packed_view mem pts P1 I1), (packed_view mem sens P2 I2). fold X S. destruct (o_check M); cbn [negb obind]; [|split; reflexivity]. split.
  - intros (D & HE) HJ. destruct D as (Din & Dout & Dnc).
    assert (HX : forall out, Forall (fun c => length c = m_out (o_map M)) out -> length out = e_cols pts -> each (m_eval (o_map M) (o_c M)) (mx_cols X) out = Ok (map (p_eval P (o_c M)) (mx_cols X))).
    { intros out HO LO. apply (each_ok _ _ (m_in (o_map M)) (m_out (o_map M))); auto.
      - intros x o Hx Ho. apply HE; lia.
      - rewrite <- R1. exact F1.
      - unfold X, S, as_array. cbn [right_mat mx_cols]. lia. }
    rewrite HX by auto. rewrite HX; [reflexivity|apply FR|cbn [alloc_mat right_mat mx_cols]; rewrite repeat_length; unfold X, as_array; cbn [right_mat mx_cols]; lia].
  - intros (D & HE) HJ. destruct D as (Din & Dout & Dnc).
    assert (HX : forall out, Forall (fun c => length c = m_in (o_map M)) out -> length out = e_cols pts -> each2 (m_grad (o_map M) (o_c M)) (mx_cols X) (mx_cols S) out = Ok (map (fun p => p_grad P (o_c M) (fst p) (snd p)) (combine (mx_cols X) (mx_cols S)))).
    { intros out HO LO. apply (each2_ok _ _ (m_in (o_map M)) (m_out (o_map M)) (m_in (o_map M))); auto.
      - intros x s o Hx Hs Ho. apply HE; lia.
      - rewrite <- R1. exact F1.
      - rewrite <- R2. exact F2.
      - unfold X, S, as_array. cbn [right_mat mx_cols]. lia.
      - unfold X, S, as_array. cbn [right_mat mx_cols]. lia. }
    rewrite HX by auto. rewrite HX; [reflexivity|apply FR|cbn [alloc_mat right_mat mx_cols]; rewrite repeat_length; unfold X, as_array; cbn [right_mat mx_cols]; lia].
Qed.
Print Assumptions C68_uninitialised.
Example C68_uninitialised_case : let e := MkE true 0 2 3 3 1 in packed e /\ inside 6 (of_emat e) /\ e_rows e = m_in (id_map true 2 2) /\
  imp_eval (id_map true 2 2) (id_pmap 2 2) /\ imp_grad (id_map true 2 2) (id_pmap 2 2).
Proof.
  split; [repeat split; auto|]. split; [intros i j (Hi & Hj); cbn in *; unfold e_addr; cbn; lia|]. split; [reflexivity|].
  split; [apply id_imp_eval|apply id_imp_grad]; auto.
Qed.

(** The full claim fails for blocks: the identity on the left columns of a wider matrix returns something
    else, for every shape with at least two rows. *)
Theorem C68_block_refuted : forall dbg r c outer, 2 <= r -> 0 < c -> c < outer ->
  let pts := MkE true 0 r c outer 1 in let M := MkObj (id_map dbg r r) None in
  exists mem, inside (length mem) (of_emat pts) /\
    o_Evaluate M (as_array mem pts) = Ok (as_array mem pts) /\
    forall junk, length junk = c -> Forall (fun v => length v = r) junk -> exists y, e_Evaluate M mem pts junk = Ok y /\ y <> shown mem (of_emat pts).
Proof.
  intros dbg r c outer Hr Hc Ho pts M. set (mem := map INR (seq 0 (r * outer))). exists mem.
  assert (Lm : length mem = r * outer) by (unfold mem; rewrite map_length, seq_length; reflexivity).
  assert (IP : inside (length mem) (of_emat pts)). { intros i j (Hi & Hj). cbn in *. unfold e_addr; cbn. rewrite Lm. nia. }
  assert (IK : inside (length mem) (of_view (ConstRowMatToKokkos pts))). { intros i j (Hi & Hj). cbn in *. unfold v2_addr; cbn. rewrite Lm. nia. }
  destruct (id_imp_eval dbg r r ltac:(lia)) as ((Din & Dout & Dnc) & HE). cbn [id_map id_pmap m_in m_out p_in p_out p_nc p_eval] in Din, Dout, Dnc, HE.
  assert (EV : forall v out, inside (length mem) v -> ar_rows v = r -> length out = ar_cols v -> Forall (fun c => length c = r) out ->
    each (m_eval (id_map dbg r r) []) (shown mem v) out = Ok (shown mem v)).
  { intros v out Hv Hvr Lo Fo. pose proof (shown_rows mem v) as F. rewrite Hvr in F. rewrite (each_ok _ (fun x => x) r r); auto.
    - rewrite map_id. reflexivity.
    - intros x o Hx Hoo. destruct (HE [] x o eq_refl Hx Hoo) as (-> & _). rewrite Nat.sub_diag. reflexivity.
    - rewrite shown_length. exact Lo. }
  split; [exact IP|]. split.
  - unfold o_Evaluate, M, as_array. cbn [o_map o_check o_c o_coeffs m_nc id_map Nat.eqb orb negb right_mat mx_cols alloc_mat]. rewrite shown_length. cbn [of_emat ar_cols pts e_cols m_out].
    fold pts. change (MkArr r c (e_addr pts)) with (of_emat pts). rewrite EV; auto.
    + cbn [obind]. unfold same_layout, alloc_mat, right_mat. cbn [mx_rows mx_s0 mx_s1 e_rows pts]. rewrite repeat_length, shown_length. reflexivity.
    + apply repeat_length.
    + apply Forall_forall. intros v Hv. apply repeat_spec in Hv. subst. apply repeat_length.
  - intros junk Lj Fj. exists (shown mem (of_view (ConstRowMatToKokkos pts))). split.
    + unfold e_Evaluate, M. cbn [o_map o_check o_c o_coeffs m_nc id_map Nat.eqb orb negb]. rewrite view_matrix_ok by exact IK. cbn [obind mx_cols]. apply EV; auto.
    + intros E. assert (N : nth 1 (nth 0 (shown mem (of_view (ConstRowMatToKokkos pts))) []) 0%R = nth 1 (nth 0 (shown mem (of_emat pts)) []) 0%R) by (rewrite E; reflexivity).
      assert (G : forall a, ar_cols a = c -> ar_rows a = r -> nth 1 (nth 0 (shown mem a) []) 0%R = entry mem a 1 0).
      { intros a Ec Er. unfold shown. rewrite Ec, Er. destruct c as [|c']; [lia|]. destruct r as [|[|r']]; [lia|lia|]. reflexivity. }
      rewrite !G in N by reflexivity. unfold entry, mem in N. cbn [of_view of_emat ar_at] in N.
      assert (NI : forall p, p < r * outer -> nth p (map INR (seq 0 (r * outer))) 0%R = INR p).
      { intros p Hp. change 0%R with (INR 0) at 1. rewrite map_nth, seq_nth by auto. reflexivity. }
      rewrite !NI in N by (cbn; unfold v2_addr, e_addr; cbn; nia). apply INR_eq in N. unfold v2_addr, e_addr in N; cbn in N. lia.
Qed.
Print Assumptions C68_block_refuted.
Example C68_block_refuted_case : 2 <= 2 /\ 0 < 2 /\ 2 < 3. Proof. lia. Qed.

(** And for the gradient of affine maps: where the new matrix's memory held NaN (it is not initialised),
    the gradient is NaN, for every matrix A and every sensitivity. *)
Theorem C68_affine_gradient_refuted : forall dbg A sens output (mem : list dbl),
  kokkos_view A -> kokkos_view sens -> kokkos_view output ->
  v2_rows A = v2_rows sens -> v2_rows output = v2_cols A -> v2_cols output = v2_cols sens ->
  inside (length mem) (of_view A) -> inside (length mem) (of_view sens) -> inside (length mem) (of_view output) -> no_overlap (of_view output) ->
  exists mem', aff_GradientImpl dbg A sens output mem = Ok mem' /\
    forall i j, in_array (of_view output) i j -> nth (v2_addr output i j) mem (Fin 0) = NaN -> nth (v2_addr output i j) mem' (Fin 0) = NaN.
Proof.
  intros dbg A sens output mem VA VS VO R1 R2 R3 IA IS IO NO.
  destruct (gemm_any dbl (Fin 0) dadd dmul dbg (Fin 1) (Fin 0) (transpose_view A) (MkT sens false) output mem) as (mem' & E & _ & HV); auto.
  - intros i j (Hi & Hj). apply (IA j i). split; auto.
  - exists mem'. split; [exact E|]. intros i j H Hn. destruct (HV i j H) as (s & ->). rewrite Hn. reflexivity.
Qed.
Print Assumptions C68_affine_gradient_refuted.
Example C68_affine_gradient_refuted_case : let A := kview LayoutRight 0 1 1 in let s := kview LayoutRight 1 1 1 in let out := kview LayoutRight 2 1 1 in
  (exists x, aff_GradientImpl true A s out [Fin 2; Fin 3; Fin 0] = Ok [Fin 2; Fin 3; Fin x]) /\
  aff_GradientImpl true A s out [Fin 2; Fin 3; NaN] = Ok [Fin 2; Fin 3; NaN].
Proof. split; [eexists; reflexivity|reflexivity]. Qed.

(** * C43, the layouts: inverting an affine map on strided arrays. *)
(** Whatever the arrays' strides, if there is no matrix, if the output's rows are not adjacent, or if the
    output is a packed column-major array, the inverse is that of C43_affine, column by column. *)
Theorem C43_layouts_partial : forall f x1 r output cols,
  (length (af_A f) = 0 \/ mx_s0 output <> 1 \/ (mx_s0 output = 1 /\ mx_s1 output = mx_rows output)) ->
  each2 (aff_Inverse f) (mx_cols x1) (mx_cols r) (mx_cols output) = Ok cols ->
  aff_InverseImpl f x1 r output = Ok (same_layout output cols).
Proof.
  intros f x1 r output cols H E. unfold aff_InverseImpl. destruct (Nat.ltb_spec 0 (length (af_A f))) as [HA|HA].
  - destruct (Nat.eqb_spec (mx_s0 output) 1) as [Hs|Hs].
    + rewrite E. cbn [obind]. unfold as_left. cbn [same_layout mx_s0 mx_s1 mx_rows mx_cols]. destruct H as [H|[H|(_ & H)]]; [lia|lia|]. rewrite Hs, H, !Nat.eqb_refl. reflexivity.
    + cbn [mx_cols]. rewrite E. cbn [obind]. unfold as_left. cbn [same_layout mx_s0 mx_s1 mx_rows mx_cols]. rewrite !Nat.eqb_refl. reflexivity.
  - rewrite E. reflexivity.
Qed.
Print Assumptions C43_layouts_partial.
(** Every affine map with a matrix of at least two rows aborts when Inverse is called with one point. *)
Theorem C43_single_point_refuted : forall f x1 r,
  2 <= length (af_A f) -> af_out f = length (af_A f) -> length (mx_cols x1) = 1 -> length (mx_cols r) = 1 ->
  forall cols, each2 (aff_Inverse f) (mx_cols x1) (mx_cols r) [fresh (af_out f)] = Ok cols -> aff_Inverse_call f x1 r = Throw.
Proof.
  intros f x1 r H2 HO L1 L2 cols E. unfold aff_Inverse_call. rewrite L1, L2. change (negb (1 =? 1)) with false. cbv iota.
  change (alloc_mat (af_out f) 1) with (MkMat (af_out f) [fresh (af_out f)] 1 1). unfold aff_InverseImpl.
  destruct (Nat.ltb_spec 0 (length (af_A f))) as [_|]; [|lia]. cbn [mx_s0]. rewrite Nat.eqb_refl. cbn [mx_cols]. rewrite E. cbn [obind]. unfold as_left. cbn [same_layout mx_s0 mx_s1 mx_rows].
  destruct (Nat.eqb_spec 1 (af_out f)) as [|]; [lia|]. reflexivity.
Qed.
Print Assumptions C43_single_point_refuted.
Example C43_single_point_refuted_case : let f := MkAff [[1; 0]; [0; 1]]%R [] 2 2 (MkLU (fun x => x) (fun x => x) (fun x => x) 1%R) (Some 0%R) in
  each2 (aff_Inverse f) [[5; 6]%R] [[5; 6]%R] [fresh 2] = Ok [[5; 6]%R] /\
  aff_Inverse_call f (right_mat 2 [[5; 6]%R]) (right_mat 2 [[5; 6]%R]) = Throw /\
  exists y, aff_Inverse_call f (right_mat 2 [[5; 6]; [7; 8]]%R) (right_mat 2 [[5; 6]; [7; 8]]%R) = Ok y /\ mx_cols y = [[5; 6]; [7; 8]]%R.
Proof. repeat split; try reflexivity. eexists. split; reflexivity. Qed.
