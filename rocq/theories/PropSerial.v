(** C54: saving and loading. *)
From Coq Require Import String Ascii NArith.
From Verif Require Import Base FixedSetModel MISetLimFill SerialModel.
Close Scope string_scope.

(** ** Vocabulary *)
(** Loading from an archive that starts with these bytes gives [x] and leaves exactly what follows them. *)
Definition recovers {A} (load : bytes -> outcome (A * bytes)) (b : bytes) (x : A) : Prop := forall rest, load (b ++ rest) = Ok (x, rest).
(** Values of the C++ types: numbers of [k] bytes, strings, views of elements of [w] bytes with less than 2^32 elements. *)
Definition fits (k : nat) (x : N) : Prop := (x < 256 ^ N.of_nat k)%N.
Definition text (s : bytes) : Prop := fits 8 (N.of_nat (length s)).
Definition vec_ok (w : nat) (v : vview) : Prop := text (vv_label v) /\ fits 4 (N.of_nat (length (vv_data v))) /\ Forall (fits w) (vv_data v).

(** ** Numbers and views *)
Lemma le_length k : forall x, length (le k x) = k.
Proof. induction k as [|k IH]; intros x; cbn; auto. Qed.
Lemma unle_le k : forall x, fits k x -> unle (le k x) = x.
Proof.
  unfold fits. induction k as [|k IH]; intros x H.
  - cbn in H. cbn. lia.
  - cbn [le unle]. rewrite IH.
    + pose proof (N.div_mod x 256 ltac:(lia)). lia.
    + apply N.div_lt_upper_bound; [lia|]. rewrite Nat2N.inj_succ, N.pow_succ_r' in H. lia.
Qed.
Lemma read_app b rest : read (length b) (b ++ rest) = Ok (b, rest).
Proof.
  unfold read. rewrite app_length. destruct (Nat.ltb_spec (length b + length rest) (length b)); [lia|]. rewrite firstn_app, skipn_app, firstn_all, skipn_all, Nat.sub_diag. cbn. rewrite app_nil_r. reflexivity.
Qed.
Lemma recovers_num k x : fits k x -> recovers (load_num k) (le k x) x.
Proof. intros H rest. unfold load_num. rewrite <- (le_length k x) at 1. rewrite read_app. cbn. rewrite unle_le; auto. Qed.
Lemma recovers_bool x : recovers load_bool (save_bool x) x.
Proof.
  intros rest. unfold load_bool. change (save_bool x) with (le 1 (if x then 1%N else 0%N)) || (destruct x; [change (save_bool true) with (le 1 1%N)|change (save_bool false) with (le 1 0%N)]).
  - rewrite recovers_num by (unfold fits; cbn; lia). reflexivity.
  - rewrite recovers_num by (unfold fits; cbn; lia). reflexivity.
Qed.
Lemma recovers_string s : text s -> recovers load_string (save_string s) s.
Proof. intros H rest. unfold load_string, save_string. rewrite <- app_assoc, recovers_num by exact H. cbn [obind fst snd]. rewrite Nat2N.id. apply read_app. Qed.
Lemma recovers_many {A} (save : A -> bytes) load (l : list A) : Forall (fun x => recovers load (save x) x) l -> recovers (load_many load (length l)) (flat_map save l) l.
Proof.
  intros H. induction H as [|x l Hx _ IH]; intros rest; [reflexivity|]. cbn [length load_many flat_map]. rewrite <- app_assoc, Hx. cbn [obind fst snd]. rewrite IH. reflexivity.
Qed.
Lemma recovers_data w l : Forall (fits w) l -> recovers (load_data w (length l)) (save_data w l) l.
Proof. intros H. apply recovers_many. eapply Forall_impl; [|exact H]. apply recovers_num. Qed.
Lemma u32_fits x : fits 4 x -> u32 x = x.
Proof. intros H. apply N.mod_small. exact H. Qed.
Ltac go H := rewrite <- ?app_assoc; rewrite H by (auto; unfold fits; cbn; lia); cbn [obind fst snd].

Lemma recovers_vec w v : vec_ok w v -> recovers (load_vec w) (save_vec w v) v.
Proof.
  intros (H1 & H2 & H3) rest. unfold load_vec, save_vec. cbv zeta. rewrite (u32_fits _ H2). go recovers_string. go recovers_num. destruct v as [lab [|x l]]; cbn [vv_data vv_label length] in *; [reflexivity|].
  destruct (N.ltb_spec 0 (N.of_nat (S (length l)))); [|lia]. rewrite Nat2N.id. rewrite firstn_all2 by (cbn; lia). change (S (length l)) with (length (x :: l)). rewrite (recovers_data w (x :: l) H3 rest). reflexivity.
Qed.

Lemma Ok_inj {A} (x y : A) : Ok x = Ok y -> x = y. Proof. congruence. Qed.
(** ** C54 *)
Theorem C54_vector : forall w v, vec_ok w v -> recovers (load_vec w) (save_vec w v) v.
Proof. exact recovers_vec. Qed.
Print Assumptions C54_vector.

(** A matrix whose elements are adjacent, with less than 2^32 elements: same label, extents and entries. *)
Definition packed (v : mview) : Prop := mv_ld v = (if mv_left v then mv_m v else mv_n v) /\ mv_m v * mv_n v <= length (mv_mem v).
Lemma matrix_round : forall w v b, text (mv_label v) -> Forall (fits w) (mv_mem v) -> fits 4 (N.of_nat (mv_m v)) -> fits 4 (N.of_nat (mv_n v)) -> fits 4 (N.of_nat (mv_m v * mv_n v)) -> packed v ->
  save_mat w v = Ok b ->
  exists v', recovers (load_mat w (mv_left v)) b v' /\ mv_label v' = mv_label v /\ mv_m v' = mv_m v /\ mv_n v' = mv_n v /\ packed v' /\
    forall i j, i < mv_m v -> j < mv_n v -> mv_at v' i j = mv_at v i j /\ mv_at v i j <> None.
Proof.
  intros w v b HL HD Hm Hn Hmn (Hld & Hlen) H. unfold save_mat in H. cbv zeta in H. rewrite !u32_fits in H by (try (rewrite <- Nat2N.inj_mul); auto; rewrite ?u32_fits by auto; auto).
  rewrite <- Nat2N.inj_mul in H. rewrite Nat2N.id in H. set (m := mv_m v) in *. set (n := mv_n v) in *. set (k := m * n) in *.
  exists (MkMV (mv_label v) (firstn k (mv_mem v)) m n (mv_left v) (if mv_left v then m else n)). split; [|split; [auto|split; [auto|split; [auto|split]]]].
  - intros rest. unfold load_mat. destruct (((0 <? N.of_nat m) && (0 <? N.of_nat n))%N) eqn:P.
    + destruct (Nat.ltb_spec (length (mv_mem v)) k); [discriminate|]. apply Ok_inj in H; subst b. rewrite <- !app_assoc. rewrite recovers_string by auto. cbn [obind fst snd]. rewrite recovers_num by auto. cbn [obind fst snd]. rewrite recovers_num by auto. cbn [obind fst snd].
      rewrite P. rewrite <- Nat2N.inj_mul, !Nat2N.id, u32_fits by auto. rewrite Nat2N.id. fold k.
      assert (L : length (firstn k (mv_mem v)) = k) by (rewrite firstn_length; lia). replace (load_data w k) with (load_data w (length (firstn k (mv_mem v)))) by (rewrite L; auto).
      rewrite recovers_data by (rewrite <- (firstn_skipn k (mv_mem v)) in HD; apply Forall_app in HD; apply HD). cbn [obind fst snd]. rewrite Nat.sub_diag. cbn [repeat]. rewrite app_nil_r. reflexivity.
    + apply Ok_inj in H; subst b. rewrite <- !app_assoc. rewrite recovers_string by auto. cbn [obind fst snd]. rewrite recovers_num by auto. cbn [obind fst snd]. rewrite recovers_num by auto. cbn [obind fst snd]. rewrite P, !Nat2N.id.
      assert (k = 0). { unfold k. apply andb_false_iff in P as [P|P]; apply N.ltb_ge in P; [assert (m = 0) by lia|assert (n = 0) by lia]; nia. } rewrite H. reflexivity.
  - split; [reflexivity|]. cbn [mv_m mv_n mv_mem]. rewrite firstn_length. fold k. lia.
  - intros i j Hi Hj. unfold mv_at. cbn [mv_mem mv_left mv_ld]. rewrite Hld. fold m n.
    assert (X : (if mv_left v then i + j * (if mv_left v then m else n) else i * (if mv_left v then m else n) + j) < k) by (unfold k; destruct (mv_left v); nia).
    split; [|apply nth_error_Some; lia]. rewrite <- (firstn_skipn k (mv_mem v)) at 2. rewrite nth_error_app1; [reflexivity|]. rewrite firstn_length. lia.
Qed.
Theorem C54_matrix_partial : forall w v, text (mv_label v) -> Forall (fits w) (mv_mem v) -> fits 4 (N.of_nat (mv_m v)) -> fits 4 (N.of_nat (mv_n v)) -> fits 4 (N.of_nat (mv_m v * mv_n v)) -> packed v ->
  exists b v', save_mat w v = Ok b /\ recovers (load_mat w (mv_left v)) b v' /\ mv_label v' = mv_label v /\ mv_m v' = mv_m v /\ mv_n v' = mv_n v /\ packed v' /\
    forall i j, i < mv_m v -> j < mv_n v -> mv_at v' i j = mv_at v i j /\ mv_at v i j <> None.
Proof.
  intros w v HL HD Hm Hn Hmn P. assert (E : exists b, save_mat w v = Ok b).
  { destruct P as (_ & P). unfold save_mat. cbv zeta. rewrite !u32_fits by (try (rewrite <- Nat2N.inj_mul); auto; rewrite ?u32_fits by auto; auto). rewrite <- Nat2N.inj_mul, Nat2N.id.
    destruct (_ && _)%bool; [|eauto]. destruct (Nat.ltb_spec (length (mv_mem v)) (mv_m v * mv_n v)); [lia|eauto]. }
  destruct E as (b & E). exists b. destruct (matrix_round w v b HL HD Hm Hn Hmn P E) as (v' & H). exists v'. auto.
Qed.
Print Assumptions C54_matrix_partial.

(** 2^16 rows and columns: m*n is 0 as an unsigned int, so no element is written, and the loaded matrix is zero. *)
Theorem C54_large_matrix_refuted : forall w v b, text (mv_label v) -> mv_m v = Nat.pow 2 16 -> mv_n v = Nat.pow 2 16 -> save_mat w v = Ok b ->
  exists v', recovers (load_mat w (mv_left v)) b v' /\ forall x, In x (mv_mem v') -> x = 0%N.
Proof.
  intros w v b HL Hm Hn H. unfold save_mat in H. rewrite Hm, Hn in H. cbv zeta in H. assert (X : N.of_nat (2 ^ 16) = (2 ^ 16)%N) by (rewrite Nat2N.inj_pow; reflexivity). rewrite X in H.
  change (u32 (2 ^ 16)) with (2 ^ 16)%N in H. change ((0 <? 2 ^ 16)%N && (0 <? 2 ^ 16)%N) with true in H. change (N.to_nat (u32 (2 ^ 16 * 2 ^ 16))) with 0 in H. cbn [firstn save_data flat_map] in H.
  destruct (Nat.ltb_spec (length (mv_mem v)) 0); [lia|]. apply Ok_inj in H; subst b. eexists. split.
  - intros rest. unfold load_mat. rewrite <- !app_assoc. rewrite recovers_string by auto. cbn [obind fst snd]. rewrite recovers_num by (unfold fits; cbn; lia). cbn [obind fst snd]. rewrite recovers_num by (unfold fits; cbn; lia). cbn [obind fst snd].
    change ((0 <? 2 ^ 16)%N && (0 <? 2 ^ 16)%N) with true. cbv iota. change (N.to_nat (u32 (2 ^ 16 * 2 ^ 16))) with 0. cbn [load_data load_many obind fst snd app]. reflexivity.
  - cbn [mv_mem]. intros x Hx. apply repeat_spec in Hx. exact Hx.
Qed.
Print Assumptions C54_large_matrix_refuted.

(** The first row of a 2x2 column-major matrix, taken as a row range: the element written for column 1 is the one below column 0. *)
Theorem C54_strided_matrix_refuted : exists v b v', text (mv_label v) /\ mv_m v = 1 /\ mv_n v = 2 /\ save_mat 8 v = Ok b /\ recovers (load_mat 8 (mv_left v)) b v' /\ mv_at v 0 1 = Some 3%N /\ mv_at v' 0 1 = Some 2%N.
Proof.
  set (v := MkMV [109%N] [1%N; 2%N; 3%N; 4%N] 1 2 true 2). exists v. eexists. exists (MkMV [109%N] [1%N; 2%N] 1 2 true 1). split; [unfold text, fits; cbn; lia|]. split; [reflexivity|]. split; [reflexivity|]. split; [vm_compute; reflexivity|].
  split; [|split; reflexivity]. intros rest. reflexivity.
Qed.
Print Assumptions C54_strided_matrix_refuted.

(** Map options. *)
Definition opts_ok (o : mopts) : Prop :=
  fits 4 (mo_basisType o) /\ fits 8 (mo_basisLB o) /\ fits 8 (mo_basisUB o) /\ fits 4 (mo_posFuncType o) /\ fits 4 (mo_quadType o) /\ fits 8 (mo_quadAbsTol o) /\ fits 8 (mo_quadRelTol o) /\
  fits 4 (mo_quadMaxSub o) /\ fits 4 (mo_quadMinSub o) /\ fits 4 (mo_quadPts o) /\ fits 8 (mo_nugget o).
Theorem C54_options : forall o, opts_ok o -> recovers load_opts (save_opts o) o.
Proof.
  intros o (H1 & H2 & H3 & H4 & H5 & H6 & H7 & H8 & H9 & H10 & H11) rest. unfold load_opts, save_opts.
  do 10 go recovers_num. do 2 go recovers_bool. go recovers_num. destruct o; reflexivity.
Qed.
Print Assumptions C54_options.

(** Fixed multi-index sets. *)
Definition small (n : nat) : Prop := fits 4 (N.of_nat n).
Definition fset_ok (s : sfset) : Prop :=
  small (fdim (sf_set s)) /\
  (small (length (fstarts (sf_set s))) /\ Forall small (fstarts (sf_set s))) /\ (small (length (fdims (sf_set s))) /\ Forall small (fdims (sf_set s))) /\
  (small (length (forders (sf_set s))) /\ Forall small (forders (sf_set s))) /\ (small (length (fmax (sf_set s))) /\ Forall small (fmax (sf_set s))) /\
  text (sf_l1 s) /\ text (sf_l2 s) /\ text (sf_l3 s) /\ text (sf_l4 s).
Lemma nview_ok lab l : text lab -> small (length l) /\ Forall small l -> vec_ok 4 (nview lab l).
Proof. intros H1 (H2 & H3). split; auto. cbn. rewrite map_length. split; auto. apply Forall_map. exact H3. Qed.
Lemma nats_nview lab l : nats (nview lab l) = l.
Proof. unfold nats, nview. cbn. rewrite map_map. rewrite (map_ext _ id); [apply map_id|]. intros n. apply Nat2N.id. Qed.
Theorem C54_fixed_set : forall s, fset_ok s -> recovers load_fset (save_fset s) s.
Proof.
  intros s (H1 & H2 & H3 & H4 & H5 & H6 & H7 & H8 & H9) rest. unfold load_fset, save_fset. go recovers_num. go recovers_bool.
  rewrite <- ?app_assoc. rewrite (recovers_vec 4 _ (nview_ok _ _ H6 H2)). cbn [obind fst snd]. rewrite (recovers_vec 4 _ (nview_ok _ _ H7 H3)). cbn [obind fst snd].
  rewrite (recovers_vec 4 _ (nview_ok _ _ H8 H4)). cbn [obind fst snd]. rewrite (recovers_vec 4 _ (nview_ok _ _ H9 H5)). cbn [obind fst snd]. rewrite !nats_nview, Nat2N.id. destruct s as [[] ? ? ? ?]. reflexivity.
Qed.
Print Assumptions C54_fixed_set.

(** Quadrature rules, expansions and monotone components. A rule that has no refinement parameters, counter or bounds stores zeros for them. *)
Definition basis_ok (lin : bool) (b : sbasis) : Prop := if lin then fits 8 (sb_lb b) /\ fits 8 (sb_ub b) else sb_lb b = 0%N /\ sb_ub b = 0%N.
Lemma recovers_basis lin b : basis_ok lin b -> recovers (load_basis lin) (save_basis lin b) b.
Proof.
  intros H rest. unfold load_basis, save_basis. go recovers_bool. destruct lin; cbn [basis_ok] in H; destruct H as (H1 & H2).
  - do 2 go recovers_num. destruct b; reflexivity.
  - destruct b; cbn in *. subst. reflexivity.
Qed.
Definition quad_ok (t : quad_type) (q : squad) : Prop :=
  fits 4 (sq_fdim q) /\ fits 4 (sq_maxDim q) /\ fits 4 (sq_wsSize q) /\ vec_ok 8 (sq_work q) /\ Forall (vec_ok 8) (sq_views q) /\
  match t with
  | QCC => length (sq_views q) = 2 /\ fits 4 (sq_numPts q)
  | QAS => length (sq_views q) = 0 /\ sq_numPts q = 0%N
  | QACC => length (sq_views q) = 4 /\ sq_numPts q = 0%N
  end /\
  match t with
  | QCC => sq_maxSub q = 0%N /\ sq_minSub q = 0%N /\ sq_absTol q = 0%N /\ sq_relTol q = 0%N /\ sq_metric q = 0%N
  | _ => fits 4 (sq_maxSub q) /\ fits 4 (sq_minSub q) /\ fits 8 (sq_absTol q) /\ fits 8 (sq_relTol q) /\ fits 4 (sq_metric q)
  end.
Theorem C54_quadrature : forall t q, quad_ok t q -> recovers (load_quad t) (save_quad t q) q.
Proof.
  intros t q (H1 & H2 & H3 & H4 & H5 & H6 & H7) rest.
  assert (B : recovers load_quad_base (save_quad_base q) (MkSQ (sq_fdim q) (sq_maxDim q) (sq_wsSize q) (sq_work q) 0 0 0 0 0 [] 0)).
  { intros r. unfold load_quad_base, save_quad_base. do 3 go recovers_num. rewrite (recovers_vec 8 _ H4). reflexivity. }
  assert (V : recovers (load_many (load_vec 8) (length (sq_views q))) (flat_map (save_vec 8) (sq_views q)) (sq_views q)).
  { apply recovers_many. eapply Forall_impl; [|exact H5]. apply recovers_vec. }
  destruct t; cbn [load_quad save_quad].
  - destruct H6 as (L & H6). destruct H7 as (M1 & M2 & M3 & M4 & M5). go B. rewrite L in V. go V. go recovers_num. destruct q; cbn in *. subst. reflexivity.
  - destruct H7 as (M1 & M2 & M3 & M4 & M5). unfold load_quad_rec, save_quad_rec. go B. do 5 go recovers_num. destruct H6 as (L & H6). destruct q as [? ? ? ? ? ? ? ? ? vs ?]; cbn in *. destruct vs; [|discriminate L]. subst. reflexivity.
  - destruct H7 as (M1 & M2 & M3 & M4 & M5). unfold load_quad_rec, save_quad_rec. go B. do 5 go recovers_num. destruct H6 as (L & H6). rewrite L in V. go V. destruct q; cbn in *. subst. reflexivity.
Qed.
Print Assumptions C54_quadrature.
Definition worker_ok (lin : bool) (w : sworker) : Prop := fits 4 (sw_dim w) /\ fset_ok (sw_set w) /\ basis_ok lin (sw_basis w) /\ vec_ok 4 (sw_start w) /\ fits 4 (sw_cache w).
Lemma recovers_worker lin w : worker_ok lin w -> recovers (load_worker lin) (save_worker lin w) w.
Proof.
  intros (H1 & H2 & H3 & H4 & H5) rest. unfold load_worker, save_worker. go recovers_num. go C54_fixed_set. go recovers_basis. go recovers_vec. go recovers_num. destruct w; reflexivity.
Qed.
(** The coefficients, if set, are as many as the set has terms; the set has a term. *)
Definition mono_ok (m : mono) : Prop :=
  worker_ok (cl_lin (mn_class m)) (mn_worker m) /\ quad_ok (cl_quad (mn_class m)) (mn_quad m) /\ fits 8 (mn_nugget m) /\ 0 < fsize (sf_set (sw_set (mn_worker m))) /\
  match mn_coeffs m with Some v => vec_ok 8 v /\ length (vv_data v) = fsize (sf_set (sw_set (mn_worker m))) | None => True end.
Theorem C54_component : forall m, mono_ok m -> recovers (load_mono (mn_class m)) (save_mono m) m.
Proof.
  intros m (H1 & H2 & H3 & H4 & H5) rest. unfold load_mono, save_mono. rewrite <- ?app_assoc. rewrite (recovers_worker _ _ H1). cbn [obind fst snd]. rewrite (C54_quadrature _ _ H2). cbn [obind fst snd]. go recovers_bool. go recovers_num.
  rewrite recovers_vec.
  - cbn [obind fst snd]. destruct m as [c w q t n [v|]]; cbn [mn_coeffs mn_worker mn_class mn_quad mn_cont mn_nugget] in *.
    + destruct H5 as (_ & ->). rewrite Nat.eqb_refl. reflexivity.
    + cbn [vv_data length]. destruct (Nat.eqb_spec 0 (fsize (sf_set (sw_set w)))); [lia|]. reflexivity.
  - destruct (mn_coeffs m) as [v|]; [apply H5|]. repeat split; cbn; try lia. constructor.
Qed.
Print Assumptions C54_component.

(** ** Pointers *)
Lemma find_class_name c : find_class (class_name c) = Some c.
Proof. destruct c as [[] [] [] []]; vm_compute; reflexivity. Qed.
Lemma class_name_inj c c' : class_name c = class_name c' -> c = c'.
Proof. intros H. pose proof (find_class_name c) as H1. rewrite H, find_class_name in H1. congruence. Qed.
Lemma class_name_text c : text (class_name c).
Proof. destruct c as [[] [] [] []]; vm_compute; reflexivity. Qed.
Lemma class_eqb_spec a b : class_eqb a b = true -> a = b.
Proof. unfold class_eqb, bytes_eqb. destruct (list_eq_dec N.eq_dec _ _) as [e|]; [|discriminate]. intros _. apply class_name_inj. exact e. Qed.
Lemma position_some {A} (eqb : A -> A -> bool) (x : A) l : (forall a b, eqb a b = true -> a = b) -> forall i, position eqb x l = Some i -> nth_error l i = Some x.
Proof.
  intros H. induction l as [|y l IH]; intros i; cbn; [discriminate|]. destruct (eqb x y) eqn:E; [intros X; injection X as <-; rewrite (H _ _ E); auto|]. destruct (position eqb x l); cbn; [|discriminate]. intros X. injection X as <-. cbn. auto.
Qed.
Lemma position_none {A} (eqb : A -> A -> bool) (x : A) l : eqb x x = true -> position eqb x l = None -> ~ In x l.
Proof.
  intros H. induction l as [|y l IH]; cbn; [auto|]. destruct (eqb x y) eqn:E; [discriminate|]. destruct (position eqb x l); [discriminate|]. intros _ [->|X]; [congruence|]. apply IH; auto.
Qed.

(** What the tables of an archive being read hold, given those of the archive that was written. *)
Record same (heap : nat -> mono) (o : otables) (i : itables) : Prop := {
  s_classes : forall k c, nth_error (ot_classes o) k = Some c -> lookup (N.of_nat (k + 1)) (it_classes i) = Some c;
  s_ptrs : forall k p, nth_error (ot_ptrs o) k = Some p -> lookup (N.of_nat (k + 1)) (it_ptrs i) = Some k;
  s_objs : it_objs i = map heap (ot_ptrs o);
  s_nodup : NoDup (ot_ptrs o) }.
(** The archive has room for so many more identifiers. *)
Definition room (o : otables) (n : nat) : Prop := (N.of_nat (length (ot_classes o) + n) < msb)%N /\ (N.of_nat (length (ot_ptrs o) + n) < msb)%N.

Lemma fits_small n : (N.of_nat n < msb)%N -> fits 4 (N.of_nat n). Proof. unfold fits, msb. change (2 ^ 31)%N with 2147483648%N. change (256 ^ N.of_nat 4)%N with 4294967296%N. lia. Qed.
Lemma fits_big n : (N.of_nat n < msb)%N -> fits 4 (N.of_nat n + msb). Proof. unfold fits, msb. change (2 ^ 31)%N with 2147483648%N. change (256 ^ N.of_nat 4)%N with 4294967296%N. lia. Qed.

Lemma load_ptr_spec heap o i p b o' : same heap o i -> room o 1 -> mono_ok (heap p) -> save_ptr heap o p = (b, o') ->
  exists a i', (forall rest, load_ptr i (b ++ rest) = Ok (a, i', rest)) /\ same heap o' i' /\ nth_error (ot_ptrs o') a = Some p /\
    (exists ex, ot_ptrs o' = ot_ptrs o ++ ex) /\ length (ot_classes o') <= length (ot_classes o) + 1 /\ length (ot_ptrs o') <= length (ot_ptrs o) + 1.
Proof.
  intros S (R1 & R2) HM H. unfold save_ptr in H.
  (* the type *)
  assert (C : exists b1 cs cs', (match position class_eqb (mn_class (heap p)) (ot_classes o) with
    | Some i => (le 4 (N.of_nat (i + 1)), ot_classes o)
    | None => (le 4 (N.of_nat (length (ot_classes o) + 1) + msb) ++ save_string (class_name (mn_class (heap p))), ot_classes o ++ [mn_class (heap p)]) end) = (b1, cs) /\
    (forall rest, (do id <- load_num 4 (b1 ++ rest);
      if (msb <=? fst id)%N then do name <- load_string (snd id); match find_class (fst name) with Some c => Ok (c, (((fst id - msb)%N, c) :: it_classes i), snd name) | None => Throw end
      else match lookup (fst id) (it_classes i) with Some c => Ok (c, it_classes i, snd id) | None => Throw end) = Ok (mn_class (heap p), cs', rest)) /\
    (forall k c, nth_error cs k = Some c -> lookup (N.of_nat (k + 1)) cs' = Some c) /\ length cs <= length (ot_classes o) + 1).
  { destruct (position class_eqb (mn_class (heap p)) (ot_classes o)) as [j|] eqn:Ej.
    - apply position_some in Ej; [|exact class_eqb_spec]. assert (j < length (ot_classes o)) by (apply nth_error_Some; congruence). do 3 eexists. split; [reflexivity|]. split.
      + intros rest. rewrite recovers_num by (apply fits_small; lia). cbn [obind fst snd]. destruct (N.leb_spec msb (N.of_nat (j + 1))); [lia|]. rewrite (s_classes _ _ _ S _ _ Ej). reflexivity.
      + split; [apply S|lia].
    - do 3 eexists. split; [reflexivity|]. split.
      + intros rest. rewrite <- app_assoc. rewrite recovers_num by (apply fits_big; lia). cbn [obind fst snd]. destruct (N.leb_spec msb (N.of_nat (length (ot_classes o) + 1) + msb)); [|lia].
        rewrite recovers_string by apply class_name_text. cbn [obind fst snd]. rewrite find_class_name. replace (N.of_nat (length (ot_classes o) + 1) + msb - msb)%N with (N.of_nat (length (ot_classes o) + 1)) by lia. reflexivity.
      + split; [|rewrite app_length; cbn; lia]. intros k c Hk. cbn [lookup]. destruct (Nat.lt_ge_cases k (length (ot_classes o))) as [L|L].
        * rewrite nth_error_app1 in Hk by auto. destruct (N.eqb_spec (N.of_nat (k + 1)) (N.of_nat (length (ot_classes o) + 1))); [lia|]. apply S. auto.
        * rewrite nth_error_app2 in Hk by auto. destruct (k - length (ot_classes o)) as [|q] eqn:Eq; [|destruct q; discriminate Hk]. injection Hk as <-. replace k with (length (ot_classes o)) by lia. rewrite N.eqb_refl. reflexivity. }
  destruct C as (b1 & cs & cs' & C1 & C2 & C3 & C4). rewrite C1 in H. clear C1.
  destruct (position Nat.eqb p (ot_ptrs o)) as [j|] eqn:Ej.
  - apply pair_equal_spec in H as [<- <-]. apply position_some in Ej; [|intros ? ?; apply Nat.eqb_eq]. assert (j < length (ot_ptrs o)) by (apply nth_error_Some; congruence).
    exists j, (MkIT cs' (it_ptrs i) (it_objs i)). split; [|split; [|split; [auto|split; [exists []; cbn; rewrite app_nil_r; auto|cbn; lia]]]].
    + intros rest. unfold load_ptr. specialize (C2 (le 4 (N.of_nat (j + 1)) ++ rest)). rewrite <- app_assoc. destruct (load_num 4 (b1 ++ le 4 (N.of_nat (j + 1)) ++ rest)) as [id| | |]; cbn [obind] in *; try discriminate C2. rewrite C2. cbn [obind].
      rewrite recovers_num by (apply fits_small; lia). cbn [obind fst snd]. destruct (N.leb_spec msb (N.of_nat (j + 1))); [lia|]. rewrite (s_ptrs _ _ _ S _ _ Ej). reflexivity.
    + constructor; cbn [ot_classes ot_ptrs it_classes it_ptrs it_objs]; auto; apply S.
  - apply pair_equal_spec in H as [<- <-]. assert (Hni : ~ In p (ot_ptrs o)) by (eapply position_none; [apply Nat.eqb_refl|exact Ej]).
    assert (Lo : length (it_objs i) = length (ot_ptrs o)) by (rewrite (s_objs _ _ _ S); apply map_length).
    exists (length (ot_ptrs o)), (MkIT cs' ((N.of_nat (length (ot_ptrs o) + 1), length (ot_ptrs o)) :: it_ptrs i) (it_objs i ++ [heap p])). split; [|split; [|split; [|split; [eexists; reflexivity|]]]].
    + intros rest. unfold load_ptr. rewrite <- !app_assoc. set (tl := le 4 (N.of_nat (length (ot_ptrs o) + 1) + msb) ++ save_mono (heap p) ++ rest). specialize (C2 tl). destruct (load_num 4 (b1 ++ tl)) as [id| | |]; cbn [obind] in *; try discriminate C2. rewrite C2. cbn [obind].
      unfold tl. rewrite recovers_num by (apply fits_big; lia). cbn [obind fst snd]. destruct (N.leb_spec msb (N.of_nat (length (ot_ptrs o) + 1) + msb)); [|lia]. rewrite C54_component by auto. cbn [obind fst snd]. rewrite Lo.
      replace (N.of_nat (length (ot_ptrs o) + 1) + msb - msb)%N with (N.of_nat (length (ot_ptrs o) + 1)) by lia. reflexivity.
    + constructor; cbn [ot_classes ot_ptrs it_classes it_ptrs it_objs]; auto.
      * intros k q Hk. cbn [lookup]. destruct (Nat.lt_ge_cases k (length (ot_ptrs o))) as [L|L].
        -- rewrite nth_error_app1 in Hk by auto. destruct (N.eqb_spec (N.of_nat (k + 1)) (N.of_nat (length (ot_ptrs o) + 1))); [lia|]. eapply S; eauto.
        -- rewrite nth_error_app2 in Hk by auto. destruct (k - length (ot_ptrs o)) as [|q'] eqn:Eq; [|destruct q'; discriminate Hk]. replace k with (length (ot_ptrs o)) by lia. rewrite N.eqb_refl. reflexivity.
      * rewrite map_app, (s_objs _ _ _ S). reflexivity.
      * apply NoDup_app_intro; [apply S|constructor; [auto|constructor]|intros x Hx [<-|[]]; auto].
    + cbn. rewrite nth_error_app2, Nat.sub_diag by lia. reflexivity.
    + cbn. rewrite app_length. cbn. lia.
Qed.
Lemma load_ptrs_spec heap l : forall o i b o', same heap o i -> room o (length l) -> Forall (fun p => mono_ok (heap p)) l -> save_ptrs heap o l = (b, o') ->
  exists l' i', (forall rest, load_ptrs (length l) i (b ++ rest) = Ok (l', i', rest)) /\ same heap o' i' /\ Forall2 (fun p a => nth_error (ot_ptrs o') a = Some p) l l' /\
    (exists ex, ot_ptrs o' = ot_ptrs o ++ ex) /\ length (ot_classes o') <= length (ot_classes o) + length l /\ length (ot_ptrs o') <= length (ot_ptrs o) + length l.
Proof.
  induction l as [|p l IH]; intros o i b o' S (R1 & R2) HM H; cbn [save_ptrs length] in *.
  - apply pair_equal_spec in H as [<- <-]. exists [], i. split; [reflexivity|]. split; auto. split; [constructor|]. split; [exists []; rewrite app_nil_r; auto|]. lia.
  - destruct (save_ptr heap o p) as [b1 o1] eqn:E1. destruct (save_ptrs heap o1 l) as [b2 o2] eqn:E2. apply pair_equal_spec in H as [<- <-]. inversion HM as [|? ? M1 M2]; subst.
    destruct (load_ptr_spec heap o i p b1 o1 S ltac:(split; lia) M1 E1) as (a & i1 & L1 & S1 & A1 & (ex1 & X1) & C1 & P1).
    destruct (IH o1 i1 b2 o2 S1 ltac:(split; lia) M2 E2) as (l' & i2 & L2 & S2 & A2 & (ex2 & X2) & C2 & P2).
    exists (a :: l'), i2. split; [|split; [auto|split; [|split; [|lia]]]].
    + intros rest. cbn [load_ptrs]. rewrite <- app_assoc, L1. cbn [obind]. rewrite L2. reflexivity.
    + constructor; auto. rewrite X2. rewrite nth_error_app1; auto. apply nth_error_Some. congruence.
    + exists (ex1 ++ ex2). rewrite X2, X1, app_assoc. reflexivity.
Qed.

(** Loaded pointers point to equal objects, and are equal exactly when the saved ones were. *)
Definition reproduces (heap : nat -> mono) (l : list nat) (objs : list mono) (l' : list nat) : Prop :=
  Forall2 (fun p a => nth_error objs a = Some (heap p)) l l' /\
  forall j k p q a b, nth_error l j = Some p -> nth_error l k = Some q -> nth_error l' j = Some a -> nth_error l' k = Some b -> (p = q <-> a = b).
Lemma reproduces_intro heap o i l l' : same heap o i -> Forall2 (fun p a => nth_error (ot_ptrs o) a = Some p) l l' -> reproduces heap l (it_objs i) l'.
Proof.
  intros S F. split.
  - induction F as [|p a l l' H _ IH]; constructor; auto. rewrite (s_objs _ _ _ S), nth_error_map, H. reflexivity.
  - intros j k p q a b Hp Hq Ha Hb. assert (G : forall j p a, nth_error l j = Some p -> nth_error l' j = Some a -> nth_error (ot_ptrs o) a = Some p).
    { clear -F. induction F as [|x y l l' H _ IH]; intros [|j] p a H1 H2; try discriminate; cbn in *; [congruence|eauto]. }
    assert (Xa := G _ _ _ Hp Ha). assert (Xb := G _ _ _ Hq Hb). split; [intros ->|intros ->; congruence]. pose proof (proj1 (NoDup_nth_error _) (s_nodup _ _ _ S)) as ND. apply ND; [apply nth_error_Some; congruence|congruence].
Qed.
Lemma save_comps_spec heap o i l b o' : same heap o i -> room o (length l) -> text (repeat 0%N (length l)) -> Forall (fun p => mono_ok (heap p)) l -> save_comps heap o l = (b, o') ->
  exists l' i', (forall rest, load_comps i (b ++ rest) = Ok (l', i', rest)) /\ same heap o' i' /\ Forall2 (fun p a => nth_error (ot_ptrs o') a = Some p) l l' /\ length (ot_classes o') <= length (ot_classes o) + length l /\ length (ot_ptrs o') <= length (ot_ptrs o) + length l.
Proof.
  intros S R T HM H. unfold save_comps in H. destruct (save_ptrs heap o l) as [b1 o1] eqn:E. apply pair_equal_spec in H as [<- <-].
  destruct (load_ptrs_spec heap l o i b1 o1 S R HM E) as (l' & i' & L & S' & F & _ & LL). exists l', i'. split; auto. intros rest. unfold load_comps. rewrite <- app_assoc, recovers_num by (unfold text in T; rewrite repeat_length in T; exact T). cbn [obind fst snd]. rewrite Nat2N.id. apply L.
Qed.
(** Pointers to components, in one archive, shared or not. *)
Theorem C54_shared_pointers : forall heap o i l b o', same heap o i -> room o (length l) -> fits 8 (N.of_nat (length l)) -> Forall (fun p => mono_ok (heap p)) l -> save_comps heap o l = (b, o') ->
  exists l' i', (forall rest, load_comps i (b ++ rest) = Ok (l', i', rest)) /\ reproduces heap l (it_objs i') l' /\ same heap o' i'.
Proof.
  intros heap o i l b o' S R T HM H. destruct (save_comps_spec heap o i l b o' S R) as (l' & i' & L & S' & F & _); auto; [unfold text; rewrite repeat_length; auto|].
  exists l', i'. split; auto. split; auto. eapply reproduces_intro; eauto.
Qed.
Print Assumptions C54_shared_pointers.

(** Triangular maps: the components are reproduced, but the flag that says whether the map has coefficients of its own is read from the second copy of the
    components: it is the lowest byte of their number, and the rest of that copy stays in the archive. *)
Theorem C54_triangular_partial : forall heap o i comps flag b o', same heap o i -> room o (length comps + length comps) -> fits 8 (N.of_nat (length comps)) -> Forall (fun p => mono_ok (heap p)) comps ->
  save_tri heap o comps flag = (b, o') ->
  exists comps' i' left, reproduces heap comps (it_objs i') comps' /\ 8 <= length left /\
    forall rest, load_tri i (b ++ rest) =
      if (N.of_nat (length comps) mod 256 =? 0)%N then Ok (comps', false, i', left ++ rest)
      else if (N.of_nat (length comps) mod 256 =? 1)%N then Ok (comps', true, i', left ++ rest) else UB.
Proof.
  intros heap o i comps flag b o' S (R1 & R2) T HM H. unfold save_tri in H. destruct (save_comps heap o comps) as [b1 o1] eqn:E1. destruct (save_comps heap o1 comps) as [b2 o2] eqn:E2. apply pair_equal_spec in H as [<- <-].
  destruct (save_comps_spec heap o i comps b1 o1 S) as (l' & i' & L & S' & F & _); auto; [split; lia|unfold text; rewrite repeat_length; auto|].
  exists l', i'. unfold save_comps in E2. destruct (save_ptrs heap o1 comps) as [b3 o3]. apply pair_equal_spec in E2 as [<- <-].
  exists (le 7 (N.of_nat (length comps) / 256) ++ b3 ++ save_bool flag). split; [eapply reproduces_intro; eauto|]. split; [rewrite !app_length, le_length; cbn; lia|].
  intros rest. unfold load_tri. rewrite <- !app_assoc, L. cbn [obind]. change (le 8 (N.of_nat (length comps))) with (le 1 (N.of_nat (length comps) mod 256)%N ++ le 7 (N.of_nat (length comps) / 256)) || idtac.
  assert (Q : le 8 (N.of_nat (length comps)) = le 1 (N.of_nat (length comps) mod 256)%N ++ le 7 (N.of_nat (length comps) / 256)).
  { generalize (N.of_nat (length comps)). intros x. change (le 8 x) with ((x mod 256)%N :: le 7 (x / 256)). change (le 1 (x mod 256)) with [((x mod 256) mod 256)%N]. rewrite N.mod_mod by lia. reflexivity. }
  try rewrite Q. rewrite <- !app_assoc. unfold load_bool. rewrite recovers_num by (unfold fits; cbn; apply N.mod_lt; lia). cbn [obind fst snd].
  destruct (N.of_nat (length comps) mod 256 =? 0)%N; [reflexivity|]. destruct (N.of_nat (length comps) mod 256 =? 1)%N; reflexivity.
Qed.
Print Assumptions C54_triangular_partial.

(** So no triangular map is recovered: what follows it in the archive is never reached, and the flag of a map with one component is true whatever it was. *)
Theorem C54_triangular_refuted : forall heap o i comps flag b o', same heap o i -> room o (length comps + length comps) -> fits 8 (N.of_nat (length comps)) -> Forall (fun p => mono_ok (heap p)) comps ->
  save_tri heap o comps flag = (b, o') ->
  (forall comps' flag' i' rest, load_tri i (b ++ rest) <> Ok (comps', flag', i', rest)) /\
  (length comps = 1 -> forall rest comps' flag' i' rest', load_tri i (b ++ rest) = Ok (comps', flag', i', rest') -> flag' = true).
Proof.
  intros heap o i comps flag b o' S R T HM H. destruct (C54_triangular_partial heap o i comps flag b o' S R T HM H) as (c & i1 & left & _ & L & E). split.
  - intros c' f' i' rest X. rewrite E in X. destruct (N.of_nat (length comps) mod 256 =? 0)%N; [|destruct (N.of_nat (length comps) mod 256 =? 1)%N; [|discriminate]]; injection X as _ _ _ X; apply (f_equal (@length N)) in X; rewrite app_length in X; lia.
  - intros L1 rest c' f' i' r' X. rewrite E, L1 in X. cbn in X. injection X as _ <- _ _. reflexivity.
Qed.
Print Assumptions C54_triangular_refuted.

(** ** Examples *)
Definition ex_fset : sfset := MkSF (MkF 2 true [0; 0; 1; 2] [0; 1] [1; 1] [1; 1]) [110%N] [100%N] [111%N] [].
Lemma ex_fset_ok : fset_ok ex_fset.
Proof. unfold fset_ok, small, text, fits. cbn. repeat split; try lia; repeat constructor; cbn; lia. Qed.
Example C54_fixed_set_example : load_fset (save_fset ex_fset ++ [7%N]) = Ok (ex_fset, [7%N]).
Proof. vm_compute. reflexivity. Qed.
(** Default options: infinite bounds, tolerance 1e-6. *)
Definition ex_opts : mopts := MkMO 0 18442240474082181120 9218868437227405312 1 1 4517329193108106637 4517329193108106637 30 0 5 true true 0.
Example C54_options_example : opts_ok ex_opts /\ load_opts (save_opts ex_opts ++ [7%N]) = Ok (ex_opts, [7%N]).
Proof. split; [unfold opts_ok, fits; cbn; repeat split; lia|vm_compute; reflexivity]. Qed.
Definition ex_mono (coeffs : option vview) : mono :=
  MkMono (MkClass Prob true PSoft QAS) (MkSW 2 ex_fset (MkSB true 13830554455654793216 4607182418800017408) (MkVV [115%N] [0; 2; 4; 6]%N) 12)
    (MkSQ 1 1 60 (MkVV [] []) 30 0 4517329193108106637 4517329193108106637 0 [] 0) true 0 coeffs.
Lemma ex_mono_ok coeffs : (match coeffs with Some v => vec_ok 8 v /\ length (vv_data v) = 3 | None => True end) -> mono_ok (ex_mono coeffs).
Proof.
  intros H. split; [|split; [|split; [|split]]]; [| | | |exact H].
  - unfold worker_ok. split; [unfold fits; cbn; lia|]. split; [exact ex_fset_ok|]. unfold basis_ok, vec_ok, text, fits; cbn. repeat split; try lia; repeat constructor; cbn; lia.
  - unfold quad_ok, vec_ok, text, fits; cbn. repeat split; try lia; constructor.
  - unfold fits; cbn; lia.
  - cbn. lia.
Qed.
(** A triangular map with one component without coefficients: saved with flag false, loaded with flag true, 16 bytes unread. *)
Example C54_triangular_example : exists b o' i' left, save_tri (fun _ => ex_mono None) (MkOT [] []) [5] false = (b, o') /\ load_tri (MkIT [] [] []) b = Ok ([0], true, i', left) /\ length left = 16 /\ it_objs i' = [ex_mono None].
Proof. do 4 eexists. split; [vm_compute; reflexivity|]. split; [vm_compute; reflexivity|]. split; reflexivity. Qed.
Lemma empty_same heap : same heap (MkOT [] []) (MkIT [] [] []).
Proof. constructor; cbn; try (intros [|k] ? H; discriminate H); [reflexivity|constructor]. Qed.
Example C54_triangular_hypotheses : same (fun _ => ex_mono None) (MkOT [] []) (MkIT [] [] []) /\ room (MkOT [] []) (1 + 1) /\ fits 8 1 /\ Forall (fun p => mono_ok ((fun _ : nat => ex_mono None) p)) [5].
Proof.
  split; [apply empty_same|]. split; [unfold room; cbn; lia|]. split; [unfold fits; cbn; lia|]. repeat constructor; apply ex_mono_ok; exact I.
Qed.
(** Two components, the first used twice: addresses 0, 0, 1. *)
Example C54_pointers_example : let heap p := if p =? 5 then ex_mono None else ex_mono (Some (MkVV [99%N] [1; 2; 3]%N)) in
  exists b o' i', save_comps heap (MkOT [] []) [5; 5; 8] = (b, o') /\ load_comps (MkIT [] [] []) (b ++ [7%N]) = Ok ([0; 0; 1], i', [7%N]) /\ it_objs i' = [heap 5; heap 8].
Proof. do 3 eexists. split; [vm_compute; reflexivity|]. split; vm_compute; reflexivity. Qed.
