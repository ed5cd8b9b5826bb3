(** Proofs about the map factory. *)
From Coq Require Import Reals List Lia Lra Nnat NArith.
From Coquelicot Require Import Coquelicot.
From Verif Require Import Base SpecMulti SpecPoly SpecQuad SpecExpansion SpecMaps SpecFactory MISetModel FixedSetModel PolyModel PolyProofs LinProofs PropPoly
  BijModel ExpansionModel PropExpansion QuadModel QuadCC PropQuad RootModel MonoModel MapsModel LeafModel MapsContract MapsProofs TruthProofs LeafProofs PropMaps PropLeaf FactoryModel.
Import ListNotations.
Local Open Scope R_scope.

Definition small (n : nat) : Prop := (N.of_nat n < 4294967296)%N.
Lemma u32_id n : small n -> u32 (N.of_nat n) = n.
Proof. intros H. unfold u32. rewrite N.mod_small by exact H. apply Nat2N.id. Qed.
Lemma u32_sub_ok a b : small a -> (b <= a)%nat -> u32_sub a b = (a - b)%nat.
Proof.
  unfold small. intros H L. unfold u32_sub, u32. replace (N.of_nat a + 4294967296 - N.of_nat b)%N with (N.of_nat (a - b) + 1 * 4294967296)%N by lia.
  rewrite N.mod_add by discriminate. rewrite N.mod_small by lia. apply Nat2N.id.
Qed.

(** ** CreateSingleEntryMap *)
Lemma coord_vadd a b j : length a = length b -> coord (vadd a b) j = coord a j + coord b j.
Proof.
  unfold coord. revert b j. induction a as [|x a IH]; intros [|y b] j L; try discriminate; [destruct j; cbn; ring|].
  destruct j as [|j]; [reflexivity|]. cbn. apply IH. cbn in L. lia.
Qed.
Lemma coord_zeros n j : coord (zeros n) j = 0.
Proof. unfold coord, zeros. destruct (Nat.lt_ge_cases j n); [apply nth_repeat|apply nth_overflow; rewrite repeat_length; lia]. Qed.
Lemma coord_extend n a j : coord (extend n a) j = coord a j.
Proof.
  unfold extend, coord. destruct (Nat.lt_ge_cases j (length a)); [apply app_nth1; auto|]. rewrite app_nth2 by lia.
  rewrite (nth_overflow a) by lia. apply coord_zeros.
Qed.
Lemma coord_firstn' k (a : list R) j : coord (firstn k a) j = if (j <? k)%nat then coord a j else 0.
Proof.
  unfold coord. destruct (Nat.ltb_spec j k).
  - revert a k H. induction j as [|j IH]; intros [|x a] [|k] H; try reflexivity; try lia. cbn. apply IH. lia.
  - apply nth_overflow. rewrite firstn_length. lia.
Qed.
Lemma coord_app (a b : list R) j : coord (a ++ b) j = if (j <? length a)%nat then coord a j else coord b (j - length a).
Proof. unfold coord. destruct (Nat.ltb_spec j (length a)); [apply app_nth1|apply app_nth2]; auto. Qed.
Lemma list_coords (a : list R) n (f : nat -> R) : length a = n -> (forall j, (j < n)%nat -> coord a j = f j) -> a = map f (seq 0 n).
Proof.
  intros L H. apply (nth_ext _ _ 0 0); [rewrite map_length, seq_length; auto|]. intros j Hj. rewrite L in Hj. rewrite nth_map_seq by auto. apply H; auto.
Qed.

Lemma imp_eval_ext K P P' : p_in P' = p_in P -> p_out P' = p_out P -> p_nc P' = p_nc P ->
  (forall c x, length c = p_nc P -> length x = p_in P -> p_eval P c x = p_eval P' c x) -> imp_eval K P -> imp_eval K P'.
Proof.
  intros E1 E2 E3 H (D & I). unfold imp_eval, dims. rewrite E1, E2, E3. split; [exact D|]. intros c x old Lc Lx Lo. rewrite <- H by auto. auto.
Qed.
Lemma imp_logdet_ext K P P' : p_in P' = p_in P -> p_out P' = p_out P -> p_nc P' = p_nc P ->
  (forall c x, length c = p_nc P -> length x = p_in P -> p_logdet P c x = p_logdet P' c x) -> imp_logdet K P -> imp_logdet K P'.
Proof.
  intros E1 E2 E3 H (D & I). unfold imp_logdet, dims. rewrite E1, E2, E3. split; [exact D|]. intros c x old Lc Lx. rewrite <- H by auto. auto.
Qed.
Lemma imp_grad_ext K P P' : p_in P' = p_in P -> p_out P' = p_out P -> p_nc P' = p_nc P ->
  (forall c x s, length c = p_nc P -> length x = p_in P -> length s = p_out P -> p_grad P c x s = p_grad P' c x s) -> imp_grad K P -> imp_grad K P'.
Proof.
  intros E1 E2 E3 H (D & I). unfold imp_grad, dims. rewrite E1, E2, E3. split; [exact D|]. intros c x s old Lc Lx Ls Lo. rewrite <- H by auto. auto.
Qed.
Lemma imp_cgrad_ext K P P' : p_in P' = p_in P -> p_out P' = p_out P -> p_nc P' = p_nc P ->
  (forall c x s, length c = p_nc P -> length x = p_in P -> length s = p_out P -> p_cgrad P c x s = p_cgrad P' c x s) -> imp_cgrad K P -> imp_cgrad K P'.
Proof.
  intros E1 E2 E3 H (D & I). unfold imp_cgrad, dims. rewrite E1, E2, E3. split; [exact D|]. intros c x s old Lc Lx Ls Lo. rewrite <- H by auto. auto.
Qed.
Lemma imp_ldc_ext K P P' : p_in P' = p_in P -> p_out P' = p_out P -> p_nc P' = p_nc P ->
  (forall c x, length c = p_nc P -> length x = p_in P -> p_ldc P c x = p_ldc P' c x) -> imp_ldc K P -> imp_ldc K P'.
Proof.
  intros E1 E2 E3 H (D & I). unfold imp_ldc, dims. rewrite E1, E2, E3. split; [exact D|]. intros c x old Lc Lx Lo. rewrite <- H by auto. auto.
Qed.
Lemma imp_ldi_ext K P P' : p_in P' = p_in P -> p_out P' = p_out P -> p_nc P' = p_nc P ->
  (forall c x, length c = p_nc P -> length x = p_in P -> p_ldi P c x = p_ldi P' c x) -> imp_ldi K P -> imp_ldi K P'.
Proof.
  intros E1 E2 E3 H (D & I). unfold imp_ldi, dims. rewrite E1, E2, E3. split; [exact D|]. intros c x old Lc Lx Lo. rewrite <- H by auto. auto.
Qed.

(** The blocks around the active component. *)
Definition top (act : nat) : list pmap := if (act =? 1)%nat then [] else [id_pmap (act - 1) (act - 1)].
Definition bottom (dim act : nat) : list pmap := if ((act =? dim) && negb (act =? 1))%nat%bool then [] else [id_pmap dim (dim - act)].
Definition single_specs (dim act : nat) (P : pmap) : list pmap := top act ++ P :: bottom dim act.
Definition single_comps (dbg : bool) (dim act : nat) (K : cmap) : list cmap :=
  (if (act =? 1)%nat then [] else [id_map dbg (act - 1) (act - 1)]) ++ K ::
  (if ((act =? dim) && negb (act =? 1))%nat%bool then [] else [id_map dbg dim (dim - act)]).

Lemma single_ctor dbg dim act K : small dim -> (1 <= act <= dim)%nat -> m_in K = act -> m_out K = 1%nat ->
  CreateSingleEntryMap dbg dim act K = Ok (tri_map (single_comps dbg dim act K)) /\ tri_ctor (single_comps dbg dim act K) = Ok (tri_map (single_comps dbg dim act K)).
Proof.
  intros HS H HI HO. assert (SA : small act) by (unfold small in *; lia). unfold CreateSingleEntryMap, single_comps.
  destruct (Nat.ltb_spec dim act); [lia|]. rewrite HI, Nat.eqb_refl. cbn [negb]. rewrite !u32_sub_ok by (auto; lia).
  unfold tri_ctor. destruct (Nat.eqb_spec act 1) as [E1|N1].
  - rewrite Bool.andb_false_r. cbn [app forallb chained m_in m_out id_map]. rewrite HI, HO.
    destruct (Nat.leb_spec 1 act); [|lia]. destruct (Nat.leb_spec (dim - act) dim); [|lia]. destruct (Nat.eqb_spec dim (act + (dim - act))); [|lia]. auto.
  - destruct (Nat.eqb_spec act dim) as [E2|N2]; cbn [negb andb app forallb chained m_in m_out id_map]; rewrite HI, HO; rewrite Nat.leb_refl;
      (destruct (Nat.leb_spec 1 act); [|lia]); (destruct (Nat.eqb_spec act (act - 1 + 1)); [|lia]); cbn [andb]; auto.
    destruct (Nat.leb_spec (dim - act) dim); [|lia]. destruct (Nat.eqb_spec dim (act + (dim - act))); [|lia]. auto.
Qed.

Lemma single_forall2 (Q : cmap -> pmap -> Prop) dbg dim act K P : (1 <= act <= dim)%nat -> Q K P ->
  (forall n m, (m <= n)%nat -> Q (id_map dbg n m) (id_pmap n m)) -> Forall2 Q (single_comps dbg dim act K) (single_specs dim act P).
Proof.
  intros H HK HI. unfold single_comps, single_specs, top, bottom.
  apply Forall2_app; [destruct (act =? 1)%nat; constructor; auto|]. constructor; [exact HK|].
  destruct ((act =? dim) && negb (act =? 1))%nat%bool; constructor; auto. apply HI. lia.
Qed.

Section Single.
Variables (dim act : nat) (P : pmap).
Hypothesis Hact : (1 <= act <= dim)%nat.
Hypothesis Hin : p_in P = act.
Hypothesis Hout : p_out P = 1%nat.

Lemma top_nc : nsum p_nc (top act) = 0%nat. Proof. unfold top. destruct (act =? 1)%nat; reflexivity. Qed.
Lemma bottom_nc : nsum p_nc (bottom dim act) = 0%nat. Proof. unfold bottom. destruct ((act =? dim) && negb (act =? 1))%nat%bool; reflexivity. Qed.
Lemma nsum_app {A} (f : A -> nat) l l' : nsum f (l ++ l') = (nsum f l + nsum f l')%nat.
Proof. induction l as [|a l IH]; cbn; [reflexivity|]. rewrite IH. lia. Qed.
Lemma single_nc : nsum p_nc (single_specs dim act P) = p_nc P.
Proof. unfold single_specs. rewrite nsum_app, top_nc. cbn [nsum]. rewrite bottom_nc. lia. Qed.
Lemma single_out : nsum p_out (single_specs dim act P) = dim.
Proof.
  unfold single_specs. rewrite nsum_app. cbn [nsum]. rewrite Hout. unfold top, bottom. destruct (Nat.eqb_spec act 1) as [E|E].
  - rewrite Bool.andb_false_r. cbn. lia.
  - destruct (Nat.eqb_spec act dim); cbn; lia.
Qed.

Lemma bottom_eval c (x : list R) : length x = dim -> tri_eval (bottom dim act) c x = skipn act x.
Proof.
  intros L. unfold bottom. destruct ((act =? dim) && negb (act =? 1))%nat%bool eqn:E; cbn [tri_eval id_pmap p_eval p_in].
  - apply Bool.andb_true_iff in E. destruct E as (E & _). apply Nat.eqb_eq in E. rewrite skipn_all2 by lia. reflexivity.
  - rewrite app_nil_r, firstn_all2 by lia. f_equal. lia.
Qed.
Lemma single_eval c (x : list R) : length x = dim -> length c = p_nc P ->
  tri_eval (single_specs dim act P) c x = firstn (act - 1) x ++ p_eval P c (firstn act x) ++ skipn act x.
Proof.
  intros L Lc. assert (A : tri_eval (P :: bottom dim act) c x = p_eval P c (firstn act x) ++ skipn act x).
  { cbn [tri_eval]. rewrite bottom_eval by auto. rewrite Hin, firstn_all2 by lia. reflexivity. }
  unfold single_specs, top. destruct (Nat.eqb_spec act 1) as [E|E]; cbn [app]; [rewrite A, E; reflexivity|].
  change (tri_eval (id_pmap (act - 1) (act - 1) :: P :: bottom dim act) c x) with
    (skipn (act - 1 - (act - 1)) (firstn (act - 1) x) ++ tri_eval (P :: bottom dim act) (skipn 0 c) x).
  rewrite Nat.sub_diag, !skipn_O, A. reflexivity.
Qed.
Lemma bottom_logdet c (x : list R) : tri_logdet (bottom dim act) c x = 0.
Proof. unfold bottom. destruct ((act =? dim) && negb (act =? 1))%nat%bool; cbn; ring. Qed.
Lemma single_logdet c (x : list R) : length c = p_nc P -> tri_logdet (single_specs dim act P) c x = p_logdet P c (firstn act x).
Proof.
  intros Lc. assert (A : tri_logdet (P :: bottom dim act) c x = p_logdet P c (firstn act x)).
  { cbn [tri_logdet]. rewrite bottom_logdet, Hin, firstn_all2 by lia. ring. }
  unfold single_specs, top. destruct (act =? 1)%nat; cbn [app]; [exact A|].
  change (tri_logdet (id_pmap (act - 1) (act - 1) :: P :: bottom dim act) c x) with (0 + tri_logdet (P :: bottom dim act) (skipn 0 c) x).
  rewrite skipn_O, A. ring.
Qed.
Lemma bottom_grad c (x s : list R) : length s = (dim - act)%nat -> tri_grad (bottom dim act) dim c x s = zeros act ++ s.
Proof.
  intros Ls. unfold bottom. destruct ((act =? dim) && negb (act =? 1))%nat%bool eqn:E; cbn [tri_grad id_pmap p_grad p_in p_out].
  - apply Bool.andb_true_iff in E. destruct E as (E & _). apply Nat.eqb_eq in E. destruct s; [|cbn in Ls; lia]. rewrite app_nil_r. congruence.
  - rewrite (firstn_all2 s) by lia. replace (dim - (dim - act))%nat with act by lia.
    assert (LZ : length (zeros act ++ s) = dim) by (rewrite app_length; unfold zeros; rewrite repeat_length; lia).
    unfold extend. rewrite LZ, Nat.sub_diag. cbn [zeros repeat]. rewrite app_nil_r.
    apply (nth_ext _ _ 0 0).
    + rewrite vadd_length, LZ; [lia|]. rewrite LZ. unfold zeros. now rewrite repeat_length.
    + intros j _. change (coord (vadd (zeros act ++ s) (zeros dim)) j = coord (zeros act ++ s) j). rewrite coord_vadd.
      * rewrite (coord_zeros dim). ring.
      * rewrite LZ. unfold zeros. now rewrite repeat_length.
Qed.
Lemma zeros_length n : length (zeros n) = n. Proof. apply repeat_length. Qed.
Lemma single_grad c (x s : list R) : length x = dim -> length c = p_nc P -> length s = dim ->
  length (p_grad P c (firstn act x) [coord s (act - 1)]) = act ->
  tri_grad (single_specs dim act P) dim c x s =
  map (fun j => (if (j <? act)%nat then coord (p_grad P c (firstn act x) [coord s (act - 1)]) j else 0) + (if (j =? act - 1)%nat then 0 else coord s j)) (seq 0 dim).
Proof.
  intros Lx Lc Ls LG. set (g := p_grad P c (firstn act x) [coord s (act - 1)]) in *.
  assert (A : forall s', length s' = S (dim - act) -> coord s' 0 = coord s (act - 1) ->
    tri_grad (P :: bottom dim act) dim c x s' = vadd (extend dim g) (zeros act ++ skipn 1 s')).
  { intros s' L' E'. cbn [tri_grad]. rewrite bottom_grad by (auto; rewrite skipn_length, Hout; lia). rewrite Hin, Hout, (firstn_all2 c) by lia.
    destruct s' as [|a s']; [discriminate|]. cbn [firstn]. unfold coord at 1 in E'. cbn [nth] in E'. rewrite E'. reflexivity. }
  assert (SK : forall k, length (skipn k s) = (dim - k)%nat) by (intros; rewrite skipn_length; lia).
  assert (B : tri_grad (P :: bottom dim act) dim c x (skipn (act - 1) s) = vadd (extend dim g) (zeros act ++ skipn act s)).
  { rewrite A; [|rewrite SK; lia|rewrite coord_skipn; f_equal; lia]. do 2 f_equal. rewrite ComposedProofs.skipn_skipn. f_equal. lia. }
  assert (LE : length (extend dim g) = dim) by (apply extend_length; lia).
  assert (LZ : length (zeros act ++ skipn act s) = dim) by (rewrite app_length, zeros_length, SK; lia).
  assert (LB : length (vadd (extend dim g) (zeros act ++ skipn act s)) = dim) by (rewrite vadd_length; lia).
  assert (CB : forall j, (j < dim)%nat -> coord (vadd (extend dim g) (zeros act ++ skipn act s)) j =
     (if (j <? act)%nat then coord g j else 0) + (if (j <? act)%nat then 0 else coord s j)).
  { intros j Hj. rewrite coord_vadd by lia. rewrite coord_extend, coord_app, zeros_length. destruct (Nat.ltb_spec j act).
    - now rewrite coord_zeros.
    - f_equal; [unfold coord; apply nth_overflow; lia|]. rewrite coord_skipn. f_equal. lia. }
  unfold single_specs, top. destruct (Nat.eqb_spec act 1) as [E|E]; cbn [app].
  - replace s with (skipn (act - 1) s) at 1 by (rewrite E; reflexivity). rewrite B. apply list_coords; [exact LB|]. intros j Hj. rewrite CB by auto.
    f_equal. destruct (Nat.ltb_spec j act), (Nat.eqb_spec j (act - 1)); auto; lia.
  - change (tri_grad (id_pmap (act - 1) (act - 1) :: P :: bottom dim act) dim c x s) with
      (vadd (extend dim (zeros (act - 1 - (act - 1)) ++ firstn (act - 1) s)) (tri_grad (P :: bottom dim act) dim (skipn 0 c) x (skipn (act - 1) s))).
    rewrite skipn_O, B, Nat.sub_diag. cbn [zeros repeat app].
    assert (LF : length (extend dim (firstn (act - 1) s)) = dim) by (apply extend_length; rewrite firstn_length; lia).
    apply list_coords; [rewrite vadd_length; lia|]. intros j Hj. rewrite coord_vadd by lia. rewrite CB by auto. rewrite coord_extend, coord_firstn'.
    destruct (Nat.ltb_spec j act), (Nat.ltb_spec j (act - 1)), (Nat.eqb_spec j (act - 1)); try lia; ring.
Qed.
Lemma bottom_cgrad c (x s : list R) : tri_cgrad (bottom dim act) c x s = [].
Proof. unfold bottom. destruct ((act =? dim) && negb (act =? 1))%nat%bool; reflexivity. Qed.
Lemma single_cgrad c (x s : list R) : length c = p_nc P -> length s = dim ->
  tri_cgrad (single_specs dim act P) c x s = p_cgrad P c (firstn act x) [coord s (act - 1)].
Proof.
  intros Lc Ls. assert (A : forall s', (0 < length s')%nat -> coord s' 0 = coord s (act - 1) -> tri_cgrad (P :: bottom dim act) c x s' = p_cgrad P c (firstn act x) [coord s (act - 1)]).
  { intros s' L' E'. cbn [tri_cgrad]. rewrite bottom_cgrad, Hin, Hout, firstn_all2, app_nil_r by lia. destruct s' as [|a s']; [cbn in L'; lia|].
    cbn [firstn]. unfold coord at 1 in E'. cbn [nth] in E'. rewrite E'. reflexivity. }
  unfold single_specs, top. destruct (Nat.eqb_spec act 1) as [E|E]; cbn [app].
  - apply A; [lia|]. rewrite E. reflexivity.
  - change (tri_cgrad (id_pmap (act - 1) (act - 1) :: P :: bottom dim act) c x s) with (tri_cgrad (P :: bottom dim act) (skipn 0 c) x (skipn (act - 1) s)).
    rewrite skipn_O. apply A; [rewrite skipn_length; lia|]. rewrite coord_skipn. f_equal. lia.
Qed.
Lemma bottom_ldc c (x : list R) : tri_ldc (bottom dim act) c x = [].
Proof. unfold bottom. destruct ((act =? dim) && negb (act =? 1))%nat%bool; reflexivity. Qed.
Lemma single_ldc c (x : list R) : length c = p_nc P -> tri_ldc (single_specs dim act P) c x = p_ldc P c (firstn act x).
Proof.
  intros Lc. assert (A : tri_ldc (P :: bottom dim act) c x = p_ldc P c (firstn act x)).
  { cbn [tri_ldc]. rewrite bottom_ldc, Hin, firstn_all2, app_nil_r by lia. reflexivity. }
  unfold single_specs, top. destruct (act =? 1)%nat; cbn [app]; [exact A|]. exact A.
Qed.
Lemma vadd_zeros_r a n : length a = n -> vadd a (zeros n) = a.
Proof. revert n. induction a as [|x a IH]; intros [|n] L; try discriminate; [reflexivity|]. cbn. rewrite Rplus_0_r. f_equal. apply IH. cbn in L. lia. Qed.
Lemma vadd_zeros_l a n : length a = n -> vadd (zeros n) a = a.
Proof. revert n. induction a as [|x a IH]; intros [|n] L; try discriminate; [reflexivity|]. cbn. rewrite Rplus_0_l. f_equal. apply IH. cbn in L. lia. Qed.
Lemma extend_zeros k n : (k <= n)%nat -> extend n (zeros k) = zeros n.
Proof. intros H. unfold extend. rewrite zeros_length. unfold zeros. rewrite <- repeat_app. f_equal. lia. Qed.
Lemma bottom_ldi c (x : list R) : tri_ldi (bottom dim act) dim c x = zeros dim.
Proof.
  unfold bottom. destruct ((act =? dim) && negb (act =? 1))%nat%bool; [reflexivity|]. cbn [tri_ldi id_pmap p_ldi].
  rewrite extend_zeros by lia. apply vadd_zeros_r, zeros_length.
Qed.
Lemma single_ldi c (x : list R) : length c = p_nc P -> length (p_ldi P c (firstn act x)) = act ->
  tri_ldi (single_specs dim act P) dim c x = map (fun j => if (j <? act)%nat then coord (p_ldi P c (firstn act x)) j else 0) (seq 0 dim).
Proof.
  intros Lc LG. set (g := p_ldi P c (firstn act x)) in *. assert (LE : length (extend dim g) = dim) by (apply extend_length; lia).
  assert (A : tri_ldi (P :: bottom dim act) dim c x = extend dim g).
  { cbn [tri_ldi]. rewrite bottom_ldi, Hin, firstn_all2 by lia. apply vadd_zeros_r. exact LE. }
  assert (B : tri_ldi (single_specs dim act P) dim c x = extend dim g).
  { unfold single_specs, top. destruct (act =? 1)%nat; cbn [app]; [exact A|].
    change (tri_ldi (id_pmap (act - 1) (act - 1) :: P :: bottom dim act) dim c x) with (vadd (extend dim (zeros (act - 1))) (tri_ldi (P :: bottom dim act) dim (skipn 0 c) x)).
    rewrite skipn_O, A, extend_zeros by lia. apply vadd_zeros_l. exact LE. }
  rewrite B. apply list_coords; [exact LE|]. intros j Hj. rewrite coord_extend. destruct (Nat.ltb_spec j act); [reflexivity|]. unfold coord. apply nth_overflow. lia.
Qed.
End Single.
