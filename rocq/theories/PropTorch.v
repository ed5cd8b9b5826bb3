(** C75: the PyTorch layers. *)
From Coq Require Import Reals List Lia Lra Nnat NArith Permutation.
From Coquelicot Require Import Coquelicot.
From Verif Require Import Base SpecMulti SpecCount SpecExpansion SpecQuad SpecMono SpecMaps SpecMonoMap SpecFactory SpecDensity SpecGauss SpecTorch ExpansionModel PropExpansion RootModel MonoModel PropMono
  MapsModel LeafModel MapsContract MapsProofs LeafProofs TruthProofs DetProofs MonoMap MonoTrue FactoryModel FactoryBasis PropBuild PropDisc
  ReduceModel GaussModel GaussProofs PropGauss DensityModel DensityProofs PropDensity ObjectiveModel PropObjective PropTrue TorchModel.
Import ListNotations.
Local Open Scope R_scope.

(** What a layer needs of the map: values and gradients, and for layers with log determinants those too. *)
Record layer_map (K : cmap) (P : pmap) (logdet : bool) : Prop := {
  lm_eval : imp_eval K P; lm_grad : imp_grad K P; lm_cgrad : imp_cgrad K P;
  lm_logdet : logdet = true -> imp_logdet K P /\ imp_ldc K P /\ imp_ldi K P }.
(** Points of the right dimension; weights of the right shape. *)
Definition points (n : nat) (x : list (list R)) : Prop := Forall (fun p => length p = n) x.
(** The weights of the outputs the backward pass is given: zero for outputs the loss does not use. *)
Definition value_weights (m n : nat) (s : option (list (list R))) : list (list R) := match s with Some s => s | None => repeat (zeros m) n end.
Definition logdet_weights (logdet : bool) (n : nat) (l : option (list R)) : list (option R) :=
  if logdet then map Some (match l with Some l => l | None => zeros n end) else repeat None n.

(** ** Lists *)
Lemma cols0_cols r n : points r (cols0 r n).
Proof. apply Forall_forall. intros c H. apply repeat_spec in H. subst. apply repeat_length. Qed.
Lemma cols0_len r n : length (cols0 r n) = n.
Proof. apply repeat_length. Qed.
Lemma combine_axpy k : forall a b, map (fun p => fst p + k * snd p) (combine a b) = vadd a (map (Rmult k) b).
Proof. induction a as [|u a IH]; intros [|v b]; cbn; try reflexivity. rewrite IH. reflexivity. Qed.
Lemma tadd_vadd : forall a b, tadd a b = vadd a b.
Proof. unfold tadd. induction a as [|u a IH]; intros [|v b]; cbn; try reflexivity. rewrite IH. reflexivity. Qed.
Lemma terms_none {A} (f : list R -> list R -> option R -> A) : forall x s, length s = length x -> terms f x s (repeat None (length x)) = map (fun p => f (fst p) (snd p) None) (combine x s).
Proof. induction x as [|p x IH]; intros [|q s] L; try discriminate; cbn; auto. rewrite IH by auto. reflexivity. Qed.
Lemma terms_length {A} (f : list R -> list R -> option R -> A) : forall x s l, length s = length x -> length l = length x -> length (terms f x s l) = length x.
Proof. induction x as [|p x IH]; intros [|q s] [|k l] L1 L2; try discriminate; cbn; auto. Qed.
Lemma add_scaled_terms (g : list R -> list R -> list R) (d : list R -> list R) : forall x s l, length s = length x -> length l = length x ->
  add_scaled (map (fun p => g (fst p) (snd p)) (combine x s)) (map d x) l = terms (fun x s o => plus_times (g x s) o (d x)) x s (map Some l).
Proof.
  induction x as [|p x IH]; intros [|q s] [|k l] L1 L2; try discriminate; auto. cbn [combine map fst snd add_scaled terms plus_times]. rewrite combine_axpy, IH by auto. reflexivity.
Qed.
Lemma coord_vadd : forall a b i, length a = length b -> coord (vadd a b) i = coord a i + coord b i.
Proof.
  induction a as [|u a IH]; intros [|v b] i L; try discriminate; [unfold coord; destruct i; cbn; lra|]. destruct i as [|i]; [reflexivity|].
  change (coord (vadd (u :: a) (v :: b)) (S i)) with (coord (vadd a b) i). rewrite IH by auto. reflexivity.
Qed.
Lemma sum_add n : forall (a b : list (list R)) (l : list (list R)), length a = length l -> length b = length l ->
  (forall j, (j < length l)%nat -> nth j l [] = vadd (nth j a []) (nth j b []) /\ length (nth j a []) = n /\ length (nth j b []) = n) ->
  tadd (row_sums n a) (row_sums n b) = sum_vecs n l.
Proof.
  intros a b l La Lb H. unfold tadd, row_sums, sum_vecs.
  assert (X : forall (f g h : nat -> R) k, (forall i, In i (seq k n) -> f i + g i = h i) -> map (fun p => fst p + snd p) (combine (map f (seq k n)) (map g (seq k n))) = map h (seq k n)).
  { clear. intros f g h. induction n as [|m IH]; intros k Hh; auto. cbn [seq map combine fst snd]. rewrite Hh by (left; auto). f_equal. apply IH. intros i Hi. apply Hh. right. exact Hi. }
  apply X. intros i _. clear X. revert a b La Lb H. induction l as [|v l IH]; intros [|u a] [|w b] La Lb H; try discriminate; [cbn; lra|].
  cbn [map fold_right lsum]. destruct (H 0%nat ltac:(cbn; lia)) as (E & E1 & E2). cbn [nth] in E, E1, E2. rewrite E, coord_vadd by congruence.
  rewrite <- (IH a b) by (cbn in La, Lb; try lia; intros j Hj; apply (H (S j)); cbn; lia). unfold coord. lra.
Qed.
Lemma row_sums_sum n l : row_sums n l = sum_vecs n l.
Proof. unfold row_sums, sum_vecs. apply map_ext. intros i. induction l as [|v l IH]; cbn; [reflexivity|]. rewrite IH. reflexivity. Qed.
Lemma nth_combine_map {A} (f : list R -> list R -> A) (d : A) : forall x s j, length s = length x -> (j < length x)%nat -> nth j (map (fun p => f (fst p) (snd p)) (combine x s)) d = f (nth j x []) (nth j s []).
Proof. induction x as [|p x IH]; intros [|q s] j L Hj; try discriminate; [cbn in Hj; lia|]. destruct j as [|j]; auto. cbn [combine map nth]. apply IH; cbn in *; lia. Qed.
Lemma nth_terms {A} (f : list R -> list R -> option R -> A) (d : A) : forall x s l j, length s = length x -> length l = length x -> (j < length x)%nat -> nth j (terms f x s l) d = f (nth j x []) (nth j s []) (nth j l None).
Proof. induction x as [|p x IH]; intros [|q s] [|k l] j L1 L2 Hj; try discriminate; [cbn in Hj; lia|]. destruct j as [|j]; auto. cbn [terms nth]. apply IH; cbn in *; lia. Qed.
Lemma nth_scale : forall g l j, length l = length g -> (j < length g)%nat -> nth j (scale_cols g l) [] = map (Rmult (nth j l 0)) (nth j g []).
Proof. induction g as [|a g IH]; intros [|k l] j L Hj; try discriminate; [cbn in Hj; lia|]. destruct j as [|j]; auto. cbn [scale_cols nth]. apply IH; cbn in *; lia. Qed.
Lemma scale_len : forall g l, length l = length g -> length (scale_cols g l) = length g.
Proof. induction g as [|a g IH]; intros [|k l] L; try discriminate; cbn; auto. Qed.
Lemma points_nth n x j : points n x -> (j < length x)%nat -> length (nth j x []) = n.
Proof. intros H Hj. apply (proj1 (Forall_forall _ _) H). apply nth_In, Hj. Qed.

(** ** Installing the coefficients *)
Section Layer.
Variables (K : cmap) (P : pmap) (rnd : R -> R).

Lemma install_ok w id t : nth_error (w_ts w) id = Some t -> alive w id = true -> length (t_data t) = m_nc K ->
  exists w', install K w (Some id) = (w', true) /\ f_coeffs w' = Ok (t_data t) /\ w_nodes w' = w_nodes w /\ firstn (length (w_ts w)) (w_ts w') = w_ts w /\
    (t_f64 t = true -> w_f w' = At id) /\ (t_f64 t = false -> w_f w' = At (length (w_ts w))) /\ (exists l, w_ts w' = w_ts w ++ l /\ (t_f64 t = true -> l = [])).
Proof.
  intros Ht Ha Ld. unfold install, double_. rewrite Ht. destruct (t_f64 t).
  - unfold wrap, data_of. rewrite Ht, Ld, Nat.eqb_refl. eexists. split; [reflexivity|]. unfold f_coeffs, set_f. cbn [w_f w_ts w_nodes].
    change (alive (MkW (w_ts w) (At id) (w_nodes w)) id) with (alive w id). rewrite Ha. unfold data_of. cbn [w_ts]. rewrite Ht, firstn_all. repeat (split; auto); [discriminate|]. exists []. rewrite app_nil_r. auto.
  - assert (N : nth_error (w_ts w ++ [MkT (t_data t) true false 0 true]) (length (w_ts w)) = Some (MkT (t_data t) true false 0 true)) by (rewrite nth_error_app2, Nat.sub_diag by auto; reflexivity).
    unfold wrap, data_of. cbn [w_ts]. rewrite N. cbn [t_data]. rewrite Ld, Nat.eqb_refl. eexists. split; [reflexivity|].
    unfold f_coeffs, set_f, alive, data_of. cbn [w_f w_ts w_nodes]. rewrite N. cbn [t_user t_data orb]. rewrite firstn_app, Nat.sub_diag, firstn_all, app_nil_r. repeat (split; auto); try discriminate. eexists. split; [reflexivity|discriminate].
Qed.
Lemma leave_nth n w i : (i < n)%nat -> nth_error (w_ts (leave n w)) i = nth_error (w_ts w) i.
Proof.
  intros Hi. unfold leave. cbn [w_ts]. destruct (Nat.lt_ge_cases i (length (firstn n (w_ts w)))) as [H|H].
  - rewrite nth_error_app1 by exact H. rewrite <- (firstn_skipn n (w_ts w)) at 2. rewrite nth_error_app1 by exact H. reflexivity.
  - rewrite firstn_length in H. assert (Hl : (length (w_ts w) <= i)%nat) by lia. rewrite (proj2 (nth_error_None (w_ts w) i)) by exact Hl. apply nth_error_None.
    rewrite app_length, firstn_length, map_length, skipn_length. lia.
Qed.

(** ** Forward *)
Lemma forward_ok w c x f64 logdet : layer_map K P logdet -> f_coeffs w = Ok c -> length c = p_nc P -> points (p_in P) x ->
  forward_values K rnd w x f64 logdet = Ok (map (fun p => map (cast rnd f64) (p_eval P c p)) x, if logdet then Some (map (fun p => Fin (cast rnd f64 (p_logdet P c p))) x) else None).
Proof.
  intros [[D E1] _ _ EL] Hc Lc Hx. unfold forward_values. rewrite Hc. cbn [obind]. assert (EO : m_out K = p_out P) by apply D. rewrite EO.
  rewrite (each_ok (m_eval K c) (p_eval P c) (p_in P) (p_out P)); [|intros p o Lp Lo; apply E1; auto|exact Hx|apply cols0_cols|apply cols0_len].
  cbn [obind]. rewrite map_map. destruct logdet; [|reflexivity]. destruct (EL eq_refl) as ((_ & E2) & _).
  rewrite (each_logdet_ok (m_logdet K c) (p_logdet P c) (p_in P)); [|intros p o Lp; apply E2; auto|exact Hx]. cbn [obind]. rewrite map_map. reflexivity.
Qed.

(** ** Backward *)
Lemma backward_ok w c N cg s l : layer_map K P (match l with Some _ => true | None => false end) -> f_coeffs w = Ok c -> length c = p_nc P -> points (p_in P) (n_x N) -> points (p_out P) s -> length s = length (n_x N) ->
  (forall k, l = Some k -> length k = length (n_x N)) ->
  let ls := match l with Some l => map Some l | None => repeat None (length (n_x N)) end in
  backward_values K rnd w N cg s l = Ok (if n_xgrad N then Some (map (map (cast rnd (n_f64 N))) (back_inputs P c s ls (n_x N))) else None,
    if cg then Some (map (cast rnd (n_f64 N)) (back_coeffs P c s ls (n_x N))) else None).
Proof.
  intros [[(DI & DO & DC) _] [_ EG] [_ EC] EL] Hc Lc Hx Hs Ls Ll ls. unfold backward_values. rewrite Hc. cbn [obind]. rewrite DI, DC. set (x := n_x N) in *.
  assert (G : each2 (m_grad K c) x s (cols0 (p_in P) (length x)) = Ok (map (fun p => p_grad P c (fst p) (snd p)) (combine x s))).
  { apply (each2_ok (m_grad K c) (p_grad P c) (p_in P) (p_out P) (p_in P)); auto; [intros; apply EG; auto|apply cols0_cols|apply cols0_len]. }
  assert (C : each2 (m_cgrad K c) x s (cols0 (p_nc P) (length x)) = Ok (map (fun p => p_cgrad P c (fst p) (snd p)) (combine x s))).
  { apply (each2_ok (m_cgrad K c) (p_cgrad P c) (p_in P) (p_out P) (p_nc P)); auto; [intros; apply EC; auto|apply cols0_cols|apply cols0_len]. }
  destruct l as [l|].
  - destruct (EL eq_refl) as (_ & (_ & E1) & (_ & E2)). specialize (Ll l eq_refl).
    assert (G2 : each (m_ldi K c) x (cols0 (p_in P) (length x)) = Ok (map (p_ldi P c) x)).
    { apply (each_ok (m_ldi K c) (p_ldi P c) (p_in P) (p_in P)); auto; [intros; apply E2; auto|apply cols0_cols|apply cols0_len]. }
    assert (C2 : each (m_ldc K c) x (cols0 (p_nc P) (length x)) = Ok (map (p_ldc P c) x)).
    { apply (each_ok (m_ldc K c) (p_ldc P c) (p_in P) (p_nc P)); auto; [intros; apply E1; auto|apply cols0_cols|apply cols0_len]. }
    assert (S : forall (xg : bool), (if xg then do g <- each2 (m_grad K c) x s (cols0 (p_in P) (length x)); do g2 <- each (m_ldi K c) x (cols0 (p_in P) (length x)); Ok (Some (add_scaled g g2 l)) else Ok None)
      = Ok (if xg then Some (back_inputs P c s ls x) else None)).
    { intros [|]; auto. rewrite G. cbn [obind]. rewrite G2. cbn [obind]. do 2 f_equal. apply add_scaled_terms; auto. }
    cbn beta iota. rewrite S. cbn [obind]. destruct cg; [|cbn [obind]; destruct (n_xgrad N); reflexivity]. rewrite C. cbn [obind]. rewrite C2. cbn [obind].
    assert (S2 : tadd (row_sums (p_nc P) (map (fun p => p_cgrad P c (fst p) (snd p)) (combine x s))) (row_sums (p_nc P) (scale_cols (map (p_ldc P c) x) l)) = back_coeffs P c s ls x).
    { unfold back_coeffs. apply sum_add.
      - rewrite map_length, combine_length, terms_length; auto; [lia|unfold ls; rewrite map_length; auto].
      - rewrite scale_len; rewrite map_length; auto. rewrite terms_length; auto. unfold ls. rewrite map_length. auto.
      - intros j Hj. rewrite terms_length in Hj; auto; [|unfold ls; rewrite map_length; auto]. rewrite (nth_terms _ []); auto; [|unfold ls; rewrite map_length; auto].
        rewrite (nth_combine_map (p_cgrad P c)); auto. rewrite nth_scale by (rewrite map_length; auto). unfold ls.
        rewrite (nth_indep _ None (Some 0)) by (rewrite map_length; lia). rewrite map_nth. rewrite (nth_indep (map (p_ldc P c) x) [] (p_ldc P c [])) by (rewrite map_length; lia). rewrite map_nth. cbn [plus_times].
        split; [reflexivity|]. split; [apply (EC c (nth j x []) (nth j s []) (zeros (p_nc P))); auto; try (apply points_nth; auto; lia); apply repeat_length|]. rewrite map_length. apply (E1 c (nth j x []) (zeros (p_nc P))); auto; [apply points_nth; auto|apply repeat_length]. }
    rewrite S2. destruct (n_xgrad N); reflexivity.
  - unfold ls. destruct (n_xgrad N); [rewrite G|]; cbn [obind]; (destruct cg; [rewrite C|]; cbn [obind option_map]); unfold back_inputs, back_coeffs; rewrite ?terms_none by auto; rewrite ?row_sums_sum; reflexivity.
Qed.

Lemma saved_alive w id k N : nth_error (w_nodes w) k = Some N -> n_c N = Some id -> n_live N = true -> (id < length (w_ts w))%nat -> alive w id = true.
Proof.
  intros Hk Hc Hl Hi. unfold alive. destruct (nth_error (w_ts w) id) eqn:E; [|apply nth_error_None in E; lia].
  apply Bool.orb_true_iff. right. apply existsb_exists. exists N. split; [eapply nth_error_In, Hk|]. unfold saves. rewrite Hl, Hc, Nat.eqb_refl. reflexivity.
Qed.

(** ** What other calls leave alone *)
Definition tle (t t' : tensor) : Prop :=
  t_f64 t' = t_f64 t /\ t_grad t' = t_grad t /\ length (t_data t') = length (t_data t) /\ (t_version t <= t_version t')%nat /\ (t_version t' = t_version t -> t_data t' = t_data t).
Definition nle (N N' : node) : Prop :=
  n_x N' = n_x N /\ n_f64 N' = n_f64 N /\ n_xgrad N' = n_xgrad N /\ n_c N' = n_c N /\ n_version N' = n_version N /\ n_logdet N' = n_logdet N.
Definition wle (w w' : world) : Prop :=
  (forall i t, nth_error (w_ts w) i = Some t -> exists t', nth_error (w_ts w') i = Some t' /\ tle t t') /\
  (forall k N, nth_error (w_nodes w) k = Some N -> exists N', nth_error (w_nodes w') k = Some N' /\ nle N N').
Lemma tle_refl t : tle t t. Proof. unfold tle. auto. Qed.
Lemma nle_refl N : nle N N. Proof. unfold nle. repeat split. Qed.
Lemma wle_refl w : wle w w.
Proof. split; eauto using tle_refl, nle_refl. Qed.
Lemma wle_trans a b c : wle a b -> wle b c -> wle a c.
Proof.
  intros [A1 A2] [B1 B2]. split.
  - intros i t H. destruct (A1 i t H) as (t' & H' & (X1 & X2 & X3 & X4 & X5)). destruct (B1 i t' H') as (t'' & H'' & (Y1 & Y2 & Y3 & Y4 & Y5)). exists t''. split; auto.
    unfold tle. repeat split; try congruence; [lia|]. intros E. rewrite Y5 by lia. apply X5. lia.
  - intros k N H. destruct (A2 k N H) as (N' & H' & (X1 & X2 & X3 & X4 & X5 & X6)). destruct (B2 k N' H') as (N'' & H'' & (Y1 & Y2 & Y3 & Y4 & Y5 & Y6)). exists N''. split; auto. unfold nle. repeat split; congruence.
Qed.
Lemma wle_grow w w' l : (exists m, w_ts w' = w_ts w ++ m) -> w_nodes w' = w_nodes w ++ l -> wle w w'.
Proof.
  intros (m & E1) E2. split; [intros i t H; exists t|intros k N H; exists N]; (split; [|apply tle_refl || apply nle_refl]); rewrite ?E1, ?E2; rewrite nth_error_app1; auto; apply nth_error_Some; congruence.
Qed.
Lemma install_grow w c : exists m, w_ts (fst (install K w c)) = w_ts w ++ m.
Proof.
  destruct c as [id|]; [|exists []; rewrite app_nil_r; reflexivity]. unfold install, double_. destruct (nth_error (w_ts w) id) as [t|]; [destruct (t_f64 t)|].
  all: unfold wrap; match goal with |- context [if ?b then _ else _] => destruct b end; cbn [fst set_f w_ts]; (eexists; reflexivity) || (exists []; rewrite app_nil_r; reflexivity).
Qed.
Lemma install_nodes w c : w_nodes (fst (install K w c)) = w_nodes w.
Proof.
  destruct c as [id|]; [|reflexivity]. unfold install, double_. destruct (nth_error (w_ts w) id) as [t|]; [destruct (t_f64 t)|]; unfold wrap; match goal with |- context [if ?b then _ else _] => destruct b end; reflexivity.
Qed.
Lemma leave_grow w w' : (exists m, w_ts w' = w_ts w ++ m) -> exists m, w_ts (leave (length (w_ts w)) w') = w_ts w ++ m.
Proof. intros (m & E). unfold leave. cbn [w_ts]. rewrite E, firstn_app, Nat.sub_diag, firstn_all, app_nil_r. eexists. reflexivity. Qed.
Lemma apply_le w x f64 xg c ld : wle w (fst (apply_ K rnd w x f64 xg c ld)).
Proof.
  unfold apply_. pose proof (install_grow w c) as G. pose proof (install_nodes w c) as N. destruct (install K w c) as [w' ok]. cbn [fst] in *. apply leave_grow in G. destruct G as (m & G).
  destruct ok; [destruct (answer_of _)|]; cbn [fst]; [apply (wle_grow _ _ [MkNode x f64 xg c (match c with Some id => match nth_error (w_ts w') id with Some t => t_version t | None => 0%nat end | None => 0%nat end) ld true])|apply (wle_grow _ _ [])..];
    cbn [w_ts w_nodes]; try (exists m; exact G); cbn [leave w_nodes]; rewrite N, ?app_nil_r; reflexivity.
Qed.
Lemma upd_nodes_le w k N N' ts f : nth_error (w_nodes w) k = Some N -> nle N N' -> (exists m, ts = w_ts w ++ m) -> wle w (MkW ts f (upd (w_nodes w) k N')).
Proof.
  intros Hk HN (m & Hm). split; cbn [w_ts w_nodes].
  - intros i t H. exists t. split; [|apply tle_refl]. rewrite Hm, nth_error_app1; auto. apply nth_error_Some. congruence.
  - intros j M H. destruct (Nat.eq_dec j k) as [->|Hj].
    + exists N'. rewrite Hk in H. injection H as <-. split; [|exact HN]. apply nth_error_upd_eq. apply nth_error_Some. congruence.
    + exists M. split; [|apply nle_refl]. rewrite nth_error_upd_neq; auto.
Qed.
Lemma backward_le w k s l ret : wle w (fst (backward_ K rnd w k s l ret)).
Proof.
  unfold backward_. destruct (nth_error (w_nodes w) k) as [N|] eqn:EN; [|apply wle_refl]. destruct (negb (n_live N)); [apply wle_refl|].
  destruct (match match n_c N with Some id => nth_error (w_ts w) id | None => None end with Some t => negb (t_version t =? n_version N)%nat | None => false end); [apply wle_refl|].
  pose proof (install_grow w (n_c N)) as G. pose proof (install_nodes w (n_c N)) as Nn. destruct (install K w (n_c N)) as [w' ok]. cbn [fst] in *. apply leave_grow in G.
  destruct ok.
  - match goal with |- wle _ (fst (match ?r with Returned _ => _ | Raised => _ | Undefined => _ end)) => destruct r end; cbn [fst].
    + cbn [leave w_nodes]. rewrite Nn. eapply upd_nodes_le; [exact EN|unfold nle; cbn; auto 10|exact G].
    + apply (wle_grow _ _ []); auto. cbn [leave w_nodes]. rewrite Nn, app_nil_r. reflexivity.
    + apply (wle_grow _ _ []); auto. cbn [leave w_nodes]. rewrite Nn, app_nil_r. reflexivity.
  - cbn [fst]. apply (wle_grow _ _ []); auto. cbn [leave w_nodes]. rewrite Nn, app_nil_r. reflexivity.
Qed.
Lemma set_t_le w id t t' : nth_error (w_ts w) id = Some t -> tle t t' -> wle w (set_t w id t').
Proof.
  intros Ht Hl. split; cbn [set_t w_ts w_nodes]; [|eauto using nle_refl]. intros i u H. destruct (Nat.eq_dec i id) as [->|Hi].
  - rewrite Ht in H. injection H as <-. exists t'. split; [|exact Hl]. apply nth_error_upd_eq. apply nth_error_Some. congruence.
  - exists u. split; [|apply tle_refl]. rewrite nth_error_upd_neq; auto.
Qed.
(** Everything a program may do between the passes, except setting the map's coefficients. *)
Definition sets_coeffs (e : event) : Prop := match e with MapSetCoeffs _ => True | _ => False end.
Lemma step_le w e : ~ sets_coeffs e -> wle w (step K rnd w e).
Proof.
  destruct e; intros H; cbn [step].
  - apply (wle_grow _ _ []); [eexists; reflexivity|]. cbn [w_nodes]. rewrite app_nil_r. reflexivity.
  - unfold in_place. destruct (nth_error (w_ts w) id) as [t|] eqn:E; [|apply wle_refl]. destruct (t_user t && (length d =? length (t_data t))%nat) eqn:B; [|apply wle_refl].
    apply Bool.andb_true_iff in B. destruct B as [_ B]. apply Nat.eqb_eq in B. apply (set_t_le _ _ t); auto. unfold tle. cbn. repeat split; auto; lia.
  - unfold forget. destruct (nth_error (w_ts w) id) as [t|] eqn:E; [|apply wle_refl]. apply (set_t_le _ _ t); auto. unfold tle, unname. cbn. auto.
  - unfold discard. destruct (nth_error (w_nodes w) k) as [N|] eqn:E; [|apply wle_refl]. eapply upd_nodes_le; [exact E|unfold nle; cbn; auto 10|exists []; rewrite app_nil_r; reflexivity].
  - apply apply_le.
  - apply backward_le.
  - unfold module_forward. destruct (choose_coeffs self arg); [|apply wle_refl]. destruct (checks && negb (shapes_ok K w x n)); [apply wle_refl|apply apply_le].
  - unfold module_inverse. destruct (choose_coeffs self arg) as [c|]; [|apply wle_refl]. pose proof (install_grow w (Some c)) as G. pose proof (install_nodes w (Some c)) as Nn. destruct (install K w (Some c)) as [w' ok].
    cbn [fst] in *. apply leave_grow in G. destruct ok; cbn [fst]; (apply (wle_grow _ _ []); [exact G|cbn [leave w_nodes]; rewrite Nn, app_nil_r; reflexivity]).
  - unfold make_module. destruct store; [|apply wle_refl]. destruct (f_coeffs w); try apply wle_refl. match goal with |- context [if ?b then _ else _] => destruct b end; [|apply wle_refl].
    cbn [fst]. apply (wle_grow _ _ []); [eexists; reflexivity|]. cbn [w_nodes]. rewrite app_nil_r. reflexivity.
  - apply wle_refl.
  - destruct (H I).
Qed.
Lemma run_le l : forall w, Forall (fun e => ~ sets_coeffs e) l -> wle w (run K rnd w l).
Proof.
  induction l as [|e l IH]; intros w H; [apply wle_refl|]. pose proof (Forall_inv H) as H1. pose proof (Forall_inv_tail H) as H2. cbn beta in H1. cbn [run fold_left]. apply (wle_trans _ (step K rnd w e)); [apply step_le, H1|]. apply IH, H2.
Qed.
End Layer.

(** The forward pass with coefficients: the map's values and log determinants at them, rounded to the dtype of the
    points; nothing else changes but the coefficients of the map. It leaves a node for the backward pass. *)
Theorem C75_forward : forall K P rnd w x f64 xgrad id t logdet, layer_map K P logdet -> nth_error (w_ts w) id = Some t -> alive w id = true -> length (t_data t) = p_nc P -> points (p_in P) x ->
  exists w', apply_ K rnd w x f64 xgrad (Some id) logdet =
    (w', Returned (map (fun p => map (cast rnd f64) (p_eval P (t_data t) p)) x, if logdet then Some (map (fun p => Fin (cast rnd f64 (p_logdet P (t_data t) p))) x) else None)) /\
    (forall i, (i < length (w_ts w))%nat -> nth_error (w_ts w') i = nth_error (w_ts w) i) /\
    w_nodes w' = w_nodes w ++ [MkNode x f64 xgrad (Some id) (t_version t) logdet true].
Proof.
  intros K P rnd w x f64 xgrad id t logdet HL Ht Ha Ld Hx. assert (DC : m_nc K = p_nc P) by apply HL. unfold apply_.
  destruct (install_ok K w id t Ht Ha ltac:(congruence)) as (w' & E & Ec & En & Ef & _ & _ & (l & El & _)). rewrite E. rewrite (forward_ok K P rnd w' _ x f64 logdet HL Ec Ld Hx). cbn [answer_of].
  assert (Hi : (id < length (w_ts w))%nat) by (apply nth_error_Some; congruence).
  assert (Ht' : nth_error (w_ts w') id = Some t) by (rewrite El, nth_error_app1 by exact Hi; exact Ht). rewrite Ht'.
  eexists. split; [reflexivity|]. cbn [w_ts w_nodes]. split; [|cbn [leave w_nodes]; rewrite En; reflexivity].
  intros i Hii. rewrite leave_nth by exact Hii. rewrite El, nth_error_app1; auto.
Qed.
Print Assumptions C75_forward.

Lemma meant_choose self arg id : meant self arg id <-> choose_coeffs self arg = Some id.
Proof.
  split; [intros []; reflexivity|]. destruct arg as [c|]; cbn [choose_coeffs]; intros H; [injection H as <-; constructor|subst self; constructor].
Qed.

(** The modules apply it to the tensor passed to the call, or to their parameter when none is passed; with neither they raise. *)
Theorem C75_module_forward : forall K P rnd checks w x f64 xgrad self arg id t logdet, layer_map K P logdet -> meant self arg id ->
  nth_error (w_ts w) id = Some t -> alive w id = true -> length (t_data t) = p_nc P -> points (p_in P) x ->
  (exists w', module_forward K rnd checks logdet self w x f64 xgrad arg =
    (w', Returned (map (fun p => map (cast rnd f64) (p_eval P (t_data t) p)) x, if logdet then Some (map (fun p => Fin (cast rnd f64 (p_logdet P (t_data t) p))) x) else None)) /\
    (forall i, (i < length (w_ts w))%nat -> nth_error (w_ts w') i = nth_error (w_ts w) i) /\
    w_nodes w' = w_nodes w ++ [MkNode x f64 xgrad (Some id) (t_version t) logdet true]) /\
  module_forward K rnd checks logdet None w x f64 xgrad None = (w, Raised).
Proof.
  intros K P rnd checks w x f64 xgrad self arg id t logdet HL HM Ht Ha Ld Hx. split; [|reflexivity]. apply meant_choose in HM.
  unfold module_forward. rewrite HM. assert (E : shapes_ok K w x id = true).
  { assert (D : m_in K = p_in P /\ m_nc K = p_nc P) by (split; apply HL). destruct D as [DI DC]. unfold shapes_ok, data_of. rewrite Ht, DI, DC.
    apply andb_true_intro. split; [|apply Nat.eqb_eq; exact Ld]. apply forallb_forall. intros p Hp. apply Nat.eqb_eq.
    unfold points in Hx. rewrite Forall_forall in Hx. exact (Hx p Hp). }
  rewrite E, andb_false_r. apply C75_forward; assumption.
Qed.
Print Assumptions C75_module_forward.

(** The backward pass. Whatever happened since the forward pass (other layers on the same map, other passes, optimiser
    steps, direct evaluations; everything but SetCoeffs of the map): if the coefficient tensor has not been changed in
    place, the gradients are those of the weighted outputs at the points and coefficients of the forward pass;
    if it has, or if the graph was freed, the call raises. *)
Theorem C75_backward : forall K P rnd w x f64 xgrad id t logdet hist s l retain, layer_map K P logdet -> nth_error (w_ts w) id = Some t -> alive w id = true -> length (t_data t) = p_nc P -> points (p_in P) x ->
  Forall (fun e => ~ sets_coeffs e) hist ->
  (forall s', s = Some s' -> points (p_out P) s' /\ length s' = length x) -> (forall l', l = Some l' -> length l' = length x) ->
  let w1 := fst (apply_ K rnd w x f64 xgrad (Some id) logdet) in let w2 := run K rnd w1 hist in let k := length (w_nodes w) in
  exists t2 N2, nth_error (w_ts w2) id = Some t2 /\ nth_error (w_nodes w2) k = Some N2 /\
    let ss := value_weights (p_out P) (length x) s in let ls := logdet_weights logdet (length x) l in
    (n_live N2 = true -> t_version t2 = t_version t ->
      snd (backward_ K rnd w2 k s l retain) = Returned
        (if xgrad then Some (map (map (cast rnd f64)) (back_inputs P (t_data t) ss ls x)) else None,
         if t_grad t then Some (map (fun v => cast rnd (t_f64 t) (cast rnd f64 v)) (back_coeffs P (t_data t) ss ls x)) else None)) /\
    (n_live N2 = false \/ t_version t2 <> t_version t -> snd (backward_ K rnd w2 k s l retain) = Raised).
Proof.
  intros K P rnd w x f64 xgrad id t logdet hist s l retain HL Ht Ha Ld Hx Hh Hs Hl w1 w2 k.
  destruct (C75_forward K P rnd w x f64 xgrad id t logdet HL Ht Ha Ld Hx) as (w1' & E & Et & En).
  assert (E1 : w1 = w1') by (unfold w1; rewrite E; reflexivity). rewrite <- E1 in Et, En. clear E E1 w1'.
  destruct (run_le K rnd hist w1 Hh) as [R1 R2].
  assert (Hi : (id < length (w_ts w))%nat) by (apply nth_error_Some; congruence).
  destruct (R1 id t ltac:(rewrite Et by exact Hi; exact Ht)) as (t2 & Ht2 & (X1 & X2 & X3 & X4 & X5)).
  destruct (R2 k (MkNode x f64 xgrad (Some id) (t_version t) logdet true)) as (N2 & HN2 & (Y1 & Y2 & Y3 & Y4 & Y5 & Y6)).
  { rewrite En, nth_error_app2, Nat.sub_diag by auto. reflexivity. }
  cbn [n_x n_f64 n_xgrad n_c n_version n_logdet] in *. fold w2 in Ht2, HN2. exists t2, N2. split; [exact Ht2|]. split; [exact HN2|]. split.
  - intros Lv Vv. specialize (X5 Vv). unfold backward_. rewrite HN2, Y4, Lv, Ht2, Vv, Y5, Nat.eqb_refl. cbn [negb].
    destruct (install_ok K w2 id t2 Ht2 (saved_alive w2 id k N2 HN2 Y4 Lv ltac:(apply nth_error_Some; congruence))) as (w3 & E3 & Ec & _); [rewrite X5; assert (DC : m_nc K = p_nc P) by apply HL; congruence|].
    rewrite E3, Y6, Y1. set (s0 := match s with Some s => s | None => cols0 (m_out K) (length x) end).
    assert (DO : m_out K = p_out P) by apply HL.
    assert (Es : s0 = value_weights (p_out P) (length x) s) by (unfold s0, value_weights; destruct s; auto; unfold cols0; rewrite DO; reflexivity).
    assert (Ps : points (p_out P) s0 /\ length s0 = length x) by (unfold s0; destruct s as [s'|]; [apply Hs; reflexivity|rewrite DO; split; [apply cols0_cols|apply cols0_len]]).
    destruct Ps as [Ps Ls0]. set (l0 := if logdet then _ else _).
    assert (Elw : match l0 with Some l => map Some l | None => repeat None (length x) end = logdet_weights logdet (length x) l) by (unfold l0, logdet_weights; destruct logdet; reflexivity).
    pose proof (backward_ok K P rnd w3 (t_data t2) N2 (t_grad t2) s0 l0) as B. rewrite Y1, Y2, Y3, Elw, Es in B. rewrite Es. rewrite B; clear B; auto.
    + cbn [answer_of amap]. rewrite X5, X1, X2. destruct xgrad, (t_grad t); cbn [snd fst option_map]; rewrite ?map_map; reflexivity.
    + unfold l0. destruct HL. constructor; auto. destruct logdet; auto.
    + rewrite X5. exact Ld.
    + rewrite <- Es. exact Ps.
    + rewrite <- Es. exact Ls0.
    + unfold l0. intros q Hq. destruct logdet; [|discriminate]. injection Hq as <-. destruct l as [l'|]; [apply Hl; reflexivity|apply repeat_length].
  - intros H. unfold backward_. rewrite HN2, Y4, Ht2. destruct (n_live N2) eqn:Lv; cbn [negb]; [|reflexivity]. destruct H as [H|H]; [discriminate|].
    rewrite Y5. destruct (Nat.eqb_spec (t_version t2) (t_version t)); [contradiction|reflexivity].
Qed.
Print Assumptions C75_backward.

(** The gradients the backward pass returns are derivatives: along curves of coefficients and of all points,
    d/du sum_j <s_j, T(x_j(u);c(u))> + l_j log det T' is the inner product of the gradients with the velocities. *)
Lemma dot_plus_times g l v w : length g = length v -> dot (plus_times g l v) w = dot g w + times l (dot v w).
Proof. intros L. destruct l as [l|]; cbn [plus_times times]; [|lra]. rewrite dot_vadd_l by (rewrite map_length; exact L). rewrite dot_scale. reflexivity. Qed.
Lemma plus_times_length g l v : length g = length v -> length (plus_times g l v) = length g.
Proof.
  intros L. destruct l as [l|]; auto. cbn [plus_times]. revert v L. induction g as [|a g IH]; intros [|b v] L; try discriminate; auto. cbn [map vadd length]. rewrite IH; auto.
Qed.
Theorem C75_derivatives : forall P, sized P -> true_gradients P -> true_logdet_gradients P -> forall gc t vc, velocity gc t vc -> length vc = p_nc P ->
  forall gxs vxs ss ls, Forall2 (fun g v => velocity g t v /\ length v = p_in P) gxs vxs -> points (p_out P) ss -> length ss = length gxs -> length ls = length gxs ->
  let xs u := map (fun g : R -> list R => g u) gxs in
  is_derive (fun u => weighted P (gc u) ss ls (xs u)) t (dot (back_coeffs P (gc t) ss ls (xs t)) vc + dots (back_inputs P (gc t) ss ls (xs t)) vxs).
Proof.
  intros P HS HG HLd gc t vc Vc Lvc gxs vxs ss ls HF. assert (Lc : length (gc t) = p_nc P) by (destruct Vc as [V _]; rewrite V; exact Lvc).
  assert (EB : forall xs ss ls, points (p_in P) xs -> points (p_out P) ss -> dot (back_coeffs P (gc t) ss ls xs) vc = lsum (terms (fun x s l => dot (plus_times (p_cgrad P (gc t) x s) l (p_ldc P (gc t) x)) vc) xs ss ls)).
  { clear HF ss ls gxs vxs. intros xs ss ls Hx Hs. unfold back_coeffs, sum_vecs. rewrite (lsum_coords (p_nc P) vc).
    - f_equal. revert ss ls Hs Hx. induction xs as [|x xs IH]; intros [|s ss] [|l ls] Hs Hx; auto. cbn [terms map]. f_equal. apply IH; eapply Forall_inv_tail; eassumption.
    - revert ss ls Hs Hx. induction xs as [|x xs IH]; intros [|s ss] [|l ls] Hs Hx; try constructor; [|apply IH; eapply Forall_inv_tail; eassumption].
      apply Forall_inv in Hs, Hx. destruct (HS (gc t) x s Lc Hx Hs) as (_ & _ & A & B & _). rewrite plus_times_length; congruence. }
  intros Hs L1 L2 xs. assert (Hxs : points (p_in P) (xs t)).
  { unfold xs, points. clear - HF. induction HF as [|g v gxs vxs [[V _] Lv] _ IH]; cbn [map]; constructor; auto. rewrite V. exact Lv. }
  rewrite EB by assumption. clear EB. unfold weighted, back_inputs, xs in *. revert ss ls Hs L1 L2 Hxs. induction HF as [|g v gxs vxs [V Lv] HF IH]; intros [|s ss] [|l ls] Hs L1 L2 Hxs; try discriminate.
  - cbn. replace (0 + 0) with 0 by ring. apply (is_derive_ext (fun _ => 0)); [reflexivity|apply @is_derive_const].
  - cbn [map terms lsum dots]. apply Forall_inv in Hs as Hs1. apply Forall_inv_tail in Hs. apply Forall_inv in Hxs as Hx1. apply Forall_inv_tail in Hxs. specialize (IH ss ls Hs ltac:(cbn in L1; lia) ltac:(cbn in L2; lia) Hxs).
    pose proof (HG gc g t vc v s Vc V Lvc Lv Hs1) as D1. pose proof (HLd gc g t vc v Vc V Lvc Lv) as D2. destruct (HS (gc t) (g t) s Lc Hx1 Hs1) as (_ & A1 & A2 & A3 & A4).
    rewrite !dot_plus_times by congruence. set (r1 := lsum _) in *. set (r2 := dots _ _) in *. set (rest := fun u => lsum (terms _ (map _ gxs) ss ls)) in *.
    assert (D3 : is_derive (fun u => times l (p_logdet P (gc u) (g u))) t (times l (dot (p_ldc P (gc t) (g t)) vc + dot (p_ldi P (gc t) (g t)) v))).
    { destruct l as [l|]; cbn [times]; [|apply @is_derive_const]. apply (is_derive_scal (fun u => p_logdet P (gc u) (g u)) t l _ D2). }
    pose proof (is_derive_plus _ _ _ _ _ (is_derive_plus _ _ _ _ _ D1 D3) IH) as D. eapply is_derive_ext; [intros u; reflexivity|]. replace (_ + _) with (plus (plus (dot (p_cgrad P (gc t) (g t) s) vc + dot (p_grad P (gc t) (g t) s) v) (times l (dot (p_ldc P (gc t) (g t)) vc + dot (p_ldi P (gc t) (g t)) v))) (r1 + r2)); [exact D|].
    unfold plus. cbn. destruct l as [l|]; cbn [times]; ring.
Qed.
Print Assumptions C75_derivatives.

(** The inverse: points y with T(leading inputs, y) within the map's tolerance of the targets. The leading inputs may be given alone or with arbitrary trailing ones. *)
Definition lead_of (P : pmap) (x : list R) : list R := firstn (p_in P - p_out P) x.
Theorem C75_inverse : forall K P rnd tol w x r id t self arg, imp_inv (p_in P) tol K P -> (p_out P <= p_in P)%nat -> meant self arg id -> nth_error (w_ts w) id = Some t -> alive w id = true -> length (t_data t) = p_nc P ->
  (points (p_in P) x \/ points (p_in P - p_out P) x) -> points (p_out P) r -> length x = length r ->
  exists y, snd (module_inverse K rnd self w x r true arg) = Returned y /\ points (p_out P) y /\ length y = length r /\
    forall j, (j < length r)%nat -> close tol (p_eval P (t_data t) (lead_of P (nth j x []) ++ nth j y [])) (nth j r []).
Proof.
  intros K P rnd tol w x r id t self arg [(DI & DO & DC) HI] Hio Hch Ht Ha Ld Hx Hr Lx. apply meant_choose in Hch. unfold module_inverse. rewrite Hch.
  destruct (install_ok K w id t Ht Ha ltac:(congruence)) as (w' & E & Ec & _). rewrite E, DI, DO. set (short := forallb _ (combine x r)). set (x' := if (_ && _)%bool then map _ (combine x r) else x).
  assert (X : points (p_in P) x' /\ length x' = length r /\ forall j, (j < length r)%nat -> lead_of P (nth j x' []) = lead_of P (nth j x [])).
  { destruct (Nat.eq_dec (length x) 0) as [Z|NZ].
    { destruct x; [|discriminate]. destruct r; [|discriminate]. assert (Ex : x' = []) by (unfold x'; destruct (short && _); reflexivity). rewrite Ex. split; [constructor|]. split; [reflexivity|]. intros j Hj. cbn in Hj. lia. }
    destruct (Nat.eq_dec (p_out P) 0) as [Z|NZ2].
    - assert (Hx' : points (p_in P) x) by (destruct Hx as [Hx|Hx]; auto; rewrite Z, Nat.sub_0_r in Hx; exact Hx).
      assert (Es : short = false). { unfold short. destruct x as [|a x]; [cbn in NZ; lia|]. destruct r as [|b r]; [discriminate|]. cbn [combine forallb fst snd]. rewrite (Forall_inv Hx'), Nat.eqb_refl. reflexivity. }
      unfold x'. rewrite Es. cbn [andb]. repeat split; auto.
    - destruct Hx as [Hx|Hx].
      + assert (Es : short = false). { unfold short. destruct x as [|a x]; [cbn in NZ; lia|]. destruct r as [|b r]; [discriminate|]. cbn [combine forallb fst snd]. rewrite (Forall_inv Hx), Nat.eqb_refl. reflexivity. }
        unfold x'. rewrite Es. cbn [andb]. repeat split; auto.
      + assert (Es : short = true).
        { unfold short. apply forallb_forall. intros [a b] Hin. cbn [fst snd]. rewrite (proj1 (Forall_forall _ _) Hx a (in_combine_l _ _ _ _ Hin)), (proj1 (Forall_forall _ _) Hr b (in_combine_r _ _ _ _ Hin)).
          destruct (Nat.eqb_spec (p_in P - p_out P) (p_in P)); [lia|]. cbn [negb andb]. apply Nat.eqb_eq. lia. }
        unfold x'. rewrite Es, Lx, Nat.eqb_refl. cbn [andb]. split; [|split].
        * apply Forall_map, Forall_forall. intros [a b] Hin. cbn [fst snd]. rewrite app_length, (proj1 (Forall_forall _ _) Hx a (in_combine_l _ _ _ _ Hin)), (proj1 (Forall_forall _ _) Hr b (in_combine_r _ _ _ _ Hin)). lia.
        * rewrite map_length, combine_length. lia.
        * intros j Hj. pose proof (nth_combine_map (fun a b => a ++ b) [] x r j (eq_sym Lx) ltac:(lia)) as En. rewrite En. unfold lead_of. pose proof (points_nth _ x j Hx ltac:(lia)) as Lj.
          rewrite firstn_app, Lj, Nat.sub_diag, app_nil_r. reflexivity. }
  destruct X as (X1 & X2 & X3).
  assert (F : forallb (fun p => (length p =? p_in P)%nat) x' && forallb (fun p => (length p =? p_out P)%nat) r = true).
  { apply Bool.andb_true_iff. split; apply forallb_forall; intros p Hp; apply Nat.eqb_eq; [apply (proj1 (Forall_forall _ _) X1 p Hp)|apply (proj1 (Forall_forall _ _) Hr p Hp)]. }
  rewrite F, Ec. cbn [obind].
  assert (Y : forall x r, points (p_in P) x -> points (p_out P) r -> length x = length r -> exists y, each2 (m_inv K (t_data t)) x r (cols0 (p_out P) (length x)) = Ok y /\ points (p_out P) y /\ length y = length r /\
     forall j, (j < length r)%nat -> close tol (p_eval P (t_data t) (lead_of P (nth j x []) ++ nth j y [])) (nth j r [])).
  { clear - HI Ld. induction x as [|a x IH]; intros [|b r] Hx Hr L; try discriminate.
    - exists []. split; [reflexivity|]. split; [constructor|]. split; [reflexivity|]. intros j Hj. cbn in Hj. lia.
    - destruct (IH r (Forall_inv_tail Hx) (Forall_inv_tail Hr) ltac:(cbn in L; lia)) as (y & E & A & B & C).
      destruct (HI (t_data t) a b (fresh (p_out P)) Ld (Forall_inv Hx) (Forall_inv Hr) (repeat_length _ _)) as (z & Ez & Lz & Cz).
      exists (z :: y). cbn [length cols0 repeat each2]. rewrite Ez. cbn [obind]. unfold cols0 in E. rewrite E. cbn [obind]. split; [reflexivity|]. split; [constructor; auto|]. split; [cbn; lia|].
      intros [|j] Hj; [exact Cz|]. cbn [nth]. apply C. cbn in Hj. lia. }
  destruct (Y x' r X1 Hr X2) as (y & Ey & A & B & C). rewrite Ey. cbn [answer_of amap]. exists y. split.
  - cbn [snd]. f_equal. unfold cast. rewrite <- (map_id y) at 2. apply map_ext. intros v. apply map_id.
  - split; [exact A|]. split; [exact B|]. intros j Hj. rewrite <- X3 by exact Hj. apply C, Hj.
Qed.
Print Assumptions C75_inverse.

(** Wrong shapes and missing coefficients raise, and leave everything as it was (layers for conditional maps). *)
Theorem C75_shapes : forall K rnd logdet self w x f64 xgrad arg,
  (forall c, meant self arg c -> ~ points (m_in K) x \/ length (data_of w c) <> m_nc K) ->
  module_forward K rnd true logdet self w x f64 xgrad arg = (w, Raised).
Proof.
  intros K rnd logdet self w x f64 xgrad arg H. unfold module_forward. destruct (choose_coeffs self arg) as [c|] eqn:Hc; [|reflexivity]. apply meant_choose in Hc. specialize (H c Hc).
  assert (E : shapes_ok K w x c = false).
  { unfold shapes_ok. destruct H as [H|H]; [|destruct (Nat.eqb_spec (length (data_of w c)) (m_nc K)); [contradiction|apply Bool.andb_false_r]].
    apply Bool.andb_false_iff. left. apply Bool.not_true_iff_false. intros F. apply H. apply Forall_forall. intros p Hp. apply Nat.eqb_eq. exact (proj1 (forallb_forall _ _) F p Hp). }
  rewrite E. reflexivity.
Qed.
Print Assumptions C75_shapes.

(** ** What the layers do not keep *)
(** SetCoeffs of the map after a forward pass with float64 coefficients overwrites the layer's own tensor without PyTorch
    noticing: the backward pass then returns, without an error, the gradients at the new coefficients. *)
Theorem C75_set_coeffs_refuted : forall K P rnd w x xgrad id t logdet c', layer_map K P logdet -> nth_error (w_ts w) id = Some t -> alive w id = true -> length (t_data t) = p_nc P -> points (p_in P) x ->
  t_f64 t = true -> length c' = p_nc P ->
  let w1 := fst (apply_ K rnd w x true xgrad (Some id) logdet) in let w2 := step K rnd w1 (MapSetCoeffs c') in
  data_of w2 id = c' /\ forall s, points (p_out P) s -> length s = length x ->
    let ls := logdet_weights logdet (length x) None in snd (backward_ K rnd w2 (length (w_nodes w)) (Some s) None false) = Returned
      (if xgrad then Some (back_inputs P c' s ls x) else None, if t_grad t then Some (back_coeffs P c' s ls x) else None).
Proof.
  intros K P rnd w x xgrad id t logdet c' HL Ht Ha Ld Hx Hf Lc' w1 w2. assert (DC : m_nc K = p_nc P) by apply HL.
  assert (Hi : (id < length (w_ts w))%nat) by (apply nth_error_Some; congruence).
  assert (W : w_ts w1 = w_ts w /\ w_f w1 = At id /\ w_nodes w1 = w_nodes w ++ [MkNode x true xgrad (Some id) (t_version t) logdet true]).
  { unfold w1, apply_. destruct (install_ok K w id t Ht Ha ltac:(congruence)) as (w' & E & Ec & En & Ef & Eh & _ & (l & El & El2)). rewrite E. rewrite (forward_ok K P rnd w' _ x true logdet HL Ec Ld Hx). cbn [answer_of fst w_ts w_f w_nodes].
    rewrite (El2 Hf), app_nil_r in El. cbn [leave w_ts w_f w_nodes]. rewrite El, firstn_all, skipn_all. cbn [map]. rewrite app_nil_r, Ht, En, (Eh Hf). auto. }
  destruct W as (W1 & W2 & W3). pose (t' := MkT c' (t_f64 t) (t_grad t) (t_version t) (t_user t)).
  assert (A1 : alive w1 id = true).
  { eapply saved_alive with (k := length (w_nodes w)); [rewrite W3, nth_error_app2, Nat.sub_diag by auto; reflexivity|reflexivity|reflexivity|rewrite W1; exact Hi]. }
  assert (E2 : w2 = MkW (upd (w_ts w) id t') (At id) (w_nodes w ++ [MkNode x true xgrad (Some id) (t_version t) logdet true])).
  { unfold w2. cbn [step]. unfold f_SetCoeffs. rewrite W2, Lc', DC, Nat.eqb_refl, W1, Ht, A1. cbn [negb fst]. unfold set_t. rewrite W1, W2, W3. reflexivity. }
  assert (Ht' : nth_error (w_ts w2) id = Some t') by (rewrite E2; apply nth_error_upd_eq; exact Hi).
  split; [unfold data_of; rewrite Ht'; reflexivity|]. intros s Hs Ls ls. set (N := MkNode x true xgrad (Some id) (t_version t) logdet true) in *.
  assert (HN : nth_error (w_nodes w2) (length (w_nodes w)) = Some N) by (rewrite E2; cbn [w_nodes]; rewrite nth_error_app2, Nat.sub_diag by auto; reflexivity).
  unfold backward_. rewrite HN. cbn [N n_c n_live n_version n_x n_logdet negb]. rewrite Ht'. cbn [t' t_version t_grad t_f64]. rewrite Nat.eqb_refl. cbn [negb].
  destruct (install_ok K w2 id t' Ht' ltac:(eapply saved_alive; [exact HN|reflexivity|reflexivity|rewrite E2; cbn [w_ts]; rewrite upd_length; exact Hi]) ltac:(cbn; congruence)) as (w3 & E3 & Ec & _). rewrite E3.
  set (l0 := if logdet then _ else _). assert (El : ls = match l0 with Some l => map Some l | None => repeat None (length x) end) by (unfold ls, l0, logdet_weights; destruct logdet; reflexivity). rewrite El.
  pose proof (backward_ok K P rnd w3 c' N (t_grad t) s l0) as B. rewrite B; clear B; auto.
  - cbn [answer_of amap N n_xgrad n_f64 n_x snd fst]. rewrite Hf. unfold cast. destruct xgrad, (t_grad t); cbn [option_map]; rewrite ?map_id; repeat f_equal;
      (etransitivity; [apply map_ext; intros v; apply map_id|apply map_id]) || reflexivity.
  - unfold l0. destruct HL. constructor; auto. destruct logdet; auto.
  - unfold l0. intros q Hq. destruct logdet; [|discriminate]. injection Hq as <-. apply repeat_length.
Qed.
Print Assumptions C75_set_coeffs_refuted.

(** After a pass with float32 coefficients the map object reads freed memory: any direct evaluation is undefined. *)
Theorem C75_float_refuted : forall K P rnd w x f64 xgrad id t logdet x', layer_map K P logdet -> nth_error (w_ts w) id = Some t -> alive w id = true -> length (t_data t) = p_nc P -> points (p_in P) x ->
  t_f64 t = false -> Forall (fun N => match n_c N with Some i => (i < length (w_ts w))%nat | None => True end) (w_nodes w) ->
  f_Evaluate K (fst (apply_ K rnd w x f64 xgrad (Some id) logdet)) x' = Undefined.
Proof.
  intros K P rnd w x f64 xgrad id t logdet x' HL Ht Ha Ld Hx Hf HN. assert (DC : m_nc K = p_nc P) by apply HL. unfold apply_.
  assert (Hi : (id < length (w_ts w))%nat) by (apply nth_error_Some; congruence).
  assert (E0 : install K w (Some id) = (MkW (w_ts w ++ [MkT (t_data t) true false 0 true]) (At (length (w_ts w))) (w_nodes w), true)).
  { unfold install, double_. rewrite Ht, Hf. unfold wrap, data_of. cbn [w_ts]. rewrite nth_error_app2, Nat.sub_diag by auto. cbn [nth_error t_data]. rewrite Ld, DC, Nat.eqb_refl. reflexivity. }
  destruct (install_ok K w id t Ht Ha ltac:(congruence)) as (w' & E & Ec & _). rewrite E0 in E. injection E as <-. rewrite E0. rewrite (forward_ok K P rnd _ _ x f64 logdet HL Ec Ld Hx). cbn [answer_of fst].
  unfold leave. cbn [w_ts w_f w_nodes]. rewrite firstn_app, Nat.sub_diag, firstn_all, app_nil_r, skipn_app, Nat.sub_diag, skipn_all. cbn [firstn skipn app map unname t_data t_f64 t_grad t_version].
  unfold f_Evaluate, f_coeffs, data_of, alive. cbn [w_f w_ts w_nodes]. rewrite (nth_error_app2 (w_ts w)), Nat.sub_diag by auto. cbn [nth_error t_data t_user orb].
  assert (F : existsb (saves (length (w_ts w))) (w_nodes w ++ [MkNode x f64 xgrad (Some id) match nth_error (w_ts w ++ [MkT (t_data t) true false 0 true]) id with Some t0 => t_version t0 | None => 0%nat end logdet true]) = false).
  { apply Bool.not_true_iff_false. intros F. apply existsb_exists in F. destruct F as (N & Hin & Hsv). unfold saves in Hsv. apply Bool.andb_true_iff in Hsv. destruct Hsv as [_ Hsv].
    apply in_app_or in Hin. destruct Hin as [Hin|[<-|[]]].
    - pose proof (proj1 (Forall_forall _ _) HN N Hin) as HN'. cbn beta in HN'. destruct (n_c N) as [i|]; [|discriminate]. apply Nat.eqb_eq in Hsv. lia.
    - cbn [n_c] in Hsv. apply Nat.eqb_eq in Hsv. lia. }
  rewrite F. cbn [unname t_data t_user orb]. rewrite Ld, DC, Nat.eqb_refl, Bool.orb_true_r. reflexivity.
Qed.
Print Assumptions C75_float_refuted.

(** Without coefficients the backward pass uses those the map has by then: here those of a later pass of another layer. *)
Theorem C75_no_coeffs_refuted : forall K P rnd ts nodes c0 x x' id t, layer_map K P false -> length c0 = p_nc P -> points (p_in P) x -> points (p_in P) x' ->
  nth_error ts id = Some t -> t_user t = true -> t_f64 t = true -> length (t_data t) = p_nc P ->
  let w := MkW ts (Own c0) nodes in let w1 := fst (apply_ K rnd w x true true None false) in let w2 := fst (apply_ K rnd w1 x' true true (Some id) false) in
  snd (apply_ K rnd w x true true None false) = Returned (map (p_eval P c0) x, None) /\
  forall s, points (p_out P) s -> length s = length x ->
    snd (backward_ K rnd w2 (length nodes) (Some s) None false) = Returned (Some (back_inputs P (t_data t) s (repeat None (length x)) x), None).
Proof.
  intros K P rnd ts nodes c0 x x' id t HL L0 Hx Hx' Ht Hu Hf Ld w w1 w2. assert (DC : m_nc K = p_nc P) by apply HL.
  pose proof (forward_ok K P rnd w c0 x true false HL eq_refl L0 Hx) as F1.
  assert (E1 : apply_ K rnd w x true true None false = (MkW ts (Own c0) (nodes ++ [MkNode x true true None 0 false true]), Returned (map (fun p => map (fun v => v) (p_eval P c0 p)) x, None))).
  { unfold apply_, install. rewrite F1. cbn [answer_of leave w_ts w_f w_nodes w]. rewrite firstn_all, skipn_all. cbn [map]. rewrite app_nil_r. reflexivity. }
  split; [rewrite E1; cbn [snd]; do 2 f_equal; apply map_ext; intros p; apply map_id|].
  assert (W1 : w1 = MkW ts (Own c0) (nodes ++ [MkNode x true true None 0 false true])) by (unfold w1; rewrite E1; reflexivity).
  assert (Ht1 : nth_error (w_ts w1) id = Some t) by (rewrite W1; exact Ht). assert (A1 : alive w1 id = true) by (unfold alive; rewrite Ht1, Hu; reflexivity).
  assert (W : w_f w2 = At id /\ w_ts w2 = ts /\ exists N, w_nodes w2 = (nodes ++ [MkNode x true true None 0 false true]) ++ [N]).
  { unfold w2, apply_. destruct (install_ok K w1 id t Ht1 A1 ltac:(congruence)) as (w' & E & Ec & En & Ef & Eh & _ & (l & El & El2)). rewrite E. rewrite (forward_ok K P rnd w' _ x' true false HL Ec Ld Hx'). cbn [answer_of fst w_ts w_f w_nodes].
    rewrite (El2 Hf), app_nil_r in El. cbn [leave w_ts w_f w_nodes]. rewrite El, firstn_all, skipn_all. cbn [map]. rewrite app_nil_r, En, (Eh Hf), W1. cbn [w_ts w_nodes]. eauto. }
  destruct W as (W2 & W3 & (N & W4)). intros s Hs Ls. unfold backward_. rewrite W4, <- app_assoc, nth_error_app2, Nat.sub_diag by auto. cbn [nth_error app n_live n_c n_x n_logdet negb install].
  assert (Ec : f_coeffs w2 = Ok (t_data t)) by (unfold f_coeffs, alive, data_of; rewrite W2, W3, Ht, Hu; reflexivity).
  pose proof (backward_ok K P rnd w2 (t_data t) (MkNode x true true None 0 false true) false s None HL Ec Ld Hx Hs Ls ltac:(discriminate)) as B. cbn [n_xgrad n_f64 n_x] in B. rewrite B.
  cbn [answer_of amap snd fst option_map]. do 3 f_equal. etransitivity; [apply map_ext; intros v; apply map_id|apply map_id].
Qed.
Print Assumptions C75_no_coeffs_refuted.

(** A layer that returns log determinants of a map with discretised derivatives cannot be differentiated in its inputs,
    even when the loss does not use the log determinants. *)
Theorem C75_discrete_refuted : forall K P rnd w x f64 id t, imp_eval K P -> imp_grad K P ->
  (forall p old, length p = p_in P -> exists v, m_logdet K (t_data t) p old = Ok v) -> (forall p out, length p = p_in P -> length out = p_in P -> m_ldi K (t_data t) p out = Throw) ->
  nth_error (w_ts w) id = Some t -> alive w id = true -> length (t_data t) = p_nc P -> points (p_in P) x -> x <> [] ->
  let r := apply_ K rnd w x f64 true (Some id) true in
  (exists y, snd r = Returned y) /\ forall s, points (p_out P) s -> length s = length x -> snd (backward_ K rnd (fst r) (length (w_nodes w)) (Some s) None false) = Raised.
Proof.
  intros K P rnd w x f64 id t IE IG IL HT Ht Ha Ld Hx Nx r. assert (DC : m_nc K = p_nc P) by apply IE. assert (DI : m_in K = p_in P) by apply IE.
  assert (Hi : (id < length (w_ts w))%nat) by (apply nth_error_Some; congruence).
  assert (FV : forall w', f_coeffs w' = Ok (t_data t) -> exists y, forward_values K rnd w' x f64 true = Ok y).
  { intros w' Hc. set (c := t_data t) in *. unfold forward_values. rewrite Hc. cbn [obind]. destruct IE as [D IE]. assert (EO : m_out K = p_out P) by apply D. rewrite EO.
    rewrite (each_ok (m_eval K c) (p_eval P c) (p_in P) (p_out P)); [|intros p o Lp Lo; apply IE; auto|exact Hx|apply cols0_cols|apply cols0_len]. cbn [obind].
    assert (X : exists l, each_logdet (m_logdet K c) x = Ok l).
    { clear - IL Hx. induction Hx as [|p x Lp Hx (l & IH)]; [eexists; reflexivity|]. cbn [each_logdet]. destruct (IL p (Some 0) Lp) as (v & Ev). rewrite Ev. cbn [obind]. rewrite IH. eexists; reflexivity. }
    destruct X as (l & El). rewrite El. cbn [obind]. eauto. }
  destruct (install_ok K w id t Ht Ha ltac:(congruence)) as (w' & E & Ec & En & Ef & _ & _ & (l & El & _)). destruct (FV w' Ec) as (y & Ey).
  assert (Ht' : nth_error (w_ts w') id = Some t) by (rewrite El, nth_error_app1 by exact Hi; exact Ht).
  assert (Er : r = (MkW (w_ts (leave (length (w_ts w)) w')) (w_f w') (w_nodes w ++ [MkNode x f64 true (Some id) (t_version t) true true]), Returned y)) by (unfold r, apply_; rewrite E, Ey; cbn [answer_of leave w_ts w_f w_nodes]; rewrite ?Ht', ?En; reflexivity).
  split; [exists y; rewrite Er; reflexivity|]. intros s Hs Ls. rewrite Er. cbn [fst]. set (w1 := MkW _ _ _). set (N := MkNode x f64 true (Some id) (t_version t) true true) in *.
  assert (HN : nth_error (w_nodes w1) (length (w_nodes w)) = Some N) by (cbn [w1 w_nodes]; rewrite nth_error_app2, Nat.sub_diag by auto; reflexivity).
  assert (Ht1 : nth_error (w_ts w1) id = Some t) by (unfold w1; cbn [w_ts]; rewrite leave_nth by exact Hi; exact Ht').
  unfold backward_. rewrite HN. cbn [N n_c n_live n_version n_x n_logdet negb]. rewrite Ht1, Nat.eqb_refl. cbn [negb].
  destruct (install_ok K w1 id t Ht1 ltac:(eapply saved_alive; [exact HN|reflexivity|reflexivity|apply nth_error_Some; congruence]) ltac:(congruence)) as (w3 & E3 & Ec3 & _). rewrite E3.
  assert (B : backward_values K rnd w3 N (t_grad t) s (Some (repeat 0 (length x))) = Throw).
  { unfold backward_values. rewrite Ec3. cbn [obind N n_xgrad n_x]. rewrite DI. destruct IG as [_ IG].
    rewrite (each2_ok (m_grad K (t_data t)) (p_grad P (t_data t)) (p_in P) (p_out P) (p_in P)); auto; [|intros; apply IG; auto|apply cols0_cols|apply cols0_len]. cbn [obind].
    destruct x as [|p x]; [congruence|]. cbn [length cols0 repeat each]. rewrite HT; [reflexivity|exact (Forall_inv Hx)|apply repeat_length]. }
  rewrite B. reflexivity.
Qed.
Print Assumptions C75_discrete_refuted.

(** ** The hypotheses are met *)
(** A map from R^4 to R^3 of order two, built by CreateTriangular: its layer with log determinants, differentiated after
    another pass at other coefficients, a new tensor and an inverse; the weighted sum has the returned gradients. *)
Definition ex_params : tensor := MkT (repeat 0 31) true true 0 true.
Definition ex_other : tensor := MkT (repeat 1 31) false true 0 true.
Definition ex_points : list (list R) := [[0; 1; 2; 3]; [1; -1; 1/2; 4]].
Definition ex_weights : list (list R) := [[1; 2; 3]; [0; -1; 1]].
Example C75_built_example : exists S T P, CreateTriangular 7 S 4 3 2 hermite_opts = Ok T /\ layer_map T P true /\ sized P /\ true_gradients P /\ true_logdet_gradients P /\
  let w := MkW [ex_params; ex_other] Unset [] in let w1 := fst (apply_ T (fun v => v) w ex_points true true (Some 0%nat) true) in
  let w2 := run T (fun v => v) w1 [Forward ex_points false true (Some 1%nat) false; NewTensor [1; 2] true false; MapEvaluate ex_points; MakeModule true true; InPlace 1 (repeat 2 31)] in
  snd (backward_ T (fun v => v) w2 0 (Some ex_weights) (Some [1; -2]) false) =
    Returned (Some (back_inputs P (repeat 0 31) ex_weights [Some 1; Some (-2)] ex_points), Some (back_coeffs P (repeat 0 31) ex_weights [Some 1; Some (-2)] ex_points)).
Proof.
  destruct smooth_example as (A & _).
  destruct (built 7 4 3 2 hermite_opts ltac:(cbn; lia) ltac:(lia) A) as (S & T & P & E & EI & EO & EC & EN & I1 & I2 & I3 & I4 & I5 & I6 & Z1 & Z2 & Z3).
  assert (N : p_nc P = 31%nat) by (rewrite <- EC, EN; reflexivity). assert (HL : layer_map T P true) by (constructor; auto).
  exists S, T, P. split; [exact E|]. split; [exact HL|]. split; [exact Z1|]. split; [exact Z2|]. split; [exact Z3|]. intros w w1 w2.
  assert (HX : points (p_in P) ex_points) by (rewrite EI; repeat constructor).
  destruct (C75_backward T P (fun v => v) w ex_points true true 0%nat ex_params true
    [Forward ex_points false true (Some 1%nat) false; NewTensor [1; 2] true false; MapEvaluate ex_points; MakeModule true true; InPlace 1 (repeat 2 31)] (Some ex_weights) (Some [1; -2]) false) as (t2 & N2 & H1 & H2 & H3 & _); auto.
  { repeat constructor; intros []. }
  { intros s' Hs. injection Hs as <-. rewrite EO. split; [repeat constructor|reflexivity]. }
  { intros l' Hl. injection Hl as <-. reflexivity. }
  fold w1 in H1, H2, H3. fold w2 in H1, H2, H3. cbn [w w_nodes length] in H2, H3.
  assert (L2 : exists h tm l, w2 = MkW ([ex_params; MkT (repeat 2 31) false true 1 true] ++ l) h [MkNode ex_points true true (Some 0%nat) 0 true true; tm]).
  { destruct (C75_forward T P (fun v => v) w ex_points true true 0%nat ex_params true HL eq_refl eq_refl (eq_sym N) HX) as (wa & Ea & Ta & Na).
    destruct (C75_forward T P (fun v => v) wa ex_points false true 1%nat ex_other false ltac:(constructor; auto; discriminate) ltac:(rewrite Ta by (cbn; lia); reflexivity)
      ltac:(unfold alive; rewrite Ta by (cbn; lia); reflexivity) (eq_sym N) HX) as (wb & Eb & Tb & Nb).
    unfold w2, run, w1. cbn [fold_left step]. rewrite Ea. cbn [fst]. rewrite Eb. cbn [fst].
    assert (L : exists l, w_ts wb = [ex_params; ex_other] ++ l).
    { assert (La : (2 <= length (w_ts wa))%nat). { destruct (Nat.le_gt_cases 2 (length (w_ts wa))) as [|G]; auto. exfalso. assert (Q : nth_error (w_ts wa) 1 = None) by (apply nth_error_None; lia). rewrite Ta in Q by (cbn; lia). discriminate Q. }
      pose proof (Tb 0%nat ltac:(lia)) as B0. pose proof (Tb 1%nat ltac:(lia)) as B1. rewrite Ta in B0, B1 by (cbn; lia). cbn [w w_ts nth_error] in B0, B1.
      destruct (w_ts wb) as [|a [|b r]]; cbn [nth_error] in B0, B1; [discriminate B0|discriminate B1|]. injection B0 as ->. injection B1 as ->. exists r. reflexivity. }
    destruct L as (l & L). rewrite Na in Nb. cbn [w w_nodes app] in Nb. destruct wb as [ts h ns]. cbn [w_ts w_nodes] in L, Nb. subst ts ns. unfold make_module.
    match goal with |- context [match f_coeffs ?q with _ => _ end] => destruct (f_coeffs q) end; try destruct (_ || _)%bool; do 3 eexists; cbn; reflexivity. }
  destruct L2 as (h & tm & l & L2). rewrite L2 in H1, H2. cbn [w_ts w_nodes app nth_error] in H1, H2. injection H1 as <-. injection H2 as <-.
  rewrite (H3 eq_refl eq_refl). cbn [t_grad ex_params t_data t_f64 value_weights logdet_weights map]. do 2 f_equal.
  - f_equal. etransitivity; [apply map_ext; intros v; apply map_id|apply map_id].
  - f_equal. apply map_id.
Qed.

(** The map x -> c x with one coefficient: its layer at coefficient 1, and the gradient after SetCoeffs([2]). *)
Definition scaling : pmap := MkP 1 1 1 (fun c x => [coord c 0 * coord x 0]) (fun c x => 0) (fun c x s => [coord s 0 * coord c 0]) (fun c x s => [coord s 0 * coord x 0]) (fun c x => [0]) (fun c x => [0]).
Definition scaling_map : cmap := MkMap 1 1 1 (fun c x old => Ok (p_eval scaling c x)) (fun c x old => Ok (Some 0)) (fun c x r old => Throw)
  (fun c x s old => Ok (p_grad scaling c x s)) (fun c x s old => Ok (p_cgrad scaling c x s)) (fun c x old => Ok [0]) (fun c x old => Ok [0]).
Lemma scaling_layer : layer_map scaling_map scaling false.
Proof. assert (D : dims scaling_map scaling) by (repeat split). constructor; [| | |discriminate]; (split; [exact D|]); intros; split; reflexivity. Qed.
Example C75_set_coeffs_example : let w := MkW [MkT [1] true true 0 true] Unset [] in
  let w1 := fst (apply_ scaling_map (fun v => v) w [[1]] true true (Some 0%nat) false) in
  snd (apply_ scaling_map (fun v => v) w [[1]] true true (Some 0%nat) false) = Returned ([[1]], None) /\
  let w2 := step scaling_map (fun v => v) w1 (MapSetCoeffs [2]) in
  data_of w2 0 = [2] /\ snd (backward_ scaling_map (fun v => v) w2 0 (Some [[1]]) None false) = Returned (Some [[2]], Some [1]).
Proof.
  intros w w1. assert (HX : points 1 [[1]]) by (repeat constructor).
  split. { destruct (C75_forward scaling_map scaling (fun v => v) w [[1]] true true 0%nat _ false scaling_layer eq_refl eq_refl eq_refl HX) as (w' & E & _). rewrite E. cbn. unfold coord. cbn. do 4 f_equal. ring. }
  destruct (C75_set_coeffs_refuted scaling_map scaling (fun v => v) w [[1]] true 0%nat _ false [2] scaling_layer eq_refl eq_refl eq_refl HX eq_refl eq_refl) as (A & B).
  split; [exact A|]. pose proof (B [[1]] HX eq_refl) as Els. cbv zeta in Els. cbn [w w_nodes length t_grad] in Els. unfold w1. cbn [w]. rewrite Els. clear.
  unfold back_inputs, back_coeffs, sum_vecs. cbn [logdet_weights repeat length terms plus_times scaling p_grad p_cgrad p_nc seq map lsum fold_right]. unfold coord. cbn [nth]. repeat f_equal; ring.
Qed.
(** A float32 parameter: the pass returns, the map cannot be evaluated any more. *)
Example C75_float_example : f_Evaluate scaling_map (fst (apply_ scaling_map (fun v => v) (MkW [MkT [1] false true 0 true] Unset []) [[1]] false true (Some 0%nat) false)) [[1]] = Undefined.
Proof.
  apply (C75_float_refuted scaling_map scaling (fun v => v) (MkW [MkT [1] false true 0 true] Unset []) [[1]] false true 0%nat (MkT [1] false true 0 true) false [[1]] scaling_layer); auto; repeat constructor.
Qed.
(** Coefficient 1 in the map, a pass without coefficients, another pass at coefficient 5: the gradient of the first is 5. *)
Example C75_no_coeffs_example : let w := MkW [MkT [5] true true 0 true] (Own [1]) [] in
  let w1 := fst (apply_ scaling_map (fun v => v) w [[1]] true true None false) in let w2 := fst (apply_ scaling_map (fun v => v) w1 [[3]] true true (Some 0%nat) false) in
  snd (apply_ scaling_map (fun v => v) w [[1]] true true None false) = Returned ([[1]], None) /\ snd (backward_ scaling_map (fun v => v) w2 0 (Some [[1]]) None false) = Returned (Some [[5]], None).
Proof.
  intros w w1 w2. assert (HX : forall v, points 1 [[v]]) by (repeat constructor).
  destruct (C75_no_coeffs_refuted scaling_map scaling (fun v => v) [MkT [5] true true 0 true] [] [1] [[1]] [[3]] 0%nat _ scaling_layer eq_refl (HX 1) (HX 3) eq_refl eq_refl eq_refl eq_refl) as (A & B).
  fold w in A, B. split; [rewrite A; cbn; unfold coord; cbn; do 4 f_equal; ring|]. pose proof (B [[1]] (HX 1) eq_refl) as Els. unfold w2, w1. cbn [length] in Els. rewrite Els. clear.
  unfold back_inputs. cbn [t_data length repeat terms plus_times scaling p_grad]. unfold coord. cbn [nth]. repeat f_equal; ring.
Qed.
(** The map of C64_discrete_example. *)
Example C75_discrete_example : exists S T, CreateTriangular 7 S 4 3 2 disc_opts = Ok T /\
  let r := apply_ T (fun v => v) (MkW [ex_params] Unset []) ex_points true true (Some 0%nat) true in
  (exists y, snd r = Returned y) /\ snd (backward_ T (fun v => v) (fst r) 0 (Some ex_weights) None false) = Raised.
Proof.
  assert (HS : supported disc_opts 2) by (split; [intros _; lia|]; split; [exact I|left; split; reflexivity]).
  destruct (C64_discrete 7 4 3 2 disc_opts ltac:(cbn; lia) ltac:(lia) HS (conj eq_refl eq_refl) eq_refl eq_refl ltac:(cbn; lia)) as (comps & pts & wts & alphas & L & CC & _ & (S & HSc) & X).
  destruct (X S HSc) as (T & E & EN & (I1 & I2 & I3) & Y). exists S, T. split; [exact E|]. set (P := triangular_spec 4 3 pts wts disc_opts alphas) in *.
  assert (EN' : m_nc T = 31%nat) by (rewrite EN; reflexivity). assert (DC : m_nc T = p_nc P) by apply I1. assert (PI : p_in P = 4%nat) by reflexivity. assert (PO : p_out P = 3%nat) by (destruct I1 as [(_ & D & _) _]; reflexivity).
  intros r. destruct (C75_discrete_refuted T P (fun v => v) (MkW [ex_params] Unset []) ex_points true 0%nat ex_params I1 I3) as (A & B); auto.
  - intros p old Lp. destruct (Y (repeat 0 31) p ltac:(rewrite repeat_length; auto) Lp) as (Y1 & Y2 & _). cbn [ex_params t_data].
    destruct (Rlt_le_dec 0 (stretch 4 3 2 pts wts disc_opts alphas (repeat 0 31) p 0)) as [q0|q0]; [|eexists; apply (Y2 0%nat); [lia|exact q0]].
    destruct (Rlt_le_dec 0 (stretch 4 3 2 pts wts disc_opts alphas (repeat 0 31) p 1)) as [q1|q1]; [|eexists; apply (Y2 1%nat); [lia|exact q1]].
    destruct (Rlt_le_dec 0 (stretch 4 3 2 pts wts disc_opts alphas (repeat 0 31) p 2)) as [q2|q2]; [|eexists; apply (Y2 2%nat); [lia|exact q2]].
    eexists. apply Y1. intros [|[|[|i]]] Hi; auto; lia.
  - intros p out Lp Lo. destruct (Y (repeat 0 31) p ltac:(rewrite repeat_length; auto) Lp) as (_ & _ & Y3). apply Y3, Lo.
  - cbn [ex_params t_data]. rewrite repeat_length. congruence.
  - rewrite PI. repeat constructor.
  - discriminate.
  - split; [exact A|]. apply B; [rewrite PO; repeat constructor|reflexivity].
Qed.
(** The map (u, v) -> v + c u, inverted at leading input 3. *)
Definition shear : pmap := MkP 2 1 1 (fun c x => [coord x 1 + coord c 0 * coord x 0]) (fun c x => 0) (fun c x s => []) (fun c x s => []) (fun c x => []) (fun c x => []).
Definition shear_map : cmap := MkMap 2 1 1 (fun c x old => Ok (p_eval shear c x)) (fun c x old => Ok (Some 0)) (fun c x r old => Ok [coord r 0 - coord c 0 * coord x 0])
  (fun c x s old => Throw) (fun c x s old => Throw) (fun c x old => Throw) (fun c x old => Throw).
Example C75_inverse_example : imp_inv 2 0 shear_map shear /\ exists y, snd (module_inverse shear_map (fun v => v) (Some 0%nat) (MkW [MkT [2] true true 0 true] Unset []) [[3]] [[10]] true None) = Returned y /\
  length y = 1%nat /\ close 0 (p_eval shear [2] (3 :: nth 0 y [])) [10].
Proof.
  assert (HI : imp_inv 2 0 shear_map shear).
  { split; [repeat split|]. intros c x r old Lc Lx Lr Lo. eexists. split; [reflexivity|]. split; [reflexivity|]. destruct x as [|u [|v [|]]]; try discriminate. destruct r as [|q [|]]; try discriminate.
    cbn. unfold close, coord; cbn. constructor; [|constructor]. replace (q - nth 0 c 0 * u + nth 0 c 0 * u - q) with 0 by ring. rewrite Rabs_R0. apply Rle_refl. }
  split; [exact HI|].
  destruct (C75_inverse shear_map shear (fun v => v) 0 (MkW [MkT [2] true true 0 true] Unset []) [[3]] [[10]] 0%nat (MkT [2] true true 0 true) (Some 0%nat) None HI ltac:(cbn; lia) (meant_stored 0) eq_refl eq_refl eq_refl
    ltac:(right; repeat constructor) ltac:(repeat constructor) eq_refl) as (y & E & Py & Ly & H).
  exists y. split; [exact E|]. split; [exact Ly|]. specialize (H 0%nat ltac:(cbn; lia)). exact H.
Qed.
