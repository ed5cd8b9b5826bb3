(** C51: the training objective, its gradient, and TrainMap (C66). *)
From Coq Require Import Reals List Lia Lra Permutation.
From Coquelicot Require Import Coquelicot.
From Verif Require Import SpecFactory FactoryModel PropBuild Base SpecExpansion SpecMaps SpecDensity SpecGauss QuadCC DetMul CholProofs ExpansionModel ExpansionProofs MapsModel LeafModel MapsContract MapsProofs LeafProofs TruthProofs DetProofs
  DensityModel DensityProofs ReduceModel ReduceProofs GaussModel GaussProofs PropGauss PropDensity ObjectiveModel.
Import ListNotations.
Local Open Scope R_scope.

(** ** The scalar reduction *)
Lemma sr_run_ok elem (e : nat -> R) s : (forall i, In i (iterations s) -> elem i = Ok (Fin (e i))) -> sr_run elem s = Ok (Fin (- lsum (map e (iterations s)))).
Proof.
  induction s as [l|a IHa b IHb]; intros H; cbn [iterations sr_run] in *.
  - assert (G : forall l x, (forall i, In i l -> elem i = Ok (Fin (e i))) -> ofold (fun sum i => do x <- elem i; Ok (dsub sum x)) l (Fin x) = Ok (Fin (x - lsum (map e l)))).
    { clear. induction l as [|i l IH]; intros x H; [cbn; do 2 f_equal; ring|]. cbn [ofold]. rewrite H by (left; auto). cbn [obind dsub dneg dadd]. rewrite IH by (intros; apply H; right; auto). cbn [map lsum]. do 2 f_equal. ring. }
    rewrite G by auto. do 2 f_equal. ring.
  - rewrite IHa, IHb by (intros; apply H; apply in_app_iff; auto). cbn [obind dadd]. rewrite map_app, lsum_app. do 2 f_equal. ring.
Qed.
Lemma map_coord_seq (l : list R) : map (fun i => nth i l 0) (seq 0 (length l)) = l.
Proof. apply (nth_ext _ _ 0 0); [rewrite map_length, seq_length; auto|]. intros i Hi. rewrite map_length, seq_length in Hi. exact (nth_map_seq (fun k => nth k l 0) (length l) i 0 Hi). Qed.
Lemma sr_run_list vs n s : complete n s -> length vs = n -> sr_run (raw_get (map Fin vs)) s = Ok (Fin (- lsum vs)).
Proof.
  intros Hc Hl. rewrite (sr_run_ok _ (fun i => nth i vs 0)).
  - do 3 f_equal. rewrite (lsum_perm _ (map (fun i => nth i vs 0) (seq 0 n))) by (apply Permutation_map; auto). rewrite <- Hl, map_coord_seq. reflexivity.
  - intros i Hi. apply (Permutation_in _ Hc), in_seq in Hi. unfold raw_get. rewrite nth_error_map, (nth_error_nth' vs 0) by lia. reflexivity.
Qed.
Lemma lsum_opp {A} (f : A -> R) l : lsum (map (fun a => - f a) l) = - lsum (map f l).
Proof. induction l as [|a l IH]; cbn; [ring|rewrite IH; ring]. Qed.
Lemma Forall2_fun {A B} (f : A -> B) l vs : Forall2 (fun x v => v = f x) l vs -> vs = map f l.
Proof. induction 1; cbn; congruence. Qed.

Lemma inside_whole (c : list R) (buf : list dbl) n : length c = n -> length buf = n -> inside n (MkVec buf 0 1 (length c)).
Proof. intros Hc Hb. split; [exact Hc|]. split; [cbn; lia|]. intros j Hj. unfold place. cbn [v_off v_stride v_buf]. lia. Qed.
Lemma whole_entries buf n v : only_entries (MkVec buf 0 1 n) v -> length buf = n -> v_buf v = entries v.
Proof.
  intros (A1 & A2 & A3 & A4 & _) Hl. cbn [v_off v_stride v_len v_buf] in *. unfold entries, place. rewrite A1, A2, A3. rewrite <- Hl, <- A4. apply (nth_ext _ _ NaN NaN); [rewrite map_length, seq_length; auto|].
  intros j Hj. rewrite nth_map_seq by auto. f_equal. lia.
Qed.
(** operator(): sets the coefficients, returns the objective and fills the gradient array. *)
Section C51.
Variables (s1 s2 : nat -> sched).
Hypothesis H1 : schedules s1.
Hypothesis H2 : schedules s2.

Section Contract.
Variables (st : nat -> Prop) (L : layout) (K : cmap) (P : pmap) (D : density) (lp : list R -> R) (g : list R -> list R).
Hypothesis Hst : st 1%nat.
Hypothesis HE : imp_eval K P.
Hypothesis HLD : imp_logdet K P.
Hypothesis HC : imp_cgrad K P.
Hypothesis HLC : imp_ldc K P.
Hypothesis Hdim : d_dim D = p_out P.
Hypothesis HD : is_dens st D (p_out P) lp.
Hypothesis HG : inputgrad L D (p_out P) g.
Hypothesis HL : forall r n, L r n n 1%nat.
Hypothesis Hg : forall y, length y = p_out P -> length (g y) = p_out P.

Lemma logdens_list c data : length c = p_nc P -> is_mat (p_in P) data ->
  exists PB, PullbackDensity (with_coeffs K c) D = Ok PB /\ d_LogDensity PB data = Ok (map Fin (map (pullback P c lp) (mx_cols data))).
Proof.
  intros Lc Hd. destruct (C48_pullback st K P c D lp HE HLD Lc Hdim HD) as (PB & E & _ & HP & _). exists PB. split; auto.
  destruct (LogDensity_ok st PB (p_in P) (fun x v => v = pullback P c lp x) data HP Hst Hd) as (vs & Ev & F). rewrite Ev. rewrite (Forall2_fun _ _ _ F). reflexivity.
Qed.
Lemma objective_ok c data : length c = p_nc P -> is_mat (p_in P) data -> kl_ObjectiveImpl s1 D data (with_coeffs K c) = Ok (if (length (mx_cols data) =? 0)%nat then NaN else Fin (kl P c lp (mx_cols data))).
Proof.
  intros Lc Hd. destruct (logdens_list c data Lc Hd) as (PB & E1 & E2). unfold kl_ObjectiveImpl. rewrite E1. cbn [obind]. rewrite E2. cbn [obind].
  rewrite (sr_run_list _ (length (mx_cols data)) _ (H1 _)) by apply map_length. cbn [obind ddiv]. destruct (_ =? _)%nat; auto. do 2 f_equal. unfold kl, mean. rewrite map_length, lsum_opp. reflexivity.
Qed.
Lemma sums_ok c data : length c = p_nc P -> is_mat (p_in P) data -> exists r, pb_LogDensityCoeffGrad (with_coeffs K c) D data = Ok r /\
  rd_run (fun i k => do col <- raw_get (mx_cols r) i; raw_get col k) (mx_rows r) kernel_sum (- / INR (length (mx_cols data))) (s2 (length (mx_cols data))) =
    Ok (kl_grad P c g (mx_cols data)).
Proof.
  intros Lc Hd. destruct (C49_values L K P c D g HE Lc Hdim HG HL Hg) as (PB & _ & _ & E). rewrite (E HC HLC data Hd). eexists. split; [reflexivity|]. cbn [right_mat mx_cols mx_rows].
  set (G := map (pullback_cgrad P c g) (mx_cols data)). set (N := length (mx_cols data)).
  assert (LG : length G = N) by (unfold G; rewrite map_length; reflexivity).
  assert (FG : forall v, In v G -> length v = p_nc P).
  { intros v Hv. apply in_map_iff in Hv as (x & <- & Hx). destruct Hd as [_ Hd]. rewrite Forall_forall in Hd. specialize (Hd x Hx).
    assert (Ly : length (p_eval P c x) = p_out P) by (apply (proj2 HE c x (zeros (p_out P))); auto; apply repeat_length).
    assert (Lg : length (p_cgrad P c x (g (p_eval P c x))) = p_nc P) by (apply (proj2 HC c x _ (zeros (p_nc P))); auto; apply repeat_length).
    assert (Ll : length (p_ldc P c x) = p_nc P) by (apply (proj2 HLC c x (zeros (p_nc P))); auto; apply repeat_length).
    unfold pullback_cgrad. rewrite vadd_length; congruence. }
  rewrite (rd_run_complete _ (fun r k => coord (nth r G []) k) (p_nc P) kernel_sum (- / INR N) N (s2 N) (H2 N)).
  - f_equal. unfold kl_grad, vmean. apply map_seq_ext. intros k Hk. unfold mean. rewrite !map_length. fold N. unfold kernel_sum. rewrite <- lsum_rsum.
    assert (Em : map (fun r => coord (nth r G []) k) (seq 0 N) = map (fun x => coord (pullback_cgrad P c g x) k) (mx_cols data)).
    { apply (nth_ext _ _ 0 0); [rewrite !map_length, seq_length; reflexivity|]. intros r Hr. rewrite map_length, seq_length in Hr. rewrite nth_map_seq by auto.
      pose (f := fun x => coord (pullback_cgrad P c g x) k). fold f. rewrite (nth_indep _ 0 (f [])) by (rewrite map_length; auto). rewrite map_nth. unfold f. do 1 f_equal. unfold G.
      rewrite (nth_indep _ [] (pullback_cgrad P c g [])) by (rewrite map_length; auto). apply map_nth. }
    rewrite Em, !map_map. assert (En : map (fun x => coord (map Ropp (pullback_cgrad P c g x)) k) (mx_cols data) = map (fun x => - coord (pullback_cgrad P c g x) k) (mx_cols data)).
    { apply map_ext. intros x. unfold coord. rewrite <- Ropp_0 at 1. apply map_nth. }
    rewrite En, lsum_opp. unfold Rdiv. ring.
  - intros r k Hr Hk. unfold raw_get at 1. rewrite (nth_error_nth' G []) by lia. cbn [obind]. apply raw_get_nth. rewrite FG; auto. apply nth_In. lia.
Qed.
Lemma kl_grad_length c data : length (kl_grad P c g data) = p_nc P.
Proof. unfold kl_grad, vmean. rewrite map_length, seq_length. reflexivity. Qed.
Lemma gradient_ok c data grad : length c = p_nc P -> is_mat (p_in P) data -> inside (p_nc P) grad -> v_stride grad = 1%nat ->
  exists grad', kl_CoeffGradImpl s2 D data grad (with_coeffs K c) = Ok grad' /\ only_entries grad grad' /\ entries grad' = map Fin (kl_grad P c g (mx_cols data)).
Proof.
  intros Lc Hd Hin Hs. destruct (logdens_list c data Lc Hd) as (PB & E1 & _). unfold kl_CoeffGradImpl. rewrite E1. cbn [obind]. destruct (sums_ok c data Lc Hd) as (r & E2 & E3). rewrite E2. cbn [obind]. rewrite E3. cbn [obind].
  apply v_write_raw_ok with (n := p_nc P); auto. apply kl_grad_length.
Qed.
Lemma both_ok c data grad : length c = p_nc P -> is_mat (p_in P) data -> inside (p_nc P) grad -> v_stride grad = 1%nat ->
  exists grad', kl_ObjectivePlusCoeffGradImpl s1 s2 D data grad (with_coeffs K c) = Ok (if (length (mx_cols data) =? 0)%nat then NaN else Fin (kl P c lp (mx_cols data)), grad') /\ 
    only_entries grad grad' /\ entries grad' = map Fin (kl_grad P c g (mx_cols data)).
Proof.
  intros Lc Hd Hin Hs. destruct (logdens_list c data Lc Hd) as (PB & E1 & E4). unfold kl_ObjectivePlusCoeffGradImpl. rewrite E1. cbn [obind]. rewrite E4. cbn [obind]. destruct (sums_ok c data Lc Hd) as (r & E2 & E3). rewrite E2. cbn [obind].
  rewrite (sr_run_list _ (length (mx_cols data)) _ (H1 _)) by apply map_length. cbn [obind]. rewrite E3. cbn [obind].
  destruct (v_write_raw_ok (p_nc P) grad (kl_grad P c g (mx_cols data)) Hin Hs (kl_grad_length _ _)) as (grad' & E5 & O & En). rewrite E5. cbn [obind]. exists grad'. split; [|auto].
  cbn [ddiv]. destruct (_ =? _)%nat; auto. do 3 f_equal. unfold kl, mean. rewrite map_length, lsum_opp. reflexivity.
Qed.
Lemma call_ok O c grad M : ob_density O = D -> o_map M = K -> length c = p_nc P -> length grad = p_nc P -> is_mat (p_in P) (ob_train O) -> mx_cols (ob_train O) <> [] ->
  ob_call s1 s2 O c grad M = Ok (Fin (kl P c lp (mx_cols (ob_train O))), map Fin (kl_grad P c g (mx_cols (ob_train O))), with_coeffs K c).
Proof.
  intros HO HM Lc Lg Hd Hne. unfold ob_call. assert (Es : o_SetCoeffs M c = Ok (with_coeffs K c)).
  { unfold o_SetCoeffs, with_coeffs. rewrite HM. destruct (o_coeffs M); auto. destruct HE as [(_ & _ & En) _]. rewrite En, Lc, Nat.eqb_refl. reflexivity. }
  rewrite Es. cbn [obind]. rewrite HO. destruct (both_ok c (ob_train O) (MkVec grad 0 1 (length c)) Lc Hd) as (v & E & Oe & En); [apply inside_whole; auto|reflexivity|].
  rewrite E. cbn [obind fst snd]. rewrite (whole_entries grad (length c) v Oe) by congruence. rewrite En. destruct (mx_cols (ob_train O)); [congruence|]. reflexivity.
Qed.
End Contract.
End C51.

(** Everything a map and a reference density have to provide. *)
Record trainable (st : nat -> Prop) (L : layout) (K : cmap) (P : pmap) (D : density) (lp : list R -> R) (g : list R -> list R) : Prop := {
  tr_stride : st 1%nat; tr_layout : forall r n, L r n n 1%nat;
  tr_eval : imp_eval K P; tr_logdet : imp_logdet K P; tr_cgrad : imp_cgrad K P; tr_ldc : imp_ldc K P;
  tr_dim : d_dim D = p_out P; tr_dens : is_dens st D (p_out P) lp; tr_inputgrad : inputgrad L D (p_out P) g;
  tr_glen : forall y, length y = p_out P -> length (g y) = p_out P }.

(** The objective is minus the mean pullback log density of the samples, whatever the schedule. *)
Theorem C51_objective : forall s1 st L K P D lp g c data, schedules s1 -> trainable st L K P D lp g -> length c = p_nc P -> is_mat (p_in P) data -> mx_cols data <> [] ->
  kl_ObjectiveImpl s1 D data (with_coeffs K c) = Ok (Fin (kl P c lp (mx_cols data))).
Proof.
  intros s1 st L K P D lp g c data Hs [] Lc Hd Hn. rewrite (objective_ok s1 Hs st K P D lp) by auto. destruct (mx_cols data); [congruence|reflexivity].
Qed.
Print Assumptions C51_objective.
(** TrainError is the objective over the training samples, TestError the same over the test samples. *)
Theorem C51_errors : forall s1 st L K P D lp g c train test, schedules s1 -> trainable st L K P D lp g -> length c = p_nc P -> (0 < p_in P)%nat ->
  (is_mat (p_in P) train -> mx_cols train <> [] -> TrainError s1 (MkObjective train test D) (with_coeffs K c) = Ok (Fin (kl P c lp (mx_cols train)))) /\
  (is_mat (p_in P) test -> mx_cols test <> [] -> TestError s1 (MkObjective train test D) (with_coeffs K c) = Ok (Fin (kl P c lp (mx_cols test)))).
Proof.
  intros s1 st L K P D lp g c train test Hs HT Lc Hp. split; intros Hd Hn.
  - apply (C51_objective s1 st L K P D lp g c train); auto.
  - unfold TestError. cbn [ob_test ob_density]. destruct (Nat.eqb_spec (mx_rows test) 0) as [E|_]; [destruct Hd; lia|]. apply (C51_objective s1 st L K P D lp g c test); auto.
Qed.
Print Assumptions C51_errors.
(** The gradient routine writes minus the mean coefficient gradient to any output with consecutive entries, and nothing else. *)
Theorem C51_gradient_partial : forall s2 st L K P D lp g c data grad, schedules s2 -> trainable st L K P D lp g -> length c = p_nc P -> is_mat (p_in P) data -> inside (p_nc P) grad -> v_stride grad = 1%nat ->
  exists grad', kl_CoeffGradImpl s2 D data grad (with_coeffs K c) = Ok grad' /\ only_entries grad grad' /\ entries grad' = map Fin (kl_grad P c g (mx_cols data)).
Proof. intros s2 st L K P D lp g c data grad Hs [] Lc Hd Hi Hst. apply (gradient_ok s2 Hs st L K P D lp g); auto. Qed.
Print Assumptions C51_gradient_partial.
(** The allocating call returns it, and the optimiser's callback returns both for the coefficients it is given. *)
Theorem C51_calls : forall s1 s2 st L K P lp g O c grad M, schedules s1 -> schedules s2 -> trainable st L K P (ob_density O) lp g -> is_mat (p_in P) (ob_train O) -> mx_cols (ob_train O) <> [] ->
  length c = p_nc P -> length grad = p_nc P -> o_map M = K ->
  TrainError s1 O (with_coeffs K c) = Ok (Fin (kl P c lp (mx_cols (ob_train O)))) /\
  TrainCoeffGrad s2 O (with_coeffs K c) = Ok (map Fin (kl_grad P c g (mx_cols (ob_train O)))) /\
  ob_call s1 s2 O c grad M = Ok (Fin (kl P c lp (mx_cols (ob_train O))), map Fin (kl_grad P c g (mx_cols (ob_train O))), with_coeffs K c).
Proof.
  intros s1 s2 st L K P lp g O c grad M Hs1 Hs2 HT Hd Hn Lc Lg HM. split; [|split].
  - apply (C51_objective s1 st L K P (ob_density O) lp g); auto.
  - unfold TrainCoeffGrad, TrainCoeffGradImpl. assert (En : m_nc (o_map (with_coeffs K c)) = p_nc P) by apply HT. rewrite En.
    destruct (C51_gradient_partial s2 st L K P (ob_density O) lp g c (ob_train O) (alloc_vec (p_nc P)) Hs2 HT Lc Hd (alloc_inside _) eq_refl) as (v & E & Oe & Ev). rewrite E. cbn [obind]. f_equal. rewrite <- Ev.
    apply (whole_entries (repeat (Fin 0) (p_nc P)) (p_nc P) v Oe). apply repeat_length.
  - destruct HT. apply (call_ok s1 s2 Hs1 Hs2 st L K P (ob_density O) lp g); auto.
Qed.
Print Assumptions C51_calls.

(** ** Sums of vectors *)
Lemma lsum_coords n v l : Forall (fun w => length w = n) l -> dot (map (fun i => lsum (map (fun w => coord w i) l)) (seq 0 n)) v = lsum (map (fun w => dot w v) l).
Proof.
  intros H. rewrite (dot_rsum _ v n) by (rewrite map_length, seq_length; auto). rewrite (rsum_ext' _ (fun k => lsum (map (fun w => coord w k) l) * coord v k)) by (intros k Hk; rewrite coord_map_seq' by auto; reflexivity).
  induction H as [|w l Hw _ IH]; cbn [map lsum].
  - rewrite rsum_scal. ring.
  - rewrite (rsum_ext' _ (fun k => coord w k * coord v k + lsum (map (fun w => coord w k) l) * coord v k)) by (intros; ring). rewrite QuadCC.rsum_plus, IH, (dot_rsum w v n Hw). reflexivity.
Qed.
Lemma dot_scal_l k n (f : nat -> R) v : dot (map (fun i => f i / k) (seq 0 n)) v = dot (map f (seq 0 n)) v / k.
Proof.
  rewrite !(dot_rsum _ v n) by (rewrite map_length, seq_length; auto). unfold Rdiv. rewrite Rmult_comm, <- rsum_scal. apply rsum_ext'. intros i Hi. rewrite !coord_map_seq' by auto. ring.
Qed.
Lemma dot_vmean n l v : Forall (fun w => length w = n) l -> dot (vmean n l) v = mean (map (fun w => dot w v) l).
Proof.
  intros H. unfold vmean, mean. rewrite map_length. rewrite <- (lsum_coords n v l H), <- dot_scal_l. f_equal. apply map_ext. intros i. rewrite map_length. reflexivity.
Qed.
Lemma derive_lsum {A} (f : A -> R -> R) (df : A -> R) t l : (forall a, In a l -> is_derive (f a) t (df a)) -> is_derive (fun u => lsum (map (fun a => f a u) l)) t (lsum (map df l)).
Proof.
  induction l as [|a l IH]; intros H; cbn [map lsum]; [apply (@is_derive_const _ R_NormedModule 0)|].
  apply (@is_derive_plus R_AbsRing R_NormedModule); [apply H; left; auto|apply IH; intros; apply H; right; auto].
Qed.
Lemma dot_opp_l a v : dot (map Ropp a) v = - dot a v.
Proof. revert v. induction a as [|x a IH]; intros [|y v]; cbn; try ring. rewrite IH. ring. Qed.
(** The gradient is the derivative of the objective in the coefficients. *)
Theorem C51_derivative : forall P lp g samples, sized P -> true_gradients P -> true_logdet_gradients P -> gradient_of (p_out P) lp g -> Forall (fun x => length x = p_in P) samples ->
  forall (gc : R -> list R) t vc, velocity gc t vc -> length vc = p_nc P -> is_derive (fun u => kl P (gc u) lp samples) t (dot (kl_grad P (gc t) g samples) vc).
Proof.
  intros P lp g samples HS HT HL HG Hs gc t vc Vc Lc. rewrite Forall_forall in Hs.
  assert (Lct : length (gc t) = p_nc P) by (rewrite <- Lc; apply Vc).
  assert (Lp : forall x, In x samples -> length (pullback_cgrad P (gc t) g x) = p_nc P).
  { intros x Hx. specialize (Hs x Hx). destruct (HS (gc t) x (zeros (p_out P)) Lct Hs ltac:(apply repeat_length)) as (Ly & _).
    destruct (HS (gc t) x (g (p_eval P (gc t) x)) Lct Hs ltac:(apply HG; auto)) as (_ & _ & S3 & S4 & _). unfold pullback_cgrad. rewrite vadd_length; congruence. }
  unfold kl_grad. rewrite dot_vmean by (apply Forall_map, Forall_forall; intros x Hx; rewrite map_length; auto). unfold kl, mean. rewrite map_map, !map_length.
  assert (X : is_derive (fun u => lsum (map (fun x => - pullback P (gc u) lp x) samples)) t (lsum (map (fun x => dot (map Ropp (pullback_cgrad P (gc t) g x)) vc) samples))).
  { apply (derive_lsum (fun x u => - pullback P (gc u) lp x) (fun x => dot (map Ropp (pullback_cgrad P (gc t) g x)) vc)). intros x Hx. rewrite dot_opp_l.
    apply (@is_derive_opp R_AbsRing R_NormedModule).
    pose proof (C49_derivatives P lp g HS HT HL HG gc (fun _ => x) t vc (zeros (length x)) Vc (const_velocity x t) Lc ltac:(rewrite zeros_length; auto)) as D.
    rewrite dot_zeros_r, Rplus_0_r in D. exact D. }
  apply (is_derive_ext (fun u => / INR (length samples) * lsum (map (fun x => - pullback P (gc u) lp x) samples))).
  { intros u. rewrite map_length. unfold Rdiv. rewrite Rmult_comm. reflexivity. }
  replace (lsum (map (fun x => dot (map Ropp (pullback_cgrad P (gc t) g x)) vc) samples) / INR (length samples)) with (/ INR (length samples) * lsum (map (fun x => dot (map Ropp (pullback_cgrad P (gc t) g x)) vc) samples)) by (unfold Rdiv; ring).
  apply (is_derive_scal _ t (/ INR (length samples))). exact X.
Qed.
Print Assumptions C51_derivative.

Lemma kl_perm P c lp a b : Permutation a b -> kl P c lp a = kl P c lp b.
Proof. intros H. unfold kl, mean. rewrite !map_length, (Permutation_length H). f_equal. apply lsum_perm, Permutation_map. auto. Qed.
Lemma kl_grad_perm P c g a b : Permutation a b -> kl_grad P c g a = kl_grad P c g b.
Proof. intros H. unfold kl_grad, vmean, mean. apply map_ext. intros i. rewrite !map_length, (Permutation_length H). f_equal. apply lsum_perm. do 2 apply Permutation_map. auto. Qed.
(** The order of the samples and of the parallel reductions does not matter. *)
Theorem C51_order : forall s1 s2 s1' s2' st L K P lp g O O' c, schedules s1 -> schedules s2 -> schedules s1' -> schedules s2' -> trainable st L K P (ob_density O) lp g -> ob_density O' = ob_density O ->
  is_mat (p_in P) (ob_train O) -> is_mat (p_in P) (ob_train O') -> Permutation (mx_cols (ob_train O)) (mx_cols (ob_train O')) -> mx_cols (ob_train O) <> [] -> length c = p_nc P ->
  TrainError s1 O (with_coeffs K c) = TrainError s1' O' (with_coeffs K c) /\ TrainCoeffGrad s2 O (with_coeffs K c) = TrainCoeffGrad s2' O' (with_coeffs K c).
Proof.
  intros s1 s2 s1' s2' st L K P lp g O O' c A1 A2 A3 A4 HT ED Hm Hm' HP Hn Lc.
  assert (Hn' : mx_cols (ob_train O') <> []) by (intros E; apply Hn; rewrite E in HP; apply Permutation_sym, Permutation_nil in HP; auto).
  destruct (C51_calls s1 s2 st L K P lp g O c (repeat (Fin 0) (p_nc P)) (with_coeffs K c) A1 A2 HT Hm Hn Lc (repeat_length _ _) eq_refl) as (E1 & E2 & _).
  rewrite <- ED in HT. destruct (C51_calls s1' s2' st L K P lp g O' c (repeat (Fin 0) (p_nc P)) (with_coeffs K c) A3 A4 HT Hm' Hn' Lc (repeat_length _ _) eq_refl) as (E3 & E4 & _).
  rewrite E1, E2, E3, E4. rewrite (kl_perm _ _ _ _ _ HP), (kl_grad_perm _ _ _ _ _ HP). auto.
Qed.
Print Assumptions C51_order.

(** ** Strided gradient arrays *)
Lemma v_write_raw_any n v l : inside n v -> length l = n -> exists v', v_write_raw v l = Ok v' /\ v_off v' = v_off v /\ v_stride v' = v_stride v /\ v_len v' = v_len v /\
  forall i, nth_error (v_buf v') i = if ((v_off v <=? i) && (i <? v_off v + n))%nat then Some (Fin (nth (i - v_off v) l 0)) else nth_error (v_buf v) i.
Proof.
  intros (Hn & Hs & Hi) Hl. unfold v_write_raw.
  destruct (ofold_inv (fun b k => do x <- raw_get l k; raw_set b (v_off v + k) (Fin x))
    (fun k b => length b = length (v_buf v) /\ forall i, nth_error b i = if ((v_off v <=? i) && (i <? v_off v + k))%nat then Some (Fin (nth (i - v_off v) l 0)) else nth_error (v_buf v) i)
    (length l) 0 (v_buf v)) as (b & E & Lb & Eb).
  - split; auto. intros i. destruct (Nat.leb_spec (v_off v) i), (Nat.ltb_spec i (v_off v + 0)); cbn [andb]; auto; lia.
  - intros k b Hk [Lb Eb]. assert (Hin : (v_off v + k < length b)%nat).
    { rewrite Lb. specialize (Hi k ltac:(lia)). unfold place in Hi. nia. }
    eexists. split.
    + rewrite raw_get_nth by lia. cbn [obind]. apply raw_set_upd. exact Hin.
    + split; [rewrite upd_length; auto|]. intros i. destruct (Nat.eq_dec i (v_off v + k)) as [->|N].
      * rewrite (nth_error_nth' _ NaN) by (rewrite upd_length; auto). rewrite nth_upd_eq by auto.
        destruct (Nat.leb_spec (v_off v) (v_off v + k)), (Nat.ltb_spec (v_off v + k) (v_off v + S k)); cbn [andb]; try lia. do 3 f_equal. lia.
      * rewrite nth_error_upd_neq by auto. rewrite Eb.
        destruct (Nat.leb_spec (v_off v) i), (Nat.ltb_spec i (v_off v + k)), (Nat.ltb_spec i (v_off v + S k)); cbn [andb]; auto; lia.
  - cbn [Nat.add] in Eb. rewrite E. cbn [obind]. eexists. split; [reflexivity|]. cbn [v_off v_stride v_len v_buf]. repeat split; auto. rewrite <- Hl. exact Eb.
Qed.
(** A gradient array whose entries are not adjacent: the last entry keeps its old value, and the number after the
    first entry, which is not part of the array, is overwritten. *)
Theorem C51_strided_refuted : forall s2 st L K P D lp g c data grad, schedules s2 -> trainable st L K P D lp g -> length c = p_nc P -> is_mat (p_in P) data -> inside (p_nc P) grad ->
  (1 < v_stride grad)%nat -> (1 < p_nc P)%nat ->
  exists grad', kl_CoeffGradImpl s2 D data grad (with_coeffs K c) = Ok grad' /\
    nth (p_nc P - 1) (entries grad') NaN = nth (p_nc P - 1) (entries grad) NaN /\
    nth_error (v_buf grad') (v_off grad + 1) = Some (Fin (coord (kl_grad P c g (mx_cols data)) 1)) /\ (forall j, place grad j <> (v_off grad + 1)%nat).
Proof.
  intros s2 st L K P D lp g c data grad Hs HT Lc Hd Hin Hst Hnc. destruct HT.
  destruct (logdens_list st K P D lp tr_stride0 tr_eval0 tr_logdet0 tr_dim0 tr_dens0 c data Lc Hd) as (PB & E1 & _). unfold kl_CoeffGradImpl. rewrite E1. cbn [obind].
  destruct (sums_ok s2 Hs L K P D g tr_eval0 tr_cgrad0 tr_ldc0 tr_dim0 tr_inputgrad0 tr_layout0 tr_glen0 c data Lc Hd) as (r & E2 & E3). rewrite E2. cbn [obind]. rewrite E3. cbn [obind].
  destruct (v_write_raw_any (p_nc P) grad (kl_grad P c g (mx_cols data)) Hin (kl_grad_length _ _ _ _)) as (v' & E & A1 & A2 & A3 & Eb). exists v'. split; [exact E|]. split; [|split].
  - destruct Hin as (Hn & _ & Hi). unfold entries. rewrite A3, Hn. rewrite !nth_map_seq by lia. unfold place. rewrite A1, A2. rewrite !nth_default_eq || idtac.
    specialize (Eb (v_off grad + v_stride grad * (p_nc P - 1))%nat).
    destruct (Nat.leb_spec (v_off grad) (v_off grad + v_stride grad * (p_nc P - 1))), (Nat.ltb_spec (v_off grad + v_stride grad * (p_nc P - 1)) (v_off grad + p_nc P)); cbn [andb] in Eb; try nia.
    rewrite (nth_error_nth' (v_buf grad) NaN) in Eb by (apply (Hi (p_nc P - 1)%nat); lia). apply nth_error_nth with (d := NaN) in Eb. exact Eb.
  - rewrite Eb. destruct (Nat.leb_spec (v_off grad) (v_off grad + 1)), (Nat.ltb_spec (v_off grad + 1) (v_off grad + p_nc P)); cbn [andb]; try lia. unfold coord. do 3 f_equal. lia.
  - intros [|j]; unfold place; nia.
Qed.
Print Assumptions C51_strided_refuted.

(** TestError needs a test set; every objective rejects a map whose output dimension is not the density's, and a map without coefficients. *)
Theorem C51_rejects : forall s1 s2 O M data grad,
  (TestError s1 (MkObjective (ob_train O) no_matrix (ob_density O)) M = Throw) /\
  (m_out (o_map M) <> d_dim (ob_density O) -> kl_ObjectiveImpl s1 (ob_density O) data M = Throw /\ kl_CoeffGradImpl s2 (ob_density O) data grad M = Throw) /\
  (m_out (o_map M) = d_dim (ob_density O) -> o_coeffs M = None -> m_nc (o_map M) <> 0%nat -> kl_ObjectiveImpl s1 (ob_density O) data M = Throw /\ kl_CoeffGradImpl s2 (ob_density O) data grad M = Throw).
Proof.
  intros s1 s2 O M data grad. split; [reflexivity|]. split.
  - intros H. unfold kl_ObjectiveImpl, kl_CoeffGradImpl, PullbackDensity. destruct (Nat.eqb_spec (m_out (o_map M)) (d_dim (ob_density O))); [contradiction|]. auto.
  - intros E Hc Hn. unfold kl_ObjectiveImpl, kl_CoeffGradImpl, PullbackDensity. rewrite E, Nat.eqb_refl. cbn [negb obind].
    assert (C : o_check M = false) by (unfold o_check; rewrite Hc; destruct (Nat.eqb_spec (m_nc (o_map M)) 0); [contradiction|reflexivity]).
    unfold d_LogDensity, pb_LogDensityCoeffGrad, pb_CoeffGradImpl. cbn [d_LogDensityImpl]. unfold pb_LogDensityImpl, o_Evaluate. rewrite C. auto.
Qed.
Print Assumptions C51_rejects.

(** ** The Gaussian objective *)
Lemma gauss_trainable sch K P : schedules sch -> imp_eval K P -> imp_logdet K P -> imp_cgrad K P -> imp_ldc K P ->
  trainable (fun s => s = 1%nat) any_layout K P (gauss_density (gauss_std (p_out P)) sch) (std_lp (p_out P)) (map Ropp).
Proof.
  intros Hs E1 E2 E3 E4. constructor; auto.
  - intros; exact I.
  - apply std_is_dens. auto.
  - apply std_inputgrad.
  - intros y Hy. rewrite map_length. auto.
Qed.
(** CreateGaussianKLObjective: the mean of |T(x)|^2/2 + (m/2) log(2 pi) - log|det T'(x)|; without a dimension argument the map has to be square. *)
Theorem C51_gaussian : forall s1 sch K P train test dim c, schedules s1 -> schedules sch -> imp_eval K P -> imp_logdet K P -> imp_cgrad K P -> imp_ldc K P -> length c = p_nc P ->
  is_mat (p_in P) train -> mx_cols train <> [] -> let O := CreateGaussianKLObjective sch train test dim in
  ((dim = p_out P /\ dim <> 0%nat \/ dim = 0%nat /\ p_in P = p_out P) ->
    TrainError s1 O (with_coeffs K c) =
      Ok (Fin (mean (map (fun x => / 2 * dot (p_eval P c x) (p_eval P c x) + / 2 * (INR (p_out P) * ln (2 * PI)) - p_logdet P c x) (mx_cols train))))) /\
  (dim = 0%nat -> p_in P <> p_out P -> TrainError s1 O (with_coeffs K c) = Throw).
Proof.
  intros s1 sch K P train test dim c Hs Hsch E1 E2 E3 E4 Lc Hd Hn O. split.
  - intros Hdim. assert (ED : ob_density O = gauss_density (gauss_std (p_out P)) sch).
    { unfold O, CreateGaussianKLObjective. cbn [ob_density]. destruct Hdim as [[-> Hz]|[-> Hio]].
      - destruct (Nat.eqb_spec (p_out P) 0); [contradiction|reflexivity].
      - cbn [Nat.eqb]. destruct Hd as [-> _]. rewrite Hio. reflexivity. }
    unfold TrainError. rewrite ED. change (ob_train O) with train. rewrite (C51_objective s1 (fun s => s = 1%nat) any_layout K P _ (std_lp (p_out P)) (map Ropp)); auto; [|apply gauss_trainable; auto].
    do 2 f_equal. unfold kl. f_equal. apply map_ext. intros x. unfold pullback, std_lp. ring.
  - intros -> Hio. unfold TrainError, kl_ObjectiveImpl, PullbackDensity. unfold O, CreateGaussianKLObjective. cbn [Nat.eqb ob_density gauss_density d_dim gauss_std ga_dim with_coeffs o_map ob_train].
    destruct Hd as [-> _]. destruct E1 as [(_ & -> & _) _]. destruct (Nat.eqb_spec (p_out P) (p_in P)); [congruence|reflexivity].
Qed.
Print Assumptions C51_gaussian.

(** ** TrainMap *)
(** An optimiser run on a function: the points it asks for and how it ends. *)
Inductive ends (f : list R -> dbl * list dbl) : optimiser -> list (list R) -> option (list R * dbl) -> Prop :=
| end_ask x next qs r : ends f (next (fst (f x)) (snd (f x))) qs r -> ends f (Ask x next) (x :: qs) r
| end_stop x e : ends f (Stop x e) [] (Some (x, e))
| end_raise : ends f Raise [] None.
(** It asks for and returns vectors of n numbers. *)
Inductive of_size (n : nat) : optimiser -> Prop :=
| size_ask x next : length x = n -> (forall v g, of_size n (next v g)) -> of_size n (Ask x next)
| size_stop x e : length x = n -> of_size n (Stop x e)
| size_raise : of_size n Raise.
Definition kl_fun (P : pmap) (lp : list R -> R) (g : list R -> list R) (samples : list (list R)) (c : list R) : dbl * list dbl :=
  (Fin (kl P c lp samples), map Fin (kl_grad P c g samples)).

(** TrainMap runs the optimiser on the mathematical objective and its gradient, from the map's coefficients or from ones;
    the map ends up with the coefficients it returns, and its value is returned. When the optimiser throws, the map is
    left with the last coefficients asked for. *)
Theorem C66_train : forall s1 s2 st L K P lp g O M alg, schedules s1 -> schedules s2 -> trainable st L K P (ob_density O) lp g -> is_mat (p_in P) (ob_train O) -> mx_cols (ob_train O) <> [] ->
  o_map M = K -> (o_coeffs M = None \/ exists c, o_coeffs M = Some c /\ length c = p_nc P) -> (forall c, length c = p_nc P -> of_size (p_nc P) (alg c)) ->
  let start := match o_coeffs M with Some c => c | None => repeat 1 (p_nc P) end in
  exists qs r, ends (kl_fun P lp g (mx_cols (ob_train O))) (alg start) qs r /\
    TrainMap s1 s2 alg O M = Ok (match r with Some (x, e) => (with_coeffs K x, Some e) | None => (with_coeffs K (last qs start), None) end) /\
    match r with Some (x, _) => length x = p_nc P | None => True end.
Proof.
  intros s1 s2 st L K P lp g O M alg A1 A2 HT Hd Hn HM HMc Halg start.
  assert (Hnc : m_nc K = p_nc P) by apply HT.
  assert (Ls : length start = p_nc P) by (unfold start; destruct HMc as [->|(c & -> & Lc)]; [apply repeat_length|auto]).
  assert (Run : forall opt, of_size (p_nc P) opt -> forall c, length c = p_nc P -> exists qs r, ends (kl_fun P lp g (mx_cols (ob_train O))) opt qs r /\
     run_optimiser s1 s2 O opt (with_coeffs K c) = Ok (with_coeffs K (last qs c), r) /\ match r with Some (x, _) => length x = p_nc P | None => True end).
  { intros opt H. induction H as [x next Hx _ IH|x e Hx|]; intros c Lc.
    - cbn [run_optimiser]. destruct (C51_calls s1 s2 st L K P lp g O x (repeat (Fin 0) (length x)) (with_coeffs K c) A1 A2 HT Hd Hn Hx ltac:(rewrite repeat_length; auto) eq_refl) as (_ & _ & E). rewrite E. cbn [obind fst snd].
      destruct (IH (Fin (kl P x lp (mx_cols (ob_train O)))) (map Fin (kl_grad P x g (mx_cols (ob_train O)))) x Hx) as (qs & r & E1 & E2 & E3). exists (x :: qs), r. split; [constructor; exact E1|]. split; auto. rewrite E2. do 3 f_equal.
      destruct qs as [|q qs]; [reflexivity|]. clear. revert q. induction qs as [|q' qs IH]; intros q; [reflexivity|]. change (last (q :: q' :: qs) x) with (last (q' :: qs) x). change (last (x :: q :: q' :: qs) c) with (last (q :: q' :: qs) c). change (last (q :: q' :: qs) c) with (last (q' :: qs) c). rewrite IH. reflexivity.
    - exists [], (Some (x, e)). split; [constructor|]. split; auto.
    - exists [], None. split; [constructor|]. split; auto. }
  unfold TrainMap.
  assert (Start : (if (length (o_c M) =? 0)%nat then o_SetCoeffs M (repeat 1 (m_nc (o_map M))) else Ok M) = Ok (with_coeffs K start)).
  { unfold o_c, o_SetCoeffs, start, with_coeffs. rewrite HM, Hnc. destruct HMc as [E|(c & E & Lc)]; rewrite E.
    - reflexivity.
    - rewrite Lc. destruct (Nat.eqb_spec (p_nc P) 0) as [Z|Z].
      + rewrite Z. cbn [repeat length Nat.eqb]. rewrite Z in Lc. destruct c; [reflexivity|discriminate].
      + destruct M as [K' oc]. cbn in *. subst. reflexivity. }
  rewrite Start. cbn [obind]. change (o_c (with_coeffs K start)) with start.
  destruct (Run (alg start) (Halg start Ls) start Ls) as (qs & r & E1 & E2 & E3). exists qs, r. split; auto. split; auto. rewrite E2. cbn [obind fst snd]. destruct r as [[x e]|]; [|reflexivity].
  unfold o_SetCoeffs. cbn [with_coeffs o_coeffs o_map]. rewrite Hnc, E3, Nat.eqb_refl. reflexivity.
Qed.
Print Assumptions C66_train.

(** If the optimiser returns the value it was told for its point, TrainMap returns the training error of the trained map. *)
Theorem C66_error : forall s1 s2 st L K P lp g O M alg M' e, schedules s1 -> schedules s2 -> trainable st L K P (ob_density O) lp g -> is_mat (p_in P) (ob_train O) -> mx_cols (ob_train O) <> [] ->
  o_map M = K -> (o_coeffs M = None \/ exists c, o_coeffs M = Some c /\ length c = p_nc P) -> (forall c, length c = p_nc P -> of_size (p_nc P) (alg c)) ->
  (forall c qs x e, ends (kl_fun P lp g (mx_cols (ob_train O))) (alg c) qs (Some (x, e)) -> e = Fin (kl P x lp (mx_cols (ob_train O)))) ->
  TrainMap s1 s2 alg O M = Ok (M', Some e) -> TrainError s1 O M' = Ok e.
Proof.
  intros s1 s2 st L K P lp g O M alg M' e A1 A2 HT Hd Hn HM HMc Halg Hon E.
  destruct (C66_train s1 s2 st L K P lp g O M alg A1 A2 HT Hd Hn HM HMc Halg) as (qs & r & E1 & E2 & E3). rewrite E in E2. destruct r as [[x e']|]; [|discriminate]. injection E2 as -> ->.
  rewrite (Hon _ _ _ _ E1). unfold TrainError. apply (C51_objective s1 st L K P (ob_density O) lp g); auto.
Qed.
Print Assumptions C66_error.

(** ** Examples: a map made by CreateTriangular with 31 coefficients, 4 inputs and 3 outputs, on two samples *)
Definition ex_train : matrix := MkMat 4 [[1; 2; 3; 4]; [0; -1; 1; /2]] 1 4.
Lemma ex_triangular : exists P S T, CreateTriangular 7 S 4 3 2 hermite_opts = Ok T /\ imp_eval T P /\ imp_logdet T P /\ imp_cgrad T P /\ imp_ldc T P /\ p_in P = 4%nat /\ p_out P = 3%nat /\ p_nc P = 31%nat.
Proof.
  assert (HS : supported hermite_opts 2) by (split; [intros _; lia|]; split; [exact I|left; split; reflexivity]).
  destruct (C64_triangular_partial 7 4 3 2 hermite_opts ltac:(cbn; lia) ltac:(lia) HS eq_refl ltac:(cbn; lia)) as (comps & pts & wts & alphas & L & CC & _ & (S & HSc) & X).
  destruct (X S HSc) as (T & E & A & B & C & D & CG & Gr & F). destruct (F eq_refl) as (LD & LC & LI). exists (triangular_spec 4 3 pts wts hermite_opts alphas), S, T.
  repeat (split; [assumption|]). split; [reflexivity|]. split; [reflexivity|]. destruct D as [[_ [_ <-]] _]; rewrite C; reflexivity.
Qed.
Lemma ex_train_ok : is_mat 4 ex_train. Proof. split; [reflexivity|repeat constructor]. Qed.
Example C51_example : exists P S T, CreateTriangular 7 S 4 3 2 hermite_opts = Ok T /\ let O := CreateGaussianKLObjective ex_sched ex_train no_matrix 3 in
  trainable (fun s => s = 1%nat) any_layout T P (ob_density O) (std_lp 3) (map Ropp) /\
  TrainError ex_sched O (with_coeffs T (repeat 2 31)) =
    Ok (Fin (mean (map (fun x => / 2 * dot (p_eval P (repeat 2 31) x) (p_eval P (repeat 2 31) x) + / 2 * (INR 3 * ln (2 * PI)) - p_logdet P (repeat 2 31) x) [[1; 2; 3; 4]; [0; -1; 1; /2]]))) /\
  (exists v, TrainCoeffGrad ex_sched O (with_coeffs T (repeat 2 31)) = Ok v /\ length v = 31%nat) /\
  TestError ex_sched O (with_coeffs T (repeat 2 31)) = Throw /\
  TrainError ex_sched (CreateGaussianKLObjective ex_sched ex_train no_matrix 0) (with_coeffs T (repeat 2 31)) = Throw.
Proof.
  destruct ex_triangular as (P & S & T & E & E1 & E2 & E3 & E4 & N1 & N2 & N3). exists P, S, T. split; [exact E|]. intros O.
  pose proof (gauss_trainable ex_sched T P ex_sched_ok E1 E2 E3 E4) as HT. rewrite N2 in HT.
  assert (Lc : length (repeat 2 31) = p_nc P) by (rewrite N3; apply repeat_length).
  assert (HM : is_mat (p_in P) ex_train) by (rewrite N1; apply ex_train_ok).
  split; [exact HT|]. split.
  { pose proof (proj1 (C51_gaussian ex_sched ex_sched T P ex_train no_matrix 3 _ ex_sched_ok ex_sched_ok E1 E2 E3 E4 Lc HM ltac:(discriminate)) ltac:(left; split; [auto|discriminate])) as R1. rewrite N2 in R1. exact R1. }
  split; [|split; [reflexivity|]].
  - destruct (C51_calls ex_sched ex_sched _ _ T P _ _ O (repeat 2 31) (repeat (Fin 0) (p_nc P)) (with_coeffs T (repeat 2 31)) ex_sched_ok ex_sched_ok HT HM ltac:(discriminate) Lc (repeat_length _ _) eq_refl) as (_ & R1 & _).
    eexists. split; [exact R1|]. rewrite map_length. unfold kl_grad, vmean. rewrite map_length, seq_length. exact N3.
  - apply (proj2 (C51_gaussian ex_sched ex_sched T P ex_train no_matrix 0 _ ex_sched_ok ex_sched_ok E1 E2 E3 E4 Lc HM ltac:(discriminate))); congruence.
Qed.
(** The same objective with the samples swapped, and a gradient array with a gap between its entries. *)
Example C51_order_example : Permutation (mx_cols ex_train) (mx_cols (MkMat 4 (rev (mx_cols ex_train)) 4 1)) /\ inside 31 (MkVec (repeat NaN 100) 3 2 31).
Proof. split; [apply Permutation_rev|]. split; [reflexivity|]. split; [cbn; lia|]. intros j Hj. unfold place. cbn [v_off v_stride v_buf]. rewrite repeat_length. lia. Qed.
(** One step of gradient descent that keeps the better point. *)
Definition ex_step (c : list R) (g : list dbl) : list R := map (fun i => coord c i - match nth i g NaN with Fin d => d / 10 | _ => 0 end) (seq 0 (length c)).
Definition ex_descent (c : list R) : optimiser := Ask c (fun v g => Ask (ex_step c g) (fun v' _ =>
  match v, v' with Fin a, Fin b => if Rlt_dec b a then Stop (ex_step c g) v' else Stop c v | _, _ => Raise end)).
Example C66_example : exists P S T, CreateTriangular 7 S 4 3 2 hermite_opts = Ok T /\ let O := CreateGaussianKLObjective ex_sched ex_train no_matrix 3 in
  exists M' e, TrainMap ex_sched ex_sched ex_descent O (MkObj T None) = Ok (M', Some (Fin e)) /\ TrainError ex_sched O M' = Ok (Fin e) /\
    e <= kl P (repeat 1 31) (std_lp 3) (mx_cols ex_train) /\ (exists c, M' = with_coeffs T c /\ length c = 31%nat).
Proof.
  destruct ex_triangular as (P & S & T & E & E1 & E2 & E3 & E4 & N1 & N2 & N3). exists P, S, T. split; [exact E|]. intros O.
  pose proof (gauss_trainable ex_sched T P ex_sched_ok E1 E2 E3 E4) as HT. rewrite N2 in HT.
  assert (HM : is_mat (p_in P) (ob_train O)) by (rewrite N1; apply ex_train_ok).
  assert (Hs : forall c, length c = p_nc P -> of_size (p_nc P) (ex_descent c)).
  { intros c Lc. unfold ex_descent. constructor; auto. intros v g. assert (Lst : length (ex_step c g) = p_nc P) by (unfold ex_step; rewrite map_length, seq_length; auto). constructor; auto.
    intros v' _. destruct v, v'; try constructor. destruct (Rlt_dec _ _); constructor; auto. }
  assert (Hh : forall c qs x e, ends (kl_fun P (std_lp 3) (map Ropp) (mx_cols (ob_train O))) (ex_descent c) qs (Some (x, e)) -> e = Fin (kl P x (std_lp 3) (mx_cols (ob_train O)))).
  { intros c qs x e H. inversion_clear H as [? ? ? ? H1| |]. inversion_clear H1 as [? ? ? ? H2| |]. cbn [fst kl_fun] in H2. destruct (Rlt_dec _ _); inversion H2; reflexivity. }
  destruct (C66_train ex_sched ex_sched _ _ T P _ _ O (MkObj T None) ex_descent ex_sched_ok ex_sched_ok HT HM ltac:(discriminate) eq_refl ltac:(left; reflexivity) Hs) as (qs & r & R1 & R2 & R3).
  cbn [o_coeffs] in R1. inversion R1 as [? ? qs1 ? R4| |]; subst. inversion R4 as [? ? qs2 ? R5| |]; subst. cbn [fst snd kl_fun] in R5.
  assert (X : exists x e, r = Some (x, Fin e) /\ e <= kl P (repeat 1 (p_nc P)) (std_lp 3) (mx_cols (ob_train O))).
  { destruct (Rlt_dec _ _) as [Hl|Hl]; inversion R5; subst; do 2 eexists; (split; [reflexivity|]); [apply Rlt_le; exact Hl|right; reflexivity]. }
  destruct X as (x & e & -> & Hle). rewrite N3 in Hle. exists (with_coeffs T x), e. split; [exact R2|]. split.
  - apply (C66_error ex_sched ex_sched _ _ T P _ _ O (MkObj T None) ex_descent _ _ ex_sched_ok ex_sched_ok HT HM ltac:(discriminate) eq_refl ltac:(left; reflexivity) Hs Hh R2).
  - split; [exact Hle|]. exists x. split; auto. congruence.
Qed.
