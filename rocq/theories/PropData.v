(** C77: objects built from arrays keep the values the arrays had. *)
From Coq Require Import Reals List Lia Lra.
From Verif Require Import SpecFactory FactoryModel PropBuild Base SpecExpansion SpecMaps SpecDensity SpecGauss ExpansionModel MonoModel MapsModel LeafModel MapsContract
  DensityModel DensityProofs ReduceModel ReduceProofs GaussModel GaussProofs PropGauss PropDensity ObjectiveModel PropObjective PropLeaf DataModel.
Import ListNotations.
Local Open Scope R_scope.

(** ** What a caller sees *)
(** The samples of two matrices; the distances between entries in memory may differ. *)
Definition same_samples (m m' : matrix) : Prop := mx_rows m = mx_rows m' /\ mx_cols m = mx_cols m'.
Definition same_test (m m' : option matrix) : Prop :=
  match m, m' with None, None => True | Some m, Some m' => same_samples m m' | _, _ => False end.
Definition test_or_none (m : option matrix) : matrix := match m with Some m => m | None => no_matrix end.
(** Every call on objective [k] of world [w] answers as an objective made from [train] and [test] does. *)
Definition answers_for (w : world) (k : nat) (train : matrix) (test : option matrix) (dim : nat) : Prop :=
  exists train' test', same_samples train train' /\ same_test test test' /\
  forall s1 s2 sch M alg, let ob := CreateGaussianKLObjective sch train' (test_or_none test') dim in
    call_TrainError s1 sch w k M = TrainError s1 ob M /\
    call_TestError s1 sch w k M = TestError s1 ob M /\
    call_TrainCoeffGrad s2 sch w k M = TrainCoeffGrad s2 ob M /\
    call_TrainMap s1 s2 sch alg w k M = TrainMap s1 s2 alg ob M.
(** Every call that reads the training samples is undefined. *)
Definition dead (w : world) (k : nat) : Prop :=
  forall s1 s2 sch M alg,
    call_TrainError s1 sch w k M = UB /\ call_TrainCoeffGrad s2 sch w k M = UB /\ call_TrainMap s1 s2 sch alg w k M = UB.
(** Object [k] outlives the events; array [a] is not written; array [a] is neither written nor given up. *)
Definition outlives (k : nat) (es : list event) : Prop := ~ In (Destroy k) es.
Definition unwritten (a : nat) (es : list event) : Prop := forall c, ~ In (Write a c) es.
Definition untouched (a : nat) (es : list event) : Prop := unwritten a es /\ ~ In (Drop a) es.

(** ** Lemmas on arrays *)
Lemma mapi_nth {A B} (f : nat -> A -> B) l : forall n i, nth_error (mapi f n l) i = match nth_error l i with Some a => Some (f (n + i)%nat a) | None => None end.
Proof. induction l as [|a l IH]; intros n [|i]; cbn; auto; [rewrite Nat.add_0_r; auto|]. rewrite IH. replace (Datatypes.S n + i)%nat with (n + Datatypes.S i)%nat by lia. reflexivity. Qed.
Lemma collect_nth w a : nth_error (w_arrays (collect w)) a = match nth_error (w_arrays w) a with Some x => Some (release (w_objs w) a x) | None => None end.
Proof. unfold collect. cbn [w_arrays]. rewrite mapi_nth. reflexivity. Qed.
Lemma nth_app_l {A} (l l' : list A) i x : nth_error l i = Some x -> nth_error (l ++ l') i = Some x.
Proof. intros H. rewrite nth_error_app1; auto. apply nth_error_Some. congruence. Qed.
Lemma live_intro objs k o a : nth_error objs k = Some (Some o) -> In a (refs o) -> live objs a = true.
Proof.
  intros H Ha. apply existsb_exists. exists (Some o). split; [apply (nth_error_In _ _ H)|]. apply existsb_exists. exists a. split; auto. apply Nat.eqb_refl.
Qed.

(** The arrays of a world grow, the objects too. *)
Lemma make_kl_grows l w t te dim w' : make_kl l w t te dim = Some w' -> (exists x, w_arrays w' = w_arrays w ++ x) /\ (exists y, w_objs w' = w_objs w ++ y).
Proof.
  unfold make_kl. destruct (user_samples w t); [|discriminate]. destruct (opt_arg (user_samples w) te) as [mt|]; [|discriminate].
  destruct l; [| | |]; try destruct mt; intros H; injection H as <-; cbn [w_arrays w_objs]; (split; [try (exists []; rewrite app_nil_r; reflexivity); eexists; reflexivity|eexists; reflexivity]).
Qed.
Lemma make_affine_grows lib w A b w' : make_affine lib w A b = Some w' -> (exists x, w_arrays w' = w_arrays w ++ x) /\ (exists y, w_objs w' = w_objs w ++ y).
Proof.
  unfold make_affine. destruct (opt_arg (user_rows w) A) as [[A'|]|]; destruct (opt_arg (user_numbers w) b) as [[b'|]|]; try discriminate.
  - destruct (aff_ctor_Ab lib A' b'); try discriminate. intros H; injection H as <-. split; eexists; reflexivity.
  - destruct (aff_ctor_A lib A'); try discriminate. intros H; injection H as <-. split; eexists; reflexivity.
  - intros H; injection H as <-. split; eexists; reflexivity.
Qed.

Section Keep.
Variable lib : list (list R) -> LU.
(** An object keeps existing until it is destroyed. *)
Lemma step_obj w e w' k o : step lib w e w' -> e <> Destroy k -> nth_error (w_objs w) k = Some o -> nth_error (w_objs w') k = Some o.
Proof.
  intros H He Ho. destruct H as [w c ct|w a x c0 c H1 H2 H3 H4|w a x H1 H2|w l t te dim w' H|w A b w' H|w k' o' H]; cbn [w_objs collect]; auto.
  - destruct (make_kl_grows _ _ _ _ _ _ H) as (_ & y & ->). apply nth_app_l; auto.
  - destruct (make_affine_grows _ _ _ _ _ H) as (_ & y & ->). apply nth_app_l; auto.
  - rewrite nth_error_upd_neq; [auto|congruence].
Qed.
Lemma run_obj w es w' k o : run lib w es w' -> outlives k es -> nth_error (w_objs w) k = Some o -> nth_error (w_objs w') k = Some o.
Proof.
  induction 1 as [|w e w1 es w2 S _ IH]; intros Hk Ho; auto. apply IH; [intros X; apply Hk; right; auto|].
  apply (step_obj _ _ _ _ _ S); auto. intros ->. apply Hk. left. reflexivity.
Qed.

(** Memory with a reference: it stays, whatever the program does; only the program's writes change it. *)
Definition kept (w : world) (k a : nat) (c : content) (user : bool) : Prop :=
  exists o, nth_error (w_objs w) k = Some (Some o) /\ In a (refs o) /\ nth_error (w_arrays w) a = Some (MkArr (Some c) user true).
Lemma release_kept objs k o a c u : nth_error objs k = Some (Some o) -> In a (refs o) -> release objs a (MkArr (Some c) u true) = MkArr (Some c) u true.
Proof. intros H Ha. unfold release. cbn [ar_user ar_counted]. rewrite (live_intro _ _ _ _ H Ha). cbn [andb]. rewrite orb_true_r. reflexivity. Qed.
Lemma step_kept w e w' k a c u : step lib w e w' -> e <> Destroy k -> kept w k a c u ->
  exists c' u', kept w' k a c' u' /\ (u = false -> u' = false) /\ (c' = c \/ u = true /\ e = Write a c' /\ same_shape c c').
Proof.
  intros H He (o & Ho & Ha & HA). pose proof (step_obj _ _ _ _ _ H He Ho) as Ho'.
  destruct H as [w c1 ct|w b x c0 c1 H1 H2 H3 H4|w b x H1 H2|w l t te dim w' H|w A b w' H|w k' o' H].
  - exists c, u. split; [|auto]. exists o. repeat (split; auto). apply nth_app_l; auto.
  - destruct (Nat.eq_dec a b) as [<-|Hab].
    + rewrite HA in H1. injection H1 as <-. cbn [ar_user ar_data ar_counted] in *. subst u. injection H3 as <-.
      exists c1, true. split; [|auto]. exists o. repeat (split; auto). cbn [w_arrays]. apply nth_error_upd_eq. apply nth_error_Some. congruence.
    + exists c, u. split; [|auto]. exists o. repeat (split; auto). cbn [w_arrays]. rewrite nth_error_upd_neq; auto.
  - destruct (Nat.eq_dec a b) as [<-|Hab].
    + rewrite HA in H1. injection H1 as <-. cbn [ar_user ar_data ar_counted] in *.
      exists c, false. split; [|auto]. exists o. repeat (split; auto). rewrite collect_nth. cbn [w_arrays w_objs]. rewrite nth_error_upd_eq by (apply nth_error_Some; congruence).
      rewrite (release_kept _ k o); auto.
    + exists c, u. split; [|auto]. exists o. repeat (split; auto). rewrite collect_nth. cbn [w_arrays w_objs]. rewrite nth_error_upd_neq by auto. rewrite HA.
      rewrite (release_kept _ k o); auto.
  - exists c, u. split; [|auto]. exists o. repeat (split; auto). destruct (make_kl_grows _ _ _ _ _ _ H) as ((x & ->) & _). apply nth_app_l; auto.
  - exists c, u. split; [|auto]. exists o. repeat (split; auto). destruct (make_affine_grows _ _ _ _ _ H) as ((x & ->) & _). apply nth_app_l; auto.
  - exists c, u. split; [|auto]. exists o. repeat (split; auto). rewrite collect_nth. cbn [w_arrays w_objs]. rewrite HA. cbn [collect w_objs] in Ho'.
    rewrite (release_kept _ k o); auto.
Qed.
Lemma shape_refl c : same_shape c c. Proof. destruct c; cbn; auto. Qed.
Lemma shape_trans a b c : same_shape a b -> same_shape b c -> same_shape a c.
Proof. destruct a, b, c; cbn; try tauto; intuition congruence. Qed.
Lemma run_kept w es w' k a c u : run lib w es w' -> outlives k es -> kept w k a c u ->
  exists c' u', kept w' k a c' u' /\ same_shape c c' /\ (u = false \/ unwritten a es -> c' = c).
Proof.
  intros H. revert c u. induction H as [w|w e w1 es w2 S R IH]; intros c u Hk HK; [exists c, u; split; auto; split; auto; apply shape_refl|].
  assert (Hek : e <> Destroy k) by (intros ->; apply Hk; left; reflexivity). assert (Hk' : outlives k es) by (intros X; apply Hk; right; auto).
  destruct (step_kept _ _ _ _ _ _ _ S Hek HK) as (c1 & u1 & K1 & U1 & C1).
  destruct (IH c1 u1 Hk' K1) as (c2 & u2 & K2 & S2 & C2).
  exists c2, u2. split; auto. split.
  - apply (shape_trans _ c1); auto. destruct C1 as [->|(_ & _ & C1)]; auto. apply shape_refl.
  - intros [->|HU].
    + rewrite (C2 (or_introl (U1 eq_refl))). destruct C1 as [->|(X & _)]; auto. discriminate X.
    + rewrite C2 by (right; intros c3 X; apply (HU c3); right; auto). destruct C1 as [->|(_ & -> & _)]; auto. exfalso. apply (HU c1). left. reflexivity.
Qed.

(** Memory without references: the program keeps it as long as it does not give it up. *)
Lemma step_user w e w' a c ct : step lib w e w' -> (forall c, e <> Write a c) -> e <> Drop a -> nth_error (w_arrays w) a = Some (MkArr (Some c) true ct) ->
  nth_error (w_arrays w') a = Some (MkArr (Some c) true ct).
Proof.
  intros H H1 H2 HA. destruct H as [w c1 ct1|w b x c0 c1 E1 E2 E3 E4|w b x E1 E2|w l t te dim w' H|w A b w' H|w k' o' H].
  - apply nth_app_l; auto.
  - cbn [w_arrays]. rewrite nth_error_upd_neq; auto. intros ->. apply (H1 c1). reflexivity.
  - rewrite collect_nth. cbn [w_arrays w_objs]. rewrite nth_error_upd_neq by congruence. rewrite HA. reflexivity.
  - destruct (make_kl_grows _ _ _ _ _ _ H) as ((x & ->) & _). apply nth_app_l; auto.
  - destruct (make_affine_grows _ _ _ _ _ H) as ((x & ->) & _). apply nth_app_l; auto.
  - rewrite collect_nth. cbn [w_arrays w_objs]. rewrite HA. reflexivity.
Qed.
Lemma run_user w es w' a c ct : run lib w es w' -> untouched a es -> nth_error (w_arrays w) a = Some (MkArr (Some c) true ct) ->
  nth_error (w_arrays w') a = Some (MkArr (Some c) true ct).
Proof.
  induction 1 as [|w e w1 es w2 S _ IH]; intros (U1 & U2) HA; auto. apply IH.
  - split; [intros c1 X; apply (U1 c1); right; auto|intros X; apply U2; right; auto].
  - apply (step_user _ _ _ _ _ _ S); auto; [intros c1 ->; apply (U1 c1); left; reflexivity|intros ->; apply U2; left; reflexivity].
Qed.
(** Released memory stays released. *)
Lemma step_gone w e w' a ct : step lib w e w' -> nth_error (w_arrays w) a = Some (MkArr None false ct) -> nth_error (w_arrays w') a = Some (MkArr None false ct).
Proof.
  intros H HA. assert (HR : forall objs, release objs a (MkArr None false ct) = MkArr None false ct) by (intros; unfold release; cbn [ar_user ar_counted]; destruct (false || _); reflexivity).
  destruct H as [w c1 ct1|w b x c0 c1 E1 E2 E3 E4|w b x E1 E2|w l t te dim w' H|w A b w' H|w k' o' H].
  - apply nth_app_l; auto.
  - cbn [w_arrays]. rewrite nth_error_upd_neq; auto. intros ->. rewrite HA in E1. injection E1 as <-. discriminate E2.
  - rewrite collect_nth. cbn [w_arrays w_objs]. rewrite nth_error_upd_neq; [rewrite HA, HR; reflexivity|]. intros ->. rewrite HA in E1. injection E1 as <-. discriminate E2.
  - destruct (make_kl_grows _ _ _ _ _ _ H) as ((x & ->) & _). apply nth_app_l; auto.
  - destruct (make_affine_grows _ _ _ _ _ H) as ((x & ->) & _). apply nth_app_l; auto.
  - rewrite collect_nth. cbn [w_arrays w_objs]. rewrite HA, HR. reflexivity.
Qed.
Lemma run_gone w es w' a ct : run lib w es w' -> nth_error (w_arrays w) a = Some (MkArr None false ct) -> nth_error (w_arrays w') a = Some (MkArr None false ct).
Proof. induction 1; auto. intros X. apply IHrun. eapply step_gone; eauto. Qed.
End Keep.

(** ** Calls see the training samples, the test samples and the density *)
Lemma run_optimiser_ext s1 s2 ob ob' opt : ob_train ob = ob_train ob' -> ob_density ob = ob_density ob' -> forall M, run_optimiser s1 s2 ob opt M = run_optimiser s1 s2 ob' opt M.
Proof.
  intros E1 E2. induction opt as [x next IH| |]; intros M; cbn [run_optimiser]; auto.
  replace (ob_call s1 s2 ob x (repeat (Fin 0) (length x)) M) with (ob_call s1 s2 ob' x (repeat (Fin 0) (length x)) M) by (unfold ob_call; rewrite E1, E2; reflexivity).
  destruct (ob_call s1 s2 ob' x (repeat (Fin 0) (length x)) M) as [r| | |]; cbn [obind]; auto.
Qed.
Lemma TrainMap_ext s1 s2 alg ob ob' M : ob_train ob = ob_train ob' -> ob_density ob = ob_density ob' -> TrainMap s1 s2 alg ob M = TrainMap s1 s2 alg ob' M.
Proof.
  intros E1 E2. unfold TrainMap. destruct (if (length (o_c M) =? 0)%nat then _ else _) as [M'| | |]; cbn [obind]; auto.
  rewrite (run_optimiser_ext s1 s2 ob ob') by auto. reflexivity.
Qed.
Lemma answers w k cnt t te train test dim : nth_error (w_objs w) k = Some (Some (KL cnt (kl_dim train dim) t te)) -> lib_samples w t = Ok train ->
  (match te, test with None, None => True | Some te, Some test => lib_samples w te = Ok test | _, _ => False end) ->
  forall s1 s2 sch M alg, let ob := CreateGaussianKLObjective sch train (test_or_none test) dim in
    call_TrainError s1 sch w k M = TrainError s1 ob M /\
    call_TestError s1 sch w k M = TestError s1 ob M /\
    call_TrainCoeffGrad s2 sch w k M = TrainCoeffGrad s2 ob M /\
    call_TrainMap s1 s2 sch alg w k M = TrainMap s1 s2 alg ob M.
Proof.
  intros Ho Ht Hte s1 s2 sch M alg ob. unfold call_TrainError, call_TestError, call_TrainCoeffGrad, call_TrainMap, at_train, at_test. rewrite Ho.
  rewrite Ht. cbn [obind]. split; [reflexivity|]. split; [|split; [reflexivity|apply TrainMap_ext; reflexivity]].
  destruct te as [te|], test as [test|]; try contradiction; [rewrite Hte|]; reflexivity.
Qed.
Lemma same_refl m : same_samples m m. Proof. split; reflexivity. Qed.
Lemma copy_same m : same_samples m (copy_mat m). Proof. split; reflexivity. Qed.
Lemma kl_dim_same m m' dim : mx_rows m = mx_rows m' -> kl_dim m dim = kl_dim m' dim.
Proof. unfold kl_dim. intros ->. reflexivity. Qed.
Lemma kept_samples w k a m u : kept w k a (Samples m) u -> lib_samples w a = Ok m.
Proof. intros (o & _ & _ & H). unfold lib_samples. rewrite H. reflexivity. Qed.

(** ** The theorems *)
(** Python and Julia: the objective answers for the samples it was built from, whatever happens to the arrays. *)
Theorem C77_copies : forall lib l w t te dim train test, l = Python \/ l = Julia ->
  user_samples w t = Some train -> opt_arg (user_samples w) te = Some test ->
  exists w1, step lib w (MakeKL l t te dim) w1 /\ let k := length (w_objs w) in
  forall es w2, run lib w1 es w2 -> outlives k es -> answers_for w2 k train test dim.
Proof.
  intros lib l w t te dim train test Hl Ht Hte.
  assert (E : make_kl l w t te dim = make_kl Python w t te dim) by (destruct Hl as [->| ->]; reflexivity).
  unfold make_kl in E. rewrite Ht, Hte in E. set (k := length (w_objs w)). set (a := length (w_arrays w)) in E.
  destruct test as [test|].
  - exists (MkW (w_arrays w ++ [own (Samples (copy_mat train)); own (Samples (copy_mat test))]) (w_objs w ++ [Some (KL true (kl_dim train dim) a (Some (Datatypes.S a)))])).
    split; [constructor; unfold make_kl; rewrite Ht, Hte; exact E|]. cbv zeta. intros es w2 HR Hk.
    assert (K0 : nth_error (w_objs w ++ [Some (KL true (kl_dim train dim) a (Some (Datatypes.S a)))]) k = Some (Some (KL true (kl_dim train dim) a (Some (Datatypes.S a))))) by (unfold k; rewrite nth_error_app2, Nat.sub_diag by lia; reflexivity).
    pose proof (run_obj _ _ _ _ k _ HR Hk K0) as K1.
    destruct (run_kept _ _ _ _ k a (Samples (copy_mat train)) false HR Hk) as (c1 & u1 & X1 & _ & X2).
    { eexists. split; [exact K0|]. split; [left; reflexivity|]. cbn [w_arrays]. unfold a. rewrite nth_error_app2, Nat.sub_diag by lia. reflexivity. }
    rewrite (X2 (or_introl eq_refl)) in X1.
    destruct (run_kept _ _ _ _ k (Datatypes.S a) (Samples (copy_mat test)) false HR Hk) as (c2 & u2 & Y1 & _ & Y2).
    { eexists. split; [exact K0|]. split; [right; left; reflexivity|]. cbn [w_arrays]. unfold a. rewrite nth_error_app2 by lia. replace (Datatypes.S (length (w_arrays w)) - length (w_arrays w))%nat with 1%nat by lia. reflexivity. }
    rewrite (Y2 (or_introl eq_refl)) in Y1.
    exists (copy_mat train), (Some (copy_mat test)). split; [apply copy_same|]. split; [apply copy_same|].
    apply (answers w2 k true a (Some (Datatypes.S a))); [exact K1|eapply kept_samples; exact X1|eapply kept_samples; exact Y1].
  - exists (MkW (w_arrays w ++ [own (Samples (copy_mat train))]) (w_objs w ++ [Some (KL true (kl_dim train dim) a None)])).
    split; [constructor; unfold make_kl; rewrite Ht, Hte; exact E|]. cbv zeta. intros es w2 HR Hk.
    assert (K0 : nth_error (w_objs w ++ [Some (KL true (kl_dim train dim) a None)]) k = Some (Some (KL true (kl_dim train dim) a None))) by (unfold k; rewrite nth_error_app2, Nat.sub_diag by lia; reflexivity).
    pose proof (run_obj _ _ _ _ k _ HR Hk K0) as K1.
    destruct (run_kept _ _ _ _ k a (Samples (copy_mat train)) false HR Hk) as (c1 & u1 & X1 & _ & X2).
    { eexists. split; [exact K0|]. split; [left; reflexivity|]. cbn [w_arrays]. unfold a. rewrite nth_error_app2, Nat.sub_diag by lia. reflexivity. }
    rewrite (X2 (or_introl eq_refl)) in X1.
    exists (copy_mat train), None. split; [apply copy_same|]. split; [exact I|].
    apply (answers w2 k true a None); [exact K1|eapply kept_samples; exact X1|exact I].
Qed.
Print Assumptions C77_copies.

(** The training error in Python and Julia is the mean over the samples the objective was built from. *)
Theorem C77_value : forall lib l w t te dim train test K P c, l = Python \/ l = Julia ->
  user_samples w t = Some train -> opt_arg (user_samples w) te = Some test ->
  imp_eval K P -> imp_logdet K P -> imp_cgrad K P -> imp_ldc K P -> length c = p_nc P ->
  is_mat (p_in P) train -> mx_cols train <> [] -> (dim = p_out P /\ dim <> 0%nat \/ dim = 0%nat /\ p_in P = p_out P) ->
  exists w1, step lib w (MakeKL l t te dim) w1 /\ let k := length (w_objs w) in
  forall es w2, run lib w1 es w2 -> outlives k es -> forall s1 sch, schedules s1 -> schedules sch ->
  call_TrainError s1 sch w2 k (with_coeffs K c) =
    Ok (Fin (mean (map (fun x => / 2 * dot (p_eval P c x) (p_eval P c x) + / 2 * (INR (p_out P) * ln (2 * PI)) - p_logdet P c x) (mx_cols train)))).
Proof.
  intros lib l w t te dim train test K P c Hl Ht Hte E1 E2 E3 E4 Lc HM Hn Hd.
  destruct (C77_copies lib l w t te dim train test Hl Ht Hte) as (w1 & S1 & X). exists w1. split; auto. cbv zeta. intros es w2 HR Hk s1 sch Hs1 Hsch.
  destruct (X es w2 HR Hk) as (tr & ts & (T1 & T2) & _ & Y). destruct (Y s1 s1 sch (with_coeffs K c) (fun _ => Raise)) as (-> & _).
  rewrite T2. apply C51_gaussian; auto.
  - destruct HM as (M1 & M2). split; [congruence|]. rewrite <- T2. exact M2.
  - rewrite <- T2. exact Hn.
Qed.
Print Assumptions C77_value.

(** C++ with views allocated by Kokkos: the samples are never lost, and the objective answers for what
    the arrays contain at the time of the call; that is what they contained at construction if the
    program does not write to them. Missing: later writes change the objective (C77_cpp_refuted). *)
Theorem C77_cpp_partial : forall lib w t te dim train test,
  nth_error (w_arrays w) t = Some (MkArr (Some (Samples train)) true true) ->
  (match te, test with
   | None, None => True
   | Some te, Some test => nth_error (w_arrays w) te = Some (MkArr (Some (Samples test)) true true)
   | _, _ => False end) ->
  exists w1, step lib w (MakeKL Cpp t te dim) w1 /\ let k := length (w_objs w) in
  forall es w2, run lib w1 es w2 -> outlives k es ->
  exists train' test', answers_for w2 k train' test' dim /\ lib_samples w2 t = Ok train' /\
    (unwritten t es -> train' = train) /\
    match te with None => test' = None | Some te => exists m, test' = Some m /\ lib_samples w2 te = Ok m /\ (unwritten te es -> test' = test) end.
Proof.
  intros lib w t te dim train test Ht Hte.
  assert (Ut : user_samples w t = Some train) by (unfold user_samples, user_data; rewrite Ht; reflexivity).
  assert (Ute : opt_arg (user_samples w) te = Some test).
  { destruct te as [te|], test as [test|]; try contradiction; [|reflexivity]. unfold opt_arg, user_samples, user_data. rewrite Hte. reflexivity. }
  set (o := KL true (kl_dim train dim) t te). set (k := length (w_objs w)).
  exists (MkW (w_arrays w) (w_objs w ++ [Some o])). split; [constructor; unfold make_kl; rewrite Ut, Ute; reflexivity|].
  cbv zeta. intros es w2 HR Hk.
  assert (K0 : nth_error (w_objs w ++ [Some o]) k = Some (Some o)) by (unfold k; rewrite nth_error_app2, Nat.sub_diag by lia; reflexivity).
  pose proof (run_obj _ _ _ _ k _ HR Hk K0) as K1.
  destruct (run_kept _ _ _ _ k t (Samples train) true HR Hk) as (c1 & u1 & X1 & X2 & X3).
  { exists o. split; [exact K0|]. split; [left; reflexivity|exact Ht]. }
  destruct c1 as [tr| |]; try contradiction. destruct X2 as (X2 & _).
  assert (Ed : kl_dim train dim = kl_dim tr dim) by (apply kl_dim_same; auto).
  destruct te as [te|], test as [test|]; try contradiction.
  - destruct (run_kept _ _ _ _ k te (Samples test) true HR Hk) as (c2 & u2 & Y1 & Y2 & Y3).
    { exists o. split; [exact K0|]. split; [right; left; reflexivity|exact Hte]. }
    destruct c2 as [ts| |]; try contradiction.
    exists tr, (Some ts). split; [|split; [eapply kept_samples; exact X1|split; [intros U; specialize (X3 (or_intror U)); congruence|]]].
    + exists tr, (Some ts). split; [apply same_refl|]. split; [apply same_refl|].
      apply (answers w2 k true t (Some te)); [rewrite <- Ed; exact K1|eapply kept_samples; exact X1|eapply kept_samples; exact Y1].
    + exists ts. split; [reflexivity|]. split; [eapply kept_samples; exact Y1|]. intros U; specialize (Y3 (or_intror U)); congruence.
  - exists tr, None. split; [|split; [eapply kept_samples; exact X1|split; [intros U; specialize (X3 (or_intror U)); congruence|reflexivity]]].
    exists tr, None. split; [apply same_refl|]. split; [exact I|].
    apply (answers w2 k true t None); [rewrite <- Ed; exact K1|eapply kept_samples; exact X1|exact I].
Qed.
Print Assumptions C77_cpp_partial.

(** A write to the array after construction changes the training error; with memory Kokkos does not
    count, giving up the array makes every call undefined. *)
Theorem C77_cpp_refuted :
  (forall lib w t dim train new, user_samples w t = Some train -> same_shape (Samples train) (Samples new) ->
     exists w1 w2, step lib w (MakeKL Cpp t None dim) w1 /\ run lib w1 [Write t (Samples new)] w2 /\ answers_for w2 (length (w_objs w)) new None dim) /\
  (forall lib w t te dim train test, nth_error (w_arrays w) t = Some (MkArr (Some (Samples train)) true false) -> opt_arg (user_samples w) te = Some test ->
     exists w1, step lib w (MakeKL Cpp t te dim) w1 /\ forall es w2, run lib w1 (Drop t :: es) w2 -> outlives (length (w_objs w)) es -> dead w2 (length (w_objs w))).
Proof.
  split.
  - intros lib w t dim train new Ht HS. set (k := length (w_objs w)). set (o := KL true (kl_dim train dim) t None).
    assert (HA : exists x, nth_error (w_arrays w) t = Some x /\ ar_user x = true /\ ar_data x = Some (Samples train)).
    { unfold user_samples, user_data in Ht. destruct (nth_error (w_arrays w) t) as [x|]; [|discriminate Ht]. exists x. split; auto. destruct (ar_user x); [|discriminate Ht]. split; auto.
      destruct (ar_data x) as [[m| |]|]; try discriminate Ht. congruence. }
    destruct HA as (x & A1 & A2 & A3).
    eexists. eexists. split; [constructor; unfold make_kl; rewrite Ht; reflexivity|]. split.
    { econstructor; [|constructor]. eapply s_write; [exact A1|exact A2|exact A3|exact HS]. }
    exists new, None. split; [apply same_refl|]. split; [exact I|]. apply (answers _ k true t None); [|unfold lib_samples; cbn [w_arrays]; rewrite nth_error_upd_eq by (apply nth_error_Some; congruence); reflexivity|exact I].
    cbn [w_objs]. unfold k. rewrite nth_error_app2, Nat.sub_diag by lia. cbn [nth_error]. rewrite (kl_dim_same train new) by apply HS. reflexivity.
  - intros lib w t te dim train test Ht Hte.
    assert (Ut : user_samples w t = Some train) by (unfold user_samples, user_data; rewrite Ht; reflexivity).
    eexists. split; [constructor; unfold make_kl; rewrite Ut, Hte; reflexivity|]. cbv zeta. intros es w2 HR Hk. inversion HR as [|? ? w3 ? ? S3 R3]; subst.
    inversion S3 as [| |? ? x E1 E2| | |]; subst. cbn [w_arrays w_objs] in *. rewrite Ht in E1. injection E1 as <-. cbn [ar_data ar_counted] in *.
    assert (G : nth_error (w_arrays w2) t = Some (MkArr None false false)).
    { apply (run_gone _ _ _ _ _ _ R3). rewrite collect_nth. cbn [w_arrays w_objs]. rewrite nth_error_upd_eq by (apply nth_error_Some; congruence). reflexivity. }
    assert (K1 : nth_error (w_objs w2) (length (w_objs w)) = Some (Some (KL true (kl_dim train dim) t te))).
    { apply (run_obj _ _ _ _ _ _ R3 Hk). cbn [collect w_objs]. rewrite nth_error_app2, Nat.sub_diag by lia. reflexivity. }
    intros s1 s2 sch M alg. unfold call_TrainError, call_TrainCoeffGrad, call_TrainMap, at_train. rewrite K1. unfold lib_samples. rewrite G. cbn [ar_data obind]. auto.
Qed.
Print Assumptions C77_cpp_refuted.

(** MATLAB: the objective answers for its samples as long as the variables exist and are not written. *)
Theorem C77_matlab_partial : forall lib w t te dim train test, user_samples w t = Some train -> opt_arg (user_samples w) te = Some test ->
  exists w1, step lib w (MakeKL Matlab t te dim) w1 /\ let k := length (w_objs w) in
  forall es w2, run lib w1 es w2 -> outlives k es -> untouched t es -> (forall a, te = Some a -> untouched a es) ->
  answers_for w2 k train test dim.
Proof.
  intros lib w t te dim train test Ht Hte. set (o := KL false (kl_dim train dim) t te). set (k := length (w_objs w)).
  exists (MkW (w_arrays w) (w_objs w ++ [Some o])). split; [constructor; unfold make_kl; rewrite Ht, Hte; reflexivity|].
  cbv zeta. intros es w2 HR Hk HU HUe.
  assert (K0 : nth_error (w_objs w ++ [Some o]) k = Some (Some o)) by (unfold k; rewrite nth_error_app2, Nat.sub_diag by lia; reflexivity).
  pose proof (run_obj _ _ _ _ k _ HR Hk K0) as K1.
  assert (G : forall a m, user_samples w a = Some m -> untouched a es -> lib_samples w2 a = Ok m).
  { intros a m Ha Ua. unfold user_samples, user_data in Ha. destruct (nth_error (w_arrays w) a) as [[d u ct]|] eqn:E; [|discriminate Ha]. cbn [ar_user ar_data] in Ha. destruct u; [|discriminate Ha].
    destruct d as [[m'| |]|]; try discriminate Ha. injection Ha as ->. unfold lib_samples. rewrite (run_user _ _ _ _ _ _ _ HR Ua E). reflexivity. }
  exists train, test. split; [apply same_refl|]. split; [destruct test; [apply same_refl|exact I]|].
  apply (answers w2 k false t te); [exact K1|apply G; auto|].
  destruct te as [te|]; cbn [opt_arg] in Hte; [|injection Hte as <-; exact I]. destruct (user_samples w te) eqn:E; [|discriminate Hte]. injection Hte as <-. apply G; auto.
Qed.
Print Assumptions C77_matlab_partial.

(** Once a MATLAB variable with the samples is cleared, overwritten by another array or out of scope,
    every use of the objective for training is undefined. *)
Theorem C77_matlab_refuted : forall lib w t te dim train test,
  nth_error (w_arrays w) t = Some (MkArr (Some (Samples train)) true false) -> opt_arg (user_samples w) te = Some test ->
  exists w1, step lib w (MakeKL Matlab t te dim) w1 /\
  forall es w2, run lib w1 (Drop t :: es) w2 -> outlives (length (w_objs w)) es -> dead w2 (length (w_objs w)).
Proof.
  intros lib w t te dim train test Ht Hte.
  assert (Ut : user_samples w t = Some train) by (unfold user_samples, user_data; rewrite Ht; reflexivity).
  eexists. split; [constructor; unfold make_kl; rewrite Ut, Hte; reflexivity|]. cbv zeta. intros es w2 HR Hk. inversion HR as [|? ? w3 ? ? S3 R3]; subst.
  inversion S3 as [| |? ? x E1 E2| | |]; subst. cbn [w_arrays w_objs] in *. rewrite Ht in E1. injection E1 as <-. cbn [ar_data ar_counted] in *.
  assert (G : nth_error (w_arrays w2) t = Some (MkArr None false false)).
  { apply (run_gone _ _ _ _ _ _ R3). rewrite collect_nth. cbn [w_arrays w_objs]. rewrite nth_error_upd_eq by (apply nth_error_Some; congruence). reflexivity. }
  assert (K1 : nth_error (w_objs w2) (length (w_objs w)) = Some (Some (KL false (kl_dim train dim) t te))).
  { apply (run_obj _ _ _ _ _ _ R3 Hk). cbn [collect w_objs]. rewrite nth_error_app2, Nat.sub_diag by lia. reflexivity. }
  intros s1 s2 sch M alg. unfold call_TrainError, call_TrainCoeffGrad, call_TrainMap, at_train. rewrite K1. unfold lib_samples. rewrite G. cbn [ar_data obind]. auto.
Qed.
Print Assumptions C77_matlab_refuted.

(** Affine maps, from C++ and every binding: the map keeps the matrix and offset it was built from. *)
Lemma kept_rows w k a m u : kept w k a (Rows m) u -> lib_rows w (Some a) = Ok m.
Proof. intros (o & _ & _ & H). unfold lib_rows. rewrite H. reflexivity. Qed.
Lemma kept_numbers w k a m u : kept w k a (Numbers m) u -> lib_numbers w (Some a) = Ok m.
Proof. intros (o & _ & _ & H). unfold lib_numbers. rewrite H. reflexivity. Qed.
Theorem C77_affine : forall lib w Aa ba A b f,
  opt_arg (user_rows w) Aa = Some A -> opt_arg (user_numbers w) ba = Some b ->
  (match A, b with
   | Some A, Some b => aff_ctor_Ab lib A b = Ok f
   | Some A, None => aff_ctor_A lib A = Ok f
   | None, Some b => f = aff_make_b b
   | None, None => False end) ->
  exists w1, step lib w (MakeAffine Aa ba) w1 /\ let k := length (w_objs w) in
  forall es w2, run lib w1 es w2 -> outlives k es -> at_affine w2 k = Ok (aff_map f).
Proof.
  intros lib w Aa ba A b f HA Hb Hf. set (k := length (w_objs w)). set (a := length (w_arrays w)).
  assert (last : forall o, nth_error (w_objs w ++ [Some o]) k = Some (Some o)) by (intros; unfold k; rewrite nth_error_app2, Nat.sub_diag by lia; reflexivity).
  assert (fst_ : forall c l, nth_error (w_arrays w ++ own c :: l) a = Some (MkArr (Some c) false true)) by (intros; unfold a; rewrite nth_error_app2, Nat.sub_diag by lia; reflexivity).
  assert (snd_ : forall c c' l, nth_error (w_arrays w ++ own c :: own c' :: l) (Datatypes.S a) = Some (MkArr (Some c') false true)).
  { intros. unfold a. rewrite nth_error_app2 by lia. replace (Datatypes.S (length (w_arrays w)) - length (w_arrays w))%nat with 1%nat by lia. reflexivity. }
  destruct A as [A|], b as [b|]; try contradiction.
  - set (o := Aff f (Some a) (Some (Datatypes.S a))). exists (MkW (w_arrays w ++ [own (Rows A); own (Numbers b)]) (w_objs w ++ [Some o])).
    split; [constructor; unfold make_affine; rewrite HA, Hb, Hf; reflexivity|]. cbv zeta. intros es w2 HR Hk.
    pose proof (run_obj _ _ _ _ k _ HR Hk (last o)) as K1.
    destruct (run_kept _ _ _ _ k a (Rows A) false HR Hk) as (c1 & u1 & X1 & _ & X2); [exists o; split; [apply last|split; [left; reflexivity|apply fst_]]|].
    destruct (run_kept _ _ _ _ k (Datatypes.S a) (Numbers b) false HR Hk) as (c2 & u2 & Y1 & _ & Y2); [exists o; split; [apply last|split; [right; left; reflexivity|apply snd_]]|].
    rewrite (X2 (or_introl eq_refl)) in X1. rewrite (Y2 (or_introl eq_refl)) in Y1.
    unfold at_affine. rewrite K1. unfold o. rewrite (kept_rows _ _ _ _ _ X1), (kept_numbers _ _ _ _ _ Y1). cbn [obind].
    unfold aff_ctor_Ab in Hf. destruct ((length A <=? ncols A)%nat && (length A =? length b)%nat); [|discriminate Hf]. injection Hf as <-. reflexivity.
  - set (o := Aff f (Some a) None). exists (MkW (w_arrays w ++ [own (Rows A)]) (w_objs w ++ [Some o])).
    split; [constructor; unfold make_affine; rewrite HA, Hb, Hf; reflexivity|]. cbv zeta. intros es w2 HR Hk.
    pose proof (run_obj _ _ _ _ k _ HR Hk (last o)) as K1.
    destruct (run_kept _ _ _ _ k a (Rows A) false HR Hk) as (c1 & u1 & X1 & _ & X2); [exists o; split; [apply last|split; [left; reflexivity|apply fst_]]|].
    rewrite (X2 (or_introl eq_refl)) in X1. unfold at_affine. rewrite K1. unfold o. rewrite (kept_rows _ _ _ _ _ X1). cbn [obind lib_numbers].
    unfold aff_ctor_A in Hf. destruct (length A <=? ncols A)%nat; [|discriminate Hf]. injection Hf as <-. reflexivity.
  - subst f. set (o := Aff (aff_make_b b) None (Some a)). exists (MkW (w_arrays w ++ [own (Numbers b)]) (w_objs w ++ [Some o])).
    split; [constructor; unfold make_affine; rewrite HA, Hb; reflexivity|]. cbv zeta. intros es w2 HR Hk.
    pose proof (run_obj _ _ _ _ k _ HR Hk (last o)) as K1.
    destruct (run_kept _ _ _ _ k a (Numbers b) false HR Hk) as (c1 & u1 & X1 & _ & X2); [exists o; split; [apply last|split; [left; reflexivity|apply fst_]]|].
    rewrite (X2 (or_introl eq_refl)) in X1. unfold at_affine. rewrite K1. unfold o. cbn [lib_rows obind]. rewrite (kept_numbers _ _ _ _ _ X1). reflexivity.
Qed.
Print Assumptions C77_affine.

(** ** Examples *)
(** In Python: an objective from two samples; afterwards the program overwrites the array, drops it, and
    makes and destroys a second objective. The first still answers for the two samples. *)
Definition ex_zero : matrix := MkMat 4 [[0; 0; 0; 0]; [0; 0; 0; 0]] 1 4.
Example C77_copies_example : forall lib, let w := MkW [MkArr (Some (Samples ex_train)) true false] [] in
  exists w1 w2, step lib w (MakeKL Python 0 None 3) w1 /\
    run lib w1 [Write 0 (Samples ex_zero); MakeKL Julia 0 None 0; Drop 0; Destroy 1] w2 /\
    lib_samples w2 0 = UB /\ answers_for w2 0 ex_train None 3.
Proof.
  intros lib w. destruct (C77_copies lib Python w 0 None 3 ex_train None (or_introl eq_refl) eq_refl eq_refl) as (w1 & S1 & X). exists w1. eexists.
  split; [exact S1|]. inversion S1 as [| | |? ? ? ? ? ? E| |]; subst. injection E as <-.
  assert (HR : run lib (MkW (w_arrays w ++ [own (Samples (copy_mat ex_train))]) (w_objs w ++ [Some (KL true 3 1 None)]))
     [Write 0 (Samples ex_zero); MakeKL Julia 0 None 0; Drop 0; Destroy 1]
     (MkW [MkArr None false false; own (Samples (copy_mat ex_train)); MkArr None false true] [Some (KL true 3 1 None); None])).
  { econstructor; [eapply s_write; [reflexivity|reflexivity|reflexivity|split; reflexivity]|]. econstructor; [apply s_kl; reflexivity|].
    econstructor; [eapply s_drop; reflexivity|]. econstructor; [eapply s_destroy; reflexivity|]. apply run_nil. }
  split; [exact HR|]. split; [reflexivity|]. apply (X _ _ HR). intros [E|[E|[E|[E|[]]]]]; discriminate E.
Qed.
(** The same program in MATLAB, without the second objective: undefined. *)
Example C77_matlab_example : forall lib, let w := MkW [MkArr (Some (Samples ex_train)) true false] [] in
  exists w1 w2, step lib w (MakeKL Matlab 0 None 3) w1 /\ run lib w1 [Drop 0] w2 /\ dead w2 0 /\ answers_for w1 0 ex_train None 3.
Proof.
  intros lib w. destruct (C77_matlab_refuted lib w 0 None 3 ex_train None eq_refl eq_refl) as (w1 & S1 & X). exists w1.
  destruct (C77_matlab_partial lib w 0 None 3 ex_train None eq_refl eq_refl) as (w1' & S1' & Y).
  inversion S1 as [| | |? ? ? ? ? ? E| |]; subst. injection E as <-. inversion S1' as [| | |? ? ? ? ? ? E| |]; subst. injection E as <-.
  eexists. split; [exact S1|]. assert (HR : run lib (MkW (w_arrays w) (w_objs w ++ [Some (KL false 3 0 None)])) [Drop 0] (MkW [MkArr None false false] [Some (KL false 3 0 None)])).
  { econstructor; [eapply s_drop; reflexivity|]. apply run_nil. }
  split; [exact HR|]. split; [apply (X [] _ HR); intros []|]. apply (Y [] _ (run_nil _ _)); [intros []|split; [intros c []|intros []]|discriminate].
Qed.
(** In C++ the array outlives the program's own handle. *)
Example C77_cpp_example : forall lib, let w := MkW [MkArr (Some (Samples ex_train)) true true] [] in
  exists w1 w2, step lib w (MakeKL Cpp 0 None 3) w1 /\ run lib w1 [Drop 0] w2 /\ answers_for w2 0 ex_train None 3.
Proof.
  intros lib w. destruct (C77_cpp_partial lib w 0 None 3 ex_train None eq_refl I) as (w1 & S1 & X). exists w1. inversion S1 as [| | |? ? ? ? ? ? E| |]; subst. injection E as <-.
  eexists. split; [exact S1|]. assert (HR : run lib (MkW (w_arrays w) (w_objs w ++ [Some (KL true 3 0 None)])) [Drop 0] (MkW [MkArr (Some (Samples ex_train)) false true] [Some (KL true 3 0 None)])).
  { econstructor; [eapply s_drop; reflexivity|]. apply run_nil. }
  split; [exact HR|]. destruct (X _ _ HR) as (tr & ts & A1 & _ & A2 & A3); [intros [E|[]]; discriminate E|]. cbn in A3. subst ts. rewrite A2 in A1; [exact A1|]. intros c [E|[]]; discriminate E.
Qed.
(** An affine map with matrix (1 2; 0 1) and offset (5, 6), after the arrays are gone. *)
Example C77_affine_example : forall lib, let A := [[1; 2]; [0; 1]] in let b := [5; 6] in
  let w := MkW [MkArr (Some (Rows A)) true false; MkArr (Some (Numbers b)) true false] [] in
  exists w1 w2 f, aff_ctor_Ab lib A b = Ok f /\ step lib w (MakeAffine (Some 0%nat) (Some 1%nat)) w1 /\ run lib w1 [Drop 1; Drop 0] w2 /\ at_affine w2 0 = Ok (aff_map f).
Proof.
  intros lib A b w. destruct (C77_affine lib w (Some 0%nat) (Some 1%nat) (Some A) (Some b) (aff_make_A lib A b) eq_refl eq_refl eq_refl) as (w1 & S1 & X).
  exists w1. inversion S1 as [| | | |? ? ? ? E|]; subst. injection E as <-. eexists. exists (aff_make_A lib A b). split; [reflexivity|]. split; [exact S1|].
  match goal with |- run _ ?w0 _ _ /\ _ => assert (HR : run lib w0 [Drop 1; Drop 0] (MkW [MkArr None false false; MkArr None false false; own (Rows A); own (Numbers b)] [Some (Aff (aff_make_A lib A b) (Some 2%nat) (Some 3%nat))])) end.
  { econstructor; [eapply s_drop; reflexivity|]. econstructor; [eapply s_drop; reflexivity|]. apply run_nil. }
  split; [exact HR|]. apply (X _ _ HR). intros [E|[E|[]]]; discriminate E.
Qed.
