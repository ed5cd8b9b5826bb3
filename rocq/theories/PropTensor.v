(** Property C57: tensor-product functions. *)
From Coq Require Import Reals Lra.
From Coquelicot Require Import Coquelicot.
From Verif Require Import Base SpecMulti SpecExpansion SpecTensor SpecPoly PolyModel PolyProofs FixedSetModel FixedSetProofs MISetModel
  ExpansionModel ExpansionProofs ExpansionDeriv PropPoly PropExpansion TensorModel.
Local Open Scope R_scope.

(** The caches have been filled for derivatives of first / second order in the last input. *)
Definition first_order (t : deriv_type) : Prop := In t [DDiagonal; DDiagonal2; DInput; DMixedInput].
Definition second_order (t : deriv_type) : Prop := In t [DDiagonal2; DMixedInput].
(** The point whose leading inputs come from [pt] and whose last input is [xd]. *)
Definition point (n : nat) (pt : list R) (xd : R) : list R := firstn (n - 1) pt ++ [xd].

(** What a function object [F] promises after FillCache1(pt) and FillCache2(pt',xd) for two views with the
    same inputs of F, with [sm] the values of the
    last input at which the function is twice differentiable: Evaluate is f(x;c), DiagonalDerivative
    its first and second derivative in the last input, CoeffDerivative the value and the gradient in the
    coefficients, MixedDerivative the derivative in the last input with its gradient in the coefficients.
    The view [c] of the coefficients may be longer than NumCoeffs. *)
Definition computes (F : tfun) (f : list R -> list R -> R) (sm : R -> Prop) : Prop :=
  (0 < t_in F)%nat /\
  forall cache pt pt' xd t, length cache = t_cache F -> (t_in F <= length pt)%nat -> t <> DMixed ->
    firstn (t_in F) pt' = firstn (t_in F) pt ->
    exists c1 c2, t_fill1 F cache pt t = Ok c1 /\ length c1 = t_cache F /\ t_fill2 F c1 pt' xd t = Ok c2 /\ length c2 = t_cache F /\
    forall c, (t_nc F <= length c)%nat ->
      let p := firstn (t_nc F) c in let x := point (t_in F) pt xd in let last := (t_in F - 1)%nat in
      t_eval F c2 c = Ok (f p x) /\
      (first_order t -> exists r, t_diag F c2 c 1 = Ok r /\ is_partial (f p) last x r) /\
      (second_order t -> sm xd -> exists r, t_diag F c2 c 2 = Ok r /\ is_partial (partial (f p) last) last x r) /\
      forall grad, length grad = t_nc F ->
        (exists g, t_cderiv F c2 c grad = Ok (f p x, g) /\ length g = t_nc F /\
           forall i, (i < t_nc F)%nat -> is_partial (fun p => f p x) i p (coord g i)) /\
        (first_order t -> exists r g, t_mixed F c2 c 1 grad = Ok (r, g) /\ length g = t_nc F /\ is_partial (f p) last x r /\
           forall i, (i < t_nc F)%nat -> is_partial (fun p => partial (f p) last x) i p (coord g i)) /\
        (second_order t -> sm xd -> exists r g, t_mixed F c2 c 2 grad = Ok (r, g) /\ length g = t_nc F /\
           is_partial (partial (f p) last) last x r /\
           forall i, (i < t_nc F)%nat -> is_partial (fun p => partial (partial (f p) last) last x) i p (coord g i)).

(** ** Expansions are such functions *)
Lemma firstn_raw_get (c : list R) n i : (i < n)%nat -> raw_get (firstn n c) i = raw_get c i.
Proof. intros H. unfold raw_get. rewrite nth_error_firstn by auto. reflexivity. Qed.
Lemma Evaluate_more w cache c : w_Evaluate w cache c = w_Evaluate w cache (firstn (w_NumCoeffs w) c).
Proof.
  unfold w_Evaluate. apply ofold_ext_in. intros s i Hi. apply in_seq in Hi. rewrite firstn_raw_get by lia. reflexivity.
Qed.
Lemma Diagonal_more w cache c o : w_DiagonalDerivative w cache c o = w_DiagonalDerivative w cache (firstn (w_NumCoeffs w) c) o.
Proof.
  unfold w_DiagonalDerivative. destruct (negb _); auto. apply ofold_ext_in. intros s i Hi. apply in_seq in Hi.
  rewrite firstn_raw_get by lia. reflexivity.
Qed.
Lemma Coeff_more w cache c g : w_CoeffDerivative w cache c g = w_CoeffDerivative w cache (firstn (w_NumCoeffs w) c) g.
Proof.
  unfold w_CoeffDerivative. apply ofold_ext_in. intros s i Hi. apply in_seq in Hi. rewrite firstn_raw_get by lia. reflexivity.
Qed.
Lemma Mixed_more w cache c o g : w_MixedCoeffDerivative w cache c o g = w_MixedCoeffDerivative w cache (firstn (w_NumCoeffs w) c) o g.
Proof.
  unfold w_MixedCoeffDerivative. destruct (negb _); auto. apply ofold_ext_in. intros s i Hi. apply in_seq in Hi.
  rewrite firstn_raw_get by lia. reflexivity.
Qed.
Lemma point_length n (pt : list R) xd : (0 < n <= length pt)%nat -> length (point n pt xd) = n.
Proof. intros H. unfold point. rewrite app_length, firstn_length. cbn. lia. Qed.
Lemma point_last n (pt : list R) xd : (0 < n <= length pt)%nat -> nth_error (point n pt xd) (n - 1) = Some xd.
Proof.
  intros H. unfold point. rewrite nth_error_app2; rewrite firstn_length; [|lia].
  replace (n - 1 - Nat.min (n - 1) (length pt))%nat with 0%nat by lia. reflexivity.
Qed.
Lemma Fill1_more w cache pt xd t : (0 < wdim w <= length pt)%nat ->
  w_FillCache1 w cache pt t = w_FillCache1 w cache (point (wdim w) pt xd) t.
Proof.
  intros H. unfold w_FillCache1. apply ofold_ext_in. intros s i Hi. apply in_seq in Hi.
  replace (raw_get (point (wdim w) pt xd) i) with (raw_get pt i); auto. unfold raw_get, point.
  rewrite nth_error_app1 by (rewrite firstn_length; lia). rewrite nth_error_firstn by lia. reflexivity.
Qed.
Lemma Fill_split w cache pt xd t : (0 < wdim w <= length pt)%nat ->
  w_Fill w cache (point (wdim w) pt xd) t = (do c <- w_FillCache1 w cache pt t; w_FillCache2 w c xd t).
Proof.
  intros H. unfold w_Fill. rewrite <- Fill1_more by auto. destruct (w_FillCache1 w cache pt t); auto. cbn [obind].
  rewrite point_length by auto. unfold raw_get. rewrite point_last by auto. reflexivity.
Qed.

Theorem C57_factor : forall d alphas f B v dv d2 N w, (0 < d)%nat -> fixed_set d alphas f -> diff_basis B v dv d2 N ->
  degrees_le N alphas -> w_make f B = Ok w -> computes (worker_fun w) (expansion v alphas) (twice_at dv d2 N).
Proof.
  intros d alphas f B v dv d2 N w Hd Hf HB HN Hw.
  assert (Wd : wdim w = d /\ w_NumCoeffs w = length alphas).
  { destruct (setup d alphas f B v dv d2 N w) as (mx & -> & _); auto. split; auto. apply size_W. }
  destruct Wd as [Wd Wn]. split; [cbn; lia|]. cbn [worker_fun t_in t_nc t_cache t_fill1 t_fill2 t_eval t_diag t_cderiv t_mixed].
  intros cache pt pt' xd t Lc Lp Ht _. rewrite Wn. rewrite Wd in *.
  assert (Lx : length (point d pt xd) = d) by (apply point_length; auto).
  assert (Hx : coord (point d pt xd) (d - 1) = xd).
  { unfold coord. apply nth_error_nth. apply point_last. auto. }
  assert (Fs : w_Fill w cache (point d pt xd) t = (do c <- w_FillCache1 w cache pt t; w_FillCache2 w c xd t)).
  { rewrite <- Wd. apply Fill_split. lia. }
  destruct (C24_evaluate d alphas f B v dv d2 N w cache (point d pt xd) (repeat 0 (length alphas)) t) as (c2 & E & L2 & _); auto.
  { apply repeat_length. }
  destruct (w_FillCache1 w cache pt t) as [c1| | |] eqn:E1; try (rewrite Fs in E; discriminate).
  assert (L1 : length c1 = w_CacheSize w).
  { destruct (setup d alphas f B v dv d2 N w) as (mx & -> & M1 & M2 & M3 & M4); auto. destruct HB as (B0 & B1 & B2 & B3).
    assert (Rm : room d mx cache) by (unfold room; rewrite Lc; cbn; lia).
    destruct (FillCache1_ok d N alphas mx B v dv Hd M1 M2 B0 B1 t cache pt Rm) as (c' & E' & L' & _); [lia|].
    rewrite E1 in E'. injection E' as ->. congruence. }
  exists c1, c2. split; auto. split; auto. split; [rewrite Fs in E; exact E|]. split; auto.
  intros c Lcc. cbv zeta. set (p := firstn (length alphas) c).
  assert (Lpp : length p = length alphas) by (unfold p; rewrite firstn_length; lia).
  split; [|split; [|split]].
  - rewrite Evaluate_more, Wn. fold p. destruct (C24_evaluate d alphas f B v dv d2 N w cache (point d pt xd) p t) as (c' & E' & _ & V); auto.
    rewrite E in E'. injection E' as <-. exact V.
  - intros F1. destruct (C25_diagonal d alphas f B v dv d2 N w cache (point d pt xd) p t) as (c' & r & E' & V & P); auto.
    rewrite E in E'. injection E' as <-. exists r. rewrite Diagonal_more, Wn. auto.
  - intros F2 S2. destruct (C25_diagonal2 d alphas f B v dv d2 N w cache (point d pt xd) p t) as (c' & r & E' & V & P); auto.
    { rewrite Hx. auto. } rewrite E in E'. injection E' as <-. exists r. rewrite Diagonal_more, Wn. auto.
  - intros grad Lg. split; [|split].
    + destruct (C25_coeff d alphas f B v dv d2 N w cache (point d pt xd) p grad t) as (c' & g & E' & V & Lg' & P & _); auto; [lia|].
      rewrite E in E'. injection E' as <-. exists g. rewrite Coeff_more, Wn. split; auto. split; [congruence|auto].
    + intros F1. destruct (C25_mixed_coeff d alphas f B v dv d2 N w cache (point d pt xd) p grad t) as (c' & r & g & E' & V & Lg' & P & Q & _); auto; [lia|].
      rewrite E in E'. injection E' as <-. exists r, g. rewrite Mixed_more, Wn. split; auto. split; [congruence|auto].
    + intros F2 S2. destruct (C25_mixed_coeff2 d alphas f B v dv d2 N w cache (point d pt xd) p grad t) as (c' & r & g & E' & V & Lg' & P & Q & _); auto; [lia| |].
      { rewrite Hx. auto. } rewrite E in E'. injection E' as <-. exists r, g. rewrite Mixed_more, Wn. split; auto. split; [congruence|auto].
Qed.
Print Assumptions C57_factor.

(** ** The product *)
Lemma upd_firstn_hi {A} (x : list A) i n t : (n <= i)%nat -> firstn n (upd x i t) = firstn n x.
Proof. revert i n. induction x as [|a x IH]; intros [|i] [|n] H; cbn; auto; try lia. f_equal. apply IH. lia. Qed.
Lemma upd_skipn_hi {A} (x : list A) i n t : (n <= i)%nat -> skipn n (upd x i t) = upd (skipn n x) (i - n) t.
Proof.
  revert i n. induction x as [|a x IH]; intros [|i] [|n] H; cbn [upd skipn Nat.sub]; auto; try lia.
  - apply IH. lia.
Qed.
Lemma upd_firstn_lo {A} (x : list A) i n t : (i < n)%nat -> firstn n (upd x i t) = upd (firstn n x) i t.
Proof. revert i n. induction x as [|a x IH]; intros [|i] [|n] H; cbn; auto; try lia. f_equal. apply IH. lia. Qed.
Lemma upd_skipn_lo {A} (x : list A) i n t : (i < n)%nat -> skipn n (upd x i t) = skipn n x.
Proof. revert i n. induction x as [|a x IH]; intros [|i] [|n] H; cbn; auto; try lia. apply IH. lia. Qed.
Lemma coord_skipn (x : list R) n i : coord (skipn n x) i = coord x (n + i).
Proof. unfold coord. revert n. induction x as [|a x IH]; intros [|n]; cbn; auto; destruct i; auto. Qed.
Lemma coord_firstn (x : list R) n i : (i < n)%nat -> coord (firstn n x) i = coord x i.
Proof. unfold coord. revert n i. induction x as [|a x IH]; intros [|n] [|i] H; cbn; auto; try lia. apply IH. lia. Qed.

Lemma partial_hi (f : list R -> R) (a : R) (G : list R -> R) (x : list R) n j l : (n <= j)%nat ->
  (forall t, G (upd x j t) = a * f (skipn n (upd x j t))) -> is_partial f (j - n) (skipn n x) l -> is_partial G j x (a * l).
Proof.
  intros H E P. unfold is_partial in *. rewrite coord_skipn in P. replace (n + (j - n))%nat with j in P by lia.
  apply (is_derive_ext (fun t => a * f (upd (skipn n x) (j - n) t))).
  - intros t. rewrite E, upd_skipn_hi by auto. reflexivity.
  - apply (is_derive_scal (fun t => f (upd (skipn n x) (j - n) t))). exact P.
Qed.
Lemma partial_lo (f : list R -> R) (b : R) (G : list R -> R) (x : list R) n j l : (j < n)%nat ->
  (forall t, G (upd x j t) = f (firstn n (upd x j t)) * b) -> is_partial f j (firstn n x) l -> is_partial G j x (l * b).
Proof.
  intros H E P. unfold is_partial in *. rewrite coord_firstn in P by auto. rewrite Rmult_comm.
  apply (is_derive_ext (fun t => b * f (upd (firstn n x) j t))).
  - intros t. rewrite E, upd_firstn_lo by auto. apply Rmult_comm.
  - apply (is_derive_scal (fun t => f (upd (firstn n x) j t))). exact P.
Qed.

Section Product.
Variables (n1 d1 d2 : nat) (f1 f2 : list R -> list R -> R).
Hypothesis (Hd2 : (0 < d2)%nat).
Notation F := (product_of n1 d1 f1 f2).
Notation last := (d1 + d2 - 1)%nat.

Lemma last_partial c x r : is_partial (f2 (skipn n1 c)) (d2 - 1) (skipn d1 x) r ->
  is_partial (F c) last x (f1 (firstn n1 c) (firstn d1 x) * r).
Proof.
  intros P. apply (partial_hi (f2 (skipn n1 c))) with (n := d1); try lia.
  - intros t. unfold product_of. rewrite upd_firstn_hi by lia. reflexivity.
  - replace (last - d1)%nat with (d2 - 1)%nat by lia. exact P.
Qed.
Lemma partial_eq c x : partial (F c) last x = f1 (firstn n1 c) (firstn d1 x) * partial (f2 (skipn n1 c)) (d2 - 1) (skipn d1 x).
Proof.
  unfold partial. rewrite coord_skipn. replace (d1 + (d2 - 1))%nat with last by lia. rewrite <- Derive_scal. apply Derive_ext.
  intros t. unfold product_of. rewrite upd_firstn_hi by lia. rewrite upd_skipn_hi by lia. do 3 f_equal. lia.
Qed.
Lemma last_partial2 c x r : is_partial (partial (f2 (skipn n1 c)) (d2 - 1)) (d2 - 1) (skipn d1 x) r ->
  is_partial (partial (F c) last) last x (f1 (firstn n1 c) (firstn d1 x) * r).
Proof.
  intros P. apply (partial_hi (partial (f2 (skipn n1 c)) (d2 - 1))) with (n := d1); try lia.
  - intros t. rewrite partial_eq. rewrite upd_firstn_hi by lia. reflexivity.
  - replace (last - d1)%nat with (d2 - 1)%nat by lia. exact P.
Qed.
Lemma partial2_eq c x : partial (partial (F c) last) last x =
  f1 (firstn n1 c) (firstn d1 x) * partial (partial (f2 (skipn n1 c)) (d2 - 1)) (d2 - 1) (skipn d1 x).
Proof.
  unfold partial at 1. unfold partial at 2. rewrite coord_skipn. replace (d1 + (d2 - 1))%nat with last by lia.
  rewrite <- Derive_scal. apply Derive_ext. intros t. rewrite partial_eq. rewrite upd_firstn_hi by lia. rewrite upd_skipn_hi by lia.
  do 2 f_equal. f_equal. lia.
Qed.
End Product.

(** Gradient array of the product. *)
Lemma put_mid (a s b : list R) : put (a ++ s ++ b) (length a) s = a ++ s ++ b.
Proof.
  unfold put. rewrite firstn_app, firstn_all, Nat.sub_diag, firstn_O, app_nil_r. f_equal. f_equal.
  rewrite skipn_app. rewrite skipn_all2 by lia. cbn. rewrite skipn_app, skipn_all2 by lia. cbn.
  replace (length a + length s - length a - length s)%nat with 0%nat by lia. reflexivity.
Qed.
Lemma put_l (a b s : list R) : length s = length a -> put (a ++ b) 0 s = s ++ b.
Proof.
  intros H. unfold put. cbn [firstn app Nat.add]. rewrite H. f_equal. rewrite skipn_app, skipn_all, Nat.sub_diag. reflexivity.
Qed.
Lemma put_r (a b s : list R) : length s = length b -> put (a ++ b) (length a) s = a ++ s.
Proof.
  intros H. unfold put. rewrite firstn_app, firstn_all, Nat.sub_diag, firstn_O, app_nil_r. f_equal.
  rewrite skipn_app. rewrite skipn_all2 by lia. cbn. rewrite skipn_all2 by lia. apply app_nil_r.
Qed.
Lemma seg_l (a b : list R) : seg (a ++ b) 0 (length a) = Ok a.
Proof.
  unfold seg. destruct (Nat.leb_spec (0 + length a) (length (a ++ b))); [|rewrite app_length in *; lia].
  cbn [skipn]. rewrite firstn_app, firstn_all, Nat.sub_diag. cbn. rewrite app_nil_r. reflexivity.
Qed.
Lemma seg_r (a b : list R) : seg (a ++ b) (length a) (length b) = Ok b.
Proof.
  unfold seg. destruct (Nat.leb_spec (length a + length b) (length (a ++ b))); [|rewrite app_length in *; lia].
  rewrite skipn_app, skipn_all, Nat.sub_diag. cbn. rewrite firstn_all. reflexivity.
Qed.
Lemma split_at {A} (l : list A) n m : length l = (n + m)%nat -> exists a b, l = a ++ b /\ length a = n /\ length b = m.
Proof.
  intros H. exists (firstn n l), (skipn n l). rewrite firstn_skipn, firstn_length, skipn_length. split; auto. lia.
Qed.

Lemma csub_1 dbg (c : list R) d n : (d <= length c)%nat -> n = d ->
  exists c', csub dbg c 0 d = Ok c' /\ (n <= length c')%nat /\ firstn n c' = firstn n c.
Proof.
  intros H ->. unfold csub. destruct dbg.
  - destruct (Nat.leb_spec d (length c)); [|lia]. eexists. split; auto. cbn [skipn]. rewrite Nat.sub_0_r, firstn_length.
    split; [lia|]. rewrite firstn_firstn. f_equal. lia.
  - eexists. split; auto.
Qed.
Lemma csub_2 dbg (c : list R) a b n : (a + b <= length c)%nat -> n = b ->
  exists c', csub dbg c a (a + b) = Ok c' /\ (n <= length c')%nat /\ firstn n c' = firstn n (skipn a c).
Proof.
  intros H ->. unfold csub. destruct dbg.
  - destruct (Nat.leb_spec (a + b) (length c)); [|lia]. eexists. split; auto. replace (a + b - a)%nat with b by lia.
    rewrite firstn_length, skipn_length. split; [lia|]. rewrite firstn_firstn. f_equal. lia.
  - eexists. split; auto. rewrite skipn_length. split; [lia|auto].
Qed.

Lemma coord_app_l (a b : list R) i : (i < length a)%nat -> coord (a ++ b) i = coord a i.
Proof. intros. apply app_nth1. auto. Qed.
Lemma coord_app_r (a b : list R) i : (length a <= i)%nat -> coord (a ++ b) i = coord b (i - length a).
Proof. intros. apply app_nth2. auto. Qed.
Lemma coord_scaled s (v : list R) i : (i < length v)%nat -> coord (scaled s v) i = coord v i * s.
Proof.
  intros H. unfold coord, scaled. rewrite (nth_indep _ 0 (0 * s)) by (rewrite map_length; auto). rewrite (map_nth (fun x => x * s)). auto.
Qed.

(** A tensor product whose factors have as many coefficients as inputs is again such a
    function, computing the product, so that products can be nested. Missing: factors with other
    numbers of coefficients (see the refutation). *)
Theorem C57_product_partial : forall dbg F1 F2 f1 f2 sm1 sm2, computes F1 f1 sm1 -> computes F2 f2 sm2 ->
  t_nc F1 = t_in F1 -> t_nc F2 = t_in F2 ->
  computes (tensor_fun dbg F1 F2) (product_of (t_nc F1) (t_in F1) f1 f2) sm2.
Proof.
  intros dbg F1 F2 f1 f2 sm1 sm2 [P1 K1] [P2 K2] N1 N2. split; [cbn; unfold tp_dim1, tp_dim2; lia|].
  cbn [tensor_fun t_in t_nc t_cache t_fill1 t_fill2 t_eval t_diag t_cderiv t_mixed]. unfold tp_dim1, tp_dim2.
  intros cache pt pt' xd t Lc Lp Ht Ep. rewrite N1, N2 in *. set (D1 := t_in F1) in *. set (D2 := t_in F2) in *.
  destruct (split_at cache (t_cache F1) (t_cache F2) Lc) as (ca & cb & -> & La & Lb). clear Lc.
  set (x1 := nth (D1 - 1) pt 0).
  destruct (K1 ca pt pt x1 t La) as (a1 & a2 & EA1 & LA1 & EA2 & LA2 & Ka); [lia|auto|auto|]. clear K1.
  assert (Lp' : (D1 + D2 <= length pt')%nat).
  { apply (f_equal (@length R)) in Ep. rewrite !firstn_length in Ep. lia. }
  assert (Ept : forall q k, (k <= length q - D1)%nat -> (D1 <= length q)%nat -> seg q D1 k = Ok (firstn k (skipn D1 q))).
  { intros q k Hk Hq. unfold seg. destruct (Nat.leb_spec (D1 + k) (length q)); [auto|lia]. }
  assert (Ept' : seg pt' D1 (length pt' - D1) = Ok (skipn D1 pt')).
  { rewrite Ept by lia. rewrite firstn_all2; auto. rewrite skipn_length. lia. }
  destruct (K2 cb (firstn D2 (skipn D1 pt)) (skipn D1 pt') xd t Lb) as (b1 & b2 & EB1 & LB1 & EB2 & LB2 & Kb); auto.
  { rewrite firstn_length, skipn_length. lia. }
  { rewrite firstn_firstn, Nat.min_id. rewrite !firstn_skipn_comm. rewrite Ep. auto. } clear K2.
  exists (a2 ++ b1), (a2 ++ b2). unfold tp_FillCache1, tp_FillCache2. unfold tp_dim1, tp_dim2. fold D1 D2.
  rewrite Ept by lia. cbn [obind]. unfold on1, on2. rewrite <- La at 1. rewrite seg_l. cbn [obind]. rewrite EA1. cbn [obind].
  rewrite put_l by lia. destruct (Nat.eqb_spec D1 0); [lia|]. rewrite (raw_get_ok pt _ 0) by lia. fold x1. cbn [obind].
  rewrite <- LA1 at 1. rewrite seg_l. cbn [obind]. rewrite EA2. cbn [obind]. rewrite put_l by lia.
  rewrite <- LA2 at 1. rewrite <- Lb at 1. rewrite seg_r. cbn [obind]. rewrite EB1. cbn [obind].
  rewrite <- LA2 at 1. rewrite put_r by lia.
  split; auto. rewrite app_length. split; [lia|]. rewrite Ept'. cbn [obind]. rewrite <- LA2 at 1. rewrite <- LB1 at 1. rewrite seg_r. cbn [obind].
  rewrite EB2. cbn [obind]. rewrite <- LA2 at 1. rewrite put_r by lia. split; auto. rewrite app_length. split; [lia|].
  (* the point *)
  assert (X1 : firstn D1 (point (D1 + D2) pt xd) = point D1 pt x1).
  { unfold point. rewrite firstn_app, firstn_firstn, firstn_length. replace (Nat.min D1 (D1 + D2 - 1)) with D1 by lia.
    replace (D1 - Nat.min (D1 + D2 - 1) (length pt))%nat with 0%nat by lia. rewrite firstn_O, app_nil_r.
    replace D1 with (S (D1 - 1)) at 1 by lia. unfold x1. clear - Lp P1 P2. assert (H : (D1 - 1 < length pt)%nat) by lia. revert H.
    generalize (D1 - 1)%nat. clear. induction pt as [|a pt IH]; intros [|n] H; cbn in *; auto; try lia. f_equal. apply IH. lia. }
  assert (X2 : skipn D1 (point (D1 + D2) pt xd) = point D2 (firstn D2 (skipn D1 pt)) xd).
  { unfold point. rewrite skipn_app, firstn_length. replace (D1 - Nat.min (D1 + D2 - 1) (length pt))%nat with 0%nat by lia.
    cbn [skipn]. f_equal. rewrite firstn_firstn. replace (Nat.min (D2 - 1) D2) with (D2 - 1)%nat by lia. rewrite firstn_skipn_comm.
    do 2 f_equal. lia. }
  set (x := point (D1 + D2) pt xd) in *. intros c Lc. cbv zeta.
  set (p := firstn (D1 + D2) c).
  assert (Q1 : firstn D1 p = firstn D1 c) by (unfold p; rewrite firstn_firstn; f_equal; lia).
  assert (Q2 : skipn D1 p = firstn D2 (skipn D1 c)) by (unfold p; rewrite firstn_skipn_comm; auto).
  destruct (csub_1 dbg c D1 D1) as (c1 & S1 & Lc1 & T1); [lia|auto|].
  destruct (csub_2 dbg c D1 D2 D2) as (c2 & S2 & Lc2 & T2); [lia|auto|].
  destruct (Ka c1 Lc1) as (A1 & _ & _ & A4). cbv zeta in A1, A4. rewrite T1, <- Q1, <- X1 in A1, A4. clear Ka.
  destruct (Kb c2 Lc2) as (B1 & B2 & B3 & B4). cbv zeta in B1, B2, B3, B4. rewrite T2, <- Q2, <- X2 in B1, B2, B3, B4. clear Kb.
  assert (G1 : seg (a2 ++ b2) 0 (t_cache F1) = Ok a2) by (rewrite <- LA2; apply seg_l).
  assert (G2 : seg (a2 ++ b2) (t_cache F1) (t_cache F2) = Ok b2) by (rewrite <- LA2, <- LB2; apply seg_r).
  unfold tp_Evaluate, tp_DiagonalDerivative, tp_CoeffDerivative, tp_MixedDerivative, tp_dim1, tp_dim2, on1, on2. fold D1 D2.
  rewrite S1, S2, G1, G2. cbn [obind]. rewrite A1, B1. cbn [obind]. split; [auto|]. split; [|split].
  - intros H. destruct (B2 H) as (r & -> & P). cbn [obind]. eexists. split; [reflexivity|]. apply last_partial; auto.
  - intros H HS. destruct (B3 H HS) as (r & -> & P). cbn [obind]. eexists. split; [reflexivity|]. apply last_partial2; auto.
  - intros grad Lg. destruct (split_at grad D1 D2 Lg) as (gh & gt & -> & Lh & Lt). unfold tp_head, tp_tail. rewrite N1, N2.
    fold D1 D2. assert (Sl : seg (gh ++ gt) 0 D1 = Ok gh) by (rewrite <- Lh; apply seg_l). rewrite Sl. cbn [obind].
    assert (Rt : forall u w : list R, length u = D1 -> length w = D2 ->
      (if (D2 <=? length (u ++ w))%nat then seg (u ++ w) (length (u ++ w) - D2) D2 else UB) = Ok w /\ (length (u ++ w) - D2 = length u)%nat).
    { intros u w Lu Lw. rewrite app_length. destruct (Nat.leb_spec D2 (length u + length w)); [|lia].
      replace (length u + length w - D2)%nat with (length u) by lia. rewrite <- Lw. rewrite seg_r. split; [auto|lia]. }
    assert (Fin : forall u w s1 s2, length u = D1 -> length w = D2 ->
      forall T (k : list R -> outcome T),
      (do gradHead <- seg (u ++ w) 0 D1;
       (let grad := put (u ++ w) 0 (scaled s2 gradHead) in
        do gradTail <- (if (D2 <=? length grad)%nat then seg grad (length grad - D2) D2 else UB);
        (let grad := put grad (length grad - D2) (scaled s1 gradTail) in k grad))) = k (scaled s2 u ++ scaled s1 w)).
    { intros u w s1 s2 Lu Lw T k. rewrite <- Lu at 1. rewrite seg_l. cbn [obind]. cbv zeta. rewrite put_l by apply map_length.
      destruct (Rt (scaled s2 u) w) as [-> ->]; [unfold scaled; rewrite map_length; auto|auto|]. cbn [obind].
      rewrite put_r by (apply map_length). reflexivity. }
    assert (Ls : forall s (v : list R), length (scaled s v) = length v) by (intros; apply map_length).
    destruct (A4 gh Lh) as ((g1 & C1 & Lg1 & D1g) & _). rewrite C1. cbn [obind fst snd].
    rewrite !put_l by lia. destruct (Rt g1 gt Lg1 Lt) as [Rt1 Rt2]. rewrite Rt1, Rt2. cbn [obind].
    split; [|split].
    + destruct (B4 gt Lt) as ((g2 & C2 & Lg2 & D2g) & _). rewrite C2. cbn [obind fst snd]. rewrite put_r by lia.
      rewrite (Fin g1 g2 _ _ Lg1 Lg2 _ (fun grad => Ok (f1 (firstn D1 p) (firstn D1 x) * f2 (skipn D1 p) (skipn D1 x), grad))).
      eexists. split; [reflexivity|]. split; [rewrite app_length, !Ls; lia|]. intros i Hi.
      destruct (Nat.lt_ge_cases i D1) as [Hi1|Hi1].
      * rewrite coord_app_l by (rewrite Ls; lia). rewrite coord_scaled by lia.
        apply (partial_lo (fun q => f1 q (firstn D1 x))) with (n := D1); auto.
        intros s. unfold product_of. rewrite upd_skipn_lo by lia. reflexivity.
      * rewrite coord_app_r by (rewrite Ls; lia). rewrite Ls, Lg1. rewrite coord_scaled by lia. rewrite Rmult_comm.
        apply (partial_hi (fun q => f2 q (skipn D1 x))) with (n := D1); auto.
        { intros s. unfold product_of. rewrite upd_firstn_hi by lia. reflexivity. } apply D2g. lia.
    + intros H. destruct (B4 gt Lt) as (_ & M & _). destruct (M H) as (r & g2 & C2 & Lg2 & Pr & D2g). clear M. rewrite C2. cbn [obind fst snd]. rewrite put_r by lia.
      rewrite (Fin g1 g2 _ _ Lg1 Lg2 _ (fun grad => Ok (f1 (firstn D1 p) (firstn D1 x) * r, grad))).
      eexists _, _. split; [reflexivity|]. split; [rewrite app_length, !Ls; lia|]. split; [apply last_partial; auto|].
      intros i Hi. destruct (Nat.lt_ge_cases i D1) as [Hi1|Hi1].
      * rewrite coord_app_l by (rewrite Ls; lia). rewrite coord_scaled by lia.
        apply (partial_lo (fun q => f1 q (firstn D1 x))) with (n := D1); auto.
        intros s. rewrite partial_eq by auto. rewrite upd_skipn_lo by lia. f_equal. apply is_partial_unique. auto.
      * rewrite coord_app_r by (rewrite Ls; lia). rewrite Ls, Lg1. rewrite coord_scaled by lia. rewrite Rmult_comm.
        apply (partial_hi (fun q => partial (f2 q) (D2 - 1) (skipn D1 x))) with (n := D1); auto.
        { intros s. rewrite partial_eq by auto. rewrite upd_firstn_hi by lia. reflexivity. } apply D2g. lia.
    + intros H HS. destruct (B4 gt Lt) as (_ & _ & M). destruct (M H HS) as (r & g2 & C2 & Lg2 & Pr & D2g). clear M. rewrite C2. cbn [obind fst snd]. rewrite put_r by lia.
      rewrite (Fin g1 g2 _ _ Lg1 Lg2 _ (fun grad => Ok (f1 (firstn D1 p) (firstn D1 x) * r, grad))).
      eexists _, _. split; [reflexivity|]. split; [rewrite app_length, !Ls; lia|]. split; [apply last_partial2; auto|].
      intros i Hi. destruct (Nat.lt_ge_cases i D1) as [Hi1|Hi1].
      * rewrite coord_app_l by (rewrite Ls; lia). rewrite coord_scaled by lia.
        apply (partial_lo (fun q => f1 q (firstn D1 x))) with (n := D1); auto.
        intros s. rewrite partial2_eq by auto. rewrite upd_skipn_lo by lia. f_equal. apply is_partial_unique. auto.
      * rewrite coord_app_r by (rewrite Ls; lia). rewrite Ls, Lg1. rewrite coord_scaled by lia. rewrite Rmult_comm.
        apply (partial_hi (fun q => partial (partial (f2 q) (D2 - 1)) (D2 - 1) (skipn D1 x))) with (n := D1); auto.
        { intros s. rewrite partial2_eq by auto. rewrite upd_firstn_hi by lia. reflexivity. } apply D2g. lia.
Qed.
Print Assumptions C57_product_partial.

(** When the first factor does not have as many coefficients as inputs, the build without bounds
    checks hands the second factor the coefficients that start after the first [t_in F1] ones, which
    belong to the first factor. *)
Theorem C57_release_refuted : forall F1 F2 f1 f2 sm1 sm2, computes F1 f1 sm1 -> computes F2 f2 sm2 ->
  forall cache pt xd t c, length cache = (t_cache F1 + t_cache F2)%nat -> length pt = (t_in F1 + t_in F2)%nat -> t <> DMixed ->
    length c = (t_nc F1 + t_nc F2)%nat -> (t_in F1 <= t_nc F1)%nat ->
    exists c1 c2, t_fill1 (tensor_fun false F1 F2) cache pt t = Ok c1 /\ t_fill2 (tensor_fun false F1 F2) c1 pt xd t = Ok c2 /\
      t_eval (tensor_fun false F1 F2) c2 c =
        Ok (f1 (firstn (t_nc F1) c) (firstn (t_in F1) pt) * f2 (firstn (t_nc F2) (skipn (t_in F1) c)) (point (t_in F2) (skipn (t_in F1) pt) xd)).
Proof.
  intros F1 F2 f1 f2 sm1 sm2 [P1 K1] [P2 K2] cache pt xd t c Lc Lp Ht Lco Hle.
  cbn [tensor_fun t_in t_nc t_cache t_fill1 t_fill2 t_eval]. set (D1 := t_in F1) in *. set (D2 := t_in F2) in *.
  destruct (split_at cache (t_cache F1) (t_cache F2) Lc) as (ca & cb & -> & La & Lb).
  set (x1 := nth (D1 - 1) pt 0).
  destruct (K1 ca pt pt x1 t La) as (a1 & a2 & EA1 & LA1 & EA2 & LA2 & Ka); [lia|auto|auto|].
  assert (Et : seg pt D1 D2 = Ok (skipn D1 pt)).
  { unfold seg. destruct (Nat.leb_spec (D1 + D2) (length pt)); [|lia]. rewrite firstn_all2; auto. rewrite skipn_length. lia. }
  destruct (K2 cb (skipn D1 pt) (skipn D1 pt) xd t Lb) as (b1 & b2 & EB1 & LB1 & EB2 & LB2 & Kb); auto.
  { rewrite skipn_length. lia. }
  exists (a2 ++ b1), (a2 ++ b2). unfold tp_FillCache1, tp_FillCache2, tp_dim1, tp_dim2. fold D1 D2.
  rewrite Et. cbn [obind]. unfold on1, on2. rewrite <- La at 1. rewrite seg_l. cbn [obind]. rewrite EA1. cbn [obind].
  rewrite put_l by lia. destruct (Nat.eqb_spec D1 0); [lia|]. rewrite (raw_get_ok pt _ 0) by lia. fold x1. cbn [obind].
  rewrite <- LA1 at 1. rewrite seg_l. cbn [obind]. rewrite EA2. cbn [obind]. rewrite put_l by lia.
  rewrite <- LA2 at 1. rewrite <- Lb at 1. rewrite seg_r. cbn [obind]. rewrite EB1. cbn [obind].
  rewrite <- LA2 at 1. rewrite put_r by lia. split; auto.
  replace (length pt - D1)%nat with D2 by lia. rewrite Et. cbn [obind]. rewrite <- LA2 at 1. rewrite <- LB1 at 1. rewrite seg_r. cbn [obind].
  rewrite EB2. cbn [obind]. rewrite <- LA2 at 1. rewrite put_r by lia. split; auto.
  unfold tp_Evaluate, csub, on1, on2, tp_dim1. fold D1. cbn [obind skipn].
  destruct (Ka c) as (A1 & _); [lia|]. destruct (Kb (skipn D1 c)) as (B1 & _); [rewrite skipn_length; lia|]. cbv zeta in A1, B1.
  replace (seg (a2 ++ b2) 0 (t_cache F1)) with (Ok a2) by (rewrite <- LA2; symmetry; apply seg_l).
  replace (seg (a2 ++ b2) (t_cache F1) (t_cache F2)) with (Ok b2) by (rewrite <- LA2, <- LB2; symmetry; apply seg_r).
  cbn [obind]. rewrite A1, B1. cbn [obind]. do 3 f_equal. unfold point, x1. clear - Lp P1.
  assert (H : (D1 - 1 < length pt)%nat) by lia. replace D1 with (S (D1 - 1)) at 3 by lia. revert H. generalize (D1 - 1)%nat. clear.
  induction pt as [|a pt IH]; intros [|n] H; cbn in *; auto; try lia. f_equal. apply IH. lia.
Qed.
Print Assumptions C57_release_refuted.

(** One-dimensional expansions c*x (as many coefficients as inputs) and a + b*x (more). *)
Definition prob (k : nat) (x : R) : R := P ProbabilistHermite k x / norm_of ProbabilistHermite false k.
Lemma prob_1 x : P ProbabilistHermite 1 x = x.
Proof. reflexivity. Qed.
Lemma factor_example f w alphas : fixed_set 1 alphas f -> degrees_le 1 alphas -> w_make f (poly_basis ProbabilistHermite false) = Ok w ->
  exists sm, computes (worker_fun w) (expansion prob alphas) sm.
Proof.
  intros Hf HN Hw. pose proof (array_diff _ _ _ _ _ (poly_array_basis ProbabilistHermite false 1 proper_prob)) as (DB & _).
  eexists. eapply C57_factor; eauto.
Qed.
Lemma ex_lin : exists w sm, (do f <- ms_Fix true c60_s; w_make f (poly_basis ProbabilistHermite false)) = Ok w /\
  t_in (worker_fun w) = 1%nat /\ t_nc (worker_fun w) = 1%nat /\ computes (worker_fun w) (expansion prob [[1%nat]]) sm.
Proof.
  destruct (ms_Fix true c60_s) as [f| | |] eqn:E; try (vm_compute in E; discriminate).
  assert (Hf : fixed_set 1 [[1%nat]] f).
  { split; [left; exists c60_s; split; [apply C60_example|auto]|]. vm_compute in E. injection E as <-. split; [reflexivity|].
    intros i Hi. change (f_Size _) with 1%nat in Hi. destruct i; [reflexivity|lia]. }
  assert (Hw : exists w, w_make f (poly_basis ProbabilistHermite false) = Ok w /\ t_in (worker_fun w) = 1%nat /\ t_nc (worker_fun w) = 1%nat).
  { vm_compute in E. injection E as <-. eexists. split; [reflexivity|]. split; reflexivity. }
  destruct Hw as (w & Hw & A & B). destruct (factor_example f w [[1%nat]] Hf) as (sm & C); auto.
  { intros al k [<-|[]]. destruct k as [|[|k]]; cbn; lia. }
  exists w, sm. cbn [obind]. rewrite Hw. auto.
Qed.
Lemma ex_aff : exists w sm, (do f <- f_total_order 1 1; w_make f (poly_basis ProbabilistHermite false)) = Ok w /\
  t_in (worker_fun w) = 1%nat /\ t_nc (worker_fun w) = 2%nat /\ computes (worker_fun w) (expansion prob [[0%nat]; [1%nat]]) sm.
Proof.
  destruct (f_total_order 1 1) as [f| | |] eqn:E; try (vm_compute in E; discriminate).
  assert (Hf : fixed_set 1 [[0%nat]; [1%nat]] f).
  { split; [right; exists 1%nat; auto|]. vm_compute in E. injection E as <-. split; [reflexivity|].
    intros i Hi. change (f_Size _) with 2%nat in Hi. destruct i as [|[|i]]; [reflexivity|reflexivity|lia]. }
  assert (Hw : exists w, w_make f (poly_basis ProbabilistHermite false) = Ok w /\ t_in (worker_fun w) = 1%nat /\ t_nc (worker_fun w) = 2%nat).
  { vm_compute in E. injection E as <-. eexists. split; [reflexivity|]. split; reflexivity. }
  destruct Hw as (w & Hw & A & B). destruct (factor_example f w [[0%nat]; [1%nat]] Hf) as (sm & C); auto.
  { intros al k [<-|[<-|[]]]; destruct k as [|[|k]]; cbn; lia. }
  exists w, sm. cbn [obind]. rewrite Hw. auto.
Qed.

Example C57_example : forall dbg, exists w sm, t_in (tensor_fun dbg (worker_fun w) (worker_fun w)) = 2%nat /\
  computes (tensor_fun dbg (worker_fun w) (worker_fun w)) (product_of 1 1 (expansion prob [[1%nat]]) (expansion prob [[1%nat]])) sm /\
  forall a b x y, product_of 1 1 (expansion prob [[1%nat]]) (expansion prob [[1%nat]]) [a; b] [x; y] = (a * x) * (b * y).
Proof.
  intros dbg. destruct ex_lin as (w & sm & _ & A & B & C). exists w, sm. split; [cbn [tensor_fun t_in]; unfold tp_dim1, tp_dim2; lia|]. split.
  - pose proof (C57_product_partial dbg _ _ _ _ sm sm C C) as H. rewrite A, B in H. auto.
  - intros a b x y. unfold product_of, expansion, tensor, prob, norm_of, coord. cbn. rewrite !prob_1. field.
Qed.

(** For two functions a + b x the product at (1,1) with coefficients (0,1) and (1,0) is 1; the build
    without bounds checks returns 2. *)
Theorem C57_split_refuted : exists w c1 c2 cache, (do f <- f_total_order 1 1; w_make f (poly_basis ProbabilistHermite false)) = Ok w /\
  (exists sm, computes (worker_fun w) (expansion prob [[0%nat]; [1%nat]]) sm) /\
  t_fill1 (tensor_fun false (worker_fun w) (worker_fun w)) cache [1; 1] DNone = Ok c1 /\
  t_fill2 (tensor_fun false (worker_fun w) (worker_fun w)) c1 [1; 1] 1 DNone = Ok c2 /\
  product_of 2 1 (expansion prob [[0%nat]; [1%nat]]) (expansion prob [[0%nat]; [1%nat]]) [0; 1; 1; 0] [1; 1] = 1 /\
  t_eval (tensor_fun false (worker_fun w) (worker_fun w)) c2 [0; 1; 1; 0] = Ok 2.
Proof.
  destruct ex_aff as (w & sm & E & A & B & C).
  destruct (C57_release_refuted _ _ _ _ _ _ C C (repeat 0 (t_cache (worker_fun w) + t_cache (worker_fun w))) [1; 1] 1 DNone [0; 1; 1; 0])
    as (c1 & c2 & E1 & E2 & E3); try (rewrite ?A, ?B; cbn [length]; lia); [apply repeat_length|discriminate|].
  exists w, c1, c2, (repeat 0 (t_cache (worker_fun w) + t_cache (worker_fun w))). split; [auto|]. split; [eauto|]. split; [auto|]. split; [auto|].
  rewrite E3, A, B. unfold product_of, point, expansion, tensor, prob, norm_of, coord. cbn. rewrite !prob_1. split; [|f_equal]; field.
Qed.
Print Assumptions C57_split_refuted.
