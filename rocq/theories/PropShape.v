(** C80: calls with arrays of the documented sizes stay inside the arrays and return arrays of the
    documented sizes; arrays of other sizes are rejected. *)
From Verif Require Import Base SpecShape ShapeModel ShapeProofs.

(** ** Documented sizes, from C++ *)
(** For every map the constructors accept, however nested, and every number of points. *)
Theorem C80_calls : forall m n, built m ->
  Evaluate m (arr (din m) n) = Ok (dout m, n) /\
  LogDeterminant m (arr (din m) n) = Ok n /\
  Gradient m (arr (din m) n) (arr (dout m) n) = Ok (din m, n) /\
  CoeffGrad m (arr (din m) n) (arr (dout m) n) = Ok (ncoef m, n).
Proof.
  intros m n B. unfold Evaluate, LogDeterminant, Gradient, CoeffGrad. change (ext1 (arr ?a n)) with n.
  rewrite evaluate_ok, logdet_ok, gradient_ok, coeffgrad_ok by assumption. repeat split.
Qed.

(** The inverse takes all the inputs, or only those before the outputs. The second form is left to
    [C80_one_dim_inverse_refuted] for a component with one input. *)
Theorem C80_inverse_partial : forall m n, built m ->
  Inverse m (arr (din m) n) (arr (dout m) n) = Ok (dout m, n) /\
  (one_input m = false -> Inverse m (arr (din m - dout m) n) (arr (dout m) n) = Ok (dout m, n)).
Proof.
  intros m n B. unfold Inverse. change (ext1 (arr ?a n)) with n. rewrite Nat.eqb_refl. cbn [negb].
  split; [|intros O]; rewrite inverse_ok; auto.
Qed.

(** With no inputs before the outputs, the documented array has no rows; a component with one
    input, alone or as a layer, starts its search from the last row all the same. *)
Theorem C80_one_dim_inverse_refuted : forall nc cont n, 1 <= n ->
  let m := TComp 1 nc cont in
  built m /\ built (TComposed [m]) /\
  Inverse m (arr (din m - dout m) n) (arr (dout m) n) = UB /\
  Inverse (TComposed [m]) (arr (din m - dout m) n) (arr (dout m) n) = UB.
Proof.
  intros nc cont n Hn m. assert (built m) as Bm by (constructor; lia).
  split; [exact Bm|]. split; [constructor; constructor; auto|].
  assert (InverseImpl m (arr 0 n) (arr 1 n) (arr 1 n) = UB) as E.
  { unfold m. cbn [InverseImpl]. change (ext0 (arr ?a n)) with a. change (ext1 (arr ?a n)) with n.
    rewrite Nat.eqb_refl. cbn [negb]. rewrite andb_false_r. destruct (Nat.eqb_spec n 0); [lia|reflexivity]. }
  change (din m - dout m) with 0. change (dout m) with 1.
  unfold Inverse. change (ext1 (arr ?a n)) with n. rewrite Nat.eqb_refl. cbn [negb].
  change (dout (TComposed [m])) with 1. change (dout m) with 1. split; [now rewrite E|].
  change (InverseImpl (TComposed [m]) (arr 0 n) (arr 1 n) (arr 1 n)) with
    (obind (deep_copy (arr 1 n) (arr 1 n)) (fun _ =>
     obind (obind (Ok tt) (fun _ => InverseImpl m (arr 0 n) (arr 1 n) (arr 1 n))) (fun _ => deep_copy (arr 1 n) (arr 1 n)))).
  rewrite copy_arr. cbn [obind]. rewrite E. reflexivity.
Qed.

(** The gradients of the log determinant need continuous derivatives: for the coefficients only
    inside compositions. *)
Theorem C80_logdet_gradients_partial : forall m n, built m ->
  (continuous m = true -> LogDeterminantInputGrad m (arr (din m) n) = Ok (din m, n)) /\
  (continuous_layers m = true -> LogDeterminantCoeffGrad m (arr (din m) n) = Ok (ncoef m, n)).
Proof.
  intros m n B. unfold LogDeterminantInputGrad, LogDeterminantCoeffGrad.
  change (ext0 (arr ?a n)) with a. change (ext1 (arr ?a n)) with n.
  split; intros C; [rewrite ldin_ok|rewrite ldco_ok]; auto.
Qed.
Theorem C80_discretised_refuted : forall d nc n, 1 <= d ->
  let m := TComp d nc false in
  LogDeterminantInputGrad m (arr (din m) n) = Throw /\
  LogDeterminantCoeffGrad m (arr (din m) n) = Ok (ncoef m, n) /\
  LogDeterminantCoeffGrad (TComposed [m]) (arr (din m) n) = Throw.
Proof.
  intros d nc n Hd m. split; [reflexivity|].
  destruct (C80_logdet_gradients_partial m n (b_comp _ _ _ Hd)) as [_ E]. split; [apply E; reflexivity|].
  unfold LogDeterminantCoeffGrad in *. change (ext1 (arr ?a n)) with n in *. specialize (E eq_refl).
  assert (LogDeterminantCoeffGradImpl m (arr d n) (arr nc n) = Ok tt) as E1.
  { exact (ldco_ok m (b_comp _ _ _ Hd) eq_refl n). }
  change (ncoef (TComposed [m])) with (nc + 0). rewrite Nat.add_0_r.
  change (LogDeterminantCoeffGradImpl (TComposed [m]) (arr (din m) n) (arr nc n)) with
    (obind (obind (deep_copy (arr d n) (arr d n)) (fun _ => Ok tt)) (fun _ =>
     obind (LogDeterminantCoeffGradImpl m (arr d n) (sub (arr nc n) 0 (0 + nc))) (fun _ => @Throw unit))).
  rewrite copy_arr, sub_arr by lia. replace (0 + nc - 0) with nc by lia. cbn [obind]. rewrite E1. reflexivity.
Qed.

(** ** Other sizes *)
(** Evaluating a component: too few rows are not noticed, too many are ignored. *)
Theorem C80_points_refuted : forall d nc cont r n, 1 <= n ->
  (r < d -> Evaluate (TComp d nc cont) (arr r n) = UB) /\
  (d <= r -> Evaluate (TComp d nc cont) (arr r n) = Ok (1, n)).
Proof.
  intros d nc cont r n Hn. unfold Evaluate. cbn [EvaluateImpl dout]. change (ext1 (arr ?a n)) with n. rewrite Nat.eqb_refl.
  split; intros H.
  - unfold touch at 1. change (have (arr r n)) with r. change (ext1 (arr r n)) with n.
    destruct (Nat.eqb_spec d 0); [lia|]. destruct (Nat.eqb_spec n 0); [lia|]. cbn [orb].
    destruct (Nat.leb_spec d r); [lia|]. reflexivity.
  - rewrite !touch_arr by lia. reflexivity.
Qed.
(** A log determinant with a row missing takes the last row given for x_d and returns. *)
Theorem C80_logdet_points_refuted : forall d nc cont r n, 1 <= d -> 1 <= r -> d - 1 <= r ->
  LogDeterminant (TComp d nc cont) (arr r n) = Ok n.
Proof.
  intros d nc cont r n Hd Hr Hdr. unfold LogDeterminant. cbn [LogDeterminantImpl]. change (ext1 (arr ?a n)) with n.
  unfold read_points. change (ext1 (arr ?a n)) with n. change (ext0 (arr ?a n)) with a.
  destruct (Nat.eqb_spec r 0); [lia|]. rewrite touch_arr by lia.
  change (len (Vec n n)) with n. rewrite !touch1_full by lia. destruct (n =? 0); reflexivity.
Qed.
(** Points with the wrong number of rows for the matrix of an affine map are not noticed. *)
Theorem C80_affine_points_refuted : forall r c k n, 1 <= r <= c -> k <> c ->
  Evaluate (TAffine (Some (r, c)) None) (arr k n) = UB.
Proof.
  intros r c k n Hrc Hk. unfold Evaluate. cbn [EvaluateImpl dout]. change (ext1 (arr ?a n)) with n.
  rewrite touch_arr by lia. cbn [obind]. unfold dgemm. change (ext0 (arr k n)) with k.
  destruct (Nat.eqb_spec k c); [contradiction|]. reflexivity.
Qed.

(** The gradients of a component are checked: they return for the documented sizes and throw for
    all others. *)
Theorem C80_rejects_partial : forall d nc cont r n s k,
  let ok := r = d /\ s = 1 /\ k = n in
  let m := TComp d nc cont in
  (ok -> Gradient m (arr r n) (arr s k) = Ok (d, n) /\ CoeffGrad m (arr r n) (arr s k) = Ok (nc, n)) /\
  (~ ok -> Gradient m (arr r n) (arr s k) = Throw /\ CoeffGrad m (arr r n) (arr s k) = Throw).
Proof.
  intros d nc cont r n s k ok m. unfold Gradient, CoeffGrad, m. cbn [GradientImpl CoeffGradImpl din ncoef].
  change (ext1 (arr r n)) with n. split.
  - intros [-> [-> ->]]. rewrite !sizes_arr. rewrite !touch_arr by lia. split; reflexivity.
  - intros N. assert (forall rows, grad_sizes d (arr r n) (arr s k) (arr rows n) rows = false) as F.
    { intros rows. unfold grad_sizes. change (ext0 (arr ?a ?b)) with a. change (ext1 (arr ?a ?b)) with b.
      destruct (Nat.eqb_spec s 1); [|reflexivity]. destruct (Nat.eqb_spec k n); [|reflexivity].
      destruct (Nat.eqb_spec r d); [|reflexivity]. exfalso. apply N. unfold ok. auto. }
    rewrite !F. split; reflexivity.
Qed.
(** Inside a triangular map the check sees the block's rows, also those that are not there. *)
Theorem C80_sens_refuted : forall n1 n2 cont n, 1 <= n ->
  let m := TTri [TComp 1 n1 cont; TComp 2 n2 cont] in
  built m /\ dout m = 2 /\ Gradient m (arr 2 n) (arr 1 n) = UB.
Proof.
  intros n1 n2 cont n Hn m. split; [|split; [reflexivity|]].
  - unfold m. apply b_tri; [repeat constructor; lia|cbn; lia|cbn; auto].
  - unfold Gradient. change (ext1 (arr 2 n)) with n. change (din m) with 2.
    unfold m. cbn [GradientImpl tri_grad din dout]. change (ext0 (arr 2 n)) with 2. change (ext1 (arr 2 n)) with n.
    rewrite touch_arr by lia. cbn [obind]. rewrite !sub_arr by lia. cbn [Nat.sub Nat.add].
    rewrite sizes_arr. change (ext1 (arr ?a n)) with n. rewrite !touch_arr by lia. cbn [obind].
    unfold grad_sizes, sub. cbn [ext0 ext1 have arr Nat.sub Nat.add]. rewrite !Nat.eqb_refl. cbn [andb Nat.min].
    change (Mat 2 n 2) with (arr 2 n). rewrite ?touch_arr by lia. cbn [obind].
    unfold touch at 1. cbn [have ext1]. destruct (Nat.eqb_spec n 0); [lia|]. reflexivity.
Qed.

(** ** From MATLAB *)
(** Real arrays of doubles of the documented sizes, with at least one point. *)
Theorem C80_matlab : forall m n, built m -> 1 <= n ->
  ml_Evaluate m (zeros (din m) n) = Ok (dout m, n) /\
  ml_LogDeterminant m (zeros (din m) n) = Ok (n, 1) /\
  ml_Inverse m (zeros (din m) n) (zeros (dout m) n) = Ok (dout m, n) /\
  (one_input m = false -> ml_Inverse m (zeros (din m - dout m) n) (zeros (dout m) n) = Ok (dout m, n)) /\
  ml_Gradient m (zeros (din m) n) (zeros (dout m) n) = Ok (din m, n) /\
  ml_CoeffGrad m (zeros (din m) n) (zeros (dout m) n) = Ok (ncoef m, n) /\
  (continuous m = true -> ml_LogDeterminantInputGrad m (zeros (din m) n) = Ok (din m, n)) /\
  (continuous_layers m = true -> ml_LogDeterminantCoeffGrad m (zeros (din m) n) = Ok (ncoef m, n)).
Proof.
  intros m n B Hn.
  assert (MexToKokkos1d (zeros n 1) = Vec n n) as V.
  { unfold MexToKokkos1d, zeros. cbn [mx_cols mx_rows]. f_equal; lia. }
  unfold ml_Evaluate, ml_LogDeterminant, ml_Inverse, ml_Gradient, ml_CoeffGrad, ml_LogDeterminantInputGrad, ml_LogDeterminantCoeffGrad.
  change (mx_cols (zeros ?a n)) with n. change (mx_rows (zeros ?a n)) with a. rewrite V.
  change (MexToKokkos2d (zeros ?a ?b)) with (Ok (arr a b)). cbn [obind].
  rewrite evaluate_ok, logdet_ok, gradient_ok, coeffgrad_ok by assumption.
  rewrite inverse_ok by auto. cbn [obind].
  repeat split; intros; [rewrite inverse_ok by auto|rewrite ldin_ok by auto|rewrite ldco_ok by auto]; reflexivity.
Qed.
(** Points of another class, or complex ones, are rejected by every call of every map. *)
Theorem C80_matlab_class : forall m pts other, mx_double pts = false \/ mx_complex pts = true ->
  ml_Evaluate m pts = Throw /\ ml_LogDeterminant m pts = Throw /\
  ml_Inverse m pts other = Throw /\ ml_Gradient m pts other = Throw /\ ml_CoeffGrad m pts other = Throw /\
  ml_LogDeterminantInputGrad m pts = Throw /\ ml_LogDeterminantCoeffGrad m pts = Throw.
Proof.
  intros m pts other H. assert (MexToKokkos2d pts = Throw) as E.
  { unfold MexToKokkos2d. destruct (mx_complex pts); [reflexivity|]. destruct H as [->|H]; [reflexivity|discriminate H]. }
  unfold ml_Evaluate, ml_LogDeterminant, ml_Inverse, ml_Gradient, ml_CoeffGrad, ml_LogDeterminantInputGrad, ml_LogDeterminantCoeffGrad.
  rewrite E. repeat split.
Qed.
(** With no points, zeros(0,1) becomes a view of one entry, and the log determinant is written
    there, whatever the map. From C++ the call returns. *)
Lemma empty_ub m : built m -> LogDeterminantImpl m (arr (din m) 0) (Vec 1 0) = UB.
Proof.
  intros B. induction B using built_ind2; try reflexivity.
  - cbn [LogDeterminantImpl]. rewrite sub_arr by exact (Forall_inv (tri_le _ _ H2)).
    rewrite Nat.sub_0_r, (Forall_inv H0). reflexivity.
  - cbn [LogDeterminantImpl]. change (din (TComposed (m :: l))) with (din m). rewrite (Forall_inv H0). reflexivity.
  - cbn [LogDeterminantImpl]. change (ext1 (arr ?a 0)) with 0. change (din (TSumm si so c)) with (si + 1).
    rewrite summarize_ok by assumption. cbn [obind]. exact IHB.
Qed.
Theorem C80_matlab_empty_refuted : forall m, built m ->
  LogDeterminant m (arr (din m) 0) = Ok 0 /\ ml_LogDeterminant m (zeros (din m) 0) = UB.
Proof.
  intros m B. split; [apply C80_calls, B|].
  unfold ml_LogDeterminant. change (MexToKokkos1d (zeros (mx_cols (zeros (din m) 0)) 1)) with (Vec 1 0).
  change (MexToKokkos2d (zeros ?a ?b)) with (Ok (arr a b)). cbn [obind]. rewrite empty_ub by exact B. reflexivity.
Qed.
(** Different numbers of points for the two arguments of the inverse: C++ checks, MATLAB does
    not. *)
Theorem C80_matlab_columns_refuted : forall r c n k, 1 <= r < c -> k <> n ->
  let m := TAffine (Some (r, c)) None in
  built m /\ Inverse m (arr (din m - dout m) k) (arr (dout m) n) = Throw /\
  ml_Inverse m (zeros (din m - dout m) k) (zeros (dout m) n) = UB.
Proof.
  intros r c n k H Hk m. split; [constructor; lia|]. split.
  - unfold Inverse. change (ext1 (arr ?a ?b)) with b. destruct (Nat.eqb_spec k n); [contradiction|reflexivity].
  - unfold ml_Inverse. change (mx_cols (zeros ?a n)) with n. change (MexToKokkos2d (zeros ?a ?b)) with (Ok (arr a b)). cbn [obind].
    unfold m. cbn [InverseImpl din dout]. rewrite copy_arr. cbn [obind]. rewrite sub_arr by lia. rewrite Nat.sub_0_r.
    destruct (Nat.eqb_spec r c); [lia|]. unfold dgemm. change (ext0 (arr ?a ?b)) with a. change (ext1 (arr ?a ?b)) with b.
    rewrite !Nat.eqb_refl. destruct (Nat.eqb_spec k n); [contradiction|]. reflexivity.
Qed.

(** ** Cases *)
(** A composition of a triangular map, whose second block is a component on a summary and whose
    third is a rectangular affine block, with a square affine map. *)
Definition ex_tri : tree :=
  TTri [TComp 1 3 true; TSumm 1 1 (TComp 2 4 true); TAffine (Some (2, 4)) (Some 2)].
Definition ex : tree := TComposed [ex_tri; TAffine (Some (4, 4)) None; TIdent 4 4].
Example ex_built : built ex_tri /\ built ex.
Proof.
  assert (built ex_tri) as B.
  { apply b_tri; [|cbn; lia|cbn; auto].
    repeat constructor; cbn; lia. }
  split; [exact B|]. apply b_composed.
  - constructor; [exact B|]. repeat constructor; lia.
  - repeat constructor.
Qed.
Example ex_sizes : din ex = 4 /\ dout ex = 4 /\ ncoef ex = 7 /\ continuous ex = true /\ one_input ex = false.
Proof. repeat split. Qed.
Example ex_calls : Evaluate ex (arr 4 5) = Ok (4, 5) /\ CoeffGrad ex (arr 4 5) (arr 4 5) = Ok (7, 5) /\
  Inverse ex (arr 0 5) (arr 4 5) = Ok (4, 5) /\ LogDeterminantCoeffGrad ex (arr 4 5) = Ok (7, 5).
Proof. repeat split. Qed.

Print Assumptions C80_calls.
Print Assumptions C80_inverse_partial.
Print Assumptions C80_one_dim_inverse_refuted.
Print Assumptions C80_logdet_gradients_partial.
Print Assumptions C80_discretised_refuted.
Print Assumptions C80_points_refuted.
Print Assumptions C80_logdet_points_refuted.
Print Assumptions C80_affine_points_refuted.
Print Assumptions C80_rejects_partial.
Print Assumptions C80_sens_refuted.
Print Assumptions C80_matlab.
Print Assumptions C80_matlab_class.
Print Assumptions C80_matlab_empty_refuted.
Print Assumptions C80_matlab_columns_refuted.
