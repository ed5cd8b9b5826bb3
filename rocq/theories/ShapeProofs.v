(** Calls with arrays of the documented sizes, by induction over the map. *)
From Verif Require Import Base SpecShape ShapeModel.

Lemma tree_ind2 (P : tree -> Prop) :
  (forall d nc cont, P (TComp d nc cont)) ->
  (forall A b, P (TAffine A b)) ->
  (forall i o, P (TIdent i o)) ->
  (forall l, Forall P l -> P (TTri l)) ->
  (forall l, Forall P l -> P (TComposed l)) ->
  (forall si so c, P c -> P (TSumm si so c)) ->
  forall m, P m.
Proof.
  intros H1 H2 H3 H4 H5 H6.
  fix IH 1. intros [d nc cont|A b|i o|l|l|si so c].
  - apply H1. - apply H2. - apply H3.
  - apply H4. induction l as [|m l IHl]; constructor; [apply IH|exact IHl].
  - apply H5. induction l as [|m l IHl]; constructor; [apply IH|exact IHl].
  - apply H6. apply IH.
Qed.

(** Induction over the maps the constructors accept, carrying [built]. *)
Lemma built_ind2 (P : tree -> Prop) :
  (forall d nc cont, 1 <= d -> P (TComp d nc cont)) ->
  (forall r c, 1 <= r <= c -> P (TAffine (Some (r, c)) None)) ->
  (forall r c, 1 <= r <= c -> P (TAffine (Some (r, c)) (Some r))) ->
  (forall w, 1 <= w -> P (TAffine None (Some w))) ->
  (forall i o, 1 <= o <= i -> P (TIdent i o)) ->
  (forall m l, Forall built (m :: l) -> Forall P (m :: l) -> dout m <= din m -> staircase (din m) l -> P (TTri (m :: l))) ->
  (forall m l, Forall built (m :: l) -> Forall P (m :: l) ->
    Forall (fun k => din k = din m /\ dout k = din m) (m :: l) -> P (TComposed (m :: l))) ->
  (forall si so c, built c -> P c -> 1 <= so -> dout c = 1 -> din c = so + 1 -> P (TSumm si so c)) ->
  forall m, built m -> P m.
Proof.
  intros H1 H2 H3 H4 H5 H6 H7 H8 m.
  induction m as [d nc cont|A b|i o|l IH|l IH|si so c IH] using tree_ind2; intros B; inversion B; subst; auto.
  - apply H6; auto. rewrite Forall_forall in *. auto.
  - apply H7; auto. rewrite Forall_forall in *. auto.
Qed.

Lemma sub_arr R c lo hi : hi <= R -> sub (arr R c) lo hi = arr (hi - lo) c.
Proof. intros H. unfold sub, arr; cbn [ext0 ext1 have]. f_equal. lia. Qed.
Lemma touch_arr R C r c : r <= R -> c <= C -> touch (arr R C) r c = Ok tt.
Proof.
  intros Hr Hc. unfold touch, arr; cbn [ext0 ext1 have].
  destruct ((r =? 0) || (c =? 0)); [reflexivity|].
  apply Nat.leb_le in Hr, Hc. rewrite Hr, Hc. reflexivity.
Qed.
Lemma copy_arr r c : deep_copy (arr r c) (arr r c) = Ok tt.
Proof.
  unfold deep_copy. cbn [ext0 ext1 arr]. rewrite !Nat.eqb_refl. cbn [andb].
  change (Mat r c r) with (arr r c). rewrite !touch_arr by lia. reflexivity.
Qed.
Lemma dgemm_arr m k n : dgemm m k (arr k n) (arr m n) = Ok tt.
Proof.
  unfold dgemm. cbn [ext0 ext1 arr]. rewrite !Nat.eqb_refl. cbn [andb].
  change (Mat k n k) with (arr k n); change (Mat m n m) with (arr m n).
  rewrite !touch_arr by lia. reflexivity.
Qed.
Lemma touch1_full n k : k <= n -> touch1 (Vec n n) k = Ok tt.
Proof. intros H. unfold touch1. cbn. apply Nat.leb_le in H. now rewrite H. Qed.
Lemma read_arr d n : 1 <= d -> read_points d (arr d n) = Ok tt.
Proof.
  intros H. unfold read_points. cbn [ext0 ext1 arr]. destruct (n =? 0); [reflexivity|].
  destruct (Nat.eqb_spec d 0) as [E|E]; [lia|].
  change (Mat d n d) with (arr d n). apply touch_arr; lia.
Qed.
Lemma sizes_arr d n rows : grad_sizes d (arr d n) (arr 1 n) (arr rows n) rows = true.
Proof. unfold grad_sizes. cbn [ext0 ext1 arr]. now rewrite !Nat.eqb_refl. Qed.
Lemma each_ok f l : Forall (fun k => f k = Ok tt) l -> each f l = Ok tt.
Proof. induction 1 as [|m l H _ IH]; cbn; [reflexivity|]. rewrite H. exact IH. Qed.
Lemma each_back_ok f l : Forall (fun k => f k = Ok tt) l -> each_back f l = Ok tt.
Proof. induction 1 as [|m l H _ IH]; cbn; [reflexivity|]. rewrite IH. exact H. Qed.
Lemma last_from {A} (a d : A) l : last (a :: l) d = last l a.
Proof. revert a d; induction l as [|b l IH]; intros a d; [reflexivity|]. change (last (a :: b :: l) d) with (last (b :: l) d). now rewrite !IH. Qed.
Lemma Forall_removelast {A} (P : A -> Prop) l : Forall P l -> Forall P (removelast l).
Proof.
  induction 1 as [|a l Ha H IH]; [constructor|]. destruct l as [|b l]; [constructor|].
  change (removelast (a :: b :: l)) with (a :: removelast (b :: l)). constructor; auto.
Qed.

(** ** Sizes of triangular maps *)
Lemma staircase_last b l : staircase b l -> last (map din l) b = b + list_sum (map dout l).
Proof.
  revert b; induction l as [|m l IH]; intros b H; [cbn; lia|].
  destruct H as [E H]. cbn [map]. rewrite last_from, (IH _ H). change (list_sum (dout m :: map dout l)) with (dout m + list_sum (map dout l)). lia.
Qed.
Lemma staircase_le b l : staircase b l -> Forall (fun m => din m <= last (map din l) b) l.
Proof.
  revert b; induction l as [|m l IH]; intros b H; [constructor|].
  destruct H as [E H]. cbn [map]. rewrite last_from. constructor.
  - rewrite (staircase_last _ _ H). lia.
  - apply (IH _ H).
Qed.
Lemma tri_din m l : din (TTri (m :: l)) = last (map din l) (din m).
Proof. cbn [din map]. apply last_from. Qed.
Lemma tri_dout m l : dout (TTri (m :: l)) = dout m + list_sum (map dout l).
Proof. reflexivity. Qed.
Lemma tri_ncoef m l : ncoef (TTri (m :: l)) = ncoef m + list_sum (map ncoef l).
Proof. reflexivity. Qed.
Lemma tri_le m l : staircase (din m) l -> Forall (fun k => din k <= din (TTri (m :: l))) (m :: l).
Proof.
  intros H. rewrite tri_din. constructor.
  - rewrite (staircase_last _ _ H). lia.
  - apply staircase_le, H.
Qed.
Lemma dout_le_din m : built m -> dout m <= din m.
Proof.
  intros B. induction B using built_ind2; try (cbn; lia).
  - rewrite tri_din, tri_dout, staircase_last by assumption. lia.
  - cbn. apply Forall_inv in H1. lia.
Qed.
Lemma one_input_din m : built m -> one_input m = true -> din m = 1.
Proof.
  intros B. induction B using built_ind2; cbn [one_input]; intros E; try discriminate E.
  - apply Nat.eqb_eq in E. exact E.
  - apply existsb_exists in E. destruct E as [k [I E]]. rewrite Forall_forall in *.
    specialize (H0 k I E). destruct (H1 k I) as [D _]. cbn [din]. lia.
Qed.
Lemma continuous_layers_of m : continuous m = true -> continuous_layers m = true.
Proof.
  induction m as [d nc cont|A b|i o|l IH|l IH|si so c IH] using tree_ind2; cbn; auto.
  intros E. rewrite forallb_forall in *. rewrite Forall_forall in IH. auto.
Qed.

Lemma summarize_ok si so c n :
  din c = so + 1 -> SummarizePts si so (arr (si + 1) n) (arr (din c) n) = Ok tt.
Proof.
  intros E. unfold SummarizePts. rewrite E. cbn [ext1 arr].
  change (Mat (si + 1) n (si + 1)) with (arr (si + 1) n); change (Mat (so + 1) n (so + 1)) with (arr (so + 1) n).
  rewrite !sub_arr by lia. rewrite !touch_arr by lia. cbn [obind].
  replace (si + 1 - si) with (so + 1 - so) by lia. apply copy_arr.
Qed.

(** ** Evaluate *)
Lemma evaluate_ok m : built m -> forall n, EvaluateImpl m (arr (din m) n) (arr (dout m) n) = Ok tt.
Proof.
  intros B. induction B using built_ind2; intros n.
  - cbn [EvaluateImpl din dout]. change (ext1 (arr ?a n)) with n. rewrite Nat.eqb_refl, !touch_arr by lia. cbn [obind]. reflexivity.
  - cbn [EvaluateImpl din dout]. change (ext1 (arr ?a n)) with n. rewrite touch_arr by lia. cbn [obind]. rewrite dgemm_arr. reflexivity.
  - cbn [EvaluateImpl din dout]. change (ext1 (arr ?a n)) with n. rewrite touch_arr by lia. cbn [obind]. rewrite dgemm_arr. reflexivity.
  - cbn [EvaluateImpl din dout]. change (ext1 (arr ?a n)) with n. rewrite copy_arr. cbn [obind]. now apply touch_arr.
  - cbn [EvaluateImpl din dout]. rewrite sub_arr by lia. replace (i - (i - o)) with o by lia. apply copy_arr.
  - cbn [EvaluateImpl]. pose proof (tri_le _ _ H2) as L. rewrite tri_dout.
    change (dout m + list_sum (map dout l)) with (0 + list_sum (map dout (m :: l))).
    set (D := din (TTri (m :: l))) in *. clearbody D. clear H1 H2. revert L H H0.
    generalize 0 as start. generalize (m :: l) as k. clear m l. intros k.
    assert (G : forall O start, start + list_sum (map dout k) <= O -> Forall (fun j => din j <= D) k ->
      Forall (fun j => forall n, EvaluateImpl j (arr (din j) n) (arr (dout j) n) = Ok tt) k ->
      tri_eval EvaluateImpl (arr D n) (arr O n) k start = Ok tt).
    { induction k as [|j k IH]; intros O start HO HD HE; [reflexivity|].
      cbn [tri_eval]. cbn [map list_sum fold_right] in HO. change (fold_right Nat.add 0 (map dout k)) with (list_sum (map dout k)) in HO.
      rewrite !sub_arr by (try apply Forall_inv in HD; lia). rewrite Nat.sub_0_r.
      replace (start + dout j - start) with (dout j) by lia.
      rewrite (Forall_inv HE). cbn [obind]. apply IH; [lia|exact (Forall_inv_tail HD)|exact (Forall_inv_tail HE)]. }
    intros start L H H0. apply G; auto.
  - cbn [EvaluateImpl]. change (ext0 (arr ?a n)) with a. change (ext1 (arr ?a n)) with n.
    change (din (TComposed (m :: l))) with (din m). change (dout (TComposed (m :: l))) with (dout m).
    destruct (Forall_inv H1) as [_ E]. rewrite E.
    pose proof (Forall_inv H0 n) as E0. rewrite E in E0. rewrite E0. cbn [obind].
    rewrite each_ok; [cbn [obind]; apply copy_arr|].
    rewrite Forall_forall in *. intros k I. destruct (H1 k (or_intror I)) as [A1 A2].
    pose proof (H0 k (or_intror I) n) as E1. rewrite A1, A2 in E1. exact E1.
  - cbn [EvaluateImpl]. change (ext1 (arr ?a n)) with n. change (din (TSumm si so c)) with (si + 1).
    rewrite summarize_ok by assumption. cbn [obind]. apply IHB.
Qed.

Lemma layers_ok m l n :
  Forall built (m :: l) -> Forall (fun k => din k = din m /\ dout k = din m) (m :: l) ->
  layer_inputs (arr (din m) n) (m :: l) = Ok tt.
Proof.
  intros B S. unfold layer_inputs. change (ext0 (arr ?a n)) with a. change (ext1 (arr ?a n)) with n.
  rewrite copy_arr. cbn [obind]. apply each_ok. apply Forall_removelast.
  rewrite Forall_forall in *. intros k I. destruct (S k I) as [A1 A2].
  pose proof (evaluate_ok k (B k I) n) as E. rewrite A1, A2 in E. exact E.
Qed.
Lemma sum_map_cons (f : tree -> nat) m l : list_sum (map f (m :: l)) = f m + list_sum (map f l).
Proof. reflexivity. Qed.

(** ** LogDeterminant *)
Lemma logdet_ok m : built m -> forall n, LogDeterminantImpl m (arr (din m) n) (Vec n n) = Ok tt.
Proof.
  intros B. induction B using built_ind2; intros n;
    cbn [LogDeterminantImpl]; change (len (Vec n n)) with n; rewrite ?touch1_full by lia; try reflexivity.
  - cbn [din]. rewrite read_arr by assumption. cbn [obind].
    change (ext1 (arr d n)) with n. rewrite !touch1_full by lia. reflexivity.
  - pose proof (tri_le _ _ H2) as L.
    set (D := din (TTri (m :: l))) in *. clearbody D.
    rewrite sub_arr by exact (Forall_inv L). rewrite Nat.sub_0_r, (Forall_inv H0). cbn [obind].
    apply Forall_inv_tail in L, H0. clear H H1 H2.
    induction l as [|j l IH]; [reflexivity|]. cbn [tri_logdet]. change (len (Vec n n)) with n.
    rewrite sub_arr by exact (Forall_inv L). rewrite Nat.sub_0_r, (Forall_inv H0). cbn [obind].
    rewrite touch1_full by lia. cbn [obind]. apply IH; [exact (Forall_inv_tail H0)|exact (Forall_inv_tail L)].
  - change (din (TComposed (m :: l))) with (din m). rewrite (Forall_inv H0). cbn [obind].
    change (ext0 (arr ?a n)) with a. change (ext1 (arr ?a n)) with n. rewrite copy_arr. cbn [obind].
    assert (G : forall j, built j -> din j = din m -> dout j = din m ->
      composed_logdet LogDeterminantImpl (arr (din m) n) (Vec n n) j l = Ok tt).
    { apply Forall_inv_tail in H, H0, H1. induction l as [|k l IH]; intros j Bj E1 E2; [reflexivity|].
      cbn [composed_logdet]. pose proof (evaluate_ok j Bj n) as E. rewrite E1, E2 in E. rewrite E. cbn [obind].
      change (len (Vec n n)) with n. destruct (Forall_inv H1) as [K1 K2].
      pose proof (Forall_inv H0 n) as E3. rewrite K1 in E3. rewrite E3. cbn [obind].
      rewrite touch1_full by lia. cbn [obind].
      apply IH; auto; [exact (Forall_inv_tail H)|exact (Forall_inv_tail H0)|exact (Forall_inv_tail H1)|exact (Forall_inv H)]. }
    destruct (Forall_inv H1) as [_ E]. specialize (G m (Forall_inv H) eq_refl E).
    destruct l; [reflexivity|exact G].
  - change (ext1 (arr ?a n)) with n. change (din (TSumm si so c)) with (si + 1).
    rewrite summarize_ok by assumption. cbn [obind]. apply IHB.
Qed.

(** ** Inverse *)
Lemma inverse_ok m : built m -> forall k n, k = din m \/ (k = din m - dout m /\ one_input m = false) ->
  InverseImpl m (arr k n) (arr (dout m) n) (arr (dout m) n) = Ok tt.
Proof.
  intros B. induction B using built_ind2; intros k n K.
  - cbn [InverseImpl din dout one_input] in *. change (ext0 (arr ?a n)) with a. change (ext1 (arr ?a n)) with n.
    rewrite Nat.eqb_refl. cbn [negb]. rewrite andb_false_r.
    destruct (n =? 0); [reflexivity|].
    assert (1 <= k /\ d - 1 <= k) as [K1 K2].
    { destruct K as [->|[-> E]]; [lia|]. apply Nat.eqb_neq in E. lia. }
    destruct (Nat.eqb_spec k 0) as [E|E]; [lia|].
    rewrite Nat.max_r by lia. rewrite !touch_arr by lia. reflexivity.
  - cbn [InverseImpl din dout one_input] in *. rewrite copy_arr. cbn [obind].
    assert (c - r <= k) by lia. rewrite sub_arr by lia. rewrite Nat.sub_0_r, dgemm_arr.
    change (ext0 (arr ?a n)) with a. change (ext1 (arr ?a n)) with n. rewrite Nat.eqb_refl, touch_arr by lia.
    destruct (r =? c); reflexivity.
  - cbn [InverseImpl din dout one_input] in *. change (ext1 (arr ?a n)) with n. rewrite !touch_arr by lia. cbn [obind].
    assert (c - r <= k) by lia. rewrite sub_arr by lia. rewrite Nat.sub_0_r, dgemm_arr.
    change (ext0 (arr ?a n)) with a. rewrite Nat.eqb_refl.
    destruct (r =? c); reflexivity.
  - cbn [InverseImpl dout]. change (ext1 (arr ?a n)) with n. rewrite !touch_arr by lia. reflexivity.
  - cbn [InverseImpl dout]. apply copy_arr.
  - pose proof (dout_le_din _ (b_tri _ _ H H1 H2)) as LE.
    pose proof (tri_le _ _ H2) as L.
    assert (k <= din (TTri (m :: l))) as KD by (destruct K as [->|[-> _]]; lia).
    cbn [InverseImpl]. change (ext0 (arr ?a n)) with a. change (ext1 (arr ?a n)) with n.
    fold (din (TTri (m :: l))).
    change (last (map din (m :: l)) 0) with (din (TTri (m :: l))).
    change (list_sum (map dout (m :: l))) with (dout (TTri (m :: l))).
    rewrite (sub_arr _ _ 0 k) by exact KD. rewrite Nat.sub_0_r, copy_arr. cbn [obind].
    rewrite (sub_arr _ _ (_ - _)) by lia.
    replace (din (TTri (m :: l)) - (din (TTri (m :: l)) - dout (TTri (m :: l)))) with (dout (TTri (m :: l))) by lia.
    rewrite copy_arr.
    assert (G : forall (j : list tree) D X O start, X + start + list_sum (map dout j) <= D -> start + list_sum (map dout j) <= O ->
      Forall (fun j => din j <= D) j ->
      Forall (fun m => forall k n, k = din m \/ k = din m - dout m /\ one_input m = false ->
        InverseImpl m (arr k n) (arr (dout m) n) (arr (dout m) n) = Ok tt) j ->
      tri_inverse InverseImpl (arr D n) (arr O n) X j start = Ok tt).
    { clear. induction j as [|m j IH]; intros D X O start HD HO HL HE; [reflexivity|].
      cbn [tri_inverse]. rewrite sum_map_cons in HD, HO.
      rewrite !sub_arr by (try apply Forall_inv in HL; lia). rewrite Nat.sub_0_r.
      replace (start + dout m - start) with (dout m) by lia.
      replace (X + start + dout m - (X + start)) with (dout m) by lia.
      rewrite (Forall_inv HE) by (left; reflexivity). cbn [obind].
      apply IH; [lia|lia|exact (Forall_inv_tail HL)|exact (Forall_inv_tail HE)]. }
    rewrite G; [reflexivity| | |exact L|exact H0].
    + change (list_sum (map dout (m :: l))) with (dout (TTri (m :: l))). lia.
    + change (list_sum (map dout (m :: l))) with (dout (TTri (m :: l))). lia.
  - cbn [InverseImpl]. change (ext0 (arr ?a n)) with a. change (ext1 (arr ?a n)) with n.
    change (din (TComposed (m :: l))) with (din m) in *. change (dout (TComposed (m :: l))) with (dout m) in *.
    cbn [one_input] in K. destruct (Forall_inv H1) as [_ E]. rewrite E in *.
    rewrite copy_arr. cbn [obind]. rewrite each_back_ok; [cbn [obind]; first [reflexivity|apply copy_arr]|].
    rewrite Forall_forall in *. intros j I. destruct (H1 j I) as [A1 A2].
    pose proof (H0 j I k n) as E1. rewrite A1, A2 in E1. apply E1.
    destruct K as [K|[K F]]; [left; exact K|right; split; [exact K|]].
    destruct (one_input j) eqn:EJ; [|reflexivity].
    assert (existsb one_input (m :: l) = true) as T by (apply existsb_exists; exists j; auto).
    rewrite T in F. discriminate F.
  - cbn [InverseImpl din dout] in *. change (ext1 (arr ?a n)) with n.
    rewrite sub_arr by lia. rewrite touch_arr by lia. cbn [obind].
    apply IHB. right. split; [lia|].
    destruct (one_input c) eqn:EC; [|reflexivity]. apply one_input_din in EC; [lia|exact B].
Qed.

(** ** Gradient *)
Lemma gradient_ok m : built m -> forall n, GradientImpl m (arr (din m) n) (arr (dout m) n) (arr (din m) n) = Ok tt.
Proof.
  intros B. induction B using built_ind2; intros n.
  - cbn [GradientImpl din dout]. rewrite sizes_arr. change (ext1 (arr ?a n)) with n. rewrite !touch_arr by lia. reflexivity.
  - cbn [GradientImpl din dout]. apply dgemm_arr.
  - cbn [GradientImpl din dout]. apply dgemm_arr.
  - cbn [GradientImpl din dout]. apply copy_arr.
  - cbn [GradientImpl din dout]. change (ext1 (arr ?a n)) with n. rewrite touch_arr by lia. cbn [obind].
    rewrite sub_arr by lia. replace (i - (i - o)) with o by lia. apply copy_arr.
  - cbn [GradientImpl]. pose proof (tri_le _ _ H2) as L. change (ext0 (arr ?a n)) with a. change (ext1 (arr ?a n)) with n.
    rewrite touch_arr by lia. cbn [obind].
    change (dout (TTri (m :: l))) with (list_sum (map dout (m :: l))).
    assert (G : forall (j : list tree) D O start, start + list_sum (map dout j) <= O -> Forall (fun j => din j <= D) j ->
      Forall (fun m => forall n, GradientImpl m (arr (din m) n) (arr (dout m) n) (arr (din m) n) = Ok tt) j ->
      tri_grad GradientImpl (arr D n) (arr O n) (arr D n) j start = Ok tt).
    { clear. induction j as [|m j IH]; intros D O start HO HL HE; [reflexivity|].
      cbn [tri_grad]. rewrite sum_map_cons in HO. change (ext1 (arr ?a n)) with n. pose proof (Forall_inv HL) as LE. cbn beta in LE.
      rewrite !sub_arr by lia. rewrite Nat.sub_0_r. replace (start + dout m - start) with (dout m) by lia.
      rewrite (Forall_inv HE). cbn [obind]. rewrite touch_arr by lia. cbn [obind].
      apply IH; [lia|exact (Forall_inv_tail HL)|exact (Forall_inv_tail HE)]. }
    apply G; auto.
  - cbn [GradientImpl]. change (ext0 (arr ?a n)) with a. change (ext1 (arr ?a n)) with n.
    change (din (TComposed (m :: l))) with (din m) in *. change (dout (TComposed (m :: l))) with (dout m) in *.
    destruct (Forall_inv H1) as [_ E]. rewrite E in *.
    rewrite copy_arr. cbn [obind]. rewrite layers_ok by assumption. cbn [obind].
    rewrite each_back_ok; [cbn [obind]; first [reflexivity|apply copy_arr]|].
    rewrite Forall_forall in *. intros j I. destruct (H1 j I) as [A1 A2].
    pose proof (H0 j I n) as E1. rewrite A1, A2 in E1. exact E1.
  - cbn [GradientImpl dout]. change (ext1 (arr ?a n)) with n. change (din (TSumm si so c)) with (si + 1).
    rewrite summarize_ok by assumption. cbn [obind]. rewrite IHB. cbn [obind].
    rewrite !sub_arr by lia. rewrite !touch_arr by lia. cbn [obind].
    replace (si + 1 - si) with (so + 1 - so) by lia. apply copy_arr.
Qed.

(** ** CoeffGrad *)
Lemma coeffgrad_ok m : built m -> forall n, CoeffGradImpl m (arr (din m) n) (arr (dout m) n) (arr (ncoef m) n) = Ok tt.
Proof.
  intros B. induction B using built_ind2; intros n; try reflexivity.
  - cbn [CoeffGradImpl din dout ncoef]. rewrite sizes_arr. change (ext1 (arr ?a n)) with n. rewrite !touch_arr by lia. reflexivity.
  - cbn [CoeffGradImpl]. pose proof (tri_le _ _ H2) as L.
    change (dout (TTri (m :: l))) with (list_sum (map dout (m :: l))).
    change (ncoef (TTri (m :: l))) with (list_sum (map ncoef (m :: l))).
    assert (G : forall (j : list tree) D O P start param, start + list_sum (map dout j) <= O ->
      param + list_sum (map ncoef j) <= P -> Forall (fun j => din j <= D) j ->
      Forall (fun m => forall n, CoeffGradImpl m (arr (din m) n) (arr (dout m) n) (arr (ncoef m) n) = Ok tt) j ->
      tri_coeff CoeffGradImpl (arr D n) (arr O n) (arr P n) j start param = Ok tt).
    { clear. induction j as [|m j IH]; intros D O P start param HO HP HL HE; [reflexivity|].
      cbn [tri_coeff]. rewrite sum_map_cons in HO, HP. pose proof (Forall_inv HL) as LE. cbn beta in LE.
      rewrite !sub_arr by lia. rewrite Nat.sub_0_r. replace (start + dout m - start) with (dout m) by lia.
      replace (param + ncoef m - param) with (ncoef m) by lia.
      rewrite (Forall_inv HE).
      destruct (ncoef m =? 0); cbn [obind]; (apply IH; [lia|lia|exact (Forall_inv_tail HL)|exact (Forall_inv_tail HE)]). }
    apply G; auto.
  - cbn [CoeffGradImpl]. change (ext0 (arr ?a n)) with a. change (ext1 (arr ?a n)) with n.
    change (din (TComposed (m :: l))) with (din m) in *. change (dout (TComposed (m :: l))) with (dout m) in *.
    change (ncoef (TComposed (m :: l))) with (list_sum (map ncoef (m :: l))).
    destruct (Forall_inv H1) as [_ E]. rewrite E in *.
    rewrite copy_arr. cbn [obind]. rewrite layers_ok by assumption. cbn [obind].
    generalize (din m) as d, H1, H, H0. generalize (m :: l) as j. clear. intros j d.
    assert (G : forall P param first, param + list_sum (map ncoef j) <= P ->
      Forall (fun k => din k = d /\ dout k = d) j -> Forall built j ->
      Forall (fun m => forall n, CoeffGradImpl m (arr (din m) n) (arr (dout m) n) (arr (ncoef m) n) = Ok tt) j ->
      composed_coeff CoeffGradImpl (arr d n) (arr d n) (arr P n) first j param = Ok tt).
    { induction j as [|m j IH]; intros P param first HP HS HB HE; [reflexivity|].
      cbn [composed_coeff]. rewrite sum_map_cons in HP.
      rewrite IH; [|lia|exact (Forall_inv_tail HS)|exact (Forall_inv_tail HB)|exact (Forall_inv_tail HE)]. cbn [obind].
      rewrite sub_arr by lia. replace (param + ncoef m - param) with (ncoef m) by lia.
      destruct (Forall_inv HS) as [A1 A2]. pose proof (Forall_inv HE n) as E1. cbn beta in E1. rewrite A1, A2 in E1. rewrite E1. cbn [obind].
      destruct first; [reflexivity|].
      pose proof (gradient_ok m (Forall_inv HB) n) as E2. rewrite A1, A2 in E2. exact E2. }
    intros; apply G; auto.
  - cbn [CoeffGradImpl dout ncoef]. change (ext1 (arr ?a n)) with n. change (din (TSumm si so c)) with (si + 1).
    rewrite summarize_ok by assumption. cbn [obind]. apply IHB.
Qed.

(** ** LogDeterminantInputGrad *)
Lemma ldin_ok m : built m -> continuous m = true -> forall n, LogDeterminantInputGradImpl m (arr (din m) n) (arr (din m) n) = Ok tt.
Proof.
  intros B. induction B using built_ind2; intros C n; try reflexivity.
  - cbn [LogDeterminantInputGradImpl continuous din] in *. rewrite C. change (ext0 (arr ?a n)) with a. change (ext1 (arr ?a n)) with n.
    rewrite !Nat.eqb_refl. cbn [andb]. rewrite read_arr by assumption. cbn [obind]. apply touch_arr; lia.
  - cbn [LogDeterminantInputGradImpl din]. change (ext0 (arr ?a n)) with a. change (ext1 (arr ?a n)) with n. apply touch_arr; lia.
  - cbn [LogDeterminantInputGradImpl]. pose proof (tri_le _ _ H2) as L. change (ext0 (arr ?a n)) with a. change (ext1 (arr ?a n)) with n.
    rewrite touch_arr by lia. cbn [obind].
    change (last (map din (m :: l)) 0) with (din (TTri (m :: l))). cbn [continuous] in C.
    generalize (din (TTri (m :: l))) as D, L, H0, C. generalize (m :: l) as j. clear. intros j D.
    induction j as [|m j IH]; intros HL HE HC; [reflexivity|].
    cbn [tri_ldin]. change (ext1 (arr ?a n)) with n. pose proof (Forall_inv HL) as LE. cbn beta in LE.
    cbn [forallb] in HC. apply andb_true_iff in HC. destruct HC as [C1 C2].
    rewrite !sub_arr by lia. rewrite Nat.sub_0_r, (Forall_inv HE C1). cbn [obind]. rewrite touch_arr by lia. cbn [obind].
    apply IH; [exact (Forall_inv_tail HL)|exact (Forall_inv_tail HE)|exact C2].
  - cbn [LogDeterminantInputGradImpl]. change (ext0 (arr ?a n)) with a. change (ext1 (arr ?a n)) with n.
    change (din (TComposed (m :: l))) with (din m) in *.
    rewrite layers_ok by assumption. cbn [obind]. cbn [continuous] in C.
    assert (G : forall d m l, Forall (fun k => din k = d /\ dout k = d) (m :: l) -> Forall built (m :: l) ->
      Forall (fun m => continuous m = true -> forall n, LogDeterminantInputGradImpl m (arr (din m) n) (arr (din m) n) = Ok tt) (m :: l) ->
      forallb continuous (m :: l) = true ->
      composed_ldin LogDeterminantInputGradImpl (arr d n) (arr d n) (m :: l) = Ok tt).
    { clear. intros d m l. revert m. induction l as [|k l IH]; intros m HS HB HE HC;
        cbn [forallb] in HC; apply andb_true_iff in HC; destruct HC as [C1 C2];
        destruct (Forall_inv HS) as [A1 A2]; pose proof (Forall_inv HE C1 n) as E1; rewrite A1 in E1.
      - exact E1.
      - pose proof (gradient_ok m (Forall_inv HB) n) as E2. rewrite A1, A2 in E2.
        specialize (IH k (Forall_inv_tail HS) (Forall_inv_tail HB) (Forall_inv_tail HE) C2).
        change (obind (composed_ldin LogDeterminantInputGradImpl (arr d n) (arr d n) (k :: l)) (fun _ =>
          obind (GradientImpl m (arr d n) (arr d n) (arr d n)) (fun _ => LogDeterminantInputGradImpl m (arr d n) (arr d n))) = Ok tt).
        rewrite IH. cbn [obind]. rewrite E2. cbn [obind]. exact E1. }
    rewrite G by assumption. cbn [obind]. apply copy_arr.
  - cbn [LogDeterminantInputGradImpl continuous] in *. change (ext1 (arr ?a n)) with n. change (din (TSumm si so c)) with (si + 1).
    rewrite summarize_ok by assumption. cbn [obind]. rewrite (IHB C). cbn [obind].
    rewrite !sub_arr by lia. rewrite !touch_arr by lia. cbn [obind]. rewrite Nat.sub_0_r, copy_arr. cbn [obind].
    replace (si + 1 - si) with (so + 1 - so) by lia. apply copy_arr.
Qed.

(** ** LogDeterminantCoeffGrad *)
Lemma ldco_ok m : built m -> continuous_layers m = true -> forall n, LogDeterminantCoeffGradImpl m (arr (din m) n) (arr (ncoef m) n) = Ok tt.
Proof.
  intros B. induction B using built_ind2; intros C n; try reflexivity.
  - cbn [LogDeterminantCoeffGradImpl din ncoef] in *. change (ext0 (arr ?a n)) with a. change (ext1 (arr ?a n)) with n.
    rewrite !Nat.eqb_refl. cbn [andb]. rewrite read_arr by assumption. cbn [obind]. apply touch_arr; lia.
  - cbn [LogDeterminantCoeffGradImpl]. pose proof (tri_le _ _ H2) as L.
    change (ncoef (TTri (m :: l))) with (list_sum (map ncoef (m :: l))). cbn [continuous_layers] in C.
    assert (G : forall (j : list tree) D P param, param + list_sum (map ncoef j) <= P -> Forall (fun j => din j <= D) j ->
      Forall (fun m => continuous_layers m = true -> forall n, LogDeterminantCoeffGradImpl m (arr (din m) n) (arr (ncoef m) n) = Ok tt) j ->
      forallb continuous_layers j = true ->
      tri_ldco LogDeterminantCoeffGradImpl (arr D n) (arr P n) j param = Ok tt).
    { clear. induction j as [|m j IH]; intros D P param HP HL HE HC; [reflexivity|].
      cbn [tri_ldco]. rewrite sum_map_cons in HP. pose proof (Forall_inv HL) as LE. cbn beta in LE.
      cbn [forallb] in HC. apply andb_true_iff in HC. destruct HC as [C1 C2].
      rewrite !sub_arr by lia. rewrite Nat.sub_0_r. replace (param + ncoef m - param) with (ncoef m) by lia.
      rewrite (Forall_inv HE C1).
      destruct (ncoef m =? 0); cbn [obind]; (apply IH; [lia|exact (Forall_inv_tail HL)|exact (Forall_inv_tail HE)|exact C2]). }
    apply G; auto.
  - cbn [LogDeterminantCoeffGradImpl]. change (ext0 (arr ?a n)) with a. change (ext1 (arr ?a n)) with n.
    change (din (TComposed (m :: l))) with (din m) in *.
    change (ncoef (TComposed (m :: l))) with (list_sum (map ncoef (m :: l))).
    rewrite layers_ok by assumption. cbn [obind]. cbn [continuous_layers] in C.
    assert (G : forall d l m P param first, param + list_sum (map ncoef (m :: l)) <= P ->
      Forall (fun k => din k = d /\ dout k = d) (m :: l) -> Forall built (m :: l) ->
      Forall (fun m => continuous_layers m = true -> forall n, LogDeterminantCoeffGradImpl m (arr (din m) n) (arr (ncoef m) n) = Ok tt) (m :: l) ->
      forallb continuous (m :: l) = true ->
      composed_ldco LogDeterminantCoeffGradImpl (arr d n) (arr d n) (arr P n) first (m :: l) param = Ok tt).
    { clear. intros d. induction l as [|k l IH]; intros m P param first HP HS HB HE HC; rewrite sum_map_cons in HP;
        cbn [forallb] in HC; apply andb_true_iff in HC; destruct HC as [C1 C2];
        destruct (Forall_inv HS) as [A1 A2];
        pose proof (Forall_inv HE (continuous_layers_of _ C1) n) as E1; rewrite A1 in E1;
        pose proof (ldin_ok m (Forall_inv HB) C1 n) as E2; rewrite A1 in E2.
      - cbn [composed_ldco]. rewrite sub_arr by (cbn in HP; lia). replace (param + ncoef m - param) with (ncoef m) by lia.
        rewrite E1. cbn [obind]. exact E2.
      - pose proof (gradient_ok m (Forall_inv HB) n) as E3. rewrite A1, A2 in E3.
        pose proof (coeffgrad_ok m (Forall_inv HB) n) as E4. rewrite A1, A2 in E4.
        assert (E5 := IH k P (param + ncoef m) false ltac:(lia) (Forall_inv_tail HS) (Forall_inv_tail HB) (Forall_inv_tail HE) C2).
        remember (k :: l) as kl eqn:EQ. cbn [composed_ldco]. rewrite EQ at 1. change (ext1 (arr d n)) with n.
        rewrite E5. cbn [obind]. rewrite sub_arr by lia. replace (param + ncoef m - param) with (ncoef m) by lia.
        rewrite E1. cbn [obind]. rewrite E4. cbn [obind]. rewrite touch_arr by lia. cbn [obind].
        destruct first; [reflexivity|]. rewrite E3. cbn [obind]. exact E2. }
    apply G; auto.
  - cbn [LogDeterminantCoeffGradImpl continuous_layers ncoef] in *. change (ext1 (arr ?a n)) with n. change (din (TSumm si so c)) with (si + 1).
    rewrite summarize_ok by assumption. cbn [obind]. exact (IHB C n).
Qed.
