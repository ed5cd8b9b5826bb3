(** C78: options set in MATLAB, Python or Julia are the options the library works with. *)
From Coq Require Import Reals ZArith String Lra Lia.
From Verif Require Import Base SpecOpts OptsBindModel AdaptModel.
Local Open Scope Z_scope.

(** * Conversions of single values *)

Lemma trunc_IZR z : trunc (IZR z) = z.
Proof.
  assert (E : forall y, Int_part (IZR y) = y). { intro y. pose proof (base_Int_part (IZR y)) as [A B]. rewrite <- minus_IZR in B. apply le_IZR in A. apply lt_IZR in B. lia. }
  unfold trunc. destruct (Rle_dec 0 (IZR z)) as [H|H]; [apply E|]. rewrite <- opp_IZR, E. lia.
Qed.
Lemma trunc_frac z f : (0 <= z) -> (0 <= f < 1)%R -> trunc (IZR z + f) = z.
Proof.
  intros Hz Hf. apply IZR_le in Hz. unfold trunc. destruct (Rle_dec 0 (IZR z + f)) as [H|H]; [|lra].
  pose proof (base_Int_part (IZR z + f)) as [A B]. set (k := Int_part (IZR z + f)) in *.
  assert (IZR k < IZR z + 1)%R by lra. assert (IZR z < IZR k + 1)%R by lra. rewrite <- plus_IZR in *. apply lt_IZR in H0, H1. lia.
Qed.
Lemma range_IZR lo hi z : lo <= z < hi -> to_range lo hi (Rl (IZR z)) = Ok z.
Proof. intros [A B]. unfold to_range. rewrite trunc_IZR. apply Z.leb_le in A. apply Z.ltb_lt in B. now rewrite A, B. Qed.

Lemma get_str l i s : nth_error l i = Some (Str s) -> get_string l i = Ok s.
Proof. intros H. unfold get_string, arg. now rewrite H. Qed.
Lemma get_id l i n : nth_error l i = Some (Id n) -> get_handle l i = Ok n.
Proof. intros H. unfold get_handle, arg. now rewrite H. Qed.
Lemma get_num l i v n : nth_error l i = Some v -> asks_num v n -> get_double l i = Ok n.
Proof. intros H ->. unfold get_double, arg. now rewrite H. Qed.
Lemma get_uns l i v z : nth_error l i = Some v -> asks_int v z -> is_unsigned z -> get_unsigned l i = Ok z.
Proof. intros H ->. intro B. unfold get_unsigned, get_double, arg. rewrite H. cbn [obind]. now apply range_IZR. Qed.
Lemma get_i l i v z : nth_error l i = Some v -> asks_int v z -> is_int z -> get_int l i = Ok z.
Proof. intros H ->. intro B. unfold get_int, get_double, arg. rewrite H. cbn [obind]. now apply range_IZR. Qed.
Lemma get_b l i v b : nth_error l i = Some v -> asks_bool v b -> get_bool l i = Ok b.
Proof.
  intros H [->| ->]; unfold get_bool, get_double, arg; rewrite H; cbn [obind]; destruct (Req_EM_T _ 0) as [E|E]; destruct b; auto; exfalso; lra.
Qed.
Lemma basis_ok s b d : basis_called s b -> basis_of s d = b.
Proof. destruct b; cbn; intros E; try subst s; auto; contradiction. Qed.
Lemma pos_ok s b d : posfun_called s b -> pos_of s d = b.
Proof. destruct b; cbn; intros E; try subst s; auto; contradiction. Qed.
Lemma quad_ok s b d : quad_called s b -> quad_of s d = b.
Proof. destruct b; cbn; intros E; try subst s; auto; contradiction. Qed.

(** The arguments from position [i] on are the thirteen properties *)
Lemma read_map_ok u o l i : asks_map u o -> (forall j v, nth_error (mexOptions_map u) j = Some v -> nth_error l (i + j) = Some v) -> read_map l i = Ok o.
Proof.
  intros (A1 & A2 & A3 & A4 & A5 & (A6 & B6) & (A7 & B7) & (A8 & B8) & A9 & A10 & A11 & A12 & A13) H. unfold read_map.
  pose proof (H 0%nat _ eq_refl) as H0. rewrite Nat.add_0_r in H0. rewrite (get_str _ _ _ H0). cbn [obind].
  rewrite (get_str _ _ _ (H 1%nat _ eq_refl)). cbn [obind]. rewrite (get_str _ _ _ (H 2%nat _ eq_refl)). cbn [obind].
  rewrite (get_num _ _ _ _ (H 3%nat _ eq_refl) A4). cbn [obind]. rewrite (get_num _ _ _ _ (H 4%nat _ eq_refl) A5). cbn [obind].
  rewrite (get_uns _ _ _ _ (H 5%nat _ eq_refl) A6 B6). cbn [obind]. rewrite (get_uns _ _ _ _ (H 6%nat _ eq_refl) A7 B7). cbn [obind].
  rewrite (get_uns _ _ _ _ (H 7%nat _ eq_refl) A8 B8). cbn [obind]. rewrite (get_b _ _ _ _ (H 8%nat _ eq_refl) A9). cbn [obind].
  rewrite (get_num _ _ _ _ (H 9%nat _ eq_refl) A10). cbn [obind]. rewrite (get_num _ _ _ _ (H 10%nat _ eq_refl) A11). cbn [obind].
  rewrite (get_b _ _ _ _ (H 11%nat _ eq_refl) A12). cbn [obind]. rewrite (get_num _ _ _ _ (H 12%nat _ eq_refl) A13). cbn [obind].
  unfold MapOptionsFromMatlab. rewrite (basis_ok _ _ _ A1), (pos_ok _ _ _ A2), (quad_ok _ _ _ A3). now destruct o.
Qed.

(** * MATLAB *)

(** Whatever options a MATLAB MapOptions object asks for, a map, a function or a file made with it is made with these options,
    and the other arguments arrive as given. *)
Theorem C78_matlab_map u o : asks_map u o ->
  (forall mset, ml_ConditionalMap mset (OMap u) = Ok (mset, o)) /\
  (forall mset, ml_ConditionalMap_fixed mset (OMap u) = Ok (mset, o)) /\
  (forall inputDim outputDim totalOrder, is_unsigned inputDim -> is_unsigned outputDim -> is_unsigned totalOrder ->
     ml_ConditionalMap_order (Num (Rl (IZR inputDim))) (Num (Rl (IZR outputDim))) (Num (Rl (IZR totalOrder))) (OMap u) = Ok (inputDim, outputDim, totalOrder, o)) /\
  (forall outputDim mset, is_unsigned outputDim -> ml_ParameterizedFunction (Num (Rl (IZR outputDim))) mset (OMap u) = Ok (outputDim, mset, o)) /\
  (forall filename, ml_Serialize filename u = Ok (filename, o)).
Proof.
  intros A. repeat split.
  - intro mset. unfold ml_ConditionalMap, mex_newMap. change (input_count 14 _) with (Ok tt). cbn [obind]. erewrite get_id by reflexivity. cbn [obind].
    rewrite (read_map_ok u o _ 1 A); auto.
  - intro mset. unfold ml_ConditionalMap_fixed, mex_newMapFixed. change (input_count 14 _) with (Ok tt). cbn [obind]. erewrite get_id by reflexivity. cbn [obind].
    rewrite (read_map_ok u o _ 1 A); auto.
  - intros i p t Bi Bp Bt. unfold ml_ConditionalMap_order, mex_newTotalTriMap. change (input_count 16 _) with (Ok tt). cbn [obind].
    erewrite (get_uns _ 0 _ i); [|reflexivity..|exact Bi]. cbn [obind]. erewrite (get_uns _ 1 _ p); [|reflexivity..|exact Bp]. cbn [obind].
    erewrite (get_uns _ 2 _ t); [|reflexivity..|exact Bt]. cbn [obind]. rewrite (read_map_ok u o _ 3 A); auto.
  - intros p mset Bp. unfold ml_ParameterizedFunction, mex_ParameterizedFunction_newMap. change (input_count 15 _) with (Ok tt). cbn [obind].
    erewrite (get_uns _ 0 _ p); [|reflexivity..|exact Bp]. cbn [obind]. erewrite get_id by reflexivity. cbn [obind]. rewrite (read_map_ok u o _ 2 A); auto.
  - intro f. unfold ml_Serialize, mex_MapOptions_Serialize. change (input_count 14 _) with (Ok tt). cbn [obind]. erewrite get_str by reflexivity. cbn [obind].
    rewrite (read_map_ok u o _ 1 A); auto.
Qed.
Print Assumptions C78_matlab_map.

Lemma read_train_ok u o l i : asks_train u o -> (forall j v, nth_error (mexOptions_train u) j = Some v -> nth_error l (i + j) = Some v) -> TrainOptionsFromMatlab l i = Ok o.
Proof.
  intros (A1 & A2 & A3 & A4 & A5 & A6 & (A7 & B7) & A8 & (A9 & B9)) H. unfold TrainOptionsFromMatlab.
  rewrite (get_str _ _ _ (H 0%nat _ eq_refl)). cbn [obind].
  rewrite (get_num _ _ _ _ (H 1%nat _ eq_refl) A2). cbn [obind]. rewrite (get_num _ _ _ _ (H 2%nat _ eq_refl) A3). cbn [obind].
  rewrite (get_num _ _ _ _ (H 3%nat _ eq_refl) A4). cbn [obind]. rewrite (get_num _ _ _ _ (H 4%nat _ eq_refl) A5). cbn [obind].
  rewrite (get_num _ _ _ _ (H 5%nat _ eq_refl) A6). cbn [obind]. rewrite (get_i _ _ _ _ (H 6%nat _ eq_refl) A7 B7). cbn [obind].
  rewrite (get_num _ _ _ _ (H 7%nat _ eq_refl) A8). cbn [obind]. rewrite (get_i _ _ _ _ (H 8%nat _ eq_refl) A9 B9). cbn [obind].
  rewrite A1. now destruct o.
Qed.

(** Whatever training options a MATLAB TrainOptions object asks for, TrainMap trains with these options. *)
Theorem C78_matlab_train u o map objective : asks_train u o -> ml_TrainMap map objective (OTrain u) = Ok (map, objective, o).
Proof.
  intros A. unfold ml_TrainMap, mex_TrainMap. change (input_count 11 _) with (Ok tt). cbn [obind]. erewrite (get_id _ 0) by reflexivity. cbn [obind].
  erewrite (get_id _ 1) by reflexivity. cbn [obind]. rewrite (read_train_ok u o _ 2 A); auto.
Qed.
Print Assumptions C78_matlab_train.

Definition with_nugget (x : num) (o : atm_opts) : atm_opts :=
  let m := a_map o in
  MkATM (MkMap (basisType m) (basisLB m) (basisUB m) (posFuncType m) (quadType m) (quadAbsTol m) (quadRelTol m) (quadMaxSub m) (quadMinSub m) (quadPts m) (contDeriv m) (basisNorm m) x)
        (a_train o) (SpecOpts.maxPatience o) (SpecOpts.maxSize o) (SpecOpts.maxDegrees o).

(** Adaptive training from MATLAB uses the options that the ATMOptions object asks for, except that the nugget is 0.
    Missing from the full statement: the nugget, see the next theorem. *)
Theorem C78_matlab_atm_partial indices u o msets objective : asks_atm indices u o ->
  ml_TrainMapAdaptive indices msets objective (OATM u) = Ok (msets, objective, with_nugget (Rl 0) o).
Proof.
  intros ((A1 & A2 & A3 & A4 & A5 & (A6 & B6) & (A7 & B7) & (A8 & B8) & A9 & A10 & A11 & A12 & _) & (C1 & C2 & C3 & C4 & C5 & C6 & (C7 & D7) & C8 & (C9 & D9)) & (P1 & Q1) & (P2 & Q2) & I).
  unfold ml_TrainMapAdaptive, mex_TrainMapAdaptive. change (input_count 26 _) with (Ok tt). cbn [obind]. unfold get_handles at 1, arg at 1. cbn [nth_error obind].
  erewrite (get_id _ 1) by reflexivity. cbn [obind]. unfold ATMOptionsFromMatlab. cbn [Nat.add]. erewrite (get_id _ 25) by reflexivity. cbn [obind]. rewrite I. cbn [obind].
  erewrite (get_str _ 2) by reflexivity. cbn [obind]. erewrite (get_str _ 3) by reflexivity. cbn [obind]. erewrite (get_str _ 4) by reflexivity. cbn [obind].
  erewrite (get_num _ 5); [|reflexivity|exact A4]. cbn [obind]. erewrite (get_num _ 6); [|reflexivity|exact A5]. cbn [obind]. erewrite (get_uns _ 7); [|reflexivity|exact A6|exact B6]. cbn [obind].
  erewrite (get_uns _ 8); [|reflexivity|exact A7|exact B7]. cbn [obind]. erewrite (get_uns _ 9); [|reflexivity|exact A8|exact B8]. cbn [obind]. erewrite (get_b _ 10); [|reflexivity|exact A9]. cbn [obind].
  erewrite (get_num _ 11); [|reflexivity|exact A10]. cbn [obind]. erewrite (get_num _ 12); [|reflexivity|exact A11]. cbn [obind]. erewrite (get_b _ 13); [|reflexivity|exact A12]. cbn [obind].
  erewrite (get_str _ 14) by reflexivity. cbn [obind]. erewrite (get_num _ 15); [|reflexivity|exact C2]. cbn [obind]. erewrite (get_num _ 16); [|reflexivity|exact C3]. cbn [obind].
  erewrite (get_num _ 17); [|reflexivity|exact C4]. cbn [obind]. erewrite (get_num _ 18); [|reflexivity|exact C5]. cbn [obind]. erewrite (get_num _ 19); [|reflexivity|exact C6]. cbn [obind].
  erewrite (get_i _ 20); [|reflexivity|exact C7|exact D7]. cbn [obind]. erewrite (get_num _ 21); [|reflexivity|exact C8]. cbn [obind]. erewrite (get_i _ 22); [|reflexivity|exact C9|exact D9]. cbn [obind].
  erewrite (get_uns _ 23); [|reflexivity|exact P1|exact Q1]. cbn [obind]. erewrite (get_uns _ 24); [|reflexivity|exact P2|exact Q2]. cbn [obind].
  rewrite (basis_ok _ _ _ A1), (pos_ok _ _ _ A2), (quad_ok _ _ _ A3), C1. unfold with_nugget. destruct o as [m t p s d], t. reflexivity.
Qed.
Print Assumptions C78_matlab_atm_partial.

Definition ex_atm (x : num) : ml_atm :=
  MkMlAtm (MkMlMap "HermiteFunctions" "Exp" "ClenshawCurtis" (Num (Rl (1 / 8))) (Num (Rl (1 / 16))) (Num (Rl 12)) (Num (Rl 2)) (Num (Rl 9)) (Log false) (Num (Rl (-3))) (Num (Rl 4)) (Num (Rl 0)) (Num x))
    (MkMlTrain "LD_LBFGS" (Num (Rl (-7))) (Num (Rl (1 / 2))) (Num (Rl (1 / 4))) (Num (Rl (1 / 32))) (Num (Rl (1 / 64))) (Num (Rl 500)) (Num Inf) (Num (Rl 2)))
    (Num (Rl 4)) (Num (Rl 60)) 7.
Definition ex_opts (x : num) : atm_opts :=
  MkATM (MkMap HermiteFunctions (Rl (-3)) (Rl 4) Exp ClenshawCurtis (Rl (1 / 8)) (Rl (1 / 16)) 12 2 9 false false x)
    (MkTrain "LD_LBFGS" (Rl (-7)) (Rl (1 / 2)) (Rl (1 / 4)) (Rl (1 / 32)) (Rl (1 / 64)) 500 Inf 2) 4 60 [3; 2]%nat.
Definition ex_indices (h : nat) : option (list nat) := if Nat.eqb h 7 then Some [3; 2]%nat else None.
Example C78_matlab_example x : asks_atm ex_indices (ex_atm x) (ex_opts x).
Proof. unfold asks_atm, asks_map, asks_train, asks_num, asks_int, asks_bool, is_unsigned, is_int, ex_atm, ex_opts. cbn. repeat split; try reflexivity; try lia; auto. Qed.

(** Every combination of options can be asked for, so the theorems above are about all of them *)
Definition named (o : map_opts) : Prop :=
  match basisType o with OtherBasis _ => False | _ => True end /\ match posFuncType o with OtherPos _ => False | _ => True end /\ match quadType o with OtherQuad _ => False | _ => True end.
Theorem C78_matlab_all o t : named o -> is_unsigned (quadMaxSub o) -> is_unsigned (quadMinSub o) -> is_unsigned (quadPts o) -> is_int (opt_maxeval t) -> is_int (verbose t) ->
  (exists u, asks_map u o) /\ exists u, asks_train u t.
Proof.
  intros (N1 & N2 & N3) B1 B2 B3 B4 B5. split.
  - exists (MkMlMap (match basisType o with ProbabilistHermite => "ProbabilistHermite" | PhysicistHermite => "PhysicistHermite" | _ => "HermiteFunctions" end)
             (match posFuncType o with Exp => "Exp" | _ => "SoftPlus" end)
             (match quadType o with ClenshawCurtis => "ClenshawCurtis" | AdaptiveSimpson => "AdaptiveSimpson" | _ => "AdaptiveClenshawCurtis" end)
             (Num (quadAbsTol o)) (Num (quadRelTol o)) (Num (Rl (IZR (quadMaxSub o)))) (Num (Rl (IZR (quadMinSub o)))) (Num (Rl (IZR (quadPts o)))) (Log (contDeriv o))
             (Num (basisLB o)) (Num (basisUB o)) (Log (basisNorm o)) (Num (nugget o))).
    unfold asks_map, asks_num, asks_int, asks_bool. cbn. destruct (basisType o); try contradiction; destruct (posFuncType o); try contradiction; destruct (quadType o); try contradiction;
      cbn; repeat split; auto; try apply B1; try apply B2; apply B3.
  - exists (MkMlTrain (opt_alg t) (Num (opt_stopval t)) (Num (opt_ftol_rel t)) (Num (opt_ftol_abs t)) (Num (opt_xtol_rel t)) (Num (opt_xtol_abs t)) (Num (Rl (IZR (opt_maxeval t)))) (Num (opt_maxtime t)) (Num (Rl (IZR (verbose t))))).
    unfold asks_train, asks_num, asks_int. cbn. repeat split; auto; try apply B4; apply B5.
Qed.
Print Assumptions C78_matlab_all.

Ltac step H := match type of H with obind ?m _ = Ok _ => let E := fresh "E" in destruct m eqn:E; cbn [obind] in H; try discriminate H end.
(** The nugget of an ATMOptions object never reaches the library: whatever the object says, training runs with nugget 0. *)
Theorem C78_matlab_nugget_refuted :
  (forall indices msets objective x r, ml_TrainMapAdaptive indices msets objective x = Ok r -> nugget (a_map (snd r)) = Rl 0) /\
  (forall x, exists indices u o, asks_atm indices u o /\ nugget (a_map o) = x /\
     forall msets objective, ml_TrainMapAdaptive indices msets objective (OATM u) = Ok (msets, objective, with_nugget (Rl 0) o)).
Proof.
  split.
  - intros indices msets objective x r H. unfold ml_TrainMapAdaptive, mex_TrainMapAdaptive in H. do 4 step H. inversion H; subst r; clear H. cbn [snd].
    match goal with E : ATMOptionsFromMatlab _ _ _ = Ok _ |- _ => rename E into H end.
    unfold ATMOptionsFromMatlab in H. do 25 step H. inversion H. reflexivity.
  - intro x. exists ex_indices, (ex_atm x), (ex_opts x). split; [apply C78_matlab_example|]. split; auto. intros. apply C78_matlab_atm_partial, C78_matlab_example.
Qed.
Print Assumptions C78_matlab_nugget_refuted.

(** Names that are not among the documented ones are not refused: the library works with the default instead. Counts that are not whole are cut off. *)
Definition with_names (b p q : string) (u : ml_map) : ml_map :=
  MkMlMap b p q (m_quadAbsTol u) (m_quadRelTol u) (m_quadMaxSub u) (m_quadMinSub u) (m_quadPts u) (m_contDeriv u) (m_basisLB u) (m_basisUB u) (m_basisNorm u) (m_nugget u).
Definition with_pts (v : mx) (u : ml_map) : ml_map :=
  MkMlMap (m_basisType u) (m_posFuncType u) (m_quadType u) (m_quadAbsTol u) (m_quadRelTol u) (m_quadMaxSub u) (m_quadMinSub u) v (m_contDeriv u) (m_basisLB u) (m_basisUB u) (m_basisNorm u) (m_nugget u).
Theorem C78_matlab_names_refuted u o mset b p q : asks_map u o ->
  (forall c, ~ basis_called b c) -> (forall c, ~ posfun_called p c) -> (forall c, ~ quad_called q c) ->
  ml_ConditionalMap mset (OMap (with_names b p q u)) =
    Ok (mset, MkMap ProbabilistHermite (basisLB o) (basisUB o) SoftPlus AdaptiveSimpson (quadAbsTol o) (quadRelTol o) (quadMaxSub o) (quadMinSub o) (quadPts o) (contDeriv o) (basisNorm o) (nugget o)).
Proof.
  intros (A1 & A2 & A3 & A4 & A5 & (A6 & B6) & (A7 & B7) & (A8 & B8) & A9 & A10 & A11 & A12 & A13) Nb Np Nq.
  assert (Eb : basis_of b ProbabilistHermite = ProbabilistHermite).
  { unfold basis_of. destruct (String.eqb_spec b "ProbabilistHermite"); auto. destruct (String.eqb_spec b "PhysicistHermite") as [E|]; [destruct (Nb PhysicistHermite E)|]. destruct (String.eqb_spec b "HermiteFunctions") as [E|]; [destruct (Nb HermiteFunctions E)|]. auto. }
  assert (Ep : pos_of p SoftPlus = SoftPlus).
  { unfold pos_of. destruct (String.eqb_spec p "Exp") as [E|]; [destruct (Np Exp E)|]. destruct (String.eqb_spec p "SoftPlus"); auto. }
  assert (Eq : quad_of q AdaptiveSimpson = AdaptiveSimpson).
  { unfold quad_of. destruct (String.eqb_spec q "ClenshawCurtis") as [E|]; [destruct (Nq ClenshawCurtis E)|]. destruct (String.eqb_spec q "AdaptiveSimpson"); auto. destruct (String.eqb_spec q "AdaptiveClenshawCurtis") as [E|]; [destruct (Nq AdaptiveClenshawCurtis E)|]. auto. }
  unfold ml_ConditionalMap, mex_newMap. change (input_count 14 _) with (Ok tt). cbn [obind]. erewrite get_id by reflexivity. cbn [obind]. unfold read_map. cbn [Nat.add].
  erewrite (get_str _ 1) by reflexivity. erewrite (get_str _ 2) by reflexivity. erewrite (get_str _ 3) by reflexivity. cbn [obind].
  erewrite (get_num _ 4); [|reflexivity|exact A4]. erewrite (get_num _ 5); [|reflexivity|exact A5]. cbn [obind]. erewrite (get_uns _ 6); [|reflexivity|exact A6|exact B6]. erewrite (get_uns _ 7); [|reflexivity|exact A7|exact B7]. erewrite (get_uns _ 8); [|reflexivity|exact A8|exact B8]. cbn [obind].
  erewrite (get_b _ 9); [|reflexivity|exact A9]. erewrite (get_num _ 10); [|reflexivity|exact A10]. erewrite (get_num _ 11); [|reflexivity|exact A11]. erewrite (get_b _ 12); [|reflexivity|exact A12]. erewrite (get_num _ 13); [|reflexivity|exact A13]. cbn [obind].
  unfold MapOptionsFromMatlab. cbn [cpp_map_default basisType posFuncType quadType with_names m_basisType m_posFuncType m_quadType]. now rewrite Eb, Ep, Eq.
Qed.
Print Assumptions C78_matlab_names_refuted.
Example C78_matlab_names_example : (forall c, ~ basis_called "Hermite" c) /\ (forall c, ~ posfun_called "softplus" c) /\ (forall c, ~ quad_called "Simpson" c) /\ asks_map ml_map_default cpp_map_default.
Proof.
  split; [intros []; cbn; (congruence || tauto)|]. split; [intros []; cbn; (congruence || tauto)|]. split; [intros []; cbn; (congruence || tauto)|].
  unfold asks_map, asks_num, asks_int, asks_bool, is_unsigned. cbn. repeat split; auto; lia.
Qed.

Theorem C78_matlab_whole_refuted u o mset z f : asks_map u o -> is_unsigned z -> (0 <= f < 1)%R ->
  ml_ConditionalMap mset (OMap (with_pts (Num (Rl (IZR z + f))) u)) = ml_ConditionalMap mset (OMap (with_pts (Num (Rl (IZR z))) u)) /\
  exists o', ml_ConditionalMap mset (OMap (with_pts (Num (Rl (IZR z + f))) u)) = Ok (mset, o') /\ quadPts o' = z.
Proof.
  intros (A1 & A2 & A3 & A4 & A5 & (A6 & B6) & (A7 & B7) & (A8 & B8) & A9 & A10 & A11 & A12 & A13) Bz Hf.
  set (o' := MkMap (basisType o) (basisLB o) (basisUB o) (posFuncType o) (quadType o) (quadAbsTol o) (quadRelTol o) (quadMaxSub o) (quadMinSub o) z (contDeriv o) (basisNorm o) (nugget o)).
  assert (A : asks_map (with_pts (Num (Rl (IZR z))) u) o') by (repeat split; auto; try apply B6; try apply B7; apply Bz).
  assert (E : ml_ConditionalMap mset (OMap (with_pts (Num (Rl (IZR z + f))) u)) = ml_ConditionalMap mset (OMap (with_pts (Num (Rl (IZR z))) u))).
  { unfold ml_ConditionalMap, mex_newMap. change (input_count 14 _) with (Ok tt) at 1. change (input_count 14 _) with (Ok tt). cbn [obind]. erewrite get_id by reflexivity. cbn [obind]. unfold read_map. cbn [Nat.add].
    assert (G : get_unsigned (Id mset :: getMexOptions (OMap (with_pts (Num (Rl (IZR z + f))) u))) 8 = get_unsigned (Id mset :: getMexOptions (OMap (with_pts (Num (Rl (IZR z))) u))) 8).
    { unfold get_unsigned, get_double, arg. cbn [nth_error getMexOptions mexOptions_map with_pts m_quadPts obind]. unfold to_range. rewrite trunc_IZR, (trunc_frac z f); auto. apply Bz. }
    rewrite G. reflexivity. }
  split; auto. exists o'. split; auto. rewrite E. apply (proj1 (C78_matlab_map _ _ A)).
Qed.
Print Assumptions C78_matlab_whole_refuted.

(** Options saved to a file cannot be read back in MATLAB: whatever the file contains, Deserialize raises an error. *)
Theorem C78_matlab_deserialize_refuted filename o : ml_Deserialize filename o = Throw.
Proof. reflexivity. Qed.
Print Assumptions C78_matlab_deserialize_refuted.

(** An ATMOptions object is a MapOptions and a TrainOptions object, but no constructor and no call of TrainMap takes it. *)
Theorem C78_matlab_subclass_refuted u :
  (forall mset, ml_ConditionalMap mset (OATM u) = Throw) /\ (forall mset, ml_ConditionalMap_fixed mset (OATM u) = Throw) /\
  (forall i p t, ml_ConditionalMap_order i p t (OATM u) = Throw) /\ (forall p mset, ml_ParameterizedFunction p mset (OATM u) = Throw) /\
  (forall map objective, ml_TrainMap map objective (OATM u) = Throw).
Proof. repeat split. Qed.
Print Assumptions C78_matlab_subclass_refuted.

(** * Defaults *)

(** Options that a MATLAB program does not set are the documented ones for maps, and for training except for the numbers of evaluations and seconds.
    Missing from the full statement: these two, and the size and degree limits of adaptive training, see the next theorem. *)
Theorem C78_defaults_partial h indices : indices h = Some default_degrees ->
  asks_map ml_map_default cpp_map_default /\
  (exists t, asks_train ml_train_default t /\ forall f, f <> F_opt_maxeval -> f <> F_opt_maxtime ->
     holds f (MkATM cpp_map_default t 0 0 []) = holds f (MkATM cpp_map_default cpp_train_default 0 0 [])) /\
  exists a, asks_atm indices (ml_atm_default h) a /\ forall f, f <> F_opt_maxeval -> f <> F_opt_maxtime -> f <> F_maxSize -> f <> F_maxDegrees -> holds f a = holds f cpp_atm_default.
Proof.
  intros I. assert (A : asks_map ml_map_default cpp_map_default). { unfold asks_map, asks_num, asks_int, asks_bool, is_unsigned. cbn. repeat split; auto; lia. }
  set (t := MkTrain "LD_SLSQP" NegInf (Rl (1 / 1000)) (Rl (1 / 1000)) (Rl (1 / 10000)) (Rl (1 / 10000)) 30 (Rl 100) 0).
  assert (T : asks_train ml_train_default t). { unfold asks_train, asks_num, asks_int, is_int. cbn. repeat split; auto; lia. }
  split; auto. split.
  - exists t. split; auto. intros [] N1 N2; try reflexivity; congruence.
  - exists (MkATM cpp_map_default t 10 10 default_degrees). split.
    + split; [exact A|]. split; [exact T|]. unfold asks_int, is_unsigned. cbn. repeat split; auto; lia.
    + intros [] N1 N2 N3 N4; try reflexivity; congruence.
Qed.
Print Assumptions C78_defaults_partial.

(** The number of evaluations and the time limit of MATLAB's default TrainOptions are not the library's. With MATLAB's default ATMOptions, adaptive
    training asks for the multi-index (0) as the largest degrees, and for maps of any input dimension but 1 the library then refuses to train:
    no map is ever returned. *)
Theorem C78_defaults_refuted :
  (forall map objective, exists t, ml_TrainMap map objective (OTrain ml_train_default) = Ok (map, objective, t) /\
     opt_maxeval t = 30 /\ opt_maxtime t = Rl 100 /\ opt_maxeval cpp_train_default = 1000 /\ opt_maxtime cpp_train_default = Inf) /\
  (forall indices h msets objective r, indices h = Some default_degrees -> ml_TrainMapAdaptive indices msets objective (OATM (ml_atm_default h)) = Ok r ->
     SpecOpts.maxSize (snd r) = 10 /\ SpecOpts.maxDegrees (snd r) = [0%nat] /\
     forall (W : Type) (E : world W) fuel inputDim outputDim w mset0 res, (inputDim <> 1)%nat ->
       TrainMapAdaptive E fuel inputDim outputDim (MkAtm (Z.to_nat (SpecOpts.maxPatience (snd r))) (Z.to_nat (SpecOpts.maxSize (snd r))) (SpecOpts.maxDegrees (snd r))) w mset0 <> Ok res).
Proof.
  split.
  - intros map objective. destruct (C78_defaults_partial 0 (fun _ => Some default_degrees) eq_refl) as (_ & (t & T & _) & _). exists t. split; [now apply C78_matlab_train|].
    destruct T as (_ & _ & _ & _ & _ & _ & (T7 & _) & T8 & _). unfold asks_int, asks_num in *. cbn in T7, T8. injection T7 as T7. injection T8 as T8. apply eq_IZR in T7. auto.
  - intros indices h msets objective r I H. destruct (C78_defaults_partial h indices I) as (_ & _ & a & A & _). rewrite (C78_matlab_atm_partial _ _ _ _ _ A) in H. inversion H; subst r; clear H. cbn [snd with_nugget SpecOpts.maxSize SpecOpts.maxDegrees SpecOpts.maxPatience].
    destruct A as (_ & _ & _ & (S1 & _) & D). cbn in S1, D. unfold asks_int in S1. injection S1 as S1. apply eq_IZR in S1. rewrite I in D. injection D as D.
    split; auto. split; auto. intros W E fuel inD outD w mset0 res N H. unfold TrainMapAdaptive in H. step H. clear H. unfold adapt_init in E0.
    destruct (negb _); [discriminate E0|]. step E0. step E0. match type of E0 with context [let (_, _) := ?q in _] => destruct q as [[d cs] z] end. destruct (Nat.eqb_spec (d - 1) inD) as [Ed|]; [|discriminate E0]. cbn [negb] in E0.
    cbn [AdaptModel.maxDegrees] in E0. rewrite <- D in E0. change (length default_degrees) with 1%nat in E0. change (1 =? 0)%nat with false in E0. cbn [negb andb] in E0.
    destruct (Nat.eqb_spec 1 (d - 1)) as [E9|]; [congruence|]. discriminate E0.
Qed.
Print Assumptions C78_defaults_refuted.

Example C78_defaults_example : exists r, ml_TrainMapAdaptive (fun h => if Nat.eqb h 3 then Some default_degrees else None) [1; 2]%nat 5 (OATM (ml_atm_default 3)) = Ok r.
Proof. destruct (C78_defaults_partial 3 (fun h => if Nat.eqb h 3 then Some default_degrees else None) eq_refl) as (_ & _ & a & A & _). eexists. now apply C78_matlab_atm_partial with (o := a). Qed.

(** * Python *)

Lemma assign_ok f v o : (exists o', assign f v o = Some o' /\ holds f o' = v /\ forall g, g <> f -> holds g o' = holds g o) \/ (assign f v o = None /\ proper f v = false).
Proof.
  destruct f, v; try (right; split; reflexivity); left; eexists; (split; [reflexivity|]); (split; [reflexivity|]); intros []; intros N; try reflexivity; congruence.
Qed.
Lemma py_convert_ok f v o' o : assign f v o = Some o' -> py_convert f v = if proper f v then Some v else None.
Proof. destruct f, v; intros H; try discriminate H; cbn; auto; try (destruct b; reflexivity); try (destruct p; reflexivity); destruct q; reflexivity. Qed.
Lemma py_lookup k f : lookup f (py_attrs k) = if has k f then Some f else None.
Proof. destruct k, f; reflexivity. Qed.
Lemma py_set_ok k o f v g : holds g (py_set k o (f, v)) = if field_eq_dec g f then if has k f && proper f v then v else holds g o else holds g o.
Proof.
  unfold py_set. cbn [fst snd]. rewrite py_lookup. destruct (has k f) eqn:Hk; cbn [andb]; [|destruct (field_eq_dec g f); reflexivity].
  destruct (assign_ok f v o) as [(o' & E & H1 & H2)|(E & P)].
  - rewrite (py_convert_ok _ _ _ _ E). destruct (proper f v) eqn:P; [|destruct (field_eq_dec g f); reflexivity]. rewrite E. destruct (field_eq_dec g f) as [->|N]; auto.
  - rewrite P. destruct (py_convert f v) as [v'|] eqn:C; [|destruct (field_eq_dec g f); reflexivity].
    replace v' with v in * by (destruct f, v; cbn in C; try discriminate C; try (destruct (_ && _); congruence); try congruence; try (destruct b; congruence); try (destruct p; congruence); destruct q; congruence).
    rewrite E. destruct (field_eq_dec g f); reflexivity.
Qed.

(** After any sequence of assignments to the attributes of an options object, some of which may raise, each attribute has the value that was last
    given to it, or its default; this is what the library sees and what reading the attribute returns. *)
Theorem C78_python k h f :
  holds f (py_program k h) = last_given k f h (holds f cpp_atm_default) /\
  py_get k f (py_program k h) = if has k f then Ok (last_given k f h (holds f cpp_atm_default)) else Throw.
Proof.
  assert (H : forall o, holds f (fold_left (py_set k) h o) = last_given k f h (holds f o)).
  { induction h as [|[g v] h IH]; intro o; auto. cbn [fold_left last_given]. rewrite IH, py_set_ok. reflexivity. }
  split; [apply H|]. unfold py_get. rewrite py_lookup. destruct (has k f); auto. f_equal. apply H.
Qed.
Print Assumptions C78_python.
Example C78_python_example : let h := [(F_quadMaxSub, VInt 12); (F_quadMaxSub, VInt (-1)); (F_opt_maxtime, VNum (Rl 60)); (F_basisType, VBasis HermiteFunctions); (F_quadMinSub, VInt 3)] in
  last_given ATMOptions F_quadMaxSub h (VInt 30) = VInt 12 /\ last_given ATMOptions F_opt_maxtime h (VNum Inf) = VNum (Rl 60) /\ last_given MapOptions F_opt_maxtime h (VNum Inf) = VNum Inf.
Proof. repeat split. Qed.

(** * Julia *)

(** A value that Julia's setters pass on unchanged *)
Definition jl_fits (f : field) (v : value) : bool :=
  match f, v with (F_maxPatience | F_maxSize), VInt z => z <? 2147483648 | _, _ => true end.
Definition jl_settable (f : field) : bool := match f with F_opt_stopval | F_opt_maxtime => false | _ => true end.
Lemma jl_lookup k f : lookup f (jl_setters k) = if has k f && jl_settable f then Some f else None.
Proof. destruct k, f; reflexivity. Qed.
Lemma jl_convert_ok f v : proper f v = true -> jl_fits f v = true -> jl_convert f v = Some v.
Proof.
  destruct f, v; intros P F; try discriminate P; try reflexivity; cbn in P, F |- *; unfold in_unsigned, in_int; try (rewrite P; reflexivity);
    try (destruct b; try discriminate P; reflexivity); try (destruct p; try discriminate P; reflexivity); try (destruct q; try discriminate P; reflexivity);
    apply andb_true_iff in P as [P1 P2]; apply Z.leb_le in P1; apply Z.ltb_lt in F; (replace (_ && _) with true by (symmetry; apply andb_true_iff; split; [apply Z.leb_le|apply Z.ltb_lt]; lia)); rewrite Z.mod_small; auto; lia.
Qed.
Lemma jl_set_ok k o f v g : proper f v = true -> jl_fits f v = true -> jl_settable g = true ->
  holds g (jl_set k o (f, v)) = if field_eq_dec g f then if has k f && proper f v then v else holds g o else holds g o.
Proof.
  intros P F G. unfold jl_set. cbn [fst snd]. rewrite jl_lookup. destruct (field_eq_dec g f) as [->|N].
  - rewrite G, P, !andb_true_r. destruct (has k f); auto. rewrite jl_convert_ok; auto. destruct (assign_ok f v o) as [(o' & E & H1 & H2)|(E & Q)]; [now rewrite E|congruence].
  - destruct (has k f && jl_settable f); auto. rewrite jl_convert_ok; auto. destruct (assign_ok f v o) as [(o' & E & H1 & H2)|(E & Q)]; [rewrite E; auto|congruence].
Qed.

(** In Julia the same holds of all fields but opt_stopval and opt_maxtime, if only values are assigned that the fields can take and maxPatience and maxSize
    are below 2^31. Missing from the full statement: these two fields and values, see the next theorem. *)
Theorem C78_julia_partial k h f : Forall (fun gv => proper (fst gv) (snd gv) = true /\ jl_fits (fst gv) (snd gv) = true) h -> jl_settable f = true ->
  holds f (jl_program k h) = last_given k f h (holds f cpp_atm_default).
Proof.
  intros Hh F. unfold jl_program. generalize cpp_atm_default. induction Hh as [|[g v] h [P1 P2] Hh IH]; intro o; auto.
  cbn [fold_left last_given]. rewrite IH, jl_set_ok; auto.
Qed.
Print Assumptions C78_julia_partial.
Example C78_julia_example : let h := [(F_maxSize, VInt 200); (F_quadType, VQuad AdaptiveClenshawCurtis); (F_opt_maxtime, VNum (Rl 60)); (F_maxDegrees, VDeg [2; 3]%nat); (F_maxSize, VInt 90)] in
  Forall (fun gv => proper (fst gv) (snd gv) = true /\ jl_fits (fst gv) (snd gv) = true) h /\ last_given ATMOptions F_maxSize h (VInt 0) = VInt 90.
Proof. split; [repeat constructor|reflexivity]. Qed.

(** No Julia program can set opt_stopval or opt_maxtime. A negative limit is not refused but becomes a huge one, and a number that is no basis, positive
    function or quadrature is stored. *)
Theorem C78_julia_refuted :
  (forall k h, opt_stopval (a_train (jl_program k h)) = NegInf /\ opt_maxtime (a_train (jl_program k h)) = Inf) /\
  (forall z, -2147483648 <= z < 0 -> holds F_maxSize (jl_program ATMOptions [(F_maxSize, VInt z)]) = VInt (z + 4294967296) /\
     holds F_maxPatience (jl_program ATMOptions [(F_maxPatience, VInt z)]) = VInt (z + 4294967296)) /\
  (forall c, 3 <= c < 4294967296 -> holds F_basisType (jl_program MapOptions [(F_basisType, VBasis (OtherBasis c))]) = VBasis (OtherBasis c) /\
     holds F_posFuncType (jl_program MapOptions [(F_posFuncType, VPos (OtherPos c))]) = VPos (OtherPos c) /\
     holds F_quadType (jl_program MapOptions [(F_quadType, VQuad (OtherQuad c))]) = VQuad (OtherQuad c)).
Proof.
  split; [|split].
  - intros k h. unfold jl_program.
    assert (G : forall h o, jl_settable F_opt_stopval = false -> opt_stopval (a_train (fold_left (jl_set k) h o)) = opt_stopval (a_train o) /\ opt_maxtime (a_train (fold_left (jl_set k) h o)) = opt_maxtime (a_train o)).
    { clear h. induction h as [|[g v] h IH]; intros o _; auto. cbn [fold_left]. destruct (IH (jl_set k o (g, v)) eq_refl) as [-> ->]. unfold jl_set. cbn [fst snd]. rewrite jl_lookup.
      destruct (has k g && jl_settable g) eqn:S; auto. apply andb_true_iff in S as [_ S]. destruct (jl_convert g v) as [v'|]; auto. destruct (assign g v' o) as [o'|] eqn:E; auto.
      destruct g; try discriminate S; destruct v'; try discriminate E; cbn in E; inversion E; auto. }
    destruct (G h cpp_atm_default eq_refl) as [-> ->]. auto.
  - intros z Hz. assert (I : in_int z = true) by (apply andb_true_iff; split; [apply Z.leb_le|apply Z.ltb_lt]; lia).
    assert (M : z mod 4294967296 = z + 4294967296). { symmetry. apply Z.mod_unique with (q := -1); lia. }
    unfold jl_program. cbn [fold_left]. unfold jl_set. cbn [fst snd]. rewrite !jl_lookup. cbn [has jl_settable andb jl_convert]. rewrite I, M. auto.
  - intros c Hc. assert (I : in_unsigned c = true) by (apply andb_true_iff; split; [apply Z.leb_le|apply Z.ltb_lt]; lia).
    unfold jl_program. cbn [fold_left]. unfold jl_set. cbn [fst snd]. rewrite !jl_lookup. cbn [has of_map jl_settable andb jl_convert basis_code pos_code quad_code]. rewrite I.
    destruct c as [|[[c|c|]|[c|c|]|]|c]; try lia; auto.
Qed.
Print Assumptions C78_julia_refuted.

(** * Comparison *)

Definition is_nan (n : num) : Prop := n = Nan.
Definition no_nan (o : map_opts) : Prop := ~ is_nan (basisLB o) /\ ~ is_nan (basisUB o) /\ ~ is_nan (quadAbsTol o) /\ ~ is_nan (quadRelTol o) /\ ~ is_nan (nugget o).
Lemma num_eqb_ok a b : num_eqb a b = true <-> a = b /\ ~ is_nan a.
Proof.
  unfold is_nan. destruct a, b; cbn; try (destruct (Req_EM_T r r0) as [->|N]); split; intros H; try discriminate H; try (split; congruence); try (destruct H as [H H']); try congruence; auto.
Qed.
(** Two options are equal in C++, Python and Julia exactly if all fields are, and none of them is NaN. *)
Theorem C78_equal a b : named a -> named b -> (map_eq a b = true <-> a = b /\ no_nan a).
Proof.
  intros (N1 & N2 & N3) (M1 & M2 & M3). unfold map_eq. cbn [andb]. rewrite !andb_true_iff, !num_eqb_ok, !Z.eqb_eq, !Bool.eqb_true_iff.
  unfold no_nan. split.
  - intros H. decompose [and] H. clear H. split; [|tauto]. destruct a as [a1 a2 a3 a4 a5 a6 a7 a8 a9 a10 a11 a12 a13], b as [b1 b2 b3 b4 b5 b6 b7 b8 b9 b10 b11 b12 b13]. cbn in *.
    assert (a1 = b1) by (destruct a1, b1; try contradiction; try reflexivity; cbn in *; lia). assert (a4 = b4) by (destruct a4, b4; try contradiction; try reflexivity; cbn in *; lia).
    assert (a5 = b5) by (destruct a5, b5; try contradiction; try reflexivity; cbn in *; lia). subst. reflexivity.
  - intros (<- & H1 & H2 & H3 & H4 & H5). tauto.
Qed.
Print Assumptions C78_equal.
Example C78_equal_example : named cpp_map_default /\ map_eq cpp_map_default cpp_map_default = true.
Proof. assert (N : named cpp_map_default) by (repeat split). split; auto. apply C78_equal; auto. split; auto. unfold no_nan, is_nan. cbn. repeat split; congruence. Qed.

(** ATMOptions compare equal in Python and Julia although they ask for different training or different limits. *)
Theorem C78_equal_refuted a t p s d : no_nan (a_map a) -> named (a_map a) -> bound_eq_atm a (MkATM (a_map a) t p s d) = true.
Proof. intros N M. unfold bound_eq_atm. cbn [a_map]. apply C78_equal; auto. Qed.
Print Assumptions C78_equal_refuted.
Example C78_equal_refuted_example : bound_eq_atm cpp_atm_default (MkATM cpp_map_default (MkTrain "LD_LBFGS" NegInf (Rl 0) (Rl 0) (Rl 0) (Rl 0) 5 Inf 2) 1 2 [1]%nat) = true.
Proof. apply C78_equal_refuted; [unfold no_nan, is_nan; cbn; repeat split; congruence|repeat split]. Qed.
