(** C72: monotone components with adaptive quadrature. *)
From Coq Require Import Reals Lra Lia FunctionalExtensionality.
From Coquelicot Require Import Coquelicot.
From Verif Require Import Base SpecMulti SpecPoly SpecExpansion SpecQuad SpecMono SpecAdaptQuad SpecFactory MISetModel MISetLimFill FixedSetModel FixedSetProofs PolyModel PolyProofs LinProofs BijModel BijProofs
  ExpansionModel ExpansionProofs ExpansionDeriv PropExpansion QuadModel QuadCC QuadWalk QuadSimpson QuadACC QuadProofs PropQuad RootModel MonoModel MonoProofs MonoComp PropMono FactoryModel FactoryBasis PropBuild AdaptQuad AdaptJump.
Local Open Scope R_scope.

Lemma mono_tree_rule A fp fw T g v alphas nu (c x : list R) : good_rule fp fw -> a_fine A = (fun h a b => rule_on fp fw a b h) ->
  mono_tree A T g v alphas nu c x = mono_rule (tree_pts fp (leaves T 0 0 1)) (tree_wts fw (leaves T 0 0 1)) g v alphas nu c x.
Proof. intros (L & _) E. unfold mono_tree, mono_rule. rewrite E. rewrite <- tree_rule by auto. reflexivity. Qed.
Lemma mono_tree_rule' A fp fw T g v alphas nu : good_rule fp fw -> a_fine A = (fun h a b => rule_on fp fw a b h) ->
  mono_tree A T g v alphas nu = mono_rule (tree_pts fp (leaves T 0 0 1)) (tree_wts fw (leaves T 0 0 1)) g v alphas nu.
Proof. intros G E. apply functional_extensionality; intros c. apply functional_extensionality; intros x. eapply mono_tree_rule; eauto. Qed.

Lemma tree_in p w T : good_rule p w -> forall t, In t (tree_pts p (leaves T 0 0 1)) -> 0 <= (1 + t) / 2 <= 1.
Proof. intros G. apply (nodes_in p w); auto. intros n l r HI. apply leaves_in in HI; lra. Qed.

(** Evaluate: the fine estimates on the intervals into which [0,1] is halved for the integrand without
    nugget (the tree is unique, C27_tree_unique). *)
Theorem C72_evaluate : forall (d N : nat) (alphas : list vec) (v dv d2 : nat -> R -> R) (C : component) (A : adaptive) (pt c : list R),
  expansion_of d N alphas v dv d2 (mc_w C) -> runs_adaptive (mc_Q C) A -> length pt = d -> length c = length alphas ->
  let g := pf_eval (mc_G C) in
  exists T, halved A (mono_integrand g v alphas 0 c pt) T /\
    forall S, scratch_fits C 1 S -> mc_Evaluate C S pt c = Ok (mono_tree A T g v alphas 0 c pt).
Proof.
  intros d N alphas v dv d2 C A pt c HE HQ Lp Lc g. destruct (transfer d N alphas v dv d2 C A HE HQ pt c Lp Lc) as (cp & cw & fp & fw & Gc & Gf & Ec & Ef & (T & HT & X) & _).
  exists T. split; [exact HT|]. intros S HS. rewrite X by auto. rewrite (mono_tree_rule A fp fw) by auto. destruct HS as (L0 & L1 & L2 & _).
  apply (C35_evaluate d N alphas v dv d2 (with_rule C _ _)); auto; [apply tree_len, Gf|split; auto].
Qed.
Print Assumptions C72_evaluate.

(** The derivative routines work on the intervals chosen for the integrand with the nugget. What they
    return are the value and the derivatives of the composite rule on those intervals, kept fixed
    (plus nugget * x_d, as in C35), also through Gradient, CoeffGrad and, with discrete
    derivatives, through the log determinant and its gradient. *)
Theorem C72_frozen_derivatives : forall (d N : nat) (alphas : list vec) (v dv d2 : nat -> R -> R) (C : component) (A : adaptive) (pt c : list R),
  expansion_of d N alphas v dv d2 (mc_w C) -> good_posfunc (mc_G C) -> runs_adaptive (mc_Q C) A -> length pt = d -> length c = length alphas ->
  let g := pf_eval (mc_G C) in let nu := mc_nugget C in
  let smooth := forall s, 0 <= s <= 1 -> twice_at dv d2 N (s * last_of pt) in
  exists T, halved A (mono_integrand g v alphas nu c pt) T /\
    let F := mono_tree A T g v alphas 0 in
    (forall S, smooth -> scratch_fits C 2 S -> exists D, mc_DiscreteDerivative C S pt c = Ok (F c pt + nu * last_of pt, D + nu) /\ is_partial (F c) (d - 1) pt D) /\
    (forall S out, scratch_fits C (1 + length alphas) S -> length out = length alphas ->
       exists J, mc_CoeffJacobian C S pt c out = Ok (F c pt + nu * last_of pt, J) /\ length J = length alphas /\
         forall i, (i < length alphas)%nat -> is_partial (fun c => F c pt) i c (coord J i)) /\
    (forall S out, smooth -> scratch_fits C (1 + d) S -> length out = d ->
       exists J, mc_InputJacobian C S pt c out = Ok (F c pt + nu * last_of pt, J) /\ length J = d /\
         (forall j, (j < d - 1)%nat -> is_partial (F c) j pt (coord J j)) /\ is_partial (F c) (d - 1) pt (coord J (d - 1) - nu)) /\
    (forall S outx outc sens, scratch_fits C (1 + length alphas + d) S -> length outx = d -> length outc = length alphas ->
       let T' c x := F c x + nu * last_of x in
       (smooth -> exists u, mc_Gradient C S pt c sens outx = Ok u /\ length u = d /\ forall j, (j < d)%nat -> is_partial (fun x => sens * T' c x) j pt (coord u j)) /\
       (exists u, mc_CoeffGrad C S pt c sens outc = Ok u /\ length u = length alphas /\ forall i, (i < length alphas)%nat -> is_partial (fun c => sens * T' c pt) i c (coord u i))) /\
    (forall S outx, smooth -> scratch_fits C (2 + length alphas) S -> (length alphas <= length (sc_work S))%nat -> mc_cont C = false ->
       let D c := partial (mono_tree A T g v alphas nu c) (d - 1) pt in
       (D c <= 0 -> mc_LogDeterminant C S pt c = Ok None) /\
       (0 < D c -> mc_LogDeterminant C S pt c = Ok (Some (ln (D c))) /\
         (exists J, mc_LogDeterminantCoeffGrad C S pt c (repeat 0 (length alphas)) = Ok J /\ length J = length alphas /\
           forall i, (i < length alphas)%nat -> is_partial (fun c => ln (D c)) i c (coord J i)) /\
         mc_LogDeterminantInputGrad C S pt c outx = Throw)).
Proof.
  intros d N alphas v dv d2 C A pt c HE HG HQ Lp Lc g nu smooth.
  destruct (transfer d N alphas v dv d2 C A HE HQ pt c Lp Lc) as (cp & cw & fp & fw & Gc & Gf & Ec & Ef & _ & T & HT & X1 & X2 & X3 & X4).
  exists T. split; [exact HT|]. cbv zeta. fold g nu in HT. rewrite !(mono_tree_rule' A fp fw) by auto.
  set (p := tree_pts fp (leaves T 0 0 1)) in *. set (w := tree_wts fw (leaves T 0 0 1)) in *. set (C' := with_rule C p w) in *.
  assert (LW : length w = length p) by apply tree_len, Gf.
  assert (HS2 : rsum (fun i => nth i w 0) (length p) = 2) by (unfold w, p; rewrite tree_sum by apply Gf; ring).
  assert (HT2 : smooth -> forall t, In t p -> twice_at dv d2 N ((1 + t) / 2 * last_of pt)) by (intros H2 t Ht; apply H2; apply (tree_in fp fw T); auto).
  assert (SO : forall n S m, scratch_fits C n S -> (m <= n)%nat -> scratch_ok (mc_w C) m S) by (intros n S m (L0 & L1 & L2 & _) Hm; split; [auto|split; lia]).
  assert (SF : forall n S m, scratch_fits C n S -> (m <= n)%nat -> scratch_fits C m S) by (intros n S m (L0 & L1 & L2 & L3) Hm; split; [auto|split; [lia|split; [lia|]]]; intros; apply L3; lia).
  split; [|split; [|split; [|split]]].
  - intros S H2 HS. specialize (HT2 H2). rewrite X1 by auto. apply (C35_discrete_derivative_partial d N alphas v dv d2 C' S pt c p w); auto. apply (SO 2%nat); auto.
  - intros S out HS Lo. rewrite X2 by auto. apply (C35_coeff_jacobian_partial d N alphas v dv d2 C' S pt c p w out); auto. eapply SO; eauto.
  - intros S out H2 HS Lo. specialize (HT2 H2). rewrite X3 by auto. apply (C35_input_jacobian_partial d N alphas v dv d2 C' S pt c p w out); auto. eapply SO; eauto.
  - intros S outx outc sens HS Lx Lo. unfold mc_Gradient, mc_CoeffGrad. rewrite X2 by (eapply SF; eauto; lia). rewrite X3 by (eapply SF; eauto; lia).
    split.
    + intros H2. apply (C63_gradients d N alphas v dv d2 C' S pt c p w outx outc sens); auto. eapply SO; eauto.
    + apply (C63_coeff_gradient d N alphas v dv d2 C' S pt c p w outc sens); auto. eapply SO; eauto.
  - intros S outx H2 HS Lk Hc. specialize (HT2 H2). unfold mc_LogDeterminantCoeffGrad, mc_LogDeterminant, mc_LogDeterminantInputGrad, mc_derivative. rewrite Hc.
    rewrite X1 by (eapply SF; eauto; lia). rewrite X4 by (auto; eapply SF; eauto; lia).
    split.
    + intros HD. destruct (C34_discrete d N alphas v dv d2 C' S pt c p w) as (D & HP & _ & H0); auto. { eapply SO; eauto. lia. }
      unfold mc_LogDeterminant, mc_derivative in H0. change (mc_cont C') with (mc_cont C) in H0. rewrite Hc in H0. apply H0. apply is_partial_unique in HP.
      change (mc_nugget C') with nu in HP. change (mc_G C') with (mc_G C) in HP. fold g in HP. rewrite <- HP. exact HD.
    + intros HD. pose proof (C62_discrete d N alphas v dv d2 C' S pt c p w outx HE HG LW eq_refl Lp Lc ltac:(eapply SO; eauto) Lk HT2 Hc HD) as (Y1 & Y2 & Y3).
      unfold mc_LogDeterminantCoeffGrad, mc_LogDeterminant, mc_LogDeterminantInputGrad, mc_derivative in Y1, Y2, Y3. change (mc_cont C') with (mc_cont C) in *. rewrite Hc in *.
      split; [exact Y1|]. split; [exact Y2|reflexivity].
Qed.
Print Assumptions C72_frozen_derivatives.

(** Along a line on which every fixed rule is differentiable, the intervals stay the same near a
    point where no difference equals its tolerance. *)
Lemma frozen_near d N alphas v dv d2 C A (E : list R -> list R -> R) (S : scratch) (cx px : R -> list R) u0 T :
  expansion_of d N alphas v dv d2 (mc_w C) -> runs_adaptive (mc_Q C) A -> scratch_fits C 1 S ->
  (forall c x, length x = d -> length c = length alphas -> mc_Evaluate C S x c = Ok (E c x)) ->
  (forall u, length (px u) = d /\ length (cx u) = length alphas) ->
  let g := pf_eval (mc_G C) in
  (forall p w, length w = length p -> (forall t, In t p -> 0 <= (1 + t) / 2 <= 1) -> ex_derive (fun u => mono_rule p w g v alphas 0 (cx u) (px u)) u0) ->
  halved A (mono_integrand g v alphas 0 (cx u0) (px u0)) T -> decided A (mono_integrand g v alphas 0 (cx u0) (px u0)) T ->
  locally u0 (fun u => mono_tree A T g v alphas 0 (cx u) (px u) = E (cx u) (px u)).
Proof.
  intros HE HQ HS HEv HL g HD HT HDec.
  destruct (as_fixed _ _ HQ) as (cp & cw & fp & fw & Gc & Gf & Ec & Ef & _).
  assert (K : locally u0 (fun u => halved A (mono_integrand g v alphas 0 (cx u) (px u)) T)).
  { unfold halved. apply (tree_local A cp cw fp fw (fun u => mono_integrand g v alphas 0 (cx u) (px u)) u0 Gc Gf Ec Ef); try lra; auto.
    intros p w LW Hp.
    apply continuous_ext with (fun u => mono_rule p w g v alphas 0 (cx u) (px u) - mono_rule [] [] g v alphas 0 (cx u) (px u)).
    { intros u. unfold mono_rule. transitivity (rule_on p w 0 1 (mono_integrand g v alphas 0 (cx u) (px u)) - rule_on [] [] 0 1 (mono_integrand g v alphas 0 (cx u) (px u))).
      - apply Rminus_diag_uniq. ring.
      - unfold rule_on at 2, rule_sum. cbn [length rsum]. apply Rminus_diag_uniq. ring. }
    apply (continuous_minus (V := R_NormedModule)); apply (ex_derive_continuous (K := R_AbsRing) (V := R_NormedModule)); apply HD; auto. intros t []. }
  eapply filter_imp; [|exact K]. intros u Hu. cbv beta in Hu. destruct (HL u) as (L1 & L2).
  destruct (C72_evaluate d N alphas v dv d2 C A (px u) (cx u) HE HQ L1 L2) as (T' & HT' & HV). specialize (HV S HS). rewrite HEv in HV by auto. injection HV as ->.
  fold g in HT'. assert (T' = T) as -> by (eapply refined_unique; eauto). reflexivity.
Qed.

(** Without a nugget, where no difference of estimates equals its tolerance, what the routines
    return is the value of Evaluate and its own partial derivatives. *)
Theorem C72_derivatives_partial : forall (d N : nat) (alphas : list vec) (v dv d2 : nat -> R -> R) (C : component) (A : adaptive) (pt c : list R)
    (S : scratch) (E : list R -> list R -> R) (T : btree),
  expansion_of d N alphas v dv d2 (mc_w C) -> good_posfunc (mc_G C) -> runs_adaptive (mc_Q C) A -> length pt = d -> length c = length alphas ->
  (forall s, 0 <= s <= 1 -> twice_at dv d2 N (s * last_of pt)) -> scratch_fits C (1 + length alphas + d) S ->
  (forall c x, length x = d -> length c = length alphas -> mc_Evaluate C S x c = Ok (E c x)) ->
  mc_nugget C = 0 ->
  halved A (mono_integrand (pf_eval (mc_G C)) v alphas 0 c pt) T -> decided A (mono_integrand (pf_eval (mc_G C)) v alphas 0 c pt) T ->
  (exists D, mc_DiscreteDerivative C S pt c = Ok (E c pt, D) /\ is_partial (E c) (d - 1) pt D) /\
  (forall out, length out = length alphas -> exists J, mc_CoeffJacobian C S pt c out = Ok (E c pt, J) /\ length J = length alphas /\
     forall i, (i < length alphas)%nat -> is_partial (fun c => E c pt) i c (coord J i)) /\
  (forall out, length out = d -> exists J, mc_InputJacobian C S pt c out = Ok (E c pt, J) /\ length J = d /\
     forall j, (j < d)%nat -> is_partial (E c) j pt (coord J j)).
Proof.
  intros d N alphas v dv d2 C A pt c S E T HE HG HQ Lp Lc H2 HS HEv Hnu HT HD.
  destruct (expansion_setup _ _ _ _ _ _ _ HE) as (mx & B & EW & Hd & M1 & M2 & B0 & B1 & B2 & B3 & M3 & M4 & Rm).
  destruct (C72_frozen_derivatives d N alphas v dv d2 C A pt c HE HG HQ Lp Lc) as (T' & HT' & X1 & X2 & X3 & _).
  cbv zeta in *. rewrite Hnu in *. assert (T' = T) as -> by (eapply refined_unique; eauto). clear HT'. set (g := pf_eval (mc_G C)) in *.
  assert (SF : forall m, (m <= 1 + length alphas + d)%nat -> scratch_fits C m S).
  { destruct HS as (L0 & L1 & L2 & L3). intros m Hm. split; [auto|split; [lia|split; [lia|]]]; intros; apply L3; lia. }
  assert (EV : mono_tree A T g v alphas 0 c pt = E c pt).
  { destruct (C72_evaluate d N alphas v dv d2 C A pt c HE HQ Lp Lc) as (T1 & HT1 & HV). specialize (HV S (SF 1%nat ltac:(lia))). rewrite HEv in HV by auto. injection HV as ->.
    assert (T1 = T) as -> by (eapply refined_unique; eauto). reflexivity. }
  destruct HG as (Gp & G1 & G2).
  assert (TW : forall p, (forall t, In t p -> 0 <= (1 + t) / 2 <= 1) -> nodes_twice N dv d2 p (coord pt (d - 1))).
  { intros p Hp t Ht. specialize (H2 _ (Hp t Ht)). unfold last_of in H2. rewrite Lp in H2. exact H2. }
  assert (NX : forall j, (j < d)%nat -> locally (coord pt j) (fun u => mono_tree A T g v alphas 0 c (upd pt j u) = E c (upd pt j u))).
  { intros j Hj. apply (frozen_near d N alphas v dv d2 C A E S (fun _ => c) (fun u => upd pt j u)); auto.
    - apply SF. lia.
    - intros u. rewrite upd_length. auto.
    - intros p w LW Hp. destruct (Nat.eq_dec j (d - 1)) as [->|Nj].
      + eexists. apply (T_last d N alphas v dv d2 (mc_G C) Hd B3 M4 G1 p w 0 c pt Lp (TW p Hp)).
      + eexists. apply (T_leading d N alphas mx v dv d2 (mc_G C) Hd M1 B3 M4 G1 p w LW 0 c pt j Lp ltac:(lia)).
    - unfold coord. rewrite upd_same by lia. exact HT.
    - unfold coord. rewrite upd_same by lia. exact HD. }
  assert (NC : forall i, (i < length alphas)%nat -> locally (coord c i) (fun u => mono_tree A T g v alphas 0 (upd c i u) pt = E (upd c i u) pt)).
  { intros i Hi. apply (frozen_near d N alphas v dv d2 C A E S (fun u => upd c i u) (fun _ => pt)); auto.
    - apply SF. lia.
    - intros u. rewrite upd_length. auto.
    - intros p w LW Hp. eexists. apply (T_coeff d N alphas v dv d2 (mc_G C) Hd B3 M4 G1 p w 0 c pt i); auto.
    - unfold coord. rewrite upd_same by lia. exact HT.
    - unfold coord. rewrite upd_same by lia. exact HD. }
  assert (PX : forall j D, (j < d)%nat -> is_partial (mono_tree A T g v alphas 0 c) j pt D -> is_partial (E c) j pt D).
  { intros j D Hj HP. unfold is_partial in *. eapply is_derive_ext_loc; [|exact HP]. apply NX. auto. }
  split; [|split].
  - destruct (X1 S H2 (SF 2%nat ltac:(lia))) as (D & ED & HP). exists D. rewrite ED, EV. split; [do 2 f_equal; ring|]. apply PX; auto. lia.
  - intros out Lo. destruct (X2 S out (SF (1 + length alphas)%nat ltac:(lia)) Lo) as (J & EJ & LJ & HP). exists J. rewrite EJ, EV. split; [do 2 f_equal; ring|]. split; [auto|].
    intros i Hi. specialize (HP i Hi). unfold is_partial in *. eapply is_derive_ext_loc; [|exact HP]. apply NC. auto.
  - intros out Lo. destruct (X3 S out H2 (SF (1 + d)%nat ltac:(lia)) Lo) as (J & EJ & LJ & HP & HPl). exists J. rewrite EJ, EV. split; [do 2 f_equal; ring|]. split; [auto|].
    intros j Hj. apply PX; auto. destruct (Nat.eq_dec j (d - 1)) as [->|Nj]; [rewrite Rminus_0_r in HPl; exact HPl|apply HP; lia].
Qed.
Print Assumptions C72_derivatives_partial.

(** ** Where the intervals change *)
Lemma one_dim_free o k x : unbounded o -> one_dim o k x = plain o k x.
Proof. intros (A & B). unfold one_dim, nearest. rewrite A, B. cbv zeta. ring. Qed.

Definition line_alphas : list vec := [[0%nat]; [1%nat]; [2%nat]].
(** The scale of the polynomial of degree two, and coefficients for which df/dx = x. *)
Definition two_scale (o : options) : R := if o_norm o then He_norm 2 else 1.
Definition line_coeffs (o : options) : list R := [0; 0; two_scale o / 2].
Lemma two_scale_pos o : 0 < two_scale o.
Proof.
  unfold two_scale. destruct (o_norm o); [|lra]. unfold He_norm. apply sqrt_lt_R0. apply Rmult_lt_0_compat; [apply sqrt_lt_R0; pose proof PI_RGT_0; lra|]. cbn. lra.
Qed.
Lemma line_expansion o x : unbounded o -> o_basis o = ProbHermite -> expansion (one_dim o) line_alphas (line_coeffs o) [x] = (x * x - 1) / 2.
Proof.
  intros U HB. unfold expansion, line_alphas, line_coeffs, tensor, coord. cbn [length rsum nth rprod Nat.eqb]. rewrite (one_dim_free o 2) by auto. unfold plain. rewrite HB. cbn [He].
  pose proof (two_scale_pos o) as P. fold (two_scale o). cbn [INR]. unfold two_scale in *. field. lra.
Qed.
Lemma line_integrand o x : unbounded o -> o_basis o = ProbHermite -> mono_integrand exp (one_dim o) line_alphas 0 (line_coeffs o) [x] = hx x.
Proof.
  intros U HB. apply functional_extensionality. intros s. unfold mono_integrand, hx, last_of, with_last, coord. cbn [length nth Nat.sub upd]. do 3 f_equal.
  unfold slope, partial. cbn [length Nat.sub]. unfold coord. cbn [nth]. 
  rewrite (Derive_ext _ (fun t => (t * t - 1) / 2)) by (intros t; cbn [upd]; apply line_expansion; auto).
  apply is_derive_unique. auto_derive; auto. field.
Qed.

(** The options of an adaptive Simpson component as tolerances, limits and estimates. *)
Definition simpson_of (o : options) : adaptive := MkAd (o_absTol o) (o_relTol o) (o_maxSub o) (o_minSub o) simpson simpson2.

Lemma line_component fuel o : o_basis o = ProbHermite -> unbounded o -> o_pos o = PExp -> o_quad o = AdaptiveSimpson ->
  (1 <= o_maxSub o <= 32)%nat -> (o_minSub o < o_maxSub o)%nat -> (2 ^ o_maxSub o <= fuel)%nat ->
  exists f C dv d2, f_total_order 1 2 = Ok f /\ CreateComponent fuel f o = Ok C /\ mc_nugget C = o_nugget o /\ pf_eval (mc_G C) = exp /\ good_posfunc (mc_G C) /\
    expansion_of 1 2 line_alphas (one_dim o) dv d2 (mc_w C) /\ (forall x, twice_at dv d2 2 x) /\ runs_adaptive (mc_Q C) (simpson_of o).
Proof.
  intros HB HU HP HQ Hm Hmin Hfu. destruct (total_order_set 1 2 ltac:(lia)) as (f & Ef & Hf & _ & HN & _). change (enum_total 2 (1 - 1) []) with line_alphas in *.
  destruct (C64_choices fuel 1 line_alphas f o) as (C & EC & HW & EG & GG & _ & EN & EQ); auto; try (rewrite HQ; discriminate).
  rewrite HQ in EQ. assert (HS : supported o 2). { split; [unfold degree_ok; rewrite HB; intros; lia|]. split; [|auto]. destruct HU as (A & B). rewrite A, B. exact I. }
  destruct (opt_basis_diff o 2 HS) as (dv & d2 & HD & H2).
  exists f, C, dv, d2. split; [auto|]. split; [auto|]. split; [auto|]. split.
  { rewrite EG. unfold link. rewrite HP. reflexivity. }
  split; [auto|]. split; [split; [lia|]; exists f, (opt_basis o); auto|]. split; [auto|].
  left. eexists _, _. split; [exact EQ|]. split; [|split; reflexivity]. repeat split; cbn; auto; lia.
Qed.

(** Evaluate is neither increasing nor continuous: with the exponential, Hermite polynomials and
    adaptive Simpson quadrature, for every positive absolute tolerance, every relative tolerance
    below 1/2 and every maximal number of subdivisions from 2, the one-dimensional map of order 2
    with df/dx = x drops by some fixed amount at a point. *)
Theorem C72_increasing_refuted : forall fuel o, o_basis o = ProbHermite -> unbounded o -> o_pos o = PExp -> o_quad o = AdaptiveSimpson ->
  0 < o_absTol o -> o_relTol o < 1 / 2 -> (2 <= o_maxSub o <= 32)%nat -> o_minSub o = 0%nat -> (2 ^ o_maxSub o <= fuel)%nat ->
  exists f C c b drop, f_total_order 1 2 = Ok f /\ CreateComponent fuel f o = Ok C /\ length c = 3%nat /\ 0 < b /\ 0 < drop /\
    forall S, scratch_fits C 1 S -> exists eb, mc_Evaluate C S [b] c = Ok eb /\
      forall eta, 0 < eta -> exists a ea, b - eta < a < b /\ mc_Evaluate C S [a] c = Ok ea /\ eb + drop < ea.
Proof.
  intros fuel o HB HU HP HQ Ha Hr Hm Hz Hfu.
  destruct (line_component fuel o HB HU HP HQ ltac:(lia) ltac:(lia) Hfu) as (f & C & dv & d2 & Ef & EC & _ & EG & GG & HE & _ & HA).
  destruct (jump (simpson_of o) eq_refl eq_refl Ha Hr ltac:(cbn; lia) Hz) as (m & delta & M0 & D0 & HJ & HL).
  exists f, C, (line_coeffs o), m, (delta / 2). do 3 (split; [auto|]). split; [auto|]. split; [lra|]. intros S HS.
  assert (EV : forall x, exists T, halved (simpson_of o) (hx x) T /\ mc_Evaluate C S [x] (line_coeffs o) = Ok (over_leaves (simpson2 (hx x)) (leaves T 0 0 1) - 1 / 2)).
  { intros x. destruct (C72_evaluate 1 2 line_alphas (one_dim o) dv d2 C (simpson_of o) [x] (line_coeffs o) HE HA eq_refl eq_refl) as (T & HT & HV). cbv zeta in HT, HV.
    rewrite EG in HT, HV. exists T. rewrite (line_integrand o x) in HT by auto. split; [auto|]. rewrite (HV S HS). unfold mono_tree. rewrite (line_integrand o x) by auto.
    unfold with_last. cbn [length Nat.sub upd]. rewrite line_expansion by auto. cbn [simpson_of a_fine]. f_equal. lra. }
  destruct (EV m) as (T & HT & EB). eexists. split; [exact EB|]. specialize (HJ T HT). cbn [simpson_of a_fine] in HJ. intros eta He.
  destruct (below_local (fun _ => simpson2 (hx m) 0 1 - delta / 2) (fun x => simpson2 (hx x) 0 1) m (continuous_const _ _) (simpson2_cont m) ltac:(lra)) as (e & HB').
  pose proof (cond_pos e) as He'. set (r := Rmin (Rmin e eta) m). assert (R1 : r <= e) by (unfold r; eapply Rle_trans; [apply Rmin_l|apply Rmin_l]).
  assert (R2 : r <= eta) by (unfold r; eapply Rle_trans; [apply Rmin_l|apply Rmin_r]). assert (R3 : r <= m) by apply Rmin_r.
  assert (R4 : 0 < r) by (unfold r; repeat apply Rmin_glb_lt; lra).
  destruct (EV (m - r / 2)) as (T' & HT' & EA). assert (T' = Leaf) as ->. { eapply refined_unique; [exact HT'|]. apply HL. lra. }
  exists (m - r / 2). eexists. split; [lra|]. split; [exact EA|]. unfold over_leaves. cbn [leaves fold_right fst snd].
  assert (K : simpson2 (hx m) 0 1 - delta / 2 < simpson2 (hx (m - r / 2)) 0 1).
  { apply HB'. unfold ball. cbn. unfold AbsRing_ball, abs, minus, plus, opp. cbn. rewrite Rabs_left; lra. }
  unfold over_leaves in HJ. lra.
Qed.
Print Assumptions C72_increasing_refuted.

(** ** Examples *)

(** The options of the library with the exponential: tolerances 10^-6, at most 30 subdivisions.
    Somewhere the map decreases. *)
Definition default_like (nu : R) : options := MkOpt ProbHermite None None PExp AdaptiveSimpson (/ 10 ^ 6) (/ 10 ^ 6) 30 0 5 true true nu.
Example C72_default_drop : exists f C c b drop, f_total_order 1 2 = Ok f /\ CreateComponent (2 ^ 30) f (default_like 0) = Ok C /\ 0 < drop /\ 0 < b /\ length c = 3%nat /\
  forall S, scratch_fits C 1 S -> exists a ea eb, a < b /\ mc_Evaluate C S [a] c = Ok ea /\ mc_Evaluate C S [b] c = Ok eb /\ eb + drop < ea.
Proof.
  destruct (C72_increasing_refuted (2 ^ 30) (default_like 0)) as (f & C & c & b & drop & E1 & E2 & E3 & E4 & E5 & E6); try reflexivity.
  - split; reflexivity.
  - cbn -[pow]. apply Rinv_0_lt_compat. apply pow_lt. lra.
  - cbn -[pow]. assert (/ 10 ^ 6 < / 2); [|lra]. apply Rinv_lt_contravar; [|replace (10 ^ 6) with (10 * 10 ^ 5) by ring; assert (1 <= 10 ^ 5) by (apply pow_R1_Rle; lra); lra].
    apply Rmult_lt_0_compat; [lra|apply pow_lt; lra].
  - cbn. lia.
  - exists f, C, c, b, drop. split; [auto|]. split; [auto|]. split; [auto|]. split; [auto|]. split; [auto|]. intros S HS. destruct (E6 S HS) as (eb & F1 & F2). destruct (F2 1 ltac:(lra)) as (a & ea & G1 & G2 & G3).
    exists a, ea, eb. split; [lra|]. auto.
Qed.

(** Tolerances that cannot be met: [0,1] is halved once, no difference equals its tolerance, and the
    hypotheses of C72_derivatives_partial hold at every x > 0. *)
Definition strict_options : options := MkOpt ProbHermite None None PExp AdaptiveSimpson 0 0 2 0 5 true true 0.
Example C72_decided : exists f C dv d2, f_total_order 1 2 = Ok f /\ CreateComponent 4 f strict_options = Ok C /\
  expansion_of 1 2 line_alphas (one_dim strict_options) dv d2 (mc_w C) /\ good_posfunc (mc_G C) /\ runs_adaptive (mc_Q C) (simpson_of strict_options) /\ mc_nugget C = 0 /\
  (exists S, scratch_fits C 5 S) /\
  forall x, 0 < x -> (forall s, 0 <= s <= 1 -> twice_at dv d2 2 (s * last_of [x])) /\
    let h := mono_integrand (pf_eval (mc_G C)) (one_dim strict_options) line_alphas 0 (line_coeffs strict_options) [x] in
    halved (simpson_of strict_options) h (Node Leaf Leaf) /\ decided (simpson_of strict_options) h (Node Leaf Leaf).
Proof.
  destruct (line_component 4 strict_options) as (f & C & dv & d2 & E1 & E2 & E3 & E4 & E5 & E6 & E7 & E8); try reflexivity; try (cbn; lia). { split; reflexivity. }
  exists f, C, dv, d2. split; [auto|]. split; [auto|]. split; [auto|]. split; [auto|]. split; [auto|]. split; [auto|]. split.
  - exists (MkScr (repeat 0 (w_CacheSize (mc_w C))) (repeat 0 (5 + list_max (map (qr_work (mc_Q C)) (seq 0 6)))) (repeat 0 5) [] []).
    split; [apply repeat_length|]. split; [cbn; lia|]. split; [cbn; lia|]. intros m Hm. cbn [sc_ws]. rewrite repeat_length.
    assert (qr_work (mc_Q C) m <= list_max (map (qr_work (mc_Q C)) (seq 0 6)))%nat; [|lia].
    pose proof (list_max_le (map (qr_work (mc_Q C)) (seq 0 6)) (list_max (map (qr_work (mc_Q C)) (seq 0 6)))) as (K & _). specialize (K (le_n _)). rewrite Forall_forall in K. apply K.
    apply in_map. apply in_seq. lia.
  - intros x Hx. split; [intros; apply E7|]. cbv zeta. rewrite E4. rewrite line_integrand by (try split; reflexivity).
    assert (G : forall a b, a < b -> 0 < gap (simpson_of strict_options) (hx x) a b).
    { intros a b Hab. unfold gap. cbn [simpson_of a_fine a_coarse]. pose proof (exp_diff_pos x a b Hx Hab). rewrite Rabs_left; lra. }
    assert (Al : forall a b, allowance (simpson_of strict_options) (hx x) a b = 0).
    { intros a b. unfold allowance. cbn [simpson_of a_rel a_abs strict_options o_relTol o_absTol]. rewrite Rmult_0_l. apply Rmax_left. lra. }
    split.
    + unfold halved. cbn [refined]. unfold halts. rewrite !Al. cbn [simpson_of a_max a_min strict_options o_maxSub o_minSub].
      pose proof (G 0 1 ltac:(lra)). split; [intros ([K|K] & _); [lra|lia]|]. split; (split; [right; lia|lia]).
    + intros d a b HI. rewrite Al. assert (a < b); [|specialize (G a b ltac:(lra)); lra].
      cbn [met app] in HI. destruct HI as [E|[E|[E|[]]]]; injection E as <- <- <-; lra.
Qed.
