(** Theorems C32-C36, C62 and C63: monotone components. The vocabulary (slope, mono_integrand,
    mono_rule, mono_exact) is in SpecMono; the functions of the code are in MonoModel. *)
From Coq Require Import Reals ZArith Lra Psatz.
From Coquelicot Require Import Coquelicot.
From Verif Require Import Base SpecMulti SpecPoly SpecExpansion SpecQuad SpecRoot SpecMono MISetModel FixedSetModel FixedSetProofs PropFixed PolyModel PolyProofs
  LinProofs BijModel BijProofs PropPoly ExpansionModel ExpansionProofs ExpansionDeriv PropExpansion QuadModel QuadCC QuadWalk QuadSimpson QuadACC QuadProofs PropQuad
  RootModel RootProofs PropRoot MonoModel MonoProofs MonoComp.
Local Open Scope R_scope.

(** [w] is an expansion worker in d > 0 variables over the multi-indices [alphas] of a fixed set, with
    basis functions v_k, their derivatives dv_k and the functions d2_k, up to degree N. *)
Definition expansion_of (d N : nat) (alphas : list vec) (v dv d2 : nat -> R -> R) (w : worker) : Prop :=
  (0 < d)%nat /\ exists f B, fixed_set d alphas f /\ diff_basis B v dv d2 N /\ degrees_le N alphas /\ w_make f B = Ok w.

(** The function g of the component is positive and twice differentiable, with the derivatives the code uses. *)
Definition good_posfunc (G : posfunc) : Prop := smooth_positive (pf_eval G) (pf_deriv G) (pf_deriv2 G).

Lemma exp_good : good_posfunc pf_exp.
Proof.
  split; [intros; apply exp_pos|]. cbn [pf_exp pf_eval pf_deriv pf_deriv2]. unfold Exp_Evaluate, Exp_Derivative, Exp_SecondDerivative.
  split; intros x; apply is_derive_exp.
Qed.

Lemma softplus_good : good_posfunc pf_softplus.
Proof. destruct C22_softplus as (A & _ & Bb & Cc & _). split; [|split]; auto. Qed.

Lemma expansion_setup d N alphas v dv d2 w : expansion_of d N alphas v dv d2 w ->
  exists mx B, w = the_worker d alphas mx B /\ (0 < d)%nat /\ length mx = d /\ (forall j, (j < d)%nat -> (nth j mx 0 <= N)%nat) /\
    fills_values B v N /\ fills_derivs B v dv N /\ fills_second B v dv d2 N /\ (forall k x, (k <= N)%nat -> is_derive (v k) x (dv k x)) /\
    (forall al, In al alphas -> length al = d /\ forall k, (k < d)%nat -> (nth k al 0 <= nth k mx 0)%nat) /\
    (forall al, In al alphas -> length al = d /\ forall k, (k < d)%nat -> (nth k al 0 <= N)%nat) /\
    (forall cache, length cache = w_CacheSize w -> room d mx cache).
Proof.
  intros (Hd & f & B & Hf & HB & HN & Hw). destruct (setup d alphas f B v dv d2 N w Hd Hf HB HN Hw) as (mx & -> & M1 & M2 & M3 & M4).
  destruct HB as (B0 & B1 & B2 & B3). exists mx, B. repeat (split; [assumption || reflexivity|]).
  intros cache Lc. unfold room. rewrite Lc. cbn. lia.
Qed.

(** Scratch memory for an integrand with n outputs. *)
Definition scratch_ok (w : worker) (n : nat) (S : scratch) : Prop :=
  length (sc_cache S) = w_CacheSize w /\ (n <= length (sc_res S))%nat /\ (n <= length (sc_ws S))%nat.

(** ** C32 *)

(** The parts of the integrand's output after the value are derivatives of the value. The cache
    is filled once per point (FillCache1), then the integrand is called at any nodes [earlier]
    before the node [s]; neither the earlier calls nor the initial contents of cache, workspace
    and output matter. x = (pt_1,...,pt_{d-1},xd). *)
Theorem C32_integrand : forall (d N : nat) (alphas : list vec) (v dv d2 : nat -> R -> R) (w : worker) (G : posfunc)
    (pt c : list R) (xd nugget : R) (t : deriv_type) (cache work earlier out : list R) (s : R),
  expansion_of d N alphas v dv d2 w -> good_posfunc G ->
  length pt = d -> length c = length alphas -> length cache = w_CacheSize w -> (length alphas <= length work)%nat ->
  In t [DNone; DDiagonal; DParameters; DInput; DMixed] ->
  length out = (1 + match t with DDiagonal => 1 | DParameters | DMixed => length alphas | DInput => d | _ => 0 end)%nat ->
  let value c x := mono_integrand (pf_eval G) v alphas nugget c x s in
  let x := with_last pt xd in
  exists cache1 cache2 work2 cache3 work3 out',
    w_FillCache1 w cache pt (match t with DInput => DInput | _ => DNone end) = Ok cache1 /\
    mi_calls w G pt xd c t nugget earlier cache1 work = Ok (cache2, work2) /\
    mi_call w G pt xd c t nugget cache2 work2 s out = Ok (cache3, work3, out') /\ length out' = length out /\
    coord out' 0 = value c x /\
    (t = DDiagonal -> twice_at dv d2 N (s * xd) -> is_partial (value c) (d - 1) x (coord out' 1)) /\
    (t = DParameters -> forall i, (i < length alphas)%nat -> is_partial (fun c => value c x) i c (coord out' (1 + i))) /\
    (t = DInput -> twice_at dv d2 N (s * xd) -> forall j, (j < d)%nat -> is_partial (value c) j x (coord out' (1 + j))) /\
    (t = DMixed -> twice_at dv d2 N (s * xd) -> forall i, (i < length alphas)%nat ->
       is_partial (fun c => partial (value c) (d - 1) x) i c (coord out' (1 + i))).
Proof.
  intros d N alphas v dv d2 w G pt c xd nugget t cache work earlier out s HE (Gp & G1 & G2) Lp Lc Lca Lw Ht Lo value x.
  destruct (expansion_setup _ _ _ _ _ _ _ HE) as (mx & B & -> & Hd & M1 & M2 & B0 & B1 & B2 & B3 & M3 & M4 & Rm).
  destruct (pre_fill1 d N alphas mx B v dv Hd M1 M2 B0 B1 (match t with DInput => DInput | _ => DNone end) cache pt (Rm _ Lca) Lp) as (c1 & E1 & P1).
  assert (P1' : pre d mx v dv (is_in t) c1 pt).
  { destruct Ht as [<-|[<-|[<-|[<-|[<-|[]]]]]]; exact P1. }
  destruct (mi_calls_ok d N alphas mx B v dv d2 G Hd M1 M2 B0 B1 B2 M3 t pt xd c nugget earlier Ht Lp Lc c1 work P1' ltac:(auto)) as (c2 & w2 & E2 & P2 & Lw2).
  destruct (mi_call_ok d N alphas mx B v dv d2 G Hd M1 M2 B0 B1 B2 M3 t pt xd c nugget c2 w2 s out Ht P2 Lp Lc) as (c3 & w3 & E3 & P3 & _ & _).
  { intros _. rewrite Lw2. auto. }
  { rewrite Lo. unfold mi_size. destruct Ht as [<-|[<-|[<-|[<-|[<-|[]]]]]]; rewrite ?size_W; reflexivity. }
  exists c1, c2, w2, c3, w3. eexists. split; [exact E1|]. split; [exact E2|]. split; [exact E3|].
  assert (Lx : length x = d) by (unfold x, with_last; rewrite upd_length; auto).
  assert (Xd : coord x (d - 1) = xd) by (unfold x, with_last; rewrite Lp; apply coord_upd_eq; lia).
  assert (EP : upd x (d - 1) (s * coord x (d - 1)) = upd pt (d - 1) (s * xd)).
  { rewrite Xd. unfold x, with_last. rewrite Lp. apply upd_upd_eq. }
  split.
  { rewrite Lo. unfold mi_out. cbn [length]. destruct Ht as [<-|[<-|[<-|[<-|[<-|[]]]]]]; cbn [mi_rest]; rewrite ?len_map_seq; reflexivity. }
  split; [eapply out_integ; eauto|].
  split; [|split; [|split]].
  - intros -> H2. pose proof (integ_last d N alphas v dv d2 (pf_eval G) (pf_deriv G) Hd M4 B3 G1 nugget c x s Lx) as H.
    rewrite EP, Xd in H. apply H; auto.
  - intros -> i Hi. pose proof (integ_coeff d N alphas v dv d2 (pf_eval G) (pf_deriv G) Hd M4 B3 G1 nugget c x s i Lx Lc Hi) as H.
    cbv zeta in H. rewrite EP, Xd in H. unfold coord, mi_out. cbn [Nat.add nth mi_rest]. rewrite nth_map_seq by auto. exact H.
  - intros -> H2 j Hj. unfold coord, mi_out. cbn [Nat.add nth mi_rest]. rewrite nth_map_seq by auto.
    destruct (Nat.eqb_spec j (d - 1)) as [->|].
    + pose proof (integ_last d N alphas v dv d2 (pf_eval G) (pf_deriv G) Hd M4 B3 G1 nugget c x s Lx) as H.
      rewrite EP, Xd in H. apply H; auto.
    + pose proof (integ_leading d N alphas v dv d2 (pf_eval G) (pf_deriv G) Hd M4 B3 G1 nugget c x s j Lx ltac:(lia)) as H.
      cbv zeta in H. rewrite EP, Xd in H. exact H.
  - intros -> H2 i Hi. unfold coord, mi_out. cbn [Nat.add nth mi_rest]. rewrite nth_map_seq by auto.
    pose proof (diag_coeff d alphas v dv d2 (pf_eval G) (pf_deriv G) (pf_deriv2 G) Hd G1 G2 nugget c x s i Lx Lc Hi) as H.
    cbv zeta in H. rewrite EP, Xd in H. apply is_partial_ext with (2 := H). intros c0.
    symmetry. apply is_partial_unique.
    pose proof (integ_last d N alphas v dv d2 (pf_eval G) (pf_deriv G) Hd M4 B3 G1 nugget (upd c i c0) x s Lx) as H3.
    rewrite EP, Xd in H3. apply H3; auto.
Qed.
Print Assumptions C32_integrand.

(** ** C34 *)

(** With a positive g, ContinuousDerivative is g(df/dx_d) > 0 and, when the component uses it
    (useContDeriv), LogDeterminant is its logarithm, never minus infinity. Holds for every
    quadrature rule and nugget. *)
Theorem C34_continuous : forall (d N : nat) (alphas : list vec) (v dv d2 : nat -> R -> R) (C : component) (S : scratch) (pt c : list R),
  expansion_of d N alphas v dv d2 (mc_w C) -> (forall u, 0 < pf_eval (mc_G C) u) ->
  length pt = d -> length c = length alphas -> length (sc_cache S) = w_CacheSize (mc_w C) ->
  let D := pf_eval (mc_G C) (slope v alphas c pt) in
  mc_ContinuousDerivative C S pt c = Ok D /\ 0 < D /\
  (mc_cont C = true -> mc_LogDeterminant C S pt c = Ok (Some (ln D))).
Proof.
  intros d N alphas v dv d2 C S pt c HE Gp Lp Lc Lca D.
  destruct (expansion_setup _ _ _ _ _ _ _ HE) as (mx & B & EW & Hd & M1 & M2 & B0 & B1 & B2 & B3 & M3 & M4 & Rm).
  assert (E : mc_ContinuousDerivative C S pt c = Ok D) by (eapply Cont_ok; eauto).
  split; auto. split; [apply Gp|]. intros Hc. unfold mc_LogDeterminant, mc_derivative. rewrite Hc, E. cbn [obind].
  destruct (Rltb_spec 0 D) as [_|n]; auto. exfalso. apply n. apply Gp.
Qed.
Print Assumptions C34_continuous.

(** With discrete derivatives the log determinant is the logarithm of the derivative of the
    discretised map where that is positive, and minus infinity elsewhere (C33 shows that it
    need not be positive). *)
Theorem C34_discrete : forall (d N : nat) (alphas : list vec) (v dv d2 : nat -> R -> R) (C : component) (S : scratch) (pt c pts wts : list R),
  expansion_of d N alphas v dv d2 (mc_w C) -> good_posfunc (mc_G C) -> length wts = length pts -> mc_Q C = qr_clenshaw pts wts ->
  length pt = d -> length c = length alphas -> scratch_ok (mc_w C) 2 S -> mc_cont C = false ->
  (forall t, In t pts -> twice_at dv d2 N ((1 + t) / 2 * last_of pt)) ->
  exists D, is_partial (mono_rule pts wts (pf_eval (mc_G C)) v alphas (mc_nugget C) c) (d - 1) pt D /\
    (0 < D -> mc_LogDeterminant C S pt c = Ok (Some (ln D))) /\ (D <= 0 -> mc_LogDeterminant C S pt c = Ok None).
Proof.
  intros d N alphas v dv d2 C S pt c pts wts HE (Gp & G1 & G2) LW EQ Lp Lc (Lca & L1 & L2) Hc H2.
  destruct (expansion_setup _ _ _ _ _ _ _ HE) as (mx & B & EW & Hd & M1 & M2 & B0 & B1 & B2 & B3 & M3 & M4 & Rm).
  unfold last_of in H2. rewrite Lp in H2.
  eexists. split; [eapply T_last; eauto|]. unfold mc_LogDeterminant, mc_derivative. rewrite Hc.
  erewrite Discrete_cc; eauto; [|split; [|split]; auto; discriminate]. cbn [obind snd].
  match goal with |- context [Rltb 0 ?D] => destruct (Rltb_spec 0 D) end; split; auto; intros; lra.
Qed.
Print Assumptions C34_discrete.

(** ** C35 *)

(** With weights summing to 2 the nugget adds nugget * x_d. *)
Lemma rule_const pts wts (f : R -> R) k : rsum (fun i => nth i wts 0) (length pts) = 2 ->
  rule_on pts wts 0 1 (fun s => f s + k) = rule_on pts wts 0 1 f + k.
Proof.
  intros HS. unfold rule_on, rule_sum. rewrite (rsum_ext _ (fun i => nth i wts 0 * f ((0 + 1) / 2 + (1 - 0) / 2 * nth i pts 0) + nth i wts 0 * k)).
  - rewrite rsum_plus. rewrite (rsum_ext (fun i => nth i wts 0 * k) (fun i => k * nth i wts 0)) by (intros; ring).
    rewrite rsum_scal, HS. field.
  - intros i Hi. ring.
Qed.

Lemma mono_nugget pts wts g v alphas nugget c x : rsum (fun i => nth i wts 0) (length pts) = 2 ->
  mono_rule pts wts g v alphas nugget c x = mono_rule pts wts g v alphas 0 c x + nugget * last_of x.
Proof.
  intros HS. unfold mono_rule.
  rewrite (rule_ext pts wts (mono_integrand g v alphas nugget c x) (fun s => mono_integrand g v alphas 0 c x s + nugget * last_of x)).
  - rewrite rule_const by auto. ring.
  - intros s. unfold mono_integrand. ring.
Qed.

(** Evaluate is the discretised map without the nugget. *)
Theorem C35_evaluate : forall (d N : nat) (alphas : list vec) (v dv d2 : nat -> R -> R) (C : component) (S : scratch) (pt c pts wts : list R),
  expansion_of d N alphas v dv d2 (mc_w C) -> length wts = length pts -> mc_Q C = qr_clenshaw pts wts ->
  length pt = d -> length c = length alphas -> scratch_ok (mc_w C) 1 S ->
  mc_Evaluate C S pt c = Ok (mono_rule pts wts (pf_eval (mc_G C)) v alphas 0 c pt).
Proof.
  intros d N alphas v dv d2 C S pt c pts wts HE LW EQ Lp Lc (Lca & L1 & L2).
  destruct (expansion_setup _ _ _ _ _ _ _ HE) as (mx & B & EW & Hd & M1 & M2 & B0 & B1 & B2 & B3 & M3 & M4 & Rm).
  eapply Evaluate_cc; eauto.
Qed.
Print Assumptions C35_evaluate.

(** The derivative with respect to x_d, and the value reported with it, are those of
    T(x) + nugget * x_d, T being what Evaluate returns (C35_evaluate). *)
Theorem C35_discrete_derivative_partial : forall (d N : nat) (alphas : list vec) (v dv d2 : nat -> R -> R) (C : component) (S : scratch)
    (pt c pts wts : list R),
  expansion_of d N alphas v dv d2 (mc_w C) -> good_posfunc (mc_G C) -> length wts = length pts -> mc_Q C = qr_clenshaw pts wts ->
  rsum (fun i => nth i wts 0) (length pts) = 2 -> length pt = d -> length c = length alphas -> scratch_ok (mc_w C) 2 S ->
  (forall t, In t pts -> twice_at dv d2 N ((1 + t) / 2 * last_of pt)) ->
  let T := mono_rule pts wts (pf_eval (mc_G C)) v alphas 0 in
  exists D, mc_DiscreteDerivative C S pt c = Ok (T c pt + mc_nugget C * last_of pt, D + mc_nugget C) /\ is_partial (T c) (d - 1) pt D.
Proof.
  intros d N alphas v dv d2 C S pt c pts wts HE (Gp & G1 & G2) LW EQ HS Lp Lc (Lca & L1 & L2) H2 T.
  destruct (expansion_setup _ _ _ _ _ _ _ HE) as (mx & B & EW & Hd & M1 & M2 & B0 & B1 & B2 & B3 & M3 & M4 & Rm).
  unfold last_of in H2. rewrite Lp in H2.
  eexists. split; [|eapply T_last; eauto].
  erewrite Discrete_cc; eauto; [|split; [|split]; auto; discriminate]. do 2 f_equal; [apply mono_nugget; auto|].
  rewrite <- rule_const by auto. apply rule_ext. intros s. unfold diag_value. ring.
Qed.
Print Assumptions C35_discrete_derivative_partial.

(** The coefficient Jacobian is that of Evaluate, for every nugget. *)
Theorem C35_coeff_jacobian_partial : forall (d N : nat) (alphas : list vec) (v dv d2 : nat -> R -> R) (C : component) (S : scratch)
    (pt c pts wts out : list R),
  expansion_of d N alphas v dv d2 (mc_w C) -> good_posfunc (mc_G C) -> length wts = length pts -> mc_Q C = qr_clenshaw pts wts ->
  rsum (fun i => nth i wts 0) (length pts) = 2 -> length pt = d -> length c = length alphas -> length out = length alphas ->
  scratch_ok (mc_w C) (1 + length alphas) S ->
  let T := mono_rule pts wts (pf_eval (mc_G C)) v alphas 0 in
  exists J, mc_CoeffJacobian C S pt c out = Ok (T c pt + mc_nugget C * last_of pt, J) /\ length J = length alphas /\
    forall i, (i < length alphas)%nat -> is_partial (fun c => T c pt) i c (coord J i).
Proof.
  intros d N alphas v dv d2 C S pt c pts wts out HE (Gp & G1 & G2) LW EQ HS Lp Lc Lo (Lca & L1 & L2) T.
  destruct (expansion_setup _ _ _ _ _ _ _ HE) as (mx & B & EW & Hd & M1 & M2 & B0 & B1 & B2 & B3 & M3 & M4 & Rm).
  eexists. split; [|split].
  - erewrite Coeff_cc; eauto; [|split; [|split]; auto; [..|discriminate]; cbn [mi_size]; rewrite size_W; auto].
    do 2 f_equal. apply mono_nugget; auto.
  - apply len_map_seq.
  - intros i Hi. unfold coord at 1. rewrite nth_map_seq by auto. rewrite Rplus_comm. eapply T_coeff; eauto.
Qed.
Print Assumptions C35_coeff_jacobian_partial.

(** The input Jacobian: the leading entries are those of Evaluate, the last one has the nugget added. *)
Theorem C35_input_jacobian_partial : forall (d N : nat) (alphas : list vec) (v dv d2 : nat -> R -> R) (C : component) (S : scratch)
    (pt c pts wts out : list R),
  expansion_of d N alphas v dv d2 (mc_w C) -> good_posfunc (mc_G C) -> length wts = length pts -> mc_Q C = qr_clenshaw pts wts ->
  rsum (fun i => nth i wts 0) (length pts) = 2 -> length pt = d -> length c = length alphas -> length out = d ->
  scratch_ok (mc_w C) (1 + d) S -> (forall t, In t pts -> twice_at dv d2 N ((1 + t) / 2 * last_of pt)) ->
  let T := mono_rule pts wts (pf_eval (mc_G C)) v alphas 0 in
  exists J, mc_InputJacobian C S pt c out = Ok (T c pt + mc_nugget C * last_of pt, J) /\ length J = d /\
    (forall j, (j < d - 1)%nat -> is_partial (T c) j pt (coord J j)) /\
    is_partial (T c) (d - 1) pt (coord J (d - 1) - mc_nugget C).
Proof.
  intros d N alphas v dv d2 C S pt c pts wts out HE (Gp & G1 & G2) LW EQ HS Lp Lc Lo (Lca & L1 & L2) H2 T.
  destruct (expansion_setup _ _ _ _ _ _ _ HE) as (mx & B & EW & Hd & M1 & M2 & B0 & B1 & B2 & B3 & M3 & M4 & Rm).
  unfold last_of in H2. rewrite Lp in H2.
  eexists. split; [|split; [|split]].
  - erewrite Input_cc; eauto; [|split; [|split]; auto; discriminate].
    do 2 f_equal. apply mono_nugget; auto.
  - apply len_map_seq.
  - intros j Hj. unfold coord at 1. rewrite nth_map_seq by lia. rewrite (proj2 (Nat.eqb_neq _ _)) by lia. rewrite Rplus_comm. eapply T_leading; eauto.
  - unfold coord at 1. rewrite nth_map_seq by lia. rewrite Nat.eqb_refl.
    match goal with |- is_partial _ _ _ ?z => replace z with
      (rule_on pts wts 0 1 (fun s => diag_value d alphas v dv d2 (pf_eval (mc_G C)) (pf_deriv (mc_G C)) 0 c (upd pt (d - 1) (s * coord pt (d - 1))) (coord pt (d - 1)) s)) end.
    + eapply T_last; eauto.
    + rewrite (rule_ext pts wts (fun s => diag_value d alphas v dv d2 (pf_eval (mc_G C)) (pf_deriv (mc_G C)) (mc_nugget C) c (upd pt (d - 1) (s * coord pt (d - 1))) (coord pt (d - 1)) s)
        (fun s => diag_value d alphas v dv d2 (pf_eval (mc_G C)) (pf_deriv (mc_G C)) 0 c (upd pt (d - 1) (s * coord pt (d - 1))) (coord pt (d - 1)) s + mc_nugget C)).
      * rewrite rule_const by auto. ring.
      * intros s. unfold diag_value. ring.
Qed.
Print Assumptions C35_input_jacobian_partial.

(** So with a non-zero nugget neither the discrete derivative nor the last entry of the input
    Jacobian is the derivative of what Evaluate returns, at any point. *)
Theorem C35_nugget_refuted : forall (d N : nat) (alphas : list vec) (v dv d2 : nat -> R -> R) (C : component) (S : scratch)
    (pt c pts wts out : list R) (e D : R) (J : list R),
  expansion_of d N alphas v dv d2 (mc_w C) -> good_posfunc (mc_G C) -> length wts = length pts -> mc_Q C = qr_clenshaw pts wts ->
  rsum (fun i => nth i wts 0) (length pts) = 2 -> length pt = d -> length c = length alphas -> length out = d ->
  scratch_ok (mc_w C) (2 + d) S -> (forall t, In t pts -> twice_at dv d2 N ((1 + t) / 2 * last_of pt)) ->
  mc_nugget C <> 0 ->
  mc_DiscreteDerivative C S pt c = Ok (e, D) -> mc_InputJacobian C S pt c out = Ok (e, J) ->
  (forall x, length x = d -> mc_Evaluate C S x c = Ok (mono_rule pts wts (pf_eval (mc_G C)) v alphas 0 c x)) /\
  ~ is_partial (mono_rule pts wts (pf_eval (mc_G C)) v alphas 0 c) (d - 1) pt D /\
  ~ is_partial (mono_rule pts wts (pf_eval (mc_G C)) v alphas 0 c) (d - 1) pt (coord J (d - 1)).
Proof.
  intros d N alphas v dv d2 C S pt c pts wts out e D J HE HG LW EQ HS Lp Lc Lo (Lca & L1 & L2) H2 Hn ED EJ.
  split; [|split].
  - intros x Lx. eapply C35_evaluate; eauto. split; [auto|]. split; lia.
  - edestruct C35_discrete_derivative_partial with (S := S) (pt := pt) as (D' & E & H); eauto. { split; [auto|]. split; lia. }
    rewrite ED in E. injection E as _ ->. intros H'. apply is_derive_unique in H. apply is_derive_unique in H'. lra.
  - edestruct C35_input_jacobian_partial with (S := S) (pt := pt) as (J' & E & _ & _ & H); eauto. { split; [auto|]. split; lia. }
    rewrite EJ in E. injection E as _ ->. intros H'. apply is_derive_unique in H. apply is_derive_unique in H'. lra.
Qed.
Print Assumptions C35_nugget_refuted.

(** ** C62 *)

Lemma partial_ln (F : list R -> R) j x l : 0 < F x -> (j < length x)%nat -> is_partial F j x l -> is_partial (fun x => ln (F x)) j x (l * (1 / F x)).
Proof.
  intros Hp Hj H. unfold is_partial in *. assert (E : upd x j (coord x j) = x) by (apply upd_same; auto).
  pose proof (is_derive_ln (F x) Hp) as Hl. rewrite <- E in Hl at 1.
  pose proof (is_derive_comp ln (fun t => F (upd x j t)) (coord x j) _ _ Hl H) as H2.
  apply (derive_eq _ _ _ _ H2). unfold scal. cbn. unfold mult. cbn. field. lra.
Qed.

(** With continuous derivatives the two gradients of the log determinant are the partial
    derivatives of ln(g(df/dx_d)), which is what LogDeterminant returns (C34_continuous). *)
Theorem C62_continuous : forall (d N : nat) (alphas : list vec) (v dv d2 : nat -> R -> R) (C : component) (S : scratch)
    (pt c outc outx : list R),
  expansion_of d N alphas v dv d2 (mc_w C) -> good_posfunc (mc_G C) ->
  length pt = d -> length c = length alphas -> length outc = length alphas -> length outx = d ->
  length (sc_cache S) = w_CacheSize (mc_w C) -> mc_cont C = true ->
  let L c x := ln (pf_eval (mc_G C) (slope v alphas c x)) in
  (exists J, mc_LogDeterminantCoeffGrad C S pt c outc = Ok J /\ length J = length alphas /\
    forall i, (i < length alphas)%nat -> is_partial (fun c => L c pt) i c (coord J i)) /\
  (exists J, mc_LogDeterminantInputGrad C S pt c outx = Ok J /\ length J = d /\
    (forall j, (j < d - 1)%nat -> is_partial (L c) j pt (coord J j)) /\
    (twice_at dv d2 N (last_of pt) -> is_partial (L c) (d - 1) pt (coord J (d - 1)))).
Proof.
  intros d N alphas v dv d2 C S pt c outc outx HE (Gp & G1 & G2) Lp Lc Loc Lox Lca Hc L.
  destruct (expansion_setup _ _ _ _ _ _ _ HE) as (mx & B & EW & Hd & M1 & M2 & B0 & B1 & B2 & B3 & M3 & M4 & Rm).
  assert (EC : mc_ContinuousDerivative C S pt c = Ok (pf_eval (mc_G C) (slope v alphas c pt))) by (eapply Cont_ok; eauto).
  split.
  - unfold mc_LogDeterminantCoeffGrad, mc_derivative. rewrite Hc. erewrite CMixed_ok; eauto. cbn [obind]. rewrite EC. cbn [obind].
    rewrite EW, size_W, scale_map. eexists. split; [reflexivity|]. split; [apply len_map_seq|]. intros i Hi. unfold coord at 1. rewrite nth_map_seq by auto.
    apply (partial_ln (fun c => pf_eval (mc_G C) (slope v alphas c pt))); [apply Gp|lia|]. eapply slope_coeff; eauto.
  - unfold mc_LogDeterminantInputGrad. rewrite Hc. erewrite CInput_ok; eauto. cbn [obind]. rewrite EC. cbn [obind].
    rewrite EW. change (wdim (the_worker d alphas mx B)) with d. rewrite scale_map. eexists. split; [reflexivity|]. split; [apply len_map_seq|]. split.
    + intros j Hj. unfold coord at 1. rewrite nth_map_seq by lia. apply (partial_ln (fun x => pf_eval (mc_G C) (slope v alphas c x))); [apply Gp|lia|].
      eapply slope_input; eauto; lia.
    + intros H2. unfold last_of in H2. rewrite Lp in H2. unfold coord at 1. rewrite nth_map_seq by lia.
      apply (partial_ln (fun x => pf_eval (mc_G C) (slope v alphas c x))); [apply Gp|lia|]. eapply slope_input; eauto; lia.
Qed.
Print Assumptions C62_continuous.

(** With discrete derivatives: the coefficient gradient, computed into an array of zeros, is that of the logarithm of the
    derivative of the discretised map, where this is positive. The input gradient is rejected with
    an exception. *)
Theorem C62_discrete : forall (d N : nat) (alphas : list vec) (v dv d2 : nat -> R -> R) (C : component) (S : scratch)
    (pt c pts wts outx : list R),
  expansion_of d N alphas v dv d2 (mc_w C) -> good_posfunc (mc_G C) -> length wts = length pts -> mc_Q C = qr_clenshaw pts wts ->
  length pt = d -> length c = length alphas -> scratch_ok (mc_w C) (2 + length alphas) S -> (length alphas <= length (sc_work S))%nat ->
  (forall t, In t pts -> twice_at dv d2 N ((1 + t) / 2 * last_of pt)) -> mc_cont C = false ->
  let D c := partial (mono_rule pts wts (pf_eval (mc_G C)) v alphas (mc_nugget C) c) (d - 1) pt in
  0 < D c ->
  mc_LogDeterminant C S pt c = Ok (Some (ln (D c))) /\
  (exists J, mc_LogDeterminantCoeffGrad C S pt c (repeat 0 (length alphas)) = Ok J /\ length J = length alphas /\
    forall i, (i < length alphas)%nat -> is_partial (fun c => ln (D c)) i c (coord J i)) /\
  mc_LogDeterminantInputGrad C S pt c outx = Throw.
Proof.
  intros d N alphas v dv d2 C S pt c pts wts outx HE (Gp & G1 & G2) LW EQ Lp Lc (Lca & L1 & L2) Lk H2 Hc D HD.
  destruct (expansion_setup _ _ _ _ _ _ _ HE) as (mx & B & EW & Hd & M1 & M2 & B0 & B1 & B2 & B3 & M3 & M4 & Rm).
  unfold last_of in H2. rewrite Lp in H2.
  assert (SD : sized d alphas mx B S DDiagonal) by (split; [|split]; cbn [mi_size]; try lia; discriminate).
  assert (SM : sized d alphas mx B S DMixed) by (split; [|split]; cbn [mi_size]; rewrite ?size_W; lia).
  assert (ED : exists e, mc_DiscreteDerivative C S pt c = Ok (e, D c)).
  { erewrite Discrete_cc; eauto. eexists. do 2 f_equal. symmetry. apply is_partial_unique. eapply T_last; eauto. }
  destruct ED as (e & ED). split; [|split].
  - unfold mc_LogDeterminant, mc_derivative. rewrite Hc, ED. cbn [obind snd]. destruct (Rltb_spec 0 (D c)); auto. lra.
  - unfold mc_LogDeterminantCoeffGrad, mc_derivative. rewrite Hc. erewrite DMixed_cc; eauto; [|apply repeat_length]. cbn [obind]. rewrite ED. cbn [obind snd].
    rewrite EW, size_W, scale_map. eexists. split; [reflexivity|]. split; [apply len_map_seq|]. intros i Hi. unfold coord at 1. rewrite nth_map_seq by auto.
    apply (partial_ln D); auto; [lia|]. unfold coord at 1. rewrite nth_repeat, Rplus_0_l. eapply T_mixed; eauto.
  - unfold mc_LogDeterminantInputGrad. rewrite Hc. reflexivity.
Qed.
Print Assumptions C62_discrete.

(** The discrete coefficient gradient adds to the output array it is given: with contents h it
    returns h_i/D + the gradient. (LogDeterminantCoeffGrad allocates a zeroed array; callers
    of the Impl function must do so too.) *)
Theorem C62_discrete_accumulates : forall (d N : nat) (alphas : list vec) (v dv d2 : nat -> R -> R) (C : component) (S : scratch)
    (pt c pts wts h : list R) (e D : R),
  expansion_of d N alphas v dv d2 (mc_w C) -> length wts = length pts -> mc_Q C = qr_clenshaw pts wts ->
  length pt = d -> length c = length alphas -> length h = length alphas -> scratch_ok (mc_w C) (2 + length alphas) S -> (length alphas <= length (sc_work S))%nat ->
  mc_cont C = false -> mc_DiscreteDerivative C S pt c = Ok (e, D) ->
  exists J0 J, mc_LogDeterminantCoeffGrad C S pt c (repeat 0 (length alphas)) = Ok J0 /\
    mc_LogDeterminantCoeffGrad C S pt c h = Ok J /\
    forall i, (i < length alphas)%nat -> coord J i = coord J0 i + coord h i * (1 / D).
Proof.
  intros d N alphas v dv d2 C S pt c pts wts h e D HE LW EQ Lp Lc Lh (Lca & L1 & L2) Lk Hc ED.
  destruct (expansion_setup _ _ _ _ _ _ _ HE) as (mx & B & EW & Hd & M1 & M2 & B0 & B1 & B2 & B3 & M3 & M4 & Rm).
  assert (SM : sized d alphas mx B S DMixed) by (split; [|split]; cbn [mi_size]; rewrite ?size_W; lia).
  unfold mc_LogDeterminantCoeffGrad, mc_derivative. rewrite Hc. erewrite DMixed_cc; eauto; [|apply repeat_length]. erewrite DMixed_cc with (jac := h); eauto.
  cbn [obind]. rewrite ED. cbn [obind snd]. rewrite EW, size_W, !scale_map. do 2 eexists. split; [reflexivity|]. split; [reflexivity|].
  intros i Hi. assert (CM : forall f, coord (map f (seq 0 (length alphas))) i = f i) by (intros f; apply nth_map_seq; auto). rewrite !CM.
  assert (Z : coord (repeat 0 (length alphas)) i = 0) by apply nth_repeat. rewrite Z. ring.
Qed.
Print Assumptions C62_discrete_accumulates.

(** ** C63 *)

(** CoeffGrad is the sensitivity times the coefficient Jacobian of C35. *)
Theorem C63_coeff_gradient : forall (d N : nat) (alphas : list vec) (v dv d2 : nat -> R -> R) (C : component) (S : scratch)
    (pt c pts wts outc : list R) (sens : R),
  expansion_of d N alphas v dv d2 (mc_w C) -> good_posfunc (mc_G C) -> length wts = length pts -> mc_Q C = qr_clenshaw pts wts ->
  rsum (fun i => nth i wts 0) (length pts) = 2 -> length pt = d -> length c = length alphas -> length outc = length alphas -> scratch_ok (mc_w C) (1 + length alphas + d) S ->
  let T c x := mono_rule pts wts (pf_eval (mc_G C)) v alphas 0 c x + mc_nugget C * last_of x in
  exists g, mc_CoeffGrad C S pt c sens outc = Ok g /\ length g = length alphas /\
     forall i, (i < length alphas)%nat -> is_partial (fun c => sens * T c pt) i c (coord g i).
Proof.
  intros d N alphas v dv d2 C S pt c pts wts outc sens HE HG LW EQ HS Lp Lc Loc (Lca & L1 & L2) T.
  destruct (expansion_setup _ _ _ _ _ _ _ HE) as (mx & B & EW & Hd & _).
  destruct (C35_coeff_jacobian_partial d N alphas v dv d2 C S pt c pts wts outc) as (J & E & LJ & H); auto. { split; [auto|]. split; lia. }
  unfold mc_CoeffGrad. rewrite E. cbn [obind snd]. rewrite EW, size_W.
  rewrite scale_fill by lia. rewrite fill_all by auto. eexists. split; [reflexivity|]. split; [apply len_map_seq|]. intros i Hi. unfold coord at 1. rewrite nth_map_seq by auto.
  change (nth i J 0) with (coord J i). rewrite Rmult_comm. unfold is_partial. apply is_derive_const_mult.
  change (is_partial (fun c => T c pt) i c (coord J i)). unfold T.
  replace (coord J i) with (coord J i + 0) by ring. apply partial_plus_e; [apply H; lia|].
  unfold is_partial. apply (is_derive_const (V := R_NormedModule) (mc_nugget C * last_of pt)).
Qed.
Print Assumptions C63_coeff_gradient.

(** Gradient and CoeffGrad are the sensitivity times the Jacobians of C35. *)
Theorem C63_gradients : forall (d N : nat) (alphas : list vec) (v dv d2 : nat -> R -> R) (C : component) (S : scratch)
    (pt c pts wts outx outc : list R) (sens : R),
  expansion_of d N alphas v dv d2 (mc_w C) -> good_posfunc (mc_G C) -> length wts = length pts -> mc_Q C = qr_clenshaw pts wts ->
  rsum (fun i => nth i wts 0) (length pts) = 2 ->
  length pt = d -> length c = length alphas -> length outc = length alphas -> length outx = d ->
  scratch_ok (mc_w C) (1 + length alphas + d) S -> (forall t, In t pts -> twice_at dv d2 N ((1 + t) / 2 * last_of pt)) ->
  let T c x := mono_rule pts wts (pf_eval (mc_G C)) v alphas 0 c x + mc_nugget C * last_of x in
  (exists g, mc_Gradient C S pt c sens outx = Ok g /\ length g = d /\
     forall j, (j < d)%nat -> is_partial (fun x => sens * T c x) j pt (coord g j)) /\
  (exists g, mc_CoeffGrad C S pt c sens outc = Ok g /\ length g = length alphas /\
     forall i, (i < length alphas)%nat -> is_partial (fun c => sens * T c pt) i c (coord g i)).
Proof.
  intros d N alphas v dv d2 C S pt c pts wts outx outc sens HE HG LW EQ HS Lp Lc Loc Lox (Lca & L1 & L2) H2 T.
  destruct (expansion_setup _ _ _ _ _ _ _ HE) as (mx & B & EW & Hd & _).
  split.
  - destruct (C35_input_jacobian_partial d N alphas v dv d2 C S pt c pts wts outx) as (J & E & LJ & H & Hl); auto. { split; [auto|]. split; lia. }
    unfold mc_Gradient. rewrite E. cbn [obind snd]. rewrite EW. change (wdim (the_worker d alphas mx B)) with d.
    rewrite scale_fill by lia. rewrite fill_all by auto. eexists. split; [reflexivity|]. split; [apply len_map_seq|]. intros j Hj. unfold coord at 1. rewrite nth_map_seq by auto.
    change (nth j J 0) with (coord J j). rewrite Rmult_comm. unfold is_partial. apply is_derive_const_mult.
    change (is_partial (T c) j pt (coord J j)). unfold T.
    destruct (Nat.eq_dec j (d - 1)) as [->|].
    + replace (coord J (d - 1)) with ((coord J (d - 1) - mc_nugget C) + mc_nugget C) by ring. apply partial_plus_e; auto.
      unfold is_partial. apply is_derive_ext with (f := fun t => mc_nugget C * t).
      * intros t. unfold last_of. rewrite upd_length, Lp, coord_upd_eq by lia. reflexivity.
      * auto_derive; auto. ring.
    + replace (coord J j) with (coord J j + 0) by ring. apply partial_plus_e; [apply H; lia|].
      unfold is_partial. apply is_derive_ext with (f := fun t => mc_nugget C * last_of pt).
      * intros t. unfold last_of. rewrite upd_length, Lp, coord_upd_neq by lia. reflexivity.
      * apply (is_derive_const (V := R_NormedModule)).
  - apply (C63_coeff_gradient d N alphas v dv d2); auto. split; auto.
Qed.
Print Assumptions C63_gradients.

(** ** C36 *)


Lemma fill1_lead w cache (x y : list R) t : (forall j, (j < wdim w - 1)%nat -> raw_get x j = raw_get y j) ->
  w_FillCache1 w cache x t = w_FillCache1 w cache y t.
Proof.
  unfold w_FillCache1. intros H.
  assert (K : forall l c, (forall j, In j l -> (j < wdim w - 1)%nat) ->
    ofold (fun cache d => do x <- raw_get x d; do m <- raw_get (f_MaxDegrees (wset w)) d;
      match t with DInput | DMixedInput => call_derivs w cache d (d + wdim w) m x | _ => call_all w cache d m x end) l c =
    ofold (fun cache d => do x <- raw_get y d; do m <- raw_get (f_MaxDegrees (wset w)) d;
      match t with DInput | DMixedInput => call_derivs w cache d (d + wdim w) m x | _ => call_all w cache d m x end) l c).
  { induction l as [|j l IH]; intros c Hl; auto. cbn [ofold]. rewrite (H j) by (apply Hl; left; auto).
    match goal with |- obind ?o _ = _ => destruct o as [s| | |] end; auto. cbn [obind]. apply IH. intros k Hk. apply Hl. right. auto. }
  apply K. intros j Hj. apply in_seq in Hj. lia.
Qed.

(** x_d -> (x_1,...,x_{d-1},x_d), the leading inputs being taken from the column given to Inverse. *)
Definition on_line (d : nat) (x1 : list R) (x : R) : list R := firstn (d - 1) x1 ++ [x].

Lemma on_line_fill d x1 C S : wdim (mc_w C) = d -> (1 <= length x1)%nat -> (d - 1 <= length x1 <= d)%nat -> (0 < d)%nat ->
  (forall x, w_FillCache1 (mc_w C) (sc_cache S) (on_line d x1 x) DNone = w_FillCache1 (mc_w C) (sc_cache S) x1 DNone) /\
  (forall x, raw_get (on_line d x1 x) (d - 1) = Ok x) /\ (forall x, length (on_line d x1 x) = d).
Proof.
  intros DW L1 L2 Hd. assert (LL : length (firstn (d - 1) x1) = (d - 1)%nat) by (rewrite firstn_length; lia). split; [|split].
  - intros x. apply fill1_lead. rewrite DW. intros j Hj. unfold on_line. rewrite !(raw_get_ok _ _ 0) by (rewrite ?app_length, ?LL; cbn; lia).
    rewrite app_nth1 by lia. f_equal. rewrite <- (firstn_skipn (d - 1) x1) at 2. rewrite app_nth1 by lia. reflexivity.
  - intros x. unfold on_line. rewrite (raw_get_ok _ _ 0) by (rewrite app_length, LL; cbn; lia). rewrite app_nth2 by lia. rewrite LL, Nat.sub_diag. reflexivity.
  - intros x. unfold on_line. rewrite app_length, LL. cbn. lia.
Qed.

Lemma inverse_core : forall (d N : nat) (alphas : list vec) (v dv d2 : nat -> R -> R) (C : component) (S : scratch)
    (x1 c : list R) (y : R) (xtol ytol : option R) (F : R -> R),
  expansion_of d N alphas v dv d2 (mc_w C) ->   (1 <= length x1)%nat -> (d - 1 <= length x1 <= d)%nat ->
  (exists cache, w_FillCache1 (mc_w C) (sc_cache S) x1 DNone = Ok cache /\ forall x, mc_EvaluateSingle C S cache (on_line d x1 x) x c (mc_nugget C) = Ok (F x)) -> (forall x, continuous F x) -> nondecreasing F ->
  let xt := match xtol with Some t => t | None => / 10 ^ 6 end in
  let yt := match ytol with Some t => t | None => / 10 ^ 6 end in
  Rpower 2 (- 1074) <= xt -> 0 < yt -> / 2 ^ 52 < xt \/ / 2 ^ 52 < yt ->
  exists res info, mc_Inverse C S x1 y c xtol ytol = Ok (res, info) /\
    (info = 0%Z \/ info = (-2)%Z) /\
    (info = 0%Z -> exists x root, res = Some x /\ F root = y /\ (Rabs (F x - y) < yt \/ Rabs (x - root) <= xt)) /\
    (info = (-2)%Z -> res = None) /\
    (nowhere_flat F -> F (last_of x1 - (2 ^ 128 - 1)) <= y <= F (last_of x1 + (2 ^ 128 - 1)) -> info = 0%Z).
Proof.
  intros d N alphas v dv d2 C S x1 c y xtol ytol F HE L1 L2 HF Hc Hm xt yt Hx Hy He.
  destruct (expansion_setup _ _ _ _ _ _ _ HE) as (mx & B & EW & Hd & _).
  unfold mc_Inverse.
  assert (ET : inv_tolerances xtol ytol = Ok (xt, yt)).
  { unfold inv_tolerances. pose proof (Rpower2_pos (-1074)). unfold xt, yt, eps in *.
    assert (A : match xtol with Some x => if Rltb x 0 then Throw else Ok x | None => Ok (/ 10 ^ 6) end = Ok xt).
    { unfold xt. destruct xtol as [z|]; auto. destruct (Rltb_spec z 0); auto. lra. }
    assert (A2 : match ytol with Some x => if Rltb x 0 then Throw else Ok x | None => Ok (/ 10 ^ 6) end = Ok yt).
    { unfold yt. destruct ytol as [z|]; auto. destruct (Rltb_spec z 0); auto. lra. }
    rewrite A. cbn [obind]. rewrite A2. cbn [obind]. destruct (Rltb_spec (/ 2 ^ 52) yt) as [|n1]; auto. destruct (Rltb_spec (/ 2 ^ 52) xt) as [|n2]; auto.
    exfalso. unfold xt, yt in *. tauto. }
  rewrite ET. cbn [obind].
  destruct HF as (cache & E1 & HF). rewrite E1.
  cbn [obind]. rewrite (raw_get_ok x1 _ 0) by lia. cbn [obind fst snd].
  assert (EF : mc_eval_at C S cache x1 c = F).
  { apply FunctionalExtensionality.functional_extensionality. intros x. unfold mc_eval_at.
    change (mc_EvaluateSingle C S cache x1 x c (mc_nugget C)) with (mc_EvaluateSingle C S cache (on_line d x1 x) x c (mc_nugget C)). rewrite HF. reflexivity. }
  rewrite EF. change (nth (length x1 - 1) x1 0) with (last_of x1).
  destruct (InverseSingleBracket F y (last_of x1) xt yt) as [res info] eqn:EI. exists res, info. split; [reflexivity|].
  destruct (C31_inverse F y (last_of x1) xt yt res info Hc Hm Hx Hy EI) as [(-> & x & r & A)|(-> & -> & Hb)].
  - split; [auto|]. split; [intros _; exists x, r; exact A|]. split; [discriminate|auto].
  - split; [auto|]. split; [discriminate|]. split; [auto|]. intros NF R. exfalso. apply Hb. apply C30_reaches_target; auto.
Qed.

(** Inverse for a component without nugget and with any quadrature rule. F is the function x_d -> Evaluate; the
    column [x1] has d-1 leading inputs, or d (its last entry is where the search starts). *)
Theorem C36_inverse_partial : forall (d N : nat) (alphas : list vec) (v dv d2 : nat -> R -> R) (C : component) (S : scratch)
    (x1 c : list R) (y : R) (xtol ytol : option R) (F : R -> R),
  expansion_of d N alphas v dv d2 (mc_w C) -> mc_nugget C = 0 ->
  (1 <= length x1)%nat -> (d - 1 <= length x1 <= d)%nat ->
  (forall x, mc_Evaluate C S (on_line d x1 x) c = Ok (F x)) -> (forall x, continuous F x) -> nondecreasing F ->
  let xt := match xtol with Some t => t | None => / 10 ^ 6 end in
  let yt := match ytol with Some t => t | None => / 10 ^ 6 end in
  Rpower 2 (- 1074) <= xt -> 0 < yt -> / 2 ^ 52 < xt \/ / 2 ^ 52 < yt ->
  exists res info, mc_Inverse C S x1 y c xtol ytol = Ok (res, info) /\
    (info = 0%Z \/ info = (-2)%Z) /\
    (info = 0%Z -> exists x root, res = Some x /\ F root = y /\ (Rabs (F x - y) < yt \/ Rabs (x - root) <= xt)) /\
    (info = (-2)%Z -> res = None) /\
    (nowhere_flat F -> F (last_of x1 - (2 ^ 128 - 1)) <= y <= F (last_of x1 + (2 ^ 128 - 1)) -> info = 0%Z).
Proof.
  intros d N alphas v dv d2 C S x1 c y xtol ytol F HE Hn L1 L2 HF. apply inverse_core with (1 := HE); auto.
  destruct (expansion_setup _ _ _ _ _ _ _ HE) as (mx & B & EW & Hd & _).
  assert (DW : wdim (mc_w C) = d) by (rewrite EW; reflexivity).
  destruct (on_line_fill d x1 C S DW L1 L2 Hd) as (FC & XG & _).
  destruct (w_FillCache1 (mc_w C) (sc_cache S) x1 DNone) as [cache| | |] eqn:E1.
  2,3,4: specialize (HF 0); unfold mc_Evaluate in HF; rewrite FC in HF; discriminate.
  exists cache. split; auto. intros x. specialize (HF x). unfold mc_Evaluate in HF. rewrite FC in HF. cbn [obind] in HF.
  rewrite DW, XG in HF. cbn [obind] in HF. rewrite Hn. exact HF.
Qed.
Print Assumptions C36_inverse_partial.

(** With a nugget, and a Clenshaw-Curtis rule, Inverse solves T(x) + nugget * x_d = y instead. *)
Theorem C36_solves_with_nugget : forall (d N : nat) (alphas : list vec) (v dv d2 : nat -> R -> R) (C : component) (S : scratch)
    (x1 c pts wts : list R) (y : R) (xtol ytol : option R),
  expansion_of d N alphas v dv d2 (mc_w C) -> length wts = length pts -> mc_Q C = qr_clenshaw pts wts ->
  rsum (fun i => nth i wts 0) (length pts) = 2 -> length c = length alphas -> scratch_ok (mc_w C) 1 S ->
  (1 <= length x1)%nat -> (d - 1 <= length x1 <= d)%nat ->
  let F x := mono_rule pts wts (pf_eval (mc_G C)) v alphas 0 c (on_line d x1 x) + mc_nugget C * x in
  (forall x, continuous F x) -> nondecreasing F ->
  let xt := match xtol with Some t => t | None => / 10 ^ 6 end in
  let yt := match ytol with Some t => t | None => / 10 ^ 6 end in
  Rpower 2 (- 1074) <= xt -> 0 < yt -> / 2 ^ 52 < xt \/ / 2 ^ 52 < yt ->
  exists res info, mc_Inverse C S x1 y c xtol ytol = Ok (res, info) /\
    (info = 0%Z \/ info = (-2)%Z) /\
    (info = 0%Z -> exists x root, res = Some x /\ F root = y /\ (Rabs (F x - y) < yt \/ Rabs (x - root) <= xt)) /\
    (info = (-2)%Z -> res = None) /\
    (nowhere_flat F -> F (last_of x1 - (2 ^ 128 - 1)) <= y <= F (last_of x1 + (2 ^ 128 - 1)) -> info = 0%Z).
Proof.
  intros d N alphas v dv d2 C S x1 c pts wts y xtol ytol HE LW EQ HS Lc (Lca & Lr & Ls) L1 L2 F. apply inverse_core with (1 := HE); auto.
  destruct (expansion_setup _ _ _ _ _ _ _ HE) as (mx & B & EW & Hd & M1 & M2 & B0 & B1 & B2 & B3 & M3 & M4 & Rm).
  assert (DW : wdim (mc_w C) = d) by (rewrite EW; reflexivity).
  destruct (on_line_fill d x1 C S DW L1 L2 Hd) as (FC & XG & OL).
  destruct (w_FillCache1 (mc_w C) (sc_cache S) x1 DNone) as [cache| | |] eqn:E1.
  2,3,4: destruct (pre_fill1 d N alphas mx B v dv Hd M1 M2 B0 B1 DNone (sc_cache S) (on_line d x1 0) (Rm _ Lca) (OL 0)) as (c1 & E & _);
    rewrite <- EW, FC in E; discriminate.
  exists cache. split; auto. intros x.
  destruct (pre_fill1 d N alphas mx B v dv Hd M1 M2 B0 B1 DNone (sc_cache S) (on_line d x1 x) (Rm _ Lca) (OL x)) as (c1 & E & P).
  rewrite <- EW, FC in E. injection E as <-.
  assert (LX : last_of (on_line d x1 x) = x).
  { unfold last_of. rewrite OL. pose proof (XG x) as H. rewrite (raw_get_ok _ _ 0) in H by (rewrite OL; lia). injection H as H. exact H. }
  assert (WL : with_last (on_line d x1 x) x = on_line d x1 x).
  { transitivity (with_last (on_line d x1 x) (coord (on_line d x1 x) (d - 1))).
    - f_equal. unfold last_of in LX. rewrite OL in LX. auto.
    - unfold with_last. rewrite OL. apply upd_same. rewrite OL. lia. }
  erewrite single_cc; eauto. f_equal. rewrite WL. unfold F. rewrite mono_nugget by auto. rewrite LX. reflexivity.
Qed.
Print Assumptions C36_solves_with_nugget.

(** Inverse undoes Evaluate up to the tolerances. *)
Theorem C36_round_trip_partial : forall (d N : nat) (alphas : list vec) (v dv d2 : nat -> R -> R) (C : component) (S : scratch)
    (x1 c : list R) (xd : R) (F : R -> R),
  expansion_of d N alphas v dv d2 (mc_w C) -> mc_nugget C = 0 ->
  (1 <= length x1)%nat -> (d - 1 <= length x1 <= d)%nat ->
  (forall x, mc_Evaluate C S (on_line d x1 x) c = Ok (F x)) -> (forall x, continuous F x) -> strictly_increasing F -> nowhere_flat F ->
  Rabs (xd - last_of x1) <= 2 ^ 128 - 1 ->
  exists x, mc_Inverse C S x1 (F xd) c None None = Ok (Some x, 0%Z) /\ (Rabs (F x - F xd) < / 10 ^ 6 \/ Rabs (x - xd) <= / 10 ^ 6).
Proof.
  intros d N alphas v dv d2 C S x1 c xd F HE Hn L1 L2 HF Hc Hs NF HX.
  assert (Hm : nondecreasing F) by (intros a b [H| ->]; [left; apply Hs; auto|right; auto]).
  assert (T52 : / 2 ^ 52 < / 10 ^ 6).
  { apply Rinv_lt_contravar; [|lra]. apply Rmult_lt_0_compat; apply pow_lt; lra. }
  assert (T1 : Rpower 2 (-1074) <= / 10 ^ 6).
  { apply Rle_trans with (/ 2 ^ 52); [|lra]. rewrite <- (Rpower_pow 52) by lra. rewrite <- Rpower_Ropp. apply Rle_Rpower; [lra|]. rewrite INR_IZR_INZ. cbn. lra. }
  assert (T0 : 0 < / 10 ^ 6) by (apply Rinv_0_lt_compat, pow_lt; lra).
  destruct (C36_inverse_partial d N alphas v dv d2 C S x1 c (F xd) None None F HE Hn L1 L2 HF Hc Hm T1 T0 (or_introl T52)) as (res & info & E & _ & H0 & _ & HR).
  assert (info = 0%Z). { apply HR; auto. generalize dependent (2 ^ 128). intros P HP. apply Rabs_le_between in HP. split; apply Hm; lra. }
  subst info. destruct (H0 eq_refl) as (x & r & -> & Er & A). exists x. split; auto. apply C31_root_unique with (1 := Hs) (3 := eq_refl) in Er. subst r. exact A.
Qed.
Print Assumptions C36_round_trip_partial.

(** ** C33 *)

(** The rule returns the exact integral over [0,1] of the scalar function h. *)
Definition exact_on (Q : quad_rule) (ws : list R) (h : R -> R) : Prop :=
  forall f : R -> list R, (forall s, f s = [h s]) -> exists r, qr_int Q 1 ws f 0 1 [0] = Ok [r] /\ is_RInt h 0 1 r.

Lemma evaluate_any d N alphas v dv d2 C S pt c r : expansion_of d N alphas v dv d2 (mc_w C) -> length pt = d -> length c = length alphas ->
  length (sc_cache S) = w_CacheSize (mc_w C) ->
  (forall f : R -> list R, (forall s, f s = [mono_integrand (pf_eval (mc_G C)) v alphas 0 c pt s]) -> qr_int (mc_Q C) 1 (sc_ws S) f 0 1 [0] = Ok [r]) ->
  mc_Evaluate C S pt c = Ok (r + expansion v alphas c (with_last pt 0)).
Proof.
  intros HE Lp Lc Lca Hr. destruct (expansion_setup _ _ _ _ _ _ _ HE) as (mx & B & EW & Hd & M1 & M2 & B0 & B1 & B2 & B3 & M3 & M4 & Rm).
  unfold mc_Evaluate. rewrite EW. destruct (pre_fill1 d N alphas mx B v dv Hd M1 M2 B0 B1 DNone (sc_cache S) pt (Rm _ Lca) Lp) as (c1 & E & P).
  rewrite E. cbn [obind]. change (wdim (the_worker d alphas mx B)) with d. rewrite (raw_get_ok pt _ 0) by lia. cbn [obind].
  rewrite (EvaluateSingle_ok d N alphas mx B v dv d2 (mc_G C) Hd M1 M2 B0 B1 B2 M3 C S c1 pt (nth (d - 1) pt 0) c 0 [r]); auto.
  - cbn [nth]. do 2 f_equal. rewrite <- expansion_Ex. unfold with_last. rewrite Lp. reflexivity.
  - apply Hr. intros s. rewrite (mi_fun_ok d N alphas mx B v dv d2) by (auto; try discriminate; left; reflexivity).
    unfold mi_out. cbn [mi_rest]. f_equal. rewrite (integ_is d N alphas v dv d2 (pf_eval (mc_G C)) Hd M4 B3) by auto. reflexivity.
Qed.

Lemma rsum_cont (f : nat -> R -> R) n x : (forall i, (i < n)%nat -> continuous (f i) x) -> continuous (fun t => rsum (fun i => f i t) n) x.
Proof.
  induction n as [|n IH]; intros H; cbn [rsum]; [apply continuous_const|].
  apply (continuous_plus (V := R_NormedModule)); [apply IH; intros; apply H; lia|apply H; lia].
Qed.
Lemma rprod_cont (f : nat -> R -> R) n x : (forall i, (i < n)%nat -> continuous (f i) x) -> continuous (fun t => rprod (fun i => f i t) n) x.
Proof.
  induction n as [|n IH]; intros H; cbn [rprod]; [apply continuous_const|].
  apply (continuous_mult (K := R_AbsRing)); [apply IH; intros; apply H; lia|apply H; lia].
Qed.

Lemma slope_cont d N (alphas : list vec) (v dv d2 : nat -> R -> R) (c pt : list R) : (0 < d)%nat -> (forall al, In al alphas -> length al = d /\ forall k, (k < d)%nat -> (nth k al 0 <= N)%nat) ->
  (forall k x, (k <= N)%nat -> continuous (dv k) x) -> length pt = d ->
  forall t, continuous (fun t => Ex v dv d2 alphas (inc ord0 (d - 1)) c (upd pt (d - 1) t)) t.
Proof.
  intros Hd M4 HC Lp t. unfold Ex. apply (rsum_cont (fun k t => coord c k * Tm v dv d2 (inc ord0 (d - 1)) (nth k alphas []) (upd pt (d - 1) t))).
  intros i Hi. apply (continuous_mult (K := R_AbsRing)); [apply continuous_const|]. unfold Tm.
  apply (rprod_cont (fun k t => fam v dv d2 (inc ord0 (d - 1) k) (nth k (nth i alphas []) 0%nat) (coord (upd pt (d - 1) t) k))).
  destruct (M4 (nth i alphas []) ltac:(apply nth_In; auto)) as (La & Ha). rewrite La. intros k Hk.
  destruct (Nat.eq_dec k (d - 1)) as [->|Hkd].
  - apply continuous_ext with (f := fun t => fam v dv d2 1 (nth (d - 1) (nth i alphas []) 0%nat) t).
    { intros u. rewrite coord_upd_eq by lia. unfold inc, ord0. rewrite Nat.eqb_refl. reflexivity. }
    unfold fam. destruct (nth (d - 1) (nth i alphas []) 0 =? 0)%nat eqn:E0.
    + apply continuous_const.
    + apply HC. apply Ha. lia.
  - apply continuous_ext with (f := fun _ => fam v dv d2 (inc ord0 (d - 1) k) (nth k (nth i alphas []) 0%nat) (coord pt k)).
    { intros u. rewrite coord_upd_neq by auto. reflexivity. }
    apply continuous_const.
Qed.

(** t -> g(df/dx_d(x_1,...,x_{d-1},t)) is continuous. *)
Lemma rate_cont d N (alphas : list vec) (v dv d2 : nat -> R -> R) w (g : R -> R) (c pt : list R) : expansion_of d N alphas v dv d2 w -> (forall k x, (k <= N)%nat -> continuous (dv k) x) ->
  (forall u, continuous g u) -> length pt = d -> forall t, continuous (fun t => g (slope v alphas c (with_last pt t))) t.
Proof.
  intros HE HC Hg Lp t. destruct (expansion_setup _ _ _ _ _ _ _ HE) as (mx & B & EW & Hd & M1 & M2 & B0 & B1 & B2 & B3 & M3 & M4 & Rm).
  apply continuous_ext with (f := fun t => g (Ex v dv d2 alphas (inc ord0 (d - 1)) c (upd pt (d - 1) t))).
  - intros u. unfold with_last. rewrite Lp. rewrite (slope_is d N alphas v dv d2 Hd M4 B3) by (rewrite upd_length; auto). reflexivity.
  - apply (continuous_comp (fun t => Ex v dv d2 alphas (inc ord0 (d - 1)) c (upd pt (d - 1) t)) g); [eapply slope_cont; eauto|apply Hg].
Qed.

(** The exact map is strictly increasing in x_d ... *)
Theorem C33_exact_partial : forall (d N : nat) (alphas : list vec) (v dv d2 : nat -> R -> R) (w : worker) (g : R -> R) (pt c : list R) (a b : R),
  expansion_of d N alphas v dv d2 w -> (forall k x, (k <= N)%nat -> continuous (dv k) x) ->
  (forall u, continuous g u) -> (forall u, 0 < g u) -> length pt = d -> a < b ->
  mono_exact g v alphas c (with_last pt a) < mono_exact g v alphas c (with_last pt b).
Proof.
  intros d N alphas v dv d2 w g pt c a b HE HC Hg Gp Lp Hab.
  pose proof (rate_cont d N alphas v dv d2 w g c pt HE HC Hg Lp) as CC. destruct HE as (Hd & _).
  unfold mono_exact. assert (WW : forall u z, with_last (with_last pt u) z = with_last pt z).
  { intros u z. unfold with_last. rewrite upd_length. apply upd_upd_eq. }
  assert (LL : forall u, last_of (with_last pt u) = u).
  { intros u. unfold last_of, with_last. rewrite upd_length. apply coord_upd_eq. lia. }
  rewrite !WW, !LL. apply Rplus_lt_compat_l.
  rewrite (RInt_ext (fun t => g (slope v alphas c (with_last (with_last pt a) t))) (fun t => g (slope v alphas c (with_last pt t)))) by (intros; rewrite WW; auto).
  rewrite (RInt_ext (fun t => g (slope v alphas c (with_last (with_last pt b) t))) (fun t => g (slope v alphas c (with_last pt t)))) by (intros; rewrite WW; auto).
  set (h := fun t => g (slope v alphas c (with_last pt t))) in *.
  assert (EI : forall u z, ex_RInt h u z) by (intros u z; apply (ex_RInt_continuous (V := R_CompleteNormedModule)); intros; apply CC).
  rewrite <- (RInt_Chasles h 0 a b) by auto. change (RInt h 0 a < RInt h 0 a + RInt h a b).
  assert (0 < RInt h a b); [|lra]. apply RInt_gt_0; auto; intros; apply Gp.
Qed.
Print Assumptions C33_exact_partial.

(** ... and Evaluate returns it, so is strictly increasing, wherever the rule integrates the integrand
    exactly. *)
Theorem C33_exact_rule_partial : forall (d N : nat) (alphas : list vec) (v dv d2 : nat -> R -> R) (C : component) (S : scratch) (pt c : list R),
  expansion_of d N alphas v dv d2 (mc_w C) -> (forall k x, (k <= N)%nat -> continuous (dv k) x) -> good_posfunc (mc_G C) ->
  length pt = d -> length c = length alphas -> length (sc_cache S) = w_CacheSize (mc_w C) ->
  (forall x, exact_on (mc_Q C) (sc_ws S) (mono_integrand (pf_eval (mc_G C)) v alphas 0 c (with_last pt x))) ->
  exists F, strictly_increasing F /\ forall x, F x = mono_exact (pf_eval (mc_G C)) v alphas c (with_last pt x) /\
    mc_Evaluate C S (with_last pt x) c = Ok (F x).
Proof.
  intros d N alphas v dv d2 C S pt c HE HC (Gp & G1 & G2) Lp Lc Lca Hq.
  assert (Hg : forall u, continuous (pf_eval (mc_G C)) u) by (intros u; apply (ex_derive_continuous (K := R_AbsRing) (V := R_NormedModule) (pf_eval (mc_G C)) u); eexists; apply G1).
  pose proof (rate_cont d N alphas v dv d2 _ _ c pt HE HC Hg Lp) as CC.
  exists (fun x => mono_exact (pf_eval (mc_G C)) v alphas c (with_last pt x)). split.
  { intros a b Hab. eapply C33_exact_partial; eauto. }
  intros x. split; auto.
  assert (Lw : length (with_last pt x) = d) by (unfold with_last; rewrite upd_length; auto).
  set (h := mono_integrand (pf_eval (mc_G C)) v alphas 0 c (with_last pt x)).
  destruct (Hq x (fun s => [h s]) (fun s => eq_refl)) as (r & _ & I).
  rewrite (evaluate_any d N alphas v dv d2 C S (with_last pt x) c r); auto.
  - assert (Hd : (0 < d)%nat) by (destruct HE; auto).
    assert (LL : last_of (with_last pt x) = x) by (unfold last_of, with_last; rewrite upd_length; apply coord_upd_eq; lia).
    unfold mono_exact. rewrite LL. f_equal. rewrite Rplus_comm. f_equal.
    assert (WW : forall z, with_last (with_last pt x) z = with_last pt z) by (intros z; unfold with_last; rewrite upd_length; apply upd_upd_eq).
    pose proof (is_RInt_unique _ _ _ _ I) as IU. rewrite <- IU.
    set (k := fun t => pf_eval (mc_G C) (slope v alphas c (with_last pt t))) in *.
    rewrite (RInt_ext (fun t => pf_eval (mc_G C) (slope v alphas c (with_last (with_last pt x) t))) k) by (intros; rewrite WW; auto).
    assert (EI : forall u z, ex_RInt k u z) by (intros u z; apply (ex_RInt_continuous (V := R_CompleteNormedModule)); intros; apply CC).
    assert (SB : is_RInt (fun s => scal x (k (x * s + 0))) 0 1 (RInt k (x * 0 + 0) (x * 1 + 0))).
    { apply (is_RInt_comp_lin (V := R_NormedModule) k x 0 0 1). apply (RInt_correct (V := R_CompleteNormedModule)). auto. }
    replace (x * 0 + 0) with 0 in SB by ring. replace (x * 1 + 0) with x in SB by ring.
    apply (is_RInt_unique (V := R_CompleteNormedModule)) in SB. rewrite <- SB. apply RInt_ext. intros s _. unfold h, mono_integrand. rewrite LL, WW. unfold k, scal. cbn. unfold mult. cbn.
    replace (x * s + 0) with (s * x) by ring. ring.
  - intros f Hf. destruct (Hq x f Hf) as (r' & E & I'). rewrite E. do 2 f_equal. apply (is_RInt_unique (V := R_CompleteNormedModule)) in I. apply (is_RInt_unique (V := R_CompleteNormedModule)) in I'. congruence.
Qed.
Print Assumptions C33_exact_rule_partial.

(** All three rules integrate constants exactly. *)
Definition exact_on_constants (Q : quad_rule) (ws : list R) : Prop := forall k, exact_on Q ws (fun _ => k).

Lemma const_RInt (k : R) : is_RInt (fun _ : R => k) 0 1 k.
Proof.
  pose proof (is_RInt_const (V := R_NormedModule) 0 1 k) as H.
  refine (eq_ind _ (fun z => is_RInt (fun _ : R => k) 0 1 z) H k _). unfold scal. cbn. unfold mult. cbn. change ((1 - 0) * k = k). ring.
Qed.

Lemma one_of (r : list R) : length r = 1%nat -> r = [nth 0 r 0].
Proof. destruct r as [|x [|? ?]]; cbn; try lia. reflexivity. Qed.

Theorem C33_rules_exact_on_constants :
  (forall pts wts ws, length wts = length pts -> rsum (fun i => nth i wts 0) (length pts) = 2 -> (1 <= length ws)%nat ->
     exact_on_constants (qr_clenshaw pts wts) ws) /\
  (forall q fuel ws, (1 <= q_maxSub q <= 32)%nat -> (q_minSub q < q_maxSub q)%nat -> (as_WorkspaceSize (q_maxSub q) 1 <= length ws)%nat -> (2 ^ q_maxSub q <= fuel)%nat ->
     exact_on_constants (qr_simpson q fuel) ws) /\
  (forall q level fuel ws, (1 <= level)%nat -> (1 <= q_maxSub q <= 32)%nat -> (q_minSub q < q_maxSub q)%nat -> (ac_WorkspaceSize (q_maxSub q) 1 <= length ws)%nat ->
     (2 ^ q_maxSub q <= fuel)%nat -> exact_on_constants (qr_adaptive_cc q level fuel) ws).
Proof.
  split; [|split].
  - intros pts wts ws LW HS Ls k f Hf.
    destruct (cc_run pts wts LW f 1 ws [0]) as (r & E & L & V); auto. { intros s. rewrite Hf. reflexivity. }
    exists k. split; [|apply const_RInt]. rewrite E. do 2 f_equal. rewrite (one_of r) by auto. f_equal. rewrite V by lia.
    rewrite (rule_ext pts wts _ (fun s => 0 + k)) by (intros s; rewrite Hf; cbn; ring). rewrite rule_const by auto.
    unfold rule_on, rule_sum. rewrite (rsum_ext _ (fun _ => 0)) by (intros; ring). rewrite rsum_0. ring.
  - intros q fuel ws Hm Hmin Lw Hf k f Hk. cbn [qr_simpson qr_int].
    destruct (C27_adaptive_simpson_exact (set_dim q 1) f 0 1 ws [0] fuel 0 [k]) as (r & E & I); cbn [set_dim q_fdim q_maxSub q_minSub length]; auto; try lia.
    { intros s. rewrite Hk. reflexivity. } { intros s. rewrite Hk. cbn. ring. }
    destruct (C27_adaptive_simpson (set_dim q 1) f 0 1 ws [0] fuel) as (T & r' & E' & L' & _); cbn [set_dim q_fdim q_maxSub q_minSub length]; auto.
    { intros s. rewrite Hk. reflexivity. }
    rewrite E in E'. injection E' as <-. exists (nth 0 r 0). split; [rewrite E; f_equal; apply one_of; auto|].
    apply is_RInt_ext with (2 := I). intros s _. rewrite Hk. reflexivity.
  - intros q level fuel ws Hlv Hm Hmin Lw Hf k f Hk. cbn [qr_adaptive_cc qr_int].
    destruct (C28_adaptive_clenshaw_curtis_exact level (set_dim q 1) f 0 1 ws [0] fuel 0 [k]) as (r & E & I); cbn [set_dim q_fdim q_maxSub q_minSub length]; auto; try lia.
    { intros s. rewrite Hk. reflexivity. } { intros s. rewrite Hk. cbn. ring. }
    destruct (C28_adaptive_clenshaw_curtis level (set_dim q 1) f 0 1 ws [0] fuel) as (c1 & c2 & c3 & c4 & T & r' & X1 & X2 & E' & L' & _); cbn [set_dim q_fdim q_maxSub q_minSub length]; auto.
    { intros s. rewrite Hk. reflexivity. }
    rewrite E in E'. injection E' as <-. exists (nth 0 r 0). split; [rewrite E; f_equal; apply one_of; auto|].
    apply is_RInt_ext with (2 := I). intros s _. rewrite Hk. reflexivity.
Qed.
Print Assumptions C33_rules_exact_on_constants.

(** Components whose expansion is affine in the last input. *)
Theorem C33_affine_partial : forall (d N : nat) (alphas : list vec) (v dv d2 : nat -> R -> R) (C : component) (S : scratch) (pt c : list R),
  expansion_of d N alphas v dv d2 (mc_w C) -> (forall k x, (k <= N)%nat -> continuous (dv k) x) -> good_posfunc (mc_G C) ->
  length pt = d -> length c = length alphas -> length (sc_cache S) = w_CacheSize (mc_w C) ->
  exact_on_constants (mc_Q C) (sc_ws S) ->
  (forall t, slope v alphas c (with_last pt t) = slope v alphas c pt) ->
  let m := pf_eval (mc_G C) (slope v alphas c pt) in
  0 < m /\ forall x, mc_Evaluate C S (with_last pt x) c = Ok (expansion v alphas c (with_last pt 0) + m * x).
Proof.
  intros d N alphas v dv d2 C S pt c HE HC (Gp & G1 & G2) Lp Lc Lca Hq Hs m. split; [apply Gp|]. intros x.
  assert (Hd : (0 < d)%nat) by (destruct HE; auto).
  assert (Lw : length (with_last pt x) = d) by (unfold with_last; rewrite upd_length; auto).
  assert (LL : last_of (with_last pt x) = x) by (unfold last_of, with_last; rewrite upd_length; apply coord_upd_eq; lia).
  assert (WW : forall z, with_last (with_last pt x) z = with_last pt z) by (intros z; unfold with_last; rewrite upd_length; apply upd_upd_eq).
  rewrite (evaluate_any d N alphas v dv d2 C S (with_last pt x) c (m * x)); auto.
  - rewrite WW. f_equal. ring.
  - intros f Hf. destruct (Hq (m * x) f) as (r & E & I).
    { intros s. rewrite Hf. unfold mono_integrand. rewrite LL, WW, Hs. f_equal. fold m. ring. }
    rewrite E. do 2 f_equal. apply (is_RInt_unique (V := R_CompleteNormedModule)) in I. rewrite <- I. apply (is_RInt_unique (V := R_CompleteNormedModule)). apply const_RInt.
Qed.
Print Assumptions C33_affine_partial.
