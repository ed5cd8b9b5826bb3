(** C64 for the adaptive quadrature rules: CreateComponent and CreateTriangular build the maps their
    options describe. The description of a component is [adaptive_pmap] in SpecAdaptQuad.v. *)
From Coq Require Import Reals List Lia Lra NArith FunctionalExtensionality.
From Coquelicot Require Import Coquelicot.
From Verif Require Import Base SpecMulti SpecCount SpecPoly SpecExpansion SpecQuad SpecMono SpecMaps SpecMonoMap SpecAdaptQuad SpecFactory MISetModel MISetLimFill FixedSetModel FixedSetProofs PolyModel PolyProofs LinProofs BijModel BijProofs
  ExpansionModel ExpansionProofs ExpansionDeriv PropExpansion QuadModel QuadCC QuadWalk QuadSimpson QuadACC QuadProofs PropQuad RootModel MonoModel MonoProofs MonoComp PropMono
  MapsModel LeafModel MapsContract MapsProofs LeafProofs PropMaps PropLeaf MonoMap FactoryModel FactoryProofs FactoryBasis PropBuild AdaptQuad PropAdaptQuad.
Import ListNotations.
Local Open Scope R_scope.

(** The intervals are determined by the integrand. *)
Fixpoint grow (A : adaptive) (h : R -> R) (k d : nat) (a b : R) : btree :=
  match k with
  | O => Leaf
  | S k => if Rlt_dec (gap A h a b) (allowance A h a b)
           then if (a_min A <=? d)%nat then Leaf else Node (grow A h k (S d) a ((a + b) / 2)) (grow A h k (S d) ((a + b) / 2) b)
           else Node (grow A h k (S d) a ((a + b) / 2)) (grow A h k (S d) ((a + b) / 2) b)
  end.
Lemma grow_refined A h : (a_min A < a_max A)%nat -> forall k d a b, (k + d + 1 = a_max A)%nat -> refined (halts A h) (grow A h k d a b) d a b.
Proof.
  intros Hm. induction k as [|k IH]; intros d a b Hk; cbn [grow].
  - cbn [refined]. split; [right; lia|lia].
  - assert (N : forall x, ~ halts A h d a b -> x = Node (grow A h k (S d) a ((a + b) / 2)) (grow A h k (S d) ((a + b) / 2) b) -> refined (halts A h) x d a b).
    { intros x Hh ->. cbn [refined]. split; [auto|]. split; apply IH; lia. }
    destruct (Rlt_dec (gap A h a b) (allowance A h a b)) as [L|L].
    + destruct (Nat.leb_spec (a_min A) d); [cbn [refined]; split; auto|]. apply N; auto. intros (_ & X). lia.
    + apply N; auto. intros ([X|X] & _); [auto|lia].
Qed.
Definition tree_of (A : adaptive) (h : R -> R) : btree := grow A h (a_max A - 1) 0 0 1.
Lemma tree_of_halved A h : (1 <= a_max A)%nat -> (a_min A < a_max A)%nat -> halved A h (tree_of A h).
Proof. intros H1 H2. apply grow_refined; [auto|lia]. Qed.

Section Comp.
Variables (d N : nat) (alphas : list vec) (v dv d2 : nat -> R -> R) (C : component) (S : scratch) (A : adaptive) (tree : (R -> R) -> btree).
Hypothesis HE : expansion_of d N alphas v dv d2 (mc_w C).
Hypothesis HG : good_posfunc (mc_G C).
Hypothesis HQ : runs_adaptive (mc_Q C) A.
Hypothesis Htree : forall h, halved A h (tree h).
Hypothesis HS : scratch_fits C (1 + length alphas + d) S.
Let P := adaptive_pmap d A tree (pf_eval (mc_G C)) (mc_nugget C) v alphas.

Lemma ad_dims : dims (mono_map C S) P.
Proof.
  destruct (expansion_setup _ _ _ _ _ _ _ HE) as (mx & B & EW & Hd & _). unfold P. split; [|split]; cbn [mono_map m_in m_out m_nc adaptive_pmap p_in p_out p_nc]; auto.
  - rewrite EW. reflexivity.
  - rewrite EW. apply size_W.
Qed.
Lemma fits_le m : (m <= 1 + length alphas + d)%nat -> scratch_fits C m S.
Proof. destruct HS as (L0 & L1 & L2 & L3). intros Hm. split; [auto|split; [lia|split; [lia|]]]; intros; apply L3; lia. Qed.
Lemma ad_imp_eval : imp_eval (mono_map C S) P.
Proof.
  split; [apply ad_dims|]. intros c x old Lc Lx Lo. cbn [P adaptive_pmap p_nc p_in p_out p_eval] in *. split; [|reflexivity].
  cbn [mono_map m_eval]. destruct (C72_evaluate d N alphas v dv d2 C A x c HE HQ Lx Lc) as (T & HT & X). rewrite X by (apply fits_le; lia).
  assert (tree (mono_integrand (pf_eval (mc_G C)) v alphas 0 c x) = T) as -> by (eapply refined_unique; [apply Htree|exact HT]).
  cbn [obind]. destruct old as [|o [|? ?]]; try discriminate. reflexivity.
Qed.
Lemma ad_frozen c x : length x = d -> length c = length alphas ->
  let T := tree (mono_integrand (pf_eval (mc_G C)) v alphas (mc_nugget C) c x) in
  let value c x := mono_tree A T (pf_eval (mc_G C)) v alphas 0 c x + mc_nugget C * last_of x in
  forall outx outc s, length outx = d -> length outc = length alphas ->
  ((forall x, twice_at dv d2 N x) -> exists u, mc_Gradient C S x c s outx = Ok u /\ length u = d /\ forall j, (j < d)%nat -> is_partial (fun x => s * value c x) j x (coord u j)) /\
  (exists u, mc_CoeffGrad C S x c s outc = Ok u /\ length u = length alphas /\ forall i, (i < length alphas)%nat -> is_partial (fun c => s * value c x) i c (coord u i)).
Proof.
  intros Lx Lc T value outx outc s Lox Loc.
  destruct (C72_frozen_derivatives d N alphas v dv d2 C A x c HE HG HQ Lx Lc) as (T' & HT & _ & _ & _ & X & _).
  assert (T' = T) as -> by (eapply refined_unique; [exact HT|apply Htree]).
  destruct (X S outx outc s HS Lox Loc) as (X1 & X2). split; [|exact X2]. intros H2. apply X1. auto.
Qed.
Lemma ad_imp_grad : (forall x, twice_at dv d2 N x) -> imp_grad (mono_map C S) P.
Proof.
  intros H2. split; [apply ad_dims|]. intros c x s old Lc Lx Ls Lo. cbn [P adaptive_pmap p_nc p_in p_out p_grad] in *. cbn [mono_map m_grad].
  destruct s as [|s [|? ?]]; try discriminate.
  destruct (ad_frozen c x Lx Lc old (zeros (length alphas)) s Lo (repeat_length _ _)) as (X & _). destruct (X H2) as (u & E & Lu & Hu).
  unfold raw_get. cbn [nth_error obind]. rewrite E. rewrite map_length, seq_length. split; [|reflexivity]. f_equal. apply list_partials; auto.
Qed.
Lemma ad_imp_cgrad : imp_cgrad (mono_map C S) P.
Proof.
  split; [apply ad_dims|]. intros c x s old Lc Lx Ls Lo. cbn [P adaptive_pmap p_nc p_in p_out p_cgrad] in *. cbn [mono_map m_cgrad].
  destruct s as [|s [|? ?]]; try discriminate.
  destruct (ad_frozen c x Lx Lc (zeros d) old s (repeat_length _ _) Lo) as (_ & u & E & Lu & Hu).
  unfold raw_get. cbn [nth_error obind]. rewrite E. rewrite map_length, seq_length. split; [|reflexivity]. f_equal. apply list_partials; auto.
Qed.
Hypothesis Hcont : mc_cont C = true.
Lemma ad_imp_logdet : imp_logdet (mono_map C S) P.
Proof.
  split; [apply ad_dims|]. intros c x old Lc Lx. cbn [P adaptive_pmap p_nc p_in p_out p_logdet] in *. cbn [mono_map m_logdet].
  apply (C34_continuous d N alphas v dv d2 C S x c HE (proj1 HG) Lx Lc (proj1 HS)). exact Hcont.
Qed.
Lemma ad_imp_ldc : imp_ldc (mono_map C S) P.
Proof.
  split; [apply ad_dims|]. intros c x old Lc Lx Lo. cbn [P adaptive_pmap p_nc p_in p_out p_ldc] in *. cbn [mono_map m_ldc].
  destruct (C62_continuous d N alphas v dv d2 C S x c old (zeros d) HE HG Lx Lc) as ((g & E & Lg & Hg) & _); auto.
  { apply repeat_length. } { apply HS. }
  rewrite E. rewrite map_length, seq_length. split; [|reflexivity]. f_equal. apply list_partials; auto.
Qed.
Lemma ad_imp_ldi : (forall x, twice_at dv d2 N x) -> imp_ldi (mono_map C S) P.
Proof.
  intros H2. split; [apply ad_dims|]. intros c x old Lc Lx Lo. cbn [P adaptive_pmap p_nc p_in p_out p_ldi] in *. cbn [mono_map m_ldi].
  destruct (C62_continuous d N alphas v dv d2 C S x c (zeros (length alphas)) old HE HG Lx Lc) as (_ & (g & E & Lg & Hg & Hl)); auto.
  { apply repeat_length. } { apply HS. }
  rewrite E. rewrite map_length, seq_length. split; [|reflexivity]. f_equal. apply list_partials; auto.
  intros j Hj. destruct (Nat.eq_dec j (d - 1)) as [->|]; [apply Hl, H2|apply Hg; lia].
Qed.
End Comp.

(** ** From the options *)
Lemma rule_ok n : (1 <= n)%nat -> exists w p, GetRule n (repeat 0 n) (repeat 0 n) = Ok (w, p) /\ clenshaw_curtis n p w.
Proof.
  intros H. destruct (C26_clenshaw_curtis_rule n (repeat 0 n) (repeat 0 n) H (repeat_length _ _) (repeat_length _ _))
    as (wts & pts & E & L1 & L2 & _ & _ & _ & _ & _ & _ & X).
  exists wts, pts. split; [exact E|]. split; [auto|]. split; [auto|]. split; [|exact X].
  intros i Hi. destruct n as [|[|N]]; [lia| |].
  - rewrite GetRule_one in E by reflexivity. injection E as <- <-. destruct i; [reflexivity|lia].
  - rewrite GetRule_ok in E by (try apply repeat_length; lia). apply ok_pair in E. destruct E as (<- & <-). rewrite nth_map_seq by lia.
    unfold cc_x. replace (S (S N) - 1)%nat with (S N) by lia. reflexivity.
Qed.

(** One description for all components made with the same options. *)
Lemma described fuel o : asks_adaptive o -> (2 ^ o_maxSub o <= fuel)%nat -> exists A, describes o A /\ (1 <= a_max A)%nat /\ (a_min A < a_max A)%nat /\
  forall d alphas f, (0 < d)%nat -> fixed_set d alphas f ->
  exists C, CreateComponent fuel f o = Ok C /\ w_make f (opt_basis o) = Ok (mc_w C) /\ pf_eval (mc_G C) = link o /\ good_posfunc (mc_G C) /\
    mc_cont C = o_cont o /\ mc_nugget C = o_nugget o /\ runs_adaptive (mc_Q C) A.
Proof.
  intros (HA & Hmx & Hmn & Hp) Hf. destruct (o_quad o) eqn:EQ; [congruence| |].
  - exists (simpson_of o). split; [unfold describes; rewrite EQ; cbn; auto 6|]. split; [cbn; lia|]. split; [cbn; lia|].
    intros d alphas f Hd Hfs. destruct (C64_choices fuel d alphas f o Hd Hfs) as (C & E & Ew & EG & GG & Ec & En & X); [congruence|congruence|]. rewrite EQ in X.
    exists C. do 6 (split; [auto|]). left. eexists _, _. split; [exact X|]. split; [|split; reflexivity]. repeat split; cbn; auto; lia.
  - destruct (Hp eq_refl) as (P4 & Ps). set (level := Nat.log2 (o_pts o - 2)).
    assert (HL : (2 ^ level <= o_pts o - 2 < 2 ^ S level)%nat) by (apply Nat.log2_spec; lia).
    destruct (rule_ok (2 ^ level + 1)) as (cw & cp & E1 & R1); [lia|]. destruct (rule_ok (2 ^ (level + 1) + 1)) as (fw & fp & E2 & R2); [lia|].
    exists (MkAd (o_absTol o) (o_relTol o) (o_maxSub o) (o_minSub o) (fun h a b => rule_on cp cw a b h) (fun h a b => rule_on fp fw a b h)).
    split. { unfold describes. rewrite EQ. cbn [a_abs a_rel a_max a_min a_coarse a_fine]. do 4 (split; [auto|]). exists level, cp, cw, fp, fw. auto. }
    split; [cbn; lia|]. split; [cbn; lia|].
    intros d alphas f Hd Hfs. destruct (C64_choices fuel d alphas f o Hd Hfs) as (C & E & Ew & EG & GG & Ec & En & X); [congruence|auto|]. rewrite EQ in X.
    destruct X as (l & Hl & X). assert (l = level) as ->. { symmetry. apply Nat.log2_unique; lia. }
    exists C. do 6 (split; [auto|]). right. eexists _, level, _, cp, cw, fp, fw. split; [exact X|].
    split. { assert (0 < level)%nat; [|lia]. apply Nat.log2_pos. lia. }
    split; [repeat split; cbn; auto; lia|]. auto.
Qed.

Lemma adaptive_ok fuel d alphas f o N C A tree : (0 < d)%nat -> fixed_set d alphas f -> degrees_le N alphas -> supported o N ->
  w_make f (opt_basis o) = Ok (mc_w C) -> pf_eval (mc_G C) = link o -> good_posfunc (mc_G C) ->
  mc_cont C = o_cont o -> mc_nugget C = o_nugget o -> runs_adaptive (mc_Q C) A -> (forall h, halved A h (tree h)) -> CreateComponent fuel f o = Ok C ->
  forall S, scratch_fits C (1 + length alphas + d) S -> does o (mono_map C S) (adaptive_pmap d A tree (link o) (o_nugget o) (one_dim o) alphas).
Proof.
  intros Hd Hf HN HS Ew EG GG Ec En HQ HT E S HSc. rewrite <- EG, <- En.
  destruct (opt_basis_diff o N HS) as (dv & d2 & HB & H2).
  assert (HE : expansion_of d N alphas (one_dim o) dv d2 (mc_w C)) by (split; [auto|]; exists f, (opt_basis o); auto).
  split; [|split; [|split]].
  - apply (ad_imp_eval d N alphas (one_dim o) dv d2); auto.
  - apply (ad_imp_cgrad d N alphas (one_dim o) dv d2); auto.
  - intros U. apply (ad_imp_grad d N alphas (one_dim o) dv d2); auto.
  - intros Hc. rewrite Hc in Ec. split; [|split].
    + apply (ad_imp_logdet d N alphas (one_dim o) dv d2); auto.
    + apply (ad_imp_ldc d N alphas (one_dim o) dv d2); auto.
    + intros U. apply (ad_imp_ldi d N alphas (one_dim o) dv d2); auto.
Qed.
Lemma some_scratch C n : exists S, scratch_fits C n S.
Proof.
  exists (MkScr (repeat 0 (w_CacheSize (mc_w C))) (repeat 0 (n + list_max (map (qr_work (mc_Q C)) (seq 0 (S n))))) (repeat 0 n) [] []).
  split; [apply repeat_length|]. cbn [sc_res sc_ws]. rewrite !repeat_length. split; [lia|]. split; [lia|]. intros m Hm.
  assert (qr_work (mc_Q C) m <= list_max (map (qr_work (mc_Q C)) (seq 0 (S n))))%nat; [|lia].
  pose proof (list_max_le (map (qr_work (mc_Q C)) (seq 0 (S n))) (list_max (map (qr_work (mc_Q C)) (seq 0 (S n))))) as (K & _). specialize (K (le_n _)). rewrite Forall_forall in K. apply K.
  apply in_map. apply in_seq. lia.
Qed.

(** With an adaptive rule and supported options (see SpecFactory.v) the component computes the map
    the options describe; [tree h] is how [0,1] is halved for the integrand h. Missing, as in
    C64_component_partial: discretised derivatives (C72) and, when there are bounds, the input gradients. *)
Theorem C64_component_adaptive_partial : forall fuel d alphas f o N, (0 < d)%nat -> fixed_set d alphas f -> degrees_le N alphas -> supported o N ->
  asks_adaptive o -> (2 ^ o_maxSub o <= fuel)%nat ->
  exists C A tree, CreateComponent fuel f o = Ok C /\ describes o A /\ (forall h, halved A h (tree h)) /\
    (exists S, scratch_fits C (1 + length alphas + d) S) /\
    forall S, scratch_fits C (1 + length alphas + d) S ->
    let K := mono_map C S in let P := adaptive_pmap d A tree (link o) (o_nugget o) (one_dim o) alphas in
    imp_eval K P /\ imp_cgrad K P /\ (unbounded o -> imp_grad K P) /\
    (o_cont o = true -> imp_logdet K P /\ imp_ldc K P /\ (unbounded o -> imp_ldi K P)).
Proof.
  intros fuel d alphas f o N Hd Hf HN HS HA Hfu. destruct (described fuel o HA Hfu) as (A & DA & M1 & M2 & X).
  destruct (X d alphas f Hd Hf) as (C & E & Ew & EG & GG & Ec & En & HQ). exists C, A, (tree_of A). split; [exact E|]. split; [exact DA|].
  assert (HT : forall h, halved A h (tree_of A h)) by (intros h; apply tree_of_halved; auto). split; [exact HT|]. split; [apply some_scratch|].
  intros S HSc. apply (adaptive_ok fuel d alphas f o N C A (tree_of A)); auto.
Qed.
Print Assumptions C64_component_adaptive_partial.

(** The triangular map whose component i is the monotone map of the options in
    inputDim - outputDim + i + 1 variables with all multi-indices of order at most p. *)
Theorem C64_triangular_adaptive_partial : forall fuel inD outD p o, (N.of_nat inD < 4294967296)%N -> (1 <= outD <= inD)%nat -> supported o p ->
  asks_adaptive o -> (2 ^ o_maxSub o <= fuel)%nat ->
  exists comps A tree alphas, length comps = outD /\ describes o A /\ (forall h, halved A h (tree h)) /\
    (forall n, (0 < n)%nat -> total_order n p (alphas n) /\ length (alphas n) = choose (n + p) p) /\
    let enough S := forall i C, nth_error comps i = Some C ->
      scratch_fits C (1 + length (alphas (inD - outD + i + 1)%nat) + (inD - outD + i + 1)) (S i) in
    (exists S, enough S) /\
    forall S, enough S -> exists T, CreateTriangular fuel S inD outD p o = Ok T /\ m_in T = inD /\ m_out T = outD /\
      m_nc T = nsum (fun i => choose (inD - outD + i + 1 + p) p) (seq 0 outD) /\
      let P := tri_pmap inD (map (fun i => adaptive_pmap (inD - outD + i + 1) A tree (link o) (o_nugget o) (one_dim o) (alphas (inD - outD + i + 1)%nat)) (seq 0 outD)) in
      imp_eval T P /\ imp_cgrad T P /\ (unbounded o -> imp_grad T P) /\
      (o_cont o = true -> imp_logdet T P /\ imp_ldc T P /\ (unbounded o -> imp_ldi T P)).
Proof.
  intros fuel inD outD p o Hs Ho HS HA Hfu. pose (alphas := fun n => enum_total p (n - 1) []). destruct (described fuel o HA Hfu) as (A & DA & M1 & M2 & X).
  assert (AO : forall n, (0 < n)%nat -> total_order n p (alphas n) /\ length (alphas n) = choose (n + p) p).
  { intros n Hn. destruct (total_order_set n p Hn) as (_ & _ & _ & A0 & _ & B). auto. }
  assert (HT : forall h, halved A h (tree_of A h)) by (intros h; apply tree_of_halved; auto).
  destruct (triangular_generic fuel inD outD p o (fun n => adaptive_pmap n A (tree_of A) (link o) (o_nugget o) (one_dim o) (alphas n))
    (fun n C S => scratch_fits C (1 + length (alphas n) + n) S) Hs Ho) as (comps & Lc & X1 & X2).
  - intros n Hn. split; [reflexivity|]. split; [reflexivity|]. split; [apply AO, Hn|]. cbn [adaptive_pmap p_nc p_cgrad p_ldc]. intros ->. split; reflexivity.
  - intros n Hn. destruct (total_order_set n p Hn) as (f & F1 & F2 & F3 & F4 & F5). rewrite F1. cbn [obind].
    destruct (X n _ f Hn F2) as (C & E & Ew & EG & GG & Ec & En & HQ). exists C. split; [exact E|]. split; [apply some_scratch|].
    apply (adaptive_ok fuel n _ f o p C A (tree_of A)); auto.
  - exists comps, A, (tree_of A), alphas. split; [exact Lc|]. split; [exact DA|]. split; [exact HT|]. split; [exact AO|]. split; [exact X1|exact X2].
Qed.
Print Assumptions C64_triangular_adaptive_partial.

(** ** Examples *)
Definition simpson_options : options := MkOpt HermiteFunctions (Some (-3)) (Some 3) PSoftPlus AdaptiveSimpson (/ 10 ^ 6) (/ 10 ^ 6) 30 0 5 false false (/ 10).
Definition acc_options : options := MkOpt ProbHermite None None PExp AdaptiveClenshawCurtis (/ 10 ^ 6) (/ 10 ^ 6) 20 1 5 true true 0.
Example C64_adaptive_hypotheses : supported simpson_options 3 /\ asks_adaptive simpson_options /\ supported acc_options 3 /\ asks_adaptive acc_options /\ unbounded acc_options.
Proof.
  unfold supported, asks_adaptive, degree_ok, unbounded, ordered. cbn. repeat split; auto; try discriminate; try lia; try lra.
  right. right. split; [reflexivity|lia].
Qed.
(** Five points ask for the rules with three and five points. *)
Example C64_adaptive_rules : exists A cp cw fp fw, describes acc_options A /\ clenshaw_curtis 3 cp cw /\ clenshaw_curtis 5 fp fw /\
  forall h a b, a_coarse A h a b = rule_on cp cw a b h /\ a_fine A h a b = rule_on fp fw a b h.
Proof.
  destruct (described (2 ^ 20) acc_options) as (A & HA & _); [apply C64_adaptive_hypotheses|apply le_n|]. pose proof HA as HA'.
  destruct HA as (_ & _ & _ & _ & X). cbn [acc_options o_quad o_pts] in X. destruct X as (level & cp & cw & fp & fw & HL & R1 & R2 & E1 & E2).
  assert (level = 1%nat) as ->. { destruct level as [|[|l]]; cbn in HL; lia. }
  exists A, cp, cw, fp, fw. rewrite E1, E2. auto.
Qed.
