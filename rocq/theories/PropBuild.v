(** C64: CreateComponent, CreateTriangular and CreateExpansion build the maps their options describe.
    Specifications are in SpecFactory.v, SpecMonoMap.v and SpecMaps.v. *)
From Coq Require Import Reals List Lia Lra Nnat NArith FunctionalExtensionality.
From Coquelicot Require Import Coquelicot.
From Verif Require Import Base SpecMulti SpecCount SpecPoly SpecQuad SpecExpansion SpecMaps SpecMono SpecMonoMap SpecFactory MISetModel MultiIndexProofs MISetInv MISetOps MISetLimFill MISetHist PropMISet FixedSetModel FixedSetProofs PropFixed
  PolyModel PolyProofs LinProofs PropPoly BijModel BijProofs ExpansionModel ExpansionProofs PropExpansion QuadModel QuadCC QuadACC PropQuad RootModel MonoModel MonoProofs PropMono
  MapsModel LeafModel MapsContract MapsProofs LeafProofs PropMaps PropLeaf MonoMap FactoryModel FactoryProofs FactoryBasis.
Import ListNotations.
Local Open Scope R_scope.

Definition posf (o : options) : posfunc := match o_pos o with PExp => pf_exp | PSoftPlus => pf_softplus end.
Lemma posf_good o : good_posfunc (posf o).
Proof. unfold posf. destruct (o_pos o); [apply exp_good|apply softplus_good]. Qed.
Lemma posf_link o : pf_eval (posf o) = link o.
Proof. apply functional_extensionality. intros x. unfold posf, link. destruct (o_pos o); [reflexivity|]. apply C22_softplus_formula. Qed.

Lemma make_cc_ok n : (1 <= n)%nat -> exists pts wts, make_cc n = Ok (qr_clenshaw pts wts) /\ clenshaw_curtis n pts wts.
Proof.
  intros H. unfold make_cc. destruct (C26_clenshaw_curtis_rule n (repeat 0 n) (repeat 0 n) H (repeat_length _ _) (repeat_length _ _))
    as (wts & pts & E & L1 & L2 & _ & _ & _ & _ & _ & _ & X).
  exists pts, wts. rewrite E. split; [reflexivity|]. split; [auto|]. split; [auto|]. split; [|exact X].
  intros i Hi. destruct n as [|[|N]]; [lia| |].
  - rewrite GetRule_one in E by reflexivity. injection E as <- <-. destruct i; [reflexivity|lia].
  - rewrite GetRule_ok in E by (try apply repeat_length; lia). apply ok_pair in E. destruct E as (<- & <-). rewrite nth_map_seq by lia.
    unfold cc_x. replace (S (S N) - 1)%nat with (S N) by lia. reflexivity.
Qed.
Lemma cc_sum n pts wts : (1 <= n)%nat -> clenshaw_curtis n pts wts -> rsum (fun i => nth i wts 0) (length pts) = 2.
Proof.
  intros H (L1 & L2 & _ & X). specialize (X [1] ltac:(cbn; lia)).
  assert (E : is_RInt (poly [1]) (-1) 1 2).
  { apply (is_RInt_ext (fun _ => 1)); [intros; cbn [poly]; apply Rminus_diag_uniq; ring|]. assert (G : is_RInt (fun _ => 1) (-1) 1 (scal (1 - -1) 1)) by apply @is_RInt_const.
    replace 2 with ((1 - -1) * 1) by ring. exact G. }
  pose proof (is_RInt_unique (V := R_CompleteNormedModule) _ _ _ _ X) as X'. pose proof (is_RInt_unique (V := R_CompleteNormedModule) _ _ _ _ E) as E'.
  assert (Y : 2 = rule_sum pts wts (poly [1])) by congruence. clear X X'. rename Y into X. rewrite X at 1. unfold rule_sum. apply rsum_ext. intros i _. cbn [poly]. ring.
Qed.

Definition quad_of (fuel : nat) (o : options) : outcome quad_rule :=
  match o_quad o with ClenshawCurtis => make_cc (o_pts o) | AdaptiveSimpson => Ok (make_as fuel o) | AdaptiveClenshawCurtis => make_acc fuel o end.
Lemma create_eq fuel f o : CreateComponent fuel f o = do Q <- quad_of fuel o; make_component f (opt_basis o) (posf o) Q o.
Proof.
  unfold CreateComponent, GetFactoryFunction, quad_of, opt_basis, base_basis, posf. destruct o as [b lb ub p q aT rT mS mi n ct nm nu].
  cbn [o_basis o_LB o_UB o_pos o_quad o_pts].
  destruct b, lb, ub, p, q; reflexivity.
Qed.

(** ** C64 *)

(** Every combination of options is accepted, except a Clenshaw-Curtis rule without points and an
    adaptive one with fewer than four. The component has the basis (continued by tangents exactly if a bound is
    finite), positive function, quadrature parameters, derivative mode and nugget of the options. *)
Theorem C64_choices : forall fuel d alphas f o, (0 < d)%nat -> fixed_set d alphas f ->
  (o_quad o = ClenshawCurtis -> (1 <= o_pts o)%nat) -> (o_quad o = AdaptiveClenshawCurtis -> (4 <= o_pts o)%nat /\ (N.of_nat (o_pts o) < 4294967296)%N) ->
  exists C, CreateComponent fuel f o = Ok C /\ w_make f (opt_basis o) = Ok (mc_w C) /\ pf_eval (mc_G C) = link o /\ good_posfunc (mc_G C) /\
    mc_cont C = o_cont o /\ mc_nugget C = o_nugget o /\
    let q := MkQuad 1 (o_maxSub o) (o_minSub o) (o_absTol o) (o_relTol o) First in
    match o_quad o with
    | ClenshawCurtis => exists pts wts, clenshaw_curtis (o_pts o) pts wts /\ mc_Q C = qr_clenshaw pts wts
    | AdaptiveSimpson => mc_Q C = qr_simpson q fuel
    | AdaptiveClenshawCurtis => exists level, (2 ^ level <= o_pts o - 2 < 2 ^ S level)%nat /\ mc_Q C = qr_adaptive_cc q level fuel
    end.
Proof.
  intros fuel d alphas f o Hd Hf H1 H2. rewrite create_eq. destruct (C24_segments d alphas f (opt_basis o) Hd Hf) as (w & _ & _ & Hw & _).
  assert (K : exists Q, quad_of fuel o = Ok Q /\ match o_quad o with
    | ClenshawCurtis => exists pts wts, clenshaw_curtis (o_pts o) pts wts /\ Q = qr_clenshaw pts wts
    | AdaptiveSimpson => Q = qr_simpson (make_quad o) fuel
    | AdaptiveClenshawCurtis => exists level, (2 ^ level <= o_pts o - 2 < 2 ^ S level)%nat /\ Q = qr_adaptive_cc (make_quad o) level fuel end).
  { unfold quad_of. destruct (o_quad o).
    - destruct (make_cc_ok (o_pts o) (H1 eq_refl)) as (pts & wts & E & X). eauto 6.
    - eauto.
    - destruct (H2 eq_refl) as (A & B). unfold make_acc, acc_level. rewrite u32_sub_ok by (auto; lia). destruct (Nat.eqb_spec (o_pts o - 2) 0); [lia|].
      cbn [obind]. rewrite ac_make_ok by (apply Nat.log2_le_pow2; cbn; lia). cbn [obind]. eexists. split; [reflexivity|]. eexists. split; [|reflexivity]. apply Nat.log2_spec. lia. }
  destruct K as (Q & E & X). rewrite E. cbn [obind]. unfold make_component. rewrite Hw. cbn [obind].
  eexists. split; [reflexivity|]. cbn [mc_w mc_G mc_Q mc_cont mc_nugget]. split; [auto|]. split; [apply posf_link|]. split; [apply posf_good|].
  split; [reflexivity|]. split; [reflexivity|]. exact X.
Qed.
Print Assumptions C64_choices.

Lemma component_ok fuel d alphas f o N pts wts : (0 < d)%nat -> fixed_set d alphas f -> degrees_le N alphas -> supported o N ->
  o_quad o = ClenshawCurtis -> (1 <= o_pts o)%nat -> make_cc (o_pts o) = Ok (qr_clenshaw pts wts) -> clenshaw_curtis (o_pts o) pts wts ->
  exists C, CreateComponent fuel f o = Ok C /\
    forall S, scratch_ok (mc_w C) (1 + length alphas + d) S ->
    let K := mono_map C S in let P := mono_pmap d pts wts (link o) (o_nugget o) (one_dim o) alphas in
    imp_eval K P /\ imp_cgrad K P /\ (unbounded o -> imp_grad K P) /\
    (o_cont o = true -> imp_logdet K P /\ imp_ldc K P /\ (unbounded o -> imp_ldi K P)).
Proof.
  intros Hd Hf HN HS HQ Hp EQ CC. rewrite create_eq. unfold quad_of. rewrite HQ, EQ. cbn [obind]. unfold make_component.
  destruct (C24_segments d alphas f (opt_basis o) Hd Hf) as (w & _ & _ & Hw & _). rewrite Hw. cbn [obind]. eexists. split; [reflexivity|].
  destruct (opt_basis_diff o N HS) as (dv & d2 & HB & H2). set (C := MkMC _ _ _ _ _).
  assert (HE : expansion_of d N alphas (one_dim o) dv d2 (mc_w C)) by (split; [auto|]; exists f, (opt_basis o); auto).
  pose proof (cc_sum _ _ _ Hp CC) as Hsum. destruct CC as (L1 & L2 & CC). assert (HW : length wts = length pts) by congruence.
  intros S HSc. cbv zeta. rewrite <- posf_link. pose proof (posf_good o) as HG.
  split; [|split; [|split]].
  - apply (mono_imp_eval d N alphas (one_dim o) dv d2 C S pts wts HE HW eq_refl HSc).
  - apply (mono_imp_cgrad d N alphas (one_dim o) dv d2 C S pts wts HE HG HW eq_refl Hsum HSc).
  - intros U. apply (mono_imp_grad d N alphas (one_dim o) dv d2 C S pts wts HE HG HW eq_refl Hsum HSc (H2 U)).
  - intros Hc. split; [|split].
    + apply (mono_imp_logdet d N alphas (one_dim o) dv d2 C S pts wts HE HG HSc Hc).
    + apply (mono_imp_ldc d N alphas (one_dim o) dv d2 C S pts wts HE HG HSc Hc).
    + intros U. apply (mono_imp_ldi d N alphas (one_dim o) dv d2 C S pts wts); auto.
Qed.

(** With Clenshaw-Curtis quadrature and supported options (see SpecFactory.v), the component computes
    the map the options describe. The adaptive rules are in PropAdaptBuild.v. Discretised derivatives are in PropDisc.v. Missing: when
    there are bounds, the input gradients (which jump at the bounds). *)
Theorem C64_component_partial : forall fuel d alphas f o N, (0 < d)%nat -> fixed_set d alphas f -> degrees_le N alphas -> supported o N ->
  o_quad o = ClenshawCurtis -> (1 <= o_pts o)%nat ->
  exists C pts wts, CreateComponent fuel f o = Ok C /\ clenshaw_curtis (o_pts o) pts wts /\
    forall S, scratch_ok (mc_w C) (1 + length alphas + d) S ->
    let K := mono_map C S in let P := mono_pmap d pts wts (link o) (o_nugget o) (one_dim o) alphas in
    imp_eval K P /\ imp_cgrad K P /\ (unbounded o -> imp_grad K P) /\
    (o_cont o = true -> imp_logdet K P /\ imp_ldc K P /\ (unbounded o -> imp_ldi K P)).
Proof.
  intros fuel d alphas f o N Hd Hf HN HS HQ Hp. destruct (make_cc_ok (o_pts o) Hp) as (pts & wts & EQ & CC).
  destruct (component_ok fuel d alphas f o N pts wts) as (C & E & X); auto. exists C, pts, wts. auto.
Qed.
Print Assumptions C64_component_partial.

(** All components of a triangular map built with total-order sets of order p. *)
Definition triangular_spec (inD outD : nat) (pts wts : list R) (o : options) (alphas : nat -> list vec) : pmap :=
  tri_pmap inD (map (fun i => mono_pmap (inD - outD + i + 1) pts wts (link o) (o_nugget o) (one_dim o) (alphas (inD - outD + i + 1)%nat)) (seq 0 outD)).

Lemma total_order_set d p : (0 < d)%nat -> exists f, f_total_order d p = Ok f /\ fixed_set d (enum_total p (d - 1) []) f /\ total_order d p (enum_total p (d - 1) []) /\ degrees_le p (enum_total p (d - 1) []) /\ length (enum_total p (d - 1) []) = choose (d + p) p.
Proof.
  intros Hd. destruct (total_order_packed d p Hd) as (mx & H1 & H2 & H3). set (vs := enum_total p (d - 1) []) in *.
  assert (HI : forall v, In v vs <-> length v = d /\ (vsum v <= p)%nat).
  { intros v. unfold vs. rewrite enum_total_In by (rewrite vsum_nil; lia). split.
    - intros (t & -> & Ht & Hs). cbn [app] in *. split; [lia|auto].
    - intros [A C]. exists v. split; auto. split; [lia|auto]. }
  assert (LE : length vs = choose (d + p) p).
  { unfold vs. rewrite enum_total_length, vsum_nil by (rewrite vsum_nil; lia). replace (S (d - 1)) with d by lia. rewrite Nat.sub_0_r. apply choose_sym. }
  exists (packed d vs mx). split; [exact H1|]. split; [|split; [|split]].
  - split; [right; exists p; exact H1|]. rewrite packed_size. split; [reflexivity|]. intros i Hi. apply packed_index.
    + apply nth_error_nth'. exact Hi.
    + apply HI. apply nth_In. exact Hi.
  - split; [|exact HI]. unfold vs. apply enum_total_NoDup. rewrite vsum_nil. lia.
  - intros al k H. apply HI in H. destruct H as (_ & H). assert (G : forall (v : vec) k, (nth k v 0 <= vsum v)%nat).
    { clear. induction v as [|x v IH]; intros [|k]; rewrite ?vsum_cons, ?vsum_nil; cbn [nth]; try lia. specialize (IH k). lia. }
    specialize (G al k). lia.
  - exact LE.
Qed.

Lemma Forall2_nth_error {A B : Type} (Q : A -> B -> Prop) l1 : forall l2, length l1 = length l2 ->
  (forall i a b, nth_error l1 i = Some a -> nth_error l2 i = Some b -> Q a b) -> Forall2 Q l1 l2.
Proof.
  induction l1 as [|a l1 IH]; intros [|b l2] L H; try discriminate; constructor; [apply (H 0%nat); reflexivity|].
  apply IH; [now injection L|]. intros i x y Hx Hy. apply (H (S i)); auto.
Qed.
Lemma firstn_snoc {A : Type} (l : list A) : forall i a, nth_error l i = Some a -> firstn (S i) l = firstn i l ++ [a].
Proof.
  induction l as [|b l IH]; intros [|i] a E; try discriminate E; cbn [nth_error] in E.
  - injection E as ->. reflexivity.
  - rewrite (firstn_cons (S i)), (IH i a E). reflexivity.
Qed.
Lemma pick_list {A : Type} (Q : nat -> A -> Prop) : (forall i, exists a, Q i a) -> forall n, exists l, length l = n /\ forall i a, nth_error l i = Some a -> Q i a.
Proof.
  intros H. induction n as [|n (l & L & IH)]; [exists []; split; [reflexivity|intros [|i] a E; discriminate E]|].
  destruct (H n) as (a & Ha). exists (l ++ [a]). split; [rewrite app_length; cbn; lia|]. intros i b E.
  destruct (Nat.lt_ge_cases i n) as [Hi|Hi]; [rewrite nth_error_app1 in E by lia; auto|].
  rewrite nth_error_app2 in E by lia. destruct (i - length l)%nat as [|k] eqn:K; [|destruct k; discriminate E].
  injection E as <-. replace i with n by lia. exact Ha.
Qed.

(** What a map made with options [o] is proved to do. *)
Definition does (o : options) (K : cmap) (P : pmap) : Prop :=
  imp_eval K P /\ imp_cgrad K P /\ (unbounded o -> imp_grad K P) /\
  (o_cont o = true -> imp_logdet K P /\ imp_ldc K P /\ (unbounded o -> imp_ldi K P)).

(** CreateTriangular, for any description [Pn n] of the components in n variables. *)
Lemma triangular_parts fuel inD outD p o (Pn : nat -> pmap) (fits : nat -> component -> scratch -> Prop) :
  (N.of_nat inD < 4294967296)%N -> (1 <= outD <= inD)%nat ->
  (forall n, (0 < n)%nat -> p_in (Pn n) = n /\ p_out (Pn n) = 1%nat /\ p_nc (Pn n) = choose (n + p) p /\
     (p_nc (Pn n) = 0%nat -> (forall c x s, p_cgrad (Pn n) c x s = []) /\ forall c x, p_ldc (Pn n) c x = [])) ->
  (forall n, (0 < n)%nat -> exists C, (do f <- f_total_order n p; CreateComponent fuel f o) = Ok C /\ (exists S, fits n C S) /\
     forall S, fits n C S -> does o (mono_map C S) (Pn n)) ->
  exists comps, length comps = outD /\
    let enough S := forall i C, nth_error comps i = Some C -> fits (inD - outD + i + 1)%nat C (S i) in
    (exists S, enough S) /\
    forall S, enough S -> exists T, CreateTriangular fuel S inD outD p o = Ok T /\ m_in T = inD /\ m_out T = outD /\
      m_nc T = nsum (fun i => choose (inD - outD + i + 1 + p) p) (seq 0 outD) /\
      does o T (tri_pmap inD (map (fun i => Pn (inD - outD + i + 1)%nat) (seq 0 outD))) /\
      exists Ks, length Ks = outD /\ tri_ctor Ks = Ok T /\ forall i C, nth_error comps i = Some C ->
        nth_error Ks i = Some (mono_map C (S i)) /\ (do f <- f_total_order (inD - outD + i + 1)%nat p; CreateComponent fuel f o) = Ok C.
Proof.
  intros Hs Ho HPn HCO. pose (e := (inD - outD)%nat).
  assert (CO : forall i, exists CS : component * scratch, (do f <- f_total_order (e + i + 1) p; CreateComponent fuel f o) = Ok (fst CS) /\ fits (e + i + 1)%nat (fst CS) (snd CS) /\
     forall S, fits (e + i + 1)%nat (fst CS) S -> does o (mono_map (fst CS) S) (Pn (e + i + 1)%nat)).
  { intros i. destruct (HCO (e + i + 1)%nat ltac:(lia)) as (C & E & (S & HS) & X). exists (C, S). auto. }
  destruct (pick_list _ CO outD) as (CSs & Lcs & Hcs). clear CO. exists (map fst CSs). fold e. split; [rewrite map_length; auto|].
  set (comps := map fst CSs). assert (Lc : length comps = outD) by (unfold comps; rewrite map_length; auto).
  assert (Hc : forall i C, nth_error comps i = Some C -> (do f <- f_total_order (e + i + 1) p; CreateComponent fuel f o) = Ok C /\ (exists S, fits (e + i + 1)%nat C S) /\
     forall S, fits (e + i + 1)%nat C S -> does o (mono_map C S) (Pn (e + i + 1)%nat)).
  { intros i C HC. unfold comps in HC. rewrite nth_error_map in HC. destruct (nth_error CSs i) as [CS|] eqn:E; [|discriminate]. injection HC as <-.
    destruct (Hcs i CS E) as (X1 & X2 & X3). eauto. }
  cbv zeta. split.
  { exists (fun i => match nth_error CSs i with Some CS => snd CS | None => MkScr [] [] [] [] [] end).
    intros i C HC. unfold comps in HC. rewrite nth_error_map in HC. destruct (nth_error CSs i) as [CS|] eqn:E; [|discriminate]. injection HC as <-. apply (Hcs i CS E). }
  intros S HSc. set (P := fun i => Pn (e + i + 1)%nat).
  assert (PD : forall i, p_in (P i) = (e + i + 1)%nat /\ p_out (P i) = 1%nat /\ p_nc (P i) = choose (e + i + 1 + p) p /\
    (p_nc (P i) = 0%nat -> (forall c x s, p_cgrad (P i) c x s = []) /\ forall c x, p_ldc (P i) c x = [])) by (intros i; apply HPn; lia).
  set (Ks := map (fun i => match nth_error comps i with Some C => mono_map C (S i) | None => id_map false 0 0 end) (seq 0 outD)).
  assert (KI : forall i, (i < outD)%nat -> exists C, nth_error comps i = Some C /\ nth_error Ks i = Some (mono_map C (S i))).
  { intros i Hi. destruct (nth_error comps i) as [C|] eqn:EC; [|apply nth_error_None in EC; lia]. exists C. split; [reflexivity|].
    unfold Ks. rewrite nth_error_map, (nth_error_nth' _ 0%nat) by (rewrite seq_length; lia). rewrite seq_nth by lia. cbn [option_map Nat.add]. now rewrite EC. }
  assert (LK : length Ks = outD) by (unfold Ks; rewrite map_length, seq_length; reflexivity).
  assert (F2 : forall Q : cmap -> pmap -> Prop, (forall i C, nth_error comps i = Some C -> Q (mono_map C (S i)) (P i)) -> Forall2 Q Ks (map P (seq 0 outD))).
  { intros Q H. apply Forall2_nth_error; [rewrite map_length, seq_length; auto|]. intros i K Pi HK HP.
    rewrite nth_error_map in HP. destruct (nth_error (seq 0 outD) i) as [n|] eqn:En; [|discriminate HP]. injection HP as <-.
    assert (Hi : (i < outD)%nat) by (rewrite <- LK; apply nth_error_Some; congruence).
    rewrite (nth_error_nth' _ 0%nat), seq_nth in En by (rewrite ?seq_length; lia). injection En as <-. cbn [Nat.add].
    destruct (KI i Hi) as (C & HC & HC'). rewrite HC' in HK. injection HK as <-. apply H. exact HC. }
  assert (DM : forall i C, nth_error comps i = Some C -> dims (mono_map C (S i)) (P i)).
  { intros i C HC. destruct (Hc i C HC) as (_ & _ & X). destruct (X (S i) (HSc i C HC)) as ((X1 & _) & _). exact X1. }
  assert (CT : exists T, tri_ctor Ks = Ok T).
  { apply C37_constructor; [intros E0; rewrite E0 in LK; cbn in LK; lia|]. split.
    - intros K HK. apply In_nth_error in HK. destruct HK as (i & Hi). assert (Hi' : (i < outD)%nat) by (rewrite <- LK; apply nth_error_Some; congruence).
      destruct (KI i Hi') as (C & HC & HC'). rewrite HC' in Hi. injection Hi as <-. destruct (DM i C HC) as (D1 & D2 & _). rewrite D1, D2. destruct (PD i) as (-> & -> & _). lia.
    - intros i K1 K2 E1 E2. assert (Hi' : (Datatypes.S i < outD)%nat) by (rewrite <- LK; apply nth_error_Some; congruence).
      destruct (KI i ltac:(lia)) as (C & HC & HC'). destruct (KI _ Hi') as (C2 & HC2 & HC2'). rewrite HC' in E1. rewrite HC2' in E2. injection E1 as <-. injection E2 as <-.
      destruct (DM _ C HC) as (D1 & _ & _). destruct (DM _ C2 HC2) as (G1 & G2 & _). rewrite D1, G1, G2. destruct (PD i) as (-> & _). destruct (PD (Datatypes.S i)) as (-> & -> & _). lia. }
  assert (EL : ofold (fun comps i => do f <- f_total_order (u32 (N.of_nat (i + u32_sub inD outD + 1))) p; do C <- CreateComponent fuel f o; Ok (comps ++ [mono_map C (S i)]))
                 (seq 0 outD) [] = Ok Ks).
  { rewrite u32_sub_ok by (auto; lia). fold e.
    rewrite (ofold_seq _ (fun n => firstn n Ks) outD 0).
    - cbn [Nat.add]. rewrite firstn_all2 by lia. reflexivity.
    - intros i Hi. cbn beta. rewrite u32_id by (unfold small, e in *; lia). replace (i + e + 1)%nat with (e + i + 1)%nat by lia.
      destruct (KI i ltac:(lia)) as (C & HC & HC'). destruct (Hc i C HC) as (E & _ & _). destruct (f_total_order (e + i + 1) p) as [f| | |]; try discriminate E.
      cbn [obind] in *. rewrite E. cbn [obind]. f_equal. rewrite Nat.add_1_r. symmetry. apply firstn_snoc. exact HC'. }
  destruct CT as (T & CT). exists T. unfold CreateTriangular. cbv zeta. rewrite EL. cbn [obind]. split; [exact CT|].
  assert (EV : imp_eval T (tri_pmap (m_in T) (map P (seq 0 outD)))).
  { apply (C37_evaluate Ks _ T CT). apply F2. intros i C HC. apply (Hc i C HC), HSc, HC. }
  assert (IN : m_in T = inD).
  { destruct (C37_evaluate Ks (map P (seq 0 outD)) T CT) as (_ & _ & _ & (l & K & El & EK)).
    { apply F2. intros i C HC. apply (Hc i C HC), HSc, HC. }
    destruct outD as [|n]; [lia|]. rewrite seq_S, map_app in El. apply app_inj_tail in El. destruct El as (_ & <-). rewrite EK. rewrite (proj1 (PD _)). unfold e. lia. }
  destruct (proj1 EV) as (D1 & D2 & D3). cbn [tri_pmap p_out p_nc] in D2, D3.
  split; [exact IN|]. split; [|split; [|split; [|exists Ks; split; [exact LK|split; [exact CT|]]; intros i C HC; split; [|apply (Hc i C HC)];
    destruct (KI i) as (C' & HC1 & HC2); [rewrite <- Lc; apply nth_error_Some; congruence|]; congruence]]].
  - rewrite D2. assert (G : forall l, nsum p_out (map P l) = length l) by (induction l as [|a l IH]; [reflexivity|cbn [map nsum length]; rewrite IH, (proj1 (proj2 (PD a))); reflexivity]).
    rewrite G. apply seq_length.
  - rewrite D3. fold e. assert (G : forall l, nsum p_nc (map P l) = nsum (fun i => choose (e + i + 1 + p) p) l); [|apply G].
    induction l as [|a l IH]; [reflexivity|]. cbn [map nsum]. rewrite IH. f_equal. apply PD.
  - fold e. change (map _ (seq 0 outD)) with (map P (seq 0 outD)). rewrite <- IN.
    destruct (C39_gradients Ks (map P (seq 0 outD)) T CT) as (G1 & G2 & G3 & G4).
    split; [exact EV|]. split; [|split; [|intros HC; split; [|split]]].
    + apply G2, F2. intros i C HC. destruct (Hc i C HC) as (_ & _ & X). destruct (X (S i) (HSc i C HC)) as (_ & X1 & _).
      split; [apply X1|]. split; [auto|]. intros Z. apply PD, Z.
    + intros U. apply G1, F2. intros i C HC. destruct (Hc i C HC) as (_ & _ & X). apply (X (S i) (HSc i C HC)), U.
    + apply (C37_logdet Ks _ T CT), F2. intros i C HC'. destruct (Hc i C HC') as (_ & _ & X). apply (X (S i) (HSc i C HC')), HC.
    + apply G3, F2. intros i C HC'. destruct (Hc i C HC') as (_ & _ & X). destruct (X (S i) (HSc i C HC')) as (_ & _ & _ & X1). destruct (X1 HC) as (_ & X2 & _).
      split; [apply X2|]. split; [auto|]. intros Z. apply PD, Z.
    + intros U. apply G4, F2. intros i C HC'. destruct (Hc i C HC') as (_ & _ & X). apply (X (S i) (HSc i C HC')); auto.
Qed.

Lemma triangular_generic fuel inD outD p o (Pn : nat -> pmap) (fits : nat -> component -> scratch -> Prop) :
  (N.of_nat inD < 4294967296)%N -> (1 <= outD <= inD)%nat ->
  (forall n, (0 < n)%nat -> p_in (Pn n) = n /\ p_out (Pn n) = 1%nat /\ p_nc (Pn n) = choose (n + p) p /\
     (p_nc (Pn n) = 0%nat -> (forall c x s, p_cgrad (Pn n) c x s = []) /\ forall c x, p_ldc (Pn n) c x = [])) ->
  (forall n, (0 < n)%nat -> exists C, (do f <- f_total_order n p; CreateComponent fuel f o) = Ok C /\ (exists S, fits n C S) /\
     forall S, fits n C S -> does o (mono_map C S) (Pn n)) ->
  exists comps, length comps = outD /\
    let enough S := forall i C, nth_error comps i = Some C -> fits (inD - outD + i + 1)%nat C (S i) in
    (exists S, enough S) /\
    forall S, enough S -> exists T, CreateTriangular fuel S inD outD p o = Ok T /\ m_in T = inD /\ m_out T = outD /\
      m_nc T = nsum (fun i => choose (inD - outD + i + 1 + p) p) (seq 0 outD) /\
      does o T (tri_pmap inD (map (fun i => Pn (inD - outD + i + 1)%nat) (seq 0 outD))).
Proof.
  intros Hs Ho HPn HCO. destruct (triangular_parts fuel inD outD p o Pn fits Hs Ho HPn HCO) as (comps & Lc & X1 & X2).
  exists comps. split; [exact Lc|]. split; [exact X1|]. intros S HS. destruct (X2 S HS) as (T & A1 & A2 & A3 & A4 & A5 & _). exists T. auto.
Qed.

(** With 1 <= outputDim <= inputDim and supported options, CreateTriangular builds the triangular map
    whose component i is the monotone map of the options in inputDim - outputDim + i + 1 variables
    with all multi-indices of order at most p, and C(n + p, p) coefficients for n variables. [comps]
    are the components, named to say which scratch memory is large enough. *)
Theorem C64_triangular_partial : forall fuel inD outD p o, (N.of_nat inD < 4294967296)%N -> (1 <= outD <= inD)%nat -> supported o p ->
  o_quad o = ClenshawCurtis -> (1 <= o_pts o)%nat ->
  exists comps pts wts alphas, length comps = outD /\ clenshaw_curtis (o_pts o) pts wts /\
    (forall n, (0 < n)%nat -> total_order n p (alphas n) /\ length (alphas n) = choose (n + p) p) /\
    let enough S := forall i C, nth_error comps i = Some C ->
      scratch_ok (mc_w C) (1 + length (alphas (inD - outD + i + 1)%nat) + (inD - outD + i + 1)) (S i) in
    (exists S, enough S) /\
    forall S, enough S -> exists T, CreateTriangular fuel S inD outD p o = Ok T /\ m_in T = inD /\ m_out T = outD /\
      m_nc T = nsum (fun i => choose (inD - outD + i + 1 + p) p) (seq 0 outD) /\
      let P := triangular_spec inD outD pts wts o alphas in
      imp_eval T P /\ imp_cgrad T P /\ (unbounded o -> imp_grad T P) /\
      (o_cont o = true -> imp_logdet T P /\ imp_ldc T P /\ (unbounded o -> imp_ldi T P)).
Proof.
  intros fuel inD outD p o Hs Ho HS HQ Hp. pose (alphas := fun n => enum_total p (n - 1) []).
  destruct (make_cc_ok (o_pts o) Hp) as (pts & wts & EQ & CC).
  assert (AO : forall n, (0 < n)%nat -> total_order n p (alphas n) /\ length (alphas n) = choose (n + p) p).
  { intros n Hn. destruct (total_order_set n p Hn) as (_ & _ & _ & A & _ & B). auto. }
  destruct (triangular_generic fuel inD outD p o (fun n => mono_pmap n pts wts (link o) (o_nugget o) (one_dim o) (alphas n))
    (fun n C S => scratch_ok (mc_w C) (1 + length (alphas n) + n) S) Hs Ho) as (comps & Lc & X1 & X2).
  - intros n Hn. split; [reflexivity|]. split; [reflexivity|]. split; [apply AO, Hn|]. cbn [mono_pmap p_nc p_cgrad p_ldc]. intros ->. split; reflexivity.
  - intros n Hn. destruct (total_order_set n p Hn) as (f & F1 & F2 & F3 & F4 & F5).
    destruct (component_ok fuel n _ f o p pts wts Hn F2 F4 HS HQ Hp EQ CC) as (C & E & X). exists C. rewrite F1. split; [exact E|]. split; [|exact X].
    pose (k := (1 + length (alphas n) + n)%nat). exists (MkScr (repeat 0 (w_CacheSize (mc_w C))) (repeat 0 k) (repeat 0 k) [] []).
    split; [|split]; cbn [sc_cache sc_res sc_ws]; rewrite repeat_length; unfold k; auto.
  - exists comps, pts, wts, alphas. split; [exact Lc|]. split; [exact CC|]. split; [exact AO|]. split; [exact X1|exact X2].
Qed.
Print Assumptions C64_triangular_partial.

(** The worker of CreateExpansion evaluates, for each of its m outputs, the expansion in the functions
    the options describe, and its gradients are the derivatives. *)
Theorem C64_expansion : forall d alphas f o N, (0 < d)%nat -> fixed_set d alphas f -> degrees_le N alphas -> supported o N ->
  exists w, CreateExpansion f o = Ok w /\
    forall m saved cache pt, length cache = w_CacheSize w -> length pt = d -> length saved = (m * length alphas)%nat ->
    let value saved pt r := expansion (one_dim o) alphas (block (length alphas) r saved) pt in
    (forall out, length out = m -> mve_Evaluate w m saved cache pt out = Ok (map (value saved pt) (seq 0 m))) /\
    (forall grad sens out, length grad = d -> length out = d -> length sens = m ->
       exists g, mve_Gradient w m saved cache grad pt sens out = Ok g /\ length g = d /\
         forall j, (j < d)%nat -> is_partial (fun x => rsum (fun r => coord sens r * value saved x r) m) j pt (coord g j)) /\
    (forall grad sens out, length grad = length alphas -> length out = length saved -> length sens = m ->
       exists g, mve_CoeffGrad w m saved cache grad pt sens out = Ok g /\ length g = length saved /\
         forall i, (i < length saved)%nat -> is_partial (fun c => rsum (fun r => coord sens r * value c pt r) m) i saved (coord g i)).
Proof.
  intros d alphas f o N Hd Hf HN HS. destruct (opt_basis_diff o N HS) as (dv & d2 & HB & _).
  destruct (C24_segments d alphas f (opt_basis o) Hd Hf) as (w & _ & _ & Hw & _). exists w. split.
  - rewrite <- Hw. unfold CreateExpansion, opt_basis, base_basis. destruct (o_basis o), (o_LB o), (o_UB o); reflexivity.
  - intros m saved cache pt Lc Lp Ls value. split; [|split].
    + intros out Lo. apply (C24_vector_valued d alphas f (opt_basis o) (one_dim o) dv d2 N); auto.
    + intros grad sens out Lg Lo Lse. apply (C25_vector_gradient d alphas f (opt_basis o) (one_dim o) dv d2 N); auto.
    + intros grad sens out Lg Lo Lse. apply (C25_vector_coeff_grad d alphas f (opt_basis o) (one_dim o) dv d2 N); auto.
Qed.
Print Assumptions C64_expansion.

(** Fewer than four points for the adaptive Clenshaw-Curtis rule are not rejected with an exception:
    two give the conversion of an infinity to unsigned, three the assertion of the rule's constructor
    (and, without assertions, the wrong rule of C28_level0_refuted). *)
Theorem C64_few_points_refuted : forall fuel f o, o_quad o = AdaptiveClenshawCurtis ->
  (o_pts o = 2%nat -> CreateComponent fuel f o = UB) /\
  (o_pts o = 3%nat -> acc_level 3 = Ok 0%nat /\ ac_make 0 = Throw /\ CreateComponent fuel f o = Throw).
Proof.
  intros fuel f o HQ. rewrite create_eq. unfold quad_of. rewrite HQ. unfold make_acc, acc_level.
  assert (A : u32_sub 2 2 = 0%nat) by reflexivity. assert (B : u32_sub 3 2 = 1%nat) by reflexivity.
  split; intros ->.
  - rewrite A. reflexivity.
  - rewrite B. split; [reflexivity|]. split; reflexivity.
Qed.
Print Assumptions C64_few_points_refuted.

(** One more output than inputs is not rejected: the unsigned difference wraps around and the first
    multi-index set is built for dimension zero. *)
Theorem C64_more_outputs_refuted : forall fuel S inD p o, (N.of_nat inD < 4294967295)%N -> CreateTriangular fuel S inD (inD + 1) p o = UB.
Proof.
  intros fuel S inD p o H. unfold CreateTriangular. cbv zeta. rewrite Nat.add_1_r. cbn [seq ofold].
  assert (E : u32 (N.of_nat (0 + u32_sub inD (Datatypes.S inD) + 1)) = 0%nat).
  { unfold u32_sub, u32. rewrite !Nat2N.inj_add, N2Nat.id. replace (N.of_nat inD + 4294967296 - N.of_nat (Datatypes.S inD))%N with 4294967295%N by lia. reflexivity. }
  rewrite E. reflexivity.
Qed.
Print Assumptions C64_more_outputs_refuted.

(** With a bound, normalised polynomials are continued outside with the slope of the ones that are not
    normalised: x alone, bounded below by 0, is evaluated to -1 at -1 and not to -1/||He_1||. *)
Definition lower_opts : options := MkOpt ProbHermite (Some 0) None PSoftPlus ClenshawCurtis 0 0 1 0 5 true true 0.
Lemma one_dim_at : one_dim lower_opts 1 (-1) = - / He_norm 1.
Proof.
  unfold one_dim, nearest. cbn [o_LB o_UB lower_opts]. rewrite Rmax_left by lra.
  assert (D : is_derive (plain lower_opts 1) 0 (/ He_norm 1)).
  { unfold plain. cbn [o_basis o_norm lower_opts He]. auto_derive; auto. field. unfold He_norm. pose proof PI_RGT_0. apply Rgt_not_eq, sqrt_lt_R0, Rmult_lt_0_compat; [|cbn; lra].
    apply sqrt_lt_R0. lra. }
  rewrite (is_derive_unique _ _ _ D). unfold plain. cbn [o_basis o_norm lower_opts He]. unfold Rdiv. ring.
Qed.
Lemma He_norm1 : 1 < He_norm 1.
Proof. unfold He_norm. cbn [fact INR]. rewrite ?Rmult_1_r. pose proof PI_gt1. apply sqrt_gt1, sqrt_gt1. lra. Qed.
Theorem C64_normalised_bounds_refuted : forall a0 a1, exists v0 v1,
  b_all (opt_basis lower_opts) [a0; a1] 1 (-1) = Ok [v0; v1] /\ v1 = -1 /\ v1 <> one_dim lower_opts 1 (-1).
Proof.
  intros a0 a1. pose (B := poly_basis ProbabilistHermite true).
  destruct (poly_array_basis ProbabilistHermite true 1 proper_prob) as (H1 & _).
  pose proof (lin_all_spec B _ (fun k x => b_deriv B k x) 0 (-1 + 1) 1 H1 (fun k x _ => eq_refl) 1%nat (-1) [a0; a1] ltac:(lia) ltac:(cbn; lia)) as E.
  unfold fill in E. cbn [seq map skipn app] in E. do 2 eexists. split; [exact E|].
  assert (V : ext (fun x => P ProbabilistHermite 1 x / norm_of ProbabilistHermite true 1) (fun x => b_deriv B 1 x) 0 (-1 + 1) (-1) = -1).
  { unfold ext. rewrite Rltb_true by lra. unfold B. cbn [b_deriv poly_basis Derivative phi1_deriv ProbabilistHermite]. rewrite P_prob. cbn [He]. unfold Rdiv. ring. }
  split; [exact V|]. rewrite V, one_dim_at. pose proof He_norm1. intros E'. assert (He_norm 1 * / He_norm 1 = 1) by (apply Rinv_r; lra). nra.
Qed.
Print Assumptions C64_normalised_bounds_refuted.

(** The hypotheses are met: two variables, order three, Hermite polynomials that are continued by
    tangents outside [-3,3], softplus and a five-point rule. *)
Definition bounded_opts : options := MkOpt ProbHermite (Some (-3)) (Some 3) PSoftPlus ClenshawCurtis 0 0 1 0 5 true false 0.
Example C64_example : exists f alphas C pts wts, f_total_order 2 3 = Ok f /\ fixed_set 2 alphas f /\ length alphas = 10%nat /\
  CreateComponent 7 f bounded_opts = Ok C /\ clenshaw_curtis 5 pts wts /\
  exists S, scratch_ok (mc_w C) 13 S /\ imp_eval (mono_map C S) (mono_pmap 2 pts wts (fun x => ln (1 + exp x)) 0 (one_dim bounded_opts) alphas).
Proof.
  destruct (total_order_set 2 3 ltac:(lia)) as (f & F1 & F2 & F3 & F4 & F5).
  assert (HS : supported bounded_opts 3) by (split; [intros H; discriminate H|]; split; [cbn; lra|right; left; split; [discriminate|reflexivity]]).
  destruct (C64_component_partial 7 2 _ f bounded_opts 3 ltac:(lia) F2 F4 HS eq_refl ltac:(cbn; lia)) as (C & pts & wts & E & CC & X).
  rewrite F5 in X. exists f, (enum_total 3 (2 - 1) []), C, pts, wts. repeat (split; [assumption|]).
  exists (MkScr (repeat 0 (w_CacheSize (mc_w C))) (repeat 0 13) (repeat 0 13) [] []).
  assert (SO : scratch_ok (mc_w C) 13 (MkScr (repeat 0 (w_CacheSize (mc_w C))) (repeat 0 13) (repeat 0 13) [] [])).
  { split; [|split]; cbn [sc_cache sc_res sc_ws]; rewrite repeat_length; auto. }
  split; [exact SO|]. apply X. exact SO.
Qed.
Example C64_triangular_example : exists pts wts alphas, clenshaw_curtis 5 pts wts /\
  exists S T, CreateTriangular 7 S 4 3 2 bounded_opts = Ok T /\ m_in T = 4%nat /\ m_out T = 3%nat /\ m_nc T = 31%nat /\
    imp_eval T (triangular_spec 4 3 pts wts bounded_opts alphas).
Proof.
  assert (HS : supported bounded_opts 2) by (split; [intros H; discriminate H|]; split; [cbn; lra|right; left; split; [discriminate|reflexivity]]).
  destruct (C64_triangular_partial 7 4 3 2 bounded_opts ltac:(cbn; lia) ltac:(lia) HS eq_refl ltac:(cbn; lia)) as (comps & pts & wts & alphas & L & CC & _ & (S & HSc) & X).
  destruct (X S HSc) as (T & E & A & B & C & D & _). exists pts, wts, alphas. repeat (split; [assumption|]). exists S, T. repeat (split; [assumption|]). exact D.
Qed.
