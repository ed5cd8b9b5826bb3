(** C47, C64: maps built by the factory functions. Specifications are in SpecFactory.v and SpecMaps.v. *)
From Coq Require Import Reals List Lia Lra Nnat NArith.
From Coquelicot Require Import Coquelicot.
From Verif Require Import Base SpecMulti SpecPoly SpecQuad SpecExpansion SpecMaps SpecFactory MISetModel FixedSetModel PolyModel PolyProofs LinProofs PropPoly
  BijModel ExpansionModel PropExpansion QuadModel QuadCC PropQuad RootModel MonoModel MapsModel LeafModel MapsContract MapsProofs TruthProofs LeafProofs PropMaps PropLeaf FactoryModel FactoryProofs.
Import ListNotations.
Local Open Scope R_scope.

Lemma single_m_in dbg dim act K : (1 <= act <= dim)%nat -> m_in K = act -> m_in (tri_map (single_comps dbg dim act K)) = dim.
Proof.
  intros H HI. unfold single_comps. destruct (Nat.eqb_spec act 1) as [E|E].
  - rewrite Bool.andb_false_r. reflexivity.
  - destruct (Nat.eqb_spec act dim) as [E2|E2]; cbn; congruence.
Qed.

(** ** C47 *)

(** For 1 <= activeInd <= dim and a component with activeInd inputs and one output, the map is built,
    has dim inputs, dim outputs and the component's coefficients, and each of its routines computes
    what [single_pmap] says (activeInd counts from one). *)
Theorem C47_single_entry : forall dbg dim act K P, (N.of_nat dim < 4294967296)%N -> (1 <= act <= dim)%nat ->
  p_in P = act -> p_out P = 1%nat -> dims K P ->
  exists T, CreateSingleEntryMap dbg dim act K = Ok T /\ m_in T = dim /\ m_out T = dim /\ m_nc T = m_nc K /\
    (imp_eval K P -> imp_eval T (single_pmap dim act P)) /\
    (imp_logdet K P -> imp_logdet T (single_pmap dim act P)) /\
    (imp_grad K P -> imp_grad T (single_pmap dim act P)) /\
    (imp_cgrad0 K P -> imp_cgrad T (single_pmap dim act P)) /\
    (imp_ldc0 K P -> imp_ldc T (single_pmap dim act P)) /\
    (imp_ldi K P -> imp_ldi T (single_pmap dim act P)) /\
    (imp_eval K P -> mutually_inverse act K -> forall n1, (n1 <= dim)%nat -> mutually_inverse n1 T).
Proof.
  intros dbg dim act K P HS Ha HI HO (D1 & D2 & D3).
  destruct (single_ctor dbg dim act K HS Ha ltac:(congruence) ltac:(congruence)) as (E & HT).
  set (T := tri_map (single_comps dbg dim act K)) in *.
  assert (MI : m_in T = dim) by (apply single_m_in; congruence).
  assert (F2 : forall Q : cmap -> pmap -> Prop, Q K P -> (forall n m, (m <= n)%nat -> Q (id_map dbg n m) (id_pmap n m)) ->
            Forall2 Q (single_comps dbg dim act K) (single_specs dim act P)) by (intros; apply single_forall2; auto).
  pose proof (tri_dims _ _ (F2 dims (conj D1 (conj D2 D3)) (fun n m _ => id_dims dbg n m))) as (d1 & d2 & d3).
  fold T in d2, d3. cbn [tri_pmap p_out p_nc] in d2, d3. rewrite (single_out dim act P Ha HI HO) in d2. rewrite (single_nc dim act P) in d3 by auto.
  assert (EV : imp_eval K P -> imp_eval T (tri_pmap dim (single_specs dim act P))).
  { intros HE. assert (B : Forall2 imp_eval (single_comps dbg dim act K) (single_specs dim act P)) by (apply F2; auto; intros; apply id_imp_eval; auto).
    pose proof (proj1 (C37_evaluate _ _ _ HT B)) as C. rewrite MI in C. exact C. }
  destruct (C39_gradients _ (single_specs dim act P) _ HT) as (G1 & G2 & G3 & G4). rewrite MI in G1, G2, G3, G4.
  exists T. split; [exact E|]. split; [exact MI|]. split; [exact d2|]. split; [congruence|].
  assert (NC : p_nc (tri_pmap dim (single_specs dim act P)) = p_nc P) by (apply single_nc; auto).
  assert (NO : p_out (tri_pmap dim (single_specs dim act P)) = dim) by (apply single_out; auto).
  split; [|split; [|split; [|split; [|split; [|split]]]]].
  - intros HE. apply (imp_eval_ext _ (tri_pmap dim (single_specs dim act P))); auto. rewrite NC. cbn [tri_pmap p_in p_eval single_pmap].
    intros c x Lc Lx. rewrite single_eval by auto. destruct (proj2 HE c (firstn act x) (zeros 1) Lc) as (_ & LE).
    { rewrite firstn_length, HI. lia. } { rewrite HO. apply zeros_length. }
    rewrite HO in LE. assert (LF : length (firstn (act - 1) x) = (act - 1)%nat) by (rewrite firstn_length; lia).
    apply list_coords; [rewrite !app_length, LF, LE, skipn_length; lia|]. intros j Hj. rewrite !coord_app, LF, LE, coord_firstn'.
    destruct (Nat.ltb_spec j (act - 1)), (Nat.eqb_spec j (act - 1)); try lia; [reflexivity|subst j; rewrite Nat.sub_diag; reflexivity|].
    destruct (Nat.ltb_spec (j - (act - 1)) 1); [lia|]. rewrite coord_skipn. f_equal. lia.
  - intros HL. assert (B : imp_logdet T (tri_pmap (m_in T) (single_specs dim act P))).
    { apply (C37_logdet _ _ _ HT). apply F2; auto. intros; apply id_imp_logdet; auto. }
    rewrite MI in B. apply (imp_logdet_ext _ (tri_pmap dim (single_specs dim act P))); auto. rewrite NC. cbn [tri_pmap p_in p_logdet single_pmap].
    intros c x Lc Lx. apply single_logdet; auto.
  - intros HG. apply (imp_grad_ext _ (tri_pmap dim (single_specs dim act P))); auto.
    + rewrite NC, NO. cbn [tri_pmap p_in p_grad single_pmap]. intros c x s Lc Lx Ls. apply single_grad; auto. rewrite <- HI at 3.
      apply (proj2 HG c (firstn act x) _ (zeros act)); auto; [rewrite firstn_length, HI; lia|rewrite HI; apply zeros_length].
    + apply G1. apply F2; auto. intros; apply id_imp_grad; auto.
  - intros HG. apply (imp_cgrad_ext _ (tri_pmap dim (single_specs dim act P))); auto.
    + rewrite NC, NO. cbn [tri_pmap p_in p_cgrad single_pmap]. intros c x s Lc Lx Ls. apply single_cgrad; auto.
    + apply G2. apply F2; auto. intros; apply id_imp_cgrad0; auto.
  - intros HG. apply (imp_ldc_ext _ (tri_pmap dim (single_specs dim act P))); auto.
    + rewrite NC. cbn [tri_pmap p_in p_ldc single_pmap]. intros c x Lc Lx. apply single_ldc; auto.
    + apply G3. apply F2; auto. intros; apply id_imp_ldc0; auto.
  - intros HG. apply (imp_ldi_ext _ (tri_pmap dim (single_specs dim act P))); auto.
    + rewrite NC. cbn [tri_pmap p_in p_ldi single_pmap]. intros c x Lc Lx. apply single_ldi; auto. rewrite <- HI at 2.
      apply (proj2 HG c (firstn act x) (zeros act)); auto; [rewrite firstn_length, HI; lia|rewrite HI; apply zeros_length].
    + apply G4. apply F2; auto. intros; apply id_imp_ldi; auto.
  - intros HE HM n1 Hn1. apply (C38_inverse (single_comps dbg dim act K) (single_specs dim act P)); auto; [| |rewrite MI, d2; lia].
    + apply F2; auto. intros; apply id_imp_eval; auto.
    + assert (A : Forall (fun K0 => mutually_inverse (m_in K0) K0) (single_comps dbg dim act K)); [|exact A].
      assert (ID : forall n m, (m <= n)%nat -> mutually_inverse n (id_map dbg n m)) by (intros n m Hm; apply (C43_identity dbg n m n); lia).
      unfold single_comps. apply Forall_app. split; [destruct (act =? 1)%nat; constructor; auto; apply (ID (act - 1)%nat); lia|].
      constructor; [rewrite D1, HI; exact HM|]. destruct ((act =? dim) && negb (act =? 1))%nat%bool; constructor; auto. apply (ID dim); lia.
Qed.
Print Assumptions C47_single_entry.

(** Evaluation, coordinate by coordinate. *)
Theorem C47_coordinates : forall dbg dim act K P c x old, (N.of_nat dim < 4294967296)%N -> (1 <= act <= dim)%nat ->
  imp_eval K P -> m_in K = act -> m_out K = 1%nat -> length c = m_nc K -> length x = dim -> length old = dim ->
  exists T y v, CreateSingleEntryMap dbg dim act K = Ok T /\ m_eval T c x old = Ok y /\ length y = dim /\
    m_eval K c (firstn act x) [0] = Ok [v] /\
    forall j, (j < dim)%nat -> nth j y 0 = if (j =? act - 1)%nat then v else nth j x 0.
Proof.
  intros dbg dim act K P c x old HS Ha HE M1 M2 Lc Lx Lo. pose proof HE as ((D1 & D2 & D3) & HE').
  destruct (C47_single_entry dbg dim act K P HS Ha ltac:(congruence) ltac:(congruence) (conj D1 (conj D2 D3))) as (T & E & _ & _ & _ & H & _).
  destruct (H HE) as (_ & HT). cbn [single_pmap p_nc p_in p_out p_eval] in HT. destruct (HT c x old ltac:(congruence) Lx Lo) as (ET & LT).
  destruct (HE' c (firstn act x) [0] ltac:(congruence)) as (EK & LK). { rewrite firstn_length. lia. } { cbn. congruence. }
  rewrite <- D2, M2 in LK. destruct (p_eval P c (firstn act x)) as [|v [|? ?]] eqn:EP; try discriminate.
  eexists T, _, v. split; [exact E|]. split; [exact ET|]. split; [exact LT|]. split; [exact EK|].
  intros j Hj. rewrite nth_map_seq by auto. reflexivity.
Qed.
Print Assumptions C47_coordinates.

Lemma u32_pred0 : u32_sub 0 1 = N.to_nat 4294967295. Proof. unfold u32_sub, u32. apply f_equal. reflexivity. Qed.
Lemma big_pos : exists b, N.to_nat 4294967295 = b /\ (0 < b)%nat.
Proof.
  eexists. split; [reflexivity|]. apply Nat.neq_0_lt_0. intros H. apply (f_equal N.of_nat) in H. rewrite N2Nat.id in H. discriminate H.
Qed.

(** Everything else is rejected with an exception: an index above the dimension, a component with
    another number of inputs, index zero, and (for an index above one) a component without exactly
    one output. *)
Theorem C47_rejects : forall dbg dim act K, (N.of_nat dim < 4294967296)%N ->
  ((dim < act)%nat \/ act <> m_in K \/ act = 0%nat \/ (1 < act /\ m_out K <> 1)%nat) -> CreateSingleEntryMap dbg dim act K = Throw.
Proof.
  intros dbg dim act K HS H. unfold CreateSingleEntryMap. destruct (Nat.ltb_spec dim act); [reflexivity|].
  destruct (Nat.eqb_spec act (m_in K)) as [E|E]; cbn [negb]; [|reflexivity]. destruct H as [H|[H|[H|[H H2]]]]; [lia|congruence| |].
  - subst act. rewrite u32_pred0. destruct big_pos as (b & -> & BP). change (0 =? 1)%nat with false; cbv iota. destruct (Nat.eqb_spec 0 dim); unfold tri_ctor;
      cbn [forallb chained m_in m_out id_map]; rewrite <- E;
      (destruct (Nat.eqb_spec 0 (b + m_out K)) as [F|F]; [lia|]); cbn [andb]; now rewrite ?Bool.andb_false_r.
  - assert (SA : small act) by (unfold small; lia). rewrite (u32_sub_ok act 1) by (auto; lia). destruct (Nat.eqb_spec act 1); [lia|].
    destruct (Nat.eqb_spec act dim); unfold tri_ctor; cbn [forallb chained m_in m_out id_map]; rewrite <- E;
      (destruct (Nat.eqb_spec act (act - 1 + m_out K)) as [F|F]; [lia|]); cbn [andb]; now rewrite ?Bool.andb_false_r.
Qed.
Print Assumptions C47_rejects.

(** The affine row 1 x_1 + 2 x_2 as second coordinate of a map of R^4. *)
Example C47_example : exists T, CreateSingleEntryMap true 4 2 (aff_map (aff_make_A (fun _ => MkLU (fun v => v) (fun v => v) (fun v => v) 2) [[1; 2]] [])) = Ok T /\
  m_eval T [] [10; 20; 30; 40] [0; 0; 0; 0] = Ok [10; 50; 30; 40].
Proof. eexists. split; [reflexivity|]. lazy -[Rplus Rmult Ropp Rminus IZR]. apply (f_equal Ok). f_equal. f_equal. ring. Qed.
Example C47_rejects_example : CreateSingleEntryMap true 1 2 (id_map true 2 1) = Throw /\ CreateSingleEntryMap true 3 2 (id_map true 3 1) = Throw.
Proof. split; reflexivity. Qed.
