(** C37-C43: triangular, composed, identity, affine and summarised maps. [imp_*] (MapsContract.v)
    say that a routine returns normally and writes a mathematical result for every output array;
    [tri_*], [cmp_*], [true_*] are in SpecMaps.v. *)
From Coq Require Import Reals List Lia Lra.
From Coquelicot Require Import Coquelicot.
From Verif Require Import Base SpecExpansion SpecMaps PolyModel ExpansionModel BijModel MonoModel MapsModel LeafModel MapsContract MapsProofs CheckProofs ComposedProofs TruthProofs LeafProofs DetProofs.
Import ListNotations.
Local Open Scope R_scope.

(** Inverse and Evaluate of [K] are mutually inverse in the trailing inputs, when Inverse is given
    [n1] rows of which the first m_in - m_out are the leading inputs. *)
Definition mutually_inverse (n1 : nat) (K : cmap) : Prop :=
  let lead := (m_in K - m_out K)%nat in
  forall c x1 o1 o2, length c = m_nc K -> length x1 = n1 -> length o1 = m_out K -> length o2 = m_out K ->
    (forall x, length x = m_in K -> firstn lead x = firstn lead x1 ->
       exists y, m_eval K c x o1 = Ok y /\ m_inv K c x1 y o2 = Ok (skipn lead x)) /\
    (forall r, length r = m_out K ->
       exists y, m_inv K c x1 r o1 = Ok y /\ length y = m_out K /\ m_eval K c (firstn lead x1 ++ y) o2 = Ok r).

Lemma mutual_of K P n1 : imp_eval K P -> imp_inv n1 0 K P -> injective P -> (p_out P <= p_in P)%nat -> (p_in P - p_out P <= n1)%nat -> mutually_inverse n1 K.
Proof.
  intros ((D1 & D2 & D3) & HE) (_ & HI) Hj Hle Hn. unfold mutually_inverse. cbv zeta. rewrite D1, D2, D3. intros c x1 o1 o2 Hc Hx1 Ho1 Ho2.
  assert (L1 : length (firstn (p_in P - p_out P) x1) = (p_in P - p_out P)%nat) by (rewrite firstn_length; lia).
  split.
  - intros x Hx Hl. destruct (HE c x o1 Hc Hx Ho1) as (E & EL). exists (p_eval P c x). split; [exact E|].
    destruct (HI c x1 (p_eval P c x) o2 Hc Hx1 EL Ho2) as (y & Ey & Ly & Hy). rewrite Ey. f_equal. apply close0 in Hy.
    apply (Hj c (firstn (p_in P - p_out P) x1)); auto; [rewrite skipn_length; lia|]. rewrite Hy. rewrite <- Hl, firstn_skipn. reflexivity.
  - intros r Hr. destruct (HI c x1 r o1 Hc Hx1 Hr Ho1) as (y & Ey & Ly & Hy). exists y. split; [exact Ey|]. split; [exact Ly|].
    apply close0 in Hy. rewrite <- Hy. apply HE; auto. rewrite app_length, L1. lia.
Qed.
Lemma of_mutual K P n1 : imp_eval K P -> mutually_inverse n1 K -> (p_out P <= p_in P)%nat -> (p_in P - p_out P <= n1)%nat -> imp_inv n1 0 K P /\ injective P.
Proof.
  intros ((D1 & D2 & D3) & HE) HM Hle Hn. unfold mutually_inverse in HM. cbv zeta in HM. rewrite D1, D2, D3 in HM. split.
  - split; [repeat split; auto|]. intros c x1 r old Hc Hx1 Hr Ho. destruct (HM c x1 old old Hc Hx1 Ho Ho) as (_ & H2).
    destruct (H2 r Hr) as (y & Ey & Ly & Hy). exists y. split; [exact Ey|]. split; [exact Ly|].
    destruct (HE c (firstn (p_in P - p_out P) x1 ++ y) old Hc) as (E & _); auto; [rewrite app_length, firstn_length; lia|].
    rewrite E in Hy. injection Hy as ->. apply close_refl.
  - intros c lead y y' Hc Hl Hy Hy' E.
    set (x1 := lead ++ zeros (n1 - length lead)).
    assert (Hx1 : length x1 = n1) by (unfold x1; rewrite app_length; unfold zeros; rewrite repeat_length; lia).
    assert (F1 : firstn (p_in P - p_out P) x1 = lead) by (unfold x1; rewrite <- Hl, firstn_app, Nat.sub_diag, firstn_all; cbn; apply app_nil_r).
    assert (Z : length (zeros (p_out P)) = p_out P) by apply repeat_length.
    destruct (HM c x1 (zeros (p_out P)) (zeros (p_out P)) Hc Hx1 Z Z) as (H1 & _).
    assert (A : forall z, length z = p_out P -> firstn (p_in P - p_out P) (lead ++ z) = lead /\ skipn (p_in P - p_out P) (lead ++ z) = z).
    { intros z Hz. rewrite <- Hl, firstn_app, Nat.sub_diag, firstn_all, skipn_app, Nat.sub_diag, skipn_all. cbn. rewrite app_nil_r. auto. }
    destruct (H1 (lead ++ y)) as (v & Ev & Iv); [rewrite app_length; lia|rewrite F1; apply A; auto|].
    destruct (H1 (lead ++ y')) as (v' & Ev' & Iv'); [rewrite app_length; lia|rewrite F1; apply A; auto|].
    destruct (HE c (lead ++ y) (zeros (p_out P)) Hc) as (E1 & _); [rewrite app_length; lia|auto|].
    destruct (HE c (lead ++ y') (zeros (p_out P)) Hc) as (E2 & _); [rewrite app_length; lia|auto|].
    rewrite E1 in Ev. rewrite E2 in Ev'. injection Ev as <-. injection Ev' as <-. rewrite E in Iv. rewrite Iv in Iv'. injection Iv' as Q.
    rewrite (proj2 (A y Hy)), (proj2 (A y' Hy')) in Q. auto.
Qed.

Lemma dims_of {Q : cmap -> pmap -> Prop} comps specs : (forall K P, Q K P -> dims K P) -> Forall2 Q comps specs -> Forall2 dims comps specs.
Proof. intros H HF. induction HF; constructor; auto. Qed.

(** ** C37 *)

(** A non-empty list of components is accepted exactly when no component has more outputs than
    inputs and each one sees its predecessor's inputs followed by as many new inputs as it has outputs. *)
Theorem C37_constructor : forall comps, comps <> [] ->
  ((exists T, tri_ctor comps = Ok T) <->
   (forall K, In K comps -> (m_out K <= m_in K)%nat) /\
   (forall i K1 K2, nth_error comps i = Some K1 -> nth_error comps (S i) = Some K2 -> m_in K2 = (m_in K1 + m_out K2)%nat)).
Proof.
  intros comps Hn. assert (CH : chained comps = true <-> forall i K1 K2, nth_error comps i = Some K1 -> nth_error comps (S i) = Some K2 -> m_in K2 = (m_in K1 + m_out K2)%nat).
  { clear Hn. induction comps as [|K comps IH]; [split; [intros _ [|i] ? ? H; discriminate H|reflexivity]|].
    destruct comps as [|K2 l]; [split; [intros _ [|[|i]] ? ? H H'; discriminate H'|reflexivity]|].
    change (chained (K :: K2 :: l)) with ((m_in K2 =? m_in K + m_out K2)%nat && chained (K2 :: l)). rewrite Bool.andb_true_iff, IH, Nat.eqb_eq. split.
    - intros (H1 & H2) [|i] A B HA HB; [injection HA as <-; injection HB as <-; exact H1|eapply H2; eauto].
    - intros H. split; [apply (H 0%nat); reflexivity|]. intros i A B HA HB. apply (H (S i)); auto. }
  unfold tri_ctor. destruct comps as [|K0 l]; [congruence|]. destruct (forallb _ _) eqn:F; cbn [andb].
  - rewrite forallb_forall in F. assert (F' : forall K, In K (K0 :: l) -> (m_out K <= m_in K)%nat) by (intros K HK; apply Nat.leb_le, F, HK).
    destruct (chained (K0 :: l)); split; intros H; try (split; [exact F'|apply CH; reflexivity]); try (eexists; reflexivity).
    + destruct H as (T & H). discriminate H.
    + destruct H as (_ & H). apply CH in H. discriminate H.
  - split; [intros (T & H); discriminate H|]. intros (H & _). exfalso. rewrite <- Bool.not_true_iff_false in F. apply F. rewrite forallb_forall.
    intros K HK. apply Nat.leb_le, H, HK.
Qed.
Print Assumptions C37_constructor.

Lemma chain_spec comps e specs : chain e comps -> Forall2 dims comps specs ->
  forall l1 K l2, specs = l1 ++ K :: l2 -> p_in K = (e + nsum p_out (l1 ++ [K]))%nat.
Proof.
  intros Hc HD. revert e Hc. induction HD as [|C P cs ps (d1 & d2 & d3) HD IH]; intros e Hc l1 K l2 E.
  - destruct l1; discriminate E.
  - cbn [chain] in Hc. destruct Hc as (H1 & H2). destruct l1 as [|P1 l1]; cbn [app] in E; injection E as <- E.
    + cbn. lia.
    + rewrite (IH _ H2 l1 K l2 E). cbn. lia.
Qed.
Lemma spec_le comps specs n : Forall2 dims comps specs -> Forall (fun K => m_in K <= n)%nat comps -> Forall (fun P => p_in P <= n)%nat specs.
Proof.
  intros HD. induction HD as [|? ? ? ? (d1 & _) ? IH]; intros HL; constructor; [rewrite <- d1; apply (Forall_inv HL)|apply IH, (Forall_inv_tail HL)].
Qed.
Lemma tri_dims comps specs : Forall2 dims comps specs -> dims (tri_map comps) (tri_pmap (m_in (tri_map comps)) specs).
Proof.
  intros HD. split; [reflexivity|]. cbn [tri_map m_out m_nc tri_pmap p_out p_nc]. rewrite tri_out_sum, tri_nc_sum.
  split; [apply nsum_out_dims|apply nsum_nc_dims]; exact HD.
Qed.
Lemma tri_block l1 K l2 c x : Forall (fun P => forall c x, length c = p_nc P -> length x = p_in P -> length (p_eval P c x) = p_out P) (l1 ++ K :: l2) ->
  Forall (fun P => p_in P <= length x)%nat (l1 ++ K :: l2) -> length c = nsum p_nc (l1 ++ K :: l2) ->
  block (nsum p_out l1) (p_out K) (tri_eval (l1 ++ K :: l2) c x) = p_eval K (block (nsum p_nc l1) (p_nc K) c) (firstn (p_in K) x).
Proof.
  revert c. induction l1 as [|P l1 IH]; intros c HS HI Hc.
  - cbn [app nsum] in *. unfold block. rewrite !skipn_O. cbn [tri_eval]. rewrite firstn_app.
    assert (L : length (p_eval K (firstn (p_nc K) c) (firstn (p_in K) x)) = p_out K).
    { apply (Forall_inv HS); rewrite firstn_length; [lia|]. pose proof (Forall_inv HI). cbn in *. lia. }
    rewrite L, Nat.sub_diag. cbn [firstn]. rewrite app_nil_r, firstn_all2 by lia. reflexivity.
  - cbn [app nsum] in *. unfold block in *. cbn [tri_eval].
    assert (L : length (p_eval P (firstn (p_nc P) c) (firstn (p_in P) x)) = p_out P).
    { apply (Forall_inv HS); rewrite firstn_length; [lia|]. pose proof (Forall_inv HI). cbn in *. lia. }
    rewrite skipn_app, (skipn_all2 (p_eval P _ _)) by lia. rewrite L. cbn [app].
    replace (p_out P + nsum p_out l1 - p_out P)%nat with (nsum p_out l1) by lia.
    rewrite (IH (skipn (p_nc P) c)); [|apply (Forall_inv_tail HS)|apply (Forall_inv_tail HI)|rewrite skipn_length; lia].
    rewrite ComposedProofs.skipn_skipn. reflexivity.
Qed.
Lemma eval_sizes comps specs : Forall2 imp_eval comps specs ->
  Forall (fun P => forall c x, length c = p_nc P -> length x = p_in P -> length (p_eval P c x) = p_out P) specs.
Proof.
  intros HF. induction HF as [|K P ks ps (_ & H) HF IH]; constructor; auto.
  intros c x Hc Hx. apply (H c x (zeros (p_out P)) Hc Hx). apply repeat_length.
Qed.

(** Evaluate writes the concatenation of the components' values, whatever the output array held;
    the numbers of outputs and coefficients add up, and component i sees the leading inputs and one
    input for every output up to its own. *)
Theorem C37_evaluate : forall comps specs T, tri_ctor comps = Ok T -> Forall2 imp_eval comps specs ->
  imp_eval T (tri_pmap (m_in T) specs) /\
  (forall l1 K l2, specs = l1 ++ K :: l2 -> p_in K = (m_in T - m_out T + nsum p_out (l1 ++ [K]))%nat) /\
  (m_out T <= m_in T)%nat /\ (exists l K, specs = l ++ [K] /\ m_in T = p_in K).
Proof.
  intros comps specs T HT HF. apply ctor_inv in HT. destruct HT as (-> & Hn & Hc).
  pose proof (dims_of comps specs (fun K P H => proj1 H) HF) as HD. pose proof (tri_dims _ _ HD) as DM.
  assert (CS := chain_spec _ _ _ Hc HD). split; [|split; [|split]].
  - split; [exact DM|]. intros c x old Lc Lx Lo. destruct DM as (_ & D2 & D3). rewrite <- D2 in *. rewrite <- D3 in *.
    apply tri_eval_imp; auto.
  - cbn [tri_map m_in m_out]. rewrite (chain_extra _ Hn Hc). exact CS.
  - cbn [tri_map m_in m_out]. rewrite (chain_in _ _ Hn Hc), tri_out_sum. lia.
  - assert (NE : specs <> []) by (intros E; subst specs; inversion HD; congruence).
    destruct (exists_last NE) as (l & K & E). exists l, K. split; [exact E|]. cbn [tri_map m_in].
    rewrite (CS l K [] E), (chain_in _ _ Hn Hc), (nsum_out_dims _ _ HD), E. reflexivity.
Qed.
Print Assumptions C37_evaluate.

(** Output block i is component i applied to its own coefficients and the first p_in inputs, and
    inputs after these do not influence it. *)
Theorem C37_blocks : forall comps specs T l1 K l2, tri_ctor comps = Ok T -> Forall2 imp_eval comps specs -> specs = l1 ++ K :: l2 ->
  forall c x old, length c = m_nc T -> length x = m_in T -> length old = m_out T ->
  exists y, m_eval T c x old = Ok y /\ length y = m_out T /\
    block (nsum p_out l1) (p_out K) y = p_eval K (block (nsum p_nc l1) (p_nc K) c) (firstn (p_in K) x) /\
    forall x', length x' = m_in T -> firstn (p_in K) x' = firstn (p_in K) x ->
      exists y', m_eval T c x' old = Ok y' /\ block (nsum p_out l1) (p_out K) y' = block (nsum p_out l1) (p_out K) y.
Proof.
  intros comps specs T l1 K l2 HT HF E c x old Lc Lx Lo. destruct (C37_evaluate _ _ _ HT HF) as (((D1 & D2 & D3) & HE) & _).
  pose proof HT as HT'. apply ctor_inv in HT'. destruct HT' as (ET & Hn & Hc).
  pose proof (dims_of comps specs (fun K P H => proj1 H) HF) as HD.
  assert (HI : Forall (fun P => p_in P <= m_in T)%nat specs).
  { rewrite ET. apply (spec_le _ _ _ HD (chain_le_in _ Hn Hc)). }
  pose proof (eval_sizes _ _ HF) as HS.
  assert (A : forall x', length x' = m_in T -> m_eval T c x' old = Ok (tri_eval specs c x') /\ length (tri_eval specs c x') = m_out T /\
     block (nsum p_out l1) (p_out K) (tri_eval specs c x') = p_eval K (block (nsum p_nc l1) (p_nc K) c) (firstn (p_in K) x')).
  { intros x' Lx'. rewrite D3 in Lc. rewrite D2 in Lo. destruct (HE c x' old Lc Lx' Lo) as (E1 & E2). split; [exact E1|]. split; [rewrite D2; exact E2|].
    rewrite E in *. apply tri_block; auto. rewrite Lx'. exact HI. }
  destruct (A x Lx) as (E1 & E2 & E3). exists (tri_eval specs c x). split; [exact E1|]. split; [exact E2|]. split; [exact E3|].
  intros x' Lx' Hx'. destruct (A x' Lx') as (F1 & F2 & F3). exists (tri_eval specs c x'). split; [exact F1|]. rewrite F3, E3, Hx'. reflexivity.
Qed.
Print Assumptions C37_blocks.

(** LogDeterminant is the sum of the components' log determinants, and when these are the
    logarithms of |det| of the components' trailing Jacobian blocks, so is the sum. *)
Theorem C37_logdet : forall comps specs T, tri_ctor comps = Ok T -> Forall2 imp_logdet comps specs ->
  imp_logdet T (tri_pmap (m_in T) specs) /\
  (Forall sized specs -> Forall true_gradients specs -> Forall true_logdet specs -> true_logdet (tri_pmap (m_in T) specs)).
Proof.
  intros comps specs T HT HF. apply ctor_inv in HT. destruct HT as (-> & Hn & Hc).
  pose proof (dims_of comps specs (fun K P H => proj1 H) HF) as HD. pose proof (tri_dims _ _ HD) as DM. split.
  - split; [exact DM|]. intros c x old Lc Lx. destruct DM as (_ & D2 & D3). rewrite <- D3 in *. apply tri_logdet_imp; auto.
  - intros H1 H2 H3. apply (tri_is_true_logdet (lead_dim comps)); auto.
    + clear -Hc HD. revert Hc. generalize (lead_dim comps). induction HD as [|K P ks ps (d1 & d2 & d3) HD IH]; intros e Hc; [exact I|].
      cbn [chain] in Hc. cbn [pchain]. rewrite <- d1, <- d2. split; [apply Hc|]. apply IH, Hc.
    + cbn [tri_map m_in]. rewrite (chain_in _ _ Hn Hc), (nsum_out_dims _ _ HD). reflexivity.
Qed.
Print Assumptions C37_logdet.

(** ** C38 *)

(** If every component inverts exactly given its leading inputs, so does the triangular map; the
    caller may pass any number of rows between the leading inputs and all of them. *)
Theorem C38_inverse : forall comps specs T n1, tri_ctor comps = Ok T -> Forall2 imp_eval comps specs ->
  Forall (fun K => mutually_inverse (m_in K) K) comps -> (m_in T - m_out T <= n1 <= m_in T)%nat -> mutually_inverse n1 T.
Proof.
  intros comps specs T n1 HT HF HM Hn1. destruct (C37_evaluate _ _ _ HT HF) as (HE & _ & Hle & _).
  pose proof HT as HT'. apply ctor_inv in HT'. destruct HT' as (-> & Hn & Hc).
  pose proof (dims_of comps specs (fun K P H => proj1 H) HF) as HD. pose proof (tri_dims _ _ HD) as DM. pose proof DM as (D1 & D2 & D3).
  assert (B : Forall2 (fun K P => imp_inv (p_in P) 0 K P) comps specs /\ Forall injective specs).
  { clear -HF HM Hc. revert Hc. generalize (lead_dim comps). induction HF as [|K P ks ps HK HF IH]; intros e Hc; [split; constructor|].
    cbn [chain] in Hc. destruct Hc as (Hc1 & Hc2). pose proof HK as ((d1 & d2 & d3) & _).
    destruct (of_mutual K P (m_in K) HK (Forall_inv HM)) as (A1 & A2); [lia|lia|]. rewrite d1 in A1.
    destruct (IH (Forall_inv_tail HM) _ Hc2) as (B1 & B2). split; constructor; auto. }
  destruct B as (B1 & B2). pose proof (chain_extra _ Hn Hc) as CE.
  assert (LE : (m_in (tri_map comps) - m_out (tri_map comps))%nat = lead_dim comps) by exact CE.
  apply (mutual_of _ (tri_pmap (m_in (tri_map comps)) specs)); auto.
  - split; [exact DM|]. intros c x1 r old Lc Lx Lr Lo. rewrite <- D2 in *. rewrite <- D3 in *.
    destruct (tri_inv_imp comps specs 0 n1 c x1 r old Hn Hc B1) as (y & Ey & Ly & Hy); auto.
    + rewrite LE in Hn1. exact Hn1.
    + exists y. split; [exact Ey|]. split; [exact Ly|]. replace (p_in (tri_pmap (m_in (tri_map comps)) specs) - m_out (tri_map comps))%nat with (lead_dim comps) by (cbn [tri_pmap p_in]; lia). exact Hy.
  - intros c lead y y' Lc Ll Ly Ly' E. cbn [tri_pmap p_in p_out p_nc p_eval] in *.
    assert (nsum m_out comps = nsum p_out specs) by (apply nsum_out_dims; auto). assert (nsum m_nc comps = nsum p_nc specs) by (apply nsum_nc_dims; auto).
    assert (ON : (m_out (tri_map comps) = nsum p_out specs)) by exact D2.
    apply (tri_injective_gen comps specs HF B2 (lead_dim comps) Hc c lead y y'); auto; try lia.
  - rewrite <- D2. exact Hle.
  - cbn [tri_pmap p_in p_out]. rewrite <- (nsum_out_dims _ _ HD), <- tri_out_sum. cbn [tri_map m_in m_out] in *. lia.
Qed.
Print Assumptions C38_inverse.

(** If every component solves its equation up to [tol] (as MonotoneComponent does), the triangular
    map solves its own up to [tol] in every entry. *)
Theorem C38_residual : forall comps specs T n1 tol, tri_ctor comps = Ok T ->
  Forall2 (fun K P => imp_inv (p_in P) tol K P) comps specs -> (m_in T - m_out T <= n1 <= m_in T)%nat ->
  imp_inv n1 tol T (tri_pmap (m_in T) specs).
Proof.
  intros comps specs T n1 tol HT HF Hn1. apply ctor_inv in HT. destruct HT as (-> & Hn & Hc).
  pose proof (dims_of comps specs (fun K P H => proj1 H) HF) as HD. pose proof (tri_dims _ _ HD) as DM. pose proof DM as (D1 & D2 & D3).
  assert (LE : (m_in (tri_map comps) - m_out (tri_map comps))%nat = lead_dim comps) by exact (chain_extra _ Hn Hc).
  split; [exact DM|]. intros c x1 r old Lc Lx Lr Lo. rewrite <- D2 in *. rewrite <- D3 in *.
  destruct (tri_inv_imp comps specs tol n1 c x1 r old Hn Hc HF) as (y & Ey & Ly & Hy); auto.
  - rewrite LE in Hn1. exact Hn1.
  - exists y. split; [exact Ey|]. split; [exact Ly|]. replace (p_in (tri_pmap (m_in (tri_map comps)) specs) - m_out (tri_map comps))%nat with (lead_dim comps) by (cbn [tri_pmap p_in]; lia). exact Hy.
Qed.
Print Assumptions C38_residual.

(** ** C39 *)

(** The four gradient routines combine the components' results as the chain rule says. Components
    without coefficients are skipped by the coefficient routines. *)
Theorem C39_gradients : forall comps specs T, tri_ctor comps = Ok T ->
  (Forall2 imp_grad comps specs -> imp_grad T (tri_pmap (m_in T) specs)) /\
  (Forall2 imp_cgrad0 comps specs -> imp_cgrad T (tri_pmap (m_in T) specs)) /\
  (Forall2 imp_ldc0 comps specs -> imp_ldc T (tri_pmap (m_in T) specs)) /\
  (Forall2 imp_ldi comps specs -> imp_ldi T (tri_pmap (m_in T) specs)).
Proof.
  intros comps specs T HT. apply ctor_inv in HT. destruct HT as (-> & Hn & Hc).
  repeat apply conj; intros HF; pose proof (tri_dims _ _ (dims_of comps specs (fun K P H => proj1 H) HF)) as DM; (split; [exact DM|]);
    pose proof DM as (D1 & D2 & D3); rewrite <- ?D2, <- ?D3; intros.
  - apply tri_grad_imp; auto.
  - apply tri_cgrad_imp; auto.
  - apply tri_ldc_imp; auto.
  - apply tri_ldi_imp; auto.
Qed.
Print Assumptions C39_gradients.

(** When the components' gradients are the derivatives of their values and log determinants, so
    are those of the triangular map, along every curve of coefficients and inputs. *)
Theorem C39_derivatives : forall comps specs T, tri_ctor comps = Ok T -> Forall2 dims comps specs -> Forall sized specs ->
  (Forall true_gradients specs -> true_gradients (tri_pmap (m_in T) specs)) /\
  (Forall true_logdet_gradients specs -> true_logdet_gradients (tri_pmap (m_in T) specs)).
Proof.
  intros comps specs T HT HD HS. apply ctor_inv in HT. destruct HT as (-> & Hn & Hc).
  assert (HI : Forall (fun P => p_in P <= m_in (tri_map comps))%nat specs).
  { apply (spec_le _ _ _ HD (chain_le_in _ Hn Hc)). }
  split; intros H; [apply tri_true|apply tri_true_logdet]; auto.
Qed.
Print Assumptions C39_derivatives.

Lemma firstn_zeros k n : (k <= n)%nat -> firstn k (zeros n) = zeros k.
Proof. revert n. induction k as [|k IH]; intros [|n] H; try reflexivity; [lia|]. cbn. f_equal. apply IH. lia. Qed.

(** An AffineMap after another component: the log-determinant input gradient of the first
    component is counted twice, since the affine map leaves the shared buffer as it found it. *)
Theorem C39_affine_refuted : forall K P f T, imp_ldi K P -> tri_ctor [K; aff_map f] = Ok T ->
  forall c x old, length c = p_nc P -> length x = m_in T -> length old = m_in T ->
  let g := extend (m_in T) (p_ldi P c (firstn (p_in P) x)) in
  m_ldi T c x old = Ok (vadd g g) /\
  (p_ldi P c (firstn (p_in P) x) <> zeros (p_in P) -> vadd g g <> g).
Proof.
  intros K P f T ((d1 & d2 & d3) & HK) HT c x old Lc Lx Lo g. apply ctor_inv in HT. destruct HT as (-> & Hn & Hc).
  cbn [chain lead_dim] in Hc. destruct Hc as (H1 & H2 & _). assert (HN : m_in (tri_map [K; aff_map f]) = af_in f) by reflexivity.
  cbn [aff_map m_in m_out] in H2. rewrite HN in *.
  assert (L1 : (p_in P <= af_in f)%nat) by lia.
  destruct (HK c (firstn (p_in P) x) (fresh (p_in P)) Lc) as (E & EL); [rewrite firstn_length; lia|apply fresh_length|].
  assert (LG : length g = af_in f) by (apply extend_length; lia).
  split.
  - cbn [tri_map m_ldi]. unfold tri_LogDetInputGrad. replace (tri_in [K; aff_map f]) with (af_in f) by reflexivity. cbn [ofold].
    rewrite d3, seg_0, firstn_all2 by lia. cbn [obind]. rewrite d1, seg_0 by lia. cbn [obind].
    rewrite seg_0 by (rewrite fresh_length; lia). cbn [obind].
    replace (firstn (p_in P) (fresh (af_in f))) with (fresh (p_in P)).
    2:{ unfold fresh. replace (af_in f) with (p_in P + (af_in f - p_in P))%nat by lia. rewrite repeat_app, firstn_app, repeat_length, Nat.sub_diag. cbn [firstn].
        rewrite app_nil_r, firstn_all2 by (rewrite repeat_length; lia). reflexivity. }
    rewrite E. cbn [obind]. rewrite add_into_ok by (rewrite ?fresh_length; lia). cbn [obind]. rewrite fresh_length, Lo.
    fold g. replace (vadd (fresh (af_in f)) g) with g by (rewrite <- LG; symmetry; apply (vadd_zeros_l g)).
    cbn [aff_map m_nc m_in m_ldi ofold]. rewrite Nat.add_0_l.
    assert (SG : put (fresh (af_in f)) 0 (p_ldi P c (firstn (p_in P) x)) = g).
    { rewrite put_0, EL. unfold g, extend. f_equal. rewrite EL. unfold fresh, zeros. replace (af_in f) with (p_in P + (af_in f - p_in P))%nat at 1 by lia.
      rewrite repeat_app, skipn_app, repeat_length, Nat.sub_diag, skipn_all2 by (rewrite repeat_length; lia). reflexivity. }
    rewrite SG. unfold seg at 1. replace (p_nc P + 0 <=? length c)%nat with true by (symmetry; apply Nat.leb_le; lia). cbn [obind].
    rewrite seg_0 by lia. cbn [obind]. rewrite seg_0 by lia. cbn [obind]. rewrite (firstn_all2 g) by lia.
    change (extend (af_in f) (p_ldi P c (firstn (p_in P) x))) with g. rewrite <- LG at 2. change (fresh (length g)) with (zeros (length g)). rewrite vadd_zeros_l. rewrite add_into_ok by lia. rewrite extend_same. reflexivity.
  - intros NZ Q. apply NZ. clear -Q EL LG L1. assert (Z : g = zeros (length g)).
    { clear -Q. induction g as [|a g IH]; [reflexivity|]. cbn [vadd] in Q. injection Q as Q1 Q2. cbn. f_equal; [lra|]. apply IH, Q2. }
    rewrite LG in Z. unfold g, extend in Z. change (m_in (tri_map [K; aff_map f])) with (af_in f) in Z. set (p := p_ldi P c (firstn (p_in P) x)) in *.
    assert (F : firstn (length p) (p ++ zeros (af_in f - length p)) = firstn (length p) (zeros (af_in f))) by (rewrite Z; reflexivity).
    rewrite firstn_app, Nat.sub_diag, firstn_all in F. cbn [firstn] in F. rewrite app_nil_r in F. rewrite firstn_zeros in F by lia. rewrite EL in F. exact F.
Qed.
Print Assumptions C39_affine_refuted.

(** ** C40 *)

Lemma squares_all maps : squares maps = true -> exists d, Forall (fun K => m_in K = d /\ m_out K = d) maps.
Proof.
  induction maps as [|K maps IH]; [exists 0%nat; constructor|]. destruct maps as [|K2 l].
  - cbn [squares]. rewrite Nat.eqb_eq. intros H. exists (m_in K). constructor; auto.
  - change (squares (K :: K2 :: l)) with ((m_in K =? m_out K)%nat && (m_out K =? m_in K2)%nat && squares (K2 :: l)).
    rewrite !Bool.andb_true_iff, !Nat.eqb_eq. intros ((H1 & H2) & H3). destruct (IH H3) as (d & Hd). exists d.
    constructor; auto. pose proof (Forall_inv Hd) as (A1 & A2). split; congruence.
Qed.
Lemma cmp_ctor_inv maps maxChecks T specs : cmp_ctor maps maxChecks = Ok T -> Forall2 dims maps specs ->
  exists mx, T = cmp_map maps mx /\ (1 <= mx)%nat /\ (maxChecks <= 0 -> mx = length maps)%Z /\ (0 < maxChecks -> Z.of_nat mx = maxChecks)%Z /\
    (0 < length maps)%nat /\ Forall (fun P => p_in P = m_in T /\ p_out P = m_in T) specs.
Proof.
  unfold cmp_ctor. destruct maps as [|K0 l] eqn:EM; [discriminate|]. rewrite <- EM. destruct (squares maps) eqn:ES; [|discriminate].
  intros H HD. injection H as <-. eexists. split; [reflexivity|]. rewrite EM. destruct (Z.leb_spec maxChecks 0).
  - split; [cbn; lia|]. split; [auto|]. split; [lia|]. split; [cbn; lia|]. rewrite <- EM in *. destruct (squares_all _ ES) as (d & Hd).
    assert (m_in (cmp_map maps (length maps)) = d) by (rewrite EM in *; apply (Forall_inv Hd)). rewrite H0.
    clear -HD Hd. induction HD as [|K P ks ps (d1 & d2 & d3) HD IH]; constructor; [rewrite <- d1, <- d2; apply (Forall_inv Hd)|apply IH, (Forall_inv_tail Hd)].
  - split; [lia|]. split; [lia|]. split; [lia|]. split; [cbn; lia|]. rewrite <- EM in *. destruct (squares_all _ ES) as (d & Hd).
    assert (m_in (cmp_map maps (Z.to_nat maxChecks)) = d) by (rewrite EM in *; apply (Forall_inv Hd)). rewrite H0.
    clear -HD Hd. induction HD as [|K P ks ps (d1 & d2 & d3) HD IH]; constructor; [rewrite <- d1, <- d2; apply (Forall_inv Hd)|apply IH, (Forall_inv_tail Hd)].
Qed.
Lemma cmp_dims maps mx specs : Forall2 dims maps specs -> dims (cmp_map maps mx) (cmp_pmap (m_in (cmp_map maps mx)) specs).
Proof.
  intros HD. split; [reflexivity|]. split; [reflexivity|]. cbn [cmp_map m_nc cmp_pmap p_nc]. unfold cmp_nc. rewrite fold_nsum.
  rewrite (nsum_nc_dims _ _ HD). reflexivity.
Qed.

(** A non-empty list of layers is accepted exactly when all input and output dimensions are equal. *)
Theorem C40_constructor : forall maps maxChecks, maps <> [] ->
  ((exists T, cmp_ctor maps maxChecks = Ok T) <-> exists d, forall K, In K maps -> m_in K = d /\ m_out K = d).
Proof.
  intros maps maxChecks Hn. split.
  - intros (T & H). unfold cmp_ctor in H. destruct maps as [|K l] eqn:E; [congruence|]. rewrite <- E in *. destruct (squares maps) eqn:S; [|discriminate].
    destruct (squares_all _ S) as (d & Hd). exists d. rewrite Forall_forall in Hd. exact Hd.
  - intros (d & Hd). assert (S : squares maps = true).
    { clear Hn. induction maps as [|K maps IH]; [reflexivity|]. destruct maps as [|K2 l].
      - cbn [squares]. destruct (Hd K (or_introl eq_refl)) as (A & B). apply Nat.eqb_eq. congruence.
      - change (squares (K :: K2 :: l)) with ((m_in K =? m_out K)%nat && (m_out K =? m_in K2)%nat && squares (K2 :: l)).
        destruct (Hd K (or_introl eq_refl)) as (A & B). destruct (Hd K2 (or_intror (or_introl eq_refl))) as (A2 & B2).
        rewrite !Bool.andb_true_iff, !Nat.eqb_eq. repeat split; try congruence. apply IH. intros K' HK'. apply Hd. right. exact HK'. }
    unfold cmp_ctor. destruct maps as [|K l]; [congruence|]. rewrite S. eexists. reflexivity.
Qed.
Print Assumptions C40_constructor.

(** Evaluate is the composition of the layers, and LogDeterminant the sum of the layers' log
    determinants at the intermediate points, for every checkpoint budget. *)
Theorem C40_evaluate : forall maps specs maxChecks T, cmp_ctor maps maxChecks = Ok T -> Forall2 imp_eval maps specs ->
  imp_eval T (cmp_pmap (m_in T) specs) /\ (Forall2 imp_logdet maps specs -> imp_logdet T (cmp_pmap (m_in T) specs)).
Proof.
  intros maps specs maxChecks T HT HF. pose proof (dims_of maps specs (fun K P H => proj1 H) HF) as HD.
  destruct (cmp_ctor_inv _ _ _ _ HT HD) as (mx & ET & Hm & _ & _ & Hn & Hsq). pose proof (cmp_dims maps mx specs HD) as DM. rewrite <- ET in DM.
  split; [|intros HL]; (split; [exact DM|]); intros c x old Lc Lx; cbn [cmp_pmap p_nc p_in p_out p_eval p_logdet] in *.
  - intros Lo. split.
    + rewrite ET. cbn [cmp_map m_eval]. apply (cmp_Evaluate_ok maps specs (m_in T)); auto.
    + pose proof (zpt_length maps specs (m_in T) c x HF Hsq Lc Lx (length maps) (le_n _)) as Z. unfold zpt in Z.
      rewrite firstn_all2 in Z by (rewrite (specs_length maps specs HF); lia). exact Z.
  - rewrite ET. cbn [cmp_map m_logdet]. apply (cmp_LogDet_ok maps specs (m_in T)); auto.
Qed.
Print Assumptions C40_evaluate.

(** Inverse is a two-sided inverse of Evaluate when every layer's is. *)
Theorem C40_inverse : forall maps specs maxChecks T n1, cmp_ctor maps maxChecks = Ok T -> Forall2 imp_eval maps specs ->
  Forall (mutually_inverse n1) maps -> mutually_inverse n1 T.
Proof.
  intros maps specs maxChecks T n1 HT HF HM. destruct (C40_evaluate _ _ _ _ HT HF) as (HE & _).
  pose proof (dims_of maps specs (fun K P H => proj1 H) HF) as HD.
  destruct (cmp_ctor_inv _ _ _ _ HT HD) as (mx & ET & Hm & _ & _ & Hn & Hsq). pose proof (cmp_dims maps mx specs HD) as DM. rewrite <- ET in DM.
  assert (B : Forall2 (imp_inv n1 0) maps specs /\ Forall injective specs).
  { clear -HF HM Hsq. induction HF as [|K P ks ps HK HF IH]; [split; constructor|]. pose proof (Forall_inv Hsq) as (s1 & s2). cbn in s1, s2.
    destruct (of_mutual K P n1 HK (Forall_inv HM)) as (A1 & A2); [lia|lia|].
    destruct (IH (Forall_inv_tail HM) (Forall_inv_tail Hsq)) as (B1 & B2). split; constructor; auto. }
  destruct B as (B1 & B2). apply (mutual_of _ _ n1 HE); cbn [cmp_pmap p_in p_out]; try lia.
  - split; [exact DM|]. cbn [cmp_pmap p_nc p_in p_out p_eval]. intros c x1 r old Lc Lx Lr Lo.
    destruct (cmp_Inverse_ok maps specs (m_in T) c (zeros (m_in T)) HF Hsq Lc (zeros_length _) 0 n1 x1 r old B1 Lx Lr Lo) as (y & Ey & Ly & Hy).
    exists y. replace (m_inv T) with (cmp_Inverse maps) by (rewrite ET; reflexivity). split; [exact Ey|]. split; [exact Ly|]. rewrite Nat.sub_diag. cbn [firstn app]. rewrite (traced0 _ _ _ _ Hy). apply close_refl.
  - intros c lead y y' Lc Ll Ly Ly' E. cbn [cmp_pmap p_nc p_in p_out p_eval] in *. rewrite Nat.sub_diag in Ll. destruct lead; [|discriminate].
    cbn [app] in E. apply (cmp_injective (m_in T) specs Hsq B2) with (c := c); auto.
    pose proof (eval_sizes _ _ HF) as HS. clear -HS Hsq. induction HS as [|P ps HP HS IH]; constructor.
    + pose proof (Forall_inv Hsq) as (s1 & s2). cbn in s1, s2. rewrite s1, s2 in HP. exact HP.
    + apply IH, (Forall_inv_tail Hsq).
Qed.
Print Assumptions C40_inverse.

(** With layers that solve their equations only up to [tol], the returned point can be followed
    forward through the layers, each hitting the next point up to [tol], and ends in the target. *)
Theorem C40_residual : forall maps specs maxChecks T n1 tol, cmp_ctor maps maxChecks = Ok T -> Forall2 imp_eval maps specs ->
  Forall2 (imp_inv n1 tol) maps specs ->
  forall c x1 r old, length c = m_nc T -> length x1 = n1 -> length r = m_in T -> length old = m_in T ->
  exists y, m_inv T c x1 r old = Ok y /\ length y = m_in T /\ traced tol specs c y r.
Proof.
  intros maps specs maxChecks T n1 tol HT HF HI c x1 r old Lc Lx Lr Lo.
  pose proof (dims_of maps specs (fun K P H => proj1 H) HF) as HD.
  destruct (cmp_ctor_inv _ _ _ _ HT HD) as (mx & ET & Hm & _ & _ & Hn & Hsq). pose proof (cmp_dims maps mx specs HD) as DM. rewrite <- ET in DM.
  destruct DM as (_ & _ & D3). cbn [cmp_pmap p_nc] in D3. rewrite D3 in Lc. replace (m_inv T) with (cmp_Inverse maps) by (rewrite ET; reflexivity).
  exact (cmp_Inverse_ok maps specs (m_in T) c (zeros (m_in T)) HF Hsq Lc (zeros_length _) tol n1 x1 r old HI Lx Lr Lo).
Qed.
Print Assumptions C40_residual.

(** ** C41 *)

(** A sequence of requests for layer inputs; each answer is the point and the checkpointer after it. *)
Fixpoint ask (maps : list cmap) (c : list R) (ch : checker) (qs : list nat) : outcome (list (list R * checker)) :=
  match qs with
  | [] => Ok []
  | L :: qs => do r <- chk_GetLayerInput maps c ch L; do rest <- ask maps c (snd r) qs; Ok (r :: rest)
  end.

(** For every list of at most 2^15 layers, budget and sequence of requests, every answer is the
    composition of the preceding layers at the input, at most [budget] states are ever held, and
    nothing is indexed out of range. Missing: longer lists of layers, where the statement fails
    (C41_overflow_refuted). *)
Theorem C41_checkpoints_partial : forall maps specs d budget (c x : list R) qs,
  Forall2 imp_eval maps specs -> Forall (fun P => p_in P = d /\ p_out P = d) specs ->
  length c = nsum p_nc specs -> length x = d ->
  (1 <= budget)%nat -> (Z.of_nat budget < 2 ^ 31)%Z -> (0 < length maps <= layer_bound)%nat -> Forall (fun L => L < length maps)%nat qs ->
  exists ch answers, chk_make budget x = Ok ch /\ (length (ch_saved ch) <= budget)%nat /\ ask maps c ch qs = Ok answers /\
    Forall2 (fun L a => fst a = cmp_eval (firstn L specs) c x /\ (length (ch_saved (snd a)) <= budget)%nat) qs answers.
Proof.
  intros maps specs d budget c x qs HF Hsq Lc Lx H1 H2 (H3 & H4) HQ.
  destruct (chk_make_ok maps specs d c x Lc Lx budget (conj H1 H2) H4 H3) as (ch & E & HI).
  exists ch. enough (G : exists answers, ask maps c ch qs = Ok answers /\
    Forall2 (fun L a => fst a = cmp_eval (firstn L specs) c x /\ (length (ch_saved (snd a)) <= budget)%nat) qs answers).
  { destruct G as (an & G1 & G2). exists an. repeat split; auto. apply HI. }
  clear E. revert ch HI. induction HQ as [|L qs HL HQ IH]; intros ch HI; [exists []; split; [reflexivity|constructor]|].
  destruct (GetLayerInput_ok maps specs d c x HF Hsq Lc Lx budget (conj H1 H2) H4 ch L HL HI) as (ch' & E & HI').
  cbn [ask]. rewrite E. cbn [obind snd]. destruct (IH ch' HI') as (an & G1 & G2). rewrite G1. cbn [obind].
  eexists. split; [reflexivity|]. constructor; auto. cbn [fst snd]. split; [reflexivity|]. apply HI'.
Qed.
Print Assumptions C41_checkpoints_partial.

(** With 50000 layers and a budget of 46343 states the choice of the next checkpoint multiplies
    two 32-bit integers past their range. *)
Theorem C41_overflow_refuted : forall maps c x, let budget := Z.to_nat 46343 in let L := Z.to_nat 49999 in
  exists ch, chk_make budget x = Ok ch /\ chk_GetLayerInput maps c ch L = UB.
Proof.
  intros maps c x budget L. assert (B1 : Z.of_nat budget = 46343%Z) by (apply Z2Nat.id; lia). assert (B2 : Z.of_nat L = 49999%Z) by (apply Z2Nat.id; lia).
  assert (B0 : (budget =? 0)%nat = false) by (apply Nat.eqb_neq; lia). clearbody budget L.
  eexists. unfold chk_make. rewrite B0. split; [reflexivity|]. unfold chk_GetLayerInput. cbn [ch_saved ch_max ch_w1 ch_w2 chk_get].
  destruct (Nat.eqb_spec L 0); [lia|]. replace (L <? 0)%nat with false by (symmetry; apply Nat.ltb_ge; lia).
  unfold chk_Next. cbn [map fst length]. rewrite B1, B2. destruct L as [|[|L]]; [lia|cbn in B2; lia|]. cbn [grow].
  change (Z.of_nat 0) with 0%Z. change (Z.of_nat 1) with 1%Z. cbn [grow]. reflexivity.
Qed.
Print Assumptions C41_overflow_refuted.

(** ** C42 *)

(** For every checkpoint budget the gradient routines of a composed map are the reverse-mode
    chain rule applied to the layers' routines. Missing: more than 2^15 layers, and layers whose
    log-determinant input gradient leaves its output untouched (C42_affine_refuted) or whose
    coefficient gradient aborts (C42_identity_refuted). *)
Theorem C42_gradients_partial : forall maps specs maxChecks T, cmp_ctor maps maxChecks = Ok T -> Forall2 imp_eval maps specs -> Forall2 imp_grad maps specs ->
  (maxChecks < 2 ^ 31)%Z -> (length maps <= layer_bound)%nat ->
  let P := cmp_pmap (m_in T) specs in
  imp_grad T P /\
  (Forall2 imp_cgrad maps specs -> imp_cgrad T P) /\
  (Forall2 imp_ldi maps specs -> imp_ldi T P) /\
  (Forall2 imp_ldi maps specs -> Forall2 imp_cgrad maps specs -> Forall2 imp_ldc maps specs -> imp_ldc T P).
Proof.
  intros maps specs maxChecks T HT HF HG Hmc Hb P. pose proof (dims_of maps specs (fun K P H => proj1 H) HF) as HD.
  destruct (cmp_ctor_inv _ _ _ _ HT HD) as (mx & ET & Hm & M0 & M1 & Hn & Hsq). pose proof (cmp_dims maps mx specs HD) as DM. rewrite <- ET in DM.
  assert (Hmx : (Z.of_nat mx < 2 ^ 31)%Z).
  { destruct (Z.leb_spec maxChecks 0) as [H|H]; [rewrite (M0 H)|rewrite (M1 H); exact Hmc].
    apply Z.le_lt_trans with (2 ^ 15)%Z; [|reflexivity]. unfold layer_bound in Hb. lia. }
  pose proof DM as (_ & _ & D3). change (p_nc (cmp_pmap (m_in T) specs)) with (nsum p_nc specs) in D3.
  assert (D3' : cmp_nc maps = nsum p_nc specs) by (rewrite ET in D3; exact D3).
  split; [|split; [|split]].
  - split; [exact DM|]. intros c x s old Lc Lx Ls Lo. replace (m_grad T) with (cmp_Gradient maps mx) by (rewrite ET; reflexivity).
    apply (cmp_Gradient_ok maps specs (m_in T)); auto.
  - intros HC. split; [exact DM|]. intros c x s old Lc Lx Ls Lo. replace (m_cgrad T) with (cmp_CoeffGrad maps mx) by (rewrite ET; reflexivity).
    change (p_nc P) with (nsum p_nc specs) in *. rewrite <- D3'. rewrite <- D3' in Lo.
    apply (cmp_CoeffGrad_ok maps specs (m_in T)); auto.
  - intros HI. split; [exact DM|]. intros c x old Lc Lx Lo. replace (m_ldi T) with (cmp_LogDetInputGrad maps mx) by (rewrite ET; reflexivity).
    apply (cmp_LogDetInputGrad_ok maps specs (m_in T)); auto.
  - intros HI HC HL. split; [exact DM|]. intros c x old Lc Lx Lo. replace (m_ldc T) with (cmp_LogDetCoeffGrad maps mx) by (rewrite ET; reflexivity).
    change (p_nc P) with (nsum p_nc specs) in *. rewrite <- D3'. rewrite <- D3' in Lo.
    apply (cmp_LogDetCoeffGrad_ok maps specs (m_in T)); auto.
Qed.
Print Assumptions C42_gradients_partial.

(** Two budgets give the same results. *)
Theorem C42_budget_irrelevant : forall maps specs m1 m2 T1 T2, cmp_ctor maps m1 = Ok T1 -> cmp_ctor maps m2 = Ok T2 ->
  Forall2 imp_eval maps specs -> Forall2 imp_grad maps specs -> Forall2 imp_cgrad maps specs -> Forall2 imp_ldi maps specs -> Forall2 imp_ldc maps specs ->
  (m1 < 2 ^ 31)%Z -> (m2 < 2 ^ 31)%Z -> (length maps <= layer_bound)%nat ->
  forall c x s o, length c = m_nc T1 -> length x = m_in T1 -> length s = m_out T1 ->
    (length o = m_in T1 -> m_grad T1 c x s o = m_grad T2 c x s o /\ m_ldi T1 c x o = m_ldi T2 c x o) /\
    (length o = m_nc T1 -> m_cgrad T1 c x s o = m_cgrad T2 c x s o /\ m_ldc T1 c x o = m_ldc T2 c x o).
Proof.
  intros maps specs m1 m2 T1 T2 H1 H2 HE HG HC HI HL B1 B2 Hb c x s o Lc Lx Ls.
  destruct (C42_gradients_partial _ _ _ _ H1 HE HG B1 Hb) as ((D & G1) & C1 & I1 & L1). destruct (C42_gradients_partial _ _ _ _ H2 HE HG B2 Hb) as ((D' & G2) & C2 & I2 & L2).
  destruct (C1 HC) as (_ & C1'). destruct (C2 HC) as (_ & C2'). destruct (I1 HI) as (_ & I1'). destruct (I2 HI) as (_ & I2').
  destruct (L1 HI HC HL) as (_ & L1'). destruct (L2 HI HC HL) as (_ & L2').
  assert (EI : m_in T2 = m_in T1). { unfold cmp_ctor in H1, H2. destruct maps; [discriminate|]. destruct (squares _); [|discriminate]. injection H1 as <-. injection H2 as <-. reflexivity. }
  rewrite EI in *. destruct D as (d1 & d2 & d3). rewrite d2 in Ls. rewrite d3 in *. cbn [cmp_pmap p_in p_out p_nc] in *.
  split; intros Lo.
  - destruct (G1 c x s o) as (-> & _); auto. destruct (G2 c x s o) as (-> & _); auto. destruct (I1' c x o) as (-> & _); auto. destruct (I2' c x o) as (-> & _); auto.
  - destruct (C1' c x s o) as (-> & _); auto. destruct (C2' c x s o) as (-> & _); auto. destruct (L1' c x o) as (-> & _); auto. destruct (L2' c x o) as (-> & _); auto.
Qed.
Print Assumptions C42_budget_irrelevant.

(** When the layers' gradients are derivatives, so are those of the composition. *)
Theorem C42_derivatives : forall maps specs maxChecks T, cmp_ctor maps maxChecks = Ok T -> Forall2 dims maps specs -> Forall sized specs -> Forall true_gradients specs ->
  true_gradients (cmp_pmap (m_in T) specs) /\ (Forall true_logdet_gradients specs -> true_logdet_gradients (cmp_pmap (m_in T) specs)).
Proof.
  intros maps specs maxChecks T HT HD HS HG. destruct (cmp_ctor_inv _ _ _ _ HT HD) as (mx & ET & _ & _ & _ & _ & Hsq).
  split; [apply cmp_true|intros HL; apply cmp_true_logdet]; auto.
Qed.
Print Assumptions C42_derivatives.

(** An affine first layer x |-> x + b under any layer K: the derivative of the log determinant is
    K's at x + b; the routine adds K's result a second time. *)
Theorem C42_affine_refuted : forall b K P maxChecks T, imp_ldi K P -> imp_eval K P -> (maxChecks < 2 ^ 31)%Z ->
  cmp_ctor [aff_map (aff_make_b b); K] maxChecks = Ok T ->
  forall c x old, length c = p_nc P -> length x = length b -> length old = length b ->
  let g := p_ldi P c (vadd x b) in
  cmp_ldi [shift_pmap b; P] c x = g /\ m_ldi T c x old = Ok (vadd g g).
Proof.
  intros b K P maxChecks T HK HKE Hmc HT c x old Lc Lx Lo g.
  assert (HF : Forall2 imp_eval [aff_map (aff_make_b b); K] [shift_pmap b; P]) by (constructor; [apply shift_imp_eval|constructor; [exact HKE|constructor]]).
  pose proof (dims_of _ _ (fun K P H => proj1 H) HF) as HD.
  destruct (cmp_ctor_inv _ _ _ _ HT HD) as (mx & ET & Hm & M0 & M1 & Hn & Hsq).
  assert (ED : m_in T = length b) by (rewrite ET; reflexivity). rewrite ED in Hsq.
  assert (Hmx : (Z.of_nat mx < 2 ^ 31)%Z). { destruct (Z.leb_spec maxChecks 0) as [H|H]; [rewrite (M0 H); reflexivity|rewrite (M1 H); exact Hmc]. }
  assert (Hb : (length [aff_map (aff_make_b b); K] <= layer_bound)%nat) by (unfold layer_bound; cbn [length]; apply Nat2Z.inj_le; rewrite Z2Nat.id; cbn; lia).
  assert (Lc' : length c = nsum p_nc [shift_pmap b; P]) by (cbn; lia).
  destruct HK as ((k1 & k2 & k3) & HK). pose proof (Forall_inv (Forall_inv_tail Hsq)) as (s1 & s2). cbn in s1, s2.
  destruct (HK c (vadd x b) (fresh (length x))) as (EK & LK); [auto|rewrite vadd_length; lia|rewrite fresh_length; lia|]. fold g in LK, EK.
  split; [cbn [cmp_ldi shift_pmap p_nc p_eval p_grad p_ldi]; rewrite skipn_O, firstn_all2 by lia; fold g; rewrite <- s1, <- LK; apply vadd_zeros_r|].
  destruct (chk_make_ok _ _ (length b) c x Lc' Lx mx (conj Hm Hmx) Hb Hn) as (ch & E & HI).
  rewrite ET. cbn [cmp_map m_ldi]. unfold cmp_LogDetInputGrad. rewrite E. cbn [obind length Nat.sub].
  destruct (GetLayerInput_ok _ _ (length b) c x HF Hsq Lc' Lx mx (conj Hm Hmx) Hb ch 1 ltac:(cbn; lia) HI) as (ch1 & E1 & HI1).
  rewrite E1. cbn [obind fst snd].
  assert (Z1 : zpt [shift_pmap b; P] c x 1 = vadd x b) by reflexivity. rewrite Z1.
  rewrite (layer_ok _ _ (length b) c x HF Lc' Lx 1 K P eq_refl eq_refl). cbn [obind fst snd].
  assert (C1 : clayer [shift_pmap b; P] c 1 P = c) by (unfold clayer, coff; cbn [firstn nsum]; rewrite Nat.add_0_r; cbn [shift_pmap p_nc skipn]; apply firstn_all2; lia). rewrite C1.
  rewrite EK. cbn [obind].
  cbn [seq rev app ofold].
  destruct (GetLayerInput_ok _ _ (length b) c x HF Hsq Lc' Lx mx (conj Hm Hmx) Hb ch1 0 ltac:(cbn; lia) HI1) as (ch2 & E2 & HI2).
  rewrite E2. cbn [obind fst snd]. rewrite (layer_ok _ _ (length b) c x HF Lc' Lx 0 (aff_map (aff_make_b b)) (shift_pmap b) eq_refl eq_refl). cbn [obind fst snd].
  change (m_grad (aff_map (aff_make_b b))) with (fun (_ _ sens out : list R) => deep_copy out sens). cbv beta.
  rewrite deep_copy_ok by (rewrite fresh_length; lia). cbn [obind aff_map m_ldi]. rewrite add_same by reflexivity. cbn [obind fst snd].
  apply deep_copy_ok. rewrite vadd_length by reflexivity. lia.
Qed.
Print Assumptions C42_affine_refuted.

(** In a build with assertions, CoeffGrad of a composition that ends in an identity layer aborts. *)
Theorem C42_identity_refuted : forall maps specs d maxChecks T, Forall2 imp_eval maps specs -> (maxChecks < 2 ^ 31)%Z -> (S (length maps) <= layer_bound)%nat ->
  cmp_ctor (maps ++ [id_map true d d]) maxChecks = Ok T ->
  forall c x s old, length c = m_nc T -> length x = m_in T -> length s = m_in T -> length old = m_nc T -> m_cgrad T c x s old = Throw.
Proof.
  intros maps specs d maxChecks T HF0 Hmc Hb HT c x s old Lc Lx Ls Lo.
  assert (HF : Forall2 imp_eval (maps ++ [id_map true d d]) (specs ++ [id_pmap d d])) by (apply Forall2_app; auto; constructor; [apply (id_imp_eval true d d (le_n d))|constructor]).
  pose proof (dims_of _ _ (fun K P H => proj1 H) HF) as HD.
  destruct (cmp_ctor_inv _ _ _ _ HT HD) as (mx & ET & Hm & M0 & M1 & Hn & Hsq). pose proof (cmp_dims _ mx _ HD) as (_ & _ & D3). rewrite <- ET in D3. cbn [cmp_pmap p_nc] in D3.
  assert (LL : length (maps ++ [id_map true d d]) = S (length maps)) by (rewrite app_length; cbn; lia).
  assert (Hmx : (Z.of_nat mx < 2 ^ 31)%Z).
  { destruct (Z.leb_spec maxChecks 0) as [H|H]; [rewrite (M0 H), LL|rewrite (M1 H); exact Hmc].
    apply Z.le_lt_trans with (2 ^ 15)%Z; [|reflexivity]. unfold layer_bound in Hb. lia. }
  rewrite <- LL in Hb. rewrite D3 in Lc.
  destruct (chk_make_ok _ _ (m_in T) c x Lc Lx mx (conj Hm Hmx) Hb Hn) as (ch & E & HI).
  rewrite ET. cbn [cmp_map m_cgrad]. unfold cmp_CoeffGrad. rewrite E. cbn [obind]. rewrite LL at 1. rewrite rev_seq. cbn [ofold].
  destruct (GetLayerInput_ok _ _ (m_in T) c x HF Hsq Lc Lx mx (conj Hm Hmx) Hb ch (length maps) ltac:(lia) HI) as (ch1 & E1 & HI1).
  rewrite E1. cbn [obind fst snd].
  assert (N1 : nth_error (maps ++ [id_map true d d]) (length maps) = Some (id_map true d d)) by (rewrite nth_error_app2, Nat.sub_diag by lia; reflexivity).
  assert (N2 : nth_error (specs ++ [id_pmap d d]) (length maps) = Some (id_pmap d d)).
  { rewrite <- (specs_length maps specs HF0). rewrite nth_error_app2, Nat.sub_diag by lia. reflexivity. }
  rewrite (layer_ok _ _ (m_in T) c x HF Lc Lx _ _ _ N1 N2). cbn [obind fst snd id_map m_nc m_cgrad].
  rewrite ET in Lo. cbn [cmp_map m_nc] in Lo. unfold seg. replace (_ <=? length old)%nat with true by (symmetry; apply Nat.leb_le; lia). reflexivity.
Qed.
Print Assumptions C42_identity_refuted.
