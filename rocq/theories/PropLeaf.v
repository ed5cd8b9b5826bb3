(** C43: identity, affine and summarised maps; and concrete maps that meet the hypotheses of C37-C43. *)
From Coq Require Import Reals List Lia Lra.
From Coquelicot Require Import Coquelicot.
From Verif Require Import Base SpecMulti SpecPoly SpecExpansion SpecQuad SpecRoot SpecMono MISetModel FixedSetModel FixedSetProofs PropFixed PolyModel PolyProofs
  LinProofs BijModel BijProofs PropPoly ExpansionModel ExpansionProofs ExpansionDeriv PropExpansion QuadModel QuadCC QuadWalk QuadSimpson QuadACC QuadProofs PropQuad
  RootModel RootProofs PropRoot MonoModel MonoProofs MonoComp PropMono PropMonoRefute SpecMaps SpecMonoMap MapsModel LeafModel MapsContract MapsProofs CheckProofs ComposedProofs
  TruthProofs LeafProofs DetProofs PropMaps MonoMap.
Import ListNotations.
Local Open Scope R_scope.

(** The contract of a conditional map: Evaluate, LogDeterminant and Gradient compute [P]'s value, log
    determinant and gradient; Inverse is a two-sided inverse given [n1] rows of leading inputs; the
    gradient is the transposed Jacobian and the log determinant is ln|det| of its trailing block. *)
Definition conditional_map (n1 : nat) (K : cmap) (P : pmap) : Prop :=
  imp_eval K P /\ imp_logdet K P /\ imp_grad K P /\ mutually_inverse n1 K /\ true_gradients P /\ true_logdet P.

(** IdentityMap(n, m): the last m inputs. *)
Theorem C43_identity : forall dbg n m n1, (m <= n)%nat -> (n - m <= n1)%nat -> conditional_map n1 (id_map dbg n m) (id_pmap n m).
Proof.
  intros dbg n m n1 H H1. split; [apply id_imp_eval; auto|]. split; [apply id_imp_logdet; auto|]. split; [apply id_imp_grad; auto|].
  split; [|split; [apply id_true; auto|apply id_true_logdet; auto]].
  apply (mutual_of _ (id_pmap n m)); auto; [apply id_imp_eval|apply id_imp_inv|apply id_injective]; auto.
Qed.
Print Assumptions C43_identity.

(** AffineMap(A) and AffineMap(A,b) with an invertible trailing square block, given a correct
    factorisation of that block. *)
Theorem C43_affine : forall lib A b m n f n1, rows_of m n A -> (0 < m)%nat ->
  (aff_ctor_A lib A = Ok f /\ b = zeros m \/ aff_ctor_Ab lib A b = Ok f) ->
  lu_correct m (columns (n - m) m A) (lib (columns (n - m) m A)) -> det m (columns (n - m) m A) <> 0 -> (n - m <= n1)%nat ->
  conditional_map n1 (aff_map f) (affine_pmap m n A b).
Proof.
  intros lib A b m n f n1 HA Hm HF HLU Hdet Hn1.
  assert (NR : length A = m) by apply HA.
  assert (NC : ncols A = n).
  { destruct HA as (L & F). destruct A as [|r A]; cbn in L; [lia|]. unfold ncols. inversion F; subst. reflexivity. }
  assert (HX : exists b0, f = aff_make_A lib A b0 /\ (m <= n)%nat /\ (b0 = [] \/ length b0 = m) /\ b = (if (0 <? length b0)%nat then b0 else zeros m)).
  { destruct HF as [(E & Eb)|E]; [unfold aff_ctor_A in E|unfold aff_ctor_Ab in E]; rewrite NC, NR in E.
    - destruct (Nat.leb_spec m n); [|discriminate]. injection E as <-. exists []. auto.
    - destruct (Nat.leb_spec m n); [|discriminate]. destruct (Nat.eqb_spec m (length b)); [|discriminate]. injection E as <-. exists b.
      split; [auto|]. split; [auto|]. split; [right; congruence|]. replace (0 <? length b)%nat with true; auto. symmetry. apply Nat.ltb_lt. lia. }
  clear HF. destruct HX as (b0 & -> & Hle & Hb & ->). assert (Hm' : (0 < m <= n)%nat) by lia.
  assert (HLU' : lu_correct m (aff_block A) (lib (aff_block A))) by (rewrite (aff_block_columns lib A b0 m n HA Hm' Hb); exact HLU).
  assert (LO : length (if (0 <? length b0)%nat then b0 else zeros m) = m).
  { destruct Hb as [->|Hb]; [apply zeros_length|]. rewrite Hb. destruct (Nat.ltb_spec 0 m); auto. apply zeros_length. }
  assert (IE := aff_imp_eval lib A b0 m n HA Hm' Hb). split; [exact IE|]. split; [eapply aff_imp_logdet; eauto|]. split; [eapply aff_imp_grad; eauto|].
  split; [|split; [apply affine_true; auto|apply affine_true_logdet; auto]].
  apply (mutual_of _ _ n1 IE); [eapply aff_imp_inv; eauto|eapply aff_injective; eauto|exact Hle|exact Hn1].
Qed.
Print Assumptions C43_affine.

(** AffineMap(b). *)
Theorem C43_offset : forall b n1, conditional_map n1 (aff_map (aff_make_b b)) (shift_pmap b).
Proof.
  intros b n1. split; [apply shift_imp_eval|]. split; [apply shift_imp_logdet|]. split; [apply shift_imp_grad|].
  split; [|split; [apply shift_true|apply shift_true_logdet]].
  apply (mutual_of _ (shift_pmap b)); cbn [shift_pmap p_in p_out]; try lia; [apply shift_imp_eval|apply shift_imp_inv|apply shift_injective].
Qed.
Print Assumptions C43_offset.

(** SummarizedMap(S, K): if K meets the contract and S is a differentiable function with a correct
    gradient, x |-> K(S(x_1..x_{n-1}), x_n) meets the contract. *)
Theorem C43_summarised : forall S PS sc K PK T n1, sm_ctor S sc K = Ok T ->
  imp_eval S PS -> imp_grad S PS -> sized PS -> true_gradients PS -> length sc = p_nc PS ->
  conditional_map (p_out PS) K PK -> sized PK -> (p_in PS <= n1)%nat ->
  conditional_map n1 T (summarized_pmap PS sc PK).
Proof.
  intros S PS sc K PK T n1 HT SE SG SS ST Hsc (KE & KL & KG & KI & KT & KD) KS Hn.
  assert (DK : dims K PK) by apply KE. assert (DS : dims S PS) by apply SE.
  unfold sm_ctor in HT. destruct DK as (k1 & k2 & k3). destruct DS as (s1 & s2 & s3). rewrite k2, k1, s2 in HT.
  destruct (Nat.eqb_spec (p_out PK) 1) as [Ho|]; [|discriminate]. cbn [negb] in HT. destruct (Nat.eqb_spec (p_in PK) (p_out PS + 1)) as [Hi|]; [|discriminate].
  cbn [negb] in HT. injection HT as <-. assert (DK : dims K PK) by apply KE.
  assert (IE : imp_eval (sm_map S sc K) (summarized_pmap PS sc PK)) by (apply sm_imp_eval; auto). split; [exact IE|].
  split; [apply sm_imp_logdet; auto|]. split; [apply sm_imp_grad; auto|]. split; [|split; [apply summarized_true; auto|apply summarized_true_logdet; auto]].
  destruct (of_mutual K PK (p_out PS) KE KI) as (II & IJ); [lia|lia|].
  apply (mutual_of _ _ n1 IE); cbn [summarized_pmap p_in p_out]; try lia; [apply sm_imp_inv; auto|apply (sm_injective S PS sc PK); auto].
Qed.
Print Assumptions C43_summarised.

(** SummarizedMap: the coefficient gradient and the two gradients of the log determinant are the
    chain-rule ones and true derivatives when the inner component's are. *)
Theorem C43_summarised_gradients : forall S PS sc K PK T, sm_ctor S sc K = Ok T ->
  imp_eval S PS -> imp_grad S PS -> sized PS -> true_gradients PS -> length sc = p_nc PS ->
  imp_cgrad K PK -> imp_ldc K PK -> imp_ldi K PK -> sized PK -> true_logdet_gradients PK ->
  let P := summarized_pmap PS sc PK in imp_cgrad T P /\ imp_ldc T P /\ imp_ldi T P /\ true_logdet_gradients P.
Proof.
  intros S PS sc K PK T HT SE SG SS ST Hsc KC KL KI KS KT P.
  assert (DK : dims K PK) by apply KC. pose proof DK as (k1 & k2 & k3). assert (DS : dims S PS) by apply SE. destruct DS as (s1 & s2 & s3).
  unfold sm_ctor in HT. rewrite k2, k1, s2 in HT.
  destruct (Nat.eqb_spec (p_out PK) 1) as [Ho|]; [|discriminate]. cbn [negb] in HT. destruct (Nat.eqb_spec (p_in PK) (p_out PS + 1)) as [Hi|]; [|discriminate].
  cbn [negb] in HT. injection HT as <-. split; [apply sm_imp_cgrad; auto|]. split; [apply sm_imp_ldc; auto|].
  split; [apply sm_imp_ldi; auto|]. apply summarized_true_logdet_gradients; auto.
Qed.
Print Assumptions C43_summarised_gradients.

(** ** Concrete maps *)

(** A 2 x 3 affine map whose trailing block [[0,1],[2,3]] needs a row exchange. *)
Definition ex_A : list (list R) := [[5; 0; 1]; [7; 2; 3]].
Definition ex_LU : LU := MkLU (fun v => match v with [a; b] => [b; a] | _ => v end) (fun v => v)
  (fun v => match v with [a; b] => [(a - 3 * b) / 2; b] | _ => v end) (-2).
Example C43_affine_example : exists f, aff_ctor_Ab (fun _ => ex_LU) ex_A [1; -4] = Ok f /\ rows_of 2 3 ex_A /\
  lu_correct 2 (columns (3 - 2) 2 ex_A) ex_LU /\ det 2 (columns (3 - 2) 2 ex_A) <> 0 /\
  m_eval (aff_map f) [] [1; 1; 1] [0; 0] = Ok [7; 8].
Proof.
  eexists. split; [reflexivity|]. split; [repeat constructor|].
  assert (D : det 2 (columns (3 - 2) 2 ex_A) = -2).
  { unfold columns, block, ex_A. cbn [map Nat.sub skipn firstn det rsum remove_col app coord nth]. unfold coord. cbn [nth]. unfold remove_col. cbn [firstn skipn app map det rsum nth]. unfold coord. cbn. ring. }
  split; [|split; [rewrite D; lra|]].
  - split; [rewrite D; reflexivity|]. exists [[1; 0]; [0; 1]], [[2; 3]; [0; 1]].
    assert (L2 : forall v : list R, length v = 2%nat -> exists a b, v = [a; b]).
    { intros [|a [|b [|? ?]]] H; try discriminate. eauto. }
    split; [repeat constructor|]. split; [repeat constructor|]. repeat apply conj.
    + intros v Hv. destruct (L2 v Hv) as (a & b & ->). reflexivity.
    + intros v v' Hv Hv'. destruct (L2 v Hv) as (a & b & ->). destruct (L2 v' Hv') as (a' & b' & ->). cbn. intros E. injection E as -> ->. reflexivity.
    + intros v Hv. destruct (L2 v Hv) as (a & b & ->). unfold columns, block, ex_A. cbn. f_equal; [ring|f_equal; ring].
    + intros v Hv. destruct (L2 v Hv) as (a & b & ->). cbn. repeat split; auto; f_equal; try ring; f_equal; ring.
    + intros v Hv. destruct (L2 v Hv) as (a & b & ->). cbn. repeat split; auto; (f_equal; [field|f_equal; field]).
  - lazy -[Rplus Rmult Ropp Rminus IZR]. apply (f_equal Ok). f_equal; [ring|f_equal; ring].
Qed.

(** A one-dimensional cubic Hermite component with g = exp and a five-point rule: it meets the
    contracts used in C37, C39, C40, C42, and its log determinant -(x-1)^2 has derivative -2 at 2. *)
Example mono_map_example : exists C S P c, imp_eval (mono_map C S) P /\ imp_logdet (mono_map C S) P /\ imp_grad (mono_map C S) P /\
  imp_cgrad (mono_map C S) P /\ imp_ldc (mono_map C S) P /\ imp_ldi (mono_map C S) P /\
  p_in P = 1%nat /\ p_out P = 1%nat /\ p_nc P = 4%nat /\ length c = 4%nat /\ p_logdet P c [2] = -1 /\ p_ldi P c [2] = [-2].
Proof.
  destruct (C26_clenshaw_curtis_rule 5 (repeat 0 5) (repeat 0 5) ltac:(lia) eq_refl eq_refl) as (wts & pts & E & Lw & Lp & _ & _ & _ & _ & _ & HSm & _).
  destruct (cubic_expansion true) as (w & EW & HE). rewrite <- Lp in HSm.
  pose proof (array_diff _ _ _ _ _ (poly_array_basis ProbabilistHermite true 3 proper_prob)) as (DB & TW).
  set (C := MkMC w pf_exp (qr_clenshaw pts wts) true 0).
  set (S := MkScr (repeat 0 (w_CacheSize w)) (repeat 0 6) (repeat 0 6) (repeat 0 4) []).
  assert (HSc : scratch_ok (mc_w C) (1 + length cubic_alphas + 1) S).
  { split; [|split]; cbn; rewrite ?repeat_length; auto. }
  assert (LWP : length wts = length pts) by lia.
  exists C, S, (mono_pmap 1 pts wts (pf_eval pf_exp) 0 (cubic_v true) cubic_alphas), (cubic_c true 1).
  split; [eapply (mono_imp_eval 1 3 cubic_alphas (cubic_v true) (cubic_dv true) (cubic_d2 true) C S pts wts); eauto|].
  split; [eapply (mono_imp_logdet 1 3 cubic_alphas (cubic_v true) (cubic_dv true) (cubic_d2 true) C S pts wts); eauto; apply exp_good|].
  split; [eapply (mono_imp_grad 1 3 cubic_alphas (cubic_v true) (cubic_dv true) (cubic_d2 true) C S pts wts); eauto; apply exp_good|].
  split; [eapply (mono_imp_cgrad 1 3 cubic_alphas (cubic_v true) (cubic_dv true) (cubic_d2 true) C S pts wts); eauto; apply exp_good|].
  split; [eapply (mono_imp_ldc 1 3 cubic_alphas (cubic_v true) (cubic_dv true) (cubic_d2 true) C S pts wts); eauto; apply exp_good|].
  split; [eapply (mono_imp_ldi 1 3 cubic_alphas (cubic_v true) (cubic_dv true) (cubic_d2 true) C S pts wts); eauto; apply exp_good|].
  repeat (split; [reflexivity|]).
  assert (LE : forall x, p_logdet (mono_pmap 1 pts wts (pf_eval pf_exp) 0 (cubic_v true) cubic_alphas) (cubic_c true 1) [x] = - ((x - 1) * (x - 1))).
  { intros x. cbn [mono_pmap p_logdet]. rewrite cubic_slope. change (pf_eval pf_exp) with exp. rewrite ln_exp. ring. }
  split; [rewrite LE; ring|]. cbn [mono_pmap p_ldi seq map]. f_equal. unfold partial, coord. cbn [upd nth].
  rewrite (Derive_ext _ (fun x => - ((x - 1) * (x - 1)))) by (intros t; apply LE). apply is_derive_unique. auto_derive; auto. ring.
Qed.

(** That component followed by an affine one: the hypotheses of C39_affine_refuted hold with a
    gradient that is not zero. *)
Example C39_affine_example : exists K P f T c x, imp_ldi K P /\ tri_ctor [K; aff_map f] = Ok T /\
  length c = p_nc P /\ length x = m_in T /\ p_ldi P c (firstn (p_in P) x) <> zeros (p_in P).
Proof.
  destruct mono_map_example as (C & S & P & c & HE & _ & _ & _ & _ & HI & P1 & P2 & P3 & Lc & _ & HV). pose proof HE as ((d1 & d2 & d3) & _).
  set (f := aff_make_A (fun _ => ex_LU) [[3; 2]] []).
  destruct (C37_constructor [mono_map C S; aff_map f] ltac:(discriminate)) as (_ & H). destruct H as (T & HT).
  - split.
    + intros K [<-|[<-|[]]]; [lia|cbn; lia].
    + intros [|[|i]] K1 K2 E1 E2; [|discriminate E2|discriminate E2]. injection E1 as <-. injection E2 as <-. rewrite d1, P1. reflexivity.
  - exists (mono_map C S), P, f, T, c, [2; 7]. split; [exact HI|]. split; [exact HT|]. split; [congruence|].
    apply ctor_inv in HT. destruct HT as (-> & _). split; [reflexivity|]. rewrite P1. cbn [firstn]. rewrite HV. cbn. intros Q. injection Q. lra.
Qed.

(** An offset under that component: the hypotheses of C42_affine_refuted hold and the returned
    vector is twice the derivative. *)
Example C42_affine_example : exists K P T c x, imp_ldi K P /\ imp_eval K P /\ cmp_ctor [aff_map (aff_make_b [1]); K] 1 = Ok T /\
  length c = p_nc P /\ length x = 1%nat /\ m_ldi T c x [0] = Ok [-4] /\ cmp_ldi [shift_pmap [1]; P] c x = [-2].
Proof.
  destruct mono_map_example as (C & S & P & c & HE & _ & _ & _ & _ & HI & P1 & P2 & P3 & Lc & _ & HV). pose proof HE as ((d1 & d2 & d3) & _).
  destruct (C40_constructor [aff_map (aff_make_b [1]); mono_map C S] 1 ltac:(discriminate)) as (_ & H). destruct H as (T & HT).
  - exists 1%nat. intros K [<-|[<-|[]]]; [split; reflexivity|split; congruence].
  - exists (mono_map C S), P, T, c, [1]. split; [exact HI|]. split; [exact HE|]. split; [exact HT|]. split; [congruence|]. split; [reflexivity|].
    destruct (C42_affine_refuted [1] (mono_map C S) P 1 T HI HE ltac:(reflexivity) HT c [1] [0]) as (A & B); [congruence|reflexivity|reflexivity|].
    cbn [vadd] in A, B. replace (1 + 1) with 2 in A, B by ring. rewrite HV in A, B. rewrite A, B. cbn. split; [f_equal; f_equal; ring|reflexivity].
Qed.

(** A triangular map of an identity block, the affine map above and an offset-free affine row, and
    a composition of two of them, meet the hypotheses of C37-C42. *)
Example C37_example : exists T U, tri_ctor [id_map true 2 1; aff_map (aff_make_A (fun _ => ex_LU) [[1; 2; 3; 4]; [0; 0; 1; 1]] [])] = Ok T /\
  m_in T = 4%nat /\ m_out T = 3%nat /\ m_eval T [] [1; 2; 3; 4] [9; 9; 9] = Ok [2; 30; 7] /\
  cmp_ctor [aff_map (aff_make_b [1; 2]); id_map false 2 2; aff_map (aff_make_b [3; 4])] 2 = Ok U /\ m_eval U [] [10; 20] [0; 0] = Ok [14; 26] /\
  (forall n1, mutually_inverse n1 U) /\ (2 < layer_bound)%nat.
Proof.
  eexists. eexists. split; [reflexivity|]. split; [reflexivity|]. split; [reflexivity|]. split; [lazy -[Rplus Rmult Ropp Rminus IZR]; apply (f_equal Ok); f_equal; f_equal; [ring|f_equal; ring]|].
  split; [reflexivity|]. split; [lazy -[Rplus Rmult Ropp Rminus IZR]; apply (f_equal Ok); f_equal; [ring|f_equal; ring]|]. split.
  - intros n1. apply (C40_inverse [aff_map (aff_make_b [1; 2]); id_map false 2 2; aff_map (aff_make_b [3; 4])] [shift_pmap [1; 2]; id_pmap 2 2; shift_pmap [3; 4]] 2); [reflexivity| |].
    + constructor; [apply shift_imp_eval|]. constructor; [apply id_imp_eval; lia|]. constructor; [apply shift_imp_eval|constructor].
    + constructor; [apply C43_offset|]. constructor; [apply C43_identity; lia|]. constructor; [apply C43_offset|constructor].
  - unfold layer_bound. apply Nat2Z.inj_lt. rewrite Z2Nat.id; cbn; lia.
Qed.
