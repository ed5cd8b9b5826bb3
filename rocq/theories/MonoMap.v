(** MonotoneComponent satisfies the contracts of MapsContract.v. *)
From Coq Require Import Reals List Lia Lra.
From Coquelicot Require Import Coquelicot.
From Verif Require Import Base SpecMulti SpecPoly SpecExpansion SpecQuad SpecRoot SpecMono MISetModel FixedSetModel FixedSetProofs PropFixed PolyModel PolyProofs
  LinProofs BijModel BijProofs PropPoly ExpansionModel ExpansionProofs ExpansionDeriv PropExpansion QuadModel QuadCC QuadWalk QuadSimpson QuadACC QuadProofs PropQuad
  RootModel RootProofs PropRoot MonoModel MonoProofs MonoComp PropMono SpecMaps SpecMonoMap MapsModel LeafModel MapsContract MapsProofs.
Import ListNotations.
Local Open Scope R_scope.

Lemma list_partials (F : list R -> R) (x J : list R) n : length J = n -> (forall j, (j < n)%nat -> is_partial F j x (coord J j)) ->
  J = map (fun j => partial F j x) (seq 0 n).
Proof.
  intros L H. apply (nth_ext _ _ 0 0); [rewrite map_length, seq_length; auto|]. intros j Hj. rewrite L in Hj.
  change (nth j J 0) with (coord J j). rewrite nth_map_seq by auto. symmetry. apply is_partial_unique, H, Hj.
Qed.

Section Mono.
Variables (d N : nat) (alphas : list vec) (v dv d2 : nat -> R -> R) (C : component) (S : scratch) (pts wts : list R).
Hypothesis HE : expansion_of d N alphas v dv d2 (mc_w C).
Hypothesis HG : good_posfunc (mc_G C).
Hypothesis HW : length wts = length pts.
Hypothesis HQ : mc_Q C = qr_clenshaw pts wts.
Hypothesis Hsum : rsum (fun i => nth i wts 0) (length pts) = 2.
Hypothesis HS : scratch_ok (mc_w C) (1 + length alphas + d) S.
Hypothesis H2 : forall x, twice_at dv d2 N x.
Hypothesis Hcont : mc_cont C = true.
Let P := mono_pmap d pts wts (pf_eval (mc_G C)) (mc_nugget C) v alphas.

Lemma mono_dims : dims (mono_map C S) P.
Proof.
  destruct (expansion_setup _ _ _ _ _ _ _ HE) as (mx & B & EW & Hd & _). unfold P. split; [|split]; cbn [mono_map m_in m_out m_nc mono_pmap p_in p_out p_nc]; auto.
  - rewrite EW. reflexivity.
  - rewrite EW. apply size_W.
Qed.
Lemma mono_imp_eval : imp_eval (mono_map C S) P.
Proof.
  split; [apply mono_dims|]. intros c x old Lc Lx Lo. cbn [P mono_pmap p_nc p_in p_out p_eval] in *. split; [|reflexivity].
  cbn [mono_map m_eval]. rewrite (C35_evaluate d N alphas v dv d2 C S x c pts wts HE HW HQ Lx Lc).
  - cbn [obind]. destruct old as [|o [|? ?]]; try discriminate. reflexivity.
  - destruct HS as (A & B & D). split; [auto|]. split; lia.
Qed.
Lemma mono_imp_logdet : imp_logdet (mono_map C S) P.
Proof.
  split; [apply mono_dims|]. intros c x old Lc Lx. cbn [P mono_pmap p_nc p_in p_out p_logdet] in *. cbn [mono_map m_logdet].
  apply (C34_continuous d N alphas v dv d2 C S x c HE (proj1 HG) Lx Lc (proj1 HS)). exact Hcont.
Qed.
Lemma mono_imp_grad : imp_grad (mono_map C S) P.
Proof.
  split; [apply mono_dims|]. intros c x s old Lc Lx Ls Lo. cbn [P mono_pmap p_nc p_in p_out p_grad] in *. cbn [mono_map m_grad].
  destruct s as [|s [|? ?]]; try discriminate. cbn [raw_get nth_error obind]. unfold coord at 1. cbn [nth].
  destruct (C63_gradients d N alphas v dv d2 C S x c pts wts old (zeros (length alphas)) s HE HG HW HQ Hsum Lx Lc) as ((g & E & Lg & Hg) & _); auto.
  { apply repeat_length. }
  cbn [raw_get]. unfold raw_get. cbn [nth_error obind]. rewrite E. rewrite map_length, seq_length. split; [|reflexivity]. f_equal. apply list_partials; auto.
Qed.
Lemma mono_imp_cgrad : imp_cgrad (mono_map C S) P.
Proof.
  split; [apply mono_dims|]. intros c x s old Lc Lx Ls Lo. cbn [P mono_pmap p_nc p_in p_out p_cgrad] in *. cbn [mono_map m_cgrad].
  destruct s as [|s [|? ?]]; try discriminate.
  destruct (C63_coeff_gradient d N alphas v dv d2 C S x c pts wts old s HE HG HW HQ Hsum Lx Lc) as (g & E & Lg & Hg); auto.
  unfold raw_get. cbn [nth_error obind]. rewrite E. rewrite map_length, seq_length. split; [|reflexivity]. f_equal. apply list_partials; auto.
Qed.
Lemma mono_imp_ldc : imp_ldc (mono_map C S) P.
Proof.
  split; [apply mono_dims|]. intros c x old Lc Lx Lo. cbn [P mono_pmap p_nc p_in p_out p_ldc] in *. cbn [mono_map m_ldc].
  destruct (C62_continuous d N alphas v dv d2 C S x c old (zeros d) HE HG Lx Lc) as ((g & E & Lg & Hg) & _); auto.
  { apply repeat_length. } { apply HS. }
  rewrite E. rewrite map_length, seq_length. split; [|reflexivity]. f_equal. apply list_partials; auto.
Qed.
Lemma mono_imp_ldi : imp_ldi (mono_map C S) P.
Proof.
  split; [apply mono_dims|]. intros c x old Lc Lx Lo. cbn [P mono_pmap p_nc p_in p_out p_ldi] in *. cbn [mono_map m_ldi].
  destruct (C62_continuous d N alphas v dv d2 C S x c (zeros (length alphas)) old HE HG Lx Lc) as (_ & (g & E & Lg & Hg & Hl)); auto.
  { apply repeat_length. } { apply HS. }
  rewrite E. rewrite map_length, seq_length. split; [|reflexivity]. f_equal. apply list_partials; auto.
  intros j Hj. destruct (Nat.eq_dec j (d - 1)) as [->|]; [apply Hl, H2|apply Hg; lia].
Qed.
End Mono.
