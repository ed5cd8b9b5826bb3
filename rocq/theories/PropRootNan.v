(** C73, components: NaNs among the arguments of Inverse. None stands for NaN. *)
From Coq Require Import Reals ZArith List Bool Lra Lia.
From Verif Require Import Base SpecMulti SpecExpansion SpecQuad SpecMono PolyModel PolyProofs BijModel ExpansionModel ExpansionProofs PropExpansion QuadModel QuadWalk RootModel MonoModel MonoProofs PropMono PropMonoRefute RootNanModel.
Import ListNotations.
Local Open Scope R_scope.

(** For numbers the model of this file is the one of RootModel and MonoModel. *)
Lemma o_lower f y : forall n s b, o_lower_loop f (Some y) n s b = lower_loop f y n s b.
Proof. induction n as [|n IH]; intros; [reflexivity|]. cbn [o_lower_loop lower_loop olt]. rewrite IH. reflexivity. Qed.
Lemma o_upper f y : forall n s b, o_upper_loop f (Some y) n s b = upper_loop f y n s b.
Proof. induction n as [|n IH]; intros; [reflexivity|]. cbn [o_upper_loop upper_loop olt]. rewrite IH. reflexivity. Qed.
Lemma o_itp f y xt ft nh : forall n it b, o_itp_loop f (Some y) xt ft nh n it b = itp_loop f y xt ft nh n it b.
Proof. induction n as [|n IH]; intros; [reflexivity|]. cbn [o_itp_loop itp_loop olt odist]. rewrite IH. reflexivity. Qed.
Lemma o_inverse f y x0 xt ft : o_InverseSingleBracket f (Some y) x0 xt ft = InverseSingleBracket f y x0 xt ft.
Proof.
  unfold o_InverseSingleBracket, InverseSingleBracket, o_FindBracket, FindBracket. rewrite o_lower, o_upper. cbn [olt]. destruct (if Rltb y (f x0) then _ else _) as [b i].
  destruct (_ || _)%bool; [reflexivity|]. rewrite o_itp. reflexivity.
Qed.
Lemma without_nan_some : forall pt, without_nan (map Some pt) = Some pt.
Proof. induction pt as [|x pt IH]; [reflexivity|]. cbn. rewrite IH. reflexivity. Qed.
Lemma without_nan_none : forall pt, In None pt -> without_nan pt = None.
Proof. induction pt as [|[x|] pt IH]; cbn; intros H; [contradiction| |reflexivity]. destruct H as [H|H]; [discriminate|]. rewrite IH by auto. reflexivity. Qed.

(** Without NaNs Inverse is the function of C36. *)
Theorem C73_numbers : forall (C : component) (S : scratch) (x1 c : list R) (y : R) (xtol ytol : option R),
  mc_Inverse_nan C S (map Some x1) (Some y) c xtol ytol = (do r <- mc_Inverse C S x1 y c xtol ytol; Ok (fst r)).
Proof.
  intros C S x1 c y xtol ytol. unfold mc_Inverse_nan, mc_Inverse. rewrite without_nan_some. destruct (inv_tolerances xtol ytol) as [t| | |]; cbn [obind]; auto.
  destruct (w_FillCache1 _ _ _ _) as [k| | |]; cbn [obind]; auto. destruct (raw_get _ _) as [x| | |]; [cbn [obind]; rewrite o_inverse; reflexivity|reflexivity|reflexivity|reflexivity].
Qed.
Print Assumptions C73_numbers.

(** A NaN anywhere in the column, whatever the component, target and coefficients: the result is NaN. *)
Theorem C73_nan_column : forall (C : component) (S : scratch) (pt : list (option R)) (c : list R) (y : option R),
  In None pt -> mc_Inverse_nan C S pt y c None None = Ok None.
Proof.
  intros C S pt c y H. unfold mc_Inverse_nan. replace (inv_tolerances None None) with (Ok (/ 10 ^ 6, / 10 ^ 6)).
  - cbn [obind]. rewrite without_nan_none by auto. reflexivity.
  - unfold inv_tolerances, eps. cbn [obind]. assert (/ 2 ^ 52 < / 10 ^ 6) by (apply Rinv_lt_contravar; [apply Rmult_lt_0_compat; apply pow_lt; lra|lra]).
    destruct (Rltb_spec (/ 2 ^ 52) (/ 10 ^ 6)); [reflexivity|lra].
Qed.
Print Assumptions C73_nan_column.

Lemma nan_target f x0 xt ft : exists x, o_InverseSingleBracket f None x0 xt ft = (Some x, 0%Z).
Proof.
  unfold o_InverseSingleBracket, o_FindBracket. cbn [olt]. unfold bracket_its. change 128%nat with (S 127). generalize 127%nat. intros k. cbn [o_upper_loop b_xlb b_ylb b_xub b_yub].
  replace (flat_test _) with false.
  2:{ unfold flat_test. cbn [b_xlb b_xub]. destruct (Rltb_spec 10 (x0 + 1 - x0)); [lra|]. rewrite andb_false_r. reflexivity. }
  cbn [olt orb Z.ltb Z.compare].
  assert (K : forall n it nh b, match o_itp_loop f None xt ft nh n it b with Returned _ _ => True | Left _ i => (i <= it + n)%nat end).
  { induction n as [|n IH]; intros it nh b; cbn [o_itp_loop]; [lia|]. cbn [odist olt]. destruct (_ || _)%bool; [lia|]. match goal with |- context [o_itp_loop f None xt ft nh n (S it) ?bb] => specialize (IH (S it) nh bb); destruct (o_itp_loop f None xt ft nh n (S it) bb) end; [auto|lia]. }
  match goal with |- context [o_itp_loop f None xt ft ?nh itp_its 0 ?b] => specialize (K itp_its 0%nat nh b); destruct (o_itp_loop f None xt ft nh itp_its 0 b) as [xc i|b' i] end; [eauto|].
  destruct (Nat.ltb_spec itp_its i); [lia|]. eauto.
Qed.

(** With NaN as target, every component and all coefficients and inputs give a number: the NaN is lost. *)
Theorem C73_nan_target_component_refuted : forall (d N : nat) (alphas : list vec) (v dv d2 : nat -> R -> R) (C : component) (S : scratch) (x1 c : list R),
  expansion_of d N alphas v dv d2 (mc_w C) -> length (sc_cache S) = w_CacheSize (mc_w C) ->
  (1 <= length x1)%nat -> (d - 1 <= length x1 <= d)%nat ->
  exists x, mc_Inverse_nan C S (map Some x1) None c None None = Ok (Some x).
Proof.
  intros d N alphas v dv d2 C S x1 c HE Lca L1 L2.
  destruct (expansion_setup _ _ _ _ _ _ _ HE) as (mx & B & EW & Hd & M1 & M2 & B0 & B1 & B2 & B3 & M3 & M4 & Rm).
  assert (DW : wdim (mc_w C) = d) by (rewrite EW; reflexivity).
  destruct (on_line_fill d x1 C S DW L1 L2 Hd) as (FC & XG & OL).
  destruct (pre_fill1 d N alphas mx B v dv Hd M1 M2 B0 B1 DNone (sc_cache S) (on_line d x1 0) (Rm _ Lca) (OL 0)) as (c1 & E & _). rewrite <- EW, FC in E.
  unfold mc_Inverse_nan. replace (inv_tolerances None None) with (Ok (/ 10 ^ 6, / 10 ^ 6)).
  2:{ unfold inv_tolerances, eps. cbn [obind]. assert (/ 2 ^ 52 < / 10 ^ 6) by (apply Rinv_lt_contravar; [apply Rmult_lt_0_compat; apply pow_lt; lra|lra]).
      destruct (Rltb_spec (/ 2 ^ 52) (/ 10 ^ 6)); [reflexivity|lra]. }
  cbn [obind]. rewrite without_nan_some, E. cbn [obind]. rewrite (raw_get_ok x1 _ 0) by lia. cbn [obind fst snd].
  destruct (nan_target (mc_eval_at C S c1 x1 c) (nth (length x1 - 1) x1 0) (/ 10 ^ 6) (/ 10 ^ 6)) as (x & Ex). exists x. rewrite Ex. reflexivity.
Qed.
Print Assumptions C73_nan_target_component_refuted.

(** The hypotheses of the last theorem hold for the component of PropMonoRefute.mono_example with the
    column (1/2, 1). *)
Example C73_component_example : exists (v dv d2 : nat -> R -> R) (C : component) (S : scratch),
  expansion_of 2 3 ex_alphas v dv d2 (mc_w C) /\ length (sc_cache S) = w_CacheSize (mc_w C) /\ (2 - 1 <= length [1/2; 1] <= 2)%nat.
Proof.
  destruct mono_example as (v & dv & d2 & w & wts & pts & S & A & _ & _ & _ & _ & _ & (B & _) & _).
  exists v, dv, d2, (MkMC w pf_softplus (qr_clenshaw pts wts) true 0), S. cbn [mc_w]. split; [exact A|]. split; [exact B|cbn; lia].
Qed.
