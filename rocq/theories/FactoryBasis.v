(** The one-dimensional bases the factory chooses compute the functions the options describe. *)
From Coq Require Import Reals List Lia Lra.
From Coquelicot Require Import Coquelicot.
From Verif Require Import Base SpecMulti SpecPoly SpecQuad SpecExpansion SpecMaps SpecFactory MISetModel FixedSetModel PolyModel PolyProofs LinProofs PropPoly
  BijModel ExpansionModel PropExpansion QuadModel RootModel MonoModel MapsModel LeafModel FactoryModel.
Import ListNotations.
Local Open Scope R_scope.

Definition tangent (v d : R -> R) (lb ub : option R) (x : R) : R := let p := nearest lb ub x in v p + d p * (x - p).

Lemma nearest_both l u x : l < u -> nearest (Some l) (Some u) x = if Rltb x l then l else if Rltb u x then u else x.
Proof.
  intros H. unfold nearest. destruct (Rltb x l) eqn:E1; [|destruct (Rltb u x) eqn:E2]; unfold Rltb in *;
    repeat match goal with H : context [Rlt_dec ?a ?b] |- _ => destruct (Rlt_dec a b); try discriminate H; clear H end; unfold Rmax, Rmin; destruct (Rle_dec l x);
    repeat match goal with |- context [Rle_dec ?a ?b] => destruct (Rle_dec a b) end; lra.
Qed.
Lemma bounds_near lb ub x : ordered lb ub -> nearest lb ub x = if Rltb x (lower lb x) then lower lb x else if Rltb (upper ub x) x then upper ub x else x.
Proof.
  intros H. destruct lb as [l|], ub as [u|]; cbn [lower upper].
  - apply nearest_both. exact H.
  - unfold nearest. unfold Rltb. destruct (Rlt_dec x l), (Rlt_dec (x + 1) x); try lra; unfold Rmax; destruct (Rle_dec l x); lra.
  - unfold nearest. unfold Rltb. destruct (Rlt_dec x (x - 1)), (Rlt_dec u x); try lra; unfold Rmin; destruct (Rle_dec u x); lra.
  - unfold nearest, Rltb. destruct (Rlt_dec x (x - 1)), (Rlt_dec (x + 1) x); lra.
Qed.
Lemma tangent_ext v d lb ub x : ordered lb ub -> ext v d (lower lb x) (upper ub x) x = tangent v d lb ub x.
Proof.
  intros H. unfold tangent. cbv zeta. rewrite (bounds_near lb ub x H). unfold ext. destruct (Rltb x (lower lb x)); [reflexivity|].
  destruct (Rltb (upper ub x) x); [reflexivity|]. ring.
Qed.
Lemma tangent_extd d lb ub x : ordered lb ub -> extd d (lower lb x) (upper ub x) x = d (nearest lb ub x).
Proof.
  intros H. rewrite (bounds_near lb ub x H). unfold extd. destruct (Rltb x (lower lb x)); [reflexivity|]. destruct (Rltb (upper ub x) x); reflexivity.
Qed.

Lemma both_derive v d l u x : l < u -> (forall t, is_derive v t (d t)) -> is_derive (tangent v d (Some l) (Some u)) x (d (nearest (Some l) (Some u) x)).
Proof.
  intros H D. rewrite <- (tangent_extd d (Some l) (Some u) x H). apply (is_derive_ext (ext v d l u)).
  - intros t. apply (tangent_ext v d (Some l) (Some u) t H).
  - apply ext_derive; auto.
Qed.
Lemma near_swap v d lb ub lb' ub' x r : 0 < r -> (forall t, x - r < t < x + r -> nearest lb ub t = nearest lb' ub' t) ->
  is_derive (tangent v d lb' ub') x (d (nearest lb' ub' x)) -> is_derive (tangent v d lb ub) x (d (nearest lb ub x)).
Proof.
  intros Hr E D. rewrite (E x) by lra. apply (is_derive_ext_loc (tangent v d lb' ub')); [|exact D].
  exists (mkposreal r Hr). intros t Ht. unfold ball in Ht; cbn in Ht; unfold AbsRing_ball, abs, minus, plus, opp in Ht; cbn in Ht.
  apply Rabs_lt_between in Ht. unfold tangent. cbv zeta. rewrite E by lra. reflexivity.
Qed.
Lemma near_derive v d lb ub x : ordered lb ub -> (forall t, is_derive v t (d t)) -> is_derive (tangent v d lb ub) x (d (nearest lb ub x)).
Proof.
  intros H D. destruct lb as [l|], ub as [u|].
  - apply both_derive; auto.
  - apply (near_swap v d _ _ (Some l) (Some (Rmax x l + 1)) x (1/2)); [lra| |].
    + intros t Ht. unfold nearest. pose proof (Rmax_l x l). pose proof (Rmax_r x l). rewrite (Rmin_right (Rmax x l + 1)); [reflexivity|].
      apply Rmax_lub; lra.
    + apply both_derive; auto. pose proof (Rmax_r x l). lra.
  - apply (near_swap v d _ _ (Some (Rmin x u - 1)) (Some u) x (1/2)); [lra| |].
    + intros t Ht. unfold nearest. pose proof (Rmin_l x u). rewrite (Rmax_right (Rmin x u - 1)) by lra. reflexivity.
    + apply both_derive; auto. pose proof (Rmin_r x u). lra.
  - apply (is_derive_ext v); [|apply D]. intros t. unfold tangent, nearest. cbv zeta. now rewrite Rminus_eq_0, Rmult_0_r, Rplus_0_r.
Qed.

Lemma lin_basis_diff B (v d d2 : nat -> R -> R) lb ub N : ordered lb ub -> array_basis B v d d2 N ->
  (forall k x, (k <= N)%nat -> b_deriv B k x = d k x) ->
  exists dv e2, diff_basis (lin_basis B lb ub) (fun k => tangent (v k) (d k) lb ub) dv e2 N.
Proof.
  intros HO (H1 & H2 & H3 & H4) HD. exists (fun k x => d k (nearest lb ub x)), (fun k x => extd2 (d2 k) (lower lb x) (upper ub x) x).
  repeat apply conj.
  - intros n x out Hn L. cbn [lin_basis b_all]. pose proof (lin_all_spec B v d (lower lb x) (upper ub x) N H1 HD n x out Hn L) as E.
    cbn [linearized b_all] in E. rewrite E. f_equal. apply fill_ext. intros k _. apply tangent_ext; auto.
  - intros n x a b Hn L L'. cbn [lin_basis b_derivs]. pose proof (lin_derivs_spec B v d (lower lb x) (upper ub x) N H2 n x a b Hn L L') as E.
    cbn [linearized b_derivs] in E. rewrite E. f_equal. f_equal; apply fill_ext; intros k _; [apply tangent_ext|apply tangent_extd]; auto.
  - intros n x a b c Hn L L' L''. cbn [lin_basis b_second]. pose proof (lin_second_spec B v d d2 (lower lb x) (upper ub x) N H2 H3 n x a b c Hn L L' L'') as E.
    cbn [linearized b_second] in E. rewrite E. f_equal. f_equal. f_equal; apply fill_ext; intros k _; [apply tangent_ext|apply tangent_extd]; auto.
  - intros k x Hk. apply near_derive; auto. intros t. apply H4. exact Hk.
Qed.

Lemma diff_basis_ext B (v v' dv d2 : nat -> R -> R) N : (forall k x, (k <= N)%nat -> v k x = v' k x) -> diff_basis B v dv d2 N -> diff_basis B v' dv d2 N.
Proof.
  intros E (H1 & H2 & H3 & H4). assert (F : forall n x out, (n <= N)%nat -> fill (fun k => v k x) (S n) out = fill (fun k => v' k x) (S n) out).
  { intros n x out Hn. apply fill_ext. intros k Hk. apply E. lia. }
  repeat apply conj.
  - intros n x out Hn L. rewrite <- F by auto. apply H1; auto.
  - intros n x a b Hn L L'. rewrite <- F by auto. apply H2; auto.
  - intros n x a b c Hn L L' L''. rewrite <- F by auto. apply H3; auto.
  - intros k x Hk. apply (is_derive_ext (v k)); [intros; apply E; auto|apply H4; auto].
Qed.

(** The basis before linearisation. *)
Definition base_basis (o : options) : basis :=
  match o_basis o with
  | ProbHermite => poly_basis ProbabilistHermite (o_norm o)
  | PhysHermite => poly_basis PhysicistHermite (o_norm o)
  | HermiteFunctions => hermite_functions
  end.
Definition opt_basis (o : options) : basis :=
  match o_LB o, o_UB o with None, None => base_basis o | lb, ub => lin_basis (base_basis o) lb ub end.

Lemma hermite_array N : array_basis hermite_functions hbasis dhbasis d2hbasis N.
Proof.
  split; [|split; [|split]].
  + intros n x out _ L. apply hf_EvaluateAll_spec; auto.
  + intros n x a b _ L1 L2. apply hf_EvaluateDerivatives_spec; auto.
  + intros n x a b c _ L1 L2 L3. apply hf_EvaluateSecondDerivatives_spec; auto.
  + intros k x _. split; [apply hbasis_derive|apply dhbasis_derive].
Qed.
Lemma array_basis_ext B (v v' d d2 : nat -> R -> R) N : (forall k x, (k <= N)%nat -> v k x = v' k x) -> array_basis B v d d2 N -> array_basis B v' d d2 N.
Proof.
  intros E H. destruct (diff_basis_ext B v v' d d2 N E) as (A1 & A2 & A3 & A4).
  - destruct H as (H1 & H2 & H3 & H4). repeat apply conj; auto. intros k x Hk. apply H4; auto.
  - repeat apply conj; auto. intros k x Hk. split; [apply A4; auto|apply H; auto].
Qed.

Lemma base_array o N : degree_ok o N -> exists d d2, array_basis (base_basis o) (plain o) d d2 N /\
  (o_basis o <> HermiteFunctions /\ o_norm o = false \/ o_basis o = HermiteFunctions /\ (N <= 14)%nat ->
   forall k x, (k <= N)%nat -> b_deriv (base_basis o) k x = d k x).
Proof.
  intros H. unfold degree_ok, base_basis, plain in *. destruct (o_basis o).
  - do 2 eexists. split.
    + apply (array_basis_ext _ (fun k x => P ProbabilistHermite k x / norm_of ProbabilistHermite (o_norm o) k)); [|apply poly_array_basis, proper_prob].
      intros k x Hk. rewrite P_prob. unfold norm_of. destruct (o_norm o); [|reflexivity]. unfold He_norm. cbn [Normalization ProbabilistHermite].
      rewrite Factorial_small, INR_fact by (specialize (H eq_refl); lia). reflexivity.
    + intros [(_ & E)|(E & _)]; [|discriminate E]. rewrite E. intros k x _. cbn [b_deriv poly_basis]. destruct (Nat.eq_dec k 1) as [->|Hk]; [symmetry; apply Rdiv_1|].
      now rewrite Derivative_P.
  - do 2 eexists. split.
    + apply (array_basis_ext _ (fun k x => P PhysicistHermite k x / norm_of PhysicistHermite (o_norm o) k)); [|apply poly_array_basis, proper_phys].
      intros k x Hk. rewrite P_phys. unfold norm_of. destruct (o_norm o); [|reflexivity]. unfold Hphys_norm. cbn [Normalization PhysicistHermite].
      rewrite Factorial_small, INR_fact by (specialize (H eq_refl); lia). reflexivity.
    + intros [(_ & E)|(E & _)]; [|discriminate E]. rewrite E. intros k x _. cbn [b_deriv poly_basis]. destruct (Nat.eq_dec k 1) as [->|Hk]; [symmetry; apply Rdiv_1|].
      now rewrite Derivative_P.
  - exists dhbasis, d2hbasis. split; [apply hermite_array|]. intros [(E & _)|(_ & L)]; [congruence|]. intros k x Hk. cbn [b_deriv hermite_functions].
    destruct k as [|[|k]]; [reflexivity|reflexivity|]. apply hf_Derivative_psi. lia.
Qed.

Lemma opt_basis_diff o N : supported o N -> exists dv d2, diff_basis (opt_basis o) (one_dim o) dv d2 N /\ (unbounded o -> forall x, twice_at dv d2 N x).
Proof.
  intros (H1 & H2 & H3). destruct (base_array o N H1) as (d & d2 & HA & HB).
  assert (E : forall k x, (k <= N)%nat -> tangent (plain o k) (d k) (o_LB o) (o_UB o) x = one_dim o k x).
  { intros k x Hk. unfold tangent, one_dim. cbv zeta. rewrite (is_derive_unique (plain o k) _ (d k (nearest (o_LB o) (o_UB o) x))); [reflexivity|].
    apply HA. exact Hk. }
  assert (U : unbounded o -> exists dv d2, diff_basis (opt_basis o) (one_dim o) dv d2 N /\ (unbounded o -> forall x, twice_at dv d2 N x)).
  { intros (U1 & U2). unfold opt_basis. rewrite U1, U2 in *. exists d, d2. destruct (array_diff _ _ _ _ _ HA) as (A & B). split; [|intros _; exact B].
    apply (diff_basis_ext _ (plain o)); [|exact A]. intros k x Hk. rewrite <- E by auto. unfold tangent, nearest. ring. }
  destruct H3 as [H3|H3]; [auto|].
  destruct (lin_basis_diff (base_basis o) (plain o) d d2 (o_LB o) (o_UB o) N H2 HA (HB H3)) as (dv & e2 & HL).
  apply (diff_basis_ext _ _ (one_dim o)) in HL; [|exact E].
  destruct (o_LB o) as [l|] eqn:E1; [|destruct (o_UB o) as [u|] eqn:E2; [|apply U; split; auto]].
  - exists dv, e2. unfold opt_basis. rewrite E1. split; [exact HL|]. intros (U1 & _). congruence.
  - exists dv, e2. unfold opt_basis. rewrite E1, E2. split; [exact HL|]. intros (_ & U1). congruence.
Qed.
