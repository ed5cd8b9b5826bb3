(** C64, C49, C51: maps made by CreateTriangular from start to end. Their gradients are the total
    derivatives of their values and log determinants, so the gradients of the densities and of the
    training objective built on them are derivatives of what the library returns as values. *)
From Coq Require Import Reals List Lia Lra Nnat NArith.
From Coquelicot Require Import Coquelicot.
From Verif Require Import Base SpecMulti SpecCount SpecExpansion SpecQuad SpecMono SpecMaps SpecMonoMap SpecFactory SpecDensity SpecGauss ExpansionModel PropExpansion RootModel MonoModel PropMono
  MapsModel LeafModel MapsContract MapsProofs LeafProofs TruthProofs DetProofs MonoMap MonoTrue FactoryModel FactoryBasis PropBuild
  ReduceModel GaussModel GaussProofs PropGauss DensityModel DensityProofs PropDensity ObjectiveModel PropObjective.
Import ListNotations.
Local Open Scope R_scope.

Lemma vsum_nth (a : vec) k : (nth k a 0 <= vsum a)%nat.
Proof.
  revert k. unfold vsum. induction a as [|x a IH]; intros k.
  - destruct k; cbn; lia.
  - destruct k as [|k]; cbn [nth fold_right]; [lia|]. specialize (IH k). lia.
Qed.
Lemma mono_factory o p n pts wts al : unbounded o -> supported o p -> (0 < n)%nat -> total_order n p al ->
  let P := mono_pmap n pts wts (link o) (o_nugget o) (one_dim o) al in
  sized P /\ (o_nugget o = 0 -> true_gradients P) /\ true_logdet_gradients P.
Proof.
  intros HU HS Hn (_ & HT). destruct n as [|m]; [lia|]. destruct (opt_basis_diff o p HS) as (dv & d2 & (_ & _ & _ & HD) & H2). specialize (H2 HU).
  destruct (posf_good o) as (G1 & G2 & G3). rewrite posf_link in G1, G2.
  assert (HL : forall a, In a al -> length a = S m) by (intros a Ha; apply HT in Ha; tauto).
  assert (HB : forall a k, In a al -> (nth k a 0 <= p)%nat) by (intros a k Ha; apply HT in Ha; pose proof (vsum_nth a k); lia).
  split; [apply mono_sized|]. split.
  - intros ->. apply (mono_true m p pts wts (link o) (pf_deriv (posf o)) (one_dim o) dv d2); auto. intros k y Hk. apply H2, Hk.
  - apply (mono_true_logdet m p pts wts (link o) (pf_deriv (posf o)) (one_dim o) dv d2); auto. intros k y Hk. apply H2, Hk.
Qed.

(** The map CreateTriangular implements by C64_triangular_partial: its gradients describe the change
    of its values and of its log determinant along every curve of coefficients and inputs. *)
Theorem C64_derivatives : forall inD outD p o pts wts alphas, (1 <= outD <= inD)%nat -> supported o p -> unbounded o ->
  (forall n, (0 < n)%nat -> total_order n p (alphas n)) ->
  let P := triangular_spec inD outD pts wts o alphas in
  sized P /\ true_logdet_gradients P /\ (o_nugget o = 0 -> true_gradients P).
Proof.
  intros inD outD p o pts wts alphas Ho HS HU HT. cbv zeta. unfold triangular_spec.
  set (Pi := fun i => mono_pmap (inD - outD + i + 1) pts wts (link o) (o_nugget o) (one_dim o) (alphas (inD - outD + i + 1)%nat)).
  assert (X : forall i, sized (Pi i) /\ (o_nugget o = 0 -> true_gradients (Pi i)) /\ true_logdet_gradients (Pi i)).
  { intros i. apply (mono_factory o p); auto; [lia|]. apply HT. lia. }
  assert (FA : forall Q : pmap -> Prop, (forall i, Q (Pi i)) -> Forall Q (map Pi (seq 0 outD))) by (intros Q H; apply Forall_map, Forall_forall; auto).
  assert (FI : Forall (fun K => (p_in K <= inD)%nat) (map Pi (seq 0 outD))).
  { apply Forall_map, Forall_forall. intros i Hi. apply in_seq in Hi. unfold Pi. cbn [mono_pmap p_in]. lia. }
  assert (FS : Forall sized (map Pi (seq 0 outD))) by (apply FA; intros i; apply X).
  split; [apply tri_sized; auto|]. split.
  - apply tri_true_logdet; auto. apply FA. intros i. apply X.
  - intros HN. apply tri_true; auto. apply FA. intros i. apply X, HN.
Qed.
Print Assumptions C64_derivatives.

(** What the following theorems assume of the options: no bounds, a Clenshaw-Curtis rule, the
    continuous derivative for log determinants, and no nugget. *)
Definition smooth_options (o : options) (p : nat) : Prop :=
  supported o p /\ unbounded o /\ o_quad o = ClenshawCurtis /\ (1 <= o_pts o)%nat /\ o_cont o = true /\ o_nugget o = 0.
(** A map made by CreateTriangular in scratch memory that is large enough. *)
Lemma built fuel inD outD p o : (N.of_nat inD < 4294967296)%N -> (1 <= outD <= inD)%nat -> smooth_options o p ->
  exists S T P, CreateTriangular fuel S inD outD p o = Ok T /\ p_in P = inD /\ p_out P = outD /\ m_nc T = p_nc P /\
    m_nc T = nsum (fun i => choose (inD - outD + i + 1 + p) p) (seq 0 outD) /\
    imp_eval T P /\ imp_grad T P /\ imp_cgrad T P /\ imp_logdet T P /\ imp_ldc T P /\ imp_ldi T P /\
    sized P /\ true_gradients P /\ true_logdet_gradients P.
Proof.
  intros Hi Ho (HS & HU & HQ & Hp & HC & HN).
  destruct (C64_triangular_partial fuel inD outD p o Hi Ho HS HQ Hp) as (comps & pts & wts & alphas & L & CC & AO & (S & HSc) & X).
  destruct (X S HSc) as (T & E & A & B & C & D & CG & Gr & F). destruct (F HC) as (LD & LC & LI). exists S, T, (triangular_spec inD outD pts wts o alphas).
  destruct (C64_derivatives inD outD p o pts wts alphas Ho HS HU ltac:(intros n Hn; apply AO; auto)) as (X1 & X2 & X3).
  split; [exact E|]. destruct D as [[D1 [D2 D3]] D4]. split; [reflexivity|]. split; [congruence|]. split; [congruence|]. split; [exact C|].
  split; [split; [split; [|split]; assumption|exact D4]|]. split; [exact (Gr HU)|]. repeat (split; [assumption|]). split; [exact (LI HU)|]. repeat (split; [assumption|]). split; [exact (X3 HN)|exact X2].
Qed.

(** The objective of CreateGaussianKLObjective on such a map: the two routines return finite numbers
    for all coefficients, and entry i of the gradient is the partial derivative of the error. *)
Theorem C51_built_map : forall fuel inD outD p o train test sch s1 s2, (N.of_nat inD < 4294967296)%N -> (1 <= outD <= inD)%nat -> smooth_options o p ->
  schedules sch -> schedules s1 -> schedules s2 -> is_mat inD train -> mx_cols train <> [] ->
  let O := CreateGaussianKLObjective sch train test outD in
  exists S T, CreateTriangular fuel S inD outD p o = Ok T /\ m_nc T = nsum (fun i => choose (inD - outD + i + 1 + p) p) (seq 0 outD) /\
  exists (error : list R -> R) (gradient : list R -> list R), forall c, length c = m_nc T ->
    TrainError s1 O (with_coeffs T c) = Ok (Fin (error c)) /\
    TrainCoeffGrad s2 O (with_coeffs T c) = Ok (map Fin (gradient c)) /\ length (gradient c) = m_nc T /\
    forall i, (i < m_nc T)%nat -> is_partial error i c (coord (gradient c) i).
Proof.
  intros fuel inD outD p o train test sch s1 s2 Hi Ho HO Hsch Hs1 Hs2 Hm Hn O.
  destruct (built fuel inD outD p o Hi Ho HO) as (S & T & P & E & E1 & E2 & E3 & EN & I1 & I2 & I3 & I4 & I5 & I6 & T1 & T2 & T3).
  exists S, T. split; [exact E|]. split; [exact EN|]. pose proof (gauss_trainable sch T P Hsch I1 I4 I3 I5) as HT.
  assert (EO : ob_density O = gauss_density (gauss_std (p_out P)) sch).
  { unfold O, CreateGaussianKLObjective. cbn [ob_density]. rewrite E2. destruct (Nat.eqb_spec outD 0); [lia|reflexivity]. }
  rewrite <- EO in HT.
  assert (Hm' : is_mat (p_in P) (ob_train O)) by (rewrite E1; exact Hm).
  exists (fun c => kl P c (std_lp (p_out P)) (mx_cols train)), (fun c => kl_grad P c (map Ropp) (mx_cols train)). intros c Lc. rewrite E3 in Lc |- *.
  destruct (C51_calls s1 s2 _ _ T P _ _ O c (repeat (Fin 0) (p_nc P)) (with_coeffs T c) Hs1 Hs2 HT Hm' Hn Lc (repeat_length _ _) eq_refl) as (R1 & R2 & _).
  split; [exact R1|]. split; [exact R2|]. assert (LG : length (kl_grad P c (map Ropp) (mx_cols train)) = p_nc P) by (unfold kl_grad, vmean; rewrite map_length, seq_length; reflexivity).
  split; [exact LG|]. intros i Hci. unfold is_partial.
  pose proof (C51_derivative P (std_lp (p_out P)) (map Ropp) (mx_cols train) T1 T2 T3 (std_gradient (p_out P)) ltac:(rewrite E1; apply Hm)
    (fun u => upd c i u) (coord c i) (unit_vec (length c) i) (line_velocity c i _ ltac:(lia)) ltac:(rewrite unit_length; auto)) as D.
  rewrite upd_self in D by lia. revert D. generalize (kl_grad P c (map Ropp) (mx_cols train)) LG. intros G LG' D.
  replace (coord G i) with (dot G (unit_vec (length c) i)); [exact D|].
  assert (EG : G = map (coord G) (seq 0 (p_nc P))).
  { apply (nth_ext _ _ 0 0); [rewrite map_length, seq_length; auto|]. intros k Hk. rewrite (nth_indep (map _ _) 0 (coord G 0)) by (rewrite map_length, seq_length; lia).
    rewrite map_nth, seq_nth by lia. reflexivity. }
  rewrite EG at 1. rewrite dot_rsum by (rewrite unit_length; auto). rewrite Lc. apply rsum_units. auto.
Qed.
Print Assumptions C51_built_map.

(** The pullback of the standard normal by such a map: a density with log density [f] at every point,
    whose input gradient is the gradient of [f]; the coefficient gradient is the derivative of the
    log density of the pullback by the same map with other coefficients. *)
Theorem C49_built_map : forall fuel inD outD p o sch, (N.of_nat inD < 4294967296)%N -> (1 <= outD <= inD)%nat -> smooth_options o p -> schedules sch ->
  let D := gauss_density (gauss_std outD) sch in
  exists S T, CreateTriangular fuel S inD outD p o = Ok T /\ m_nc T = nsum (fun i => choose (inD - outD + i + 1 + p) p) (seq 0 outD) /\
  exists (f : list R -> list R -> R) (gx gc : list R -> list R -> list R), forall c, length c = m_nc T ->
    (exists PB, PullbackDensity (with_coeffs T c) D = Ok PB /\ is_dens (fun s => s = 1%nat) PB inD (f c) /\ inputgrad any_layout PB inD (gx c)) /\
    (forall pts, is_mat inD pts -> pb_LogDensityCoeffGrad (with_coeffs T c) D pts = Ok (right_mat (m_nc T) (map (gc c) (mx_cols pts)))) /\
    forall (cc cx : R -> list R) t vc vx, velocity cc t vc -> velocity cx t vx -> length vc = m_nc T -> length vx = inD -> cc t = c ->
      is_derive (fun u => f (cc u) (cx u)) t (dot (gc c (cx t)) vc + dot (gx c (cx t)) vx).
Proof.
  intros fuel inD outD p o sch Hi Ho HO Hsch D.
  destruct (built fuel inD outD p o Hi Ho HO) as (S & T & P & E & E1 & E2 & E3 & EN & I1 & I2 & I3 & I4 & I5 & I6 & T1 & T2 & T3).
  exists S, T. split; [exact E|]. split; [exact EN|].
  exists (fun c => pullback P c (std_lp (p_out P))), (fun c => pullback_grad P c (map Ropp)), (fun c => pullback_cgrad P c (map Ropp)). intros c Lc. rewrite E3 in Lc |- *.
  assert (ED : D = gauss_density (gauss_std (p_out P)) sch) by (unfold D; rewrite E2; reflexivity).
  destruct (C48_pullback (fun s => s = 1%nat) T P c D (std_lp (p_out P)) I1 I4 Lc ltac:(rewrite ED; reflexivity) ltac:(rewrite ED; apply std_is_dens; auto)) as (PB & P1 & _ & P2 & _).
  destruct (C49_values any_layout T P c D (map Ropp) I1 Lc ltac:(rewrite ED; reflexivity) ltac:(rewrite ED; apply std_inputgrad) ltac:(intros; exact I)
    ltac:(intros y Hy; rewrite map_length; auto)) as (PB' & Q1 & Q2 & Q3).
  rewrite P1 in Q1. injection Q1 as <-. rewrite E1 in *. split; [|split].
  - exists PB. split; [exact P1|]. split; [exact P2|]. exact (Q2 I2 I6).
  - intros pts Hpts. exact (Q3 I3 I5 pts Hpts).
  - intros cc cx t vc vx V1 V2 L1 L2 <-. apply (C49_derivatives P (std_lp (p_out P)) (map Ropp)); auto; [apply std_gradient|congruence].
Qed.
Print Assumptions C49_built_map.

(** The hypotheses are met. *)
Example smooth_example : smooth_options hermite_opts 2 /\ schedules ex_sched /\ is_mat 4 ex_train /\ mx_cols ex_train <> [].
Proof.
  split; [|split; [exact ex_sched_ok|split; [exact ex_train_ok|discriminate]]].
  split; [split; [intros _; lia|]; split; [exact I|left; split; reflexivity]|]. split; [split; reflexivity|]. split; [reflexivity|]. split; [cbn; lia|]. split; reflexivity.
Qed.
Example C51_built_example : exists S T, CreateTriangular 7 S 4 3 2 hermite_opts = Ok T /\ m_nc T = 31%nat /\
  exists error gradient, forall c, length c = 31%nat ->
    TrainError ex_sched (CreateGaussianKLObjective ex_sched ex_train no_matrix 3) (with_coeffs T c) = Ok (Fin (error c)) /\
    forall i, (i < 31)%nat -> is_partial error i c (coord (gradient c) i).
Proof.
  destruct smooth_example as (A & B & C & D).
  destruct (C51_built_map 7 4 3 2 hermite_opts ex_train no_matrix ex_sched ex_sched ex_sched ltac:(cbn; lia) ltac:(lia) A B B B C D) as (S & T & E & N & er & gr & H). assert (N' : m_nc T = 31%nat) by (rewrite N; reflexivity). clear N; rename N' into N.
  exists S, T. split; [exact E|]. split; [exact N|]. exists er, gr. rewrite N in H. intros c Lc. destruct (H c Lc) as (H1 & _ & _ & H2). auto.
Qed.
