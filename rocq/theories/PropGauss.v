(** C50: the Gaussian log density and its gradient are those of the stated mean and covariance. *)
From Coq Require Import Reals List Lia Lra Permutation.
From Coquelicot Require Import Coquelicot.
From Verif Require Import Base SpecExpansion SpecMaps SpecDensity SpecGauss QuadCC DetMul CholProofs ExpansionModel ExpansionProofs MapsModel MapsProofs
  LeafModel LeafProofs TruthProofs DensityModel DensityProofs ReduceModel ReduceProofs GaussModel GaussProofs.
Import ListNotations.
Local Open Scope R_scope.

(** The four ways to make a Gaussian, with the dimension, mean and covariance the user stated. The covariance is
    symmetric, so that its columns are its rows. *)
Inductive constructed (llt : LLT) : nat -> list R -> list (list R) -> gauss -> Prop :=
| by_mean_cov mu cov G : gauss_mean_cov llt mu cov = Ok G -> mx_rows cov = length mu -> spd (length mu) (mx_cols cov) ->
    constructed llt (length mu) mu (mx_cols cov) G
| by_cov cov G : gauss_cov llt cov = Ok G -> spd (mx_rows cov) (mx_cols cov) ->
    constructed llt (mx_rows cov) (zeros (mx_rows cov)) (mx_cols cov) G
| by_mean mu : constructed llt (length mu) mu (unit_matrix (length mu)) (gauss_mean mu)
| by_dim n : constructed llt n (zeros n) (unit_matrix n) (gauss_std n).
Definition schedules (sch : nat -> sched) : Prop := forall M, complete M (sch M).
Definition left_layout : layout := fun r c s0 s1 => s0 = 1%nat /\ s1 = r.

Lemma unit_rows n : rows_of n n (unit_matrix n).
Proof.
  induction n as [|n [IH1 IH2]]; [split; constructor|]. cbn [unit_matrix]. split; [cbn; rewrite map_length; lia|]. constructor.
  - cbn. unfold zeros. rewrite repeat_length. auto.
  - apply Forall_map. eapply Forall_impl; [|exact IH2]. cbn. lia.
Qed.
Lemma unit_entry n : forall i j, (i < n)%nat -> (j < n)%nat -> entry (unit_matrix n) i j = one i j.
Proof.
  induction n as [|n IH]; intros i j Hi Hj; [lia|]. cbn [unit_matrix]. unfold entry. destruct i as [|i].
  - cbn [nth]. destruct j as [|j]; [reflexivity|]. unfold coord, zeros. cbn [nth]. rewrite nth_repeat. reflexivity.
  - cbn [nth]. rewrite (nth_indep _ [] (cons 0 [])) by (rewrite map_length; pose proof (unit_rows n) as [H _]; lia). rewrite map_nth.
    destruct j as [|j]; [reflexivity|]. unfold coord at 1. cbn [nth]. change (coord (nth i (unit_matrix n) []) j = one i j). apply IH; lia.
Qed.
Lemma unit_matvec n x : length x = n -> matvec (unit_matrix n) x = x.
Proof.
  intros Hx. apply (list_ext n); auto; [unfold matvec; rewrite map_length; apply unit_rows|]. intros i Hi. rewrite (matvec_rsum n) by (auto; apply unit_rows).
  rewrite (rsum_pick _ i); [rewrite unit_entry by auto; unfold one; rewrite Nat.eqb_refl; ring|auto|].
  intros j Hj N. rewrite unit_entry by auto. unfold one. destruct (Nat.eqb_spec i j); [congruence|ring].
Qed.
Lemma one_det n : D n one = 1.
Proof.
  rewrite D_lower by (intros i j _ _ H; unfold one; destruct (Nat.eqb_spec i j); [lia|auto]).
  induction n as [|n IH]; auto. cbn [rprod]. rewrite IH. unfold one. rewrite Nat.eqb_refl. ring.
Qed.
Lemma unit_det n : det n (unit_matrix n) = 1.
Proof. rewrite det_D by apply unit_rows. rewrite <- (one_det n). apply D_ext. intros; apply unit_entry; auto. Qed.
Lemma dot_self_pos x : x <> zeros (length x) -> 0 < dot x x.
Proof.
  assert (P : forall y, 0 <= dot y y) by (induction y as [|a y IH]; cbn; nra).
  induction x as [|a x IH]; intros H; [exfalso; apply H; reflexivity|]. cbn [dot]. destruct (Req_dec a 0) as [->|N]; [|pose proof (P x); nra].
  specialize (P x). assert (0 < dot x x); [|lra]. apply IH. intros E. apply H. cbn. rewrite E at 1. reflexivity.
Qed.
Lemma unit_spd n : spd n (unit_matrix n).
Proof.
  split; [apply unit_rows|]. split.
  - intros i j Hi Hj. change (entry (unit_matrix n) i j = entry (unit_matrix n) j i). rewrite !unit_entry by auto. unfold one.
    destruct (Nat.eqb_spec i j), (Nat.eqb_spec j i); congruence.
  - intros x Hx N. rewrite unit_matvec by auto. apply dot_self_pos. rewrite Hx. auto.
Qed.
Lemma constructed_spd llt n mu Sg G : constructed llt n mu Sg G -> length mu = n /\ spd n Sg.
Proof. intros []; split; auto; try apply unit_spd; unfold zeros; apply repeat_length. Qed.

(** The log density of a Gaussian, for every dimension, mean and covariance, every Cholesky implementation and
    every schedule of the parallel reduction, written to any output with consecutive entries. *)
Theorem C50_logdensity_partial : forall llt sch n mu Sg G, chol_correct llt -> schedules sch -> constructed llt n mu Sg G ->
  logdens (fun s => s = 1%nat) (gauss_density G sch) n (normal_logpdf n mu Sg).
Proof.
  intros llt sch n mu Sg G Hl Hs HG. pose proof (constructed_spd _ _ _ _ _ HG) as [Hmu Hspd].
  assert (Main : exists w ld, ga_dim G = n /\ (ga_mean G = [] \/ length (ga_mean G) = n) /\ mean_of G n = mu /\ ga_logDetCov G = Fin ld /\ ld = ln (det n Sg) /\
    (if ga_idCov G then forall d, w d = d else forall d, length d = n -> chol_apply ch_solveL (ga_chol G) d = Ok (w d) /\ length (w d) = n) /\
    forall d, length d = n -> exists z, length z = n /\ matvec Sg z = d /\ dot (w d) (w d) = dot d z).
  { assert (Fac : forall cov c ld, Factorize llt cov = Ok (c, ld) -> spd n (mx_cols cov) -> c = llt (mx_cols cov) /\ ld = Fin (ln (det n (mx_cols cov))) /\
       (forall d, length d = n -> chol_apply ch_solveL (Some c) d = Ok (ch_solveL c d) /\ length (ch_solveL c d) = n) /\
       forall d, length d = n -> exists z, length z = n /\ matvec (mx_cols cov) z = d /\ dot (ch_solveL c d) (ch_solveL c d) = dot d z).
    { intros cov c ld E Hsp. unfold Factorize, as_left in E. destruct (_ && _)%bool; [|discriminate]. cbn [obind] in E. injection E as <- <-.
      destruct (Hl n _ Hsp) as (L & HF & Hn & Hdet & Hb). split; auto. split; [|split].
      - rewrite Hdet, <- (chol_det n (mx_cols cov) L) by (auto; apply Hsp). unfold dlog.
        destruct (Rlt_dec 0 (det n (mx_cols cov))) as [|N]; auto. exfalso. apply N. rewrite (chol_det n (mx_cols cov) L) by (auto; apply Hsp).
        destruct HF as (_ & _ & Hd & _). pose proof (rprod_pos _ _ Hd). nra.
      - intros d Hd. unfold chol_apply. rewrite Hn, Hd, Nat.eqb_refl. split; auto. apply Hb. auto.
      - intros d Hd. destruct (Hb d Hd) as [[Ly Ey] _]. set (y := ch_solveL (llt (mx_cols cov)) d) in *. destruct (Hb y Ly) as [_ [[Lz Ez] _]].
        exists (ch_solveU (llt (mx_cols cov)) y). split; auto. split.
        + rewrite (chol_matvec n _ L) by (auto; apply Hsp). rewrite Ez. auto.
        + transitivity (dot (matvec L y) (ch_solveU (llt (mx_cols cov)) y)); [|rewrite Ey; reflexivity]. rewrite (dot_comm (matvec L y)). rewrite (dot_mv n) by (auto; apply HF). rewrite Ez. reflexivity. }
    assert (Id : forall d, length d = n -> exists z, length z = n /\ matvec (unit_matrix n) z = d /\ dot d d = dot d z).
    { intros d Hd. exists d. split; auto. split; auto. apply unit_matvec. auto. }
    assert (Zn : mean_of (gauss_std n) n = zeros n) by reflexivity.
    destruct HG as [mu cov G E Hr Hsp|cov G E Hsp|mu|n].
    - unfold gauss_mean_cov in E. destruct (Factorize llt cov) as [[c ld]| | |] eqn:EF; try discriminate. cbn [obind] in E. injection E as <-.
      destruct (Fac cov c ld EF Hsp) as (_ & -> & F1 & F2). exists (ch_solveL c), (ln (det (length mu) (mx_cols cov))). cbn [ga_dim ga_mean ga_logDetCov ga_idCov ga_chol fst snd].
      repeat split; auto; try (intros; apply F1; auto). unfold mean_of. cbn [ga_mean]. destruct mu; reflexivity.
    - unfold gauss_cov in E. destruct (Factorize llt cov) as [[c ld]| | |] eqn:EF; try discriminate. cbn [obind] in E. injection E as <-.
      destruct (Fac cov c ld EF Hsp) as (_ & -> & F1 & F2). exists (ch_solveL c), (ln (det (mx_rows cov) (mx_cols cov))). cbn [ga_dim ga_mean ga_logDetCov ga_idCov ga_chol fst snd].
      repeat split; auto; try (intros; apply F1; auto).
    - exists (fun d => d), 0. cbn [ga_dim ga_mean ga_logDetCov ga_idCov gauss_mean]. rewrite unit_det, ln_1. repeat split; auto. unfold mean_of. cbn. destruct mu; reflexivity.
    - exists (fun d => d), 0. cbn [ga_dim ga_mean ga_logDetCov ga_idCov gauss_std]. rewrite unit_det, ln_1. repeat split; auto. }
  destruct Main as (w & ld & H1 & H2 & H3 & H4 & H5 & H6 & H7). intros pts out Hp Hin Hst.
  destruct (gauss_values G sch n w ld H1 H2 H4 (Hs n) H6 pts out Hp Hin Hst) as (out' & vs & E1 & E2 & E3 & E4). exists out', vs. split; auto. split; auto. split; auto.
  destruct Hp as [_ Hc]. rewrite H3 in E4. clear - E4 Hc H7 H5 Hmu. induction E4 as [|x v l l' E _ IH]; constructor; [|inversion Hc; auto]. inversion Hc as [|? ? Hx _]; subst.
  destruct (H7 (minus x mu)) as (z & Lz & Ez & Dz); [rewrite minus_length; lia|]. exists z. split; auto. split; auto. rewrite Dz. reflexivity.
Qed.
Print Assumptions C50_logdensity_partial.

(** The allocating call, which every caller of LogDensity uses. *)
Theorem C50_logdensity : forall llt sch n mu Sg G X, chol_correct llt -> schedules sch -> constructed llt n mu Sg G -> is_mat n X ->
  exists vs, d_LogDensity (gauss_density G sch) X = Ok (map Fin vs) /\ Forall2 (normal_logpdf n mu Sg) (mx_cols X) vs.
Proof.
  intros llt sch n mu Sg G X Hl Hs HG HX. eapply LogDensity_ok; [eapply C50_logdensity_partial; eauto|reflexivity|auto].
Qed.
Print Assumptions C50_logdensity.

Lemma spd_sym n Sg : spd n Sg -> fsym n (entry Sg).
Proof. intros H. apply (spd_functional n Sg H). Qed.
Lemma spd_rows n Sg : spd n Sg -> rows_of n n Sg.
Proof. intros H. apply H. Qed.
(** ** Linear systems with a positive definite matrix *)
Section Solve.
Variables (n : nat) (Sg : list (list R)).
Hypothesis HS : spd n Sg.
Definition sol (b : list R) : list R := let L := chol_list n Sg in usolve_list n L (fsolve_list n L b).
Lemma sol_ok b : length b = n -> length (sol b) = n /\ matvec Sg (sol b) = b.
Proof.
  intros Hb. pose proof (chol_list_ok n Sg HS) as F. destruct (fsolve_list_ok n Sg _ b F Hb) as [L1 E1]. destruct (usolve_list_ok n Sg _ _ F L1) as [L2 E2].
  split; [exact L2|]. unfold sol. rewrite (chol_matvec n Sg (chol_list n Sg)) by (auto; apply HS). rewrite E2. exact E1.
Qed.
Definition W (i : nat) : list R := sol (basis_vec n i).
Lemma W_length i : length (W i) = n. Proof. apply sol_ok. apply basis_length. Qed.
Lemma sol_unique z b : length z = n -> matvec Sg z = b -> z = map (fun i => dot (W i) b) (seq 0 n).
Proof.
  intros Hz E. apply (list_ext n); auto; [rewrite map_length, seq_length; auto|]. intros i Hi. rewrite coord_map_seq' by auto. rewrite <- E.
  rewrite (dot_sym_mv n) by (auto using spd_sym, spd_rows, W_length). unfold W. rewrite (proj2 (sol_ok _ (basis_length n i))). symmetry. apply dot_basis; auto.
Qed.
Lemma sol_linear b : length b = n -> matvec Sg (map (fun i => dot (W i) b) (seq 0 n)) = b.
Proof. intros Hb. destruct (sol_ok b Hb) as [L E]. rewrite <- (sol_unique (sol b) b L E). exact E. Qed.
End Solve.

(** The log density is determined by the point. *)
Theorem C50_unique : forall n mu Sg x v1 v2, spd n Sg -> normal_logpdf n mu Sg x v1 -> normal_logpdf n mu Sg x v2 -> v1 = v2.
Proof.
  intros n mu Sg x v1 v2 H (z1 & L1 & E1 & ->) (z2 & L2 & E2 & ->).
  rewrite (sol_unique n Sg H z1 _ L1 E1), (sol_unique n Sg H z2 _ L2 E2). reflexivity.
Qed.
Print Assumptions C50_unique.

Lemma is_derive_rsum (f : nat -> R -> R) (df : nat -> R) t n : (forall i, (i < n)%nat -> is_derive (f i) t (df i)) ->
  is_derive (fun u => rsum (fun i => f i u) n) t (rsum df n).
Proof.
  induction n as [|n IH]; intros H; [apply (@is_derive_const _ R_NormedModule 0)|]. cbn [rsum].
  apply (@is_derive_plus R_AbsRing R_NormedModule); [apply IH; auto|apply H; auto].
Qed.
Lemma minus_velocity g t v mu : velocity g t v -> length mu = length v -> velocity (fun u => minus (g u) mu) t v.
Proof.
  intros [H1 H2] Hm. split; [intros u; rewrite minus_length; rewrite H1; auto|]. intros j Hj.
  apply is_derive_ext with (f := fun u => coord (g u) j + - coord mu j).
  { intros u. rewrite coord_minus by (rewrite H1; auto). reflexivity. }
  replace (coord v j) with (plus (coord v j) 0 : R) by (unfold plus; cbn; ring). apply (@is_derive_plus R_AbsRing R_NormedModule); [apply H2; auto|apply (@is_derive_const _ R_NormedModule)].
Qed.
Lemma dot_opp_r a b : dot a (map Ropp b) = - dot a b.
Proof. revert b. induction a as [|x a IH]; intros [|y b]; cbn; try ring. rewrite IH. ring. Qed.

(** The score is the gradient of the log density. *)
Theorem C50_score_is_gradient : forall n mu Sg lp g, spd n Sg -> length mu = n ->
  (forall x, length x = n -> normal_logpdf n mu Sg x (lp x)) ->
  (forall x, length x = n -> length (g x) = n /\ normal_score mu Sg x (g x)) -> gradient_of n lp g.
Proof.
  intros n mu Sg lp g HS Hmu Hlp Hg. split; [intros y Hy; apply Hg; auto|]. intros gy t v Hv Lv.
  assert (Lg : forall u, length (gy u) = n) by (intros u; destruct Hv as [Hv _]; rewrite Hv; auto).
  pose proof (minus_velocity gy t v mu Hv ltac:(lia)) as Hd. set (d := fun u => minus (gy u) mu) in *.
  assert (Ld : forall u, length (d u) = n) by (intros u; unfold d; rewrite minus_length; rewrite Lg; auto).
  set (w := W n Sg). set (c := - / 2 * (INR n * ln (2 * PI) + ln (det n Sg))).
  assert (Elp : forall u, lp (gy u) = - / 2 * rsum (fun i => coord (d u) i * dot (w i) (d u)) n + c).
  { intros u. destruct (Hlp (gy u) (Lg u)) as (z & Lz & Ez & ->). fold (d u) in Ez |- *. rewrite (sol_unique n Sg HS z (d u) Lz Ez).
    rewrite (dot_rsum _ _ n) by auto. unfold c. fold w. rewrite (rsum_ext' (fun k => coord (d u) k * coord (map (fun i => dot (w i) (d u)) (seq 0 n)) k) (fun i => coord (d u) i * dot (w i) (d u))).
    - ring.
    - intros k Hk. rewrite coord_map_seq' by auto. reflexivity. }
  apply is_derive_ext with (f := fun u => - / 2 * rsum (fun i => coord (d u) i * dot (w i) (d u)) n + c); [intros u; rewrite Elp; reflexivity|].
  set (z := map (fun i => dot (w i) (d t)) (seq 0 n)). set (y := map (fun i => dot (w i) v) (seq 0 n)).
  assert (E1 : rsum (fun i => coord v i * dot (w i) (d t) + coord (d t) i * dot (w i) v) n = 2 * dot z v).
  { rewrite rsum_plus.
    assert (A : rsum (fun i => coord v i * dot (w i) (d t)) n = dot v z).
    { rewrite (dot_rsum _ _ n) by auto. apply rsum_ext'. intros i Hi. unfold z. rewrite coord_map_seq' by auto. reflexivity. }
    assert (B : rsum (fun i => coord (d t) i * dot (w i) v) n = dot (d t) y).
    { rewrite (dot_rsum _ _ n) by auto. apply rsum_ext'. intros i Hi. unfold y. rewrite coord_map_seq' by auto. reflexivity. }
    rewrite A, B. rewrite <- (sol_linear n Sg HS (d t) (Ld t)). fold w. fold z.
    rewrite <- (dot_sym_mv n) by (auto using spd_sym, spd_rows; unfold z, y; rewrite map_length, seq_length; auto).
    unfold y, w. rewrite (sol_linear n Sg HS v Lv). rewrite (dot_comm v). ring. }
  assert (E2 : dot (g (gy t)) v = - dot z v).
  { destruct (Hg (gy t) (Lg t)) as [Lgt Sc]. unfold normal_score in Sc. rewrite (sol_unique n Sg HS (g (gy t)) _ Lgt Sc).
    rewrite <- (map_opp_minus (gy t) mu) by (rewrite Lg; auto). fold (d t). rewrite !(dot_comm _ v), <- dot_opp_r. f_equal. unfold z. rewrite map_map. apply map_ext. intros i.
    fold w. apply dot_opp_r. }
  rewrite E2. replace (- dot z v) with (plus (- / 2 * rsum (fun i => coord v i * dot (w i) (d t) + coord (d t) i * dot (w i) v) n) 0 : R) by (rewrite E1; unfold plus; cbn; field).
  apply (@is_derive_plus R_AbsRing R_NormedModule); [|apply (@is_derive_const _ R_NormedModule)]. apply is_derive_scal.
  apply is_derive_rsum. intros i Hi. apply (is_derive_mult (fun u => coord (d u) i) (fun u => dot (w i) (d u)) t (coord v i) (dot (w i) v)).
  - destruct Hd as [_ Hd]. apply Hd. lia.
  - apply dot_derive. exact Hd.
  - intros; apply Rmult_comm.
Qed.
Print Assumptions C50_score_is_gradient.

(** The gradient the code computes. With the identity covariance it goes to any output; with a dense covariance
    only to column-major outputs. *)
Lemma dense_facts llt n mu Sg G : chol_correct llt -> constructed llt n mu Sg G ->
  ga_dim G = n /\ (ga_mean G = [] \/ length (ga_mean G) = n) /\ mean_of G n = mu /\
  (ga_idCov G = true -> Sg = unit_matrix n) /\
  (ga_idCov G = false -> forall d, length d = n -> exists y z, chol_apply ch_solveL (ga_chol G) d = Ok y /\ chol_apply ch_solveU (ga_chol G) y = Ok z /\ length z = n /\ matvec Sg z = d).
Proof.
  intros Hl HG. pose proof (constructed_spd _ _ _ _ _ HG) as [Hmu Hspd].
  assert (Fac : forall cov c ld, Factorize llt cov = Ok (c, ld) -> spd n (mx_cols cov) -> forall d, length d = n -> 
     exists y z, chol_apply ch_solveL (Some c) d = Ok y /\ chol_apply ch_solveU (Some c) y = Ok z /\ length z = n /\ matvec (mx_cols cov) z = d).
  { intros cov c ld E Hsp d Hd. unfold Factorize, as_left in E. destruct (_ && _)%bool; [|discriminate]. cbn [obind] in E. injection E as <- <-.
    destruct (Hl n _ Hsp) as (L & HF & Hn & Hdet & Hb). destruct (Hb d Hd) as [[Ly Ey] _]. set (y := ch_solveL (llt (mx_cols cov)) d) in *.
    destruct (Hb y Ly) as [_ [[Lz Ez] _]]. exists y, (ch_solveU (llt (mx_cols cov)) y). unfold chol_apply. rewrite Hn, Hd, Ly, Nat.eqb_refl. repeat split; auto.
    rewrite (chol_matvec n _ L) by (auto; apply Hsp). rewrite Ez. exact Ey. }
  destruct HG as [mu cov G E Hr Hsp|cov G E Hsp|mu|n].
  - unfold gauss_mean_cov in E. destruct (Factorize llt cov) as [[c ld]| | |] eqn:EF; try discriminate. cbn [obind] in E. injection E as <-.
    cbn [ga_dim ga_mean ga_idCov ga_chol fst snd]. split; auto. split; auto. split; [unfold mean_of; cbn [ga_mean]; destruct mu; reflexivity|]. split; [discriminate|].
    intros _. apply (Fac cov c ld); auto.
  - unfold gauss_cov in E. destruct (Factorize llt cov) as [[c ld]| | |] eqn:EF; try discriminate. cbn [obind] in E. injection E as <-.
    cbn [ga_dim ga_mean ga_idCov ga_chol fst snd]. split; auto. split; auto. split; [reflexivity|]. split; [discriminate|].
    intros _. apply (Fac cov c ld); auto.
  - cbn. split; auto. split; auto. split; [unfold mean_of; cbn; destruct mu; reflexivity|]. split; auto. discriminate.
  - cbn. split; auto. split; auto. split; auto. split; auto. discriminate.
Qed.
Definition score_layout (G : gauss) : layout := if ga_idCov G then any_layout else left_layout.
Theorem C50_gradient_partial : forall llt sch n mu Sg G, chol_correct llt -> constructed llt n mu Sg G ->
  exists g, inputgrad (score_layout G) (gauss_density G sch) n g /\ forall x, length x = n -> length (g x) = n /\ normal_score mu Sg x (g x).
Proof.
  intros llt sch n mu Sg G Hl HG. pose proof (constructed_spd _ _ _ _ _ HG) as [Hmu Hspd].
  destruct (dense_facts _ _ _ _ _ Hl HG) as (H1 & H2 & H3 & H4 & H5).
  destruct (ga_idCov G) eqn:EI.
  - rewrite (H4 eq_refl). exists (fun x => minus mu x). split.
    + intros pts out [Hp Hc] [Ho _] Hlen _. cbn [gauss_density d_InputGradImpl]. unfold ga_InputGradImpl. rewrite Hp, H1, Ho, Hlen, !Nat.eqb_refl. cbn [negb andb].
      rewrite (omap_ok _ (fun x => minus mu x)) by (intros x Hx; rewrite Forall_forall in Hc; rewrite <- H3; apply shift_score; auto). cbn [obind]. rewrite EI. reflexivity.
    + intros x Hx. assert (length (minus mu x) = n) by (rewrite minus_length; lia). split; auto. unfold normal_score. apply unit_matvec. auto.
  - specialize (H5 eq_refl). exists (fun x => sol n Sg (minus mu x)). split.
    + intros pts out [Hp Hc] [Ho _] Hlen HL. cbn [gauss_density d_InputGradImpl]. unfold ga_InputGradImpl. rewrite Hp, H1, Ho, Hlen, !Nat.eqb_refl. cbn [negb andb].
      rewrite Forall_forall in Hc.
      rewrite (omap_ok _ (fun x => minus mu x)) by (intros x Hx; rewrite <- H3; apply shift_score; auto). cbn [obind]. rewrite EI.
      unfold score_layout, has_layout in HL. rewrite EI in HL. destruct HL as [S0 S1]. unfold as_left. cbn [same_layout mx_s0 mx_s1 mx_rows mx_cols].
      rewrite S0, S1, !Nat.eqb_refl. cbn [andb obind].
      assert (HL : forall x, In x (mx_cols pts) -> length (minus mu x) = n) by (intros x Hx; pose proof (Hc x Hx); rewrite minus_length; congruence).
      assert (E : exists ys, omap (chol_apply ch_solveL (ga_chol G)) (map (fun x => minus mu x) (mx_cols pts)) = Ok ys /\
        omap (chol_apply ch_solveU (ga_chol G)) ys = Ok (map (fun x => sol n Sg (minus mu x)) (mx_cols pts))).
      { clear - HL H5 Hspd. induction (mx_cols pts) as [|x l IH]; [exists []; split; reflexivity|]. destruct IH as (ys & E1 & E2); [intros; apply HL; cbn; auto|].
        destruct (H5 (minus mu x) (HL x (or_introl eq_refl))) as (y & z & A1 & A2 & A3 & A4). exists (y :: ys). cbn [map omap]. rewrite A1, E1. cbn [obind]. split; auto.
        rewrite A2, E2. cbn [obind]. do 2 f_equal. destruct (sol_ok n Sg Hspd (minus mu x) (HL x (or_introl eq_refl))) as [B1 B2].
        rewrite (sol_unique n Sg Hspd z _ A3 A4), (sol_unique n Sg Hspd (sol n Sg (minus mu x)) _ B1 B2). reflexivity. }
      destruct E as (ys & E1 & E2). rewrite E1. cbn [obind]. rewrite E2. reflexivity.
    + intros x Hx. apply sol_ok; auto. rewrite minus_length; lia.
Qed.
Print Assumptions C50_gradient_partial.

(** The gradient-returning call works for identity covariances ... *)
Theorem C50_gradient_identity : forall llt sch n mu Sg G X, chol_correct llt -> constructed llt n mu Sg G -> ga_idCov G = true -> is_mat n X ->
  exists g, d_LogDensityInputGrad (gauss_density G sch) X = Ok (right_mat n (map g (mx_cols X))) /\
    forall x, length x = n -> length (g x) = n /\ normal_score mu Sg x (g x).
Proof.
  intros llt sch n mu Sg G X Hl HG HI HX. destruct (C50_gradient_partial llt sch n mu Sg G Hl HG) as (g & H1 & H2). exists g. split; auto.
  eapply LogDensityInputGrad_ok; eauto. unfold score_layout. rewrite HI. intros; exact I.
Qed.
Print Assumptions C50_gradient_identity.
(** ... and never with a dense one: the allocated result is row-major, which the triangular solve rejects (unless it is 1x1). *)
Theorem C50_dense_gradient_refuted : forall llt sch n mu Sg G X, chol_correct llt -> constructed llt n mu Sg G -> ga_idCov G = false -> is_mat n X ->
  (n, length (mx_cols X)) <> (1, 1)%nat -> d_LogDensityInputGrad (gauss_density G sch) X = Throw.
Proof.
  intros llt sch n mu Sg G X Hl HG HI [HX Hc] HN. destruct (dense_facts _ _ _ _ _ Hl HG) as (H1 & H2 & H3 & _ & _).
  unfold d_LogDensityInputGrad. cbn [gauss_density d_InputGradImpl]. unfold ga_InputGradImpl. cbn [alloc_mat right_mat mx_rows mx_cols].
  rewrite HX, H1, repeat_length, !Nat.eqb_refl. cbn [negb andb]. rewrite Forall_forall in Hc.
  rewrite (omap_ok _ (fun x => minus mu x)) by (intros x Hx; rewrite <- H3; apply shift_score; auto). cbn [obind]. rewrite HI.
  unfold as_left. cbn [same_layout alloc_mat right_mat mx_s0 mx_s1 mx_rows mx_cols]. rewrite ?repeat_length.
  destruct (Nat.eqb_spec (length (mx_cols X)) 1) as [E1|E1]; [|reflexivity]. destruct (Nat.eqb_spec 1 n) as [E2|E2]; [|reflexivity].
  exfalso. apply HN. congruence.
Qed.
Print Assumptions C50_dense_gradient_refuted.

(** Outputs whose entries are not consecutive are filled wrongly, and memory beside them is overwritten. *)
Definition strided_out : vecview := MkVec [Fin 0; Fin 7; Fin 0] 0 2 2.
Theorem C50_strided_output_refuted : forall sch, schedules sch -> let pts := right_mat 1 [[0]; [1]] in
  is_mat 1 pts /\ inside 2 strided_out /\
  exists out', ga_LogDensityImpl (gauss_std 1) sch pts strided_out = Ok out' /\
    nth 1 (v_buf out') NaN <> Fin 7 /\
    (exists v, nth 1 (entries out') NaN = Fin v /\ ~ normal_logpdf 1 [0] [[1]] [1] v).
Proof.
  intros sch Hs pts. split; [split; [reflexivity|repeat constructor]|]. split.
  { split; [reflexivity|]. split; [cbn; lia|]. intros [|[|j]] Hj; cbn; lia. }
  unfold ga_LogDensityImpl. cbn [pts right_mat mx_rows mx_cols length gauss_std ga_dim ga_idCov ga_logDetCov Nat.eqb negb].
  rewrite (omap_ok _ (fun x => minus x (zeros 1))).
  2:{ intros x Hx. apply (shift_minus (gauss_std 1) 1); [left; reflexivity|]. cbn in Hx. destruct Hx as [<-|[<-|[]]]; reflexivity. }
  cbn [obind map]. set (diff := [minus [0] (zeros 1); minus [1] (zeros 1)]).
  rewrite (rd_run_complete _ (fun i j => coord (nth j diff []) i) 2 kernel_norm (- / 2) 1 (sch 1%nat) (Hs 1%nat)).
  2:{ intros [|r] k Hr Hk; [|lia]. destruct k as [|[|k]]; [reflexivity|reflexivity|lia]. }
  cbn [obind seq map]. eexists. split; [reflexivity|]. split.
  - cbn. unfold kernel_norm, coord. cbn. intros E. injection E as E. lra.
  - eexists. split; [cbn; reflexivity|]. intros (z & Lz & Ez & Ev). destruct z as [|z [|]]; try discriminate. cbn in Ez, Ev. injection Ez as Ez.
    unfold coord in Ev. cbn in Ev. unfold logtau in Ev. assert (z = 1) by lra. subst z. 
    replace (-1 * / 1) with (-1) in Ev by field. rewrite !Rmult_1_r in Ev. unfold remove_col in Ev. cbn in Ev.
    replace (0 + 1) with 1 in Ev by ring. rewrite ln_1 in Ev. lra.
Qed.
Print Assumptions C50_strided_output_refuted.

(** ** Examples *)
Definition ex_cov : matrix := MkMat 2 [[2; 1]; [1; 2]] 1 2.
Definition ex_sched (M : nat) : sched := match M with O => Chunk [] | S m => Join (Chunk [m]) (Chunk (rev (seq 0 m))) end.
Lemma ex_sched_ok : schedules ex_sched.
Proof.
  intros [|m]; unfold complete, ex_sched; cbn [iterations]; [constructor|]. rewrite seq_S. cbn [Nat.add]. eapply Permutation_trans; [apply Permutation_app_comm|].
  apply Permutation_app_tail. symmetry. apply Permutation_rev.
Qed.
Lemma ex_cov_spd : spd 2 (mx_cols ex_cov).
Proof.
  split; [split; repeat constructor|]. split.
  - intros [|[|i]] [|[|j]] Hi Hj; try lia; reflexivity.
  - intros x Hx N. destruct x as [|a [|b [|]]]; try discriminate. cbn [ex_cov mx_cols matvec map dot].
    replace (a * (2 * a + (1 * b + 0)) + (b * (1 * a + (2 * b + 0)) + 0)) with ((a + b) * (a + b) + a * a + b * b) by ring.
    pose proof (Rle_0_sqr (a + b)) as P1. pose proof (Rle_0_sqr a) as P2. pose proof (Rle_0_sqr b) as P3. unfold Rsqr in *.
    destruct (Req_dec a 0) as [Za|Na]; [destruct (Req_dec b 0) as [Zb|Nb]; [exfalso; apply N; subst; reflexivity|]|].
    + pose proof (Rlt_0_sqr b Nb). unfold Rsqr in *. lra.
    + pose proof (Rlt_0_sqr a Na). unfold Rsqr in *. lra.
Qed.
Example C50_example : exists G, constructed exact_llt 2 [1; -1] [[2; 1]; [1; 2]] G /\
  exists vs, d_LogDensity (gauss_density G ex_sched) (right_mat 2 [[2; 1]; [1; -1]]) = Ok (map Fin vs) /\
    vs = [- / 2 * 2 - / 2 * (2 * ln (2 * PI) + ln 3); - / 2 * (2 * ln (2 * PI) + ln 3)].
Proof.
  pose (G := MkGauss 2 [1; -1] (Some (exact_llt (mx_cols ex_cov))) false (dlog (ch_detL (exact_llt (mx_cols ex_cov)) * ch_detL (exact_llt (mx_cols ex_cov))))).
  assert (HG : constructed exact_llt 2 [1; -1] [[2; 1]; [1; 2]] G) by (apply (by_mean_cov exact_llt [1; -1] ex_cov G); [reflexivity|reflexivity|apply ex_cov_spd]).
  exists G. split; auto.
  destruct (C50_logdensity exact_llt ex_sched 2 [1; -1] [[2; 1]; [1; 2]] G (right_mat 2 [[2; 1]; [1; -1]]) exact_llt_correct ex_sched_ok HG) as (vs & E & F).
  { split; [reflexivity|repeat constructor]. }
  exists vs. split; auto. cbn [right_mat mx_cols] in F. inversion F as [|x1 v1 l1 l1' F1 F2]; subst. inversion F2 as [|x2 v2 l2 l2' F3 F4]; subst. inversion F4; subst.
  assert (Det : det 2 [[2; 1]; [1; 2]] = 3) by (unfold det, remove_col, rsum, coord; cbn; ring).
  f_equal; [|f_equal].
  - apply (C50_unique 2 [1; -1] [[2; 1]; [1; 2]] [2; 1] _ _ ex_cov_spd F1). exists [0; 1]. rewrite Det. cbn. repeat split; [f_equal; [ring|f_equal; ring]|lra].
  - apply (C50_unique 2 [1; -1] [[2; 1]; [1; 2]] [1; -1] _ _ ex_cov_spd F3). exists [0; 0]. rewrite Det. cbn. repeat split; [f_equal; [ring|f_equal; ring]|lra].
Qed.
Example C50_gradient_example : exists G, constructed exact_llt 2 [1; -1] [[2; 1]; [1; 2]] G /\ ga_idCov G = false /\ score_layout G 2%nat 3%nat 1%nat 2%nat /\
  d_LogDensityInputGrad (gauss_density G ex_sched) (right_mat 2 [[2; 1]; [1; -1]]) = Throw.
Proof.
  pose (G := MkGauss 2 [1; -1] (Some (exact_llt (mx_cols ex_cov))) false (dlog (ch_detL (exact_llt (mx_cols ex_cov)) * ch_detL (exact_llt (mx_cols ex_cov))))).
  assert (HG : constructed exact_llt 2 [1; -1] [[2; 1]; [1; 2]] G) by (apply (by_mean_cov exact_llt [1; -1] ex_cov G); [reflexivity|reflexivity|apply ex_cov_spd]).
  exists G. split; auto. split; [reflexivity|]. split; [split; reflexivity|].
  eapply C50_dense_gradient_refuted; eauto using exact_llt_correct; [split; [reflexivity|repeat constructor]|discriminate].
Qed.
