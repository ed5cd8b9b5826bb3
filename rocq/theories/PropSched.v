(** Theorem C55: parallel loops over points. *)
From Coq Require Import Reals ZArith NArith Lra Psatz.
From Flocq Require Import Core Relative.
From Verif Require Import Base MISetLimFill SpecMulti SpecExpansion ExpansionModel ExpansionProofs ExpansionDeriv PropExpansion QuadModel MonoModel MonoProofs MonoComp PropMono PropMonoRefute MonoClean SchedModel SchedProofs KernelModel.

(** ** The policy: every point has exactly one work item. *)
Local Open Scope R_scope.
Lemma ceil_quotient (n t : nat) : (0 < t)%nat -> (t <= n)%nat -> (Z.of_nat n < 2 ^ 32)%Z -> Zceil (double (INR n / INR t)) = Zceil (INR n / INR t).
Proof.
  intros Ht Htn Hn. set (q := INR n / INR t). set (k := Zceil q).
  assert (Tp : 0 < INR t) by (apply lt_0_INR; auto). assert (Np : INR t <= INR n) by (apply le_INR; auto).
  assert (Q1 : 1 <= q). { unfold q. apply Rmult_le_reg_r with (INR t); auto. unfold Rdiv. rewrite Rmult_assoc, Rinv_l by lra. lra. }
  assert (Qn : q <= INR n). { unfold q. apply Rmult_le_reg_r with (INR t); auto. unfold Rdiv. rewrite Rmult_assoc, Rinv_l by lra. assert (1 <= INR t) by (change 1 with (INR 1); apply le_INR; lia). nra. }
  assert (K1 : q <= IZR k) by apply Zceil_ub. assert (K2 : IZR k < q + 1). { pose proof (Zceil_lb q). unfold k. lra. }
  assert (Kn : (1 <= k <= Z.of_nat n)%Z). { split; [apply le_IZR; lra|]. unfold k. apply Zceil_glb. rewrite <- INR_IZR_INZ. auto. }
  assert (Hup : double q <= IZR k).
  { unfold double. rewrite <- (round_generic radix2 (FLT_exp (-1074) 53) ZnearestE (IZR k)).
    - apply round_le; [apply FLT_exp_valid; unfold Prec_gt_0; lia|apply valid_rnd_N|auto].
    - apply generic_format_FLT. exists (Float radix2 k 0); cbn; [unfold F2R; cbn; ring|lia|lia]. }
  assert (Hlo : IZR k - 1 < double q).
  { pose proof (relative_error_N_FLT radix2 (-1074) 53 ltac:(lia) (fun x => negb (Z.even x)) q) as RE.
    assert (BP : bpow radix2 (-1074 + 53 - 1) <= Rabs q). { rewrite Rabs_pos_eq by lra. apply Rle_trans with (bpow radix2 0); [apply bpow_le; lia|cbn; lra]. }
    specialize (RE BP). fold (double q) in RE. rewrite (Rabs_pos_eq q) in RE by lra. apply Rabs_def2b in RE as (R1 & _) || apply Rabs_le_inv in RE as (R1 & _).
    assert (D : 1 <= INR n - (IZR k - 1) * INR t).
    { assert (X : (IZR k - 1) * INR t < INR n). { assert (IZR k - 1 < q) by lra. replace (INR n) with (q * INR t) by (unfold q; field; lra). apply Rmult_lt_compat_r; auto. }
      rewrite !INR_IZR_INZ in *. rewrite <- minus_IZR, <- mult_IZR in *. apply lt_IZR in X. rewrite <- minus_IZR. apply IZR_le. lia. }
    assert (B32 : INR n <= 2 ^ 32). { rewrite INR_IZR_INZ. replace (2 ^ 32) with (IZR (2 ^ 32)) by (rewrite (pow_IZR 2 32); reflexivity). apply IZR_le. lia. }
    assert (E : / 2 * bpow radix2 (- (53) + 1) * q < q - (IZR k - 1)).
    { apply Rmult_lt_reg_r with (INR t); auto. replace ((q - (IZR k - 1)) * INR t) with (INR n - (IZR k - 1) * INR t) by (unfold q; field; lra).
      replace (/ 2 * bpow radix2 (- (53) + 1) * q * INR t) with (/ 2 * bpow radix2 (- (53) + 1) * INR n) by (unfold q; field; lra).
      apply Rlt_le_trans with 1; auto. assert (Bq : bpow radix2 (- (53) + 1) = / 2 ^ 52). { change (- (53) + 1)%Z with (- (52))%Z. rewrite bpow_opp. f_equal. rewrite (pow_IZR 2 52). reflexivity. }
      rewrite Bq. apply Rle_lt_trans with (/ 2 * / 2 ^ 52 * 2 ^ 32); [apply Rmult_le_compat_l; [|auto]; assert (0 < / 2 ^ 52) by (apply Rinv_0_lt_compat; apply pow_lt; lra); lra|]. lra. }
    lra. }
  apply Zceil_imp. rewrite minus_IZR. split; lra.
Qed.
Local Close Scope R_scope.

Lemma policy_covers numPts rec teams threads : cached_policy numPts rec = Ok (teams, threads) -> (N.of_nat numPts < 2 ^ 32)%N ->
  0 < threads /\ threads <= rec /\ numPts <= teams * threads < numPts + threads.
Proof.
  unfold cached_policy. destruct (Nat.eqb_spec (Nat.min numPts rec) 0) as [|E]; [discriminate|]. intros H Hn. injection H as <- <-. set (t := Nat.min numPts rec) in *.
  assert (T1 : 0 < t) by lia. split; auto. split; [unfold t; lia|]. rewrite ceil_quotient by (auto; unfold t; lia).
  assert (Tp : (0 < INR t)%R) by (apply lt_0_INR; auto). set (k := Zceil (INR numPts / INR t)).
  assert (K1 : (INR numPts / INR t <= IZR k)%R) by apply Zceil_ub. assert (K2 : (IZR k < INR numPts / INR t + 1)%R). { pose proof (Zceil_lb (INR numPts / INR t)). unfold k. lra. }
  assert (A : (Z.of_nat numPts <= k * Z.of_nat t)%Z). { apply le_IZR. rewrite mult_IZR, <- !INR_IZR_INZ. apply (Rmult_le_compat_r (INR t)) in K1; [|lra]. unfold Rdiv in K1. rewrite Rmult_assoc, Rinv_l in K1 by lra. lra. }
  assert (B : (k * Z.of_nat t < Z.of_nat numPts + Z.of_nat t)%Z). { apply lt_IZR. rewrite plus_IZR, mult_IZR, <- !INR_IZR_INZ. apply (Rmult_lt_compat_r (INR t)) in K2; auto. rewrite Rmult_plus_distr_r in K2. unfold Rdiv in K2. rewrite Rmult_assoc, Rinv_l in K2 by lra. lra. }
  assert (0 <= k)%Z by nia. split; nia.
Qed.
(** Below 2^32, item (l, r) has index l*threads + r. *)
Lemma ptInd_small threads it : (N.of_nat (fst it * threads + snd it) < 2 ^ 32)%N -> ptInd threads it = fst it * threads + snd it.
Proof. intros H. unfold ptInd. rewrite N.mod_small by auto. apply Nat2N.id. Qed.

(** How a loop may have been started: by a cached range policy (two levels), or by a range policy. *)
Inductive launched (z : sizes) (body : nat -> prog) : loop -> Prop :=
| LaunchTeams : forall rec teams threads, cached_policy (sz_pts z) rec = Ok (teams, threads) -> (N.of_nat (sz_pts z + rec) <= 2 ^ 32)%N ->
    launched z body (MkLoop z (team_items teams threads) (ptInd threads) body)
| LaunchRange : launched z body (MkLoop z (map (fun j => (j, 0)) (seq 0 (sz_pts z))) fst body).


Lemma NoDup_prod {A B} (l : list A) (l' : list B) : NoDup l -> NoDup l' -> NoDup (list_prod l l').
Proof.
  intros H H'. induction H as [|x l H _ IH]; cbn; [constructor|]. apply NoDup_app_intro; auto.
  - apply FinFun.Injective_map_NoDup; auto. intros a b E. congruence.
  - intros (a & b) X Y. apply in_map_iff in X as (y & E & _). injection E as -> <-. apply in_prod_iff in Y as (Y & _). contradiction.
Qed.
Lemma launched_ok z body L : launched z body L -> lp_sz L = z /\ lp_body L = body /\ NoDup (lp_items L) /\
  (forall a b, In a (lp_items L) -> In b (lp_items L) -> lp_col L a = lp_col L b -> a = b) /\ (forall j, j < sz_pts z -> exists it, In it (lp_items L) /\ lp_col L it = j).
Proof.
  intros [rec teams threads H Hn|].
  - assert (Hn' : (N.of_nat (sz_pts z) < 2 ^ 32)%N). { unfold cached_policy in H. destruct (Nat.eqb_spec (Nat.min (sz_pts z) rec) 0); [discriminate|]. lia. }
    destruct (policy_covers _ _ _ _ H Hn') as (T0 & T1 & T2 & T3).
    assert (Sm : forall it, In it (team_items teams threads) -> fst it < teams /\ snd it < threads /\ ptInd threads it = fst it * threads + snd it).
    { intros (l & r) X. apply in_prod_iff in X as (X & Y). apply in_seq in X. apply in_seq in Y. cbn. split; [lia|]. split; [lia|]. apply ptInd_small. cbn. assert (l * threads + r < teams * threads) by nia. lia. }
    cbn [lp_sz lp_body lp_items lp_col]. split; auto. split; auto. split; [apply NoDup_prod; apply seq_NoDup|]. split.
    + intros (l & r) (l' & r') X Y E. apply Sm in X as (X1 & X2 & X3). apply Sm in Y as (Y1 & Y2 & Y3). rewrite X3, Y3 in E. cbn in *. clear X3 Y3. assert (l = l') by nia. subst. f_equal. lia.
    + intros j Hj. exists (j / threads, j mod threads). assert (I : In (j / threads, j mod threads) (team_items teams threads)).
      { apply in_prod_iff. rewrite !in_seq. pose proof (Nat.mod_upper_bound j threads). assert (j / threads < teams) by (apply Nat.div_lt_upper_bound; nia). lia. }
      split; auto. destruct (Sm _ I) as (_ & _ & ->). cbn. rewrite (Nat.div_mod j threads) at 3 by lia. lia.
  - cbn [lp_sz lp_body lp_items lp_col]. split; auto. split; auto. split; [|split].
    + apply FinFun.Injective_map_NoDup; [intros a b E; congruence|apply seq_NoDup].
    + intros a b X Y E. apply in_map_iff in X as (x & <- & _). apply in_map_iff in Y as (y & <- & _). cbn in E. congruence.
    + intros j Hj. exists (j, 0). split; auto. apply in_map_iff. exists j. split; auto. apply in_seq. lia.
Qed.

(** ** What a work item computes *)
(** Contents of memory: a point, the coefficients, a column of sensitivities, an output column, and a thread's scratch memory. *)
Definition pt_of (z : sizes) (m : mem) (j : nat) : list R := map (fun i => m (CPt i j)) (seq 0 (sz_in z)).
Definition co_of (z : sizes) (m : mem) : list R := map (fun i => m (CCo i)) (seq 0 (sz_co z)).
Definition sens_of (z : sizes) (m : mem) (j : nat) : list R := map (fun i => m (CSens i j)) (seq 0 (sz_sens z)).
Definition out_of (z : sizes) (m : mem) (j : nat) : list R := map (fun i => m (COut i j)) (seq 0 (sz_out z)).
Definition scr_of (z : sizes) (m : mem) (s : nat) : list R := map (fun k => m (CScr s k)) (seq 0 (sz_scr z)).

(** [body j], in any order and with any number of memory accesses (at most [bound]) to point j, the coefficients, sensitivity and output column j and
    the scratch memory of its thread, computes [f] when it runs alone. *)
Definition computes (z : sizes) (bound : nat) (f : kernel) (body : nat -> prog) : Prop :=
  forall j, j < sz_pts z -> confined j bound (body j) /\
    forall s m o, f (scr_of z m s) (pt_of z m j) (co_of z m) (sens_of z m j) (out_of z m j) = Ok o ->
      exists r, solo z s (body j) m = Some r /\ out_of z r j = o.
(** The routine returns, and its result does not depend on what scratch memory held. *)
Definition clean (z : sizes) (f : kernel) : Prop :=
  forall pt co sens out, length pt = sz_in z -> length co = sz_co z -> length sens = sz_sens z -> length out = sz_out z ->
    exists o, forall scr, length scr = sz_scr z -> f scr pt co sens out = Ok o.

(** For every schedule of a loop: it takes a bounded number of steps, never fails or races, can always go on until it is finished, and then column j of the
    output is what the routine gives for point j, whatever the scratch memory. *)
Theorem C55_every_schedule : forall (P : nat) (z : sizes) (bound : nat) (f : kernel) (body : nat -> prog) (L : loop) (m : mem), 0 < P ->
  launched z body L -> computes z bound f body -> clean z f ->
  forall n st, steps L P n (start L m) st ->
    n <= length (lp_items L) * (bound + 2) /\ ~ failing L P st /\ ~ racing L P st /\ (finished P st \/ exists st', step L P st st') /\
    (forall c, match c with CPt _ _ | CCo _ | CSens _ _ => st_mem st c = m c | _ => True end) /\
    (finished P st -> forall j, j < sz_pts z -> forall scr, length scr = sz_scr z -> f scr (pt_of z m j) (co_of z m) (sens_of z m j) (out_of z m j) = Ok (out_of z (st_mem st) j)).
Proof.
  intros P z bound f body L m HP HL HC HF n st HS. destruct (launched_ok z body L HL) as (Ez & Eb & ND & Inj & Cov).
  assert (Len : forall j, length (pt_of z m j) = sz_in z /\ length (co_of z m) = sz_co z /\ length (sens_of z m j) = sz_sens z /\ length (out_of z m j) = sz_out z).
  { intros j. unfold pt_of, co_of, sens_of, out_of. rewrite !map_length, !seq_length. auto. }
  set (zs := repeat 0%R (sz_scr z)). assert (Lz : length zs = sz_scr z) by apply repeat_length.
  set (want := fun i j => match f zs (pt_of z m j) (co_of z m) (sens_of z m j) (out_of z m j) with Ok o => nth i o 0%R | _ => 0%R end).
  assert (Hconf : forall j, j < sz_pts (lp_sz L) -> confined j bound (lp_body L j)). { rewrite Ez, Eb. intros j Hj. apply HC; auto. }
  assert (Hsolo : forall j s m', j < sz_pts (lp_sz L) -> (forall c, seen s j c -> (match c with CScr _ _ => False | _ => True end) -> m' c = m c) ->
    exists r, solo (lp_sz L) s (lp_body L j) m' = Some r /\ forall i, i < sz_out (lp_sz L) -> r (COut i j) = want i j).
  { rewrite Ez, Eb. intros j s m' Hj A. destruct (HC j Hj) as (_ & K). destruct (Len j) as (L1 & L2 & L3 & L4). destruct (HF _ _ _ _ L1 L2 L3 L4) as (o & Ho).
    destruct (K s m' o) as (r & R1 & R2).
    { replace (pt_of z m' j) with (pt_of z m j) by (apply map_ext; intros; symmetry; apply A; cbn; auto). replace (co_of z m') with (co_of z m) by (apply map_ext; intros; symmetry; apply A; cbn; auto).
      replace (sens_of z m' j) with (sens_of z m j) by (apply map_ext; intros; symmetry; apply A; cbn; auto). replace (out_of z m' j) with (out_of z m j) by (apply map_ext; intros; symmetry; apply A; cbn; auto).
      apply Ho. unfold scr_of. rewrite map_length, seq_length. auto. }
    exists r. split; auto. intros i Hi. unfold want. rewrite (Ho zs Lz). rewrite <- R2. unfold out_of. rewrite nth_indep with (d' := r (COut 0 j)) by (rewrite map_length, seq_length; auto).
    rewrite (map_nth (fun i => r (COut i j))), seq_nth by auto. reflexivity. }
  assert (Inj' : forall a b, In a (lp_items L) -> In b (lp_items L) -> lp_col L a < sz_pts (lp_sz L) -> lp_col L a = lp_col L b -> a = b) by auto.
  assert (I : inv L P m bound want st). { eapply inv_steps; eauto. apply inv_start; auto. }
  split; [eapply count_steps; eauto|]. split; [eapply inv_not_failing; eauto|]. split; [eapply inv_not_racing; eauto|]. split; [eapply inv_progresses; eauto|]. split; [apply (i_inputs _ _ _ _ _ _ I)|].
  intros (F1 & F2) j Hj scr Ls. destruct (Len j) as (L1 & L2 & L3 & L4). destruct (HF _ _ _ _ L1 L2 L3 L4) as (o & Ho). rewrite Ho by auto. f_equal.
  assert (Lo : length o = sz_out z).
  { destruct (HC j Hj) as (_ & K). destruct (K 0 m o) as (r & _ & R2); [apply Ho; unfold scr_of; rewrite map_length, seq_length; auto|]. rewrite <- R2. unfold out_of. rewrite map_length, seq_length. auto. }
  apply nth_ext with (d := 0%R) (d' := 0%R); unfold out_of; [rewrite map_length, seq_length; auto|]. intros i Hi. rewrite Lo in Hi.
  rewrite (nth_indep (map _ _)) with (d' := st_mem st (COut 0 j)) by (rewrite map_length, seq_length; auto).
  rewrite (map_nth (fun i => st_mem st (COut i j))), seq_nth by auto. cbn [Nat.add]. destruct (Cov j Hj) as (it & I1 & I2). rewrite <- I2.
  rewrite (i_done _ _ _ _ _ _ I it i); auto; try (rewrite ?Ez, ?I2; auto).
  - unfold want. rewrite (Ho zs Lz). reflexivity.
  - rewrite F1. auto.
  - intros s p E. destruct (Nat.lt_ge_cases s P) as [Hs|Hs]; [rewrite F2 in E by auto; discriminate|]. rewrite (i_idle _ _ _ _ _ _ I s Hs) in E. discriminate.
Qed.
Print Assumptions C55_every_schedule.

(** A schedule that ends exists: every schedule can be continued to one. *)
Theorem C55_completes : forall (P : nat) (z : sizes) (bound : nat) (f : kernel) (body : nat -> prog) (L : loop) (m : mem), 0 < P ->
  launched z body L -> computes z bound f body -> clean z f ->
  forall n st, steps L P n (start L m) st -> exists n' st', steps L P n' (start L m) st' /\ finished P st' /\ n <= n'.
Proof.
  intros P z bound f body L m HP HL HC HF n st HS.
  assert (G : forall k, (exists n' st', steps L P n' (start L m) st' /\ finished P st' /\ n <= n') \/ exists st', steps L P (n + k) (start L m) st').
  { induction k as [|k [IH|(st' & IH)]]; auto.
    - right. exists st. rewrite Nat.add_0_r. auto.
    - destruct (C55_every_schedule P z bound f body L m HP HL HC HF _ _ IH) as (_ & _ & _ & [F|(st2 & F)] & _).
      + left. exists (n + k), st'. split; auto. split; auto. lia.
      + right. exists st2. rewrite Nat.add_succ_r. econstructor; eauto. }
  destruct (G (S (length (lp_items L) * (bound + 2)))) as [X|(st' & X)]; auto.
  destruct (C55_every_schedule P z bound f body L m HP HL HC HF _ _ X) as (X1 & _). lia.
Qed.
Print Assumptions C55_completes.

(** Column j depends only on point j: two runs, with any batches around the point, any numbers of threads, teams and any schedules. *)
Theorem C55_columns : forall (f : kernel) (P P' : nat) (z : sizes) (n' : nat) (bound bound' : nat) (body body' : nat -> prog) (L L' : loop) (m m' : mem),
  let z' := MkSz (sz_in z) (sz_co z) (sz_sens z) (sz_out z) n' (sz_scr z) in 0 < P -> 0 < P' ->
  launched z body L -> computes z bound f body -> launched z' body' L' -> computes z' bound' f body' -> clean z f ->
  forall k st k' st' j j', steps L P k (start L m) st -> finished P st -> steps L' P' k' (start L' m') st' -> finished P' st' -> j < sz_pts z -> j' < n' ->
    pt_of z m j = pt_of z m' j' -> co_of z m = co_of z m' -> sens_of z m j = sens_of z m' j' -> out_of z m j = out_of z m' j' ->
    out_of z (st_mem st) j = out_of z (st_mem st') j'.
Proof.
  intros f P P' z n' bound bound' body body' L L' m m' z' HP HP' HL HC HL' HC' HF k st k' st' j j' S1 F1 S2 F2 Hj Hj' E1 E2 E3 E4.
  destruct (C55_every_schedule P z bound f body L m HP HL HC HF _ _ S1) as (_ & _ & _ & _ & _ & X).
  destruct (C55_every_schedule P' z' bound' f body' L' m' HP' HL' HC' HF _ _ S2) as (_ & _ & _ & _ & _ & Y).
  specialize (X F1 j Hj (repeat 0%R (sz_scr z)) (repeat_length _ _)). specialize (Y F2 j' Hj' (repeat 0%R (sz_scr z)) (repeat_length _ _)).
  change (pt_of z' m' j') with (pt_of z m' j') in Y. change (co_of z' m') with (co_of z m') in Y. change (sens_of z' m' j') with (sens_of z m' j') in Y.
  change (out_of z' m' j') with (out_of z m' j') in Y. change (out_of z' (st_mem st') j') with (out_of z (st_mem st') j') in Y. rewrite <- E1, <- E2, <- E3, <- E4 in Y. congruence.
Qed.
Print Assumptions C55_columns.

(** ** Calls made of several loops *)
Definition with_scr (z : sizes) (s : nat) : sizes := MkSz (sz_in z) (sz_co z) (sz_sens z) (sz_out z) (sz_pts z) s.
(** A loop that runs routine [snd k] for every point, with [fst k] doubles of scratch memory, in any of the ways above. *)
Definition runs_kernel (z : sizes) (L : loop) (k : nat * kernel) : Prop :=
  exists body bound, launched (with_scr z (fst k)) body L /\ computes (with_scr z (fst k)) bound (snd k) body.
(** One column through the routines of a call, whatever scratch memory holds. *)
Inductive through (ks : list (nat * kernel)) (pt co sens : list R) : list R -> list R -> Prop :=
| ThNil : forall o, ks = [] -> through ks pt co sens o o
| ThCons : forall s f ks' o o1 o2, ks = (s, f) :: ks' -> (forall scr, length scr = s -> f scr pt co sens o = Ok o1) -> through ks' pt co sens o1 o2 -> through ks pt co sens o o2.

Theorem C55_calls : forall (P : nat) (z : sizes) (ks : list (nat * kernel)) (Ls : list loop) (m : mem), 0 < P ->
  Forall2 (runs_kernel z) Ls ks -> (forall s f, In (s, f) ks -> clean (with_scr z s) f) ->
  (exists m', loops P Ls m m') /\
  forall m', loops P Ls m m' ->
    (forall c, match c with CPt _ _ | CCo _ | CSens _ _ => m' c = m c | _ => True end) /\
    forall j, j < sz_pts z -> through ks (pt_of z m j) (co_of z m) (sens_of z m j) (out_of z m j) (out_of z m' j).
Proof.
  intros P z ks Ls m HP HK. revert m. induction HK as [|L (s & f) Ls ks (body & bound & HL & HC) HK IH]; intros m HF.
  - split; [exists m; constructor|]. intros m' H. inversion H; subst. split; [intros []; auto|]. intros. constructor. auto.
  - assert (HF1 : clean (with_scr z s) f) by (apply HF; left; auto). assert (HF2 : forall s f, In (s, f) ks -> clean (with_scr z s) f) by (intros; apply HF; right; auto). split.
    + destruct (C55_completes P _ bound f body L m HP HL HC HF1 0 (start L m)) as (n & st & S1 & F1 & _); [constructor|].
      destruct (IH (st_mem st) HF2) as ((m' & X) & _). exists m'. econstructor; eauto.
    + intros m' H. inversion H as [|? ? ? n st ? S1 F1 Rest]; subst. destruct (C55_every_schedule P _ bound f body L m HP HL HC HF1 _ _ S1) as (_ & _ & _ & _ & In1 & X). specialize (X F1).
      destruct (IH (st_mem st) HF2) as (_ & Y). destruct (Y m' Rest) as (In2 & Z). split.
      { intros c. specialize (In1 c). specialize (In2 c). destruct c; auto; congruence. }
      intros j Hj. eapply ThCons; [reflexivity| |].
      * intros scr Ls'. apply (X j Hj scr Ls').
      * assert (A : pt_of z (st_mem st) j = pt_of z m j) by (apply map_ext; intros; apply (In1 (CPt _ _))). assert (B : co_of z (st_mem st) = co_of z m) by (apply map_ext; intros; apply (In1 (CCo _))).
        assert (D : sens_of z (st_mem st) j = sens_of z m j) by (apply map_ext; intros; apply (In1 (CSens _ _))). specialize (Z j Hj). rewrite A, B, D in Z. exact Z.
Qed.
Print Assumptions C55_calls.

(** ** Such programs exist: read everything, compute, write the column. *)
Fixpoint reads (l : list access) (k : list R -> prog) : prog := match l with [] => k [] | a :: l => Rd a (fun v => reads l (fun r => k (v :: r))) end.
Fixpoint writes (j i : nat) (o : list R) : prog := match o with [] => Done | v :: o => WrOut i j v (writes j (S i) o) end.
Definition book (z : sizes) (f : kernel) (j : nat) : prog :=
  reads (map AScr (seq 0 (sz_scr z))) (fun scr => reads (map (fun i => APt i j) (seq 0 (sz_in z))) (fun pt => reads (map ACo (seq 0 (sz_co z))) (fun co =>
  reads (map (fun i => ASens i j) (seq 0 (sz_sens z))) (fun sens => reads (map (fun i => AOut i j) (seq 0 (sz_out z))) (fun out =>
  match f scr pt co sens out with Ok o => if length o =? sz_out z then writes j 0 o else Bad | _ => Bad end))))).

Lemma reads_confined j : forall l k n, Forall (of_column j) l -> (forall r, confined j n (k r)) -> confined j (length l + n) (reads l k).
Proof. induction l as [|a l IH]; intros k n F H; cbn [reads length Nat.add]; auto. inversion F; subst. cbn [confined]. split; auto. Qed.
Lemma writes_confined j : forall o i n, length o <= n -> confined j n (writes j i o).
Proof. induction o as [|v o IH]; intros i k H; cbn in *; [destruct k; exact I|]. destruct k; [lia|]. split; auto. apply IH. lia. Qed.
Lemma reads_solo {A} z s m (g : A -> access) (h : A -> cell) : forall l k, (forall x, In x l -> resolve z s (g x) = Some (h x)) -> solo z s (reads (map g l) k) m = solo z s (k (map (fun x => m (h x)) l)) m.
Proof.
  induction l as [|x l IH]; intros k H; cbn [map reads]; auto. cbn [solo]. rewrite H by (left; auto). rewrite IH by (intros; apply H; right; auto). reflexivity.
Qed.
Lemma writes_solo z s j : j < sz_pts z -> forall o i m, i + length o = sz_out z -> exists r, solo z s (writes j i o) m = Some r /\
  (forall k, k < length o -> r (COut (i + k) j) = nth k o 0%R) /\ (forall k, k < i -> r (COut k j) = m (COut k j)).
Proof.
  intros Hj. induction o as [|v o IH]; intros i m H; cbn [writes solo length] in *; [exists m; split; auto; split; auto; intros; lia|].
  cbn [resolve]. destruct (Nat.ltb_spec i (sz_out z)); [|lia]. destruct (Nat.ltb_spec j (sz_pts z)); [|lia]. cbn [andb].
  destruct (IH (S i) (set_cell m (COut i j) v)) as (r & E & V & U); [lia|]. exists r. split; auto. split.
  - intros [|k] Hk; cbn [nth]; [rewrite Nat.add_0_r, U by lia; apply set_same|]. rewrite <- (V k) by lia. f_equal. f_equal. lia.
  - intros k Hk. rewrite U by lia. apply set_other. intros X. injection X as ->. lia.
Qed.
Lemma book_computes z f : (forall scr pt co sens out o, f scr pt co sens out = Ok o -> length out = sz_out z -> length o = sz_out z) ->
  computes z (sz_scr z + (sz_in z + (sz_co z + (sz_sens z + (sz_out z + sz_out z))))) f (book z f).
Proof.
  intros HO j Hj. unfold book. split.
  - assert (G : forall (g : nat -> access) k n c, (forall i, of_column j (g i)) -> (forall r, confined j n (k r)) -> confined j (c + n) (reads (map g (seq 0 c)) k)).
    { intros g k n c G1 G2. rewrite <- (seq_length c 0) at 1. rewrite <- (map_length g (seq 0 c)). apply reads_confined; auto. apply Forall_forall. intros a X. apply in_map_iff in X as (i & <- & _). auto. }
    apply G; [cbn; auto|intros scr]. apply G; [cbn; auto|intros pt]. apply G; [cbn; auto|intros co]. apply G; [cbn; auto|intros sens]. apply G; [cbn; auto|intros out].
    destruct (f scr pt co sens out) as [o| | |]; try (destruct (sz_out z); exact I). destruct (Nat.eqb_spec (length o) (sz_out z)); [apply writes_confined; lia|destruct (sz_out z); exact I].
  - intros s m o E.
    assert (R1 : forall i, In i (seq 0 (sz_scr z)) -> resolve z s (AScr i) = Some (CScr s i)). { intros i X. apply in_seq in X. cbn. destruct (Nat.ltb_spec i (sz_scr z)); auto; lia. }
    assert (R2 : forall i, In i (seq 0 (sz_in z)) -> resolve z s (APt i j) = Some (CPt i j)). { intros i X. apply in_seq in X. cbn. destruct (Nat.ltb_spec i (sz_in z)); [|lia]. destruct (Nat.ltb_spec j (sz_pts z)); [|lia]. auto. }
    assert (R3 : forall i, In i (seq 0 (sz_co z)) -> resolve z s (ACo i) = Some (CCo i)). { intros i X. apply in_seq in X. cbn. destruct (Nat.ltb_spec i (sz_co z)); auto; lia. }
    assert (R4 : forall i, In i (seq 0 (sz_sens z)) -> resolve z s (ASens i j) = Some (CSens i j)). { intros i X. apply in_seq in X. cbn. destruct (Nat.ltb_spec i (sz_sens z)); [|lia]. destruct (Nat.ltb_spec j (sz_pts z)); [|lia]. auto. }
    assert (R5 : forall i, In i (seq 0 (sz_out z)) -> resolve z s (AOut i j) = Some (COut i j)). { intros i X. apply in_seq in X. cbn. destruct (Nat.ltb_spec i (sz_out z)); [|lia]. destruct (Nat.ltb_spec j (sz_pts z)); [|lia]. auto. }
    rewrite (reads_solo _ _ _ AScr (CScr s)) by auto. rewrite (reads_solo _ _ _ (fun i => APt i j) (fun i => CPt i j)) by auto. rewrite (reads_solo _ _ _ ACo CCo) by auto.
    rewrite (reads_solo _ _ _ (fun i => ASens i j) (fun i => CSens i j)) by auto. rewrite (reads_solo _ _ _ (fun i => AOut i j) (fun i => COut i j)) by auto.
    fold (scr_of z m s). fold (pt_of z m j). fold (co_of z m). fold (sens_of z m j). fold (out_of z m j). rewrite E.
    assert (Lo : length o = sz_out z). { eapply HO; [exact E|]. unfold out_of. rewrite map_length, seq_length. auto. }
    rewrite Lo, Nat.eqb_refl. destruct (writes_solo z s j Hj o 0 m ltac:(cbn; lia)) as (r & E2 & V & _). exists r. split; auto.
    apply nth_ext with (d := r (COut 0 j)) (d' := 0%R); unfold out_of; rewrite map_length, seq_length; auto. intros i Hi. rewrite (map_nth (fun i => r (COut i j))), seq_nth by auto. apply V. lia.
Qed.

(** ** The loops of MultivariateExpansion *)
Lemma cut_length scr a n : a + n <= length scr -> length (cut scr a n) = n.
Proof. intros H. unfold cut. rewrite firstn_length, skipn_length. lia. Qed.
Lemma same_coords (a b : list R) n : length a = n -> length b = n -> (forall i, i < n -> coord a i = coord b i) -> a = b.
Proof. intros La Lb H. apply nth_ext with (d := 0%R) (d' := 0%R); [congruence|]. intros i Hi. apply (H i). lia. Qed.

Theorem C55_expansion : forall (d N : nat) (alphas : list vec) (v dv d2 : nat -> R -> R) (w : worker) (m n : nat), expansion_of d N alphas v dv d2 w ->
  clean (z_mve_Evaluate w d m n) (k_mve_Evaluate w m) /\ clean (z_mve_Gradient w d m n) (k_mve_Gradient w m) /\ clean (z_mve_CoeffGrad w d m n) (k_mve_CoeffGrad w m).
Proof.
  intros d N alphas v dv d2 w m n HE. pose proof HE as (Hd & f & B & Hf & HB & HN & Hw).
  assert (NC : w_NumCoeffs w = length alphas). { destruct (expansion_setup _ _ _ _ _ _ _ HE) as (mx & B' & -> & _). apply size_W. }
  split; [|split]; intros pt co sens out L1 L2 L3 L4; cbn [sz_in sz_co sz_sens sz_out sz_scr z_mve_Evaluate z_mve_Gradient z_mve_CoeffGrad] in *; rewrite NC in *.
  - eexists. intros scr Ls. unfold k_mve_Evaluate. eapply (C24_vector_valued d alphas f B v dv d2 N); eauto. apply cut_length. lia.
  - assert (G : forall scr, length scr = w_CacheSize w + d -> exists g, k_mve_Gradient w m scr pt co sens out = Ok g /\ length g = d /\
      forall j, j < d -> coord g j = partial (fun x => rsum (fun r => coord sens r * expansion v alphas (block (length alphas) r co) x)%R m) j pt).
    { intros scr Ls. unfold k_mve_Gradient. destruct (C25_vector_gradient d alphas f B v dv d2 N w (cut scr 0 (w_CacheSize w)) (cut scr (w_CacheSize w) (length pt)) pt sens co out m) as (g & E & Lg & Pg); auto; try (apply cut_length; lia).
      - rewrite cut_length; lia.
      - exists g. split; auto. split; auto. intros j Hj. symmetry. apply is_partial_unique. auto. }
    destruct (G (repeat 0%R (w_CacheSize w + d)) (repeat_length _ _)) as (o & _ & Lo & Po). exists o. intros scr Ls. destruct (G scr Ls) as (g & -> & Lg & Pg). f_equal. apply (same_coords _ _ d); auto. intros i Hi. rewrite Po, Pg; auto.
  - assert (G : forall scr, length scr = w_CacheSize w + length alphas -> exists g, k_mve_CoeffGrad w m scr pt co sens out = Ok g /\ length g = length co /\
      forall i, i < length co -> coord g i = partial (fun c => rsum (fun r => coord sens r * expansion v alphas (block (length alphas) r c) pt)%R m) i co).
    { intros scr Ls. unfold k_mve_CoeffGrad. destruct (C25_vector_coeff_grad d alphas f B v dv d2 N w (cut scr 0 (w_CacheSize w)) (cut scr (w_CacheSize w) (w_NumCoeffs w)) pt sens co out m) as (g & E & Lg & Pg); auto; try (apply cut_length; lia).
      - rewrite NC. apply cut_length; lia.
      - congruence.
      - exists g. split; auto. split; auto. intros j Hj. symmetry. apply is_partial_unique. auto. }
    destruct (G (repeat 0%R (w_CacheSize w + length alphas)) (repeat_length _ _)) as (o & _ & Lo & Po). exists o. intros scr Ls. destruct (G scr Ls) as (g & -> & Lg & Pg). f_equal. apply (same_coords _ _ (length co)); auto. intros i Hi. rewrite Po, Pg; auto.
Qed.
Print Assumptions C55_expansion.

(** ** The loops of MonotoneComponent *)
(** One of the three quadrature rules of the library, as its constructors accept them (C26-C28). *)
Definition shipped_rule (Q : quad_rule) : Prop :=
  (exists pts wts, length wts = length pts /\ Q = qr_clenshaw pts wts) \/
  (exists q fuel, 1 <= q_maxSub q <= 32 /\ q_minSub q < q_maxSub q /\ 2 ^ q_maxSub q <= fuel /\ Q = qr_simpson q fuel) \/
  (exists q level fuel, 1 <= level /\ 1 <= q_maxSub q <= 32 /\ q_minSub q < q_maxSub q /\ 2 ^ q_maxSub q <= fuel /\ Q = qr_adaptive_cc q level fuel).
Lemma shipped_clean Q : shipped_rule Q -> clean_rule Q.
Proof.
  intros [(pts & wts & H & ->)|[(q & fuel & H1 & H2 & H3 & ->)|(q & level & fuel & H0 & H1 & H2 & H3 & ->)]]; [apply clean_clenshaw|apply clean_simpson|apply clean_adaptive]; auto.
Qed.

Lemma tl_length {A} (l : list A) n : length l = S n -> length (tl l) = n.
Proof. destruct l; cbn; lia. Qed.

Theorem C55_component : forall (d N : nat) (alphas : list vec) (v dv d2 : nat -> R -> R) (C : component) (k n : nat) nodes,
  expansion_of d N alphas v dv d2 (mc_w C) -> shipped_rule (mc_Q C) ->
  let T := length alphas in
  clean (z_component C k 1 (scr_size C 1 0 0) n) (k_Evaluate C nodes) /\
  (forall rows, clean (z_component C k (S rows) (w_CacheSize (mc_w C)) n) (k_ContinuousDerivative C)) /\
  clean (z_component C k 2 (scr_size C 2 2 0) n) (k_DiscreteDerivative C nodes) /\
  clean (z_component C k (1 + T) (scr_size C (1 + T) (1 + T) 0) n) (k_CoeffJacobian C nodes) /\
  clean (z_component C k (1 + d) (scr_size C (1 + d) (1 + d) 0) n) (k_InputJacobian C nodes) /\
  clean (z_component C k (1 + T) (w_CacheSize (mc_w C)) n) (k_ContinuousMixedJacobian C) /\
  clean (z_component C k (1 + d) (w_CacheSize (mc_w C)) n) (k_ContinuousMixedInputJacobian C) /\
  clean (z_component C k (1 + T) (scr_size C (1 + T) (1 + T) T) n) (k_DiscreteMixedJacobian C nodes) /\
  (forall s, clean (z_component C 1 (1 + T) s n) (k_scale_sens T) /\ clean (z_component C 1 (1 + d) s n) (k_scale_sens d) /\
             clean (z_component C k (1 + T) s n) (k_scale_inv T) /\ clean (z_component C k (1 + d) s n) (k_scale_inv d)).
Proof.
  intros d N alphas v dv d2 C k n nodes HE HQ T. apply shipped_clean in HQ. destruct (expansion_setup _ _ _ _ _ _ _ HE) as (mx & B & EW & Hd & M1 & M2 & B0 & B1 & B2 & B3 & M3 & M4 & Rm).
  assert (NC : w_NumCoeffs (mc_w C) = length alphas) by (rewrite EW; apply size_W). assert (WD : wdim (mc_w C) = d) by (rewrite EW; reflexivity).
  assert (FI : forall t r kk scr pt co, length scr = scr_size C (mi_size (mc_w C) d t) r kk -> r = mi_size (mc_w C) d t -> (t = DMixed -> kk = length alphas) ->
    fits_in d alphas mx B C t (layout C (mi_size (mc_w C) d t) r kk nodes scr pt co)).
  { intros t r kk scr pt co Ls Er Ek. unfold scr_size in Ls. unfold fits_in, layout; cbn [sc_cache sc_ws sc_res sc_work]. rewrite <- EW, <- Er in *. split; [apply Rm; apply cut_length; lia|].
    rewrite !cut_length by lia. repeat split; auto. intros Et. rewrite Ek by auto. auto. }
  assert (SC : forall s rows scr o, length o = 1 + rows -> exists o', forall scr' : list R, length scr' = scr -> (do v <- scale_by s rows (tl o); Ok (head o :: v)) = Ok o').
  { intros s rows scr o Lo. eexists. intros _ _. rewrite scale_fill by (rewrite (tl_length o rows) by lia; lia). reflexivity. }
  split; [|split; [|split; [|split; [|split; [|split; [|split; [|split]]]]]]].
  - intros pt co sens out L1 L2 L3 L4. cbn [sz_in sz_co sz_sens sz_out sz_scr z_component] in *. rewrite NC in *. rewrite WD in *.
    destruct (Evaluate_clean d N alphas mx B v dv d2 (mc_G C) Hd M1 M2 B0 B1 B2 M3 C co pt EW eq_refl HQ L1 L2) as (e & E). exists (e :: tl out). intros scr Ls. unfold k_Evaluate. unfold scr_size in Ls.
    rewrite E; auto; unfold layout; cbn [sc_cache sc_ws]; [apply Rm|]; apply cut_length; lia.
  - intros rows pt co sens out L1 L2 L3 L4. cbn [sz_in sz_co sz_sens sz_out sz_scr z_component] in *. rewrite NC in *. rewrite WD in *. eexists. intros scr Ls. unfold k_ContinuousDerivative.
    rewrite (Cont_ok d N alphas mx B v dv d2 (mc_G C)); auto; [reflexivity|]. apply Rm. apply cut_length. lia.
  - intros pt co sens out L1 L2 L3 L4. cbn [sz_in sz_co sz_sens sz_out sz_scr z_component] in *. rewrite NC in *. rewrite WD in *.
    destruct (Discrete_clean d N alphas mx B v dv d2 (mc_G C) Hd M1 M2 B0 B1 B2 M3 C co pt EW eq_refl HQ L1 L2) as (e & D & E). exists [e; D]. intros scr Ls. unfold k_DiscreteDerivative.
    change 2 with (mi_size (mc_w C) d DDiagonal) at 1. rewrite E; auto. apply (FI DDiagonal); auto. discriminate.
  - intros pt co sens out L1 L2 L3 L4. cbn [sz_in sz_co sz_sens sz_out sz_scr z_component] in *. rewrite NC in *. rewrite WD in *.
    destruct (Coeff_clean d N alphas mx B v dv d2 (mc_G C) Hd M1 M2 B0 B1 B2 M3 C co pt EW eq_refl HQ L1 L2) as (e & J & _ & E). exists (e :: J). intros scr Ls. unfold k_CoeffJacobian.
    assert (X : 1 + length co = mi_size (mc_w C) d DParameters) by (cbn; rewrite NC; lia). rewrite X. unfold T in *. rewrite <- L2, X in Ls. rewrite E; auto; [apply (FI DParameters); auto; discriminate|apply tl_length; auto].
  - intros pt co sens out L1 L2 L3 L4. cbn [sz_in sz_co sz_sens sz_out sz_scr z_component] in *. rewrite NC in *. rewrite WD in *.
    destruct (Input_clean d N alphas mx B v dv d2 (mc_G C) Hd M1 M2 B0 B1 B2 M3 C co pt EW eq_refl HQ L1 L2) as (e & J & _ & E). exists (e :: J). intros scr Ls. unfold k_InputJacobian. rewrite WD.
    change (1 + d) with (mi_size (mc_w C) d DInput). rewrite E; auto; [apply (FI DInput); auto; discriminate|apply tl_length; auto].
  - intros pt co sens out L1 L2 L3 L4. cbn [sz_in sz_co sz_sens sz_out sz_scr z_component] in *. rewrite NC in *. rewrite WD in *. eexists. intros scr Ls. unfold k_ContinuousMixedJacobian.
    rewrite (CMixed_ok d N alphas mx B v dv d2 (mc_G C)); auto; [reflexivity|apply Rm; apply cut_length; lia|apply tl_length; auto].
  - intros pt co sens out L1 L2 L3 L4. cbn [sz_in sz_co sz_sens sz_out sz_scr z_component] in *. rewrite NC in *. rewrite WD in *. eexists. intros scr Ls. unfold k_ContinuousMixedInputJacobian.
    rewrite (CInput_ok d N alphas mx B v dv d2 (mc_G C)); auto; [reflexivity|apply Rm; apply cut_length; lia|apply tl_length; auto].
  - intros pt co sens out L1 L2 L3 L4. cbn [sz_in sz_co sz_sens sz_out sz_scr z_component] in *. rewrite NC in *. rewrite WD in *.
    destruct (DMixed_clean d N alphas mx B v dv d2 (mc_G C) Hd M1 M2 B0 B1 B2 M3 C co pt EW eq_refl HQ L1 L2) as (J & _ & E). eexists. intros scr Ls. unfold k_DiscreteMixedJacobian.
    assert (X : 1 + length co = mi_size (mc_w C) d DMixed) by (cbn; rewrite NC; lia). rewrite X. unfold T in *. rewrite <- L2, X in Ls. rewrite E; [reflexivity|apply (FI DMixed); auto|rewrite (tl_length out (length co)); lia].
  - intros s. repeat split; intros pt co sens out L1 L2 L3 L4; cbn [sz_in sz_co sz_sens sz_out sz_scr z_component] in *; unfold k_scale_sens, k_scale_inv; try (apply SC; auto);
      (destruct sens as [|a sens]; [discriminate|]; cbn [raw_get nth_error obind]; apply SC; auto).
Qed.
Print Assumptions C55_component.

(** ** Whole calls of a monotone component *)
Lemma through1 s f pt co sens o o' : through [(s, f)] pt co sens o o' -> forall scr, length scr = s -> f scr pt co sens o = Ok o'.
Proof. intros H scr Ls. inversion H as [|? ? ? ? ? ? E X T]; subst; [discriminate|]. injection E as <- <- <-. inversion T; subst; [auto|discriminate]. Qed.
Lemma through_cons s f ks pt co sens o o' : through ((s, f) :: ks) pt co sens o o' -> exists o1, (forall scr, length scr = s -> f scr pt co sens o = Ok o1) /\ through ks pt co sens o1 o'.
Proof. intros H. inversion H as [|? ? ? ? ? ? E X T]; subst; [discriminate|]. injection E as <- <- <-. eauto. Qed.
Lemma Ok_inj {A} (a b : A) : Ok a = Ok b -> a = b.
Proof. congruence. Qed.
Ltac ob H := match type of H with obind ?e _ = Ok _ => let x := fresh "x" in let E := fresh "E" in destruct e as [x| | |] eqn:E; try discriminate H; cbn [obind] in H end.

(** The loops of each call (repo: MonotoneComponent.h:93-103, 148-182, 185-232): any loops that run these routines, on any number of threads and in any schedule. *)
Theorem C55_component_calls : forall (d N : nat) (alphas : list vec) (v dv d2 : nat -> R -> R) (C : component) (n P : nat) nodes (Ls : list loop) (m m' : mem),
  expansion_of d N alphas v dv d2 (mc_w C) -> shipped_rule (mc_Q C) -> 0 < P -> loops P Ls m m' ->
  let T := length alphas in let cs := w_CacheSize (mc_w C) in
  (let z := z_component C 0 1 0 n in Forall2 (runs_kernel z) Ls [(scr_size C 1 0 0, k_Evaluate C nodes)] ->
   forall j scr, j < n -> length scr = scr_size C 1 0 0 ->
     mc_Evaluate C (layout C 1 0 0 nodes scr (pt_of z m j) (co_of z m)) (pt_of z m j) (co_of z m) = Ok (m' (COut 0 j))) /\
  (let z := z_component C 1 (1 + d) 0 n in Forall2 (runs_kernel z) Ls [(scr_size C (1 + d) (1 + d) 0, k_InputJacobian C nodes); (0, k_scale_sens d)] ->
   forall j scr, j < n -> length scr = scr_size C (1 + d) (1 + d) 0 ->
     mc_Gradient C (layout C (1 + d) (1 + d) 0 nodes scr (pt_of z m j) (co_of z m)) (pt_of z m j) (co_of z m) (m (CSens 0 j)) (tl (out_of z m j)) = Ok (tl (out_of z m' j))) /\
  (let z := z_component C 1 (1 + T) 0 n in Forall2 (runs_kernel z) Ls [(scr_size C (1 + T) (1 + T) 0, k_CoeffJacobian C nodes); (0, k_scale_sens T)] ->
   forall j scr, j < n -> length scr = scr_size C (1 + T) (1 + T) 0 ->
     mc_CoeffGrad C (layout C (1 + T) (1 + T) 0 nodes scr (pt_of z m j) (co_of z m)) (pt_of z m j) (co_of z m) (m (CSens 0 j)) (tl (out_of z m j)) = Ok (tl (out_of z m' j))) /\
  (let z := z_component C 0 (1 + T) 0 n in mc_cont C = true -> Forall2 (runs_kernel z) Ls [(cs, k_ContinuousMixedJacobian C); (cs, k_ContinuousDerivative C); (0, k_scale_inv T)] ->
   forall j scr, j < n -> length scr = cs ->
     mc_LogDeterminantCoeffGrad C (MkScr scr [] [] [] []) (pt_of z m j) (co_of z m) (tl (out_of z m j)) = Ok (tl (out_of z m' j))) /\
  (let z := z_component C 0 (1 + d) 0 n in mc_cont C = true -> Forall2 (runs_kernel z) Ls [(cs, k_ContinuousMixedInputJacobian C); (cs, k_ContinuousDerivative C); (0, k_scale_inv d)] ->
   forall j scr, j < n -> length scr = cs ->
     mc_LogDeterminantInputGrad C (MkScr scr [] [] [] []) (pt_of z m j) (co_of z m) (tl (out_of z m j)) = Ok (tl (out_of z m' j))).
Proof.
  intros d N alphas v dv d2 C n P nodes Ls m m' HE HQ HP HL T cs.
  assert (NC : w_NumCoeffs (mc_w C) = T /\ wdim (mc_w C) = d) by (destruct (expansion_setup _ _ _ _ _ _ _ HE) as (mx & B & -> & _); split; [apply size_W|reflexivity]). destruct NC as (NC & WD).
  assert (CutAll : forall scr : list R, length scr = cs -> cut scr 0 cs = scr) by (intros scr E; unfold cut; cbn [skipn]; rewrite <- E; apply firstn_all).
  assert (Lco : forall k r, length (co_of (z_component C k r 0 n) m) = T) by (intros; unfold co_of; rewrite map_length, seq_length; cbn; auto).
  assert (Hd : 0 < d) by apply HE.
  destruct (C55_component d N alphas v dv d2 C 0 n nodes HE HQ) as (A1 & A2 & A3 & A4 & A5 & A6 & A7 & A8 & A9).
  destruct (C55_component d N alphas v dv d2 C 1 n nodes HE HQ) as (B1 & B2 & B3 & B4 & B5 & B6 & B7 & B8 & B9).
  split; [|split; [|split; [|split]]]; cbv zeta.
  - intros HK j scr Hj Ls'. destruct (C55_calls P (z_component C 0 1 0 n) _ Ls m HP HK) as (_ & X). { intros s f [E|[]]. injection E as <- <-. exact A1. }
    destruct (X m' HL) as (_ & Y). specialize (Y j Hj). apply (through1 _ _ _ _ _ _ _) with (scr := scr) in Y; auto. unfold k_Evaluate in Y. ob Y. f_equal. injection Y as Y. exact Y.
  - intros HK j scr Hj Ls'. destruct (C55_calls P (z_component C 1 (1 + d) 0 n) _ Ls m HP HK) as (_ & X). { intros s f [E|[E|[]]]; injection E as <- <-; [exact B5|apply B9]. }
    destruct (X m' HL) as (_ & Y). specialize (Y j Hj). apply through_cons in Y as (o1 & Y1 & Y2). apply (through1 _ _ _ _ _ _ _) with (scr := []) in Y2; auto. specialize (Y1 scr Ls').
    unfold k_InputJacobian in Y1. rewrite WD in Y1. ob Y1. injection Y1 as <-. unfold mc_Gradient. rewrite E, WD. cbn [obind].
    unfold k_scale_sens in Y2. cbn [tl] in Y2. change (raw_get (sens_of (z_component C 1 (1 + d) 0 n) m j) 0) with (Ok (m (CSens 0 j))) in Y2. cbn [obind] in Y2. ob Y2. try rewrite E0. apply Ok_inj in Y2. rewrite <- Y2. reflexivity.
  - intros HK j scr Hj Ls'. destruct (C55_calls P (z_component C 1 (1 + T) 0 n) _ Ls m HP HK) as (_ & X). { intros s f [E|[E|[]]]; injection E as <- <-; [exact B4|apply B9]. }
    destruct (X m' HL) as (_ & Y). specialize (Y j Hj). apply through_cons in Y as (o1 & Y1 & Y2). apply (through1 _ _ _ _ _ _ _) with (scr := []) in Y2; auto. specialize (Y1 scr Ls').
    unfold k_CoeffJacobian in Y1. rewrite (Lco 1 (1 + T)) in Y1. ob Y1. injection Y1 as <-. unfold mc_CoeffGrad. rewrite E, NC. cbn [obind].
    unfold k_scale_sens in Y2. cbn [tl] in Y2. change (raw_get (sens_of (z_component C 1 (1 + T) 0 n) m j) 0) with (Ok (m (CSens 0 j))) in Y2. cbn [obind] in Y2. ob Y2. try rewrite E0. apply Ok_inj in Y2. rewrite <- Y2. reflexivity.
  - intros Hc HK j scr Hj Ls'. destruct (C55_calls P (z_component C 0 (1 + T) 0 n) _ Ls m HP HK) as (_ & X). { intros s f [E|[E|[E|[]]]]; injection E as <- <-; [exact A6|apply A2|apply A9]. }
    destruct (X m' HL) as (_ & Y). specialize (Y j Hj). apply through_cons in Y as (o1 & Y1 & Y2). apply through_cons in Y2 as (o2 & Y2 & Y3). apply (through1 _ _ _ _ _ _ _) with (scr := []) in Y3; auto. specialize (Y1 scr Ls'). specialize (Y2 scr Ls').
    unfold k_ContinuousMixedJacobian in Y1. unfold k_ContinuousDerivative in Y2. fold cs in Y1, Y2. rewrite CutAll in Y1, Y2 by auto. ob Y1. apply Ok_inj in Y1. subst o1. ob Y2. apply Ok_inj in Y2. subst o2. unfold k_scale_inv in Y3. cbn [tl head nth] in Y3. ob Y3. apply Ok_inj in Y3.
    unfold mc_LogDeterminantCoeffGrad, mc_derivative. rewrite Hc, E. cbn [obind]. rewrite E0. cbn [obind]. rewrite NC, E1. rewrite <- Y3. reflexivity.
  - intros Hc HK j scr Hj Ls'. destruct (C55_calls P (z_component C 0 (1 + d) 0 n) _ Ls m HP HK) as (_ & X). { intros s f [E|[E|[E|[]]]]; injection E as <- <-; [exact A7|apply A2|apply A9]. }
    destruct (X m' HL) as (_ & Y). specialize (Y j Hj). apply through_cons in Y as (o1 & Y1 & Y2). apply through_cons in Y2 as (o2 & Y2 & Y3). apply (through1 _ _ _ _ _ _ _) with (scr := []) in Y3; auto. specialize (Y1 scr Ls'). specialize (Y2 scr Ls').
    unfold k_ContinuousMixedInputJacobian in Y1. unfold k_ContinuousDerivative in Y2. fold cs in Y1, Y2. rewrite CutAll in Y1, Y2 by auto. ob Y1. apply Ok_inj in Y1. subst o1. ob Y2. apply Ok_inj in Y2. subst o2. unfold k_scale_inv in Y3. cbn [tl head nth] in Y3. ob Y3. apply Ok_inj in Y3.
    unfold mc_LogDeterminantInputGrad. rewrite Hc, E. cbn [obind]. rewrite E0. cbn [obind]. rewrite WD, E1. rewrite <- Y3. reflexivity.
Qed.
Print Assumptions C55_component_calls.

(** An empty batch: the number of teams is 0/0 converted to an integer, which is undefined behaviour; any other batch has a policy. *)
Theorem C55_empty_batch_refuted : forall rec, cached_policy 0 rec = UB /\ forall n, 0 < n -> 0 < rec -> exists t, cached_policy n rec = Ok t.
Proof.
  intros rec. split; [reflexivity|]. intros n Hn Hr. unfold cached_policy. destruct (Nat.eqb_spec (Nat.min n rec) 0); [lia|eauto].
Qed.
Print Assumptions C55_empty_batch_refuted.

(** Five points on teams of two threads make three teams. *)
Example ex_policy : cached_policy 5 2 = Ok (3, 2).
Proof.
  unfold cached_policy. cbn [Nat.min Nat.eqb]. rewrite ceil_quotient by (cbn; lia). do 2 f_equal. assert (E : Zceil (INR 5 / INR 2) = 3%Z); [|rewrite E; reflexivity].
  apply Zceil_imp. cbn [INR Z.sub Z.opp Z.add Z.pos_sub]. cbn. split; lra.
Qed.
(** Evaluate of a two-dimensional component at five points, three teams of two threads, any number of processors: there are loops that run its routine, and runs of these. *)
Example ex_component : exists (v dv d2 : nat -> R -> R) (C : component) (L : loop), expansion_of 2 3 ex_alphas v dv d2 (mc_w C) /\ shipped_rule (mc_Q C) /\
  length (lp_items L) = 6 /\ Forall2 (runs_kernel (z_component C 0 1 0 5)) [L] [(scr_size C 1 0 0, k_Evaluate C (fun _ _ _ => []))] /\
  forall P m, 0 < P -> exists m', loops P [L] m m'.
Proof.
  destruct mono_example as (v & dv & d2 & w & wts & pts & S & HE & _ & _ & _ & LW & _).
  set (C := MkMC w pf_softplus (qr_clenshaw pts wts) true 0%R). set (f := k_Evaluate C (fun _ _ _ => [])). set (z := z_component C 0 1 (scr_size C 1 0 0) 5).
  assert (HQ : shipped_rule (mc_Q C)) by (left; exists pts, wts; auto).
  set (L := MkLoop z (team_items 3 2) (ptInd 2) (book z f)). exists v, dv, d2, C, L. split; [exact HE|]. split; auto. split; [reflexivity|].
  assert (HK : Forall2 (runs_kernel (z_component C 0 1 0 5)) [L] [(scr_size C 1 0 0, f)]).
  { constructor; [|constructor]. exists (book z f). eexists. split; [apply (LaunchTeams z (book z f) 2 3 2 ex_policy); cbn; lia|]. cbn [fst snd]. apply book_computes.
    intros scr pt co sens out o E Lo. unfold f, k_Evaluate in E. ob E. apply Ok_inj in E. subst o. destruct out; [discriminate|]. cbn in *. lia. }
  split; auto. intros P m HP. destruct (C55_calls P _ _ [L] m HP HK) as (X & _); auto. intros s g [E|[]]. injection E as <- <-. apply (C55_component 2 3 ex_alphas v dv d2 C 0 5 (fun _ _ _ => []) HE HQ).
Qed.
