(** C65: samplers draw what their distribution says, and are reproducible. *)
From Coq Require Import Reals List Lia Lra Permutation.
From Verif Require Import Base SpecExpansion SpecMaps SpecDensity SpecGauss SpecSample QuadCC DetMul CholProofs ExpansionModel ExpansionProofs MapsModel LeafModel MapsContract MapsProofs LeafProofs TruthProofs
  DensityModel DensityProofs ReduceModel ReduceProofs GaussModel GaussProofs PropGauss PropDensity DetProofs SampleModel SampleProofs.
Import ListNotations.
Local Open Scope R_scope.

Lemma unit_nth_length n i : (i < n)%nat -> length (nth i (unit_matrix n) []) = n.
Proof. intros Hi. destruct (unit_rows n) as [H1 H2]. rewrite Forall_forall in H2. apply H2, nth_In. lia. Qed.
Lemma unit_factor n : chol_factor n (unit_matrix n) (unit_matrix n).
Proof.
  split; [apply unit_rows|]. split; [|split].
  - intros i j Hij Hj. rewrite unit_entry by lia. unfold one. destruct (Nat.eqb_spec i j); [lia|auto].
  - intros i Hi. rewrite unit_entry by lia. unfold one. rewrite Nat.eqb_refl. lra.
  - intros i j Hi Hj. transitivity (coord (matvec (unit_matrix n) (nth j (unit_matrix n) [])) i).
    + rewrite unit_matvec by (apply unit_nth_length; auto). change (entry (unit_matrix n) i j = entry (unit_matrix n) j i). rewrite !unit_entry by auto. unfold one.
      destruct (Nat.eqb_spec i j), (Nat.eqb_spec j i); congruence.
    + unfold matvec, coord. rewrite (nth_indep _ 0 (dot [] (nth j (unit_matrix n) []))) by (rewrite map_length; destruct (unit_rows n); lia).
      exact (map_nth (fun r => dot r (nth j (unit_matrix n) [])) (unit_matrix n) [] i).
Qed.
Lemma coord_vadd a b i : length a = length b -> coord (vadd a b) i = coord a i + coord b i.
Proof.
  revert b i. induction a as [|x a IH]; intros [|y b] i H; cbn in *; try discriminate.
  - unfold coord. destruct i; cbn; ring.
  - unfold coord in *. destruct i as [|i]; cbn; auto.
Qed.
Lemma shift_plus G n col : (ga_mean G = [] \/ length (ga_mean G) = n) -> length col = n -> ga_shift (fun p => p) Rplus G n col = Ok (vadd col (mean_of G n)).
Proof.
  intros Hm Hc. rewrite (shift_ok _ Rplus) by (auto; intros; ring). f_equal. pose proof (mean_of_length G n Hm) as Hl.
  apply (list_ext n); [rewrite map_length, seq_length; auto|rewrite vadd_length; lia|]. intros i Hi. rewrite coord_map_seq' by auto. rewrite coord_vadd by lia. reflexivity.
Qed.

Section C65.
Variable gen : Type.
Variable init : nat -> list gen.
Variable normal : gen -> R * gen.
Variable c : nat.
Hypothesis Hinit : forall s, length (init s) = c.
Notation heap := (heap gen).

(** The identity covariance. *)
Lemma gauss_id G n N pl pool out : ga_idCov G = true -> ga_dim G = n -> (ga_mean G = [] \/ length (ga_mean G) = n) -> draws_all c n N pl -> length pool = c -> is_mat n out -> length (mx_cols out) = N ->
  exists Z pool', length pool' = c /\ noise gen normal pool n N pl Z /\
    ga_SampleImpl gen normal G pl pool out = Ok (pool', same_layout out (map (fun z => vadd z (mean_of G n)) Z)).
Proof.
  intros Hid Hd Hm Hdr Hp [Hr Hcols] HN. unfold ga_SampleImpl. rewrite Hr, Hd, Nat.eqb_refl, Hid. cbn [negb].
  destruct (fill_noise gen normal n N (fun i z => if (length (ga_mean G) =? 0)%nat then Ok z else do m <- raw_get (ga_mean G) i; Ok (z + m)) (fun i z => z + coord (mean_of G n) i) c pl pool (mx_cols out))
    as (pool' & Z & Lp & HZ & E & _); auto.
  - intros i z Hi. unfold mean_of. destruct (Nat.eqb_spec (length (ga_mean G)) 0) as [E|E].
    + f_equal. unfold coord, zeros. rewrite nth_repeat. ring.
    + destruct Hm as [Hm|Hm]; [rewrite Hm in E; cbn in E; lia|]. rewrite raw_get_nth by lia. reflexivity.
  - split; auto.
  - exists Z, pool'. split; auto. split; auto. rewrite E. cbn [obind fst snd]. do 3 f_equal. apply map_ext_in. intros z Hz. destruct HZ as (_ & HZ & _). rewrite Forall_forall in HZ. specialize (HZ z Hz).
    pose proof (mean_of_length G n Hm) as Hl. apply (list_ext n); [rewrite map_length, seq_length; auto|rewrite vadd_length; lia|]. intros i Hi. rewrite coord_map_seq' by auto. rewrite coord_vadd by lia. reflexivity.
Qed.
(** SampleImpl of a Gaussian writes mean + L z for noise z, where L is the Cholesky factor of the covariance; for a
    covariance other than the default one the output has to be stored column after column. *)
Theorem C65_gaussian : forall llt n mu Sg G pl pool N out, chol_correct llt -> constructed llt n mu Sg G -> draws_all c n N pl -> length pool = c ->
  is_mat n out -> length (mx_cols out) = N -> (ga_idCov G = true \/ has_layout left_layout out) ->
  exists L Z pool', chol_factor n Sg L /\ length pool' = c /\ noise gen normal pool n N pl Z /\
    ga_SampleImpl gen normal G pl pool out = Ok (pool', same_layout out (map (fun z => vadd (matvec L z) mu) Z)).
Proof.
  intros llt n mu Sg G pl pool N out Hl HG Hdr Hp Ho HN Hlay.
  assert (Dense : forall mu' cov c0 ld, Factorize llt cov = Ok (c0, ld) -> spd n (mx_cols cov) -> (mu' = [] \/ length mu' = n) -> ga_idCov (MkGauss n mu' (Some c0) false ld) = true \/ has_layout left_layout out ->
     let G := MkGauss n mu' (Some c0) false ld in
     exists L Z pool', chol_factor n (mx_cols cov) L /\ length pool' = c /\ noise gen normal pool n N pl Z /\
       ga_SampleImpl gen normal G pl pool out = Ok (pool', same_layout out (map (fun z => vadd (matvec L z) (mean_of G n)) Z))).
  { intros mu' cov c0 ld E Hsp Hm [Hx|Hx] G0; [discriminate|]. unfold Factorize, as_left in E. destruct (_ && _)%bool; [|discriminate]. cbn [obind] in E. injection E as <- <-.
    destruct (Hl n _ Hsp) as (L & HF & Hn & _ & Hb). destruct Ho as [Hr Hcols].
    destruct (fill_noise gen normal n N (fun _ z => Ok z) (fun _ z => z) c pl pool (mx_cols out)) as (pool' & Z & Lp & HZ & _ & E); auto; [split; auto|].
    exists L, Z, pool'. split; auto. split; auto. split; auto. unfold ga_SampleImpl, G0. cbn [ga_dim ga_idCov ga_chol]. rewrite Hr, Nat.eqb_refl. cbn [negb]. unfold as_left.
    destruct Hx as [H0 H1]. rewrite H0, H1, !Nat.eqb_refl. cbn [andb obind]. rewrite (E (fun _ z => Ok z)) by auto. cbn [obind fst snd].
    destruct HZ as (LZ & FZ & _). rewrite Forall_forall in FZ.
    rewrite (omap_ok _ (matvec L)).
    2:{ intros z Hz. unfold chol_apply. rewrite Hn, (FZ z Hz), Nat.eqb_refl. f_equal. apply Hb. auto. }
    cbn [obind]. rewrite (omap_ok _ (fun y => vadd y (mean_of G0 n))).
    2:{ intros y Hy. apply in_map_iff in Hy as (z & <- & Hz). apply shift_plus; auto. unfold matvec. rewrite map_length. apply HF. }
    cbn [obind]. rewrite map_map. reflexivity. }
  destruct HG as [mu cov G E Hr Hsp|cov G E Hsp|mu|n].
  - unfold gauss_mean_cov in E. destruct (Factorize llt cov) as [[c0 ld]| | |] eqn:EF; try discriminate. cbn [obind fst snd] in E. injection E as <-.
    destruct (Dense mu cov c0 ld EF Hsp ltac:(auto) Hlay) as (L & Z & pool' & H1 & H2 & H3 & H4). exists L, Z, pool'. split; auto. split; auto. split; auto. rewrite H4.
    assert (mean_of (MkGauss (length mu) mu (Some c0) false ld) (length mu) = mu) as -> by (unfold mean_of; cbn [ga_mean]; destruct mu; reflexivity). reflexivity.
  - unfold gauss_cov in E. destruct (Factorize llt cov) as [[c0 ld]| | |] eqn:EF; try discriminate. cbn [obind fst snd] in E. injection E as <-.
    apply (Dense [] cov c0 ld EF Hsp ltac:(auto) Hlay).
  - destruct (gauss_id (gauss_mean mu) (length mu) N pl pool out) as (Z & pool' & H1 & H2 & H3); auto. exists (unit_matrix (length mu)), Z, pool'. split; [apply unit_factor|]. split; auto. split; auto.
    rewrite H3. assert (mean_of (gauss_mean mu) (length mu) = mu) as -> by (unfold mean_of; cbn [ga_mean gauss_mean]; destruct mu; reflexivity).
    do 3 f_equal. apply map_ext_in. intros z Hz. destruct H2 as (_ & FZ & _). rewrite Forall_forall in FZ. rewrite unit_matvec; auto.
  - destruct (gauss_id (gauss_std n) n N pl pool out) as (Z & pool' & H1 & H2 & H3); auto. exists (unit_matrix n), Z, pool'. split; [apply unit_factor|]. split; auto. split; auto.
    rewrite H3. do 3 f_equal. apply map_ext_in. intros z Hz. destruct H2 as (_ & FZ & _). rewrite Forall_forall in FZ. rewrite unit_matvec; auto.
Qed.

(** [samples h k b n Q]: sampler [k] turns a vector z of n numbers drawn with the generators of sampler [b] into a sample x with Q z x. *)
Inductive samples (h : heap) : nat -> nat -> nat -> (list R -> list R -> Prop) -> Prop :=
| smp_std k s n : nth_error h k = Some s -> sm_kind _ s = KGauss (gauss_std n) -> samples h k k n (fun z x => x = z)
| smp_mean k s mu : nth_error h k = Some s -> sm_kind _ s = KGauss (gauss_mean mu) -> samples h k k (length mu) (fun z x => x = vadd z mu)
| smp_push k s K P co ref b n Q : nth_error h k = Some s -> sm_kind _ s = KPush (with_coeffs K co) ref -> samples h ref b n Q ->
    imp_eval K P -> p_in P = n -> p_out P = n -> length co = p_nc P ->
    samples h k b n (fun z x => exists y, Q z y /\ x = p_eval P co y)
| smp_pull k s K P co ref b n Q tol : nth_error h k = Some s -> sm_kind _ s = KPull (with_coeffs K co) ref -> samples h ref b n Q ->
    imp_inv 0 tol K P -> p_in P = n -> p_out P = n -> length co = p_nc P ->
    samples h k b n (fun z x => exists y, Q z y /\ length x = n /\ close tol (p_eval P co x) y).

Lemma each2_rel (f : list R -> list R -> list R -> outcome (list R)) (V : list R -> list R -> Prop) n m :
  (forall a s o, length a = 0%nat -> length s = n -> length o = m -> exists y, f a s o = Ok y /\ V s y) ->
  forall a b out, Forall (fun x => length x = 0%nat) a -> Forall (fun x => length x = n) b -> Forall (fun x => length x = m) out -> length a = length b -> length out = length b ->
  exists ys, each2 f a b out = Ok ys /\ Forall2 V b ys.
Proof.
  intros H a b. revert a. induction b as [|s b IH]; intros [|p a] [|o out] Fa Fb Fo L1 L2; try discriminate; [exists []; split; [reflexivity|constructor]|].
  inversion Fa; inversion Fb; inversion Fo; subst. cbn [each2]. destruct (H p s o) as (y & E & HV); auto. rewrite E. cbn [obind].
  destruct (IH a out) as (ys & Es & F); auto. rewrite Es. cbn [obind]. eauto.
Qed.
Lemma Forall2_comp {A B D} (P : A -> B -> Prop) (Q : B -> D -> Prop) l1 l2 l3 : Forall2 P l1 l2 -> Forall2 Q l2 l3 -> Forall2 (fun a d => exists b, P a b /\ Q b d) l1 l3.
Proof. intros H. revert l3. induction H; intros l3 X; inversion X; subst; constructor; eauto. Qed.
Lemma samples_ok h pl N : wf gen c h -> forall k b n Q, samples h k b n Q -> draws_all c n N pl ->
  forall fuel out, (k < fuel)%nat -> is_mat n out -> length (mx_cols out) = N ->
  (exists s, nth_error h k = Some s /\ sm_dim _ s = n) /\
  exists h' X Z s, SampleImpl_ gen normal fuel pl k out h = Ok (h', same_layout out X) /\ Forall (fun x => length x = n) X /\ length X = N /\
    nth_error h b = Some s /\ noise gen normal (sm_pool _ s) n N pl Z /\ Forall2 Q Z X /\
    same_objects gen h h' /\ forall i, i <> b -> nth_error h' i = nth_error h i.
Proof.
  intros W k b n Q HS Hd. induction HS as [k s n Es Ek|k s mu Es Ek|k s K P co ref b n Q Es Ek HS IH Himp Hi Ho Hco|k s K P co ref b n Q tol Es Ek HS IH Himp Hi Ho Hco]; intros [|fuel] out Hf Hout HN; try lia;
  destruct (W k s Es) as (W1 & W2 & W3); rewrite Ek in W2, W3.
  - split; [exists s; auto|]. cbn [SampleImpl_]. rewrite (raw_get_of _ _ _ Es). cbn [obind]. rewrite Ek.
    destruct (gauss_id (gauss_std n) n N pl (sm_pool _ s) out) as (Z & pool' & H1 & H2 & H3); auto. rewrite H3. cbn [obind fst snd]. rewrite raw_set_upd by (eapply nth_error_lt; eauto). cbn [obind].
    assert (Em : map (fun z => vadd z (mean_of (gauss_std n) n)) Z = Z).
    { destruct H2 as (_ & FZ & _). rewrite Forall_forall in FZ. rewrite <- (map_id Z) at 2. apply map_ext_in. intros z Hz. specialize (FZ z Hz). apply (list_ext n); auto.
      - rewrite vadd_length; unfold mean_of; cbn [ga_mean gauss_std length Nat.eqb]; auto. unfold zeros. rewrite repeat_length. auto.
      - intros i Hin. rewrite coord_vadd; unfold mean_of; cbn [ga_mean gauss_std length Nat.eqb]; [|unfold zeros; rewrite repeat_length; auto]. unfold coord, zeros. rewrite nth_repeat. ring. }
    rewrite Em. exists (upd h k (with_pool gen s pool')), Z, Z, s. destruct H2 as (LZ & FZ & VZ). split; [reflexivity|]. split; auto. split; auto. split; auto. split; [split; auto|]. split; [|split].
    + clear. induction Z; constructor; auto.
    + apply (same_upd gen h k s); cbn; auto. congruence.
    + intros i Hn. apply nth_error_upd_neq. auto.
  - split; [exists s; auto|]. cbn [SampleImpl_]. rewrite (raw_get_of _ _ _ Es). cbn [obind]. rewrite Ek.
    destruct (gauss_id (gauss_mean mu) (length mu) N pl (sm_pool _ s) out) as (Z & pool' & H1 & H2 & H3); auto. rewrite H3. cbn [obind fst snd]. rewrite raw_set_upd by (eapply nth_error_lt; eauto). cbn [obind].
    assert (mean_of (gauss_mean mu) (length mu) = mu) as -> by (unfold mean_of; cbn [ga_mean gauss_mean]; destruct mu; reflexivity).
    exists (upd h k (with_pool gen s pool')), (map (fun z => vadd z mu) Z), Z, s. destruct H2 as (LZ & FZ & VZ). split; [reflexivity|]. split; [|split; [rewrite map_length; auto|split; auto; split; [split; auto|split; [|split]]]].
    + apply Forall_map. eapply Forall_impl; [|exact FZ]. intros z Hz. rewrite vadd_length; auto.
    + clear. induction Z; constructor; auto.
    + apply (same_upd gen h k s); cbn; auto. congruence.
    + intros i Hn. apply nth_error_upd_neq. auto.
  - destruct (W3 ref eq_refl) as (Lt & t & Et & Dt). cbn [SampleImpl_]. rewrite (raw_get_of _ _ _ Es). cbn [obind]. rewrite Ek, (raw_get_of _ _ _ Et). cbn [obind].
    destruct (IH Hd fuel (alloc_mat n (length (mx_cols out))) ltac:(lia) (alloc_is_mat _ _) ltac:(rewrite alloc_len; auto)) as ((t' & Et' & Dn) & h' & X & Z & s0 & E & FX & LX & Eb & HZ & FQ & Sm & Oth).
    rewrite Et in Et'. injection Et' as <-. split; [exists s; split; auto; congruence|]. rewrite Dn, E. cbn [obind fst snd]. cbn [same_layout mx_cols with_coeffs o_map o_c o_coeffs].
    destruct Himp as [Hdim Himp]. rewrite (each_ok _ (p_eval P co) n n) with (pts := X); auto.
    + cbn [obind]. exists h', (map (p_eval P co) X), Z, s0. split; [reflexivity|]. split; [|split; [rewrite map_length; auto|split; auto; split; auto; split; auto]].
      * apply Forall_map. eapply Forall_impl; [|exact FX]. intros x Hx. cbn beta in Hx. rewrite <- Ho. apply (proj2 (Himp co x (zeros (p_out P)) Hco ltac:(congruence) ltac:(apply repeat_length))).
      * apply (Forall2_comp Q (fun y x => x = p_eval P co y) _ X); auto. clear. induction X; constructor; auto.
    + intros x o Hx Hoo. apply (proj1 (Himp co x o Hco ltac:(congruence) ltac:(congruence))).
    + apply Hout.
    + congruence.
  - destruct (W3 ref eq_refl) as (Lt & t & Et & Dt). cbn [SampleImpl_]. rewrite (raw_get_of _ _ _ Es). cbn [obind]. rewrite Ek, (raw_get_of _ _ _ Et). cbn [obind].
    destruct (IH Hd fuel (alloc_mat n (length (mx_cols out))) ltac:(lia) (alloc_is_mat _ _) ltac:(rewrite alloc_len; auto)) as ((t' & Et' & Dn) & h' & X & Z & s0 & E & FX & LX & Eb & HZ & FQ & Sm & Oth).
    rewrite Et in Et'. injection Et' as <-. split; [exists s; split; auto; congruence|]. rewrite Dn, E. cbn [obind fst snd]. cbn [same_layout mx_cols with_coeffs o_map o_c o_coeffs].
    destruct Himp as [Hdim Himp].
    destruct (each2_rel (m_inv K co) (fun r y => length y = n /\ close tol (p_eval P co y) r) n n) with (a := mx_cols (alloc_mat 0 (length X))) (b := X) (out := mx_cols out) as (ys & Ey & Fy); auto.
    + intros a r o Ha Hr Hoo. destruct (Himp co a r o Hco Ha ltac:(congruence) ltac:(congruence)) as (y & Ey & Ly & Cy). exists y. split; auto. split; [congruence|].
      rewrite Hi, Ho, Nat.sub_diag in Cy. exact Cy.
    + apply alloc_cols.
    + apply Hout.
    + apply alloc_len.
    + congruence.
    + rewrite Ey. cbn [obind]. exists h', ys, Z, s0. split; [reflexivity|]. split; [|split; [|split; auto; split; auto; split; auto]].
      * apply Forall_forall. intros y Hy. apply In_nth_error in Hy as [i Hyi]. destruct (Forall2_nth_error _ _ _ (Forall2_sym _ (fun y r => length y = n) (fun a b (H : length b = n /\ _) => proj1 H) _ _ Fy) _ _ Hyi) as (r & _ & L). exact L.
      * rewrite <- LX. eapply Forall2_length'; eauto.
      * apply (Forall2_comp Q (fun r y => length y = n /\ close tol (p_eval P co y) r) _ X); auto.
Qed.
(** Sample(N) of a sampler built on a Gaussian with the default covariance: N samples, made from the noise of that
    Gaussian's generators by adding the mean and applying the maps or their inverses; nothing but those generators changes. *)
Theorem C65_samples_partial : forall os h k b n Q N pl, runs gen init normal [] os h -> samples h k b n Q -> draws_all c n N pl ->
  exists h' X Z s, Sample gen normal pl k N h = Ok (h', X) /\ is_mat n X /\ length (mx_cols X) = N /\
    nth_error h b = Some s /\ noise gen normal (sm_pool _ s) n N pl Z /\ Forall2 Q Z (mx_cols X) /\
    same_objects gen h h' /\ forall i, i <> b -> nth_error h' i = nth_error h i.
Proof.
  intros os h k b n Q N pl HR HS Hd. destruct (runs_wf gen init normal c Hinit [] os h HR (wf_nil gen c)) as [W _].
  destruct (samples_ok h pl N W k b n Q HS Hd (S k) (alloc_mat n N) ltac:(lia) (alloc_is_mat _ _) (alloc_len _ _)) as ((s & Es & Dn) & h' & X & Z & s0 & E & FX & LX & Eb & HZ & FQ & Sm & Oth).
  exists h', (same_layout (alloc_mat n N) X), Z, s0. unfold Sample. rewrite (raw_get_of _ _ _ Es). cbn [obind]. rewrite Dn. split; [exact E|]. split; [split; [reflexivity|exact FX]|]. split; auto 10.
Qed.

(** One step: whatever the reference sampler returns, the pushforward sampler returns its images and the pullback
    sampler points whose images they are. *)
Theorem C48_samplers : forall os h k s K P co ref N pl h' Y n, runs gen init normal [] os h -> nth_error h k = Some s -> length co = p_nc P -> p_in P = n -> p_out P = n ->
  Sample gen normal pl ref N h = Ok (h', Y) -> is_mat n Y -> length (mx_cols Y) = N ->
  (sm_kind _ s = KPush (with_coeffs K co) ref -> imp_eval K P -> exists X, Sample gen normal pl k N h = Ok (h', X) /\ mx_cols X = map (p_eval P co) (mx_cols Y)) /\
  (forall tol, sm_kind _ s = KPull (with_coeffs K co) ref -> imp_inv 0 tol K P -> exists X, Sample gen normal pl k N h = Ok (h', X) /\
     Forall2 (fun y x => length x = n /\ close tol (p_eval P co x) y) (mx_cols Y) (mx_cols X)).
Proof.
  intros os h k s K P co ref N pl h' Y n HR Es Hco Hi Ho EY [HYr HYc] HN. destruct (runs_wf gen init normal c Hinit [] os h HR (wf_nil gen c)) as [W _].
  destruct (W k s Es) as (_ & _ & W3).
  assert (Pre : forall r, ref_of (sm_kind _ s) = Some r -> r = ref -> exists t, nth_error h ref = Some t /\ sm_dim _ t = sm_dim _ s /\ SampleImpl_ gen normal k pl ref (alloc_mat (sm_dim _ t) N) h = Ok (h', Y) /\ (sm_dim _ s = n \/ N = 0)%nat).
  { intros r Hr ->. destruct (W3 ref Hr) as (Lt & t & Et & Dt). exists t. split; auto. split; auto. unfold Sample in EY. rewrite (raw_get_of _ _ _ Et) in EY. cbn [obind] in EY. unfold SampleImpl in EY.
    rewrite (SampleImpl_fuel gen normal c pl h W (S ref) k) in EY by lia. split; auto. destruct N as [|N]; [auto|]. left.
    destruct k as [|k]; [lia|]. cbn [SampleImpl_] in EY. rewrite (raw_get_of _ _ _ Et) in EY. cbn [obind] in EY.
    assert (mx_rows Y = sm_dim _ t); [|congruence]. destruct (sm_kind _ t) as [G|M r|M r].
    - destruct (ga_SampleImpl _ _ _ _ _ _) as [[p q]| | |] eqn:F; try discriminate. cbn [obind fst snd] in EY. destruct (raw_set _ _ _); try discriminate. cbn [obind] in EY. injection EY as _ <-.
      unfold ga_SampleImpl in F. destruct (negb _); [discriminate|]. destruct (ga_idCov G).
      + destruct (ofold _ _ _); try discriminate. cbn [obind] in F. injection F as _ <-. reflexivity.
      + destruct (as_left _); try discriminate. cbn [obind] in F. destruct (ofold _ _ _); try discriminate. cbn [obind] in F. destruct (omap _ _); try discriminate. cbn [obind] in F. destruct (omap _ _); try discriminate. cbn [obind] in F. injection F as _ <-. reflexivity.
    - destruct (raw_get h r); try discriminate. cbn [obind] in EY. destruct (SampleImpl_ _ _ _ _ _ _ _); try discriminate. cbn [obind] in EY. destruct (each2 _ _ _ _); try discriminate. cbn [obind] in EY. injection EY as _ <-. reflexivity.
    - destruct (raw_get h r); try discriminate. cbn [obind] in EY. destruct (SampleImpl_ _ _ _ _ _ _ _); try discriminate. cbn [obind] in EY. destruct (each _ _ _); try discriminate. cbn [obind] in EY. injection EY as _ <-. reflexivity. }
  assert (Out : forall d, (d = n \/ N = 0)%nat -> Forall (fun x => length x = n) (mx_cols (alloc_mat d N))) by (intros d [->|E0]; [apply alloc_cols|rewrite E0; constructor]).
  split.
  - intros Hk [_ Himp]. rewrite Hk in Pre. destruct (Pre ref eq_refl eq_refl) as (t & Et & Dt & E & Hdim). unfold Sample. rewrite (raw_get_of _ _ _ Es). cbn [obind]. unfold SampleImpl. cbn [SampleImpl_].
    rewrite (raw_get_of _ _ _ Es). cbn [obind]. rewrite Hk, (raw_get_of _ _ _ Et). cbn [obind]. rewrite alloc_len, E. cbn [obind fst snd with_coeffs o_map o_c o_coeffs].
    rewrite (each_ok _ (p_eval P co) n n) with (pts := mx_cols Y); auto.
    + cbn [obind]. eexists. split; [reflexivity|]. reflexivity.
    + intros x o Hx Hoo. apply (proj1 (Himp co x o Hco ltac:(congruence) ltac:(congruence))).
    + rewrite alloc_len. auto.
  - intros tol Hk [_ Himp]. rewrite Hk in Pre. destruct (Pre ref eq_refl eq_refl) as (t & Et & Dt & E & Hdim). unfold Sample. rewrite (raw_get_of _ _ _ Es). cbn [obind]. unfold SampleImpl. cbn [SampleImpl_].
    rewrite (raw_get_of _ _ _ Es). cbn [obind]. rewrite Hk, (raw_get_of _ _ _ Et). cbn [obind]. rewrite alloc_len, E. cbn [obind fst snd with_coeffs o_map o_c o_coeffs].
    destruct (each2_rel (m_inv K co) (fun r y => length y = n /\ close tol (p_eval P co y) r) n n) with (a := mx_cols (alloc_mat 0 (length (mx_cols Y)))) (b := mx_cols Y) (out := mx_cols (alloc_mat (sm_dim _ s) N)) as (ys & Ey & Fy); auto.
    + intros a r o Ha Hr Hoo. destruct (Himp co a r o Hco Ha ltac:(congruence) ltac:(congruence)) as (y & Ey & Ly & Cy). exists y. split; auto. split; [congruence|].
      rewrite Hi, Ho, Nat.sub_diag in Cy. exact Cy.
    + apply alloc_cols.
    + apply alloc_len.
    + rewrite alloc_len. auto.
    + rewrite Ey. cbn [obind]. eexists. split; [reflexivity|]. exact Fy.
Qed.

(** Successive calls of Sample. *)
Fixpoint collect (k : nat) (reqs : list (nat * plan)) (h : heap) : outcome (list matrix) :=
  match reqs with
  | [] => Ok []
  | (N, pl) :: reqs => do r <- Sample gen normal pl k N h; do ms <- collect k reqs (fst r); Ok (snd r :: ms)
  end.
(** After SetSeed a sampler returns the same samples whatever happened before, as long as the parallel loops
    run in the same way. *)
Theorem C65_reproducible_partial : forall setup h0 os1 h1 os2 h2 k seed, runs gen init normal [] setup h0 -> runs gen init normal h0 os1 h1 -> runs gen init normal h0 os2 h2 -> (k < length h0)%nat ->
  exists h1' h2', SetSeed gen init seed k h1 = Ok h1' /\ SetSeed gen init seed k h2 = Ok h2' /\
    forall reqs ms, collect k reqs h1' = Ok ms -> collect k reqs h2' = Ok ms.
Proof.
  intros setup h0 os1 h1 os2 h2 k seed R0 R1 R2 Hk. destruct (runs_wf gen init normal c Hinit _ _ _ R0 (wf_nil gen c)) as [W0 _].
  destruct (runs_wf gen init normal c Hinit _ _ _ R1 W0) as [W1 (l1 & S1)]. destruct (runs_wf gen init normal c Hinit _ _ _ R2 W0) as [W2 (l2 & S2)].
  destruct (SetSeed_alike gen init c Hinit seed (S k) k h1 h2 W1 W2 ltac:(lia)) as (h1' & h2' & E1 & E2 & A).
  { intros i Hi. destruct (nth_error h0 i) as [s|] eqn:Es; [|apply nth_error_None in Es; lia].
    destruct (Forall2_nth_error _ _ _ S1 i s) as (s1 & F1 & (D1 & K1 & _)); [rewrite nth_error_app1 by lia; auto|].
    destruct (Forall2_nth_error _ _ _ S2 i s) as (s2 & F2 & (D2 & K2 & _)); [rewrite nth_error_app1 by lia; auto|]. exists s1, s2. split; auto. split; auto. split; congruence. }
  exists h1', h2'. split; auto. split; auto. clear - A. intros reqs. revert h1' h2' A. induction reqs as [|[N pl] reqs IH]; intros h1 h2 A ms E; [exact E|]. cbn [collect] in *.
  assert (A' := A). destruct A' as (s & F1 & F2 & _). unfold Sample in *. rewrite (raw_get_of _ _ _ F1) in E. rewrite (raw_get_of _ _ _ F2). cbn [obind] in *. unfold SampleImpl in *.
  destruct (SampleImpl_ _ _ _ _ _ _ h1) as [r1| | |] eqn:E1; try discriminate. cbn [obind] in E.
  destruct (SampleImpl_alike gen normal pl (S k) (S k) k _ h1 h2 r1 ltac:(auto) A E1) as (r2 & E2 & Eq & Al). rewrite E2. cbn [obind].
  destruct (collect k reqs (fst r1)) as [ms'| | |] eqn:Ec; try discriminate. cbn [obind] in E. rewrite (IH _ _ (Al k A) _ Ec). cbn [obind]. rewrite Eq. exact E.
Qed.

(** [k] is sampler [b], or a pullback or pushforward built on it. *)
Inductive built_on (h : heap) (b : nat) : nat -> Prop :=
| on_self : built_on h b b
| on_ref k s r : nth_error h k = Some s -> ref_of (sm_kind _ s) = Some r -> built_on h b r -> built_on h b k.
(** With any other covariance Sample aborts: it allocates its result row after row, and the sampler insists on columns. *)
Theorem C65_dense_refuted : forall llt n mu Sg G os h b k s N pl, constructed llt n mu Sg G -> ga_idCov G = false -> (n <> 1 \/ N <> 1)%nat ->
  runs gen init normal [] os h -> nth_error h b = Some s -> sm_kind _ s = KGauss G -> built_on h b k -> Sample gen normal pl k N h = Throw.
Proof.
  intros llt n mu Sg G os h b k s N pl HG Hid Hn HR Es Ek HB. destruct (runs_wf gen init normal c Hinit _ _ _ HR (wf_nil gen c)) as [W _].
  assert (Hdim : ga_dim G = n).
  { destruct HG as [mu cov G E Hr Hsp|cov G E Hsp|mu|n]; try reflexivity.
    - unfold gauss_mean_cov in E. destruct (Factorize llt cov); try discriminate. cbn [obind] in E. injection E as <-. reflexivity.
    - unfold gauss_cov in E. destruct (Factorize llt cov); try discriminate. cbn [obind] in E. injection E as <-. reflexivity. }
  assert (Main : forall k, built_on h b k -> exists t, nth_error h k = Some t /\ sm_dim _ t = n /\ forall fuel, (k < fuel)%nat -> SampleImpl_ gen normal fuel pl k (alloc_mat n N) h = Throw).
  { clear k HB. intros k HB. induction HB as [|k t r Et Er HB IH].
    - exists s. destruct (W b s Es) as (_ & W2 & _). rewrite Ek in W2. split; auto. split; [congruence|]. intros [|fuel] Hf; [lia|]. cbn [SampleImpl_]. rewrite (raw_get_of _ _ _ Es). cbn [obind]. rewrite Ek.
      unfold ga_SampleImpl. rewrite Hdim, Hid. change (mx_rows (alloc_mat n N)) with n. rewrite Nat.eqb_refl. cbn [negb]. unfold as_left.
      assert (mx_s0 (alloc_mat n N) = N) as -> by (apply repeat_length). change (mx_s1 (alloc_mat n N)) with 1%nat. change (mx_rows (alloc_mat n N)) with n.
      destruct (Nat.eqb_spec N 1), (Nat.eqb_spec 1 n); cbn [andb]; try reflexivity. lia.
    - destruct IH as (u & Eu & Du & IH). destruct (W k t Et) as (_ & _ & W3). destruct (W3 r Er) as (Lt & u' & Eu' & Dt). rewrite Eu in Eu'. injection Eu' as <-.
      exists t. split; auto. split; [congruence|]. intros [|fuel] Hf; [lia|]. cbn [SampleImpl_]. rewrite (raw_get_of _ _ _ Et). cbn [obind].
      destruct (sm_kind _ t) as [|M ref|M ref]; cbn [ref_of] in Er; try discriminate; injection Er as ->; rewrite (raw_get_of _ _ _ Eu); cbn [obind]; rewrite alloc_len, Du, IH by lia; reflexivity. }
  destruct (Main k HB) as (t & Et & Dt & E). unfold Sample. rewrite (raw_get_of _ _ _ Et). cbn [obind]. rewrite Dt. apply E. lia.
Qed.
(** The constructors accept a square map of the sampler's dimension, and a sampler and a density of equal dimensions, and nothing else. *)
Theorem C65_rejects : forall t M r s D h, nth_error h r = Some s ->
  ((m_out (o_map M) = sm_dim _ s /\ m_in (o_map M) = m_out (o_map M)) -> exists h1 h2, new_pullback gen init t M r h = Ok h1 /\ new_pushforward gen init t M r h = Ok h2) /\
  (~ (m_out (o_map M) = sm_dim _ s /\ m_in (o_map M) = m_out (o_map M)) -> new_pullback gen init t M r h = Throw /\ new_pushforward gen init t M r h = Throw) /\
  (sm_dim _ s = d_dim D -> new_distribution gen r D h = Ok (MkDist r D)) /\ (sm_dim _ s <> d_dim D -> new_distribution gen r D h = Throw).
Proof.
  intros t M r s D h E. unfold new_pullback, new_pushforward, new_transport, new_distribution. rewrite (raw_get_of _ _ _ E). cbn [obind].
  split; [|split; [|split]].
  - intros [-> ->]. rewrite !Nat.eqb_refl. cbn [negb]. eauto.
  - intros H. destruct (Nat.eqb_spec (m_out (o_map M)) (sm_dim _ s)); cbn [negb]; [|auto]. destruct (Nat.eqb_spec (m_in (o_map M)) (m_out (o_map M))); cbn [negb]; [|auto]. exfalso. auto.
  - intros ->. rewrite Nat.eqb_refl. reflexivity.
  - intros H. destruct (Nat.eqb_spec (sm_dim _ s) (d_dim D)); [contradiction|reflexivity].
Qed.
End C65.
Print Assumptions C48_samplers.
Print Assumptions C65_gaussian.
Print Assumptions C65_samples_partial.
Print Assumptions C65_reproducible_partial.
Print Assumptions C65_dense_refuted.
Print Assumptions C65_rejects.

(** ** Several threads *)
(** A generator that counts; a pool of two. *)
Definition ex_normal (g : nat) : R * nat := (INR g, S g).
Definition ex_init (seed : nat) : list nat := [seed; (seed + 10)%nat].
(** With the same seed, a loop whose entries are served by other threads returns other samples. *)
Theorem C65_threads_refuted : exists (init : nat -> list nat) (normal : nat -> R * nat) os h h' (pl1 pl2 : plan) ms1 ms2,
  draws_all 2 1 2 pl1 /\ draws_all 2 1 2 pl2 /\ runs nat init normal [] os h /\ SetSeed nat init 7 0 h = Ok h' /\
  collect nat normal 0 [(2%nat, pl1)] h' = Ok ms1 /\ collect nat normal 0 [(2%nat, pl2)] h' = Ok ms2 /\ ms1 <> ms2.
Proof.
  exists ex_init, ex_normal, [OGauss 3 (gauss_std 1)]. eexists. eexists. exists [(0, 0, 0); (1, 0, 1)]%nat, [(0, 0, 1); (1, 0, 0)]%nat. eexists. eexists.
  split; [split; [reflexivity|cbn; intros v [<-|[<-|[]]]; cbn; lia]|]. split; [split; [reflexivity|cbn; intros v [<-|[<-|[]]]; cbn; lia]|].
  split; [eapply run_ok; [reflexivity|constructor]|]. split; [reflexivity|]. split; [reflexivity|]. split; [reflexivity|].
  intros E. apply (f_equal (fun ms => match ms with m :: _ => match mx_cols m with (x :: _) :: _ => x | _ => 0 end | _ => 0 end)) in E.
  change (INR 7 = INR 17) in E. apply INR_eq in E. discriminate.
Qed.
Print Assumptions C65_threads_refuted.

(** ** Examples *)
Example C65_example : exists h, runs nat ex_init ex_normal [] [OGauss 3 (gauss_mean [1; 2]); OPush 4 (with_coeffs (aff_map (aff_make_b [1; 2])) []) 0; OPull 5 (with_coeffs (aff_map (aff_make_b [1; 2])) []) 1] h /\
  samples nat h 2 0 2 (fun z x => exists y, (exists y', y' = vadd z [1; 2] /\ y = p_eval (shift_pmap [1; 2]) [] y') /\ length x = 2%nat /\ close 0 (p_eval (shift_pmap [1; 2]) [] x) y) /\
  draws_all 2 2 2 [(1, 1, 0); (0, 0, 1); (0, 1, 1); (1, 0, 0)]%nat.
Proof.
  eexists. split; [eapply run_ok; [reflexivity|]; eapply run_ok; [reflexivity|]; eapply run_ok; [reflexivity|constructor]|]. split.
  - eapply (smp_pull nat _ 2 _ _ (shift_pmap [1; 2]) [] 1 0 2 (fun z y => exists y', y' = vadd z [1; 2] /\ y = p_eval (shift_pmap [1; 2]) [] y') 0); [reflexivity|reflexivity| |apply shift_imp_inv|reflexivity|reflexivity|reflexivity].
    eapply (smp_push nat _ 1 _ _ (shift_pmap [1; 2]) [] 0 0 2 (fun z y' => y' = vadd z [1; 2])); [reflexivity|reflexivity| |apply shift_imp_eval|reflexivity|reflexivity|reflexivity].
    eapply (smp_mean nat _ 0 _ [1; 2]); reflexivity.
  - split; [|cbn; intros v [<-|[<-|[<-|[<-|[]]]]]; cbn; lia]. cbn [map fst list_prod seq app].
    apply (Permutation_trans (l' := [(0, 0); (1, 1); (0, 1); (1, 0)]%nat)); [apply perm_swap|]. apply perm_skip.
    apply (Permutation_trans (l' := [(0, 1); (1, 1); (1, 0)]%nat)); [apply perm_swap|]. apply perm_skip. apply perm_swap.
Qed.
Example C65_dense_example : exists G h, constructed exact_llt 2 (zeros 2) (mx_cols ex_cov) G /\ ga_idCov G = false /\ runs nat ex_init ex_normal [] [OGauss 3 G] h /\
  forall N pl, Sample nat ex_normal pl 0 N h = Throw.
Proof.
  assert (HG : exists G, gauss_cov exact_llt ex_cov = Ok G /\ ga_idCov G = false) by (eexists; split; reflexivity). destruct HG as (G & EG & Hid).
  assert (HC : constructed exact_llt 2 (zeros 2) (mx_cols ex_cov) G) by (apply (by_cov exact_llt ex_cov G EG); apply ex_cov_spd).
  exists G. eexists. split; [exact HC|]. split; auto. split; [eapply run_ok; [reflexivity|constructor]|]. intros N pl.
  apply (C65_dense_refuted nat ex_init ex_normal 2 ltac:(reflexivity) exact_llt 2 (zeros 2) (mx_cols ex_cov) G [OGauss 3 G] _ 0 0 (MkSampler nat 2 (ex_init 3) (KGauss G)) N pl HC Hid).
  - left. lia.
  - eapply run_ok; [reflexivity|constructor].
  - cbn. pose proof (by_cov exact_llt ex_cov G EG ex_cov_spd) as X. unfold gauss_cov in EG. destruct (Factorize exact_llt ex_cov); try discriminate. cbn [obind] in EG. injection EG as <-. reflexivity.
  - reflexivity.
  - constructor.
Qed.
Example C65_reproducible_example : let pl := [(0, 1, 0); (0, 0, 1)]%nat in
  exists h0 h1 h1' ms, runs nat ex_init ex_normal [] [OGauss 3 (gauss_mean [1; 2]); OPush 4 (with_coeffs (aff_map (aff_make_b [1; 2])) []) 0] h0 /\
  runs nat ex_init ex_normal h0 [OSample 0 1 pl; OSeed 0 5; OGauss 9 (gauss_std 1)] h1 /\ SetSeed nat ex_init 6 1 h1 = Ok h1' /\
  collect nat ex_normal 1 [(1%nat, pl); (1%nat, pl)] h1' = Ok ms /\ map mx_cols ms = [[[INR 16 + 1 + 1; INR 6 + 2 + 2]]; [[INR 17 + 1 + 1; INR 7 + 2 + 2]]].
Proof.
  intros pl. do 4 eexists. split; [eapply run_ok; [reflexivity|]; eapply run_ok; [reflexivity|constructor]|].
  split; [eapply run_ok; [reflexivity|]; eapply run_ok; [reflexivity|]; eapply run_ok; [reflexivity|constructor]|]. split; [reflexivity|]. split; [reflexivity|]. reflexivity.
Qed.
