(** C82: what a map returns in Julia does not depend on what the memory of the result held before.
    Mathematical maps are specified in SpecMaps.v and SpecMonoMap.v. *)
From Coq Require Import Reals List Lia Lra NArith Nnat.
From Verif Require Import Base SpecMulti SpecCount SpecPoly SpecQuad SpecExpansion SpecMaps SpecMono SpecMonoMap SpecFactory MISetModel MultiIndexProofs MISetInv MISetOps MISetLimFill MISetHist PropMISet FixedSetModel FixedSetProofs PropFixed
  PolyModel PolyProofs LinProofs PropPoly BijModel BijProofs ExpansionModel ExpansionProofs PropExpansion QuadModel QuadCC QuadACC PropQuad RootModel MonoModel MonoProofs PropMono
  MapsModel LeafModel MapsContract MapsProofs LeafProofs PropMaps PropLeaf MonoMap FactoryModel FactoryProofs FactoryBasis DetProofs CheckProofs ComposedProofs PropBuild JuliaModel.
Import ListNotations.
Local Open Scope R_scope.

(** The maps that constructors and factories make, with the mathematical maps they stand for. [aff]: affine
    blocks are allowed. Monotone components have continuous derivatives, Clenshaw-Curtis quadrature and no bounds. *)
Inductive built (aff : bool) : cmap -> pmap -> Prop :=
| b_identity : forall n m, (m <= n)%nat -> built aff (id_map false n m) (id_pmap n m)
| b_affine : forall lib A b m n f, aff = true -> rows_of m n A -> (0 < m)%nat ->
    (aff_ctor_A lib A = Ok f /\ b = zeros m \/ aff_ctor_Ab lib A b = Ok f) ->
    lu_correct m (columns (n - m) m A) (lib (columns (n - m) m A)) -> det m (columns (n - m) m A) <> 0 ->
    built aff (aff_map f) (affine_pmap m n A b)
| b_offset : forall b, aff = true -> built aff (aff_map (aff_make_b b)) (shift_pmap b)
| b_component : forall fuel d alphas f o N pts wts C S, (0 < d)%nat -> fixed_set d alphas f -> degrees_le N alphas -> supported o N ->
    o_quad o = ClenshawCurtis -> (1 <= o_pts o)%nat -> unbounded o -> o_cont o = true ->
    make_cc (o_pts o) = Ok (qr_clenshaw pts wts) -> clenshaw_curtis (o_pts o) pts wts ->
    CreateComponent fuel f o = Ok C -> scratch_ok (mc_w C) (1 + length alphas + d) S ->
    built aff (mono_map C S) (mono_pmap d pts wts (link o) (o_nugget o) (one_dim o) alphas)
| b_summarised : forall S PS sc K PK T, imp_eval S PS -> imp_grad S PS -> length sc = p_nc PS -> built aff K PK ->
    sm_ctor S sc K = Ok T -> built aff T (summarized_pmap PS sc PK)
| b_triangular : forall Ks Ps T, Forall2 (built aff) Ks Ps -> tri_ctor Ks = Ok T -> built aff T (tri_pmap (m_in T) Ps)
| b_composed : forall Ks Ps maxChecks T, Forall2 (built aff) Ks Ps -> cmp_ctor Ks maxChecks = Ok T ->
    (maxChecks < 2 ^ 31)%Z -> (length Ks <= layer_bound)%nat -> built aff T (cmp_pmap (m_in T) Ps).

Definition empty_grads (P : pmap) : Prop :=
  p_nc P = 0%nat -> (forall c x s, p_cgrad P c x s = []) /\ (forall c x, p_ldc P c x = []).
Definition all_calls (aff : bool) (K : cmap) (P : pmap) : Prop :=
  imp_eval K P /\ imp_logdet K P /\ imp_grad K P /\ imp_cgrad K P /\ empty_grads P /\ (aff = false -> imp_ldc K P /\ imp_ldi K P).

Lemma cgrad0 K P : imp_cgrad K P -> empty_grads P -> imp_cgrad0 K P.
Proof. intros H E. split; [apply H|]. split; [auto|]. intros Z. apply E, Z. Qed.
Lemma ldc0 K P : imp_ldc K P -> empty_grads P -> imp_ldc0 K P.
Proof. intros H E. split; [apply H|]. split; [auto|]. intros Z. apply E, Z. Qed.
Lemma f2_map {A B} (Q Q' : A -> B -> Prop) (l : list A) (l' : list B) : (forall a b, Q a b -> Q' a b) -> Forall2 Q l l' -> Forall2 Q' l l'.
Proof. intros H F. induction F; constructor; auto. Qed.
Lemma empty_tri n l : Forall empty_grads l -> empty_grads (tri_pmap n l).
Proof.
  intros F Z. cbn [tri_pmap p_nc p_cgrad p_ldc] in *. induction F as [|P l H F IH]; [split; reflexivity|]. cbn [nsum] in Z.
  destruct H as (H1 & H2); [lia|]. destruct IH as (I1 & I2); [lia|]. split; intros; cbn [tri_cgrad tri_ldc]; rewrite ?H1, ?H2, ?I1, ?I2; reflexivity.
Qed.
Lemma empty_cmp d l : Forall empty_grads l -> empty_grads (cmp_pmap d l).
Proof.
  intros F Z. cbn [cmp_pmap p_nc p_cgrad p_ldc] in *. induction F as [|P l H F IH]; [split; reflexivity|]. cbn [nsum] in Z.
  destruct H as (H1 & H2); [lia|]. destruct IH as (I1 & I2); [lia|]. split; intros.
  - cbn [cmp_cgrad]. cbv zeta. rewrite H1, I1. reflexivity.
  - destruct l as [|P' l]; [apply H2|].
    change (vadd (p_ldc P (firstn (p_nc P) c) x) (p_cgrad P (firstn (p_nc P) c) x (cmp_ldi (P' :: l) (skipn (p_nc P) c) (p_eval P (firstn (p_nc P) c) x)))
      ++ cmp_ldc (P' :: l) (skipn (p_nc P) c) (p_eval P (firstn (p_nc P) c) x) = []).
    rewrite H1, H2, I2. reflexivity.
Qed.

Lemma built_calls aff : forall K P, built aff K P -> all_calls aff K P.
Proof.
  fix IH 3. intros K P H.
  destruct H as [n m H|lib A b m n f Ha HA Hm HF HLU Hdet|b Ha|fuel d alphas f o N pts wts C S Hd Hf HN HS HQ Hp HU Hc EQ CC EC HSc
    |S PS sc K PK T HSE HSG Hsc HK HT|Ks Ps T HF HT|Ks Ps mx T HF HT Hmx Hb].
  - split; [apply id_imp_eval; auto|]. split; [apply id_imp_logdet; auto|]. split; [apply id_imp_grad; auto|].
    split; [apply id_imp_cgrad; auto|]. split; [intros _; split; reflexivity|]. intros _. split; [apply id_imp_ldc|apply id_imp_ldi]; auto.
  - destruct (C43_affine lib A b m n f n HA Hm HF HLU Hdet ltac:(lia)) as (X1 & X2 & X3 & _).
    split; [exact X1|]. split; [exact X2|]. split; [exact X3|]. split; [|split; [intros _; split; reflexivity|intros X; congruence]].
    split; [apply X1|]. intros c x s old _ _ _ Lo. destruct old; [|discriminate Lo]. split; reflexivity.
  - split; [apply shift_imp_eval|]. split; [apply shift_imp_logdet|]. split; [apply shift_imp_grad|]. split; [apply shift_imp_cgrad|].
    split; [intros _; split; reflexivity|intros X; congruence].
  - destruct (component_ok fuel d alphas f o N pts wts) as (C' & EC' & X); auto. rewrite EC in EC'. injection EC' as <-.
    destruct (X S HSc) as (X1 & X2 & X3 & X4). destruct (X4 Hc) as (X5 & X6 & X7). split; [exact X1|]. split; [exact X5|]. split; [exact (X3 HU)|].
    split; [exact X2|]. split; [|intros _; split; [exact X6|exact (X7 HU)]].
    intros Z. cbn [mono_pmap p_nc p_cgrad p_ldc] in *. rewrite Z. split; reflexivity.
  - destruct (IH K PK HK) as (X1 & X2 & X3 & X4 & X5 & X6). pose proof X1 as ((k1 & k2 & k3) & _). pose proof HSE as ((s1 & s2 & s3) & _).
    unfold sm_ctor in HT. rewrite k2, k1, s2 in HT.
    destruct (Nat.eqb_spec (p_out PK) 1) as [Ho|]; [|discriminate HT]. cbn [negb] in HT. destruct (Nat.eqb_spec (p_in PK) (p_out PS + 1)) as [Hi|]; [|discriminate HT].
    cbn [negb] in HT. injection HT as <-. assert (DK : dims K PK) by apply X1.
    split; [apply sm_imp_eval; auto|]. split; [apply sm_imp_logdet; auto|]. split; [apply sm_imp_grad; auto|]. split; [apply sm_imp_cgrad; auto|].
    split; [intros Z; cbn [summarized_pmap p_nc p_cgrad p_ldc] in *; destruct (X5 Z) as (Y1 & Y2); split; intros; auto|].
    intros Ha. destruct (X6 Ha) as (Y1 & Y2). split; [apply sm_imp_ldc|apply sm_imp_ldi]; auto.
  - assert (F : Forall2 (all_calls aff) Ks Ps) by (clear HT; induction HF as [|K P Ks Ps HK HF IHF]; constructor; [exact (IH K P HK)|exact IHF]). clear HF.
    destruct (C39_gradients Ks Ps T HT) as (G1 & G2 & G3 & G4).
    split; [apply (C37_evaluate Ks Ps T HT); eapply f2_map; [|exact F]; intros a b X; apply X|].
    split; [apply (C37_logdet Ks Ps T HT); eapply f2_map; [|exact F]; intros a b X; apply X|].
    split; [apply G1; eapply f2_map; [|exact F]; intros a b X; apply X|].
    split; [apply G2; eapply f2_map; [|exact F]; intros a b X; apply cgrad0; apply X|].
    split; [apply empty_tri; clear -F; induction F as [|K P Ks Ps X F I]; constructor; [apply X|exact I]|]. intros Ha.
    split; [apply G3|apply G4]; (eapply f2_map; [|exact F]); intros a b (_ & _ & _ & _ & X & Y); [apply ldc0; [apply (Y Ha)|exact X]|apply (Y Ha)].
  - assert (F : Forall2 (all_calls aff) Ks Ps) by (clear HT Hb; induction HF as [|K P Ks Ps HK HF IHF]; constructor; [exact (IH K P HK)|exact IHF]). clear HF.
    assert (FE : Forall2 imp_eval Ks Ps) by (eapply f2_map; [|exact F]; intros a b X; apply X).
    assert (FG : Forall2 imp_grad Ks Ps) by (eapply f2_map; [|exact F]; intros a b X; apply X).
    assert (FC : Forall2 imp_cgrad Ks Ps) by (eapply f2_map; [|exact F]; intros a b X; apply X).
    destruct (C40_evaluate Ks Ps mx T HT FE) as (E1 & E2). destruct (C42_gradients_partial Ks Ps mx T HT FE FG Hmx Hb) as (G1 & G2 & G3 & G4).
    split; [exact E1|]. split; [apply E2; eapply f2_map; [|exact F]; intros a b X; apply X|]. split; [exact G1|]. split; [exact (G2 FC)|].
    split; [apply empty_cmp; clear -F; induction F as [|K P Ks Ps X F I]; constructor; [apply X|exact I]|]. intros Ha.
    assert (FL : Forall2 imp_ldi Ks Ps) by (eapply f2_map; [|exact F]; intros a b X; apply X, Ha).
    assert (FD : Forall2 imp_ldc Ks Ps) by (eapply f2_map; [|exact F]; intros a b X; apply X, Ha).
    split; [exact (G4 FL FC FD)|exact (G3 FL)].
Qed.

(** ** The memory of a result *)
Lemma u32_small k : (N.of_nat k < 4294967296)%N -> u32 k = k.
Proof. intros H. unfold u32. rewrite N.mod_small by exact H. apply Nat2N.id. Qed.
Lemma each_ok {A} (f : nat -> list A -> outcome (list A)) rows n m (y : nat -> list A) : length m = (rows * n)%nat ->
  (forall j o, (j < n)%nat -> length o = rows -> f j o = Ok (y j) /\ length (y j) = rows) ->
  each f rows n m = Ok (concat (map y (seq 0 n))).
Proof.
  intros L H. unfold each.
  assert (G : forall k a pre post, length pre = (a * rows)%nat -> length post = (k * rows)%nat -> (a + k <= n)%nat ->
    ofold (fun m j => do o <- column m (j * rows) rows; do y <- f j o; Ok (store m (j * rows) y)) (seq a k) (pre ++ post) = Ok (pre ++ concat (map y (seq a k)))).
  { induction k as [|k IH]; intros a pre post Lp Lq Hk.
    - cbn in *. destruct post; [reflexivity|discriminate Lq].
    - cbn [seq ofold map concat]. assert (C : column (pre ++ post) (a * rows) rows = Ok (firstn rows post)).
      { unfold column. rewrite app_length, Lp, Lq. destruct (Nat.leb_spec (a * rows + rows) (a * rows + S k * rows)) as [_|Q]; [|cbn in Q; lia].
        rewrite skipn_app, Lp, Nat.sub_diag. rewrite skipn_all2 by lia. reflexivity. }
      rewrite C. cbn [obind]. destruct (H a (firstn rows post)) as (E & Ly); [lia|rewrite firstn_length, Lq; cbn; lia|]. rewrite E. cbn [obind].
      assert (S1 : store (pre ++ post) (a * rows) (y a) = (pre ++ y a) ++ skipn rows post).
      { unfold store. rewrite Ly, firstn_app, Lp, Nat.sub_diag, firstn_O, app_nil_r, firstn_all2 by lia. rewrite skipn_app, Lp, (skipn_all2 pre) by lia.
        replace (a * rows + rows - a * rows)%nat with rows by lia. rewrite <- app_assoc. reflexivity. }
      rewrite S1. rewrite IH; [rewrite <- app_assoc; reflexivity|rewrite app_length, Ly, Lp; cbn; lia|rewrite skipn_length, Lq; cbn; lia|lia]. }
  apply (G n 0%nat [] m); [reflexivity|lia|lia].
Qed.
Lemma ofold_len {A} (f : list R -> A -> outcome (list R)) l : forall m, (forall m' a, In a l -> length m' = length m -> exists m'', f m' a = Ok m'' /\ length m'' = length m) ->
  exists m', ofold f l m = Ok m' /\ length m' = length m.
Proof.
  induction l as [|a l IH]; intros m H; [exists m; auto|]. cbn [ofold]. destruct (H m a (or_introl eq_refl) eq_refl) as (m1 & E & L). rewrite E. cbn [obind].
  destruct (IH m1) as (m2 & E2 & L2); [|exists m2; split; [exact E2|congruence]].
  intros m' b Hb Hl. destruct (H m' b (or_intror Hb) ltac:(congruence)) as (m2 & E2 & L2). exists m2. split; [exact E2|congruence].
Qed.
Lemma zero_fill_ok dim n m : length m = (dim * n)%nat -> (N.of_nat (dim * n) < 4294967296)%N -> exists m', zero_fill dim n m = Ok m' /\ length m' = (dim * n)%nat.
Proof.
  intros L B. unfold zero_fill. rewrite <- L. apply ofold_len. intros m1 j Hj L1. rewrite <- L1. apply ofold_len. intros m2 i Hi L2.
  apply in_seq in Hj. apply in_seq in Hi. assert (Q : (j * dim + i < dim * n)%nat) by nia.
  rewrite u32_small by lia. unfold raw_set. destruct (Nat.ltb_spec (j * dim + i) (length m2)); [|lia]. eexists. split; [reflexivity|]. rewrite upd_length. exact L2.
Qed.
Lemma raw_get_nth {A} (l : list A) j d : (j < length l)%nat -> raw_get l j = Ok (nth j l d).
Proof. intros H. unfold raw_get. rewrite (nth_error_nth' l d H). reflexivity. Qed.
Lemma map_seq_nth {A B} (g : A -> B) (l : list A) d : map (fun j => g (nth j l d)) (seq 0 (length l)) = map g l.
Proof.
  apply (nth_ext _ _ (g d) (g d)); [rewrite !map_length, seq_length; reflexivity|]. intros k Hk. rewrite map_length, seq_length in Hk.
  rewrite map_nth, (nth_indep _ _ (g (nth 0 l d))) by (rewrite map_length, seq_length; exact Hk).
  rewrite (map_nth (fun j => g (nth j l d)) (seq 0 (length l)) 0%nat k). rewrite seq_nth by exact Hk. reflexivity.
Qed.
Lemma map_seq_combine {A B C} (g : A * B -> C) (l : list A) (l' : list B) d d' : length l' = length l ->
  map (fun j => g (nth j l d, nth j l' d')) (seq 0 (length l)) = map g (combine l l').
Proof.
  intros E. rewrite <- (map_seq_nth g (combine l l') (d, d')). rewrite combine_length, E, Nat.min_id. apply map_ext. intros j. rewrite combine_nth by congruence. reflexivity.
Qed.

(** [good heap]: malloc returns as many doubles as it was asked for, whatever they hold. *)
Definition good {A} (heap : nat -> list A) : Prop := forall n, length (heap n) = n.
Definition sized_pts (d : nat) (pts : list (list R)) : Prop := Forall (fun x => length x = d) pts.
Lemma nth_sized d pts j : sized_pts d pts -> (j < length pts)%nat -> length (nth j pts []) = d.
Proof. intros H Hj. unfold sized_pts in H. rewrite Forall_forall in H. apply H, nth_In, Hj. Qed.
Lemma malloc_len {A} (heap : nat -> list A) rows n : good heap -> (N.of_nat (rows * n) < 4294967296)%N -> length (jlMalloc heap rows n) = (rows * n)%nat.
Proof. intros G B. unfold jlMalloc. rewrite u32_small by exact B. apply G. Qed.

(** Every call of every nesting of the maps above returns the mathematical result at each point, whatever the memory
    held, as long as the result has fewer than 2^32 entries. *)
Theorem C82_calls : forall aff K P c pts sens heap heap', built aff K P -> length c = p_nc P -> sized_pts (p_in P) pts ->
  sized_pts (p_out P) sens -> length sens = length pts -> good heap -> good heap' ->
  let small rows := (N.of_nat (rows * length pts) < 4294967296)%N in
  (small (p_out P) -> jl_Evaluate K c pts heap = Ok (concat (map (p_eval P c) pts))) /\
  (small 1%nat -> jl_LogDeterminant K c pts heap' = Ok (map (fun x => Some (p_logdet P c x)) pts)) /\
  (small (p_in P) -> jl_Gradient K c pts sens heap (p_in P) = Ok (concat (map (fun xs => p_grad P c (fst xs) (snd xs)) (combine pts sens)))) /\
  (small (p_nc P) -> jl_CoeffGrad K c pts sens heap = Ok (concat (map (fun xs => p_cgrad P c (fst xs) (snd xs)) (combine pts sens)))) /\
  (aff = false -> small (p_nc P) -> jl_LogDeterminantCoeffGrad K c pts heap = Ok (concat (map (p_ldc P c) pts))) /\
  (aff = false -> small (p_in P) -> jl_LogDeterminantInputGrad K c pts heap = Ok (concat (map (p_ldi P c) pts))) /\
  (* C++ returns the same *)
  cpp_Evaluate K c pts = Ok (concat (map (p_eval P c) pts)) /\
  (aff = false -> cpp_LogDeterminantInputGrad K c pts (p_in P) = Ok (concat (map (p_ldi P c) pts))).
Proof.
  intros aff K P c pts sens heap heap' HB Lc Hx Hs Ls G G' small. destruct (built_calls aff K P HB) as ((D & HE) & (_ & HL) & (_ & HG) & (_ & HC) & _ & HD).
  destruct D as (D1 & D2 & D3).
  split; [|split; [|split; [|split; [|split; [|split; [|split]]]]]].
  - intros B. unfold jl_Evaluate. rewrite D2. destruct (zero_fill_ok (p_out P) (length pts) (jlMalloc heap (p_out P) (length pts))) as (m & E & L); [apply malloc_len; auto|exact B|].
    rewrite E. cbn [obind]. rewrite (each_ok _ _ _ m (fun j => p_eval P c (nth j pts []))); [rewrite map_seq_nth; reflexivity|exact L|].
    intros j o Hj Lo. unfold at_eval. rewrite (raw_get_nth pts j []) by exact Hj. cbn [obind]. apply HE; auto. apply nth_sized; auto.
  - intros B. unfold jl_LogDeterminant. rewrite (each_ok _ _ _ _ (fun j => [Some (p_logdet P c (nth j pts []))])); [|apply malloc_len; auto|].
    + apply f_equal. rewrite (map_seq_nth (fun x => [Some (p_logdet P c x)]) pts []). clear. induction pts as [|x pts IH]; [reflexivity|]. cbn. rewrite IH. reflexivity.
    + intros j o Hj Lo. unfold at_logdet. rewrite (raw_get_nth pts j []) by exact Hj. cbn [obind]. destruct o as [|a o]; [discriminate Lo|]. cbn [raw_get nth_error obind].
      rewrite HL; [split; reflexivity|auto|apply nth_sized; auto].
  - intros B. unfold jl_Gradient. destruct (zero_fill_ok (p_in P) (length pts) (jlMalloc heap (p_in P) (length pts))) as (m & E & L); [apply malloc_len; auto|exact B|].
    rewrite E. cbn [obind]. rewrite (each_ok _ _ _ m (fun j => p_grad P c (nth j pts []) (nth j sens []))); [|exact L|].
    + rewrite <- (map_seq_combine (fun xs => p_grad P c (fst xs) (snd xs)) pts sens [] []) by exact Ls. reflexivity.
    + intros j o Hj Lo. unfold at_grad. rewrite (raw_get_nth pts j []), (raw_get_nth sens j []) by (rewrite ?Ls; exact Hj). cbn [obind].
      apply HG; auto; apply nth_sized; auto. rewrite Ls. exact Hj.
  - intros B. unfold jl_CoeffGrad. rewrite D3. rewrite (each_ok _ _ _ _ (fun j => p_cgrad P c (nth j pts []) (nth j sens []))); [|apply malloc_len; auto|].
    + rewrite <- (map_seq_combine (fun xs => p_cgrad P c (fst xs) (snd xs)) pts sens [] []) by exact Ls. reflexivity.
    + intros j o Hj Lo. unfold at_cgrad. rewrite (raw_get_nth pts j []), (raw_get_nth sens j []) by (rewrite ?Ls; exact Hj). cbn [obind].
      apply HC; auto; apply nth_sized; auto. rewrite Ls. exact Hj.
  - intros Ha B. destruct (HD Ha) as ((_ & H) & _). unfold jl_LogDeterminantCoeffGrad. rewrite D3.
    rewrite (each_ok _ _ _ _ (fun j => p_ldc P c (nth j pts []))); [rewrite map_seq_nth; reflexivity|apply malloc_len; auto|].
    intros j o Hj Lo. unfold at_ldc. rewrite (raw_get_nth pts j []) by exact Hj. cbn [obind]. apply H; auto. apply nth_sized; auto.
  - intros Ha B. destruct (HD Ha) as (_ & (_ & H)). unfold jl_LogDeterminantInputGrad. rewrite D1.
    rewrite (each_ok _ _ _ _ (fun j => p_ldi P c (nth j pts []))); [rewrite map_seq_nth; reflexivity|apply malloc_len; auto|].
    intros j o Hj Lo. unfold at_ldi. rewrite (raw_get_nth pts j []) by exact Hj. cbn [obind]. apply H; auto. apply nth_sized; auto.
  - unfold cpp_Evaluate. rewrite D2. rewrite (each_ok _ _ _ _ (fun j => p_eval P c (nth j pts []))); [rewrite map_seq_nth; reflexivity|apply repeat_length|].
    intros j o Hj Lo. unfold at_eval. rewrite (raw_get_nth pts j []) by exact Hj. cbn [obind]. apply HE; auto. apply nth_sized; auto.
  - intros Ha. destruct (HD Ha) as (_ & (_ & H)). unfold cpp_LogDeterminantInputGrad.
    rewrite (each_ok _ _ _ _ (fun j => p_ldi P c (nth j pts []))); [rewrite map_seq_nth; reflexivity|apply repeat_length|].
    intros j o Hj Lo. unfold at_ldi. rewrite (raw_get_nth pts j []) by exact Hj. cbn [obind]. apply H; auto. apply nth_sized; auto.
Qed.
Print Assumptions C82_calls.

Lemma close0 a b : close 0 a b -> a = b.
Proof.
  intros H. induction H as [|u v a b H F IH]; [reflexivity|]. f_equal; [|exact IH]. pose proof (Rabs_pos (u - v)) as Q.
  assert (E : Rabs (u - v) = 0) by lra. destruct (Req_dec (u - v) 0) as [Z|Z]; [lra|]. apply Rabs_no_R0 in Z. contradiction.
Qed.

(** Inverse, for maps whose inverse is exact: Julia returns what C++ returns, the solutions of T(x1, y) = r.
    Missing: maps with monotone components, whose inverse is only found up to a tolerance; see C82_inverse. *)
Theorem C82_inverse_partial : forall K P n1 c x1 r heap, imp_inv n1 0 K P -> injective P -> (p_in P - p_out P <= n1)%nat -> length c = p_nc P ->
  sized_pts n1 x1 -> sized_pts (p_out P) r -> length x1 = length r -> good heap -> (N.of_nat (p_out P * length r) < 4294967296)%N ->
  exists ys, jl_Inverse K c x1 r heap = Ok (concat ys) /\ cpp_Inverse K c x1 r = Ok (concat ys) /\ sized_pts (p_out P) ys /\
    map (fun xy => p_eval P c (firstn (p_in P - p_out P) (fst xy) ++ snd xy)) (combine x1 ys) = r.
Proof.
  intros K P n1 c x1 r heap ((D1 & D2 & D3) & HI) HJ Hn Lc Hx Hr Lx G B.
  assert (EX : exists ys, length ys = length r /\ forall j, (j < length r)%nat -> length (nth j ys []) = p_out P /\
    p_eval P c (firstn (p_in P - p_out P) (nth j x1 []) ++ nth j ys []) = nth j r []).
  { clear G B. assert (K0 : forall j, (j < length r)%nat -> exists y, length y = p_out P /\ p_eval P c (firstn (p_in P - p_out P) (nth j x1 []) ++ y) = nth j r []).
    { intros j Hj. destruct (HI c (nth j x1 []) (nth j r []) (repeat 0 (p_out P))) as (y & _ & Ly & Cy); auto using repeat_length.
      - apply nth_sized; auto. congruence.
      - apply nth_sized; auto.
      - exists y. split; [exact Ly|]. apply close0, Cy. }
    revert K0. generalize (length r) as n. induction n as [|n IH]; intros K0; [exists []; split; [reflexivity|intros j Hj; lia]|].
    destruct IH as (ys & L & Q); [intros j Hj; apply K0; lia|]. destruct (K0 n ltac:(lia)) as (y & Ly & Cy). exists (ys ++ [y]). split; [rewrite app_length, L; cbn; lia|].
    intros j Hj. destruct (Nat.eq_dec j n) as [->|Ne].
    - rewrite app_nth2, L, Nat.sub_diag by lia. auto.
    - rewrite app_nth1 by lia. apply Q. lia. }
  destruct EX as (ys & Ly & Q).
  assert (F : forall m, length m = (p_out P * length r)%nat -> each (at_inv K c x1 r) (p_out P) (length r) m = Ok (concat ys)).
  { intros m Lm. rewrite (each_ok _ _ _ m (fun j => nth j ys [])); [|exact Lm|].
    - rewrite <- Ly. rewrite (map_seq_nth (fun y : list R => y) ys []), map_id. reflexivity.
    - intros j o Hj Lo. destruct (Q j Hj) as (Q1 & Q2). split; [|exact Q1]. unfold at_inv. rewrite (raw_get_nth x1 j []), (raw_get_nth r j []) by (rewrite ?Lx; exact Hj). cbn [obind].
      destruct (HI c (nth j x1 []) (nth j r []) o) as (y & E & L & C); auto; [apply nth_sized; auto; congruence|apply nth_sized; auto|]. rewrite E. apply f_equal.
      apply (HJ c (firstn (p_in P - p_out P) (nth j x1 []))); auto; [|rewrite (close0 _ _ C); symmetry; exact Q2].
      rewrite firstn_length, (nth_sized n1 x1 j) by (auto; congruence). lia. }
  exists ys. split; [unfold jl_Inverse; rewrite D2; apply F, malloc_len; auto|].
  split; [unfold cpp_Inverse; rewrite Lx, Nat.eqb_refl, D2; apply F, repeat_length|].
  split.
  - apply Forall_forall. intros y Hy. apply (In_nth ys y []) in Hy. destruct Hy as (j & Hj & <-). apply Q. congruence.
  - rewrite <- (map_seq_combine (fun xy => p_eval P c (firstn (p_in P - p_out P) (fst xy) ++ snd xy)) x1 ys [] []) by congruence. cbn [fst snd].
    transitivity (map (fun y : list R => y) r); [|apply map_id]. rewrite <- (map_seq_nth (fun y : list R => y) r []), Lx. apply map_ext_in. intros j Hj. apply in_seq in Hj. apply Q. lia.
Qed.
Print Assumptions C82_inverse_partial.

(** ** Inverses found by iteration *)
Definition inv_same (K : cmap) (P : pmap) : Prop :=
  forall c x1 r o o', length c = p_nc P -> (p_in P - p_out P <= length x1)%nat -> length r = p_out P -> length o = p_out P -> length o' = p_out P ->
    m_inv K c x1 r o = m_inv K c x1 r o' /\ (forall y, m_inv K c x1 r o = Ok y -> length y = p_out P).
Lemma copy_same (o o' t : list R) k : length o = k -> length o' = k -> deep_copy o t = deep_copy o' t /\ (forall y, deep_copy o t = Ok y -> length y = k).
Proof.
  intros L L'. unfold deep_copy. rewrite L, L'. split; [reflexivity|]. intros y. destruct (Nat.eqb_spec k (length t)) as [E|_]; intros X; [injection X as <-; auto|discriminate X].
Qed.
Lemma exact_same K P c x1 r o o' : imp_inv (length x1) 0 K P -> injective P -> length c = p_nc P -> (p_in P - p_out P <= length x1)%nat ->
  length r = p_out P -> length o = p_out P -> length o' = p_out P ->
  m_inv K c x1 r o = m_inv K c x1 r o' /\ (forall y, m_inv K c x1 r o = Ok y -> length y = p_out P).
Proof.
  intros (_ & HI) HJ Lc Lx Lr Lo Lo'. destruct (HI c x1 r o) as (y & E & L & C); auto. destruct (HI c x1 r o') as (y' & E' & L' & C'); auto.
  rewrite E, E'. split; [|intros z Z; injection Z as <-; exact L]. apply f_equal. apply (HJ c (firstn (p_in P - p_out P) x1)); auto.
  - rewrite firstn_length. lia.
  - rewrite (close0 _ _ C), (close0 _ _ C'). reflexivity.
Qed.
Lemma built_inv_same aff : forall K P, built aff K P -> inv_same K P.
Proof.
  fix IH 3. intros K P H.
  destruct H as [n m H|lib A b m n f Ha HA Hm HF HLU Hdet|b Ha|fuel d alphas f o N pts wts C S Hd Hf HN HS HQ Hp HU Hc EQ CC EC HSc
    |S PS sc K PK T HSE HSG Hsc HK HT|Ks Ps T HF HT|Ks Ps mx T HF HT Hmx Hb]; intros c x1 r u u' Lc Lx Lr Lu Lu'.
  - apply copy_same; auto.
  - assert (Le : (m <= n)%nat).
    { assert (NC : ncols A = n) by (destruct HA as (L & F); destruct A as [|row A']; [cbn in L; lia|]; unfold ncols; exact (Forall_inv F)). destruct HA as (L & _).
      destruct HF as [(E & _)|E]; [unfold aff_ctor_A in E|unfold aff_ctor_Ab in E]; rewrite L, NC in E; destruct (Nat.leb_spec m n); auto; discriminate E. }
    destruct (C43_affine lib A b m n f (length x1) HA Hm HF HLU Hdet ltac:(cbn in Lx; lia)) as (X1 & _ & _ & X4 & _).
    destruct (of_mutual _ _ _ X1 X4 Le Lx) as (Y1 & Y2). apply exact_same; auto.
  - apply exact_same; auto; [apply shift_imp_inv|apply shift_injective].
  - cbn [mono_pmap p_out] in *. cbn [mono_map m_inv]. destruct u as [|a [|? ?]]; try discriminate Lu. destruct u' as [|a' [|? ?]]; try discriminate Lu'.
    destruct (raw_get r 0) as [y| | |]; cbn [obind]; try (split; [reflexivity|intros z Z; discriminate Z]).
    destruct (mc_Inverse C S x1 y c None None) as [v| | |]; cbn [obind]; try (split; [reflexivity|intros z Z; discriminate Z]).
    destruct (fst v); [|split; [reflexivity|intros z Z; discriminate Z]]. split; [reflexivity|]. intros z Z. injection Z as <-. reflexivity.
  - destruct (built_calls aff K PK HK) as (((k1 & k2 & k3) & _) & _). pose proof HSE as ((s1 & s2 & s3) & HE).
    unfold sm_ctor in HT. rewrite k2, k1, s2 in HT.
    destruct (Nat.eqb_spec (p_out PK) 1) as [Ho|]; [|discriminate HT]. cbn [negb] in HT. destruct (Nat.eqb_spec (p_in PK) (p_out PS + 1)) as [Hi|]; [|discriminate HT].
    cbn [negb] in HT. injection HT as <-. cbn [summarized_pmap p_nc p_in p_out] in *. cbn [sm_map m_inv]. unfold sm_Inverse. rewrite s1, s2, s3.
    unfold ExpansionModel.seg. destruct (Nat.leb_spec (0 + p_in PS) (length x1)) as [Q|Q]; [|lia]. cbn [obind skipn]. rewrite Hsc, Nat.eqb_refl.
    destruct (HE sc (firstn (p_in PS) x1) (MapsModel.fresh (p_out PS))) as (E & L); [auto|rewrite firstn_length; lia|apply repeat_length|].
    rewrite E. cbn [obind]. apply (IH K PK HK); auto. lia.
  - assert (F : Forall2 dims Ks Ps) by (clear -HF; induction HF as [|K P Ks Ps HK HF I]; constructor; [exact (proj1 (proj1 (built_calls _ _ _ HK)))|exact I]).
    apply ctor_inv in HT. destruct HT as (-> & _). cbn [tri_map m_inv]. unfold tri_Inverse.
    destruct (ExpansionModel.seg (MapsModel.fresh (tri_in Ks)) 0 (length x1)) as [h| | |]; cbn [obind]; try (split; [reflexivity|intros z Z; discriminate Z]).
    destruct (deep_copy h x1) as [h'| | |]; cbn [obind]; try (split; [reflexivity|intros z Z; discriminate Z]).
    destruct (tri_InverseInplace _ _ _ _) as [h''| | |]; cbn [obind]; try (split; [reflexivity|intros z Z; discriminate Z]).
    destruct (ExpansionModel.seg h'' _ _) as [t| | |]; cbn [obind]; try (split; [reflexivity|intros z Z; discriminate Z]). apply copy_same; auto.
  - unfold cmp_ctor in HT. destruct Ks as [|K0 Ks]; [discriminate HT|]. destruct (squares _); [|discriminate HT]. injection HT as <-. cbn [cmp_map m_inv]. unfold cmp_Inverse.
    destruct (ofold _ _ _) as [st| | |]; cbn [obind]; try (split; [reflexivity|intros z Z; discriminate Z]). apply copy_same; auto.
Qed.
Lemma each_same {A} (f : nat -> list A -> outcome (list A)) rows n m m' : length m = (rows * n)%nat -> length m' = (rows * n)%nat ->
  (forall j o o', (j < n)%nat -> length o = rows -> length o' = rows -> f j o = f j o' /\ (forall y, f j o = Ok y -> length y = rows)) ->
  each f rows n m = each f rows n m'.
Proof.
  intros L L' H. unfold each.
  assert (G : forall k a pre post post', length pre = (a * rows)%nat -> length post = (k * rows)%nat -> length post' = (k * rows)%nat -> (a + k <= n)%nat ->
    ofold (fun m j => do o <- column m (j * rows) rows; do y <- f j o; Ok (store m (j * rows) y)) (seq a k) (pre ++ post) =
    ofold (fun m j => do o <- column m (j * rows) rows; do y <- f j o; Ok (store m (j * rows) y)) (seq a k) (pre ++ post')).
  { induction k as [|k IH]; intros a pre post post' Lp Lq Lq' Hk.
    - cbn in *. destruct post; [|discriminate Lq]. destruct post'; [reflexivity|discriminate Lq'].
    - cbn [seq ofold]. assert (C : forall q, length q = (S k * rows)%nat -> column (pre ++ q) (a * rows) rows = Ok (firstn rows q)).
      { intros q Q. unfold column. rewrite app_length, Lp, Q. destruct (Nat.leb_spec (a * rows + rows) (a * rows + S k * rows)) as [_|Q']; [|cbn in Q'; lia].
        rewrite skipn_app, Lp, Nat.sub_diag. rewrite skipn_all2 by lia. reflexivity. }
      rewrite !C by assumption. cbn [obind]. destruct (H a (firstn rows post) (firstn rows post')) as (E & Ly); [lia|rewrite firstn_length, Lq; cbn; lia|rewrite firstn_length, Lq'; cbn; lia|].
      rewrite <- E. destruct (f a (firstn rows post)) as [y| | |]; try reflexivity. cbn [obind]. specialize (Ly y eq_refl).
      assert (S1 : forall q, store (pre ++ q) (a * rows) y = (pre ++ y) ++ skipn rows q).
      { intros q. unfold store. rewrite Ly, firstn_app, Lp, Nat.sub_diag, firstn_O, app_nil_r, firstn_all2 by lia. rewrite skipn_app, Lp, (skipn_all2 pre) by lia.
        replace (a * rows + rows - a * rows)%nat with rows by lia. rewrite <- app_assoc. reflexivity. }
      rewrite !S1. apply IH; [rewrite app_length, Ly, Lp; cbn; lia|rewrite skipn_length, Lq; cbn; lia|rewrite skipn_length, Lq'; cbn; lia|lia]. }
  apply (G n 0%nat [] m m'); [reflexivity|lia|lia|lia].
Qed.

(** Inverse of every built map, also of those inverted by iteration and also when the iteration fails: Julia
    returns (or throws) what C++ does, whatever the memory held. *)
Theorem C82_inverse : forall aff K P n1 c x1 r heap, built aff K P -> (p_in P - p_out P <= n1)%nat -> length c = p_nc P ->
  sized_pts n1 x1 -> sized_pts (p_out P) r -> length x1 = length r -> good heap -> (N.of_nat (p_out P * length r) < 4294967296)%N ->
  jl_Inverse K c x1 r heap = cpp_Inverse K c x1 r.
Proof.
  intros aff K P n1 c x1 r heap HB Hn Lc Hx Hr Lx G B. pose proof (built_inv_same aff K P HB) as HI. destruct (built_calls aff K P HB) as (((D1 & D2 & D3) & _) & _).
  unfold jl_Inverse, cpp_Inverse. rewrite Lx, Nat.eqb_refl, D2. apply each_same; [apply malloc_len; auto|apply repeat_length|].
  intros j o o' Hj Lo Lo'. unfold at_inv. rewrite (raw_get_nth x1 j []), (raw_get_nth r j []) by (rewrite ?Lx; exact Hj). cbn [obind].
  apply HI; auto; [rewrite (nth_sized n1 x1 j) by (auto; congruence); exact Hn|apply nth_sized; auto].
Qed.
Print Assumptions C82_inverse.

Lemma ofold_id {A B} (f : A -> B -> outcome A) (l : list B) (a : A) : (forall b, In b l -> f a b = Ok a) -> ofold f l a = Ok a.
Proof. induction l as [|b l IH]; intros H; [reflexivity|]. cbn [ofold]. rewrite (H b (or_introl eq_refl)). cbn [obind]. apply IH. intros b' Hb. apply H. right. exact Hb. Qed.
Lemma each_id {A} rows n (f : nat -> list A -> outcome (list A)) (m : list A) : length m = (rows * n)%nat ->
  (forall j o, (j < n)%nat -> f j o = Ok o) -> each f rows n m = Ok m.
Proof.
  intros L H. unfold each. apply ofold_id. intros j Hj. apply in_seq in Hj. assert (Q : (j * rows + rows <= length m)%nat) by nia. unfold column.
  destruct (Nat.leb_spec (j * rows + rows) (length m)) as [_|?]; [|lia]. cbn [obind]. rewrite H by lia. cbn [obind]. apply f_equal. unfold store.
  rewrite firstn_length, skipn_length, Nat.min_l by lia. rewrite <- (firstn_skipn (j * rows) m) at 4. apply f_equal.
  rewrite <- (firstn_skipn rows (skipn (j * rows) m)) at 2. apply f_equal. rewrite ComposedProofs.skipn_skipn. reflexivity.
Qed.

(** LogDeterminantInputGrad of an affine map returns, in Julia, the memory as malloc left it: any values at all. In
    C++ the same call returns zeros, which is the right gradient. *)
Theorem C82_affine_refuted : forall f c pts junk, (N.of_nat (af_in f * length pts) < 4294967296)%N -> length junk = (af_in f * length pts)%nat ->
  (exists heap, good heap /\ jl_LogDeterminantInputGrad (aff_map f) c pts heap = Ok junk) /\
  cpp_LogDeterminantInputGrad (aff_map f) c pts (af_in f) = Ok (zeros (af_in f * length pts)).
Proof.
  intros f c pts junk B L. assert (F : forall j o, (j < length pts)%nat -> at_ldi (aff_map f) c pts j o = Ok o).
  { intros j o Hj. unfold at_ldi. rewrite (raw_get_nth pts j []) by exact Hj. reflexivity. }
  split.
  - exists (fun n => if (n =? af_in f * length pts)%nat then junk else repeat 0 n). split.
    + intros n. destruct (Nat.eqb_spec n (af_in f * length pts)) as [->|_]; [exact L|apply repeat_length].
    + unfold jl_LogDeterminantInputGrad, jlMalloc. cbn [aff_map m_in]. rewrite u32_small by exact B. rewrite Nat.eqb_refl. apply each_id; auto.
  - unfold cpp_LogDeterminantInputGrad. apply each_id; [apply repeat_length|exact F].
Qed.
Print Assumptions C82_affine_refuted.

Lemma ofold_ub {A} (f : list R -> A -> outcome (list R)) (z k : nat) (l : list A) (a : A) : forall m, length m = z -> In a l ->
  (forall m, length m = z -> f m a = UB) -> (forall m b, length m = z -> f m b = UB \/ exists m', f m b = Ok m' /\ length m' = z) -> ofold f l m = UB.
Proof.
  induction l as [|b l IH]; intros m L HI Ha Hb; [destruct HI|]. cbn [ofold]. destruct (Hb m b L) as [E|(m' & E & L')]; rewrite E; [reflexivity|]. cbn [obind].
  destruct HI as [->|HI]; [rewrite (Ha m L) in E; discriminate E|]. apply IH; auto.
Qed.
Lemma ofold_ub_or {A} (f : list R -> A -> outcome (list R)) (z : nat) (l : list A) : forall m, length m = z ->
  (forall m b, length m = z -> f m b = UB \/ exists m', f m b = Ok m' /\ length m' = z) -> ofold f l m = UB \/ exists m', ofold f l m = Ok m' /\ length m' = z.
Proof.
  induction l as [|b l IH]; intros m L H; [right; exists m; auto|]. cbn [ofold]. destruct (H m b L) as [E|(m' & E & L')]; rewrite E; cbn [obind]; [left; reflexivity|]. apply IH; auto.
Qed.
Lemma set_ub_or (m : list R) z i : length m = z -> raw_set m i 0 = UB \/ exists m', raw_set m i 0 = Ok m' /\ length m' = z.
Proof. intros L. unfold raw_set. destruct (i <? length m)%nat; [right; eexists; split; [reflexivity|rewrite upd_length; exact L]|left; reflexivity]. Qed.

(** A result of 2^32 entries or more: the size wraps around, malloc returns too little memory, and Evaluate writes
    outside it, for every map. *)
Theorem C82_large_refuted : forall K c pts heap, good heap -> (4294967296 <= N.of_nat (m_out K * length pts))%N -> jl_Evaluate K c pts heap = UB.
Proof.
  intros K c pts heap G B. unfold jl_Evaluate, jlMalloc. set (d := m_out K) in *. set (n := length pts) in *. set (z := u32 (d * n)).
  assert (Z1 : (N.of_nat z < 4294967296)%N) by (unfold z, u32; rewrite N2Nat.id; apply N.mod_lt; discriminate).
  assert (Zd : (z < d * n)%nat) by lia. assert (Hd : (0 < d)%nat) by (destruct d; [cbn in Zd; lia|lia]).
  assert (E : zero_fill d n (heap z) = UB).
  { unfold zero_fill. apply (ofold_ub _ z 0 _ (z / d)%nat); [apply G| | |].
    - apply in_seq. split; [lia|]. apply Nat.div_lt_upper_bound; lia.
    - intros m L. apply (ofold_ub _ z 0 _ (z mod d)%nat); [exact L| | |intros; apply set_ub_or; auto].
      + apply in_seq. split; [lia|]. apply Nat.mod_upper_bound. lia.
      + intros m' L'. replace (z / d * d + z mod d)%nat with z by (rewrite (Nat.div_mod z d) at 1 by lia; lia).
        rewrite u32_small by exact Z1. unfold raw_set. rewrite L', Nat.ltb_irrefl. reflexivity.
    - intros m j L. apply ofold_ub_or; [exact L|]. intros m' i L'. apply set_ub_or, L'. }
  rewrite E. reflexivity.
Qed.
Print Assumptions C82_large_refuted.

Lemma column_ok {A} (m : list A) off n o : column m off n = Ok o -> (off + n <= length m)%nat /\ length o = n.
Proof.
  unfold column. destruct (Nat.leb_spec (off + n) (length m)) as [H|H]; intros E; [|discriminate E]. injection E as <-.
  split; [exact H|]. rewrite firstn_length, skipn_length. lia.
Qed.
Lemma each_ub (f : nat -> list R -> outcome (list R)) rows n m z : length m = z -> (z < rows * n)%nat ->
  (forall j o, length o = rows -> f j o = UB \/ exists y, f j o = Ok y /\ length y = rows) -> each f rows n m = UB.
Proof.
  intros L Hz H. assert (Hr : (0 < rows)%nat) by (destruct rows; [cbn in Hz; lia|lia]). unfold each. apply (ofold_ub _ z 0 _ (z / rows)%nat); [exact L| | |].
  - apply in_seq. split; [lia|]. apply Nat.div_lt_upper_bound; lia.
  - intros m' L'. unfold column. destruct (Nat.leb_spec (z / rows * rows + rows) (length m')) as [Q|Q]; [|reflexivity].
    pose proof (Nat.mod_upper_bound z rows ltac:(lia)) as M. pose proof (Nat.div_mod z rows ltac:(lia)) as D. rewrite L' in Q. exfalso. nia.
  - intros m' j L'. destruct (column m' (j * rows) rows) as [o| | |] eqn:E; try (unfold column in E; destruct (_ <=? _)%nat; discriminate E); [|left; reflexivity].
    destruct (column_ok _ _ _ _ E) as (Q & Lo). cbn [obind]. destruct (H j o Lo) as [X|(y & X & Ly)]; rewrite X; [left; reflexivity|]. right. eexists. split; [reflexivity|].
    unfold store. rewrite !app_length, firstn_length, skipn_length, Ly. lia.
Qed.
Lemma raw_get_or {A} (l : list A) j d : raw_get l j = UB \/ (j < length l)%nat /\ raw_get l j = Ok (nth j l d).
Proof.
  destruct (Nat.lt_ge_cases j (length l)) as [H|H]; [right; split; [exact H|apply raw_get_nth, H]|left]. unfold raw_get.
  destruct (nth_error l j) eqn:E; [|reflexivity]. exfalso. apply (proj2 (nth_error_None l j)) in H. congruence.
Qed.

(** The gradients of every built map, too, are written outside their memory when they have 2^32 entries or more. *)
Theorem C82_large_gradients_refuted : forall aff K P c pts sens heap, built aff K P -> length c = p_nc P -> sized_pts (p_in P) pts ->
  sized_pts (p_out P) sens -> length sens = length pts -> good heap ->
  let large rows := (4294967296 <= N.of_nat (rows * length pts))%N in
  (large (p_nc P) -> jl_CoeffGrad K c pts sens heap = UB) /\
  (aff = false -> large (p_nc P) -> jl_LogDeterminantCoeffGrad K c pts heap = UB) /\
  (aff = false -> large (p_in P) -> jl_LogDeterminantInputGrad K c pts heap = UB).
Proof.
  intros aff K P c pts sens heap HB Lc Hx Hs Ls G large. destruct (built_calls aff K P HB) as ((D & _) & _ & _ & (_ & HC) & _ & HD).
  destruct D as (D1 & D2 & D3).
  assert (Z : forall r, large r -> (u32 (r * length pts) < r * length pts)%nat).
  { intros r B. unfold large in B. assert (Q : (N.of_nat (u32 (r * length pts)) < 4294967296)%N) by (unfold u32; rewrite N2Nat.id; apply N.mod_lt; discriminate). lia. }
  split; [|split].
  - intros B. unfold jl_CoeffGrad. rewrite D3. apply (each_ub _ _ _ _ (u32 (p_nc P * length pts))); [apply G|apply Z, B|]. intros j o Lo. unfold at_cgrad.
    destruct (raw_get_or pts j []) as [E|(Hj & E)]; rewrite E; [left; reflexivity|]. cbn [obind]. rewrite (raw_get_nth sens j []) by congruence. cbn [obind]. right.
    eexists. apply HC; auto; apply nth_sized; auto. congruence.
  - intros Ha B. destruct (HD Ha) as ((_ & H) & _). unfold jl_LogDeterminantCoeffGrad. rewrite D3.
    apply (each_ub _ _ _ _ (u32 (p_nc P * length pts))); [apply G|apply Z, B|]. intros j o Lo. unfold at_ldc.
    destruct (raw_get_or pts j []) as [E|(Hj & E)]; rewrite E; [left; reflexivity|]. cbn [obind]. right. eexists. apply H; auto; apply nth_sized; auto.
  - intros Ha B. destruct (HD Ha) as (_ & (_ & H)). unfold jl_LogDeterminantInputGrad. rewrite D1.
    apply (each_ub _ _ _ _ (u32 (p_in P * length pts))); [apply G|apply Z, B|]. intros j o Lo. unfold at_ldi.
    destruct (raw_get_or pts j []) as [E|(Hj & E)]; rewrite E; [left; reflexivity|]. cbn [obind]. right. eexists. apply H; auto; apply nth_sized; auto.
Qed.
Print Assumptions C82_large_gradients_refuted.

(** ** Concrete cases *)

(** An offset of R^2 followed by a triangular map whose components are the identity and a monotone component of
    order 3: with memory full of 7s, three points give the three values. *)
Definition plain_opts : options := MkOpt ProbHermite None None PSoftPlus ClenshawCurtis 0 0 1 0 5 true false 0.
Lemma triangular_case aff : exists K T pts wts alphas, tri_ctor [id_map false 1 1; K] = Ok T /\ length alphas = 10%nat /\
  built aff T (tri_pmap 2 [id_pmap 1 1; mono_pmap 2 pts wts (link plain_opts) 0 (one_dim plain_opts) alphas]).
Proof.
  destruct (total_order_set 2 3 ltac:(lia)) as (f & F1 & F2 & F3 & F4 & F5).
  assert (HS : supported plain_opts 3) by (split; [intros H; discriminate H|]; split; [cbn; lra|left; split; reflexivity]).
  destruct (make_cc_ok 5 ltac:(lia)) as (pts & wts & EQ & CC).
  destruct (component_ok 7 2 _ f plain_opts 3 pts wts ltac:(lia) F2 F4 HS eq_refl ltac:(cbn; lia) EQ CC) as (C & EC & _). set (al := enum_total 3 (2 - 1) []) in *.
  set (S := MkScr (repeat 0 (w_CacheSize (mc_w C))) (repeat 0 13) (repeat 0 13) [] []).
  assert (SO : scratch_ok (mc_w C) (1 + length al + 2) S).
  { rewrite F5. split; [|split]; cbn [S sc_cache sc_res sc_ws]; rewrite repeat_length; auto. }
  assert (HB : built aff (mono_map C S) (mono_pmap 2 pts wts (link plain_opts) (o_nugget plain_opts) (one_dim plain_opts) al)).
  { apply (b_component aff 7 2 al f plain_opts 3 pts wts C S); auto; [cbn; lia|split; reflexivity]. }
  destruct (built_calls _ _ _ HB) as (((d1 & d2 & d3) & _) & _). cbn [mono_pmap p_in p_out] in *.
  destruct (C37_constructor [id_map false 1 1; mono_map C S] ltac:(discriminate)) as (_ & H). destruct H as (T & HT).
  - split.
    + intros K [<-|[<-|[]]]; [cbn; lia|lia].
    + intros [|[|i]] K1 K2 E1 E2; [|discriminate E2|discriminate E2]. injection E1 as <-. injection E2 as <-. rewrite d1, d2. reflexivity.
  - exists (mono_map C S), T, pts, wts, al. split; [exact HT|]. split; [exact F5|].
    assert (M : m_in T = 2%nat) by (apply ctor_inv in HT; destruct HT as (-> & _); exact d1). rewrite <- M at 1.
    apply (b_triangular aff [id_map false 1 1; mono_map C S]); [|exact HT]. constructor; [apply b_identity; lia|]. constructor; [exact HB|constructor].
Qed.
Definition three : list (list R) := [[1; 2]; [3; 4]; [5; 6]].
Definition sevens (n : nat) : list R := repeat 7 n.
Example C82_example : exists K P c, built true K P /\ p_in P = 2%nat /\ p_out P = 2%nat /\ p_nc P = 10%nat /\ length c = 10%nat /\
  good sevens /\ sized_pts 2 three /\ jl_Evaluate K c three sevens = Ok (concat (map (p_eval P c) three)) /\ length (concat (map (p_eval P c) three)) = 6%nat.
Proof.
  destruct (triangular_case true) as (K0 & T & pts & wts & al & HT & La & HB). destruct (built_calls _ _ _ HB) as (((d1 & d2 & d3) & _) & _).
  cbn [tri_pmap p_in p_out p_nc nsum id_pmap mono_pmap] in d1, d2, d3.
  set (PT := tri_pmap 2 [id_pmap 1 1; mono_pmap 2 pts wts (link plain_opts) 0 (one_dim plain_opts) al]) in *.
  assert (HC : exists U, cmp_ctor [aff_map (aff_make_b [1; 2]); T] 1 = Ok U).
  { unfold cmp_ctor. destruct (squares _) eqn:Q; [eexists; reflexivity|]. exfalso. revert Q. cbn. rewrite d1, d2. cbn. discriminate. }
  destruct HC as (U & HU). exists U, (cmp_pmap (m_in U) [shift_pmap [1; 2]; PT]), (repeat 1 10).
  assert (B : built true U (cmp_pmap (m_in U) [shift_pmap [1; 2]; PT])).
  { apply (b_composed true [aff_map (aff_make_b [1; 2]); T] _ 1); auto; [|reflexivity|].
    - constructor; [apply b_offset; reflexivity|]. constructor; [exact HB|constructor].
    - apply Nat2Z.inj_le. unfold layer_bound. rewrite Z2Nat.id by discriminate. cbn. discriminate. }
  assert (M : m_in U = 2%nat).
  { unfold cmp_ctor in HU. destruct (squares _); [|discriminate HU]. injection HU as <-. reflexivity. }
  split; [exact B|]. rewrite M in *. assert (N10 : p_nc (cmp_pmap 2 [shift_pmap [1; 2]; PT]) = 10%nat) by (cbn; lia).
  split; [reflexivity|]. split; [reflexivity|]. split; [exact N10|]. split; [reflexivity|]. assert (G : good sevens) by (intros n; apply repeat_length).
  split; [exact G|]. assert (SP : sized_pts 2 three) by (repeat constructor). split; [exact SP|].
  destruct (C82_calls true U _ (repeat 1 10) three three sevens (fun n => repeat None n) B) as (X & _); auto.
  { intros n. apply repeat_length. }
  split; [apply X; cbn; lia|]. destruct (built_calls _ _ _ B) as ((_ & HE) & _). unfold three. cbn [map concat]. rewrite !app_length.
  assert (LE : forall x, length x = 2%nat -> length (p_eval (cmp_pmap 2 [shift_pmap [1; 2]; PT]) (repeat 1 10) x) = 2%nat).
  { intros x Lx. destruct (HE (repeat 1 10) x (repeat 0 2)) as (_ & Q); auto. }
  rewrite !LE by reflexivity. reflexivity.
Qed.

(** The same triangular map without affine blocks: the gradients of the log determinant, too. *)
Example C82_gradients_example : exists K P c, built false K P /\ p_nc P = 10%nat /\
  jl_LogDeterminantInputGrad K c three sevens = Ok (concat (map (p_ldi P c) three)).
Proof.
  destruct (triangular_case false) as (K0 & T & pts & wts & al & HT & La & HB).
  eexists T, _, (repeat 1 10). split; [exact HB|]. assert (N10 : p_nc (tri_pmap 2 [id_pmap 1 1; mono_pmap 2 pts wts (link plain_opts) 0 (one_dim plain_opts) al]) = 10%nat) by (cbn; lia).
  split; [exact N10|].
  destruct (C82_calls false T _ (repeat 1 10) three three sevens (fun n => repeat None n) HB) as (_ & _ & _ & _ & _ & X & _).
  - rewrite N10. reflexivity.
  - repeat constructor.
  - repeat constructor.
  - reflexivity.
  - intros n. apply repeat_length.
  - intros n. apply repeat_length.
  - apply X; [reflexivity|cbn; lia].
Qed.

(** The offset (1,2) at three points: Julia may return six 7s where C++ returns six 0s. *)
Example C82_affine_example : let f := aff_make_b [1; 2] in
  jl_LogDeterminantInputGrad (aff_map f) [] three sevens = Ok [7; 7; 7; 7; 7; 7] /\
  cpp_LogDeterminantInputGrad (aff_map f) [] three 2 = Ok [0; 0; 0; 0; 0; 0].
Proof. split; reflexivity. Qed.

(** An inverse: the offset (1,2) in Julia. *)
Example C82_inverse_example : exists ys, jl_Inverse (aff_map (aff_make_b [1; 2])) [] three three sevens = Ok (concat ys) /\
  map (fun xy => vadd (snd xy) [1; 2]) (combine three ys) = three.
Proof.
  destruct (C82_inverse_partial (aff_map (aff_make_b [1; 2])) (shift_pmap [1; 2]) 2 [] three three sevens) as (ys & E & _ & _ & Q).
  - apply shift_imp_inv.
  - apply shift_injective.
  - cbn. lia.
  - reflexivity.
  - repeat constructor.
  - repeat constructor.
  - reflexivity.
  - intros n. apply repeat_length.
  - cbn. lia.
  - exists ys. split; [exact E|exact Q].
Qed.

(** 2^31 points of a map with two outputs. *)
Example C82_large_example : jl_Evaluate (id_map false 2 2) [] (repeat [1; 2] (N.to_nat 2147483648)) sevens = UB.
Proof.
  apply C82_large_refuted; [intros n; apply repeat_length|]. rewrite repeat_length. rewrite Nat2N.inj_mul, N2Nat.id. cbn. lia.
Qed.

(** 2^29 points of the map of C82_gradients_example, which has ten coefficients. *)
Example C82_large_gradients_example : exists K c, m_nc K = 10%nat /\
  jl_LogDeterminantCoeffGrad K c (repeat [1; 2] (N.to_nat 536870912)) sevens = UB.
Proof.
  destruct (triangular_case false) as (K0 & T & pts & wts & al & HT & La & HB). destruct (built_calls _ _ _ HB) as (((_ & _ & d3) & _) & _).
  assert (N10 : p_nc (tri_pmap 2 [id_pmap 1 1; mono_pmap 2 pts wts (link plain_opts) 0 (one_dim plain_opts) al]) = 10%nat) by (cbn; lia).
  exists T, (repeat 1 10). split; [congruence|].
  assert (SP : sized_pts 2 (repeat [1; 2] (N.to_nat 536870912))) by (apply Forall_forall; intros x Hx; apply repeat_spec in Hx; subst x; reflexivity).
  destruct (C82_large_gradients_refuted false T _ (repeat 1 10) (repeat [1; 2] (N.to_nat 536870912)) (repeat [1; 2] (N.to_nat 536870912)) sevens HB) as (_ & X & _).
  - rewrite N10. reflexivity.
  - exact SP.
  - exact SP.
  - reflexivity.
  - intros n. apply repeat_length.
  - apply X; [reflexivity|]. rewrite N10, repeat_length, Nat2N.inj_mul, N2Nat.id. cbn. lia.
Qed.

(** The triangular map of C82_example: its inverse iterates, and its hypotheses hold. *)
Example C82_iterated_inverse_example : exists K c, m_in K = 2%nat /\ m_nc K = 10%nat /\ jl_Inverse K c three three sevens = cpp_Inverse K c three three.
Proof.
  destruct (triangular_case true) as (K0 & T & pts & wts & al & HT & La & HB). destruct (built_calls _ _ _ HB) as (((d1 & _ & d3) & _) & _).
  assert (N10 : p_nc (tri_pmap 2 [id_pmap 1 1; mono_pmap 2 pts wts (link plain_opts) 0 (one_dim plain_opts) al]) = 10%nat) by (cbn; lia).
  exists T, (repeat 1 10). split; [exact d1|]. split; [congruence|]. apply (C82_inverse true T _ 2 (repeat 1 10) three three sevens HB).
  - cbn. lia.
  - rewrite N10. reflexivity.
  - repeat constructor.
  - repeat constructor.
  - reflexivity.
  - intros n. apply repeat_length.
  - cbn. lia.
Qed.
