(** C64 for triangular maps with discretised derivatives (contDeriv = false) and the fixed rule: what the log determinant
    and its gradients are for maps made by CreateTriangular. *)
From Coq Require Import Reals List Arith Lia Lra NArith.
From Coquelicot Require Import Coquelicot.
From Verif Require Import Base SpecMulti SpecCount SpecPoly SpecQuad SpecExpansion SpecMaps SpecMono SpecMonoMap SpecFactory MISetModel MultiIndexProofs MISetInv MISetOps MISetLimFill MISetHist PropMISet FixedSetModel FixedSetProofs PropFixed
  PolyModel PolyProofs LinProofs PropPoly BijModel BijProofs ExpansionModel ExpansionProofs PropExpansion QuadModel QuadWalk QuadCC QuadACC PropQuad RootModel MonoModel MonoProofs PropMono
  MapsModel LeafModel MapsContract MapsProofs LeafProofs PropMaps PropLeaf MonoMap FactoryModel FactoryProofs FactoryBasis PropGauss PropBuild.
Import ListNotations.
Local Open Scope R_scope.

(** Coefficients of component i of a triangular map of total order p, and where they begin. *)
Definition vars (inD outD i : nat) : nat := (inD - outD + i + 1)%nat.
Definition offset (inD outD p i : nat) : nat := nsum (fun k => choose (vars inD outD k + p) p) (seq 0 i).
Definition own_coeffs (inD outD p i : nat) (c : list R) : list R := SpecMaps.block (offset inD outD p i) (choose (vars inD outD i + p) p) c.
(** The derivative of component i in its last argument: that of the quadrature sum, not of the integral. *)
Definition stretch (inD outD p : nat) (pts wts : list R) (o : options) (alphas : nat -> list vec) (c x : list R) (i : nat) : R :=
  let n := vars inD outD i in
  partial (mono_rule pts wts (link o) (one_dim o) (alphas n) (o_nugget o) (own_coeffs inD outD p i c)) (n - 1) (firstn n x).

(** ** Triangular maps whose components are known at one point *)
Definition before (l : list cmap) (i : nat) : nat := nsum m_nc (firstn i l).
Lemma seg_block (c : list R) off n : (off + n <= length c)%nat -> seg c off n = Ok (SpecMaps.block off n c).
Proof. intros H. unfold SpecMaps.block. apply seg_ok, H. Qed.

Lemma ld_loop (c x : list R) (t : nat -> option R) : forall (comps : list cmap) k sp det out,
  (forall i K, nth_error comps i = Some K -> (sp + before comps i + m_nc K <= length c)%nat /\ (m_in K <= length x)%nat /\
     forall old, m_logdet K (SpecMaps.block (sp + before comps i) (m_nc K) c) (firstn (m_in K) x) old = Ok (t (k + i)%nat)) ->
  exists r, ofold (fun (st : nat * option R * option R) K =>
                let '(sp, compDet, out) := st in
                do c <- seg c sp (m_nc K);
                do subPts <- seg x 0 (m_in K);
                do compDet <- m_logdet K c subPts compDet;
                Ok ((sp + m_nc K)%nat, compDet, ladd out compDet)) comps (sp, det, out) = Ok r /\
     snd r = fold_left ladd (map t (seq k (length comps))) out.
Proof.
  induction comps as [|K comps IH]; intros k sp det out H; [eexists; split; reflexivity|].
  destruct (H 0%nat K eq_refl) as (A & B & D). cbn [before firstn nsum] in A, D. rewrite !Nat.add_0_r in *.
  cbn [ofold]. rewrite seg_block by lia. cbn [obind]. rewrite seg_0 by lia. cbn [obind]. rewrite D. cbn [obind].
  destruct (IH (S k) (sp + m_nc K)%nat (t k) (ladd out (t k))) as (r & E & Er).
  - intros i K' HK'. specialize (H (S i) K' HK'). cbn [before firstn nsum] in H. rewrite Nat.add_succ_r, Nat.add_assoc in H.
    destruct H as (H1 & H2 & H3). change (before comps i) with (nsum m_nc (firstn i comps)). split; [lia|]. split; [exact H2|exact H3].
  - exists r. split; [exact E|]. exact Er.
Qed.
Lemma tri_logdet_point comps (c x : list R) (t : nat -> option R) old : comps <> [] ->
  (forall i K, nth_error comps i = Some K -> (before comps i + m_nc K <= length c)%nat /\ (m_in K <= length x)%nat /\
     forall old, m_logdet K (SpecMaps.block (before comps i) (m_nc K) c) (firstn (m_in K) x) old = Ok (t i)) ->
  tri_LogDeterminant comps c x old = Ok (fold_left ladd (map t (seq 1 (length comps - 1))) (t 0%nat)).
Proof.
  intros Hn H. destruct comps as [|K comps]; [congruence|]. unfold tri_LogDeterminant. destruct (H 0%nat K eq_refl) as (A & B & D).
  cbn [before firstn nsum] in A, D. cbn [Nat.add] in *. rewrite seg_block by lia. cbn [obind]. rewrite seg_0 by lia. cbn [obind]. rewrite D. cbn [obind].
  destruct (ld_loop c x t comps 1 (m_nc K) (Some 0) (t 0%nat)) as (r & E & Er).
  - intros i K' HK'. apply (H (S i) K' HK').
  - rewrite E. cbn [obind length]. rewrite Er, Nat.sub_succ, Nat.sub_0_r. reflexivity.
Qed.
Lemma ladd_all (t : nat -> option R) (v : nat -> R) n : (forall i, (i < S n)%nat -> t i = Some (v i)) -> fold_left ladd (map t (seq 1 n)) (t 0%nat) = Some (rsum v (S n)).
Proof.
  induction n as [|n IH]; intros H.
  - cbn. rewrite H by lia. f_equal. ring.
  - rewrite seq_S, map_app, fold_left_app, IH by (intros; apply H; lia). cbn [map fold_left Nat.add]. rewrite (H (S n)) by lia. reflexivity.
Qed.
Lemma ladd_none l : fold_left ladd l None = None.
Proof. induction l as [|a l IH]; auto. Qed.
Lemma ladd_some (t : nat -> option R) n i : (i < S n)%nat -> t i = None -> fold_left ladd (map t (seq 1 n)) (t 0%nat) = None.
Proof.
  intros Hi Ht. destruct i as [|i]; [rewrite Ht; apply ladd_none|].
  replace n with (i + S (n - i - 1))%nat by lia. rewrite seq_app, map_app, fold_left_app. cbn [seq map fold_left Nat.add]. rewrite Ht.
  replace (ladd _ None) with (@None R) by (destruct (fold_left _ _ _); reflexivity). apply ladd_none.
Qed.

Lemma ldc_loop (c x : list R) (g : nat -> list R) : forall (comps : list cmap) k (dout rest : list R) sp, sp = length dout ->
  length rest = nsum m_nc comps -> (forall j, coord rest j = 0) ->
  (forall i K, nth_error comps i = Some K -> (sp + before comps i + m_nc K <= length c)%nat /\ (m_in K <= length x)%nat /\ length (g (k + i)%nat) = m_nc K /\
     m_ldc K (SpecMaps.block (sp + before comps i) (m_nc K) c) (firstn (m_in K) x) (repeat 0 (m_nc K)) = Ok (g (k + i)%nat)) ->
  exists r, ofold (fun (st : nat * list R) K =>
            let '(sp, out) := st in
            if (m_nc K =? 0)%nat then Ok (sp, out) else
            do c <- seg c sp (m_nc K);
            do subPts <- seg x 0 (m_in K);
            do subOut <- seg out sp (m_nc K);
            do y <- m_ldc K c subPts subOut;
            Ok ((sp + m_nc K)%nat, put out sp y)) comps (sp, dout ++ rest) = Ok r /\ snd r = dout ++ concat (map g (seq k (length comps))).
Proof.
  induction comps as [|K comps IH]; intros k dout rest sp Hsp Hr Hz H.
  - destruct rest; [|discriminate Hr]. eexists. split; reflexivity.
  - destruct (H 0%nat K eq_refl) as (A & B & Lg & D). cbn [before firstn nsum] in A, D. rewrite !Nat.add_0_r in *. cbn [nsum] in Hr.
    assert (HI : forall i K', nth_error comps i = Some K' -> (sp + m_nc K + before comps i + m_nc K' <= length c)%nat /\ (m_in K' <= length x)%nat /\ length (g (S k + i)%nat) = m_nc K' /\
      m_ldc K' (SpecMaps.block (sp + m_nc K + before comps i) (m_nc K') c) (firstn (m_in K') x) (repeat 0 (m_nc K')) = Ok (g (S k + i)%nat)).
    { intros i K' HK'. specialize (H (S i) K' HK'). cbn [before firstn nsum] in H. rewrite Nat.add_succ_r, Nat.add_assoc in H.
      change (before comps i) with (nsum m_nc (firstn i comps)). destruct H as (H1 & H2 & H3 & H4). split; [lia|]. auto. }
    cbn [ofold length seq map concat]. destruct (Nat.eqb_spec (m_nc K) 0) as [Z|Z].
    + cbn [obind]. rewrite Z in *. destruct (g k); [|discriminate Lg]. cbn [app]. rewrite Nat.add_0_r in HI. apply (IH (S k) dout rest sp); auto.
    + rewrite seg_block by lia. cbn [obind]. rewrite seg_0 by lia. cbn [obind]. rewrite seg_app' by lia. cbn [obind].
      assert (ER : firstn (m_nc K) rest = repeat 0 (m_nc K)).
      { apply (nth_ext _ _ 0 0); [rewrite firstn_length, repeat_length; lia|]. intros j Hj. rewrite firstn_length in Hj. rewrite nth_repeat.
        transitivity (coord rest j); [|apply Hz]. unfold coord. rewrite <- (firstn_skipn (m_nc K) rest) at 2. rewrite app_nth1; [reflexivity|]. rewrite firstn_length. lia. }
      rewrite ER, D. cbn [obind]. rewrite put_app' by lia.
      destruct (IH (S k) (dout ++ g k) (skipn (m_nc K) rest) (sp + m_nc K)%nat) as (r & E & Er).
      * rewrite app_length. lia.
      * rewrite skipn_length. lia.
      * intros j. unfold coord. rewrite skipn_nth. apply Hz.
      * exact HI.
      * rewrite Lg. rewrite <- app_assoc in E. exists r. split; [exact E|]. rewrite Er, <- app_assoc. reflexivity.
Qed.

(** ** Blocks of coefficients *)
Section Blocks.
Variables (inD outD p : nat).
Notation off := (offset inD outD p).
Notation nc i := (choose (vars inD outD i + p) p).
Lemma nsum_snoc {A : Type} (f : A -> nat) l a : nsum f (l ++ [a]) = (nsum f l + f a)%nat.
Proof. induction l as [|b l IH]; cbn [nsum app]; lia. Qed.
Lemma off_S i : off (S i) = (off i + nc i)%nat.
Proof. unfold offset. rewrite seq_S, nsum_snoc. reflexivity. Qed.
Lemma off_le i k : (i <= k)%nat -> (off i <= off k)%nat.
Proof. intros H. induction H as [|k H IH]; [lia|]. rewrite off_S. lia. Qed.
Lemma off_find n : forall k, (k < off n)%nat -> exists i j, (i < n)%nat /\ (j < nc i)%nat /\ k = (off i + j)%nat.
Proof.
  induction n as [|n IH]; intros k Hk; [cbn in Hk; lia|]. rewrite off_S in Hk. destruct (Nat.lt_ge_cases k (off n)) as [H|H].
  - destruct (IH k H) as (i & j & H1 & H2 & H3). exists i, j. split; [lia|auto].
  - exists n, (k - off n)%nat. split; [lia|]. split; lia.
Qed.
Lemma own_len n i c : (i < n)%nat -> length c = off n -> length (own_coeffs inD outD p i c) = nc i.
Proof. intros Hi Hc. pose proof (off_le (S i) n Hi). rewrite off_S in *. unfold own_coeffs, SpecMaps.block. rewrite firstn_length, skipn_length. lia. Qed.
Lemma nth_block (l : list R) o n k : (k < n)%nat -> nth k (SpecMaps.block o n l) 0 = nth (o + k) l 0.
Proof.
  intros H. unfold SpecMaps.block. rewrite <- (skipn_nth l o k). rewrite <- (firstn_skipn n (skipn o l)) at 2. destruct (Nat.lt_ge_cases k (length (skipn o l))) as [G|G].
  - rewrite app_nth1; [reflexivity|]. rewrite firstn_length. lia.
  - rewrite firstn_skipn. rewrite !nth_overflow; auto. rewrite firstn_length. lia.
Qed.
Lemma nth_upd_R (l : list R) i j (t : R) : (i < length l)%nat -> nth j (upd l i t) 0 = if (j =? i)%nat then t else nth j l 0.
Proof.
  intros H. destruct (Nat.eqb_spec j i) as [->|N]; [apply nth_upd_eq|apply nth_upd_neq]; auto.
Qed.
Lemma own_upd n i k j c t : (i < n)%nat -> (k < n)%nat -> (j < nc i)%nat -> length c = off n ->
  own_coeffs inD outD p k (upd c (off i + j) t) = if (k =? i)%nat then upd (own_coeffs inD outD p k c) j t else own_coeffs inD outD p k c.
Proof.
  intros Hi Hk Hj Hc. pose proof (off_le (S i) n Hi) as B. rewrite off_S in B. pose proof (off_le (S k) n Hk) as B'. rewrite off_S in B'.
  assert (L : length (upd c (off i + j) t) = off n) by (rewrite upd_length; auto).
  apply (nth_ext _ _ 0 0).
  - destruct (k =? i)%nat; rewrite ?upd_length, !(own_len n); auto.
  - rewrite (own_len n) by auto. intros m Hm. unfold own_coeffs at 1. rewrite nth_block by auto. rewrite nth_upd_R by lia.
    destruct (Nat.eqb_spec k i) as [->|NE].
    + rewrite nth_upd_R by (rewrite (own_len n); auto). destruct (Nat.eqb_spec m j) as [->|N2].
      * rewrite Nat.eqb_refl. reflexivity.
      * destruct (Nat.eqb_spec (off i + m) (off i + j)); [lia|]. unfold own_coeffs. rewrite nth_block by auto. reflexivity.
    + unfold own_coeffs. rewrite nth_block by auto. destruct (Nat.eqb_spec (off k + m) (off i + j)) as [E|]; [|reflexivity]. exfalso.
      destruct (Nat.lt_ge_cases k i) as [H|H].
      * pose proof (off_le (S k) i H) as Q. rewrite off_S in Q. lia.
      * pose proof (off_le (S i) k ltac:(lia)) as Q. rewrite off_S in Q. lia.
Qed.
Lemma concat_len (g : nat -> list R) n : (forall i, (i < n)%nat -> length (g i) = nc i) -> length (concat (map g (seq 0 n))) = off n.
Proof.
  induction n as [|n IH]; intros H; [reflexivity|]. rewrite seq_S, map_app, concat_app, app_length, IH by (intros; apply H; lia).
  cbn [map concat Nat.add]. rewrite app_nil_r, H by lia. rewrite off_S. reflexivity.
Qed.
Lemma concat_coord (g : nat -> list R) n i j : (forall i, (i < n)%nat -> length (g i) = nc i) -> (i < n)%nat -> (j < nc i)%nat ->
  coord (concat (map g (seq 0 n))) (off i + j) = coord (g i) j.
Proof.
  induction n as [|n IH]; intros H Hi Hj; [lia|]. rewrite seq_S, map_app, concat_app. cbn [map concat Nat.add]. rewrite app_nil_r.
  pose proof (concat_len g n ltac:(intros; apply H; lia)) as L. unfold coord. destruct (Nat.eq_dec i n) as [->|N].
  - rewrite app_nth2 by lia. rewrite L. f_equal. lia.
  - pose proof (off_le (S i) n ltac:(lia)) as Q. rewrite off_S in Q. rewrite app_nth1 by lia. apply IH; auto. lia.
Qed.
End Blocks.

(** ** One component *)
Lemma component_disc fuel d alphas f o N pts wts C : (0 < d)%nat -> fixed_set d alphas f -> degrees_le N alphas -> supported o N -> unbounded o -> o_cont o = false ->
  o_quad o = ClenshawCurtis -> make_cc (o_pts o) = Ok (qr_clenshaw pts wts) -> clenshaw_curtis (o_pts o) pts wts -> CreateComponent fuel f o = Ok C ->
  forall S, scratch_ok (mc_w C) (2 + length alphas) S -> (length alphas <= length (sc_work S))%nat -> forall c x, length c = length alphas -> length x = d ->
  let D c := partial (mono_rule pts wts (link o) (one_dim o) alphas (o_nugget o) c) (d - 1) x in
  (forall old, m_logdet (mono_map C S) c x old = Ok (if Rltb 0 (D c) then Some (ln (D c)) else None)) /\
  (0 < D c -> exists J, m_ldc (mono_map C S) c x (repeat 0 (length alphas)) = Ok J /\ length J = length alphas /\
     forall i, (i < length alphas)%nat -> is_partial (fun c => ln (D c)) i c (coord J i)) /\
  forall out, m_ldi (mono_map C S) c x out = Throw.
Proof.
  intros Hd Hf HN HS HU Hc HQ EQ CC. rewrite create_eq. unfold quad_of. rewrite HQ, EQ. cbn [obind]. unfold make_component.
  destruct (C24_segments d alphas f (opt_basis o) Hd Hf) as (w & _ & _ & Hw & _). rewrite Hw. cbn [obind]. intros EC. injection EC as <-.
  destruct (opt_basis_diff o N HS) as (dv & d2 & HB & H2). set (C := MkMC _ _ _ _ _).
  assert (HE : expansion_of d N alphas (one_dim o) dv d2 (mc_w C)) by (split; [auto|]; exists f, (opt_basis o); auto).
  destruct CC as (L1 & L2 & CC). assert (HW : length wts = length pts) by congruence.
  intros S HSc Hk c x Lc Lx. cbv zeta. cbn [mono_map m_logdet m_ldc m_ldi]. rewrite <- posf_link. pose proof (posf_good o) as HG.
  assert (H2' : forall t, In t pts -> twice_at dv d2 N ((1 + t) / 2 * last_of x)) by (intros; apply H2, HU).
  change (posf o) with (mc_G C). change (o_nugget o) with (mc_nugget C).
  set (D := fun c => partial (mono_rule pts wts (pf_eval (mc_G C)) (one_dim o) alphas (mc_nugget C) c) (d - 1) x). fold (D c).
  split; [|split].
  - intros _. destruct (C34_discrete d N alphas (one_dim o) dv d2 C S x c pts wts HE HG HW eq_refl Lx Lc) as (D' & HD & P1 & P2); auto.
    { destruct HSc as (A & B & E). split; [auto|]. split; lia. }
    assert (E : D c = D') by (apply is_derive_unique; exact HD). rewrite E. destruct (Rltb_spec 0 D'); [apply P1; auto|apply P2; lra].
  - intros HD. destruct (C62_discrete d N alphas (one_dim o) dv d2 C S x c pts wts [] HE HG HW eq_refl Lx Lc HSc Hk H2' Hc HD) as (_ & X & _). exact X.
  - intros out. unfold mc_LogDeterminantInputGrad. change (mc_cont C) with (o_cont o). rewrite Hc. reflexivity.
Qed.

(** ** C64 with discretised derivatives *)
(** LogDeterminant of a map made by CreateTriangular is the sum of the logarithms of the derivatives of the components in their
    last arguments, the derivatives being those of the quadrature sums, and minus infinity as soon as one of them is not positive.
    LogDeterminantCoeffGrad, into an array of zeros, is the gradient of that; LogDeterminantInputGrad throws. *)
Theorem C64_discrete : forall fuel inD outD p o, (N.of_nat inD < 4294967296)%N -> (1 <= outD <= inD)%nat -> supported o p -> unbounded o -> o_cont o = false ->
  o_quad o = ClenshawCurtis -> (1 <= o_pts o)%nat ->
  exists comps pts wts alphas, length comps = outD /\ clenshaw_curtis (o_pts o) pts wts /\
    (forall n, (0 < n)%nat -> total_order n p (alphas n) /\ length (alphas n) = choose (n + p) p) /\
    let enough S := forall i C, nth_error comps i = Some C -> let k := length (alphas (vars inD outD i)) in
      scratch_ok (mc_w C) (2 + k + vars inD outD i) (S i) /\ (k <= length (sc_work (S i)))%nat in
    (exists S, enough S) /\
    forall S, enough S -> exists T, CreateTriangular fuel S inD outD p o = Ok T /\ m_nc T = offset inD outD p outD /\
      (let P := triangular_spec inD outD pts wts o alphas in imp_eval T P /\ imp_cgrad T P /\ imp_grad T P) /\
      forall c x, length c = m_nc T -> length x = inD ->
      let D := stretch inD outD p pts wts o alphas in let L c := rsum (fun i => ln (D c x i)) outD in
      ((forall i, (i < outD)%nat -> 0 < D c x i) ->
         (forall old, m_logdet T c x old = Ok (Some (L c))) /\
         exists J, m_ldc T c x (repeat 0 (m_nc T)) = Ok J /\ length J = m_nc T /\ forall k, (k < m_nc T)%nat -> is_partial L k c (coord J k)) /\
      (forall i, (i < outD)%nat -> D c x i <= 0 -> forall old, m_logdet T c x old = Ok None) /\
      (forall out, length out = inD -> m_ldi T c x out = Throw).
Proof.
  intros fuel inD outD p o Hs Ho HS HU Hct HQ Hp. pose (alphas := fun n => enum_total p (n - 1) []).
  destruct (make_cc_ok (o_pts o) Hp) as (pts & wts & EQ & CC).
  assert (AO : forall n, (0 < n)%nat -> total_order n p (alphas n) /\ length (alphas n) = choose (n + p) p).
  { intros n Hn. destruct (total_order_set n p Hn) as (_ & _ & _ & A & _ & B). auto. }
  destruct (triangular_parts fuel inD outD p o (fun n => mono_pmap n pts wts (link o) (o_nugget o) (one_dim o) (alphas n))
    (fun n C S => scratch_ok (mc_w C) (2 + length (alphas n) + n) S /\ (length (alphas n) <= length (sc_work S))%nat) Hs Ho) as (comps & Lc & X1 & X2).
  - intros n Hn. split; [reflexivity|]. split; [reflexivity|]. split; [apply AO, Hn|]. cbn [mono_pmap p_nc p_cgrad p_ldc]. intros ->. split; reflexivity.
  - intros n Hn. destruct (total_order_set n p Hn) as (f & F1 & F2 & F3 & F4 & F5).
    destruct (component_ok fuel n _ f o p pts wts Hn F2 F4 HS HQ Hp EQ CC) as (C & E & X). exists C. rewrite F1. split; [exact E|]. split.
    + pose (k := (2 + length (alphas n) + n)%nat). exists (MkScr (repeat 0 (w_CacheSize (mc_w C))) (repeat 0 k) (repeat 0 k) (repeat 0 k) []).
      split; [split; [|split]|]; cbn [sc_cache sc_res sc_ws sc_work]; rewrite repeat_length; unfold k; auto. lia.
    + intros S ((A1 & A2 & A3) & _). apply X. fold (alphas n). split; [auto|]. split; lia.
  - exists comps, pts, wts, alphas. split; [exact Lc|]. split; [exact CC|]. split; [exact AO|]. split; [exact X1|].
    intros S HSc. destruct (X2 S HSc) as (T & T1 & T2 & T3 & T4 & (Q1 & Q2 & Q3 & _) & Ks & LK & CT & HK). exists T. split; [exact T1|].
    assert (T4' : m_nc T = offset inD outD p outD) by exact T4. split; [exact T4'|]. split; [split; [exact Q1|split; [exact Q2|exact (Q3 HU)]]|]. clear Q1 Q2 Q3. clear X2 X1 T1.
    intros c x Hlc Hlx D L. rewrite T4' in *. clear T4 T4'. apply ctor_inv in CT. destruct CT as (-> & Kn & Kc). cbn [tri_map m_in m_out m_logdet m_ldc m_ldi] in *.
    assert (KI : forall i K, nth_error Ks i = Some K -> (i < outD)%nat /\ m_in K = vars inD outD i /\ m_nc K = choose (vars inD outD i + p) p /\
      let ci := own_coeffs inD outD p i c in let xi := firstn (vars inD outD i) x in
      (forall old, m_logdet K ci xi old = Ok (if Rltb 0 (D c x i) then Some (ln (D c x i)) else None)) /\
      (0 < D c x i -> exists J, m_ldc K ci xi (repeat 0 (m_nc K)) = Ok J /\ length J = m_nc K /\
        forall j, (j < m_nc K)%nat -> is_partial (fun ci => ln (partial (mono_rule pts wts (link o) (one_dim o) (alphas (vars inD outD i)) (o_nugget o) ci) (vars inD outD i - 1) xi)) j ci (coord J j)) /\
      forall out, m_ldi K ci xi out = Throw).
    { intros i K Ei. assert (Hi : (i < outD)%nat) by (rewrite <- LK; apply nth_error_Some; congruence). split; [exact Hi|].
      destruct (nth_error comps i) as [C|] eqn:EC; [|apply nth_error_None in EC; lia]. destruct (HK i C EC) as (E1 & E2). rewrite E1 in Ei. injection Ei as <-.
      assert (Hn : (0 < vars inD outD i)%nat) by (unfold vars; lia). fold (vars inD outD i) in E2. destruct (total_order_set _ p Hn) as (f & F1 & F2 & F3 & F4 & F5).
      rewrite F1 in E2. cbn [obind] in E2. destruct (HSc i C EC) as ((A1 & A2 & A3) & A4). fold (alphas (vars inD outD i)) in *.
      destruct (component_ok fuel _ _ f o p pts wts Hn F2 F4 HS HQ Hp EQ CC) as (C' & E' & X). rewrite E2 in E'. injection E' as <-.
      destruct (X (S i)) as (((D1 & D2 & D3) & _) & _). { fold (alphas (vars inD outD i)). fold (vars inD outD i) in *. split; [auto|]. split; lia. }
      cbn [mono_pmap p_in p_nc] in D1, D3. split; [exact D1|]. fold (alphas (vars inD outD i)) in D3. split; [rewrite D3; exact F5|].
      assert (Lx : length (firstn (vars inD outD i) x) = vars inD outD i) by (rewrite firstn_length; unfold vars; lia).
      pose proof (own_len inD outD p outD i c Hi Hlc) as Lci. rewrite D3.
      destruct (component_disc fuel _ (alphas (vars inD outD i)) f o p pts wts C Hn F2 F4 HS HU Hct HQ EQ CC E2 (S i)) with (c := own_coeffs inD outD p i c) (x := firstn (vars inD outD i) x) as (Y1 & Y2 & Y3); auto.
      { fold (vars inD outD i) in *. split; [auto|]. split; lia. }
      { rewrite Lci. symmetry. exact F5. } }
    assert (BF : forall i, (i <= outD)%nat -> before Ks i = offset inD outD p i).
    { induction i as [|i IH]; intros Hi; [reflexivity|]. destruct (nth_error Ks i) as [K|] eqn:EK; [|apply nth_error_None in EK; lia].
      unfold before in *. rewrite (firstn_snoc _ _ _ EK), nsum_snoc, IH by lia. rewrite off_S. destruct (KI i K EK) as (_ & _ & -> & _). reflexivity. }
    assert (KB : forall i K, nth_error Ks i = Some K -> (before Ks i + m_nc K <= length c)%nat /\ (m_in K <= length x)%nat).
    { intros i K EK. destruct (KI i K EK) as (Hi & E1 & E2 & _). rewrite BF, E1, E2 by lia. pose proof (off_le inD outD p (Datatypes.S i) outD Hi) as Q. rewrite off_S in Q. unfold vars in *. lia. }
    assert (EL : forall old, tri_LogDeterminant Ks c x old = Ok (fold_left ladd (map (fun i => if Rltb 0 (D c x i) then Some (ln (D c x i)) else None) (seq 1 (length Ks - 1)))
      (if Rltb 0 (D c x 0%nat) then Some (ln (D c x 0%nat)) else None))).
    { intros old. rewrite (tri_logdet_point Ks c x (fun i => if Rltb 0 (D c x i) then Some (ln (D c x i)) else None) old Kn); [reflexivity|].
      intros i K EK. destruct (KB i K EK) as (B1 & B2). split; [exact B1|]. split; [exact B2|]. destruct (KI i K EK) as (Hi & E1 & E2 & Y1 & _). rewrite BF, E1, E2 by lia. exact Y1. }
    assert (LO : length Ks = Datatypes.S (length Ks - 1)) by lia.
    split; [|split].
    + intros HP. split.
      * intros old. rewrite EL. f_equal. etransitivity; [apply (ladd_all (fun i => if Rltb 0 (D c x i) then Some (ln (D c x i)) else None) (fun i => ln (D c x i)))|].
        2:{ rewrite <- LO, LK. reflexivity. }
        intros i Hi. destruct (Rltb_spec 0 (D c x i)) as [_|n]; auto. exfalso. apply n, HP. lia.
      * assert (GE : forall i, exists g, (i < outD)%nat -> forall K, nth_error Ks i = Some K -> m_ldc K (own_coeffs inD outD p i c) (firstn (vars inD outD i) x) (repeat 0 (m_nc K)) = Ok g /\ length g = m_nc K /\
          forall j, (j < m_nc K)%nat -> is_partial (fun ci => ln (partial (mono_rule pts wts (link o) (one_dim o) (alphas (vars inD outD i)) (o_nugget o) ci) (vars inD outD i - 1) (firstn (vars inD outD i) x))) j (own_coeffs inD outD p i c) (coord g j)).
        { intros i. destruct (nth_error Ks i) as [K|] eqn:EK; [|exists []; intros; discriminate]. destruct (KI i K EK) as (Hi & _ & _ & _ & Y2 & _).
          destruct (Y2 (HP i Hi)) as (J & J1 & J2 & J3). exists J. intros _ K' EK'. injection EK' as <-. auto. }
        destruct (pick_list _ GE outD) as (gs & Lgs & Hgs). pose (g := fun i => nth i gs []).
        assert (Hg : forall i K, nth_error Ks i = Some K -> m_ldc K (own_coeffs inD outD p i c) (firstn (vars inD outD i) x) (repeat 0 (m_nc K)) = Ok (g i) /\ length (g i) = m_nc K /\
          forall j, (j < m_nc K)%nat -> is_partial (fun ci => ln (partial (mono_rule pts wts (link o) (one_dim o) (alphas (vars inD outD i)) (o_nugget o) ci) (vars inD outD i - 1) (firstn (vars inD outD i) x))) j (own_coeffs inD outD p i c) (coord (g i) j)).
        { intros i K EK. destruct (KI i K EK) as (Hi & _). apply (Hgs i (g i)); auto. unfold g. apply nth_error_nth'. lia. }
        assert (NK : nsum m_nc Ks = offset inD outD p outD). { rewrite <- (BF outD) by lia. unfold before. rewrite firstn_all2 by lia. reflexivity. }
        assert (LG : forall i, (i < outD)%nat -> length (g i) = choose (vars inD outD i + p) p).
        { intros i Hi. destruct (nth_error Ks i) as [K|] eqn:EK; [|apply nth_error_None in EK; lia]. destruct (Hg i K EK) as (_ & -> & _). apply (KI i K EK). }
        destruct (ldc_loop c x g Ks 0 [] (repeat 0 (offset inD outD p outD)) 0 eq_refl) as (r & E & Er).
        -- rewrite repeat_length. symmetry. exact NK.
        -- intros j. unfold coord. apply nth_repeat.
        -- intros i K EK. destruct (KB i K EK) as (B1 & B2). split; [exact B1|]. split; [exact B2|]. destruct (Hg i K EK) as (G1 & G2 & _). split; [exact G2|].
           destruct (KI i K EK) as (Hi & E1 & E2 & _). cbn [Nat.add]. rewrite BF, E1 by lia. rewrite E2 in *. exact G1.
        -- cbn [app] in *. unfold tri_LogDetCoeffGrad. rewrite E. cbn [obind]. rewrite Er. eexists. split; [reflexivity|]. rewrite LK.
           split; [apply (concat_len inD outD p g outD LG)|]. intros k Hk. destruct (off_find inD outD p outD k Hk) as (i & j & Hi & Hj & ->).
           rewrite (concat_coord inD outD p g outD i j LG Hi Hj). destruct (nth_error Ks i) as [K|] eqn:EK; [|apply nth_error_None in EK; lia].
           destruct (Hg i K EK) as (_ & _ & G3). destruct (KI i K EK) as (_ & _ & E2 & _). rewrite E2 in G3. specialize (G3 j Hj).
           unfold is_partial in *. assert (Ec : coord c (offset inD outD p i + j) = coord (own_coeffs inD outD p i c) j) by (unfold own_coeffs, coord; rewrite nth_block; auto).
           rewrite Ec. set (di := coord (g i) j) in *. set (t0 := coord (own_coeffs inD outD p i c) j) in *.
           replace di with (rsum (fun m => if (m =? i)%nat then di else 0) outD).
           2:{ rewrite (QuadCC.rsum_pick _ i outD Hi); [rewrite Nat.eqb_refl; reflexivity|]. intros m _ Hm. destruct (Nat.eqb_spec m i); [contradiction|reflexivity]. }
           apply (is_derive_ext (fun t => rsum (fun m => (fun m t => if (m =? i)%nat then ln (partial (mono_rule pts wts (link o) (one_dim o) (alphas (vars inD outD i)) (o_nugget o)
             (upd (own_coeffs inD outD p i c) j t)) (vars inD outD i - 1) (firstn (vars inD outD i) x)) else ln (D c x m)) m t) outD)).
           ++ intros t. unfold L. apply BijProofs.rsum_ext. intros m Hm. cbn beta. unfold D, stretch. cbv zeta. rewrite (own_upd inD outD p outD i m j c t); auto.
              destruct (Nat.eqb_spec m i) as [->|]; reflexivity.
           ++ apply (is_derive_rsum (fun m t => if (m =? i)%nat then ln (partial (mono_rule pts wts (link o) (one_dim o) (alphas (vars inD outD i)) (o_nugget o)
             (upd (own_coeffs inD outD p i c) j t)) (vars inD outD i - 1) (firstn (vars inD outD i) x)) else ln (D c x m)) (fun m => if (m =? i)%nat then di else 0)). intros m Hm. cbn beta. destruct (Nat.eqb_spec m i); [exact G3|]. apply (@is_derive_const R_AbsRing R_NormedModule).
    + intros i Hi HD old. rewrite EL. f_equal. apply (ladd_some (fun i => if Rltb 0 (D c x i) then Some (ln (D c x i)) else None) (length Ks - 1) i); [lia|].
      destruct (Rltb_spec 0 (D c x i)); [lra|reflexivity].
    + intros out Lo. destruct Ks as [|K Ks]; [congruence|]. destruct (KI 0%nat K eq_refl) as (_ & E1 & E2 & _ & _ & Y3). destruct (KB 0%nat K eq_refl) as (B1 & B2). cbn [before firstn nsum] in B1.
      unfold tri_LogDetInputGrad. cbn [ofold]. rewrite seg_block by lia. cbn [obind]. rewrite seg_0 by lia. cbn [obind]. rewrite seg_0 by (unfold fresh; rewrite repeat_length; lia). cbn [obind].
      rewrite E2, E1. change (SpecMaps.block 0 (choose (vars inD outD 0 + p) p) c) with (own_coeffs inD outD p 0 c). rewrite Y3. reflexivity.
Qed.
Print Assumptions C64_discrete.

(** A map from R^4 to R^3 of order two with 31 coefficients, all zero: every derivative is ln 2, at every point. *)
Lemma expansion_zero phi alphas n x : expansion phi alphas (repeat 0 n) x = 0.
Proof. unfold expansion. apply QuadCC.rsum_zero. intros i _. unfold coord. rewrite nth_repeat. ring. Qed.
Lemma slope_zero phi alphas n x : slope phi alphas (repeat 0 n) x = 0.
Proof.
  unfold slope, partial. rewrite (Derive_ext _ (fun _ => 0)); [apply Derive_const|]. intros t. apply expansion_zero.
Qed.
Lemma mono_zero pts wts g phi alphas nugget n x : rsum (fun i => nth i wts 0) (length pts) = 2 ->
  mono_rule pts wts g phi alphas nugget (repeat 0 n) x = last_of x * (g 0 + nugget).
Proof.
  intros H. unfold mono_rule. rewrite expansion_zero. unfold rule_on, rule_sum, mono_integrand.
  rewrite (BijProofs.rsum_ext _ (fun i => (last_of x * (g 0 + nugget)) * nth i wts 0)) by (intros i _; rewrite slope_zero; ring).
  rewrite QuadCC.rsum_scal, H. field.
Qed.
Lemma own_zero inD outD p n i : exists k, own_coeffs inD outD p i (repeat 0 n) = repeat 0 k.
Proof.
  exists (length (own_coeffs inD outD p i (repeat 0 n))). apply (nth_ext _ _ 0 0); [rewrite repeat_length; reflexivity|]. intros j Hj. rewrite nth_repeat.
  unfold own_coeffs in *. rewrite nth_block; [apply nth_repeat|]. unfold SpecMaps.block in Hj. rewrite firstn_length in Hj. lia.
Qed.
Lemma stretch_zero inD outD p pts wts o alphas n x i : rsum (fun i => nth i wts 0) (length pts) = 2 -> (i < outD <= inD)%nat -> length x = inD ->
  stretch inD outD p pts wts o alphas (repeat 0 n) x i = link o 0 + o_nugget o.
Proof.
  intros H Hi Lx. unfold stretch. cbv zeta. destruct (own_zero inD outD p n i) as (k & ->). set (m := vars inD outD i).
  assert (L : length (firstn m x) = m) by (rewrite firstn_length; unfold m, vars; lia). assert (Hm : (0 < m)%nat) by (unfold m, vars; lia).
  unfold partial. rewrite (Derive_ext _ (fun t => t * (link o 0 + o_nugget o))).
  - apply is_derive_unique. auto_derive; auto. ring.
  - intros t. rewrite mono_zero by exact H. f_equal. unfold last_of, coord. rewrite upd_length, L. apply nth_upd_eq. lia.
Qed.
Definition disc_opts : options := MkOpt ProbHermite None None PSoftPlus ClenshawCurtis 0 0 1 0 5 false true 0.
Example C64_discrete_example : exists S T, CreateTriangular 7 S 4 3 2 disc_opts = Ok T /\ m_nc T = 31%nat /\
  forall x, length x = 4%nat -> m_logdet T (repeat 0 31) x None = Ok (Some (3 * ln (ln 2))) /\ m_ldi T (repeat 0 31) x (repeat 0 4) = Throw.
Proof.
  assert (HS : supported disc_opts 2) by (split; [intros _; lia|]; split; [exact I|left; split; reflexivity]).
  destruct (C64_discrete 7 4 3 2 disc_opts ltac:(cbn; lia) ltac:(lia) HS (conj eq_refl eq_refl) eq_refl eq_refl ltac:(cbn; lia)) as (comps & pts & wts & alphas & L & CC & _ & (S & HSc) & X).
  destruct (X S HSc) as (T & E & EN & _ & Y). exists S, T. split; [exact E|]. assert (EN' : m_nc T = 31%nat) by (rewrite EN; reflexivity). split; [exact EN'|].
  intros x Lx. destruct (Y (repeat 0 31) x ltac:(rewrite repeat_length; auto) Lx) as (Y1 & _ & Y3). split; [|apply Y3; reflexivity].
  pose proof (cc_sum 5 pts wts ltac:(lia) CC) as Hsum. assert (L2 : link disc_opts 0 + o_nugget disc_opts = ln 2) by (unfold link; cbn [disc_opts o_pos o_nugget]; rewrite exp_0, Rplus_0_r; f_equal; ring).
  assert (P2 : 0 < ln 2) by (rewrite <- ln_1; apply ln_increasing; lra).
  assert (K : forall i, (i < 3)%nat -> stretch 4 3 2 pts wts disc_opts alphas (repeat 0 31) x i = ln 2) by (intros i Hi; rewrite stretch_zero; auto; lia).
  destruct (Y1 ltac:(intros i Hi; rewrite K by auto; exact P2)) as (A & _). rewrite A. do 2 f_equal.
  rewrite (BijProofs.rsum_ext _ (fun _ => ln (ln 2))) by (intros i Hi; rewrite K; auto). cbn [rsum]. ring.
Qed.
