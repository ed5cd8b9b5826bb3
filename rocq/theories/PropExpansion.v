(** Properties C24-C25: multivariate expansions. *)
From Coq Require Import Reals Lra.
From Coquelicot Require Import Coquelicot.
From Verif Require Import Base SpecMulti MISetModel MultiIndexProofs MISetInv MISetOps MISetLimFill MISetHist PropMISet FixedSetModel FixedSetProofs PropFixed SpecPoly SpecExpansion
  PolyModel PolyProofs LinProofs BijProofs PropPoly ExpansionModel ExpansionProofs ExpansionDeriv.
Local Open Scope R_scope.

(** [f] is a compressed fixed set of length [d], made by Fix(true) after any history of a
    MultiIndexSet or by the total-order constructor, and [alphas] are its multi-indices in
    order. *)
Definition fixed_set (d : nat) (alphas : list vec) (f : fset) : Prop :=
  ((exists s, any_history d s /\ ms_Fix true s = Ok f) \/ (exists p, f_total_order d p = Ok f)) /\
  length alphas = f_Size f /\ forall i, (i < f_Size f)%nat -> f_IndexToMulti f i = Ok (nth i alphas []).

(** [B]'s array routines fill the functions v_k with their derivatives dv_k and the functions d2_k up
    to degree N. *)
Definition diff_basis (B : basis) (v dv d2 : nat -> R -> R) (N : nat) : Prop :=
  fills_values B v N /\ fills_derivs B v dv N /\ fills_second B v dv d2 N /\
  forall k x, (k <= N)%nat -> is_derive (v k) x (dv k x).
(** d2_k is the derivative of dv_k at x. *)
Definition twice_at (dv d2 : nat -> R -> R) (N : nat) (x : R) : Prop :=
  forall k, (k <= N)%nat -> is_derive (dv k) x (d2 k x).

Definition degrees_le (N : nat) (alphas : list vec) : Prop := forall al k, In al alphas -> (nth k al 0 <= N)%nat.

Lemma fixed_set_packed d alphas f : (0 < d)%nat -> fixed_set d alphas f ->
  exists mx, f = packed d alphas mx /\ length mx = d /\ (forall k, (k < d)%nat -> vlargest alphas k (nth k mx 0%nat)) /\
    forall al, In al alphas -> length al = d.
Proof.
  intros Hd (H & L & I).
  assert (G : exists vs mx, f = packed d vs mx /\ length mx = d /\ (forall k, (k < d)%nat -> vlargest vs k (nth k mx 0%nat)) /\
    forall al, In al vs -> length al = d).
  { destruct H as [(s & Hh & Hf)|(p & Hf)].
    - destruct (any_history_inv d s Hh) as (B & D & Hl). destruct (Fix_compressed s B Hl) as (mx & H1 & H2 & H3).
      rewrite Hf in H1. injection H1 as ->. rewrite D in *. eauto 8.
    - destruct (total_order_packed d p Hd) as (mx & H1 & H2 & H3). rewrite Hf in H1. injection H1 as ->.
      exists (enum_total p (d - 1) []), mx. split; auto. split; auto. split; auto.
      intros al Hal. apply enum_total_In in Hal; [|rewrite MultiIndexProofs.vsum_nil; lia]. destruct Hal as (t & -> & Ht & _). cbn. lia. }
  destruct G as (vs & mx & -> & G2 & G3 & G4). rewrite packed_size in *.
  assert (E : alphas = vs).
  { apply (nth_ext_eq _ _ []); auto. intros i Hi. assert (Hi' : (i < length vs)%nat) by (rewrite <- L; exact Hi). specialize (I i Hi').
    rewrite (packed_index d vs mx i (nth i vs [])) in I; [injection I as I; symmetry; exact I|apply nth_error_nth'; auto|apply G4, nth_In; auto]. }
  subst. exists mx. auto.
Qed.

(** The facts used by every theorem below. *)
Lemma setup d alphas f B v dv d2 N w : (0 < d)%nat -> fixed_set d alphas f -> diff_basis B v dv d2 N -> degrees_le N alphas ->
  w_make f B = Ok w ->
  exists mx, w = the_worker d alphas mx B /\ length mx = d /\ (forall j, (j < d)%nat -> (nth j mx 0 <= N)%nat) /\
    (forall al, In al alphas -> length al = d /\ forall k, (k < d)%nat -> (nth k al 0 <= nth k mx 0)%nat) /\
    (forall al, In al alphas -> length al = d /\ forall k, (k < d)%nat -> (nth k al 0 <= N)%nat).
Proof.
  intros Hd Hf HB HN Hw. destruct (fixed_set_packed d alphas f Hd Hf) as (mx & -> & M1 & M2 & M3).
  rewrite make_worker in Hw by auto. injection Hw as <-. exists mx. split; auto. split; auto. split; [|split].
  - intros j Hj. destruct (M2 j Hj) as [_ [->|(al & Hin & <-)]]; [lia|apply HN; auto].
  - intros al Hin. split; auto. intros k Hk. apply (M2 k Hk). auto.
  - intros al Hin. split; auto.
Qed.

(** ** C24 *)

(** The constructor succeeds; the 2*dim+1 segments, of length maximal degree + 1, do not
    overlap and end at CacheSize. *)
Theorem C24_segments : forall d alphas f B, (0 < d)%nat -> fixed_set d alphas f ->
  exists w st len, w_make f B = Ok w /\
    (forall p, (p <= 2 * d)%nat -> raw_get (wstart w) p = Ok (st p)) /\
    (forall p, (p < 2 * d)%nat -> raw_get (f_MaxDegrees f) (p mod d) = Ok (len p - 1)%nat /\ (1 <= len p)%nat) /\
    (raw_get (f_MaxDegrees f) (d - 1) = Ok (len (2 * d) - 1)%nat /\ (1 <= len (2 * d))%nat) /\
    (forall p q, (p < q)%nat -> (q <= 2 * d)%nat -> (st p + len p <= st q)%nat) /\
    (st (2 * d) + len (2 * d) = w_CacheSize w)%nat.
Proof.
  intros d alphas f B Hd Hf. destruct (fixed_set_packed d alphas f Hd Hf) as (mx & -> & M1 & M2 & M3).
  exists (the_worker d alphas mx B), (pos d mx), (slen d mx). split; [apply make_worker; auto|].
  split; [intros; apply start_get; lia|]. change (f_MaxDegrees (packed d alphas mx)) with mx. split; [|split; [|split]].
  - intros p Hp. unfold slen. destruct (Nat.ltb_spec p (2 * d)); [|lia]. split; [|lia].
    pose proof (Nat.mod_upper_bound p d). rewrite (raw_get_ok mx _ 0%nat) by lia. f_equal. lia.
  - rewrite slen_second. split; [|lia]. rewrite (raw_get_ok mx _ 0%nat) by lia. f_equal. lia.
  - intros p q Hpq _. apply pos_mono. auto.
  - cbn [w_CacheSize the_worker wcache]. rewrite Nat.add_1_r. reflexivity.
Qed.
Print Assumptions C24_segments.

(** Whatever the cache held before, filling it and evaluating gives the expansion. A routine
    that read a position outside the cache would be [UB], one that read an unfilled position
    would depend on the initial contents [cache]. *)
Theorem C24_evaluate : forall d alphas f B v dv d2 N w cache pt c t, (0 < d)%nat ->
  fixed_set d alphas f -> diff_basis B v dv d2 N -> degrees_le N alphas -> w_make f B = Ok w ->
  length cache = w_CacheSize w -> length pt = d -> length c = length alphas -> t <> DMixed ->
  exists cache', w_Fill w cache pt t = Ok cache' /\ length cache' = w_CacheSize w /\
    w_Evaluate w cache' c = Ok (expansion v alphas c pt).
Proof.
  intros d alphas f B v dv d2 N w cache pt c t Hd Hf HB HN Hw Lc Lp Lcc Ht.
  destruct (setup d alphas f B v dv d2 N w) as (mx & -> & M1 & M2 & M3 & M4); auto.
  destruct HB as (B0 & B1 & B2 & B3).
  assert (Rm : room d mx cache) by (unfold room; rewrite Lc; cbn; lia).
  destruct (Fill_ok d N alphas mx B v dv d2 Hd M1 M2 B0 B1 B2 t cache pt Rm Lp) as (c' & E & L & V & _).
  exists c'. split; auto. split; [congruence|]. rewrite expansion_Ex with (dv := dv) (d2 := d2).
  apply Evaluate_ok; auto. apply V. destruct t; auto; congruence.
Qed.
Print Assumptions C24_evaluate.

(** With phi_0 = 1 the dropped degree-zero factors do not matter. *)
Theorem C24_full_product : forall (phi : nat -> R -> R) alphas c x, (forall t, phi 0%nat t = 1) ->
  expansion phi alphas c x =
  rsum (fun k => coord c k * rprod (fun j => phi (nth j (nth k alphas []) 0%nat) (coord x j)) (length (nth k alphas []))) (length alphas).
Proof.
  intros phi alphas c x H. apply rsum_ext. intros k Hk. f_equal. apply rprod_ext. intros j Hj.
  destruct (Nat.eqb_spec (nth j (nth k alphas []) 0%nat) 0) as [->|]; auto.
Qed.
Print Assumptions C24_full_product.

(** The k-th block of n coefficients. *)
Definition block (n k : nat) (c : list R) : list R := firstn n (skipn (k * n) c).

Lemma block_ok n k m (c : list R) : (k < m)%nat -> length c = (m * n)%nat ->
  subview c (k * n) n = Ok (block n k c) /\ length (block n k c) = n.
Proof. intros Hk Hc. apply seg_ok. rewrite Hc. nia. Qed.

(** MultivariateExpansion::Evaluate: output r is the expansion with the r-th coefficient block. *)
Theorem C24_vector_valued : forall d alphas f B v dv d2 N w cache pt saved out m, (0 < d)%nat ->
  fixed_set d alphas f -> diff_basis B v dv d2 N -> degrees_le N alphas -> w_make f B = Ok w ->
  length cache = w_CacheSize w -> length pt = d -> length saved = (m * length alphas)%nat -> length out = m ->
  mve_Evaluate w m saved cache pt out = Ok (map (fun r => expansion v alphas (block (length alphas) r saved) pt) (seq 0 m)).
Proof.
  intros d alphas f B v dv d2 N w cache pt saved out m Hd Hf HB HN Hw Lc Lp Ls Lo.
  destruct (setup d alphas f B v dv d2 N w) as (mx & -> & M1 & M2 & M3 & M4); auto. destruct HB as (B0 & B1 & B2 & B3).
  assert (Rm : room d mx cache) by (unfold room; rewrite Lc; cbn; lia).
  destruct (Fill_ok d N alphas mx B v dv d2 Hd M1 M2 B0 B1 B2 DNone cache pt Rm Lp) as (c' & E & L & V & _).
  unfold mve_Evaluate. rewrite E. cbn [obind]. rewrite size_W. set (n := length alphas) in *.
  pose (G := fun r => expansion v alphas (block n r saved) pt).
  pose (St := fun r => (r * n, fill G r out)%nat). change (0%nat, out) with (St 0%nat).
  rewrite (ofold_seq _ St).
  - cbn [obind St Nat.add]. unfold St. cbn [snd]. unfold fill. rewrite skipn_all2 by lia. rewrite app_nil_r. reflexivity.
  - intros r Hr. unfold St. cbn [fst snd]. destruct (block_ok n r m saved) as [Eb Lb]; [lia|auto|]. rewrite Eb. cbn [obind].
    rewrite (Evaluate_ok d alphas mx B v dv d2 Hd M3 c' pt) by (auto; lia). cbn [obind].
    rewrite fill_set by (auto; lia). cbn [obind]. rewrite Nat.add_1_r. do 2 f_equal. lia.
Qed.
Print Assumptions C24_vector_valued.

(** ** C25 *)

Lemma second_of dv d2 N x : twice_at dv d2 N x -> second_at dv d2 N x.
Proof. auto. Qed.

Section Claims.
Variables (d N : nat) (alphas : list vec) (v dv d2 : nat -> R -> R).
Hypothesis Hd : (0 < d)%nat.
Hypothesis M4 : forall al, In al alphas -> length al = d /\ forall k, (k < d)%nat -> (nth k al 0 <= N)%nat.
Hypothesis B3 : forall k x, (k <= N)%nat -> is_derive (v k) x (dv k x).
Notation Ex := (Ex v dv d2 alphas).
Notation F := (expansion v alphas).

Lemma first_partial c pt j : (j < d)%nat -> length pt = d -> is_partial (F c) j pt (Ex (inc ord0 j) c pt).
Proof. intros Hj Lp. apply (Ex_partial v dv d2 N B3 alphas ord0 c pt j d); auto. unfold ord0. lia. Qed.

Lemma partial_is c j pt : (j < d)%nat -> length pt = d -> partial (F c) j pt = Ex (inc ord0 j) c pt.
Proof. intros Hj Lp. apply is_partial_unique. apply first_partial; auto. Qed.

Lemma mixed_partial c pt j : (j < d)%nat -> length pt = d -> (j = (d - 1)%nat -> twice_at dv d2 N (coord pt j)) ->
  is_partial (partial (F c) (d - 1)) j pt (Ex (inc (inc ord0 (d - 1)) j) c pt).
Proof.
  intros Hj Lp H2. apply is_partial_ext with (F := Ex (inc ord0 (d - 1)) c).
  - intros t. symmetry. apply partial_is; [lia|]. rewrite upd_length. auto.
  - apply (Ex_partial v dv d2 N B3 alphas (inc ord0 (d - 1)) c pt j d); auto; unfold inc, ord0; destruct (Nat.eqb_spec j (d - 1)); try lia.
    intros _. apply H2. auto.
Qed.

Lemma mixed_coeff c pt i : length pt = d -> length c = length alphas -> (i < length alphas)%nat ->
  is_partial (fun c => partial (F c) (d - 1) pt) i c (Tm v dv d2 (inc ord0 (d - 1)) (nth i alphas []) pt).
Proof.
  intros Lp Lc Hi. apply is_partial_ext with (F := fun c => Ex (inc ord0 (d - 1)) c pt).
  - intros t. symmetry. apply partial_is; [lia|auto].
  - apply Ex_coeff; auto.
Qed.

Lemma mixed_coeff2 c pt i : length pt = d -> length c = length alphas -> (i < length alphas)%nat -> twice_at dv d2 N (coord pt (d - 1)) ->
  is_partial (fun c => partial (partial (F c) (d - 1)) (d - 1) pt) i c (Tm v dv d2 (inc (inc ord0 (d - 1)) (d - 1)) (nth i alphas []) pt).
Proof.
  intros Lp Lc Hi H2. apply is_partial_ext with (F := fun c => Ex (inc (inc ord0 (d - 1)) (d - 1)) c pt).
  - intros t. symmetry. apply is_partial_unique. apply mixed_partial; auto; lia.
  - apply Ex_coeff; auto.
Qed.
End Claims.

Lemma fill_tail f n g : forall i, (n <= i)%nat -> coord (fill f n g) i = coord g i.
Proof. intros i Hi. apply fill_nth_ge. auto. Qed.
Lemma fill_coord f n g i : (i < n)%nat -> coord (fill f n g) i = f i.
Proof. intros Hi. apply fill_nth_lt. auto. Qed.

(** DiagonalDerivative(1) is dF/dx_d, after any call of FillCache that computes first derivatives in x_d. *)
Theorem C25_diagonal : forall d alphas f B v dv d2 N w cache pt c t, (0 < d)%nat ->
  fixed_set d alphas f -> diff_basis B v dv d2 N -> degrees_le N alphas -> w_make f B = Ok w ->
  length cache = w_CacheSize w -> length pt = d -> length c = length alphas -> In t [DDiagonal; DDiagonal2; DInput; DMixedInput] ->
  exists cache' r, w_Fill w cache pt t = Ok cache' /\ w_DiagonalDerivative w cache' c 1 = Ok r /\
    is_partial (expansion v alphas c) (d - 1) pt r.
Proof.
  intros d alphas f B v dv d2 N w cache pt c t Hd Hf HB HN Hw Lc Lp Lcc Ht.
  destruct (setup d alphas f B v dv d2 N w) as (mx & -> & M1 & M2 & M3 & M4); auto. destruct HB as (B0 & B1 & B2 & B3).
  assert (Rm : room d mx cache) by (unfold room; rewrite Lc; cbn; lia).
  destruct (Fill_ok d N alphas mx B v dv d2 Hd M1 M2 B0 B1 B2 t cache pt Rm Lp) as (c' & E & L & V & _ & D & _).
  exists c', (Ex v dv d2 alphas (inc ord0 (d - 1)) c pt). split; auto. split.
  - apply (DiagonalDerivative_ok d alphas mx B v dv d2 Hd M3 1); auto. apply ready_diag; auto; [apply V|apply D]; cbn in Ht; intuition (subst; reflexivity).
  - apply (first_partial d N); auto; lia.
Qed.
Print Assumptions C25_diagonal.

(** DiagonalDerivative(2) is d2F/dx_d2, after FillCache with Diagonal2 or MixedInput. *)
Theorem C25_diagonal2 : forall d alphas f B v dv d2 N w cache pt c t, (0 < d)%nat ->
  fixed_set d alphas f -> diff_basis B v dv d2 N -> degrees_le N alphas -> w_make f B = Ok w ->
  length cache = w_CacheSize w -> length pt = d -> length c = length alphas -> In t [DDiagonal2; DMixedInput] ->
  twice_at dv d2 N (coord pt (d - 1)) ->
  exists cache' r, w_Fill w cache pt t = Ok cache' /\ w_DiagonalDerivative w cache' c 2 = Ok r /\
    is_partial (partial (expansion v alphas c) (d - 1)) (d - 1) pt r.
Proof.
  intros d alphas f B v dv d2 N w cache pt c t Hd Hf HB HN Hw Lc Lp Lcc Ht H2.
  destruct (setup d alphas f B v dv d2 N w) as (mx & -> & M1 & M2 & M3 & M4); auto. destruct HB as (B0 & B1 & B2 & B3).
  assert (Rm : room d mx cache) by (unfold room; rewrite Lc; cbn; lia).
  destruct (Fill_ok d N alphas mx B v dv d2 Hd M1 M2 B0 B1 B2 t cache pt Rm Lp) as (c' & E & L & V & _ & _ & S).
  exists c', (Ex v dv d2 alphas (inc (inc ord0 (d - 1)) (d - 1)) c pt). split; auto. split.
  - apply (DiagonalDerivative_ok d alphas mx B v dv d2 Hd M3 2); auto. apply ready_diag2; auto; [apply V|apply S]; cbn in Ht; intuition (subst; reflexivity).
  - apply (mixed_partial d N); auto; lia.
Qed.
Print Assumptions C25_diagonal2.

(** CoeffDerivative returns F and writes dF/dc_i to grad(i). *)
Theorem C25_coeff : forall d alphas f B v dv d2 N w cache pt c grad t, (0 < d)%nat ->
  fixed_set d alphas f -> diff_basis B v dv d2 N -> degrees_le N alphas -> w_make f B = Ok w ->
  length cache = w_CacheSize w -> length pt = d -> length c = length alphas -> t <> DMixed -> (length alphas <= length grad)%nat ->
  exists cache' g, w_Fill w cache pt t = Ok cache' /\
    w_CoeffDerivative w cache' c grad = Ok (expansion v alphas c pt, g) /\ length g = length grad /\
    (forall i, (i < length alphas)%nat -> is_partial (fun c => expansion v alphas c pt) i c (coord g i)) /\
    forall i, (length alphas <= i)%nat -> coord g i = coord grad i.
Proof.
  intros d alphas f B v dv d2 N w cache pt c grad t Hd Hf HB HN Hw Lc Lp Lcc Ht Lg.
  destruct (setup d alphas f B v dv d2 N w) as (mx & -> & M1 & M2 & M3 & M4); auto. destruct HB as (B0 & B1 & B2 & B3).
  assert (Rm : room d mx cache) by (unfold room; rewrite Lc; cbn; lia).
  destruct (Fill_ok d N alphas mx B v dv d2 Hd M1 M2 B0 B1 B2 t cache pt Rm Lp) as (c' & E & L & V & _).
  eexists c', _. split; auto. split.
  { rewrite expansion_Ex with (dv := dv) (d2 := d2). apply CoeffDerivative_ok; auto. apply V. destruct t; auto; congruence. }
  split; [apply fill_length; auto|]. split; [|apply fill_tail].
  intros i Hi. rewrite fill_coord by auto. apply (Ex_coeff v dv d2 alphas ord0); auto.
Qed.
Print Assumptions C25_coeff.

(** InputDerivative returns F and writes dF/dx_j to grad(j), after FillCache with Input or MixedInput. *)
Theorem C25_input : forall d alphas f B v dv d2 N w cache pt c grad t, (0 < d)%nat ->
  fixed_set d alphas f -> diff_basis B v dv d2 N -> degrees_le N alphas -> w_make f B = Ok w ->
  length cache = w_CacheSize w -> length pt = d -> length c = length alphas -> In t [DInput; DMixedInput] -> (d <= length grad)%nat ->
  exists cache' g, w_Fill w cache pt t = Ok cache' /\
    w_InputDerivative w cache' c grad = Ok (expansion v alphas c pt, g) /\ length g = length grad /\
    (forall j, (j < d)%nat -> is_partial (expansion v alphas c) j pt (coord g j)) /\
    forall j, (d <= j)%nat -> coord g j = coord grad j.
Proof.
  intros d alphas f B v dv d2 N w cache pt c grad t Hd Hf HB HN Hw Lc Lp Lcc Ht Lg.
  destruct (setup d alphas f B v dv d2 N w) as (mx & -> & M1 & M2 & M3 & M4); auto. destruct HB as (B0 & B1 & B2 & B3).
  assert (Rm : room d mx cache) by (unfold room; rewrite Lc; cbn; lia).
  destruct (Fill_ok d N alphas mx B v dv d2 Hd M1 M2 B0 B1 B2 t cache pt Rm Lp) as (c' & E & L & V & D & _).
  eexists c', _. split; auto. split.
  { rewrite expansion_Ex with (dv := dv) (d2 := d2). apply InputDerivative_ok; auto; [apply V|apply D]; cbn in Ht; intuition (subst; reflexivity). }
  split; [apply fill_length; auto|]. split; [|apply fill_tail].
  intros j Hj. rewrite fill_coord by auto. apply (first_partial d N); auto.
Qed.
Print Assumptions C25_input.

(** MixedInputDerivative returns dF/dx_d and writes d2F/dx_d dx_j to grad(j). *)
Theorem C25_mixed_input : forall d alphas f B v dv d2 N w cache pt c grad, (0 < d)%nat ->
  fixed_set d alphas f -> diff_basis B v dv d2 N -> degrees_le N alphas -> w_make f B = Ok w ->
  length cache = w_CacheSize w -> length pt = d -> length c = length alphas -> (d <= length grad)%nat ->
  exists cache' r g, w_Fill w cache pt DMixedInput = Ok cache' /\
    w_MixedInputDerivative w cache' c grad = Ok (r, g) /\ length g = length grad /\
    is_partial (expansion v alphas c) (d - 1) pt r /\
    (forall j, (j < d)%nat -> (j = (d - 1)%nat -> twice_at dv d2 N (coord pt j)) ->
       is_partial (partial (expansion v alphas c) (d - 1)) j pt (coord g j)) /\
    forall j, (d <= j)%nat -> coord g j = coord grad j.
Proof.
  intros d alphas f B v dv d2 N w cache pt c grad Hd Hf HB HN Hw Lc Lp Lcc Lg.
  destruct (setup d alphas f B v dv d2 N w) as (mx & -> & M1 & M2 & M3 & M4); auto. destruct HB as (B0 & B1 & B2 & B3).
  assert (Rm : room d mx cache) by (unfold room; rewrite Lc; cbn; lia).
  destruct (Fill_ok d N alphas mx B v dv d2 Hd M1 M2 B0 B1 B2 DMixedInput cache pt Rm Lp) as (c' & E & L & V & D & Dl & S).
  eexists c', _, _. split; auto. split.
  { apply MixedInputDerivative_ok; auto. intros k Hk. apply D; auto. lia. }
  split; [apply fill_length; auto|]. split; [apply (first_partial d N); auto; lia|]. split; [|apply fill_tail].
  intros j Hj H2. rewrite fill_coord by auto. apply (mixed_partial d N); auto.
Qed.
Print Assumptions C25_mixed_input.

(** MixedCoeffDerivative(1) returns dF/dx_d and writes d2F/dx_d dc_i to grad(i). *)
Theorem C25_mixed_coeff : forall d alphas f B v dv d2 N w cache pt c grad t, (0 < d)%nat ->
  fixed_set d alphas f -> diff_basis B v dv d2 N -> degrees_le N alphas -> w_make f B = Ok w ->
  length cache = w_CacheSize w -> length pt = d -> length c = length alphas -> In t [DDiagonal; DDiagonal2; DInput; DMixedInput] ->
  (length alphas <= length grad)%nat ->
  exists cache' r g, w_Fill w cache pt t = Ok cache' /\
    w_MixedCoeffDerivative w cache' c 1 grad = Ok (r, g) /\ length g = length grad /\
    is_partial (expansion v alphas c) (d - 1) pt r /\
    (forall i, (i < length alphas)%nat -> is_partial (fun c => partial (expansion v alphas c) (d - 1) pt) i c (coord g i)) /\
    forall i, (length alphas <= i)%nat -> coord g i = coord grad i.
Proof.
  intros d alphas f B v dv d2 N w cache pt c grad t Hd Hf HB HN Hw Lc Lp Lcc Ht Lg.
  destruct (setup d alphas f B v dv d2 N w) as (mx & -> & M1 & M2 & M3 & M4); auto. destruct HB as (B0 & B1 & B2 & B3).
  assert (Rm : room d mx cache) by (unfold room; rewrite Lc; cbn; lia).
  destruct (Fill_ok d N alphas mx B v dv d2 Hd M1 M2 B0 B1 B2 t cache pt Rm Lp) as (c' & E & L & V & _ & D & _).
  eexists c', _, _. split; auto. split.
  { apply (MixedCoeffDerivative_ok d alphas mx B v dv d2 Hd M3 1); auto.
    apply ready_diag; auto; [apply V|apply D]; cbn in Ht; intuition (subst; reflexivity). }
  split; [apply fill_length; auto|]. split; [apply (first_partial d N); auto; lia|]. split; [|apply fill_tail].
  intros i Hi. rewrite fill_coord by auto. apply (mixed_coeff d N); auto.
Qed.
Print Assumptions C25_mixed_coeff.

(** MixedCoeffDerivative(2) returns d2F/dx_d2 and writes d3F/dx_d2 dc_i to grad(i). *)
Theorem C25_mixed_coeff2 : forall d alphas f B v dv d2 N w cache pt c grad t, (0 < d)%nat ->
  fixed_set d alphas f -> diff_basis B v dv d2 N -> degrees_le N alphas -> w_make f B = Ok w ->
  length cache = w_CacheSize w -> length pt = d -> length c = length alphas -> In t [DDiagonal2; DMixedInput] ->
  (length alphas <= length grad)%nat -> twice_at dv d2 N (coord pt (d - 1)) ->
  exists cache' r g, w_Fill w cache pt t = Ok cache' /\
    w_MixedCoeffDerivative w cache' c 2 grad = Ok (r, g) /\ length g = length grad /\
    is_partial (partial (expansion v alphas c) (d - 1)) (d - 1) pt r /\
    (forall i, (i < length alphas)%nat ->
       is_partial (fun c => partial (partial (expansion v alphas c) (d - 1)) (d - 1) pt) i c (coord g i)) /\
    forall i, (length alphas <= i)%nat -> coord g i = coord grad i.
Proof.
  intros d alphas f B v dv d2 N w cache pt c grad t Hd Hf HB HN Hw Lc Lp Lcc Ht Lg H2.
  destruct (setup d alphas f B v dv d2 N w) as (mx & -> & M1 & M2 & M3 & M4); auto. destruct HB as (B0 & B1 & B2 & B3).
  assert (Rm : room d mx cache) by (unfold room; rewrite Lc; cbn; lia).
  destruct (Fill_ok d N alphas mx B v dv d2 Hd M1 M2 B0 B1 B2 t cache pt Rm Lp) as (c' & E & L & V & _ & _ & S).
  eexists c', _, _. split; auto. split.
  { apply (MixedCoeffDerivative_ok d alphas mx B v dv d2 Hd M3 2); auto.
    apply ready_diag2; auto; [apply V|apply S]; cbn in Ht; intuition (subst; reflexivity). }
  split; [apply fill_length; auto|]. split; [apply (mixed_partial d N); auto; lia|]. split; [|apply fill_tail].
  intros i Hi. rewrite fill_coord by auto. apply (mixed_coeff2 d N); auto.
Qed.
Print Assumptions C25_mixed_coeff2.

Lemma rsum_single f i n : (i < n)%nat -> (forall j, (j < n)%nat -> j <> i -> f j = 0) -> rsum f n = f i.
Proof.
  intros Hi H. rewrite (rsum_ext f (fun j => if (j =? i)%nat then f i else 0)).
  - rewrite (rsum_change (fun _ => 0) (fun j => if (j =? i)%nat then f i else 0) n i (f i) Hi).
    + rewrite rsum_0. ring.
    + cbv beta. rewrite Nat.eqb_refl. ring.
    + intros j Hj. cbv beta. destruct (Nat.eqb_spec j i); [contradiction|reflexivity].
  - intros j Hj. destruct (Nat.eqb_spec j i) as [->|]; auto.
Qed.

Lemma add_loop (A G : nat -> R) s n g (out0 : list R) : (n <= length out0)%nat -> (forall i, (i < n)%nat -> raw_get g i = Ok (G i)) ->
  ofold (fun out i => do x <- raw_get g i; do o <- raw_get out i; raw_set out i (o + s * x)) (seq 0 n) (fill A n out0) =
  Ok (fill (fun i => A i + s * G i) n out0).
Proof.
  intros L H. pose (St := fun k => fill (fun i => A i + s * G i) k (fill A n out0)).
  change (fill A n out0) with (St 0%nat). rewrite (ofold_seq _ St).
  - unfold St. cbn [Nat.add]. rewrite fill_fill by auto. reflexivity.
  - intros k Hk. rewrite H by lia. cbn [obind]. unfold St. rewrite fill_get_ge by (rewrite ?fill_length; lia).
    rewrite fill_get by lia. cbn [obind]. rewrite fill_set by (rewrite ?fill_length; auto; lia). rewrite Nat.add_1_r. reflexivity.
Qed.

(** MultivariateExpansion::Gradient: the gradient of x |-> sum_r sens_r F_r(x). *)
Theorem C25_vector_gradient : forall d alphas f B v dv d2 N w cache grad pt sens saved out m, (0 < d)%nat ->
  fixed_set d alphas f -> diff_basis B v dv d2 N -> degrees_le N alphas -> w_make f B = Ok w ->
  length cache = w_CacheSize w -> length pt = d -> length grad = d -> length out = d ->
  length saved = (m * length alphas)%nat -> length sens = m ->
  exists g, mve_Gradient w m saved cache grad pt sens out = Ok g /\ length g = d /\
    forall j, (j < d)%nat ->
      is_partial (fun x => rsum (fun r => coord sens r * expansion v alphas (block (length alphas) r saved) x) m) j pt (coord g j).
Proof.
  intros d alphas f B v dv d2 N w cache grad pt sens saved out m Hd Hf HB HN Hw Lc Lp Lg Lo Ls Lse.
  destruct (setup d alphas f B v dv d2 N w) as (mx & -> & M1 & M2 & M3 & M4); auto. destruct HB as (B0 & B1 & B2 & B3).
  assert (Rm : room d mx cache) by (unfold room; rewrite Lc; cbn; lia).
  destruct (Fill_ok d N alphas mx B v dv d2 Hd M1 M2 B0 B1 B2 DInput cache pt Rm Lp) as (c' & E & L & V & D & _).
  unfold mve_Gradient. rewrite E. cbn [obind]. rewrite size_W. set (n := length alphas) in *. rewrite Lp.
  rewrite (ofold_write (fun _ => 0)) by auto. cbn [obind].
  pose (GG := fun r j => Ex v dv d2 alphas (inc ord0 j) (block n r saved) pt).
  pose (gst := fun r => match r with O => grad | S k => fill (GG k) d grad end).
  pose (St := fun r => ((r * n)%nat, gst r, fill (fun j => rsum (fun k => coord sens k * GG k j) r) d out)).
  assert (E0 : map (fun _ : nat => 0) (seq 0 d) = fill (fun j => rsum (fun k => coord sens k * GG k j) 0) d out).
  { unfold fill. rewrite skipn_all2 by lia. rewrite app_nil_r. reflexivity. }
  rewrite E0. change (0%nat, grad, _) with (St 0%nat). rewrite (ofold_seq _ St).
  - cbn [obind]. eexists. split; [reflexivity|]. cbn [snd St Nat.add]. unfold St. cbn [snd]. split; [rewrite fill_length; lia|].
    intros j Hj. rewrite fill_coord by auto. unfold is_partial.
    apply (rsum_derive_in (fun r t => coord sens r * expansion v alphas (block n r saved) (upd pt j t)) (fun r _ => coord sens r * GG r j)).
    intros r Hr. apply is_derive_const_mult. apply (first_partial d N alphas v dv d2 Hd M4 B3); auto.
  - intros r Hr. unfold St at 1. destruct (block_ok n r m saved) as [Eb Lb]; [lia|auto|]. rewrite Eb. cbn [obind].
    assert (Lgs : (d <= length (gst r))%nat) by (unfold gst; destruct r; [lia|rewrite fill_length; lia]).
    rewrite (InputDerivative_ok d alphas mx B v dv d2 Hd M3 c' pt) by (auto; lia). cbn [obind snd].
    rewrite (raw_get_ok sens r 0) by lia. cbn [obind].
    rewrite (add_loop _ (GG r)) by (try lia; intros i Hi; apply fill_get; lia). cbn [obind].
    unfold St. rewrite Nat.add_1_r. cbn [gst rsum]. do 2 f_equal. f_equal; [lia|].
    unfold gst. destruct r; [reflexivity|]. rewrite fill_fill by lia. reflexivity.
Qed.
Print Assumptions C25_vector_gradient.

Lemma block_upd n r i t (c : list R) : (0 < n)%nat ->
  block n r (upd c i t) = if (r =? i / n)%nat then upd (block n r c) (i mod n) t else block n r c.
Proof.
  intros Hn. pose proof (Nat.div_mod i n ltac:(lia)) as DM. pose proof (Nat.mod_upper_bound i n ltac:(lia)) as MB.
  assert (F : forall (k i : nat) (l : list R) t, firstn k (upd l i t) = if (i <? k)%nat then upd (firstn k l) i t else firstn k l).
  { induction k as [|k IH]; intros i0 l t0; [reflexivity|]. destruct l as [|a l]; [destruct i0; cbn; destruct (_ <? _)%nat; reflexivity|].
    destruct i0 as [|i0]; [reflexivity|]. cbn [upd firstn]. rewrite IH. change (S i0 <? S k)%nat with (i0 <? k)%nat. destruct (i0 <? k)%nat; reflexivity. }
  assert (S : forall (k i : nat) (l : list R) t, skipn k (upd l i t) = if (i <? k)%nat then skipn k l else upd (skipn k l) (i - k) t).
  { induction k as [|k IH]; intros i0 l t0; [cbn [skipn]; rewrite Nat.sub_0_r; reflexivity|].
    destruct l as [|a l]; [cbn; destruct (_ <? _)%nat; reflexivity|].
    destruct i0 as [|i0]; [reflexivity|]. cbn [upd skipn]. rewrite IH. change (S i0 <? S k)%nat with (i0 <? k)%nat. reflexivity. }
  unfold block. rewrite S. destruct (Nat.ltb_spec i (r * n)) as [H|H].
  - destruct (Nat.eqb_spec r (i / n)) as [->|]; auto. nia.
  - rewrite F. destruct (Nat.ltb_spec (i - r * n) n) as [H'|H'].
    + assert (r = (i / n)%nat). { apply (Nat.div_unique i n r (i - r * n)); nia. } subst r. rewrite Nat.eqb_refl. f_equal. nia.
    + destruct (Nat.eqb_spec r (i / n)) as [->|]; auto. nia.
Qed.

(** MultivariateExpansion::CoeffGrad: the gradient of saved |-> sum_r sens_r F_r in the coefficients. *)
Theorem C25_vector_coeff_grad : forall d alphas f B v dv d2 N w cache grad pt sens saved out m, (0 < d)%nat ->
  fixed_set d alphas f -> diff_basis B v dv d2 N -> degrees_le N alphas -> w_make f B = Ok w ->
  length cache = w_CacheSize w -> length pt = d -> length grad = length alphas ->
  length saved = (m * length alphas)%nat -> length out = length saved -> length sens = m ->
  exists g, mve_CoeffGrad w m saved cache grad pt sens out = Ok g /\ length g = length saved /\
    forall i, (i < length saved)%nat ->
      is_partial (fun c => rsum (fun r => coord sens r * expansion v alphas (block (length alphas) r c) pt) m) i saved (coord g i).
Proof.
  intros d alphas f B v dv d2 N w cache grad pt sens saved out m Hd Hf HB HN Hw Lc Lp Lg Ls Lo Lse.
  destruct (setup d alphas f B v dv d2 N w) as (mx & -> & M1 & M2 & M3 & M4); auto. destruct HB as (B0 & B1 & B2 & B3).
  assert (Rm : room d mx cache) by (unfold room; rewrite Lc; cbn; lia).
  destruct (Fill_ok d N alphas mx B v dv d2 Hd M1 M2 B0 B1 B2 DParameters cache pt Rm Lp) as (c' & E & L & V & _).
  unfold mve_CoeffGrad. rewrite E. cbn [obind]. rewrite size_W. set (n := length alphas) in *.
  pose (T := fun i => Tm v dv d2 ord0 (nth i alphas []) pt).
  pose (H := fun i => coord sens (i / n) * T (i mod n)%nat).
  pose (gst := fun r => match r with O => grad | S k => fill T n grad end).
  pose (St := fun r => ((r * n)%nat, gst r, fill H (r * n) out)).
  change (0%nat, grad, out) with (St 0%nat). rewrite (ofold_seq _ St).
  - cbn [obind]. eexists. split; [reflexivity|]. cbn [Nat.add]. unfold St. cbn [snd]. split; [rewrite fill_length; lia|].
    intros i Hi. rewrite fill_coord by lia. assert (Hn : (0 < n)%nat) by (destruct n; lia).
    assert (Hr : (i / n < m)%nat) by (apply Nat.div_lt_upper_bound; lia).
    pose proof (Nat.mod_upper_bound i n ltac:(lia)) as Hm.
    unfold is_partial.
    replace (H i) with (rsum (fun r => if (r =? i / n)%nat then H i else 0) m).
    2: { rewrite (rsum_single _ (i / n)); auto; [rewrite Nat.eqb_refl; reflexivity|].
         intros j _ Hj. destruct (Nat.eqb_spec j (i / n)); [contradiction|reflexivity]. }
    apply (rsum_derive_in (fun r t => coord sens r * expansion v alphas (block n r (upd saved i t)) pt)
             (fun r _ => if (r =? i / n)%nat then H i else 0)).
    intros r Hrm. destruct (Nat.eqb_spec r (i / n)) as [->|Hn'].
    + unfold H. apply is_derive_const_mult. destruct (block_ok n (i / n) m saved) as [_ Lb]; [lia|auto|].
      apply is_derive_ext with (f := fun t => expansion v alphas (upd (block n (i / n) saved) (i mod n) t) pt).
      { intros t. rewrite block_upd by auto. rewrite Nat.eqb_refl. reflexivity. }
      pose proof (Ex_coeff v dv d2 alphas ord0 (block n (i / n) saved) pt (i mod n) ltac:(lia) Hm) as G.
      unfold is_partial in G. 
      replace (coord saved i) with (coord (block n (i / n) saved) (i mod n)); [exact G|].
      unfold coord, block. pose proof (Nat.div_mod i n ltac:(lia)) as DM.
      replace (nth i saved 0) with (nth (i / n * n + i mod n) saved 0) by (f_equal; lia).
      assert (EE : forall k (l : list R), nth_error (firstn n (skipn k l)) (i mod n) = nth_error l (k + i mod n))
        by (intros k l; rewrite nth_error_firstn, nth_error_skipn by auto; reflexivity).
      pose proof (EE (i / n * n)%nat saved) as E3.
      rewrite (nth_error_nth_some _ _ 0) in E3 by (fold (block n (i / n) saved); lia).
      rewrite (nth_error_nth_some _ _ 0) in E3 by nia. congruence.
    + apply is_derive_ext with (f := fun _ => coord sens r * expansion v alphas (block n r saved) pt).
      { intros t. rewrite block_upd by auto. destruct (Nat.eqb_spec r (i / n)); [contradiction|reflexivity]. }
      apply (is_derive_const (V := R_NormedModule)).
  - intros r Hr. unfold St at 1. destruct (block_ok n r m saved) as [Eb Lb]; [lia|auto|]. rewrite Eb. cbn [obind].
    assert (Lgs : (n <= length (gst r))%nat) by (unfold gst; destruct r; [lia|rewrite fill_length; lia]).
    rewrite (CoeffDerivative_ok d alphas mx B v dv d2 Hd M3 c' pt) by (auto; lia). cbn [obind snd].
    rewrite (raw_get_ok sens r 0) by lia. cbn [obind]. fold n.
    pose (St2 := fun k => fill H (r * n + k) out).
    replace (fill H (r * n) out) with (St2 0%nat) by (unfold St2; rewrite Nat.add_0_r; reflexivity).
    rewrite (ofold_seq _ St2).
    + cbn [obind Nat.add]. unfold St2, St. rewrite Nat.add_1_r. cbn [gst]. do 2 f_equal; [f_equal; [lia|]|f_equal; lia].
      unfold gst. destruct r; [reflexivity|]. rewrite fill_fill by lia. reflexivity.
    + intros k Hk. rewrite fill_get by lia. cbn [obind]. unfold St2. rewrite fill_set.
      * replace (r * n + (k + 1))%nat with (S (r * n + k)) by lia. reflexivity.
      * nia.
      * unfold H. replace ((r * n + k) / n)%nat with r by (apply (Nat.div_unique _ n r k); lia).
        replace ((r * n + k) mod n)%nat with k by (apply (Nat.mod_unique _ n r k); lia). reflexivity.
Qed.
Print Assumptions C25_vector_coeff_grad.

(** ** Non-vacuity *)

Lemma array_diff B v d d2 N : array_basis B v d d2 N -> diff_basis B v d d2 N /\ forall x, twice_at d d2 N x.
Proof.
  intros (H1 & H2 & H3 & H4). split; [split; [|split; [|split]]; auto; intros; apply H4; auto|]. intros x k Hk. apply H4; auto.
Qed.

(** The nine-member set of the multi-index examples, and a total-order set in three variables,
    with normalised Hermite polynomials and with Hermite functions. *)
Definition ex_alphas : list vec := Eval vm_compute in map (fun i => val [] (f_IndexToMulti fxc i)) (seq 0 (f_Size fxc)).
Definition ex_tot : list vec := Eval vm_compute in map (fun i => val [] (f_IndexToMulti fxt i)) (seq 0 (f_Size fxt)).
Example C24_example :
  fixed_set 2 ex_alphas fxc /\ fixed_set 3 ex_tot fxt /\ degrees_le 3 ex_alphas /\ degrees_le 2 ex_tot /\
  (forall N, exists v dv d2, diff_basis (poly_basis ProbabilistHermite true) v dv d2 N /\ forall x, twice_at dv d2 N x) /\
  (forall N, exists v dv d2, diff_basis hermite_functions v dv d2 N /\ forall x, twice_at dv d2 N x) /\
  (exists w, w_make fxc hermite_functions = Ok w /\ w_CacheSize w = 17%nat /\ wstart w = [0; 4; 7; 11; 14; 17]%nat).
Proof.
  assert (Dec : forall N l, forallb (fun al => forallb (fun x => x <=? N)%nat al) l = true -> degrees_le N l).
  { intros N l H al k Hin. rewrite forallb_forall in H. specialize (H al Hin). rewrite forallb_forall in H.
    destruct (Nat.lt_ge_cases k (length al)); [|rewrite nth_overflow by lia; lia]. apply Nat.leb_le, H, nth_In. auto. }
  repeat apply conj.
  - left. exists ex2. split; [apply C13_example|]. vm_compute. reflexivity.
  - reflexivity.
  - intros i Hi. change (f_Size fxc) with 9%nat in Hi. do 9 (destruct i as [|i]; [reflexivity|]). lia.
  - right. exists 2%nat. vm_compute. reflexivity.
  - reflexivity.
  - intros i Hi. change (f_Size fxt) with 10%nat in Hi. do 10 (destruct i as [|i]; [reflexivity|]). lia.
  - apply Dec. vm_compute. reflexivity.
  - apply Dec. vm_compute. reflexivity.
  - intros N. do 3 eexists. apply array_diff, poly_array_basis, proper_prob.
  - intros N. destruct (C21_bases N) as (_ & _ & (d & d2 & H)). do 3 eexists. apply array_diff, H.
  - eexists. split; [reflexivity|]. split; reflexivity.
Qed.

(** ** C60 *)

(** With an uncompressed set the last offset is never written and stays 0, so the last term's
    factors are skipped: a one-term expansion is the constant c_0 whatever the cache holds. *)
Theorem C60_dense_last_term_refuted : forall d s f B w cache c0, (0 < d)%nat -> any_history d s -> ms_Size s = 1%nat ->
  ms_Fix false s = Ok f -> w_make f B = Ok w -> w_Evaluate w cache [c0] = Ok c0.
Proof.
  intros d s f B w cache c0 Hd Hh Hs Hf Hw. destruct (any_history_inv d s Hh) as (Bs & D & Hl). subst d.
  destruct (Fix_dense s Bs Hd Hl) as (mx & H1 & H2 & H3). rewrite Hf in H1. injection H1 as ->.
  unfold w_make in Hw. destruct (ofold _ _ _) as [r| | |]; try discriminate. cbn [obind] in Hw.
  destruct (raw_get (fst r) _) as [cs| | |]; try discriminate. cbn [obind] in Hw. injection Hw as <-.
  rewrite <- actives_length in Hs. unfold w_Evaluate, w_NumCoeffs. cbn [wset]. rewrite densed_size, Hs by auto.
  cbn [seq ofold]. unfold nz_loop. cbn [densed fstarts]. rewrite Hs. cbn. f_equal. ring.
Qed.
Print Assumptions C60_dense_last_term_refuted.

(** The compressed form of the same set evaluates c_0 * x, so the two storage forms disagree. *)
Definition c60_s : mset := Eval vm_compute in val ex_empty (ms_of_rows 1 [[1%nat]]).
Example C60_example : any_history 1 c60_s /\ ms_Size c60_s = 1%nat /\
  exists f fd w wd, ms_Fix true c60_s = Ok f /\ ms_Fix false c60_s = Ok fd /\
    w_make f (poly_basis ProbabilistHermite false) = Ok w /\ w_make fd (poly_basis ProbabilistHermite false) = Ok wd /\
    forall x c0, exists cache, w_Fill w [0;0;0;0;0;0] [x] DNone = Ok cache /\ w_Evaluate w cache [c0] = Ok (c0 * x) /\
      w_Evaluate wd cache [c0] = Ok c0.
Proof.
  split; [|split; [reflexivity|]].
  { left. apply (h_start 1 any). apply (s_rows 1 [[1%nat]]); [|vm_compute; reflexivity]. intros v [<-|[]]. reflexivity. }
  do 4 eexists. repeat (split; [vm_compute; reflexivity|]).
  intros x c0. eexists. split; [reflexivity|]. split; cbn; f_equal; unfold Rdiv; lra.
Qed.
