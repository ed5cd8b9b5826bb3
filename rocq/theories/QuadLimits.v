(** What happens outside the range in which the adaptive rules stay in their workspace. *)
From Coq Require Import Reals Lra NArith Psatz.
From Coquelicot Require Import Coquelicot.
From Verif Require Import Base SpecMulti SpecExpansion SpecQuad SpecPoly PolyModel PolyProofs BijProofs ExpansionProofs ExpansionDeriv
  QuadModel QuadCC QuadWalk QuadSimpson QuadACC QuadProofs.
Local Open Scope R_scope.

Section Spine.
Context (q : quad) (f : R -> list R) (lb ub : R).
Let fd := q_fdim q.
Context (Hfd : (1 <= fd)%nat) (Hf : forall x, length (f x) = fd).

(** A quadrature with the same number of components that meets the side conditions of the
    lemmas about one pass. *)
Let q0 := MkQuad fd 1 0 (q_absTol q) (q_relTol q) (q_metric q).

Lemma keeps_low st ws ws' p x : keeps q0 st ws ws' -> (5 * fd <= st)%nat -> low q0 st p -> holds q0 f ws p x -> holds q0 f ws' p x.
Proof. intros [L H] H5 Hp Hh i Hi. rewrite H; [apply Hh; auto| |]; unfold low in Hp; cbn [q0 q_fdim] in *; lia. Qed.

(** The first pass over an interval on the left spine. *)
Lemma spine n : forall L a b ws res mv rv fuel, (1 <= q_maxSub q)%nat ->
  (L + n <= q_maxSub q)%nat -> length ws = as_WorkspaceSize (q_maxSub q) fd ->
  low q0 (as_start fd L) mv -> low q0 (as_start fd L) rv ->
  rd ws (as_start fd L) = a -> rd ws (as_start fd L + 1) = b ->
  holds q0 f ws 0 a -> holds q0 f ws mv ((a + b) / 2) -> holds q0 f ws rv b ->
  (forall k x y, (L <= k < L + n)%nat -> ~ s_stop q f lb ub k x y) ->
  ((L + n < q_maxSub q)%nat -> exists b' ws' mv' rv', length ws' = length ws /\
     low q0 (as_start fd (L + n)) mv' /\ low q0 (as_start fd (L + n)) rv' /\
     rd ws' (as_start fd (L + n)) = a /\ rd ws' (as_start fd (L + n) + 1) = b' /\
     holds q0 f ws' 0 a /\ holds q0 f ws' mv' ((a + b') / 2) /\ holds q0 f ws' rv' b' /\
     as_loop q f lb ub (n + fuel) ws res L 0 (as_start fd L) 0 mv rv
     = as_loop q f lb ub fuel ws' res (L + n) 0 (as_start fd (L + n)) 0 mv' rv') /\
  ((L + n = q_maxSub q)%nat -> (1 <= n)%nat -> as_loop q f lb ub (n + fuel) ws res L 0 (as_start fd L) 0 mv rv = UB).
Proof.
  induction n as [|n IH]; intros L a b ws res mv rv fuel Hm HL Lw Pm Pr Ea Eb Vl Vm Vr NS.
  - split; [|intros; lia]. intros _. exists b, ws, mv, rv. rewrite !Nat.add_0_r. cbn [Nat.add]. repeat (split; auto).
  - assert (Room : (as_start fd L + 2 + 2 * fd <= as_WorkspaceSize (q_maxSub q) fd)%nat) by (unfold as_start, as_WorkspaceSize; nia).
    assert (H5 : (5 * fd <= as_start fd L)%nat) by (unfold as_start; nia).
    assert (SS : as_start fd (S L) = (as_start fd L + 2 * fd + 2)%nat) by (unfold as_start; nia).
    destruct (estimate_ok q0 f Hfd Hf (le_n 1) ltac:(cbn; lia) ltac:(cbn; lia) ws (as_start fd L) 0 mv rv a b H5 ltac:(cbn [q0 q_fdim]; lia)
       ltac:(unfold low; cbn [q0 q_fdim]; lia) Pm Pr Ea Eb Vl Vm Vr) as (w1 & E1 & K1 & C1 & F1 & Hlm & Hrm).
    assert (L1 : length w1 = length ws) by apply K1.
    pose proof (estimate_error_ok q w1 (s_coarse f a b) (s_fine f a b) (3 * fd) (4 * fd) Hfd ltac:(fold fd; lia) ltac:(fold fd; lia) C1 F1) as EE.
    assert (ST : Bool.reflect (s_stop q f lb ub L a b) (stop_test q lb ub (size_of (q_metric q) (q_fdim q) (fun i => s_fine f a b i - s_coarse f a b i))
               (Rmax (q_relTol q * size_of (q_metric q) (q_fdim q) (s_coarse f a b)) (q_absTol q)) L))
      by exact (stop_test_spec q lb ub L (s_coarse f) (s_fine f) a b Hm).
    assert (Ea1 : rd w1 (as_start fd L) = a) by (rewrite (proj2 K1) by (cbn [q0 q_fdim]; lia); auto).
    assert (Eb1 : rd w1 (as_start fd L + 1) = b) by (rewrite (proj2 K1) by (cbn [q0 q_fdim]; lia); auto).
    assert (STEP : forall g, as_loop q f lb ub (S g) ws res L 0 (as_start fd L) 0 mv rv =
       do ws <- raw_set w1 (as_start fd (S L)) a;
       do ws <- raw_set ws (as_start fd (S L) + 1) ((a + b) / 2);
       as_loop q f lb ub g ws res (S L) 0 (as_start fd (S L)) 0 (as_start fd L + 2) mv).
    { intros g. cbn [as_loop]. fold fd. change (as_estimate q f ws (as_start fd L) 0 mv rv) with (as_estimate q0 f ws (as_start fd L) 0 mv rv).
      rewrite E1. cbn [obind]. rewrite EE. cbn [obind]. rewrite !get_ok by lia. cbn [obind fst snd].
      destruct ST as [HS|_]; [exfalso; revert HS; apply NS; lia|]. rewrite Ea1, Eb1, half. reflexivity. }
    replace (S n + fuel)%nat with (S (n + fuel)) by lia. rewrite STEP.
    destruct (Nat.eq_dec (S L) (q_maxSub q)) as [Hlast|Hlast].
    + split; [intros; lia|]. intros _ _. assert (n = 0%nat) by lia. subst n.
      rewrite Hlast. replace (as_start fd (q_maxSub q)) with (length w1) by (rewrite L1, Lw; unfold as_start, as_WorkspaceSize; lia).
      unfold raw_set. destruct (Nat.ltb_spec (length w1) (length w1)); [lia|]. reflexivity.
    + assert (Room' : (as_start fd (S L) + 2 + 2 * fd <= as_WorkspaceSize (q_maxSub q) fd)%nat) by (unfold as_start, as_WorkspaceSize; nia).
      destruct (set_ok w1 (as_start fd (S L)) a) as (w2 & E2 & L2 & V2 & O2); [lia|].
      destruct (set_ok w2 (as_start fd (S L) + 1) ((a + b) / 2)) as (w3 & E3 & L3 & V3 & O3); [lia|].
      rewrite E2. cbn [obind]. rewrite E3. cbn [obind].
      assert (K3 : keeps q0 (as_start fd (S L)) w1 w3).
      { split; [congruence|]. intros j Hj _. rewrite O3, O2 by lia. reflexivity. }
      assert (KW : forall p x, low q0 (as_start fd L) p -> holds q0 f ws p x -> holds q0 f w3 p x).
      { intros p x Hp Hh. apply (keeps_low (as_start fd (S L)) w1 w3); auto; [lia|unfold low in *; cbn [q0 q_fdim] in *; lia|].
        apply (keeps_low (as_start fd L + 2) ws w1); auto; [lia|unfold low in *; cbn [q0 q_fdim] in *; lia]. }
      specialize (IH (S L) a ((a + b) / 2) w3 res (as_start fd L + 2)%nat mv fuel Hm ltac:(lia) ltac:(congruence)).
      replace (S L + n)%nat with (L + S n)%nat in IH by lia. rewrite L3, L2, L1 in IH. destruct IH as (I1 & I2).
      * unfold low in *; cbn [q0 q_fdim] in *; lia.
      * unfold low in *; cbn [q0 q_fdim] in *; lia.
      * rewrite O3 by lia. auto.
      * auto.
      * apply KW; auto. unfold low; cbn [q0 q_fdim]; lia.
      * apply (keeps_low (as_start fd (S L)) w1 w3); auto; [lia|unfold low; cbn [q0 q_fdim]; lia].
      * apply KW; auto.
      * intros k x y Hk. apply NS. lia.
      * split; auto. intros H1 H2. apply I2; auto. lia.
Qed.

Lemma as_start_zero : as_start fd 0 = (5 * fd)%nat.
Proof. unfold as_start. nia. Qed.

Lemma simpson_begin ws res fuel : (1 <= q_maxSub q)%nat -> length ws = as_WorkspaceSize (q_maxSub q) fd -> length res = fd ->
  exists ws' res', length ws' = length ws /\ length res' = fd /\ rd ws' (5 * fd) = lb /\ rd ws' (5 * fd + 1) = ub /\
    holds q0 f ws' 0 lb /\ holds q0 f ws' (2 * fd) ((lb + ub) / 2) /\ holds q0 f ws' fd ub /\
    as_Integrate q fuel ws f lb ub res = as_loop q f lb ub fuel ws' res' 0 0%N (5 * fd) 0 (2 * fd) fd.
Proof.
  intros Hm Lw Lr. unfold as_Integrate. fold fd.
  assert (Room : (5 * fd + 2 + 2 * fd <= length ws)%nat) by (rewrite Lw; unfold as_WorkspaceSize; nia).
  destruct (zero_res fd res ltac:(lia)) as (r0 & E0 & Lr0 & Z0). rewrite E0. cbn [obind].
  destruct (store_ok ws 0 (f lb)) as (w1 & E1 & L1 & I1 & O1); [rewrite Hf; lia|]. rewrite Hf in I1, O1. rewrite E1. cbn [obind].
  destruct (store_ok w1 fd (f ub)) as (w2 & E2 & L2 & I2 & O2); [rewrite Hf; lia|]. rewrite Hf in I2, O2. rewrite E2. cbn [obind].
  rewrite half.
  destruct (store_ok w2 (2 * fd) (f ((lb + ub) / 2))) as (w3 & E3 & L3 & I3 & O3); [rewrite Hf; lia|]. rewrite Hf in I3, O3. rewrite E3. cbn [obind].
  destruct (set_ok w3 (5 * fd) lb) as (w4 & E4 & L4 & V4 & O4); [lia|]. rewrite E4. cbn [obind].
  destruct (set_ok w4 (5 * fd + 1) ub) as (w5 & E5 & L5 & V5 & O5); [lia|]. rewrite E5. cbn [obind].
  exists w5, r0. split; [congruence|]. split; [congruence|]. split; [rewrite O5 by lia; auto|]. split; [auto|].
  split; [|split; [|split; [|reflexivity]]]; intros i Hi; cbn [q0 q_fdim] in Hi.
  - cbn [Nat.add]. rewrite O5, O4, O3, O2 by lia. pose proof (I1 i Hi) as X. cbn [Nat.add] in X. rewrite X. reflexivity.
  - rewrite O5, O4, I3 by lia. reflexivity.
  - rewrite O5, O4, O3, I2 by lia. reflexivity.
Qed.

(** minSub >= maxSub: the walk leaves the workspace. *)
Lemma simpson_overflow ws res fuel : (q_maxSub q <= q_minSub q)%nat -> / 10 ^ 14 <= Rabs (ub - lb) ->
  length ws = as_WorkspaceSize (q_maxSub q) fd -> length res = fd -> (q_maxSub q <= fuel)%nat ->
  as_Integrate q fuel ws f lb ub res = UB.
Proof.
  intros Hmin Hw Lw Lr Hfuel. destruct (Nat.eq_dec (q_maxSub q) 0) as [Hz|Hz].
  - unfold as_Integrate. fold fd. assert (Lw' : length ws = (5 * fd)%nat) by (rewrite Lw, Hz; unfold as_WorkspaceSize; nia).
    destruct (zero_res fd res ltac:(lia)) as (r0 & E0 & Lr0 & Z0). rewrite E0. cbn [obind].
    destruct (store_ok ws 0 (f lb)) as (w1 & E1 & L1 & I1 & O1); [rewrite Hf; lia|]. rewrite E1. cbn [obind].
    destruct (store_ok w1 fd (f ub)) as (w2 & E2 & L2 & I2 & O2); [rewrite Hf; lia|]. rewrite E2. cbn [obind].
    destruct (store_ok w2 (2 * fd) (f (1 / 2 * (lb + ub)))) as (w3 & E3 & L3 & I3 & O3); [rewrite Hf; lia|]. rewrite E3. cbn [obind].
    unfold raw_set. destruct (Nat.ltb_spec (5 * fd) (length w3)); [lia|]. reflexivity.
  - destruct (simpson_begin ws res fuel ltac:(lia) Lw Lr) as (w & r & Lw' & Lr' & Ea & Eb & Vl & Vm & Vr & E). rewrite E.
    destruct (spine (q_maxSub q) 0 lb ub w r (2 * fd) fd (fuel - q_maxSub q)) as (_ & H); rewrite ?as_start_zero; try lia; auto; try (unfold low; cbn [q0 q_fdim]; lia); try congruence.
    + intros k x y Hk [[_ A]|A]; [lia|lra].
    + rewrite as_start_zero in H. replace (q_maxSub q + (fuel - q_maxSub q))%nat with fuel in H by lia. apply H; lia.
Qed.

(** Tolerances that no estimate meets and maxSub above 32: a shift by 32 bits or more. *)
Lemma simpson_deep ws res fuel : (32 < q_maxSub q)%nat -> / 10 ^ 14 <= Rabs (ub - lb) -> q_absTol q <= 0 -> q_relTol q <= 0 ->
  length ws = as_WorkspaceSize (q_maxSub q) fd -> length res = fd -> (q_maxSub q <= fuel)%nat ->
  as_Integrate q fuel ws f lb ub res = UB.
Proof.
  intros Hmax Hw Ha Hr Lw Lr Hfuel.
  assert (POS : forall m n v, 0 <= size_of m n v).
  { intros [| | |] n v; cbn [size_of]; [apply Rabs_pos| |apply sqrt_pos|].
    - destruct n; cbn; [lra|]. eapply Rle_trans; [apply (Rabs_pos (v n))|apply Rmax_r].
    - induction n; cbn; [lra|]. pose proof (Rabs_pos (v n)). lra. }
  assert (NC : forall x y, ~ close (q_metric q) fd (q_absTol q) (q_relTol q) (s_coarse f x y) (s_fine f x y)).
  { intros x y. unfold close. pose proof (POS (q_metric q) fd (fun i => s_fine f x y i - s_coarse f x y i)). pose proof (POS (q_metric q) fd (s_coarse f x y)).
    assert (q_relTol q * size_of (q_metric q) fd (s_coarse f x y) <= 0) by nra.
    pose proof (Rmax_lub _ _ 0 H1 Ha). lra. }
  destruct (Nat.le_gt_cases (q_maxSub q) (q_minSub q)) as [Hmin|Hmin]; [apply simpson_overflow; auto|].
  destruct (simpson_begin ws res fuel ltac:(lia) Lw Lr) as (w & r & Lw' & Lr' & Ea & Eb & Vl & Vm & Vr & E). rewrite E.
  set (n := (q_maxSub q - 1)%nat).
  destruct (spine n 0 lb ub w r (2 * fd) fd (fuel - n)) as (H & _); rewrite ?as_start_zero; try lia; auto; try (unfold low; cbn [q0 q_fdim]; lia); try congruence.
  - intros k x y Hk [[[A|A] _]|A]; [exact (NC _ _ A)|lia|lra].
  - destruct (H ltac:(lia)) as (b' & w' & mv' & rv' & Lw2 & Pm & Pr & Ea2 & Eb2 & Vl2 & Vm2 & Vr2 & RUN). clear H.
    rewrite as_start_zero in RUN. replace (n + (fuel - n))%nat with fuel in RUN by lia. rewrite RUN. cbn [Nat.add] in *.
    destruct (fuel - n)%nat as [|g] eqn:Eg; [lia|].
    assert (Room : (as_start fd n + 2 + 2 * fd <= length w')%nat) by (rewrite Lw2, Lw', Lw; unfold n, as_start, as_WorkspaceSize; nia).
    assert (H5 : (5 * fd <= as_start fd n)%nat) by (unfold as_start; nia).
    destruct (estimate_ok q0 f Hfd Hf (le_n 1) ltac:(cbn; lia) ltac:(cbn; lia) w' (as_start fd n) 0 mv' rv' lb b' H5 ltac:(cbn [q0 q_fdim]; lia)
       ltac:(unfold low; cbn [q0 q_fdim]; lia) Pm Pr Ea2 Eb2 Vl2 Vm2 Vr2) as (w1 & E1 & K1 & C1 & F1 & _).
    assert (L1 : length w1 = length w') by apply K1.
    pose proof (estimate_error_ok q w1 (s_coarse f lb b') (s_fine f lb b') (3 * fd) (4 * fd) Hfd ltac:(fold fd; lia) ltac:(fold fd; lia) C1 F1) as EE.
    pose proof (stop_test_spec q lb ub n (s_coarse f) (s_fine f) lb b' ltac:(lia)) as ST.
    destruct (add_fine_ok q w1 r (s_fine f lb b') ltac:(fold fd; lia) ltac:(fold fd; lia) F1) as (res1 & E2 & Lr1 & R1).
    cbn [as_loop]. fold fd. change (as_estimate q f w' (as_start fd n) 0 mv' rv') with (as_estimate q0 f w' (as_start fd n) 0 mv' rv').
    rewrite E1. cbn [obind]. rewrite EE. cbn [obind]. rewrite !get_ok by lia. cbn [obind fst snd].
    destruct ST as [_|NS]; [|exfalso; apply NS; left; split; [right; unfold n; lia|unfold n; lia]].
    rewrite E2. cbn [obind]. assert (U : climb n 0 = UB).
    { unfold n. destruct (q_maxSub q - 1)%nat as [|k] eqn:Ek; [lia|]. cbn [climb]. unfold seg_bit. destruct (Nat.ltb_spec (S k) 32); [lia|]. reflexivity. }
    rewrite U. reflexivity.
Qed.
End Spine.
