(** Proofs about AdaptiveSimpson: the iterative walk computes the recursive bisection. *)
From Coq Require Import Reals Lra NArith Psatz.
From Coquelicot Require Import Coquelicot.
From Verif Require Import Base SpecMulti SpecExpansion SpecQuad SpecPoly PolyModel PolyProofs BijProofs ExpansionProofs
  QuadModel QuadWalk.
Local Open Scope R_scope.

Section Simpson.
Context (q : quad) (f : R -> list R) (lb ub : R).
Let fd := q_fdim q.
Context (Hfd : (1 <= fd)%nat) (Hf : forall x, length (f x) = fd).
Context (Hm1 : (1 <= q_maxSub q)%nat) (Hm32 : (q_maxSub q <= 32)%nat) (Hmin : (q_minSub q < q_maxSub q)%nat).

Definition s_coarse (a b : R) (i : nat) : R := simpson (comp f i) a b.
Definition s_fine (a b : R) (i : nat) : R := simpson2 (comp f i) a b.
Definition s_stop := adaptive_stop (q_metric q) fd (q_absTol q) (q_relTol q) (q_maxSub q) (q_minSub q) (ub - lb) s_coarse s_fine.

(** A position whose fd entries lie below [st] and outside the two estimates. *)
Definition low (st p : nat) : Prop := (p + fd <= 3 * fd \/ (5 * fd <= p /\ p + fd <= st))%nat.
Definition holds (ws : list R) (p : nat) (x : R) : Prop := forall i, (i < fd)%nat -> rd ws (p + i) = comp f i x.
(** Nothing below [st] changed, apart from the two estimates. *)
Definition keeps (st : nat) (ws ws' : list R) : Prop :=
  length ws' = length ws /\ forall j, (j < st)%nat -> (j < 3 * fd \/ 5 * fd <= j)%nat -> rd ws' j = rd ws j.

Lemma keeps_refl st ws : keeps st ws ws.
Proof. split; auto. Qed.
Lemma keeps_trans st ws1 ws2 ws3 : keeps st ws1 ws2 -> keeps st ws2 ws3 -> keeps st ws1 ws3.
Proof. intros [L H] [L' H']. split; [congruence|]. intros j Hj Hj'. rewrite H', H; auto. Qed.
Lemma keeps_less st st' ws1 ws2 : (st <= st')%nat -> keeps st' ws1 ws2 -> keeps st ws1 ws2.
Proof. intros Hs [L H]. split; auto. intros j Hj Hj'. apply H; auto. lia. Qed.
Lemma keeps_holds st ws ws' p x : keeps st ws ws' -> (5 * fd <= st)%nat -> low st p -> holds ws p x -> holds ws' p x.
Proof. intros [L H] H5 Hp Hh i Hi. rewrite H; [apply Hh; auto| |]; unfold low in Hp; lia. Qed.
Lemma keeps_set st ws p v ws' : raw_set ws p v = Ok ws' -> length ws' = length ws -> (forall j, j <> p -> rd ws' j = rd ws j) ->
  (st <= p)%nat -> keeps st ws ws'.
Proof. intros _ L H Hp. split; auto. intros j Hj _. apply H. lia. Qed.

Lemma start_S L : as_start fd (S L) = (as_start fd L + 2 * fd + 2)%nat.
Proof. unfold as_start. nia. Qed.
Lemma start_0 : as_start fd 0 = (5 * fd)%nat.
Proof. unfold as_start. nia. Qed.
Lemma start_5 L : (5 * fd <= as_start fd L)%nat.
Proof. unfold as_start. nia. Qed.
Lemma start_room L : (L < q_maxSub q)%nat -> (as_start fd L + 2 + 2 * fd <= as_WorkspaceSize (q_maxSub q) fd)%nat.
Proof. intros H. unfold as_start, as_WorkspaceSize. nia. Qed.

Lemma half a b : 1 / 2 * (a + b) = (a + b) / 2.
Proof. field. Qed.

Lemma estimate_ok ws st lv mv rv a b : (5 * fd <= st)%nat -> (st + 2 + 2 * fd <= length ws)%nat ->
  low st lv -> low st mv -> low st rv -> rd ws st = a -> rd ws (st + 1) = b ->
  holds ws lv a -> holds ws mv ((a + b) / 2) -> holds ws rv b ->
  exists ws', as_estimate q f ws st lv mv rv = Ok ws' /\ keeps (st + 2) ws ws' /\
    (forall i, (i < fd)%nat -> rd ws' (3 * fd + i) = s_coarse a b i) /\
    (forall i, (i < fd)%nat -> rd ws' (4 * fd + i) = s_fine a b i) /\
    holds ws' (st + 2) ((a + (a + b) / 2) / 2) /\ holds ws' (st + 2 + fd) (((a + b) / 2 + b) / 2).
Proof.
  intros H5 Hl Pl Pm Pr Ea Eb Vl Vm Vr. unfold as_estimate. fold fd.
  rewrite !get_ok by lia. cbn [obind]. rewrite Ea, Eb, !half.
  destruct (store_ok ws (st + 2) (f ((a + (a + b) / 2) / 2))) as (w1 & E1 & L1 & I1 & O1); [rewrite Hf; lia|].
  rewrite Hf in I1, O1. rewrite E1. cbn [obind].
  destruct (store_ok w1 (st + 2 + fd) (f (((a + b) / 2 + b) / 2))) as (w2 & E2 & L2 & I2 & O2); [rewrite Hf; lia|].
  rewrite Hf in I2, O2. rewrite E2. cbn [obind].
  assert (Lw2 : length w2 = length ws) by congruence.
  assert (K : keeps (st + 2) ws w2).
  { split; [congruence|]. intros j Hj Hj'. rewrite O2, O1 by lia. reflexivity. }
  assert (Hlm : holds w2 (st + 2) ((a + (a + b) / 2) / 2)).
  { intros i Hi. rewrite O2 by lia. rewrite I1 by lia. reflexivity. }
  assert (Hrm : holds w2 (st + 2 + fd) (((a + b) / 2 + b) / 2)).
  { intros i Hi. rewrite I2 by lia. reflexivity. }
  assert (LO : forall p x, low st p -> holds ws p x -> holds w2 p x).
  { intros p x Hp. apply (keeps_holds (st + 2) ws w2); auto; [lia|]. unfold low in *. lia. }
  clear E1 E2 I1 O1 I2 O2 w1 L1 L2.
  destruct (ofold_inv (fun ws i =>
    do fl <- raw_get ws (lv + i); do fm <- raw_get ws (mv + i); do fr <- raw_get ws (rv + i);
    do flm <- raw_get ws (st + 2 + i); do frm <- raw_get ws (st + 2 + fd + i);
    do ws <- raw_set ws (3 * fd + i) ((b - a) / 6 * (fl + 4 * fm + fr));
    do ws <- raw_set ws (4 * fd + i) (((a + b) / 2 - a) / 6 * (fl + 4 * flm + fm));
    do y <- raw_get ws (4 * fd + i);
    raw_set ws (4 * fd + i) (y + (b - (a + b) / 2) / 6 * (fm + 4 * frm + fr)))
    (fun k w => length w = length ws /\ (forall j, (j < 3 * fd \/ 5 * fd <= j)%nat -> rd w j = rd w2 j) /\
       (forall i, (i < k)%nat -> rd w (3 * fd + i) = s_coarse a b i) /\
       (forall i, (i < k)%nat -> rd w (4 * fd + i) = s_fine a b i))
    fd 0 w2) as (w & E & Lw & Kw & Cw & Fw).
  - split; auto. split; auto. split; intros i Hi; lia.
  - intros i w Hi (Lw & Kw & Cw & Fw).
    rewrite (get_ok w (lv + i)) by (unfold low in *; lia). cbn [obind].
    rewrite (get_ok w (mv + i)) by (unfold low in *; lia). cbn [obind].
    rewrite (get_ok w (rv + i)) by (unfold low in *; lia). cbn [obind].
    rewrite (get_ok w (st + 2 + i)) by lia. cbn [obind]. rewrite (get_ok w (st + 2 + fd + i)) by lia. cbn [obind].
    rewrite (Kw (lv + i)%nat), (Kw (mv + i)%nat), (Kw (rv + i)%nat), (Kw (st + 2 + i)%nat), (Kw (st + 2 + fd + i)%nat)
      by (unfold low in *; lia).
    rewrite (LO lv a Pl Vl), (LO mv _ Pm Vm), (LO rv _ Pr Vr), Hlm, Hrm by lia.
    destruct (set_ok w (3 * fd + i) ((b - a) / 6 * (comp f i a + 4 * comp f i ((a + b) / 2) + comp f i b))) as (u1 & E1 & L1 & V1 & O1); [lia|].
    rewrite E1. cbn [obind].
    destruct (set_ok u1 (4 * fd + i) (((a + b) / 2 - a) / 6 * (comp f i a + 4 * comp f i ((a + (a + b) / 2) / 2) + comp f i ((a + b) / 2)))) as (u2 & E2 & L2 & V2 & O2); [lia|].
    rewrite E2. cbn [obind]. rewrite get_ok by lia. cbn [obind]. rewrite V2.
    destruct (set_ok u2 (4 * fd + i) (((a + b) / 2 - a) / 6 * (comp f i a + 4 * comp f i ((a + (a + b) / 2) / 2) + comp f i ((a + b) / 2))
        + (b - (a + b) / 2) / 6 * (comp f i ((a + b) / 2) + 4 * comp f i (((a + b) / 2 + b) / 2) + comp f i b))) as (u3 & E3 & L3 & V3 & O3); [lia|].
    rewrite E3. exists u3. split; auto. split; [congruence|]. split; [|split].
    + intros j Hj. rewrite O3, O2, O1 by lia. auto.
    + intros j Hj. rewrite O3, O2 by lia. destruct (Nat.eq_dec j i) as [->|Hn]; [rewrite V1; reflexivity|]. rewrite O1 by lia. apply Cw. lia.
    + intros j Hj. destruct (Nat.eq_dec j i) as [->|Hn]; [rewrite V3; reflexivity|]. rewrite O3, O2, O1 by lia. apply Fw. lia.
  - exists w. split; [exact E|]. split; [|split; [|split; [|split]]]; auto.
    + destruct K as [_ K]. split; auto. intros j Hj Hj'. rewrite Kw by auto. auto.
    + intros i Hi. rewrite Kw by lia. apply Hlm; auto.
    + intros i Hi. rewrite Kw by lia. apply Hrm; auto.
Qed.

(** ** The positions found by UpdateValues *)

Lemma uv_S L sg : as_UpdateValues fd (S L) sg = do p <- as_UpdateValues fd L sg;
    let '(lv, mv, rv) := p in do b <- seg_bit sg (L + 1);
    if b then Ok (mv, (as_start fd L + 2 + fd)%nat, rv) else Ok (lv, (as_start fd L + 2)%nat, mv).
Proof.
  unfold as_UpdateValues at 1. rewrite seq_S, ofold_app. cbn [Nat.add]. fold (as_UpdateValues fd L sg).
  destruct (as_UpdateValues fd L sg) as [((lv & mv) & rv)| | |]; cbn [obind ofold]; auto.
  destruct (seg_bit sg (L + 1)) as [[|]| | |]; cbn [obind]; auto; unfold as_start.
  - replace ((2 * L + 5) * fd + 2 * L + 2 + fd)%nat with ((2 * L + 5 + 1) * fd + 2 * L + 2)%nat by nia. reflexivity.
Qed.

Lemma uv_bits L sg sg' : (L < 32)%nat -> (forall k, (k <= L)%nat -> bit sg k = bit sg' k) -> as_UpdateValues fd L sg = as_UpdateValues fd L sg'.
Proof.
  intros HL. induction L as [|L IH]; intros H; [reflexivity|]. rewrite !uv_S, IH by (auto; lia).
  rewrite !seg_bit_ok by lia. fold (bit sg (L + 1)) (bit sg' (L + 1)). rewrite (H (L + 1)%nat) by lia. reflexivity.
Qed.

Lemma uv_low L sg : (L < 32)%nat -> exists lv mv rv, as_UpdateValues fd L sg = Ok (lv, mv, rv) /\
  low (as_start fd L) lv /\ low (as_start fd L) mv /\ low (as_start fd L) rv.
Proof.
  intros HL. induction L as [|L IH].
  - exists 0%nat, (2 * fd)%nat, fd. split; [reflexivity|]. unfold low. lia.
  - destruct IH as (lv & mv & rv & E & A & B & C); [lia|]. rewrite uv_S, E. cbn [obind].
    rewrite seg_bit_ok by lia. cbn [obind]. pose proof (start_5 L). pose proof (start_S L).
    destruct (N.testbit sg (N.of_nat (L + 1))); eexists _, _, _; (split; [reflexivity|]); unfold low in *; lia.
Qed.

(** ** The loop *)

(** What the loop does after a leaf has been added to the result. *)
Definition as_next (fuel : nat) (ws res : list R) (level : nat) (sg : N) : outcome (list R) :=
  do p <- climb level sg;
  let level := fst p in
  if (level =? 0)%nat then Ok res
  else
    let sg := N.lor (snd p) (N.shiftl 1 (N.of_nat level)) in
    let st := as_start fd level in
    let prev := as_start fd (level - 1) in
    do a <- raw_get ws prev;
    do b <- raw_get ws (prev + 1);
    do ws <- raw_set ws st (1/2 * (a + b));
    do b <- raw_get ws (prev + 1);
    do ws <- raw_set ws (st + 1) b;
    do u <- as_UpdateValues fd level sg;
    let '(lv, mv, rv) := u in
    as_loop q f lb ub fuel ws res level sg st lv mv rv.

Lemma subtree n : forall L a b sg lv mv rv ws res, (L + n + 1 = q_maxSub q)%nat ->
  (as_WorkspaceSize (q_maxSub q) fd <= length ws)%nat -> (fd <= length res)%nat ->
  (forall k, (L < k)%nat -> bit sg k = false) ->
  as_UpdateValues fd L sg = Ok (lv, mv, rv) ->
  rd ws (as_start fd L) = a -> rd ws (as_start fd L + 1) = b ->
  holds ws lv a -> holds ws mv ((a + b) / 2) -> holds ws rv b ->
  exists T ws' res', refined s_stop T L a b /\ keeps (as_start fd L + 2) ws ws' /\ length res' = length res /\
    (forall i, (i < fd)%nat -> rd res' i = rd res i + over_leaves (fun l r => s_fine l r i) (leaves T L a b)) /\
    forall fuel, as_loop q f lb ub (tsize T + fuel) ws res L sg (as_start fd L) lv mv rv = as_next fuel ws' res' L sg.
Proof.
  induction n as [n IH] using lt_wf_ind; intros L a b sg lv mv rv ws res HL Lw Lr Hsg Huv Ea Eb Vl Vm Vr.
  pose proof (start_room L ltac:(lia)) as Room; pose proof (start_5 L) as H5.
  destruct (uv_low L sg ltac:(lia)) as (lv' & mv' & rv' & Huv' & Pl & Pm & Pr); rewrite Huv in Huv'; injection Huv' as <- <- <-.
  destruct (estimate_ok ws (as_start fd L) lv mv rv a b H5 ltac:(lia) Pl Pm Pr Ea Eb Vl Vm Vr)
    as (w1 & E1 & K1 & C1 & F1 & Hlm & Hrm).
  assert (L1 : length w1 = length ws) by apply K1.
  pose proof (estimate_error_ok q w1 (s_coarse a b) (s_fine a b) (3 * fd) (4 * fd) Hfd ltac:(fold fd; lia) ltac:(fold fd; lia) C1 F1) as EE.
  assert (ST : Bool.reflect (s_stop L a b) (stop_test q lb ub (size_of (q_metric q) (q_fdim q) (fun i => s_fine a b i - s_coarse a b i))
               (Rmax (q_relTol q * size_of (q_metric q) (q_fdim q) (s_coarse a b)) (q_absTol q)) L))
    by exact (stop_test_spec q lb ub L s_coarse s_fine a b Hm1).
  destruct (add_fine_ok q w1 res (s_fine a b) ltac:(fold fd; lia) Lr F1) as (res1 & E2 & Lr1 & R1).
  assert (Ea1 : rd w1 (as_start fd L) = a) by (rewrite (proj2 K1) by lia; auto).
  assert (Eb1 : rd w1 (as_start fd L + 1) = b) by (rewrite (proj2 K1) by lia; auto).
  assert (LEAF : s_stop L a b -> exists T ws' res', refined s_stop T L a b /\ keeps (as_start fd L + 2) ws ws' /\ length res' = length res /\
    (forall i, (i < fd)%nat -> rd res' i = rd res i + over_leaves (fun l r => s_fine l r i) (leaves T L a b)) /\
    forall fuel, as_loop q f lb ub (tsize T + fuel) ws res L sg (as_start fd L) lv mv rv = as_next fuel ws' res' L sg).
  { intros HS; exists Leaf, w1, res1; (split; [exact HS|]); (split; [exact K1|]); (split; [exact Lr1|]); split;
    [intros i Hi; rewrite R1 by auto; cbn [leaves]; unfold over_leaves; cbn; ring|
     intros fuel; cbn [tsize Nat.add as_loop]; fold fd; rewrite E1; cbn [obind]; rewrite EE; cbn [obind];
     rewrite !get_ok by lia; cbn [obind fst snd]; destruct ST as [_|NS]; [|contradiction]; rewrite E2; reflexivity]. }
  destruct (Bool.reflect_dec _ _ ST) as [HS|NS]; [apply LEAF, HS|].
  assert (Hn : n <> 0%nat) by (intros ->; apply NS; left; split; [right; lia|lia]).
  destruct n as [|n]; [lia|]. specialize (IH n ltac:(lia)).
  clear LEAF E2 R1 Lr1 res1.
  pose proof (start_S L) as SS. pose proof (start_room (S L) ltac:(lia)) as Room'.
  destruct (set_ok w1 (as_start fd (S L)) a) as (w2 & E2 & L2 & V2 & O2); [lia|].
  destruct (set_ok w2 (as_start fd (S L) + 1) ((a + b) / 2)) as (w3 & E3 & L3 & V3 & O3); [lia|].
  assert (K3 : keeps (as_start fd (S L)) w1 w3).
  { split; [congruence|]. intros j Hj _. rewrite O3, O2 by lia. reflexivity. }
  assert (Huv2 : as_UpdateValues fd (S L) sg = Ok (lv, (as_start fd L + 2)%nat, mv)).
  { rewrite uv_S, Huv. cbn [obind]. rewrite seg_bit_ok by lia. cbn [obind].
    change (N.testbit sg (N.of_nat (L + 1))) with (bit sg (L + 1)). rewrite Hsg by lia. reflexivity. }
  assert (KW : forall p x, low (as_start fd L) p -> holds ws p x -> holds w3 p x).
  { intros p x Hp Hh. apply (keeps_holds (as_start fd (S L)) w1 w3); auto; [lia|unfold low in *; lia|].
    apply (keeps_holds (as_start fd L + 2) ws w1); auto; [lia|unfold low in *; lia]. }
  destruct (IH (S L) a ((a + b) / 2) sg lv (as_start fd L + 2)%nat mv w3 res) as (T1 & w4 & r4 & RF1 & K4 & Lr4 & R4 & RUN1); auto.
  { lia. } { congruence. } { intros k Hk. apply Hsg. lia. } { rewrite O3 by lia. auto. }
  { apply (keeps_holds (as_start fd (S L)) w1 w3); auto; [lia|unfold low; lia]. }
  assert (L4 : length w4 = length ws) by (destruct K4 as [K4 _]; congruence).
  assert (Ea4 : rd w4 (as_start fd L) = a) by (rewrite (proj2 K4), (proj2 K3) by lia; auto).
  assert (Eb4 : rd w4 (as_start fd L + 1) = b) by (rewrite (proj2 K4), (proj2 K3) by lia; auto).
  destruct (set_ok w4 (as_start fd (S L)) ((a + b) / 2)) as (w5 & E5 & L5 & V5 & O5); [lia|].
  destruct (set_ok w5 (as_start fd (S L) + 1) b) as (w6 & E6 & L6 & V6 & O6); [lia|].
  assert (K6 : keeps (as_start fd (S L)) w4 w6).
  { split; [congruence|]. intros j Hj _. rewrite O6, O5 by lia. reflexivity. }
  set (sg' := set_bit sg (S L)).
  assert (Bs : forall k, bit sg' k = (bit sg k || (k =? S L)%nat)%bool) by (intros; apply bit_set).
  assert (Huv3 : as_UpdateValues fd (S L) sg' = Ok (mv, (as_start fd L + 2 + fd)%nat, rv)).
  { rewrite uv_S. rewrite (uv_bits L sg' sg); [|lia|intros k Hk; rewrite Bs; destruct (Nat.eqb_spec k (S L)); [lia|apply orb_false_r]].
    rewrite Huv. cbn [obind]. rewrite seg_bit_ok by lia. cbn [obind].
    change (N.testbit sg' (N.of_nat (L + 1))) with (bit sg' (L + 1)). rewrite Bs.
    replace (L + 1)%nat with (S L) by lia. rewrite Nat.eqb_refl, orb_true_r. reflexivity. }
  assert (KW2 : forall p x, low (as_start fd (S L)) p -> holds w3 p x -> holds w6 p x).
  { intros p x Hp Hh. apply (keeps_holds (as_start fd (S L)) w4 w6); auto; [lia|].
    apply (keeps_holds (as_start fd (S L) + 2) w3 w4); auto; [lia|unfold low in *; lia]. }
  destruct (IH (S L) ((a + b) / 2) b sg' mv (as_start fd L + 2 + fd)%nat rv w6 r4) as (T2 & w7 & r7 & RF2 & K7 & Lr7 & R7 & RUN2); auto.
  { lia. } { lia. } { lia. }
  { intros k Hk. rewrite Bs. rewrite Hsg by lia. destruct (Nat.eqb_spec k (S L)); [lia|reflexivity]. }
  { rewrite O6 by lia. auto. }
  { apply KW2; [unfold low in *; lia|]. apply KW; auto. }
  { apply KW2; [unfold low; lia|]. apply (keeps_holds (as_start fd (S L)) w1 w3); auto; [lia|unfold low; lia]. }
  { apply KW2; [unfold low in *; lia|]. apply KW; auto. }
  exists (Node T1 T2), w7, r7. split; [cbn [refined]; auto|]. split; [|split; [lia|split]].
  - apply keeps_trans with w1; auto. apply keeps_trans with w3; [apply (keeps_less _ (as_start fd (S L))); auto; lia|].
    apply keeps_trans with w4; [apply (keeps_less _ (as_start fd (S L) + 2)); auto; lia|].
    apply keeps_trans with w6; [apply (keeps_less _ (as_start fd (S L))); auto; lia|].
    apply (keeps_less _ (as_start fd (S L) + 2)); auto; lia.
  - intros i Hi. rewrite R7, R4 by auto. cbn [leaves]. rewrite over_leaves_app. ring.
  - intros fuel. cbn [tsize]. replace (S (tsize T1 + tsize T2) + fuel)%nat with (S (tsize T1 + (tsize T2 + fuel))) by lia.
    cbn [as_loop]. fold fd. rewrite E1. cbn [obind]. rewrite EE. cbn [obind]. rewrite !get_ok by lia. cbn [obind fst snd].
    destruct ST as [HS|_]; [contradiction|].
    rewrite Ea1, Eb1, half. rewrite E2. cbn [obind]. rewrite E3. cbn [obind]. rewrite RUN1. unfold as_next at 1.
    rewrite (climb_stop sg (S L)); [|lia|right; apply Hsg; lia]. cbn [obind fst snd Nat.eqb].
    replace (S L - 1)%nat with L by lia. fold (set_bit sg (S L)). fold sg'. rewrite !get_ok by lia. cbn [obind]. rewrite Ea4, Eb4, half.
    rewrite E5. cbn [obind]. rewrite get_ok by lia. cbn [obind].
    assert (X : rd w5 (as_start fd L + 1) = b) by (rewrite O5 by lia; auto). rewrite X, E6. cbn [obind]. rewrite Huv3. cbn [obind].
    rewrite RUN2. unfold as_next. rewrite climb_up; [|lia|rewrite Bs, Nat.eqb_refl; apply orb_true_r].
    unfold sg'. rewrite clear_set by (apply Hsg; lia). reflexivity.
Qed.

Lemma simpson_run ws res fuel : (as_WorkspaceSize (q_maxSub q) fd <= length ws)%nat -> (fd <= length res)%nat -> (2 ^ q_maxSub q <= fuel)%nat ->
  exists T res', refined s_stop T 0 lb ub /\ as_Integrate q fuel ws f lb ub res = Ok res' /\ length res' = length res /\
    forall i, (i < fd)%nat -> rd res' i = over_leaves (fun l r => s_fine l r i) (leaves T 0 lb ub).
Proof.
  intros Lw Lr Hfuel. unfold as_Integrate. fold fd. pose proof (start_room 0 ltac:(lia)) as Room. rewrite start_0 in Room.
  destruct (zero_res fd res Lr) as (r0 & E0 & Lr0 & Z0). rewrite E0. cbn [obind].
  destruct (store_ok ws 0 (f lb)) as (w1 & E1 & L1 & I1 & O1); [rewrite Hf; lia|]. rewrite Hf in I1, O1. rewrite E1. cbn [obind].
  destruct (store_ok w1 fd (f ub)) as (w2 & E2 & L2 & I2 & O2); [rewrite Hf; lia|]. rewrite Hf in I2, O2. rewrite E2. cbn [obind].
  rewrite half.
  destruct (store_ok w2 (2 * fd) (f ((lb + ub) / 2))) as (w3 & E3 & L3 & I3 & O3); [rewrite Hf; lia|]. rewrite Hf in I3, O3. rewrite E3. cbn [obind].
  destruct (set_ok w3 (5 * fd) lb) as (w4 & E4 & L4 & V4 & O4); [lia|]. rewrite E4. cbn [obind].
  destruct (set_ok w4 (5 * fd + 1) ub) as (w5 & E5 & L5 & V5 & O5); [lia|]. rewrite E5. cbn [obind].
  destruct (subtree (q_maxSub q - 1) 0 lb ub 0%N 0%nat (2 * fd)%nat fd w5 r0) as (T & w' & r' & RF & _ & Lr' & R' & RUN).
  - lia.
  - lia.
  - lia.
  - intros k _. unfold bit. apply N.bits_0.
  - reflexivity.
  - rewrite start_0, O5 by lia. auto.
  - rewrite start_0. auto.
  - intros i Hi. cbn [Nat.add]. rewrite O5, O4, O3, O2 by lia. pose proof (I1 i Hi) as X. cbn [Nat.add] in X. rewrite X. reflexivity.
  - intros i Hi. rewrite O5, O4, I3 by lia. reflexivity.
  - intros i Hi. rewrite O5, O4, O3, I2 by lia. reflexivity.
  - exists T, r'. split; [auto|]. split; [|split; [lia|]].
    + pose proof (tsize_bound s_stop T 0 lb ub (q_maxSub q) ltac:(lia)) as B. rewrite Nat.sub_0_r in B.
      assert (HT : (tsize T < 2 ^ q_maxSub q)%nat) by (apply B; auto; intros d x y Hd; left; split; [right; auto|lia]).
      specialize (RUN (fuel - tsize T)%nat). replace (tsize T + (fuel - tsize T))%nat with fuel in RUN by lia.
      rewrite start_0 in RUN. rewrite RUN. unfold as_next. rewrite climb_stop by (auto; lia). reflexivity.
    + intros i Hi. rewrite R', Z0 by auto. ring.
Qed.
End Simpson.
