(** Any interleaving of confined work items computes what each computes alone. *)
From Coq Require Import Reals ZArith NArith.
From Verif Require Import Base SchedModel.

(** A program run alone on thread [s]. *)
Fixpoint solo (z : sizes) (s : nat) (p : prog) (m : mem) : option mem :=
  match p with
  | Done => Some m
  | Rd a k => match resolve z s a with Some c => solo z s (k (m c)) m | None => None end
  | WrOut i j v p => match resolve z s (AOut i j) with Some c => solo z s p (set_cell m c v) | None => None end
  | WrScr k v p => match resolve z s (AScr k) with Some c => solo z s p (set_cell m c v) | None => None end
  | Bad => None
  end.

(** Only column [j] of the matrices is used, and at most [n] accesses are made. *)
Definition of_column (j : nat) (a : access) : Prop := match a with APt _ j' | ASens _ j' | AOut _ j' => j' = j | _ => True end.
Fixpoint confined (j n : nat) (p : prog) : Prop :=
  match p, n with
  | Rd a k, S n => of_column j a /\ forall v, confined j n (k v)
  | WrOut _ j' _ p, S n => j' = j /\ confined j n p
  | WrScr _ _ p, S n => confined j n p
  | Done, _ | Bad, _ => True
  | _, O => False
  end.

(** Cells that an item of column [j] on thread [s] may read. *)
Definition seen (s j : nat) (c : cell) : Prop :=
  match c with CPt _ j' | CSens _ j' | COut _ j' => j' = j | CCo _ => True | CScr s' _ => s' = s end.
Lemma resolve_seen z s j a c : of_column j a -> resolve z s a = Some c -> seen s j c.
Proof.
  intros H E. destruct a; cbn in E, H; [destruct (_ && _)|destruct (_ <? _)|destruct (_ && _)|destruct (_ && _)|destruct (_ <? _)]; try discriminate; injection E as <-; cbn; auto.
Qed.
Lemma set_same m c v : set_cell m c v c = v.
Proof. unfold set_cell. destruct (cell_eq c c); congruence. Qed.
Lemma set_other m c v x : x <> c -> set_cell m c v x = m x.
Proof. unfold set_cell. destruct (cell_eq x c); congruence. Qed.
Lemma solo_agree z s j : forall p n m1 m2 r, confined j n p -> (forall c, seen s j c -> m1 c = m2 c) -> solo z s p m1 = Some r ->
  exists r2, solo z s p m2 = Some r2 /\ forall c, seen s j c -> r c = r2 c.
Proof.
  induction p as [|a k IH|i j' v p IH|k v p IH|]; intros n m1 m2 r C A H; cbn [solo] in *.
  - injection H as <-. eauto.
  - destruct n as [|n]; [destruct C|]. destruct C as (C1 & C2). destruct (resolve z s a) as [c|] eqn:E; [|discriminate].
    rewrite <- (A c) by (eapply resolve_seen; eauto). eapply IH; eauto.
  - destruct n as [|n]; [destruct C|]. destruct C as (C1 & C2). destruct (resolve z s (AOut i j')) as [c|] eqn:E; [|discriminate].
    refine (IH n _ _ r _ _ H); [tauto|]. intros x X. unfold set_cell. destruct (cell_eq x c); auto.
  - destruct n as [|n]; [destruct C|]. destruct (resolve z s (AScr k)) as [c|] eqn:E; [|discriminate].
    refine (IH n _ _ r _ _ H); [tauto|]. intros x X. unfold set_cell. destruct (cell_eq x c); auto.
  - discriminate.
Qed.

(** What a thread of column [j] writes is its own scratch or an output of its column, so seen by no other. *)
Lemma written_out z s i j c : resolve z s (AOut i j) = Some c -> c = COut i j.
Proof. cbn. destruct (_ && _); congruence. Qed.
Lemma written_scr z s k c : resolve z s (AScr k) = Some c -> c = CScr s k.
Proof. cbn. destruct (_ <? _); congruence. Qed.

Section Run.
Variables (L : loop) (P : nat) (m0 : mem) (bound : nat) (want : nat -> nat -> R).
Let z := lp_sz L.
Let col := lp_col L.
Let np := sz_pts z.
Hypothesis HND : NoDup (lp_items L).
Hypothesis Hinj : forall a b, In a (lp_items L) -> In b (lp_items L) -> col a < np -> col a = col b -> a = b.
Hypothesis Hconf : forall j, j < np -> confined j bound (lp_body L j).
(** Run alone, from memory that agrees with the initial one except for scratch, the work for a point ends and leaves [want] in its column. *)
Hypothesis Hsolo : forall j s m, j < np -> (forall c, seen s j c -> (match c with CScr _ _ => False | _ => True end) -> m c = m0 c) ->
  exists r, solo z s (lp_body L j) m = Some r /\ forall i, i < sz_out z -> r (COut i j) = want i j.

(** Number of accesses left: items not started count in full. *)
Definition item_ok (m : mem) (s : nat) (it : item) (p : prog) : Prop :=
  In it (lp_items L) /\
  if col it <? np then exists n, n <= bound /\ confined (col it) n p /\ exists r, solo z s p m = Some r /\ forall i, i < sz_out z -> r (COut i (col it)) = want i (col it)
  else p = Done.
Record inv (st : state) : Prop := {
  i_nodup : NoDup (st_pend st);
  i_items : forall it, In it (st_pend st) -> In it (lp_items L);
  i_inputs : forall c, match c with CPt _ _ | CCo _ | CSens _ _ => st_mem st c = m0 c | _ => True end;
  i_idle : forall s, P <= s -> st_run st s = None;
  i_run : forall s it p, st_run st s = Some (it, p) -> item_ok (st_mem st) s it p /\ ~ In it (st_pend st);
  i_once : forall s s' it p p', st_run st s = Some (it, p) -> st_run st s' = Some (it, p') -> s = s';
  i_pend : forall it i, In it (st_pend st) -> col it < np -> st_mem st (COut i (col it)) = m0 (COut i (col it));
  i_done : forall it i, In it (lp_items L) -> ~ In it (st_pend st) -> (forall s p, st_run st s <> Some (it, p)) -> col it < np -> i < sz_out z -> st_mem st (COut i (col it)) = want i (col it);
  i_other : forall i j, (forall it, In it (lp_items L) -> col it <> j) -> st_mem st (COut i j) = m0 (COut i j) }.

Lemma inv_start : inv (start L m0).
Proof.
  constructor; cbn; auto; try discriminate.
  - intros []; auto.
  - intros it i H1 H2. contradiction.
Qed.

Lemma set_run_same r s x : set_run r s x s = x.
Proof. unfold set_run. rewrite Nat.eqb_refl. reflexivity. Qed.
Lemma set_run_other r s x k : k <> s -> set_run r s x k = r k.
Proof. unfold set_run. destruct (Nat.eqb_spec k s); congruence. Qed.

(** An item on thread [s] makes progress to [p'], writing (if anything) its own scratch or its own output column. *)
Definition own (s : nat) (it : item) (c : cell) : Prop := match c with CScr s' _ => s' = s | COut _ j => j = col it /\ col it < np | _ => False end.
Lemma inv_progress m r pd s it p p' m' :
  inv (MkSt m r pd) -> r s = Some (it, p) -> (forall c, m' c <> m c -> own s it c) -> item_ok m' s it p' -> inv (MkSt m' (set_run r s (Some (it, p'))) pd).
Proof.
  intros I Hr W K. pose proof (i_run _ I s it p Hr) as ((Kin & _) & Knp). cbn [st_pend] in Knp.
  assert (Ws : forall c, ~ own s it c -> m' c = m c). { intros c O. destruct (Req_EM_T (m' c) (m c)) as [E|E]; auto. destruct (O (W c E)). }
  assert (Hout : forall it2 i, In it2 (lp_items L) -> it2 <> it -> m' (COut i (col it2)) = m (COut i (col it2))).
  { intros it2 i H2 N. apply Ws. cbn. intros (E & B). apply N. symmetry. apply Hinj; auto. }
  constructor; cbn [st_mem st_run st_pend].
  - apply (i_nodup _ I).
  - apply (i_items _ I).
  - intros c. pose proof (i_inputs _ I c) as J. cbn [st_mem] in J. destruct c; auto; rewrite Ws; auto.
  - intros k Hk. rewrite set_run_other; [apply (i_idle _ I); auto|]. intros ->. pose proof (i_idle _ I s Hk) as J. cbn [st_run] in J. congruence.
  - intros k it2 p2 H2. destruct (Nat.eq_dec k s) as [->|N].
    + rewrite set_run_same in H2. injection H2 as <- <-. auto.
    + rewrite set_run_other in H2 by auto. destruct (i_run _ I k it2 p2 H2) as ((K1 & K2) & K3). cbn [st_mem st_pend] in *. split; auto. split; auto.
      assert (N2 : it2 <> it) by (intros ->; apply N; eapply (i_once _ I); cbn [st_run]; eauto).
      destruct (Nat.ltb_spec (col it2) np) as [Q|Q]; auto. destruct K2 as (n & K4 & K5 & rr & K6 & K7). exists n. split; auto. split; auto.
      destruct (solo_agree z k (col it2) p2 n m m' rr K5) as (r2 & R1 & R2); auto.
      { intros c Sc. symmetry. apply Ws. destruct c; cbn in Sc |- *; auto. - subst. intros (E & B). apply N2. symmetry; apply Hinj; auto. - congruence. }
      exists r2. split; auto. intros i Hi. rewrite <- R2 by (cbn; auto). auto.
  - intros k k' it2 p2 p2' H1 H2. destruct (Nat.eq_dec k s) as [->|N1], (Nat.eq_dec k' s) as [->|N2]; auto; rewrite ?set_run_same, ?set_run_other in * by auto.
    + injection H1 as <- <-. eapply (i_once _ I); cbn [st_run]; eauto.
    + injection H2 as <- <-. eapply (i_once _ I); cbn [st_run]; eauto.
    + eapply (i_once _ I); cbn [st_run]; eauto.
  - intros it2 i H2 Q. rewrite Hout; [apply (i_pend _ I); auto|apply (i_items _ I); auto|intros ->; auto].
  - intros it2 i H2 Np Nr Q Hi. assert (N2 : it2 <> it). { intros ->. apply (Nr s p'). apply set_run_same. }
    rewrite Hout by auto. apply (i_done _ I); auto. cbn [st_run]. intros k q E. destruct (Nat.eq_dec k s) as [->|N]; [congruence|]. apply (Nr k q). rewrite set_run_other; auto.
  - intros i j H. rewrite Ws; [apply (i_other _ I); auto|]. cbn. intros (E & _). apply (H it); auto.
Qed.

Lemma in_mid (it x : item) l1 l2 : In x (l1 ++ it :: l2) <-> x = it \/ In x (l1 ++ l2).
Proof. rewrite !in_app_iff. cbn. intuition congruence. Qed.

Lemma inv_step a b : step L P a b -> inv a -> inv b.
Proof.
  intros H I. destruct H as [m r s it l1 l2 Hs Hr|m r pd s it a k c Hs Hr Hc|m r pd s it i j v p c Hs Hr Hc|m r pd s it k v p c Hs Hr Hc|m r pd s it Hs Hr].
  - pose proof (i_nodup _ I) as ND. cbn [st_pend] in ND. pose proof (NoDup_remove_2 _ _ _ ND) as NI. pose proof (NoDup_remove_1 _ _ _ ND) as ND1.
    assert (Hit : In it (lp_items L)) by (apply (i_items _ I); cbn; apply in_mid; auto).
    assert (Hnr : forall k q, r k <> Some (it, q)). { intros k q E. destruct (i_run _ I k it q E) as (_ & X). apply X. cbn. apply in_mid; auto. }
    constructor; cbn [st_mem st_run st_pend]; auto.
    + intros x Hx. apply (i_items _ I). cbn. apply in_mid. auto.
    + apply (i_inputs _ I).
    + intros k Hk. rewrite set_run_other by lia. apply (i_idle _ I); auto.
    + intros k it2 p2 H2. destruct (Nat.eq_dec k s) as [->|N].
      * rewrite set_run_same in H2. injection H2 as <- <-. split; auto. split; auto. unfold work. fold z np col. destruct (Nat.ltb_spec (col it) np) as [Q|Q]; auto.
        exists bound. split; auto. split; auto. apply Hsolo; auto. intros c Sc NSc. pose proof (i_inputs _ I c) as J. cbn [st_mem] in J. destruct c; auto; [|destruct NSc].
        cbn in Sc. subst. apply (i_pend _ I); auto. cbn. apply in_mid; auto.
      * rewrite set_run_other in H2 by auto. destruct (i_run _ I k it2 p2 H2) as (K1 & K2). cbn [st_mem st_pend] in *. split; auto. intros X. apply K2. apply in_mid; auto.
    + intros k k' it2 p2 p2' H1 H2. destruct (Nat.eq_dec k s) as [->|N1], (Nat.eq_dec k' s) as [->|N2]; auto; rewrite ?set_run_same, ?set_run_other in * by auto.
      * injection H1 as <- <-. destruct (Hnr _ _ H2).
      * injection H2 as <- <-. destruct (Hnr _ _ H1).
      * eapply (i_once _ I); cbn [st_run]; eauto.
    + intros it2 i H2. apply (i_pend _ I). cbn. apply in_mid; auto.
    + intros it2 i H2 Np Nr. apply (i_done _ I); auto; cbn [st_pend st_run].
      * intros X. apply in_mid in X as [->|X]; auto. apply (Nr s (work L it)). apply set_run_same.
      * intros k q E. destruct (Nat.eq_dec k s) as [->|N]; [congruence|]. apply (Nr k q). rewrite set_run_other; auto.
    + apply (i_other _ I).
  - destruct (i_run _ I s it _ Hr) as ((K1 & K2) & K3). cbn [st_mem] in K2. eapply inv_progress; eauto; [intros c' X; congruence|]. split; auto. destruct (Nat.ltb_spec (col it) np) as [Q|Q]; [|discriminate].
    destruct K2 as ([|n] & K4 & K5 & rr & K6 & K7); [destruct K5|]. destruct K5 as (K5 & K8). exists n. split; [lia|]. split; auto. exists rr. split; auto. cbn [solo] in K6. fold z in Hc. rewrite Hc in K6. exact K6.
  - destruct (i_run _ I s it _ Hr) as ((K1 & K2) & K3). cbn [st_mem] in K2. pose proof (written_out _ _ _ _ _ Hc) as ->. destruct (Nat.ltb_spec (col it) np) as [Q|Q]; [|discriminate].
    destruct K2 as ([|n] & K4 & K5 & rr & K6 & K7); [destruct K5|]. destruct K5 as (K5 & K8). subst j. eapply inv_progress; eauto.
    + intros c X. destruct (cell_eq c (COut i (col it))) as [->|N]; [cbn; auto|]. rewrite set_other in X; congruence.
    + split; auto. destruct (Nat.ltb_spec (col it) np); [|lia]. exists n. split; [lia|]. split; auto. exists rr. split; auto. cbn [solo] in K6. fold z in Hc. rewrite Hc in K6. exact K6.
  - destruct (i_run _ I s it _ Hr) as ((K1 & K2) & K3). cbn [st_mem] in K2. pose proof (written_scr _ _ _ _ Hc) as ->. destruct (Nat.ltb_spec (col it) np) as [Q|Q]; [|discriminate].
    destruct K2 as ([|n] & K4 & K5 & rr & K6 & K7); [destruct K5|]. eapply inv_progress; eauto.
    + intros c X. destruct (cell_eq c (CScr s k)) as [->|N]; [cbn; auto|]. rewrite set_other in X; congruence.
    + split; auto. destruct (Nat.ltb_spec (col it) np); [|lia]. exists n. split; [lia|]. split; auto. exists rr. split; auto. cbn [solo] in K6. fold z in Hc. rewrite Hc in K6. exact K6.
  - destruct (i_run _ I s it _ Hr) as ((K1 & K2) & K3). cbn [st_mem st_pend] in *. constructor; cbn [st_mem st_run st_pend].
    + apply (i_nodup _ I).
    + apply (i_items _ I).
    + apply (i_inputs _ I).
    + intros k Hk. rewrite set_run_other by lia. apply (i_idle _ I); auto.
    + intros k it2 p2 H2. destruct (Nat.eq_dec k s) as [->|N]; [rewrite set_run_same in H2; discriminate|]. rewrite set_run_other in H2 by auto. apply (i_run _ I); auto.
    + intros k k' it2 p2 p2' H1 H2. destruct (Nat.eq_dec k s) as [->|N1]; [rewrite set_run_same in H1; discriminate|]. destruct (Nat.eq_dec k' s) as [->|N2]; [rewrite set_run_same in H2; discriminate|].
      rewrite !set_run_other in * by auto. eapply (i_once _ I); cbn [st_run]; eauto.
    + apply (i_pend _ I).
    + intros it2 i H2 Np Nr Q Hi. destruct (list_eq_dec Nat.eq_dec [fst it2; snd it2] [fst it; snd it]) as [E|E].
      * assert (it2 = it) by (destruct it2, it; cbn in E; congruence). subst it2. destruct (Nat.ltb_spec (col it) np) as [_|]; [|lia]. destruct K2 as (n & _ & _ & rr & K6 & K7). cbn [solo] in K6. injection K6 as <-. auto.
      * apply (i_done _ I); auto. cbn [st_run]. intros k q X. destruct (Nat.eq_dec k s) as [->|N]; [rewrite Hr in X; injection X as <- _; congruence|]. apply (Nr k q). rewrite set_run_other; auto.
    + apply (i_other _ I).
Qed.
Lemma inv_steps n a b : steps L P n a b -> inv a -> inv b.
Proof. induction 1; auto. intros I. eapply inv_step; eauto. Qed.

(** No reachable state is about to fail or to race. *)
Lemma inv_not_failing st : inv st -> ~ failing L P st.
Proof.
  intros I (s & it & p & Hs & Hr & F). destruct (i_run _ I s it p Hr) as ((K1 & K2) & _). destruct (Nat.ltb_spec (col it) np) as [Q|Q]; [|subst p; exact F].
  destruct K2 as (n & _ & K5 & rr & K6 & _). fold z in F. destruct p; cbn [solo] in K6; auto; try (rewrite F in K6; discriminate). discriminate.
Qed.
Lemma next_own st s it p c w : inv st -> st_run st s = Some (it, p) -> next_access z s p = Some (c, w) -> seen s (col it) c /\ (w = true -> own s it c).
Proof.
  intros I Hr N. destruct (i_run _ I s it p Hr) as ((K1 & K2) & _). destruct (Nat.ltb_spec (col it) np) as [Q|Q]; [|subst p; discriminate].
  destruct K2 as ([|n] & _ & K5 & _); destruct p as [|a k|i j v p|k v p|]; try destruct K5; try discriminate; cbn [next_access] in N.
  - destruct (resolve z s a) as [c'|] eqn:E; [|discriminate]. injection N as <- <-. split; [eapply resolve_seen; eauto|discriminate].
  - destruct (resolve z s (AOut i j)) as [c'|] eqn:E; [|discriminate]. injection N as <- <-. pose proof (written_out _ _ _ _ _ E) as ->. subst j. cbn. auto.
  - destruct (resolve z s (AScr k)) as [c'|] eqn:E; [|discriminate]. injection N as <- <-. pose proof (written_scr _ _ _ _ E) as ->. cbn. auto.
Qed.
Lemma inv_not_racing st : inv st -> ~ racing L P st.
Proof.
  intros I (s1 & s2 & it1 & it2 & p1 & p2 & c & w1 & w2 & H1 & H2 & N & R1 & R2 & A1 & A2 & W). fold z in A1, A2.
  assert (Ni : it1 <> it2). { intros ->. apply N. eapply (i_once _ I); eauto. }
  destruct (next_own st s1 it1 p1 c w1 I R1 A1) as (S1 & O1). destruct (next_own st s2 it2 p2 c w2 I R2 A2) as (S2 & O2).
  destruct (i_run _ I s1 it1 p1 R1) as ((K1 & _) & _). destruct (i_run _ I s2 it2 p2 R2) as ((K2 & _) & _).
  destruct w1.
  - specialize (O1 eq_refl). destruct c; cbn in *; try contradiction; [|congruence]. destruct O1 as (-> & B). apply Ni. apply Hinj; auto.
  - cbn in W. subst w2. specialize (O2 eq_refl). destruct c; cbn in *; try contradiction; [|congruence]. destruct O2 as (-> & B). apply Ni. symmetry. apply Hinj; auto.
Qed.
(** Unless all is done, some thread can step. *)
Lemma inv_progresses st : 0 < P -> inv st -> finished P st \/ exists st', step L P st st'.
Proof.
  intros HP I. destruct st as [m r pd].
  assert (D : (forall s, s < P -> r s = None) \/ exists s it p, s < P /\ r s = Some (it, p)).
  { clear I. induction P as [|q IH]; [left; lia|]. destruct (r q) as [[it p]|] eqn:E; [right; exists q, it, p; split; [lia|auto]|].
    destruct q as [|q']; [left; intros s Hs; replace s with 0 by lia; auto|]. destruct IH as [H|(s & it & p & Hs & H)]; [lia| |].
    - left. intros s Hs. destruct (Nat.eq_dec s (S q')) as [->|N]; auto. apply H; lia.
    - right. exists s, it, p. split; [lia|auto]. }
  destruct D as [D|(s & it & p & Hs & Hr)].
  - destruct pd as [|it pd]; [left; split; auto|]. right. eexists. apply (StStart L P m r 0 it [] pd); auto.
  - right. pose proof (inv_not_failing _ I) as NF. destruct p as [|a k|i j v p|k v p|].
    + eexists. eapply StEnd; eauto.
    + destruct (resolve (lp_sz L) s a) as [c|] eqn:E; [eexists; eapply StRead; eauto|]. destruct NF. exists s, it, (Rd a k). auto.
    + destruct (resolve (lp_sz L) s (AOut i j)) as [c|] eqn:E; [eexists; eapply StOut; eauto|]. destruct NF. exists s, it, (WrOut i j v p). auto.
    + destruct (resolve (lp_sz L) s (AScr k)) as [c|] eqn:E; [eexists; eapply StScr; eauto|]. destruct NF. exists s, it, (WrScr k v p). auto.
    + destruct NF. exists s, it, Bad. cbn. auto.
Qed.
End Run.

(** ** Number of steps *)
(** Each item takes one step to start, at most [bound] accesses, and one step to end. *)
Fixpoint total (f : nat -> nat) (n : nat) : nat := match n with O => 0 | S n => total f n + f n end.
Lemma total_ext f g n : (forall k, k < n -> f k = g k) -> total f n = total g n.
Proof. induction n as [|n IH]; cbn; intros H; [reflexivity|]. rewrite IH, H; auto. Qed.
Lemma total_change f g n s : s < n -> (forall k, k <> s -> f k = g k) -> total f n + g s = total g n + f s.
Proof.
  induction n as [|n IH]; intros H E; [lia|]. cbn. destruct (Nat.eq_dec s n) as [->|N].
  - rewrite (total_ext f g n) by (intros; apply E; lia). lia.
  - rewrite (E n) by auto. assert (total f n + g s = total g n + f s) by (apply IH; [lia|auto]). lia.
Qed.
Section Count.
Variables (L : loop) (P bound : nat).
Hypothesis Hconf : forall j, j < sz_pts (lp_sz L) -> confined j bound (lp_body L j).
(** [c s] bounds the steps left to the item of thread [s]. *)
Definition charge (st : state) (c : nat -> nat) : Prop :=
  forall s, match st_run st s with None => c s = 0 | Some (it, p) => exists n, S n = c s /\ confined (lp_col L it) n p end.
Lemma count_step a b c : step L P a b -> charge a c -> exists c', charge b c' /\ length (st_pend b) * (bound + 2) + total c' P < length (st_pend a) * (bound + 2) + total c P.
Proof.
  intros H C.
  assert (G : forall m m' r pd pd' s x new, charge (MkSt m r pd) c -> (match x with None => new = 0 | Some (it, p) => exists n, S n = new /\ confined (lp_col L it) n p end) ->
    charge (MkSt m' (set_run r s x) pd') (fun k => if k =? s then new else c k)).
  { intros m m' r pd pd' s x new C' X k. cbn [st_run]. unfold set_run. destruct (k =? s); auto. specialize (C' k). exact C'. }
  assert (T : forall s new, s < P -> total (fun k => if k =? s then new else c k) P + c s = total c P + new).
  { intros s new Hs. pose proof (total_change (fun k => if k =? s then new else c k) c P s Hs) as E. cbn in E. rewrite Nat.eqb_refl in E. apply E. intros k N. destruct (Nat.eqb_spec k s); congruence. }
  destruct H as [m r s it l1 l2 Hs Hr|m r pd s it a k c' Hs Hr Hc|m r pd s it i j v p c' Hs Hr Hc|m r pd s it k v p c' Hs Hr Hc|m r pd s it Hs Hr]; pose proof (C s) as Cs; cbn [st_run st_pend] in *; rewrite Hr in Cs.
  - exists (fun k => if k =? s then S bound else c k). split.
    + eapply G; eauto. exists bound. split; auto. unfold work. destruct (Nat.ltb_spec (lp_col L it) (sz_pts (lp_sz L))); auto. destruct bound; exact Logic.I.
    + specialize (T s (S bound) Hs). rewrite !app_length. cbn [length]. nia.
  - destruct Cs as ([|n] & E & K); [destruct K|]. exists (fun k => if k =? s then S n else c k). split; [|specialize (T s (S n) Hs); lia]. eapply G; eauto. exists n. split; auto. apply K.
  - destruct Cs as ([|n] & E & K); [destruct K|]. exists (fun k => if k =? s then S n else c k). split; [|specialize (T s (S n) Hs); lia]. eapply G; eauto. exists n. split; auto. apply K.
  - destruct Cs as ([|n] & E & K); [destruct K|]. exists (fun k => if k =? s then S n else c k). split; [|specialize (T s (S n) Hs); lia]. eapply G; eauto.
  - destruct Cs as (n & E & K). exists (fun k => if k =? s then 0 else c k). split; [|specialize (T s 0 Hs); lia]. eapply G; eauto.
Qed.
Lemma count_steps m n st : steps L P n (start L m) st -> n <= length (lp_items L) * (bound + 2).
Proof.
  intros H. assert (X : exists c, charge st c /\ n + length (st_pend st) * (bound + 2) + total c P <= length (lp_items L) * (bound + 2)).
  { remember (start L m) as a eqn:Ea. induction H as [st|n a b c H IH Hst].
    - subst st. exists (fun _ => 0). split; [intros s; cbn; auto|]. cbn. assert (total (fun _ => 0) P = 0) by (clear; induction P; cbn; lia). lia.
    - destruct (IH Ea) as (c0 & C0 & B0). destruct (count_step b c c0 Hst C0) as (c1 & C1 & B1). exists c1. split; auto. lia. }
  destruct X as (c & _ & X). lia.
Qed.
End Count.
