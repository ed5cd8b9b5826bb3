(** Facts about adaptive rules used for C72: results beyond the components are left alone, and a
    fixed tree of intervals is a fixed rule. *)
From Coq Require Import Reals Lra Lia FunctionalExtensionality.
From Coquelicot Require Import Coquelicot.
From Verif Require Import Base SpecMulti SpecPoly SpecExpansion SpecQuad SpecMono SpecAdaptQuad SpecFactory MISetModel FixedSetModel FixedSetProofs PolyModel PolyProofs LinProofs BijModel BijProofs
  ExpansionModel ExpansionProofs ExpansionDeriv PropExpansion QuadModel QuadCC QuadWalk QuadSimpson QuadACC QuadProofs PropQuad RootModel MonoModel MonoProofs MonoComp PropMono FactoryModel PropBuild.
Local Open Scope R_scope.

(** ** Entries beyond the first n *)
Definition tail_kept (n : nat) (a b : list R) : Prop := length a = length b /\ forall i, (n <= i)%nat -> nth i a 0 = nth i b 0.
Lemma kept_refl n a : tail_kept n a a.
Proof. split; auto. Qed.
Lemma kept_trans n a b c : tail_kept n a b -> tail_kept n b c -> tail_kept n a c.
Proof. intros (A1 & A2) (B1 & B2). split; [congruence|]. intros i Hi. rewrite A2 by auto. auto. Qed.
Lemma kept_set n l i x l' : (i < n)%nat -> raw_set l i x = Ok l' -> tail_kept n l l'.
Proof.
  intros Hi. unfold raw_set. destruct (i <? length l)%nat; [|discriminate]. intros E. injection E as <-. split; [now rewrite upd_length|].
  intros j Hj. symmetry. apply nth_upd_neq. lia.
Qed.
Lemma ofold_rel {A B : Type} (P : B -> B -> Prop) (body : B -> A -> outcome B) l :
  (forall s, P s s) -> (forall s t u, P s t -> P t u -> P s u) ->
  (forall s i s', In i l -> body s i = Ok s' -> P s s') -> forall s s', ofold body l s = Ok s' -> P s s'.
Proof.
  intros H0 H1. induction l as [|a l IH]; intros H2 s s'; cbn [ofold]; [intros E; injection E as <-; auto|].
  destruct (body s a) as [t| | |] eqn:E; try discriminate. cbn [obind]. intros E'. apply H1 with t; [apply (H2 s a); [now left|auto]|].
  apply IH; auto. intros. apply (H2 s0 i); [now right|auto].
Qed.
Ltac inv H := match type of H with obind ?e _ = Ok _ => let E := fresh "E" in destruct e eqn:E; try discriminate H; cbn [obind] in H end.

Lemma kept_zero n res r : ofold (fun res i => raw_set res i 0) (seq 0 n) res = Ok r -> tail_kept n res r.
Proof.
  apply ofold_rel; [apply kept_refl|apply kept_trans|]. intros s i s' Hi E. apply in_seq in Hi. apply (kept_set n) in E; auto; lia.
Qed.
Lemma kept_fine q ws res r : add_fine q ws res = Ok r -> tail_kept (q_fdim q) res r.
Proof.
  apply ofold_rel; [apply kept_refl|apply kept_trans|]. intros s i s' Hi E. apply in_seq in Hi. inv E. inv E. apply (kept_set (q_fdim q)) in E; auto; lia.
Qed.
Lemma kept_cc pts wts n ws f lb ub res r : midpoint_tol <= ub - lb -> cc_Integrate pts wts n ws f lb ub res = Ok r -> tail_kept n res r.
Proof.
  intros H. unfold cc_Integrate. destruct (Rltb_spec (ub - lb) midpoint_tol) as [X|_]; [lra|]. intros E. inv E. inv E. injection E as <-.
  eapply kept_trans; [eapply kept_zero; eassumption|].
  match goal with H : ofold _ _ (ws, _) = Ok _ |- _ => apply (ofold_rel (fun a b => tail_kept n (snd a) (snd b))) in H; [exact H|intros; apply kept_refl|intros s t u; apply kept_trans|] end.
  intros s i s' Hi E. inv E. inv E. inv E. injection E as <-. cbn [snd].
  match goal with H : ofold _ _ (snd s) = Ok _ |- _ => revert H end. apply ofold_rel; [apply kept_refl|apply kept_trans|]. intros s0 j s1 Hj E. apply in_seq in Hj. inv E. inv E. inv E. apply (kept_set n) in E; auto; lia.
Qed.
Lemma kept_as_loop q f lb ub fuel : forall ws res level sg st lv mv rv r,
  as_loop q f lb ub fuel ws res level sg st lv mv rv = Ok r -> tail_kept (q_fdim q) res r.
Proof.
  induction fuel as [|fuel IH]; intros ws res level sg st lv mv rv r E; cbn [as_loop] in E; [discriminate|].
  inv E. inv E. inv E. inv E. destruct (stop_test _ _ _ _ _ _).
  - inv E. inv E. eapply kept_trans; [eapply kept_fine; eassumption|]. destruct (fst _ =? 0)%nat; [injection E as <-; apply kept_refl|].
    inv E. inv E. inv E. inv E. inv E. inv E. match type of E with (let '(_, _) := ?u in _) = _ => destruct u as ((? & ?) & ?) end. apply IH in E. auto.
  - inv E. inv E. apply IH in E. auto.
Qed.
Lemma kept_as q fuel ws f lb ub res r : as_Integrate q fuel ws f lb ub res = Ok r -> tail_kept (q_fdim q) res r.
Proof.
  unfold as_Integrate. intros E. inv E. inv E. inv E. inv E. inv E. inv E. eapply kept_trans; [eapply kept_zero; eassumption|].
  apply kept_as_loop in E. auto.
Qed.
Lemma kept_ac_loop q rl f lb ub fuel : forall ws res level sg st lv rv r,
  ac_loop q rl f lb ub fuel ws res level sg st lv rv = Ok r -> tail_kept (q_fdim q) res r.
Proof.
  induction fuel as [|fuel IH]; intros ws res level sg st lv rv r E; cbn [ac_loop] in E; [discriminate|].
  inv E. inv E. inv E. inv E. destruct (stop_test _ _ _ _ _ _).
  - inv E. inv E. eapply kept_trans; [eapply kept_fine; eassumption|]. destruct (fst _ =? 0)%nat; [injection E as <-; apply kept_refl|].
    inv E. inv E. inv E. inv E. inv E. inv E. apply IH in E. auto.
  - inv E. inv E. apply IH in E. auto.
Qed.
Lemma kept_ac q rl fuel ws f lb ub res r : ac_Integrate q rl fuel ws f lb ub res = Ok r -> tail_kept (q_fdim q) res r.
Proof.
  unfold ac_Integrate. intros E. inv E. inv E. inv E. inv E. inv E. eapply kept_trans; [eapply kept_zero; eassumption|].
  apply kept_ac_loop in E. auto.
Qed.

(** ** A tree of intervals as one rule on [-1,1] *)
Section Tree.
Variables (pts wts : list R).
Hypothesis LW : length wts = length pts.
Definition tree_pts (L : list (nat * R * R)) : list R := flat_map (fun p => map (fun t => (snd (fst p) + snd p - 1) + (snd p - snd (fst p)) * t) pts) L.
Definition tree_wts (L : list (nat * R * R)) : list R := flat_map (fun p => map (fun w => (snd p - snd (fst p)) * w) wts) L.

Lemma tree_len L : length (tree_wts L) = length (tree_pts L).
Proof. induction L as [|p L IH]; [reflexivity|]. unfold tree_pts, tree_wts in *. cbn [flat_map]. rewrite !app_length, !map_length, IH, LW. reflexivity. Qed.
Lemma rule_sum_app p1 w1 p2 w2 g : length w1 = length p1 -> rule_sum (p1 ++ p2) (w1 ++ w2) g = rule_sum p1 w1 g + rule_sum p2 w2 g.
Proof.
  intros L. unfold rule_sum. rewrite app_length. rewrite rsum_app. f_equal.
  - apply rsum_ext. intros i Hi. rewrite !app_nth1 by lia. reflexivity.
  - apply rsum_ext. intros i Hi. rewrite !app_nth2 by lia. replace (length p1 + i - length w1)%nat with i by lia. replace (length p1 + i - length p1)%nat with i by lia. reflexivity.
Qed.
Lemma tree_rule L h : over_leaves (fun a b => rule_on pts wts a b h) L = rule_on (tree_pts L) (tree_wts L) 0 1 h.
Proof.
  induction L as [|[[n a] b] L IH].
  - unfold rule_on, rule_sum. cbn. ring.
  - unfold over_leaves in *. cbn [fold_right fst snd]. rewrite IH. unfold tree_pts, tree_wts. cbn [flat_map fst snd].
    unfold rule_on at 3. rewrite rule_sum_app by (rewrite !map_length; auto). rewrite Rmult_plus_distr_l. f_equal.
    unfold rule_on, rule_sum. rewrite map_length. rewrite <- !rsum_scal. apply rsum_ext. intros i Hi.
    rewrite (nth_indep (map (fun w => (b - a) * w) wts) 0 ((b - a) * 0)) by (rewrite map_length; lia). rewrite (map_nth (fun w => (b - a) * w)).
    rewrite (nth_indep (map (fun t => a + b - 1 + (b - a) * t) pts) 0 (a + b - 1 + (b - a) * 0)) by (rewrite map_length; lia).
    rewrite (map_nth (fun t => a + b - 1 + (b - a) * t)).
    replace ((0 + 1) / 2 + (1 - 0) / 2 * (a + b - 1 + (b - a) * nth i pts 0)) with ((a + b) / 2 + (b - a) / 2 * nth i pts 0) by field. field.
Qed.
Lemma tree_sum T d a b : rsum (fun i => nth i wts 0) (length pts) = 2 -> 
  rsum (fun i => nth i (tree_wts (leaves T d a b)) 0) (length (tree_pts (leaves T d a b))) = (b - a) * 2.
Proof.
  intros H.
  assert (K : forall L, rsum (fun i => nth i (tree_wts L) 0) (length (tree_pts L)) = 2 * over_leaves (fun a b => b - a) L).
  { intros L. pose proof (tree_rule L (fun _ => 1)) as E. unfold rule_on at 2 in E. 
    assert (X : rule_sum (tree_pts L) (tree_wts L) (fun _ => 1) = rsum (fun i => nth i (tree_wts L) 0) (length (tree_pts L))) by (unfold rule_sum; apply rsum_ext; intros; ring).
    rewrite X in E. clear X.
    assert (Y : over_leaves (fun a b => rule_on pts wts a b (fun _ => 1)) L = over_leaves (fun a b => b - a) L).
    { clear E. induction L as [|p L IH]; [reflexivity|]. unfold over_leaves in *. cbn [fold_right]. rewrite IH. f_equal. unfold rule_on, rule_sum.
      rewrite (rsum_ext _ (fun i => nth i wts 0)) by (intros; ring). rewrite H. field. }
    rewrite Y in E. lra. }
  rewrite K. clear K. enough (E : over_leaves (fun a b => b - a) (leaves T d a b) = b - a) by (rewrite E; ring).
  revert d a b. induction T as [|l IHl r IHr]; intros d a b; cbn [leaves]; [unfold over_leaves; cbn; ring|].
  rewrite over_leaves_app, IHl, IHr. ring.
Qed.
End Tree.
Lemma simpson2_rule h a b : simpson2 h a b = rule_on [-1; -1/2; 0; 1/2; 1] [1/6; 2/3; 1/3; 2/3; 1/6] a b h.
Proof.
  unfold simpson2, simpson, rule_on, rule_sum. cbn [length rsum nth].
  replace ((a + b) / 2 + (b - a) / 2 * -1) with a by field. replace ((a + b) / 2 + (b - a) / 2 * (-1 / 2)) with ((a + (a + b) / 2) / 2) by field.
  replace ((a + b) / 2 + (b - a) / 2 * 0) with ((a + b) / 2) by field. replace ((a + b) / 2 + (b - a) / 2 * (1 / 2)) with (((a + b) / 2 + b) / 2) by field.
  replace ((a + b) / 2 + (b - a) / 2 * 1) with b by field. field.
Qed.
Lemma simpson_rule h a b : simpson h a b = rule_on [-1; 0; 1] [1/3; 4/3; 1/3] a b h.
Proof.
  unfold simpson, rule_on, rule_sum. cbn [length rsum nth].
  replace ((a + b) / 2 + (b - a) / 2 * -1) with a by field. 
  replace ((a + b) / 2 + (b - a) / 2 * 0) with ((a + b) / 2) by field. 
  replace ((a + b) / 2 + (b - a) / 2 * 1) with b by field. field.
Qed.

(** ** The adaptive rules *)
Definition limits (q : quad) (A : adaptive) (fuel : nat) : Prop :=
  q_metric q = First /\ q_absTol q = a_abs A /\ q_relTol q = a_rel A /\ q_maxSub q = a_max A /\ q_minSub q = a_min A /\
  (1 <= a_max A <= 32)%nat /\ (a_min A < a_max A)%nat /\ (2 ^ a_max A <= fuel)%nat.
(** Q is adaptive Simpson quadrature, or adaptive Clenshaw-Curtis quadrature with 2^level+1 and
    2^(level+1)+1 points, with the tolerances, limits and estimates of A, and the metric that
    looks at the first component. *)
Definition runs_adaptive (Q : quad_rule) (A : adaptive) : Prop :=
  (exists q fuel, Q = qr_simpson q fuel /\ limits q A fuel /\ a_coarse A = simpson /\ a_fine A = simpson2) \/
  (exists q level fuel cp cw fp fw, Q = qr_adaptive_cc q level fuel /\ (1 <= level)%nat /\ limits q A fuel /\
     GetRule (2 ^ level + 1) (repeat 0 (2 ^ level + 1)) (repeat 0 (2 ^ level + 1)) = Ok (cw, cp) /\
     GetRule (2 ^ (level + 1) + 1) (repeat 0 (2 ^ (level + 1) + 1)) (repeat 0 (2 ^ (level + 1) + 1)) = Ok (fw, fp) /\
     a_coarse A = (fun h a b => rule_on cp cw a b h) /\ a_fine A = (fun h a b => rule_on fp fw a b h)).

Lemma refined_ext (P Q : nat -> R -> R -> Prop) : (forall d a b, P d a b <-> Q d a b) -> forall T d a b, refined P T d a b -> refined Q T d a b.
Proof.
  intros H. induction T as [|l IHl r IHr]; intros d a b; cbn [refined]; [apply H|]. intros (A & B & C). rewrite <- H. auto.
Qed.
Lemma tiny : ~ Rabs (1 - 0) < / 10 ^ 14.
Proof. rewrite Rminus_0_r, Rabs_R1. assert (/ 10 ^ 14 <= / 1) by (apply Rinv_le_contravar; [lra|apply pow_R1_Rle; lra]). lra. Qed.

Definition good_rule (p w : list R) : Prop :=
  length w = length p /\ rsum (fun i => nth i w 0) (length p) = 2 /\ forall t, In t p -> -1 <= t <= 1.
Lemma GetRule_cc n w p : (1 <= n)%nat -> GetRule n (repeat 0 n) (repeat 0 n) = Ok (w, p) -> good_rule p w.
Proof.
  intros Hn E. destruct (C26_clenshaw_curtis_rule n (repeat 0 n) (repeat 0 n) Hn (repeat_length _ _) (repeat_length _ _))
    as (wts & pts & E' & L1 & L2 & I & _ & _ & _ & _ & S & _).
  rewrite E in E'. injection E' as <- <-. split; [congruence|]. rewrite L2. split; [auto|].
  intros t Ht. apply (In_nth _ _ 0) in Ht. destruct Ht as (i & Hi & <-). apply I. lia.
Qed.

(** The estimates are fixed rules, and the adaptive rule computes the fine one on the intervals of
    the tree determined by the first component. *)
Lemma stop_halts (A : adaptive) (f : R -> list R) n : forall d a b,
  adaptive_stop First n (a_abs A) (a_rel A) (a_max A) (a_min A) (1 - 0) (fun a b i => a_coarse A (comp f i) a b) (fun a b i => a_fine A (comp f i) a b) d a b
  <-> halts A (comp f 0) d a b.
Proof.
  intros d a b. unfold adaptive_stop, halts, close, gap, allowance. cbn [size_of]. pose proof tiny. tauto.
Qed.

Lemma adaptive_run Q A : runs_adaptive Q A -> exists cp cw fp fw, good_rule cp cw /\ good_rule fp fw /\
  a_coarse A = (fun h a b => rule_on cp cw a b h) /\ a_fine A = (fun h a b => rule_on fp fw a b h) /\
  (forall n, (n <= qr_work Q n)%nat) /\
  forall n (f : R -> list R) ws res, (1 <= n)%nat -> (forall x, length (f x) = n) -> (qr_work Q n <= length ws)%nat -> (n <= length res)%nat ->
  exists T r, qr_int Q n ws f 0 1 res = Ok r /\ tail_kept n res r /\ halved A (comp f 0) T /\
    forall i, (i < n)%nat -> nth i r 0 = rule_on (tree_pts fp (leaves T 0 0 1)) (tree_wts fw (leaves T 0 0 1)) 0 1 (comp f i).
Proof.
  intros [(q & fuel & -> & (M1 & M2 & M3 & M4 & M5 & M6 & M7 & M8) & EC & EF)|(q & level & fuel & cp & cw & fp & fw & -> & Hl & (M1 & M2 & M3 & M4 & M5 & M6 & M7 & M8) & R1 & R2 & EC & EF)].
  - exists [-1; 0; 1], [1/3; 4/3; 1/3], [-1; -1/2; 0; 1/2; 1], [1/6; 2/3; 1/3; 2/3; 1/6].
    assert (F : a_fine A = (fun h a b => rule_on [-1; -1/2; 0; 1/2; 1] [1/6; 2/3; 1/3; 2/3; 1/6] a b h)).
    { rewrite EF. apply functional_extensionality; intros h. apply functional_extensionality; intros a. apply functional_extensionality; intros b. apply simpson2_rule. }
    assert (K : a_coarse A = (fun h a b => rule_on [-1; 0; 1] [1/3; 4/3; 1/3] a b h)).
    { rewrite EC. apply functional_extensionality; intros h. apply functional_extensionality; intros a. apply functional_extensionality; intros b. apply simpson_rule. }
    split; [split; [reflexivity|split; [cbn; field|intros t [<-|[<-|[<-|[]]]]; lra]]|].
    split; [split; [reflexivity|split; [cbn; field|intros t [<-|[<-|[<-|[<-|[<-|[]]]]]]; lra]]|]. split; [auto|]. split; [auto|].
    split; [intros n; cbn [qr_simpson qr_work]; unfold as_WorkspaceSize; nia|].
    intros n f ws res Hn Hf Lw Lr. cbn [qr_simpson qr_work qr_int] in *.
    destruct (C27_adaptive_simpson (set_dim q n) f 0 1 ws res fuel) as (T & r & E & L & V & _ & _ & RF); cbn [set_dim q_fdim q_maxSub q_minSub]; rewrite ?M4, ?M5; auto; try lia.
    { rewrite <- M4. auto. }
    exists T, r. split; [auto|]. split; [apply kept_as in E; exact E|]. split.
    + eapply refined_ext; [|exact RF]. intros d a b. cbn [set_dim q_metric q_fdim q_absTol q_relTol q_maxSub q_minSub]. rewrite <- (stop_halts A f n).
      rewrite M1, M2, M3, M4, M5, EC, EF. reflexivity.
    + intros i Hi. rewrite V by auto. rewrite <- tree_rule by reflexivity. change (fun a b => rule_on ?p ?w a b (comp f i)) with ((fun h (a b : R) => rule_on p w a b h) (comp f i)).
      rewrite <- F, EF. reflexivity.
  - exists cp, cw, fp, fw. split; [apply GetRule_cc in R1; [exact R1|lia]|]. split; [apply GetRule_cc in R2; [exact R2|lia]|].
    split; [auto|]. split; [auto|].
    split; [intros n; cbn [qr_adaptive_cc qr_work]; unfold ac_WorkspaceSize; nia|].
    intros n f ws res Hn Hf Lw Lr. cbn [qr_adaptive_cc qr_work qr_int] in *.
    destruct (C28_adaptive_clenshaw_curtis level (set_dim q n) f 0 1 ws res fuel) as (cw' & cp' & fw' & fp' & T & r & R1' & R2' & E & L & V & _ & _ & RF);
      cbn [set_dim q_fdim q_maxSub q_minSub]; rewrite ?M4, ?M5; auto; try lia.
    { rewrite <- M4. auto. }
    rewrite R1 in R1'. rewrite R2 in R2'. injection R1' as <- <-. injection R2' as <- <-.
    exists T, r. split; [auto|]. split.
    { destruct (ac_make level); try discriminate. cbn [obind] in E. apply kept_ac in E. exact E. }
    split.
    + eapply refined_ext; [|exact RF]. intros d a b. cbn [set_dim q_metric q_fdim q_absTol q_relTol q_maxSub q_minSub]. rewrite <- (stop_halts A f n).
      rewrite M1, M2, M3, M4, M5, EC, EF. reflexivity.
    + intros i Hi. rewrite V by auto. rewrite <- tree_rule by (apply GetRule_cc in R2; [apply R2|lia]). reflexivity.
Qed.

(** On one integrand the adaptive rule does what a fixed rule does. *)
Lemma as_fixed Q A : runs_adaptive Q A -> exists cp cw fp fw, good_rule cp cw /\ good_rule fp fw /\
  a_coarse A = (fun h a b => rule_on cp cw a b h) /\ a_fine A = (fun h a b => rule_on fp fw a b h) /\
  (forall n, (n <= qr_work Q n)%nat) /\ forall h, exists T, halved A h T /\
  forall n (f : R -> list R) ws res, (1 <= n)%nat -> (forall x, length (f x) = n) -> (qr_work Q n <= length ws)%nat -> (n <= length res)%nat -> comp f 0 = h ->
    qr_int Q n ws f 0 1 res = qr_int (qr_clenshaw (tree_pts fp (leaves T 0 0 1)) (tree_wts fw (leaves T 0 0 1))) n ws f 0 1 res.
Proof.
  intros HQ. destruct (adaptive_run Q A HQ) as (cp & cw & fp & fw & G1 & G2 & E1 & E2 & HW & Run). exists cp, cw, fp, fw. do 5 (split; [assumption|]).
  intros h. destruct (Run 1%nat (fun s => [h s]) (repeat 0 (qr_work Q 1)) [0]) as (T & _ & _ & _ & HT & _); auto. { rewrite repeat_length. auto. }
  change (comp (fun s => [h s]) 0) with h in HT. exists T. split; [auto|]. intros n f ws res Hn Hf Lw Lr Eh.
  destruct (Run n f ws res Hn Hf Lw Lr) as (T' & r & E & (K1 & K2) & H' & V). rewrite Eh in H'.
  assert (T' = T) as -> by (eapply refined_unique; eauto).
  destruct (cc_run (tree_pts fp (leaves T 0 0 1)) (tree_wts fw (leaves T 0 0 1)) (tree_len fp fw (proj1 G2) _) f n ws res) as (r' & E' & L' & V'); auto. { specialize (HW n). lia. }
  rewrite E, E'. f_equal. cbn [qr_clenshaw qr_int] in E'. pose proof (kept_cc _ _ _ _ _ _ _ _ _ tol1 E') as (K1' & K2').
  apply (nth_ext _ _ 0 0); [congruence|]. intros i _. destruct (Nat.lt_ge_cases i n) as [Hi|Hi].
  - rewrite V, V' by auto. reflexivity.
  - rewrite <- K2, <- K2' by auto. reflexivity.
Qed.

(** ** Components *)
Definition with_rule (C : component) (p w : list R) : component := MkMC (mc_w C) (mc_G C) (qr_clenshaw p w) (mc_cont C) (mc_nugget C).

(** The workspace is as large as the rule demands for n results. *)
Definition scratch_fits (C : component) (n : nat) (S : scratch) : Prop :=
  length (sc_cache S) = w_CacheSize (mc_w C) /\ (n <= length (sc_res S))%nat /\ (n <= length (sc_ws S))%nat /\
  forall m, (m <= n)%nat -> (qr_work (mc_Q C) m <= length (sc_ws S))%nat.

Section Transfer.
Variables (d N : nat) (alphas : list vec) (v dv d2 : nat -> R -> R) (C : component) (A : adaptive).
Hypothesis HE : expansion_of d N alphas v dv d2 (mc_w C).
Hypothesis HQ : runs_adaptive (mc_Q C) A.
Notation g := (pf_eval (mc_G C)).

Lemma transfer (pt c : list R) : length pt = d -> length c = length alphas ->
  exists cp cw fp fw, good_rule cp cw /\ good_rule fp fw /\
    a_coarse A = (fun h a b => rule_on cp cw a b h) /\ a_fine A = (fun h a b => rule_on fp fw a b h) /\
  (exists T, halved A (mono_integrand g v alphas 0 c pt) T /\
     forall S, scratch_fits C 1 S -> mc_Evaluate C S pt c = mc_Evaluate (with_rule C (tree_pts fp (leaves T 0 0 1)) (tree_wts fw (leaves T 0 0 1))) S pt c) /\
  (exists T, halved A (mono_integrand g v alphas (mc_nugget C) c pt) T /\
     let C' := with_rule C (tree_pts fp (leaves T 0 0 1)) (tree_wts fw (leaves T 0 0 1)) in
     (forall S, scratch_fits C 2 S -> mc_DiscreteDerivative C S pt c = mc_DiscreteDerivative C' S pt c) /\
     (forall S out, scratch_fits C (1 + length alphas) S -> mc_CoeffJacobian C S pt c out = mc_CoeffJacobian C' S pt c out) /\
     (forall S out, scratch_fits C (1 + d) S -> mc_InputJacobian C S pt c out = mc_InputJacobian C' S pt c out) /\
     (forall S out, scratch_fits C (1 + length alphas) S -> (length alphas <= length (sc_work S))%nat -> mc_DiscreteMixedJacobian C S pt c out = mc_DiscreteMixedJacobian C' S pt c out)).
Proof.
  intros Lp Lc. destruct (as_fixed _ _ HQ) as (cp & cw & fp & fw & G1 & G2 & E1 & E2 & HW & K). exists cp, cw, fp, fw. do 4 (split; [assumption|]).
  destruct (expansion_setup _ _ _ _ _ _ _ HE) as (mx & B & EW & Hd & M1 & M2 & B0 & B1 & B2 & B3 & M3 & M4 & Rm).
  split.
  - destruct (K (mono_integrand g v alphas 0 c pt)) as (T & HT & R). exists T. split; [auto|]. intros S (Lca & L1 & L2 & L3).
    unfold mc_Evaluate, with_rule. cbn [mc_w]. rewrite EW.
    destruct (pre_fill1 d N alphas mx B v dv Hd M1 M2 B0 B1 DNone (sc_cache S) pt (Rm _ Lca) Lp) as (c1 & E & P). rewrite E. cbn [obind].
    change (wdim (the_worker d alphas mx B)) with d. rewrite (raw_get_ok pt _ 0) by lia. cbn [obind].
    unfold mc_EvaluateSingle, mi_integrate. cbn [mc_w mc_G mc_Q]. rewrite EW.
    assert (Fo : forall s, mi_fun (the_worker d alphas mx B) (mc_G C) pt (nth (d - 1) pt 0) c DNone 0 c1 [] s = mi_out d alphas v dv d2 (mc_G C) (nth (d - 1) pt 0) 0 c (upd pt (d - 1) (s * nth (d - 1) pt 0)) s DNone)
      by (intros s; apply (mi_fun_ok d N alphas mx B v dv d2 (mc_G C)); auto; [left; reflexivity|discriminate]).
    rewrite (R (mi_size (the_worker d alphas mx B) (length pt) DNone)); auto.
    + intros s. rewrite Fo. reflexivity.
    + apply functional_extensionality. intros s. unfold comp. rewrite Fo. rewrite (out_integ d N alphas mx v dv d2 (mc_G C) Hd M1 B3 M4) by auto.
      change (nth (d - 1) pt 0) with (coord pt (d - 1)). rewrite (with_last_same d mx Hd M1) by auto. reflexivity.
  - destruct (K (mono_integrand g v alphas (mc_nugget C) c pt)) as (T & HT & R). exists T. split; [auto|]. intros C'.
    assert (RunE : forall S cache t, allowed t -> pre d mx v dv (is_in t) cache pt -> (t = DMixed -> length alphas <= length (sc_work S))%nat ->
      scratch_fits C (mi_size (the_worker d alphas mx B) d t) S -> mi_run C S cache pt c t = mi_run C' S cache pt c t).
    { intros S cache t Ht P Lk (Lca & L1 & L2 & L3). unfold mi_run, C', with_rule, mi_integrate. cbn [mc_w mc_G mc_Q mc_nugget]. rewrite (last_get d mx Hd M1) by auto. cbn [obind]. rewrite EW.
      set (xd := coord pt (d - 1)).
      assert (Fo : forall s, mi_fun (the_worker d alphas mx B) (mc_G C) pt xd c t (mc_nugget C) cache (sc_work S) s = mi_out d alphas v dv d2 (mc_G C) xd (mc_nugget C) c (upd pt (d - 1) (s * xd)) s t)
        by (intros s; apply (mi_fun_ok d N alphas mx B v dv d2 (mc_G C)); auto).
      rewrite Lp. rewrite (R (mi_size (the_worker d alphas mx B) d t)); auto.
      - destruct t; cbn [mi_size]; lia.
      - intros s. rewrite Fo. destruct (mi_size_out d alphas mx B v dv d2 (mc_G C) xd (mc_nugget C) c (upd pt (d - 1) (s * xd)) s t) as [|Hm]; auto.
        subst t. destruct Ht as [Z|[Z|[Z|[Z|[Z|[]]]]]]; discriminate.
      - apply functional_extensionality. intros s. unfold comp. rewrite Fo. rewrite (out_integ d N alphas mx v dv d2 (mc_G C) Hd M1 B3 M4) by auto.
        unfold xd. rewrite (with_last_same d mx Hd M1) by auto. reflexivity. }
    split; [|split; [|split]].
    + intros S HS. unfold mc_DiscreteDerivative. change (mc_w C') with (mc_w C). rewrite EW.
      destruct (pre_fill1 d N alphas mx B v dv Hd M1 M2 B0 B1 DNone (sc_cache S) pt (Rm _ (proj1 HS)) Lp) as (c1 & E & P). rewrite E. cbn [obind].
      rewrite (RunE S c1 DDiagonal); [reflexivity|cbn; tauto|exact P|discriminate|exact HS].
    + intros S out HS. unfold mc_CoeffJacobian. change (mc_w C') with (mc_w C). rewrite EW.
      destruct (pre_fill1 d N alphas mx B v dv Hd M1 M2 B0 B1 DNone (sc_cache S) pt (Rm _ (proj1 HS)) Lp) as (c1 & E & P). rewrite E. cbn [obind].
      rewrite (RunE S c1 DParameters); [reflexivity|cbn; tauto|exact P|discriminate|]. cbn [mi_size]. rewrite size_W. exact HS.
    + intros S out HS. unfold mc_InputJacobian. change (mc_w C') with (mc_w C). rewrite EW.
      destruct (pre_fill1 d N alphas mx B v dv Hd M1 M2 B0 B1 DInput (sc_cache S) pt (Rm _ (proj1 HS)) Lp) as (c1 & E & P). rewrite E. cbn [obind].
      rewrite (RunE S c1 DInput); [reflexivity|cbn; tauto|exact P|discriminate|exact HS].
    + intros S out HS Lk. unfold mc_DiscreteMixedJacobian. change (mc_w C') with (mc_w C). rewrite EW.
      destruct (pre_fill1 d N alphas mx B v dv Hd M1 M2 B0 B1 DNone (sc_cache S) pt (Rm _ (proj1 HS)) Lp) as (c1 & E & P). rewrite E. cbn [obind].
      rewrite (RunE S c1 DMixed); [reflexivity|cbn; tauto|exact P|auto|]. cbn [mi_size]. rewrite size_W. exact HS.
Qed.
End Transfer.

(** ** The intervals do not change where no difference equals its tolerance *)
Lemma leaves_in T : forall d a b n l r, a <= b -> In (n, l, r) (leaves T d a b) -> a <= l /\ l <= r /\ r <= b.
Proof.
  induction T as [|L IHL R' IHR]; intros d a b n l r Hab; cbn [leaves].
  - intros [E|[]]. injection E as <- <- <-. lra.
  - rewrite in_app_iff. intros [H|H]; [apply IHL in H|apply IHR in H]; lra.
Qed.
Lemma nodes_in p w L : good_rule p w -> (forall n l r, In (n, l, r) L -> 0 <= l /\ l <= r /\ r <= 1) -> forall t, In t (tree_pts p L) -> 0 <= (1 + t) / 2 <= 1.
Proof.
  intros (_ & _ & G) HL t Ht. unfold tree_pts in Ht. apply in_flat_map in Ht. destruct Ht as (((n & l) & r) & HI & Ht). apply HL in HI.
  apply in_map_iff in Ht. destruct Ht as (u & <- & Hu). apply G in Hu. cbn [fst snd]. nra.
Qed.

Lemma below_local (F G : R -> R) u0 : continuous F u0 -> continuous G u0 -> F u0 < G u0 -> locally u0 (fun u => F u < G u).
Proof.
  intros CF CG H. assert (K : continuous (fun u => G u - F u) u0) by (apply (continuous_minus (V := R_NormedModule)); auto).
  apply filter_imp with (P := fun u => 0 < G u - F u); [intros; lra|]. apply (K (fun y => 0 < y)). apply open_gt. lra.
Qed.
Lemma cont_Rabs (F : R -> R) u0 : continuous F u0 -> continuous (fun u => Rabs (F u)) u0.
Proof. intros H. apply (continuous_comp F Rabs); [auto|]. apply continuous_Rabs. Qed.
Lemma max_abs (x y : R) : (x + y + Rabs (x - y)) * / 2 = Rmax x y.
Proof. unfold Rmax. destruct (Rle_dec x y); [rewrite Rabs_left1 by lra|rewrite Rabs_right by lra]; field. Qed.
Lemma cont_Rmax (F G : R -> R) u0 : continuous F u0 -> continuous G u0 -> continuous (fun u => Rmax (F u) (G u)) u0.
Proof.
  intros CF CG. apply continuous_ext with (fun u => (F u + G u + Rabs (F u - G u)) * / 2).
  { intros u. apply max_abs. }
  apply (continuous_mult (K := R_AbsRing)); [|apply continuous_const].
  apply (continuous_plus (V := R_NormedModule)); [apply (continuous_plus (V := R_NormedModule)); auto|].
  apply cont_Rabs. apply (continuous_minus (V := R_NormedModule)); auto.
Qed.

Section Local.
Variables (A : adaptive) (cp cw fp fw : list R) (H : R -> R -> R) (u0 : R).
Hypothesis Gc : good_rule cp cw.
Hypothesis Gf : good_rule fp fw.
Hypothesis Ec : a_coarse A = (fun h a b => rule_on cp cw a b h).
Hypothesis Ef : a_fine A = (fun h a b => rule_on fp fw a b h).
Hypothesis Cont : forall p w, length w = length p -> (forall t, In t p -> 0 <= (1 + t) / 2 <= 1) -> continuous (fun u => rule_on p w 0 1 (H u)) u0.

Lemma est_cont p w a b : good_rule p w -> 0 <= a -> a <= b -> b <= 1 -> continuous (fun u => rule_on p w a b (H u)) u0.
Proof.
  intros G H0 H1 H2. apply continuous_ext with (fun u => rule_on (tree_pts p [(0%nat, a, b)]) (tree_wts w [(0%nat, a, b)]) 0 1 (H u)).
  { intros u. rewrite <- tree_rule by apply G. unfold over_leaves. cbn [fold_right fst snd]. apply Rplus_0_r. }
  apply Cont; [apply tree_len, G|]. apply (nodes_in p w); auto. intros n l r [E|[]]. injection E as <- <- <-. lra.
Qed.
Lemma gap_cont a b : 0 <= a -> a <= b -> b <= 1 -> continuous (fun u => gap A (H u) a b) u0.
Proof.
  intros. unfold gap. rewrite Ec, Ef. apply cont_Rabs. apply (continuous_minus (V := R_NormedModule)); apply est_cont; auto.
Qed.
Lemma allow_cont a b : 0 <= a -> a <= b -> b <= 1 -> continuous (fun u => allowance A (H u) a b) u0.
Proof.
  intros. unfold allowance. rewrite Ec. apply cont_Rmax; [|apply continuous_const].
  apply (continuous_mult (K := R_AbsRing)); [apply continuous_const|]. apply cont_Rabs. apply est_cont; auto.
Qed.
Lemma halts_local d a b : 0 <= a -> a <= b -> b <= 1 -> gap A (H u0) a b <> allowance A (H u0) a b -> locally u0 (fun u => halts A (H u) d a b <-> halts A (H u0) d a b).
Proof.
  intros H0 H1 H2 N. destruct (Rtotal_order (gap A (H u0) a b) (allowance A (H u0) a b)) as [L|[L|L]]; [|contradiction|].
  - eapply filter_imp; [|apply (below_local _ _ u0 (gap_cont a b H0 H1 H2) (allow_cont a b H0 H1 H2) L)]. intros u Hu. cbv beta in Hu. unfold halts. tauto.
  - eapply filter_imp; [|apply (below_local _ _ u0 (allow_cont a b H0 H1 H2) (gap_cont a b H0 H1 H2) L)]. intros u Hu. cbv beta in Hu. unfold halts.
    assert (~ gap A (H u) a b < allowance A (H u) a b) by lra. assert (~ gap A (H u0) a b < allowance A (H u0) a b) by lra. tauto.
Qed.
Lemma tree_local T : forall d a b, 0 <= a -> a <= b -> b <= 1 -> refined (halts A (H u0)) T d a b ->
  (forall d' a' b', In (d', a', b') (met T d a b) -> gap A (H u0) a' b' <> allowance A (H u0) a' b') -> locally u0 (fun u => refined (halts A (H u)) T d a b).
Proof.
  induction T as [|l IHl r IHr]; intros d a b H0 H1 H2 HR HD; cbn [refined] in *.
  - assert (N : gap A (H u0) a b <> allowance A (H u0) a b) by (apply (HD d); now left).
    eapply filter_imp; [|apply (halts_local d a b H0 H1 H2 N)]. intros u Hu. cbv beta in Hu. tauto.
  - destruct HR as (R0 & R1 & R2). assert (N : gap A (H u0) a b <> allowance A (H u0) a b) by (apply (HD d); now left).
    assert (Kl : locally u0 (fun u => refined (halts A (H u)) l (S d) a ((a + b) / 2))).
    { apply IHl; try lra; auto. intros d' a' b' HI. apply (HD d'). cbn [met]. right. apply in_app_iff. now left. }
    assert (Kr : locally u0 (fun u => refined (halts A (H u)) r (S d) ((a + b) / 2) b)).
    { apply IHr; try lra; auto. intros d' a' b' HI. apply (HD d'). cbn [met]. right. apply in_app_iff. now right. }
    eapply filter_imp; [|apply (filter_and _ _ (halts_local d a b H0 H1 H2 N) (filter_and _ _ Kl Kr))]. intros u (K0 & K1 & K2). cbv beta in *. tauto.
Qed.
End Local.
