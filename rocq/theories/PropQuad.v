(** Theorems C26-C29: quadrature. The vocabulary (rule_sum, rule_on, simpson2, leaves,
    adaptive_stop, ...) is in SpecQuad; the functions of the code are in QuadModel. *)
From Coq Require Import Reals Lra NArith Psatz.
From Coquelicot Require Import Coquelicot.
From Verif Require Import Base SpecMulti SpecExpansion SpecQuad SpecPoly PolyModel PolyProofs BijProofs ExpansionProofs ExpansionDeriv
  QuadModel QuadCC QuadWalk QuadSimpson QuadACC QuadProofs QuadLimits.
Local Open Scope R_scope.

(** ** C26 *)

(** The rule of every size n >= 1, as written by GetRule into arrays of length n. *)
Theorem C26_clenshaw_curtis_rule : forall (n : nat) (wts0 pts0 : list R),
  (1 <= n)%nat -> length wts0 = n -> length pts0 = n ->
  exists wts pts, GetRule n wts0 pts0 = Ok (wts, pts) /\ length wts = n /\ length pts = n /\
    (forall i, (i < n)%nat -> -1 <= nth i pts 0 <= 1) /\
    (forall i j, (i < j < n)%nat -> nth i pts 0 < nth j pts 0) /\
    (forall i, (i < n)%nat -> nth (n - 1 - i) pts 0 = - nth i pts 0) /\
    (forall i, (i < n)%nat -> 0 < nth i wts 0) /\
    (forall i, (i < n)%nat -> nth (n - 1 - i) wts 0 = nth i wts 0) /\
    rsum (fun i => nth i wts 0) n = 2 /\
    (forall c, (length c <= n)%nat -> is_RInt (poly c) (-1) 1 (rule_sum pts wts (poly c))).
Proof.
  intros n wts0 pts0 Hn Lw Lp. destruct n as [|[|N]]; [lia| |].
  - exists [2], [0]. rewrite GetRule_one by auto. split; [reflexivity|]. split; [reflexivity|]. split; [reflexivity|].
    split; [intros [|i] Hi; [cbn; lra|lia]|].
    split; [intros; lia|]. split; [intros [|i] Hi; [cbn; lra|lia]|]. split; [intros [|i] Hi; [cbn; lra|lia]|].
    split; [intros [|i] Hi; [reflexivity|lia]|]. split; [cbn; ring|].
    { intros c Lc. pose proof (one_exact c 0 1 Lc) as H.
      assert (E : forall t, poly c (0 + 1 * t) = poly c t) by (intros; f_equal; ring).
      apply is_RInt_ext with (f := fun t => poly c (0 + 1 * t)); [intros; apply E|].
      rewrite <- (rule_sum_ext [0] [2] _ _ E). exact H. }
  - set (K := S N). assert (HK : (1 <= K)%nat) by (unfold K; lia). fold K in Lw, Lp.
    exists (cc_wts K), (cc_pts K). rewrite (GetRule_ok K) by auto. split; [reflexivity|].
    rewrite cc_wts_length, cc_pts_length. split; auto. split; auto.
    assert (P : forall i, (i < S K)%nat -> nth i (cc_pts K) 0 = cc_x K i) by (intros; unfold cc_pts; now rewrite nth_map_seq).
    assert (W : forall i, (i < S K)%nat -> nth i (cc_wts K) 0 = cc_w K i) by (intros; unfold cc_wts; now rewrite nth_map_seq).
    split; [intros i Hi; rewrite P by auto; apply cc_x_bound|].
    split; [intros i j Hi; rewrite !P by lia; apply cc_x_incr; lia|].
    split; [intros i Hi; rewrite !P by lia; replace (S K - 1 - i)%nat with (K - i)%nat by lia; apply cc_x_sym; lia|].
    split; [intros i Hi; rewrite W by auto; apply cc_w_pos; auto|].
    split; [intros i Hi; rewrite !W by lia; replace (S K - 1 - i)%nat with (K - i)%nat by lia; apply cc_w_sym; lia|].
    assert (EX : forall c, (length c <= S K)%nat -> is_RInt (poly c) (-1) 1 (rule_sum (cc_pts K) (cc_wts K) (poly c))).
    { intros c Lc. assert (E : forall t, poly c (0 + 1 * t) = poly c t) by (intros; f_equal; ring).
      apply is_RInt_ext with (f := fun t => poly c (0 + 1 * t)); [intros; apply E|].
      rewrite <- (rule_sum_ext (cc_pts K) (cc_wts K) _ _ E). apply cspan_exact; auto.
      apply (cspan_mono (length c)); auto. apply cspan_poly. }
    split; [|exact EX].
    assert (H1 : is_RInt (poly [1]) (-1) 1 2).
    { apply is_RInt_ext with (f := fun _ => 1); [intros; cbn; ring|]. replace 2 with (scal (1 - (-1)) 1); [apply (is_RInt_const (V := R_NormedModule))|].
      unfold scal; cbn. unfold mult; cbn. ring. }
    pose proof (EX [1] ltac:(cbn; lia)) as H2.
    apply (is_RInt_unique (V := R_CompleteNormedModule)) in H1. apply (is_RInt_unique (V := R_CompleteNormedModule)) in H2.
    rewrite H1 in H2. rewrite H2. unfold rule_sum. rewrite cc_pts_length. apply rsum_ext. intros i Hi. cbn. ring.
Qed.
Print Assumptions C26_clenshaw_curtis_rule.

Lemma ok_pair {A B : Type} (a c : A) (b d : B) : Ok (a, b) = Ok (c, d) -> a = c /\ b = d.
Proof. intros H. injection H. auto. Qed.

(** Applied by Integrate to an interval of width at least 15 epsilon, component by component;
    n = length pts points. *)
Theorem C26_integrate_exact : forall (n : nat) (wts0 pts0 wts pts : list R) (fdim : nat) (ws res : list R) (f : R -> list R) (lb ub : R)
    (c : nat -> list R),
  (1 <= n)%nat -> length wts0 = n -> length pts0 = n -> GetRule n wts0 pts0 = Ok (wts, pts) ->
  (fdim <= length ws)%nat -> (fdim <= length res)%nat -> 15 / 2 ^ 52 <= ub - lb ->
  (forall x, length (f x) = fdim) ->
  (forall i x, (i < fdim)%nat -> nth i (f x) 0 = poly (c i) x) -> (forall i, (i < fdim)%nat -> (length (c i) <= n)%nat) ->
  exists res', cc_Integrate pts wts fdim ws f lb ub res = Ok res' /\
    forall i, (i < fdim)%nat -> is_RInt (fun x => nth i (f x) 0) lb ub (nth i res' 0).
Proof.
  intros n wts0 pts0 wts pts fd ws res f lb ub c Hn Lw Lp E Lws Lres Hw Hf Hp Hc.
  assert (LL : length wts = length pts /\ forall u a b, (length u <= n)%nat -> is_RInt (poly u) a b (rule_on pts wts a b (poly u))).
  { destruct n as [|[|N]]; [lia| |].
    - rewrite GetRule_one in E by auto. injection E as <- <-. split; auto. intros u a b Hu. unfold rule_on. apply move_interval. apply one_exact. auto.
    - rewrite (GetRule_ok (S N)) in E by (auto; lia). apply ok_pair in E as [<- <-]. split; [now rewrite !map_length|].
      intros u a b Hu. apply (cc_on_exact (S N)); auto. lia. }
  destruct LL as [LL EX].
  destruct (cc_Integrate_long pts wts fd ws f lb ub res Hf Lres Lws LL Hw) as (r & Er & _ & V).
  exists r. split; auto. intros i Hi. change (nth i r 0) with (rd r i). rewrite V by auto.
  assert (X : forall x, comp f i x = poly (c i) x) by (intros; apply Hp; auto).
  apply is_RInt_ext with (f := poly (c i)); [intros; symmetry; apply X|].
  replace (rule_on pts wts lb ub (comp f i)) with (rule_on pts wts lb ub (poly (c i))); [apply EX; auto|].
  unfold rule_on. f_equal. apply rule_sum_ext. intros. now rewrite X.
Qed.
Print Assumptions C26_integrate_exact.

(** The rule with three points is Simpson's rule. *)
Example C26_three : GetRule 3 [0; 0; 0] [0; 0; 0] = Ok ([1/3; 4/3; 1/3], [-1; 0; 1]).
Proof.
  rewrite (GetRule_ok 2) by auto. cbn [seq map]. unfold cc_w, cc_u, cc_b, cc_c, cc_theta, cc_x. cbn.
  replace (1 * PI / (1 + 1)) with (PI / 2) by field. replace ((1 + 1) * PI / (1 + 1)) with PI by field. replace (0 * PI / (1 + 1)) with 0 by field.
  rewrite ?cos_PI2, ?cos_PI, ?cos_0. repeat match goal with |- context [cos ?x] => 
    first [replace (cos x) with 1 by (symmetry; first [replace x with 0 by field; apply cos_0 | replace x with (2 * PI) by field; apply cos_2PI])
          |replace (cos x) with (-1) by (symmetry; replace x with PI by field; apply cos_PI)] end.
  match goal with |- Ok ([?a; ?b; ?c], _) = _ => replace a with (1/3) by field; replace b with (4/3) by field; replace c with (1/3) by field end.
  reflexivity.
Qed.

(** ** C27 *)

(** For every number of components, integrand, interval, tolerances, error metric, maxSub and
    minSub; the workspace has at least WorkspaceSize() entries and the result at least one per component, whatever their values. The
    outcome is never UB. *)
Theorem C27_adaptive_simpson : forall (q : quad) (f : R -> list R) (lb ub : R) (ws res : list R) (fuel : nat),
  (1 <= q_fdim q)%nat -> (forall x, length (f x) = q_fdim q) ->
  (1 <= q_maxSub q <= 32)%nat -> (q_minSub q < q_maxSub q)%nat ->
  (as_WorkspaceSize (q_maxSub q) (q_fdim q) <= length ws)%nat -> (q_fdim q <= length res)%nat -> (2 ^ q_maxSub q <= fuel)%nat ->
  exists T res', as_Integrate q fuel ws f lb ub res = Ok res' /\ length res' = length res /\
    (forall i, (i < q_fdim q)%nat -> nth i res' 0 = over_leaves (simpson2 (comp f i)) (leaves T 0 lb ub)) /\
    chain lb ub (leaves T 0 lb ub) /\
    (forall d l r, In (d, l, r) (leaves T 0 lb ub) -> (d < q_maxSub q)%nat /\ r - l = (ub - lb) / 2 ^ d /\
       (Rabs (ub - lb) < / 10 ^ 14 \/ (q_minSub q <= d)%nat) /\
       (Rabs (ub - lb) < / 10 ^ 14 \/ (d + 1 = q_maxSub q)%nat \/
        close (q_metric q) (q_fdim q) (q_absTol q) (q_relTol q) (fun i => simpson (comp f i) l r) (fun i => simpson2 (comp f i) l r))) /\
    refined (adaptive_stop (q_metric q) (q_fdim q) (q_absTol q) (q_relTol q) (q_maxSub q) (q_minSub q) (ub - lb)
               (fun a b i => simpson (comp f i) a b) (fun a b i => simpson2 (comp f i) a b)) T 0 lb ub.
Proof.
  intros q f lb ub ws res fuel Hfd Hf [Hm1 Hm32] Hmin Lw Lr Hfuel.
  destruct (simpson_run q f lb ub Hfd Hf Hm1 Hm32 Hmin ws res fuel Lw Lr Hfuel) as (T & r & RF & E & Lr' & V).
  exists T, r. split; auto. split; auto. split; [intros i Hi; apply (V i Hi)|]. split; [apply leaves_chain|]. split; [|exact RF].
  intros d l r' HIn. pose proof (leaves_stop _ _ _ _ _ _ _ _ RF HIn) as S.
  pose proof (leaves_widths _ _ _ _ _ _ _ HIn) as (_ & W). rewrite Nat.sub_0_r in W.
  split; [|split; [auto|]].
  - eapply (leaves_depth _ T 0 lb ub (q_maxSub q)); [lia| |exact RF|exact HIn]. intros d' a b Hd. left. split; [right; auto|lia].
  - destruct S as [[[A|A] B]|A]; tauto.
Qed.
Print Assumptions C27_adaptive_simpson.

(** The refinement tree in C27 is determined by the stopping rule. *)
Theorem C27_tree_unique : forall (stop : nat -> R -> R -> Prop) (T T' : btree) (a b : R),
  refined stop T 0 a b -> refined stop T' 0 a b -> T = T'.
Proof. intros. eapply refined_unique; eauto. Qed.
Print Assumptions C27_tree_unique.

(** Components that are polynomials of degree at most three are integrated exactly, over
    intervals in either direction. *)
Theorem C27_adaptive_simpson_exact : forall (q : quad) (f : R -> list R) (lb ub : R) (ws res : list R) (fuel : nat) (i : nat) (c : list R),
  (1 <= q_fdim q)%nat -> (forall x, length (f x) = q_fdim q) ->
  (1 <= q_maxSub q <= 32)%nat -> (q_minSub q < q_maxSub q)%nat ->
  (as_WorkspaceSize (q_maxSub q) (q_fdim q) <= length ws)%nat -> (q_fdim q <= length res)%nat -> (2 ^ q_maxSub q <= fuel)%nat ->
  (i < q_fdim q)%nat -> (length c <= 4)%nat -> (forall x, nth i (f x) 0 = poly c x) ->
  exists res', as_Integrate q fuel ws f lb ub res = Ok res' /\ is_RInt (fun x => nth i (f x) 0) lb ub (nth i res' 0).
Proof.
  intros q f lb ub ws res fuel i c Hfd Hf [Hm1 Hm32] Hmin Lw Lr Hfuel Hi Lc Hc.
  destruct (simpson_run q f lb ub Hfd Hf Hm1 Hm32 Hmin ws res fuel Lw Lr Hfuel) as (T & r & RF & E & Lr' & V).
  exists r. split; auto. change (nth i r 0) with (rd r i). rewrite V by auto. apply over_leaves_RInt. intros a b.
  assert (S : forall u v, is_RInt (fun x => nth i (f x) 0) u v (simpson (comp f i) u v)).
  { intros u v. apply is_RInt_ext with (f := poly c); [intros; symmetry; apply Hc|].
    replace (simpson (comp f i) u v) with (simpson (poly c) u v) by (unfold simpson, comp; rewrite !Hc; reflexivity).
    apply simpson_cubic; auto. }
  unfold s_fine, simpson2. apply (is_RInt_Chasles (V := R_NormedModule)) with ((a + b) / 2); apply S.
Qed.
Print Assumptions C27_adaptive_simpson_exact.

(** Outside the range of C27: minSub >= maxSub writes past the workspace, for every integrand
    and interval that is not tiny. *)
Theorem C27_min_sub_overflow : forall (q : quad) (f : R -> list R) (lb ub : R) (ws res : list R) (fuel : nat),
  (1 <= q_fdim q)%nat -> (forall x, length (f x) = q_fdim q) ->
  (q_maxSub q <= q_minSub q)%nat -> / 10 ^ 14 <= Rabs (ub - lb) ->
  length ws = as_WorkspaceSize (q_maxSub q) (q_fdim q) -> length res = q_fdim q -> (q_maxSub q <= fuel)%nat ->
  as_Integrate q fuel ws f lb ub res = UB.
Proof. intros. apply simpson_overflow; auto. Qed.
Print Assumptions C27_min_sub_overflow.

(** maxSub > 32 with tolerances that cannot be met shifts a 32-bit word by 32 or more. *)
Theorem C27_max_sub_shift : forall (q : quad) (f : R -> list R) (lb ub : R) (ws res : list R) (fuel : nat),
  (1 <= q_fdim q)%nat -> (forall x, length (f x) = q_fdim q) ->
  (32 < q_maxSub q)%nat -> q_absTol q <= 0 -> q_relTol q <= 0 -> / 10 ^ 14 <= Rabs (ub - lb) ->
  length ws = as_WorkspaceSize (q_maxSub q) (q_fdim q) -> length res = q_fdim q -> (q_maxSub q <= fuel)%nat ->
  as_Integrate q fuel ws f lb ub res = UB.
Proof. intros. apply simpson_deep; auto. Qed.
Print Assumptions C27_max_sub_shift.

(** A run that divides the interval once: x^4 on [0,1] with two levels. *)
Definition ex_quad : quad := MkQuad 1 2 0 (1 / 10 ^ 6) 0 First.
Definition ex_f (x : R) : list R := [x * x * x * x].
Lemma ex_quad_ok : (1 <= q_fdim ex_quad)%nat /\ (forall x, length (ex_f x) = q_fdim ex_quad) /\ (1 <= q_maxSub ex_quad <= 32)%nat /\
  (q_minSub ex_quad < q_maxSub ex_quad)%nat /\ length (repeat 0 (as_WorkspaceSize 2 1)) = as_WorkspaceSize (q_maxSub ex_quad) (q_fdim ex_quad).
Proof. cbn. repeat split; auto; lia. Qed.
Example C27_divides : exists res', as_Integrate ex_quad 4 (repeat 0 (as_WorkspaceSize 2 1)) ex_f 0 1 [7] = Ok res' /\
  nth 0 res' 0 = simpson2 (comp ex_f 0) 0 (1/2) + simpson2 (comp ex_f 0) (1/2) 1.
Proof.
  destruct ex_quad_ok as (A & B & C & D & E).
  destruct (C27_adaptive_simpson ex_quad ex_f 0 1 (repeat 0 (as_WorkspaceSize 2 1)) [7] 4 A B C D ltac:(rewrite E; apply le_n) (le_n 1) (le_n 4)) as (T & r & H & _ & V & _ & DD & RF).
  exists r. split; auto. rewrite (V 0%nat) by (cbn; lia).
  assert (T = Node Leaf Leaf) as ->.
  { eapply refined_unique; [exact RF|]. assert (W : ~ Rabs (1 - 0) < / 10 ^ 14) by (rewrite Rabs_right by lra; lra).
    assert (G : forall a b, adaptive_stop (q_metric ex_quad) (q_fdim ex_quad) (q_absTol ex_quad) (q_relTol ex_quad) (q_maxSub ex_quad)
         (q_minSub ex_quad) (1 - 0) (fun a b i => simpson (comp ex_f i) a b) (fun a b i => simpson2 (comp ex_f i) a b) 1 a b)
      by (intros; left; split; [right; reflexivity|cbn; lia]).
    cbn [refined]. split; [|split; apply G].
    intros [[[K|K] _]|K]; [|cbn in K; lia|contradiction]. revert K. unfold close, ex_quad. cbn [q_metric q_fdim q_absTol q_relTol size_of].
    unfold simpson2, simpson, comp, ex_f. cbn [nth]. rewrite Rmult_0_l. rewrite Rmax_right by lra. intros K.
    match type of K with Rabs ?x < _ => replace x with (-1/128) in K by field end. unfold Rabs in K. destruct (Rcase_abs (-1/128)); lra. }
  cbn [leaves app]. unfold over_leaves. cbn [fold_right fst snd]. replace ((0 + 1) / 2) with (1 / 2) by field. ring.
Qed.

(** ** C28 *)

(** Level L means 2^L+1 and 2^(L+1)+1 points. *)
Theorem C28_adaptive_clenshaw_curtis : forall (level : nat) (q : quad) (f : R -> list R) (lb ub : R) (ws res : list R) (fuel : nat),
  (1 <= level)%nat -> (1 <= q_fdim q)%nat -> (forall x, length (f x) = q_fdim q) ->
  (1 <= q_maxSub q <= 32)%nat -> (q_minSub q < q_maxSub q)%nat ->
  (ac_WorkspaceSize (q_maxSub q) (q_fdim q) <= length ws)%nat -> (q_fdim q <= length res)%nat -> (2 ^ q_maxSub q <= fuel)%nat ->
  exists cw cp fw fp T res',
    GetRule (2 ^ level + 1) (repeat 0 (2 ^ level + 1)) (repeat 0 (2 ^ level + 1)) = Ok (cw, cp) /\
    GetRule (2 ^ (level + 1) + 1) (repeat 0 (2 ^ (level + 1) + 1)) (repeat 0 (2 ^ (level + 1) + 1)) = Ok (fw, fp) /\
    (do rl <- ac_make level; ac_Integrate q rl fuel ws f lb ub res) = Ok res' /\ length res' = length res /\
    (forall i, (i < q_fdim q)%nat -> nth i res' 0 = over_leaves (fun l r => rule_on fp fw l r (comp f i)) (leaves T 0 lb ub)) /\
    chain lb ub (leaves T 0 lb ub) /\
    (forall d l r, In (d, l, r) (leaves T 0 lb ub) -> (d < q_maxSub q)%nat /\ r - l = (ub - lb) / 2 ^ d /\
       (Rabs (ub - lb) < / 10 ^ 14 \/ (q_minSub q <= d)%nat) /\
       (Rabs (ub - lb) < / 10 ^ 14 \/ (d + 1 = q_maxSub q)%nat \/
        close (q_metric q) (q_fdim q) (q_absTol q) (q_relTol q)
          (fun i => rule_on cp cw l r (comp f i)) (fun i => rule_on fp fw l r (comp f i)))) /\
    refined (adaptive_stop (q_metric q) (q_fdim q) (q_absTol q) (q_relTol q) (q_maxSub q) (q_minSub q) (ub - lb)
               (fun a b i => rule_on cp cw a b (comp f i)) (fun a b i => rule_on fp fw a b (comp f i))) T 0 lb ub.
Proof.
  intros level q f lb ub ws res fuel Hlev Hfd Hf [Hm1 Hm32] Hmin Lw Lr Hfuel.
  set (M := (2 ^ (level - 1))%nat). assert (HM : (1 <= M)%nat) by (unfold M; pose proof (Nat.pow_nonzero 2 (level - 1) ltac:(lia)); lia).
  assert (EM : (2 ^ level = 2 * M)%nat) by (unfold M; replace level with (S (level - 1)) at 1 by lia; cbn; lia).
  assert (EM2 : (2 ^ (level + 1) = 2 * (2 * M))%nat) by (rewrite Nat.add_1_r; cbn [Nat.pow]; lia).
  exists (cc_wts (2 * M)), (cc_pts (2 * M)), (cc_wts (2 * (2 * M))), (cc_pts (2 * (2 * M))).
  rewrite (ac_make_ok level Hlev). cbn [obind].
  rewrite EM, EM2, !Nat.add_1_r, !GetRule_ok by (rewrite ?repeat_length; lia).
  destruct (acc_run q M f lb ub HM Hfd Hf Hm1 Hm32 Hmin ws res fuel Lw Lr Hfuel) as (T & r & RF & E & Lr' & V).
  exists T, r. split; [reflexivity|]. split; [reflexivity|].
  split; [exact E|]. split; auto. split; [intros i Hi; apply (V i Hi)|]. split; [apply leaves_chain|]. split; [|exact RF].
  intros d l r' HIn. pose proof (leaves_stop _ _ _ _ _ _ _ _ RF HIn) as S.
  pose proof (leaves_widths _ _ _ _ _ _ _ HIn) as (_ & W). rewrite Nat.sub_0_r in W.
  split; [|split; [auto|]].
  - eapply (leaves_depth _ T 0 lb ub (q_maxSub q)); [lia| |exact RF|exact HIn]. intros d' a b Hd. left. split; [right; auto|lia].
  - destruct S as [[[A|A] B]|A]; tauto.
Qed.
Print Assumptions C28_adaptive_clenshaw_curtis.

(** Polynomials of degree at most 2^(level+1) are integrated exactly. *)
Theorem C28_adaptive_clenshaw_curtis_exact : forall (level : nat) (q : quad) (f : R -> list R) (lb ub : R) (ws res : list R) (fuel : nat) (i : nat) (c : list R),
  (1 <= level)%nat -> (1 <= q_fdim q)%nat -> (forall x, length (f x) = q_fdim q) ->
  (1 <= q_maxSub q <= 32)%nat -> (q_minSub q < q_maxSub q)%nat ->
  (ac_WorkspaceSize (q_maxSub q) (q_fdim q) <= length ws)%nat -> (q_fdim q <= length res)%nat -> (2 ^ q_maxSub q <= fuel)%nat ->
  (i < q_fdim q)%nat -> (length c <= 2 ^ (level + 1) + 1)%nat -> (forall x, nth i (f x) 0 = poly c x) ->
  exists res', (do rl <- ac_make level; ac_Integrate q rl fuel ws f lb ub res) = Ok res' /\
    is_RInt (fun x => nth i (f x) 0) lb ub (nth i res' 0).
Proof.
  intros level q f lb ub ws res fuel i c Hlev Hfd Hf [Hm1 Hm32] Hmin Lw Lr Hfuel Hi Lc Hc.
  set (M := (2 ^ (level - 1))%nat). assert (HM : (1 <= M)%nat) by (unfold M; pose proof (Nat.pow_nonzero 2 (level - 1) ltac:(lia)); lia).
  assert (EM : (2 ^ level = 2 * M)%nat) by (unfold M; replace level with (S (level - 1)) at 1 by lia; cbn; lia).
  assert (EM2 : (2 ^ (level + 1) = 2 * (2 * M))%nat) by (rewrite Nat.add_1_r; cbn [Nat.pow]; lia).
  rewrite (ac_make_ok level Hlev). cbn [obind]. rewrite EM.
  destruct (acc_run q M f lb ub HM Hfd Hf Hm1 Hm32 Hmin ws res fuel Lw Lr Hfuel) as (T & r & RF & E & Lr' & V).
  exists r. split; [exact E|]. change (nth i r 0) with (rd r i). rewrite V by auto. apply over_leaves_RInt. intros a b.
  unfold c_fine. apply is_RInt_ext with (f := poly c); [intros; symmetry; apply Hc|].
  replace (rule_on (cc_pts (2 * (2 * M))) (cc_wts (2 * (2 * M))) a b (comp f i))
    with (rule_on (cc_pts (2 * (2 * M))) (cc_wts (2 * (2 * M))) a b (poly c)).
  - apply cc_on_exact; lia.
  - unfold rule_on. f_equal. apply rule_sum_ext. intros. unfold comp. now rewrite Hc.
Qed.
Print Assumptions C28_adaptive_clenshaw_curtis_exact.

Example C28_hypotheses_met : exists res', (do rl <- ac_make 1; ac_Integrate ex_quad rl 4 (repeat 0 (ac_WorkspaceSize 2 1)) ex_f 0 1 [7]) = Ok res' /\
  is_RInt (fun x => nth 0 (ex_f x) 0) 0 1 (nth 0 res' 0).
Proof.
  destruct ex_quad_ok as (A & B & C & D & _).
  apply (C28_adaptive_clenshaw_curtis_exact 1 ex_quad ex_f 0 1 (repeat 0 (ac_WorkspaceSize 2 1)) [7] 4 0 [0; 0; 0; 0; 1]); auto; cbn; try lia.
  intros. ring.
Qed.

(** Level 0 does not work: when the assertion of the constructor is compiled out, the two-point and
    three-point rules are used and the middle node is counted twice. The integral of 1 over [0,1]
    is then computed to be 5/3. *)
Theorem C28_level0_refuted : forall absTol relTol, exists cw cp fw fp,
  GetRule 2 [0; 0] [0; 0] = Ok (cw, cp) /\ GetRule 3 [0; 0; 0] [0; 0; 0] = Ok (fw, fp) /\
  ac_make 0 = Throw /\
  ac_Integrate (MkQuad 1 1 0 absTol relTol First) (MkRules cp cw fp fw) 1 [0; 0; 0; 0; 0; 0; 0; 0] (fun _ => [1]) 0 1 [0] = Ok [5 / 3].
Proof.
  intros absTol relTol. do 4 eexists. split; [apply GetRule_ok; auto|]. split; [apply GetRule_ok; auto|]. split; [reflexivity|].
  assert (W0 : cc_w 2 0 = 1/3). { unfold cc_w, cc_c, cc_u, cc_theta, cc_b. cbn -[INR cos Rdiv Rmult Rminus]. match goal with |- context [cos ?x] => replace x with 0 by (cbn; field) end. rewrite cos_0. cbn. field. }
  assert (W1 : cc_w 2 1 = 4/3). { unfold cc_w, cc_c, cc_u, cc_theta, cc_b. cbn -[INR cos Rdiv Rmult Rminus]. match goal with |- context [cos ?x] => replace x with PI by (cbn; field) end. rewrite cos_PI. cbn. field. }
  assert (W2 : cc_w 2 2 = 1/3). { unfold cc_w, cc_c, cc_u, cc_theta, cc_b. cbn -[INR cos Rdiv Rmult Rminus]. match goal with |- context [cos ?x] => replace x with (2 * PI) by (cbn; field) end. rewrite cos_2PI. cbn. field. }
  cbn [seq map]. rewrite W0, W1, W2.
  generalize (cc_x 1 0), (cc_x 1 1), (cc_x 2 0), (cc_x 2 1), (cc_x 2 2), (cc_w 1 0), (cc_w 1 1). intros x0 x1 y0 y1 y2 w0 w1.
  lazy -[Rplus Rmult Rminus Rdiv Ropp Rinv IZR Rltb Rabs Rmax pow].
  repeat match goal with |- context [Rltb ?a ?b] => destruct (Rltb a b) end; apply f_equal; apply (f_equal (fun x => [x])); field.
Qed.
Print Assumptions C28_level0_refuted.

(** ** C29 *)

(** The property fails for ClenshawCurtisQuadrature: integrating x^2 with any number of
    points from three on gives 1/3 over [0,1] and -1/4 over [1,0]. *)
Theorem C29_clenshaw_curtis_refuted : forall (n : nat) (wts pts : list R),
  (3 <= n)%nat -> GetRule n (repeat 0 n) (repeat 0 n) = Ok (wts, pts) ->
  cc_Integrate pts wts 1 [0] (fun x => [x * x]) 0 1 [0] = Ok [1/3] /\
  cc_Integrate pts wts 1 [0] (fun x => [x * x]) 1 0 [0] = Ok [-1/4] /\ 1/3 <> - (-1/4).
Proof.
  intros n wts pts Hn E.
  assert (T : 0 < midpoint_tol <= 1) by (unfold midpoint_tol; lra).
  assert (ONE : forall r : list R, length r = 1%nat -> r = [rd r 0]).
  { intros [|x [|? ?]]; cbn; try lia. reflexivity. }
  destruct (cc_Integrate_short pts wts 1 [0] (fun x => [x * x]) 1 0 [0] (fun _ => eq_refl) (le_n 1)) as (r2 & E2 & L2 & V2); [lra|].
  destruct (C26_integrate_exact n (repeat 0 n) (repeat 0 n) wts pts 1 [0] [0] (fun x => [x * x]) 0 1 (fun _ => [0; 0; 1])) as (r1 & E1 & V1); auto.
  - lia.
  - apply repeat_length.
  - apply repeat_length.
  - unfold midpoint_tol in T. lra.
  - intros [|i] x Hi; [cbn; ring|lia].
  - assert (L1 : length wts = length pts).
    { destruct n as [|[|N]]; [lia|lia|]. rewrite (GetRule_ok (S N)) in E by (rewrite ?repeat_length; lia). apply ok_pair in E as [<- <-]. now rewrite !map_length. }
    destruct (cc_Integrate_long pts wts 1 [0] (fun x => [x * x]) 0 1 [0] (fun _ => eq_refl) (le_n 1) (le_n 1) L1 ltac:(lra)) as (r1' & E1' & L1' & _).
    rewrite E1 in E1'. injection E1' as <-.
    split; [|split; [|lra]].
    + rewrite E1. rewrite (ONE r1 L1'). repeat f_equal. pose proof (V1 0%nat ltac:(lia)) as H.
      apply (is_RInt_unique (V := R_CompleteNormedModule)) in H. pose proof (is_RInt_pow 2 0 1) as P.
      apply (is_RInt_unique (V := R_CompleteNormedModule)) in P. unfold rd. rewrite <- H.
      transitivity (RInt (fun x => x ^ 2) 0 1); [apply RInt_ext; intros; cbn; ring|]. rewrite P. cbn. field.
    + rewrite E2. rewrite (ONE r2 L2). repeat f_equal. rewrite V2 by lia. unfold comp. cbn. field.
Qed.
Print Assumptions C29_clenshaw_curtis_refuted.

(** What ClenshawCurtisQuadrature computes on every interval: the midpoint rule whenever
    ub-lb is below 15 epsilon, which includes every reversed interval. *)
Theorem C29_clenshaw_curtis_partial : forall (pts wts : list R) (fdim : nat) (ws res : list R) (f : R -> list R) (lb ub : R),
  length wts = length pts -> (fdim <= length ws)%nat -> (fdim <= length res)%nat -> (forall x, length (f x) = fdim) ->
  exists res', cc_Integrate pts wts fdim ws f lb ub res = Ok res' /\
    forall i, (i < fdim)%nat ->
      (15 / 2 ^ 52 <= ub - lb -> nth i res' 0 = rule_on pts wts lb ub (comp f i)) /\
      (ub - lb < 15 / 2 ^ 52 -> nth i res' 0 = (ub - lb) * comp f i ((lb + ub) / 2)).
Proof.
  intros pts wts fd ws res f lb ub Lp Lw Lr Hf. destruct (Rlt_dec (ub - lb) midpoint_tol) as [H|H].
  - destruct (cc_Integrate_short pts wts fd ws f lb ub res Hf Lr H) as (r & E & _ & V). exists r. split; auto. intros i Hi.
    split; [intros X; unfold midpoint_tol in H; lra|]. intros _. apply V; auto.
  - destruct (cc_Integrate_long pts wts fd ws f lb ub res Hf Lr Lw Lp ltac:(lra)) as (r & E & _ & V). exists r. split; auto. intros i Hi.
    split; [intros _; apply V; auto|]. intros X. unfold midpoint_tol in H. lra.
Qed.
Print Assumptions C29_clenshaw_curtis_partial.

(** The adaptive rules respect the orientation exactly, for every integrand. *)
Theorem C29_adaptive_simpson_partial : forall (q : quad) (f : R -> list R) (a b : R) (ws res : list R) (fuel : nat),
  (1 <= q_fdim q)%nat -> (forall x, length (f x) = q_fdim q) ->
  (1 <= q_maxSub q <= 32)%nat -> (q_minSub q < q_maxSub q)%nat ->
  (as_WorkspaceSize (q_maxSub q) (q_fdim q) <= length ws)%nat -> (q_fdim q <= length res)%nat -> (2 ^ q_maxSub q <= fuel)%nat ->
  exists r1 r2, as_Integrate q fuel ws f a b res = Ok r1 /\ as_Integrate q fuel ws f b a res = Ok r2 /\
    forall i, (i < q_fdim q)%nat -> nth i r2 0 = - nth i r1 0.
Proof.
  intros q f a b ws res fuel Hfd Hf [Hm1 Hm32] Hmin Lw Lr Hfuel.
  destruct (simpson_run q f a b Hfd Hf Hm1 Hm32 Hmin ws res fuel Lw Lr Hfuel) as (T & r1 & RF & E & _ & V).
  destruct (simpson_run q f b a Hfd Hf Hm1 Hm32 Hmin ws res fuel Lw Lr Hfuel) as (T' & r2 & RF' & E' & _ & V').
  exists r1, r2. split; auto. split; auto. intros i Hi. change (rd r2 i = - rd r1 i). rewrite V, V' by auto.
  assert (T' = mirror T) as ->.
  { eapply refined_unique; [exact RF'|]. eapply refined_mirror; [|exact RF]. intros d x y. unfold s_stop.
    replace (a - b) with (- (b - a)) by ring. apply adaptive_stop_mirror; auto; intros; [apply simpson_mirror|apply simpson2_mirror]. }
  apply mirror_leaves. intros. apply simpson2_mirror.
Qed.
Print Assumptions C29_adaptive_simpson_partial.

Theorem C29_adaptive_clenshaw_curtis_partial : forall (level : nat) (q : quad) (f : R -> list R) (a b : R) (ws res : list R) (fuel : nat),
  (1 <= level)%nat -> (1 <= q_fdim q)%nat -> (forall x, length (f x) = q_fdim q) ->
  (1 <= q_maxSub q <= 32)%nat -> (q_minSub q < q_maxSub q)%nat ->
  (ac_WorkspaceSize (q_maxSub q) (q_fdim q) <= length ws)%nat -> (q_fdim q <= length res)%nat -> (2 ^ q_maxSub q <= fuel)%nat ->
  exists r1 r2, (do rl <- ac_make level; ac_Integrate q rl fuel ws f a b res) = Ok r1 /\
    (do rl <- ac_make level; ac_Integrate q rl fuel ws f b a res) = Ok r2 /\
    forall i, (i < q_fdim q)%nat -> nth i r2 0 = - nth i r1 0.
Proof.
  intros level q f a b ws res fuel Hlev Hfd Hf [Hm1 Hm32] Hmin Lw Lr Hfuel.
  set (M := (2 ^ (level - 1))%nat). assert (HM : (1 <= M)%nat) by (unfold M; pose proof (Nat.pow_nonzero 2 (level - 1) ltac:(lia)); lia).
  assert (EM : (2 ^ level = 2 * M)%nat) by (unfold M; replace level with (S (level - 1)) at 1 by lia; cbn; lia).
  rewrite (ac_make_ok level Hlev). cbn [obind]. rewrite EM.
  destruct (acc_run q M f a b HM Hfd Hf Hm1 Hm32 Hmin ws res fuel Lw Lr Hfuel) as (T & r1 & RF & E & _ & V).
  destruct (acc_run q M f b a HM Hfd Hf Hm1 Hm32 Hmin ws res fuel Lw Lr Hfuel) as (T' & r2 & RF' & E' & _ & V').
  exists r1, r2. split; auto. split; auto. intros i Hi. change (rd r2 i = - rd r1 i). rewrite V, V' by auto.
  assert (T' = mirror T) as ->.
  { eapply refined_unique; [exact RF'|]. eapply refined_mirror; [|exact RF]. intros d x y. unfold c_stop.
    replace (a - b) with (- (b - a)) by ring. apply adaptive_stop_mirror; auto; intros; unfold c_coarse, c_fine; apply cc_rule_mirror; lia. }
  apply mirror_leaves. intros. unfold c_fine. apply cc_rule_mirror. lia.
Qed.
Print Assumptions C29_adaptive_clenshaw_curtis_partial.
