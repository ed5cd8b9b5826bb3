(** Refutations for monotone components (C33, C36). *)
From Coq Require Import Reals ZArith Lra Psatz.
From Coquelicot Require Import Coquelicot.
From Verif Require Import Base SpecMulti SpecPoly SpecExpansion SpecQuad SpecRoot SpecMono MISetModel FixedSetModel FixedSetProofs PropFixed PolyModel PolyProofs
  LinProofs BijModel BijProofs PropPoly ExpansionModel ExpansionProofs ExpansionDeriv PropExpansion QuadModel QuadCC QuadWalk QuadSimpson QuadACC QuadProofs PropQuad
  RootModel RootProofs PropRoot MonoModel MonoProofs MonoComp PropMono PropMISet.
Local Open Scope R_scope.

(** From some point on every node u in a finite list of nonnegative numbers has (u y - 1)^2 >= 1. *)
Lemma far_nodes (l : list R) : (forall u, In u l -> 0 <= u) -> exists Y, forall y, Y <= y -> forall u, In u l -> 1 <= (u * y - 1) * (u * y - 1).
Proof.
  induction l as [|u l IH]; intros H; [exists 0; intros y _ u []|].
  destruct IH as (Y & HY); [intros; apply H; now right|].
  destruct (Req_dec u 0) as [->|Hu].
  - exists Y. intros y Hy u' [<-|Hi]; [rewrite Rmult_0_l; lra|auto].
  - assert (0 < u) by (specialize (H u (or_introl eq_refl)); lra).
    exists (Rmax Y (2 / u)). intros y Hy u' [<-|Hi].
    + assert (2 <= u * y); [|nra]. pose proof (Rmax_r Y (2 / u)).
      apply Rmult_le_reg_l with (/ u); [apply Rinv_0_lt_compat; auto|]. rewrite <- Rmult_assoc, Rinv_l by lra. unfold Rdiv in *. lra.
    + apply HY; auto. pose proof (Rmax_l Y (2 / u)). lra.
Qed.

Lemma rsum_ge_one (f : nat -> R) n j : (forall i, (i < n)%nat -> 0 <= f i) -> (j < n)%nat -> f j <= rsum f n.
Proof.
  induction n as [|n IH]; intros H Hj; [lia|]. cbn [rsum].
  assert (P : 0 <= rsum f n). { clear IH Hj. induction n as [|n IH]; cbn [rsum]; [lra|]. pose proof (H n ltac:(lia)). assert (0 <= rsum f n) by (apply IH; intros; apply H; lia). lra. }
  destruct (Nat.eq_dec j n) as [->|Hn]; [lra|]. pose proof (IH ltac:(intros; apply H; lia) ltac:(lia)). pose proof (H n ltac:(lia)). lra.
Qed.

Lemma rsum_le_n (f h : nat -> R) n : (forall i, (i < n)%nat -> f i <= h i) -> rsum f n <= rsum h n.
Proof. induction n as [|n IH]; intros H; cbn [rsum]; [lra|]. pose proof (H n ltac:(lia)). pose proof (IH ltac:(intros; apply H; lia)). lra. Qed.

(** The function the discretised component computes when its slope is -K (t - 1)^2. *)
Definition dip (pts wts : list R) (g : R -> R) (K x : R) : R :=
  rule_on pts wts 0 1 (fun s => x * g (- K * ((s * x - 1) * (s * x - 1)))).

Lemma dip_decreases (pts wts : list R) (g : R -> R) n : (1 <= n)%nat -> length pts = n -> length wts = n ->
  (forall i, (i < n)%nat -> -1 <= nth i pts 0 <= 1) -> 0 <= nth (n - 1) pts 0 -> (forall i, (i < n)%nat -> 0 < nth i wts 0) ->
  rsum (fun i => nth i wts 0) n = 2 -> (forall u, 0 < g u) -> (forall u, g u <= exp u) ->
  exists K x y, 0 < K /\ 0 < x < y /\ dip pts wts g K y < dip pts wts g K x.
Proof.
  intros Hn Lp Lw Hb Hlast Hw HS Gp Ge.
  set (u := fun i => (1 + nth i pts 0) / 2).
  destruct (far_nodes (map u (seq 0 n))) as (Y & HY).
  { intros z Hz. apply in_map_iff in Hz. destruct Hz as (i & <- & Hi). apply in_seq in Hi. unfold u. specialize (Hb i ltac:(lia)). lra. }
  assert (Hu : 0 < u (n - 1)%nat) by (unfold u; lra).
  set (x := / u (n - 1)%nat). assert (Hx : 0 < x) by (apply Rinv_0_lt_compat; auto).
  set (A := nth (n - 1) wts 0 / 2 * (x * g 0)).
  assert (HA : 0 < A). { unfold A. apply Rmult_lt_0_compat; [specialize (Hw (n - 1)%nat ltac:(lia)); lra|]. apply Rmult_lt_0_compat; auto. }
  assert (DX : forall K x, dip pts wts g K x = rsum (fun i => nth i wts 0 / 2 * (x * g (- K * ((u i * x - 1) * (u i * x - 1))))) n).
  { intros K z. unfold dip, rule_on, rule_sum. rewrite Lp, <- rsum_scal. apply rsum_ext. intros i _.
    replace ((0 + 1) / 2 + (1 - 0) / 2 * nth i pts 0) with (u i) by (unfold u; field). field. }
  set (y := Rmax Y (x + 1)). assert (Hy1 : Y <= y) by apply Rmax_l. assert (Hy2 : x + 1 <= y) by apply Rmax_r.
  set (K := y / A). assert (HK : 0 < K) by (unfold K; apply Rdiv_lt_0_compat; lra).
  exists K, x, y. split; auto. split; [lra|].
  apply Rlt_le_trans with A.
  - rewrite DX. apply Rle_lt_trans with (rsum (fun i => y * exp (- K) / 2 * nth i wts 0) n).
    + apply rsum_le_n. intros i Hi. pose proof (Hw i Hi) as Hwi.
      assert (1 <= (u i * y - 1) * (u i * y - 1)) by (apply (HY y Hy1); apply in_map, in_seq; lia).
      assert (g (- K * ((u i * y - 1) * (u i * y - 1))) <= exp (- K)).
      { eapply Rle_trans; [apply Ge|]. destruct (Rle_lt_or_eq_dec (- K * ((u i * y - 1) * (u i * y - 1))) (- K)) as [L|E]; [nra| |].
        - left. now apply exp_increasing. - right. now rewrite E. }
      replace (y * exp (- K) / 2 * nth i wts 0) with (nth i wts 0 / 2 * (y * exp (- K))) by field.
      apply Rmult_le_compat_l; [lra|]. apply Rmult_le_compat_l; lra.
    + rewrite rsum_scal, HS. replace (y * exp (- K) / 2 * 2) with (y * exp (- K)) by field.
      assert (E : y = K * A) by (unfold K; field; lra). rewrite E at 1.
      assert (K * exp (- K) < 1); [|nra].
      rewrite exp_Ropp. apply Rmult_lt_reg_r with (exp K); [apply exp_pos|]. rewrite Rmult_assoc, Rinv_l by (pose proof (exp_pos K); lra).
      pose proof (exp_ineq1 K ltac:(lra)). lra.
  - rewrite DX. eapply Rle_trans; [|apply (rsum_ge_one _ n (n - 1)); [|lia]].
    + cbv beta. unfold A. right. do 3 f_equal. unfold x. rewrite Rinv_r by lra. ring.
    + intros i Hi. cbv beta. apply Rmult_le_pos; [specialize (Hw i Hi); lra|]. apply Rmult_le_pos; [lra|]. left. apply Gp.
Qed.

(** The cubic Hermite expansion in one variable with derivative -K (x - 1)^2. *)
Definition cubic_alphas : list vec := [[0%nat]; [1%nat]; [2%nat]; [3%nat]].
Definition cubic_v (nz : bool) (k : nat) (x : R) : R := P ProbabilistHermite k x / norm_of ProbabilistHermite nz k.
Definition cubic_dv (nz : bool) (k : nat) (x : R) : R := DP ProbabilistHermite k x / norm_of ProbabilistHermite nz k.
Definition cubic_d2 (nz : bool) (k : nat) (x : R) : R := D2P ProbabilistHermite k x / norm_of ProbabilistHermite nz k.
Definition cubic_c (nz : bool) (K : R) : list R :=
  [0; - 2 * K * norm_of ProbabilistHermite nz 1; K * norm_of ProbabilistHermite nz 2; - K / 3 * norm_of ProbabilistHermite nz 3].

Lemma prob_norm_pos nz k : (k <= 3)%nat -> 0 < norm_of ProbabilistHermite nz k.
Proof.
  intros Hk. unfold norm_of. destruct nz; [|lra]. cbn [ProbabilistHermite Normalization]. apply sqrt_lt_R0. apply Rmult_lt_0_compat.
  - apply sqrt_lt_R0. pose proof PI_RGT_0. lra.
  - apply IZR_lt. do 4 (destruct k as [|k]; [vm_compute; reflexivity|]). lia.
Qed.

Lemma cubic_value nz K x : expansion (cubic_v nz) cubic_alphas (cubic_c nz K) [x] = - 2 * K * x + K * (x * x - 1) - K / 3 * (x * (x * x - 1) - 2 * x).
Proof.
  pose proof (prob_norm_pos nz 1 ltac:(lia)). pose proof (prob_norm_pos nz 2 ltac:(lia)). pose proof (prob_norm_pos nz 3 ltac:(lia)).
  unfold expansion, cubic_alphas, cubic_c, tensor, cubic_v. cbn [length rsum rprod nth Nat.eqb coord]. unfold coord. cbn [nth].
  revert H H0 H1. generalize (norm_of ProbabilistHermite nz 1), (norm_of ProbabilistHermite nz 2), (norm_of ProbabilistHermite nz 3). intros a b c Ha Hb Hc.
  assert (P1 : P ProbabilistHermite 1 x = x) by reflexivity.
  assert (P2 : P ProbabilistHermite 2 x = x * x - 1) by (rewrite P_SS; change (P ProbabilistHermite 0 x) with 1; rewrite P1; cbn; ring).
  assert (P3 : P ProbabilistHermite 3 x = x * (x * x - 1) - 2 * x) by (rewrite P_SS, P2, P1; cbn; ring).
  rewrite P1, P2, P3. field. repeat split; lra.
Qed.

Lemma cubic_slope nz K x : slope (cubic_v nz) cubic_alphas (cubic_c nz K) [x] = - K * ((x - 1) * (x - 1)).
Proof.
  unfold slope, partial. cbn [length Nat.sub upd coord]. unfold coord. cbn [nth].
  rewrite (Derive_ext _ (fun t => - 2 * K * t + K * (t * t - 1) - K / 3 * (t * (t * t - 1) - 2 * t))).
  - apply is_derive_unique. auto_derive; auto. field.
  - intros t. apply cubic_value.
Qed.
Definition cubic_set : fset := Eval vm_compute in val fx0 (f_total_order 1 3).

Lemma cubic_expansion nz : exists w, w_make cubic_set (poly_basis ProbabilistHermite nz) = Ok w /\
  expansion_of 1 3 cubic_alphas (cubic_v nz) (cubic_dv nz) (cubic_d2 nz) w.
Proof.
  eexists. split; [reflexivity|]. split; [lia|]. exists cubic_set, (poly_basis ProbabilistHermite nz).
  split; [|split; [|split; [|reflexivity]]].
  - split; [right; exists 3%nat; vm_compute; reflexivity|]. split; [reflexivity|].
    intros i Hi. change (f_Size cubic_set) with 4%nat in Hi. do 4 (destruct i as [|i]; [reflexivity|]). lia.
  - apply (array_diff (poly_basis ProbabilistHermite nz)). apply (poly_array_basis ProbabilistHermite nz 3 proper_prob).
  - intros al k Hin. cbn in Hin. repeat (destruct Hin as [<-|Hin]; [destruct k as [|[|k]]; cbn; lia|]). contradiction.
Qed.

Lemma posfunc_below_exp G : G = pf_exp \/ G = pf_softplus -> good_posfunc G /\ forall u, pf_eval G u <= exp u.
Proof.
  intros [->| ->]; (split; [apply exp_good || apply softplus_good|]); intros u.
  - right. reflexivity.
  - change (SoftPlus_Evaluate u <= exp u). rewrite softplus_eq. pose proof (exp_pos u). rewrite <- (ln_exp (exp u)) at 2.
    left. apply ln_increasing; [lra|]. pose proof (exp_ineq1 (exp u) ltac:(lra)). lra.
Qed.

(** Evaluate is not increasing, whatever the number of Clenshaw-Curtis points: for both positive
    functions, a one-dimensional cubic Hermite component (normalised or not) takes a smaller value at
    the larger of two positive inputs. *)
Theorem C33_refuted : forall (n : nat) (wts pts : list R) (G : posfunc) (nz : bool),
  (1 <= n)%nat -> GetRule n (repeat 0 n) (repeat 0 n) = Ok (wts, pts) -> G = pf_exp \/ G = pf_softplus ->
  exists f w c x y, f_total_order 1 3 = Ok f /\ w_make f (poly_basis ProbabilistHermite nz) = Ok w /\ length c = 4%nat /\ 0 < x < y /\
    forall (S : scratch) (cont : bool) (nugget : R), scratch_ok w 1 S ->
      exists tx ty, mc_Evaluate (MkMC w G (qr_clenshaw pts wts) cont nugget) S [x] c = Ok tx /\
        mc_Evaluate (MkMC w G (qr_clenshaw pts wts) cont nugget) S [y] c = Ok ty /\ ty < tx.
Proof.
  intros n wts pts G nz Hn ER HG. destruct (posfunc_below_exp G HG) as (GG & Ge).
  destruct (C26_clenshaw_curtis_rule n (repeat 0 n) (repeat 0 n) Hn (repeat_length _ _) (repeat_length _ _)) as (w' & p' & E & Lw & Lp & Hb & Hi & Hsy & Hw & _ & HS & _).
  rewrite ER in E. injection E as <- <-.
  assert (Hl : 0 <= nth (n - 1) pts 0).
  { pose proof (Hsy 0%nat ltac:(lia)) as H0. rewrite Nat.sub_0_r in H0. destruct (Nat.eq_dec n 1) as [->|].
    - cbn in *. lra. - pose proof (Hi 0%nat (n - 1)%nat ltac:(lia)). lra. }
  destruct (dip_decreases pts wts (pf_eval G) n Hn Lp Lw Hb Hl Hw HS (proj1 GG) Ge) as (K & x & y & HK & Hxy & D).
  destruct (cubic_expansion nz) as (w & EW & HE).
  exists cubic_set, w, (cubic_c nz K), x, y. split; [vm_compute; reflexivity|]. split; [exact EW|]. split; [reflexivity|]. split; auto.
  intros S cont nugget HSc.
  assert (V : forall z, mc_Evaluate (MkMC w G (qr_clenshaw pts wts) cont nugget) S [z] (cubic_c nz K) =
    Ok (dip pts wts (pf_eval G) K z + expansion (cubic_v nz) cubic_alphas (cubic_c nz K) [0])).
  { intros z. rewrite (C35_evaluate 1 3 cubic_alphas (cubic_v nz) (cubic_dv nz) (cubic_d2 nz) (MkMC w G (qr_clenshaw pts wts) cont nugget) S [z] (cubic_c nz K) pts wts); auto; [|lia].
    unfold mono_rule, dip. do 2 f_equal. apply rule_ext. intros s. unfold mono_integrand, last_of, with_last. cbn [length Nat.sub upd]. unfold coord. cbn [nth mc_G].
    rewrite cubic_slope. ring. }
  rewrite !V. do 2 eexists. split; [reflexivity|]. split; [reflexivity|]. lra.
Qed.
Print Assumptions C33_refuted.

(** ** C36 *)

Definition const_set : fset := Eval vm_compute in val fx0 (f_total_order 1 0).
Lemma const_expansion nz : exists w, w_make const_set (poly_basis ProbabilistHermite nz) = Ok w /\
  expansion_of 1 0 [[0%nat]] (cubic_v nz) (cubic_dv nz) (cubic_d2 nz) w.
Proof.
  eexists. split; [reflexivity|]. split; [lia|]. exists const_set, (poly_basis ProbabilistHermite nz).
  split; [|split; [|split; [|reflexivity]]].
  - split; [right; exists 0%nat; vm_compute; reflexivity|]. split; [reflexivity|].
    intros i Hi. change (f_Size const_set) with 1%nat in Hi. destruct i as [|i]; [reflexivity|]. lia.
  - apply (array_diff (poly_basis ProbabilistHermite nz)). apply (poly_array_basis ProbabilistHermite nz 0 proper_prob).
  - intros al k Hin. cbn in Hin. repeat (destruct Hin as [<-|Hin]; [destruct k as [|[|k]]; cbn; lia|]). contradiction.
Qed.

Lemma const_rule pts wts g nz c0 x : length wts = length pts -> rsum (fun i => nth i wts 0) (length pts) = 2 ->
  mono_rule pts wts g (cubic_v nz) [[0%nat]] 0 [c0] [x] = g 0 * x + c0.
Proof.
  intros LW HS. unfold mono_rule. assert (X : forall z, expansion (cubic_v nz) [[0%nat]] [c0] [z] = c0).
  { intros z. unfold expansion, tensor, coord. cbn. ring. }
  unfold with_last. cbn [length Nat.sub upd]. rewrite X. f_equal.
  rewrite (rule_ext pts wts _ (fun s => 0 + g 0 * x)).
  - rewrite rule_const by auto. unfold rule_on, rule_sum. rewrite (rsum_ext _ (fun _ => 0)) by (intros; ring). rewrite rsum_0. ring.
  - intros s. unfold mono_integrand, last_of, with_last, slope, partial, coord. cbn [length Nat.sub upd nth].
    rewrite (Derive_ext _ (fun _ => c0)) by (intros; apply X). rewrite Derive_const. ring.
Qed.

(** With any positive nugget the round trip misses by as much as one likes: for a constant expansion,
    where Evaluate is affine, any Clenshaw-Curtis rule and any distance D up to 2^127 there is an
    input x for which Inverse, started at x itself, reports success with a value further than D
    from x. *)
Theorem C36_nugget_refuted : forall (n : nat) (wts pts : list R) (G : posfunc) (nz cont : bool) (nugget c0 D : R),
  (1 <= n)%nat -> GetRule n (repeat 0 n) (repeat 0 n) = Ok (wts, pts) -> G = pf_exp \/ G = pf_softplus ->
  0 < nugget -> 0 <= D <= 2 ^ 127 ->
  exists f w x, f_total_order 1 0 = Ok f /\ w_make f (poly_basis ProbabilistHermite nz) = Ok w /\
    forall S, scratch_ok w 1 S -> let C := MkMC w G (qr_clenshaw pts wts) cont nugget in
      (exists m, 0 < m /\ forall x, mc_Evaluate C S [x] [c0] = Ok (m * x + c0)) /\
      exists y z, mc_Evaluate C S [x] [c0] = Ok y /\ mc_Inverse C S [x] y [c0] None None = Ok (Some z, 0%Z) /\ D < Rabs (z - x).
Proof.
  intros n wts pts G nz cont nugget c0 D Hn ER HG Hv HD. destruct (posfunc_below_exp G HG) as (GG & Ge).
  destruct (C26_clenshaw_curtis_rule n (repeat 0 n) (repeat 0 n) Hn (repeat_length _ _) (repeat_length _ _)) as (w' & p' & E & Lw & Lp & _ & _ & _ & _ & _ & HS & _).
  rewrite ER in E. injection E as <- <-. assert (LW : length wts = length pts) by lia. rewrite <- Lp in HS.
  set (g0 := pf_eval G 0).
  assert (Hg : / 2 < g0).
  { unfold g0. destruct HG as [->| ->].
    - change (/ 2 < exp 0). rewrite exp_0. lra.
    - change (/ 2 < SoftPlus_Evaluate 0). rewrite softplus_eq, exp_0. replace (1 + 1) with 2 by ring. apply ln_lt_2. }
  destruct (const_expansion nz) as (w & EW & HE).
  set (x := (D + 1) * (g0 + nugget) / nugget).
  exists const_set, w, x. split; [vm_compute; reflexivity|]. split; [exact EW|]. intros S HSc C.
  assert (V : forall x, mc_Evaluate C S [x] [c0] = Ok (g0 * x + c0)).
  { intros z. rewrite (C35_evaluate 1 0 [[0%nat]] (cubic_v nz) (cubic_dv nz) (cubic_d2 nz) C S [z] [c0] pts wts); auto.
    cbn [C mc_G]. rewrite const_rule; auto. }
  split; [exists g0; split; [lra|auto]|].
  assert (FE : forall z, mono_rule pts wts (pf_eval (mc_G C)) (cubic_v nz) [[0%nat]] 0 [c0] (on_line 1 [x] z) + mc_nugget C * z = (g0 + nugget) * z + c0).
  { intros z. unfold on_line. cbn [Nat.sub firstn app C mc_G mc_nugget]. rewrite const_rule by auto. fold g0. ring. }
  assert (T52 : / 2 ^ 52 < / 10 ^ 6).
  { apply Rinv_lt_contravar; [|lra]. apply Rmult_lt_0_compat; apply pow_lt; lra. }
  assert (T1 : Rpower 2 (-1074) <= / 10 ^ 6).
  { apply Rle_trans with (/ 2 ^ 52); [|lra]. rewrite <- (Rpower_pow 52) by lra. rewrite <- Rpower_Ropp. apply Rle_Rpower; [lra|]. rewrite INR_IZR_INZ. cbn. lra. }
  assert (T0 : 0 < / 10 ^ 6) by (apply Rinv_0_lt_compat, pow_lt; lra).
  assert (T3 : / 10 ^ 6 < / 10) by (apply Rinv_lt_contravar; lra).
  assert (RX : (g0 + nugget) * (x - (D + 1)) + c0 = g0 * x + c0) by (unfold x; field; lra).
  destruct (C36_solves_with_nugget 1 0 [[0%nat]] (cubic_v nz) (cubic_dv nz) (cubic_d2 nz) C S [x] [c0] pts wts (g0 * x + c0) None None)
    as (res & info & EI & _ & H0 & _ & H1); auto; try (cbn; lia).
  - intros z. eapply continuous_ext; [intros; symmetry; apply FE|]. apply (ex_derive_continuous (K := R_AbsRing) (V := R_NormedModule) (fun z => (g0 + nugget) * z + c0)). auto_derive. auto.
  - intros a b Hab. rewrite !FE. nra.
  - assert (info = 0%Z).
    { apply H1.
      - intros a b Hab. rewrite !FE. nra.
      - rewrite !FE. unfold last_of, coord. cbn [length Nat.sub nth].
        replace (2 ^ 128) with (2 * 2 ^ 127) by (rewrite <- (tech_pow_Rmult 2 127); reflexivity).
        assert (2 <= 2 ^ 127) by (rewrite <- (pow_1 2) at 1; apply Rle_pow; [lra|lia]). generalize dependent (2 ^ 127). intros P HP HP1.
        rewrite <- RX. split; apply Rplus_le_compat_r; apply Rmult_le_compat_l; lra. }
    subst info. destruct (H0 eq_refl) as (z & root & -> & Er & A). exists (g0 * x + c0), z. split; [apply V|]. split; [exact EI|].
    rewrite FE in Er. rewrite FE in A. assert (root = x - (D + 1)). { rewrite <- RX in Er. apply Rplus_eq_reg_r in Er. apply Rmult_eq_reg_l in Er; lra. }
    assert (HZ : Rabs (z - root) < 1).
    { destruct A as [A|A]; [|lra]. rewrite <- RX in A. subst root.
      replace ((g0 + nugget) * z + c0 - ((g0 + nugget) * (x - (D + 1)) + c0)) with ((g0 + nugget) * (z - (x - (D + 1)))) in A by ring.
      rewrite Rabs_mult, (Rabs_right (g0 + nugget)) in A by lra. pose proof (Rabs_pos (z - (x - (D + 1)))). nra. }
    subst root. apply Rabs_def2 in HZ. destruct HZ. rewrite Rabs_left by lra. lra.
Qed.
Print Assumptions C36_nugget_refuted.

(** Beside the theorems of PropMono: a two-dimensional component over a compressed fixed set, with
    normalised Hermite polynomials, softplus and a five-point rule, and its scratch memory, meets
    the hypotheses of C32, C34, C35, C62 and C63; the basis derivatives are continuous (C33). *)
Example mono_example : exists (v dv d2 : nat -> R -> R) (w : worker) (wts pts : list R) (S : scratch),
  expansion_of 2 3 ex_alphas v dv d2 w /\ length ex_alphas = 9%nat /\ good_posfunc pf_softplus /\
  GetRule 5 (repeat 0 5) (repeat 0 5) = Ok (wts, pts) /\ length wts = length pts /\ rsum (fun i => nth i wts 0) (length pts) = 2 /\
  scratch_ok w (2 + length ex_alphas + 2) S /\ (length ex_alphas <= length (sc_work S))%nat /\
  (forall x, twice_at dv d2 3 x) /\ (forall k x, (k <= 3)%nat -> continuous (dv k) x) /\ exact_on_constants (qr_clenshaw pts wts) (sc_ws S).
Proof.
  destruct (C26_clenshaw_curtis_rule 5 (repeat 0 5) (repeat 0 5) ltac:(lia) eq_refl eq_refl) as (wts & pts & E & Lw & Lp & _ & _ & _ & _ & _ & HS & _).
  destruct C24_example as (F1 & _ & D1 & _).
  pose proof (array_diff _ _ _ _ _ (poly_array_basis ProbabilistHermite true 3 proper_prob)) as (DB & TW).
  assert (EW : exists w, w_make fxc (poly_basis ProbabilistHermite true) = Ok w) by (eexists; reflexivity). destruct EW as (w & EW).
  exists (cubic_v true), (cubic_dv true), (cubic_d2 true), w, wts, pts, (MkScr (repeat 0 (w_CacheSize w)) (repeat 0 13) (repeat 0 13) (repeat 0 9) []).
  split; [|split; [reflexivity|split; [apply softplus_good|split; [exact E|split; [lia|split; [rewrite Lp; exact HS|]]]]]].
  - split; [lia|]. exists fxc, (poly_basis ProbabilistHermite true). auto.
  - split; [|split; [|split; [exact TW|split]]].
    + split; [|split]; cbn [sc_cache sc_res sc_ws]; rewrite repeat_length; auto; cbn [ex_alphas length Nat.add]; lia.
    + cbn [sc_work]. rewrite repeat_length. cbn [ex_alphas length]. lia.
    + intros k x Hk. apply (ex_derive_continuous (K := R_AbsRing) (V := R_NormedModule) (cubic_dv true k) x). eexists. apply (TW x k Hk).
    + apply C33_rules_exact_on_constants; [lia|rewrite Lp; exact HS|cbn [sc_ws]; rewrite repeat_length; lia].
Qed.

(** An affine component in one dimension meets the hypotheses of C33_affine_partial and of
    C36_round_trip_partial, where F(x) = g(0) x + c0. *)
Example mono_affine_example : exists w S pts wts,
  let C := MkMC w pf_exp (qr_clenshaw pts wts) true 0 in
  expansion_of 1 0 [[0%nat]] (cubic_v true) (cubic_dv true) (cubic_d2 true) (mc_w C) /\ exact_on_constants (mc_Q C) (sc_ws S) /\
  (forall t, slope (cubic_v true) [[0%nat]] [3] (with_last [1] t) = slope (cubic_v true) [[0%nat]] [3] [1]) /\
  (forall x, mc_Evaluate C S (on_line 1 [1] x) [3] = Ok (x + 3)) /\
  (forall x, continuous (fun x => x + 3) x) /\ strictly_increasing (fun x => x + 3) /\ nowhere_flat (fun x => x + 3).
Proof.
  destruct (C26_clenshaw_curtis_rule 5 (repeat 0 5) (repeat 0 5) ltac:(lia) eq_refl eq_refl) as (wts & pts & E & Lw & Lp & _ & _ & _ & _ & _ & HS & _).
  destruct (const_expansion true) as (w & EW & HE). rewrite <- Lp in HS.
  exists w, (MkScr (repeat 0 (w_CacheSize w)) [0] [0] [] []), pts, wts. intros C.
  assert (SL : forall t, slope (cubic_v true) [[0%nat]] [3] [t] = 0).
  { intros t. unfold slope, partial, coord. cbn [length Nat.sub upd nth]. rewrite (Derive_ext _ (fun _ => 3)); [apply Derive_const|].
    intros z. unfold expansion, tensor, coord. cbn. ring. }
  split; [exact HE|]. split; [apply C33_rules_exact_on_constants; [lia|exact HS|cbn; lia]|].
  split; [intros t; unfold with_last; cbn [length Nat.sub upd]; now rewrite !SL|]. split; [|split; [|split]].
  - intros x. rewrite (C35_evaluate 1 0 [[0%nat]] (cubic_v true) (cubic_dv true) (cubic_d2 true) C _ _ [3] pts wts); auto; try lia.
    + unfold on_line. cbn [Nat.sub firstn app C mc_G]. rewrite const_rule by (auto; lia). change (pf_eval pf_exp 0) with (exp 0). rewrite exp_0. f_equal. ring.
    + split; [|split]; cbn; rewrite ?repeat_length; auto.
  - intros x. apply (ex_derive_continuous (K := R_AbsRing) (V := R_NormedModule) (fun x => x + 3) x). auto_derive. auto.
  - intros a b H. lra.
  - intros a b H. lra.
Qed.
