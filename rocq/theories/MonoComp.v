(** Component-level facts: the routines of MonotoneComponent with a Clenshaw-Curtis rule, and the
    continuous derivatives. *)
From Coq Require Import Reals Lra.
From Coquelicot Require Import Coquelicot.
From Verif Require Import Base SpecMulti SpecPoly SpecExpansion SpecQuad SpecMono MISetModel FixedSetModel FixedSetProofs PolyModel PolyProofs LinProofs BijModel
  ExpansionModel ExpansionProofs ExpansionDeriv PropExpansion QuadModel QuadCC QuadProofs RootModel MonoModel MonoProofs.
Local Open Scope R_scope.

Section Comp.
Variables (d N : nat) (alphas : list vec) (mx : list nat) (B : basis) (v dv d2 : nat -> R -> R) (G : posfunc).
Hypothesis Hd : (0 < d)%nat.
Hypothesis Hmx : length mx = d.
Hypothesis HN : forall j, (j < d)%nat -> (nth j mx 0 <= N)%nat.
Hypothesis HB0 : fills_values B v N.
Hypothesis HB1 : fills_derivs B v dv N.
Hypothesis HB2 : fills_second B v dv d2 N.
Hypothesis B3 : forall k x, (k <= N)%nat -> is_derive (v k) x (dv k x).
Hypothesis M3 : forall al, In al alphas -> length al = d /\ forall k, (k < d)%nat -> (nth k al 0 <= nth k mx 0)%nat.
Hypothesis M4 : forall al, In al alphas -> length al = d /\ forall k, (k < d)%nat -> (nth k al 0 <= N)%nat.
Notation W := (the_worker d alphas mx B).
Notation Tm := (Tm v dv d2).
Notation Ex := (Ex v dv d2 alphas).
Notation g := (pf_eval G).
Notation dg := (pf_deriv G).
Notation d2g := (pf_deriv2 G).
Hypothesis G1 : forall x, is_derive g x (dg x).
Hypothesis G2 : forall x, is_derive dg x (d2g x).
Let o1 := inc ord0 (d - 1).
Let o2 := inc (inc ord0 (d - 1)) (d - 1).
Notation out := (mi_out d alphas v dv d2 G).
Notation pre := (pre d mx v dv).

Lemma out0 xd nugget c p s t : nth 0 (out xd nugget c p s t) 0 = xd * (g (Ex o1 c p) + nugget).
Proof. reflexivity. Qed.

Lemma out_integ xd nugget c pt s t : length pt = d ->
  nth 0 (out xd nugget c (upd pt (d - 1) (s * xd)) s t) 0 = mono_integrand g v alphas nugget c (with_last pt xd) s.
Proof.
  intros L. rewrite out0. unfold with_last. rewrite L. rewrite (integ_is d N alphas v dv d2 g Hd M4 B3) by (rewrite upd_length; auto).
  rewrite coord_upd_eq by lia. rewrite upd_upd_eq. reflexivity.
Qed.

Lemma with_last_same pt : length pt = d -> with_last pt (coord pt (d - 1)) = pt.
Proof. intros L. unfold with_last. rewrite L. apply upd_same. lia. Qed.

Lemma last_get (pt : list R) : length pt = d -> raw_get pt (length pt - 1) = Ok (coord pt (d - 1)).
Proof. intros L. rewrite (raw_get_ok pt _ 0) by lia. rewrite L. reflexivity. Qed.

(** *** A fixed rule *)
Section Fixed.
Variables (pts wts : list R).
Hypothesis LW : length wts = length pts.
Notation T nugget := (mono_rule pts wts g v alphas nugget).

Lemma tol1 : midpoint_tol <= 1 - 0.
Proof. unfold midpoint_tol. assert (/ 10 ^ 14 <= / 1) by (apply Rinv_le_contravar; [lra|apply pow_R1_Rle; lra]). lra. Qed.

Lemma cc_run (f : R -> list R) n ws res : (forall x, length (f x) = n) -> (n <= length res)%nat -> (n <= length ws)%nat ->
  exists r, qr_int (qr_clenshaw pts wts) n ws f 0 1 res = Ok r /\ length r = length res /\
    forall k, (k < n)%nat -> nth k r 0 = rule_on pts wts 0 1 (fun s => nth k (f s) 0).
Proof.
  intros Hf L1 L2. cbn [qr_clenshaw qr_int].
  destruct (cc_Integrate_long pts wts n ws f 0 1 res) as (r & E & L & V); auto using tol1.
  exists r. split; auto.
Qed.

Lemma single_cc C S cache pt xd c nugget : mc_w C = W -> mc_G C = G -> mc_Q C = qr_clenshaw pts wts ->
  pre false cache pt -> length pt = d -> length c = length alphas -> (1 <= length (sc_ws S))%nat ->
  mc_EvaluateSingle C S cache pt xd c nugget = Ok (T nugget c (with_last pt xd)).
Proof.
  intros EW EG EQ P Lp Lc Ls.
  destruct (cc_run (mi_fun W G pt xd c DNone nugget cache []) 1 (sc_ws S) [0]) as (r & E & L & V); auto.
  { intros s. rewrite (mi_fun_ok d N alphas mx B v dv d2 G) by (auto; try discriminate; left; reflexivity). reflexivity. }
  rewrite (EvaluateSingle_ok d N alphas mx B v dv d2 G Hd Hmx HN HB0 HB1 HB2 M3 C S cache pt xd c nugget r) by (auto; rewrite ?EQ, ?L; auto).
  f_equal. unfold mono_rule. f_equal.
  - rewrite V by lia. apply rule_ext. intros s. rewrite (mi_fun_ok d N alphas mx B v dv d2 G) by (auto; try discriminate; left; reflexivity).
    apply out_integ. auto.
  - rewrite <- expansion_Ex. unfold with_last at 1 2. rewrite upd_length, Lp, upd_upd_eq. reflexivity.
Qed.

(** Integrate with derivatives, at the point's own last coordinate. *)
Lemma run_cc C S cache pt c t : mc_w C = W -> mc_G C = G -> mc_Q C = qr_clenshaw pts wts -> allowed t ->
  pre (is_in t) cache pt -> length pt = d -> length c = length alphas -> (t = DMixed -> length alphas <= length (sc_work S))%nat ->
  (mi_size W d t <= length (sc_res S))%nat -> (mi_size W d t <= length (sc_ws S))%nat ->
  exists r cache', mi_run C S cache pt c t = Ok (r, cache') /\ pre (is_in t) cache' pt /\ length r = length (sc_res S) /\
    forall k, (k < mi_size W d t)%nat -> nth k r 0 =
      rule_on pts wts 0 1 (fun s => nth k (out (coord pt (d - 1)) (mc_nugget C) c (upd pt (d - 1) (s * coord pt (d - 1))) s t) 0).
Proof.
  intros EW EG EQ Ht P Lp Lc Lk L1 L2. unfold mi_run. rewrite last_get by auto. cbn [obind]. set (xd := coord pt (d - 1)).
  rewrite EW, EG.
  assert (Fo : forall s, mi_fun W G pt xd c t (mc_nugget C) cache (sc_work S) s = out xd (mc_nugget C) c (upd pt (d - 1) (s * xd)) s t)
    by (intros s; apply (mi_fun_ok d N alphas mx B v dv d2 G); auto).
  destruct (cc_run (mi_fun W G pt xd c t (mc_nugget C) cache (sc_work S)) (mi_size W d t) (sc_ws S) (sc_res S)) as (r & E & L & V); auto.
  { intros s. rewrite Fo. destruct (mi_size_out d alphas mx B v dv d2 G xd (mc_nugget C) c (upd pt (d - 1) (s * xd)) s t) as [|Hm]; auto.
    subst t. destruct Ht as [Z|[Z|[Z|[Z|[Z|[]]]]]]; discriminate. }
  destruct (mi_integrate_ok d N alphas mx B v dv d2 G Hd Hmx HN HB0 HB1 HB2 M3 t (mc_Q C) pt xd c (mc_nugget C) (sc_nodes S) cache (sc_work S) (sc_ws S) (sc_res S) r)
    as (c' & E1 & P1); auto. { rewrite EQ. exact E. }
  exists r, c'. split; auto. split; auto. split; auto. intros k Hk. rewrite V by auto. apply rule_ext. intros s. rewrite Fo. reflexivity.
Qed.

Lemma at_zero (c pt : list R) : length pt = d -> Ex ord0 c (upd pt (d - 1) 0) = expansion v alphas c (with_last pt 0).
Proof. intros L. rewrite <- expansion_Ex. unfold with_last. rewrite L. reflexivity. Qed.

Lemma run0 nugget c pt t : length pt = d ->
  rule_on pts wts 0 1 (fun s => nth 0 (out (coord pt (d - 1)) nugget c (upd pt (d - 1) (s * coord pt (d - 1))) s t) 0) +
    Ex ord0 c (upd pt (d - 1) 0) = T nugget c pt.
Proof.
  intros L. rewrite at_zero by auto. unfold mono_rule. f_equal. apply rule_ext. intros s. rewrite out_integ by auto.
  rewrite with_last_same by auto. reflexivity.
Qed.

(** Partial derivatives of the rule. *)
Definition nodes_twice (xd : R) : Prop := forall t, In t pts -> twice_at dv d2 N ((1 + t) / 2 * xd).

Lemma partial_plus_e (F H : list R -> R) j x a b : is_partial F j x a -> is_partial H j x b -> is_partial (fun x => F x + H x) j x (a + b).
Proof. intros A Bb. unfold is_partial in *. apply (is_derive_plus (V := R_NormedModule) _ _ _ _ _ A Bb). Qed.

Lemma T_last nugget (c pt : list R) : length pt = d -> nodes_twice (coord pt (d - 1)) ->
  is_partial (T nugget c) (d - 1) pt
    (rule_on pts wts 0 1 (fun s => diag_value d alphas v dv d2 g dg nugget c (upd pt (d - 1) (s * coord pt (d - 1))) (coord pt (d - 1)) s)).
Proof.
  intros L HT. unfold mono_rule.
  match goal with |- is_partial _ _ _ ?z => replace z with (z + 0) by ring end.
  apply partial_plus_e.
  - apply (rule_partial pts wts (fun x s => mono_integrand g v alphas nugget c x s)
      (fun s => diag_value d alphas v dv d2 g dg nugget c (upd pt (d - 1) (s * coord pt (d - 1))) (coord pt (d - 1)) s)).
    intros t Ht. apply (integ_last d N alphas v dv d2 g dg Hd M4 B3 G1); auto.
  - unfold is_partial. apply is_derive_ext with (f := fun _ => expansion v alphas c (with_last pt 0)).
    + intros t. unfold with_last. rewrite upd_length, L, upd_upd_eq. reflexivity.
    + apply (is_derive_const (V := R_NormedModule)).
Qed.

Lemma T_leading nugget (c pt : list R) j : length pt = d -> (j < d - 1)%nat ->
  is_partial (T nugget c) j pt
    (rule_on pts wts 0 1 (fun s => let p := upd pt (d - 1) (s * coord pt (d - 1)) in Ex (inc o1 j) c p * (coord pt (d - 1) * dg (Ex o1 c p)))
     + Ex (inc ord0 j) c (upd pt (d - 1) 0)).
Proof.
  intros L Hj. unfold mono_rule. apply partial_plus_e.
  - apply (rule_partial pts wts (fun x s => mono_integrand g v alphas nugget c x s)
      (fun s => let p := upd pt (d - 1) (s * coord pt (d - 1)) in Ex (inc o1 j) c p * (coord pt (d - 1) * dg (Ex o1 c p)))).
    intros t Ht. cbv zeta. apply (integ_leading d N alphas v dv d2 g dg Hd M4 B3 G1); auto.
  - assert (H : is_partial (Ex ord0 c) j (upd pt (d - 1) 0) (Ex (inc ord0 j) c (upd pt (d - 1) 0))).
    { apply (Ex_partial v dv d2 N B3 alphas ord0 c _ j d); auto; try lia; rewrite ?upd_length; auto; unfold ord0; lia. }
    unfold is_partial in *. rewrite coord_upd_neq in H by lia. apply is_derive_ext with (2 := H).
    intros t. rewrite <- at_zero by (rewrite upd_length; auto). rewrite upd_upd_comm by lia. reflexivity.
Qed.

Lemma T_coeff nugget (c pt : list R) i : length pt = d -> length c = length alphas -> (i < length alphas)%nat ->
  is_partial (fun c => T nugget c pt) i c
    (rule_on pts wts 0 1 (fun s => let p := upd pt (d - 1) (s * coord pt (d - 1)) in
        Tm o1 (nth i alphas []) p * (coord pt (d - 1) * dg (Ex o1 c p)))
     + Tm ord0 (nth i alphas []) (upd pt (d - 1) 0)).
Proof.
  intros L Lc Hi. unfold mono_rule. apply partial_plus_e.
  - apply (rule_partial pts wts (fun c s => mono_integrand g v alphas nugget c pt s)
      (fun s => let p := upd pt (d - 1) (s * coord pt (d - 1)) in Tm o1 (nth i alphas []) p * (coord pt (d - 1) * dg (Ex o1 c p)))).
    intros t Ht. cbv zeta. apply (integ_coeff d N alphas v dv d2 g dg Hd M4 B3 G1); auto.
  - pose proof (Ex_coeff v dv d2 alphas ord0 c (upd pt (d - 1) 0) i Lc Hi) as H.
    unfold is_partial in *. apply is_derive_ext with (2 := H). intros t. apply at_zero. auto.
Qed.

Lemma T_mixed nugget (c pt : list R) i : length pt = d -> length c = length alphas -> (i < length alphas)%nat ->
  nodes_twice (coord pt (d - 1)) ->
  is_partial (fun c => partial (T nugget c) (d - 1) pt) i c
    (rule_on pts wts 0 1 (fun s => let xd := coord pt (d - 1) in let p := upd pt (d - 1) (s * xd) in
      (xd * s * Ex o2 c p * d2g (Ex o1 c p) + dg (Ex o1 c p)) * Tm o1 (nth i alphas []) p + Tm o2 (nth i alphas []) p * (xd * s * dg (Ex o1 c p)))).
Proof.
  intros L Lc Hi HT.
  apply is_partial_ext with (F := fun c => rule_on pts wts 0 1 (fun s => diag_value d alphas v dv d2 g dg nugget c (upd pt (d - 1) (s * coord pt (d - 1))) (coord pt (d - 1)) s)).
  { intros c0. symmetry. apply is_partial_unique. apply T_last; auto. }
  apply (rule_partial pts wts (fun c s => diag_value d alphas v dv d2 g dg nugget c (upd pt (d - 1) (s * coord pt (d - 1))) (coord pt (d - 1)) s)
   (fun s => let xd := coord pt (d - 1) in let p := upd pt (d - 1) (s * xd) in
      (xd * s * Ex o2 c p * d2g (Ex o1 c p) + dg (Ex o1 c p)) * Tm o1 (nth i alphas []) p + Tm o2 (nth i alphas []) p * (xd * s * dg (Ex o1 c p)))).
  intros t Ht. cbv zeta. apply (diag_coeff d) with (1 := Hd); auto.
Qed.

(** The routines. *)
Variables (C : component) (S : scratch).
Hypothesis EW : mc_w C = W.
Hypothesis EG : mc_G C = G.
Hypothesis EQ : mc_Q C = qr_clenshaw pts wts.
Hypothesis Room : room d mx (sc_cache S).
Definition sized (t : deriv_type) : Prop :=
  (mi_size W d t <= length (sc_res S))%nat /\ (mi_size W d t <= length (sc_ws S))%nat /\ (t = DMixed -> length alphas <= length (sc_work S))%nat.
Variables (c pt : list R).
Hypothesis Lp : length pt = d.
Hypothesis Lc : length c = length alphas.
Notation xd := (coord pt (d - 1)).
Notation nu := (mc_nugget C).

Lemma Evaluate_cc : (1 <= length (sc_ws S))%nat -> mc_Evaluate C S pt c = Ok (T 0 c pt).
Proof.
  intros LS. unfold mc_Evaluate. rewrite EW. destruct (pre_fill1 d N alphas mx B v dv Hd Hmx HN HB0 HB1 DNone (sc_cache S) pt Room Lp) as (c1 & E & P).
  rewrite E. cbn [obind]. change (wdim W) with d. rewrite (raw_get_ok pt _ 0) by lia. cbn [obind].
  rewrite single_cc by auto. rewrite with_last_same by auto. reflexivity.
Qed.

Ltac run t LK LR LS P1 r c2 E2 P2 Lr Vr :=
  destruct (run_cc C S _ pt c t EW EG EQ ltac:(cbn; tauto) P1 Lp Lc LK LR LS) as (r & c2 & E2 & P2 & Lr & Vr).

Lemma Discrete_cc : sized DDiagonal -> mc_DiscreteDerivative C S pt c =
  Ok (T nu c pt, rule_on pts wts 0 1 (fun s => diag_value d alphas v dv d2 g dg nu c (upd pt (d - 1) (s * xd)) xd s)).
Proof.
  intros (LR & LS & LK). unfold mc_DiscreteDerivative. rewrite EW. destruct (pre_fill1 d N alphas mx B v dv Hd Hmx HN HB0 HB1 DNone (sc_cache S) pt Room Lp) as (c1 & E & P).
  rewrite E. cbn [obind]. run DDiagonal LK LR LS P r c2 E2 P2 Lr Vr. rewrite E2. cbn [obind fst snd].
  pose proof LR as L2. cbn [mi_size] in L2, Vr. rewrite (raw_get_ok r 0 0), (raw_get_ok r 1 0) by lia. cbn [obind].
  destruct (pre_fill2 d N alphas mx B v dv d2 Hd Hmx HN HB0 HB1 HB2 DNone false c2 pt 0 P2 Lp) as (c3 & E3 & _ & _ & V & _).
  rewrite E3. cbn [obind]. rewrite (Evaluate_ok d alphas mx B v dv d2 Hd M3 c3 (upd pt (d - 1) 0)); auto. cbn [obind].
  rewrite !Vr by lia. rewrite run0 by auto. reflexivity.
Qed.

Lemma Coeff_cc jac : sized DParameters -> length jac = length alphas ->
  mc_CoeffJacobian C S pt c jac = Ok (T nu c pt,
    map (fun i => Tm ord0 (nth i alphas []) (upd pt (d - 1) 0) +
       rule_on pts wts 0 1 (fun s => let p := upd pt (d - 1) (s * xd) in Tm o1 (nth i alphas []) p * (xd * dg (Ex o1 c p)))) (seq 0 (length alphas))).
Proof.
  intros (LR & LS & LK) Lj. unfold mc_CoeffJacobian. rewrite EW. destruct (pre_fill1 d N alphas mx B v dv Hd Hmx HN HB0 HB1 DNone (sc_cache S) pt Room Lp) as (c1 & E & P).
  rewrite E. cbn [obind]. run DParameters LK LR LS P r c2 E2 P2 Lr Vr. rewrite E2. cbn [obind fst snd].
  pose proof LR as L2. cbn [mi_size] in L2, Vr. rewrite size_W in L2, Vr. rewrite (raw_get_ok r 0 0) by lia. cbn [obind].
  destruct (pre_fill2 d N alphas mx B v dv d2 Hd Hmx HN HB0 HB1 HB2 DNone false c2 pt 0 P2 Lp) as (c3 & E3 & _ & _ & V & _).
  rewrite E3. cbn [obind]. rewrite (CoeffDerivative_ok d alphas mx B v dv d2 Hd M3 c3 (upd pt (d - 1) 0)); auto; [|lia]. cbn [obind fst snd].
  rewrite fill_all by auto. rewrite Lc.
  rewrite (loop_fill _ (fun i => Tm ord0 (nth i alphas []) (upd pt (d - 1) 0) + nth (i + 1) r 0)); [|rewrite len_map_seq; auto|].
  2:{ intros i l' Hi Ll En. rewrite len_map_seq in Ll. rewrite (raw_get_ok l' i 0) by lia. cbn [obind]. rewrite (raw_get_ok r _ 0) by lia. cbn [obind].
      rewrite En, nth_map_seq by auto. reflexivity. }
  cbn [obind]. rewrite fill_all by apply len_map_seq. rewrite Vr by lia. rewrite run0 by auto. do 2 f_equal. apply map_ext_in.
  intros i Hi. apply in_seq in Hi. f_equal. rewrite Vr by lia. apply rule_ext. intros s. rewrite Nat.add_1_r. unfold mi_out. cbn [nth].
  cbn [mi_rest]. rewrite nth_map_seq by lia. reflexivity.
Qed.

Lemma Input_cc jac : sized DInput -> length jac = d ->
  mc_InputJacobian C S pt c jac = Ok (T nu c pt,
    map (fun j => if (j =? d - 1)%nat then rule_on pts wts 0 1 (fun s => diag_value d alphas v dv d2 g dg nu c (upd pt (d - 1) (s * xd)) xd s)
       else Ex (inc ord0 j) c (upd pt (d - 1) 0) +
       rule_on pts wts 0 1 (fun s => let p := upd pt (d - 1) (s * xd) in Ex (inc o1 j) c p * (xd * dg (Ex o1 c p)))) (seq 0 d)).
Proof.
  intros (LR & LS & LK) Lj. unfold mc_InputJacobian. rewrite EW. destruct (pre_fill1 d N alphas mx B v dv Hd Hmx HN HB0 HB1 DInput (sc_cache S) pt Room Lp) as (c1 & E & P).
  change (wdim W) with d.
  rewrite E. cbn [obind]. run DInput LK LR LS P r c2 E2 P2 Lr Vr. rewrite E2. cbn [obind fst snd].
  pose proof LR as L2. cbn [mi_size] in L2, Vr. rewrite (raw_get_ok r 0 0) by lia. cbn [obind].
  destruct (pre_fill2 d N alphas mx B v dv d2 Hd Hmx HN HB0 HB1 HB2 DInput true c2 pt 0 P2 Lp) as (c3 & E3 & _ & _ & V & D & _ & I).
  rewrite E3. cbn [obind]. rewrite (InputDerivative_ok d alphas mx B v dv d2 Hd M3 c3 (upd pt (d - 1) 0)); auto; [|intros k Hk|lia].
  2:{ destruct (Nat.eq_dec k (d - 1)) as [->|]; [|apply I; auto; lia]. specialize (D eq_refl). unfold cache_last in D.
      exact D. }
  cbn [obind fst snd]. rewrite fill_all by auto.
  rewrite (loop_fill _ (fun j => Ex (inc ord0 j) c (upd pt (d - 1) 0) + nth (j + 1) r 0)); [|rewrite len_map_seq; lia|].
  2:{ intros i l' Hi Ll En. rewrite len_map_seq in Ll. rewrite (raw_get_ok l' i 0) by lia. cbn [obind]. rewrite (raw_get_ok r _ 0) by lia. cbn [obind].
      rewrite En, nth_map_seq by lia. reflexivity. }
  cbn [obind]. rewrite (raw_get_ok r d 0) by lia. cbn [obind]. rewrite raw_set_ok by (rewrite fill_length; rewrite len_map_seq; lia).
  cbn [obind]. rewrite Vr by lia. rewrite run0 by auto. do 2 f_equal.
  apply nth_ext_eq with (d := 0); rewrite ?upd_length, ?fill_length, ?len_map_seq; rewrite ?len_map_seq; auto; try lia.
  intros j Hj. rewrite nth_map_seq by auto. destruct (Nat.eqb_spec j (d - 1)) as [->|].
  - rewrite nth_upd_eq by (rewrite fill_length; rewrite len_map_seq; lia). rewrite Vr by lia. apply rule_ext. intros s.
    replace d with (Datatypes.S (d - 1)) at 1 by lia. unfold mi_out. cbn [nth mi_rest]. rewrite nth_map_seq by lia. rewrite Nat.eqb_refl. reflexivity.
  - rewrite nth_upd_neq by auto. rewrite fill_nth_lt by lia. f_equal. rewrite Vr by lia. apply rule_ext. intros s.
    rewrite Nat.add_1_r. unfold mi_out. cbn [nth mi_rest]. rewrite nth_map_seq by lia. rewrite (proj2 (Nat.eqb_neq _ _)) by auto. reflexivity.
Qed.

Lemma DMixed_cc jac : sized DMixed -> length jac = length alphas ->
  mc_DiscreteMixedJacobian C S pt c jac = Ok (map (fun i => coord jac i +
    rule_on pts wts 0 1 (fun s => let p := upd pt (d - 1) (s * xd) in
      (xd * s * Ex o2 c p * d2g (Ex o1 c p) + dg (Ex o1 c p)) * Tm o1 (nth i alphas []) p + Tm o2 (nth i alphas []) p * (xd * s * dg (Ex o1 c p))))
    (seq 0 (length alphas))).
Proof.
  intros (LR & LS & LK) Lj. unfold mc_DiscreteMixedJacobian. rewrite EW. destruct (pre_fill1 d N alphas mx B v dv Hd Hmx HN HB0 HB1 DNone (sc_cache S) pt Room Lp) as (c1 & E & P).
  rewrite E. cbn [obind]. run DMixed LK LR LS P r c2 E2 P2 Lr Vr. rewrite E2. cbn [obind fst snd].
  pose proof LR as L2. cbn [mi_size] in L2, Vr. rewrite size_W in L2, Vr.
  rewrite Lc. rewrite (loop_fill _ (fun i => coord jac i + nth (i + 1) r 0)); [|lia|].
  2:{ intros i l' Hi Ll En. rewrite (raw_get_ok l' i 0) by lia. cbn [obind]. rewrite (raw_get_ok r _ 0) by lia. cbn [obind].
      rewrite En. reflexivity. }
  rewrite fill_all by auto. f_equal. apply map_ext_in.
  intros i Hi. apply in_seq in Hi. f_equal. rewrite Vr by lia. apply rule_ext. intros s. rewrite Nat.add_1_r. unfold mi_out. cbn [nth].
  cbn [mi_rest]. rewrite nth_map_seq by lia. reflexivity.
Qed.
End Fixed.

(** *** Continuous derivatives, for every rule *)
Section Cont.
Variables (C : component) (S : scratch).
Hypothesis EW : mc_w C = W.
Hypothesis EG : mc_G C = G.
Hypothesis Room : room d mx (sc_cache S).
Variables (c pt : list R).
Hypothesis Lp : length pt = d.
Hypothesis Lc : length c = length alphas.
Notation xd := (coord pt (d - 1)).

Lemma pt_same : upd pt (d - 1) xd = pt.
Proof. apply upd_same. lia. Qed.

Lemma Cont_ok : mc_ContinuousDerivative C S pt c = Ok (g (slope v alphas c pt)).
Proof.
  unfold mc_ContinuousDerivative. rewrite EW, EG. destruct (pre_fill1 d N alphas mx B v dv Hd Hmx HN HB0 HB1 DNone (sc_cache S) pt Room Lp) as (c1 & E & P).
  rewrite E. cbn [obind]. rewrite last_get by auto. cbn [obind].
  destruct (pre_fill2 d N alphas mx B v dv d2 Hd Hmx HN HB0 HB1 HB2 DDiagonal false c1 pt xd P Lp) as (c3 & E3 & _ & _ & V & D & _). rewrite pt_same in V, D.
  rewrite E3. cbn [obind]. rewrite (DiagonalDerivative_ok d alphas mx B v dv d2 Hd M3 1 c3 pt); auto. 2: apply ready_diag; auto.
  cbn [obind]. rewrite (slope_is d N alphas v dv d2 Hd M4 B3) by auto. reflexivity.
Qed.

Lemma CMixed_ok jac : length jac = length alphas ->
  mc_ContinuousMixedJacobian C S pt c jac = Ok (map (fun i => Tm o1 (nth i alphas []) pt * dg (Ex o1 c pt)) (seq 0 (length alphas))).
Proof.
  intros Lj. unfold mc_ContinuousMixedJacobian. rewrite EW, EG. destruct (pre_fill1 d N alphas mx B v dv Hd Hmx HN HB0 HB1 DNone (sc_cache S) pt Room Lp) as (c1 & E & P).
  rewrite E. cbn [obind]. rewrite last_get by auto. cbn [obind].
  destruct (pre_fill2 d N alphas mx B v dv d2 Hd Hmx HN HB0 HB1 HB2 DDiagonal false c1 pt xd P Lp) as (c3 & E3 & _ & _ & V & D & _). rewrite pt_same in V, D.
  rewrite E3. cbn [obind]. rewrite (MixedCoeffDerivative_ok d alphas mx B v dv d2 Hd M3 1 c3 pt); auto; [|apply ready_diag; auto|lia].
  cbn [obind fst snd]. rewrite fill_all by auto. rewrite Lc, scale_map. reflexivity.
Qed.

Lemma CInput_ok jac : length jac = d ->
  mc_ContinuousMixedInputJacobian C S pt c jac = Ok (map (fun j => Ex (inc o1 j) c pt * dg (Ex o1 c pt)) (seq 0 d)).
Proof.
  intros Lj. unfold mc_ContinuousMixedInputJacobian. rewrite EW, EG. destruct (pre_fill1 d N alphas mx B v dv Hd Hmx HN HB0 HB1 DMixedInput (sc_cache S) pt Room Lp) as (c1 & E & P).
  rewrite E. cbn [obind]. rewrite last_get by auto. cbn [obind].
  destruct (pre_fill2 d N alphas mx B v dv d2 Hd Hmx HN HB0 HB1 HB2 DMixedInput true c1 pt xd P Lp) as (c3 & E3 & _ & _ & V & D & S2 & I). rewrite pt_same in V, D, S2, I.
  rewrite E3. cbn [obind]. rewrite (MixedInputDerivative_ok d alphas mx B v dv d2 Hd M3 c3 pt); auto; [|lia].
  cbn [obind fst snd]. rewrite fill_all by auto. rewrite Lp, scale_map. reflexivity.
Qed.

Lemma slope_coeff i : (i < length alphas)%nat ->
  is_partial (fun c => g (slope v alphas c pt)) i c (Tm o1 (nth i alphas []) pt * dg (Ex o1 c pt)).
Proof.
  intros Hi. pose proof (Ex_coeff v dv d2 alphas o1 c pt i Lc Hi) as H. unfold is_partial in *.
  apply is_derive_ext with (f := fun t => g (Ex o1 (upd c i t) pt)).
  { intros t. rewrite (slope_is d N alphas v dv d2 Hd M4 B3) by auto. reflexivity. }
  assert (E : upd c i (coord c i) = c) by (apply upd_same; lia).
  pose proof (is_derive_comp g (fun t => Ex o1 (upd c i t) pt) (coord c i) _ _ (G1 _) H) as H2. cbv beta in H2. rewrite E in H2. exact H2.
Qed.

Lemma slope_input j : (j < d)%nat -> (j = d - 1 -> twice_at dv d2 N xd)%nat ->
  is_partial (fun x => g (slope v alphas c x)) j pt (Ex (inc o1 j) c pt * dg (Ex o1 c pt)).
Proof.
  intros Hj HT.
  assert (H : is_partial (Ex o1 c) j pt (Ex (inc o1 j) c pt)).
  { apply (Ex_partial v dv d2 N B3 alphas o1 c pt j d); auto.
    - unfold o1, inc, ord0. destruct (j =? d - 1)%nat; lia.
    - unfold o1, inc, ord0. destruct (Nat.eqb_spec j (d - 1)); [|lia]. subst. intros _. apply HT. auto. }
  unfold is_partial in *. apply is_derive_ext with (f := fun t => g (Ex o1 c (upd pt j t))).
  { intros t. rewrite (slope_is d N alphas v dv d2 Hd M4 B3) by (rewrite upd_length; auto). reflexivity. }
  assert (E : upd pt j (coord pt j) = pt) by (apply upd_same; lia).
  pose proof (is_derive_comp g (fun t => Ex o1 c (upd pt j t)) (coord pt j) _ _ (G1 _) H) as H2. cbv beta in H2. rewrite E in H2. exact H2.
Qed.
End Cont.
End Comp.
