(** The routines of MonotoneComponent, with every quadrature rule, do not depend on what scratch memory holds. *)
From Coq Require Import Reals Lra FunctionalExtensionality.
From Coquelicot Require Import Coquelicot.
From Verif Require Import Base SpecMulti SpecPoly SpecExpansion SpecQuad SpecMono MISetModel FixedSetModel FixedSetProofs PolyModel PolyProofs LinProofs BijModel
  ExpansionModel ExpansionProofs ExpansionDeriv PropExpansion QuadModel QuadCC QuadProofs PropQuad RootModel MonoModel MonoProofs MonoComp.
Local Open Scope R_scope.

(** Integrate over [0,1] returns, and its result depends only on the integrand. *)
Definition clean_rule (Q : quad_rule) : Prop := forall n (f : R -> list R), (0 < n)%nat -> (forall x, length (f x) = n) ->
  exists r, length r = n /\ forall ws res, length ws = qr_work Q n -> length res = n -> qr_int Q n ws f 0 1 res = Ok r.

Lemma clean_clenshaw pts wts : length wts = length pts -> clean_rule (qr_clenshaw pts wts).
Proof.
  intros LW n f Hn Hf. exists (map (fun k => rule_on pts wts 0 1 (fun s => nth k (f s) 0)) (seq 0 n)). rewrite len_map_seq. split; auto.
  intros ws res Lw Lr. cbn in Lw. destruct (cc_run pts wts LW f n ws res Hf) as (r & E & L & V); try lia.
  rewrite E. f_equal. apply nth_ext_eq with (d := 0); rewrite ?len_map_seq; [lia|]. intros k Hk. rewrite V by lia. rewrite nth_map_seq by lia. reflexivity.
Qed.
Lemma clean_simpson q fuel : (1 <= q_maxSub q <= 32)%nat -> (q_minSub q < q_maxSub q)%nat -> (2 ^ q_maxSub q <= fuel)%nat -> clean_rule (qr_simpson q fuel).
Proof.
  intros H1 H2 H3 n f Hn Hf.
  pose (ws0 := repeat 0 (as_WorkspaceSize (q_maxSub q) n)). pose (res0 := repeat 0 n).
  destruct (C27_adaptive_simpson (set_dim q n) f 0 1 ws0 res0 fuel) as (T & r & E & L & V & _ & _ & RF); auto; try (unfold ws0, res0; rewrite repeat_length; apply le_n).
  exists r. split; [rewrite L; apply repeat_length|]. assert (L0 : length r = n) by (rewrite L; apply repeat_length). intros ws res Lw Lr. cbn [qr_work qr_int qr_simpson] in *.
  destruct (C27_adaptive_simpson (set_dim q n) f 0 1 ws res fuel) as (T' & r' & E' & L' & V' & _ & _ & RF'); auto; try (cbn [q_maxSub q_fdim set_dim]; lia).
  rewrite E'. f_equal. assert (T' = T) by (eapply C27_tree_unique; eauto). subst T'. cbn [q_fdim set_dim] in *.
  apply nth_ext_eq with (d := 0); [lia|]. intros k Hk. rewrite V, V' by lia. reflexivity.
Qed.
Lemma clean_adaptive q level fuel : (1 <= level)%nat -> (1 <= q_maxSub q <= 32)%nat -> (q_minSub q < q_maxSub q)%nat -> (2 ^ q_maxSub q <= fuel)%nat -> clean_rule (qr_adaptive_cc q level fuel).
Proof.
  intros H0 H1 H2 H3 n f Hn Hf.
  pose (ws0 := repeat 0 (ac_WorkspaceSize (q_maxSub q) n)). pose (res0 := repeat 0 n).
  destruct (C28_adaptive_clenshaw_curtis level (set_dim q n) f 0 1 ws0 res0 fuel) as (cw & cp & fw & fp & T & r & E1 & E2 & E & L & V & _ & _ & RF); auto; try (unfold ws0, res0; rewrite repeat_length; apply le_n).
  exists r. split; [rewrite L; apply repeat_length|]. assert (L0 : length r = n) by (rewrite L; apply repeat_length). intros ws res Lw Lr. cbn [qr_work qr_int qr_adaptive_cc] in *.
  destruct (C28_adaptive_clenshaw_curtis level (set_dim q n) f 0 1 ws res fuel) as (cw' & cp' & fw' & fp' & T' & r' & E1' & E2' & E' & L' & V' & _ & _ & RF'); auto; try (cbn [q_maxSub q_fdim set_dim]; lia).
  rewrite E'. f_equal. rewrite E1 in E1'. rewrite E2 in E2'. injection E1' as <- <-. injection E2' as <- <-. assert (T' = T) by (eapply C27_tree_unique; eauto). subst T'. cbn [q_fdim set_dim] in *.
  apply nth_ext_eq with (d := 0); [lia|]. intros k Hk. rewrite V, V' by lia. reflexivity.
Qed.

Section Clean.
Variables (d N : nat) (alphas : list vec) (mx : list nat) (B : basis) (v dv d2 : nat -> R -> R) (G : posfunc).
Hypothesis Hd : (0 < d)%nat.
Hypothesis Hmx : length mx = d.
Hypothesis HN : forall j, (j < d)%nat -> (nth j mx 0 <= N)%nat.
Hypothesis HB0 : fills_values B v N.
Hypothesis HB1 : fills_derivs B v dv N.
Hypothesis HB2 : fills_second B v dv d2 N.
Hypothesis M3 : forall al, In al alphas -> length al = d /\ forall k, (k < d)%nat -> (nth k al 0 <= nth k mx 0)%nat.
Notation W := (the_worker d alphas mx B).
Notation Tm := (Tm v dv d2).
Notation Ex := (Ex v dv d2 alphas).
Notation out := (mi_out d alphas v dv d2 G).
Notation pre := (pre d mx v dv).
Variables (C : component) (c pt : list R).
Hypothesis EW : mc_w C = W.
Hypothesis EG : mc_G C = G.
Hypothesis HQ : clean_rule (mc_Q C).
Hypothesis Lp : length pt = d.
Hypothesis Lc : length c = length alphas.

Definition fits_in (t : deriv_type) (S : scratch) : Prop :=
  room d mx (sc_cache S) /\ length (sc_ws S) = qr_work (mc_Q C) (mi_size W d t) /\ length (sc_res S) = mi_size W d t /\ (t = DMixed -> length alphas <= length (sc_work S))%nat.

Lemma run_clean t : allowed t -> exists r, length r = mi_size W d t /\ forall S cache, fits_in t S -> pre (is_in t) cache pt ->
  exists cache', mi_run C S cache pt c t = Ok (r, cache') /\ pre (is_in t) cache' pt.
Proof.
  intros Ht. set (xd := coord pt (d - 1)). set (f := fun s => out xd (mc_nugget C) c (upd pt (d - 1) (s * xd)) s t).
  destruct (HQ (mi_size W d t) f) as (r & Lr & H).
  { destruct t; cbn; lia. }
  { intros s. destruct (mi_size_out d alphas mx B v dv d2 G xd (mc_nugget C) c (upd pt (d - 1) (s * xd)) s t) as [|Hm]; auto. subst t. destruct Ht as [Z|[Z|[Z|[Z|[Z|[]]]]]]; discriminate. }
  exists r. split; auto. intros S cache (Rm & Lw & Lre & Lk) P. unfold mi_run. rewrite (raw_get_ok pt _ 0) by lia. cbn [obind]. rewrite Lp. fold (coord pt (d - 1)). fold xd. rewrite EW, EG.
  assert (Fo : mi_fun W G pt xd c t (mc_nugget C) cache (sc_work S) = f).
  { apply functional_extensionality. intros s. apply (mi_fun_ok d N alphas mx B v dv d2 G); auto. }
  destruct (mi_integrate_ok d N alphas mx B v dv d2 G Hd Hmx HN HB0 HB1 HB2 M3 t (mc_Q C) pt xd c (mc_nugget C) (sc_nodes S) cache (sc_work S) (sc_ws S) (sc_res S) r)
    as (c' & E1 & P1); auto. { rewrite Fo. apply H; auto. }
  exists c'. auto.
Qed.

Lemma Evaluate_clean : exists e, forall S, room d mx (sc_cache S) -> length (sc_ws S) = qr_work (mc_Q C) 1 -> mc_Evaluate C S pt c = Ok e.
Proof.
  set (xd := coord pt (d - 1)). set (f := fun s => out xd 0 c (upd pt (d - 1) (s * xd)) s DNone).
  destruct (HQ 1%nat f) as (r & Lr & H); auto.
  exists (nth 0 r 0 + Ex ord0 c (upd pt (d - 1) 0)). intros S Rm Lw. unfold mc_Evaluate. rewrite EW.
  destruct (pre_fill1 d N alphas mx B v dv Hd Hmx HN HB0 HB1 DNone (sc_cache S) pt Rm Lp) as (c1 & E & P). rewrite E. cbn [obind]. change (wdim W) with d. rewrite (raw_get_ok pt _ 0) by lia. cbn [obind]. fold (coord pt (d - 1)). fold xd.
  apply (EvaluateSingle_ok d N alphas mx B v dv d2 G Hd Hmx HN HB0 HB1 HB2 M3); auto; [|lia].
  replace (mi_fun W G pt xd c DNone 0 c1 []) with f; [apply H; auto|].
  apply functional_extensionality. intros s. symmetry. apply (mi_fun_ok d N alphas mx B v dv d2 G); auto; [left; reflexivity|discriminate].
Qed.

Lemma Discrete_clean : exists e D, forall S, fits_in DDiagonal S -> mc_DiscreteDerivative C S pt c = Ok (e, D).
Proof.
  destruct (run_clean DDiagonal ltac:(cbn; tauto)) as (r & Lr & H). exists (nth 0 r 0 + Ex ord0 c (upd pt (d - 1) 0)), (nth 1 r 0). intros S FS.
  unfold mc_DiscreteDerivative. rewrite EW. destruct (pre_fill1 d N alphas mx B v dv Hd Hmx HN HB0 HB1 DNone (sc_cache S) pt (proj1 FS) Lp) as (c1 & E & P). rewrite E. cbn [obind].
  destruct (H S c1 FS P) as (c2 & E2 & P2). rewrite E2. cbn [obind fst snd]. cbn [mi_size] in Lr. rewrite (raw_get_ok r 0 0), (raw_get_ok r 1 0) by lia. cbn [obind].
  destruct (pre_fill2 d N alphas mx B v dv d2 Hd Hmx HN HB0 HB1 HB2 DNone false c2 pt 0 P2 Lp) as (c3 & E3 & _ & _ & V & _).
  rewrite E3. cbn [obind]. rewrite (Evaluate_ok d alphas mx B v dv d2 Hd M3 c3 (upd pt (d - 1) 0)); auto.
Qed.

Lemma Coeff_clean : exists e J, length J = length alphas /\ forall S jac, fits_in DParameters S -> length jac = length alphas -> mc_CoeffJacobian C S pt c jac = Ok (e, J).
Proof.
  destruct (run_clean DParameters ltac:(cbn; tauto)) as (r & Lr & H).
  exists (nth 0 r 0 + Ex ord0 c (upd pt (d - 1) 0)), (map (fun i => Tm ord0 (nth i alphas []) (upd pt (d - 1) 0) + nth (i + 1) r 0) (seq 0 (length alphas))). rewrite len_map_seq. split; auto. intros S jac FS Lj.
  unfold mc_CoeffJacobian. rewrite EW. destruct (pre_fill1 d N alphas mx B v dv Hd Hmx HN HB0 HB1 DNone (sc_cache S) pt (proj1 FS) Lp) as (c1 & E & P). rewrite E. cbn [obind].
  destruct (H S c1 FS P) as (c2 & E2 & P2). rewrite E2. cbn [obind fst snd]. cbn [mi_size] in Lr. rewrite size_W in Lr. rewrite (raw_get_ok r 0 0) by lia. cbn [obind].
  destruct (pre_fill2 d N alphas mx B v dv d2 Hd Hmx HN HB0 HB1 HB2 DNone false c2 pt 0 P2 Lp) as (c3 & E3 & _ & _ & V & _).
  rewrite E3. cbn [obind]. rewrite (CoeffDerivative_ok d alphas mx B v dv d2 Hd M3 c3 (upd pt (d - 1) 0)); auto; [|lia]. cbn [obind fst snd].
  rewrite fill_all by auto. rewrite Lc.
  rewrite (loop_fill _ (fun i => Tm ord0 (nth i alphas []) (upd pt (d - 1) 0) + nth (i + 1) r 0)); [|rewrite len_map_seq; auto|].
  2:{ intros i l' Hi Ll En. rewrite len_map_seq in Ll. rewrite (raw_get_ok l' i 0) by lia. cbn [obind]. rewrite (raw_get_ok r _ 0) by lia. cbn [obind].
      rewrite En, nth_map_seq by auto. reflexivity. }
  cbn [obind]. rewrite fill_all by apply len_map_seq. reflexivity.
Qed.

Lemma Input_clean : exists e J, length J = d /\ forall S jac, fits_in DInput S -> length jac = d -> mc_InputJacobian C S pt c jac = Ok (e, J).
Proof.
  destruct (run_clean DInput ltac:(cbn; tauto)) as (r & Lr & H).
  set (M := map (fun j => Ex (inc ord0 j) c (upd pt (d - 1) 0)) (seq 0 d)).
  exists (nth 0 r 0 + Ex ord0 c (upd pt (d - 1) 0)), (upd (fill (fun j => Ex (inc ord0 j) c (upd pt (d - 1) 0) + nth (j + 1) r 0) (d - 1) M) (d - 1) (nth d r 0)).
  split; [rewrite upd_length, fill_length; unfold M; rewrite len_map_seq; lia|]. intros S jac FS Lj.
  unfold mc_InputJacobian. rewrite EW. destruct (pre_fill1 d N alphas mx B v dv Hd Hmx HN HB0 HB1 DInput (sc_cache S) pt (proj1 FS) Lp) as (c1 & E & P). change (wdim W) with d. rewrite E. cbn [obind].
  destruct (H S c1 FS P) as (c2 & E2 & P2). rewrite E2. cbn [obind fst snd]. cbn [mi_size] in Lr. rewrite (raw_get_ok r 0 0) by lia. cbn [obind].
  destruct (pre_fill2 d N alphas mx B v dv d2 Hd Hmx HN HB0 HB1 HB2 DInput true c2 pt 0 P2 Lp) as (c3 & E3 & _ & _ & V & D & _ & I).
  rewrite E3. cbn [obind]. rewrite (InputDerivative_ok d alphas mx B v dv d2 Hd M3 c3 (upd pt (d - 1) 0)); auto; [|intros k Hk|lia].
  2:{ destruct (Nat.eq_dec k (d - 1)) as [->|]; [|apply I; auto; lia]. specialize (D eq_refl). unfold cache_last in D. exact D. }
  cbn [obind fst snd]. rewrite fill_all by auto. fold M.
  rewrite (loop_fill _ (fun j => Ex (inc ord0 j) c (upd pt (d - 1) 0) + nth (j + 1) r 0)); [|unfold M; rewrite len_map_seq; lia|].
  2:{ intros i l' Hi Ll En. unfold M in Ll. rewrite len_map_seq in Ll. rewrite (raw_get_ok l' i 0) by lia. cbn [obind]. rewrite (raw_get_ok r _ 0) by lia. cbn [obind].
      rewrite En. unfold M. rewrite nth_map_seq by lia. reflexivity. }
  cbn [obind]. rewrite (raw_get_ok r d 0) by lia. cbn [obind]. rewrite raw_set_ok by (rewrite fill_length; unfold M; rewrite len_map_seq; lia). reflexivity.
Qed.

Lemma DMixed_clean : exists J, length J = length alphas /\ forall S jac, fits_in DMixed S -> length jac = length alphas ->
  mc_DiscreteMixedJacobian C S pt c jac = Ok (map (fun i => coord jac i + coord J i) (seq 0 (length alphas))).
Proof.
  destruct (run_clean DMixed ltac:(cbn; tauto)) as (r & Lr & H). exists (map (fun i => nth (i + 1) r 0) (seq 0 (length alphas))). rewrite len_map_seq. split; auto. intros S jac FS Lj.
  unfold mc_DiscreteMixedJacobian. rewrite EW. destruct (pre_fill1 d N alphas mx B v dv Hd Hmx HN HB0 HB1 DNone (sc_cache S) pt (proj1 FS) Lp) as (c1 & E & P). rewrite E. cbn [obind].
  destruct (H S c1 FS P) as (c2 & E2 & P2). rewrite E2. cbn [obind fst snd]. cbn [mi_size] in Lr. rewrite size_W in Lr.
  rewrite Lc. rewrite (loop_fill _ (fun i => coord jac i + nth (i + 1) r 0)); [|lia|].
  2:{ intros i l' Hi Ll En. rewrite (raw_get_ok l' i 0) by lia. cbn [obind]. rewrite (raw_get_ok r _ 0) by lia. cbn [obind]. rewrite En. reflexivity. }
  rewrite fill_all by auto. f_equal. apply map_ext_in. intros i Hi. apply in_seq in Hi. f_equal. unfold coord. rewrite nth_map_seq by lia. reflexivity.
Qed.
End Clean.
