(** Facts about the model of MonotoneIntegrand and MonotoneComponent. *)
From Coq Require Import Reals Lra.
From Coquelicot Require Import Coquelicot.
From Verif Require Import Base SpecMulti MISetModel FixedSetModel FixedSetProofs SpecPoly SpecExpansion SpecQuad
  PolyModel PolyProofs LinProofs BijModel BijProofs ExpansionModel ExpansionProofs ExpansionDeriv PropExpansion QuadModel RootModel SpecMono MonoModel.
Local Open Scope R_scope.

Lemma fill_all f (out : list R) n : length out = n -> fill f n out = map f (seq 0 n).
Proof. intros <-. unfold fill. rewrite skipn_all, app_nil_r. reflexivity. Qed.

Lemma seg_tail a (tl : list R) n : length tl = n -> seg (a :: tl) 1 n = Ok tl.
Proof. intros <-. unfold seg. cbn [length]. rewrite (proj2 (Nat.leb_le _ _)) by lia. cbn [skipn]. rewrite firstn_all. reflexivity. Qed.

Lemma put_tail a (tl g : list R) : length g = length tl -> put (a :: tl) 1 g = a :: g.
Proof. intros L. unfold put. rewrite L. cbn [firstn Nat.add skipn]. rewrite skipn_all, app_nil_r. reflexivity. Qed.

Lemma loop_fill (body : list R -> nat -> outcome (list R)) F n l : (n <= length l)%nat ->
  (forall i l', (i < n)%nat -> length l' = length l -> nth i l' 0 = nth i l 0 -> body l' i = raw_set l' i (F i)) ->
  ofold body (seq 0 n) l = Ok (fill F n l).
Proof.
  intros L H. rewrite <- (fill_0 F l) at 1. apply (ofold_seq body (fun k => fill F k l) n 0).
  intros i Hi. rewrite H by (try rewrite fill_length; try rewrite fill_nth_ge; auto; lia). rewrite Nat.add_1_r. apply fill_set; auto; lia.
Qed.

Lemma nth_map_seq (f : nat -> R) n i : (i < n)%nat -> nth i (map f (seq 0 n)) 0 = f i.
Proof.
  intros H. rewrite nth_indep with (d' := f 0%nat) by (rewrite map_length, seq_length; auto). rewrite map_nth, seq_nth by lia. reflexivity.
Qed.
Lemma len_map_seq (f : nat -> R) n : length (map f (seq 0 n)) = n.
Proof. rewrite map_length. apply seq_length. Qed.

Lemma scale_fill s n l : (n <= length l)%nat -> scale_by s n l = Ok (fill (fun i => nth i l 0 * s) n l).
Proof.
  intros L. unfold scale_by. apply loop_fill; auto. intros i l' Hi Ll E. rewrite (raw_get_ok l' i 0) by lia. cbn [obind]. rewrite E. reflexivity.
Qed.
Lemma scale_map s n f : scale_by s n (map f (seq 0 n)) = Ok (map (fun i => f i * s) (seq 0 n)).
Proof.
  rewrite scale_fill by (rewrite len_map_seq; auto). rewrite fill_all by apply len_map_seq. f_equal. apply map_ext_in.
  intros i Hi. apply in_seq in Hi. rewrite nth_map_seq by lia. reflexivity.
Qed.

Lemma map_seq_ext {A} (f g : nat -> A) n : (forall i, (i < n)%nat -> f i = g i) -> map f (seq 0 n) = map g (seq 0 n).
Proof. intros H. apply map_ext_in. intros i Hi. apply in_seq in Hi. apply H. lia. Qed.

Lemma upd_cons (a : R) l k z : (0 < k)%nat -> upd (a :: l) k z = a :: upd l (k - 1) z.
Proof. intros H. destruct k; [lia|]. cbn [upd]. rewrite Nat.sub_succ, Nat.sub_0_r. reflexivity. Qed.

Lemma diag_write (o' : list R) ind a k1 k2 : (ind < length o')%nat ->
  (do out <- raw_set o' ind a; do b <- raw_get out ind; do out <- raw_set out ind (b * k1);
   do b <- raw_get out ind; raw_set out ind (b + k2)) = Ok (upd o' ind (a * k1 + k2)).
Proof.
  intros H. rewrite raw_set_ok by auto. cbn [obind]. rewrite (raw_get_ok _ ind 0) by (rewrite upd_length; auto). cbn [obind].
  rewrite nth_upd_eq by auto. rewrite raw_set_ok by (rewrite upd_length; auto). cbn [obind]. rewrite upd_upd_eq.
  rewrite (raw_get_ok _ ind 0) by (rewrite upd_length; auto). cbn [obind]. rewrite nth_upd_eq by auto.
  rewrite raw_set_ok by (rewrite upd_length; auto). rewrite upd_upd_eq. reflexivity.
Qed.

Section Mono.
Variables (d N : nat) (alphas : list vec) (mx : list nat) (B : basis) (v dv d2 : nat -> R -> R) (G : posfunc).
Hypothesis Hd : (0 < d)%nat.
Hypothesis Hmx : length mx = d.
Hypothesis HN : forall j, (j < d)%nat -> (nth j mx 0 <= N)%nat.
Hypothesis HB0 : fills_values B v N.
Hypothesis HB1 : fills_derivs B v dv N.
Hypothesis HB2 : fills_second B v dv d2 N.
Hypothesis M3 : forall al, In al alphas -> length al = d /\ forall k, (k < d)%nat -> (nth k al 0 <= nth k mx 0)%nat.
Notation W := (the_worker d alphas mx B).
Notation Tm := (Tm v dv d2).
Notation Ex := (Ex v dv d2 alphas).
Notation g := (pf_eval G).
Notation dg := (pf_deriv G).
Notation d2g := (pf_deriv2 G).
Let o1 := inc ord0 (d - 1).
Let o2 := inc (inc ord0 (d - 1)) (d - 1).

(** What FillCache1 leaves in the cache and later calls preserve. *)
Definition pre (inp : bool) (cache pt : list R) : Prop :=
  room d mx cache /\ (forall j, (j < d - 1)%nat -> has d mx cache j (fun k => v k (coord pt j))) /\
  (inp = true -> forall j, (j < d - 1)%nat -> has d mx cache (d + j) (fun k => dv k (coord pt j))).

Definition is_in (t : deriv_type) : bool := match t with DInput | DMixedInput => true | _ => false end.

Lemma pre_fill1 t cache pt : room d mx cache -> length pt = d ->
  exists c', w_FillCache1 W cache pt t = Ok c' /\ pre (is_in t) c' pt.
Proof.
  intros R L. destruct (FillCache1_ok d N alphas mx B v dv Hd Hmx HN HB0 HB1 t cache pt R ltac:(lia)) as (c' & E & Lc & V & D).
  exists c'. split; auto. split; [unfold room in *; lia|]. split; auto.
Qed.

Lemma pre_weaken i cache pt : pre i cache pt -> pre false cache pt.
Proof. intros (A & Bb & _). split; auto. split; auto. discriminate. Qed.

(** FillCache2 at the last coordinate u makes a cache for the point with last coordinate u. *)
Lemma pre_fill2 t i cache pt u : pre i cache pt -> length pt = d ->
  exists c', w_FillCache2 W cache u t = Ok c' /\ pre i c' pt /\ length c' = length cache /\
    let p := upd pt (d - 1) u in
    (last_val t = true -> cache_vals d mx v c' p) /\
    (last_der t = true -> cache_last d mx dv c' p) /\
    (last_second t = true -> cache_second d mx d2 c' p) /\
    (i = true -> forall j, (j < d - 1)%nat -> has d mx c' (d + j) (fun k => dv k (coord p j))).
Proof.
  intros (R & V & D) L. destruct (FillCache2_ok d N alphas mx B v dv d2 Hd Hmx HN HB0 HB1 HB2 t cache u R) as (c' & E & Lc & V2 & D2 & S2 & F).
  assert (V' : forall j, (j < d - 1)%nat -> has d mx c' j (fun k => v k (coord pt j))).
  { intros j Hj. apply has_same with (1 := V j Hj). apply F; lia. }
  assert (D' : i = true -> forall j, (j < d - 1)%nat -> has d mx c' (d + j) (fun k => dv k (coord pt j))).
  { intros Hi j Hj. apply has_same with (1 := D Hi j Hj). apply F; lia. }
  exists c'. split; auto. split. { split; [unfold room in *; lia|]. split; auto. }
  split; auto. cbv zeta. split; [|split; [|split]].
  - intros Ht j Hj. destruct (Nat.eq_dec j (d - 1)) as [->|]; [rewrite coord_upd_eq by lia; auto|].
    rewrite coord_upd_neq by auto. apply V'. lia.
  - intros Ht. unfold cache_last. rewrite coord_upd_eq by lia. auto.
  - intros Ht. unfold cache_second. rewrite coord_upd_eq by lia. auto.
  - intros Hi j Hj. rewrite coord_upd_neq by lia. auto.
Qed.

(** The numbers written by the integrand at [p], the point with last coordinate s*xd. *)
Section Values.
Variables (xd nugget : R) (c p : list R) (s : R).
Let df := Ex o1 c p.
Let ddf := Ex o2 c p.
Definition mi_diag : R := ddf * (xd * s * dg df) + (g df + nugget).
Definition mi_rest (t : deriv_type) : list R :=
  match t with
  | DDiagonal => [mi_diag]
  | DParameters => map (fun i => Tm o1 (nth i alphas []) p * (xd * dg df)) (seq 0 (length alphas))
  | DMixed => map (fun i => (xd * s * ddf * d2g df + dg df) * Tm o1 (nth i alphas []) p + Tm o2 (nth i alphas []) p * (xd * s * dg df))
                  (seq 0 (length alphas))
  | DInput => map (fun j => if (j =? d - 1)%nat then mi_diag else Ex (inc o1 j) c p * (xd * dg df)) (seq 0 d)
  | _ => []
  end.
Definition mi_out (t : deriv_type) : list R := xd * (g df + nugget) :: mi_rest t.
End Values.

Definition allowed (t : deriv_type) : Prop := In t [DNone; DDiagonal; DParameters; DInput; DMixed].

Lemma mi_size_out xd nugget c p s t : length (mi_out xd nugget c p s t) = mi_size W d t \/ t = DMixedInput.
Proof.
  unfold mi_out, mi_size. destruct t; auto; left; cbn [length mi_rest]; rewrite ?len_map_seq, ?size_W; auto.
Qed.

Lemma upd_map (f : nat -> R) n k z : (k < n)%nat -> upd (map f (seq 0 n)) k z = map (fun j => if (j =? k)%nat then z else f j) (seq 0 n).
Proof.
  intros Hk. apply nth_ext_eq with (d := 0); rewrite upd_length, !len_map_seq; auto. intros i Hi.
  rewrite nth_map_seq by auto. destruct (Nat.eqb_spec i k) as [->|].
  - apply nth_upd_eq. rewrite len_map_seq. auto.
  - rewrite nth_upd_neq by auto. apply nth_map_seq. auto.
Qed.

Lemma mi_call_ok t pt xd c nugget cache work s out : allowed t -> pre (is_in t) cache pt -> length pt = d -> length c = length alphas ->
  (t = DMixed -> length alphas <= length work)%nat -> length out = mi_size W d t ->
  exists cache' work', mi_call W G pt xd c t nugget cache work s out =
      Ok (cache', work', mi_out xd nugget c (upd pt (d - 1) (s * xd)) s t) /\
    pre (is_in t) cache' pt /\ length work' = length work /\ length cache' = length cache.
Proof.
  intros Ht P Lp Lc Lw Lo. unfold mi_call.
  set (p := upd pt (d - 1) (s * xd)).
  destruct out as [|o tl]; [destruct t; discriminate|].
  assert (Ltl : length tl = (mi_size W d t - 1)%nat) by (cbn [length] in Lo; lia). clear Lo.
  destruct Ht as [<-|[<-|[<-|[<-|[<-|[]]]]]]; cbn [is_in mi_size] in *; rewrite ?size_W in *.
  - destruct (pre_fill2 DDiagonal false cache pt (s * xd) P Lp) as (c' & E & P' & Lc' & V & D & S & I). fold p in V, D, S, I.
    rewrite E. cbn [obind]. rewrite (DiagonalDerivative_ok d alphas mx B v dv d2 Hd M3 1 c' p); auto.
    2: apply ready_diag; auto.
    cbn [obind]. cbn [raw_set length]. rewrite raw_set_ok by (cbn [length]; lia). cbn [obind upd].
    destruct tl; [|cbn in Ltl; lia]. exists c', work. auto.
  - destruct (pre_fill2 DDiagonal2 false cache pt (s * xd) P Lp) as (c' & E & P' & Lc' & V & D & S & I). fold p in V, D, S, I.
    rewrite E. cbn [obind]. rewrite (DiagonalDerivative_ok d alphas mx B v dv d2 Hd M3 1 c' p); auto.
    2: apply ready_diag; auto.
    cbn [obind]. destruct tl as [|z [|]]; try (cbn in Ltl; lia).
    rewrite raw_set_ok by (cbn [length]; lia). cbn [obind upd].
    rewrite (DiagonalDerivative_ok d alphas mx B v dv d2 Hd M3 2 c' p); auto. 2: apply ready_diag2; auto.
    cbn [obind]. rewrite diag_write by (cbn [length]; lia). cbn [obind upd].
    exists c', work. auto.
  - destruct (pre_fill2 DDiagonal false cache pt (s * xd) P Lp) as (c' & E & P' & Lc' & V & D & S & I). fold p in V, D, S, I.
    rewrite E. cbn [obind]. rewrite seg_tail by lia. cbn [obind].
    rewrite (MixedCoeffDerivative_ok d alphas mx B v dv d2 Hd M3 1 c' p); auto; [|apply ready_diag; auto|lia].
    cbn [obind fst snd]. rewrite fill_all by lia. rewrite scale_map. cbn [obind].
    rewrite put_tail by (rewrite len_map_seq; lia). rewrite raw_set_ok by (cbn [length]; lia). cbn [obind upd].
    exists c', work. auto.
  - destruct (pre_fill2 DDiagonal2 true cache pt (s * xd) P Lp) as (c' & E & P' & Lc' & V & D & S & I). fold p in V, D, S, I.
    rewrite E. cbn [obind]. rewrite Lp. rewrite seg_tail by lia. cbn [obind].
    rewrite (MixedInputDerivative_ok d alphas mx B v dv d2 Hd M3 c' p); auto; [|lia].
    cbn [obind fst snd]. rewrite fill_all by lia. rewrite scale_fill by (rewrite len_map_seq; lia). cbn [obind].
    rewrite put_tail by (rewrite fill_length; rewrite len_map_seq; lia). rewrite raw_set_ok by (cbn [length]; lia). cbn [obind upd].
    rewrite (DiagonalDerivative_ok d alphas mx B v dv d2 Hd M3 2 c' p); auto. 2: apply ready_diag2; auto.
    cbn [obind]. rewrite diag_write by (cbn [length]; rewrite fill_length; rewrite len_map_seq; lia). cbn [obind].
    exists c', work. split; auto. do 2 f_equal. unfold mi_out.
    rewrite upd_cons by auto. f_equal.
    cbn [mi_rest]. apply nth_ext_eq with (d := 0); rewrite ?upd_length, ?fill_length, ?len_map_seq; rewrite ?len_map_seq; auto; try lia.
    intros i Hi. rewrite nth_map_seq by auto. destruct (Nat.eqb_spec i (d - 1)) as [->|].
    + rewrite nth_upd_eq by (rewrite fill_length; rewrite len_map_seq; lia). reflexivity.
    + rewrite nth_upd_neq by auto. rewrite fill_nth_lt by lia. rewrite nth_map_seq by auto. reflexivity.
  - destruct (pre_fill2 DDiagonal2 false cache pt (s * xd) P Lp) as (c' & E & P' & Lc' & V & D & S & I). fold p in V, D, S, I.
    rewrite E. cbn [obind]. rewrite (DiagonalDerivative_ok d alphas mx B v dv d2 Hd M3 1 c' p); auto.
    2: apply ready_diag; auto.
    cbn [obind]. specialize (Lw eq_refl).
    rewrite (MixedCoeffDerivative_ok d alphas mx B v dv d2 Hd M3 2 c' p); auto. 2: apply ready_diag2; auto.
    cbn [obind fst snd]. rewrite scale_fill by (rewrite fill_length; lia). cbn [obind]. rewrite seg_tail by lia. cbn [obind].
    rewrite (MixedCoeffDerivative_ok d alphas mx B v dv d2 Hd M3 1 c' p); auto; [|apply ready_diag; auto|lia].
    cbn [obind fst snd]. rewrite fill_all with (out := tl) by lia.
    set (wk := fill _ _ (fill _ _ work)).
    assert (Lwk : length wk = length work) by (unfold wk; rewrite !fill_length; rewrite ?fill_length; lia).
    assert (Vwk : forall i, (i < length alphas)%nat -> raw_get wk i = Ok (Tm o2 (nth i alphas []) p * (xd * s * dg (Ex o1 c p)))).
    { intros i Hi. unfold wk. rewrite fill_get by (rewrite ?fill_length; lia). rewrite fill_nth_lt by auto. reflexivity. }
    rewrite (loop_fill _ (fun i => (xd * s * Ex o2 c p * d2g (Ex o1 c p) + dg (Ex o1 c p)) * Tm o1 (nth i alphas []) p +
        Tm o2 (nth i alphas []) p * (xd * s * dg (Ex o1 c p)))); [|rewrite len_map_seq; auto|].
    2:{ intros i l' Hi Ll En. rewrite len_map_seq in Ll. rewrite (raw_get_ok l' i 0) by lia. cbn [obind]. rewrite Vwk by auto. cbn [obind].
        rewrite En, nth_map_seq by auto. reflexivity. }
    cbn [obind]. rewrite fill_all by apply len_map_seq. rewrite put_tail by (rewrite len_map_seq; lia).
    rewrite raw_set_ok by (cbn [length]; lia). cbn [obind upd].
    exists c', wk. auto.
Qed.

(** The outputs depend on the node only, and calls succeed in any number and order. *)
Lemma mi_fun_ok t pt xd c nugget cache work s : allowed t -> pre (is_in t) cache pt -> length pt = d -> length c = length alphas ->
  (t = DMixed -> length alphas <= length work)%nat ->
  mi_fun W G pt xd c t nugget cache work s = mi_out xd nugget c (upd pt (d - 1) (s * xd)) s t.
Proof.
  intros Ht P Lp Lc Lw. unfold mi_fun.
  destruct (mi_call_ok t pt xd c nugget cache work s (repeat 0 (mi_size W (length pt) t))) as (c' & w' & E & _); auto.
  { rewrite repeat_length, Lp. reflexivity. }
  rewrite E. reflexivity.
Qed.

Lemma mi_calls_ok t pt xd c nugget nodes : allowed t -> length pt = d -> length c = length alphas ->
  forall cache work, pre (is_in t) cache pt -> (t = DMixed -> length alphas <= length work)%nat ->
  exists cache' work', mi_calls W G pt xd c t nugget nodes cache work = Ok (cache', work') /\
    pre (is_in t) cache' pt /\ length work' = length work.
Proof.
  intros Ht Lp Lc. unfold mi_calls. induction nodes as [|s nodes IH]; intros cache work P Lw; cbn [ofold].
  - exists cache, work. auto.
  - destruct (mi_call_ok t pt xd c nugget cache work s (repeat 0 (mi_size W (length pt) t))) as (c' & w' & E & P' & L' & _); auto.
    { rewrite repeat_length, Lp. reflexivity. }
    cbn [fst snd]. rewrite E. cbn [obind fst]. destruct (IH c' w') as (c2 & w2 & E2 & P2 & L2); auto.
    { intros Hm. specialize (Lw Hm). lia. }
    exists c2, w2. split; auto. split; auto. lia.
Qed.

Lemma mi_integrate_ok t Q pt xd c nugget nodes cache work ws res r : allowed t -> pre (is_in t) cache pt -> length pt = d ->
  length c = length alphas -> (t = DMixed -> length alphas <= length work)%nat ->
  qr_int Q (mi_size W d t) ws (mi_fun W G pt xd c t nugget cache work) 0 1 res = Ok r ->
  exists cache', mi_integrate W G pt xd c t nugget Q nodes cache work ws res = Ok (r, cache') /\ pre (is_in t) cache' pt.
Proof.
  intros Ht P Lp Lc Lw E. unfold mi_integrate.
  destruct (mi_calls_ok t pt xd c nugget nodes Ht Lp Lc cache work P Lw) as (c' & w' & E1 & P1 & _).
  rewrite E1. cbn [obind]. rewrite Lp, E. cbn [obind fst]. exists c'. auto.
Qed.

(** EvaluateSingle for any rule whose Integrate returns. *)
Lemma EvaluateSingle_ok C S cache pt xd c nugget r : mc_w C = W -> mc_G C = G -> pre false cache pt -> length pt = d ->
  length c = length alphas ->
  qr_int (mc_Q C) 1 (sc_ws S) (mi_fun W G pt xd c DNone nugget cache []) 0 1 [0] = Ok r -> (0 < length r)%nat ->
  mc_EvaluateSingle C S cache pt xd c nugget = Ok (nth 0 r 0 + Ex ord0 c (upd pt (d - 1) 0)).
Proof.
  intros EW EG P Lp Lc E Lr. unfold mc_EvaluateSingle. rewrite EW, EG.
  destruct (mi_integrate_ok DNone (mc_Q C) pt xd c nugget (sc_nodes S) cache [] (sc_ws S) [0] r) as (c' & E1 & P1); auto.
  { left. reflexivity. } { discriminate. }
  rewrite E1. cbn [obind fst snd]. destruct (pre_fill2 DNone false c' pt 0 P1 Lp) as (c2 & E2 & _ & _ & V & _).
  rewrite E2. cbn [obind]. rewrite (Evaluate_ok d alphas mx B v dv d2 Hd M3 c2 (upd pt (d - 1) 0)); auto. cbn [obind].
  rewrite (raw_get_ok r 0 0) by auto. reflexivity.
Qed.
End Mono.

(** ** Derivatives of the integrand and of rules applied to it *)

Lemma rule_partial pts wts (F : list R -> R -> R) (F' : R -> R) j x :
  (forall t, In t pts -> is_partial (fun y => F y ((1 + t) / 2)) j x (F' ((1 + t) / 2))) ->
  is_partial (fun y => rule_on pts wts 0 1 (F y)) j x (rule_on pts wts 0 1 F').
Proof.
  intros H. unfold is_partial, rule_on, rule_sum. apply is_derive_const_mult.
  apply (rsum_derive_in (fun i t => nth i wts 0 * F (upd x j t) ((0 + 1) / 2 + (1 - 0) / 2 * nth i pts 0))
    (fun i _ => nth i wts 0 * F' ((0 + 1) / 2 + (1 - 0) / 2 * nth i pts 0))).
  intros i Hi. apply is_derive_const_mult. replace ((0 + 1) / 2 + (1 - 0) / 2 * nth i pts 0) with ((1 + nth i pts 0) / 2) by lra.
  apply H. apply nth_In. auto.
Qed.

Lemma rule_ext pts wts (f g : R -> R) : (forall t, f t = g t) -> rule_on pts wts 0 1 f = rule_on pts wts 0 1 g.
Proof. intros H. unfold rule_on, rule_sum. f_equal. apply rsum_ext. intros. rewrite H. reflexivity. Qed.

Lemma derive_eq (f : R -> R) (x l l' : R) : is_derive f x l -> l = l' -> is_derive f x l'.
Proof. intros H <-. exact H. Qed.

Section Calc.
Variables (d N : nat) (alphas : list vec) (v dv d2 : nat -> R -> R) (g dg d2g : R -> R).
Hypothesis Hd : (0 < d)%nat.
Hypothesis M4 : forall al, In al alphas -> length al = d /\ forall k, (k < d)%nat -> (nth k al 0 <= N)%nat.
Hypothesis B3 : forall k x, (k <= N)%nat -> is_derive (v k) x (dv k x).
Hypothesis G1 : forall x, is_derive g x (dg x).
Notation Ex := (Ex v dv d2 alphas).
Notation Tm := (Tm v dv d2).
Notation integ := (mono_integrand g v alphas).
Let o1 := inc ord0 (d - 1).
Let o2 := inc (inc ord0 (d - 1)) (d - 1).

Lemma slope_is (c x : list R) : length x = d -> slope v alphas c x = Ex o1 c x.
Proof. intros L. unfold slope. rewrite L. apply (partial_is d N); auto. lia. Qed.

Lemma integ_is nugget (c x : list R) (s : R) : length x = d ->
  integ nugget c x s = coord x (d - 1) * (g (Ex o1 c (upd x (d - 1) (s * coord x (d - 1)))) + nugget).
Proof.
  intros L. unfold mono_integrand, last_of, with_last. rewrite L. rewrite slope_is by (rewrite upd_length; auto). reflexivity.
Qed.

Lemma integ_coeff nugget (c x : list R) (s : R) i : length x = d -> length c = length alphas -> (i < length alphas)%nat ->
  let p := upd x (d - 1) (s * coord x (d - 1)) in
  is_partial (fun c => integ nugget c x s) i c (Tm o1 (nth i alphas []) p * (coord x (d - 1) * dg (Ex o1 c p))).
Proof.
  intros L Lc Hi p.
  pose proof (Ex_coeff v dv d2 alphas o1 c p i Lc Hi) as H. unfold is_partial in *.
  apply is_derive_ext with (f := fun t => coord x (d - 1) * (g (Ex o1 (upd c i t) p) + nugget)).
  { intros t. rewrite integ_is by auto. reflexivity. }
  assert (E : upd c i (coord c i) = c) by (apply upd_same; lia).
  pose proof (is_derive_comp g (fun t => Ex o1 (upd c i t) p) (coord c i) _ _ (G1 _) H) as H2. cbv beta in H2. rewrite E in H2.
  apply is_derive_const_mult with (c := coord x (d - 1)) in H2.
  replace (Tm o1 (nth i alphas []) p * (coord x (d - 1) * dg (Ex o1 c p)))
    with (coord x (d - 1) * (Tm o1 (nth i alphas []) p * dg (Ex o1 c p)) + 0) by ring.
  apply is_derive_ext with (f := fun t => coord x (d - 1) * g (Ex o1 (upd c i t) p) + coord x (d - 1) * nugget).
  { intros t. symmetry. apply Rmult_plus_distr_l. }
  apply (is_derive_plus (V := R_NormedModule)); [exact H2|apply (is_derive_const (V := R_NormedModule))].
Qed.

Lemma integ_leading nugget (c x : list R) (s : R) j : length x = d -> (j < d - 1)%nat ->
  let p := upd x (d - 1) (s * coord x (d - 1)) in
  is_partial (fun x => integ nugget c x s) j x (Ex (inc o1 j) c p * (coord x (d - 1) * dg (Ex o1 c p))).
Proof.
  intros L Hj p.
  assert (H : is_partial (Ex o1 c) j p (Ex (inc o1 j) c p)).
  { apply (Ex_partial v dv d2 N B3 alphas o1 c p j d); auto; try lia; unfold p; rewrite ?upd_length; auto;
      unfold o1, inc, ord0; destruct (Nat.eqb_spec j (d - 1)); lia. }
  unfold is_partial in *.
  assert (Cp : coord p j = coord x j) by (unfold p; apply coord_upd_neq; lia). rewrite Cp in H.
  apply is_derive_ext with (f := fun t => coord x (d - 1) * (g (Ex o1 c (upd p j t)) + nugget)).
  { intros t. rewrite integ_is by (rewrite upd_length; auto). rewrite coord_upd_neq by lia. unfold p. rewrite upd_upd_comm by lia. reflexivity. }
  assert (E : upd p j (coord x j) = p) by (rewrite <- Cp; apply upd_same; unfold p; rewrite upd_length; lia).
  pose proof (is_derive_comp g (fun t => Ex o1 c (upd p j t)) (coord x j) _ _ (G1 _) H) as H2. cbv beta in H2. rewrite E in H2.
  apply is_derive_const_mult with (c := coord x (d - 1)) in H2.
  replace (Ex (inc o1 j) c p * (coord x (d - 1) * dg (Ex o1 c p)))
    with (coord x (d - 1) * (Ex (inc o1 j) c p * dg (Ex o1 c p)) + 0) by ring.
  apply is_derive_ext with (f := fun t => coord x (d - 1) * g (Ex o1 c (upd p j t)) + coord x (d - 1) * nugget).
  { intros t. symmetry. apply Rmult_plus_distr_l. }
  apply (is_derive_plus (V := R_NormedModule)); [exact H2|apply (is_derive_const (V := R_NormedModule))].
Qed.

(** The slope as a function of the last coordinate. *)
Lemma slope_last c (x : list R) (u : R) : length x = d -> twice_at dv d2 N u ->
  is_derive (fun t => Ex o1 c (upd x (d - 1) t)) u (Ex o2 c (upd x (d - 1) u)).
Proof.
  intros L H2. set (p := upd x (d - 1) u).
  assert (Cp : coord p (d - 1) = u) by (unfold p; apply coord_upd_eq; lia).
  assert (H : is_partial (Ex o1 c) (d - 1) p (Ex o2 c p)).
  { apply (Ex_partial v dv d2 N B3 alphas o1 c p (d - 1) d); auto; try lia; unfold p; rewrite ?upd_length; auto.
    - unfold o1, inc, ord0. rewrite Nat.eqb_refl. lia.
    - intros _. fold p. rewrite Cp. exact H2. }
  unfold is_partial in H. rewrite Cp in H. apply is_derive_ext with (2 := H). intros t. unfold p. rewrite upd_upd_eq. reflexivity.
Qed.

Definition diag_value nugget c (p : list R) (xd s : R) : R := Ex o2 c p * (xd * s * dg (Ex o1 c p)) + (g (Ex o1 c p) + nugget).

Lemma integ_last nugget (c x : list R) (s : R) : length x = d -> twice_at dv d2 N (s * coord x (d - 1)) ->
  is_partial (fun x => integ nugget c x s) (d - 1) x (diag_value nugget c (upd x (d - 1) (s * coord x (d - 1))) (coord x (d - 1)) s).
Proof.
  intros L H2. unfold is_partial. set (xd := coord x (d - 1)).
  apply is_derive_ext with (f := fun t => t * (g (Ex o1 c (upd x (d - 1) (s * t))) + nugget)).
  { intros t. rewrite integ_is by (rewrite upd_length; auto). rewrite coord_upd_eq by lia. rewrite upd_upd_eq. reflexivity. }
  pose proof (slope_last c x (s * xd) L H2) as H.
  assert (Hs : is_derive (fun t => s * t) xd s) by (auto_derive; auto; ring).
  pose proof (is_derive_comp _ (fun t => s * t) xd _ _ H Hs) as H3. cbv beta in H3.
  pose proof (is_derive_comp g _ xd _ _ (G1 _) H3) as H4. cbv beta in H4.
  set (K := fun t => g (Ex o1 c (upd x (d - 1) (s * t)))) in *.
  assert (H5 : is_derive (fun t => t * (K t + nugget)) xd (1 * (K xd + nugget) + xd * (scal (scal s (Ex o2 c (upd x (d - 1) (s * xd)))) (dg (Ex o1 c (upd x (d - 1) (s * xd)))) + 0))).
  { apply (is_derive_mult (fun t => t) (fun t => K t + nugget)); [apply (is_derive_id (K := R_AbsRing))| |intros; apply Rmult_comm].
    apply (is_derive_plus (V := R_NormedModule)); [exact H4|apply (is_derive_const (V := R_NormedModule))]. }
  replace (diag_value nugget c (upd x (d - 1) (s * xd)) xd s) with
    (1 * (K xd + nugget) + xd * (scal (scal s (Ex o2 c (upd x (d - 1) (s * xd)))) (dg (Ex o1 c (upd x (d - 1) (s * xd)))) + 0)).
  - exact H5.
  - unfold diag_value, K. change scal with Rmult. change (@mult R_AbsRing) with Rmult. ring.
Qed.

Hypothesis G2 : forall x, is_derive dg x (d2g x).

Lemma diag_coeff nugget (c x : list R) (s : R) i : length x = d -> length c = length alphas -> (i < length alphas)%nat ->
  let xd := coord x (d - 1) in
  let p := upd x (d - 1) (s * xd) in
  is_partial (fun c => diag_value nugget c p xd s) i c
    ((xd * s * Ex o2 c p * d2g (Ex o1 c p) + dg (Ex o1 c p)) * Tm o1 (nth i alphas []) p + Tm o2 (nth i alphas []) p * (xd * s * dg (Ex o1 c p))).
Proof.
  intros L Lc Hi xd p.
  pose proof (Ex_coeff v dv d2 alphas o1 c p i Lc Hi) as H1. pose proof (Ex_coeff v dv d2 alphas o2 c p i Lc Hi) as H2.
  unfold is_partial in *. assert (E : upd c i (coord c i) = c) by (apply upd_same; lia).
  pose proof (is_derive_comp g (fun t => Ex o1 (upd c i t) p) (coord c i) _ _ (G1 _) H1) as Hg. cbv beta in Hg. rewrite E in Hg.
  pose proof (is_derive_comp dg (fun t => Ex o1 (upd c i t) p) (coord c i) _ _ (G2 _) H1) as Hdg. cbv beta in Hdg. rewrite E in Hdg.
  apply is_derive_const_mult with (c := xd * s) in Hdg.
  pose proof (is_derive_mult _ _ _ _ _ H2 Hdg ltac:(intros; apply Rmult_comm)) as Hm. cbv beta in Hm. rewrite E in Hm.
  assert (Hn : is_derive (fun _ : R => nugget) (coord c i) 0) by apply (is_derive_const (V := R_NormedModule)).
  pose proof (is_derive_plus (V := R_NormedModule) _ _ _ _ _ Hm (is_derive_plus (V := R_NormedModule) _ _ _ _ _ Hg Hn)) as Hs.
  apply (derive_eq _ _ _ _ Hs). unfold plus, scal, mult. cbn. unfold mult. cbn. ring.
Qed.
End Calc.
