(** The derivative routines of the expansion worker. *)
From Coq Require Import Reals Lra.
From Coquelicot Require Import Coquelicot.
From Verif Require Import Base SpecMulti MISetModel FixedSetModel FixedSetProofs SpecPoly SpecExpansion PolyModel PolyProofs LinProofs BijProofs ExpansionModel ExpansionProofs.
Local Open Scope R_scope.

Lemma ofold_map {A B S} (h : A -> B) (f : S -> B -> outcome S) l s : ofold f (map h l) s = ofold (fun s a => f s (h a)) l s.
Proof. revert s. induction l as [|a l IH]; intros s; cbn [map ofold]; auto. destruct (f s (h a)); cbn [obind]; auto. Qed.

Lemma upd_fill (f : nat -> R) k out : (k < length out)%nat -> upd (fill f k out) k (f k) = fill f (S k) out.
Proof.
  intros H. pose proof (fill_set f k out (f k) H eq_refl) as E.
  rewrite raw_set_ok in E by (rewrite fill_length; lia). congruence.
Qed.

Lemma coord_upd_eq x j t : (j < length x)%nat -> coord (upd x j t) j = t.
Proof. intros. apply nth_upd_eq. auto. Qed.
Lemma coord_upd_neq x j k t : j <> k -> coord (upd x j t) k = coord x k.
Proof. intros. apply nth_upd_neq. auto. Qed.

Lemma is_derive_const_mult (f : R -> R) c x l : is_derive f x l -> is_derive (fun t => c * f t) x (c * l).
Proof.
  intros H. replace (c * l) with (scal c l) by reflexivity. apply (is_derive_scal f x c l H).
Qed.

Lemma rsum_0 n : rsum (fun _ => 0) n = 0.
Proof. induction n as [|n IH]; cbn [rsum]; auto. rewrite IH. ring. Qed.

Lemma nz_val d (vs : list vec) mx i v body g z : nth_error vs i = Some v ->
  (forall z k o, (k < length v)%nat -> o = nth k v 0%nat -> body z k o = Ok (z * g k o)) ->
  nz_loop (packed d vs mx) i body z = Ok (z * pprod g (pairs v)).
Proof. intros H1 H2. rewrite (nz_loop_pairs d vs mx i v body z H1). apply (loop_val body); auto. Qed.
Lemma nz_flag d (vs : list vec) mx i v body g j z : nth_error vs i = Some v ->
  (forall z k o, (k < length v)%nat -> o = nth k v 0%nat -> body z k o = Ok (fst z * g k o, (k =? j)%nat || snd z)) ->
  nz_loop (packed d vs mx) i body z = Ok (fst z * pprod g (pairs v), touches v j || snd z).
Proof. intros H1 H2. rewrite (nz_loop_pairs d vs mx i v body z H1). apply (loop_flag body); auto. Qed.
Lemma nz_flag2 d (vs : list vec) mx i v body g j l z : nth_error vs i = Some v ->
  (forall z k o, (k < length v)%nat -> o = nth k v 0%nat ->
     body z k o = Ok (fst (fst z) * g k o, (k =? j)%nat || snd (fst z), (k =? l)%nat || snd z)) ->
  nz_loop (packed d vs mx) i body z =
  Ok (fst (fst z) * pprod g (pairs v), touches v j || snd (fst z), touches v l || snd z).
Proof. intros H1 H2. rewrite (nz_loop_pairs d vs mx i v body z H1). apply (loop_flag2 body); auto. Qed.

(** ** Orders of differentiation *)

Definition ord0 : nat -> nat := fun _ => 0%nat.
Definition inc (ords : nat -> nat) (j : nat) : nat -> nat := fun k => if (k =? j)%nat then S (ords k) else ords k.

Section Deriv.
Variables (v dv d2 : nat -> R -> R).

Definition raw_of (i : nat) : nat -> R -> R := match i with O => v | S O => dv | _ => d2 end.
Definition fam (i n : nat) (t : R) : R :=
  match i with
  | O => if (n =? 0)%nat then 1 else v n t
  | S O => if (n =? 0)%nat then 0 else dv n t
  | _ => if (n =? 0)%nat then 0 else d2 n t
  end.
Definition Tm (ords : nat -> nat) (al : vec) (x : list R) : R :=
  rprod (fun k => fam (ords k) (nth k al 0%nat) (coord x k)) (length al).
Definition Ex (vs : list vec) (ords : nat -> nat) (c x : list R) : R :=
  rsum (fun k => coord c k * Tm ords (nth k vs []) x) (length vs).

Lemma tensor_Tm al x : tensor v al x = Tm ord0 al x.
Proof. reflexivity. Qed.
Lemma expansion_Ex vs c x : expansion v vs c x = Ex vs ord0 c x.
Proof. reflexivity. Qed.

Lemma fam_raw i n t : n <> 0%nat -> fam i n t = raw_of i n t.
Proof. intros H. destruct i as [|[|i]]; cbn; destruct (Nat.eqb_spec n 0); auto; lia. Qed.

Lemma Tm_pairs ords al x : (forall k, (k < length al)%nat -> ords k <> 0%nat -> nth k al 0%nat <> 0%nat) ->
  Tm ords al x = pprod (fun k o => raw_of (ords k) o (coord x k)) (pairs al).
Proof.
  intros H. rewrite pprod_dense. apply rprod_ext. intros k Hk. specialize (H k Hk).
  destruct (Nat.eqb_spec (nth k al 0%nat) 0) as [E|E]; [|apply fam_raw; auto].
  rewrite E. destruct (ords k); [reflexivity|]. exfalso. apply H; auto.
Qed.

Lemma Tm_zero ords al x k : (k < length al)%nat -> ords k <> 0%nat -> nth k al 0%nat = 0%nat -> Tm ords al x = 0.
Proof.
  intros Hk Ho E. apply rprod_zero with (j := k); auto. rewrite E. destruct (ords k) as [|[|]]; [lia|reflexivity|reflexivity].
Qed.

Lemma Tm_ext ords ords' al x : (forall k, (k < length al)%nat -> ords k = ords' k) -> Tm ords al x = Tm ords' al x.
Proof. intros H. apply rprod_ext. intros k Hk. rewrite H; auto. Qed.

Variable N : nat.
Hypothesis Hder : forall k x, (k <= N)%nat -> is_derive (v k) x (dv k x).
Definition second_at (x : R) : Prop := forall k, (k <= N)%nat -> is_derive (dv k) x (d2 k x).

Lemma fam_derive i n t : (i <= 1)%nat -> (n <= N)%nat -> (i <> 0%nat -> second_at t) -> is_derive (fam i n) t (fam (S i) n t).
Proof.
  intros Hi Hn H2. destruct (Nat.eq_dec n 0) as [->|Hz].
  - destruct i as [|[|i]]; [| |lia].
    + apply is_derive_ext with (f := fun _ : R => 1); [reflexivity|]. apply (is_derive_const (V := R_NormedModule) 1).
    + apply is_derive_ext with (f := fun _ : R => 0); [reflexivity|]. apply (is_derive_const (V := R_NormedModule) 0).
  - apply is_derive_ext with (f := raw_of i n). { intros s. symmetry. apply fam_raw. auto. }
    rewrite fam_raw by auto. destruct i as [|[|i]]; [apply Hder; auto|apply H2; auto; lia|lia].
Qed.

Lemma Tm_partial ords al x j : (j < length al)%nat -> length x = length al -> (ords j <= 1)%nat -> (ords j <> 0%nat -> second_at (coord x j)) ->
  (forall k, (k < length al)%nat -> (nth k al 0 <= N)%nat) ->
  is_partial (Tm ords al) j x (Tm (inc ords j) al x).
Proof.
  intros Hj Hx Ho H2 Ha. unfold is_partial.
  set (C := rprod (fun k => if (k =? j)%nat then 1 else fam (ords k) (nth k al 0%nat) (coord x k)) (length al)).
  apply is_derive_ext with (f := fun t => C * fam (ords j) (nth j al 0%nat) t).
  - intros t. unfold Tm. rewrite (rprod_split _ j) by auto. rewrite coord_upd_eq by lia. rewrite Rmult_comm. f_equal.
    apply rprod_ext. intros k Hk. destruct (Nat.eqb_spec k j); auto. rewrite coord_upd_neq by auto. reflexivity.
  - unfold Tm. rewrite (rprod_split _ j) by auto. unfold inc at 1. rewrite Nat.eqb_refl. rewrite Rmult_comm.
    rewrite (rprod_ext _ (fun k => if (k =? j)%nat then 1 else fam (ords k) (nth k al 0%nat) (coord x k))).
    + apply is_derive_const_mult. apply fam_derive; auto.
    + intros k Hk. unfold inc. destruct (Nat.eqb_spec k j); auto.
Qed.

Lemma rsum_derive_in (f f' : nat -> R -> R) n x : (forall i, (i < n)%nat -> is_derive (f i) x (f' i x)) ->
  is_derive (fun t => rsum (fun i => f i t) n) x (rsum (fun i => f' i x) n).
Proof.
  intros H. induction n as [|n IH]; cbn [rsum].
  - apply (is_derive_const (V := R_NormedModule)).
  - apply (is_derive_plus (fun t => rsum (fun i => f i t) n) (f n)); auto.
Qed.

Lemma Ex_partial vs ords c x j d : (forall al, In al vs -> length al = d /\ forall k, (k < d)%nat -> (nth k al 0 <= N)%nat) ->
  (j < d)%nat -> length x = d -> (ords j <= 1)%nat -> (ords j <> 0%nat -> second_at (coord x j)) ->
  is_partial (Ex vs ords c) j x (Ex vs (inc ords j) c x).
Proof.
  intros Hv Hj Hx Ho H2. unfold is_partial, Ex.
  apply (rsum_derive_in (fun k t => coord c k * Tm ords (nth k vs []) (upd x j t))
           (fun k _ => coord c k * Tm (inc ords j) (nth k vs []) x)).
  intros k Hk. destruct (Hv (nth k vs [])) as [L1 L2]; [apply nth_In; auto|].
  apply is_derive_const_mult. apply Tm_partial; auto; try lia. intros i Hi. apply L2. lia.
Qed.

Lemma is_partial_unique F j x l : is_partial F j x l -> partial F j x = l.
Proof. intros H. apply (is_derive_unique (fun t : R => F (upd x j t))). exact H. Qed.

Lemma is_partial_ext F G j x l : (forall t, F (upd x j t) = G (upd x j t)) -> is_partial F j x l -> is_partial G j x l.
Proof. intros E H. unfold is_partial in *. apply is_derive_ext with (1 := E) (2 := H). Qed.

Lemma Ex_coeff vs ords c x i : length c = length vs -> (i < length vs)%nat ->
  is_partial (fun c => Ex vs ords c x) i c (Tm ords (nth i vs []) x).
Proof.
  intros Lc Hi. unfold is_partial, Ex.
  replace (Tm ords (nth i vs []) x) with (rsum (fun k => if (k =? i)%nat then Tm ords (nth i vs []) x else 0) (length vs)).
  - apply (rsum_derive_in (fun k t => coord (upd c i t) k * Tm ords (nth k vs []) x)
             (fun k _ => if (k =? i)%nat then Tm ords (nth i vs []) x else 0)).
    intros k Hk. destruct (Nat.eqb_spec k i) as [->|Hn].
    + apply is_derive_ext with (f := fun t => Tm ords (nth i vs []) x * t).
      { intros t. rewrite coord_upd_eq by lia. apply Rmult_comm. }
      auto_derive; auto. ring.
    + apply is_derive_ext with (f := fun t => coord c k * Tm ords (nth k vs []) x).
      { intros t. rewrite coord_upd_neq by auto. reflexivity. }
      apply (is_derive_const (V := R_NormedModule)).
  - rewrite (rsum_change (fun _ => 0) (fun k => if (k =? i)%nat then Tm ords (nth i vs []) x else 0) (length vs) i (Tm ords (nth i vs []) x) Hi).
    + replace (rsum (fun _ => 0) (length vs)) with 0 by (symmetry; apply rsum_0). ring.
    + cbv beta. rewrite Nat.eqb_refl. ring.
    + intros j Hj. cbv beta. destruct (Nat.eqb_spec j i); [contradiction|reflexivity].
Qed.
End Deriv.

(** ** What the routines return *)

Section Routines.
Variables (d N : nat) (vs : list vec) (mx : list nat) (B : basis) (v dv d2 : nat -> R -> R).
Hypothesis Hd : (0 < d)%nat.
Hypothesis Hvs : forall al, In al vs -> length al = d /\ forall k, (k < d)%nat -> (nth k al 0 <= nth k mx 0)%nat.
Notation W := (the_worker d vs mx B).
Notation Tm := (Tm v dv d2).
Notation Ex := (Ex v dv d2 vs).
Notation raw_of := (raw_of v dv d2).

Definition loc (i j : nat) : nat := match i with O => j | S O => d + j | _ => 2 * d end%nat.
Definition ready (ords : nat -> nat) (cache pt : list R) : Prop :=
  (forall k, (k < d)%nat -> k <> (d - 1)%nat -> (ords k <= 1)%nat) /\
  forall k, (k < d)%nat -> has d mx cache (loc (ords k) k) (fun o => raw_of (ords k) o (coord pt k)).

Lemma ready_get ords cache pt al k : ready ords cache pt -> In al vs -> (k < d)%nat ->
  cget W cache (loc (ords k) k) (nth k al 0%nat) = Ok (raw_of (ords k) (nth k al 0%nat) (coord pt k)).
Proof.
  intros [R1 R2] Hin Hk. destruct (Hvs al Hin) as [L1 L2]. specialize (L2 k Hk).
  rewrite (cget_has _ _ _ _ _ _ (fun o => raw_of (ords k) o (coord pt k))); auto.
  - unfold loc. destruct (ords k) as [|[|]]; lia.
  - unfold loc. destruct (ords k) as [|[|i]] eqn:E.
    + rewrite slen_val by auto. lia.
    + rewrite slen_der by auto. lia.
    + rewrite slen_second. destruct (Nat.eq_dec k (d - 1)) as [->|Hn]; [lia|]. specialize (R1 k Hk Hn). lia.
Qed.

Lemma ready_vals cache pt : cache_vals d mx v cache pt -> ready ord0 cache pt.
Proof. intros H. split; [unfold ord0; lia|]. intros k Hk. apply H. auto. Qed.
Lemma ready_diag cache pt : cache_vals d mx v cache pt -> cache_last d mx dv cache pt -> ready (inc ord0 (d - 1)) cache pt.
Proof.
  intros H L. split; unfold inc, ord0; intros k Hk; [destruct (Nat.eqb_spec k (d - 1)); lia|].
  destruct (Nat.eqb_spec k (d - 1)) as [->|]; [exact L|apply H; auto].
Qed.
Lemma ready_diag2 cache pt : cache_vals d mx v cache pt -> cache_second d mx d2 cache pt ->
  ready (inc (inc ord0 (d - 1)) (d - 1)) cache pt.
Proof.
  intros H L. split; unfold inc, ord0; intros k Hk; [destruct (Nat.eqb_spec k (d - 1)); lia|].
  destruct (Nat.eqb_spec k (d - 1)) as [->|]; [exact L|apply H; auto].
Qed.
Lemma ready_input cache pt j : cache_vals d mx v cache pt -> cache_ders d mx dv cache pt -> ready (inc ord0 j) cache pt.
Proof.
  intros H L. split; unfold inc, ord0; intros k Hk; [destruct (Nat.eqb_spec k j); lia|].
  destruct (Nat.eqb_spec k j) as [->|]; [apply L; auto|apply H; auto].
Qed.
Lemma ready_mixed cache pt j : cache_vals d mx v cache pt -> cache_last d mx dv cache pt ->
  (forall k, (k < d - 1)%nat -> has d mx cache (d + k) (fun n => dv n (coord pt k))) ->
  cache_second d mx d2 cache pt ->
  ready (inc (inc ord0 (d - 1)) j) cache pt.
Proof.
  intros H Ll L S. split; unfold inc, ord0; intros k Hk.
  - destruct (Nat.eqb_spec k j), (Nat.eqb_spec k (d - 1)); lia.
  - destruct (Nat.eqb_spec k j) as [Ej|Ej], (Nat.eqb_spec k (d - 1)) as [Ed|Ed]; cbn [loc raw_of].
    + rewrite Ed. exact S.
    + apply L. lia.
    + rewrite Ed. exact Ll.
    + apply H. auto.
Qed.

Lemma term_at i : (i < length vs)%nat -> nth_error vs i = Some (nth i vs []) /\ In (nth i vs []) vs.
Proof. intros H. split; [apply nth_error_nth'; auto|apply nth_In; auto]. Qed.

Lemma size_W : w_NumCoeffs W = length vs.
Proof. apply packed_size. Qed.

(** One term of Evaluate and CoeffDerivative. *)
Lemma plain_term cache pt i : cache_vals d mx v cache pt -> (i < length vs)%nat ->
  nz_loop (wset W) i (fun z k o => do c <- cget W cache k o; Ok (z * c)) 1 = Ok (Tm ord0 (nth i vs []) pt).
Proof.
  intros H Hi. destruct (term_at i Hi) as [T1 T2]. change (wset W) with (packed d vs mx). 
  destruct (Hvs _ T2) as [L1 L2].
  rewrite (nz_val d vs mx i _ _ (fun k o => raw_of (ord0 k) o (coord pt k)) _ T1).
  - rewrite Tm_pairs; [f_equal; ring|]. unfold ord0. lia.
  - intros z k o Hk ->. pose proof (ready_get ord0 cache pt (nth i vs []) k (ready_vals cache pt H) T2 ltac:(lia)) as E.
    cbn [loc ord0] in E. rewrite E. reflexivity.
Qed.

Lemma Evaluate_ok cache pt c : cache_vals d mx v cache pt -> length c = length vs ->
  w_Evaluate W cache c = Ok (Ex ord0 c pt).
Proof.
  intros H Lc. unfold w_Evaluate. rewrite size_W.
  rewrite (ofold_sum (fun i => coord c i * Tm ord0 (nth i vs []) pt)); [reflexivity|].
  intros acc i Hi. rewrite (plain_term cache pt) by auto. cbn [obind]. rewrite (raw_get_ok c i 0) by lia. cbn [obind].
  unfold coord. f_equal. ring.
Qed.

Lemma CoeffDerivative_ok cache pt c g : cache_vals d mx v cache pt -> length c = length vs -> (length vs <= length g)%nat ->
  w_CoeffDerivative W cache c g = Ok (Ex ord0 c pt, fill (fun i => Tm ord0 (nth i vs []) pt) (length vs) g).
Proof.
  intros H Lc Lg. unfold w_CoeffDerivative. rewrite size_W.
  pose (St := fun n => (rsum (fun i => coord c i * Tm ord0 (nth i vs []) pt) n, fill (fun i => Tm ord0 (nth i vs []) pt) n g)).
  change (0, g) with (St 0%nat). rewrite (ofold_seq _ St); [reflexivity|].
  intros i Hi. rewrite (plain_term cache pt) by (auto; lia). cbn [obind]. rewrite (raw_get_ok c i 0) by lia. cbn [obind].
  unfold St at 1. cbn [snd]. rewrite fill_set by (auto; lia). cbn [obind]. unfold St. cbn [fst].
  rewrite Nat.add_1_r. cbn [rsum]. unfold coord. do 2 f_equal. ring.
Qed.

(** One term of DiagonalDerivative and MixedCoeffDerivative. *)
Definition dords (order : nat) : nat -> nat := match order with S O => inc ord0 (d - 1) | _ => inc (inc ord0 (d - 1)) (d - 1) end.

Lemma dords_at order k : (order = 1 \/ order = 2)%nat -> dords order k = if (k =? d - 1)%nat then order else 0%nat.
Proof. intros [-> | ->]; unfold dords, inc, ord0; destruct (k =? d - 1)%nat; reflexivity. Qed.

Lemma touch_Tm ords al pt j : In al vs -> (j < d)%nat -> (forall k, (k < d)%nat -> k <> j -> ords k = 0%nat) -> ords j <> 0%nat ->
  Tm ords al pt = if touches al j then pprod (fun k o => raw_of (ords k) o (coord pt k)) (pairs al) else 0.
Proof.
  intros Hin Hj H1 H2. destruct (Hvs al Hin) as [L1 L2]. rewrite touches_spec by lia.
  destruct (Nat.eqb_spec (nth j al 0%nat) 0) as [E|E]; cbn [negb].
  - apply Tm_zero with (k := j); auto; lia.
  - apply Tm_pairs. intros k Hk Ho. destruct (Nat.eq_dec k j) as [->|Hn]; auto. exfalso. apply Ho, H1; lia.
Qed.

Lemma diag_term_ok order cache pt i : (order = 1 \/ order = 2)%nat -> ready (dords order) cache pt -> (i < length vs)%nat ->
  exists z, diag_term W cache (2 * d + order - 2) i = Ok z /\
    Tm (dords order) (nth i vs []) pt = if snd z then fst z else 0.
Proof.
  intros Ho R Hi. destruct (term_at i Hi) as [T1 T2]. destruct (Hvs _ T2) as [L1 L2].
  eexists. split.
  - unfold diag_term. change (wset W) with (packed d vs mx). 
    apply (nz_flag d vs mx i _ _ (fun k o => raw_of (dords order k) o (coord pt k)) (d - 1) _ T1).
    intros z k o Hk ->. change (wdim W) with d. rewrite L1 in Hk.
    pose proof (ready_get _ cache pt (nth i vs []) k R T2 Hk) as E. rewrite dords_at in * by auto.
    destruct (Nat.eqb_spec k (d - 1)) as [->|Hn].
    + replace (2 * d + order - 2)%nat with (loc order (d - 1)) by (unfold loc; destruct Ho as [-> | ->]; lia).
      rewrite E. reflexivity.
    + cbn [loc] in E. rewrite E. reflexivity.
  - cbn [fst snd]. rewrite orb_false_r, Rmult_1_l. apply touch_Tm; auto; [lia| |].
    + intros k Hk Hn. rewrite dords_at by auto. destruct (Nat.eqb_spec k (d - 1)); auto; contradiction.
    + rewrite dords_at, Nat.eqb_refl by auto. lia.
Qed.

Lemma DiagonalDerivative_ok order cache pt c : (order = 1 \/ order = 2)%nat -> ready (dords order) cache pt -> length c = length vs ->
  w_DiagonalDerivative W cache c order = Ok (Ex (dords order) c pt).
Proof.
  intros Ho R Lc. unfold w_DiagonalDerivative. rewrite size_W.
  replace (negb _) with false by (destruct Ho as [-> | ->]; reflexivity). change (wdim W) with d.
  rewrite (ofold_sum (fun i => coord c i * Tm (dords order) (nth i vs []) pt)); [reflexivity|].
  intros acc i Hi. destruct (diag_term_ok order cache pt i Ho R Hi) as (z & E & T). rewrite E. cbn [obind]. rewrite T.
  destruct (snd z).
  - rewrite (raw_get_ok c i 0) by lia. cbn [obind]. unfold coord. f_equal. ring.
  - f_equal. ring.
Qed.

Lemma MixedCoeffDerivative_ok order cache pt c g : (order = 1 \/ order = 2)%nat -> ready (dords order) cache pt ->
  length c = length vs -> (length vs <= length g)%nat ->
  w_MixedCoeffDerivative W cache c order g =
  Ok (Ex (dords order) c pt, fill (fun i => Tm (dords order) (nth i vs []) pt) (length vs) g).
Proof.
  intros Ho R Lc Lg. unfold w_MixedCoeffDerivative. rewrite size_W.
  replace (negb _) with false by (destruct Ho as [-> | ->]; reflexivity). change (wdim W) with d.
  pose (St := fun n => (rsum (fun i => coord c i * Tm (dords order) (nth i vs []) pt) n, fill (fun i => Tm (dords order) (nth i vs []) pt) n g)).
  change (0, g) with (St 0%nat). rewrite (ofold_seq _ St); [reflexivity|].
  intros i Hi. destruct (diag_term_ok order cache pt i Ho R ltac:(lia)) as (z & E & T). rewrite E. cbn [obind].
  unfold St. cbn [fst snd]. rewrite Nat.add_1_r. cbn [rsum]. rewrite T. destruct (snd z).
  - rewrite (raw_get_ok c i 0) by lia. cbn [obind]. rewrite fill_set by (auto; lia). cbn [obind]. unfold coord. do 2 f_equal. ring.
  - rewrite fill_set by (auto; lia). cbn [obind]. do 2 f_equal. ring.
Qed.

(** The loops over wrt. *)
Lemma inner_none (body : R * list R -> nat -> outcome (R * list R)) g T n :
  (forall f i, (i < n)%nat -> body (f, g) i = Ok (f + T i, g)) -> ofold body (seq 0 n) (0, g) = Ok (rsum T n, g).
Proof.
  intros H. pose (St := fun n => (rsum T n, g)). change (0, g) with (St 0%nat). rewrite (ofold_seq _ St); [reflexivity|].
  intros i Hi. unfold St. rewrite H by lia. rewrite Nat.add_1_r. reflexivity.
Qed.

Lemma inner_some (body : R * list R -> nat -> outcome (R * list R)) f g j T n : (j < length g)%nat ->
  (forall s i, (i < n)%nat -> body (f, upd g j s) i = Ok (f, upd g j (s + T i))) ->
  ofold body (seq 0 n) (f, upd g j 0) = Ok (f, upd g j (rsum T n)).
Proof.
  intros Hj H. pose (St := fun n => (f, upd g j (rsum T n))). change (f, upd g j 0) with (St 0%nat).
  rewrite (ofold_seq _ St); [reflexivity|]. intros i Hi. unfold St. rewrite H by lia. rewrite Nat.add_1_r. reflexivity.
Qed.

Lemma wrt_add_upd g j s t : (j < length g)%nat -> wrt_add (upd g j s) (Some j) t = Ok (upd g j (s + t)).
Proof.
  intros H. cbn [wrt_add]. rewrite (raw_get_ok _ j 0) by (rewrite upd_length; auto). cbn [obind].
  rewrite nth_upd_eq by auto. rewrite raw_set_ok by (rewrite upd_length; auto). rewrite upd_upd_eq. reflexivity.
Qed.

Lemma outer (body : R * list R -> option nat -> outcome (R * list R)) F G g : (d <= length g)%nat ->
  body (0, g) None = Ok (F, g) ->
  (forall g' j, (j < d)%nat -> length g' = length g -> body (F, g') (Some j) = Ok (F, upd g' j (G j))) ->
  ofold body (wrts d) (0, g) = Ok (F, fill G d g).
Proof.
  intros Lg H1 H2. unfold wrts. cbn [ofold]. rewrite H1. cbn [obind]. rewrite ofold_map.
  pose (St := fun n => (F, fill G n g)). change (F, g) with (St 0%nat). rewrite (ofold_seq _ St); [reflexivity|].
  intros j Hj. unfold St. rewrite H2 by (try rewrite fill_length; lia). rewrite upd_fill by lia. rewrite Nat.add_1_r. reflexivity.
Qed.

Lemma touches_out al : In al vs -> touches al d = false.
Proof.
  intros Hin. destruct (Hvs al Hin) as [L _]. unfold touches. apply not_true_is_false. rewrite existsb_exists.
  intros ([k o] & Hp & E). apply Nat.eqb_eq in E. apply nz_pairs in Hp. cbn in E. lia.
Qed.

Lemma InputDerivative_ok cache pt c g : cache_vals d mx v cache pt -> cache_ders d mx dv cache pt ->
  length c = length vs -> (d <= length g)%nat ->
  w_InputDerivative W cache c g = Ok (Ex ord0 c pt, fill (fun j => Ex (inc ord0 j) c pt) d g).
Proof.
  intros Hv Hders Lc Lg. unfold w_InputDerivative. rewrite size_W. change (wdim W) with d.
  apply outer; auto.
  - cbn [wrt_clear snd fst obind]. apply inner_none. intros f i Hi. destruct (term_at i Hi) as [T1 T2]. destruct (Hvs _ T2) as [L1 L2].
    change (wset W) with (packed d vs mx). 
    rewrite (nz_flag d vs mx i _ _ (fun k o => raw_of (ord0 k) o (coord pt k)) d _ T1).
    + rewrite touches_out by auto. cbn [obind snd fst orb]. rewrite (raw_get_ok c i 0) by lia. cbn [obind].
      rewrite Tm_pairs by (unfold ord0; lia). unfold coord. do 2 f_equal. ring.
    + intros z k o Hk ->. cbn [is_wrt]. rewrite L1 in Hk. destruct (Nat.eqb_spec k d); [lia|].
      pose proof (ready_get ord0 cache pt (nth i vs []) k (ready_vals cache pt Hv) T2 Hk) as E. cbn [loc ord0] in E.
      rewrite E. reflexivity.
  - intros g' j Hj Lg'. cbn [wrt_clear snd fst]. rewrite raw_set_ok by lia. cbn [obind].
    apply inner_some; [lia|]. intros s i Hi. destruct (term_at i Hi) as [T1 T2]. destruct (Hvs _ T2) as [L1 L2].
    change (wset W) with (packed d vs mx). 
    rewrite (nz_flag d vs mx i _ _ (fun k o => raw_of (inc ord0 j k) o (coord pt k)) j _ T1).
    + cbn [obind snd fst]. rewrite orb_false_r. rewrite (raw_get_ok c i 0) by lia. cbn [obind].
      rewrite (touch_Tm (inc ord0 j) _ pt j T2 Hj).
      * destruct (touches (nth i vs []) j).
        -- rewrite wrt_add_upd by lia. cbn [obind]. unfold coord. do 3 f_equal. ring.
        -- rewrite Rmult_0_r, Rplus_0_r. reflexivity.
      * intros k Hk Hn. unfold inc, ord0. destruct (Nat.eqb_spec k j); auto; contradiction.
      * unfold inc. rewrite Nat.eqb_refl. lia.
    + intros z k o Hk ->. cbn [is_wrt wrt_pos]. rewrite L1 in Hk.
      pose proof (ready_get _ cache pt (nth i vs []) k (ready_input cache pt j Hv Hders) T2 Hk) as E.
      unfold inc, ord0 in E |- *. destruct (Nat.eqb_spec k j) as [->|Hn]; cbn [loc] in E; rewrite E; reflexivity.
Qed.

Lemma touch2_Tm ords al pt j l : In al vs -> (j < d)%nat -> (l < d)%nat ->
  (forall k, (k < d)%nat -> k <> j -> k <> l -> ords k = 0%nat) -> ords j <> 0%nat -> ords l <> 0%nat ->
  Tm ords al pt = if touches al j && touches al l then pprod (fun k o => raw_of (ords k) o (coord pt k)) (pairs al) else 0.
Proof.
  intros Hin Hj Hl H1 H2 H3. destruct (Hvs al Hin) as [L1 L2]. rewrite !touches_spec by lia.
  destruct (Nat.eqb_spec (nth j al 0%nat) 0) as [E|E]; cbn [negb andb].
  - apply Tm_zero with (k := j); auto; lia.
  - destruct (Nat.eqb_spec (nth l al 0%nat) 0) as [E'|E']; cbn [negb].
    + apply Tm_zero with (k := l); auto; lia.
    + apply Tm_pairs. intros k Hk Ho. destruct (Nat.eq_dec k j) as [->|Hn]; auto. destruct (Nat.eq_dec k l) as [->|Hn']; auto.
      exfalso. apply Ho, H1; lia.
Qed.

Lemma MixedInputDerivative_ok cache pt c g : cache_vals d mx v cache pt -> cache_last d mx dv cache pt ->
  (forall k, (k < d - 1)%nat -> has d mx cache (d + k) (fun n => dv n (coord pt k))) ->
  cache_second d mx d2 cache pt -> length c = length vs -> (d <= length g)%nat ->
  w_MixedInputDerivative W cache c g =
  Ok (Ex (inc ord0 (d - 1)) c pt, fill (fun j => Ex (inc (inc ord0 (d - 1)) j) c pt) d g).
Proof.
  intros Hv Hl Hders Hs Lc Lg. unfold w_MixedInputDerivative. rewrite size_W. change (wdim W) with d.
  apply outer; auto.
  - cbn [wrt_clear snd fst obind]. apply inner_none. intros f i Hi. destruct (term_at i Hi) as [T1 T2]. destruct (Hvs _ T2) as [L1 L2].
    change (wset W) with (packed d vs mx). 
    rewrite (nz_flag2 d vs mx i _ _ (fun k o => raw_of (inc ord0 (d - 1) k) o (coord pt k)) d (d - 1) _ T1).
    + rewrite touches_out by auto. cbn [obind snd fst orb andb]. rewrite (raw_get_ok c i 0) by lia. cbn [obind].
      rewrite (touch_Tm (inc ord0 (d - 1)) _ pt (d - 1) T2 ltac:(lia)).
      * rewrite orb_false_r. destruct (touches (nth i vs []) (d - 1)); unfold coord; [do 2 f_equal; ring|].
        rewrite Rmult_0_r, Rplus_0_r. reflexivity.
      * intros k Hk Hn. unfold inc, ord0. destruct (Nat.eqb_spec k (d - 1)); auto; contradiction.
      * unfold inc. rewrite Nat.eqb_refl. lia.
    + intros z k o Hk ->. cbn [is_wrt]. rewrite L1 in Hk. replace (k =? d)%nat with false by (symmetry; apply Nat.eqb_neq; lia). cbn [orb].
      pose proof (ready_get _ cache pt (nth i vs []) k (ready_diag cache pt Hv Hl) T2 Hk) as E.
      unfold inc, ord0 in E |- *. destruct (Nat.eqb_spec k (d - 1)) as [->|Hn]; cbn [loc] in E.
      * replace (2 * d - 1)%nat with (d + (d - 1))%nat by lia. rewrite E. reflexivity.
      * rewrite E. reflexivity.
  - intros g' j Hj Lg'. cbn [wrt_clear snd fst]. rewrite raw_set_ok by lia. cbn [obind].
    apply inner_some; [lia|]. intros s i Hi. destruct (term_at i Hi) as [T1 T2]. destruct (Hvs _ T2) as [L1 L2].
    change (wset W) with (packed d vs mx). 
    rewrite (nz_flag2 d vs mx i _ _ (fun k o => raw_of (inc (inc ord0 (d - 1)) j k) o (coord pt k)) j (d - 1) _ T1).
    + cbn [obind snd fst]. rewrite !orb_false_r. rewrite (raw_get_ok c i 0) by lia. cbn [obind].
      rewrite (touch2_Tm (inc (inc ord0 (d - 1)) j) _ pt j (d - 1) T2 Hj ltac:(lia)).
      * destruct (touches (nth i vs []) j && touches (nth i vs []) (d - 1)).
        -- rewrite wrt_add_upd by lia. cbn [obind]. unfold coord. do 3 f_equal. ring.
        -- rewrite Rmult_0_r, Rplus_0_r. reflexivity.
      * intros k Hk Hn Hn'. unfold inc, ord0. destruct (Nat.eqb_spec k j); [contradiction|]. destruct (Nat.eqb_spec k (d - 1)); auto; contradiction.
      * unfold inc. rewrite Nat.eqb_refl. lia.
      * unfold inc. rewrite Nat.eqb_refl. destruct (d - 1 =? j)%nat; lia.
    + intros z k o Hk ->. cbn [is_wrt wrt_pos]. rewrite L1 in Hk.
      pose proof (ready_get _ cache pt (nth i vs []) k (ready_mixed cache pt j Hv Hl Hders Hs) T2 Hk) as E.
      unfold inc, ord0 in E |- *. 
      destruct (Nat.eqb_spec k (d - 1)) as [->|Hn].
      * destruct (Nat.eqb_spec (d - 1) j) as [He|He]; cbn [loc] in E.
        -- rewrite E. reflexivity.
        -- replace (2 * d - 1)%nat with (d + (d - 1))%nat by lia. rewrite E. reflexivity.
      * destruct (Nat.eqb_spec k j) as [->|He]; cbn [loc] in E; rewrite E; reflexivity.
Qed.
End Routines.
