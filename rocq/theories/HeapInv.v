(** The invariant of coefficient storage and its preservation by every call. *)
From Verif Require Import Base HeapModel HeapProofs.

Section Heap.
Context {A : Type} (zero : A) (dbg : bool).
Notation state := (state A).
Implicit Types s : state.

Definition views_ok s : Prop := forall o v, saved_of s o = Some v -> valid s v = true.
(** A container with coefficients of the right size has components with coefficients of the right size. *)
Definition closed s : Prop := forall o, good s o -> forall k, In k (kids_of s o) -> good s k.
Definition Inv s : Prop := struct s /\ views_ok s /\ closed s.

Lemma saved_dom s o v : saved_of s o = Some v -> o < length (objs s).
Proof. unfold saved_of. destruct (nth_error (objs s) o) eqn:E; [intros _; eapply nth_error_Some_lt; eauto|discriminate]. Qed.
Lemma good_dom s o : good s o -> o < length (objs s).
Proof. intros (w & E & _). eapply saved_dom; eauto. Qed.

Lemma inside_valid s w v : inside w v -> valid s v = true -> valid s w = true.
Proof.
  intros (E & H1 & H2) V. apply valid_inv in V. destruct V. apply valid_intro; rewrite E; [auto|lia].
Qed.
Lemma effect_views s s' R v : effect s s' R v -> valid s v = true -> views_ok s -> views_ok s'.
Proof.
  intros (S1 & A1 & P1 & _) V H o w E. rewrite (valid_arrs s' s) by auto. destruct (P1 o) as [EQ|(_ & w' & EQ & _ & I)].
  - apply (H o). congruence.
  - rewrite E in EQ. injection EQ as <-. eapply inside_valid; eauto.
Qed.
Lemma good_objs s s' o : objs s' = objs s -> good s o -> good s' o.
Proof. intros E (w & H). exists w. unfold saved_of, nc_of in *. now rewrite E. Qed.
Lemma shape_objs s s' : objs s' = objs s -> same_shape s s'.
Proof. intros E. split; [congruence|]. intros o. unfold nc_of, kids_of, whole_of. rewrite E. auto. Qed.
Lemma saved_objs s s' o : objs s' = objs s -> saved_of s' o = saved_of s o.
Proof. intros E. unfold saved_of. now rewrite E. Qed.

Lemma wrap_ok s o v : Inv s -> o < length (objs s) -> valid s v = true -> v_len v = nc_of s o ->
  exists s', WrapCoeffs dbg s o v = Done s' /\ effect s s' (fun r => r = o) v /\ saved_of s' o = Some v /\ Inv s'.
Proof.
  intros (HS & HV & HC) Ho V L. destruct (wrap_spec dbg (S o) s o v HS ltac:(lia) Ho L) as (s' & E & F & SV).
  exists s'. split; auto. split; auto. split; auto. pose proof F as (SH & AR & P & G). split; [eapply struct_shape; eauto|]. split; [eapply effect_views; eauto|].
  intros p Gp k Hk. assert (Hk' : In k (kids_of s p)) by (destruct SH as (_ & SH); destruct (SH p) as (_ & -> & _); auto).
  destruct (P p) as [EQ|((r & -> & D) & _)].
  - eapply effect_good; eauto. eapply HC; eauto. destruct Gp as (w & E1 & E2). exists w. destruct SH as (_ & SH). destruct (SH p) as (N & _). split; congruence.
  - apply (G o k eq_refl). econstructor; eauto.
Qed.

(** What the base class part of SetCoeffs does when it returns. *)
Definition assigned s s1 (o : nat) (v w : view) : Prop :=
  same_shape s s1 /\ saved_of s1 o = Some w /\ v_len w = v_len v /\ contents s1 w = contents s v /\ valid s1 w = true /\
  (forall p, p <> o -> saved_of s1 p = saved_of s p) /\ frame s s1 (v_arr w) /\
  (v_len v = nc_of s o \/ saved_of s o = None) /\
  (good s o -> saved_of s o = Some w) /\ (~ good s o -> v_arr w = length (arrs s) /\ user_of s1 (v_arr w) = false).
Lemma objs_alloc s u (d : list A) : objs (alloc s u d) = objs s. Proof. reflexivity. Qed.

Lemma base_fresh s o v (d : list A) n b : nth_error (objs s) o = Some b -> valid s v = true -> length d = n -> v_len v = n ->
  (v_len v = nc_of s o \/ saved_of s o = None) -> ~ good s o ->
  let w := MkView (length (arrs s)) 0 n in
  exists s1, copy (put_saved (alloc s false d) o w) w v = Done s1 /\ assigned s s1 o v w.
Proof.
  intros Hb V Ld Lv HN HG w. assert (Ho := nth_error_Some_lt _ _ _ Hb).
  destruct (alloc_spec s false d) as (Q1 & Q2 & Q3 & Q4 & Q5). set (sa := alloc s false d) in *.
  pose proof (put_saved_shape sa o w) as SH. assert (AP := put_saved_arrs sa o w). set (sp := put_saved sa o w) in *.
  assert (Vv : valid sp v = true). { rewrite (valid_arrs sp sa) by auto. eapply frame_valid; [apply (Q2 0)|auto]. }
  assert (Vw : valid sp w = true). { rewrite (valid_arrs sp sa) by auto. apply valid_intro; cbn [w v_arr v_off v_len]; [lia|rewrite Q4; lia]. }
  assert (NE : v_arr w <> v_arr v). { apply valid_inv in V. cbn [w v_arr]. lia. }
  destruct (copy_spec sp w v Vw Vv) as [C|(s1 & C & O1 & F1 & L1 & C1)]; [cbn; auto|exfalso; revert C; apply copy_disjoint; [auto|cbn; auto]|].
  exists s1. split; auto. split.
  { eapply shape_trans; [|eapply shape_trans; [apply SH|apply shape_objs; auto]]. apply shape_objs. auto. }
  split; [rewrite (saved_objs sp s1 o O1); apply put_saved_same; rewrite Q1; auto|]. split; [cbn; auto|]. split.
  { rewrite C1, (contents_arrs sp sa) by auto. eapply frame_contents; [apply (Q2 (v_arr w))|auto|auto]. }
  split; [eapply frame_valid; eauto|]. split.
  { intros p Hp. rewrite (saved_objs sp s1 p O1). unfold sp. rewrite put_saved_other by auto. apply saved_objs. auto. }
  split. { eapply frame_trans; [|exact F1]. eapply frame_trans; [apply Q2|]. apply frame_same_arrs. auto. }
  split; auto. split; [intros G; contradiction|]. intros _. split; [reflexivity|]. destruct F1 as (FL & F1).
  destruct (F1 (v_arr w)) as (_ & E & _); [rewrite AP, Q3; cbn; lia|]. rewrite E. unfold user_of. rewrite AP. exact Q5.
Qed.

Lemma base_spec s o v : Inv s -> o < length (objs s) -> valid s v = true ->
  base_SetCoeffs zero s o v = Threw s \/ exists s1 w, base_SetCoeffs zero s o v = Done s1 /\ assigned s s1 o v w.
Proof.
  intros (HS & HV & HC) Ho V. unfold base_SetCoeffs. destruct (nth_error (objs s) o) as [b|] eqn:Hb; [|apply nth_error_None in Hb; lia].
  destruct (nth_facts s o b Hb) as (En & _ & _ & Es). destruct (o_saved b) as [w|] eqn:Ew.
  - destruct (v_len v =? o_nc b) eqn:L; cbn [negb]; auto. apply Nat.eqb_eq in L.
    destruct (v_len w =? o_nc b) eqn:Lw.
    + apply Nat.eqb_eq in Lw. assert (G : good s o) by (exists w; split; congruence).
      destruct (copy_spec s w v) as [C|(s1 & C & O1 & F1 & L1 & C1)]; [eapply HV; eauto|auto|congruence|auto|]. right. exists s1, w. split; auto. split; [apply shape_objs; auto|].
      split; [rewrite (saved_objs s s1 o O1); auto|]. split; [congruence|]. split; auto. split; [eapply frame_valid; eauto|].
      split; [intros p Hp; apply saved_objs; auto|]. split; auto. split; [left; congruence|]. split; auto. intros NG. contradiction.
    + right. apply Nat.eqb_neq in Lw. cbv zeta. destruct (base_fresh s o v (firstn (o_nc b) (contents s w) ++ repeat zero (o_nc b - length (firstn (o_nc b) (contents s w)))) (o_nc b) b Hb V) as (s1 & E1 & E2).
      * rewrite app_length, repeat_length. pose proof (firstn_le_length (o_nc b) (contents s w)). rewrite firstn_length in *. lia.
      * auto.
      * left. congruence.
      * intros (w' & E1 & E2). rewrite Es in E1. injection E1 as <-. congruence.
      * eauto.
  - right. cbv zeta. destruct (base_fresh s o v (repeat zero (v_len v)) (v_len v) b Hb V) as (s1 & E1 & E2); auto; [apply repeat_length|intros (w' & E1 & _); congruence|eauto].
Qed.

Lemma slices_short : forall wrapk (bound : nat),
  (forall s k v, struct s -> k < bound -> k < length (objs s) -> v_len v = nc_of s k ->
     exists s', wrapk s k v = Done s' /\ effect s s' (fun r => r = k) v /\ saved_of s' k = Some v) ->
  forall kids s v cum, struct s -> (forall k, In k kids -> k < bound /\ k < length (objs s)) -> cum <= v_len v -> v_len v < cum + total s kids ->
  slices wrapk dbg s v cum kids = if dbg then Abort else Undef.
Proof.
  intros wrapk bound HW. induction kids as [|k kids IH]; intros s v cum HS HK H1 H2; cbn [slices]; [unfold total in H2; cbn in H2; lia|].
  rewrite total_cons in H2. destruct (Nat.leb_spec (cum + nc_of s k) (v_len v)); auto.
  destruct (HK k (or_introl eq_refl)) as (Hb & Hk).
  destruct (HW s k (MkView (v_arr v) (v_off v + cum) (nc_of s k)) HS Hb Hk eq_refl) as (s1 & -> & (S1 & _) & _). cbn [rbind].
  apply IH; auto; [eapply struct_shape; eauto| |rewrite <- (shape_total s s1) by auto; lia].
  intros k' Hk'. destruct (HK k' (or_intror Hk')). destruct S1 as (L & _). lia.
Qed.

Definition set_result s (o : nat) (v : view) : Prop :=
  SetCoeffs zero dbg s o v = Threw s \/
  exists s1 w, assigned s s1 o v w /\
    ((exists s2, SetCoeffs zero dbg s o v = Done s2 /\ effect s1 s2 (fun r => In r (kids_of s o)) w /\ saved_of s2 o = Some w) \/
     (SetCoeffs zero dbg s o v = Threw s1 /\ v_len v <> nc_of s o) \/
     (SetCoeffs zero dbg s o v = (if dbg then Abort else Undef) /\ saved_of s o = None /\ kids_of s o <> [] /\ v_len v < nc_of s o)).
Lemma effect_nil s v (R : nat -> Prop) : (forall r, ~ R r) -> effect s s R v.
Proof. intros H. split; [apply shape_refl|]. split; auto. split; [auto|]. intros r p Hr. contradiction (H r). Qed.

Lemma set_spec s o v : Inv s -> o < length (objs s) -> valid s v = true -> set_result s o v.
Proof.
  intros HI Ho V. pose proof HI as (HS & HV & HC). unfold set_result, SetCoeffs. destruct (base_spec s o v HI Ho V) as [->|(s1 & w & -> & AS)]; [left; auto|].
  right. exists s1, w. split; auto. cbn [rbind]. pose proof AS as (SH & S1 & L1 & _ & _ & _ & _ & HN & _).
  assert (HS1 : struct s1) by (eapply struct_shape; eauto). pose proof SH as (LL & SHo). destruct (SHo o) as (e1 & e2 & e3).
  destruct (nth_error (objs s1) o) as [b|] eqn:Hb; [|apply nth_error_None in Hb; lia]. destruct (nth_facts s1 o b Hb) as (En & Ek & Ew & Es).
  rewrite S1 in Es. rewrite <- Es. destruct (HS1 o ltac:(lia)) as (K1 & K2 & K3). rewrite Ek in K1, K2, K3. rewrite Ew in K2, K3.
  assert (NS : forall s2, effect s1 s2 (fun r => In r (kids_of s o)) w -> saved_of s2 o = Some w).
  { intros s2 (_ & _ & P & _). destruct (P o) as [->|((r & Hr & D) & _)]; auto. rewrite e2, Ek in Hr. apply K1 in Hr. apply desc_le in D; auto. lia. }
  destruct (o_whole b) eqn:W.
  - destruct (K2 eq_refl) as (k & EK & EN). rewrite EK in *. assert (Hk : k < o) by (apply K1; left; auto).
    destruct (Nat.eq_dec (v_len w) (nc_of s1 k)) as [Q|Q].
    + destruct (wrap_spec dbg o s1 k w HS1 Hk ltac:(lia) Q) as (s2 & E2 & F2 & _). left. exists s2. split; auto.
      assert (F3 : effect s1 s2 (fun r => In r (kids_of s o)) w).
      { rewrite e2, Ek. destruct F2 as (f1 & f2 & f3 & f4). split; auto. split; auto. split.
        - intros p. destruct (f3 p) as [?|((r & -> & D) & X)]; auto. right. split; auto. exists k. split; [left; auto|auto].
        - intros r p [<-|[]] D. apply (f4 k); auto. }
      split; auto.
    + right. left. split; [|congruence]. destruct o as [|f]; [lia|]. cbn [wrap]. destruct (nth_error (objs s1) k) as [bk|] eqn:Ebk; [|apply nth_error_None in Ebk; lia].
      destruct (nth_facts s1 k bk Ebk) as (Enk & _). replace (v_len w =? o_nc bk) with false by (symmetry; apply Nat.eqb_neq; congruence). reflexivity.
  - destruct (o_kids b) as [|k0 kids] eqn:EK.
    + cbn [slices]. left. exists s1. split; auto. assert (F : effect s1 s1 (fun r => In r (kids_of s o)) w) by (apply effect_nil; intros r; rewrite e2, Ek; intros []). auto.
    + assert (HW : forall s k v, struct s -> k < o -> k < length (objs s) -> v_len v = nc_of s k ->
        exists s', wrap o dbg s k v = Done s' /\ effect s s' (fun r => r = k) v /\ saved_of s' k = Some v) by (intros; apply wrap_spec; auto).
      assert (HK : forall k, In k (k0 :: kids) -> k < o /\ k < length (objs s1)) by (intros k Hk; specialize (K1 k Hk); lia).
      specialize (K3 eq_refl ltac:(discriminate)).
      destruct (Nat.le_gt_cases (nc_of s1 o) (v_len w)) as [Q|Q].
      * destruct (slices_spec dbg (wrap o dbg) o HW (k0 :: kids) s1 w 0 HS1 HK ltac:(lia)) as (s2 & E2 & F2). left. exists s2. split; auto.
        assert (F3 : effect s1 s2 (fun r => In r (kids_of s o)) w) by (rewrite e2, Ek; auto). auto.
      * right. right. split; [apply (slices_short (wrap o dbg) o HW (k0 :: kids) s1 w 0 HS1 HK); lia|].
        split; [|split; [rewrite e2, Ek; discriminate|lia]]. destruct HN as [HN|HN]; auto. lia.
Qed.

Lemma assigned_inv s s1 o v w : Inv s -> assigned s s1 o v w -> views_ok s1 /\ struct s1 /\ (forall p, p <> o -> good s1 p -> forall k, In k (kids_of s1 p) -> good s1 k).
Proof.
  intros (HS & HV & HC) (SH & S1 & L1 & C1 & V1 & P1 & F1 & HN & HG & HNG). split; [|split; [eapply struct_shape; eauto|]].
  - intros p x E. destruct (Nat.eq_dec p o) as [->|N]; [congruence|]. rewrite P1 in E by auto. eapply frame_valid; eauto.
  - intros p N G k Hk. pose proof SH as (_ & SHo). destruct (SHo p) as (e1 & e2 & _). rewrite <- e2 in Hk.
    assert (Gp : good s p). { destruct G as (x & X1 & X2). exists x. rewrite P1 in X1 by auto. split; congruence. }
    pose proof (HC p Gp k Hk) as Gk. destruct (SHo k) as (e3 & _). destruct Gk as (x & X1 & X2). destruct (Nat.eq_dec k o) as [->|Nk].
    + exists w. split; auto. rewrite (HG (ex_intro _ x (conj X1 X2))) in X1. injection X1 as <-. congruence.
    + exists x. rewrite P1 by auto. split; congruence.
Qed.
Lemma set_inv s o v s' : Inv s -> o < length (objs s) -> valid s v = true ->
  SetCoeffs zero dbg s o v = Done s' \/ SetCoeffs zero dbg s o v = Threw s' -> Inv s'.
Proof.
  intros HI Ho V H. destruct (set_spec s o v HI Ho V) as [E|(s1 & w & AS & C)].
  { rewrite E in H. destruct H as [H|H]; [discriminate|]. injection H as <-. auto. }
  destruct (assigned_inv s s1 o v w HI AS) as (V1 & S1 & C1). pose proof AS as (SH & SV & L1 & _ & Vw & _ & _ & _).
  pose proof SH as (_ & SHo). destruct (SHo o) as (e1 & e2 & _).
  destruct C as [(s2 & E & F & SV2)|[(E & N)|(E & _)]].
  - rewrite E in H. destruct H as [H|H]; [|discriminate]. injection H as <-. pose proof F as (SH2 & A2 & P2 & G2).
    split; [eapply struct_shape; eauto|]. split; [eapply effect_views; eauto|].
    intros p G k Hk. pose proof SH2 as (_ & SH2o). destruct (SH2o p) as (f1 & f2 & _). rewrite <- f2 in Hk. destruct (Nat.eq_dec p o) as [->|Np].
    + apply (G2 k k); [rewrite e2; auto|constructor].
    + destruct (P2 p) as [EQ|((r & Hr & D) & _)].
      * eapply effect_good; eauto. apply (C1 p Np); auto. destruct G as (x & X1 & X2). exists x. split; congruence.
      * apply (G2 r k); auto. econstructor; eauto.
  - rewrite E in H. destruct H as [H|H]; [discriminate|]. injection H as <-. split; auto. split; auto.
    intros p G k Hk. destruct (Nat.eq_dec p o) as [->|Np]; [|apply (C1 p Np); auto].
    exfalso. destruct G as (x & X1 & X2). rewrite SV in X1. injection X1 as <-. congruence.
  - rewrite E in H. destruct dbg; destruct H; discriminate.
Qed.

(** ** New objects *)
Definition add_obj s (b : object) : state := MkSt (arrs s) (objs s ++ [b]).
Lemma add_obj_old s b p : p < length (objs s) -> nth_error (objs (add_obj s b)) p = nth_error (objs s) p.
Proof. intros H. cbn [add_obj objs]. apply nth_error_app1. auto. Qed.
Lemma add_obj_new s b : nth_error (objs (add_obj s b)) (length (objs s)) = Some b.
Proof. cbn [add_obj objs]. rewrite nth_error_app2, Nat.sub_diag by auto. reflexivity. Qed.
Lemma add_obj_len s b : length (objs (add_obj s b)) = S (length (objs s)).
Proof. cbn [add_obj objs]. rewrite app_length. cbn. lia. Qed.
Lemma add_nc s b p : p < length (objs s) -> nc_of (add_obj s b) p = nc_of s p.
Proof. intros H. unfold nc_of. now rewrite add_obj_old. Qed.
Lemma add_total s b kids : (forall k, In k kids -> k < length (objs s)) -> total (add_obj s b) kids = total s kids.
Proof.
  induction kids as [|k kids IH]; intros H; auto. rewrite !total_cons, IH, add_nc; auto; intros; apply H; [left|right]; auto.
Qed.
Lemma add_inv s b : Inv s -> o_saved b = None -> (forall k, In k (o_kids b) -> k < length (objs s)) ->
  (o_whole b = true -> exists k, o_kids b = [k] /\ nc_of s k = o_nc b) -> (o_whole b = false -> o_kids b <> [] -> o_nc b = total s (o_kids b)) ->
  Inv (add_obj s b).
Proof.
  intros (HS & HV & HC) Hs Hk Hw Hn. split; [|split].
  - intros o Ho. rewrite add_obj_len in Ho. destruct (Nat.eq_dec o (length (objs s))) as [->|N].
    + destruct (nth_facts _ _ _ (add_obj_new s b)) as (e1 & e2 & e3 & _). rewrite e1, e2, e3. split; auto. split.
      * intros W. destruct (Hw W) as (k & Ek & En). exists k. split; auto. rewrite add_nc; auto. apply Hk. rewrite Ek. left. auto.
      * intros W N. rewrite add_total; auto.
    + assert (L : o < length (objs s)) by lia. destruct (HS o L) as (K1 & K2 & K3). unfold kids_of, whole_of in *. rewrite add_obj_old by auto. split; auto. split.
      * intros W. destruct (K2 W) as (k & Ek & En). exists k. split; auto. rewrite !add_nc; auto. rewrite Ek in K1. specialize (K1 k (or_introl eq_refl)). lia.
      * intros W Q. rewrite add_total, add_nc; auto. intros k Q1. specialize (K1 k Q1). lia.
  - intros o v E. rewrite (valid_arrs _ s) by reflexivity. assert (Ho := saved_dom _ _ _ E). rewrite add_obj_len in Ho.
    destruct (Nat.eq_dec o (length (objs s))) as [->|N]; [destruct (nth_facts _ _ _ (add_obj_new s b)) as (_ & _ & _ & e); congruence|].
    apply (HV o). unfold saved_of in *. rewrite add_obj_old in E by lia. auto.
  - intros o G k Q. assert (Ho := good_dom _ _ G). rewrite add_obj_len in Ho.
    destruct (Nat.eq_dec o (length (objs s))) as [->|N]; [destruct (nth_facts _ _ _ (add_obj_new s b)) as (_ & _ & _ & e); destruct G as (w & E & _); congruence|].
    assert (L : o < length (objs s)) by lia. assert (Gs : good s o). { destruct G as (w & E1 & E2). exists w. unfold saved_of, nc_of in *. rewrite add_obj_old in E1, E2 by auto. auto. }
    unfold kids_of in Q. rewrite add_obj_old in Q by auto. destruct (HS o L) as (K1 & _). specialize (K1 k Q).
    destruct (HC o Gs k Q) as (w & E1 & E2). exists w. unfold saved_of, nc_of in *. rewrite !add_obj_old by lia. auto.
Qed.

(** ** Gathering the components' coefficients *)
Lemma skipn_add (l : list A) a b : skipn a (skipn b l) = skipn (b + a) l.
Proof. revert l. induction b as [|b IH]; intros l; auto. destruct l; cbn; [now rewrite !skipn_nil|apply IH]. Qed.
Lemma contents_split s a off n m : contents s (MkView a off (n + m)) = contents s (MkView a off n) ++ contents s (MkView a (off + n) m).
Proof.
  unfold contents. cbn [v_len v_off v_arr]. generalize (data s a) as l. intros l. rewrite <- (firstn_skipn n (firstn (n + m) (skipn off l))).
  rewrite firstn_firstn, Nat.min_l by lia. f_equal. rewrite <- firstn_skipn_comm. f_equal. apply skipn_add.
Qed.
Lemma put_data_prefix s a off (d : list A) : a < length (arrs s) -> off + length d <= length (data s a) ->
  contents (put_data s a off d) (MkView a 0 off) = contents s (MkView a 0 off).
Proof.
  intros Ha Hd. destruct (put_data_spec s a off d Ha Hd) as (_ & _ & _ & E). unfold contents. cbn [v_len v_off v_arr skipn]. rewrite E.
  rewrite firstn_app, firstn_firstn, Nat.min_id, firstn_length, Nat.min_l by lia. rewrite Nat.sub_diag. cbn [firstn]. apply app_nil_r.
Qed.
Definition own s (o : nat) : list A := match Coeffs s o with Some c => c | None => [] end.
Lemma gather_spec : forall kids s a cum, views_ok s -> a < length (arrs s) -> (forall o v, saved_of s o = Some v -> v_arr v <> a) ->
  cum + total s kids <= length (data s a) ->
  (exists s', gather s a cum kids = Threw s') \/
  exists s', gather s a cum kids = Done s' /\ objs s' = objs s /\ frame s s' a /\ length (arrs s') = length (arrs s) /\
    contents s' (MkView a 0 (cum + total s kids)) = contents s (MkView a 0 cum) ++ flat_map (own s) kids /\
    (forall k, In k kids -> check s k = true).
Proof.
  induction kids as [|k kids IH]; intros s a cum HV Ha HN HT; cbn [gather].
  { right. exists s. split; auto. split; auto. split; [apply frame_refl|]. split; auto. split; [|intros k []]. unfold total. cbn. now rewrite Nat.add_0_r, app_nil_r. }
  rewrite total_cons in *. destruct (check s k) eqn:CK; cbn [negb]; [|left; eauto]. set (n := nc_of s k) in *. cbv zeta.
  assert (STEP : forall s1, objs s1 = objs s -> frame s s1 a -> length (arrs s1) = length (arrs s) -> contents s1 (MkView a 0 (cum + n)) = contents s (MkView a 0 cum) ++ own s k ->
    (exists s', gather s1 a (cum + n) kids = Threw s') \/
    exists s', gather s1 a (cum + n) kids = Done s' /\ objs s' = objs s /\ frame s s' a /\ length (arrs s') = length (arrs s) /\
      contents s' (MkView a 0 (cum + (n + total s kids))) = contents s (MkView a 0 cum) ++ flat_map (own s) (k :: kids) /\ (forall k', In k' (k :: kids) -> check s k' = true)).
  { intros s1 O1 F1 L1 C1. assert (TT : total s1 kids = total s kids) by (symmetry; apply shape_total, shape_objs; auto).
    destruct (IH s1 a (cum + n)) as [?|(s' & E & O2 & F2 & L2 & C2 & CK2)]; auto.
    - intros o v E. rewrite (saved_objs s s1 o O1) in E. eapply frame_valid; eauto.
    - lia.
    - intros o v E. rewrite (saved_objs s s1 o O1) in E. eauto.
    - destruct F1 as (_ & F1). destruct (F1 a Ha) as (-> & _). lia.
    - right. exists s'. split; auto. split; [congruence|]. split; [eapply frame_trans; eauto|]. split; [congruence|]. split.
      + rewrite <- Nat.add_assoc, TT in C2. rewrite C2, C1, <- app_assoc. f_equal. cbn [flat_map]. f_equal.
        apply flat_map_ext. intros j. unfold own, Coeffs. rewrite (saved_objs s s1 j O1). destruct (saved_of s j) as [w|] eqn:Ej; auto. cbn [option_map].
        eapply frame_contents; eauto.
      + intros k' [<-|Q]; auto. specialize (CK2 k' Q). unfold check, saved_of, nc_of in *. now rewrite O1 in CK2. }
  unfold check in CK. destruct (saved_of s k) as [w|] eqn:Ek.
  - pose proof (HV k w Ek) as Vw. destruct (Nat.eq_dec (v_len w) n) as [L|L].
    + destruct (copy_spec s (MkView a cum n) w) as [C|(s1 & C & O1 & F1 & L1 & C1)]; [apply valid_intro; cbn; [auto|lia]|auto|cbn; auto| |].
      { exfalso. revert C. apply copy_disjoint; [cbn; intros Q; eapply HN; eauto|cbn; auto]. }
      rewrite C. cbn [rbind]. apply STEP; auto. rewrite contents_split. cbn [Nat.add]. rewrite C1. unfold own, Coeffs. rewrite Ek. cbn [option_map]. f_equal.
      unfold copy in C. cbn [v_len] in C. rewrite L, Nat.eqb_refl in C. cbn [negb] in C.
      destruct (view_eqb (MkView a cum n) w) eqn:EV; [injection C as <-; auto|]. destruct (overlap (MkView a cum n) w); [discriminate|]. injection C as <-. cbn [v_arr v_off].
      apply put_data_prefix; auto. rewrite (contents_length s w Vw). lia.
    + left. unfold copy. cbn [v_len]. replace (n =? v_len w) with false by (symmetry; apply Nat.eqb_neq; auto). cbn. eauto.
  - destruct (n =? 0) eqn:N0; [|left; cbn; eauto]. apply Nat.eqb_eq in N0. cbn [rbind]. rewrite N0 in *. apply STEP; auto; [apply frame_refl|].
    rewrite Nat.add_0_r. unfold own, Coeffs. rewrite Ek. cbn. now rewrite app_nil_r.
Qed.

Lemma inv_arrs s s' : objs s' = objs s -> (forall v, valid s v = true -> valid s' v = true) -> Inv s -> Inv s'.
Proof.
  intros E HF (HS & HV & HC). split; [eapply struct_shape; [apply shape_objs; eauto|auto]|]. split.
  - intros o v H. rewrite (saved_objs s s' o E) in H. eauto.
  - intros o G k Hk. assert (Hk' : In k (kids_of s o)) by (unfold kids_of in *; now rewrite E in Hk). eapply good_objs; [exact E|].
    apply (HC o); auto. destruct G as (w & E1 & E2). exists w. unfold saved_of, nc_of in *. rewrite E in E1, E2. auto.
Qed.

(** The constructor of a container that takes over its components' coefficients. *)
Lemma move_spec s kids : Inv s -> 0 < length kids -> (forall k, In k kids -> k < length (objs s)) ->
  step zero dbg s (NewBox kids true) = Threw s \/
  exists s1 s', step zero dbg s (NewBox kids true) = Done s' /\ (forall k, In k kids -> check s k = true) /\
    let o := length (objs s) in let v := MkView (length (arrs s)) 0 (total s kids) in
    objs s1 = objs s ++ [MkObj (total s kids) kids false None] /\ frame s s1 (length (arrs s)) /\ valid s1 v = true /\ contents s1 v = flat_map (own s) kids /\
    user_of s1 (length (arrs s)) = false /\ Inv s1 /\ effect s1 s' (fun r => r = o) v /\ saved_of s' o = Some v /\ Inv s' /\ WrapCoeffs dbg s1 o v = Done s'.
Proof.
  intros HI H0 HK. pose proof HI as (HS & HV & HC). unfold step. replace (0 <? length kids) with true by (symmetry; apply Nat.ltb_lt; auto).
  replace (forallb (fun k => k <? length (objs s)) kids) with true by (symmetry; apply forallb_forall; intros k Hk; apply Nat.ltb_lt; auto). cbn [andb]. cbv zeta.
  set (n := total s kids). destruct (alloc_spec s false (repeat zero n)) as (Q1 & Q2 & Q3 & Q4 & Q5). set (sa := alloc s false (repeat zero n)) in *.
  assert (IA : Inv sa) by (apply (inv_arrs s sa Q1); [intros v; apply (frame_valid s sa 0); auto|auto]).
  assert (TS : total sa kids = n) by (symmetry; apply shape_total, shape_objs; auto).
  destruct (gather_spec kids sa (length (arrs s)) 0) as [(sx & ->)|(sg & E & O2 & F2 & L2 & C2 & CK2)]; [apply IA|lia| | |left; auto|].
  { intros o v E. rewrite (saved_objs s sa o Q1) in E. specialize (HV o v E). apply valid_inv in HV. lia. }
  { rewrite Q4, repeat_length, TS. lia. }
  rewrite E. right. assert (IG : Inv sg) by (apply (inv_arrs sa sg O2); [intros v; apply (frame_valid sa sg (length (arrs s))); auto|auto]).
  set (s1 := MkSt (arrs sg) (objs sg ++ [MkObj n kids false None])).
  assert (OG : objs sg = objs s) by congruence.
  assert (TG : total sg kids = n) by (unfold n; symmetry; apply shape_total, shape_objs; auto).
  assert (I1 : Inv s1). { apply (add_inv sg); cbn [o_saved o_kids o_whole o_nc]; auto; [rewrite OG; auto|discriminate]. }
  set (v := MkView (length (arrs s)) 0 n).
  assert (Vv : valid s1 v = true).
  { rewrite (valid_arrs s1 sg) by reflexivity. apply (frame_valid sa sg (length (arrs s))); auto. apply valid_intro; cbn [v v_arr v_off v_len]; [lia|]. rewrite Q4, repeat_length. lia. }
  destruct (wrap_ok s1 (length (objs s)) v I1) as (s' & E' & EF & SV & I').
  { cbn [s1 objs]. rewrite app_length, OG. cbn. lia. } { auto. }
  { unfold nc_of. cbn [s1 objs]. rewrite OG, nth_error_app2, Nat.sub_diag by auto. reflexivity. }
  exists s1, s'. split; [exact E'|]. split.
  { intros k Hk. specialize (CK2 k Hk). unfold check, saved_of, nc_of in *. now rewrite Q1 in CK2. }
  cbn zeta. split; [cbn [s1 objs]; now rewrite OG|].
  assert (FR : frame s s1 (length (arrs s))). { eapply frame_trans; [apply Q2|]. eapply frame_trans; [exact F2|]. apply frame_same_arrs. reflexivity. }
  split; auto. split; auto. split.
  { rewrite (contents_arrs s1 sg) by reflexivity. cbn [Nat.add] in C2. rewrite TS in C2. unfold v. rewrite C2.
    replace (contents sa (MkView (length (arrs s)) 0 0)) with (@nil A) by (unfold contents; reflexivity). cbn [app].
    apply flat_map_ext. intros j. unfold own, Coeffs. rewrite (saved_objs s sa j Q1). destruct (saved_of s j) as [w|] eqn:Ej; auto. cbn [option_map].
    apply (frame_contents s sa (length (arrs s))); auto; [eapply HV; eauto|]. specialize (HV j w Ej). apply valid_inv in HV. lia. }
  split.
  { destruct F2 as (_ & F2). destruct (F2 (length (arrs s))) as (_ & X & _); [lia|]. transitivity (user_of sg (length (arrs s))); [reflexivity|]. congruence. }
  auto.
Qed.

Theorem step_inv s p s' : Inv s -> step zero dbg s p = Done s' \/ step zero dbg s p = Threw s' -> Inv s'.
Proof.
  intros HI H. destruct p as [d|a i x|nc|kids mv|k|o v|o v].
  - cbn in H. destruct H as [H|H]; [|discriminate]. injection H as <-. destruct (alloc_spec s true d) as (Q1 & Q2 & _). apply (inv_arrs s); auto. intros v. apply (frame_valid _ _ 0); auto.
  - cbn in H. destruct (Nat.ltb_spec i (length (data s a))); [|destruct H as [H|H]; [discriminate|injection H as <-; auto]].
    destruct H as [H|H]; [|discriminate]. injection H as <-.
    assert (Ha : a < length (arrs s)). { unfold data in *. destruct (nth_error (arrs s) a) eqn:Ea; [eapply nth_error_Some_lt; eauto|cbn in *; lia]. }
    destruct (put_data_spec s a i [x] Ha) as (Q1 & Q2 & _); [cbn; lia|]. apply (inv_arrs s); auto. intros v. apply (frame_valid _ _ a); auto.
  - cbn in H. destruct H as [H|H]; [|discriminate]. injection H as <-. apply (add_inv s); cbn; auto; [intros k []|discriminate|intros _ C; contradiction C; auto].
  - destruct ((0 <? length kids) && forallb (fun k => k <? length (objs s)) kids) eqn:G.
    + apply andb_prop in G. destruct G as (G1 & G2). apply Nat.ltb_lt in G1. rewrite forallb_forall in G2.
      assert (HK : forall k, In k kids -> k < length (objs s)) by (intros k Hk; apply Nat.ltb_lt; auto).
      destruct mv.
      * destruct (move_spec s kids HI G1 HK) as [E|(s1 & s2 & E & _ & X)]; rewrite E in H.
        -- destruct H as [H|H]; [discriminate|]. injection H as <-. auto.
        -- destruct H as [H|H]; [|discriminate]. injection H as <-. apply X.
      * cbn [step] in H. replace (0 <? length kids) with true in H by (symmetry; apply Nat.ltb_lt; auto).
        replace (forallb (fun k => k <? length (objs s)) kids) with true in H by (symmetry; apply forallb_forall; auto). cbn [andb] in H.
        destruct H as [H|H]; [|discriminate]. injection H as <-. apply (add_inv s); cbn; auto. discriminate.
    + cbn [step] in H. rewrite G in H. destruct H as [H|H]; [discriminate|]. injection H as <-. auto.
  - cbn [step] in H. destruct (Nat.ltb_spec k (length (objs s))); [|destruct H as [H|H]; [discriminate|injection H as <-; auto]].
    destruct H as [H|H]; [|discriminate]. injection H as <-. apply (add_inv s); cbn; [auto|auto|intros k' [<-|[]]; auto|eauto|discriminate].
  - cbn [step] in H. destruct ((o <? length (objs s)) && valid s v) eqn:G; [|destruct H as [H|H]; [discriminate|injection H as <-; auto]].
    apply andb_prop in G. destruct G as (G1 & G2). apply Nat.ltb_lt in G1. eapply set_inv; eauto.
  - cbn [step] in H. destruct ((o <? length (objs s)) && valid s v) eqn:G; [|destruct H as [H|H]; [discriminate|injection H as <-; auto]].
    apply andb_prop in G. destruct G as (G1 & G2). apply Nat.ltb_lt in G1. destruct (Nat.eq_dec (v_len v) (nc_of s o)) as [L|L].
    + destruct (wrap_ok s o v HI G1 G2 L) as (s2 & E & _ & _ & I2). rewrite E in H. destruct H as [H|H]; [|discriminate]. injection H as <-. auto.
    + unfold WrapCoeffs in H. cbn [wrap] in H. destruct (nth_error (objs s) o) as [b|] eqn:Eb; [|apply nth_error_None in Eb; lia].
      destruct (nth_facts s o b Eb) as (En & _). replace (v_len v =? o_nc b) with false in H by (symmetry; apply Nat.eqb_neq; congruence).
      destruct H as [H|H]; [discriminate|]. injection H as <-. auto.
Qed.
Theorem reaches_inv h s : reaches zero dbg h s -> Inv s.
Proof.
  induction 1; [|eapply step_inv; eauto|eapply step_inv; eauto].
  split; [|split]; [intros o Ho; cbn in Ho; lia|intros o v E; unfold saved_of in E; destruct o; discriminate|intros o (w & E & _); unfold saved_of in E; destruct o; discriminate].
Qed.
End Heap.
