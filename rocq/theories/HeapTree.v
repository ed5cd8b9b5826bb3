(** Coefficient storage when no component belongs to two containers. *)
From Verif Require Import Base HeapModel HeapProofs HeapInv.

Section Heap.
Context {A : Type} (zero : A) (dbg : bool).
Notation state := (state A).
Implicit Types s : state.

Definition one_parent s : Prop :=
  (forall p q k, In k (kids_of s p) -> In k (kids_of s q) -> p = q) /\ forall p, NoDup (kids_of s p).
Lemma one_parent_shape s s' : same_shape s s' -> one_parent s -> one_parent s'.
Proof.
  intros (_ & H) (H1 & H2). split.
  - intros p q k. destruct (H p) as (_ & <- & _). destruct (H q) as (_ & <- & _). apply H1.
  - intros p. destruct (H p) as (_ & <- & _). auto.
Qed.
(** The components' views tile the container's view from position [cum] on. *)
Fixpoint tiled s (v : view) (cum : nat) (kids : list nat) : Prop :=
  match kids with
  | [] => True
  | k :: rest => saved_of s k = Some (MkView (v_arr v) (v_off v + cum) (nc_of s k)) /\ tiled s v (cum + nc_of s k) rest
  end.
Definition linked s (p : nat) : Prop := forall v, saved_of s p = Some v -> v_len v = nc_of s p -> tiled s v 0 (kids_of s p).

Lemma tiled_ext s s' v : same_shape s s' -> forall kids cum, (forall k, In k kids -> saved_of s' k = saved_of s k) -> tiled s v cum kids -> tiled s' v cum kids.
Proof.
  intros (_ & H). induction kids as [|k kids IH]; intros cum HK T; cbn [tiled] in *; auto. destruct T as (T1 & T2). destruct (H k) as (N & _). rewrite <- N.
  split; [rewrite HK by (left; auto); auto|]. apply IH; auto. intros k' Hk'. apply HK. right. auto.
Qed.
Lemma linked_ext s s' p : same_shape s s' -> saved_of s' p = saved_of s p -> (forall k, In k (kids_of s p) -> saved_of s' k = saved_of s k) -> linked s p -> linked s' p.
Proof.
  intros SH E HK L v Ev Lv. pose proof SH as (_ & H). destruct (H p) as (N & K & _). rewrite <- K. eapply tiled_ext; eauto. apply L; congruence.
Qed.

Lemma siblings_apart s o : struct s -> one_parent s -> forall k k' p, In k (kids_of s o) -> In k' (kids_of s o) -> k <> k' -> desc s k p -> desc s k' p -> False.
Proof.
  intros HS (HU & _) k k' p Hk Hk' N D. revert k' Hk' N. induction D as [|q j D IH Hj]; intros k' Hk' N D'.
  - inversion D' as [|q j D2 Hj]; subst; [auto|]. assert (q = o) by (eapply HU; eauto). subst. apply desc_le in D2; auto.
    destruct (HS o (kids_dom _ _ _ Hk')) as (K & _). specialize (K _ Hk'). lia.
  - inversion D' as [|q' j' D2 Hj2]; subst.
    + assert (q = o) by (eapply HU; eauto). subst. apply desc_le in D; auto. destruct (HS o (kids_dom _ _ _ Hk)) as (K & _). specialize (K _ Hk). lia.
    + assert (q' = q) by (eapply HU; eauto). subst. eapply IH; eauto.
Qed.
Lemma desc_parent s o p k : one_parent s -> desc s o k -> k <> o -> In k (kids_of s p) -> desc s o p.
Proof. intros (HU & _) D N Hk. inversion D as [|q j D2 Hj]; subst; [contradiction N; auto|]. assert (p = q) by (eapply HU; eauto). subst. auto. Qed.

Lemma slices_links : forall wrapk (bound : nat),
  (forall s k v, struct s -> one_parent s -> k < bound -> k < length (objs s) -> v_len v = nc_of s k ->
     exists s', wrapk s k v = Done s' /\ effect s s' (fun r => r = k) v /\ saved_of s' k = Some v /\ forall p, desc s k p -> linked s' p) ->
  forall kids s v cum, struct s -> one_parent s -> (forall k, In k kids -> k < bound /\ k < length (objs s)) -> NoDup kids ->
  (forall k k' p, In k kids -> In k' kids -> k <> k' -> desc s k p -> desc s k' p -> False) -> cum + total s kids <= v_len v ->
  exists s', slices wrapk dbg s v cum kids = Done s' /\ effect s s' (fun r => In r kids) v /\ tiled s' v cum kids /\
    forall r p, In r kids -> desc s r p -> linked s' p.
Proof.
  intros wrapk bound HW. induction kids as [|k kids IH]; intros s v cum HS HU HK ND HD HC; cbn [slices].
  { exists s. split; auto. split; [apply effect_nil; intros r []|]. split; [exact I|intros r p []]. }
  rewrite total_cons in HC. replace (cum + nc_of s k <=? v_len v) with true by (symmetry; apply Nat.leb_le; lia).
  destruct (HK k (or_introl eq_refl)) as (Hb & Hk). apply NoDup_cons_iff in ND. destruct ND as (NI & ND).
  destruct (HW s k (MkView (v_arr v) (v_off v + cum) (nc_of s k)) HS HU Hb Hk eq_refl) as (s1 & -> & E1 & SV1 & LK1). cbn [rbind].
  pose proof E1 as (S1 & A1 & P1 & G1). assert (S1' := shape_sym _ _ S1).
  destruct (IH s1 v (cum + nc_of s k)) as (s2 & -> & E2 & T2 & LK2).
  { eapply struct_shape; eauto. } { eapply one_parent_shape; eauto. }
  { intros k' H'. destruct (HK k' (or_intror H')). destruct S1 as (L & _). split; auto; lia. } { auto. }
  { intros j j' p Hj Hj' N D D'. apply (HD j j' p); [right|right|..]; auto; eapply desc_shape; eauto. }
  { rewrite <- (shape_total s s1) by auto. lia. }
  exists s2. split; auto. pose proof E2 as (S2 & A2 & P2 & G2).
  assert (KEEP : forall p, desc s k p -> saved_of s2 p = saved_of s1 p).
  { intros p D. destruct (P2 p) as [?|((r & Hr & Dr) & _)]; auto. exfalso. apply (HD k r p); [left; auto|right; auto|intros ->; contradiction|auto|eapply desc_shape; eauto]. }
  split; [|split].
  - split; [eapply shape_trans; eauto|]. split; [congruence|]. split.
    + intros p. destruct (P2 p) as [EQ|((r & Hr & Dr) & w & EQ & L & I)].
      * rewrite EQ. destruct (P1 p) as [?|((r & -> & Dr) & w & EQ1 & L & I)]; auto. right. split; [exists k; split; [left; auto|auto]|].
        exists w. split; auto. split; auto. destruct I as (I1 & I2 & I3). cbn in I1, I2, I3. split; [auto|]. lia.
      * right. split; [exists r; split; [right; auto|]; eapply desc_shape; [apply shape_sym|]; eauto|]. exists w. destruct S1 as (_ & S1). destruct (S1 p) as (N & _). split; auto. split; congruence.
    + intros r p [<-|Hr] D; [eapply effect_good; eauto|]. apply (G2 r p Hr). eapply desc_shape; eauto.
  - cbn [tiled]. assert (NC : nc_of s2 k = nc_of s k). { destruct S1 as (_ & S1). destruct S2 as (_ & S2). destruct (S1 k) as (-> & _). destruct (S2 k) as (-> & _). auto. }
    rewrite NC. split; [rewrite KEEP by constructor; auto|auto].
  - intros r p [<-|Hr] D; [|apply (LK2 r p Hr); eapply desc_shape; eauto].
    apply (linked_ext s1 s2); auto. intros j Hj. apply KEEP. econstructor; [exact D|]. destruct S1 as (_ & S1). destruct (S1 p) as (_ & -> & _). auto.
Qed.

Lemma wrap_links : forall fuel s o v, struct s -> one_parent s -> o < fuel -> o < length (objs s) -> v_len v = nc_of s o ->
  exists s', wrap fuel dbg s o v = Done s' /\ effect s s' (fun r => r = o) v /\ saved_of s' o = Some v /\ forall p, desc s o p -> linked s' p.
Proof.
  induction fuel as [|f IH]; intros s o v HS HU Hf Ho Hv; [lia|]. destruct (wrap_spec dbg (S f) s o v HS Hf Ho Hv) as (s' & E & F & SV).
  exists s'. split; auto. split; auto. split; auto. revert E. cbn [wrap].
  destruct (nth_error (objs s) o) as [b|] eqn:Eb; [|apply nth_error_None in Eb; lia]. destruct (nth_facts s o b Eb) as (En & Ek & Ew & _).
  rewrite <- En, Hv, Nat.eqb_refl. cbn [negb]. cbv zeta.
  pose proof (put_saved_shape s o v) as SH. set (s1 := put_saved s o v) in *. pose proof SH as (LL & SHo).
  assert (HS1 : struct s1) by (eapply struct_shape; eauto). assert (HU1 : one_parent s1) by (eapply one_parent_shape; eauto).
  destruct (HS o Ho) as (K1 & K2 & K3). rewrite Ek in K1, K2, K3. rewrite Ew in K2, K3. destruct F as (SF & _).
  assert (FIN : (exists t, tiled s' v 0 t /\ t = kids_of s o) -> (forall r p, In r (kids_of s o) -> desc s1 r p -> linked s' p) -> forall p, desc s o p -> linked s' p).
  { intros (t & T & ->) HR p D. apply desc_cases in D. destruct D as [->|(k & Hk & D)].
    - intros w W LW. rewrite SV in W. injection W as <-. destruct SF as (_ & SF). destruct (SF o) as (_ & <- & _). auto.
    - apply (HR k p Hk). eapply desc_shape; eauto. }
  destruct (o_whole b) eqn:W.
  - destruct (K2 eq_refl) as (k & EK & EN). rewrite EK in *. assert (Hk : k < o) by (apply K1; left; auto). intros E.
    destruct (IH s1 k v HS1 HU1) as (s2 & E2 & F2 & SK & LK); [lia|lia|destruct (SHo k) as (<- & _); congruence|]. rewrite E in E2. injection E2 as <-.
    apply FIN; rewrite Ek.
    + exists [k]. split; auto. cbn [tiled]. split; auto. rewrite Nat.add_0_r. destruct SF as (_ & SF). destruct (SF k) as (<- & _). rewrite EN, <- Hv. destruct v; exact SK.
    + intros r p [<-|[]] D. auto.
  - intros E. destruct (o_kids b) as [|k0 kids] eqn:EK.
    + apply FIN; rewrite Ek; [exists []; split; [exact I|auto]|intros r p []].
    + destruct (slices_links (wrap f dbg) o) with (kids := k0 :: kids) (s := s1) (v := v) (cum := 0) as (s2 & E2 & F2 & T2 & LK2); auto.
      * intros s2 k v' A1 A2 A3 A4 A5. apply IH; auto. lia.
      * intros k Hk. specialize (K1 k Hk). lia.
      * destruct HU as (_ & HU). rewrite <- Ek. auto.
      * intros k k' p Hk Hk'. apply (siblings_apart s1 o); auto; destruct (SHo o) as (_ & <- & _); rewrite Ek; auto.
      * rewrite <- (shape_total s s1) by auto. rewrite Hv, (K3 eq_refl) by discriminate. lia.
      * rewrite E in E2. injection E2 as <-. apply FIN; rewrite Ek; [eauto|auto].
Qed.

Definition tree s : Prop := one_parent s /\ forall p, linked s p.

(** Re-pointing a whole subtree keeps every other container consistent unless it holds the root. *)
Lemma others_linked s s' o v p : one_parent s -> effect s s' (fun r => r = o) v -> (forall q, In o (kids_of s q) -> q <> p \/ ~ good s q) -> ~ desc s o p -> linked s p -> linked s' p.
Proof.
  intros HU (SH & _ & P & _) HO ND L w Ew Lw. pose proof SH as (_ & SHo). destruct (SHo p) as (N & K & _).
  assert (EP : saved_of s' p = saved_of s p). { destruct (P p) as [?|((r & -> & D) & _)]; auto. contradiction. }
  rewrite <- K. eapply tiled_ext; [exact SH| |apply L; congruence]. intros k Hk. destruct (P k) as [?|((r & -> & D) & _)]; auto. exfalso.
  destruct (Nat.eq_dec k o) as [->|Nk]; [|apply ND; eapply desc_parent; eauto].
  destruct (HO p Hk) as [?|NG]; auto. apply NG. exists w. split; congruence.
Qed.
Lemma desc_dec s : struct s -> forall o p, desc s o p \/ ~ desc s o p.
Proof.
  intros HS o. induction o as [o IH] using (well_founded_induction Wf_nat.lt_wf). intros p. destruct (Nat.eq_dec p o) as [->|N]; [left; constructor|].
  assert (D : forall l, (forall k, In k l -> k < o) -> (exists k, In k l /\ desc s k p) \/ ~ (exists k, In k l /\ desc s k p)).
  { induction l as [|k l IHl]; intros HL; [right; intros (k & [] & _)|]. destruct (IH k (HL k (or_introl eq_refl)) p) as [D|D]; [left; exists k; split; [left|]; auto|].
    destruct IHl as [(k' & H1 & H2)|X]; [intros; apply HL; right; auto|left; exists k'; split; [right|]; auto|]. right. intros (k' & [<-|H1] & H2); auto. apply X. eauto. }
  destruct (D (kids_of s o)) as [(k & H1 & H2)|X].
  - intros k Hk. destruct (HS o (kids_dom _ _ _ Hk)) as (K & _). auto.
  - left. eapply desc_first; eauto.
  - right. intros Q. apply desc_cases in Q. destruct Q as [->|Q]; auto.
Qed.
Lemma wrap_tree s o v : Inv s -> tree s -> o < length (objs s) -> valid s v = true -> v_len v = nc_of s o -> (forall q, In o (kids_of s q) -> ~ good s q) ->
  forall s', WrapCoeffs dbg s o v = Done s' -> tree s'.
Proof.
  intros (HS & _) (HU & HL) Ho V L HP s' E. destruct (wrap_links (S o) s o v HS HU ltac:(lia) Ho L) as (s2 & E2 & F & SV & LK).
  unfold WrapCoeffs in E. rewrite E in E2. injection E2 as <-. split; [eapply one_parent_shape; [apply F|auto]|].
  intros p. destruct (desc_dec s HS o p) as [D|D]; auto. eapply others_linked; eauto.
Qed.

Lemma linked_unset s p : ~ good s p -> linked s p.
Proof. intros N v E L. exfalso. apply N. exists v. auto. Qed.


Lemma rest_tree s1 o w : struct s1 -> one_parent s1 -> o < length (objs s1) -> saved_of s1 o = Some w -> (forall p, p <> o -> linked s1 p) ->
  forall s', match nth_error (objs s1) o with
    | Some b => match o_saved b with
        | Some w => if o_whole b then match o_kids b with k :: _ => wrap o dbg s1 k w | [] => Done s1 end else slices (wrap o dbg) dbg s1 w 0 (o_kids b)
        | None => Undef end
    | None => Undef end = Done s' -> tree s'.
Proof.
  intros HS1 HU1 Ho SV L1 s' E. destruct (nth_error (objs s1) o) as [b|] eqn:Hb; [|discriminate]. destruct (nth_facts s1 o b Hb) as (En & Ek & Ew & Es).
  rewrite SV in Es. rewrite <- Es in E. destruct (HS1 o Ho) as (K1 & K2 & K3). rewrite Ek in K1, K2, K3. rewrite Ew in K2, K3.
  assert (KEY : exists v, effect s1 s' (fun r => In r (kids_of s1 o)) v /\ (v_len w = nc_of s1 o -> tiled s' w 0 (kids_of s1 o)) /\ forall r p, In r (kids_of s1 o) -> desc s1 r p -> linked s' p).
  { rewrite Ek. destruct (o_whole b) eqn:W.
    - destruct (K2 eq_refl) as (k & EK & EN). rewrite EK in *. assert (Hk : k < o) by (apply K1; left; auto).
      destruct (Nat.eq_dec (v_len w) (nc_of s1 k)) as [Q|Q].
      + destruct (wrap_links o s1 k w HS1 HU1 Hk ltac:(lia) Q) as (s2 & E2 & F2 & SK & LK). rewrite E in E2. injection E2 as <-. exists w.
        pose proof F2 as (f1 & f2 & f3 & f4). split; [|split].
        * split; auto. split; auto. split; [intros p; destruct (f3 p) as [?|((r & -> & D) & X)]; auto; right; split; auto; exists k; split; [left; auto|auto]|].
          intros r p [<-|[]] D. apply (f4 k); auto.
        * intros _. cbn [tiled]. split; auto. destruct f1 as (_ & f1). destruct (f1 k) as (<- & _). rewrite Nat.add_0_r, <- Q. destruct w; exact SK.
        * intros r p [<-|[]] D; auto.
      + exfalso. revert E. destruct o as [|f]; [lia|]. cbn [wrap]. destruct (nth_error (objs s1) k) as [bk|] eqn:Ebk; [|discriminate].
        destruct (nth_facts s1 k bk Ebk) as (Enk & _). replace (v_len w =? o_nc bk) with false by (symmetry; apply Nat.eqb_neq; congruence). discriminate.
    - destruct (o_kids b) as [|k0 kids] eqn:EK.
      + injection E as <-. exists w. split; [apply effect_nil; intros r []|]. split; [intros _; exact I|intros r p []].
      + assert (HK : forall k, In k (k0 :: kids) -> k < o /\ k < length (objs s1)) by (intros k Hk; specialize (K1 k Hk); lia).
        specialize (K3 eq_refl ltac:(discriminate)). destruct (Nat.le_gt_cases (nc_of s1 o) (v_len w)) as [Q|Q].
        * destruct (slices_links (wrap o dbg) o) with (kids := k0 :: kids) (s := s1) (v := w) (cum := 0) as (s2 & E2 & F2 & T2 & LK2); auto.
          { intros. apply wrap_links; auto. } { destruct HU1 as (_ & HU1). rewrite <- Ek. auto. }
          { intros k k' p Hk Hk'. apply (siblings_apart s1 o); auto; rewrite Ek; auto. } { lia. }
          rewrite E in E2. injection E2 as <-. exists w. auto.
        * exfalso. assert (HW : forall s k v, struct s -> k < o -> k < length (objs s) -> v_len v = nc_of s k ->
            exists s', wrap o dbg s k v = Done s' /\ effect s s' (fun r => r = k) v /\ saved_of s' k = Some v) by (intros; apply wrap_spec; auto).
          rewrite (slices_short dbg (wrap o dbg) o HW (k0 :: kids) s1 w 0 HS1 HK) in E by lia. destruct dbg; discriminate. }
  destruct KEY as (v & F & T & LK). pose proof F as (SH & _ & P & _). split; [eapply one_parent_shape; eauto|]. pose proof SH as (_ & SHo).
  assert (NOD : forall r, In r (kids_of s1 o) -> ~ desc s1 r o). { intros r Hr D. rewrite Ek in Hr. apply K1 in Hr. apply desc_le in D; auto. lia. }
  intros p. destruct (Nat.eq_dec p o) as [->|N].
  - intros x Ex Lx. destruct (SHo o) as (e1 & e2 & _). rewrite <- e2. assert (x = w). { destruct (P o) as [Q|((r & Hr & D) & _)]; [congruence|]. elim (NOD r Hr D). } subst. apply T. congruence.
  - destruct (desc_dec s1 HS1 o p) as [D|D].
    + apply desc_cases in D. destruct D as [->|(k & Hk & D)]; [contradiction N; auto|]. eapply LK; eauto.
    + apply (linked_ext s1); auto.
      * destruct (P p) as [Q|((r & Hr & D') & _)]; auto. elim D. eapply desc_first; eauto.
      * intros j Hj. destruct (P j) as [Q|((r & Hr & D') & _)]; auto. exfalso. apply D. apply (desc_parent s1 o p j); auto; [eapply desc_first; eauto|].
        intros ->. exact (NOD r Hr D').
Qed.

Lemma set_tree s o v : Inv s -> tree s -> o < length (objs s) -> valid s v = true ->
  forall s', SetCoeffs zero dbg s o v = Done s' \/ SetCoeffs zero dbg s o v = Threw s' -> tree s'.
Proof.
  intros HI (HU & HL) Ho V s' H.
  assert (L1 : forall s1 w, assigned s s1 o v w -> forall p, p <> o -> linked s1 p).
  { intros s1 w (SH & SV & Lw & CW & Vw & PO & FR & HN & HG & HNG) p N x Ex Lx. pose proof HI as (HS & HV & HC). pose proof SH as (LL & SHo).
    assert (Ex' : saved_of s p = Some x) by (rewrite <- PO; auto). destruct (SHo p) as (e1 & e2 & _). rewrite <- e2.
    assert (Gp : good s p) by (exists x; split; congruence). eapply tiled_ext; [exact SH| |apply HL; congruence].
    intros k Hk. destruct (Nat.eq_dec k o) as [->|Nk]; [|apply PO; auto]. rewrite SV. symmetry. apply HG. apply (HC p Gp o Hk). }
  destruct H as [H|H].
  - revert H. unfold SetCoeffs. destruct (base_spec zero s o v HI Ho V) as [->|(s1 & w & -> & AS)]; [discriminate|]. cbn [rbind]. pose proof AS as (SH & SV & _). pose proof SH as (LL & _).
    destruct HI as (HS & _). apply (rest_tree s1 o w); eauto; [eapply struct_shape; eauto|eapply one_parent_shape; eauto|lia].
  - destruct (set_spec zero dbg s o v HI Ho V) as [E|(s1 & w & AS & C)].
    { rewrite E in H. injection H as <-. split; auto. }
    destruct C as [(s2 & E & _)|[(E & N)|(E & _)]]; [congruence| |rewrite E in H; destruct dbg; discriminate].
    rewrite E in H. injection H as <-. pose proof AS as (SH & SV & Lw & _). split; [eapply one_parent_shape; eauto|]. intros p. destruct (Nat.eq_dec p o) as [->|Np]; [|eapply L1; eauto].
    apply linked_unset. intros (x & X1 & X2). rewrite SV in X1. injection X1 as <-. destruct SH as (_ & SHo). destruct (SHo o) as (e1 & _). congruence.
Qed.

(** The caller's side of the tree discipline. *)
Definition tree_op s (p : op A) : Prop :=
  match p with
  | NewBox kids _ => NoDup kids /\ forall k, In k kids -> forall q, ~ In k (kids_of s q)
  | NewSummarized k => forall q, ~ In k (kids_of s q)
  | Wrap_ o _ => forall q, In o (kids_of s q) -> saved_of s q = None
  | _ => True
  end.
Inductive tree_reaches : list (op A) -> state -> Prop :=
| tree_start : tree_reaches [] (start (A := A))
| tree_done : forall h s p s', tree_reaches h s -> tree_op s p -> step zero dbg s p = Done s' -> tree_reaches (h ++ [p]) s'
| tree_threw : forall h s p s', tree_reaches h s -> tree_op s p -> step zero dbg s p = Threw s' -> tree_reaches (h ++ [p]) s'.
Lemma tree_reaches_reaches h s : tree_reaches h s -> reaches zero dbg h s.
Proof. induction 1; [constructor|eapply reach_done; eauto|eapply reach_threw; eauto]. Qed.

Lemma tree_objs s s' : objs s' = objs s -> tree s -> tree s'.
Proof.
  intros E ((U1 & U2) & L). assert (SH : same_shape s s') by (apply shape_objs; auto). split; [eapply one_parent_shape; eauto; split; auto|].
  intros p. apply (linked_ext s); auto; intros; apply saved_objs; auto.
Qed.
Lemma kids_add s b p : kids_of (add_obj s b) p = if p =? length (objs s) then o_kids b else kids_of s p.
Proof.
  destruct (Nat.eqb_spec p (length (objs s))) as [->|N]; [unfold kids_of; now rewrite add_obj_new|].
  unfold kids_of. cbn [add_obj objs]. destruct (Nat.lt_ge_cases p (length (objs s))) as [L|L]; [now rewrite nth_error_app1|].
  assert (E : nth_error (objs s ++ [b]) p = None) by (apply nth_error_None; rewrite app_length; cbn; lia). rewrite E.
  apply nth_error_None in L. now rewrite L.
Qed.
Lemma add_tree s b : struct s -> tree s -> o_saved b = None -> NoDup (o_kids b) -> (forall k, In k (o_kids b) -> k < length (objs s) /\ forall q, ~ In k (kids_of s q)) -> tree (add_obj s b).
Proof.
  intros HS ((U1 & U2) & L) Hs ND HK. assert (KD : forall p k, In k (kids_of s p) -> p < length (objs s)) by (intros p k H; eapply kids_dom; eauto).
  split; [split|].
  - intros p q k. rewrite !kids_add. destruct (Nat.eqb_spec p (length (objs s))) as [->|Np], (Nat.eqb_spec q (length (objs s))) as [->|Nq]; auto; intros H1 H2.
    + destruct (HK _ H1) as (_ & X). elim (X q H2). + destruct (HK _ H2) as (_ & X). elim (X p H1). + eauto.
  - intros p. rewrite kids_add. destruct (_ =? _); auto.
  - intros p v Ev Lv. rewrite kids_add. destruct (Nat.eqb_spec p (length (objs s))) as [->|Np].
    { unfold saved_of in Ev. rewrite add_obj_new in Ev. congruence. }
    assert (Hp := saved_dom _ _ _ Ev). rewrite add_obj_len in Hp. assert (Hp' : p < length (objs s)) by lia.
    assert (T : tiled s v 0 (kids_of s p)). { apply L; [unfold saved_of in *; now rewrite add_obj_old in Ev by auto|]. now rewrite add_nc in Lv by auto. }
    destruct (HS p Hp') as (K & _). revert T K. generalize (kids_of s p) as ks, 0 as cum. induction ks as [|k ks IH]; intros cum T K; cbn [tiled] in *; auto.
    assert (k < length (objs s)) by (specialize (K k (or_introl eq_refl)); lia). rewrite add_nc by auto. destruct T as (T1 & T2). split; [unfold saved_of in *; now rewrite add_obj_old by auto|].
    apply IH; auto. intros j Hj. apply K. right. auto.
Qed.

Theorem step_tree s p s' : Inv s -> tree s -> tree_op s p -> step zero dbg s p = Done s' \/ step zero dbg s p = Threw s' -> tree s'.
Proof.
  intros HI HT HP H. destruct p as [d|a i x|nc|kids mv|k|o v|o v].
  - cbn in H. destruct H as [H|H]; [|discriminate]. injection H as <-. apply (tree_objs s); auto.
  - cbn in H. destruct (i <? length (data s a)); [|destruct H as [H|H]; [discriminate|injection H as <-; auto]].
    destruct H as [H|H]; [|discriminate]. injection H as <-. apply (tree_objs s); auto. unfold put_data. destruct (nth_error (arrs s) a); reflexivity.
  - cbn in H. destruct H as [H|H]; [|discriminate]. injection H as <-. apply (add_tree s (MkObj nc [] false None)); cbn; auto; [apply HI|constructor|intros k []].
  - destruct HP as (ND & HP). destruct ((0 <? length kids) && forallb (fun k => k <? length (objs s)) kids) eqn:C.
    2: { cbn in H. rewrite C in H. destruct H as [H|H]; [discriminate|injection H as <-; auto]. }
    pose proof C as C'. apply andb_true_iff in C'. destruct C' as (C1 & C2). apply Nat.ltb_lt in C1. rewrite forallb_forall in C2.
    assert (C3 : forall k, In k kids -> k < length (objs s)) by (intros k Hk; apply Nat.ltb_lt, C2; auto).
    destruct mv.
    + destruct (move_spec zero dbg s kids HI C1 C3) as [E|(s1 & s2 & E & _ & OB & FR & VV & CV & _ & I1 & F & SV & _ & EW)]; rewrite E in H.
      { destruct H as [H|H]; [discriminate|injection H as <-; auto]. } destruct H as [H|H]; [|discriminate]. injection H as <-.
      assert (T1 : tree s1). { apply (tree_objs (add_obj s (MkObj (total s kids) kids false None))); [exact OB|]. apply add_tree; cbn; auto. apply HI. }
      assert (KO : forall q, kids_of s1 q = kids_of (add_obj s (MkObj (total s kids) kids false None)) q) by (intros q; unfold kids_of; now rewrite OB).
      eapply (wrap_tree s1); eauto.
      * rewrite OB, app_length. cbn. lia.
      * unfold nc_of. rewrite OB, nth_error_app2, Nat.sub_diag by auto. reflexivity.
      * intros q Hq. exfalso. rewrite KO, kids_add in Hq. cbn [o_kids] in Hq. destruct (Nat.eqb_spec q (length (objs s))); [apply C3 in Hq; lia|].
        destruct HI as (HS & _). destruct (HS q (kids_dom _ _ _ Hq)) as (K & _). specialize (K _ Hq). apply kids_dom in Hq. lia.
    + cbn in H. rewrite C in H. destruct H as [H|H]; [|discriminate]. injection H as <-. apply (add_tree s (MkObj (total s kids) kids false None)); cbn; auto. apply HI.
  - cbn in H. destruct (Nat.ltb_spec k (length (objs s))); [|destruct H as [H|H]; [discriminate|injection H as <-; auto]].
    destruct H as [H|H]; [|discriminate]. injection H as <-. apply (add_tree s (MkObj (nc_of s k) [k] true None)); cbn; auto; [apply HI|repeat constructor; intros []|]. intros j [<-|[]]; auto.
  - cbn [step] in H. destruct ((o <? length (objs s)) && valid s v) eqn:C; [|destruct H as [H|H]; [discriminate|injection H as <-; auto]].
    apply andb_true_iff in C. destruct C as (C1 & C2). apply Nat.ltb_lt in C1. eapply set_tree; eauto.
  - cbn [step] in H. destruct ((o <? length (objs s)) && valid s v) eqn:C; [|destruct H as [H|H]; [discriminate|injection H as <-; auto]].
    apply andb_true_iff in C. destruct C as (C1 & C2). apply Nat.ltb_lt in C1. destruct (Nat.eq_dec (v_len v) (nc_of s o)) as [Q|Q].
    + destruct H as [H|H].
      * eapply wrap_tree; eauto. intros q Hq (x & X & _). rewrite (HP q Hq) in X. discriminate.
      * destruct (wrap_spec dbg (S o) s o v) as (s2 & E2 & _); auto; [apply HI|]. unfold WrapCoeffs in H. congruence.
    + revert H. unfold WrapCoeffs. cbn [wrap]. destruct (nth_error (objs s) o) as [b|] eqn:Eb; [|intros [|]; discriminate]. destruct (nth_facts s o b Eb) as (En & _).
      replace (v_len v =? o_nc b) with false by (symmetry; apply Nat.eqb_neq; congruence). cbn [negb]. intros [H|H]; [discriminate|]. injection H as <-. auto.
Qed.
Theorem tree_reaches_tree h s : tree_reaches h s -> tree s.
Proof.
  induction 1 as [|h s p s' H IH HP E|h s p s' H IH HP E].
  - split; [split|]; [intros p q k Hk; unfold kids_of in Hk; destruct p; destruct Hk|intros p; unfold kids_of; destruct p; constructor|].
    intros p v E. unfold saved_of in E. destruct p; discriminate.
  - eapply step_tree; eauto. eapply reaches_inv, tree_reaches_reaches; eauto.
  - eapply step_tree; eauto. eapply reaches_inv, tree_reaches_reaches; eauto.
Qed.

(** ** What evaluations read *)
Lemma leaves_enough s : struct s -> forall f o, o < f -> leaves f s o = leaves (S o) s o.
Proof.
  intros HS. assert (X : forall n f g o, o <= n -> o < f -> o < g -> leaves f s o = leaves g s o).
  { induction n as [|n IH]; intros f g o Hn Hf Hg; (destruct f as [|f]; [lia|]); (destruct g as [|g]; [lia|]); cbn [leaves];
      destruct (kids_of s o) as [|k ks] eqn:EK; auto; assert (Ho : o < length (objs s)) by (eapply kids_dom; rewrite EK; left; eauto);
      destruct (HS o Ho) as (K & _); rewrite EK in K.
    - exfalso. specialize (K k (or_introl eq_refl)). lia.
    - assert (Y : forall l, (forall j, In j l -> j < o) -> flat_map (leaves f s) l = flat_map (leaves g s) l).
      { induction l as [|j l IHl]; intros HL; auto. cbn [flat_map]. rewrite IHl by (intros; apply HL; right; auto). f_equal. specialize (HL j (or_introl eq_refl)). apply IH; lia. }
      apply Y. auto. }
  intros f o H. apply (X o); lia.
Qed.
Lemma read_by_box s o : struct s -> kids_of s o <> [] -> read_by s o = flat_map (read_by s) (kids_of s o).
Proof.
  intros HS N. unfold read_by at 1. cbn [leaves]. destruct (kids_of s o) as [|k ks] eqn:EK; [contradiction N; auto|].
  assert (Ho : o < length (objs s)) by (eapply kids_dom; rewrite EK; left; eauto). destruct (HS o Ho) as (K & _). rewrite EK in K. clear EK N.
  revert K. generalize (k :: ks) as l. induction l as [|j l IH]; intros K; auto. cbn [flat_map]. rewrite IH by (intros; apply K; right; auto). f_equal.
  apply leaves_enough; auto. apply K. left. auto.
Qed.
Lemma flat_map_flat_map {X Y Z} (f : Y -> list Z) (g : X -> list Y) l : flat_map f (flat_map g l) = flat_map (fun x => flat_map f (g x)) l.
Proof. induction l as [|x l IH]; auto. cbn [flat_map]. now rewrite flat_map_app, IH. Qed.
Lemma used_box s o : struct s -> kids_of s o <> [] -> used s o = flat_map (used s) (kids_of s o).
Proof. intros HS N. unfold used at 1. rewrite read_by_box, flat_map_flat_map by auto. reflexivity. Qed.
Lemma used_leaf s o : kids_of s o = [] -> used s o = if nc_of s o =? 0 then [] else own s o.
Proof. intros E. unfold used, read_by. cbn [leaves]. rewrite E. cbn [flat_map]. apply app_nil_r. Qed.
Lemma kids_total s o : struct s -> kids_of s o <> [] -> nc_of s o = total s (kids_of s o).
Proof.
  intros HS N. destruct (kids_of s o) as [|k ks] eqn:EK; [contradiction N; auto|]. assert (Ho : o < length (objs s)) by (eapply kids_dom; rewrite EK; left; eauto).
  destruct (HS o Ho) as (_ & K2 & K3). destruct (whole_of s o) eqn:W.
  - destruct (K2 eq_refl) as (j & Ej & Nj). rewrite EK in Ej. injection Ej as -> ->. rewrite total_cons. cbn. lia.
  - rewrite K3; auto; [now rewrite EK|rewrite EK; discriminate].
Qed.
Lemma kid_lt s o k : struct s -> In k (kids_of s o) -> k < o.
Proof. intros HS Hk. destruct (HS o (kids_dom _ _ _ Hk)) as (K & _). auto. Qed.

Lemma total_zero s l : total s l = 0 -> forall k, In k l -> nc_of s k = 0.
Proof. induction l as [|j l IH]; intros T k Hk; [destruct Hk|]. rewrite total_cons in T. destruct Hk as [<-|Hk]; [lia|]. apply IH; auto. lia. Qed.
Lemma used_zero s : struct s -> forall o, nc_of s o = 0 -> used s o = [].
Proof.
  intros HS o. induction o as [o IH] using (well_founded_induction Wf_nat.lt_wf). intros Z.
  destruct (list_eq_dec Nat.eq_dec (kids_of s o) []) as [E|N]; [rewrite used_leaf, Z by auto; reflexivity|]. rewrite used_box by auto.
  rewrite (kids_total s o HS N) in Z. pose proof (total_zero s _ Z) as T. assert (L := kid_lt s o). specialize (fun k => L k HS).
  revert T L. generalize (kids_of s o) as l. induction l as [|j l IHl]; intros T L; auto. cbn [flat_map]. rewrite IH, IHl; auto; intros; try apply T; try apply L; [right|right|left|left]; auto.
Qed.
Lemma contents_empty s a off : contents s (MkView a off 0) = []. Proof. reflexivity. Qed.
Theorem used_contents s : struct s -> (forall p, linked s p) -> forall o w, saved_of s o = Some w -> v_len w = nc_of s o -> used s o = contents s w.
Proof.
  intros HS HL o. induction o as [o IH] using (well_founded_induction Wf_nat.lt_wf). intros w E L.
  destruct (list_eq_dec Nat.eq_dec (kids_of s o) []) as [EK|N].
  - rewrite used_leaf by auto. destruct (Nat.eqb_spec (nc_of s o) 0) as [Z|Z].
    + unfold contents. rewrite L, Z. reflexivity.
    + unfold own, Coeffs. rewrite E. reflexivity.
  - rewrite used_box by auto. pose proof (HL o w E L) as T. rewrite (kids_total s o HS N) in L. assert (K := kid_lt s o). specialize (fun k => K k HS).
    destruct w as [a off n]. cbn [v_len] in L. subst n.
    assert (X : forall l n cum, tiled s (MkView a off n) cum l -> (forall k, In k l -> k < o) -> flat_map (used s) l = contents s (MkView a (off + cum) (total s l))).
    { induction l as [|k l IHl]; intros n cum T' K'; [reflexivity|]. cbn [flat_map tiled] in *. destruct T' as (T1 & T2). cbn [v_arr v_off] in T1.
      rewrite total_cons, contents_split. rewrite (IH k (K' k (or_introl eq_refl)) _ T1 eq_refl). f_equal. rewrite <- Nat.add_assoc. eapply IHl; eauto. intros j Hj. apply K'. right. auto. }
    rewrite (X _ _ 0 T K), Nat.add_0_r. reflexivity.
Qed.
End Heap.
Arguments tree_op {A}.
