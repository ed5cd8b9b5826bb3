(** Lemmas about the samplers: what the parallel fill writes, and which objects a call touches. *)
From Coq Require Import Reals List Lia Lra Permutation.
From Verif Require Import Base SpecExpansion SpecMaps SpecDensity SpecGauss SpecSample DetMul CholProofs ExpansionModel ExpansionProofs MapsModel LeafModel MapsContract MapsProofs
  DensityModel DensityProofs ReduceModel ReduceProofs GaussModel GaussProofs PropGauss SampleModel.
Import ListNotations.
Local Open Scope R_scope.

Section Fill.
Variable gen : Type.
Variable normal : gen -> R * gen.
Notation fill := (fill gen normal).
Definition ent (cols : list (list R)) (j i : nat) : R := coord (nth j cols []) i.
Definition shape (n N : nat) (cols : list (list R)) : Prop := length cols = N /\ Forall (fun z => length z = n) cols.
Lemma shape_nth n N cols j : shape n N cols -> (j < N)%nat -> length (nth j cols []) = n.
Proof. intros [H1 H2] Hj. rewrite Forall_forall in H2. apply H2, nth_In. lia. Qed.
Lemma shape_upd n N cols j col : shape n N cols -> length col = n -> shape n N (upd cols j col).
Proof.
  intros [H1 H2] Hc. split; [rewrite upd_length; auto|]. apply Forall_forall. intros x Hx. apply In_nth_error in Hx as [k Hk].
  destruct (Nat.eq_dec j k) as [->|Hn].
  - assert (k < length cols)%nat by (rewrite <- (upd_length cols k col); apply nth_error_Some; congruence). rewrite nth_error_upd_eq in Hk by auto. congruence.
  - rewrite nth_error_upd_neq in Hk by auto. rewrite Forall_forall in H2. apply H2. eapply nth_error_In; eauto.
Qed.
Lemma fill_ok n N f (F : nat -> R -> R) : (forall i z, (i < n)%nat -> f i z = Ok (F i z)) ->
  forall (pl : plan) (pool : list gen) cols, shape n N cols -> NoDup (map fst pl) ->
  (forall j i g, In (j, i, g) pl -> (j < N)%nat /\ (i < n)%nat /\ (g < length pool)%nat) ->
  exists pool' cols', ofold (fill f) pl (pool, cols) = Ok (pool', cols') /\ length pool' = length pool /\ shape n N cols' /\
    (forall j i, ~ In (j, i) (map fst pl) -> ent cols' j i = ent cols j i) /\
    forall t j i g s, nth_error pl t = Some (j, i, g) -> nth_error pool g = Some s ->
      ent cols' j i = F i (nth_normal gen normal s (count_occ Nat.eq_dec (map snd (firstn t pl)) g)).
Proof.
  intros Hf. induction pl as [|[[j0 i0] g0] pl IH]; intros pool cols Hs Hnd Hb.
  - exists pool, cols. repeat split; auto; try apply Hs. intros [|t]; discriminate.
  - cbn [map fst] in Hnd. inversion Hnd as [|? ? Hni Hnd']; subst. destruct (Hb j0 i0 g0 ltac:(left; reflexivity)) as (Hj & Hi & Hg).
    destruct (nth_error pool g0) as [s0|] eqn:Es; [|apply nth_error_None in Es; lia].
    destruct (normal s0) as [z s'] eqn:En.
    set (col := upd (nth j0 cols []) i0 (F i0 z)). set (cols1 := upd cols j0 col). set (pool1 := upd pool g0 s').
    assert (Hlc : length (nth j0 cols []) = n) by (eapply shape_nth; eauto).
    assert (Hs1 : shape n N cols1) by (apply shape_upd; auto; unfold col; rewrite upd_length; auto).
    destruct (IH pool1 cols1 Hs1 Hnd') as (pool' & cols' & E & L & Hs' & Hk & Hv).
    { intros j i g HI. unfold pool1. rewrite upd_length. apply Hb. right. auto. }
    exists pool', cols'. split.
    { cbn [ofold SampleModel.fill fst snd]. unfold raw_get at 1. rewrite Es. cbn [obind]. rewrite En.
      rewrite raw_set_upd by auto. cbn [obind]. rewrite Hf by auto. cbn [obind]. unfold raw_get. rewrite (nth_error_nth' cols []) by (destruct Hs; lia). cbn [obind].
      rewrite raw_set_upd by lia. cbn [obind]. rewrite raw_set_upd by (destruct Hs; lia). cbn [obind]. exact E. }
    split; [rewrite L; unfold pool1; apply upd_length|]. split; [exact Hs'|].
    assert (E1 : ent cols1 j0 i0 = F i0 z). { unfold ent, cols1. rewrite nth_upd_eq by (destruct Hs; lia). unfold col, coord. rewrite nth_upd_eq by lia. reflexivity. }
    assert (E2 : forall j i, (j, i) <> (j0, i0) -> ent cols1 j i = ent cols j i).
    { intros j i Hne. unfold ent, cols1. destruct (Nat.eq_dec j0 j) as [->|Hn]; [|rewrite nth_upd_neq by auto; reflexivity].
      rewrite nth_upd_eq by (destruct Hs; lia). unfold col, coord. apply nth_upd_neq. congruence. }
    split.
    { intros j i Hn. cbn [map fst In] in Hn. rewrite Hk by (intros X; apply Hn; right; auto). apply E2. intros X. apply Hn. left. congruence. }
    intros [|t] j i g s Ht Hgs.
    + cbn [nth_error] in Ht. injection Ht as <- <- <-. rewrite Hk by auto. cbn [firstn map count_occ nth_normal]. rewrite E1. f_equal.
      rewrite Es in Hgs. injection Hgs as <-. rewrite En. reflexivity.
    + cbn [nth_error] in Ht. cbn [firstn map snd]. destruct (Nat.eq_dec g0 g) as [->|Hn].
      * rewrite Es in Hgs. injection Hgs as <-. rewrite count_occ_cons_eq by auto. cbn [nth_normal]. rewrite En. cbn [snd].
        apply Hv; auto. unfold pool1. apply nth_error_upd_eq. auto.
      * rewrite count_occ_cons_neq by auto. apply Hv; auto. unfold pool1. rewrite nth_error_upd_neq by auto. auto.
Qed.
Lemma draws_nodup c n N pl : draws_all c n N pl -> NoDup (map fst pl).
Proof.
  intros [H _]. eapply Permutation_NoDup; [apply Permutation_sym; exact H|].
  assert (G : forall l1 l2 : list nat, NoDup l1 -> NoDup l2 -> NoDup (list_prod l1 l2)).
  { induction l1 as [|a l1 IH]; intros l2 H1 H2; [constructor|]. cbn [list_prod]. inversion H1; subst.
    assert (P : forall x, In x (map (fun y => (a, y)) l2) -> ~ In x (list_prod l1 l2)).
    { intros [p q] X Y. apply in_map_iff in X as (y & E & _). injection E as <- _. apply in_prod_iff in Y. tauto. }
    assert (N1 : NoDup (map (fun y => (a, y)) l2)) by (apply FinFun.Injective_map_NoDup; auto; intros p q E; congruence).
    specialize (IH l2 ltac:(auto) H2). clear - P N1 IH. induction (map (fun y => (a, y)) l2) as [|x l IHl]; cbn; auto. inversion N1; subst. constructor.
    - rewrite in_app_iff. intros [X|X]; [auto|]. apply (P x); cbn; auto.
    - apply IHl; auto. intros y Hy. apply P. cbn. auto. }
  apply G; apply seq_NoDup.
Qed.
Lemma draws_in c n N pl j i g : draws_all c n N pl -> In (j, i, g) pl -> (j < N)%nat /\ (i < n)%nat /\ (g < c)%nat.
Proof.
  intros [H Hg] HI. specialize (Hg _ HI). cbn [snd] in Hg. apply (in_map fst) in HI. cbn [fst] in HI. eapply Permutation_in in HI; [|exact H].
  apply in_prod_iff in HI as [X Y]. apply in_seq in X, Y. lia.
Qed.
Lemma draws_cover c n N pl j i : draws_all c n N pl -> (j < N)%nat -> (i < n)%nat -> exists t g, nth_error pl t = Some (j, i, g) /\ (g < c)%nat.
Proof.
  intros [H Hg] Hj Hi. assert (X : In (j, i) (list_prod (seq 0 N) (seq 0 n))) by (apply in_prod; apply in_seq; lia).
  eapply Permutation_in in X; [|apply Permutation_sym; exact H]. apply in_map_iff in X as ([[j' i'] g] & E & HI). cbn [fst] in E. injection E as -> ->.
  destruct (In_nth_error _ _ HI) as [t Ht]. exists t, g. split; auto. apply (Hg _ HI).
Qed.
(** The fill writes F i of the noise. *)
Lemma fill_noise n N f F c pl (pool : list gen) cols : (forall i z, (i < n)%nat -> f i z = Ok (F i z)) -> shape n N cols -> draws_all c n N pl -> length pool = c ->
  exists pool' Z, length pool' = c /\ noise gen normal pool n N pl Z /\
    ofold (fill f) pl (pool, cols) = Ok (pool', map (fun z => map (fun i => F i (coord z i)) (seq 0 n)) Z) /\
    forall f', (forall i z, (i < n)%nat -> f' i z = Ok z) -> ofold (fill f') pl (pool, cols) = Ok (pool', Z).
Proof.
  intros Hf Hs Hd Hc.
  assert (Hb : forall j i g, In (j, i, g) pl -> (j < N)%nat /\ (i < n)%nat /\ (g < length pool)%nat) by (intros j i g; rewrite Hc; apply draws_in; auto).
  destruct (fill_ok n N f F Hf pl pool cols Hs (draws_nodup _ _ _ _ Hd) Hb) as (p1 & c1 & E1 & L1 & S1 & _ & V1).
  destruct (fill_ok n N (fun _ z => Ok z) (fun _ z => z) (fun _ _ _ => eq_refl) pl pool cols Hs (draws_nodup _ _ _ _ Hd) Hb) as (p2 & Z & E2 & L2 & S2 & _ & V2).
  assert (Ep : p1 = p2).
  {
    assert (X : forall pool ca cb ca' cb' pa pb, shape n N ca -> shape n N cb -> (forall j i g, In (j, i, g) pl -> (j < N)%nat /\ (i < n)%nat /\ (g < length pool)%nat) ->
       ofold (fill f) pl (pool, ca) = Ok (pa, ca') -> ofold (fill (fun _ z => Ok z)) pl (pool, cb) = Ok (pb, cb') -> pa = pb).
    { clear - Hf. induction pl as [|[[j i] g] pl IH]; intros pool ca cb ca' cb' pa pb Sa Sb Hb Ea Eb; [cbn in *; congruence|].
      destruct (Hb j i g ltac:(left; reflexivity)) as (Hj & Hi & Hg). cbn [ofold SampleModel.fill fst snd] in Ea, Eb.
      unfold raw_get in Ea at 1, Eb at 1. destruct (nth_error pool g) as [s|]; cbn [obind] in Ea, Eb; [|discriminate]. destruct (normal s) as [z s'].
      rewrite raw_set_upd in Ea, Eb by auto. cbn [obind] in Ea, Eb. rewrite Hf in Ea by auto. cbn [obind] in Ea. unfold raw_get in Ea, Eb.
      rewrite (nth_error_nth' ca []) in Ea by (destruct Sa; lia). rewrite (nth_error_nth' cb []) in Eb by (destruct Sb; lia). cbn [obind] in Ea, Eb.
      pose proof (shape_nth _ _ _ j Sa Hj) as La. pose proof (shape_nth _ _ _ j Sb Hj) as Lb.
      rewrite raw_set_upd in Ea, Eb by lia. cbn [obind] in Ea, Eb. rewrite raw_set_upd in Ea by (destruct Sa; lia). rewrite raw_set_upd in Eb by (destruct Sb; lia). cbn [obind] in Ea, Eb.
      eapply IH; [| | |exact Ea|exact Eb]; try (apply shape_upd; auto; rewrite upd_length; auto).
      intros j' i' g' HI. rewrite upd_length. apply Hb. right. auto. }
    exact (X pool cols cols c1 Z p1 p2 Hs Hs Hb E1 E2). }
  exists p2, Z. split; [congruence|]. split; [split; [apply S2|split; [apply S2|]]; intros t j i g s Ht Hg; apply (V2 t j i g s Ht Hg)|]. split.
  - rewrite E1, Ep. do 2 f_equal. apply (nth_ext _ _ [] []); [rewrite map_length; destruct S1, S2; congruence|].
    intros j Hj. destruct S1 as [S1a S1b]. rewrite S1a in Hj. pose (g := fun z => map (fun i => F i (coord z i)) (seq 0 n)). fold g.
    rewrite (nth_indep (map g Z) [] (g [])) by (rewrite map_length; destruct S2; lia). rewrite map_nth.
    apply (list_ext n); [eapply shape_nth; [split; eassumption|auto]|unfold g; rewrite map_length, seq_length; auto|].
    intros i Hi. unfold g. rewrite coord_map_seq' by auto. destruct (draws_cover _ _ _ _ j i Hd Hj Hi) as (t & gg & Ht & Hgc).
    destruct (nth_error pool gg) as [s|] eqn:Es; [|apply nth_error_None in Es; lia].
    change (ent c1 j i = F i (ent Z j i)). rewrite (V1 t j i gg s Ht Es), (V2 t j i gg s Ht Es). reflexivity.
  - intros f' Hf'. rewrite <- E2. clear - Hf' Hb Hs. revert pool cols Hs Hb. induction pl as [|[[j i] g] pl IH]; intros pool cols Hs Hb; [reflexivity|].
    destruct (Hb j i g ltac:(left; reflexivity)) as (Hj & Hi & Hg). cbn [ofold SampleModel.fill fst snd].
    unfold raw_get at 1 3. destruct (nth_error pool g) as [s|]; cbn [obind]; [|reflexivity]. destruct (normal s) as [z s'].
    rewrite raw_set_upd by auto. cbn [obind]. rewrite Hf' by auto. cbn [obind]. unfold raw_get.
    rewrite (nth_error_nth' cols []) by (destruct Hs; lia). cbn [obind]. pose proof (shape_nth _ _ _ j Hs Hj) as La.
    rewrite raw_set_upd by lia. cbn [obind]. rewrite raw_set_upd by (destruct Hs; lia). cbn [obind].
    apply IH; [apply shape_upd; auto; rewrite upd_length; auto|]. intros j' i' g' HI. rewrite upd_length. apply Hb. right. auto.
Qed.
End Fill.

(** ** The heap of samplers *)
Section Heap.
Variable gen : Type.
Variable init : nat -> list gen.
Variable normal : gen -> R * gen.
Variable c : nat.
Hypothesis Hinit : forall s, length (init s) = c.
Notation heap := (heap gen).
Notation same_objects := (same_objects gen).
Definition ref_of (k : kind) : option nat := match k with KGauss _ => None | KPull _ r | KPush _ r => Some r end.
(** Every sampler refers to an earlier one. *)
Definition wf (h : heap) : Prop := forall k s, nth_error h k = Some s ->
  length (sm_pool _ s) = c /\ (match sm_kind _ s with KGauss G => sm_dim _ s = ga_dim G | _ => True end) /\
  forall r, ref_of (sm_kind _ s) = Some r -> (r < k)%nat /\ exists t, nth_error h r = Some t /\ sm_dim _ t = sm_dim _ s.

Lemma Forall2_nth_error {A B} (P : A -> B -> Prop) l l' : Forall2 P l l' -> forall k a, nth_error l k = Some a -> exists b, nth_error l' k = Some b /\ P a b.
Proof. induction 1; intros [|k] a E; cbn in *; try discriminate; eauto. injection E as <-. eauto. Qed.
Lemma Forall2_sym {A B} (P : A -> B -> Prop) (Q : B -> A -> Prop) : (forall a b, P a b -> Q b a) -> forall l l', Forall2 P l l' -> Forall2 Q l' l.
Proof. intros H. induction 1; constructor; auto. Qed.
Lemma same_sym h h' : same_objects h h' -> same_objects h' h.
Proof. apply Forall2_sym. intros a b (-> & -> & ->). auto. Qed.
Lemma same_refl h : same_objects h h.
Proof. induction h; constructor; auto. Qed.
Lemma same_trans h1 h2 h3 : same_objects h1 h2 -> same_objects h2 h3 -> same_objects h1 h3.
Proof.
  intros H. revert h3. induction H as [|a b l l' (A1 & A2 & A3) H IH]; intros h3 X; inversion X as [|? d ? ? (B1 & B2 & B3) ?]; subst; constructor; [|apply IH; auto].
  split; [congruence|]. split; congruence.
Qed.
Lemma same_upd h k s s' : nth_error h k = Some s -> sm_dim _ s = sm_dim _ s' -> sm_kind _ s = sm_kind _ s' -> length (sm_pool _ s) = length (sm_pool _ s') ->
  same_objects h (upd h k s').
Proof.
  revert k. induction h as [|a h IH]; intros [|k] E H1 H2 H3; cbn in *; try discriminate.
  - injection E as ->. constructor; [auto|apply same_refl].
  - constructor; [auto|]. apply IH; auto.
Qed.
Lemma wf_same h h' : same_objects h h' -> wf h -> wf h'.
Proof.
  intros H W k s' E. destruct (Forall2_nth_error _ _ _ (same_sym _ _ H) _ _ E) as (s & Es & (E1 & E2 & E3)).
  destruct (W k s Es) as (W1 & W2 & W3). split; [congruence|]. split; [rewrite E1, E2; exact W2|]. intros r Hr. rewrite E2 in Hr. destruct (W3 r Hr) as (Lt & t & Et & Dt). split; auto.
  destruct (Forall2_nth_error _ _ _ H _ _ Et) as (t' & Et' & (F1 & _ & _)). exists t'. split; auto. congruence.
Qed.
Lemma wf_app h s : wf h -> length (sm_pool _ s) = c -> (match sm_kind _ s with KGauss G => sm_dim _ s = ga_dim G | _ => True end) ->
  (forall r, ref_of (sm_kind _ s) = Some r -> exists t, nth_error h r = Some t /\ sm_dim _ t = sm_dim _ s) -> wf (h ++ [s]).
Proof.
  intros W L G Hr k x E. destruct (Nat.lt_ge_cases k (length h)) as [Hk|Hk].
  - rewrite nth_error_app1 in E by auto. destruct (W k x E) as (W1 & W2 & W3). split; auto. split; auto. intros r Hr'. destruct (W3 r Hr') as (Lt & t & Et & D). split; auto.
    exists t. split; auto. rewrite nth_error_app1; auto. apply nth_error_Some. congruence.
  - rewrite nth_error_app2 in E by auto. destruct (k - length h)%nat as [|m] eqn:Em; [|destruct m; discriminate]. cbn in E. injection E as <-. split; auto. split; auto.
    intros r Hr'. destruct (Hr r Hr') as (t & Et & D). assert (r < length h)%nat by (apply nth_error_Some; congruence). split; [lia|]. exists t. split; auto. rewrite nth_error_app1; auto.
Qed.
Lemma raw_get_Some {A} (l : list A) k a : raw_get l k = Ok a -> nth_error l k = Some a.
Proof. unfold raw_get. destruct (nth_error l k); congruence. Qed.
Lemma raw_get_of {A} (l : list A) k a : nth_error l k = Some a -> raw_get l k = Ok a.
Proof. unfold raw_get. intros ->. reflexivity. Qed.
Lemma nth_error_lt {A} (l : list A) k a : nth_error l k = Some a -> (k < length l)%nat.
Proof. intros H. apply nth_error_Some. congruence. Qed.

(** SetSeed succeeds, reseeds the chain of samplers below [k] and changes nothing else. *)
Lemma SetSeed_ok seed : forall fuel k h, wf h -> (k < length h)%nat -> (k < fuel)%nat -> exists h', SetSeed_ gen init fuel seed k h = Ok h' /\ same_objects h h' /\
  forall i, (k < i)%nat -> nth_error h' i = nth_error h i.
Proof.
  induction fuel as [|fuel IH]; intros k h W Hk Hf; [lia|]. cbn [SetSeed_]. destruct (nth_error h k) as [s|] eqn:Es; [|apply nth_error_None in Es; lia].
  rewrite (raw_get_of _ _ _ Es). cbn [obind]. rewrite raw_set_upd by auto. cbn [obind]. set (h1 := upd h k (with_pool gen s (init seed))).
  destruct (W k s Es) as (W1 & W2 & W3).
  assert (Sm : same_objects h h1) by (apply (same_upd h k s); cbn; auto; rewrite Hinit; auto).
  assert (Out : forall i, (k < i)%nat -> nth_error h1 i = nth_error h i) by (intros i Hi; apply nth_error_upd_neq; lia).
  destruct (sm_kind _ s) as [G|M r|M r] eqn:Ek; [exists h1; auto| |];
  (destruct (W3 r eq_refl) as (Lt & t & Et & _); destruct (IH r h1) as (h' & E & S1 & O1); [eapply wf_same; eauto|unfold h1; rewrite upd_length; lia|lia|];
   exists h'; split; [exact E|]; split; [eapply same_trans; eauto|]; intros i Hi; rewrite O1 by lia; auto).
Qed.
(** Sampling keeps the objects, and changes only generators below [k]. *)
Lemma ofold_len f pl : forall st st' : list gen * list (list R), ofold (fill gen normal f) pl st = Ok st' -> length (fst st') = length (fst st).
Proof.
  induction pl as [|[[j i] g] pl IH]; intros [p q] st' E; [cbn in E; injection E as <-; reflexivity|]. cbn [ofold] in E. destruct (fill gen normal f (p, q) (j, i, g)) as [[p1 q1]| | |] eqn:F; try discriminate.
  cbn [obind] in E. rewrite (IH _ _ E). unfold fill in F. cbn [fst snd] in F. destruct (raw_get p g) as [s| | |]; try discriminate. cbn [obind] in F. destruct (normal s) as [z s'].
  destruct (raw_set p g s') as [p'| | |] eqn:Ep; try discriminate. cbn [obind] in F. destruct (f i z); try discriminate. cbn [obind] in F. destruct (raw_get q j); try discriminate. cbn [obind] in F.
  destruct (raw_set _ i _); try discriminate. cbn [obind] in F. destruct (raw_set q j _); try discriminate. cbn [obind] in F. injection F as <- _.
  unfold raw_set in Ep. destruct (g <? length p)%nat; try discriminate. injection Ep as <-. cbn [fst]. apply upd_length.
Qed.
Lemma ga_SampleImpl_len G pl pool out r : ga_SampleImpl gen normal G pl pool out = Ok r -> length (fst r) = length pool.
Proof.
  unfold ga_SampleImpl. destruct (negb _); [discriminate|]. destruct (ga_idCov G).
  - destruct (ofold _ _ _) as [st| | |] eqn:F; try discriminate. cbn [obind]. intros E. injection E as <-. cbn [fst]. apply (ofold_len _ _ _ _ F).
  - destruct (as_left out); try discriminate. cbn [obind]. destruct (ofold _ _ _) as [st| | |] eqn:F; try discriminate. cbn [obind].
    destruct (omap _ (snd st)); try discriminate. cbn [obind]. destruct (omap _ _); try discriminate. cbn [obind]. intros E. injection E as <-. cbn [fst]. apply (ofold_len _ _ _ _ F).
Qed.
Lemma SampleImpl_same pl : forall fuel k out h r, wf h -> SampleImpl_ gen normal fuel pl k out h = Ok r -> same_objects h (fst r) /\ forall i, (k < i)%nat -> nth_error (fst r) i = nth_error h i.
Proof.
  induction fuel as [|fuel IH]; intros k out h r W E; [discriminate|]. cbn [SampleImpl_] in E. destruct (raw_get h k) as [s| | |] eqn:Es; try discriminate. cbn [obind] in E.
  apply raw_get_Some in Es. destruct (W k s Es) as (W1 & W2 & W3). destruct (sm_kind _ s) as [G|M ref|M ref] eqn:Ek.
  - destruct (ga_SampleImpl _ _ _ _ _ _) as [[p q]| | |] eqn:F; try discriminate. cbn [obind fst snd] in E. rewrite raw_set_upd in E by (eapply nth_error_lt; eauto). cbn [obind] in E. injection E as <-. cbn [fst].
    split; [|intros i Hi; apply nth_error_upd_neq; lia]. apply (same_upd h k s); cbn; auto. symmetry. apply (ga_SampleImpl_len _ _ _ _ _ F).
  - destruct (W3 ref eq_refl) as (Lt & t & Et & _). rewrite (raw_get_of _ _ _ Et) in E. cbn [obind] in E. destruct (SampleImpl_ _ _ _ _ _ _ _) as [[h1 Y]| | |] eqn:F; try discriminate. cbn [obind fst snd] in E.
    destruct (each2 _ _ _ _); try discriminate. cbn [obind] in E. injection E as <-. destruct (IH _ _ _ _ W F) as [A B]. split; auto. intros i Hi. apply B. lia.
  - destruct (W3 ref eq_refl) as (Lt & t & Et & _). rewrite (raw_get_of _ _ _ Et) in E. cbn [obind] in E. destruct (SampleImpl_ _ _ _ _ _ _ _) as [[h1 Y]| | |] eqn:F; try discriminate. cbn [obind fst snd] in E.
    destruct (each _ _ _); try discriminate. cbn [obind] in E. injection E as <-. destruct (IH _ _ _ _ W F) as [A B]. split; auto. intros i Hi. apply B. lia.
Qed.
(** More fuel changes nothing once the chain ends. *)
Lemma SampleImpl_fuel pl h : wf h -> forall f1 f2 k out, (k < f1)%nat -> (k < f2)%nat -> SampleImpl_ gen normal f1 pl k out h = SampleImpl_ gen normal f2 pl k out h.
Proof.
  intros W. induction f1 as [|f1 IH]; intros [|f2] k out H1 H2; try lia. cbn [SampleImpl_]. destruct (raw_get h k) as [s| | |] eqn:Es; auto. cbn [obind].
  apply raw_get_Some in Es. destruct (W k s Es) as (_ & _ & W3). destruct (sm_kind _ s) as [G|M ref|M ref] eqn:Ek; auto; destruct (W3 ref eq_refl) as (Lt & t & Et & _);
  rewrite (raw_get_of _ _ _ Et); cbn [obind]; rewrite (IH f2) by lia; reflexivity.
Qed.
Lemma step_wf h o h' : wf h -> step gen init normal h o = Ok h' -> wf h' /\ exists l, same_objects (h ++ l) h'.
Proof.
  intros W E. destruct o as [t G|t M r|t M r|k s|k N pl|k out pl]; cbn [step] in E.
  - injection E as <-. unfold new_gauss. split; [|eexists; apply same_refl]. apply wf_app; auto; cbn; auto. discriminate.
  - unfold new_pullback, new_transport in E. destruct (raw_get h r) as [s| | |] eqn:Es; try discriminate. cbn [obind] in E. do 2 (destruct (negb _); [discriminate|]). injection E as <-.
    split; [|eexists; apply same_refl]. apply wf_app; cbn; auto. intros r' E'. injection E' as <-. exists s. split; auto. apply raw_get_Some; auto.
  - unfold new_pushforward, new_transport in E. destruct (raw_get h r) as [s| | |] eqn:Es; try discriminate. cbn [obind] in E. do 2 (destruct (negb _); [discriminate|]). injection E as <-.
    split; [|eexists; apply same_refl]. apply wf_app; cbn; auto. intros r' E'. injection E' as <-. exists s. split; auto. apply raw_get_Some; auto.
  - destruct (Nat.lt_ge_cases k (length h)) as [Hk|Hk].
    + destruct (SetSeed_ok s (S k) k h W Hk ltac:(lia)) as (h1 & E1 & S1 & _). unfold SetSeed in E. rewrite E1 in E. injection E as <-. split; [eapply wf_same; eauto|]. exists []. rewrite app_nil_r. auto.
    + unfold SetSeed in E. cbn [SetSeed_] in E. unfold raw_get in E. rewrite (proj2 (nth_error_None h k)) in E by auto. discriminate.
  - unfold Sample in E. destruct (raw_get h k); try discriminate. cbn [obind] in E. destruct (SampleImpl _ _ _ _ _ _) as [r| | |] eqn:F; try discriminate. cbn [obind] in E. injection E as <-.
    destruct (SampleImpl_same _ _ _ _ _ _ W F) as [S1 _]. split; [eapply wf_same; eauto|]. exists []. rewrite app_nil_r. auto.
  - destruct (SampleImpl _ _ _ _ _ _) as [r| | |] eqn:F; try discriminate. cbn [obind] in E. injection E as <-.
    destruct (SampleImpl_same _ _ _ _ _ _ W F) as [S1 _]. split; [eapply wf_same; eauto|]. exists []. rewrite app_nil_r. auto.
Qed.
Lemma same_app a b a' b' : same_objects a a' -> same_objects b b' -> same_objects (a ++ b) (a' ++ b').
Proof. intros H1 H2. apply Forall2_app; auto. Qed.
Lemma runs_wf h os h' : runs gen init normal h os h' -> wf h -> wf h' /\ exists l, same_objects (h ++ l) h'.
Proof.
  induction 1 as [h|h o h1 os h2 E R IH|h o h1 os h2 E S1 R IH]; intros W.
  - split; auto. exists []. rewrite app_nil_r. apply same_refl.
  - destruct (step_wf _ _ _ W E) as [W1 (l1 & S1)]. destruct (IH W1) as [W2 (l2 & S2)]. split; auto. exists (l1 ++ l2). rewrite app_assoc. eapply same_trans; [|exact S2]. apply same_app; auto. apply same_refl.
  - assert (W1 : wf h1) by (eapply wf_same; eauto). destruct (IH W1) as [W2 (l2 & S2)]. split; auto. exists l2. eapply same_trans; [|exact S2]. apply same_app; auto. apply same_refl.
Qed.
Lemma wf_nil : wf [].
Proof. intros [|k] s E; discriminate. Qed.

(** ** Reproducibility *)
(** The chains of samplers below [k] are in the same state. *)
Fixpoint alike (fuel k : nat) (h1 h2 : heap) : Prop :=
  match fuel with
  | O => True
  | S fuel => exists s, nth_error h1 k = Some s /\ nth_error h2 k = Some s /\ match ref_of (sm_kind _ s) with None => True | Some r => alike fuel r h1 h2 end
  end.
Lemma alike_upd fuel : forall k h1 h2 b s', alike fuel k h1 h2 -> (forall s, nth_error h1 b = Some s -> sm_kind _ s = sm_kind _ s') -> alike fuel k (upd h1 b s') (upd h2 b s').
Proof.
  induction fuel as [|fuel IH]; intros k h1 h2 b s' H Hk; [exact I|]. destruct H as (s & E1 & E2 & R). destruct (Nat.eq_dec b k) as [->|Hn].
  - exists s'. rewrite !nth_error_upd_eq by (eapply nth_error_lt; eauto). split; auto. split; auto. rewrite <- (Hk s E1). destruct (ref_of _); auto.
  - exists s. rewrite !nth_error_upd_neq by auto. split; auto. split; auto. destruct (ref_of _); auto.
Qed.
Lemma SampleImpl_alike pl : forall fuel fuel' k out h1 h2 r1, (forall k' , alike fuel k' h1 h2 -> True) -> alike fuel k h1 h2 -> SampleImpl_ gen normal fuel pl k out h1 = Ok r1 ->
  exists r2, SampleImpl_ gen normal fuel pl k out h2 = Ok r2 /\ snd r2 = snd r1 /\ forall k', alike fuel' k' h1 h2 -> alike fuel' k' (fst r1) (fst r2).
Proof.
  induction fuel as [|fuel IH]; intros fuel' k out h1 h2 r1 _ A E; [discriminate|]. destruct A as (s & E1 & E2 & R). cbn [SampleImpl_] in *. rewrite (raw_get_of _ _ _ E1) in E. rewrite (raw_get_of _ _ _ E2). cbn [obind] in *.
  destruct (sm_kind _ s) as [G|M ref|M ref] eqn:Ek; cbn [ref_of] in R.
  - destruct (ga_SampleImpl _ _ _ _ _ _) as [[p q]| | |]; try discriminate. cbn [obind fst snd] in *. rewrite raw_set_upd in * by (eapply nth_error_lt; eauto). cbn [obind] in *. injection E as <-.
    eexists. split; [reflexivity|]. split; [reflexivity|]. cbn [fst]. intros k' A'. apply alike_upd; auto. intros s0 Es0. rewrite E1 in Es0. injection Es0 as <-. reflexivity.
  - destruct fuel as [|fuel0]; [destruct (raw_get h1 ref); discriminate|]. assert (R' := R). destruct R' as (t & F1 & F2 & _). rewrite (raw_get_of _ _ _ F1) in E. rewrite (raw_get_of _ _ _ F2). cbn [obind] in *.
    destruct (SampleImpl_ _ _ _ _ _ _ h1) as [[g1 Y]| | |] eqn:F; try discriminate. cbn [obind fst snd] in E. destruct (IH fuel' ref _ h1 h2 (g1, Y) ltac:(auto) R F) as ([g2 Y2] & F' & Eq & Al). cbn [snd] in Eq. subst Y2. cbn [fst] in Al.
    rewrite F'. cbn [obind fst snd]. destruct (each2 _ _ _ _); try discriminate. cbn [obind] in *. injection E as <-. eexists. split; [reflexivity|]. split; auto.
  - destruct fuel as [|fuel0]; [destruct (raw_get h1 ref); discriminate|]. assert (R' := R). destruct R' as (t & F1 & F2 & _). rewrite (raw_get_of _ _ _ F1) in E. rewrite (raw_get_of _ _ _ F2). cbn [obind] in *.
    destruct (SampleImpl_ _ _ _ _ _ _ h1) as [[g1 Y]| | |] eqn:F; try discriminate. cbn [obind fst snd] in E. destruct (IH fuel' ref _ h1 h2 (g1, Y) ltac:(auto) R F) as ([g2 Y2] & F' & Eq & Al). cbn [snd] in Eq. subst Y2. cbn [fst] in Al.
    rewrite F'. cbn [obind fst snd]. destruct (each _ _ _); try discriminate. cbn [obind] in *. injection E as <-. eexists. split; [reflexivity|]. split; auto.
Qed.
Lemma SetSeed_alike seed : forall fuel k h1 h2, wf h1 -> wf h2 -> (k < fuel)%nat ->
  (forall i, (i <= k)%nat -> exists s1 s2, nth_error h1 i = Some s1 /\ nth_error h2 i = Some s2 /\ sm_dim _ s1 = sm_dim _ s2 /\ sm_kind _ s1 = sm_kind _ s2) ->
  exists h1' h2', SetSeed_ gen init fuel seed k h1 = Ok h1' /\ SetSeed_ gen init fuel seed k h2 = Ok h2' /\ alike fuel k h1' h2'.
Proof.
  induction fuel as [|fuel IH]; intros k h1 h2 W1 W2 Hf H; [lia|]. destruct (H k ltac:(lia)) as (s1 & s2 & E1 & E2 & D & K).
  assert (X1 : (k < length h1)%nat) by (eapply nth_error_lt; eauto). assert (X2 : (k < length h2)%nat) by (eapply nth_error_lt; eauto).
  assert (Ew : with_pool gen s2 (init seed) = with_pool gen s1 (init seed)) by (unfold with_pool; congruence).
  cbn [SetSeed_]. rewrite (raw_get_of _ _ _ E1), (raw_get_of _ _ _ E2). cbn [obind]. rewrite !raw_set_upd by auto. cbn [obind]. rewrite Ew, <- K.
  set (g1 := upd h1 k _). set (g2 := upd h2 k _). set (s' := with_pool gen s1 (init seed)) in *.
  assert (S1 : same_objects h1 g1) by (apply (same_upd h1 k s1); cbn; auto; rewrite Hinit; apply (W1 k s1 E1)).
  assert (S2 : same_objects h2 g2) by (apply (same_upd h2 k s2); cbn; auto; rewrite Hinit; apply (W2 k s2 E2)).
  assert (N1 : nth_error g1 k = Some s') by (apply nth_error_upd_eq; auto). assert (N2 : nth_error g2 k = Some s') by (apply nth_error_upd_eq; auto).
  destruct (W1 k s1 E1) as (_ & _ & W3).
  assert (Step : forall r, ref_of (sm_kind _ s1) = Some r -> exists h1' h2', SetSeed_ gen init fuel seed r g1 = Ok h1' /\ SetSeed_ gen init fuel seed r g2 = Ok h2' /\ alike (S fuel) k h1' h2').
  { intros r Hr. destruct (W3 r Hr) as (Lt & _). destruct (IH r g1 g2) as (h1' & h2' & F1 & F2 & A); [eapply wf_same; eauto|eapply wf_same; eauto|lia| |].
    - intros i Hi. destruct (H i ltac:(lia)) as (a & b & A1 & B1 & D1 & K1). exists a, b. unfold g1, g2. rewrite !nth_error_upd_neq by lia. auto.
    - exists h1', h2'. split; auto. split; auto. exists s'. cbn [alike].
      destruct (SetSeed_ok seed fuel r g1) as (h1'' & F1' & _ & O1); [eapply wf_same; eauto|unfold g1; rewrite upd_length; lia|lia|].
      destruct (SetSeed_ok seed fuel r g2) as (h2'' & F2' & _ & O2); [eapply wf_same; eauto|unfold g2; rewrite upd_length; lia|lia|].
      rewrite F1 in F1'. rewrite F2 in F2'. injection F1' as <-. injection F2' as <-. rewrite O1, O2 by lia. split; auto. split; auto. unfold s', with_pool. cbn [sm_kind]. rewrite Hr. auto. }
  destruct (sm_kind _ s1) as [G|M r|M r] eqn:Ek; try (apply Step; reflexivity).
  exists g1, g2. split; auto. split; auto. exists s'. split; auto. split; auto. unfold s', with_pool. cbn [sm_kind]. rewrite Ek. exact I.
Qed.
End Heap.
