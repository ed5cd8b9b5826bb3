(** Composed maps: intermediate points, the checkpointer, and the forward and backward loops. *)
From Coq Require Import Reals List Lra.
From Verif Require Import Base SpecExpansion SpecMaps ExpansionModel MapsModel MapsContract MapsProofs CheckProofs.
Import ListNotations.
Local Open Scope R_scope.

Lemma skipn_skipn {A} (l : list A) a b : skipn a (skipn b l) = skipn (b + a) l.
Proof. revert b. induction l as [|h t IH]; intros [|b]; cbn; auto. now rewrite skipn_nil. Qed.

Lemma cmp_eval_app l1 l2 c x : cmp_eval (l1 ++ l2) c x = cmp_eval l2 (skipn (nsum p_nc l1) c) (cmp_eval l1 c x).
Proof.
  revert c x. induction l1 as [|K l1 IH]; intros c x; [reflexivity|].
  cbn [app cmp_eval nsum]. rewrite IH, skipn_skipn. reflexivity.
Qed.

Lemma skipn_at {A} (specs : list A) i P : nth_error specs i = Some P -> skipn i specs = P :: skipn (S i) specs.
Proof.
  revert i. induction specs as [|Q l IH]; intros [|i] H; cbn in *; try discriminate; [congruence|]. apply IH. exact H.
Qed.
Lemma split_at {A} (specs : list A) i P : nth_error specs i = Some P -> specs = firstn i specs ++ P :: skipn (S i) specs.
Proof. intros H. rewrite <- (firstn_skipn i specs) at 1. f_equal. apply skipn_at. exact H. Qed.
Lemma firstn_S {A} (specs : list A) i P : nth_error specs i = Some P -> firstn (S i) specs = firstn i specs ++ [P].
Proof.
  revert i. induction specs as [|Q l IH]; intros [|i] H; cbn in *; try discriminate; [congruence|]. f_equal. apply IH. exact H.
Qed.

Section Composed.
Variables (maps : list cmap) (specs : list pmap) (d : nat) (c x : list R).
Hypothesis HE : Forall2 imp_eval maps specs.
Hypothesis HSq : Forall (fun P => p_in P = d /\ p_out P = d) specs.
Hypothesis Hc : length c = nsum p_nc specs.
Hypothesis Hx : length x = d.
Let n := length maps.

(** The point entering layer [i], and the coefficients of layer [i]. *)
Definition zpt (i : nat) : list R := cmp_eval (firstn i specs) c x.
Definition coff (i : nat) : nat := nsum p_nc (firstn i specs).
Definition clayer (i : nat) (P : pmap) : list R := firstn (p_nc P) (skipn (coff i) c).

Lemma specs_length : length specs = n.
Proof. unfold n. symmetry. clear - HE. induction HE; cbn; auto. Qed.

Lemma zpt_0 : zpt 0 = x. Proof. reflexivity. Qed.
Lemma zpt_S i P : nth_error specs i = Some P -> zpt (S i) = p_eval P (clayer i P) (zpt i).
Proof. intros H. unfold zpt. rewrite (firstn_S _ _ _ H), cmp_eval_app. reflexivity. Qed.
Lemma coff_S i P : nth_error specs i = Some P -> coff (S i) = (coff i + p_nc P)%nat.
Proof. intros H. unfold coff. rewrite (firstn_S _ _ _ H), nsum_app. cbn. lia. Qed.
Lemma coff_le i P : nth_error specs i = Some P -> (coff i + p_nc P <= length c)%nat.
Proof.
  intros H. rewrite Hc. pose proof (f_equal (nsum p_nc) (split_at _ _ _ H)) as E. rewrite nsum_app in E. cbn [nsum] in E. unfold coff. lia.
Qed.
Lemma clayer_length i P : nth_error specs i = Some P -> length (clayer i P) = p_nc P.
Proof. intros H. unfold clayer. pose proof (coff_le _ _ H). rewrite firstn_len; [auto|]. rewrite skipn_length. lia. Qed.
Lemma square i P : nth_error specs i = Some P -> p_in P = d /\ p_out P = d.
Proof. intros H. rewrite Forall_forall in HSq. apply HSq. eapply nth_error_In; eauto. Qed.

Lemma at_i {Q : cmap -> pmap -> Prop} i : Forall2 Q maps specs -> (i < n)%nat ->
  exists K P, nth_error maps i = Some K /\ nth_error specs i = Some P /\ Q K P.
Proof.
  clear. unfold n. intros H. revert i. induction H as [|K P l l' H _ IH]; intros i Hi; [cbn in Hi; lia|].
  destruct i as [|i]; [exists K, P; auto|]. cbn. apply IH. cbn in Hi. lia.
Qed.
Lemma at_both {Q : cmap -> pmap -> Prop} i K P : Forall2 Q maps specs -> nth_error maps i = Some K -> nth_error specs i = Some P -> Q K P.
Proof.
  clear. intros H. revert i. induction H as [|K' P' l l' H _ IH]; intros [|i] H1 H2; cbn in *; try discriminate.
  - congruence. - eapply IH; eauto.
Qed.

Lemma zpt_length i : (i <= n)%nat -> length (zpt i) = d.
Proof.
  induction i as [|i IH]; intros Hi; [exact Hx|].
  destruct (at_i i HE ltac:(lia)) as (K & P & HK & HP & (D & HI)). rewrite (zpt_S _ _ HP).
  destruct (square _ _ HP) as [S1 S2].
  destruct (HI (clayer i P) (zpt i) (fresh (p_out P))) as [_ HL];
    [apply clayer_length; auto | rewrite IH; lia | apply fresh_length |]. lia.
Qed.

Lemma offset_coff i : (i <= n)%nat -> cmp_offset maps i = coff i.
Proof.
  intros Hi. unfold cmp_offset, coff. rewrite fold_nsum. cbn.
  unfold n in Hi. clear - HE Hi. revert i Hi.
  induction HE as [|K P l l' HK _ IH]; intros i Hi; destruct i as [|i]; cbn; auto.
  destruct HK as ((_ & _ & D3) & _). inversion HE; subst. rewrite D3, IH; [auto|auto|cbn in Hi; lia].
Qed.

Lemma layer_ok i K P : nth_error maps i = Some K -> nth_error specs i = Some P -> layer maps c i = Ok (K, clayer i P).
Proof.
  intros HK HP. unfold layer, at_. rewrite HK. cbn [obind].
  rewrite offset_coff by (apply Nat.lt_le_incl; apply nth_error_Some; congruence).
  destruct (at_both i K P HE HK HP) as ((_ & _ & D3) & _). rewrite D3.
  unfold seg. pose proof (coff_le _ _ HP). destruct (Nat.leb_spec (coff i + p_nc P) (length c)) as [_|Hx']; [|lia]. reflexivity.
Qed.

Lemma layer_eval_ok i old : (i < n)%nat -> length old = d -> layer_eval maps c i (zpt i) old = Ok (zpt (S i)).
Proof.
  intros Hi Ho. destruct (at_i i HE Hi) as (K & P & HK & HP & (D & HI)). unfold layer_eval.
  rewrite (layer_ok _ _ _ HK HP). cbn [obind fst snd]. destruct (square _ _ HP) as [S1 S2].
  destruct (HI (clayer i P) (zpt i) old) as [H _]; [apply clayer_length; auto | rewrite zpt_length; lia | lia |].
  rewrite H. rewrite (zpt_S _ _ HP). reflexivity.
Qed.

Lemma nsum_c i : (i <= n)%nat -> (coff i <= length c)%nat.
Proof.
  intros Hi. rewrite Hc. unfold coff. pose proof (f_equal (nsum p_nc) (firstn_skipn i specs)) as E. rewrite nsum_app in E. lia.
Qed.

(** * The checkpointer *)
Fixpoint descending (l : list nat) : Prop :=
  match l with
  | [] => False
  | [a] => a = 0%nat
  | a :: ((b :: _) as t) => (b < a)%nat /\ descending t
  end.
(** Saved states are the intermediate points of their layers; the oldest is the input; the
    number of states does not exceed the budget. *)
Definition chk_inv (mx : nat) (ch : checker) : Prop :=
  ch_max ch = mx /\ descending (map fst (ch_saved ch)) /\ Forall (fun lv => snd lv = zpt (fst lv) /\ (fst lv < n)%nat) (ch_saved ch) /\
  (length (ch_saved ch) <= mx)%nat /\ length (ch_w1 ch) = d /\ length (ch_w2 ch) = d.

Variable mx : nat.
Hypothesis Hmx : (1 <= mx)%nat /\ (Z.of_nat mx < 2 ^ 31)%Z.
Hypothesis Hbound : (n <= layer_bound)%nat.

Lemma descending_tail a b t : descending (a :: b :: t) -> descending (b :: t).
Proof. intros [_ H]. exact H. Qed.

Lemma chk_loop_ok L : (L < n)%nat -> forall k i next ch, (i + k = L)%nat ->
  chk_inv mx ch -> ch_w1 ch = zpt i -> (forall l v t, ch_saved ch = (l, v) :: t -> (l < i)%nat) ->
  (next = (-1)%Z \/ (length (ch_saved ch) < mx)%nat) ->
  exists ch', chk_loop maps c L k i next ch = Ok ch' /\ chk_inv mx ch' /\ ch_w1 ch' = zpt L /\
              (length (ch_saved ch) <= length (ch_saved ch'))%nat.
Proof.
  intros HL. induction k as [|k IH]; intros i next ch Hk HI Hw Htop Hnext.
  - cbn [chk_loop]. exists ch. replace L with i by lia. auto.
  - cbn [chk_loop]. destruct HI as (I1 & I2 & I3 & I4 & I5 & I6).
    destruct (ch_saved ch) as [|[lb v] t] eqn:Es; [destruct I2|].
    assert (Hlb : (lb < i)%nat) by (eapply Htop; eauto).
    destruct (Z.eqb_spec (Z.of_nat i) next) as [Hpush|Hno].
    + destruct Hnext as [Hnext|Hnext]; [lia|].
      cbn [ch_saved ch_max].
      destruct (next_ok (map fst ((i, ch_w1 ch) :: (lb, v) :: t)) i (map fst ((lb, v) :: t)) (ch_max ch) L eq_refl)
        as (nx & HN & Hfull); [lia | lia | rewrite map_length; cbn [length] in *; lia | lia |].
      rewrite HN. cbn [obind].
      cbn [ch_w1 ch_w2 ch_saved]. rewrite Hw. rewrite layer_eval_ok by lia. cbn [obind].
      edestruct (IH (S i) nx (MkChk ((i, zpt i) :: (lb, v) :: t) (ch_max ch) (zpt (S i)) (zpt i))) as (ch' & E1 & E2 & E3 & E4).
      * lia.
      * unfold chk_inv. cbn [ch_max ch_saved ch_w1 ch_w2]. repeat split.
        -- exact I1.
        -- cbn [map fst]. exact Hlb.
        -- exact I2.
        -- constructor; [cbn; split; [reflexivity|lia]|exact I3].
        -- cbn [length] in *. lia.
        -- rewrite zpt_length; lia.
        -- rewrite zpt_length; lia.
      * reflexivity.
      * cbn [ch_saved]. intros l v' t' E. injection E as <- _ _. lia.
      * cbn [ch_saved]. rewrite map_length in Hfull. rewrite I1 in Hfull. cbn [length] in *.
        destruct (Nat.eq_dec (S (S (length t))) mx) as [Eq|Ne]; [left; auto|right; lia].
      * exists ch'. split; [exact E1|]. split; [exact E2|]. split; [exact E3|]. cbn [ch_saved length] in *. lia.
    + cbn [obind]. rewrite Hw. rewrite layer_eval_ok by lia. cbn [obind].
      edestruct (IH (S i) next (MkChk (ch_saved ch) (ch_max ch) (zpt (S i)) (zpt i))) as (ch' & E1 & E2 & E3 & E4).
      * lia.
      * unfold chk_inv. cbn [ch_max ch_saved ch_w1 ch_w2]. rewrite Es. repeat split; auto; rewrite zpt_length; lia.
      * reflexivity.
      * cbn [ch_saved]. intros l v' t' E. rewrite Es in E. injection E as <- _ _. lia.
      * cbn [ch_saved]. rewrite Es. exact Hnext.
      * exists ch'. split; [exact E1|]. split; [exact E2|]. split; [exact E3|]. cbn [ch_saved] in *. rewrite Es in *. lia.
Qed.

Lemma chk_get_ok saved : forall w1 w2 L, (L < n)%nat -> chk_inv mx (MkChk saved mx w1 w2) ->
  exists ch', chk_get maps c saved mx w1 w2 L = Ok (zpt L, ch') /\ chk_inv mx ch'.
Proof.
  induction saved as [|[lb v] rest IH]; intros w1 w2 L HL HI; pose proof HI as (I1 & I2 & I3 & I4 & I5 & I6);
    cbn [ch_saved ch_max ch_w1 ch_w2] in *; [destruct I2|].
  inversion I3 as [|? ? [Hv Hl] I3']; subst. cbn [fst snd] in *. cbn [chk_get].
  destruct (Nat.eqb_spec L lb) as [->|Hne]; [eexists; rewrite <- Hv; split; [reflexivity|exact HI]|].
  destruct (Nat.ltb_spec L lb) as [Hlt|Hge].
  - destruct rest as [|[l2 v2] rest].
    { cbn in I2. lia. }
    apply IH; [exact HL|]. unfold chk_inv. cbn [ch_saved ch_max ch_w1 ch_w2]. repeat split; auto.
    + eapply descending_tail. exact I2.
    + cbn [length] in *. lia.
  - destruct (next_ok (map fst ((lb, v) :: rest)) lb (map fst rest) mx L eq_refl) as (nx & HN & Hfull);
      [lia | lia | rewrite map_length; exact I4 | lia |].
    rewrite HN. cbn [obind]. rewrite Hv. rewrite layer_eval_ok by lia. cbn [obind].
    edestruct (chk_loop_ok L HL (L - S lb) (S lb) nx (MkChk ((lb, zpt lb) :: rest) mx (zpt (S lb)) w2)) as (ch' & E1 & E2 & E3 & _).
    + lia.
    + unfold chk_inv. cbn [ch_saved ch_max ch_w1 ch_w2]. repeat split; auto; try (constructor; auto); rewrite zpt_length; lia.
    + reflexivity.
    + cbn [ch_saved]. intros l v' t' E. injection E as <- _ _. lia.
    + cbn [ch_saved]. rewrite map_length in Hfull. destruct (Nat.eq_dec (length ((lb, v) :: rest)) mx) as [Eq|Ne]; [left; auto|right; cbn [length] in *; lia].
    + rewrite E1. cbn [obind]. rewrite E3. exists ch'. auto.
Qed.

Lemma GetLayerInput_ok ch L : (L < n)%nat -> chk_inv mx ch ->
  exists ch', chk_GetLayerInput maps c ch L = Ok (zpt L, ch') /\ chk_inv mx ch'.
Proof.
  intros HL HI. unfold chk_GetLayerInput. destruct ch as [s m w1 w2]. destruct HI as (I1 & HI). cbn [ch_max ch_saved ch_w1 ch_w2] in *.
  subst m. apply chk_get_ok; [exact HL|]. split; [reflexivity|exact HI].
Qed.
Lemma chk_make_ok : (0 < n)%nat -> exists ch, chk_make mx x = Ok ch /\ chk_inv mx ch.
Proof.
  intros Hn. unfold chk_make. destruct (Nat.eqb_spec mx 0) as [H|_]; [lia|]. eexists. split; [reflexivity|].
  unfold chk_inv. cbn [ch_saved ch_max ch_w1 ch_w2 map fst length]. rewrite !fresh_length. repeat split; try lia; auto.
Qed.

(** * Forward loops *)
Lemma cmp_eval_loop k : forall i w, (i + k <= n)%nat -> length w = d ->
  exists w', ofold (fun (st : list R * list R) j =>
            do y <- layer_eval maps c j (fst st) (snd st); Ok (y, fst st)) (seq i k) (zpt i, w) = Ok (zpt (i + k), w').
Proof using HE HSq Hc Hx. clear mx Hmx Hbound.
  induction k as [|k IH]; intros i w Hi Hw.
  - cbn. rewrite Nat.add_0_r. eexists. reflexivity.
  - cbn [seq ofold fst snd]. rewrite layer_eval_ok by lia. cbn [obind fst].
    destruct (IH (S i) (zpt i)) as (w' & IH'); [lia | rewrite zpt_length; lia |].
    rewrite IH'. exists w'. do 2 f_equal. f_equal. lia.
Qed.
Lemma cmp_Evaluate_ok old : (0 < n)%nat -> length old = d -> cmp_Evaluate maps c x old = Ok (cmp_eval specs c x).
Proof using HE HSq Hc Hx. clear mx Hmx Hbound.
  intros Hn Ho. unfold cmp_Evaluate. rewrite <- zpt_0 at 1. rewrite layer_eval_ok by (rewrite ?fresh_length; lia).
  cbn [obind]. destruct (cmp_eval_loop (n - 1) 1 (fresh (length x))) as (w' & H); [lia | rewrite fresh_length; lia |].
  fold n. rewrite H. cbn [obind fst]. replace (1 + (n - 1))%nat with n by lia.
  rewrite deep_copy_ok by (rewrite zpt_length; lia). unfold zpt. rewrite <- specs_length, firstn_all. reflexivity.
Qed.

Hypothesis HD : Forall2 imp_logdet maps specs.
Lemma cmp_logdet_suffix i P : nth_error specs i = Some P ->
  cmp_logdet (skipn i specs) (skipn (coff i) c) (zpt i)
  = p_logdet P (clayer i P) (zpt i) + cmp_logdet (skipn (S i) specs) (skipn (coff (S i)) c) (zpt (S i)).
Proof using Hc Hx maps d. clear mx Hmx Hbound.
  intros H. rewrite (skipn_at _ _ _ H). cbn [cmp_logdet]. rewrite (zpt_S _ _ H), (coff_S _ _ H), skipn_skipn.
  reflexivity.
Qed.
Lemma cmp_logdet_loop k : forall i w inc a, (1 <= i)%nat -> (i + k = n)%nat -> length w = d ->
  exists st, ofold (fun (st : list R * list R * option R * option R) i =>
            let '(p1, p2, inc, out) := st in
            do p2 <- layer_eval maps c (i - 1) p1 p2;
            do Kc <- layer maps c i;
            do inc <- m_logdet (fst Kc) (snd Kc) p2 inc;
            Ok (p2, p1, inc, ladd out inc)) (seq i k) (zpt (i - 1), w, inc, Some a) = Ok st
    /\ snd st = Some (a + cmp_logdet (skipn i specs) (skipn (coff i) c) (zpt i)).
Proof using HE HSq Hc Hx HD. clear mx Hmx Hbound.
  induction k as [|k IH]; intros i w inc a H1 Hi Hw.
  - cbn [seq ofold]. eexists. split; [reflexivity|]. cbn [snd]. rewrite skipn_all2 by (rewrite specs_length; lia). cbn. f_equal. ring.
  - cbn [seq ofold]. rewrite layer_eval_ok by lia. cbn [obind].
    destruct (at_i i HD ltac:(lia)) as (K & P & HK & HP & (D & HL)). rewrite (layer_ok _ _ _ HK HP). cbn [obind fst snd].
    replace (S (i - 1)) with i by lia. destruct (square _ _ HP) as [S1 S2].
    rewrite HL by (rewrite ?zpt_length; [rewrite ?S1; auto using clayer_length; lia|..]; try lia; auto using clayer_length).
    cbn [obind ladd].
    destruct (IH (S i) (zpt (i - 1)) (Some (p_logdet P (clayer i P) (zpt i))) (a + p_logdet P (clayer i P) (zpt i))) as (st & IH1 & IH2);
      [lia | lia | rewrite zpt_length; lia |].
    replace (S i - 1)%nat with i in IH1 by lia. exists st. split; [exact IH1|].
    rewrite IH2. rewrite (cmp_logdet_suffix _ _ HP). f_equal. ring.
Qed.
Lemma cmp_LogDet_ok old : (0 < n)%nat -> cmp_LogDeterminant maps c x old = Ok (Some (cmp_logdet specs c x)).
Proof using HE HSq Hc Hx HD. clear mx Hmx Hbound.
  intros Hn. unfold cmp_LogDeterminant.
  destruct (at_i 0 HD ltac:(lia)) as (K & P & HK & HP & (D & HL)). rewrite (layer_ok _ _ _ HK HP). cbn [obind fst snd].
  destruct (square _ _ HP) as [S1 S2].
  rewrite HL by (auto using clayer_length; lia). cbn [obind].
  pose proof (cmp_logdet_suffix _ _ HP) as HS. change (skipn 0 specs) with specs in HS. change (skipn (coff 0) c) with c in HS.
  rewrite zpt_0 in HS. fold n.
  destruct (Nat.eqb_spec n 1) as [H1|H1].
  - rewrite (skipn_all2 specs) in HS by (rewrite specs_length; lia). cbn [cmp_logdet] in HS. rewrite HS. do 2 f_equal. ring.
  - destruct (cmp_logdet_loop (n - 1) 1 (fresh (length x)) (Some 0) (p_logdet P (clayer 0 P) x)) as (st & E1 & E2);
      [lia | lia | rewrite fresh_length; lia |].
    change (1 - 1)%nat with 0%nat in E1. rewrite zpt_0 in E1. rewrite E1. cbn [obind]. rewrite E2, HS. reflexivity.
Qed.

(** * Backward loops *)
Lemma rev_seq k : rev (seq 0 (S k)) = k :: rev (seq 0 k).
Proof. rewrite seq_S, rev_app_distr. reflexivity. Qed.
Lemma cmp_nc_coff : cmp_nc maps = coff n.
Proof using HE Hc Hx. clear mx Hmx Hbound.
  rewrite <- (offset_coff n (le_n _)). unfold cmp_nc, cmp_offset, n. rewrite firstn_all. reflexivity.
Qed.
Lemma coff_n : coff n = length c.
Proof using HE Hc Hx. clear mx Hmx Hbound. unfold coff. rewrite <- specs_length, firstn_all. symmetry. exact Hc. Qed.

(** * Inverse *)
Lemma cmp_inv_loop tol n1 (x1 r : list R) : Forall2 (imp_inv n1 tol) maps specs -> length x1 = n1 ->
  forall k, (k <= n)%nat -> forall s w, length s = d -> length w = d -> traced tol (skipn k specs) (skipn (coff k) c) s r ->
  exists y w', ofold (fun (st : list R * list R) i =>
             do Kc <- layer maps c i;
             do y <- m_inv (fst Kc) (snd Kc) x1 (fst st) (snd st);
             Ok (y, fst st)) (rev (seq 0 k)) (s, w) = Ok (y, w') /\ length y = d /\ traced tol specs c y r.
Proof using HE HSq Hc Hx. clear mx Hmx Hbound.
  intros HI Hx1. induction k as [|k IH]; intros Hk s w Hs Hw HT.
  - cbn. eexists _, _. split; [reflexivity|]. auto.
  - rewrite rev_seq. cbn [ofold].
    destruct (at_i k HI ltac:(lia)) as (K & P & HK & HP & (D & HV)). rewrite (layer_ok _ _ _ HK HP). cbn [obind fst snd].
    destruct (square _ _ HP) as [S1 S2].
    destruct (HV (clayer k P) x1 s w) as (y & E & Ly & Hy); [apply clayer_length; auto | auto | lia | lia |].
    rewrite E. cbn [obind]. apply IH; [lia | lia | exact Hs |].
    rewrite S1, S2, Nat.sub_diag in Hy. cbn [firstn app] in Hy.
    rewrite (skipn_at _ _ _ HP). cbn [traced]. exists s. split; [exact Hy|].
    rewrite skipn_skipn, <- (coff_S _ _ HP). exact HT.
Qed.
Lemma cmp_Inverse_ok tol n1 (x1 r old : list R) : Forall2 (imp_inv n1 tol) maps specs -> length x1 = n1 ->
  length r = d -> length old = d ->
  exists y, cmp_Inverse maps c x1 r old = Ok y /\ length y = d /\ traced tol specs c y r.
Proof using HE HSq Hc Hx. clear mx Hmx Hbound.
  intros HI Hx1 Hr Ho. unfold cmp_Inverse. fold n.
  destruct (cmp_inv_loop tol n1 x1 r HI Hx1 n (le_n _) r (fresh (length r))) as (y & w' & E & L & T);
    [exact Hr | rewrite fresh_length; lia | |].
  - rewrite skipn_all2 by (rewrite specs_length; lia). reflexivity.
  - rewrite E. cbn [obind fst]. rewrite deep_copy_ok by lia. eauto.
Qed.

Hypothesis HG : Forall2 imp_grad maps specs.
Definition gsuf (s : list R) (i : nat) : list R := cmp_grad (skipn i specs) (skipn (coff i) c) (zpt i) s.
Lemma gsuf_n s : gsuf s n = s.
Proof. unfold gsuf. rewrite skipn_all2 by (rewrite specs_length; lia). reflexivity. Qed.
Lemma gsuf_at s i P : nth_error specs i = Some P -> gsuf s i = p_grad P (clayer i P) (zpt i) (gsuf s (S i)).
Proof.
  intros H. unfold gsuf. rewrite (skipn_at _ _ _ H). cbn [cmp_grad].
  rewrite (zpt_S _ _ H), (coff_S _ _ H), skipn_skipn. reflexivity.
Qed.
Lemma grad_at i K P s old : nth_error maps i = Some K -> nth_error specs i = Some P -> length s = d -> length old = d ->
  m_grad K (clayer i P) (zpt i) s old = Ok (p_grad P (clayer i P) (zpt i) s) /\ length (p_grad P (clayer i P) (zpt i) s) = d.
Proof.
  intros HK HP Hs Ho. destruct (at_both i K P HG HK HP) as (D & H). destruct (square _ _ HP) as [S1 S2].
  assert ((i < n)%nat) by (unfold n; apply nth_error_Some; congruence).
  destruct (H (clayer i P) (zpt i) s old) as [E L]; [apply clayer_length; auto | rewrite zpt_length; lia | lia | lia |].
  split; [exact E|lia].
Qed.
Lemma gsuf_length s i : length s = d -> (i <= n)%nat -> length (gsuf s i) = d.
Proof.
  intros Hs Hi. remember (n - i)%nat as k eqn:Ek. revert i Hi Ek. induction k as [|k IH]; intros i Hi Ek.
  - replace i with n by lia. rewrite gsuf_n. exact Hs.
  - destruct (at_i i HG ltac:(lia)) as (K & P & HK & HP & _). rewrite (gsuf_at _ _ _ HP).
    destruct (grad_at i K P (gsuf s (S i)) (fresh d) HK HP) as [_ L]; [apply IH; lia | apply fresh_length | exact L].
Qed.

Lemma cmp_grad_loop s : length s = d -> forall k, (k <= n)%nat -> forall ch w, chk_inv mx ch -> length w = d ->
  exists ch' w', ofold (fun (st : checker * list R * list R) i =>
             let '(ch, s1, s2) := st in
             do ic <- chk_GetLayerInput maps c ch i;
             do Kc <- layer maps c i;
             do s2 <- m_grad (fst Kc) (snd Kc) (fst ic) s1 s2;
             Ok (snd ic, s2, s1)) (rev (seq 0 k)) (ch, gsuf s k, w) = Ok (ch', gsuf s 0, w') /\ chk_inv mx ch' /\ length w' = d.
Proof.
  intros Hs. induction k as [|k IH]; intros Hk ch w HI Hw.
  - cbn. eauto.
  - rewrite rev_seq. cbn [ofold].
    destruct (GetLayerInput_ok ch k ltac:(lia) HI) as (ch' & E & HI'). rewrite E. cbn [obind fst snd].
    destruct (at_i k HG ltac:(lia)) as (K & P & HK & HP & _). rewrite (layer_ok _ _ _ HK HP). cbn [obind fst snd].
    destruct (grad_at k K P (gsuf s (S k)) w HK HP) as [EG LG]; [apply gsuf_length; auto; lia | exact Hw |].
    rewrite EG. cbn [obind]. rewrite <- (gsuf_at _ _ _ HP).
    apply IH; [lia | exact HI' | apply gsuf_length; auto; lia].
Qed.
Lemma cmp_Gradient_ok s old : (0 < n)%nat -> length s = d -> length old = d ->
  cmp_Gradient maps mx c x s old = Ok (cmp_grad specs c x s) /\ length (cmp_grad specs c x s) = d.
Proof.
  intros Hn Hs Ho. unfold cmp_Gradient. destruct (chk_make_ok Hn) as (ch & E & HI). rewrite E. cbn [obind]. fold n.
  destruct (cmp_grad_loop s Hs n (le_n _) ch (fresh (length s)) HI ltac:(rewrite fresh_length; lia)) as (ch' & w' & E' & _ & _).
  rewrite gsuf_n in E'. rewrite E'. cbn [obind fst snd].
  pose proof (gsuf_length s 0 Hs ltac:(lia)) as HL. rewrite deep_copy_ok by lia. split; [reflexivity|exact HL].
Qed.

Hypothesis HCG : Forall2 imp_cgrad maps specs.
Definition csuf (s : list R) (i : nat) : list R := cmp_cgrad (skipn i specs) (skipn (coff i) c) (zpt i) s.
Lemma csuf_n s : csuf s n = [].
Proof. unfold csuf. rewrite skipn_all2 by (rewrite specs_length; lia). reflexivity. Qed.
Lemma csuf_at s i P : nth_error specs i = Some P ->
  csuf s i = p_cgrad P (clayer i P) (zpt i) (gsuf s (S i)) ++ csuf s (S i).
Proof.
  intros H. unfold csuf, gsuf. rewrite (skipn_at _ _ _ H). cbn [cmp_cgrad].
  rewrite (zpt_S _ _ H), (coff_S _ _ H), skipn_skipn. reflexivity.
Qed.
Lemma cgrad_at i K P s old : nth_error maps i = Some K -> nth_error specs i = Some P -> length s = d -> length old = p_nc P ->
  m_cgrad K (clayer i P) (zpt i) s old = Ok (p_cgrad P (clayer i P) (zpt i) s) /\ length (p_cgrad P (clayer i P) (zpt i) s) = p_nc P.
Proof.
  intros HK HP Hs Ho. destruct (at_both i K P HCG HK HP) as (D & H). destruct (square _ _ HP) as [S1 S2].
  assert ((i < n)%nat) by (unfold n; apply nth_error_Some; congruence).
  destruct (H (clayer i P) (zpt i) s old) as [E L]; [apply clayer_length; auto | rewrite zpt_length; lia | lia | lia |].
  split; [exact E|lia].
Qed.

(** Writing the block of one layer in front of the blocks already written. *)
Lemma slice_write (out : list R) i P (y tail : list R) : nth_error specs i = Some P -> length out = length c -> length y = p_nc P ->
  skipn (coff (S i)) out = tail ->
  skipn (coff i) (put out (coff (S i) - p_nc P) y) = y ++ tail /\ length (put out (coff (S i) - p_nc P) y) = length c.
Proof.
  intros HP Hl Hy Ht. pose proof (coff_le _ _ HP) as Hle. pose proof (coff_S _ _ HP) as HS.
  replace (coff (S i) - p_nc P)%nat with (coff i) by lia. unfold put.
  assert (Hf : length (firstn (coff i) out) = coff i) by (apply firstn_len; lia).
  split.
  - rewrite skipn_app, Hf, Nat.sub_diag, skipn_O. rewrite skipn_all2 by lia. cbn [app]. rewrite Hy, <- HS, Ht. reflexivity.
  - rewrite !app_length, Hf, skipn_length. lia.
Qed.
Lemma slice_read (out : list R) i P : nth_error specs i = Some P -> length out = length c ->
  exists old, seg out (coff (S i) - p_nc P) (p_nc P) = Ok old /\ length old = p_nc P.
Proof.
  intros HP Hl. pose proof (coff_le _ _ HP) as Hle. pose proof (coff_S _ _ HP) as HS. unfold seg.
  destruct (Nat.leb_spec (coff (S i) - p_nc P + p_nc P) (length out)) as [_|Hx']; [|lia].
  eexists. split; [reflexivity|]. rewrite firstn_len; [auto|]. rewrite skipn_length. lia.
Qed.

Lemma cmp_cgrad_loop s : length s = d -> forall k, (k <= n)%nat -> forall ch s1 w out, chk_inv mx ch -> length w = d ->
  ((k < n)%nat -> (0 < k)%nat -> s1 = gsuf s k) -> (k = n -> s1 = s) ->
  length out = length c -> skipn (coff k) out = csuf s k ->
  exists st, ofold (fun (st : checker * list R * list R * nat * list R) i =>
             let '(ch, s1, s2, endp, out) := st in
             do ic <- chk_GetLayerInput maps c ch i;
             do Kc <- layer maps c i;
             let nc := m_nc (fst Kc) in
             do subOut <- seg out (endp - nc) nc;
             do y <- m_cgrad (fst Kc) (snd Kc) (fst ic) s1 subOut;
             let out := put out (endp - nc) y in
             do ss <- (if (0 <? i)%nat then
                         do s2 <- m_grad (fst Kc) (snd Kc) (fst ic) s1 s2; Ok (s2, s1)
                       else Ok (s1, s2));
             Ok (snd ic, fst ss, snd ss, (endp - nc)%nat, out)) (rev (seq 0 k)) (ch, s1, w, coff k, out) = Ok st
    /\ snd st = csuf s 0 /\ length (snd st) = length c.
Proof.
  intros Hs. induction k as [|k IH]; intros Hk ch s1 w out HI Hw Hs1 Hs1' Ho Hout.
  - cbn. eexists. split; [reflexivity|]. cbn. unfold coff in Hout. cbn in Hout. auto.
  - rewrite rev_seq. cbn [ofold].
    assert (Es : s1 = gsuf s (S k)).
    { destruct (Nat.eq_dec (S k) n) as [E|E]; [rewrite E, gsuf_n; auto | apply Hs1; lia]. } clear Hs1 Hs1'. subst s1.
    destruct (GetLayerInput_ok ch k ltac:(lia) HI) as (ch' & E & HI'). rewrite E. cbn [obind fst snd].
    destruct (at_i k HCG ltac:(lia)) as (K & P & HK & HP & ((_ & _ & D3) & _)). rewrite (layer_ok _ _ _ HK HP). cbn [obind fst snd].
    rewrite D3. destruct (slice_read out k P HP Ho) as (old & ES & LS). rewrite ES. cbn [obind].
    pose proof (gsuf_length s (S k) Hs Hk) as HgL.
    destruct (cgrad_at k K P (gsuf s (S k)) old HK HP HgL LS) as [EC LC]. rewrite EC. cbn [obind].
    destruct (slice_write out k P _ _ HP Ho LC Hout) as [W1 W2].
    rewrite <- (csuf_at s _ _ HP) in W1.
    pose proof (coff_S _ _ HP) as HcS. replace (coff (S k) - p_nc P)%nat with (coff k) in * by lia.
    destruct (Nat.ltb_spec 0 k) as [Hpos|Hzero].
    + destruct (grad_at k K P (gsuf s (S k)) w HK HP HgL Hw) as [EG LG]. rewrite EG. cbn [obind fst snd].
      apply IH; auto; try lia.
      intros _ _. symmetry. apply gsuf_at. exact HP.
    + cbn [obind fst snd]. replace k with 0%nat in * by lia. cbn [seq rev ofold]. eexists. split; [reflexivity|]. cbn [snd].
      change (coff 0) with 0%nat in W1, W2. change (coff 0) with 0%nat. cbn [skipn] in W1. auto.
Qed.
Lemma cmp_CoeffGrad_ok s old : (0 < n)%nat -> length s = d -> length old = cmp_nc maps ->
  cmp_CoeffGrad maps mx c x s old = Ok (cmp_cgrad specs c x s) /\ length (cmp_cgrad specs c x s) = cmp_nc maps.
Proof.
  intros Hn Hs Ho. unfold cmp_CoeffGrad. destruct (chk_make_ok Hn) as (ch & E & HI). rewrite E. cbn [obind]. fold n.
  rewrite cmp_nc_coff in *. 
  destruct (cmp_cgrad_loop s Hs n (le_n _) ch s (fresh (length s)) old HI) as (st & E' & E1 & E2);
    [rewrite fresh_length; lia | lia | auto | rewrite coff_n in Ho; lia | |].
  - rewrite csuf_n. apply skipn_all2. lia.
  - cbv zeta in E'. rewrite E'. cbn [obind]. rewrite E1 in E2 |- *. rewrite coff_n. split; [reflexivity|exact E2].
Qed.

Hypothesis HLI : Forall2 imp_ldi maps specs.
Definition isuf (i : nat) : list R := cmp_ldi (skipn i specs) (skipn (coff i) c) (zpt i).
Lemma isuf_last P : nth_error specs (n - 1) = Some P -> isuf (n - 1) = p_ldi P (clayer (n - 1) P) (zpt (n - 1)).
Proof.
  intros H. assert ((n - 1 < n)%nat) by (rewrite <- specs_length in *; apply nth_error_Some; congruence).
  unfold isuf. rewrite (skipn_at _ _ _ H). rewrite skipn_all2 by (rewrite specs_length; lia). reflexivity.
Qed.
Lemma isuf_at i P : nth_error specs i = Some P -> (S i < n)%nat ->
  isuf i = vadd (p_grad P (clayer i P) (zpt i) (isuf (S i))) (p_ldi P (clayer i P) (zpt i)).
Proof.
  intros H Hi. unfold isuf. rewrite (skipn_at _ _ _ H).
  destruct (at_i (S i) HG Hi) as (K & Q & _ & HQ & _). rewrite (skipn_at _ _ _ HQ).
  cbn [cmp_ldi]. rewrite (zpt_S _ _ H), (coff_S _ _ H), <- skipn_skipn. reflexivity.
Qed.
Lemma ldi_at i K P old : nth_error maps i = Some K -> nth_error specs i = Some P -> length old = d ->
  m_ldi K (clayer i P) (zpt i) old = Ok (p_ldi P (clayer i P) (zpt i)) /\ length (p_ldi P (clayer i P) (zpt i)) = d.
Proof.
  intros HK HP Ho. destruct (at_both i K P HLI HK HP) as (D & H). destruct (square _ _ HP) as [S1 S2].
  assert ((i < n)%nat) by (unfold n; apply nth_error_Some; congruence).
  destruct (H (clayer i P) (zpt i) old) as [E L]; [apply clayer_length; auto | rewrite zpt_length; lia | lia |].
  split; [exact E|lia].
Qed.
Lemma isuf_length i : (i < n)%nat -> length (isuf i) = d.
Proof.
  intros Hi. remember (n - 1 - i)%nat as k eqn:Ek. revert i Hi Ek. induction k as [|k IH]; intros i Hi Ek.
  - replace i with (n - 1)%nat by lia. destruct (at_i (n - 1) HG ltac:(lia)) as (K & P & HK & HP & _). rewrite (isuf_last _ HP).
    apply (ldi_at (n - 1) K P (fresh d) HK HP (fresh_length _)).
  - destruct (at_i i HG ltac:(lia)) as (K & P & HK & HP & _). rewrite (isuf_at _ _ HP) by lia.
    destruct (grad_at i K P (isuf (S i)) (fresh d) HK HP) as [_ L1]; [apply IH; lia | apply fresh_length |].
    destruct (ldi_at i K P (fresh d) HK HP (fresh_length _)) as [_ L2]. rewrite vadd_length; lia.
Qed.

Lemma cmp_ldi_loop k : (k < n)%nat -> forall ch w, chk_inv mx ch -> length w = d ->
  exists ch' w', ofold (fun (st : checker * list R * list R) i =>
             let '(ch, s1, s2) := st in
             do ic <- chk_GetLayerInput maps c ch i;
             do Kc <- layer maps c i;
             do s2 <- m_grad (fst Kc) (snd Kc) (fst ic) s1 s2;
             do s1 <- m_ldi (fst Kc) (snd Kc) (fst ic) s1;
             do s2' <- add_into (length s2) s2 s1;
             Ok (snd ic, s2', s1)) (rev (seq 0 k)) (ch, isuf k, w) = Ok (ch', isuf 0, w').
Proof.
  induction k as [|k IH]; intros Hk ch w HI Hw.
  - cbn. eauto.
  - rewrite rev_seq. cbn [ofold].
    destruct (GetLayerInput_ok ch k ltac:(lia) HI) as (ch' & E & HI'). rewrite E. cbn [obind fst snd].
    destruct (at_i k HG ltac:(lia)) as (K & P & HK & HP & _). rewrite (layer_ok _ _ _ HK HP). cbn [obind fst snd].
    pose proof (isuf_length (S k) Hk) as Hl.
    destruct (grad_at k K P (isuf (S k)) w HK HP Hl Hw) as [EG LG]. rewrite EG. cbn [obind].
    destruct (ldi_at k K P (isuf (S k)) HK HP Hl) as [EL LL]. rewrite EL. cbn [obind].
    rewrite add_same by lia. cbn [obind]. rewrite <- (isuf_at _ _ HP Hk).
    apply IH; [lia | exact HI' | exact LL].
Qed.
Lemma cmp_LogDetInputGrad_ok old : (0 < n)%nat -> length old = d ->
  cmp_LogDetInputGrad maps mx c x old = Ok (cmp_ldi specs c x) /\ length (cmp_ldi specs c x) = d.
Proof.
  intros Hn Ho. unfold cmp_LogDetInputGrad. destruct (chk_make_ok Hn) as (ch & E & HI). rewrite E. cbn [obind]. fold n.
  destruct (GetLayerInput_ok ch (n - 1) ltac:(lia) HI) as (ch' & E' & HI'). rewrite E'. cbn [obind fst snd].
  destruct (at_i (n - 1) HG ltac:(lia)) as (K & P & HK & HP & _). rewrite (layer_ok _ _ _ HK HP). cbn [obind fst snd].
  destruct (ldi_at (n - 1) K P (fresh (length x)) HK HP ltac:(rewrite fresh_length; lia)) as [EL LL]. rewrite EL. cbn [obind].
  rewrite <- (isuf_last _ HP).
  destruct (cmp_ldi_loop (n - 1) ltac:(lia) ch' (fresh (length x)) HI' ltac:(rewrite fresh_length; lia)) as (ch2 & w2 & E2).
  rewrite E2. cbn [obind fst snd]. pose proof (isuf_length 0 Hn) as HL.
  rewrite deep_copy_ok by lia. split; [reflexivity|exact HL].
Qed.

Hypothesis HLC : Forall2 imp_ldc maps specs.
Definition lsuf (i : nat) : list R := cmp_ldc (skipn i specs) (skipn (coff i) c) (zpt i).
Lemma lsuf_last P : nth_error specs (n - 1) = Some P -> lsuf (n - 1) = p_ldc P (clayer (n - 1) P) (zpt (n - 1)).
Proof.
  intros H. assert ((n - 1 < n)%nat) by (rewrite <- specs_length in *; apply nth_error_Some; congruence).
  unfold lsuf. rewrite (skipn_at _ _ _ H). rewrite skipn_all2 by (rewrite specs_length; lia). reflexivity.
Qed.
Lemma lsuf_at i P : nth_error specs i = Some P -> (S i < n)%nat ->
  lsuf i = vadd (p_ldc P (clayer i P) (zpt i)) (p_cgrad P (clayer i P) (zpt i) (isuf (S i))) ++ lsuf (S i).
Proof.
  intros H Hi. unfold lsuf, isuf. rewrite (skipn_at _ _ _ H).
  destruct (at_i (S i) HG Hi) as (K & Q & _ & HQ & _). rewrite (skipn_at _ _ _ HQ).
  cbn [cmp_ldc]. rewrite (zpt_S _ _ H), (coff_S _ _ H), <- skipn_skipn. reflexivity.
Qed.
Lemma ldc_at i K P old : nth_error maps i = Some K -> nth_error specs i = Some P -> length old = p_nc P ->
  m_ldc K (clayer i P) (zpt i) old = Ok (p_ldc P (clayer i P) (zpt i)) /\ length (p_ldc P (clayer i P) (zpt i)) = p_nc P.
Proof.
  intros HK HP Ho. destruct (at_both i K P HLC HK HP) as (D & H). destruct (square _ _ HP) as [S1 S2].
  assert ((i < n)%nat) by (unfold n; apply nth_error_Some; congruence).
  destruct (H (clayer i P) (zpt i) old) as [E L]; [apply clayer_length; auto | rewrite zpt_length; lia | lia |].
  split; [exact E|lia].
Qed.

Lemma cmp_ldc_loop k : (k < n)%nat -> forall ch s1 w out, chk_inv mx ch -> length w = d -> ((0 < k)%nat -> s1 = isuf k) ->
  length out = length c -> skipn (coff k) out = lsuf k ->
  exists st, ofold (fun (st : checker * list R * list R * nat * list R) i =>
             let '(ch, s1, s2, endp, out) := st in
             do ic <- chk_GetLayerInput maps c ch i;
             do Kc <- layer maps c i;
             let nc := m_nc (fst Kc) in
             do subOut <- seg out (endp - nc) nc;
             do y <- m_ldc (fst Kc) (snd Kc) (fst ic) subOut;
             do sub2 <- m_cgrad (fst Kc) (snd Kc) (fst ic) s1 (fresh nc);
             do y <- add_into (length y) y sub2;
             let out := put out (endp - nc) y in
             do ss <- (if (0 <? i)%nat then
                         do s2 <- m_grad (fst Kc) (snd Kc) (fst ic) s1 s2;
                         do s1 <- m_ldi (fst Kc) (snd Kc) (fst ic) s1;
                         do s2' <- add_into (length s2) s2 s1;
                         Ok (s2', s1)
                       else Ok (s1, s2));
             Ok (snd ic, fst ss, snd ss, (endp - nc)%nat, out)) (rev (seq 0 k)) (ch, s1, w, coff k, out) = Ok st
    /\ snd st = lsuf 0 /\ length (snd st) = length c.
Proof.
  induction k as [|k IH]; intros Hk ch s1 w out HI Hw Hs1 Ho Hout.
  - cbn. eexists. split; [reflexivity|]. cbn. unfold coff in Hout. cbn in Hout. auto.
  - rewrite rev_seq. cbn [ofold]. rewrite Hs1 by lia. clear Hs1 s1.
    destruct (GetLayerInput_ok ch k ltac:(lia) HI) as (ch' & E & HI'). rewrite E. cbn [obind fst snd].
    destruct (at_i k HCG ltac:(lia)) as (K & P & HK & HP & ((_ & _ & D3) & _)). rewrite (layer_ok _ _ _ HK HP). cbn [obind fst snd].
    rewrite D3. destruct (slice_read out k P HP Ho) as (old & ES & LS). rewrite ES. cbn [obind].
    pose proof (isuf_length (S k) Hk) as HgL.
    destruct (ldc_at k K P old HK HP LS) as [EL LL]. rewrite EL. cbn [obind].
    destruct (cgrad_at k K P (isuf (S k)) (fresh (p_nc P)) HK HP HgL (fresh_length _)) as [EC LC]. rewrite EC. cbn [obind].
    rewrite add_same by lia. cbn [obind].
    assert (LV : length (vadd (p_ldc P (clayer k P) (zpt k)) (p_cgrad P (clayer k P) (zpt k) (isuf (S k)))) = p_nc P)
      by (rewrite vadd_length; lia).
    destruct (slice_write out k P _ _ HP Ho LV Hout) as [W1 W2].
    rewrite <- (lsuf_at _ _ HP Hk) in W1.
    pose proof (coff_S _ _ HP) as HcS. replace (coff (S k) - p_nc P)%nat with (coff k) in * by lia.
    destruct (Nat.ltb_spec 0 k) as [Hpos|Hzero].
    + destruct (grad_at k K P (isuf (S k)) w HK HP HgL Hw) as [EG LG]. rewrite EG. cbn [obind fst snd].
      destruct (ldi_at k K P (isuf (S k)) HK HP HgL) as [EI LI]. rewrite EI. cbn [obind].
      rewrite add_same by lia. cbn [obind fst snd]. rewrite <- (isuf_at _ _ HP Hk).
      apply IH; auto; lia.
    + cbn [obind fst snd]. replace k with 0%nat in * by lia. cbn [seq rev ofold]. eexists. split; [reflexivity|]. cbn [snd].
      change (coff 0) with 0%nat in W1, W2. change (coff 0) with 0%nat. cbn [skipn] in W1. auto.
Qed.
Lemma cmp_LogDetCoeffGrad_ok old : (0 < n)%nat -> length old = cmp_nc maps ->
  cmp_LogDetCoeffGrad maps mx c x old = Ok (cmp_ldc specs c x) /\ length (cmp_ldc specs c x) = cmp_nc maps.
Proof.
  intros Hn Ho. unfold cmp_LogDetCoeffGrad. destruct (chk_make_ok Hn) as (ch & E & HI). rewrite E. cbn [obind]. fold n.
  destruct (GetLayerInput_ok ch (n - 1) ltac:(lia) HI) as (ch' & E' & HI'). rewrite E'. cbn [obind fst snd].
  destruct (at_i (n - 1) HCG ltac:(lia)) as (K & P & HK & HP & ((_ & _ & D3) & _)). rewrite (layer_ok _ _ _ HK HP). cbn [obind fst snd].
  rewrite D3, cmp_nc_coff in *. assert (Ho' : length old = length c) by (rewrite coff_n in Ho; exact Ho).
  assert (Hcn : coff n = coff (S (n - 1))) by (f_equal; lia). rewrite Hcn.
  destruct (slice_read old (n - 1) P HP Ho') as (old1 & ES & LS). rewrite ES. cbn [obind].
  destruct (ldc_at (n - 1) K P old1 HK HP LS) as [EL LL]. rewrite EL. cbn [obind].
  destruct (ldi_at (n - 1) K P (fresh (length x)) HK HP ltac:(rewrite fresh_length; lia)) as [EI LI]. rewrite EI. cbn [obind].
  destruct (slice_write old (n - 1) P _ [] HP Ho' LL) as [W1 W2].
  { apply skipn_all2. replace (S (n - 1)) with n by lia. rewrite coff_n. lia. }
  rewrite app_nil_r, <- (lsuf_last _ HP) in W1. rewrite <- (lsuf_last _ HP) in W2 |- *. rewrite <- (isuf_last _ HP).
  pose proof (coff_S _ _ HP) as HcS. replace (coff (S (n - 1)) - p_nc P)%nat with (coff (n - 1)) in * by lia.
  destruct (cmp_ldc_loop (n - 1) ltac:(lia) ch' (isuf (n - 1)) (fresh (length x)) (put old (coff (n - 1)) (lsuf (n - 1))) HI')
    as (st & E2 & E3 & E4); [rewrite fresh_length; lia | auto | exact W2 | exact W1 |].
  cbv zeta in E2. rewrite E2. cbn [obind]. rewrite E3 in E4 |- *. split; [reflexivity|]. rewrite coff_n in Hcn. rewrite <- Hcn. exact E4.
Qed.
End Composed.

Lemma traced0 l c y r : traced 0 l c y r -> cmp_eval l c y = r.
Proof.
  revert c y. induction l as [|K l IH]; intros c y H; [exact H|]. destruct H as (z & Hz & H). apply close0 in Hz. cbn [cmp_eval].
  rewrite Hz. apply IH. exact H.
Qed.
Lemma cmp_injective d specs : Forall (fun P => p_in P = d /\ p_out P = d) specs -> Forall injective specs ->
  Forall (fun P => forall c x, length c = p_nc P -> length x = d -> length (p_eval P c x) = d) specs ->
  forall c y y', length c = nsum p_nc specs -> length y = d -> length y' = d -> cmp_eval specs c y = cmp_eval specs c y' -> y = y'.
Proof.
  intros HS HI HL. induction specs as [|P l IH]; intros c y y' Hc Hy Hy' E; [exact E|].
  inversion HS as [|? ? [S1 S2] HS']; inversion HI as [|? ? I1 HI']; inversion HL as [|? ? L1 HL']; subst.
  cbn [nsum] in Hc. assert (Lf : length (firstn (p_nc P) c) = p_nc P) by (apply firstn_len; lia).
  apply (I1 (firstn (p_nc P) c) [] y y'); auto; try (cbn [length]; lia).
  cbn [app]. eapply IH; eauto. rewrite skipn_length. lia.
Qed.
