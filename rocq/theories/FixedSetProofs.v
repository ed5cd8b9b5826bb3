(** Proofs about FixedMultiIndexSet. *)
From Verif Require Import Base SpecMulti SpecCount MISetModel MultiIndexProofs MISetInv MISetOps MISetLimFill FixedSetModel.

(** ** Array-writing loops *)

Lemma raw_set_mid {A} (a r : list A) x y : raw_set (a ++ x :: r) (length a) y = Ok (a ++ y :: r).
Proof.
  rewrite raw_set_ok by (rewrite app_length; cbn; lia). f_equal.
  replace (length a) with (length a + 0) by lia. rewrite upd_app_r. reflexivity.
Qed.

Lemma raw_get_mid {A} (a r : list A) x : raw_get (a ++ x :: r) (length a) = Ok x.
Proof. unfold raw_get. rewrite nth_error_app2 by lia. rewrite Nat.sub_diag. reflexivity. Qed.

Lemma ofold_ext_in {A S} (f g : S -> A -> outcome S) l :
  (forall s a, In a l -> f s a = g s a) -> forall s, ofold f l s = ofold g l s.
Proof.
  induction l as [|a l IH]; intros H s; cbn [ofold]; auto. rewrite H by (left; auto).
  destruct (g s a); cbn [obind]; auto. apply IH. intros. apply H. right. auto.
Qed.

Lemma ofold_get2 {S} (F : S -> nat -> nat -> outcome S) B B' : forall X Y A A' s,
  length X = length Y -> length A = length A' ->
  ofold (fun s i => do k <- raw_get (A ++ X ++ B) i; do o <- raw_get (A' ++ Y ++ B') i; F s k o)
        (seq (length A) (length X)) s
  = ofold (fun s p => F s (fst p) (snd p)) (combine X Y) s.
Proof.
  induction X as [|x X IH]; intros [|y Y] A A' s HX HA; cbn [length] in *; try lia; auto.
  cbn [combine seq ofold app fst snd]. rewrite raw_get_mid. cbn [obind].
  rewrite HA, raw_get_mid. cbn [obind].
  destruct (F s x y) as [s'| | |]; cbn [obind]; auto. rewrite <- HA.
  specialize (IH Y (A ++ [x]) (A' ++ [y]) s'). rewrite !app_length in IH. cbn [length] in IH.
  rewrite <- !app_assoc in IH. cbn [app] in IH. rewrite Nat.add_1_r in IH. apply IH; lia.
Qed.

Lemma seqfill g m : forall n k (a : list nat), length a = k ->
  ofold (fun a i => raw_set a i (g i)) (seq k n) (a ++ repeat 0 (n + m)) =
  Ok (a ++ map g (seq k n) ++ repeat 0 m).
Proof.
  induction n as [|n IH]; intros k a Ha; cbn [seq ofold repeat Nat.add map app]; auto.
  subst k. rewrite raw_set_mid. cbn [obind]. specialize (IH (S (length a)) (a ++ [g (length a)])).
  rewrite <- !app_assoc in IH. cbn [app] in IH. apply IH. rewrite app_length. cbn. lia.
Qed.

(** ** Sparse form *)

Fixpoint nzf (off : nat) (w : vec) : list nat :=
  match w with [] => [] | x :: r => if x =? 0 then nzf (S off) r else off :: nzf (S off) r end.

Lemma nzinds_nzf v : nzinds v = nzf 0 v.
Proof.
  unfold nzinds. enough (H : forall w pre, filter (fun i => negb (nth i (pre ++ w) 0 =? 0)) (seq (length pre) (length w)) = nzf (length pre) w)
    by apply (H v []).
  induction w as [|x w IH]; intros pre; cbn [length seq filter nzf]; auto.
  rewrite app_nth2, Nat.sub_diag by lia. cbn [nth]. specialize (IH (pre ++ [x])).
  rewrite app_length, <- app_assoc in IH. cbn [length app] in IH. rewrite Nat.add_1_r in IH.
  destruct (x =? 0); cbn [negb]; [exact IH|f_equal; exact IH].
Qed.

Lemma nzvals_filter v : nzvals v = filter (fun x => negb (x =? 0)) v.
Proof.
  unfold nzvals. rewrite nzinds_nzf.
  enough (H : forall w pre, map (fun i => nth i (pre ++ w) 0) (nzf (length pre) w) = filter (fun x => negb (x =? 0)) w)
    by apply (H v []).
  induction w as [|x w IH]; intros pre; cbn [nzf filter map]; auto. specialize (IH (pre ++ [x])).
  rewrite app_length, <- app_assoc in IH. cbn [length app] in IH. rewrite Nat.add_1_r in IH.
  destruct (x =? 0); cbn [negb map]; [exact IH|]. rewrite app_nth2, Nat.sub_diag by lia. cbn [nth]. f_equal. exact IH.
Qed.

Lemma nzvals_length v : length (nzvals v) = vnnz v.
Proof. rewrite nzvals_filter. reflexivity. Qed.
Lemma nzinds_length v : length (nzinds v) = vnnz v.
Proof. rewrite <- nzvals_length. unfold nzvals. rewrite map_length. reflexivity. Qed.

Lemma nz_pairs v k o : In (k, o) (combine (nzinds v) (nzvals v)) <-> k < length v /\ nth k v 0 = o /\ o <> 0.
Proof.
  unfold nzvals. assert (H : forall l, In (k, o) (combine l (map (fun i => nth i v 0) l)) <-> In k l /\ nth k v 0 = o).
  { induction l as [|a l IH]; cbn [combine map In]; [tauto|]. rewrite IH. split.
    - intros [[= <- <-]|[H1 H2]]; auto.
    - intros [[<-|H1] H2]; [left; congruence|auto]. }
  rewrite H. unfold nzinds. rewrite filter_In, in_seq. destruct (Nat.eqb_spec (nth k v 0) 0); cbn [negb]; split; intuition (lia || congruence).
Qed.

(** ** The arrays of a compressed set *)

Fixpoint starts0 (c : nat) (vs : list vec) : list nat :=
  match vs with [] => [] | v :: r => c :: starts0 (c + vnnz v) r end.
Definition nnzs (vs : list vec) : nat := fold_right Nat.add 0 (map vnnz vs).

Lemma starts0_length vs : forall c, length (starts0 c vs) = length vs.
Proof. induction vs; intros c; cbn [starts0 length]; auto. Qed.

Lemma starts0_app vs ws : forall c, starts0 c (vs ++ ws) = starts0 c vs ++ starts0 (c + nnzs vs) ws.
Proof.
  induction vs as [|v vs IH]; intros c; cbn [starts0 app]. { unfold nnzs. cbn. rewrite Nat.add_0_r. auto. }
  rewrite IH. unfold nnzs. cbn [map fold_right]. do 3 f_equal. lia.
Qed.

Lemma nnzs_app a b : nnzs (a ++ b) = nnzs a + nnzs b.
Proof. unfold nnzs. rewrite map_app. induction a; cbn; auto. cbn in *. lia. Qed.

Lemma flat_inds_length vs : length (flat_map nzinds vs) = nnzs vs.
Proof. induction vs; cbn [flat_map]; auto. rewrite app_length, nzinds_length, IHvs. reflexivity. Qed.
Lemma flat_vals_length vs : length (flat_map nzvals vs) = nnzs vs.
Proof. induction vs; cbn [flat_map]; auto. rewrite app_length, nzvals_length, IHvs. reflexivity. Qed.

Definition packed (d : nat) (vs : list vec) (mx : list nat) : fset :=
  MkF d true (starts0 0 vs ++ [nnzs vs]) (flat_map nzinds vs) (flat_map nzvals vs) mx.

(** What one term of either filling loop does. *)
Definition emits (f : fill_state -> vec -> outcome fill_state) : Prop :=
  forall S0 x sr D O r v, length O = length D ->
  f (MkFS (S0 ++ x :: sr) (D ++ repeat 0 (vnnz v + r)) (O ++ repeat 0 (vnnz v + r)) (length S0) (length D)) v =
  Ok (MkFS (S0 ++ length D :: sr) (D ++ nzinds v ++ repeat 0 r) (O ++ nzvals v ++ repeat 0 r)
        (S (length S0)) (length D + vnnz v)).

Lemma fix_term_emits : emits fix_term.
Proof.
  intros S0 x sr D O r v HO. unfold fix_term. cbn [p_starts p_dims p_orders p_term p_nz].
  rewrite raw_set_mid. cbn [obind].
  enough (H : forall X Y P Q, length X = length Y -> length P = length Q ->
    ofold (fun (r : list nat * list nat) j =>
             do x <- raw_get (P ++ X) j; do y <- raw_get (Q ++ Y) j;
             do dm <- raw_set (fst r) (length D + j) x;
             do od <- raw_set (snd r) (length D + j) y; Ok (dm, od))
      (seq (length P) (length X)) (D ++ P ++ repeat 0 (length X + r), O ++ Q ++ repeat 0 (length X + r)) =
    Ok (D ++ P ++ X ++ repeat 0 r, O ++ Q ++ Y ++ repeat 0 r)).
  { specialize (H (nzinds v) (nzvals v) [] []). cbn [app] in H. change (@length nat []) with 0 in H. rewrite nzinds_length in *.
    rewrite H; auto. rewrite nzvals_length; auto. }
  induction X as [|a X IH]; intros [|b Y] P Q HX HP; cbn [length] in *; try lia; auto.
  cbn [seq ofold app Nat.add repeat fst snd]. rewrite raw_get_mid. cbn [obind].
  assert (Gy : raw_get (Q ++ b :: Y) (length P) = Ok b) by (rewrite HP; apply raw_get_mid). rewrite Gy. cbn [obind].
  rewrite !(app_assoc D), !(app_assoc O).
  replace (length D + length P) with (length (D ++ P)) by (rewrite app_length; auto).
  rewrite raw_set_mid. cbn [obind].
  replace (length (D ++ P)) with (length (O ++ Q)) by (rewrite !app_length; lia).
  rewrite raw_set_mid. cbn [obind].
  specialize (IH Y (P ++ [a]) (Q ++ [b])). rewrite app_length in IH. cbn [length] in IH. rewrite Nat.add_1_r in IH.
  rewrite <- !app_assoc in *. cbn [app] in *. rewrite IH; auto. rewrite !app_length. cbn. lia.
Qed.

Lemma total_leaf_emits : emits total_leaf.
Proof.
  intros S0 x sr D O r v HO. unfold total_leaf. cbn [p_starts p_dims p_orders p_term p_nz].
  rewrite raw_set_mid. cbn [obind].
  enough (H : forall w pre D O, length O = length D ->
    ofold (fun (q : list nat * list nat * nat) i =>
             let '(dm, od, nz) := q in
             do x <- raw_get (pre ++ w) i;
             if 0 <? x then
               do dm' <- raw_set dm nz i; do od' <- raw_set od nz x; Ok (dm', od', S nz)
             else Ok q)
      (seq (length pre) (length w)) (D ++ repeat 0 (vnnz w + r), O ++ repeat 0 (vnnz w + r), length D) =
    Ok (D ++ nzf (length pre) w ++ repeat 0 r, O ++ filter (fun x => negb (x =? 0)) w ++ repeat 0 r, length D + vnnz w)).
  { specialize (H v [] D O HO). cbn [app length] in H. rewrite H. cbn [obind].
    rewrite nzinds_nzf, nzvals_filter. reflexivity. }
  clear. induction w as [|a w IH]; intros pre D O HO; cbn [length seq ofold].
  - unfold vnnz. cbn. rewrite Nat.add_0_r. reflexivity.
  - rewrite raw_get_mid. cbn [obind].
    specialize (IH (pre ++ [a])). rewrite app_length in IH. cbn [length] in IH. rewrite Nat.add_1_r in IH.
    rewrite <- app_assoc in IH. cbn [app] in IH.
    unfold vnnz in *. cbn [filter nzf]. destruct (Nat.eqb_spec a 0) as [->|Ha]; cbn [negb].
    + cbn [Nat.ltb Nat.leb]. cbn [obind]. apply IH. auto.
    + destruct (Nat.ltb_spec 0 a); [|lia]. cbn [length Nat.add repeat].
      rewrite raw_set_mid. cbn [obind]. rewrite <- HO, raw_set_mid. cbn [obind]. rewrite HO.
      specialize (IH (D ++ [length pre]) (O ++ [a])). rewrite !app_length in IH. cbn [length] in IH.
      rewrite !Nat.add_1_r in IH. rewrite <- !app_assoc in IH. cbn [app] in *. rewrite IH by lia.
      do 2 f_equal. lia.
Qed.

Lemma emit_all f m r : emits f -> forall vs S0 D O, length O = length D ->
  ofold f vs (MkFS (S0 ++ repeat 0 (length vs + m)) (D ++ repeat 0 (nnzs vs + r)) (O ++ repeat 0 (nnzs vs + r))
                (length S0) (length D)) =
  Ok (MkFS (S0 ++ starts0 (length D) vs ++ repeat 0 m) (D ++ flat_map nzinds vs ++ repeat 0 r)
        (O ++ flat_map nzvals vs ++ repeat 0 r) (length S0 + length vs) (length D + nnzs vs)).
Proof.
  intros E. induction vs as [|v vs IH]; intros S0 D O HO; cbn [ofold].
  - unfold nnzs. cbn. rewrite !Nat.add_0_r. reflexivity.
  - unfold nnzs. cbn [map fold_right length Nat.add repeat]. fold (nnzs vs). rewrite <- Nat.add_assoc.
    rewrite E by auto. cbn [obind].
    specialize (IH (S0 ++ [length D]) (D ++ nzinds v) (O ++ nzvals v)). rewrite !app_length, nzinds_length, nzvals_length in IH.
    cbn [length] in IH. rewrite Nat.add_1_r in IH. rewrite <- !app_assoc in IH. cbn [app] in IH.
    replace (vnnz v + (nnzs vs + r)) with (vnnz v + (nnzs vs + r)) by auto.
    rewrite !repeat_app in IH. rewrite !repeat_app. rewrite IH by lia.
    cbn [starts0 flat_map]. rewrite <- !app_assoc. cbn [app]. do 2 f_equal; lia.
Qed.

(** ** MaxDegrees *)

Definition is_largest (k m : nat) (ps : list (nat * nat)) : Prop :=
  (forall o, In (k, o) ps -> o <= m) /\ (m = 0 \/ In (k, m) ps).

Lemma calc_max_spec d dims orders : length dims = length orders -> (forall k, In k dims -> k < d) ->
  exists mx, calc_max d dims orders = Ok mx /\ length mx = d /\
    forall k, k < d -> is_largest k (nth k mx 0) (combine dims orders).
Proof.
  intros Hl Hd. unfold calc_max. rewrite <- Hl.
  pose (F := fun mx k o => do m <- raw_get mx k; raw_set mx k (Nat.max m o)).
  change (ofold _ (seq 0 (length dims)) (repeat 0 d)) with
    (ofold (fun mx i => do k <- raw_get dims i; do o <- raw_get orders i; F mx k o) (seq 0 (length dims)) (repeat 0 d)).
  assert (H := ofold_get2 F [] [] dims orders [] [] (repeat 0 d) Hl eq_refl). rewrite !app_nil_r in H. cbn [app length] in H.
  rewrite H. clear H.
  assert (Hp : forall p, In p (combine dims orders) -> fst p < d).
  { intros [k o] Hp. apply in_combine_l in Hp. apply Hd; auto. }
  clear Hd Hl.
  enough (G : forall ps qs mx, length mx = d -> (forall p, In p ps -> fst p < d) -> (forall k, k < d -> is_largest k (nth k mx 0) qs) ->
    exists mx', ofold (fun s p => F s (fst p) (snd p)) ps mx = Ok mx' /\ length mx' = d /\
      forall k, k < d -> is_largest k (nth k mx' 0) (qs ++ ps)).
  { destruct (G (combine dims orders) [] (repeat 0 d)) as (mx' & H1 & H2 & H3); auto.
    - apply repeat_length.
    - intros k Hk. rewrite nth_repeat. split; [intros o []|auto].
    - exists mx'. auto. }
  clear. induction ps as [|[k o] ps IH]; intros qs mx Hm Hp Hq; cbn [ofold fst snd].
  - exists mx. rewrite app_nil_r. auto.
  - assert (Hk : k < d) by (apply (Hp (k, o)); left; auto). unfold F at 1.
    rewrite (raw_get_ok mx k 0) by lia. cbn [obind]. rewrite raw_set_ok by lia. cbn [obind].
    destruct (IH (qs ++ [(k, o)]) (upd mx k (Nat.max (nth k mx 0) o))) as (mx' & H1 & H2 & H3).
    + rewrite upd_length; auto.
    + intros p Hin. apply Hp. right. auto.
    + intros j Hj. destruct (Hq j Hj) as [A B]. destruct (Nat.eq_dec k j) as [->|Hn].
      * rewrite nth_upd_eq by lia. split.
        -- intros o' Ho. apply in_app_or in Ho. destruct Ho as [Ho|[[= ->]|[]]]; [specialize (A _ Ho); lia|lia].
        -- destruct (Nat.max_spec (nth j mx 0) o) as [[_ ->]|[_ ->]].
           ++ right. apply in_or_app. right. left. auto.
           ++ destruct B as [B|B]; [auto|right; apply in_or_app; auto].
      * rewrite nth_upd_neq by auto. split.
        -- intros o' Ho. apply in_app_or in Ho. destruct Ho as [Ho|[[= -> _]|[]]]; [auto|congruence].
        -- destruct B as [B|B]; [auto|right; apply in_or_app; auto].
    + exists mx'. split; auto. split; auto. intros j Hj. specialize (H3 j Hj). rewrite <- app_assoc in H3. exact H3.
Qed.

Lemma combine_app {A B} (a a' : list A) (b b' : list B) : length a = length b ->
  combine (a ++ a') (b ++ b') = combine a b ++ combine a' b'.
Proof. revert b; induction a; intros [|y b] H; cbn in *; try lia; auto. f_equal. apply IHa. lia. Qed.

Lemma packed_pairs vs : combine (flat_map nzinds vs) (flat_map nzvals vs) =
  flat_map (fun v => combine (nzinds v) (nzvals v)) vs.
Proof.
  induction vs; cbn [flat_map]; auto. rewrite combine_app by (rewrite nzinds_length, nzvals_length; auto). congruence.
Qed.

(** [m] is the largest [k]-th entry in [vs]. *)
Definition vlargest (vs : list vec) (k m : nat) : Prop :=
  (forall v, In v vs -> nth k v 0 <= m) /\ (m = 0 \/ exists v, In v vs /\ nth k v 0 = m).

Lemma nzinds_lt v k : In k (nzinds v) -> k < length v.
Proof. unfold nzinds. rewrite filter_In, in_seq. lia. Qed.

Lemma make_compressed_packed d (vs : list vec) : (forall v, In v vs -> length v = d) ->
  exists mx, f_make_compressed d (starts0 0 vs ++ [nnzs vs]) (flat_map nzinds vs) (flat_map nzvals vs) = Ok (packed d vs mx) /\
    length mx = d /\ forall k, k < d -> vlargest vs k (nth k mx 0).
Proof.
  intros Hv. destruct (calc_max_spec d (flat_map nzinds vs) (flat_map nzvals vs)) as (mx & H1 & H2 & H3).
  - rewrite flat_inds_length, flat_vals_length; auto.
  - intros k Hk. apply in_flat_map in Hk. destruct Hk as (v & Hin & Hk). apply nzinds_lt in Hk. rewrite Hv in Hk; auto.
  - exists mx. unfold f_make_compressed. rewrite H1. cbn [obind]. split; auto. split; auto.
    intros k Hk. specialize (H3 k Hk). rewrite packed_pairs in H3. destruct H3 as [A B]. split.
    + intros v Hin. destruct (Nat.eq_dec (nth k v 0) 0); [lia|]. apply A. apply in_flat_map. exists v. split; auto.
      apply nz_pairs. rewrite (Hv v Hin). auto.
    + destruct B as [B|B]; auto. apply in_flat_map in B. destruct B as (v & Hin & B). apply nz_pairs in B.
      right. exists v. tauto.
Qed.

(** ** Reading a compressed set *)

Lemma packed_size d (vs : list vec) mx : f_Size (packed d vs mx) = length vs.
Proof. unfold f_Size, packed. cbn. rewrite app_length, starts0_length. cbn. lia. Qed.

Lemma packed_split d (vs : list vec) mx i v : nth_error vs i = Some v ->
  exists a A A' B B', raw_get (fstarts (packed d vs mx)) i = Ok a /\
    raw_get (fstarts (packed d vs mx)) (i + 1) = Ok (a + vnnz v) /\
    fdims (packed d vs mx) = A ++ nzinds v ++ B /\ forders (packed d vs mx) = A' ++ nzvals v ++ B' /\
    length A = a /\ length A' = a.
Proof.
  intros H. apply nth_error_split in H. destruct H as (l1 & l2 & -> & Hi).
  exists (nnzs l1), (flat_map nzinds l1), (flat_map nzvals l1), (flat_map nzinds l2), (flat_map nzvals l2).
  cbn [packed fstarts fdims forders]. rewrite !flat_map_app. cbn [flat_map]. rewrite flat_inds_length, flat_vals_length.
  rewrite starts0_app. cbn [starts0 Nat.add].
  assert (HL : length (starts0 0 l1) = i) by (rewrite starts0_length; auto).
  split; [|split; [|tauto]].
  - rewrite <- app_assoc. cbn [app]. rewrite <- HL. apply raw_get_mid.
  - rewrite <- app_assoc. cbn [app].
    replace (starts0 0 l1 ++ nnzs l1 :: starts0 (nnzs l1 + vnnz v) l2 ++ [nnzs (l1 ++ v :: l2)])
      with ((starts0 0 l1 ++ [nnzs l1]) ++ starts0 (nnzs l1 + vnnz v) l2 ++ [nnzs (l1 ++ v :: l2)])
      by (rewrite <- app_assoc; reflexivity).
    replace (i + 1) with (length (starts0 0 l1 ++ [nnzs l1])) by (rewrite app_length; cbn; lia).
    destruct l2 as [|w l2]; cbn [starts0 app].
    + rewrite raw_get_mid. rewrite nnzs_app. unfold nnzs at 2. cbn. f_equal. lia.
    + apply raw_get_mid.
Qed.

Lemma at_set_mid {A} (a r : list A) x y : at_set (a ++ x :: r) (length a) y = Ok (a ++ y :: r).
Proof.
  unfold at_set. destruct (Nat.ltb_spec (length a) (length (a ++ x :: r))) as [H|H];
    [|rewrite app_length in H; cbn in H; lia]. f_equal.
  replace (length a) with (length a + 0) by lia. rewrite upd_app_r. reflexivity.
Qed.

Lemma scatter v : ofold (fun out p => at_set out (fst p) (snd p)) (combine (nzinds v) (nzvals v)) (repeat 0 (length v)) = Ok v.
Proof.
  rewrite nzinds_nzf, nzvals_filter.
  enough (H : forall w pre, ofold (fun out p => at_set out (fst p) (snd p))
     (combine (nzf (length pre) w) (filter (fun x => negb (x =? 0)) w)) (pre ++ repeat 0 (length w)) = Ok (pre ++ w))
    by apply (H v []).
  induction w as [|x w IH]; intros pre; cbn [nzf filter combine ofold length repeat]; auto.
  specialize (IH (pre ++ [x])). rewrite app_length in IH. cbn [length] in IH. rewrite Nat.add_1_r, <- !app_assoc in IH. cbn [app] in IH.
  destruct (Nat.eqb_spec x 0) as [->|Hx]; cbn [negb combine ofold fst snd]; auto.
  rewrite at_set_mid. cbn [obind]. exact IH.
Qed.

Lemma packed_index d (vs : list vec) mx i v : nth_error vs i = Some v -> length v = d ->
  f_IndexToMulti (packed d vs mx) i = Ok v.
Proof.
  intros H Hl. destruct (packed_split d vs mx i v H) as (a & A & A' & B & B' & H1 & H2 & H3 & H4 & H5 & H6).
  unfold f_IndexToMulti. cbn [fcomp packed]. fold (packed d vs mx). rewrite H1, H2. cbn [obind].
  change (fdim (MkF d true _ _ _ _)) with d. 
  change (MkF d true (starts0 0 vs ++ [nnzs vs]) (flat_map nzinds vs) (flat_map nzvals vs) mx) with (packed d vs mx) in *.
  rewrite H3, H4. replace (a + vnnz v - a) with (length (nzinds v)) by (rewrite nzinds_length; lia).
  rewrite <- H5 at 1. rewrite ofold_get2 by (rewrite ?nzinds_length, ?nzvals_length; lia).
  rewrite <- Hl. apply scatter.
Qed.

Lemma oforall_get2 (t : nat -> nat -> outcome bool) (u : nat -> nat -> bool) B B' : forall X Y A A',
  length X = length Y -> length A = length A' -> (forall x y, In x X -> t x y = Ok (u x y)) ->
  oforall (fun j => do o <- raw_get (A' ++ Y ++ B') j; do k <- raw_get (A ++ X ++ B) j; t k o)
     (seq (length A) (length X)) = Ok (forallb (fun p => u (fst p) (snd p)) (combine X Y)).
Proof.
  induction X as [|x X IH]; intros [|y Y] A A' HX HA Ht; cbn [length] in *; try lia; auto.
  cbn [seq oforall combine forallb app fst snd]. rewrite raw_get_mid. rewrite HA, raw_get_mid. cbn [obind].
  rewrite Ht by (left; auto). cbn [obind]. destruct (u x y); cbn [andb]; auto. rewrite <- HA.
  specialize (IH Y (A ++ [x]) (A' ++ [y])). rewrite app_length in IH. cbn [length] in IH. rewrite Nat.add_1_r in IH.
  rewrite <- !app_assoc in IH. cbn [app] in IH. apply IH; auto. rewrite !app_length. cbn. lia.
  intros; apply Ht; right; auto.
Qed.

Lemma nnz_agree : forall v w, length v = length w -> (forall k, nth k v 0 <> 0 -> nth k w 0 = nth k v 0) ->
  vnnz v <= vnnz w /\ (vnnz v = vnnz w -> v = w).
Proof.
  unfold vnnz. induction v as [|x v IH]; intros [|y w] Hl H; cbn [length] in *; try lia; auto.
  destruct (IH w) as [A B]; [lia|intros k; apply (H (S k))|]. specialize (H 0). cbn [nth] in H. cbn [filter].
  destruct (Nat.eqb_spec x 0) as [->|Hx], (Nat.eqb_spec y 0) as [->|Hy]; cbn [negb length]; split; try lia; intros; try lia.
  - f_equal. apply B. lia.
  - rewrite H by auto. f_equal. apply B. lia.
Qed.

Definition first_index (vs : list vec) (v : vec) (i : nat) : Prop :=
  nth_error vs i = Some v /\ forall j, j < i -> nth_error vs j <> Some v.

Lemma ofind_spec (t : nat -> outcome bool) vs w : (forall i v, nth_error vs i = Some v -> t i = Ok (vec_eqb v w)) ->
  forall n k, k + n = length vs -> (forall j, j < k -> nth_error vs j <> Some w) -> forall tail,
  (exists i, first_index vs w i /\ ofind t (seq k n ++ tail) = Ok (Some i)) \/
  (~ In w vs /\ ofind t (seq k n ++ tail) = ofind t tail).
Proof.
  intros Ht. induction n as [|n IH]; intros k Hk Hj tail; cbn [seq app ofind].
  - right. split; auto. intros Hin. apply In_nth_error in Hin. destruct Hin as [j Hin].
    assert (j < length vs) by (apply nth_error_Some; congruence). apply (Hj j); auto. lia.
  - destruct (nth_error vs k) as [v|] eqn:E; [|apply nth_error_None in E; lia].
    rewrite (Ht k v E). cbn [obind]. destruct (vec_eqb v w) eqn:Ev.
    + apply vec_eqb_iff in Ev. subst v. left. exists k. split; [split; auto|auto].
    + apply IH; [lia|]. intros j Hjk. destruct (Nat.eq_dec j k) as [->|]; [|apply Hj; lia].
      rewrite E. intros [= ->]. assert (vec_eqb w w = true) by (apply vec_eqb_iff; auto). congruence.
Qed.

Lemma packed_search d (vs : list vec) mx w : (forall v, In v vs -> length v = d) -> length w = d ->
  (exists i, first_index vs w i /\ f_MultiToIndex (packed d vs mx) w = Ok (Some i)) \/
  (~ In w vs /\ f_MultiToIndex (packed d vs mx) w = UB).
Proof.
  intros Hv Hw. unfold f_MultiToIndex. cbn [fcomp packed]. cbv zeta.
  change (MkF d true (starts0 0 vs ++ [nnzs vs]) (flat_map nzinds vs) (flat_map nzvals vs) mx) with (packed d vs mx).
  match goal with |- context [ofind ?t _] => set (T := t) end.
  assert (HL : length (fstarts (packed d vs mx)) = length vs + 1) by (cbn; rewrite app_length, starts0_length; auto).
  rewrite HL, seq_app.
  assert (HT : forall i v, nth_error vs i = Some v -> T i = Ok (vec_eqb v w)).
  { intros i v Hi. unfold T. destruct (packed_split d vs mx i v Hi) as (a & A & A' & B & B' & G1 & G2 & G3 & G4 & G5 & G6).
    rewrite G1, G2. cbn [obind]. assert (Hvl : length v = d) by (apply Hv; eapply nth_error_In; eauto).
    replace (a + vnnz v - a) with (vnnz v) by lia.
    destruct (Nat.eqb_spec (vnnz v) (vnnz w)) as [En|En].
    + rewrite G3, G4. rewrite <- G5, <- (nzinds_length v).
      rewrite (oforall_get2 (fun k o => do m <- at_ w k; Ok (o =? m)) (fun k o => o =? nth k w 0)).
      2:{ rewrite nzinds_length, nzvals_length; auto. }
      2:{ lia. }
      2:{ intros x y Hx. apply nzinds_lt in Hx. rewrite (at_nth w x 0) by lia. reflexivity. }
      f_equal. destruct (vec_eqb v w) eqn:Ev.
      * apply vec_eqb_iff in Ev. subst w. apply forallb_forall. intros [k o] Hp. apply nz_pairs in Hp.
        cbn [fst snd]. apply Nat.eqb_eq. lia.
      * apply not_true_is_false. intros Hf. rewrite forallb_forall in Hf.
        assert (v = w); [|subst; assert (vec_eqb w w = true) by (apply vec_eqb_iff; auto); congruence].
        apply nnz_agree; auto; [congruence|]. intros k Hk.
        destruct (Nat.lt_ge_cases k (length v)) as [Hlt|Hge]; [|rewrite nth_overflow in Hk; lia].
        specialize (Hf (k, nth k v 0)). cbn [fst snd] in Hf. symmetry. apply Nat.eqb_eq. apply Hf.
        apply nz_pairs. auto.
    + f_equal. symmetry. apply not_true_is_false. intros Ev. apply vec_eqb_iff in Ev. congruence. }
  destruct (ofind_spec T vs w HT (length vs) 0 eq_refl ltac:(intros; lia) (seq (0 + length vs) 1)) as [(i & H1 & H2)|[H1 H2]].
  - left. exists i. auto.
  - right. split; auto. rewrite H2. cbn [seq ofind Nat.add]. unfold T. unfold raw_get at 1.
    rewrite (proj2 (nth_error_None _ _)); auto. rewrite HL. lia.
Qed.

Lemma packed_index_oob d (vs : list vec) mx i : length vs <= i -> f_IndexToMulti (packed d vs mx) i = UB.
Proof.
  intros H. unfold f_IndexToMulti. cbn [fcomp packed fstarts].
  assert (HL : length (starts0 0 vs ++ [nnzs vs]) = length vs + 1) by (rewrite app_length, starts0_length; auto).
  unfold raw_get at 1. destruct (nth_error (starts0 0 vs ++ [nnzs vs]) i); cbn [obind]; auto.
  unfold raw_get at 1. rewrite (proj2 (nth_error_None _ _)); auto. lia.
Qed.

(** ** Fix(true) *)

Lemma omap_actives s : base s -> omap (at_ (all s)) (a2g s) = Ok (actives s).
Proof.
  intros B. unfold actives. apply omap_ok. intros g Hg. apply at_nth. apply a2g_lt; auto.
Qed.

Lemma Fix_compressed s : base s -> (forall v, In v (actives s) -> length v = dim s) ->
  exists mx, ms_Fix true s = Ok (packed (dim s) (actives s) mx) /\ length mx = dim s /\
    forall k, k < dim s -> vlargest (actives s) k (nth k mx 0).
Proof.
  intros B Hv. unfold ms_Fix. rewrite omap_actives by auto. cbn [obind]. cbv zeta. fold (nnzs (actives s)).
  assert (H := emit_all fix_term 1 0 fix_term_emits (actives s) [] [] [] eq_refl). cbn [app] in H.
  change (@length nat []) with 0 in H. rewrite !Nat.add_0_r in H. rewrite <- actives_length. rewrite H. cbn [obind].
  cbn [p_starts p_dims p_orders Nat.add repeat]. rewrite !app_nil_r.
  assert (R : raw_set (starts0 0 (actives s) ++ [0]) (length (actives s)) (nnzs (actives s)) = Ok (starts0 0 (actives s) ++ [nnzs (actives s)]))
    by (rewrite <- (starts0_length (actives s) 0) at 1; apply raw_set_mid).
  rewrite R. cbn [obind].
  apply make_compressed_packed. auto.
Qed.

(** ** Dense sets *)

Definition densed (d : nat) (vs : list vec) (mx : list nat) : fset :=
  MkF d false (map (fun i => i * d) (seq 0 (length vs)) ++ [0])
      (map (fun i => i mod d) (seq 0 (d * length vs))) (concat vs) mx.

Lemma concat_length d (vs : list vec) : (forall v, In v vs -> length v = d) -> length (concat vs) = d * length vs.
Proof.
  induction vs as [|v vs IH]; intros H; cbn [concat length]; [lia|].
  rewrite app_length, (H v) by (left; auto). rewrite IH by (intros; apply H; right; auto). lia.
Qed.

Lemma concat_nth d (vs : list vec) i v k : (forall v, In v vs -> length v = d) -> nth_error vs i = Some v -> k < d ->
  nth (k + i * d) (concat vs) 0 = nth k v 0.
Proof.
  intros H Hi Hk. apply nth_error_split in Hi. destruct Hi as (l1 & l2 & -> & Hi).
  rewrite concat_app, app_nth2; rewrite (concat_length d) by (intros; apply H; apply in_or_app; auto); [|nia].
  rewrite Hi. replace (k + i * d - d * i) with k by nia. cbn [concat]. rewrite app_nth1; auto.
  rewrite H; auto. apply in_or_app. right. left. auto.
Qed.

Lemma dense_pairs d (vs : list vec) k o : 0 < d -> (forall v, In v vs -> length v = d) ->
  k < d -> In (k, o) (combine (map (fun i => i mod d) (seq 0 (d * length vs))) (concat vs)) <->
    exists v, In v vs /\ nth k v 0 = o.
Proof.
  intros Hd Hv Hk. assert (HC := concat_length d vs Hv).
  assert (HL : length (combine (map (fun i => i mod d) (seq 0 (d * length vs))) (concat vs)) = d * length vs)
    by (rewrite combine_length, map_length, seq_length, HC; lia).
  assert (HN : forall j, j < d * length vs -> nth j (combine (map (fun i => i mod d) (seq 0 (d * length vs))) (concat vs)) (0,0)
     = (j mod d, nth j (concat vs) 0)).
  { intros j Hj. rewrite combine_nth by (rewrite map_length, seq_length, HC; auto). f_equal.
    rewrite (nth_indep _ 0 (0 mod d)) by (rewrite map_length, seq_length; auto).
    rewrite (map_nth (fun i => i mod d)), seq_nth by auto. reflexivity. }
  split.
  - intros Hin. apply (In_nth _ _ (0,0)) in Hin. destruct Hin as (j & Hj & E). rewrite HL in Hj. rewrite HN in E by auto.
    injection E as E1 E2. assert (Hdm := Nat.div_mod j d). 
    assert (Hq : j / d < length vs) by (apply Nat.div_lt_upper_bound; lia).
    exists (nth (j / d) vs []). split; [apply nth_In; auto|].
    rewrite <- (concat_nth d vs (j / d) (nth (j / d) vs []) k); auto.
    + rewrite <- E2. f_equal. rewrite <- E1. nia.
    + apply nth_error_nth'. auto.
  - intros (v & Hin & E). apply In_nth_error in Hin. destruct Hin as [i Hi].
    assert (Hlt : i < length vs) by (apply nth_error_Some; congruence).
    assert (Hj : k + i * d < d * length vs) by nia.
    replace (k, o) with (nth (k + i * d) (combine (map (fun i => i mod d) (seq 0 (d * length vs))) (concat vs)) (0,0)).
    + apply nth_In. rewrite HL. auto.
    + rewrite HN by auto. rewrite Nat.mod_add, Nat.mod_small by lia. f_equal. rewrite (concat_nth d vs i v k); auto.
Qed.

Lemma make_dense_densed d (vs : list vec) : 0 < d -> (forall v, In v vs -> length v = d) ->
  exists mx, f_make_dense d (concat vs) = Ok (densed d vs mx) /\
    length mx = d /\ forall k, k < d -> vlargest vs k (nth k mx 0).
Proof.
  intros Hd Hv. unfold f_make_dense. destruct (Nat.eqb_spec d 0); [lia|]. cbv zeta.
  rewrite (concat_length d vs Hv). rewrite (Nat.mul_comm d (length vs)), Nat.div_mul by auto.
  rewrite (seqfill (fun i => i * d) 1 (length vs) 0 [] eq_refl : ofold _ _ (repeat 0 _) = _). cbn [obind app repeat].
  rewrite (Nat.mul_comm d (length vs)).
  assert (H := seqfill (fun i => i mod d) 0 (length vs * d) 0 [] eq_refl). cbn [app] in H. rewrite !Nat.add_0_r in H.
  rewrite H. clear H. cbn [obind repeat]. rewrite app_nil_r.
  destruct (calc_max_spec d (map (fun i => i mod d) (seq 0 (length vs * d))) (concat vs)) as (mx & H1 & H2 & H3).
  - rewrite map_length, seq_length, (concat_length d vs Hv). lia.
  - intros k Hk. apply in_map_iff in Hk. destruct Hk as (j & <- & _). apply Nat.mod_upper_bound. auto.
  - exists mx. rewrite H1. cbn [obind]. unfold densed. rewrite (Nat.mul_comm d). split; auto. split; auto.
    intros k Hk. destruct (H3 k Hk) as [A B]. rewrite (Nat.mul_comm _ d) in A, B. split.
    + intros v Hin. apply A. apply dense_pairs; auto. eauto.
    + destruct B as [B|B]; auto. apply dense_pairs in B; auto.
Qed.

Lemma densed_size d (vs : list vec) mx : 0 < d -> (forall v, In v vs -> length v = d) -> f_Size (densed d vs mx) = length vs.
Proof.
  intros Hd Hv. unfold f_Size, densed. cbn [fcomp forders fdim]. rewrite (concat_length d) by auto.
  rewrite Nat.mul_comm, Nat.div_mul by lia. auto.
Qed.

Lemma densed_index d (vs : list vec) mx i v : (forall v, In v vs -> length v = d) -> nth_error vs i = Some v ->
  f_IndexToMulti (densed d vs mx) i = Ok v.
Proof.
  intros Hv Hi. unfold f_IndexToMulti. cbn [fcomp densed forders fdim].
  assert (Hl : length v = d) by (apply Hv; eapply nth_error_In; eauto).
  assert (Hlt : i < length vs) by (apply nth_error_Some; congruence).
  assert (HC := concat_length d vs Hv).
  rewrite (ofold_ext_in _ (fun out k => at_set out k (nth k v 0))).
  2:{ intros s k Hk. apply in_seq in Hk. assert (d * i + d <= d * length vs) by nia.
      rewrite (raw_get_ok _ _ 0) by (rewrite HC; lia). cbn [obind].
      rewrite (Nat.mul_comm d i), (concat_nth d vs i v); auto. lia. }
  clear Hi. subst d.
  enough (H : forall w pre, ofold (fun out k => at_set out k (nth k (pre ++ w) 0)) (seq (length pre) (length w)) (pre ++ repeat 0 (length w)) = Ok (pre ++ w))
    by apply (H v []).
  clear. induction w as [|x w IH]; intros pre; cbn [length seq ofold repeat]; auto.
  rewrite at_set_mid. cbn [obind]. rewrite app_nth2, Nat.sub_diag by lia. cbn [nth].
  specialize (IH (pre ++ [x])). rewrite app_length in IH. cbn [length] in IH. rewrite Nat.add_1_r, <- !app_assoc in IH. exact IH.
Qed.

Lemma densed_index_oob d (vs : list vec) mx i : 0 < d -> (forall v, In v vs -> length v = d) -> length vs <= i ->
  f_IndexToMulti (densed d vs mx) i = UB.
Proof.
  intros Hd Hv Hi. unfold f_IndexToMulti. cbn [fcomp densed forders fdim].
  destruct d as [|d]; [lia|]. cbn [seq ofold Nat.add]. unfold raw_get. rewrite (proj2 (nth_error_None _ _)); auto.
  rewrite (concat_length (S d)) by auto. nia.
Qed.

Lemma oforall_ok {A} (t : A -> outcome bool) u l : (forall x, In x l -> t x = Ok (u x)) -> oforall t l = Ok (forallb u l).
Proof.
  induction l as [|x l IH]; intros H; cbn [oforall forallb]; auto. rewrite H by (left; auto). cbn [obind].
  destruct (u x); cbn [andb]; auto. apply IH. intros; apply H; right; auto.
Qed.

Lemma densed_search d (vs : list vec) mx w : 0 < d -> (forall v, In v vs -> length v = d) -> length w = d ->
  (exists i, first_index vs w i /\ f_MultiToIndex (densed d vs mx) w = Ok (Some i)) \/
  (~ In w vs /\ f_MultiToIndex (densed d vs mx) w = Ok None).
Proof.
  intros Hd Hv Hw. unfold f_MultiToIndex. rewrite densed_size by auto. cbn [fcomp densed forders fdim].
  match goal with |- context [ofind ?t _] => set (T := t) end.
  assert (HT : forall i v, nth_error vs i = Some v -> T i = Ok (vec_eqb v w)).
  { intros i v Hi. unfold T. assert (Hvl : length v = d) by (apply Hv; eapply nth_error_In; eauto).
    assert (Hlt : i < length vs) by (apply nth_error_Some; congruence). assert (HC := concat_length d vs Hv).
    rewrite (oforall_ok _ (fun k => nth k w 0 =? nth k v 0)).
    2:{ intros k Hk. apply in_seq in Hk. rewrite (at_nth w k 0) by lia. cbn [obind]. assert (i * d + d <= d * length vs) by nia. rewrite (raw_get_ok _ _ 0) by (rewrite HC; lia).
        cbn [obind]. rewrite (concat_nth d vs i v) by (auto; lia). reflexivity. }
    f_equal. destruct (vec_eqb v w) eqn:E.
    + apply vec_eqb_iff in E. subst. apply forallb_forall. intros. apply Nat.eqb_refl.
    + apply not_true_is_false. intros Hf. rewrite forallb_forall in Hf.
      assert (v = w); [|subst v; assert (vec_eqb w w = true) by (apply vec_eqb_iff; auto); congruence].
      apply (nth_ext_eq _ _ 0); [congruence|]. intros k Hk. symmetry. apply Nat.eqb_eq. apply Hf. apply in_seq. lia. }
  destruct (ofind_spec T vs w HT (length vs) 0 eq_refl ltac:(intros; lia) []) as [(i & H1 & H2)|[H1 H2]].
  - left. exists i. rewrite app_nil_r in H2. auto.
  - right. rewrite app_nil_r in H2. split; auto.
Qed.

Lemma fix_row d (v : vec) r : length v = d -> forall O i, length O = i * d ->
  ofold (fun o k => do x <- at_ v k; raw_set o (k + i * d) x) (seq 0 d) (O ++ repeat 0 (d + r)) = Ok (O ++ v ++ repeat 0 r).
Proof.
  intros Hl O i HO.
  enough (H : forall w pre, v = pre ++ w -> ofold (fun o k => do x <- at_ v k; raw_set o (k + i * d) x) (seq (length pre) (length w))
     (O ++ pre ++ repeat 0 (length w + r)) = Ok (O ++ pre ++ w ++ repeat 0 r)).
  { specialize (H v [] eq_refl). rewrite Hl in H. exact H. }
  induction w as [|x w IH]; intros pre E; cbn [length seq ofold repeat Nat.add app]; auto.
  rewrite (at_nth v _ 0) by (subst v; rewrite app_length; cbn; lia). cbn [obind]. rewrite E at 1. rewrite app_nth2, Nat.sub_diag by lia.
  cbn [nth]. rewrite app_assoc. replace (length pre + i * d) with (length (O ++ pre)) by (rewrite app_length; lia).
  rewrite raw_set_mid. cbn [obind]. specialize (IH (pre ++ [x])). rewrite app_length in IH. cbn [length] in IH.
  rewrite Nat.add_1_r in IH. rewrite <- !app_assoc in *. apply IH. subst v. reflexivity.
Qed.

Lemma Fix_dense s : base s -> 0 < dim s -> (forall v, In v (actives s) -> length v = dim s) ->
  exists mx, ms_Fix false s = Ok (densed (dim s) (actives s) mx) /\ length mx = dim s /\
    forall k, k < dim s -> vlargest (actives s) k (nth k mx 0).
Proof.
  intros B Hd Hv. unfold ms_Fix.
  enough (H : forall ws pre, actives s = pre ++ ws ->
    ofold (fun o i => do v <- ms_IndexToMulti s i;
        ofold (fun o d => do x <- at_ v d; raw_set o (d + i * dim s) x) (seq 0 (dim s)) o)
      (seq (length pre) (length ws)) (concat pre ++ repeat 0 (dim s * length ws)) = Ok (concat (pre ++ ws))).
  { specialize (H (actives s) [] eq_refl). rewrite <- actives_length. cbn [concat app length] in H. rewrite H. cbn [obind].
    apply make_dense_densed; auto. }
  induction ws as [|w ws IH]; intros pre E; cbn [length seq ofold].
  - rewrite Nat.mul_0_r, !app_nil_r. auto.
  - rewrite IndexToMulti_spec by auto. rewrite E, nth_error_app2, Nat.sub_diag by lia. cbn [nth_error obind].
    rewrite Nat.mul_succ_r, Nat.add_comm.
    rewrite fix_row.
    + cbn [obind]. specialize (IH (pre ++ [w])). rewrite app_length in IH. cbn [length] in IH. rewrite Nat.add_1_r in IH.
      rewrite concat_app in IH. cbn [concat] in IH. rewrite app_nil_r in IH. rewrite <- !app_assoc in IH. apply IH. exact E.
    + apply Hv. rewrite E. apply in_or_app. right. left. auto.
    + rewrite (concat_length (dim s)); [lia|]. intros v Hin. apply Hv. rewrite E. apply in_or_app. auto.
Qed.

(** ** The total-order constructor *)

Lemma total_fill_enum p k : forall pre m q, vsum pre + m = p ->
  total_fill k m pre q = ofold total_leaf (enum_total p k pre) q.
Proof.
  induction k as [|k IH]; intros pre m q Hm; cbn [total_fill enum_total].
  - replace (p - vsum pre) with m by lia. rewrite ofold_map. reflexivity.
  - replace (p - vsum pre) with m by lia. rewrite <- (ofold_flat_map total_leaf (fun s i => ofold total_leaf (enum_total p k (pre ++ [i])) s)) by auto. apply ofold_ext_in. intros s i Hi. apply in_seq in Hi.
    apply IH. rewrite vsum_app, vsum_cons, vsum_nil. lia.
Qed.

Lemma vnnz_app a b : vnnz (a ++ b) = vnnz a + vnnz b.
Proof. unfold vnnz. rewrite filter_app, app_length. auto. Qed.

Lemma nnzs_flat_map {A} (f : A -> list vec) l : nnzs (flat_map f l) = fold_right (fun a n => nnzs (f a) + n) 0 l.
Proof. induction l; cbn [flat_map fold_right]; auto. rewrite nnzs_app. lia. Qed.

(** The counting recursion agrees with the enumeration below any prefix. *)
Lemma total_size_enum p k : forall pre m, vsum pre + m = p ->
  length (enum_total p k pre) = fst (total_size k m) /\
  nnzs (enum_total p k pre) = snd (total_size k m) + vnnz pre * fst (total_size k m).
Proof.
  induction k as [|k IH]; intros pre m Hm; cbn [total_size enum_total fst snd].
  - replace (p - vsum pre) with m by lia. split; [rewrite map_length, seq_length; lia|].
    clear Hm. rewrite <- (Nat.add_1_r m).
    assert (G : forall a n, nnzs (map (fun i => pre ++ [i]) (seq (S a) n)) = n + vnnz pre * n).
    { intros a n; revert a; induction n as [|n IHn]; intros a; cbn [seq map]. { unfold nnzs; cbn; lia. }
      unfold nnzs in *. cbn [map fold_right]. rewrite IHn, vnnz_app. unfold vnnz at 2. cbn. lia. }
    rewrite Nat.add_1_r. cbn [seq map]. unfold nnzs in *. cbn [map fold_right]. rewrite G, vnnz_app. unfold vnnz at 2. cbn. lia.
  - replace (p - vsum pre) with m by lia.
    assert (G : forall l acc, (forall i, In i l -> i <= m) ->
      let r := fold_left (fun (acc : nat * nat) pow => let '(t, z) := total_size k (m - pow) in
              (fst acc + t, snd acc + (z + (if 0 <? pow then t else 0)))) l acc in
      fst acc + length (flat_map (fun i => enum_total p k (pre ++ [i])) l) = fst r /\
      snd acc + nnzs (flat_map (fun i => enum_total p k (pre ++ [i])) l) + vnnz pre * fst acc = snd r + vnnz pre * fst r).
    { induction l as [|i l IHl]; intros acc Hl; cbn [fold_left flat_map]; cbv zeta.
      - unfold nnzs. cbn. lia.
      - assert (Hi : i <= m) by (apply Hl; left; auto).
        destruct (IH (pre ++ [i]) (m - i)) as [E1 E2]; [rewrite vsum_app, vsum_cons, vsum_nil; lia|].
        rewrite app_length, nnzs_app, E1, E2.
        destruct (total_size k (m - i)) as [t z] eqn:E. cbn [fst snd].
        destruct (IHl (fst acc + t, snd acc + (z + (if 0 <? i then t else 0)))) as [G1 G2]; [intros; apply Hl; right; auto|].
        cbn [fst snd] in G1, G2. split; [rewrite <- G1; lia|]. rewrite <- G2. rewrite vnnz_app.
        unfold vnnz at 2. cbn [filter]. destruct i; cbn [Nat.eqb negb length]; [change (0 <? 0) with false | change (0 <? S i) with true]; cbv iota; nia. }
    destruct (G (seq 0 (S m)) (0, 0)) as [G1 G2]; [intros i Hi; apply in_seq in Hi; lia|]. cbn [fst snd Nat.add] in G1, G2.
    split; [exact G1|]. rewrite <- G2. lia.
Qed.

Lemma total_order_packed d p : 0 < d ->
  exists mx, f_total_order d p = Ok (packed d (enum_total p (d - 1) []) mx) /\ length mx = d /\
    forall k, k < d -> vlargest (enum_total p (d - 1) []) k (nth k mx 0).
Proof.
  intros Hd. destruct d as [|k]; [lia|]. replace (S k - 1) with k by lia. cbn [f_total_order].
  destruct (total_size_enum p k [] p) as [E1 E2]; [rewrite vsum_nil; lia|]. unfold vnnz in E2. cbn [filter length] in E2.
  rewrite Nat.mul_0_l, Nat.add_0_r in E2.
  destruct (total_size k p) as [terms nz]. cbn [fst snd] in *. subst terms nz.
  rewrite (total_fill_enum p k [] p) by (rewrite vsum_nil; lia).
  assert (H := emit_all total_leaf 1 0 total_leaf_emits (enum_total p k []) [] [] [] eq_refl). cbn [app] in H.
  change (@length nat []) with 0 in H. rewrite !Nat.add_0_r in H. rewrite H. cbn [obind].
  cbn [p_starts p_dims p_orders p_term p_nz Nat.add repeat]. rewrite !app_nil_r.
  assert (R : raw_set (starts0 0 (enum_total p k []) ++ [0]) (length (enum_total p k [])) (nnzs (enum_total p k [])) = Ok (starts0 0 (enum_total p k []) ++ [nnzs (enum_total p k [])]))
    by (rewrite <- (starts0_length (enum_total p k []) 0) at 1; apply raw_set_mid).
  rewrite R. cbn [obind].
  apply make_compressed_packed. intros v Hv. apply enum_total_In in Hv; [|rewrite vsum_nil; lia].
  destruct Hv as (t & -> & Ht & _). exact Ht.
Qed.
