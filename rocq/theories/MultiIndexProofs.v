(** Proofs about the MultiIndex model. *)
From Coq Require Import Sorted.
From Verif Require Import Base SpecMulti MultiIndexModel.

(** Sparse lookup and the well-formedness invariant. *)
Fixpoint slook (inds vals : list nat) (i : nat) : nat :=
  match inds, vals with
  | k :: inds', x :: vals' => if k =? i then x else slook inds' vals' i
  | _, _ => 0
  end.

Definition dense (m : mi) : vec :=
  map (slook (nzInds m) (nzVals m)) (seq 0 (mi_length m)).

Record wf (m : mi) : Prop := {
  wf_len : length (nzInds m) = length (nzVals m);
  wf_sorted : StronglySorted lt (nzInds m);
  wf_range : Forall (fun i => i < mi_length m) (nzInds m);
  wf_pos : Forall (fun x => 0 < x) (nzVals m);
  wf_max : maxValue m = vmax (nzVals m);
  wf_sum : totalOrder m = vsum (nzVals m)
}.

Global Arguments vsum : simpl never.
Global Arguments vmax : simpl never.
Lemma vsum_cons x v : vsum (x :: v) = x + vsum v. Proof. reflexivity. Qed.
Lemma vmax_cons x v : vmax (x :: v) = Nat.max x (vmax v). Proof. reflexivity. Qed.
Lemma vsum_nil : vsum [] = 0. Proof. reflexivity. Qed.
Lemma vmax_nil : vmax [] = 0. Proof. reflexivity. Qed.

(** ** vset *)

Lemma vset_length v i x : length (vset v i x) = length v.
Proof. unfold vset. rewrite map_length, seq_length. reflexivity. Qed.

Lemma nth_map_seq {A} (f : nat -> A) n i d : i < n -> nth i (map f (seq 0 n)) d = f i.
Proof.
  intros Hi. rewrite (nth_indep _ d (f 0)) by (rewrite map_length, seq_length; lia).
  rewrite map_nth, seq_nth by lia. reflexivity.
Qed.

Lemma nth_vset v i x j : j < length v -> nth j (vset v i x) 0 = if j =? i then x else nth j v 0.
Proof. intros Hj. unfold vset. rewrite nth_map_seq by lia. reflexivity. Qed.

Lemma vset_upd v i x : vset v i x = upd v i x.
Proof.
  apply (nth_ext_eq _ _ 0).
  - rewrite vset_length, upd_length. reflexivity.
  - rewrite vset_length. intros j Hj. rewrite nth_vset by lia.
    destruct (Nat.eqb_spec j i) as [->|Hne].
    + rewrite nth_upd_eq by lia. reflexivity.
    + rewrite nth_upd_neq by lia. reflexivity.
Qed.

(** ** dense *)

Lemma dense_length m : length (dense m) = mi_length m.
Proof. unfold dense. rewrite map_length, seq_length. reflexivity. Qed.

Lemma nth_dense m i : i < mi_length m -> nth i (dense m) 0 = slook (nzInds m) (nzVals m) i.
Proof. intros Hi. unfold dense. rewrite nth_map_seq by lia. reflexivity. Qed.

Lemma slook_lt inds vals i :
  StronglySorted lt inds -> Forall (fun k => i < k) inds -> slook inds vals i = 0.
Proof.
  revert vals; induction inds as [|k inds IH]; intros [|x vals] Hs Hf; cbn; auto.
  inversion Hf; subst. inversion Hs; subst.
  destruct (Nat.eqb_spec k i); [lia|]. apply IH; auto.
Qed.

Lemma slook_ge inds vals i :
  Forall (fun k => k < i) inds -> slook inds vals i = 0.
Proof.
  revert vals; induction inds as [|k inds IH]; intros [|x vals] Hf; cbn; auto.
  inversion Hf; subst. destruct (Nat.eqb_spec k i); [lia|]. apply IH; auto.
Qed.

(** ** lower_bound and Get *)

Lemma get_slook inds vals i :
  length inds = length vals -> StronglySorted lt inds ->
  (let index := lower_bound inds i in
   match nth_error inds index with
   | Some k => if k =? i then at_ vals index else Ok 0
   | None => Ok 0
   end) = Ok (slook inds vals i).
Proof.
  revert vals; induction inds as [|k inds IH]; intros [|x vals] Hl Hs; cbn in *; try lia; auto.
  inversion Hs as [|? ? Hs' Hk]; subst.
  destruct (Nat.ltb_spec k i) as [Hlt|Hge].
  - destruct (Nat.eqb_spec k i); [lia|].
    apply (IH vals); auto.
  - cbn. destruct (Nat.eqb_spec k i) as [->|Hne]; cbn.
    + reflexivity.
    + rewrite slook_lt; auto.
      apply Forall_forall. intros y Hy. rewrite Forall_forall in Hk. specialize (Hk y Hy). lia.
Qed.

Lemma mi_Get_spec m i : wf m -> i <= mi_length m ->
  mi_Get m i = Ok (slook (nzInds m) (nzVals m) i).
Proof.
  intros Hwf Hi. unfold mi_Get. destruct (Nat.ltb_spec (mi_length m) i); [lia|].
  apply get_slook; apply Hwf.
Qed.

Lemma mi_Get_dense m i : wf m -> i < mi_length m -> mi_Get m i = Ok (nth i (dense m) 0).
Proof. intros Hwf Hi. rewrite mi_Get_spec, nth_dense by (auto; lia). reflexivity. Qed.

(** ** Vector *)

Lemma Vector_loop inds vals out :
  length inds = length vals -> StronglySorted lt inds ->
  Forall (fun i => i < length out) inds ->
  exists out',
    ofold (fun o p => raw_set o (fst p) (snd p)) (combine inds vals) out = Ok out' /\
    length out' = length out /\
    forall i, i < length out ->
      nth i out' 0 = if existsb (Nat.eqb i) inds then slook inds vals i else nth i out 0.
Proof.
  revert vals out; induction inds as [|k inds IH]; intros [|x vals] out Hl Hs Hr; cbn in *; try lia.
  - exists out. auto.
  - inversion Hs as [|? ? Hs' Hk]; subst. inversion Hr as [|? ? Hk0 Hr']; subst.
    rewrite raw_set_ok by lia. cbn.
    destruct (IH vals (upd out k x)) as (out' & He & Hlen & Hn); auto.
    { rewrite upd_length. auto. }
    exists out'. rewrite upd_length in *. repeat split; auto.
    intros i Hi. rewrite Hn by auto.
    rewrite Forall_forall in Hk.
    destruct (Nat.eqb_spec k i) as [->|Hne].
    + rewrite Nat.eqb_refl. cbn.
      replace (existsb (Nat.eqb i) inds) with false.
      * rewrite nth_upd_eq by lia. reflexivity.
      * symmetry. apply not_true_iff_false. intros Hex. apply existsb_exists in Hex.
        destruct Hex as (y & Hy & Hy2). apply Nat.eqb_eq in Hy2. subst y.
        specialize (Hk i Hy). lia.
    + destruct (Nat.eqb_spec i k); [lia|]. cbn. rewrite nth_upd_neq by lia. reflexivity.
Qed.

Lemma slook_notin inds vals i : ~ In i inds -> slook inds vals i = 0.
Proof.
  revert vals; induction inds as [|k inds IH]; intros [|x vals] Hn; cbn in *; auto.
  destruct (Nat.eqb_spec k i); [tauto|]. apply IH. tauto.
Qed.

Lemma mi_Vector_spec m : wf m -> mi_Vector m = Ok (dense m).
Proof.
  intros Hwf. unfold mi_Vector.
  destruct (Vector_loop (nzInds m) (nzVals m) (repeat 0 (mi_length m))) as (out & He & Hl & Hn);
    try apply Hwf.
  { rewrite repeat_length. apply Hwf. }
  rewrite He. f_equal. rewrite repeat_length in *.
  apply (nth_ext_eq _ _ 0); [rewrite dense_length; auto|].
  rewrite Hl. intros i Hi. rewrite Hn, nth_dense by auto.
  destruct (existsb (Nat.eqb i) (nzInds m)) eqn:He2; auto.
  rewrite slook_notin.
  - rewrite nth_repeat. reflexivity.
  - intros Hin. apply not_true_iff_false in He2. apply He2. apply existsb_exists.
    exists i. split; auto. apply Nat.eqb_refl.
Qed.

(** ** Canonical form *)

Fixpoint nzs (i : nat) (v : vec) : list nat :=
  match v with
  | [] => []
  | x :: t => if 0 <? x then i :: nzs (S i) t else nzs (S i) t
  end.

Definition nzv (v : vec) : list nat := filter (fun x => 0 <? x) v.

Lemma vmax_app a b : vmax (a ++ b) = Nat.max (vmax a) (vmax b).
Proof. induction a as [|x a IH]; cbn; auto. rewrite !vmax_cons, IH. lia. Qed.
Lemma vsum_app a b : vsum (a ++ b) = vsum a + vsum b.
Proof. induction a as [|x a IH]; cbn; auto. rewrite !vsum_cons, IH. lia. Qed.

Lemma mi_fill_spec v i m :
  mi_fill m i v =
  {| mi_length := mi_length m; nzInds := nzInds m ++ nzs i v; nzVals := nzVals m ++ nzv v;
     maxValue := Nat.max (maxValue m) (vmax v); totalOrder := totalOrder m + vsum v |}.
Proof.
  revert i m; induction v as [|x v IH]; intros i m; cbn.
  - rewrite vmax_nil, vsum_nil, !app_nil_r, Nat.max_0_r, Nat.add_0_r. destruct m; reflexivity.
  - rewrite IH, vmax_cons, vsum_cons. unfold mi_push. destruct (Nat.ltb_spec 0 x) as [Hx|Hx]; cbn.
    + rewrite <- !app_assoc. cbn. f_equal; lia.
    + f_equal; lia.
Qed.

Lemma mi_of_vec_spec v :
  mi_of_vec v = {| mi_length := length v; nzInds := nzs 0 v; nzVals := nzv v;
                   maxValue := vmax v; totalOrder := vsum v |}.
Proof. unfold mi_of_vec. rewrite mi_fill_spec. cbn. f_equal; lia. Qed.

Lemma vmax_nzv v : vmax (nzv v) = vmax v.
Proof.
  induction v as [|x v IH]; cbn; auto. unfold nzv in *.
  destruct (Nat.ltb_spec 0 x); rewrite ?vmax_cons, IH; lia.
Qed.
Lemma vsum_nzv v : vsum (nzv v) = vsum v.
Proof.
  induction v as [|x v IH]; cbn; auto. unfold nzv in *.
  destruct (Nat.ltb_spec 0 x); rewrite ?vsum_cons, IH; lia.
Qed.

Lemma nzs_length i v : length (nzs i v) = length (nzv v).
Proof. revert i; induction v as [|x v IH]; intros i; cbn; auto. destruct (0 <? x); cbn; auto. Qed.

Lemma nzs_range i v : Forall (fun k => i <= k < i + length v) (nzs i v).
Proof.
  revert i; induction v as [|x v IH]; intros i; cbn; auto.
  assert (H : Forall (fun k => i <= k < i + S (length v)) (nzs (S i) v)).
  { eapply Forall_impl; [|apply IH]. cbn. intros; lia. }
  destruct (0 <? x); auto. constructor; auto. lia.
Qed.

Lemma nzs_sorted i v : StronglySorted lt (nzs i v).
Proof.
  revert i; induction v as [|x v IH]; intros i; cbn; [constructor|].
  destruct (0 <? x); auto. constructor; auto.
  eapply Forall_impl; [|apply nzs_range]. cbn; intros; lia.
Qed.

Lemma nzv_pos v : Forall (fun x => 0 < x) (nzv v).
Proof.
  apply Forall_forall. intros x Hx. unfold nzv in Hx. apply filter_In in Hx.
  destruct Hx as [_ Hx]. apply Nat.ltb_lt in Hx. auto.
Qed.

Lemma mi_of_vec_wf v : wf (mi_of_vec v).
Proof.
  rewrite mi_of_vec_spec. constructor; cbn.
  - apply nzs_length.
  - apply nzs_sorted.
  - eapply Forall_impl; [|apply nzs_range]. cbn; intros; lia.
  - apply nzv_pos.
  - symmetry; apply vmax_nzv.
  - symmetry; apply vsum_nzv.
Qed.

Lemma slook_nzs v i j : slook (nzs i v) (nzv v) (i + j) = nth j v 0.
Proof.
  revert i j; induction v as [|x v IH]; intros i j; cbn.
  - destruct j; reflexivity.
  - destruct (Nat.ltb_spec 0 x) as [Hx|Hx]; cbn; destruct j as [|j].
    + rewrite Nat.add_0_r, Nat.eqb_refl. reflexivity.
    + destruct (Nat.eqb_spec i (i + S j)); [lia|].
      replace (i + S j) with (S i + j) by lia. apply IH.
    + rewrite slook_lt; [lia|apply nzs_sorted|].
      eapply Forall_impl; [|apply nzs_range]. cbn; intros; lia.
    + replace (i + S j) with (S i + j) by lia. apply IH.
Qed.

Lemma dense_of_vec v : dense (mi_of_vec v) = v.
Proof.
  rewrite mi_of_vec_spec. unfold dense; cbn.
  apply (nth_ext_eq _ _ 0); rewrite map_length, seq_length; auto.
  intros i Hi. rewrite nth_map_seq by auto. apply (slook_nzs v 0 i).
Qed.

Lemma canon_aux n i inds vals :
  length inds = length vals -> StronglySorted lt inds ->
  Forall (fun k => i <= k < i + n) inds -> Forall (fun x => 0 < x) vals ->
  nzs i (map (slook inds vals) (seq i n)) = inds /\
  nzv (map (slook inds vals) (seq i n)) = vals.
Proof.
  revert i inds vals; induction n as [|n IH]; intros i inds vals Hl Hs Hr Hp; cbn.
  - destruct inds as [|k inds]; [destruct vals; cbn in *; [auto|lia]|].
    inversion Hr; lia.
  - destruct inds as [|k inds]; destruct vals as [|x vals]; cbn in Hl; try lia.
    + exact (IH (S i) [] [] eq_refl Hs (Forall_nil _) Hp).
    + inversion Hs as [|? ? Hs' Hk]; subst. inversion Hr as [|? ? Hk0 Hr']; subst.
      inversion Hp as [|? ? Hx Hp']; subst. rewrite Forall_forall in Hk.
      destruct (Nat.eq_dec k i) as [->|Hne].
      * cbn. rewrite Nat.eqb_refl.
        assert (Hm : map (fun j => if i =? j then x else slook inds vals j) (seq (S i) n) =
                     map (slook inds vals) (seq (S i) n)).
        { apply map_ext_in. intros j Hj. apply in_seq in Hj.
          destruct (Nat.eqb_spec i j); [lia|reflexivity]. }
        unfold nzv. cbn. rewrite Hm.
        destruct (Nat.ltb_spec 0 x); [|lia].
        destruct (IH (S i) inds vals) as [H1 H2]; auto.
        { apply Forall_forall. intros y Hy. specialize (Hk y Hy).
          rewrite Forall_forall in Hr'. specialize (Hr' y Hy). lia. }
        unfold nzv in H2. rewrite H1, H2. auto.
      * assert (H0 : slook (k :: inds) (x :: vals) i = 0).
        { apply slook_lt; auto. constructor; [lia|].
          apply Forall_forall. intros y Hy. specialize (Hk y Hy). lia. }
        unfold nzv. cbn [filter]. rewrite H0. cbn [Nat.ltb Nat.leb].
        destruct (IH (S i) (k :: inds) (x :: vals)) as [H1 H2]; auto; try (cbn; lia).
        constructor; [lia|].
        apply Forall_forall. intros y Hy. specialize (Hk y Hy).
        rewrite Forall_forall in Hr'. specialize (Hr' y Hy). lia.
Qed.

Lemma wf_canon m : wf m -> m = mi_of_vec (dense m).
Proof.
  intros Hwf. rewrite mi_of_vec_spec.
  destruct (canon_aux (mi_length m) 0 (nzInds m) (nzVals m)) as [H1 H2]; try apply Hwf.
  { eapply Forall_impl; [|apply (wf_range _ Hwf)]. cbn; intros; lia. }
  fold (dense m) in H1, H2.
  rewrite H1, H2, dense_length, <- vmax_nzv, <- vsum_nzv, H2.
  rewrite <- (wf_max _ Hwf), <- (wf_sum _ Hwf). destruct m; reflexivity.
Qed.

Lemma wf_Sum m : wf m -> mi_Sum m = vsum (dense m).
Proof. intros H. rewrite (wf_canon m H) at 1. rewrite mi_of_vec_spec. reflexivity. Qed.
Lemma wf_Max m : wf m -> mi_Max m = vmax (dense m).
Proof. intros H. rewrite (wf_canon m H) at 1. rewrite mi_of_vec_spec. reflexivity. Qed.
Lemma nzv_vnnz v : length (nzv v) = vnnz v.
Proof.
  unfold nzv, vnnz. f_equal. apply filter_ext. intros x. destruct x; reflexivity.
Qed.
Lemma wf_NumNz m : wf m -> mi_NumNz m = vnnz (dense m).
Proof.
  intros H. rewrite (wf_canon m H) at 1. rewrite mi_of_vec_spec.
  unfold mi_NumNz; cbn. rewrite nzs_length, nzv_vnnz. reflexivity.
Qed.

(** ** Set *)

Lemma fold_left_max l a : fold_left Nat.max l a = Nat.max a (vmax l).
Proof. revert a; induction l as [|x l IH]; intros a; cbn; [rewrite vmax_nil; lia|]. rewrite IH, vmax_cons. lia. Qed.
Lemma fold_left_add l a : fold_left Nat.add l a = a + vsum l.
Proof. revert a; induction l as [|x l IH]; intros a; cbn; [rewrite vsum_nil; lia|]. rewrite IH, vsum_cons. lia. Qed.

Lemma wf_intro_refresh m inds vals :
  length inds = length vals -> StronglySorted lt inds ->
  Forall (fun i => i < mi_length m) inds -> Forall (fun x => 0 < x) vals ->
  wf (mi_refresh m inds vals).
Proof.
  intros. unfold mi_refresh. constructor; cbn; auto.
  - rewrite fold_left_max. reflexivity.
  - rewrite fold_left_add. reflexivity.
Qed.

Lemma lower_bound_le l x : lower_bound l x <= length l.
Proof. induction l as [|h t IH]; cbn; auto. destruct (h <? x); lia. Qed.

(** Facts on inserting, overwriting and erasing at the lower bound. *)
Lemma ins_facts inds vals ind val :
  length inds = length vals -> StronglySorted lt inds ->
  match nth_error inds (lower_bound inds ind) with Some k => (k =? ind) = false | None => True end ->
  let index := lower_bound inds ind in
  StronglySorted lt (ins_at inds index ind) /\
  length (ins_at inds index ind) = length (ins_at vals index val) /\
  (forall P : nat -> Prop, Forall P inds -> P ind -> Forall P (ins_at inds index ind)) /\
  (forall P : nat -> Prop, Forall P vals -> P val -> Forall P (ins_at vals index val)) /\
  (forall i, slook (ins_at inds index ind) (ins_at vals index val) i =
             if i =? ind then val else slook inds vals i).
Proof.
  revert vals; induction inds as [|k inds IH]; intros [|x vals] Hl Hs Hm; cbn in *; try lia.
  - repeat split; auto; [constructor; auto|]. intros i. rewrite (Nat.eqb_sym ind i). reflexivity.
  - inversion Hs as [|? ? Hs' Hk]; subst.
    destruct (Nat.ltb_spec k ind) as [Hlt|Hge]; cbn.
    + destruct (IH vals) as (H1 & H2 & H3 & H4 & H5); auto.
      unfold ins_at in *. cbn. repeat split.
      * constructor; [assumption|apply H3; assumption].
      * f_equal; auto.
      * intros P HP Hi. inversion HP; subst. constructor; auto.
      * intros P HP Hi. inversion HP; subst. constructor; auto.
      * intros i. rewrite H5. destruct (Nat.eqb_spec k i); auto.
        destruct (Nat.eqb_spec i ind); auto. lia.
    + cbn in Hm. destruct (Nat.eqb_spec k ind) as [|Hne]; [discriminate|].
      unfold ins_at; cbn. repeat split.
      * constructor; auto. constructor; [lia|]. rewrite Forall_forall in *.
        intros y Hy. specialize (Hk y Hy). lia.
      * lia.
      * intros P HP Hi. constructor; auto.
      * intros P HP Hi. constructor; auto.
      * intros i. rewrite (Nat.eqb_sym ind i). reflexivity.
Qed.

Lemma upd_facts inds vals ind val :
  length inds = length vals -> StronglySorted lt inds ->
  match nth_error inds (lower_bound inds ind) with Some k => (k =? ind) = true | None => False end ->
  let index := lower_bound inds ind in
  index < length vals /\
  (forall P : nat -> Prop, Forall P vals -> P val -> Forall P (upd vals index val)) /\
  (forall i, slook inds (upd vals index val) i = if i =? ind then val else slook inds vals i).
Proof.
  revert vals; induction inds as [|k inds IH]; intros [|x vals] Hl Hs Hm; cbn in *; try lia; try tauto.
  inversion Hs as [|? ? Hs' Hk]; subst.
  destruct (Nat.ltb_spec k ind) as [Hlt|Hge]; cbn.
  - destruct (IH vals) as (H1 & H2 & H3); auto.
    repeat split.
    + lia.
    + intros P HP Hi. inversion HP; subst. constructor; auto.
    + intros i. rewrite H3. destruct (Nat.eqb_spec k i); auto. destruct (Nat.eqb_spec i ind); auto. lia.
  - cbn in Hm. apply Nat.eqb_eq in Hm. subst k.
    repeat split.
    + lia.
    + intros P HP Hi. inversion HP; subst. constructor; auto.
    + intros i. rewrite (Nat.eqb_sym ind i). destruct (i =? ind); reflexivity.
Qed.

Lemma erase_facts inds vals ind :
  length inds = length vals -> StronglySorted lt inds ->
  match nth_error inds (lower_bound inds ind) with Some k => (k =? ind) = true | None => False end ->
  let index := lower_bound inds ind in
  StronglySorted lt (erase_at inds index) /\
  length (erase_at inds index) = length (erase_at vals index) /\
  (forall P : nat -> Prop, Forall P inds -> Forall P (erase_at inds index)) /\
  (forall P : nat -> Prop, Forall P vals -> Forall P (erase_at vals index)) /\
  (forall i, slook (erase_at inds index) (erase_at vals index) i =
             if i =? ind then 0 else slook inds vals i).
Proof.
  revert vals; induction inds as [|k inds IH]; intros [|x vals] Hl Hs Hm; cbn in *; try lia; try tauto.
  inversion Hs as [|? ? Hs' Hk]; subst.
  destruct (Nat.ltb_spec k ind) as [Hlt|Hge].
  - destruct (IH vals) as (H1 & H2 & H3 & H4 & H5); auto.
    unfold erase_at in *. cbn [firstn skipn app]. repeat split.
    + constructor; auto.
    + cbn [length]. f_equal; auto.
    + intros P HP. inversion HP; subst. constructor; auto.
    + intros P HP. inversion HP; subst. constructor; auto.
    + intros i. cbn [slook]. rewrite H5. destruct (Nat.eqb_spec k i); auto.
      destruct (Nat.eqb_spec i ind); auto. lia.
  - cbn in Hm. apply Nat.eqb_eq in Hm. subst k.
    unfold erase_at; cbn. repeat split; auto.
    + intros P HP. inversion HP; auto.
    + intros P HP. inversion HP; auto.
    + intros i. rewrite (Nat.eqb_sym ind i). destruct (Nat.eqb_spec i ind) as [->|]; auto.
      apply slook_lt; auto.
Qed.

Lemma dense_refresh m inds vals ind val :
  ind < mi_length m ->
  (forall i, slook inds vals i = if i =? ind then val else slook (nzInds m) (nzVals m) i) ->
  dense (mi_refresh m inds vals) = vset (dense m) ind val.
Proof.
  intros Hi H. apply (nth_ext_eq _ _ 0).
  - rewrite vset_length, !dense_length. reflexivity.
  - rewrite dense_length. intros j Hj. change (mi_length (mi_refresh m inds vals)) with (mi_length m) in Hj.
    rewrite nth_dense, nth_vset, nth_dense by (rewrite ?dense_length; auto).
    apply H.
Qed.

Lemma mi_Set_spec m ind val :
  wf m -> ind < mi_length m ->
  exists m', mi_Set m ind val = Ok (m', negb (nth ind (dense m) 0 =? 0)) /\
    wf m' /\ mi_length m' = mi_length m /\ dense m' = vset (dense m) ind val.
Proof.
  intros Hwf Hi.
  assert (Hget : match nth_error (nzInds m) (lower_bound (nzInds m) ind) with
                 | Some k => if k =? ind then at_ (nzVals m) (lower_bound (nzInds m) ind) else Ok 0
                 | None => Ok 0 end = Ok (nth ind (dense m) 0)).
  { rewrite nth_dense by auto. apply (get_slook (nzInds m) (nzVals m) ind); apply Hwf. }
  unfold mi_Set. destruct (Nat.ltb_spec (mi_length m) ind); [lia|]. cbv zeta.
  destruct (match nth_error (nzInds m) (lower_bound (nzInds m) ind) with
            | Some k => k =? ind | None => false end) eqn:Hex.
  - assert (Hm : match nth_error (nzInds m) (lower_bound (nzInds m) ind) with
                 | Some k => (k =? ind) = true | None => False end).
    { destruct (nth_error (nzInds m) (lower_bound (nzInds m) ind)); auto. discriminate. }
    assert (Hnz : negb (nth ind (dense m) 0 =? 0) = true).
    { destruct (nth_error (nzInds m) (lower_bound (nzInds m) ind)) as [k|]; [|discriminate].
      rewrite Hex in Hget. unfold at_ in Hget.
      destruct (nth_error (nzVals m) (lower_bound (nzInds m) ind)) as [x|] eqn:Hx; [|discriminate].
      injection Hget as Hget. rewrite <- Hget.
      pose proof (wf_pos _ Hwf) as Hp. rewrite Forall_forall in Hp.
      apply nth_error_In in Hx. specialize (Hp x Hx). destruct x; [lia|reflexivity]. }
    rewrite Hnz.
    destruct (Nat.ltb_spec 0 val) as [Hv|Hv].
    + destruct (upd_facts (nzInds m) (nzVals m) ind val) as (H1 & H2 & H3); try apply Hwf; auto.
      destruct (Nat.ltb_spec (lower_bound (nzInds m) ind) (length (nzVals m))); [|lia].
      eexists. split; [reflexivity|]. split; [|split].
      * apply wf_intro_refresh; try apply Hwf; auto.
        { rewrite upd_length. apply Hwf. } { apply H2; auto. apply Hwf. }
      * reflexivity.
      * apply dense_refresh; auto.
    + destruct (erase_facts (nzInds m) (nzVals m) ind) as (H1 & H2 & H3 & H4 & H5); try apply Hwf; auto.
      eexists. split; [reflexivity|]. split; [|split].
      * apply wf_intro_refresh; auto.
        { apply H3. apply Hwf. } { apply H4. apply Hwf. }
      * reflexivity.
      * replace val with 0 by lia. apply dense_refresh; auto.
  - assert (Hm : match nth_error (nzInds m) (lower_bound (nzInds m) ind) with
                 | Some k => (k =? ind) = false | None => True end).
    { destruct (nth_error (nzInds m) (lower_bound (nzInds m) ind)); auto. }
    assert (Hz : nth ind (dense m) 0 = 0).
    { destruct (nth_error (nzInds m) (lower_bound (nzInds m) ind)) as [k|].
      - rewrite Hex in Hget. congruence. - congruence. }
    rewrite Hz. cbn [Nat.eqb negb].
    destruct (Nat.eqb_spec val 0) as [->|Hv].
    + exists m. repeat split; auto; try apply Hwf.
      rewrite vset_upd. symmetry.
      pose proof (upd_same (dense m) ind 0) as Hu. rewrite Hz in Hu. apply Hu.
      rewrite dense_length. auto.
    + destruct (ins_facts (nzInds m) (nzVals m) ind val) as (H1 & H2 & H3 & H4 & H5); try apply Hwf; auto.
      eexists. split; [reflexivity|]. split; [|split].
      * apply wf_intro_refresh; auto.
        { apply H3; auto. apply Hwf. } { apply H4; [apply Hwf|lia]. }
      * reflexivity.
      * apply dense_refresh; auto.
Qed.

Lemma mi_sets_spec h m :
  wf m -> Forall (fun p => fst p < mi_length m) h ->
  exists m', mi_sets m h = Ok m' /\ wf m' /\ mi_length m' = mi_length m /\
             dense m' = vwrites (dense m) h.
Proof.
  revert m; induction h as [|[i x] h IH]; intros m Hwf Hh; cbn.
  - exists m. auto.
  - inversion Hh as [|? ? Hi Hh']; subst. cbn in Hi.
    destruct (mi_Set_spec m i x Hwf Hi) as (m1 & He & Hw1 & Hl1 & Hd1).
    rewrite He. cbn.
    destruct (IH m1 Hw1) as (m' & He' & Hw' & Hl' & Hd').
    { rewrite Hl1. auto. }
    exists m'. unfold mi_sets in He'. rewrite He'. repeat split; auto; try apply Hw'.
    + congruence.
    + rewrite Hd', Hd1. reflexivity.
Qed.

Lemma vwrites_length h v : length (vwrites v h) = length v.
Proof.
  revert v; induction h as [|p h IH]; intros v; cbn; auto.
  unfold vwrites in IH. rewrite IH, vset_length. reflexivity.
Qed.

(** ** Reachable objects *)

(** Objects reachable from a constructor by in-range Set calls. *)
Inductive reach : mi -> Prop :=
| reach_vec v : reach (mi_of_vec v)
| reach_const len val : (len = 0 -> val = 0) -> reach (mi_const len val)
| reach_set m i x m' b : reach m -> i < mi_length m -> mi_Set m i x = Ok (m', b) -> reach m'.

Lemma vsum_repeat n x : vsum (repeat x n) = n * x.
Proof. induction n as [|n IH]; cbn; auto. rewrite vsum_cons. lia. Qed.
Lemma vmax_repeat n x : 0 < n -> vmax (repeat x n) = x.
Proof.
  induction n as [|n IH]; intros Hn; [lia|]. cbn. rewrite vmax_cons.
  destruct n; [cbn; rewrite vmax_nil; lia|]. rewrite IH by lia. lia.
Qed.

Lemma nzs_repeat n i x : 0 < x -> nzs i (repeat x n) = seq i n /\ nzv (repeat x n) = repeat x n.
Proof.
  intros Hx. revert i; induction n as [|n IH]; intros i; cbn; auto.
  destruct (Nat.ltb_spec 0 x); [|lia]. destruct (IH (S i)) as [H1 H2].
  unfold nzv in H2. rewrite H1, H2. auto.
Qed.

Lemma nzs_zeros n i : nzs i (repeat 0 n) = [] /\ nzv (repeat 0 n) = [].
Proof. revert i; induction n as [|n IH]; intros i; cbn; auto. destruct (IH (S i)). auto. Qed.

Lemma mi_const_of_vec len val : (len = 0 -> val = 0) -> mi_const len val = mi_of_vec (repeat val len).
Proof.
  intros H. rewrite mi_of_vec_spec. unfold mi_const. rewrite repeat_length, vsum_repeat.
  destruct (Nat.ltb_spec 0 val) as [Hv|Hv].
  - destruct (nzs_repeat len 0 val Hv) as [H1 H2]. rewrite H1, H2.
    destruct len as [|len]; [rewrite H by auto; reflexivity|].
    rewrite vmax_repeat by lia. reflexivity.
  - replace val with 0 by lia. destruct (nzs_zeros len 0) as [H1 H2]. rewrite H1, H2.
    f_equal. clear. induction len as [|len IH]; [reflexivity|exact IH].
Qed.

Lemma reach_wf m : reach m -> wf m.
Proof.
  induction 1 as [v|len val H|m i x m' b Hr IH Hi He].
  - apply mi_of_vec_wf.
  - rewrite mi_const_of_vec by auto. apply mi_of_vec_wf.
  - destruct (mi_Set_spec m i x IH Hi) as (m1 & He1 & Hw1 & _). congruence.
Qed.

(** ** Equality and order *)

Lemma mi_ne_loop_spec k i a b :
  wf a -> wf b -> i + k = length (nzInds a) -> length (nzInds a) = length (nzInds b) ->
  exists r, mi_ne_loop k i a b = Ok r /\
    (r = false <-> skipn i (nzInds a) = skipn i (nzInds b) /\ skipn i (nzVals a) = skipn i (nzVals b)).
Proof.
  intros Ha Hb. pose proof (wf_len _ Ha) as La. pose proof (wf_len _ Hb) as Lb.
  revert i; induction k as [|k IH]; intros i Hik Hl; cbn [mi_ne_loop].
  - exists false. split; auto. split; auto. intros _.
    rewrite !skipn_all2 by lia. auto.
  - assert (Sk : forall (l : list nat), i < length l -> skipn i l = nth i l 0 :: skipn (S i) l).
    { intros l. clear. revert i; induction l as [|h t IHl]; intros i Hi; cbn in *; [lia|].
      destruct i; auto. rewrite <- IHl by lia. reflexivity. }
    unfold at_.
    rewrite (nth_error_nth' (nzInds b) 0) by lia. rewrite (nth_error_nth' (nzInds a) 0) by lia.
    rewrite (nth_error_nth' (nzVals b) 0) by lia. rewrite (nth_error_nth' (nzVals a) 0) by lia.
    cbn [obind]. rewrite (Sk (nzInds a)), (Sk (nzInds b)), (Sk (nzVals a)), (Sk (nzVals b)) by lia.
    destruct (Nat.eqb_spec (nth i (nzInds b) 0) (nth i (nzInds a) 0)) as [E1|E1]; cbn [negb].
    + destruct (Nat.eqb_spec (nth i (nzVals b) 0) (nth i (nzVals a) 0)) as [E2|E2]; cbn [negb].
      * destruct (IH (S i)) as (r & Hr & Hiff); try lia. exists r. split; auto.
        rewrite Hiff, E1, E2. split; intros [H1 H2]; split; congruence.
      * exists true. split; auto. split; [discriminate|]. intros [_ H]. congruence.
    + exists true. split; auto. split; [discriminate|]. intros [H _]. congruence.
Qed.

Lemma mi_ne_spec a b : wf a -> wf b ->
  exists r, mi_ne a b = Ok r /\ (r = false <-> dense a = dense b).
Proof.
  intros Ha Hb. unfold mi_ne.
  assert (Hd : forall x y, wf x -> wf y -> dense x = dense y ->
     mi_length x = mi_length y /\ maxValue x = maxValue y /\ totalOrder x = totalOrder y /\
     nzInds x = nzInds y /\ nzVals x = nzVals y).
  { intros x y Hx Hy He. rewrite (wf_canon x Hx), (wf_canon y Hy), He. auto. }
  destruct (Nat.eqb_spec (mi_length b) (mi_length a)) as [E1|E1]; cbn [negb orb].
  2:{ exists true. split; auto. split; [discriminate|]. intros H. apply Hd in H; auto.
      destruct H; congruence. }
  destruct (Nat.eqb_spec (maxValue b) (maxValue a)) as [E2|E2]; cbn [negb orb].
  2:{ exists true. split; auto. split; [discriminate|]. intros H. apply Hd in H; auto.
      destruct H as (_ & H & _); congruence. }
  destruct (Nat.eqb_spec (totalOrder b) (totalOrder a)) as [E3|E3]; cbn [negb orb].
  2:{ exists true. split; auto. split; [discriminate|]. intros H. apply Hd in H; auto.
      destruct H as (_ & _ & H & _); congruence. }
  destruct (Nat.eqb_spec (length (nzInds b)) (length (nzInds a))) as [E4|E4]; cbn [negb].
  2:{ exists true. split; auto. split; [discriminate|]. intros H. apply Hd in H; auto.
      destruct H as (_ & _ & _ & H & _); congruence. }
  destruct (mi_ne_loop_spec (length (nzInds a)) 0 a b) as (r & Hr & Hiff); auto.
  exists r. split; auto. rewrite Hiff. cbn [skipn]. split.
  - intros [H1 H2]. unfold dense. rewrite H1, H2, E1. reflexivity.
  - intros H. apply Hd in H; auto. tauto.
Qed.

Lemma mi_eq_spec a b : wf a -> wf b ->
  exists r, mi_eq a b = Ok r /\ (r = true <-> dense a = dense b).
Proof.
  intros Ha Hb. destruct (mi_ne_spec a b Ha Hb) as (r & Hr & Hiff).
  exists (negb r). unfold mi_eq. rewrite Hr. split; auto. rewrite <- Hiff.
  destruct r; cbn; split; congruence.
Qed.

Lemma lex_lt_irrefl a : ~ lex_lt a a.
Proof. induction a as [|x a IH]; intros H; inversion H; subst; try lia; auto. Qed.
Lemma lex_lt_length a b : lex_lt a b -> length a = length b.
Proof. induction 1; cbn; congruence. Qed.
Lemma lex_lt_trans a b c : lex_lt a b -> lex_lt b c -> lex_lt a c.
Proof.
  intros H; revert c; induction H as [a b x y Hxy Hl|a b x H IH]; intros c Hc; inversion Hc; subst.
  - apply lex_here; lia || congruence.
  - apply lex_here; auto. rewrite Hl. apply lex_lt_length; auto.
  - apply lex_here; auto. rewrite (lex_lt_length _ _ H). auto.
  - apply lex_next. auto.
Qed.

Lemma lex_total a b : length a = length b -> lex_lt a b \/ a = b \/ lex_lt b a.
Proof.
  revert b; induction a as [|x a IH]; intros [|y b] Hl; cbn in *; try lia; auto.
  assert (Hl' : length a = length b) by lia.
  destruct (lt_eq_lt_dec x y) as [[H|H]|H].
  - left. apply lex_here; auto.
  - subst. destruct (IH b Hl') as [H|[H|H]].
    + left. apply lex_next; auto.
    + subst; auto.
    + right; right. apply lex_next; auto.
  - right; right. apply lex_here; auto.
Qed.

Lemma skipn_cons_nth (l : list nat) i : i < length l -> skipn i l = nth i l 0 :: skipn (S i) l.
Proof.
  revert i; induction l as [|h t IHl]; intros i Hi; cbn in *; [lia|].
  destruct i; auto. rewrite <- IHl by lia. reflexivity.
Qed.

Lemma mi_lt_loop_spec k i a b :
  wf a -> wf b -> mi_length a = mi_length b -> i + k = mi_length a ->
  exists r, mi_lt_loop k i a b = Ok r /\
    (r = true <-> lex_lt (skipn i (dense a)) (skipn i (dense b))).
Proof.
  intros Ha Hb Hab. revert i; induction k as [|k IH]; intros i Hi; cbn [mi_lt_loop].
  - exists false. split; auto. split; [discriminate|].
    rewrite !skipn_all2 by (rewrite dense_length; lia). intros H; inversion H.
  - rewrite !mi_Get_dense by (auto; lia). cbn [obind].
    rewrite (skipn_cons_nth (dense a)), (skipn_cons_nth (dense b)) by (rewrite dense_length; lia).
    assert (HL : length (skipn (S i) (dense a)) = length (skipn (S i) (dense b))).
    { rewrite !skipn_length, !dense_length. lia. }
    destruct (Nat.ltb_spec (nth i (dense a) 0) (nth i (dense b) 0)) as [L|L].
    + exists true. split; auto. split; auto. intros _. apply lex_here; auto.
    + destruct (Nat.ltb_spec (nth i (dense b) 0) (nth i (dense a) 0)) as [L2|L2].
      * exists false. split; auto. split; [discriminate|]. intros H; inversion H; lia.
      * destruct (IH (S i)) as (r & Hr & Hiff); [lia|]. exists r. split; auto.
        rewrite Hiff. assert (E : nth i (dense a) 0 = nth i (dense b) 0) by lia. rewrite E.
        split; intros H; [apply lex_next; auto|]. inversion H; auto. lia.
Qed.

Lemma mi_lt_spec a b : wf a -> wf b ->
  exists r, mi_lt a b = Ok r /\ (r = true <-> graded_lt (dense a) (dense b)).
Proof.
  intros Ha Hb. unfold mi_lt, graded_lt.
  rewrite !dense_length.
  pose proof (wf_Sum a Ha) as Sa. pose proof (wf_Sum b Hb) as Sb.
  pose proof (wf_Max a Ha) as Ma. pose proof (wf_Max b Hb) as Mb.
  unfold mi_Sum, mi_Max in *. rewrite <- Sa, <- Sb, <- Ma, <- Mb.
  destruct (Nat.ltb_spec (mi_length a) (mi_length b)); [exists true; intuition lia|].
  destruct (Nat.ltb_spec (mi_length b) (mi_length a)); [exists false; intuition (discriminate || lia)|].
  destruct (Nat.ltb_spec (totalOrder a) (totalOrder b)); [exists true; intuition lia|].
  destruct (Nat.ltb_spec (totalOrder b) (totalOrder a)); [exists false; intuition (discriminate || lia)|].
  destruct (Nat.ltb_spec (maxValue a) (maxValue b)); [exists true; intuition lia|].
  destruct (Nat.ltb_spec (maxValue b) (maxValue a)); [exists false; intuition (discriminate || lia)|].
  destruct (mi_lt_loop_spec (Nat.min (mi_length a) (mi_length b)) 0 a b) as (r & Hr & Hiff); auto; try lia.
  exists r. split; auto. rewrite Hiff. cbn [skipn]. intuition lia.
Qed.

Lemma graded_irrefl a : ~ graded_lt a a.
Proof. unfold graded_lt. intros H. intuition try lia. apply (lex_lt_irrefl a); auto. Qed.

Lemma graded_trans a b c : graded_lt a b -> graded_lt b c -> graded_lt a c.
Proof.
  unfold graded_lt. intros H1 H2.
  destruct H1 as [H1|(E1 & [H1|(F1 & [H1|(G1 & H1)])])];
  destruct H2 as [H2|(E2 & [H2|(F2 & [H2|(G2 & H2)])])]; try lia.
  right. split; [lia|]. right. split; [lia|]. right. split; [lia|].
  eapply lex_lt_trans; eauto.
Qed.

Lemma graded_total a b : graded_lt a b \/ a = b \/ graded_lt b a.
Proof.
  unfold graded_lt.
  destruct (lt_eq_lt_dec (length a) (length b)) as [[H|H]|H]; [tauto| |tauto].
  destruct (lt_eq_lt_dec (vsum a) (vsum b)) as [[H1|H1]|H1].
  - left; right; split; auto.
  - destruct (lt_eq_lt_dec (vmax a) (vmax b)) as [[H2|H2]|H2].
    + left; right; split; auto.
    + destruct (lex_total a b H) as [L|[L|L]]; auto.
      * left; right; split; auto.
      * right; right; right; split; auto.
    + right; right; right; split; auto.
  - right; right; right; split; auto.
Qed.

(** ** AnyBounded *)

Lemma mi_anyb_loop_spec k i m bd :
  wf m -> wf bd -> mi_length m <= mi_length bd -> i + k = mi_length m ->
  exists r, mi_anyb_loop k i m bd = Ok r /\
    (r = true <-> exists j, i <= j < mi_length m /\ nth j (dense bd) 0 <= nth j (dense m) 0).
Proof.
  intros Hm Hb Hl. revert i; induction k as [|k IH]; intros i Hi; cbn [mi_anyb_loop].
  - exists false. split; auto. split; [discriminate|]. intros (j & Hj & _). lia.
  - rewrite !mi_Get_dense by (auto; lia). cbn [obind].
    destruct (Nat.leb_spec (nth i (dense bd) 0) (nth i (dense m) 0)) as [L|L].
    + exists true. split; auto. split; auto. intros _. exists i. split; [lia|auto].
    + destruct (IH (S i)) as (r & Hr & Hiff); [lia|]. exists r. split; auto. rewrite Hiff.
      split; intros (j & Hj & H); exists j; (split; [|exact H]); try lia.
      destruct (Nat.eq_dec j i) as [->|]; lia.
Qed.

Lemma mi_AnyBounded_spec m bd :
  wf m -> wf bd -> mi_length m <= mi_length bd ->
  exists r, mi_AnyBounded m bd = Ok r /\
    (r = true <-> exists j, j < mi_length m /\ nth j (dense bd) 0 <= nth j (dense m) 0).
Proof.
  intros Hm Hb Hl. unfold mi_AnyBounded. destruct (Nat.ltb_spec (mi_length bd) (mi_length m)); [lia|].
  destruct (mi_anyb_loop_spec (mi_length m) 0 m bd) as (r & Hr & Hiff); auto.
  exists r. split; auto. rewrite Hiff. split; intros (j & Hj & H0); exists j; (split; [lia|auto]).
Qed.

(** ** The boundary index *)

Lemma lower_bound_all l x : Forall (fun k => k < x) l -> lower_bound l x = length l.
Proof.
  induction 1 as [|h t Hh Ht IH]; cbn; auto.
  destruct (Nat.ltb_spec h x); [lia|lia].
Qed.

Lemma combine_app {A B} (l1 l2 : list A) (k1 k2 : list B) :
  length l1 = length k1 -> combine (l1 ++ l2) (k1 ++ k2) = combine l1 k1 ++ combine l2 k2.
Proof.
  revert k1; induction l1 as [|x l1 IH]; intros [|y k1] H; cbn in *; try lia; auto.
  f_equal; apply IH; lia.
Qed.

Lemma set_at_length_ub m x : wf m -> 0 < x ->
  exists m', mi_Set m (mi_length m) x = Ok (m', false) /\ mi_Vector m' = UB.
Proof.
  intros Hwf Hx. unfold mi_Set. rewrite Nat.ltb_irrefl. cbv zeta.
  rewrite (lower_bound_all _ _ (wf_range _ Hwf)).
  assert (Hn : nth_error (nzInds m) (length (nzInds m)) = None) by (apply nth_error_None; lia).
  rewrite Hn. destruct (Nat.eqb_spec x 0); [lia|]. eexists. split; [reflexivity|].
  unfold mi_Vector, ins_at. cbn [mi_refresh mi_length nzInds nzVals].
  rewrite firstn_all, skipn_all. rewrite (wf_len _ Hwf).
  rewrite firstn_all, skipn_all. rewrite combine_app by apply Hwf. rewrite ofold_app.
  destruct (Vector_loop (nzInds m) (nzVals m) (repeat 0 (mi_length m))) as (out & He & Hl & _);
    try apply Hwf.
  { rewrite repeat_length. apply Hwf. }
  rewrite He. cbn. unfold raw_set. rewrite Hl, repeat_length, Nat.ltb_irrefl. reflexivity.
Qed.

Lemma get_at_length m : wf m -> mi_Get m (mi_length m) = Ok 0.
Proof.
  intros Hwf. rewrite mi_Get_spec by auto. rewrite slook_ge; auto. apply Hwf.
Qed.
