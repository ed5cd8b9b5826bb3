(** What a density promises (contracts), and lemmas about the column-wise loops of DensityModel. *)
From Coq Require Import Reals List Lia Lra.
From Coquelicot Require Import Coquelicot.
From Verif Require Import Base SpecExpansion SpecMaps SpecDensity ExpansionModel ExpansionProofs MapsModel LeafModel MapsContract MapsProofs DensityModel.
Import ListNotations.
Local Open Scope R_scope.

(** A matrix with [n] rows; all its columns have that length. *)
Definition is_mat (n : nat) (m : matrix) : Prop := mx_rows m = n /\ Forall (fun c => length c = n) (mx_cols m).
(** Where entry j of a vector view is, that the view lies inside its buffer, and its entries. *)
Definition place (v : vecview) (j : nat) : nat := (v_off v + v_stride v * j)%nat.
Definition inside (n : nat) (v : vecview) : Prop :=
  v_len v = n /\ (0 < v_stride v)%nat /\ forall j, (j < n)%nat -> (place v j < length (v_buf v))%nat.
Definition entries (v : vecview) : list dbl := map (fun j => nth (place v j) (v_buf v) NaN) (seq 0 (v_len v)).
(** [v'] is the same view of the same buffer, and nothing outside the view has changed. *)
Definition only_entries (v v' : vecview) : Prop :=
  v_off v' = v_off v /\ v_stride v' = v_stride v /\ v_len v' = v_len v /\ length (v_buf v') = length (v_buf v) /\
  forall i, (forall j, (j < v_len v)%nat -> i <> place v j) -> nth_error (v_buf v') i = nth_error (v_buf v) i.

(** LogDensityImpl writes, for every matrix of n-vectors and output view with an admissible stride, values
    related to the points by [V], and nothing else. *)
Definition logdens (st : nat -> Prop) (D : density) (n : nat) (V : list R -> R -> Prop) : Prop :=
  forall pts out, is_mat n pts -> inside (length (mx_cols pts)) out -> st (v_stride out) ->
    exists out' vs, d_LogDensityImpl D pts out = Ok out' /\ only_entries out out' /\ entries out' = map Fin vs /\
      Forall2 V (mx_cols pts) vs.
(** LogDensityInputGradImpl writes [g] of every point into any output whose layout (rows, columns, strides) is admissible. *)
Definition layout := nat -> nat -> nat -> nat -> Prop.
Definition any_layout : layout := fun _ _ _ _ => True.
Definition right_layout : layout := fun r c s0 s1 => s0 = c /\ s1 = 1%nat.
Definition has_layout (L : layout) (m : matrix) : Prop := L (mx_rows m) (length (mx_cols m)) (mx_s0 m) (mx_s1 m).
Definition inputgrad (L : layout) (D : density) (n : nat) (g : list R -> list R) : Prop :=
  forall pts out, is_mat n pts -> is_mat n out -> length (mx_cols out) = length (mx_cols pts) -> has_layout L out ->
    d_InputGradImpl D pts out = Ok (same_layout out (map g (mx_cols pts))).

Lemma each_ok (f : list R -> list R -> outcome (list R)) (g : list R -> list R) n m : 
  (forall x o, length x = n -> length o = m -> f x o = Ok (g x)) ->
  forall pts out, Forall (fun c => length c = n) pts -> Forall (fun c => length c = m) out -> length out = length pts ->
    each f pts out = Ok (map g pts).
Proof.
  intros H. induction pts as [|p pts IH]; intros [|o out] Hp Ho L; try discriminate; auto. cbn [each map].
  inversion Hp; inversion Ho; subst. rewrite H by auto. cbn [obind]. rewrite IH by auto. reflexivity.
Qed.
Lemma each2_ok (f : list R -> list R -> list R -> outcome (list R)) (g : list R -> list R -> list R) n k m :
  (forall x s o, length x = n -> length s = k -> length o = m -> f x s o = Ok (g x s)) ->
  forall a b out, Forall (fun c => length c = n) a -> Forall (fun c => length c = k) b -> Forall (fun c => length c = m) out ->
    length b = length a -> length out = length a -> each2 f a b out = Ok (map (fun p => g (fst p) (snd p)) (combine a b)).
Proof.
  intros H. induction a as [|p a IH]; intros [|q b] [|o out] Ha Hb Ho L1 L2; try discriminate; auto. cbn [each2 map combine].
  inversion Ha; inversion Hb; inversion Ho; subst. rewrite H by auto. cbn [obind]. rewrite IH by auto. reflexivity.
Qed.
Lemma each_logdet_ok (f : list R -> option R -> outcome (option R)) (g : list R -> R) n :
  (forall x o, length x = n -> f x o = Ok (Some (g x))) ->
  forall pts, Forall (fun c => length c = n) pts -> each_logdet f pts = Ok (map (fun x => Fin (g x)) pts).
Proof.
  intros H. induction pts as [|p pts IH]; intros Hp; auto. cbn [each_logdet map]. inversion Hp; subst.
  rewrite H by auto. cbn [obind]. rewrite IH by auto. reflexivity.
Qed.
Lemma alloc_cols r n : Forall (fun c => length c = r) (mx_cols (alloc_mat r n)).
Proof. apply Forall_forall. intros c H. apply repeat_spec in H. subst. apply repeat_length. Qed.
Lemma alloc_len r n : length (mx_cols (alloc_mat r n)) = n.
Proof. apply repeat_length. Qed.
Lemma alloc_is_mat r n : is_mat r (alloc_mat r n).
Proof. split; [reflexivity|apply alloc_cols]. Qed.
Lemma alloc_right r n : has_layout right_layout (alloc_mat r n).
Proof. unfold has_layout, right_layout. cbn [alloc_mat right_mat mx_s0 mx_s1 mx_cols]. auto. Qed.
Lemma map_is_mat n m (f : list R -> list R) M cols : is_mat n M -> (forall x, length x = n -> length (f x) = m) -> cols = map f (mx_cols M) ->
  Forall (fun c => length c = m) cols.
Proof.
  intros [_ H] Hf ->. apply Forall_map. eapply Forall_impl; [|exact H]. auto.
Qed.

(** ** The element-wise update of a vector *)
Lemma nth_map_seq {A} (g : nat -> A) n j d : (j < n)%nat -> nth j (map g (seq 0 n)) d = g j.
Proof.
  intros H. rewrite (nth_indep _ d (g 0%nat)) by (rewrite map_length, seq_length; auto). rewrite map_nth, seq_nth by auto. reflexivity.
Qed.
Lemma place_inj v i j : (0 < v_stride v)%nat -> place v i = place v j -> i = j.
Proof. unfold place. intros H E. nia. Qed.
Lemma v_get_ok n v j : inside n v -> (j < n)%nat -> v_get v j = Ok (nth (place v j) (v_buf v) NaN).
Proof.
  intros (Hn & Hs & Hi) Hj. unfold v_get. rewrite Hn. destruct (Nat.ltb_spec j n); [|lia]. apply raw_get_ok. apply Hi. auto.
Qed.
Lemma v_set_ok n v j x : inside n v -> (j < n)%nat ->
  v_set v j x = Ok (MkVec (upd (v_buf v) (place v j) x) (v_off v) (v_stride v) (v_len v)).
Proof.
  intros (Hn & Hs & Hi) Hj. unfold v_set, raw_set. rewrite Hn. destruct (Nat.ltb_spec j n); [|lia].
  fold (place v j). specialize (Hi j Hj). destruct (Nat.ltb_spec (place v j) (length (v_buf v))); [reflexivity|lia].
Qed.
Lemma v_update_ok f n v (y : list dbl) : inside n v -> length y = n ->
  exists v', v_update f v y = Ok v' /\ only_entries v v' /\
    entries v' = map (fun p => f (fst p) (snd p)) (combine (entries v) y).
Proof.
  intros Hin Ly. pose proof Hin as (Hn & Hs & Hi).
  destruct (ofold_inv (fun v i => do a <- v_get v i; do b <- raw_get y i; v_set v i (f a b))
    (fun k w => only_entries v w /\ forall j, (j < n)%nat -> nth (place v j) (v_buf w) NaN =
       if (j <? k)%nat then f (nth (place v j) (v_buf v) NaN) (nth j y NaN) else nth (place v j) (v_buf v) NaN) n 0 v)
    as (v' & E & O & En).
  - split; [|intros j Hj; destruct (Nat.ltb_spec j 0); [lia|auto]]. repeat split; auto.
  - intros i w Hi' ((A1 & A2 & A3 & A4 & A5) & B). assert (Iw : inside n w).
    { split; [congruence|]. split; [congruence|]. intros j Hj. unfold place. rewrite A1, A2, A4. apply Hi. auto. }
    assert (Pw : forall j, place w j = place v j) by (intros j; unfold place; rewrite A1, A2; auto).
    eexists. split.
    { rewrite (v_get_ok n) by (auto; lia). cbn [obind]. rewrite (raw_get_ok y _ NaN) by lia. cbn [obind]. apply (v_set_ok n); auto. lia. }
    cbn [v_buf v_off v_stride v_len]. split.
    + split; [auto|]. split; [auto|]. split; [auto|]. cbn [v_buf]. split; [rewrite upd_length; auto|]. intros q Hq.
      rewrite nth_error_upd_neq; auto. rewrite Pw. intros E. apply (Hq i); [lia|auto].
    + intros j Hj. rewrite Pw. destruct (Nat.eq_dec j i) as [->|Nij].
      * rewrite nth_upd_eq by (rewrite A4; apply Hi; lia). destruct (Nat.ltb_spec i (S i)); [|lia].
        rewrite B by lia. destruct (Nat.ltb_spec i i); [lia|]. reflexivity.
      * rewrite nth_upd_neq by (intros E; apply (place_inj v) in E; auto; lia). rewrite B by auto.
        destruct (Nat.ltb_spec j i), (Nat.ltb_spec j (S i)); auto; lia.
  - exists v'. unfold v_update. rewrite Hn. split; [exact E|]. split; [exact O|].
    destruct O as (A1 & A2 & A3 & A4 & A5). unfold entries. rewrite A3, Hn.
    apply (nth_ext _ _ NaN NaN).
    { rewrite !map_length, combine_length, map_length, !seq_length. lia. }
    intros j Hj. rewrite map_length, seq_length in Hj.
    rewrite nth_map_seq by auto.
    rewrite (nth_indep (map _ (combine _ _)) NaN ((fun p : dbl * dbl => f (fst p) (snd p)) (NaN, NaN))) by (rewrite map_length, combine_length, map_length, seq_length; lia).
    rewrite map_nth with (f := fun p : dbl * dbl => f (fst p) (snd p)). rewrite combine_nth by (rewrite map_length, seq_length; auto).
    cbn [fst snd]. rewrite nth_map_seq by auto.
    replace (place v' j) with (place v j) by (unfold place; rewrite A1, A2; auto). rewrite En by auto.
    destruct (Nat.ltb_spec j (0 + n)); [auto|lia].
Qed.
Lemma only_entries_trans v v' v'' : only_entries v v' -> only_entries v' v'' -> only_entries v v''.
Proof.
  intros (A1 & A2 & A3 & A4 & A5) (B1 & B2 & B3 & B4 & B5). repeat split; try congruence.
  intros i Hi. rewrite B5, A5; auto. intros j Hj. unfold place. rewrite A1, A2. apply Hi. congruence.
Qed.
Lemma only_entries_inside n v v' : inside n v -> only_entries v v' -> inside n v'.
Proof.
  intros (Hn & Hs & Hi) (A1 & A2 & A3 & A4 & A5). split; [congruence|]. split; [congruence|].
  intros j Hj. unfold place. rewrite A1, A2, A4. apply Hi. auto.
Qed.
Lemma alloc_inside n : inside n (alloc_vec n).
Proof.
  split; [reflexivity|]. split; [cbn; lia|]. intros j Hj. cbn [alloc_vec place v_buf v_off v_stride]. unfold place. cbn. rewrite repeat_length. lia.
Qed.

(** The allocating LogDensity returns the entries. *)
Lemma LogDensity_ok st D n V pts : logdens st D n V -> st 1%nat -> is_mat n pts ->
  exists vs, d_LogDensity D pts = Ok (map Fin vs) /\ Forall2 V (mx_cols pts) vs.
Proof.
  intros H H1 Hp. destruct (H pts (alloc_vec (length (mx_cols pts))) Hp (alloc_inside _) H1) as (out & vs & E & O & En & F).
  exists vs. split; auto. unfold d_LogDensity. rewrite E. cbn [obind]. f_equal. rewrite <- En.
  destruct O as (A1 & A2 & A3 & A4 & _). cbn in A1, A2, A3, A4. rewrite repeat_length in A4. unfold entries, place. rewrite A1, A2, A3, <- A4.
  apply (nth_ext _ _ NaN NaN); [rewrite map_length, seq_length; auto|]. intros j Hj.
  rewrite nth_map_seq by auto. f_equal. lia.
Qed.
Lemma LogDensityInputGrad_ok (L : layout) D n g pts : inputgrad L D n g -> (forall r c, L r c c 1%nat) -> is_mat n pts ->
  d_LogDensityInputGrad D pts = Ok (right_mat n (map g (mx_cols pts))).
Proof.
  intros H HL Hp. unfold d_LogDensityInputGrad. rewrite H; auto.
  - unfold same_layout, right_mat, alloc_mat. cbn [mx_rows mx_s0 mx_s1 right_mat]. rewrite repeat_length, map_length. destruct Hp as [-> _]. reflexivity.
  - destruct Hp as [<- _]. apply alloc_is_mat.
  - apply alloc_len.
  - unfold has_layout. cbn [alloc_mat right_mat mx_rows mx_cols mx_s0 mx_s1]. apply HL.
Qed.
