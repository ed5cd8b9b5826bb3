(** Property C76: multi-indices in Python and Julia behave as sequences. *)
From Verif Require Import Base SpecMulti SpecSeq MultiIndexModel MISetModel MISetInv MISetOps MISetForce MISetLimFill MISetHist
  FixedSetModel FixedSetProofs PropMulti PropMISet PropFixed BindModel MultiIndexProofs.
Local Open Scope Z_scope.

Ltac zb := repeat match goal with
  | |- context [?a <=? ?b] => destruct (Z.leb_spec a b); try lia
  | |- context [?a <? ?b] => destruct (Z.ltb_spec a b); try lia
  end.

Lemma as_uint_in z : 0 <= z < two32 -> as_uint z = Some (Z.to_nat z).
Proof. intros H. unfold as_uint. zb. reflexivity. Qed.
Lemma as_uint_out z : ~ 0 <= z < two32 -> as_uint z = None.
Proof. intros H. unfold as_uint. zb; reflexivity. Qed.
Lemma as_int_in z : - two31 <= z < two31 -> as_int z = Some z.
Proof. intros H. unfold as_int. zb. reflexivity. Qed.
Lemma as_int_out z : ~ - two31 <= z < two31 -> as_int z = None.
Proof. intros H. unfold as_int. zb; reflexivity. Qed.
Lemma to_unsigned_in z : 0 <= z < two32 -> to_unsigned z = Z.to_nat z.
Proof. intros H. unfold to_unsigned. rewrite Z.mod_small; auto. Qed.
Lemma to_unsigned_neg z : - two32 <= z < 0 -> to_unsigned z = Z.to_nat (two32 + z).
Proof.
  intros H. unfold to_unsigned. f_equal. symmetry. apply (Z.mod_unique_pos z two32 (-1)); unfold two32 in *; lia.
Qed.

Lemma getitem_in m v i : reach m -> mi_Vector m = Ok v -> 0 <= i < Z.of_nat (length v) -> Z.of_nat (length v) < two32 ->
  py_getitem m i = Val (nth (Z.to_nat i) v 0%nat).
Proof.
  intros Hr Hv Hi Hl. apply reach_wf in Hr. rewrite mi_Vector_spec in Hv by auto. injection Hv as <-.
  rewrite dense_length in *. unfold py_getitem. rewrite as_uint_in, mi_Get_dense by (auto; lia). reflexivity.
Qed.

Lemma getitem_len m v : reach m -> mi_Vector m = Ok v -> Z.of_nat (length v) < two32 ->
  py_getitem m (Z.of_nat (length v)) = Val 0%nat.
Proof.
  intros Hr Hv Hl. apply reach_wf in Hr. rewrite mi_Vector_spec in Hv by auto. injection Hv as <-.
  rewrite dense_length in *. unfold py_getitem. rewrite as_uint_in, Nat2Z.id, get_at_length by (auto; lia). reflexivity.
Qed.

Lemma getitem_past m v i : reach m -> mi_Vector m = Ok v -> Z.of_nat (length v) < i < two32 -> py_getitem m i = IndexError.
Proof.
  intros Hr Hv Hi. apply reach_wf in Hr. rewrite mi_Vector_spec in Hv by auto. injection Hv as <-.
  rewrite dense_length in *. unfold py_getitem. rewrite as_uint_in by lia. unfold mi_Get.
  destruct (Nat.ltb_spec (mi_length m) (Z.to_nat i)); [reflexivity|lia].
Qed.

(** The multi-index after in-range assignments from Python holds the values written, m[i] returns the
    entry, len(m) the number of entries; negative or huge indices give a TypeError, indices above
    len(m) an IndexError. *)
Theorem C76_items_partial :
  forall (v : vec) (h : list (Z * Z)),
    Z.of_nat (length v) < two32 ->
    Forall (fun p => 0 <= fst p < Z.of_nat (length v) /\ 0 <= snd p < two32) h ->
    exists m, py_assign (mi_of_vec v) h = Val m /\
      let w := vwrites v (map (fun p => (Z.to_nat (fst p), Z.to_nat (snd p))) h) in
      mi_Vector m = Ok w /\ py_len m = length v /\
      (forall i, 0 <= i < Z.of_nat (length v) -> py_getitem m i = Val (nth (Z.to_nat i) w 0%nat)) /\
      (forall i x, i < 0 \/ two32 <= i -> py_getitem m i = TypeError /\ py_setitem m i x = TypeError) /\
      (forall i x, Z.of_nat (length v) < i < two32 -> 0 <= x < two32 ->
         py_getitem m i = IndexError /\ py_setitem m i x = IndexError).
Proof.
  intros v h Hl Hh.
  assert (G : forall h m, reach m -> mi_length m = length v ->
    Forall (fun p => 0 <= fst p < Z.of_nat (length v) /\ 0 <= snd p < two32) h ->
    exists m', py_assign m h = Val m' /\ reach m' /\ mi_length m' = length v /\
      dense m' = vwrites (dense m) (map (fun p => (Z.to_nat (fst p), Z.to_nat (snd p))) h)).
  { clear h Hh. induction h as [|[i x] h IH]; intros m Hr Hm Hh.
    - exists m. auto.
    - apply Forall_inv in Hh as Hp. apply Forall_inv_tail in Hh. cbn [fst snd] in Hp.
      assert (Hw := reach_wf m Hr). destruct (mi_Set_spec m (Z.to_nat i) (Z.to_nat x) Hw) as (m1 & E & W1 & L1 & D1); [lia|].
      destruct (IH m1) as (m2 & E2 & R2 & L2 & D2); auto.
      { eapply reach_set; [exact Hr| |exact E]. lia. } { lia. }
      exists m2. cbn [py_assign]. unfold py_setitem. rewrite !as_uint_in by lia. rewrite E. cbn [obind to_py fst].
      split; [exact E2|]. split; auto. split; auto. rewrite D2, D1. reflexivity. }
  destruct (G h (mi_of_vec v) (reach_vec v)) as (m & E & R & L & D); auto.
  { rewrite mi_of_vec_spec. reflexivity. }
  rewrite dense_of_vec in D. exists m. split; [exact E|]. cbv zeta. rewrite <- D.
  assert (HV : mi_Vector m = Ok (dense m)) by (apply mi_Vector_spec, reach_wf; auto).
  assert (HL : length (dense m) = length v) by (rewrite dense_length; auto).
  split; [exact HV|]. split; [exact L|]. split; [|split].
  - intros i Hi. apply (getitem_in m (dense m)); auto; rewrite HL; auto.
  - intros i x Hi. unfold py_getitem, py_setitem. rewrite as_uint_out by (unfold two32 in *; lia). auto.
  - intros i x Hi Hx. split; [apply (getitem_past m (dense m)); auto; rewrite HL; auto|].
    unfold py_setitem. rewrite !as_uint_in by lia. unfold mi_Set. destruct (Nat.ltb_spec (mi_length m) (Z.to_nat i)); [reflexivity|lia].
Qed.
Print Assumptions C76_items_partial.

Example C76_items_example : exists m, py_assign (mi_of_vec [1;0;2]%nat) [(1, 7); (0, 0)] = Val m /\
  mi_Vector m = Ok [0;7;2]%nat /\ py_getitem m 1 = Val 7%nat /\ py_getitem m (-1) = TypeError /\ py_getitem m 4 = IndexError.
Proof. eexists. split; [reflexivity|]. repeat split. Qed.

Lemma visits_from {A} (get : Z -> pyres A) (tail : list A) : forall (l : list A) i,
  (forall k x, nth_error l k = Some x -> get (i + Z.of_nat k) = Val x) ->
  visits get (i + Z.of_nat (length l)) tail -> visits get i (l ++ tail).
Proof.
  induction l as [|x l IH]; intros i H He.
  - cbn [length Z.of_nat] in He. rewrite Z.add_0_r in He. exact He.
  - cbn [app]. apply vis_next.
    + specialize (H 0%nat x eq_refl). rewrite Z.add_0_r in H. exact H.
    + apply IH.
      * intros k y Hk. rewrite <- (H (Datatypes.S k) y Hk). f_equal. lia.
      * replace (i + 1 + Z.of_nat (length l)) with (i + Z.of_nat (length (x :: l))) by (cbn [length]; lia). exact He.
Qed.

Lemma visits_back_from {A} (get : Z -> pyres A) : forall (l : list A),
  (forall k x, nth_error l k = Some x -> get (Z.of_nat k) = Val x) ->
  visits_back get (Z.of_nat (length l) - 1) (rev l).
Proof.
  intros l. induction l as [|x l IH] using rev_ind; intros H.
  - apply vb_end. cbn. lia.
  - rewrite rev_app_distr, app_length. cbn [rev app length].
    replace (Z.of_nat (length l + 1) - 1) with (Z.of_nat (length l)) by lia. apply vb_next.
    + lia.
    + apply H. rewrite nth_error_app2 by lia. rewrite Nat.sub_diag. reflexivity.
    + apply IH. intros k y Hk. apply H. rewrite nth_error_app1; auto. apply nth_error_Some. congruence.
Qed.

(** A for loop over any multi-index sees its entries and then one zero that is not an entry; so it
    never sees just the entries. *)
Theorem C76_loop_refuted :
  forall m v, reach m -> mi_Vector m = Ok v -> Z.of_nat (length v) + 1 < two32 ->
    loop (py_getitem m) (v ++ [0%nat]) /\ ~ loop (py_getitem m) v.
Proof.
  intros m v Hr Hv Hl.
  assert (G : loop (py_getitem m) (v ++ [0%nat])).
  { apply visits_from.
    - intros k x Hk. assert (Hk' : (k < length v)%nat) by (apply nth_error_Some; congruence). rewrite Z.add_0_l.
      rewrite (getitem_in m v) by (auto; lia). rewrite Nat2Z.id. f_equal. apply nth_error_nth. exact Hk.
    - rewrite Z.add_0_l. apply vis_next; [apply getitem_len; auto; lia|]. apply vis_end. apply (getitem_past m v); auto. lia. }
  split; [exact G|]. intros H. assert (E := visits_det _ _ _ G _ H). apply (f_equal (@length nat)) in E.
  rewrite app_length in E. cbn in E. lia.
Qed.
Print Assumptions C76_loop_refuted.

(** In particular [0 in m] is always true. *)
Theorem C76_contains_zero_refuted :
  forall m v, reach m -> mi_Vector m = Ok v -> Z.of_nat (length v) + 1 < two32 -> contains (py_getitem m) 0%nat.
Proof.
  intros m v Hr Hv Hl. exists (v ++ [0%nat]). split; [apply C76_loop_refuted; auto|]. apply in_or_app. right. left. reflexivity.
Qed.
Print Assumptions C76_contains_zero_refuted.

(** After m[len(m)] = x, which Python accepts, tolist is undefined although a loop sees the x. *)
Theorem C76_assign_at_length_refuted :
  forall m v x, reach m -> mi_Vector m = Ok v -> Z.of_nat (length v) < two32 -> 0 < x < two32 ->
    exists m', py_setitem m (Z.of_nat (py_len m)) x = Val m' /\ mi_Vector m' = UB.
Proof.
  intros m v x Hr Hv Hl Hx. destruct (C03_boundary_index_refuted m (Z.to_nat x) Hr) as (_ & m' & E & U); [lia|].
  exists m'. split; [|exact U]. apply reach_wf in Hr. rewrite mi_Vector_spec in Hv by auto. injection Hv as <-.
  rewrite dense_length in Hl. unfold py_setitem, py_len. rewrite !as_uint_in by (unfold mi_Length; lia).
  rewrite Nat2Z.id, E. reflexivity.
Qed.
Print Assumptions C76_assign_at_length_refuted.

(** reversed(m) does visit exactly the entries. *)
Theorem C76_reversed :
  forall m v, reach m -> mi_Vector m = Ok v -> Z.of_nat (length v) < two32 ->
    loop_reversed (py_getitem m) (py_len m) (rev v).
Proof.
  intros m v Hr Hv Hl. assert (Hn : py_len m = length v).
  { apply reach_wf in Hr. rewrite mi_Vector_spec in Hv by auto. injection Hv as <-. rewrite dense_length. reflexivity. }
  rewrite Hn. apply visits_back_from. intros k x Hk. assert (Hk' : (k < length v)%nat) by (apply nth_error_Some; congruence).
  rewrite (getitem_in m v) by (auto; lia). rewrite Nat2Z.id. f_equal. apply nth_error_nth. exact Hk.
Qed.
Print Assumptions C76_reversed.

Example C76_loop_example : loop (py_getitem (mi_of_vec [3;1]%nat)) [3;1;0]%nat /\
  loop_reversed (py_getitem (mi_of_vec [3;1]%nat)) 2 [1;3]%nat.
Proof.
  split.
  - apply (C76_loop_refuted (mi_of_vec [3;1]%nat) [3;1]%nat); [apply reach_vec|reflexivity|reflexivity].
  - apply (C76_reversed (mi_of_vec [3;1]%nat) [3;1]%nat); [apply reach_vec|reflexivity|reflexivity].
Qed.

(** ** Sets *)

Lemma pys_in s i v : base s -> Z.of_nat (ms_Size s) <= two31 -> nth_error (actives s) i = Some v ->
  pys_getitem s (Z.of_nat i) = Val v.
Proof.
  intros B Hs Hi. assert (Hlt : (i < ms_Size s)%nat).
  { rewrite <- actives_length. apply nth_error_Some. congruence. }
  unfold pys_getitem. rewrite as_int_in by (unfold two31 in *; lia). rewrite to_unsigned_in by (unfold two31, two32 in *; lia).
  rewrite Nat2Z.id, IndexToMulti_spec, Hi by auto. reflexivity.
Qed.

Lemma pys_out s i : base s -> Z.of_nat (ms_Size s) <= two31 -> - two31 <= i < two31 -> i < 0 \/ Z.of_nat (ms_Size s) <= i ->
  pys_getitem s i = IndexError.
Proof.
  intros B Hs Hi Ho. unfold pys_getitem. rewrite as_int_in by auto. rewrite IndexToMulti_spec by auto.
  assert (E : nth_error (actives s) (to_unsigned i) = None); [|rewrite E; reflexivity].
  apply nth_error_None. rewrite actives_length. destruct Ho as [Ho|Ho].
  - rewrite to_unsigned_neg by (unfold two31, two32 in *; lia). unfold two31, two32 in *. lia.
  - rewrite to_unsigned_in by (unfold two31, two32 in *; lia). lia.
Qed.

(** A for loop over a set visits every member exactly once, in the order of IndexToMulti; s[i] is
    the i-th member; every other index raises. *)
Theorem C76_set_loop :
  forall d s, any_history d s -> Z.of_nat (ms_Size s) < two31 ->
    (exists l, loop (pys_getitem s) l /\ length l = ms_Size s /\ NoDup l /\
       (forall v, In v l <-> member s v) /\
       (forall i, (i < ms_Size s)%nat -> ms_IndexToMulti s i = Ok (nth i l []))) /\
    (forall v, contains (pys_getitem s) v <-> member s v) /\
    (forall i v, 0 <= i < Z.of_nat (ms_Size s) -> (pys_getitem s i = Val v <-> ms_IndexToMulti s (Z.to_nat i) = Ok v)) /\
    (forall i, ~ 0 <= i < Z.of_nat (ms_Size s) -> pys_getitem s i = IndexError \/ pys_getitem s i = TypeError).
Proof.
  intros d s H Hs. destruct (any_history_inv d s H) as (B & D & Hl).
  assert (V : loop (pys_getitem s) (actives s)).
  { rewrite <- (app_nil_r (actives s)). apply visits_from.
    - intros k x Hk. rewrite Z.add_0_l. apply pys_in; auto. lia.
    - rewrite Z.add_0_l, actives_length. apply vis_end. apply pys_out; auto; unfold two31 in *; lia. }
  split; [|split; [|split]].
  - exists (actives s). split; [exact V|]. split; [apply actives_length|]. split; [apply NoDup_actives; auto|]. split.
    + intros v. rewrite member_active by auto. reflexivity.
    + intros i Hi. apply index_nth; auto. apply nth_error_nth'. rewrite actives_length. exact Hi.
  - intros v. rewrite member_active by auto. split.
    + intros (l & Hv & Hin). unfold active. rewrite (visits_det _ _ _ V _ Hv). exact Hin.
    + intros Hin. exists (actives s). split; auto.
  - intros i v Hi. destruct (nth_error (actives s) (Z.to_nat i)) as [w|] eqn:E.
    + rewrite IndexToMulti_spec, E by auto. rewrite <- (Z2Nat.id i) by lia. rewrite (pys_in s (Z.to_nat i) w) by (auto; lia).
      split; congruence.
    + apply nth_error_None in E. rewrite actives_length in E. lia.
  - intros i Hi. destruct (Z_lt_dec i (- two31)); [right|destruct (Z_lt_dec i two31); [left|right]].
    + unfold pys_getitem. rewrite as_int_out by lia. reflexivity.
    + apply pys_out; auto; unfold two31 in *; lia.
    + unfold pys_getitem. rewrite as_int_out by lia. reflexivity.
Qed.
Print Assumptions C76_set_loop.

(** len(s) is the dimension, so reversed(s) runs through the first [d] members only, and through none
    when there are fewer. *)
Theorem C76_set_reversed_refuted :
  forall d s, any_history d s -> Z.of_nat (ms_Size s) < two31 -> Z.of_nat d <= two31 ->
    exists l, loop (pys_getitem s) l /\
      loop_reversed (pys_getitem s) (pys_len s) (if (d <=? ms_Size s)%nat then rev (firstn d l) else []).
Proof.
  intros d s H Hs Hd. destruct (any_history_inv d s H) as (B & D & Hl).
  destruct (proj1 (C76_set_loop d s H Hs)) as (l & V & L & _ & _ & Hn). exists l. split; [exact V|].
  unfold loop_reversed, pys_len. rewrite D. destruct (Nat.leb_spec d (ms_Size s)) as [Hle|Hlt].
  - assert (E : length (firstn d l) = d) by (rewrite firstn_length; lia). rewrite <- E at 1. apply visits_back_from.
    intros k x Hk. assert (Hk' : (k < length (firstn d l))%nat) by (apply nth_error_Some; congruence). rewrite E in Hk'.
    apply pys_in; auto; [lia|]. apply index_nth; auto. rewrite Hn by lia. f_equal.
    assert (Hl2 : nth_error l k = Some x).
    { rewrite <- (firstn_skipn d l). rewrite nth_error_app1 by lia. exact Hk. }
    apply nth_error_nth. exact Hl2.
  - apply vb_stop; [lia|]. apply pys_out; auto; unfold two31 in *; lia.
Qed.
Print Assumptions C76_set_reversed_refuted.

(** The total-order set of two variables and order one: three members; len is 2, a loop sees three, a reversed
    loop the first two only. *)
Example C76_set_example : any_history 2 t21 /\ ms_Size t21 = 3%nat /\ pys_len t21 = 2%nat /\
  loop (pys_getitem t21) [[0;0];[0;1];[1;0]]%nat /\ loop_reversed (pys_getitem t21) (pys_len t21) [[0;1];[0;0]]%nat.
Proof.
  assert (H : any_history 2 t21) by (right; exists never, any; apply r_start, t21_start).
  assert (V : loop (pys_getitem t21) [[0;0];[0;1];[1;0]]%nat).
  { repeat (apply vis_next; [reflexivity|]). apply vis_end. reflexivity. }
  split; [exact H|]. split; [reflexivity|]. split; [reflexivity|]. split; [exact V|].
  destruct (C76_set_reversed_refuted 2 t21 H) as (l & Hl & Hr); [reflexivity|discriminate|].
  rewrite (visits_det _ _ _ Hl _ V) in Hr. exact Hr.
Qed.

(** ** Julia *)

(** Indices 1 to length(m) reach the entries in order; index 0 and everything above length(m) + 1 throw. *)
Theorem C76_julia_partial :
  forall m v, reach m -> mi_Vector m = Ok v -> Z.of_nat (length v) + 1 < two32 ->
    (forall k, (1 <= k <= length v)%nat -> jl_getindex m k = Ok (nth (k - 1) v 0%nat) /\
       forall x, exists m', jl_setindex m x k = Ok m' /\ mi_Vector m' = Ok (vset v (k - 1) x)) /\
    (forall k x, k = 0%nat \/ (length v + 1 < k)%nat /\ Z.of_nat k < two32 ->
       jl_getindex m k = Throw /\ jl_setindex m x k = Throw).
Proof.
  intros m v Hr Hv Hl. assert (Hw := reach_wf m Hr). rewrite mi_Vector_spec in Hv by auto. injection Hv as <-.
  rewrite dense_length in *. split.
  - intros k Hk. unfold jl_getindex, jl_setindex.
    assert (E : to_unsigned (Z.of_nat k - 1) = (k - 1)%nat) by (rewrite to_unsigned_in; lia). rewrite E.
    split; [apply mi_Get_dense; auto; lia|]. intros x.
    destruct (mi_Set_spec m (k - 1) x Hw) as (m' & Em & W & _ & Dm); [lia|]. exists m'. rewrite Em. cbn [obind fst].
    split; auto. rewrite mi_Vector_spec by auto. congruence.
  - intros k x Hk. unfold jl_getindex, jl_setindex, mi_Get, mi_Set.
    assert (E : (mi_length m < to_unsigned (Z.of_nat k - 1))%nat).
    { destruct Hk as [->|Hk]; [rewrite to_unsigned_neg by (unfold two32; lia); unfold two32 in *; lia|].
      rewrite to_unsigned_in by lia. lia. }
    apply Nat.ltb_lt in E. rewrite E. auto.
Qed.
Print Assumptions C76_julia_partial.

(** Index length(m) + 1 is accepted. *)
Theorem C76_julia_refuted :
  forall m v, reach m -> mi_Vector m = Ok v -> Z.of_nat (length v) + 1 < two32 -> jl_getindex m (length v + 1) = Ok 0%nat.
Proof.
  intros m v Hr Hv Hl. assert (Hw := reach_wf m Hr). rewrite mi_Vector_spec in Hv by auto. injection Hv as <-.
  rewrite dense_length in *. unfold jl_getindex. rewrite to_unsigned_in by lia.
  replace (Z.to_nat (Z.of_nat (mi_length m + 1) - 1)) with (mi_length m) by lia. apply get_at_length. auto.
Qed.
Print Assumptions C76_julia_refuted.

(** In a set index [i] is the member at position [i - 1], and every other index throws, except the least
    Int32, for which the subtraction is undefined. *)
Theorem C76_julia_set :
  forall d s, any_history d s -> Z.of_nat (ms_Size s) <= two31 ->
    (forall i v, 1 <= i <= Z.of_nat (ms_Size s) -> (jls_getindex s i = Ok v <-> ms_IndexToMulti s (Z.to_nat i - 1) = Ok v)) /\
    (forall i, - two31 < i < two31 -> ~ 1 <= i <= Z.of_nat (ms_Size s) -> jls_getindex s i = Throw) /\
    jls_getindex s (- two31) = UB.
Proof.
  intros d s H Hs. destruct (any_history_inv d s H) as (B & D & Hl). split; [|split].
  - intros i v Hi. unfold jls_getindex. destruct (Z.eqb_spec i (- two31)); [unfold two31 in *; lia|].
    rewrite to_unsigned_in by (unfold two31, two32 in *; lia). replace (Z.to_nat (i - 1)) with (Z.to_nat i - 1)%nat by lia. reflexivity.
  - intros i Hi Ho. unfold jls_getindex. destruct (Z.eqb_spec i (- two31)); [lia|]. rewrite IndexToMulti_spec by auto.
    assert (E : nth_error (actives s) (to_unsigned (i - 1)) = None); [|rewrite E; reflexivity].
    apply nth_error_None. rewrite actives_length. destruct (Z_lt_dec i 1).
    + rewrite to_unsigned_neg by (unfold two31, two32 in *; lia). unfold two31, two32 in *. lia.
    + rewrite to_unsigned_in by (unfold two31, two32 in *; lia). lia.
  - unfold jls_getindex. rewrite Z.eqb_refl. reflexivity.
Qed.
Print Assumptions C76_julia_set.

Example C76_julia_example : jl_getindex (mi_of_vec [3;1]%nat) 1 = Ok 3%nat /\ jl_getindex (mi_of_vec [3;1]%nat) 0 = Throw /\
  jl_getindex (mi_of_vec [3;1]%nat) 3 = Ok 0%nat /\ jls_getindex t21 3 = Ok [1;0]%nat /\ jls_getindex t21 0 = Throw.
Proof.
  destruct (C76_julia_partial (mi_of_vec [3;1]%nat) [3;1]%nat (reach_vec _) eq_refl eq_refl) as [H1 H2].
  split; [apply H1; cbn; lia|]. split; [apply (H2 0%nat 0%nat); auto|]. split.
  - apply (C76_julia_refuted (mi_of_vec [3;1]%nat) [3;1]%nat (reach_vec _) eq_refl eq_refl).
  - destruct C76_set_example as (H & _). destruct (C76_julia_set 2 t21 H) as (G1 & G2 & _); [discriminate|]. split.
    + apply G1; [|reflexivity]. split; [discriminate|]. discriminate.
    + apply G2; [split; reflexivity|]. intros [G _]. apply G. reflexivity.
Qed.

(** ** Fixed sets built from arrays *)

Lemma later_keeps h h' : later h h' -> forall a e, nth_error h a = Some e -> (forall l, e <> (Caller, Some l)) -> nth_error h' a = Some e.
Proof.
  assert (X : forall (h t : memory) a c, nth_error h a = Some c -> nth_error (h ++ t) a = Some c).
  { intros h0 t a c Ha. rewrite nth_error_app1; auto. apply nth_error_Some. congruence. }
  assert (Y : forall (h : memory) b x a c, (exists y, nth_error h b = Some (Caller, Some y)) ->
    nth_error h a = Some c -> (forall l, c <> (Caller, Some l)) -> nth_error (upd h b x) a = Some c).
  { intros h0 b x a c (y & Hy) Ha Hc. rewrite nth_error_upd_neq; auto. intros ->. rewrite Hy in Ha. injection Ha as <-. apply (Hc y). reflexivity. }
  induction 1 as [h|h l h' H IH|h b l h' Hb H IH|h b h' Hb H IH|h d o h1 p h' E H IH|h d s i o h1 p h' E H IH]; intros a c Ha Hc; auto.
  - apply IH; auto. unfold py_fixed_dense in E. destruct (f_make_dense d o); cbn [obind] in E; try discriminate E.
    injection E as <- <-. apply X. exact Ha.
  - apply IH; auto. unfold py_fixed_compressed in E. destruct (f_make_compressed d s i o); cbn [obind] in E; try discriminate E.
    injection E as <- <-. apply X. exact Ha.
Qed.

(** A set built from the three arrays of the compressed form answers as the C++ object built from their
    values, whatever the program does with its arrays afterwards. *)
Theorem C76_fixed_copies :
  forall h d starts dims orders f, f_make_compressed d starts dims orders = Ok f ->
    exists h1 p, py_fixed_compressed h d starts dims orders = Ok (h1, p) /\
      forall h', later h1 h' ->
        fo_Length p = f_Length f /\ fo_Size p = f_Size f /\ fo_MaxDegrees p = f_MaxDegrees f /\
        (forall i, fo_IndexToMulti h' p i = f_IndexToMulti f i) /\
        (forall v, fo_MultiToIndex h' p v = f_MultiToIndex f v).
Proof.
  intros h d st di o f Hf. unfold py_fixed_compressed. rewrite Hf. cbn [obind]. do 2 eexists. split; [reflexivity|].
  intros h' HL. assert (G := later_keeps _ _ HL).
  unfold f_make_compressed in Hf. destruct (calc_max d di o) as [mx| | |] eqn:E; cbn [obind] in Hf; try discriminate Hf.
  injection Hf as <-. cbn [fcomp fmax] in *.
  assert (V : forall k c, nth_error [(Library, Some st); (Library, Some di); (Library, Some o)] k = Some (Library, Some c) ->
    nth_error h' (length h + k) = Some (Library, Some c)).
  { intros k c Hk. apply G; [|discriminate]. rewrite nth_error_app2 by lia. replace (length h + k - length h)%nat with k by lia. exact Hk. }
  assert (DE : deref h' (MkFO d true (length h, length st) (Datatypes.S (length h), length di) (Datatypes.S (Datatypes.S (length h)), length o) mx)
    = MkF d true st di o mx).
  { unfold deref, view_of, contents. cbn [fst fo_dim fo_comp fo_starts fo_dims fo_orders fo_max].
    assert (V0 := V 0%nat st eq_refl). assert (V1 := V 1%nat di eq_refl). assert (V2 := V 2%nat o eq_refl).
    rewrite Nat.add_0_r in V0. rewrite Nat.add_1_r in V1.
    replace (length h + 2)%nat with (Datatypes.S (Datatypes.S (length h))) in V2 by lia.
    rewrite V0, V1, V2. reflexivity. }
  split; [reflexivity|]. split; [reflexivity|]. split; [reflexivity|]. split.
  - intros i. unfold fo_IndexToMulti. rewrite DE. reflexivity.
  - intros v. unfold fo_MultiToIndex. cbn [fo_comp]. rewrite DE. reflexivity.
Qed.
Print Assumptions C76_fixed_copies.

(** A set built from the one array of the dense form answers Length, Size and MaxDegrees, but every
    IndexToMulti reads released memory, at once and whatever follows; and so does a search for any
    multi-index of the right length when the set has a member. *)
Theorem C76_fixed_dense_refuted :
  forall h d orders f, (0 < d)%nat -> f_make_dense d orders = Ok f ->
    exists h1 p, py_fixed_dense h d orders = Ok (h1, p) /\
      fo_Length p = d /\ fo_Size p = f_Size f /\ fo_MaxDegrees p = f_MaxDegrees f /\
      forall h', later h1 h' ->
        (forall i, fo_IndexToMulti h' p i = UB) /\
        (forall v, length v = d -> (0 < f_Size f)%nat -> fo_MultiToIndex h' p v = UB).
Proof.
  intros h d o f Hd Hf. unfold py_fixed_dense. rewrite Hf. cbn [obind]. do 2 eexists. split; [reflexivity|].
  assert (F : fcomp f = false /\ f_Size f = (length o / d)%nat).
  { unfold f_make_dense in Hf. destruct (d =? 0)%nat; [discriminate Hf|].
    destruct (ofold _ _ (repeat 0%nat (length o / d + 1))) eqn:E1; cbn [obind] in Hf; try discriminate Hf.
    destruct (ofold _ _ (repeat 0%nat (length o))) eqn:E2; cbn [obind] in Hf; try discriminate Hf.
    destruct (calc_max d a0 o) eqn:E3; cbn [obind] in Hf; try discriminate Hf. injection Hf as <-. auto. }
  destruct F as [F1 F2]. rewrite F1.
  split; [reflexivity|]. split; [symmetry; exact F2|]. split; [reflexivity|]. intros h' HL.
  assert (N : nth_error h' (Datatypes.S (Datatypes.S (length h))) = Some (Caller, None)).
  { apply (later_keeps _ _ HL); [|discriminate]. rewrite nth_error_app2 by lia.
    replace (Datatypes.S (Datatypes.S (length h)) - length h)%nat with 2%nat by lia. reflexivity. }
  assert (O : forall n, view_of h' (Datatypes.S (Datatypes.S (length h)), n) = []).
  { intros n. unfold view_of, contents. cbn [fst]. rewrite N. reflexivity. }
  assert (Z0 : forall k, raw_get (@nil nat) k = UB) by (intros [|k]; reflexivity).
  split.
  - intros i. unfold fo_IndexToMulti, f_IndexToMulti, deref. cbn [fo_comp fo_dim fo_orders fcomp fdim forders]. rewrite O.
    destruct d as [|d]; [lia|]. cbn [seq ofold]. rewrite Z0. reflexivity.
  - intros v Hv Hs. unfold fo_MultiToIndex, fo_Size. cbn [fo_comp fo_dim fo_orders snd]. rewrite O. rewrite F2 in Hs.
    destruct (length o / d)%nat as [|n]; [lia|]. cbn [seq ofind]. destruct d as [|d]; [lia|]. cbn [seq oforall].
    destruct v as [|x v]; [discriminate Hv|]. unfold at_ at 1. cbn [nth_error obind]. rewrite Z0. reflexivity.
Qed.
Print Assumptions C76_fixed_dense_refuted.

(** Both constructors succeed on the set {(0,1), (2,0)}. *)
Example C76_fixed_example :
  (exists f, f_make_compressed 2 [0;1;2]%nat [1;0]%nat [1;2]%nat = Ok f /\ f_IndexToMulti f 1 = Ok [2;0]%nat) /\
  (exists f, f_make_dense 2 [0;1;2;0]%nat = Ok f /\ f_Size f = 2%nat /\ f_IndexToMulti f 1 = Ok [2;0]%nat) /\
  (exists h1 p h2, py_fixed_compressed [(Caller, Some [1;2]%nat)] 2 [0;1;2]%nat [1;0]%nat [1;2]%nat = Ok (h1, p) /\
     later h1 h2 /\ nth_error h2 0 = Some (Caller, None) /\ fo_IndexToMulti h2 p 1 = Ok [2;0]%nat).
Proof.
  split; [eexists; split; reflexivity|]. split; [eexists; repeat split; reflexivity|].
  do 3 eexists. split; [reflexivity|]. split.
  - apply (l_free _ 0%nat); [eexists; reflexivity|]. apply l_done.
  - split; reflexivity.
Qed.
