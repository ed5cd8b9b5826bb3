(** Property C79: multi-indices and their sets in MATLAB count from 1. *)
From Coq Require Import ZArith String.
From Verif Require Import Base SpecMulti SpecMatlab MultiIndexModel MultiIndexProofs MISetModel MISetInv MISetOps MISetForce MISetLimFill MISetHist
  FixedSetModel FixedSetProofs PropMulti PropMISet PropFixed MatSetModel.
Local Open Scope Z_scope.

(** ** Numbers *)

Ltac zb := repeat match goal with
  | |- context [?a <=? ?b] => destruct (Z.leb_spec a b); try lia
  | |- context [?a <? ?b] => destruct (Z.ltb_spec a b); try lia
  end.

Lemma saturate_in c z : least c <= z <= greatest c -> saturate c z = z.
Proof. intros H. unfold saturate. destruct c; lia. Qed.

Lemma minus_one x : exists_in_class x -> 1 <= value x -> ml_plus x (-1) = MkNum (class_of x) (value x - 1).
Proof.
  intros [H1 H2] H. unfold ml_plus. replace (value x + -1) with (value x - 1) by lia.
  destruct x as [c z]. cbn [class_of value] in *. f_equal. destruct c; cbn [saturate least greatest] in *; lia.
Qed.

Lemma minus_one_signed x : is_signed (class_of x) -> exists_in_class x ->
  ml_plus x (-1) = MkNum (class_of x) (Z.max (least (class_of x)) (value x - 1)).
Proof.
  intros Hc [H1 H2]. unfold ml_plus. destruct x as [c z]. cbn [class_of value] in *. f_equal.
  destruct Hc as [->|[->|[->| ->]]]; cbn [saturate least greatest] in *; lia.
Qed.

Lemma wrap_small z : - 2 ^ 31 <= z < 2 ^ 31 -> wrap_int z = z.
Proof. intros H. unfold wrap_int. rewrite Z.mod_small; lia. Qed.
Lemma neg_mod z : - 2 ^ 32 <= z < 0 -> z mod 2 ^ 32 = 2 ^ 32 + z.
Proof. intros H. symmetry. apply (Z.mod_unique_pos z (2 ^ 32) (-1)); lia. Qed.

Lemma get_uint_ok c z : 0 <= z < 2 ^ 32 -> get_uint (MkNum c z) = Ok (Z.to_nat z).
Proof.
  intros H. unfold get_uint. cbn [class_of value]. destruct c; [zb; reflexivity|..]; rewrite Z.mod_small by lia; reflexivity.
Qed.
Lemma get_int_ok c z : - 2 ^ 31 <= z < 2 ^ 31 -> get_int (MkNum c z) = Ok z.
Proof.
  intros H. unfold get_int. cbn [class_of value]. destruct c; [zb; reflexivity|..]; rewrite wrap_small by lia; reflexivity.
Qed.

Lemma pos_uint x : exists_in_class x -> 1 <= value x <= 2 ^ 32 -> get_uint (ml_plus x (-1)) = Ok (Z.to_nat (value x - 1)).
Proof. intros H1 H2. rewrite minus_one by (auto; lia). apply get_uint_ok. lia. Qed.
Lemma pos_int x : exists_in_class x -> 1 <= value x <= 2 ^ 31 -> get_int (ml_plus x (-1)) = Ok (value x - 1).
Proof. intros H1 H2. rewrite minus_one by (auto; lia). apply get_int_ok. lia. Qed.
Lemma int_uint z : 0 <= z < 2 ^ 32 -> int_to_uint z = Z.to_nat z.
Proof. intros H. unfold int_to_uint. rewrite Z.mod_small; auto. Qed.

Lemma from_int_plus i : Z.of_nat i + 1 < 2 ^ 31 -> ml_plus (from_int (Some i)) 1 = MkNum Int32 (Z.of_nat i + 1).
Proof.
  intros H. unfold ml_plus, from_int. cbn [class_of value int_of]. rewrite wrap_small by lia. f_equal. apply saturate_in. cbn [least greatest]. lia.
Qed.
Lemma from_uint_plus i : Z.of_nat i + 1 < 2 ^ 32 -> ml_plus (from_uint (Z.of_nat i)) 1 = MkNum UInt32 (Z.of_nat i + 1).
Proof.
  intros H. unfold ml_plus, from_uint. cbn [class_of value]. rewrite Z.mod_small by lia. f_equal. apply saturate_in. cbn [least greatest]. lia.
Qed.

Lemma uint32_exists n : 0 <= n < 2 ^ 32 -> exists_in_class (MkNum UInt32 n).
Proof. intros H. split; cbn [class_of value least greatest]; lia. Qed.
Lemma int32_exists n : 0 <= n < 2 ^ 31 -> exists_in_class (MkNum Int32 n).
Proof. intros H. split; cbn [class_of value least greatest]; lia. Qed.

(** Fewer than 2^31 terms *)
Definition small (s : mset) : Prop := Z.of_nat (ms_Size s) < 2 ^ 31.

(** What a list of new or existing positions is once shifted *)
Lemma shift_all_in l n : (forall i, In i l -> (i < n)%nat) -> Z.of_nat n < 2 ^ 31 ->
  forall x, In x (shift_all l) <-> class_of x = UInt32 /\ exists i, In i l /\ position x i.
Proof.
  intros Hl Hn x. unfold shift_all. rewrite in_map_iff. split.
  - intros (i & <- & Hi). specialize (Hl i Hi). rewrite from_uint_plus by lia. split; [reflexivity|]. exists i. split; auto. reflexivity.
  - intros (Hc & i & Hi & P). exists i. split; auto. specialize (Hl i Hi). rewrite from_uint_plus by lia. unfold position in P.
    destruct x as [c z]. cbn [class_of value] in *. congruence.
Qed.

Lemma index_lt s i v : base s -> ms_IndexToMulti s i = Ok v -> (i < ms_Size s)%nat.
Proof. intros B H. apply index_nth in H; auto. rewrite <- actives_length. apply nth_error_Some. congruence. Qed.

(** ** Looking up *)

(** Every number from 1 to the size, of any class, is the position of one member: IndexToMulti, at and braces agree
    on it, and MultiToIndex gives the position back. *)
Theorem C79_lookup :
  forall d s x, any_history d s -> small s -> exists_in_class x -> is_position (ms_Size s) x ->
    exists v, ml_IndexToMulti s x = Ok v /\ ml_at s x = Ok v /\ ml_brace s x = Ok v /\
      (exists i, position x i /\ ms_IndexToMulti s i = Ok v) /\
      length v = d /\ ml_MultiToIndex s v = Ok (MkNum Int32 (value x)).
Proof.
  intros d s x H Hs Hx Hp. unfold small, is_position in *. destruct (any_history_inv d s H) as (B & D & _).
  destruct (base_consistent s B) as (C1 & _). set (i := Z.to_nat (value x - 1)).
  assert (Hi : (i < ms_Size s)%nat) by (unfold i; lia).
  destruct (C1 i Hi) as (v & Hv & Lv & Mv). exists v.
  split; [unfold ml_IndexToMulti; rewrite pos_uint by (auto; lia); exact Hv|].
  split; [unfold ml_at; rewrite pos_int by (auto; lia); cbn [obind]; rewrite int_uint by lia; exact Hv|].
  split.
  { unfold ml_brace. rewrite pos_int by (auto; lia). cbn [obind]. unfold ms_bracket. destruct (Z.ltb_spec (value x - 1) 0); [lia|].
    fold i. unfold ms_IndexToMulti, at_ in Hv. unfold raw_get. destruct (nth_error (a2g s) i) as [g|]; [|discriminate].
    cbn [obind] in *. destruct (nth_error (all s) g); [exact Hv|discriminate]. }
  split; [exists i; split; auto; unfold position, i; lia|]. split; [congruence|].
  unfold ml_MultiToIndex. rewrite Mv. cbn [obind]. rewrite from_int_plus by lia. unfold i. do 2 f_equal. lia.
Qed.
Print Assumptions C79_lookup.

(** MultiToIndex gives the position of a member; of anything else it gives 0, which IndexToMulti and at refuse. *)
Theorem C79_search :
  forall d s v, any_history d s -> small s ->
    (member s v -> exists p, ml_MultiToIndex s v = Ok p /\ is_position (ms_Size s) p /\ ml_IndexToMulti s p = Ok v) /\
    (~ member s v -> exists p, ml_MultiToIndex s v = Ok p /\ value p = 0 /\ ml_IndexToMulti s p = Throw /\ ml_at s p = Throw).
Proof.
  intros d s v H Hs. unfold small in Hs. destruct (any_history_inv d s H) as (B & D & _).
  destruct (base_consistent s B) as (C1 & C2 & C3 & C4 & _). split.
  - intros (i & Hi). assert (Li := index_lt s i v B Hi). destruct (C1 i Li) as (v' & Hv & _ & Mv). rewrite Hi in Hv. injection Hv as <-.
    exists (MkNum Int32 (Z.of_nat i + 1)). split; [unfold ml_MultiToIndex; rewrite Mv; cbn [obind]; rewrite from_int_plus by lia; reflexivity|].
    split; [unfold is_position; cbn [value]; lia|]. unfold ml_IndexToMulti. rewrite pos_uint by (try apply int32_exists; cbn [value]; lia).
    cbn [value obind]. replace (Z.to_nat (Z.of_nat i + 1 - 1)) with i by lia. exact Hi.
  - intros Hn. apply C4 in Hn. exists (MkNum Int32 0). split; [unfold ml_MultiToIndex; rewrite Hn; reflexivity|]. split; [reflexivity|].
    assert (T : ms_IndexToMulti s (Z.to_nat (2 ^ 32 - 1)) = Throw) by (apply C2; lia). split.
    + unfold ml_IndexToMulti. change (get_uint (ml_plus (MkNum Int32 0) (-1))) with (Ok (Z.to_nat (2 ^ 32 - 1))). exact T.
    + unfold ml_at. change (get_int (ml_plus (MkNum Int32 0) (-1))) with (Ok (-1)). cbn [obind].
      change (int_to_uint (-1)) with (Z.to_nat (2 ^ 32 - 1)). exact T.
Qed.
Print Assumptions C79_search.

(** Numbers above the size give an error in IndexToMulti and at, and so do zero and negative numbers of the signed integer
    classes; for doubles only at reports them. *)
Theorem C79_out_of_range_partial :
  forall d s x, any_history d s -> small s -> exists_in_class x ->
    (Z.of_nat (ms_Size s) < value x <= 2 ^ 31 -> ml_IndexToMulti s x = Throw /\ ml_at s x = Throw) /\
    (is_signed (class_of x) -> - 2 ^ 31 < value x <= 0 -> ml_IndexToMulti s x = Throw /\ ml_at s x = Throw) /\
    (class_of x = Double -> - 2 ^ 31 < value x <= 0 -> ml_at s x = Throw).
Proof.
  intros d s x H Hs Hx. unfold small in Hs. destruct (any_history_inv d s H) as (B & D & _).
  destruct (base_consistent s B) as (C1 & C2 & _). split; [|split].
  - intros Hv. split.
    + unfold ml_IndexToMulti. rewrite pos_uint by (auto; lia). apply C2. lia.
    + unfold ml_at. rewrite pos_int by (auto; lia). cbn [obind]. rewrite int_uint by lia. apply C2. lia.
  - intros Hc Hv. assert (E := minus_one_signed x Hc Hx). set (z := Z.max (least (class_of x)) (value x - 1)) in *.
    assert (Hz : - 2 ^ 31 <= z < 0).
    { unfold z. destruct Hc as [->|[->|[->| ->]]]; cbn [least]; lia. }
    assert (T : ms_IndexToMulti s (Z.to_nat (z mod 2 ^ 32)) = Throw) by (apply C2; rewrite neg_mod by lia; lia).
    split.
    + unfold ml_IndexToMulti. rewrite E. unfold get_uint. cbn [class_of value].
      destruct Hc as [->|[->|[->| ->]]]; exact T.
    + unfold ml_at. rewrite E, get_int_ok by lia. exact T.
  - intros Hc Hv. unfold ml_at. replace (ml_plus x (-1)) with (MkNum Double (value x - 1)).
    + rewrite get_int_ok by lia. cbn [obind]. apply C2. unfold int_to_uint. rewrite neg_mod by lia. lia.
    + unfold ml_plus. rewrite Hc. cbn [saturate]. f_equal.
Qed.
Print Assumptions C79_out_of_range_partial.

(** Position 0: undefined as a double; as an unsigned integer it gives the first member, in all three ways. *)
Theorem C79_zero_refuted :
  forall d s, any_history d s -> small s -> (0 < ms_Size s)%nat ->
    ml_IndexToMulti s (MkNum Double 0) = UB /\ ml_brace s (MkNum Double 0) = UB /\
    forall c, is_unsigned c -> exists v, ms_IndexToMulti s 0 = Ok v /\
      ml_IndexToMulti s (MkNum c 0) = Ok v /\ ml_at s (MkNum c 0) = Ok v /\ ml_brace s (MkNum c 0) = Ok v.
Proof.
  intros d s H Hs Hn. split; [reflexivity|]. split; [reflexivity|]. intros c Hc.
  assert (Hc1 : exists_in_class (MkNum c 1)).
  { split; cbn [class_of value]; destruct Hc as [->|[->|[->| ->]]]; cbn [least greatest]; lia. }
  destruct (C79_lookup d s (MkNum c 1) H Hs Hc1) as (v & V1 & V2 & V3 & (i & P & V4) & _).
  { unfold is_position. cbn [value]. lia. }
  exists v. assert (i = 0%nat) by (unfold position in P; cbn [value] in P; lia). subst i. split; [exact V4|].
  assert (E : ml_plus (MkNum c 0) (-1) = ml_plus (MkNum c 1) (-1)) by (destruct Hc as [->|[->|[->| ->]]]; reflexivity).
  unfold ml_IndexToMulti, ml_at, ml_brace in *. rewrite E. auto.
Qed.
Print Assumptions C79_zero_refuted.

(** Braces with a number above the size read past the end. *)
Theorem C79_brace_refuted :
  forall s x, exists_in_class x -> Z.of_nat (ms_Size s) < value x <= 2 ^ 31 -> ml_brace s x = UB.
Proof.
  intros s x Hx Hv. unfold ml_brace. rewrite pos_int by (auto; lia). cbn [obind]. unfold ms_bracket.
  destruct (Z.ltb_spec (value x - 1) 0); [lia|]. unfold raw_get.
  rewrite (proj2 (nth_error_None _ _)); [reflexivity|]. unfold ms_Size in Hv. lia.
Qed.
Print Assumptions C79_brace_refuted.

(** Whatever follows the braces is dropped: s\{x\}.Vector() is the multi-index object. *)
Theorem C79_chain_refuted :
  forall d s x, any_history d s -> small s -> exists_in_class x -> is_position (ms_Size s) x ->
    exists v, ml_brace s x = Ok v /\ ml_subsref s [Brace x] = Ok (MultiObj v) /\ ml_subsref s [Brace x; CallVector] = Ok (MultiObj v) /\
      ml_subsref s [Brace x; CallVector] <> Ok (Numbers v).
Proof.
  intros d s x H Hs Hx Hp. destruct (C79_lookup d s x H Hs Hx Hp) as (v & _ & _ & E & _). exists v. split; [exact E|].
  unfold ml_subsref. rewrite E. cbn [obind]. split; [reflexivity|]. split; [reflexivity|]. discriminate.
Qed.
Print Assumptions C79_chain_refuted.

(** ** Positions that calls report *)

(** Frontier and StrictFrontier report positions: each number reported can be looked up, and the members found are exactly those with
    a neighbour that may be added (for StrictFrontier, and no neighbour in the set). *)
Theorem C79_frontier :
  forall grow d L s, reach grow d L s -> small s ->
    (exists f, ml_Frontier s = Ok f /\ NoDup f /\ (forall x, In x f -> class_of x = UInt32 /\ is_position (ms_Size s) x) /\
       forall v, (exists x, In x f /\ ml_IndexToMulti s x = Ok v) <-> member s v /\ exists u, fwd_rel v u /\ addable L s u) /\
    (exists f, ml_StrictFrontier s = Ok f /\ NoDup f /\ (forall x, In x f -> class_of x = UInt32 /\ is_position (ms_Size s) x) /\
       forall v, (exists x, In x f /\ ml_IndexToMulti s x = Ok v) <->
         member s v /\ (exists u, fwd_rel v u /\ addable L s u) /\ forall u, fwd_rel v u -> ~ member s u).
Proof.
  intros grow d L s H Hs. unfold small in Hs. destruct (reach_inv _ _ _ _ H) as (F & _). assert (B := f_base _ F).
  assert (ND : forall l, (forall i, In i l -> (i < ms_Size s)%nat) -> NoDup l -> NoDup (shift_all l)).
  { intros l Hl N. unfold shift_all. induction N as [|i l Hi N IH]; cbn [map]; constructor.
    - rewrite in_map_iff. intros (j & E & Hj). assert (i < ms_Size s)%nat by (apply Hl; left; auto).
      assert (j < ms_Size s)%nat by (apply Hl; right; auto). rewrite !from_uint_plus in E by lia. injection E as E. assert (j = i) by lia. subst j. contradiction.
    - apply IH. intros k Hk. apply Hl. right. auto. }
  assert (LK : forall l, (forall i, In i l -> (i < ms_Size s)%nat) ->
    (forall x, In x (shift_all l) -> class_of x = UInt32 /\ is_position (ms_Size s) x) /\
    forall v, (exists x, In x (shift_all l) /\ ml_IndexToMulti s x = Ok v) <-> exists i, In i l /\ ms_IndexToMulti s i = Ok v).
  { intros l Hl. assert (I := shift_all_in l (ms_Size s) Hl Hs). split.
    - intros x Hx. apply I in Hx. destruct Hx as (Hc & i & Hi & P). split; auto. unfold is_position, position in *. specialize (Hl i Hi). lia.
    - intros v. split.
      + intros (x & Hx & E). apply I in Hx. destruct Hx as (Hc & i & Hi & P). specialize (Hl i Hi). exists i. split; auto.
        unfold ml_IndexToMulti, position in *. destruct x as [c z]. cbn [class_of value] in *. subst c z.
        rewrite pos_uint in E by (try apply uint32_exists; cbn [value]; lia). cbn [value obind] in E.
        replace (Z.to_nat (Z.of_nat i + 1 - 1)) with i in E by lia. exact E.
      + intros (i & Hi & E). specialize (Hl i Hi). exists (MkNum UInt32 (Z.of_nat i + 1)). split.
        * apply I. split; [reflexivity|]. exists i. split; auto. reflexivity.
        * unfold ml_IndexToMulti. rewrite pos_uint by (try apply uint32_exists; cbn [value]; lia). cbn [value obind].
          replace (Z.to_nat (Z.of_nat i + 1 - 1)) with i by lia. exact E. }
  split.
  - destruct (C11_frontier grow d L s H) as (f & Hf & N & I). exists (shift_all f). unfold ml_Frontier. rewrite Hf.
    assert (Hl : forall i, In i f -> (i < ms_Size s)%nat).
    { intros i Hi. apply I in Hi. destruct Hi as (v & u & Hv & _). eapply index_lt; eauto. }
    destruct (LK f Hl) as [K1 K2]. split; [reflexivity|]. split; [auto|]. split; [exact K1|].
    intros v. rewrite K2. split.
    + intros (i & Hi & E). apply I in Hi. destruct Hi as (v' & u & Hv & R). rewrite E in Hv. injection Hv as <-.
      split; [exists i; exact E|]. exists u. exact R.
    + intros ((i & E) & u & R). exists i. split; auto. apply I. exists v, u. auto.
  - destruct (C11_strict_frontier grow d L s H) as (f & Hf & N & I). exists (shift_all f). unfold ml_StrictFrontier. rewrite Hf.
    assert (Hl : forall i, In i f -> (i < ms_Size s)%nat).
    { intros i Hi. apply I in Hi. destruct Hi as (v & Hv & _). eapply index_lt; eauto. }
    destruct (LK f Hl) as [K1 K2]. split; [reflexivity|]. split; [auto|]. split; [exact K1|].
    intros v. rewrite K2. split.
    + intros (i & Hi & E). apply I in Hi. destruct Hi as (v' & Hv & R). rewrite E in Hv. injection Hv as <-.
      split; [exists i; exact E|]. exact R.
    + intros ((i & E) & R). exists i. split; auto. apply I. exists v. auto.
Qed.
Print Assumptions C79_frontier.

(** The numbers reported by a call that grows the set are the positions it filled. *)
Definition reports_new (s s' : mset) (rep : list num) : Prop :=
  forall x, In x rep <-> class_of x = UInt32 /\ Z.of_nat (ms_Size s) < value x <= Z.of_nat (ms_Size s').

Lemma reports s s' l : small s' -> (forall i, In i l <-> (ms_Size s <= i < ms_Size s')%nat) -> reports_new s s' (shift_all l).
Proof.
  intros Hs Hl x. unfold small in Hs. rewrite (shift_all_in l (ms_Size s')) by (auto; intros i Hi; apply Hl in Hi; lia).
  split; intros [Hc R]; split; auto.
  - destruct R as (i & Hi & P). apply Hl in Hi. unfold position in P. lia.
  - exists (Z.to_nat (value x - 1)). split; [apply Hl; lia|unfold position; lia].
Qed.

Lemma reports_seq s s' k : small s' -> ms_Size s' = (ms_Size s + k)%nat -> reports_new s s' (shift_all (seq (ms_Size s) k)).
Proof. intros Hs E. apply reports; auto. intros i. rewrite in_seq. lia. Qed.

Theorem C79_growth :
  forall grow d L s, reach grow d L s -> small s ->
    (forall x s' rep, exists_in_class x -> is_position (ms_Size s) x -> ml_Expand s x = Ok (s', rep) -> small s' ->
       reports_new s s' rep /\
       exists v, ml_IndexToMulti s x = Ok v /\ (forall u, addable L s u -> fwd_rel v u -> member s' u) /\
         (forall u, member s' u -> member s u \/ (L u = true /\ fwd_rel v u))) /\
    (forall s' rep, ml_ExpandAll s = Ok (s', rep) -> small s' -> reports_new s s' rep) /\
    (forall v fuel s' rep, length v = d -> (vsum v + 2 <= fuel)%nat -> ml_ForciblyActivate grow fuel s v = Ok (s', rep) -> small s' ->
       reports_new s s' rep /\ member s' v) /\
    (forall x v fuel s' rep, exists_in_class x -> is_position (ms_Size s) x -> ml_IndexToMulti s x = Ok v -> (d + vsum v + 3 <= fuel)%nat ->
       ml_ForciblyExpand grow fuel s x = Ok (s', rep) -> small s' ->
       reports_new s s' rep /\ forall u, fwd_rel v u -> L u = true -> member s' u).
Proof.
  intros grow d L s H Hs. unfold small in Hs. destruct (reach_inv _ _ _ _ H) as (F & N & D & E). assert (B := f_base _ F).
  assert (AH : any_history d s) by (right; eauto).
  assert (LU : forall x, exists_in_class x -> is_position (ms_Size s) x ->
    exists i v, get_uint (ml_plus x (-1)) = Ok i /\ ms_IndexToMulti s i = Ok v /\ ml_IndexToMulti s x = Ok v).
  { intros x Hx Hp. destruct (C79_lookup d s x AH Hs Hx Hp) as (v & E1 & _). unfold is_position in Hp.
    assert (U : get_uint (ml_plus x (-1)) = Ok (Z.to_nat (value x - 1))) by (apply pos_uint; auto; lia).
    exists (Z.to_nat (value x - 1)), v. split; [exact U|]. split; [|exact E1].
    unfold ml_IndexToMulti in E1. rewrite U in E1. exact E1. }
  split; [|split; [|split]].
  - intros x s' rep Hx Hp He Hs'. destruct (LU x Hx Hp) as (i & v & U & V & V').
    unfold ml_Expand in He. rewrite U in He. cbn [obind] in He.
    destruct (C12_expand_one_exact grow d L s i v H V) as (s1 & n & E1 & E2 & E3 & E4). rewrite E1 in He. cbn [obind fst snd] in He.
    injection He as <- <-. split; [apply reports_seq; auto|]. exists v. auto.
  - intros s' rep He Hs'. unfold ml_ExpandAll in He.
    destruct (C12_expand_reports_new_indices_partial grow d L s H) as (s1 & r & E1 & E2 & _). rewrite E1 in He. cbn [obind fst snd] in He.
    injection He as <- <-. apply reports; auto.
  - intros v fuel s' rep Hl Hf He Hs'. unfold ml_ForciblyActivate in He.
    destruct (ForciblyActivate_spec grow fuel s v F N) as [K1 K2]; auto; [congruence|].
    destruct (lim s v) eqn:El; [|rewrite K1 in He by auto; discriminate].
    destruct (K2 eq_refl) as [[K _]|(s1 & new & H1 & G & C & _)]; [rewrite K in He; discriminate|]. rewrite H1 in He.
    cbn [obind fst snd app] in He. injection He as <- <-. split.
    + apply reports_seq; auto. rewrite <- !actives_length, (g_act _ _ _ G), app_length. reflexivity.
    + apply member_active; [apply G|]. apply C. left. reflexivity.
  - intros x v fuel s' rep Hx Hp Hv Hf He Hs'. destruct (LU x Hx Hp) as (i & v' & U & V & V'). rewrite Hv in V'. injection V' as <-.
    unfold ml_ForciblyExpand in He. rewrite U in He. cbn [obind] in He. apply index_nth in V; auto.
    destruct (ForciblyExpand_spec grow fuel s i v F N V) as (us & _ & I & [[K _]|(s1 & new & H1 & G & C & _)]); [congruence|rewrite K in He; discriminate|].
    rewrite H1 in He. cbn [obind fst snd app] in He. injection He as <- <-. split.
    + apply reports_seq; auto. rewrite <- !actives_length, (g_act _ _ _ G), app_length. reflexivity.
    + intros u Hu HL. apply member_active; [apply G|]. apply C. apply I. split; congruence.
Qed.
Print Assumptions C79_growth.

(** Queries about the neighbours of the member at a position *)
Theorem C79_queries :
  forall grow d L s x v, reach grow d L s -> small s -> Z.of_nat d < 2 ^ 32 -> exists_in_class x -> is_position (ms_Size s) x -> ml_IndexToMulti s x = Ok v ->
    (exists l, ml_NumForward s x = Ok (MkNum UInt32 (Z.of_nat (length l))) /\ NoDup l /\
       forall u, In u l <-> fwd_rel v u /\ L u = true) /\
    (exists l, ml_NumActiveForward s x = Ok (MkNum UInt32 (Z.of_nat (length l))) /\ NoDup l /\
       forall u, In u l <-> fwd_rel v u /\ member s u) /\
    (exists l, ml_AdmissibleForwardNeighbors s x = Ok l /\ NoDup l /\
       forall u, In u l <-> fwd_rel v u /\ L u = true /\ (member s u \/ forall w, fwd_rel w u -> member s w)) /\
    (exists b, ml_IsExpandable s x = Ok b /\ (b = true <-> exists u, fwd_rel v u /\ addable L s u)).
Proof.
  intros grow d L s x v H Hs Hd Hx Hp Hv. unfold small, is_position in *. destruct (reach_inv _ _ _ _ H) as (F & N & D & E). assert (B := f_base _ F).
  assert (U : get_uint (ml_plus x (-1)) = Ok (Z.to_nat (value x - 1))) by (apply pos_uint; auto; lia).
  unfold ml_IndexToMulti in Hv. rewrite U in Hv. cbn [obind] in Hv.
  unfold ml_NumForward, ml_NumActiveForward, ml_AdmissibleForwardNeighbors, ml_IsExpandable. rewrite U. cbn [obind].
  assert (Lv : length v = d) by (rewrite <- D; apply (b_len _ B), active_in_all; auto; apply index_nth in Hv; auto; eapply nth_error_In; eauto).
  assert (Bd : forall l (P : vec -> Prop), NoDup l -> (forall u, In u l <-> fwd_rel v u /\ P u) -> from_uint (Z.of_nat (length l)) = MkNum UInt32 (Z.of_nat (length l))).
  { intros l P ND Hl. assert ((length l <= length (vforward v))%nat).
    { apply NoDup_incl_length; auto. intros u Hu. apply vforward_In. apply Hl. exact Hu. }
    rewrite vforward_length in H0. unfold from_uint. rewrite Z.mod_small by lia. reflexivity. }
  destruct (C58_forward_queries grow d L s _ v H Hv) as ((l1 & A1 & A2 & A3) & (l2 & B1 & B2 & B3) & (l3 & C) & (b & Dd)).
  split; [|split; [|split]].
  - exists l1. rewrite A1. cbn [obind]. rewrite (Bd l1 (fun u => L u = true)) by auto. auto.
  - exists l2. rewrite B1. cbn [obind]. rewrite (Bd l2 (fun u => member s u)) by auto. auto.
  - exists l3. exact C.
  - exists b. exact Dd.
Qed.
Print Assumptions C79_queries.

(** BackwardNeighbors of a set grown admissibly reports the positions of the backward neighbours. *)
Theorem C79_backward_partial :
  forall grow d L s x v, down_closed (fun v => L v = true) -> adm grow d L s -> small s ->
    exists_in_class x -> is_position (ms_Size s) x -> ml_IndexToMulti s x = Ok v ->
    exists l, ml_BackwardNeighbors s x = Ok l /\
      forall y, In y l <-> class_of y = UInt32 /\ is_position (ms_Size s) y /\ exists w, ml_IndexToMulti s y = Ok w /\ fwd_rel w v.
Proof.
  intros grow d L s x v HL H Hs Hx Hp Hv. unfold small, is_position in *. destruct (adm_inv _ _ _ _ HL H) as [F N D E K C]. assert (B := f_base _ F).
  unfold ml_IndexToMulti in Hv. rewrite pos_uint in Hv by (auto; lia). cbn [obind] in Hv.
  destruct (C58_backward_query grow d L s _ v HL H Hv) as (js & H1 & _ & I).
  assert (Hj : forall j, In j js -> (j < ms_Size s)%nat).
  { intros j Hj. apply I in Hj. destruct Hj as (w & Hw & _). eapply index_lt; eauto. }
  exists (shift_all js). unfold ml_BackwardNeighbors. rewrite pos_uint by (auto; lia). cbn [obind]. rewrite H1. cbn [obind].
  split; [unfold shift_all; rewrite map_map; reflexivity|].
  intros y. rewrite (shift_all_in js _ Hj Hs). split.
  - intros (Hc & j & J & P). split; auto. specialize (Hj j J). unfold position in P. split; [lia|]. apply I in J. destruct J as (w & W & R).
    exists w. split; auto. unfold ml_IndexToMulti. destruct y as [c z]. cbn [class_of value] in *. subst c z.
    rewrite pos_uint by (try apply uint32_exists; cbn [value]; lia). cbn [value obind].
    replace (Z.to_nat (Z.of_nat j + 1 - 1)) with j by lia. exact W.
  - intros (Hc & Py & w & W & R). split; auto. exists (Z.to_nat (value y - 1)). split; [|unfold position; lia]. apply I. exists w. split; auto.
    unfold ml_IndexToMulti in W. destruct y as [c z]. cbn [class_of value] in *. subst c.
    rewrite pos_uint in W by (try apply uint32_exists; cbn [value]; lia). exact W.
Qed.
Print Assumptions C79_backward_partial.

(** Without downward closure it also reports 2^32 - 1, which is no position. *)
Theorem C79_backward_refuted :
  exists s, any_history 1 s /\ ml_Size s = MkNum UInt32 1 /\ ml_BackwardNeighbors s (MkNum Double 1) = Ok [MkNum UInt32 (2 ^ 32 - 1)].
Proof.
  exists c10s. split; [|split; vm_compute; reflexivity]. left.
  eapply (h_add 1 e1 [2%nat]); [apply (h_start 1 any), s_empty|reflexivity|vm_compute; reflexivity].
Qed.
Print Assumptions C79_backward_refuted.

(** AddActive does not report the position: one less, so 0 for the first member and -1 for a multi-index that was refused. The number it reports is never the
    one MultiToIndex gives. *)
Theorem C79_add_active_refuted :
  forall grow d L s v, reach grow d L s -> length v = d ->
    exists s' p q, ml_AddActive s v = Ok (s', p) /\ ml_MultiToIndex s' v = Ok q /\
      (small s' -> value p = value q - 1 /\ (L v = false -> value p = -1) /\
        (L v = true -> member s' v /\ forall w, ml_IndexToMulti s' q = Ok w -> w = v) /\
        ((2 <= value q)%Z -> exists w, ml_IndexToMulti s' p = Ok w /\ w <> v)).
Proof.
  intros grow d L s v H Hl. destruct (reach_inv _ _ _ _ H) as (F & N & D & E). assert (B := f_base _ F).
  destruct (AddActive_spec s v B) as (s1 & r & new & H1 & G & Cs); [congruence|].
  assert (B1 := g_base _ _ _ G). destruct (base_consistent s1 B1) as (C1 & C2 & C3 & C4 & _).
  destruct (MultiToIndex_spec s1 v B1) as (r' & M1 & M2).
  exists s1, (from_int r), (ml_plus (from_int r') 1). unfold ml_AddActive. rewrite H1. split; [reflexivity|].
  unfold ml_MultiToIndex. rewrite M1. split; [reflexivity|]. intros Hs. unfold small in Hs.
  destruct Cs as [(a & -> & Ha & K & _)|(-> & -> & _ & K & Kn)].
  - assert (r' = Some a) by (apply M2; exact Ha). subst r'.
    assert (La : (a < ms_Size s1)%nat) by (rewrite <- actives_length; apply nth_error_Some; congruence).
    assert (HLv : L v = true) by (rewrite <- E; destruct K as [K|K]; [exact K|apply (f_lim _ F) in K; exact K]).
    rewrite from_int_plus by lia. unfold from_int. cbn [value int_of class_of]. rewrite wrap_small by lia.
    split; [lia|]. split; [congruence|]. assert (Va : ms_IndexToMulti s1 a = Ok v) by (apply index_nth; auto). split.
    + intros _. split; [exists a; exact Va|]. intros w. unfold ml_IndexToMulti.
      rewrite pos_uint by (try apply int32_exists; cbn [value]; lia). cbn [value obind].
      replace (Z.to_nat (Z.of_nat a + 1 - 1)) with a by lia. congruence.
    + intros Hq. destruct (C1 (a - 1)%nat) as (w & W1 & _ & W2); [lia|]. exists w. split.
      * unfold ml_IndexToMulti. rewrite pos_uint by (try apply int32_exists; cbn [value]; lia). cbn [value obind].
        replace (Z.to_nat (Z.of_nat a - 1)) with (a - 1)%nat by lia. exact W1.
      * intros ->. rewrite M1 in W2. injection W2 as W2. lia.
  - assert (r' = None).
    { destruct r' as [a|]; auto. exfalso. apply Kn. assert (A : nth_error (actives s) a = Some v) by (apply M2; reflexivity).
      eapply active_in_all; eauto. eapply nth_error_In; eauto. }
    subst r'. cbn. split; [reflexivity|]. split; [reflexivity|]. split; [congruence|lia].
Qed.
Print Assumptions C79_add_active_refuted.

(** ** Copies and sums *)

(** DeepCopy always fails: it names a class that does not exist. *)
Theorem C79_deep_copy_refuted :
  forall d s, any_history d s -> (0 < d)%nat -> ml_DeepCopy s = Throw.
Proof.
  intros d s H Hd. destruct (any_history_inv d s H) as (B & D & _). unfold ml_DeepCopy, mex_DeepCopy. rewrite D.
  destruct (CreateTotalOrder_spec d 0 (fun _ => true) Hd) as (t & Ht & G). rewrite Ht. cbn [obind].
  destruct (Union_spec t s) as (t' & new & U & _); [apply G|auto|rewrite (g_dim _ _ _ G); cbn; congruence|]. rewrite U. reflexivity.
Qed.
Print Assumptions C79_deep_copy_refuted.

(** And the copy it would wrap has the zero multi-index as its first member, whether or not the set has it. *)
Theorem C79_copy_contents_refuted :
  forall d s, any_history d s -> (0 < d)%nat ->
    exists t, mex_DeepCopy s = Ok t /\ ms_IndexToMulti t 0 = Ok (repeat 0%nat d) /\
      forall v, member t v <-> v = repeat 0%nat d \/ member s v.
Proof.
  intros d s H Hd. destruct (any_history_inv d s H) as (B & D & _). unfold mex_DeepCopy. rewrite D.
  destruct (CreateTotalOrder_spec d 0 (fun _ => true) Hd) as (t & Ht & G). rewrite Ht. cbn [obind].
  assert (Bt := g_base _ _ _ G). destruct (Union_spec t s) as (t' & new & U & B' & _ & _ & _ & _ & _ & A & _ & I); auto.
  { rewrite (g_dim _ _ _ G). cbn. congruence. }
  rewrite U. cbn [obind fst]. exists t'. split; [reflexivity|].
  assert (At : actives t = [repeat 0%nat d]).
  { rewrite (g_act _ _ _ G). replace (actives (ms_empty d (fun _ => true))) with (@nil vec) by reflexivity. cbn [app].
    rewrite filter_all. assert (Z0 : forall k w, vsum w = 0%nat -> enum_total 0 k w = [w ++ repeat 0%nat (S k)]).
    { induction k as [|k IH]; intros w Hw; cbn [enum_total]; rewrite Hw; cbn [Nat.sub seq map flat_map].
      - reflexivity.
      - rewrite IH by (unfold vsum in *; rewrite fold_right_app; exact Hw). rewrite app_nil_r, <- app_assoc. reflexivity. }
    rewrite Z0 by reflexivity. cbn [app]. do 2 f_equal. lia. }
  assert (Lt : lim t = fun _ => true) by apply (g_lim _ _ _ G). split.
  - apply index_nth; auto. rewrite A, At. reflexivity.
  - intros v. rewrite !member_active by auto. unfold active at 1. rewrite A, in_app_iff, I, At, Lt. cbn [In]. unfold active at 2. rewrite At.
    cbn [In]. split; [intuition|]. intros [->|K]; [auto|].
    destruct (list_eq_dec Nat.eq_dec (repeat 0%nat d) v); [auto|]. right. split; auto. split; auto. intuition.
Qed.
Print Assumptions C79_copy_contents_refuted.

(** s + t and s + v build a new set: the members of s, at the same positions, and those of t that the limiter of s accepts. *)
Theorem C79_sum :
  forall grow d L L' s t, reach grow d L s -> reach grow d L' t ->
    exists r, ml_plus_set s t = Ok r /\
      (forall i v, ms_IndexToMulti s i = Ok v -> ms_IndexToMulti r i = Ok v) /\
      (forall v, member r v <-> member s v \/ (member t v /\ L v = true)) /\
      forall v, length v = d -> exists q, ml_plus_multi s v = Ok q /\
        (forall i w, ms_IndexToMulti s i = Ok w -> ms_IndexToMulti q i = Ok w) /\
        (forall w, member q w <-> member s w \/ (w = v /\ L v = true)).
Proof.
  intros grow d L L' s t H H'. destruct (reach_inv _ _ _ _ H) as (F & N & D & E). assert (B := f_base _ F).
  destruct (reach_inv _ _ _ _ H') as (F' & N' & D' & E'). assert (B' := f_base _ F').
  destruct (Union_spec s t B B') as (r & new & U & Br & _ & _ & _ & _ & _ & A & _ & I); [congruence|].
  exists r. unfold ml_plus_set. rewrite U. split; [reflexivity|]. split; [|split].
  - intros i v Hi. apply index_nth in Hi; auto. apply index_nth; auto. rewrite A. apply nth_error_app_l; auto.
  - intros v. rewrite !member_active by auto. unfold active at 1. rewrite A, in_app_iff, I, E. unfold active.
    destruct (in_dec (list_eq_dec Nat.eq_dec) v (actives s)); tauto.
  - intros v Hl. destruct (AddActive_spec s v B) as (q & x & nw & HA & G & Cs); [congruence|]. exists q. unfold ml_plus_multi. rewrite HA.
    assert (Bq := g_base _ _ _ G). split; [reflexivity|]. split.
    + intros i w Hi. apply index_nth in Hi; auto. apply index_nth; auto. rewrite (g_act _ _ _ G). apply nth_error_app_l; auto.
    + intros w. rewrite !member_active by auto. unfold active at 1. rewrite (g_act _ _ _ G), in_app_iff.
      assert (Lv : In v (all s) -> L v = true) by (intros K; apply (f_lim _ F) in K; congruence).
      destruct Cs as [(a & -> & Ha & K & [[K1 ->]|[K1 ->]])|(-> & -> & -> & K & Kn)]; cbn [In]; unfold active in *.
      * split; [tauto|]. intros [K2|[-> _]]; tauto.
      * split; [intros [K2|[<-|[]]]; auto|intros [K2|[-> _]]; auto]. right. split; auto. destruct K as [K|K]; [congruence|auto].
      * split; [tauto|]. intros [K2|[_ K2]]; [tauto|congruence].
Qed.
Print Assumptions C79_sum.

(** ** Fixed sets *)

(** A fixed set made in MATLAB has the same members at the same positions, and finds them there. *)
Theorem C79_fixed :
  forall d s, any_history d s -> small s ->
    exists f, ml_Fix s = Ok f /\
      forall x, exists_in_class x -> is_position (ms_Size s) x ->
        exists v, ml_IndexToMulti s x = Ok v /\ mlf_IndexToMulti f x = Ok v /\ mlf_MultiToIndex f v = Ok (MkNum Int32 (value x)).
Proof.
  intros d s H Hs. destruct (C13_fix_compressed d s H) as (f & Hf & _ & _ & S & _). exists f. split; [exact Hf|].
  intros x Hx Hp. destruct (C79_lookup d s x H Hs Hx Hp) as (v & E1 & _ & _ & (i & P & E2) & _). exists v. split; [exact E1|].
  destruct (S i v E2) as [S1 S2]. unfold is_position, position, small in *. split.
  - unfold mlf_IndexToMulti. rewrite pos_int by (auto; lia). cbn [obind]. rewrite int_uint by lia.
    replace (Z.to_nat (value x - 1)) with i by lia. exact S1.
  - unfold mlf_MultiToIndex. rewrite S2. cbn [obind]. rewrite from_int_plus by lia. do 2 f_equal. lia.
Qed.
Print Assumptions C79_fixed.

(** Looking for a multi-index that is not there, and numbers outside the range, are undefined. *)
Theorem C79_fixed_refuted :
  forall d s f, any_history d s -> small s -> (0 < d)%nat -> ml_Fix s = Ok f ->
    (forall v, length v = d -> ~ member s v -> mlf_MultiToIndex f v = UB) /\
    (forall x, exists_in_class x -> Z.of_nat (ms_Size s) < value x <= 2 ^ 31 -> mlf_IndexToMulti f x = UB) /\
    mlf_IndexToMulti f (MkNum Double 0) = UB.
Proof.
  intros d s f H Hs Hd Hf. unfold small in Hs. split; [|split].
  - intros v Hl Hn. unfold mlf_MultiToIndex. rewrite (C14_compressed_absent_refuted d s f v H Hf Hl Hn). reflexivity.
  - intros x Hx Hv. unfold mlf_IndexToMulti. rewrite pos_int by (auto; lia). cbn [obind]. rewrite int_uint by lia.
    apply (C13_index_out_of_range d s true f); auto. lia.
  - unfold mlf_IndexToMulti. change (get_int (ml_plus (MkNum Double 0) (-1))) with (Ok (-1)). cbn [obind].
    apply (C13_index_out_of_range d s true f); auto. change (int_to_uint (-1)) with (Z.to_nat (2 ^ 32 - 1)). lia.
Qed.
Print Assumptions C79_fixed_refuted.

(** ** Multi-indices *)

(** Get(k) for k from 1 to the length is entry k; Set(k, y) makes y the value of entry k, keeps the others, and tells whether the entry was non-zero. *)
Theorem C79_entries :
  forall m v x, MultiIndexProofs.reach m -> mi_Vector m = Ok v -> Z.of_nat (length v) < 2 ^ 32 -> exists_in_class x -> is_position (length v) x ->
    exists i, position x i /\
      (Z.of_nat (nth i v 0%nat) < 2 ^ 32 -> mlm_Get m x = Ok (MkNum UInt32 (Z.of_nat (nth i v 0%nat)))) /\
      forall c y, 0 <= y < 2 ^ 32 -> exists m' b, mlm_Set m x (MkNum c y) = Ok (m', b) /\ MultiIndexProofs.reach m' /\
        mi_Vector m' = Ok (vset v i (Z.to_nat y)) /\ (b = true <-> nth i v 0%nat <> 0%nat).
Proof.
  intros m v x Hr Hv Hl Hx Hp. unfold is_position in Hp. exists (Z.to_nat (value x - 1)). split; [unfold position; lia|].
  assert (W := reach_wf _ Hr). assert (Hv' := Hv). rewrite mi_Vector_spec in Hv' by auto. injection Hv' as <-. rewrite dense_length in *.
  assert (U : get_uint (ml_plus x (-1)) = Ok (Z.to_nat (value x - 1))) by (apply pos_uint; auto; lia). split.
  - intros Hn. unfold mlm_Get. rewrite U. cbn [obind]. rewrite mi_Get_dense by (auto; lia). cbn [obind]. unfold from_uint.
    rewrite Z.mod_small by lia. reflexivity.
  - intros c y Hy. destruct (C01_set_return_value m (Z.to_nat (value x - 1)) (Z.to_nat y) (dense m) Hr) as (m' & E1 & E2); [unfold mi_Length; lia|exact Hv|].
    exists m', (negb (nth (Z.to_nat (value x - 1)) (dense m) 0%nat =? 0)%nat). unfold mlm_Set. rewrite U, get_uint_ok by lia. cbn [obind].
    split; [exact E1|]. split; [eapply reach_set; [exact Hr| |exact E1]; lia|]. split; [exact E2|].
    rewrite Bool.negb_true_iff, Nat.eqb_neq. reflexivity.
Qed.
Print Assumptions C79_entries.

(** Position length + 1 is accepted, and after a Set there Vector is undefined; position 0 is undefined as a double, the first entry as an unsigned integer. *)
Theorem C79_entries_refuted :
  forall m v, MultiIndexProofs.reach m -> mi_Vector m = Ok v -> Z.of_nat (length v) + 1 < 2 ^ 32 ->
    (exists m', mlm_Set m (MkNum Double (Z.of_nat (length v) + 1)) (MkNum Double 1) = Ok (m', false) /\ mi_Vector m' = UB) /\
    mlm_Get m (MkNum Double 0) = UB /\ mlm_Get m (MkNum UInt32 0) = mlm_Get m (MkNum UInt32 1).
Proof.
  intros m v Hr Hv Hl. split; [|split; reflexivity].
  destruct (C03_boundary_index_refuted m 1%nat Hr) as (_ & m' & E & U); [lia|]. exists m'. split; [|exact U].
  assert (W := reach_wf _ Hr). rewrite mi_Vector_spec in Hv by auto. injection Hv as <-. rewrite dense_length in *.
  unfold mlm_Set. rewrite pos_uint; [|split; cbn [class_of value least greatest]; lia|cbn [value]; lia]. cbn [value obind].
  replace (Z.to_nat (Z.of_nat (mi_length m) + 1 - 1)) with (mi_length m) by lia. rewrite get_uint_ok by lia. exact E.
Qed.
Print Assumptions C79_entries_refuted.

(** The operators ==, ~=, < and > compare the multi-indices. *)
Theorem C79_operators_partial :
  forall a b va vb, MultiIndexProofs.reach (held a) -> MultiIndexProofs.reach (held b) -> mi_Vector (held a) = Ok va -> mi_Vector (held b) = Ok vb ->
    exists e l g, ml_rel OpEq a b = Ok e /\ ml_rel OpNe a b = Ok (negb e) /\ ml_rel OpLt a b = Ok l /\ ml_rel OpGt a b = Ok g /\
      (e = true <-> va = vb) /\ (l = true <-> graded_lt va vb) /\ (g = true <-> graded_lt vb va).
Proof.
  intros a b va vb Ha Hb Va Vb. destruct (C02_equality_is_dense_equality (held a) (held b) Ha Hb) as (e & E1 & E2 & E3).
  destruct (C02_order_is_graded_lexicographic _ _ va vb Ha Hb Va Vb) as (l & L1 & L2).
  destruct (C02_order_is_graded_lexicographic _ _ vb va Hb Ha Vb Va) as (g & G1 & G2).
  exists e, l, g. split; [exact E1|]. split; [exact E2|]. split; [exact L1|]. split; [exact G1|]. split; [|auto].
  rewrite E3, Va, Vb. split; congruence.
Qed.
Print Assumptions C79_operators_partial.

(** The operators >= and <= compare which object is which: of two objects that hold the same multi-index, one is not >= the other, and
    for any two multi-indices there are objects for which >= is wrong. *)
Theorem C79_operators_refuted :
  (forall m, MultiIndexProofs.reach m -> forall a b, held a = m -> held b = m -> ident a <> ident b ->
     ml_rel OpEq a b = Ok true /\ (ml_rel OpGe a b = Ok false \/ ml_rel OpGe b a = Ok false) /\ (ml_rel OpLe a b = Ok false \/ ml_rel OpLe b a = Ok false)) /\
  (forall m n, MultiIndexProofs.reach m -> MultiIndexProofs.reach n -> exists a b, held a = m /\ held b = n /\ ident a <> ident b /\
     ml_rel OpGe a b <> mi_ge m n) /\
  forall a b va vb, MultiIndexProofs.reach (held a) -> MultiIndexProofs.reach (held b) -> mi_Vector (held a) = Ok va -> mi_Vector (held b) = Ok vb ->
    exists r, mi_ge (held a) (held b) = Ok r /\ (r = true <-> ~ graded_lt va vb).
Proof.
  split; [|split].
  - intros m Hm [i a] [j b] Ha Hb Hn. cbn [held ident] in *. subst a b.
    destruct (C02_equality_is_dense_equality m m Hm Hm) as (e & E1 & _ & E3).
    assert (e = true) by (apply E3; reflexivity). subst e. split; [exact E1|].
    unfold ml_rel. cbn. destruct (Nat.leb_spec j i), (Nat.leb_spec i j); split; auto; lia.
  - intros m n Hm Hn. destruct (C02_derived_comparisons m n Hm Hn) as (lab & lba & eab & _ & _ & _ & _ & G & _).
    destruct (lba || eab)%bool.
    + exists (MkHandle 0 m), (MkHandle 1 n). rewrite G. repeat split; discriminate.
    + exists (MkHandle 1 m), (MkHandle 0 n). rewrite G. repeat split; discriminate.
  - intros a b va vb Ha Hb Va Vb. destruct (C02_order_is_graded_lexicographic _ _ va vb Ha Hb Va Vb) as (l & L1 & L2).
    exists (negb l). unfold mi_ge. rewrite L1. split; [reflexivity|]. rewrite <- L2. destruct l; cbn; intuition congruence.
Qed.
Print Assumptions C79_operators_refuted.

(** ** Examples *)

Example C79_example : any_history 2 ex2 /\ small ex2 /\ ml_Size ex2 = MkNum UInt32 9 /\
  ml_IndexToMulti ex2 (MkNum Double 6) = Ok [3;1]%nat /\ ml_brace ex2 (MkNum UInt8 6) = Ok [3;1]%nat /\
  ml_MultiToIndex ex2 [3;1]%nat = Ok (MkNum Int32 6) /\ ml_MultiToIndex ex2 [1;2]%nat = Ok (MkNum Int32 0) /\
  ml_IndexToMulti ex2 (MkNum Int32 0) = Throw /\ is_position (ms_Size ex2) (MkNum UInt8 6).
Proof.
  split; [right; exists never, ex_lim; apply C08_example|]. split; [reflexivity|]. split; [reflexivity|].
  split; [reflexivity|]. split; [reflexivity|]. split; [reflexivity|]. split; [reflexivity|]. split.
  - apply (C79_out_of_range_partial 2 ex2); [right; exists never, ex_lim; apply C08_example|reflexivity| | |]; cbn; try lia.
    + split; cbn; lia.
    + unfold is_signed. auto.
  - unfold is_position. cbn. lia.
Qed.

Example C79_growth_example : exists s', ml_Expand ex0 (MkNum Double 2) = Ok (s', [MkNum UInt32 4; MkNum UInt32 5]) /\ s' = ex1 /\
  ml_Frontier ex1 <> Ok [] /\ ml_BackwardNeighbors c10_2 (MkNum Double 5) = Ok [MkNum UInt32 2; MkNum UInt32 3] /\
  ml_AdmissibleForwardNeighbors c11s (MkNum Double 2) = Ok [[1;1]; [0;2]]%nat.
Proof. eexists. split; [vm_compute; reflexivity|]. split; [reflexivity|]. split; [vm_compute; discriminate|]. split; vm_compute; reflexivity. Qed.

Example C79_add_active_example : exists s', ml_AddActive ex0 [1;1]%nat = Ok (s', MkNum Int32 3) /\ ml_MultiToIndex s' [1;1]%nat = Ok (MkNum Int32 4) /\
  ml_IndexToMulti s' (MkNum Int32 3) = Ok [1;0]%nat.
Proof. eexists. split; [vm_compute; reflexivity|]. split; vm_compute; reflexivity. Qed.

Example C79_copy_example : exists t, mex_DeepCopy c10s = Ok t /\ ml_IndexToMulti c10s (MkNum Double 1) = Ok [2]%nat /\
  ml_IndexToMulti t (MkNum Double 1) = Ok [0]%nat /\ ms_Size t = 2%nat.
Proof. eexists. split; [vm_compute; reflexivity|]. split; [|split]; vm_compute; reflexivity. Qed.

Example C79_multi_example : exists m, mlm_Set (mi_of_vec [1;0;2]%nat) (MkNum Double 2) (MkNum Double 7) = Ok (m, false) /\
  mi_Vector m = Ok [1;7;2]%nat /\ mlm_Get m (MkNum UInt32 2) = Ok (MkNum UInt32 7) /\
  ml_rel OpLt (MkHandle 0 (mi_of_vec [1;1]%nat)) (MkHandle 1 (mi_of_vec [0;2]%nat)) = Ok true /\
  ml_rel OpGe (MkHandle 0 (mi_of_vec [0;2]%nat)) (MkHandle 1 (mi_of_vec [1;1]%nat)) = Ok false.
Proof. eexists. split; [reflexivity|]. split; [reflexivity|]. split; [|split]; vm_compute; reflexivity. Qed.
