(** Proofs about linearised bases. *)
From Coq Require Import Reals Lra.
From Coquelicot Require Import Coquelicot.
From Verif Require Import Base SpecPoly PolyModel PolyProofs.
Local Open Scope R_scope.

(** Two functions with the same value and slope at [p] glue to a differentiable function. *)
Lemma glue (f g : R -> R) (p l : R) : is_derive f p l -> is_derive g p l -> f p = g p ->
  is_derive (fun x => if Rltb x p then f x else g x) p l.
Proof.
  intros Hf Hg E. apply is_derive_Reals in Hf. apply is_derive_Reals in Hg. apply is_derive_Reals.
  intros eps He. destruct (Hf eps He) as [d1 H1]. destruct (Hg eps He) as [d2 H2].
  assert (Hd : 0 < Rmin d1 d2) by (apply Rmin_pos; [apply d1|apply d2]).
  exists (mkposreal _ Hd). intros h Hh Hb. cbn in Hb.
  assert (Rabs h < d1) by (eapply Rlt_le_trans; [apply Hb|apply Rmin_l]).
  assert (Rabs h < d2) by (eapply Rlt_le_trans; [apply Hb|apply Rmin_r]).
  unfold Rltb at 2. destruct (Rlt_dec p p); [lra|].
  unfold Rltb. destruct (Rlt_dec (p + h) p).
  - rewrite <- E. apply H1; auto.
  - apply H2; auto.
Qed.

Lemma Rltb_true a b : a < b -> Rltb a b = true.
Proof. intros H. unfold Rltb. destruct (Rlt_dec a b); auto; lra. Qed.
Lemma Rltb_false a b : b <= a -> Rltb a b = false.
Proof. intros H. unfold Rltb. destruct (Rlt_dec a b); auto; lra. Qed.

(** The linear extension of [v] with slope [d] at the two bounds. *)
Definition ext (v d : R -> R) (lb ub x : R) : R :=
  if Rltb x lb then v lb + d lb * (x - lb) else if Rltb ub x then v ub + d ub * (x - ub) else v x.
Definition extd (d : R -> R) (lb ub x : R) : R :=
  if Rltb x lb then d lb else if Rltb ub x then d ub else d x.
Definition extd2 (d2 : R -> R) (lb ub x : R) : R :=
  if Rltb x lb then 0 else if Rltb ub x then 0 else d2 x.

Lemma affine_derive a b c x : is_derive (fun t => a + b * (t - c)) x b.
Proof. auto_derive; auto. ring. Qed.

Lemma is_derive_near (f g : R -> R) (x l r : R) : 0 < r -> (forall t, Rabs (t - x) < r -> f t = g t) -> is_derive f x l -> is_derive g x l.
Proof.
  intros Hr E H. apply (is_derive_ext_loc f); auto. exists (mkposreal r Hr). intros t Ht. apply E. exact Ht.
Qed.

Lemma ext_derive (v d : R -> R) lb ub : lb < ub -> (forall x, is_derive v x (d x)) ->
  forall x, is_derive (ext v d lb ub) x (extd d lb ub x).
Proof.
  intros L H x. unfold extd.
  destruct (Rlt_le_dec x lb) as [A|A].
  { rewrite Rltb_true by auto.
    apply (is_derive_near (fun t => v lb + d lb * (t - lb)) _ _ _ (lb - x)); [lra| |apply affine_derive].
    intros t Ht. apply Rabs_lt_between in Ht. unfold ext. rewrite Rltb_true by lra. auto. }
  rewrite Rltb_false by auto.
  destruct (Rlt_le_dec ub x) as [B|B].
  { rewrite Rltb_true by auto.
    apply (is_derive_near (fun t => v ub + d ub * (t - ub)) _ _ _ (x - ub)); [lra| |apply affine_derive].
    intros t Ht. apply Rabs_lt_between in Ht. unfold ext. rewrite Rltb_false, Rltb_true by lra. auto. }
  rewrite Rltb_false by auto.
  destruct (Rle_lt_or_eq_dec _ _ A) as [A'|<-].
  - destruct (Rle_lt_or_eq_dec _ _ B) as [B'| -> ].
    + apply (is_derive_near v _ _ _ (Rmin (x - lb) (ub - x))).
      * apply Rmin_pos; lra.
      * intros t Ht. pose proof (Rmin_l (x - lb) (ub - x)). pose proof (Rmin_r (x - lb) (ub - x)).
        apply Rabs_lt_between in Ht. unfold ext. rewrite !Rltb_false by lra. auto.
      * apply H.
    + apply (is_derive_near (fun t => if Rltb t ub then v t else v ub + d ub * (t - ub)) _ _ _ (ub - lb)); [lra| |].
      * intros t Ht. apply Rabs_lt_between in Ht. unfold ext. rewrite (Rltb_false t lb) by lra.
        destruct (Rlt_le_dec t ub).
        -- rewrite Rltb_true, Rltb_false by lra. auto.
        -- rewrite Rltb_false by lra. destruct (Rle_lt_or_eq_dec _ _ r) as [C|C].
           ++ rewrite Rltb_true by lra. auto.
           ++ subst. rewrite Rltb_false by lra. ring.
      * apply glue; [apply H|apply affine_derive|ring].
  - apply (is_derive_near (fun t => if Rltb t lb then v lb + d lb * (t - lb) else v t) _ _ _ (ub - lb)); [lra| |].
    + intros t Ht. apply Rabs_lt_between in Ht. unfold ext. rewrite (Rltb_false ub t) by lra. reflexivity.
    + apply glue; [apply affine_derive|apply H|ring].
Qed.

Lemma extd_derive (d d2 : R -> R) lb ub : (forall x, is_derive d x (d2 x)) ->
  forall x, x <> lb -> x <> ub -> lb < ub -> is_derive (extd d lb ub) x (extd2 d2 lb ub x).
Proof.
  intros H x N1 N2 L. unfold extd2.
  destruct (Rlt_le_dec x lb) as [A|A].
  { rewrite Rltb_true by auto.
    apply (is_derive_near (fun t => d lb) _ _ _ (lb - x)); [lra| |apply (is_derive_const (d lb) x)].
    intros t Ht. apply Rabs_lt_between in Ht. unfold extd. rewrite Rltb_true by lra. auto. }
  rewrite Rltb_false by auto.
  destruct (Rlt_le_dec ub x) as [B|B].
  { rewrite Rltb_true by auto.
    apply (is_derive_near (fun t => d ub) _ _ _ (x - ub)); [lra| |apply (is_derive_const (d ub) x)].
    intros t Ht. apply Rabs_lt_between in Ht. unfold extd. rewrite Rltb_false, Rltb_true by lra. auto. }
  rewrite Rltb_false by auto.
  apply (is_derive_near d _ _ _ (Rmin (x - lb) (ub - x))).
  * apply Rmin_pos; lra.
  * intros t Ht. pose proof (Rmin_l (x - lb) (ub - x)). pose proof (Rmin_r (x - lb) (ub - x)).
    apply Rabs_lt_between in Ht. unfold extd. rewrite !Rltb_false by lra. auto.
  * apply H.
Qed.

(** ** Buffers *)

(** The array routines of [B] fill v, d and d2 up to degree N. *)
Definition fills_values (B : basis) (v : nat -> R -> R) (N : nat) : Prop :=
  forall n x out, (n <= N)%nat -> (n < length out)%nat -> b_all B out n x = Ok (fill (fun k => v k x) (S n) out).
Definition fills_derivs (B : basis) (v d : nat -> R -> R) (N : nat) : Prop :=
  forall n x a b, (n <= N)%nat -> (n < length a)%nat -> (n < length b)%nat ->
    b_derivs B a b n x = Ok (fill (fun k => v k x) (S n) a, fill (fun k => d k x) (S n) b).
Definition fills_second (B : basis) (v d d2 : nat -> R -> R) (N : nat) : Prop :=
  forall n x a b c, (n <= N)%nat -> (n < length a)%nat -> (n < length b)%nat -> (n < length c)%nat ->
    b_second B a b c n x =
    Ok (fill (fun k => v k x) (S n) a, fill (fun k => d k x) (S n) b, fill (fun k => d2 k x) (S n) c).

Lemma add_all_spec g (d f : nat -> R) n dx out : (n < length out)%nat -> (forall i, (i <= n)%nat -> g i = Ok (d i)) ->
  add_all g n dx (fill f (S n) out) = Ok (fill (fun i => f i + d i * dx) (S n) out).
Proof.
  intros L G. unfold add_all.
  pose (h := fun i => f i + d i * dx).
  pose (St := fun k => over h f (S n) k out).
  change (fill f (S n) out) with (St 0%nat). rewrite (ofold_seq _ St).
  - unfold St. cbn [Nat.add]. rewrite over_done by lia. reflexivity.
  - intros o Ho. unfold St. rewrite over_get by lia. cbn [obind]. rewrite G by lia. cbn [obind].
    rewrite over_set by (auto; lia). do 2 f_equal. lia.
Qed.

Lemma lin_all_spec B v d lb ub N : fills_values B v N -> (forall k x, (k <= N)%nat -> b_deriv B k x = d k x) ->
  fills_values (linearized B lb ub) (fun k => ext (v k) (d k) lb ub) N.
Proof.
  intros H D n x out Hn L. cbn. unfold lin_all, ext.
  destruct (Rltb x lb); [|destruct (Rltb ub x)].
  - rewrite H by auto. cbn [obind]. rewrite (add_all_spec _ (fun k => d k lb)); auto. intros i Hi. rewrite D; auto; lia.
  - rewrite H by auto. cbn [obind]. rewrite (add_all_spec _ (fun k => d k ub)); auto. intros i Hi. rewrite D; auto; lia.
  - apply H; auto.
Qed.

Lemma lin_derivs_spec B v d lb ub N : fills_derivs B v d N ->
  fills_derivs (linearized B lb ub) (fun k => ext (v k) (d k) lb ub) (fun k => extd (d k) lb ub) N.
Proof.
  intros H n x a b Hn L L'. cbn. unfold lin_derivs, ext, extd.
  destruct (Rltb x lb); [|destruct (Rltb ub x)].
  - rewrite H by auto. cbn [obind fst snd]. rewrite (add_all_spec _ (fun k => d k lb)); auto.
    intros i Hi. rewrite fill_get by lia. auto.
  - rewrite H by auto. cbn [obind fst snd]. rewrite (add_all_spec _ (fun k => d k ub)); auto.
    intros i Hi. rewrite fill_get by lia. auto.
  - apply H; auto.
Qed.

Lemma zero_all n (c : list R) : (n < length c)%nat ->
  ofold (fun a i => raw_set a i 0) (seq 0 (S n)) c = Ok (fill (fun _ => 0) (S n) c).
Proof.
  intros L. pose (St := fun k => fill (fun _ => 0) k c). change c with (St 0%nat) at 1.
  rewrite (ofold_seq _ St).
  - reflexivity.
  - intros o Ho. unfold St. rewrite fill_set by (auto; lia). do 2 f_equal. lia.
Qed.

Lemma lin_second_spec B v d d2 lb ub N : fills_derivs B v d N -> fills_second B v d d2 N ->
  fills_second (linearized B lb ub) (fun k => ext (v k) (d k) lb ub) (fun k => extd (d k) lb ub) (fun k => extd2 (d2 k) lb ub) N.
Proof.
  intros H H2 n x a b c Hn L L' L''. cbn. unfold lin_second.
  pose proof (lin_derivs_spec B v d lb ub N H n x a b Hn L L') as E. cbn in E. rewrite E.
  unfold ext, extd, extd2.
  destruct (Rltb x lb); [|destruct (Rltb ub x)].
  - cbn [obind]. rewrite zero_all by auto. reflexivity.
  - cbn [obind]. rewrite zero_all by auto. reflexivity.
  - apply H2; auto.
Qed.
