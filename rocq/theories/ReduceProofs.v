(** Whatever its schedule, the reduction computes the sums (over the reals). *)
From Coq Require Import Reals List Lia Lra Permutation.
From Verif Require Import Base SpecExpansion SpecMaps SpecDensity ReduceModel.
Import ListNotations.
Local Open Scope R_scope.

Lemma lsum_app a b : lsum (a ++ b) = lsum a + lsum b.
Proof. induction a as [|x a IH]; cbn; [ring|]. rewrite IH. ring. Qed.
Lemma lsum_perm a b : Permutation a b -> lsum a = lsum b.
Proof. induction 1; cbn; lra. Qed.
Lemma lsum_scal {A} (f : A -> R) k l : lsum (map (fun a => f a * k) l) = lsum (map f l) * k.
Proof. induction l as [|a l IH]; cbn; [ring|]. rewrite IH. ring. Qed.
Lemma lsum_rsum f n : lsum (map f (seq 0 n)) = rsum f n.
Proof. induction n as [|n IH]; auto. rewrite seq_S, map_app, lsum_app, IH. cbn. ring. Qed.

(** A loop that updates every entry of a list by its own value. *)
Lemma upd_app_mid {A} (pre : list A) x y post : upd (pre ++ x :: post) (length pre) y = pre ++ y :: post.
Proof. induction pre as [|a pre IH]; cbn; congruence. Qed.
Lemma ofold_update_gen (F : nat -> R -> R) (step : list R -> nat -> outcome (list R)) k0 :
  (forall l k, (k < length l)%nat -> step l k = Ok (upd l k (F k (nth k l 0)))) ->
  forall l pre, length pre = k0 -> ofold step (seq k0 (length l)) (pre ++ l) = Ok (pre ++ map (fun kx => F (fst kx) (snd kx)) (combine (seq k0 (length l)) l)).
Proof.
  intros H l. revert k0. induction l as [|x l IH]; intros k0 pre Hp; [reflexivity|]. cbn [length seq ofold combine map fst snd].
  rewrite H by (rewrite app_length; cbn; lia). cbn [obind]. subst k0.
  rewrite app_nth2, Nat.sub_diag by lia. cbn [nth]. rewrite upd_app_mid.
  replace (pre ++ F (length pre) x :: l) with ((pre ++ [F (length pre) x]) ++ l) by (rewrite <- app_assoc; reflexivity).
  rewrite (IH (S (length pre)) (pre ++ [F (length pre) x])).
  - rewrite <- app_assoc. reflexivity.
  - rewrite app_length. cbn. lia.
Qed.
Lemma combine_seq_nth (F : nat -> R -> R) l k0 : map (fun kx => F (fst kx) (snd kx)) (combine (seq k0 (length l)) l) = map (fun k => F (k0 + k)%nat (nth k l 0)) (seq 0 (length l)).
Proof.
  revert k0. induction l as [|x l IH]; intros k0; [reflexivity|]. cbn [length seq combine map fst snd nth]. rewrite Nat.add_0_r. f_equal.
  rewrite IH. rewrite <- seq_shift, map_map. apply map_ext. intros k. cbn [nth]. f_equal. lia.
Qed.
Lemma ofold_update (F : nat -> R -> R) step l n : length l = n ->
  (forall l k, (k < length l)%nat -> step l k = Ok (upd l k (F k (nth k l 0)))) ->
  ofold step (seq 0 n) l = Ok (map (fun k => F k (nth k l 0)) (seq 0 n)).
Proof.
  intros <- H. pose proof (ofold_update_gen F step 0 H l [] eq_refl) as E. cbn [app] in E. rewrite E. rewrite combine_seq_nth. reflexivity.
Qed.
Lemma ofold_ext {A S} (f g : S -> A -> outcome S) (P : S -> Prop) l s : P s ->
  (forall s a, P s -> In a l -> f s a = g s a) -> (forall s a s', P s -> In a l -> g s a = Ok s' -> P s') -> ofold f l s = ofold g l s.
Proof.
  revert s. induction l as [|a l IH]; intros s Hs H1 H2; [reflexivity|]. cbn [ofold]. rewrite H1 by (cbn; auto).
  destruct (g s a) as [s'| | |] eqn:E; cbn [obind]; auto. apply IH; [eapply H2; eauto; cbn; auto| |]; intros; [apply H1|eapply H2]; eauto; cbn; auto.
Qed.
Lemma raw_get_nth (l : list R) k : (k < length l)%nat -> raw_get l k = Ok (nth k l 0).
Proof. intros H. unfold raw_get. rewrite (nth_error_nth' l 0 H). reflexivity. Qed.
Lemma raw_set_upd {A} (l : list A) k x : (k < length l)%nat -> raw_set l k x = Ok (upd l k x).
Proof. intros H. unfold raw_set. apply Nat.ltb_lt in H. rewrite H. reflexivity. Qed.

Section Reduce.
Variables (elem : nat -> nat -> outcome R) (e : nat -> nat -> R) (count : nat) (kernel : R -> R) (alpha : R).
Definition term (k r : nat) : R := kernel (e r k) * alpha.
Lemma rd_op_ok r sum : length sum = count -> (forall k, (k < count)%nat -> elem r k = Ok (e r k)) ->
  rd_op elem count kernel alpha r sum = Ok (map (fun k => nth k sum 0 + term k r) (seq 0 count)).
Proof.
  intros Hl He. unfold rd_op.
  rewrite (ofold_ext _ (fun s k => if (k <? length s)%nat then Ok (upd s k (nth k s 0 + term k r)) else UB) (fun s => length s = count)); auto.
  - apply (ofold_update (fun k s => s + term k r)); auto. intros l k Hk. apply Nat.ltb_lt in Hk. rewrite Hk. reflexivity.
  - intros s k Hs Hk. apply in_seq in Hk. rewrite He by lia. cbn [obind]. rewrite raw_get_nth by lia. cbn [obind]. rewrite raw_set_upd by lia.
    destruct (Nat.ltb_spec k (length s)); [reflexivity|lia].
  - intros s k s' Hs _ E. destruct (k <? length s)%nat; [|discriminate]. injection E as <-. rewrite upd_length. auto.
Qed.
Lemma rd_join_ok a b : length a = count -> length b = count ->
  rd_join count a b = Ok (map (fun k => nth k a 0 + nth k b 0) (seq 0 count)).
Proof.
  intros Ha Hb. unfold rd_join.
  rewrite (ofold_ext _ (fun s k => if (k <? length s)%nat then Ok (upd s k (nth k s 0 + nth k b 0)) else UB) (fun s => length s = count)); auto.
  - apply (ofold_update (fun k s => s + nth k b 0)); auto. intros l k Hk. apply Nat.ltb_lt in Hk. rewrite Hk. reflexivity.
  - intros s k Hs Hk. apply in_seq in Hk. rewrite !raw_get_nth by lia. cbn [obind]. rewrite raw_set_upd by lia.
    destruct (Nat.ltb_spec k (length s)); [reflexivity|lia].
  - intros s k s' Hs _ E. destruct (k <? length s)%nat; [|discriminate]. injection E as <-. rewrite upd_length. auto.
Qed.
Lemma nth_map_seq' (g : nat -> R) n k : (k < n)%nat -> nth k (map g (seq 0 n)) 0 = g k.
Proof. intros H. rewrite (nth_indep _ 0 (g 0%nat)) by (rewrite map_length, seq_length; auto). rewrite map_nth, seq_nth by auto. reflexivity. Qed.
Lemma map_seq_ext (f g : nat -> R) n : (forall k, (k < n)%nat -> f k = g k) -> map f (seq 0 n) = map g (seq 0 n).
Proof. intros H. apply map_ext_in. intros k Hk. apply in_seq in Hk. apply H. lia. Qed.
Lemma chunk_ok l : forall s, length s = count -> (forall r k, In r l -> (k < count)%nat -> elem r k = Ok (e r k)) ->
  ofold (fun sum r => rd_op elem count kernel alpha r sum) l s = Ok (map (fun k => nth k s 0 + lsum (map (term k) l)) (seq 0 count)).
Proof.
  induction l as [|r l IH]; intros s Hs He; cbn [ofold].
  - f_equal. rewrite <- (map_ext (fun k => nth k s 0)) by (intros; cbn; ring). rewrite <- Hs. clear. induction s as [|x s IH]; [reflexivity|].
    cbn [length seq map nth]. f_equal. rewrite <- seq_shift, map_map. exact IH.
  - rewrite rd_op_ok by (auto; intros; apply He; cbn; auto). cbn [obind]. rewrite IH.
    + f_equal. apply map_seq_ext. intros k Hk. rewrite nth_map_seq' by auto. cbn [map lsum]. ring.
    + rewrite map_length, seq_length. reflexivity.
    + intros; apply He; cbn; auto.
Qed.
Lemma rd_run_ok s : (forall r k, In r (iterations s) -> (k < count)%nat -> elem r k = Ok (e r k)) ->
  rd_run elem count kernel alpha s = Ok (map (fun k => lsum (map (term k) (iterations s))) (seq 0 count)).
Proof.
  induction s as [l|a IHa b IHb]; intros He; cbn [rd_run iterations].
  - rewrite chunk_ok by (auto; unfold rd_init; apply repeat_length). f_equal. apply map_seq_ext. intros k Hk. unfold rd_init. rewrite nth_repeat. cbn [iterations]. ring.
  - rewrite IHa by (intros; apply He; auto; cbn; apply in_or_app; auto). cbn [obind].
    rewrite IHb by (intros; apply He; auto; cbn; apply in_or_app; auto). cbn [obind].
    rewrite rd_join_ok by (rewrite map_length, seq_length; reflexivity). f_equal. apply map_seq_ext. intros k Hk. rewrite !nth_map_seq' by auto.
    rewrite map_app, lsum_app. reflexivity.
Qed.
Lemma rd_run_complete n s : complete n s -> (forall r k, (r < n)%nat -> (k < count)%nat -> elem r k = Ok (e r k)) ->
  rd_run elem count kernel alpha s = Ok (map (fun k => rsum (fun r => kernel (e r k)) n * alpha) (seq 0 count)).
Proof.
  intros Hc He. rewrite rd_run_ok.
  - f_equal. apply map_seq_ext. intros k Hk. rewrite (lsum_perm _ (map (term k) (seq 0 n))) by (apply Permutation_map; auto).
    unfold term. rewrite lsum_scal with (f := fun r => kernel (e r k)). rewrite lsum_rsum. reflexivity.
  - intros r k Hr Hk. apply He; auto. apply (Permutation_in _ Hc), in_seq in Hr. lia.
Qed.
End Reduce.
