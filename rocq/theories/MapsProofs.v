(** Triangular maps: the loops of the model against the recursive specification. *)
From Coq Require Import Reals List Lra.
From Verif Require Import Base SpecExpansion SpecMaps ExpansionModel MapsModel MapsContract.
Import ListNotations.
Local Open Scope R_scope.

(** * Segments *)
Lemma seg_app (a b : list R) n : (n <= length b)%nat -> seg (a ++ b) (length a) n = Ok (firstn n b).
Proof.
  intros H. unfold seg. rewrite app_length.
  destruct (Nat.leb_spec (length a + n) (length a + length b)) as [_|Hx]; [|lia].
  rewrite skipn_app, skipn_all, Nat.sub_diag. reflexivity.
Qed.
Lemma seg_0 (b : list R) n : (n <= length b)%nat -> seg b 0 n = Ok (firstn n b).
Proof. intros H. apply (seg_app [] b n H). Qed.
Lemma put_app (a b y : list R) : put (a ++ b) (length a) y = a ++ y ++ skipn (length y) b.
Proof.
  unfold put. rewrite firstn_app, firstn_all, Nat.sub_diag, firstn_O, app_nil_r.
  rewrite skipn_app, (skipn_all2 a) by lia.
  replace (length a + length y - length a)%nat with (length y) by lia. reflexivity.
Qed.
Lemma seg_app' (a b : list R) o n : o = length a -> (n <= length b)%nat -> seg (a ++ b) o n = Ok (firstn n b).
Proof. intros ->. apply seg_app. Qed.
Lemma put_app' (a b y : list R) o : o = length a -> put (a ++ b) o y = a ++ y ++ skipn (length y) b.
Proof. intros ->. apply put_app. Qed.
Lemma put_0 (b y : list R) : put b 0 y = y ++ skipn (length y) b.
Proof. exact (put_app [] b y). Qed.
Lemma deep_copy_ok (a b : list R) : length a = length b -> deep_copy a b = Ok b.
Proof. intros H. unfold deep_copy. rewrite H, Nat.eqb_refl. reflexivity. Qed.
Lemma firstn_len {A} (l : list A) n : (n <= length l)%nat -> length (firstn n l) = n.
Proof. intros H. rewrite firstn_length. lia. Qed.
Lemma fresh_length n : length (fresh n) = n. Proof. apply repeat_length. Qed.

(** * vadd *)
Lemma vadd_length a b : length a = length b -> length (vadd a b) = length a.
Proof.
  revert b. induction a as [|x a IH]; intros [|y b] H; cbn in *; try congruence; auto.
Qed.
Lemma vadd_assoc a b c : vadd (vadd a b) c = vadd a (vadd b c).
Proof.
  revert b c. induction a as [|x a IH]; intros [|y b] [|z c]; cbn; auto.
  f_equal; [ring|apply IH].
Qed.
Lemma vadd_zeros_r a : vadd a (zeros (length a)) = a.
Proof. induction a as [|x a IH]; cbn; auto. unfold zeros in IH. rewrite IH. f_equal. ring. Qed.
Lemma vadd_zeros_l a : vadd (zeros (length a)) a = a.
Proof. induction a as [|x a IH]; cbn; auto. unfold zeros in IH. rewrite IH. f_equal. ring. Qed.
Lemma vadd_app a1 a2 b1 b2 : length a1 = length b1 -> vadd (a1 ++ a2) (b1 ++ b2) = vadd a1 b1 ++ vadd a2 b2.
Proof.
  revert b1. induction a1 as [|x a1 IH]; intros [|y b1] H; cbn in *; try congruence; auto.
  f_equal. apply IH. congruence.
Qed.
Lemma extend_length n a : (length a <= n)%nat -> length (extend n a) = n.
Proof. intros H. unfold extend, zeros. rewrite app_length, repeat_length. lia. Qed.
Lemma extend_same a : extend (length a) a = a.
Proof. unfold extend. rewrite Nat.sub_diag. apply app_nil_r. Qed.

Lemma add_loop (pre out sub spre : list R) n : length pre = length spre -> (n <= length out)%nat -> (n <= length sub)%nat ->
  ofold (fun out d => do a <- raw_get out d; do b <- raw_get (spre ++ sub) d; raw_set out d (a + b))
    (seq (length pre) n) (pre ++ out) = Ok (pre ++ vadd (firstn n out) (firstn n sub) ++ skipn n out).
Proof.
  revert pre out sub spre. induction n as [|n IH]; intros pre out sub spre Hp H1 H2.
  - reflexivity.
  - destruct out as [|x out]; [cbn in H1; lia|]. destruct sub as [|y sub]; [cbn in H2; lia|].
    cbn [seq ofold].
    unfold raw_get at 1. rewrite nth_error_app2 by lia. rewrite Nat.sub_diag. cbn [nth_error obind].
    unfold raw_get at 1. rewrite nth_error_app2 by lia. rewrite Hp, Nat.sub_diag. cbn [nth_error obind].
    unfold raw_set at 1. rewrite app_length. cbn [length].
    destruct (Nat.ltb_spec (length spre) (length pre + S (length out))) as [_|Hx]; [|lia]. cbn [obind].
    assert (Hu : upd (pre ++ x :: out) (length spre) (x + y) = (pre ++ [x + y]) ++ out).
    { rewrite <- Hp. rewrite <- (Nat.add_0_r (length pre)) at 1. rewrite upd_app_r. cbn. rewrite <- app_assoc. reflexivity. }
    rewrite Hu. replace (spre ++ y :: sub) with ((spre ++ [y]) ++ sub) by (rewrite <- app_assoc; reflexivity).
    specialize (IH (pre ++ [x + y]) out sub (spre ++ [y])).
    rewrite !app_length in IH. cbn [length] in IH.
    replace (S (length spre)) with (length pre + 1)%nat by lia.
    rewrite IH by (cbn in *; lia).
    cbn [firstn skipn vadd]. rewrite <- app_assoc. reflexivity.
Qed.
Lemma vadd_firstn n out sub : length sub = n -> (n <= length out)%nat ->
  vadd (firstn n out) (firstn n sub) ++ skipn n out = vadd out (extend (length out) sub).
Proof.
  revert out sub. induction n as [|n IH]; intros out sub Hs Ho.
  - destruct sub; [|discriminate]. cbn [firstn skipn vadd app]. unfold extend. cbn [app length].
    rewrite Nat.sub_0_r. symmetry. apply vadd_zeros_r.
  - destruct out as [|x out]; [cbn in Ho; lia|]. destruct sub as [|y sub]; [discriminate|].
    unfold extend. cbn [firstn skipn vadd app length]. f_equal. cbn in Hs, Ho. apply IH; lia.
Qed.
Lemma add_into_ok n (out sub : list R) : length sub = n -> (n <= length out)%nat ->
  add_into n out sub = Ok (vadd out (extend (length out) sub)).
Proof.
  intros Hs Ho. unfold add_into. pose proof (add_loop [] out sub [] n eq_refl Ho ltac:(lia)) as H.
  cbn [length app] in H. rewrite H. f_equal. apply vadd_firstn; auto.
Qed.
Lemma add_same (out sub : list R) : length sub = length out -> add_into (length out) out sub = Ok (vadd out sub).
Proof. intros H. rewrite add_into_ok by lia. rewrite <- H, extend_same. reflexivity. Qed.

Lemma zero_loop (pre out : list R) n : (n <= length out)%nat ->
  ofold (fun out d => raw_set out d 0) (seq (length pre) n) (pre ++ out) = Ok (pre ++ fresh n ++ skipn n out).
Proof.
  revert pre out. induction n as [|n IH]; intros pre out H; [reflexivity|].
  destruct out as [|x out]; [cbn in H; lia|]. cbn [seq ofold].
  unfold raw_set at 1. rewrite app_length. cbn [length].
  destruct (Nat.ltb_spec (length pre) (length pre + S (length out))) as [_|Hx]; [|lia]. cbn [obind].
  assert (Hu : upd (pre ++ x :: out) (length pre) 0 = (pre ++ [0]) ++ out).
  { rewrite <- (Nat.add_0_r (length pre)) at 1. rewrite upd_app_r. cbn. rewrite <- app_assoc. reflexivity. }
  rewrite Hu. specialize (IH (pre ++ [0]) out). rewrite app_length in IH. cbn [length] in IH.
  replace (S (length pre)) with (length pre + 1)%nat by lia. rewrite IH by (cbn in *; lia).
  cbn [skipn fresh repeat]. rewrite <- app_assoc. reflexivity.
Qed.
Lemma zero_all (out : list R) n : n = length out -> ofold (fun out d => raw_set out d 0) (seq 0 n) out = Ok (fresh n).
Proof.
  intros ->. pose proof (zero_loop [] out (length out) (le_n _)) as H. cbn [length app] in H. rewrite H.
  rewrite skipn_all. rewrite app_nil_r. reflexivity.
Qed.

(** * Sums of dimensions *)
Lemma fold_nsum {A} (f : A -> nat) l s : fold_left (fun s K => s + f K)%nat l s = (s + nsum f l)%nat.
Proof. revert s. induction l as [|a l IH]; intros s; cbn; [lia|]. rewrite IH. lia. Qed.
Lemma nsum_app {A} (f : A -> nat) l1 l2 : nsum f (l1 ++ l2) = (nsum f l1 + nsum f l2)%nat.
Proof. induction l1; cbn; lia. Qed.
Lemma tri_out_sum comps : tri_out comps = nsum m_out comps.
Proof. unfold tri_out. rewrite fold_nsum. lia. Qed.
Lemma tri_nc_sum comps : tri_nc comps = nsum m_nc comps.
Proof. unfold tri_nc. rewrite fold_nsum. lia. Qed.
Lemma nsum_out_dims comps specs : Forall2 dims comps specs -> nsum m_out comps = nsum p_out specs.
Proof. induction 1 as [|K P l l' (H1 & H2 & H3) _ IH]; cbn; congruence. Qed.
Lemma nsum_nc_dims comps specs : Forall2 dims comps specs -> nsum m_nc comps = nsum p_nc specs.
Proof. induction 1 as [|K P l l' (H1 & H2 & H3) _ IH]; cbn; congruence. Qed.
Lemma nsum_in {A} (f : A -> nat) a l : In a l -> (f a <= nsum f l)%nat.
Proof. induction l as [|b l IH]; cbn; [tauto|]. intros [->|H]; [lia|]. specialize (IH H). lia. Qed.

(** The chain of input dimensions behind an accepted list. *)
Fixpoint chain (e : nat) (l : list cmap) : Prop :=
  match l with [] => True | K :: l => m_in K = (e + m_out K)%nat /\ chain (m_in K) l end.
Lemma chained_chain K l : chained (K :: l) = true -> chain (m_in K) l.
Proof.
  revert K. induction l as [|K2 l IH]; intros K H; [exact I|].
  cbn [chained] in H. apply andb_true_iff in H. destruct H as [H1 H2].
  apply Nat.eqb_eq in H1. split; auto.
Qed.
Definition lead_dim (comps : list cmap) : nat := match comps with [] => 0%nat | K :: _ => (m_in K - m_out K)%nat end.
Lemma ctor_inv comps T : tri_ctor comps = Ok T -> T = tri_map comps /\ comps <> [] /\ chain (lead_dim comps) comps.
Proof.
  unfold tri_ctor. destruct comps as [|K l]; [discriminate|].
  destruct (forallb _ _) eqn:Hf; [|discriminate]. destruct (chained (K :: l)) eqn:Hc; [|discriminate].
  intros H. injection H as <-. split; [reflexivity|]. split; [discriminate|].
  cbn [forallb] in Hf. apply andb_true_iff in Hf. destruct Hf as [Hf _]. apply Nat.leb_le in Hf.
  cbn [lead_dim chain]. split; [lia|]. apply chained_chain. exact Hc.
Qed.
Lemma chain_last e l K : chain e (l ++ [K]) -> m_in K = (e + nsum m_out (l ++ [K]))%nat.
Proof.
  revert e. induction l as [|K0 l IH]; intros e H.
  - cbn in *. lia.
  - cbn [app chain] in H. destruct H as [H1 H2]. rewrite (IH _ H2). cbn. lia.
Qed.
Lemma chain_in e l : l <> [] -> chain e l -> tri_in l = (e + nsum m_out l)%nat.
Proof.
  intros Hn Hc. destruct (exists_last Hn) as (l' & K & ->). unfold tri_in. rewrite rev_app_distr. cbn [rev app].
  apply chain_last. exact Hc.
Qed.
Lemma chain_le e l : chain e l -> Forall (fun K => m_in K <= e + nsum m_out l)%nat l.
Proof.
  revert e. induction l as [|K l IH]; intros e H; [constructor|].
  destruct H as [H1 H2]. constructor; [cbn; lia|].
  eapply Forall_impl; [|apply (IH _ H2)]. cbn. intros K' HK'. lia.
Qed.
Lemma chain_le_in comps : comps <> [] -> chain (lead_dim comps) comps ->
  Forall (fun K => m_in K <= tri_in comps)%nat comps.
Proof. intros Hn H. rewrite (chain_in _ _ Hn H). apply chain_le. exact H. Qed.
Lemma chain_extra comps : comps <> [] -> chain (lead_dim comps) comps -> (tri_in comps - tri_out comps)%nat = lead_dim comps.
Proof. intros Hn H. rewrite (chain_in _ _ Hn H), tri_out_sum. lia. Qed.

Ltac len := repeat (rewrite ?app_length, ?skipn_length, ?fresh_length, ?repeat_length in * ); cbn [length] in *; try lia.

(** * Evaluate *)
Lemma tri_Evaluate_loop comps specs (pts : list R) : Forall2 imp_eval comps specs ->
  Forall (fun K => m_in K <= length pts)%nat comps ->
  forall (dc c dout rest : list R), length c = nsum m_nc comps -> length rest = nsum m_out comps ->
  ofold (fun (st : nat * nat * list R) K =>
            let '(so, sp, out) := st in
            do c <- seg (dc ++ c) sp (m_nc K);
            do subPts <- seg pts 0 (m_in K);
            do subOut <- seg out so (m_out K);
            do y <- m_eval K c subPts subOut;
            Ok ((so + m_out K)%nat, (sp + m_nc K)%nat, put out so y)) comps (length dout, length dc, dout ++ rest)
  = Ok ((length dout + nsum m_out comps)%nat, (length dc + nsum m_nc comps)%nat, dout ++ tri_eval specs c pts)
  /\ length (tri_eval specs c pts) = nsum m_out comps.
Proof.
  intros H. induction H as [|K P comps specs (HD & HK) _ IH]; intros Hin dc c dout rest Hc Hr.
  - cbn [nsum length] in *. destruct rest; [|discriminate]. cbn. rewrite !Nat.add_0_r. auto.
  - inversion Hin as [|? ? Hi Hin']; subst. cbn [nsum] in *. destruct HD as (D1 & D2 & D3).
    cbn [ofold]. rewrite seg_app by lia. cbn [obind]. rewrite seg_0 by lia. cbn [obind]. rewrite seg_app by lia. cbn [obind].
    destruct (HK (firstn (m_nc K) c) (firstn (m_in K) pts) (firstn (m_out K) rest)) as [HE HL];
      [rewrite firstn_len; lia .. |]. rewrite HE. cbn [obind]. rewrite put_app, HL, <- D2, <- D1, <- D3 in *.
    assert (Hck : length (firstn (m_nc K) c) = m_nc K) by (apply firstn_len; lia).
    specialize (IH Hin' (dc ++ firstn (m_nc K) c) (skipn (m_nc K) c) (dout ++ p_eval P (firstn (m_nc K) c) (firstn (m_in K) pts))
                   (skipn (m_out K) rest)).
    rewrite <- app_assoc in IH. rewrite firstn_skipn in IH.
    rewrite !app_length, Hck, HL in IH. rewrite <- app_assoc in IH.
    destruct IH as [IH IL]; [len ..|].
    rewrite IH. cbn [tri_eval]. rewrite <- D1, <- D3. rewrite <- app_assoc. rewrite !Nat.add_assoc.
    split; [reflexivity|]. rewrite app_length, HL, IL. reflexivity.
Qed.

Lemma tri_eval_imp comps specs c x old : comps <> [] -> chain (lead_dim comps) comps -> Forall2 imp_eval comps specs ->
  length c = tri_nc comps -> length x = tri_in comps -> length old = tri_out comps ->
  tri_Evaluate comps c x old = Ok (tri_eval specs c x) /\ length (tri_eval specs c x) = tri_out comps.
Proof.
  intros Hn Hc HF Hlc Hlx Hlo. unfold tri_Evaluate.
  pose proof (tri_Evaluate_loop comps specs x HF) as H. rewrite Hlx in H.
  specialize (H (chain_le_in _ Hn Hc) [] c [] old).
  rewrite tri_nc_sum in Hlc. rewrite tri_out_sum in *. specialize (H Hlc Hlo). cbn [length app] in H.
  destruct H as [H1 H2]. rewrite H1. cbn [obind snd]. auto.
Qed.

(** * LogDeterminant *)
Lemma tri_LogDet_loop comps specs (pts : list R) : Forall2 imp_logdet comps specs ->
  Forall (fun K => m_in K <= length pts)%nat comps ->
  forall (dc c : list R) det a, length c = nsum m_nc comps ->
  exists r, ofold (fun (st : nat * option R * option R) K =>
                let '(sp, compDet, out) := st in
                do c <- seg (dc ++ c) sp (m_nc K);
                do subPts <- seg pts 0 (m_in K);
                do compDet <- m_logdet K c subPts compDet;
                Ok ((sp + m_nc K)%nat, compDet, ladd out compDet)) comps (length dc, det, Some a) = Ok r
            /\ snd r = Some (a + tri_logdet specs c pts).
Proof.
  intros H. induction H as [|K P comps specs (HD & HK) _ IH]; intros Hin dc c det a Hc.
  - cbn. eexists. split; [reflexivity|]. cbn. f_equal. ring.
  - inversion Hin as [|? ? Hi Hin']; subst. cbn [nsum] in *. destruct HD as (D1 & D2 & D3).
    cbn [ofold]. rewrite seg_app by lia. cbn [obind]. rewrite seg_0 by lia. cbn [obind].
    rewrite HK by (rewrite firstn_len; lia). cbn [obind ladd].
    assert (Hck : length (firstn (m_nc K) c) = m_nc K) by (apply firstn_len; lia).
    specialize (IH Hin' (dc ++ firstn (m_nc K) c) (skipn (m_nc K) c) (Some (p_logdet P (firstn (m_nc K) c) (firstn (m_in K) pts)))
                  (a + p_logdet P (firstn (m_nc K) c) (firstn (m_in K) pts))).
    rewrite <- app_assoc, firstn_skipn, app_length, Hck in IH. destruct IH as (r & IH & Hr); [len|].
    exists r. split; [exact IH|]. rewrite Hr. cbn [tri_logdet]. rewrite <- D1, <- D3. f_equal. ring.
Qed.

Lemma tri_logdet_imp comps specs c x old : comps <> [] -> chain (lead_dim comps) comps -> Forall2 imp_logdet comps specs ->
  length c = tri_nc comps -> length x = tri_in comps ->
  tri_LogDeterminant comps c x old = Ok (Some (tri_logdet specs c x)).
Proof.
  intros Hn Hc HF Hlc Hlx. pose proof (chain_le_in _ Hn Hc) as Hin. rewrite tri_nc_sum in Hlc.
  destruct HF as [|K P comps specs (HD & HK) HF]; [congruence|]. clear Hn Hc.
  inversion Hin as [|? ? Hi Hin']; subst. cbn [nsum] in Hlc. rewrite <- Hlx in Hi, Hin'.
  unfold tri_LogDeterminant. destruct HD as (D1 & D2 & D3).
  rewrite seg_0 by lia. cbn [obind]. rewrite seg_0 by lia. cbn [obind]. rewrite HK by (rewrite firstn_len; lia). cbn [obind].
  pose proof (tri_LogDet_loop comps specs x HF Hin' (firstn (m_nc K) c) (skipn (m_nc K) c) (Some 0)
                (p_logdet P (firstn (m_nc K) c) (firstn (m_in K) x))) as H.
  rewrite firstn_skipn, firstn_len in H by lia. destruct H as (r & H & Hr); [len|].
  rewrite H. cbn [obind]. rewrite Hr. cbn [tri_logdet]. rewrite <- D1, <- D3. reflexivity.
Qed.

(** * Gradient *)
Lemma tri_Gradient_loop comps specs (pts : list R) : Forall2 imp_grad comps specs ->
  Forall (fun K => m_in K <= length pts)%nat comps ->
  forall (dc c ds s out : list R), length c = nsum m_nc comps -> length s = nsum m_out comps -> length out = length pts ->
  exists r, ofold (fun (st : nat * nat * list R) K =>
            let '(so, sp, out) := st in
            do c <- seg (dc ++ c) sp (m_nc K);
            do subPts <- seg pts 0 (m_in K);
            do subSens <- seg (ds ++ s) so (m_out K);
            do subOut <- m_grad K c subPts subSens (fresh (m_in K));
            do out <- add_into (m_in K) out subOut;
            Ok ((so + m_out K)%nat, (sp + m_nc K)%nat, out)) comps (length ds, length dc, out) = Ok r
     /\ snd r = vadd out (tri_grad specs (length pts) c pts s)
     /\ length (tri_grad specs (length pts) c pts s) = length pts.
Proof.
  intros H. induction H as [|K P comps specs (HD & HK) _ IH]; intros Hin dc c ds s out Hc Hs Ho.
  - cbn. eexists. split; [reflexivity|]. cbn [snd]. rewrite <- Ho at 1. rewrite vadd_zeros_r.
    split; [reflexivity|]. apply repeat_length.
  - inversion Hin as [|? ? Hi Hin']; subst. cbn [nsum] in *. destruct HD as (D1 & D2 & D3).
    cbn [ofold]. rewrite seg_app by lia. cbn [obind]. rewrite seg_0 by lia. cbn [obind]. rewrite seg_app by lia. cbn [obind].
    destruct (HK (firstn (m_nc K) c) (firstn (m_in K) pts) (firstn (m_out K) s) (fresh (m_in K))) as [HE HL];
      [rewrite ?firstn_len, ?fresh_length; lia .. |]. rewrite HE. cbn [obind].
    rewrite add_into_ok by lia. cbn [obind].
    assert (Hck : length (firstn (m_nc K) c) = m_nc K) by (apply firstn_len; lia).
    assert (Hsk : length (firstn (m_out K) s) = m_out K) by (apply firstn_len; lia).
    specialize (IH Hin' (dc ++ firstn (m_nc K) c) (skipn (m_nc K) c) (ds ++ firstn (m_out K) s) (skipn (m_out K) s)
      (vadd out (extend (length out) (p_grad P (firstn (m_nc K) c) (firstn (m_in K) pts) (firstn (m_out K) s))))).
    rewrite <- !app_assoc, !firstn_skipn, !app_length, Hck, Hsk in IH.
    destruct IH as (r & IH & Hr & Hl).
    { len. } { len. } { rewrite vadd_length; [lia|]. rewrite extend_length; lia. }
    exists r. split; [exact IH|]. cbn [tri_grad]. rewrite <- D1, <- D2, <- D3. split.
    + rewrite Hr, vadd_assoc, Ho. reflexivity.
    + rewrite vadd_length; rewrite extend_length; lia.
Qed.

Lemma tri_grad_imp comps specs c x s old : comps <> [] -> chain (lead_dim comps) comps -> Forall2 imp_grad comps specs ->
  length c = tri_nc comps -> length x = tri_in comps -> length s = tri_out comps -> length old = tri_in comps ->
  tri_Gradient comps c x s old = Ok (tri_grad specs (tri_in comps) c x s) /\
  length (tri_grad specs (tri_in comps) c x s) = tri_in comps.
Proof.
  intros Hn Hc HF Hlc Hlx Hls Hlo. unfold tri_Gradient. rewrite zero_all by lia. cbn [obind].
  pose proof (chain_le_in _ Hn Hc) as Hin. rewrite <- Hlx in *. rewrite tri_nc_sum in Hlc. rewrite tri_out_sum in Hls.
  pose proof (tri_Gradient_loop comps specs x HF Hin [] c [] s (fresh (length x)) Hlc Hls (fresh_length _)) as H.
  cbn [length app] in H. destruct H as (r & H & Hr & Hl). rewrite H. cbn [obind]. rewrite Hr.
  split; [|exact Hl]. f_equal. rewrite <- Hl at 1. apply vadd_zeros_l.
Qed.

(** * CoeffGrad *)
Lemma tri_CoeffGrad_loop comps specs (pts : list R) : Forall2 imp_cgrad0 comps specs ->
  Forall (fun K => m_in K <= length pts)%nat comps ->
  forall (dc c ds s dout rest : list R), length c = nsum m_nc comps -> length s = nsum m_out comps ->
  length dout = length dc -> length rest = nsum m_nc comps ->
  exists r, ofold (fun (st : nat * nat * list R) K =>
            let '(so, sp, out) := st in
            if (m_nc K =? 0)%nat then Ok ((so + m_out K)%nat, sp, out) else
            do c <- seg (dc ++ c) sp (m_nc K);
            do subPts <- seg pts 0 (m_in K);
            do subSens <- seg (ds ++ s) so (m_out K);
            do subOut <- seg out sp (m_nc K);
            do y <- m_cgrad K c subPts subSens subOut;
            Ok ((so + m_out K)%nat, (sp + m_nc K)%nat, put out sp y)) comps (length ds, length dc, dout ++ rest) = Ok r
     /\ snd r = dout ++ tri_cgrad specs c pts s
     /\ length (tri_cgrad specs c pts s) = nsum m_nc comps.
Proof.
  intros H. induction H as [|K P comps specs (HD & HK & H0) _ IH]; intros Hin dc c ds s dout rest Hc Hs Hd Hr.
  - cbn [nsum] in *. destruct rest; [|discriminate]. cbn. eexists. split; [reflexivity|]. auto.
  - inversion Hin as [|? ? Hi Hin']; subst. cbn [nsum] in *. destruct HD as (D1 & D2 & D3).
    cbn [ofold]. 
    assert (Hck : length (firstn (m_nc K) c) = m_nc K) by (apply firstn_len; lia).
    assert (Hsk : length (firstn (m_out K) s) = m_out K) by (apply firstn_len; lia).
    cbn [tri_cgrad]. rewrite <- D1, <- D2, <- D3.
    destruct (Nat.eqb_spec (m_nc K) 0) as [Hz|Hz].
    + cbn [obind]. rewrite Hz in *. cbn [skipn firstn]. rewrite H0 by lia. cbn [app].
      specialize (IH Hin' dc c (ds ++ firstn (m_out K) s) (skipn (m_out K) s) dout rest).
      rewrite <- !app_assoc, !firstn_skipn, !app_length, Hsk in IH. apply IH; len.
    + assert (Hz' : p_nc P <> 0%nat) by lia. destruct (HK Hz') as (_ & HK'). rewrite seg_app by lia. cbn [obind]. rewrite seg_0 by lia. cbn [obind].
      rewrite seg_app by lia. cbn [obind]. rewrite seg_app' by lia. cbn [obind].
      destruct (HK' (firstn (m_nc K) c) (firstn (m_in K) pts) (firstn (m_out K) s) (firstn (m_nc K) rest)) as [HE HL];
        [rewrite ?firstn_len; lia .. |]. rewrite HE. cbn [obind]. rewrite put_app' by lia. rewrite HL, <- D3.
      specialize (IH Hin' (dc ++ firstn (m_nc K) c) (skipn (m_nc K) c) (ds ++ firstn (m_out K) s) (skipn (m_out K) s)
        (dout ++ p_cgrad P (firstn (m_nc K) c) (firstn (m_in K) pts) (firstn (m_out K) s)) (skipn (m_nc K) rest)).
      rewrite <- !app_assoc, !firstn_skipn, !app_length, Hck, Hsk, HL in IH.
      destruct IH as (r & IH & Hrr & Hl); [len ..|].
      exists r. split; [exact IH|]. split; [exact Hrr|]. rewrite app_length, HL, Hl. lia.
Qed.

Lemma tri_cgrad_imp comps specs c x s old : comps <> [] -> chain (lead_dim comps) comps -> Forall2 imp_cgrad0 comps specs ->
  length c = tri_nc comps -> length x = tri_in comps -> length s = tri_out comps -> length old = tri_nc comps ->
  tri_CoeffGrad comps c x s old = Ok (tri_cgrad specs c x s) /\ length (tri_cgrad specs c x s) = tri_nc comps.
Proof.
  intros Hn Hc HF Hlc Hlx Hls Hlo. unfold tri_CoeffGrad.
  pose proof (chain_le_in _ Hn Hc) as Hin. rewrite <- Hlx in *. rewrite tri_nc_sum in *. rewrite tri_out_sum in Hls.
  pose proof (tri_CoeffGrad_loop comps specs x HF Hin [] c [] s [] old Hlc Hls eq_refl Hlo) as H.
  cbn [length app] in H. destruct H as (r & H & Hr & Hl). rewrite H. cbn [obind]. rewrite Hr. auto.
Qed.

(** * LogDeterminantCoeffGrad *)
Lemma tri_ldc_loop comps specs (pts : list R) : Forall2 imp_ldc0 comps specs ->
  Forall (fun K => m_in K <= length pts)%nat comps ->
  forall (dc c dout rest : list R), length c = nsum m_nc comps -> length dout = length dc -> length rest = nsum m_nc comps ->
  exists r, ofold (fun (st : nat * list R) K =>
            let '(sp, out) := st in
            if (m_nc K =? 0)%nat then Ok (sp, out) else
            do c <- seg (dc ++ c) sp (m_nc K);
            do subPts <- seg pts 0 (m_in K);
            do subOut <- seg out sp (m_nc K);
            do y <- m_ldc K c subPts subOut;
            Ok ((sp + m_nc K)%nat, put out sp y)) comps (length dc, dout ++ rest) = Ok r
     /\ snd r = dout ++ tri_ldc specs c pts
     /\ length (tri_ldc specs c pts) = nsum m_nc comps.
Proof.
  intros H. induction H as [|K P comps specs (HD & HK & H0) _ IH]; intros Hin dc c dout rest Hc Hd Hr.
  - cbn [nsum] in *. destruct rest; [|discriminate]. cbn. eexists. split; [reflexivity|]. auto.
  - inversion Hin as [|? ? Hi Hin']; subst. cbn [nsum] in *. destruct HD as (D1 & D2 & D3).
    cbn [ofold]. 
    assert (Hck : length (firstn (m_nc K) c) = m_nc K) by (apply firstn_len; lia).
    cbn [tri_ldc]. rewrite <- D1, <- D3.
    destruct (Nat.eqb_spec (m_nc K) 0) as [Hz|Hz].
    + cbn [obind]. rewrite Hz in *. cbn [skipn firstn]. rewrite H0 by lia. cbn [app]. apply (IH Hin' dc c dout rest); lia.
    + assert (Hz' : p_nc P <> 0%nat) by lia. destruct (HK Hz') as (_ & HK'). rewrite seg_app by lia. cbn [obind]. rewrite seg_0 by lia. cbn [obind].
      rewrite seg_app' by lia. cbn [obind].
      destruct (HK' (firstn (m_nc K) c) (firstn (m_in K) pts) (firstn (m_nc K) rest)) as [HE HL];
        [rewrite ?firstn_len; lia .. |]. rewrite HE. cbn [obind]. rewrite put_app' by lia. rewrite HL, <- D3.
      specialize (IH Hin' (dc ++ firstn (m_nc K) c) (skipn (m_nc K) c)
        (dout ++ p_ldc P (firstn (m_nc K) c) (firstn (m_in K) pts)) (skipn (m_nc K) rest)).
      rewrite <- !app_assoc, !firstn_skipn, !app_length, Hck, HL in IH.
      destruct IH as (r & IH & Hrr & Hl); [len ..|].
      exists r. split; [exact IH|]. split; [exact Hrr|]. rewrite app_length, HL, Hl. lia.
Qed.

Lemma tri_ldc_imp comps specs c x old : comps <> [] -> chain (lead_dim comps) comps -> Forall2 imp_ldc0 comps specs ->
  length c = tri_nc comps -> length x = tri_in comps -> length old = tri_nc comps ->
  tri_LogDetCoeffGrad comps c x old = Ok (tri_ldc specs c x) /\ length (tri_ldc specs c x) = tri_nc comps.
Proof.
  intros Hn Hc HF Hlc Hlx Hlo. unfold tri_LogDetCoeffGrad.
  pose proof (chain_le_in _ Hn Hc) as Hin. rewrite <- Hlx in *. rewrite tri_nc_sum in *.
  pose proof (tri_ldc_loop comps specs x HF Hin [] c [] old Hlc eq_refl Hlo) as H.
  cbn [length app] in H. destruct H as (r & H & Hr & Hl). rewrite H. cbn [obind]. rewrite Hr. auto.
Qed.

(** * LogDeterminantInputGrad: the shared buffer is harmless when every component overwrites it. *)
Lemma tri_ldi_loop comps specs (pts : list R) n : Forall2 imp_ldi comps specs -> n = length pts ->
  Forall (fun K => m_in K <= n)%nat comps ->
  forall (dc c grad out : list R), length c = nsum m_nc comps -> length grad = n -> length out = n ->
  exists r, ofold (fun (st : nat * list R * list R) K =>
            let '(sp, compGrad, out) := st in
            do c <- seg (dc ++ c) sp (m_nc K);
            do subPts <- seg pts 0 (m_in K);
            do subGrad <- seg compGrad 0 (m_in K);
            do subGrad <- m_ldi K c subPts subGrad;
            do out <- add_into (m_in K) out subGrad;
            Ok ((sp + m_nc K)%nat, put compGrad 0 subGrad, out)) comps (length dc, grad, out) = Ok r
     /\ snd r = vadd out (tri_ldi specs n c pts)
     /\ length (tri_ldi specs n c pts) = n.
Proof.
  intros H Hn. induction H as [|K P comps specs (HD & HK) _ IH]; intros Hin dc c grad out Hc Hg Ho.
  - cbn. eexists. split; [reflexivity|]. cbn [snd]. rewrite <- Ho at 1. rewrite vadd_zeros_r.
    split; [reflexivity|]. apply repeat_length.
  - inversion Hin as [|? ? Hi Hin']; subst. cbn [nsum] in *. destruct HD as (D1 & D2 & D3).
    cbn [ofold]. rewrite seg_app by lia. cbn [obind]. rewrite seg_0 by lia. cbn [obind]. rewrite seg_0 by lia. cbn [obind].
    destruct (HK (firstn (m_nc K) c) (firstn (m_in K) pts) (firstn (m_in K) grad)) as [HE HL];
      [rewrite ?firstn_len; lia .. |]. rewrite HE. cbn [obind].
    rewrite add_into_ok by lia. cbn [obind]. rewrite put_0.
    assert (Hck : length (firstn (m_nc K) c) = m_nc K) by (apply firstn_len; lia).
    specialize (IH Hin' (dc ++ firstn (m_nc K) c) (skipn (m_nc K) c)
      (p_ldi P (firstn (m_nc K) c) (firstn (m_in K) pts) ++
       skipn (length (p_ldi P (firstn (m_nc K) c) (firstn (m_in K) pts))) grad)
      (vadd out (extend (length out) (p_ldi P (firstn (m_nc K) c) (firstn (m_in K) pts))))).
    rewrite <- !app_assoc, !firstn_skipn in IH. rewrite (app_length dc), Hck in IH.
    destruct IH as (r & IH & Hr & Hl).
    { len. } { len. } { rewrite vadd_length; [lia|]. rewrite extend_length; lia. }
    exists r. split; [exact IH|]. cbn [tri_ldi]. rewrite <- D1, <- D3. split.
    + rewrite Hr, vadd_assoc, Ho. reflexivity.
    + rewrite vadd_length; rewrite extend_length; lia.
Qed.

Lemma tri_ldi_imp comps specs c x old : comps <> [] -> chain (lead_dim comps) comps -> Forall2 imp_ldi comps specs ->
  length c = tri_nc comps -> length x = tri_in comps -> length old = tri_in comps ->
  tri_LogDetInputGrad comps c x old = Ok (tri_ldi specs (tri_in comps) c x) /\
  length (tri_ldi specs (tri_in comps) c x) = tri_in comps.
Proof.
  intros Hn Hc HF Hlc Hlx Hlo. unfold tri_LogDetInputGrad.
  pose proof (chain_le_in _ Hn Hc) as Hin. rewrite tri_nc_sum in Hlc.
  pose proof (tri_ldi_loop comps specs x (tri_in comps) HF (eq_sym Hlx) Hin [] c (fresh (tri_in comps)) (fresh (length old))
     Hlc (fresh_length _) ltac:(rewrite fresh_length; lia)) as H.
  cbn [length app] in H. destruct H as (r & H & Hr & Hl). rewrite H. cbn [obind]. rewrite Hr.
  split; [|exact Hl]. f_equal. rewrite Hlo. rewrite <- Hl at 1. apply vadd_zeros_l.
Qed.

(** * Inverse *)
Lemma tri_Inverse_loop comps specs tol (extra : nat) :
  Forall2 (fun K P => imp_inv (p_in P) tol K P) comps specs ->
  forall e, chain e comps ->
  forall (dc c dr r lead rest : list R), length c = nsum m_nc comps -> length r = nsum m_out comps ->
  length rest = nsum m_out comps -> length lead = e -> e = (extra + length dr)%nat ->
  exists st y, ofold (fun (st : nat * nat * list R) K =>
              let '(so, sp, x) := st in
              do c <- seg (dc ++ c) sp (m_nc K);
              do subX <- seg x 0 (m_in K);
              do subR <- seg (dr ++ r) so (m_out K);
              do subOut <- seg x (extra + so) (m_out K);
              do y <- m_inv K c subX subR subOut;
              Ok ((so + m_out K)%nat, (sp + m_nc K)%nat, put x (extra + so) y)) comps (length dr, length dc, lead ++ rest) = Ok st
     /\ snd st = lead ++ y /\ length y = nsum m_out comps
     /\ close tol (tri_eval specs c (lead ++ y)) r.
Proof.
  intros H. induction H as [|K P comps specs (HD & HK) _ IH]; intros e Hch dc c dr r lead rest Hc Hr Hrest Hlead He.
  - cbn [nsum] in *. destruct rest; [|discriminate]. destruct r; [|discriminate].
    cbn. eexists. exists []. split; [reflexivity|]. split; [reflexivity|]. split; [reflexivity|]. constructor.
  - destruct HD as (D1 & D2 & D3). cbn [nsum] in *. destruct Hch as [Hin Hch].
    cbn [ofold]. rewrite seg_app by lia. cbn [obind]. rewrite seg_0 by len. cbn [obind]. rewrite seg_app by lia. cbn [obind].
    rewrite <- He, <- Hlead. rewrite seg_app by lia. cbn [obind].
    destruct (HK (firstn (m_nc K) c) (firstn (m_in K) (lead ++ rest)) (firstn (m_out K) r) (firstn (m_out K) rest))
      as (y1 & HE & HL & HC); [rewrite ?firstn_len; len ..|].
    rewrite HE. cbn [obind]. rewrite put_app, HL.
    assert (Hck : length (firstn (m_nc K) c) = m_nc K) by (apply firstn_len; lia).
    assert (Hrk : length (firstn (m_out K) r) = m_out K) by (apply firstn_len; lia).
    specialize (IH (m_in K) Hch (dc ++ firstn (m_nc K) c) (skipn (m_nc K) c) (dr ++ firstn (m_out K) r) (skipn (m_out K) r)
                   (lead ++ y1) (skipn (p_out P) rest)).
    rewrite <- !app_assoc, !firstn_skipn, !app_length, Hck, Hrk, HL in IH.
    destruct IH as (st & y & IH & Hst & Hy & Hcl); [len ..|].
    exists st, (y1 ++ y). split; [exact IH|].
    rewrite app_assoc. split; [exact Hst|]. split; [rewrite app_length; lia|].
    cbn [tri_eval]. rewrite <- D1, <- D3. rewrite <- (firstn_skipn (m_out K) r).
    apply Forall2_app.
    + assert (Hf : firstn (m_in K) ((lead ++ y1) ++ y) = lead ++ y1).
      { rewrite firstn_app. rewrite firstn_all2 by len. replace (m_in K - length (lead ++ y1))%nat with 0%nat by len.
        rewrite firstn_O. apply app_nil_r. }
      rewrite Hf. replace (firstn (p_in P - p_out P) (firstn (m_in K) (lead ++ rest))) with lead in HC; [exact HC|].
      rewrite firstn_firstn. rewrite firstn_app. rewrite firstn_all2 by lia.
      replace (Nat.min (p_in P - p_out P) (m_in K) - length lead)%nat with 0%nat by lia. rewrite firstn_O. symmetry. apply app_nil_r.
    + exact Hcl.
Qed.

Lemma tri_inv_imp comps specs tol n c x1 r old : comps <> [] -> chain (lead_dim comps) comps ->
  Forall2 (fun K P => imp_inv (p_in P) tol K P) comps specs ->
  (lead_dim comps <= n <= tri_in comps)%nat ->
  length c = tri_nc comps -> length x1 = n -> length r = tri_out comps -> length old = tri_out comps ->
  exists y, tri_Inverse comps c x1 r old = Ok y /\ length y = tri_out comps /\
            close tol (tri_eval specs c (firstn (lead_dim comps) x1 ++ y)) r.
Proof.
  intros Hn Hch HF Hle Hlc Hlx Hlr Hlo. unfold tri_Inverse.
  rewrite seg_0 by len. cbn [obind]. rewrite deep_copy_ok by (rewrite firstn_len; len). cbn [obind].
  rewrite put_0. unfold tri_InverseInplace. pose proof (chain_extra _ Hn Hch) as Hex. rewrite Hex.
  set (full := x1 ++ skipn (length x1) (fresh (tri_in comps))).
  assert (Hfl : length full = tri_in comps) by (unfold full; len).
  pose proof (chain_in _ _ Hn Hch) as Hti.
  rewrite tri_nc_sum in Hlc. rewrite tri_out_sum in *.
  pose proof (tri_Inverse_loop comps specs tol (lead_dim comps) HF (lead_dim comps) Hch [] c [] r
     (firstn (lead_dim comps) full) (skipn (lead_dim comps) full) Hlc Hlr) as H.
  rewrite firstn_skipn in H. cbn [length app] in H.
  destruct H as (st & y & H & Hst & Hy & Hcl); [len | rewrite firstn_len; lia | lia |].
  rewrite H. cbn [obind]. rewrite Hst.
  assert (Hlf : length (firstn (lead_dim comps) full) = lead_dim comps) by (apply firstn_len; lia).
  pose proof (seg_app (firstn (lead_dim comps) full) y (nsum m_out comps)) as Hs. rewrite Hlf in Hs.
  rewrite Hs by lia. cbn [obind]. rewrite firstn_all2 by lia. rewrite deep_copy_ok by lia.
  exists y. split; [reflexivity|]. split; [exact Hy|].
  replace (firstn (lead_dim comps) x1) with (firstn (lead_dim comps) full); [exact Hcl|].
  unfold full. rewrite firstn_app. replace (lead_dim comps - length x1)%nat with 0%nat by lia. rewrite firstn_O. apply app_nil_r.
Qed.

Lemma close0 a b : close 0 a b -> a = b.
Proof.
  induction 1 as [|x y a b H _ IH]; [reflexivity|]. f_equal; auto.
  assert (Rabs (x - y) = 0) as Hz by (apply Rle_antisym; auto; apply Rabs_pos).
  destruct (Req_dec (x - y) 0) as [Hd|Hd]; [lra|]. apply Rabs_no_R0 in Hd. lra.
Qed.
Lemma close_refl a : close 0 a a.
Proof. induction a; constructor; auto. unfold Rminus. rewrite Rplus_opp_r, Rabs_R0. lra. Qed.

Lemma app_inj_len {A} (a b a' b' : list A) : length a = length a' -> a ++ b = a' ++ b' -> a = a' /\ b = b'.
Proof.
  revert a'. induction a as [|x a IH]; intros [|y a'] H E; cbn in *; try congruence; auto.
  injection E as -> E. injection H as H. destruct (IH _ H E) as [-> ->]. auto.
Qed.

(** Injectivity in the trailing inputs. *)
Lemma tri_injective_gen comps specs : Forall2 imp_eval comps specs -> Forall injective specs ->
  forall e, chain e comps -> forall (c lead y y' : list R), length c = nsum m_nc comps -> length lead = e ->
  length y = nsum m_out comps -> length y' = nsum m_out comps ->
  tri_eval specs c (lead ++ y) = tri_eval specs c (lead ++ y') -> y = y'.
Proof.
  intros H. induction H as [|K P comps specs (HD & HK) _ IH]; intros HJ e Hch c lead y y' Hc Hl Hy Hy' E.
  - cbn [nsum] in *. destruct y; [|discriminate]. destruct y'; [reflexivity|discriminate].
  - inversion HJ as [|? ? J HJ']; subst. destruct HD as (D1 & D2 & D3). cbn [nsum] in *. destruct Hch as [Hin Hch].
    cbn [tri_eval] in E.
    assert (Hf : forall z : list R, (m_out K <= length z)%nat -> firstn (p_in P) (lead ++ z) = lead ++ firstn (m_out K) z).
    { intros z Hz. rewrite <- D1, Hin, firstn_app. rewrite firstn_all2 by lia. f_equal. f_equal. lia. }
    rewrite !Hf in E by lia. rewrite <- D3 in E.
    assert (HL : forall z : list R, length (firstn (m_out K) z) = m_out K ->
       length (p_eval P (firstn (m_nc K) c) (lead ++ firstn (m_out K) z)) = m_out K).
    { intros z Hz. destruct (HK (firstn (m_nc K) c) (lead ++ firstn (m_out K) z) (fresh (m_out K))) as [_ HL];
        [rewrite firstn_len; lia | len | len |]. lia. }
    assert (F1 : length (firstn (m_out K) y) = m_out K) by (apply firstn_len; lia).
    assert (F2 : length (firstn (m_out K) y') = m_out K) by (apply firstn_len; lia).
    apply app_inj_len in E; [|rewrite !HL; auto]. destruct E as [E1 E2].
    apply J in E1; [| rewrite firstn_len; lia | lia | lia | lia].
    assert (E3 : skipn (m_out K) y = skipn (m_out K) y').
    { apply (IH HJ' (m_in K) Hch (skipn (m_nc K) c) (lead ++ firstn (m_out K) y)); [len | len | len | len |].
      rewrite <- app_assoc, firstn_skipn. rewrite E1, <- app_assoc, firstn_skipn. exact E2. }
    rewrite <- (firstn_skipn (m_out K) y), <- (firstn_skipn (m_out K) y'). congruence.
Qed.
