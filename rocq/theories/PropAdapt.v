(** C52, C53: adaptive training. *)
From Coq Require Import Reals Lra.
From Verif Require Import Base SpecMulti SpecCount MISetModel MultiIndexProofs LimiterProofs MISetInv MISetOps MISetForce MISetLimFill MISetHist PropMISet DensityModel AdaptModel AdaptProofs.

(** ** Vocabulary *)
(** A set made by any history of calls. *)
Definition usable (s : mset) : Prop := (exists grow L, reach grow (dim s) L s) \/ hist (dim s) s.
Definition total (sets : list mset) : nat := list_sum (map ms_Size sets).
(** The only multi-index of the set is zero. *)
Definition constant_only (s : mset) : Prop := ms_Size s = 1 /\ member s (repeat 0 (dim s)).
Section Runs.
Context {W : Type} (E : world W).
(** Training leaves each component with as many coefficients as its set has terms (see C66). *)
Definition sized_world : Prop := forall w sets c w' c', w_train E w sets c = Ok (w', c') -> map (@length R) c' = map ms_Size sets.
(** The factory, the optimiser, the objective always come to an end. *)
Definition ending_world : Prop :=
  (forall s, w_create E s <> Fuel) /\ (forall w s c, w_train E w s c <> Fuel) /\ (forall w s c, w_test E w s c <> Fuel) /\ (forall w s c, w_grad E w s c <> Fuel) /\ (forall i, w_stray E i <> Fuel).
(** The iterations from one state to another, with the sets each one trained and their test error. *)
Inductive history (o : atm_options) : adapt W -> list (list mset * dbl) -> adapt W -> Prop :=
| hi_nil a : history o a [] a
| hi_step a a1 l a2 : goes_on o a = true -> adapt_step E o a = Ok a1 -> history o a1 l a2 -> history o a ((a_mset0 a1, a_last a1) :: l) a2.

(** ** Invariant *)
Record inv (o : atm_options) (a : adapt W) : Prop := {
  i_base : Forall base (a_mset0 a);
  i_tmp : map dim (a_tmp a) = map dim (a_mset0 a);
  i_sizes : a_sizes a = map ms_Size (a_mset0 a);
  i_size : a_size a = total (a_mset0 a);
  i_coeffs : map (@length R) (a_coeffs a) = map ms_Size (a_mset0 a);
  i_deg : maxDegrees o = [] \/ Forall (fun s => dim s <= length (maxDegrees o)) (a_mset0 a) }.

Lemma frontier_length old rm n c : frontier_coeffs E old rm n = Ok c -> length c = n.
Proof.
  unfold frontier_coeffs. intros H. apply bind_inv in H as (p & H & X). injection X as <-.
  assert (G : forall l p p', ofold (frontier_step E old rm) l p = Ok p' -> length (fst (fst p')) = length (fst (fst p)) + length l).
  { clear. induction l as [|j l IH]; intros p p' H; cbn [ofold length] in *; [injection H as <-; lia|]. apply bind_inv in H as (p1 & H1 & H). rewrite (IH _ _ H).
    destruct p as [[c oi] ri]. unfold frontier_step in H1. apply bind_inv in H1 as (r & _ & H1). destruct (j =? r).
    - injection H1 as <-. cbn. rewrite app_length. cbn. lia.
    - apply bind_inv in H1 as (x & _ & H1). injection H1 as <-. cbn. rewrite app_length. cbn. lia. }
  rewrite (G _ _ _ H). cbn. apply seq_length.
Qed.

Lemma combine3_F2 {A B C D} (P : A * B * C -> D -> Prop) (Q : B -> D -> Prop) : forall (la : list A) (lb : list B) (lc : list C) r,
  length la = length lb -> length lc = length lb -> Forall2 P (combine (combine la lb) lc) r -> (forall a b c d, In (a, b) (combine la lb) -> P (a, b, c) d -> Q b d) -> Forall2 Q lb r.
Proof.
  induction la as [|a la IH]; intros [|b lb] [|c lc] r L1 L2 H HQ; try discriminate; cbn in *.
  - inversion H. constructor.
  - inversion H; subst. constructor; [eapply HQ; [left; reflexivity|eauto]|]. eapply IH; eauto.
Qed.
Lemma combine_map_in {A B} (f : A -> nat) (g : B -> nat) la : forall lb a b, map f la = map g lb -> In (a, b) (combine la lb) -> f a = g b.
Proof. induction la as [|x la IH]; intros [|y lb] a b H Hi; cbn in *; try tauto. injection H as H1 H2. destruct Hi as [X|Hi]; [injection X as <- <-; auto|eauto]. Qed.

(** Expanding the sets of a state. *)
Lemma choose_sound o a tmp w idx blk v : inv o a -> choose E o a = Ok (tmp, w, (idx, blk), v) ->
  exists exps cs g, Forall2 (fun s x => ms_ExpandAll s = Ok x) (a_mset0 a) exps /\ tmp = map fst exps /\ w_grad E (a_world a) tmp cs = Ok (w, g) /\ map (@length R) cs = map ms_Size tmp /\
  exists s e rm x, nth_error (a_mset0 a) blk = Some s /\ nth_error exps blk = Some (e, rm) /\ In idx rm /\ ms_IndexToMulti e idx = Ok v /\ allowed o v /\
    nth_error g (offset tmp blk + idx) = Some x /\ dlt (Fin 0) (dabs x) = true /\
    forall blk' e' rm' idx' u, nth_error exps blk' = Some (e', rm') -> In idx' rm' -> ms_IndexToMulti e' idx' = Ok u -> allowed o u ->
      exists y, nth_error g (offset tmp blk' + idx') = Some y /\ dlt (dabs x) (dabs y) = false.
Proof.
  intros [] H. unfold choose in H. apply bind_inv in H as (xs & Hxs & H). apply omap_inv in Hxs.
  assert (L1 : length (a_tmp a) = length (a_mset0 a)) by (rewrite <- (map_length dim (a_tmp a)), i_tmp0; apply map_length).
  assert (L2 : length (a_coeffs a) = length (a_mset0 a)) by (rewrite <- (map_length (@length R) (a_coeffs a)), i_coeffs0; apply map_length).
  assert (HX : Forall2 (fun s x => ms_ExpandAll s = Ok (fst x) /\ length (snd x) = ms_Size (fst (fst x))) (a_mset0 a) xs).
  { eapply combine3_F2; [exact L1|exact L2|exact Hxs|]. intros t s old [[e rm] c] Hin Hx. cbn [expand_block] in Hx.
    rewrite (assign_same t s) in Hx by (eapply combine_map_in; eauto). cbn [obind] in Hx. apply bind_inv in Hx as ([e' rm'] & He & Hx). apply bind_inv in Hx as (u & _ & Hx). apply bind_inv in Hx as (c' & Hc & Hx).
    cbn [fst snd] in *. injection Hx as <- <- <-. split; auto. apply frontier_length in Hc. auto. }
  clear Hxs. apply bind_inv in H as ([w1 g] & Hg & H). cbn [fst snd] in H. apply bind_inv in H as (rms & Hr & H). apply bind_inv in H as (m & Hm & H). destruct m as [[i0 b0]|]; [|discriminate].
  apply bind_inv in H as (t & Ht & H). apply bind_inv in H as (u & Hu & H). injection H as <- <- <- <- <-. apply raw_inv in Ht.
  exists (map fst xs), (map snd xs), g. split; [|split; [|split; [|split]]].
  - clear -HX. induction HX as [|s x l r [H _] _ IH]; cbn; constructor; auto.
  - rewrite map_map. reflexivity.
  - exact Hg.
  - clear -HX. induction HX as [|s x l r [_ H] _ IH]; cbn; [auto|]. rewrite H, IH. reflexivity.
  - apply findMaxGrad_spec in Hm as (rm & x & H1 & H2 & H3 & H4 & H5).
    assert (BE : forall k s x, nth_error (a_mset0 a) k = Some s -> nth_error xs k = Some x -> base (fst (fst x))).
    { intros k s y Hs Hy. destruct (F2_nth _ _ _ _ _ HX Hs) as (y' & Hy' & He & _). rewrite Hy in Hy'. injection Hy' as <-.
      rewrite Forall_forall in i_base0. assert (B : base s) by (apply i_base0; eapply nth_error_In; eauto). destruct (ExpandAll_spec s B) as (s' & new & rep & E1 & G & _).
      rewrite He in E1. injection E1 as E1. rewrite E1. apply G. }
    assert (RM : forall k rm', nth_error rms k = Some rm' -> exists y, nth_error xs k = Some y /\ forall i, In i rm' <-> In i (snd (fst y)) /\ (maxDegrees o = [] \/ exists u, nth_error (actives (fst (fst y))) i = Some u /\ allowed o u)).
    { intros k rm' Hk. destruct (Nat.eqb_spec (length (maxDegrees o)) 0) as [Z|Z].
      - injection Hr as <-. rewrite nth_error_map in Hk. destruct (nth_error xs k) as [y|] eqn:Ey; [|discriminate]. injection Hk as <-. exists y. split; auto. intros i. apply length_zero_iff_nil in Z. tauto.
      - unfold maxDegreeRMFilter in Hr. apply omap_inv in Hr. destruct (F2_nth_r _ _ _ _ _ Hr Hk) as ([s' rm0] & Hc & Hf).
        assert (Hy : exists y, nth_error xs k = Some y /\ s' = fst (fst y) /\ rm0 = snd (fst y)).
        { clear -Hc. revert k Hc. induction xs as [|y xs IH]; intros [|k] Hc; cbn in *; try discriminate; [injection Hc as <- <-; eauto|auto]. }
        destruct Hy as (y & Hy & -> & ->). exists y. split; auto. destruct (F2_nth_r _ _ _ _ _ HX Hy) as (s & Hs & _). intros i. rewrite (rm_filter_spec _ _ _ _ (BE k s y Hs Hy) Hf).
        unfold allowed. split; intros (K1 & K2); split; auto; [right; destruct K2 as (u0 & K2 & K3); eauto|].
        destruct K2 as [K2|(u0 & K2 & [K3|K3])]; [rewrite K2 in Z; cbn in Z; lia|rewrite K3 in Z; cbn in Z; lia|eauto]. }
    destruct (RM _ _ H1) as (y & Hy & HR). destruct (F2_nth_r _ _ _ _ _ HX Hy) as (s & Hs & _). destruct y as [[e rm0] c]. cbn [fst snd] in HR.
    apply HR in H2 as [H2 H2a]. rewrite nth_error_map, Hy in Ht. injection Ht as <-. cbn [fst] in Hu. assert (Be := BE _ _ _ Hs Hy). cbn [fst] in Be.
    exists s, e, rm0, x. split; auto. split; [rewrite nth_error_map, Hy; reflexivity|]. split; auto. split; auto. split.
    { destruct H2a as [K|(u0 & K1 & K2)]; [left; auto|]. apply index_nth in Hu; auto. congruence. }
    split; auto. split; auto. intros blk' e' rm' idx' u' Hb Hi Hu' Ha. rewrite nth_error_map in Hb. destruct (nth_error xs blk') as [y'|] eqn:Ey; [|discriminate]. injection Hb as Hb.
    destruct (F2_nth_r _ _ _ _ _ HX Ey) as (s1 & Hs1 & _). assert (Be' := BE _ _ _ Hs1 Ey).
    assert (exists rm1, nth_error rms blk' = Some rm1) as (rm1 & Hrm1).
    { destruct (nth_error rms blk') eqn:K; [eauto|]. apply nth_error_None in K. assert (length rms = length xs).
      { destruct (length (maxDegrees o) =? 0); [injection Hr as <-; apply map_length|]. unfold maxDegreeRMFilter in Hr. apply omap_inv, F2_len in Hr. rewrite combine_length, !map_length in Hr. lia. }
      assert (blk' < length xs) by (apply nth_error_Some; congruence). lia. }
    destruct (RM _ _ Hrm1) as (y2 & Hy2 & HR2). rewrite Ey in Hy2. injection Hy2 as <-. apply (H5 _ _ idx' Hrm1). apply HR2. rewrite Hb in *. cbn [fst snd] in *. split; auto. right. exists u'. split; auto. apply index_nth; auto.
Qed.

Lemma upd_map {A B} (f : A -> B) l : forall i x, map f (upd l i x) = upd (map f l) i (f x).
Proof. induction l as [|y l IH]; intros [|i] x; cbn; [auto|auto|auto|]. rewrite IH. reflexivity. Qed.
Lemma upd_same {A} (l : list A) : forall i x, nth_error l i = Some x -> upd l i x = l.
Proof. induction l as [|y l IH]; intros [|i] x H; cbn in *; try discriminate; [congruence|rewrite IH; auto]. Qed.
Lemma sum_upd l : forall i n, nth_error l i = Some n -> list_sum (upd l i (n + 1)) = list_sum l + 1.
Proof. induction l as [|y l IH]; intros [|i] n H; cbn [nth_error upd] in *; try discriminate; [injection H as ->|]; cbn [list_sum fold_right]; [change (fold_right Nat.add 0 l) with (list_sum l); lia|].
  change (fold_right Nat.add 0 (upd l i (n + 1))) with (list_sum (upd l i (n + 1))). rewrite (IH _ _ H). change (fold_right Nat.add 0 l) with (list_sum l). lia. Qed.
Lemma Forall_upd {A} (P : A -> Prop) l : forall i x, Forall P l -> P x -> Forall P (upd l i x).
Proof. induction l as [|y l IH]; intros [|i] x H Hx; cbn; auto; inversion H; constructor; auto. Qed.

(** One iteration adds one candidate to one component. *)
Lemma step_sound o a a' : inv o a -> sized_world -> adapt_step E o a = Ok a' ->
  exists tmp w idx blk v s s', choose E o a = Ok (tmp, w, (idx, blk), v) /\ nth_error (a_mset0 a) blk = Some s /\ cand s v /\ length v = dim s /\ (exists r, ms_AddActive s v = Ok (s', r)) /\ grown s s' [v] /\
  a_mset0 a' = upd (a_mset0 a) blk s' /\ a_size a' = a_size a + 1 /\ inv o a' /\
  (exists w1 c w2, w_train E w (a_mset0 a') c = Ok (w1, a_coeffs a') /\ w_test E w1 (a_mset0 a') (a_coeffs a') = Ok (w2, a_last a')) /\
  (if dlt (a_last a') (a_bestError a) then a_best a' = a_mset0 a' /\ a_bestError a' = a_last a' /\ a_patience a' = 0
   else a_best a' = a_best a /\ a_bestError a' = a_bestError a /\ a_patience a' = a_patience a + 1).
Proof.
  intros I SW H. unfold adapt_step in H. apply bind_inv in H as ([[[tmp w] [idx blk]] v] & Hc & H).
  destruct (choose_sound o a tmp w idx blk v I Hc) as (exps & cs & g & HE & -> & Hg & _ & s & e & rm & x & Hs & He & Hi & Hv & Ha & _).
  apply bind_inv in H as (s0 & Hs0 & H). apply raw_inv in Hs0. rewrite Hs in Hs0. injection Hs0 as <-. apply bind_inv in H as ([s' r] & Hadd & H). cbn [fst] in H.
  pose proof I as []. assert (B : base s) by (rewrite Forall_forall in i_base0; apply i_base0; eapply nth_error_In; eauto).
  destruct (F2_nth _ _ _ _ _ HE Hs) as ([e0 rm0] & He0 & Hex). rewrite He in He0. injection He0 as <- <-.
  destruct (ExpandAll_spec s B) as (e1 & new & rep & E1 & G1 & C1 & _ & R1 & _). rewrite Hex in E1. injection E1 as <- <-.
  assert (Hv' := Hv). apply index_nth in Hv'; [|apply G1]. specialize (R1 idx Hi). rewrite (g_act _ _ _ G1) in Hv'. rewrite nth_error_app2 in Hv' by (rewrite <- Size_actives; lia).
  destruct (C1 v (nth_error_In _ _ Hv')) as (HCv & v0 & Hv0 & Hf).
  assert (Lv : length v = dim s). { assert (Hin : In v (all e)). { apply active_in_all; [apply G1|]. apply member_active; [apply G1|]. exists idx. auto. } rewrite (b_len _ (g_base _ _ _ G1) v Hin). apply (g_dim _ _ _ G1). }
  destruct (AddActive_spec s v B Lv) as (s1 & r1 & new1 & E2 & G2 & Hr). rewrite Hadd in E2. injection E2 as <- <-.
  assert (N1 : new1 = [v]). { destruct Hr as [(k & _ & _ & _ & [[K _]|[_ ->]])|(_ & _ & _ & K & _)]; [|reflexivity|]; destruct HCv as (Q1 & Q2 & _); [contradiction|congruence]. }
  rewrite N1 in G2. clear N1 Hr new1.
  assert (Sz : ms_Size s' = ms_Size s + 1) by (rewrite !Size_actives, (g_act _ _ _ G2), app_length; reflexivity).
  apply bind_inv in H as (n & Hn & H). apply raw_inv in Hn. rewrite i_sizes0, nth_error_map, Hs in Hn. injection Hn as <-. rewrite Sz, Nat.eqb_refl in H. cbn [negb] in H.
  apply bind_inv in H as (u & Hcr & H). apply bind_inv in H as (old & Hold & H). destruct (length old <? ms_Size s); [discriminate|].
  apply bind_inv in H as ([w1 c1] & Htr & H). apply bind_inv in H as ([w2 te] & Hte & H). cbn [fst snd] in *. injection H as <-.
  exists (map fst exps), w, idx, blk, v, s, s'. split; auto. split; auto. split; auto. split; auto. split; [eauto|]. split; auto. cbn [a_mset0 a_size a_coeffs a_best a_bestError a_patience a_last]. split; auto. split; auto. split; [|split].
  - assert (Ls : nth_error (map ms_Size (a_mset0 a)) blk = Some (ms_Size s)) by (rewrite nth_error_map, Hs; reflexivity). constructor; cbn [a_mset0 a_tmp a_sizes a_size a_coeffs].
    + apply Forall_upd; auto. apply G2.
    + rewrite upd_map, (g_dim _ _ _ G2), upd_same by (rewrite nth_error_map, Hs; reflexivity). clear -HE i_base0. revert i_base0. induction HE as [|s [e rm] l r H _ IH]; intros i_base0; cbn; [auto|].
      inversion i_base0; subst. destruct (ExpandAll_spec s H2) as (e1 & new & rep & E1 & G1 & _). rewrite H in E1. injection E1 as -> _. rewrite IH, (g_dim _ _ _ G1); auto.
    + rewrite upd_map, Sz, <- i_sizes0. reflexivity.
    + unfold total. rewrite upd_map, Sz, (sum_upd _ _ _ Ls), i_size0. reflexivity.
    + apply (SW _ _ _ _ _ Htr).
    + destruct i_deg0 as [D|D]; [left; auto|right]. apply Forall_upd; auto. rewrite (g_dim _ _ _ G2). rewrite Forall_forall in D. apply D. eapply nth_error_In; eauto.
  - exists w1, (upd (a_coeffs a) blk (repeat 0%R (ms_Size s'))), w2. rewrite Sz. auto.
  - destruct (dlt te (a_bestError a)); auto.
Qed.

Lemma usable_base s : usable s -> base s.
Proof. intros [(grow & L & H)|H]; [apply (reach_inv _ _ _ _ H)|apply (hist_inv _ _ H)]. Qed.

Lemma zero_vec v : vsum v <= 0 -> v = repeat 0 (length v).
Proof. induction v as [|x v IH]; [auto|]. rewrite vsum_cons. intros H. cbn. rewrite <- IH by lia. f_equal. lia. Qed.
Lemma vsum_zeros d : vsum (repeat 0 d) = 0.
Proof. induction d as [|d IH]; [reflexivity|]. cbn [repeat]. rewrite vsum_cons. lia. Qed.
Lemma constant_set d k : ms_CreateTotalOrder d 0 (fun _ => true) = Ok k -> base k /\ dim k = d /\ constant_only k.
Proof.
  intros H. destruct d as [|d]; [discriminate|]. destruct (CreateTotalOrder_spec (S d) 0 (fun _ => true)) as (s & E1 & G); [lia|]. rewrite H in E1. injection E1 as <-.
  destruct (C06_total_order_exact (S d) 0 (fun _ => true)) as (s & E1 & D & M); [lia|]. rewrite H in E1. injection E1 as <-. assert (B := g_base _ _ _ G). assert (Dk : dim k = S d) by apply (g_dim _ _ _ G).
  split; auto. split; auto. assert (M0 : member k (repeat 0 (dim k))) by (apply M; rewrite Dk, repeat_length, vsum_zeros; auto). split; [|auto].
  assert (U : forall i v, nth_error (actives k) i = Some v -> v = repeat 0 (dim k)).
  { intros i v Hv. assert (Hm : member k v) by (exists i; apply index_nth; auto). apply M in Hm as (L & S0 & _). rewrite Dk, <- L. apply zero_vec. auto. }
  rewrite Size_actives. destruct M0 as (i & Hi). apply index_nth in Hi; auto. assert (ND := NoDup_actives k B). destruct (actives k) as [|x [|y l]]; [destruct i; discriminate|reflexivity|].
  rewrite (U 0 x eq_refl), (U 1 y eq_refl) in ND. inversion ND; subst. exfalso. apply H2. left. auto.
Qed.

Lemma check_blocks_spec inD outD l : forall j d cs z d' cs' z', ofold (check_block E inD outD) (combine (seq j (length l)) l) (d, cs, z) = Ok (d', cs', z') ->
  d' = d + length l /\ z' = z + total l /\ map dim l = seq d (length l) /\ exists new, cs' = cs ++ new /\ Forall constant_only new /\ map dim new = map (fun j => inD + j + 1 - outD) (seq j (length l)).
Proof.
  induction l as [|s l IH]; intros j d cs z d' cs' z' H; cbn [length seq combine ofold] in H.
  - injection H as <- <- <-. unfold total. cbn. split; [lia|]. split; [lia|]. split; auto. exists []. rewrite app_nil_r. auto.
  - apply bind_inv in H as (p1 & H1 & H). unfold check_block in H1. destruct (Nat.eqb_spec (dim s) d) as [D|]; [|discriminate]. cbn [negb] in H1. apply bind_inv in H1 as (u & _ & H1). destruct (inD + j + 1 <? outD); [discriminate|].
    apply bind_inv in H1 as (k & Hk & H1). injection H1 as <-. destruct (constant_set _ _ Hk) as (_ & Dk & Ck). destruct (IH _ _ _ _ _ _ _ H) as (R1 & R2 & R3 & new & R4 & R5 & R6).
    split; [cbn; lia|]. split; [rewrite R2; unfold total; cbn [map]; change (list_sum (ms_Size s :: map ms_Size l)) with (ms_Size s + list_sum (map ms_Size l)); lia|]. split; [cbn; rewrite R3, D; f_equal; f_equal; lia|]. exists (k :: new). split; [rewrite R4, <- app_assoc; reflexivity|].
    split; [constructor; auto|]. cbn [map length seq]. rewrite Dk, R6. reflexivity.
Qed.

Lemma init_sound inD outD o w mset0 a : Forall base mset0 -> sized_world -> adapt_init E inD outD o w mset0 = Ok a ->
  inv o a /\ a_mset0 a = mset0 /\ length mset0 = outD /\ Forall constant_only (a_best a) /\ length (a_best a) = outD /\ a_patience a = 0 /\ a_bestError a = a_last a /\
  (exists c w1 w2, w_train E w mset0 c = Ok (w1, a_coeffs a) /\ w_test E w1 mset0 (a_coeffs a) = Ok (w2, a_last a)).
Proof.
  intros HB SW H. unfold adapt_init in H. destruct (Nat.eqb_spec (length mset0) outD) as [L|]; [|discriminate]. cbn [negb] in H. apply bind_inv in H as (s0 & Hs0 & H). apply bind_inv in H as ([[d cs] z] & Hp & H).
  destruct (check_blocks_spec _ _ _ _ _ _ _ _ _ _ Hp) as (R1 & R2 & R3 & new & R4 & R5 & R6). cbn [app] in R4. subst cs.
  destruct (Nat.eqb_spec (d - 1) inD) as [D|]; [|discriminate]. cbn [negb] in H. destruct (negb (length (maxDegrees o) =? 0) && negb (length (maxDegrees o) =? d - 1)) eqn:MD; [discriminate|].
  apply bind_inv in H as ([w1 c1] & Htr & H). apply bind_inv in H as ([w2 te] & Hte & H). cbn [fst snd] in *. injection H as <-. cbn.
  assert (L0 : 0 < length mset0). { apply raw_inv in Hs0. apply nth_error_Some. congruence. }
  assert (Dm : map (fun j => inD + j + 1 - outD) (seq 0 (length mset0)) = seq (dim s0) (length mset0)).
  { transitivity (map (fun j => dim s0 + j) (seq 0 (length mset0))); [apply map_ext_in; intros j Hj; apply in_seq in Hj; lia|]. generalize (length mset0), (dim s0). clear. intros n k.
    assert (X : forall m, map (fun j => k + j) (seq m n) = seq (k + m) n) by (induction n as [|n IH]; intros m; cbn; [auto|rewrite IH; do 2 f_equal; lia]). rewrite X, Nat.add_0_r. reflexivity. }
  split; [|split; [auto|split; [auto|split; [exact R5|split; [|split; [auto|split; [auto|]]]]]]].
  - constructor; cbn; auto.
    + rewrite R6, R3. exact Dm.
    + apply (SW _ _ _ _ _ Htr).
    + destruct (Nat.eqb_spec (length (maxDegrees o)) 0) as [Z|Z]; [left; apply length_zero_iff_nil; auto|]. cbn in MD. destruct (Nat.eqb_spec (length (maxDegrees o)) (d - 1)) as [Z2|]; [|discriminate]. right.
      rewrite Z2, R1. apply Forall_forall. intros s Hs. apply (in_map dim) in Hs. rewrite R3 in Hs. apply in_seq in Hs. lia.
  - rewrite <- (map_length dim new), R6, map_length, seq_length. auto.
  - exists (map (fun s => repeat 0%R (ms_Size s)) mset0), w1, w2. auto.
Qed.

Lemma history_inv o a l a2 : sized_world -> inv o a -> history o a l a2 -> inv o a2.
Proof. intros SW I H. induction H as [|a a1 l a2 G S _ IH]; auto. apply IH. destruct (step_sound o a a1 I SW S) as (? & ? & ? & ? & ? & ? & ? & _ & _ & _ & _ & _ & _ & _ & _ & K & _). exact K. Qed.
Lemma loop_history o fuel : forall a a2, adapt_loop E fuel o a = Ok a2 -> exists l, history o a l a2 /\ goes_on o a2 = false.
Proof.
  induction fuel as [|fuel IH]; intros a a2 H; cbn [adapt_loop] in H; [discriminate|]. destruct (goes_on o a) eqn:G.
  - apply bind_inv in H as (a1 & Hs & H). destruct (IH _ _ H) as (l & K1 & K2). exists ((a_mset0 a1, a_last a1) :: l). split; auto. econstructor; eauto.
  - injection H as <-. exists []. split; auto. constructor.
Qed.

(** ** Termination *)
Lemma bind_nf {A B} (x : outcome A) (f : A -> outcome B) : x <> Fuel -> (forall a, x = Ok a -> f a <> Fuel) -> obind x f <> Fuel.
Proof. intros H1 H2. destruct x; cbn; try discriminate; auto. Qed.
Lemma raw_nf {A} (l : list A) i : raw_get l i <> Fuel. Proof. unfold raw_get. destruct (nth_error l i); discriminate. Qed.
Lemma at_nf {A} (l : list A) i : at_ l i <> Fuel. Proof. unfold at_. destruct (nth_error l i); discriminate. Qed.
Lemma omap_nf {A B} (f : A -> outcome B) l : (forall a, In a l -> f a <> Fuel) -> omap f l <> Fuel.
Proof.
  induction l as [|a l IH]; intros H; cbn [omap]; [discriminate|]. apply bind_nf; [apply H; left; auto|]. intros b _. apply bind_nf; [apply IH; intros; apply H; right; auto|discriminate].
Qed.
Lemma ofilter_nf {A} (f : A -> outcome bool) l : (forall a, In a l -> f a <> Fuel) -> ofilter f l <> Fuel.
Proof.
  induction l as [|a l IH]; intros H; cbn [ofilter]; [discriminate|]. apply bind_nf; [apply H; left; auto|]. intros b _. apply bind_nf; [apply IH; intros; apply H; right; auto|discriminate].
Qed.
Lemma ofold_nf {A S} (f : S -> A -> outcome S) l : (forall s a, f s a <> Fuel) -> forall s, ofold f l s <> Fuel.
Proof. intros H. induction l as [|a l IH]; intros s; cbn [ofold]; [discriminate|]. apply bind_nf; auto. Qed.
Lemma max_blocks_nf grad rms : forall sizes start output p, max_blocks grad rms sizes start output p <> Fuel.
Proof.
  induction rms as [|rm rms IH]; intros sizes start output p; cbn [max_blocks]; [discriminate|]. apply bind_nf.
  - apply ofold_nf. intros q i. apply bind_nf; [apply raw_nf|discriminate].
  - intros q _. destruct sizes; [discriminate|]. apply IH.
Qed.
Lemma choose_nf o a : ending_world -> inv o a -> choose E o a <> Fuel.
Proof.
  intros (F1 & F2 & F3 & F4 & F5) []. unfold choose. apply bind_nf.
  - apply omap_nf. intros [[t s] c] Hin. cbn [expand_block]. assert (Hts : In (t, s) (combine (a_tmp a) (a_mset0 a))) by (eapply in_combine_l; eauto).
    rewrite (assign_same t s) by (eapply combine_map_in; eauto). cbn [obind]. assert (B : base s) by (rewrite Forall_forall in i_base0; apply i_base0; eapply in_combine_r; eauto).
    destruct (ExpandAll_spec s B) as (e & new & rep & E1 & _). rewrite E1. cbn [obind fst snd]. apply bind_nf; auto. intros u _. apply bind_nf; [|discriminate]. unfold frontier_coeffs. apply bind_nf; [|discriminate].
    apply ofold_nf. intros [[q oi] ri] j. unfold frontier_step. apply bind_nf; [apply raw_nf|]. intros r _. destruct (j =? r); [discriminate|]. apply bind_nf; [destruct (nth_error c oi); [discriminate|auto]|discriminate].
  - intros xs _. apply bind_nf; auto. intros g _. apply bind_nf.
    + destruct (length (maxDegrees o) =? 0); [discriminate|]. apply omap_nf. intros [t rm] _. unfold rm_filter. apply bind_nf.
      * apply omap_nf. intros i _. apply bind_nf; [apply raw_nf|]. intros v _. unfold vec_any_bounded. destruct (_ <? _); discriminate.
      * intros b _. apply ofilter_nf. intros i _. apply bind_nf; [apply raw_nf|discriminate].
    + intros rms _. apply bind_nf; [unfold findMaxGrad; apply bind_nf; [apply max_blocks_nf|discriminate]|]. intros [[idx blk]|] _; [|discriminate]. apply bind_nf; [apply raw_nf|]. intros t _.
      apply bind_nf; [|discriminate]. unfold ms_IndexToMulti. apply bind_nf; [apply at_nf|]. intros; apply at_nf.
Qed.
Lemma step_nf o a : ending_world -> inv o a -> adapt_step E o a <> Fuel.
Proof.
  intros EW I. pose proof EW as (F1 & F2 & F3 & F4 & F5). unfold adapt_step. apply bind_nf; [apply choose_nf; auto|]. intros [[[tmp w] [idx blk]] v] Hc.
  destruct (choose_sound o a tmp w idx blk v I Hc) as (exps & cs & g & HE & _ & _ & _ & s & e & rm & x & Hs & He & Hi & Hv & _).
  unfold raw_get at 1. rewrite Hs. cbn [obind]. destruct I. assert (B : base s) by (rewrite Forall_forall in i_base0; apply i_base0; eapply nth_error_In; eauto).
  destruct (F2_nth _ _ _ _ _ HE Hs) as (er & Her & Hex). rewrite He in Her. injection Her as <-. destruct (ExpandAll_spec s B) as (e1 & new & rep & E1 & G1 & _). rewrite Hex in E1. injection E1 as <- <-.
  assert (Lv : length v = dim s). { rewrite <- (g_dim _ _ _ G1). apply (b_len _ (g_base _ _ _ G1)). apply active_in_all; [apply G1|]. apply member_active; [apply G1|]. exists idx. auto. }
  destruct (AddActive_spec s v B Lv) as (s1 & r1 & new1 & E2 & _). rewrite E2. cbn [obind fst]. apply bind_nf; [apply raw_nf|]. intros n _. destruct (negb _); [discriminate|]. apply bind_nf; auto. intros _ _. apply bind_nf; [apply raw_nf|]. intros old _.
  destruct (length old <? n); [discriminate|]. apply bind_nf; auto. intros tr _. apply bind_nf; auto. discriminate.
Qed.
Lemma loop_nf o fuel : ending_world -> sized_world -> forall a, inv o a -> maxSize o - a_size a < fuel -> adapt_loop E fuel o a <> Fuel.
Proof.
  intros EW SW. induction fuel as [|fuel IH]; intros a I Hf; [lia|]. cbn [adapt_loop]. destruct (goes_on o a) eqn:G; [|discriminate]. apply bind_nf; [apply step_nf; auto|]. intros a1 H1.
  destruct (step_sound o a a1 I SW H1) as (? & ? & ? & ? & ? & ? & ? & _ & _ & _ & _ & _ & _ & _ & Sz & I1 & _). apply IH; auto. unfold goes_on in G. apply andb_true_iff in G as [G _]. apply Nat.ltb_lt in G. lia.
Qed.

(** ** Best sets *)
Lemma history_best o a l a2 : sized_world -> inv o a -> history o a l a2 ->
  ((forall k sets e, nth_error l k = Some (sets, e) -> dlt e (a_bestError a) = false) /\ a_best a2 = a_best a /\ a_patience a2 = a_patience a + length l) \/
  (exists k sets e, nth_error l k = Some (sets, e) /\ dlt e (a_bestError a) = true /\ (forall j sets' e', nth_error l j = Some (sets', e') -> dlt e' e = false) /\
     a_best a2 = sets /\ a_patience a2 + k + 1 = length l).
Proof.
  intros SW I H. induction H as [a|a a1 l a2 G S HH IH].
  - left. split; [intros [|k] ? ? X; discriminate X|]. cbn. split; auto; lia.
  - destruct (step_sound o a a1 I SW S) as (? & ? & ? & ? & ? & ? & ? & _ & _ & _ & _ & _ & _ & _ & _ & I1 & _ & B). specialize (IH I1).
    destruct (dlt (a_last a1) (a_bestError a)) eqn:D; destruct B as (B1 & B2 & B3); rewrite B1, B2, B3 in IH.
    + right. destruct IH as [(N & E1 & E2)|(k & sets & e & E1 & E2 & E3 & E4 & E5)].
      * exists 0, (a_mset0 a1), (a_last a1). split; auto. split; auto. split; [|split; [auto|cbn; lia]]. intros [|j] s' e' Hj; [injection Hj as <- <-; apply dlt_irrefl|eapply N; eauto].
      * exists (1 + k), sets, e. split; auto. split; [eapply dlt_trans; eauto|]. split; [|split; [auto|cbn; lia]]. intros [|j] s' e' Hj; [|eapply E3; eauto].
        injection Hj as <- <-. destruct (dlt (a_last a1) e) eqn:K; auto. assert (X := dlt_trans _ _ _ E2 K). rewrite dlt_irrefl in X. discriminate.
    + destruct IH as [(N & E1 & E2)|(k & sets & e & E1 & E2 & E3 & E4 & E5)].
      * left. split; [|split; [auto|cbn; lia]]. intros [|j] s' e' Hj; [injection Hj as <- <-; auto|eapply N; eauto].
      * right. exists (1 + k), sets, e. split; auto. split; auto. split; [|split; [auto|cbn; lia]]. intros [|j] s' e' Hj; [|eapply E3; eauto].
        injection Hj as <- <-. destruct (dlt (a_last a1) e) eqn:K; auto. assert (X := dlt_trans _ _ _ K E2). congruence.
Qed.
Lemma history_patience o a l a2 : sized_world -> inv o a -> history o a l a2 -> (a_patience a <= maxPatience o -> a_patience a2 <= maxPatience o) /\ (l = [] \/ a_size a2 <= maxSize o).
Proof.
  intros SW I H. induction H as [a|a a1 l a2 G S HH IH]; [auto|]. destruct (step_sound o a a1 I SW S) as (? & ? & ? & ? & ? & ? & ? & _ & _ & _ & _ & _ & _ & _ & Sz & I1 & _ & B). destruct (IH I1) as [P1 P2].
  unfold goes_on in G. apply andb_true_iff in G as [G1 G2]. apply Nat.ltb_lt in G1, G2. split.
  - intros _. apply P1. destruct (dlt (a_last a1) (a_bestError a)); destruct B as (_ & _ & ->); lia.
  - right. destruct P2 as [->|]; auto. inversion HH; subst. lia.
Qed.
Lemma history_sizes o a l a2 : sized_world -> inv o a -> history o a l a2 -> a_size a2 = a_size a + length l /\ forall k sets e, nth_error l k = Some (sets, e) -> total sets = a_size a + 1 + k /\ length sets = length (a_mset0 a).
Proof.
  intros SW I H. induction H as [a|a a1 l a2 G S HH IH]; [split; [cbn; lia|intros [|k] ? ? X; discriminate X]|].
  destruct (step_sound o a a1 I SW S) as (? & ? & ? & blk & ? & ? & s' & _ & _ & _ & _ & _ & _ & Em & Sz & I1 & _). destruct (IH I1) as [P1 P2]. split; [cbn; lia|]. intros [|k] sets e Hk.
  - injection Hk as <- <-. rewrite <- (i_size _ _ I1), Em, upd_length. lia.
  - destruct (P2 k sets e Hk) as [Q1 Q2]. rewrite Em, upd_length in Q2. lia.
Qed.
End Runs.

(** ** C52 *)
(** The loop ends, whatever the objective and the optimiser do. *)
Theorem C52_terminates : forall W (E : world W) inD outD o w mset0 fuel, ending_world E -> sized_world E -> Forall usable mset0 -> maxSize o - total mset0 < fuel ->
  TrainMapAdaptive E fuel inD outD o w mset0 <> Fuel.
Proof.
  intros W E inD outD o w mset0 fuel EW SW HU Hf. pose proof EW as (F1 & F2 & F3 & F4 & F5). assert (HB : Forall base mset0) by (eapply Forall_impl; [exact usable_base|exact HU]).
  unfold TrainMapAdaptive. apply bind_nf.
  - unfold adapt_init. destruct (negb (length mset0 =? outD)); [discriminate|]. apply bind_nf; [apply raw_nf|]. intros s0 _. apply bind_nf.
    + apply ofold_nf. intros [[d cs] z] [j s]. unfold check_block. destruct (negb _); [discriminate|]. apply bind_nf; auto. intros _ _. destruct (_ <? _); [discriminate|]. apply bind_nf; [|discriminate].
      destruct (inD + j + 1 - outD) as [|d']; [discriminate|]. destruct (CreateTotalOrder_spec (S d') 0 (fun _ => true)) as (k & -> & _); [lia|discriminate].
    + intros [[d cs] z] _. destruct (negb _); [discriminate|]. destruct (_ && _); [discriminate|]. apply bind_nf; auto. intros tr _. apply bind_nf; auto. discriminate.
  - intros a Ha. destruct (init_sound E inD outD o w mset0 a HB SW Ha) as (I & Em & _). apply bind_nf.
    + apply loop_nf; auto. rewrite (i_size _ _ I), Em. auto.
    + intros a2 _. unfold adapt_finish. apply bind_nf; [apply omap_nf; auto|]. intros _ _. apply bind_nf; auto. intros tr _. apply bind_nf; auto. discriminate.
Qed.
Print Assumptions C52_terminates.

(** A call that returns: the iterations it made, their number and sizes, and which sets it returns. When an iteration has a
    smaller test error than the initial map, the sets of the iteration with the smallest test error are returned. Missing: otherwise
    the initial sets should be returned, but sets with only the constant term are (see C52_initial_sets_refuted). *)
Theorem C52_best_partial : forall W (E : world W) inD outD o w mset0 fuel w' sets' coeffs', sized_world E -> Forall usable mset0 ->
  TrainMapAdaptive E fuel inD outD o w mset0 = Ok (w', sets', coeffs') ->
  exists a0 l a, adapt_init E inD outD o w mset0 = Ok a0 /\ a_mset0 a0 = mset0 /\ history E o a0 l a /\
    (forall k sets e, nth_error l k = Some (sets, e) -> total sets = total mset0 + 1 + k /\ length sets = length mset0) /\
    total mset0 + length l <= max (total mset0) (maxSize o) /\
    (exists w1 w2 w3 c e', w_train E w1 sets' c = Ok (w2, coeffs') /\ w_test E w2 sets' coeffs' = Ok (w3, e')) /\
    exists waited, waited <= maxPatience o /\ (maxSize o <= total mset0 + length l \/ waited = maxPatience o) /\
    ((exists k sets e, nth_error l k = Some (sets, e) /\ dlt e (a_last a0) = true /\ (forall j sets1 e1, nth_error l j = Some (sets1, e1) -> dlt e1 e = false) /\ sets' = sets /\ waited + k + 1 = length l) \/
     ((forall k sets e, nth_error l k = Some (sets, e) -> dlt e (a_last a0) = false) /\ Forall constant_only sets' /\ waited = length l)).
Proof.
  intros W E inD outD o w mset0 fuel w' sets' coeffs' SW HU H. assert (HB : Forall base mset0) by (eapply Forall_impl; [exact usable_base|exact HU]).
  unfold TrainMapAdaptive in H. apply bind_inv in H as (a0 & H0 & H). apply bind_inv in H as (a & Hl & H). destruct (init_sound E inD outD o w mset0 a0 HB SW H0) as (I & Em & _ & HC & _ & P0 & B0 & _).
  destruct (loop_history E o fuel a0 a Hl) as (l & HH & G). exists a0, l, a. split; auto. split; auto. split; auto.
  destruct (history_sizes E o a0 l a SW I HH) as (Z1 & Z2). rewrite (i_size _ _ I), Em in Z1, Z2. split; auto.
  destruct (history_patience E o a0 l a SW I HH) as (Q1 & Q2). split; [destruct Q2 as [->|Q2]; cbn; lia|].
  unfold adapt_finish in H. apply bind_inv in H as (? & _ & H). apply bind_inv in H as ([w1 c1] & Htr & H). apply bind_inv in H as ([w2 te] & Hte & H). cbn [fst snd] in *. injection H as <- <- <-. split; [do 5 eexists; eauto|].
  exists (a_patience a). split; [apply Q1; lia|]. split.
  { unfold goes_on in G. apply andb_false_iff in G as [G|G]; apply Nat.ltb_ge in G; [left; lia|right; apply Nat.le_antisymm; [apply Q1; lia|auto]]. }
  destruct (history_best E o a0 l a SW I HH) as [(N & E1 & E2)|(k & sets & e & E1 & E2 & E3 & E4 & E5)]; rewrite B0 in *.
  - right. split; auto. rewrite E1, E2, P0. auto.
  - left. exists k, sets, e. auto.
Qed.
Print Assumptions C52_best_partial.

(** When the initial sets already have maxSize terms, or maxPatience is 0, they are thrown away: only constant terms are left, whatever the test errors are. *)
Theorem C52_initial_sets_refuted : forall W (E : world W) inD outD o w mset0 fuel w' sets' coeffs', sized_world E -> Forall usable mset0 -> maxSize o <= total mset0 \/ maxPatience o = 0 ->
  TrainMapAdaptive E fuel inD outD o w mset0 = Ok (w', sets', coeffs') -> Forall constant_only sets'.
Proof.
  intros W E inD outD o w mset0 fuel w' sets' coeffs' SW HU HO H. assert (HB : Forall base mset0) by (eapply Forall_impl; [exact usable_base|exact HU]).
  unfold TrainMapAdaptive in H. apply bind_inv in H as (a0 & H0 & H). apply bind_inv in H as (a & Hl & H). destruct (init_sound E inD outD o w mset0 a0 HB SW H0) as (I & Em & _ & HC & _ & P0 & B0 & _).
  assert (G : goes_on o a0 = false). { unfold goes_on. apply andb_false_iff. destruct HO as [HO|HO]; [left|right]; apply Nat.ltb_ge; [rewrite (i_size _ _ I), Em; auto|lia]. }
  destruct fuel as [|fuel]; [discriminate|]. cbn [adapt_loop] in Hl. rewrite G in Hl. injection Hl as <-.
  unfold adapt_finish in H. apply bind_inv in H as (? & _ & H). apply bind_inv in H as ([w1 c1] & Htr & H). apply bind_inv in H as ([w2 te] & Hte & H). cbn [fst snd] in *. injection H as <- <- <-. auto.
Qed.
Print Assumptions C52_initial_sets_refuted.

(** ** C53 *)
(** A set made by constructors, AddMulti, Expand, union, assignment, with one limiter. *)
Definition made (s : mset) : Prop := exists grow L, reach grow (dim s) L s.
(** A term the algorithm may add to a set. *)
Definition candidate (s : mset) (u : vec) : Prop := addable (lim s) s u /\ exists v, member s v /\ fwd_rel v u.
(** The entry of the gradient that belongs to a term of a component. *)
Definition entry (sets : list mset) (g : list dbl) (k : nat) (u : vec) (y : dbl) : Prop :=
  exists s i, nth_error sets k = Some s /\ ms_IndexToMulti s i = Ok u /\ nth_error g (offset sets k + i) = Some y.

Lemma history_full W (E : world W) o a l a2 : sized_world E -> inv o a -> Forall full (a_mset0 a) -> Forall nbrs (a_mset0 a) -> history E o a l a2 -> inv o a2 /\ Forall full (a_mset0 a2) /\ Forall nbrs (a_mset0 a2).
Proof.
  intros SW I HF HN H. induction H as [|a a1 l a2 G S _ IH]; auto.
  destruct (step_sound E o a a1 I SW S) as (tmp & w & idx & blk & v & s & s' & _ & Hs & _ & _ & _ & Gr & Em & _ & I1 & _). rewrite Forall_forall in HF, HN. apply nth_error_In in Hs.
  apply IH; auto; rewrite Em; apply Forall_upd; auto; try (apply Forall_forall; auto); [apply (g_full _ _ _ Gr)|apply (g_nbrs _ _ _ Gr)]; auto.
Qed.
Lemma made_inv mset0 : Forall made mset0 -> Forall base mset0 /\ Forall full mset0 /\ Forall nbrs mset0.
Proof.
  intros H. induction H as [|s l (grow & L & H) _ (IH1 & IH2 & IH3)]; [auto|]. apply reach_inv in H as (F & N & _). repeat split; constructor; auto. apply F.
Qed.
Lemma candidate_cand s u : base s -> candidate s u <-> cand s u /\ exists v, active s v /\ fwd_rel v u.
Proof. intros B. unfold candidate. rewrite (addable_cand (lim s)) by auto. split; intros (H1 & v & H2 & H3); split; auto; exists v; split; auto; apply member_active; auto. Qed.

(** The candidates are the terms that the expanded set adds. *)
Lemma expanded_candidates s e rm u : full s -> nbrs s -> ms_ExpandAll s = Ok (e, rm) -> candidate s u -> exists i, In i rm /\ ms_IndexToMulti e i = Ok u.
Proof.
  intros F N H C. pose proof (f_base _ F) as B. apply (candidate_cand _ _ B) in C as (C & v & Hv & Hf). destruct (ExpandAll_spec s B) as (e1 & new & rep & E1 & G & _ & C2 & _ & R2). rewrite H in E1. injection E1 as <- <-.
  assert (Hin := C2 F N v u Hv Hf C). apply In_nth_error in Hin as (j & Hj). exists (ms_Size s + j).
  assert (K : nth_error (actives e) (ms_Size s + j) = Some u). { rewrite (g_act _ _ _ G), nth_error_app2 by (rewrite <- Size_actives; lia). rewrite <- Size_actives. replace (ms_Size s + j - ms_Size s) with j by lia. auto. }
  split; [|apply index_nth; [apply G|auto]]. apply R2. rewrite (Size_actives e). split; [lia|]. apply nth_error_Some. congruence.
Qed.

(** Every iteration adds, to one component, an allowed candidate whose gradient is not zero and is largest in magnitude
    among all allowed candidates of all components. *)
Theorem C53_adds_largest : forall W (E : world W) inD outD o w mset0 a0 l a a', sized_world E -> Forall made mset0 ->
  adapt_init E inD outD o w mset0 = Ok a0 -> history E o a0 l a -> adapt_step E o a = Ok a' ->
  exists exps cs g w1 blk s s' v x,
    Forall2 (fun s x => ms_ExpandAll s = Ok x) (a_mset0 a) exps /\ w_grad E (a_world a) (map fst exps) cs = Ok (w1, g) /\ map (@length R) cs = map ms_Size (map fst exps) /\
    nth_error (a_mset0 a) blk = Some s /\ (exists r, ms_AddActive s v = Ok (s', r)) /\ a_mset0 a' = upd (a_mset0 a) blk s' /\ (forall u, member s' u <-> member s u \/ u = v) /\
    candidate s v /\ allowed o v /\ entry (map fst exps) g blk v x /\ dlt (Fin 0) (dabs x) = true /\
    forall blk' t u, nth_error (a_mset0 a) blk' = Some t -> candidate t u -> allowed o u -> exists y, entry (map fst exps) g blk' u y /\ dlt (dabs x) (dabs y) = false.
Proof.
  intros W E inD outD o w mset0 a0 l a a' SW HM H0 HH HS. destruct (made_inv _ HM) as (HB & HF & HN).
  destruct (init_sound E inD outD o w mset0 a0 HB SW H0) as (I0 & Em & _). rewrite <- Em in HF, HN. destruct (history_full _ E o a0 l a SW I0 HF HN HH) as (I & HF' & HN'). clear HF HN HB.
  destruct (step_sound E o a a' I SW HS) as (tmp & w1 & idx & blk & v & s & s' & Hc & Hs & Cv & Lv & Had & Gr & Em' & _ & _ & _).
  destruct (choose_sound E o a tmp w1 idx blk v I Hc) as (exps & cs & g & HE & -> & Hg & Hcs & s1 & e & rm & x & Hs1 & He & Hi & Hv & Ha & Hx & Hp & Hmax). rewrite Hs in Hs1. injection Hs1 as <-.
  rewrite Forall_forall in HF', HN'. assert (Fs : full s) by (apply HF'; eapply nth_error_In; eauto). assert (B := f_base _ Fs).
  exists exps, cs, g, w1, blk, s, s', v, x. split; auto. split; auto. split; auto. split; auto. split; auto. split; auto. split.
  { intros u. rewrite !member_active by (auto; apply Gr). unfold active. rewrite (g_act _ _ _ Gr), in_app_iff. cbn. split; intros [K|K]; subst; auto. destruct K; [subst; auto|contradiction]. }
  destruct (F2_nth _ _ _ _ _ HE Hs) as (er & Her & Hex). rewrite He in Her. injection Her as <-.
  split.
  { apply (candidate_cand _ _ B). split; auto. destruct (ExpandAll_spec s B) as (e1 & new & rep & E1 & G1 & C1 & _ & R1 & _). rewrite Hex in E1. injection E1 as <- <-. apply index_nth in Hv; [|apply G1].
    specialize (R1 idx Hi). rewrite (g_act _ _ _ G1), nth_error_app2 in Hv by (rewrite <- Size_actives; lia). apply (C1 v (nth_error_In _ _ Hv)). }
  split; auto. split; [exists e, idx; rewrite nth_error_map, He; auto|]. split; auto.
  intros blk' t u Ht Hu Hau. assert (Ft : full t) by (apply HF'; eapply nth_error_In; eauto). assert (Nt : nbrs t) by (apply HN'; eapply nth_error_In; eauto).
  destruct (F2_nth _ _ _ _ _ HE Ht) as ([et rt] & Het & Hext). destruct (expanded_candidates t et rt u Ft Nt Hext Hu) as (i & Hi1 & Hi2). destruct (Hmax blk' et rt i u Het Hi1 Hi2 Hau) as (y & Hy & Hd).
  exists y. split; auto. exists et, i. rewrite nth_error_map, Het. auto.
Qed.
Print Assumptions C53_adds_largest.

(** ** When an iteration cannot choose *)
(** The factory, the optimiser and the objective never fail, gradients have one entry per coefficient, and reads past the
    end of the coefficients give some number. *)
Definition answering_world {W} (E : world W) : Prop :=
  (forall s, w_create E s = Ok tt) /\ (forall w s c, exists r, w_train E w s c = Ok r) /\ (forall w s c, exists r, w_test E w s c = Ok r) /\
  (forall w s c, exists w' g, w_grad E w s c = Ok (w', g) /\ length g = total s) /\ (forall i, exists x, w_stray E i = Ok x).

Lemma frontier_total W (E : world W) old rm n : answering_world E -> (n = 0 \/ In (n - 1) rm) -> exists c, frontier_coeffs E old rm n = Ok c.
Proof.
  intros (_ & _ & _ & _ & St) H. unfold frontier_coeffs.
  assert (G : forall m j c oi ri, j + m = n -> (forall k r, k < ri -> nth_error rm k = Some r -> r < j) -> exists p, ofold (frontier_step E old rm) (seq j m) (c, oi, ri) = Ok p).
  { induction m as [|m IH]; intros j c oi ri Hj Hr; cbn [seq ofold]; [eauto|]. unfold frontier_step at 1. unfold raw_get. destruct (nth_error rm ri) as [r|] eqn:Er.
    - cbn [obind]. destruct (Nat.eqb_spec j r) as [->|Hjr].
      + cbn [obind]. apply IH; [lia|]. intros k r' Hk Hk'. destruct (Nat.eq_dec k ri) as [->|]; [rewrite Er in Hk'; injection Hk' as <-; lia|]. specialize (Hr k r' ltac:(lia) Hk'). lia.
      + assert (exists x, match nth_error old oi with Some x => Ok x | None => w_stray E oi end = Ok x) as (x & ->) by (destruct (nth_error old oi); eauto). cbn [obind]. apply IH; [lia|]. intros k r' Hk Hk'. specialize (Hr k r' Hk Hk'). lia.
    - exfalso. destruct H as [->|H]; [lia|]. apply In_nth_error in H as (k & Hk). apply nth_error_None in Er. assert (k < length rm) by (apply nth_error_Some; congruence). specialize (Hr k _ ltac:(lia) Hk). lia. }
  destruct (G n 0 [] 0 0) as (p & ->); [lia|intros; lia|]. cbn. eauto.
Qed.
Lemma expand_some s e rm u : full s -> nbrs s -> ms_ExpandAll s = Ok (e, rm) -> candidate s u -> In (ms_Size e - 1) rm.
Proof.
  intros F N H C. destruct (expanded_candidates _ _ _ _ F N H C) as (i & Hi & Hu). destruct (ExpandAll_spec s (f_base _ F)) as (e1 & new & rep & E1 & G & _ & _ & R1 & R2). rewrite H in E1. injection E1 as <- <-.
  specialize (R1 i Hi). apply R2. lia.
Qed.
Lemma expand_none s e rm : full s -> ms_ExpandAll s = Ok (e, rm) -> (forall u, ~ candidate s u) -> rm = [] /\ e = e /\ ms_Size e = ms_Size s.
Proof.
  intros F H C. destruct (ExpandAll_spec s (f_base _ F)) as (e1 & new & rep & E1 & G & C1 & _ & R1 & R2). rewrite H in E1. injection E1 as <- <-.
  assert (new = []). { destruct new as [|u new]; auto. exfalso. apply (C u). apply candidate_cand; [apply F|]. apply C1. left. auto. }
  assert (Z : ms_Size e = ms_Size s) by (rewrite !Size_actives, (g_act _ _ _ G), H0, app_nil_r; auto). split; [|auto]. destruct rm as [|i rm]; auto. specialize (R1 i (or_introl eq_refl)). lia.
Qed.
Lemma expand_block_total W (E : world W) t s c : answering_world E -> base s -> dim t = dim s -> (exists e rm, ms_ExpandAll s = Ok (e, rm) /\ In (ms_Size e - 1) rm) ->
  exists e rm c', expand_block E (t, s, c) = Ok (e, rm, c') /\ ms_ExpandAll s = Ok (e, rm).
Proof.
  intros AW B D (e & rm & He & Hin). cbn [expand_block]. rewrite (assign_same t s D). cbn [obind]. rewrite He. cbn [obind fst snd]. destruct AW as (A1 & AW). rewrite A1. cbn [obind].
  destruct (frontier_total W E c rm (ms_Size e)) as (c' & ->); [split; auto|right; auto|]. cbn. eauto 6.
Qed.
Lemma offset_lt sets k s i : nth_error sets k = Some s -> i < ms_Size s -> offset sets k + i < total sets.
Proof.
  unfold offset, total. revert k. induction sets as [|t sets IH]; intros [|k] H Hi; try discriminate; cbn [map firstn nth_error] in *.
  - injection H as ->. change (list_sum (ms_Size s :: map ms_Size sets)) with (ms_Size s + list_sum (map ms_Size sets)). cbn. lia.
  - change (list_sum (ms_Size t :: firstn k (map ms_Size sets))) with (ms_Size t + list_sum (firstn k (map ms_Size sets))). change (list_sum (ms_Size t :: map ms_Size sets)) with (ms_Size t + list_sum (map ms_Size sets)). specialize (IH k H Hi). lia.
Qed.
Lemma rms_spec o exps : Forall (fun x => base (fst x) /\ (forall i, In i (snd x) -> i < ms_Size (fst x)) /\ (maxDegrees o = [] \/ dim (fst x) <= length (maxDegrees o))) exps ->
  exists rms, (if length (maxDegrees o) =? 0 then Ok (map snd exps) else maxDegreeRMFilter (map fst exps) (maxDegrees o) (map snd exps)) = Ok rms /\
  Forall2 (fun x rm' => forall i, In i rm' <-> In i (snd x) /\ (maxDegrees o = [] \/ exists u, nth_error (actives (fst x)) i = Some u /\ allowed o u)) exps rms.
Proof.
  intros H. destruct (Nat.eqb_spec (length (maxDegrees o)) 0) as [Z|Z].
  - exists (map snd exps). split; auto. apply length_zero_iff_nil in Z. clear H. induction exps as [|x l IH]; cbn; constructor; auto. intros i. tauto.
  - unfold maxDegreeRMFilter. induction H as [|[e rm] l (B & Hr & Hd) _ (rms & IH1 & IH2)]; cbn [map combine omap]; [exists []; auto|].
    destruct Hd as [Hd|Hd]; [rewrite Hd in Z; cbn in Z; lia|]. destruct (rm_filter_total (maxDegrees o) e rm B Hd Hr) as (rm' & Hf). cbn [fst snd] in *. rewrite Hf. cbn [obind]. rewrite IH1. exists (rm' :: rms). split; auto. constructor; auto.
    intros i. rewrite (rm_filter_spec _ _ _ _ B Hf). unfold allowed. cbn [fst snd]. split; intros (K1 & K2); split; auto; [right; destruct K2 as (u0 & K2 & K3); eauto|].
    destruct K2 as [K2|(u0 & K2 & [K3|K3])]; [rewrite K2 in Z; cbn in Z; lia|rewrite K3 in Z; cbn in Z; lia|eauto].
Qed.

(** An iteration always succeeds in choosing and adding a term, unless some component has no candidate left or every allowed candidate has a
    zero or NaN gradient. *)
Theorem C53_progress_partial : forall W (E : world W) inD outD o w mset0 a0 l a, sized_world E -> answering_world E -> Forall made mset0 ->
  adapt_init E inD outD o w mset0 = Ok a0 -> history E o a0 l a -> (forall s, In s (a_mset0 a) -> exists u, candidate s u) ->
  (exists a', adapt_step E o a = Ok a') \/
  (adapt_step E o a = UB /\ exists exps cs w1 g, Forall2 (fun s x => ms_ExpandAll s = Ok x) (a_mset0 a) exps /\ w_grad E (a_world a) (map fst exps) cs = Ok (w1, g) /\
    forall blk s u, nth_error (a_mset0 a) blk = Some s -> candidate s u -> allowed o u -> exists y, entry (map fst exps) g blk u y /\ dlt (Fin 0) (dabs y) = false).
Proof.
  intros W E inD outD o w mset0 a0 l a SW AW HM H0 HH HC. destruct (made_inv _ HM) as (HB & HF & HN).
  destruct (init_sound E inD outD o w mset0 a0 HB SW H0) as (I0 & Em & _). rewrite <- Em in HF, HN. destruct (history_full _ E o a0 l a SW I0 HF HN HH) as (I & HF' & HN'). clear HF HN HB I0 Em H0 HH HM.
  rewrite Forall_forall in HF', HN'. pose proof I as [].
  assert (L1 : length (a_tmp a) = length (a_mset0 a)) by (rewrite <- (map_length dim (a_tmp a)), i_tmp0; apply map_length).
  assert (L2 : length (a_coeffs a) = length (a_mset0 a)) by (rewrite <- (map_length (@length R) (a_coeffs a)), i_coeffs0; apply map_length).
  destruct (omap_forall (expand_block E) (fun p x => ms_ExpandAll (snd (fst p)) = Ok (fst x)) (combine (combine (a_tmp a) (a_mset0 a)) (a_coeffs a))) as (xs & Hxs & HX).
  { intros [[t s] c] Hin. assert (Hts : In (t, s) (combine (a_tmp a) (a_mset0 a))) by (eapply in_combine_l; eauto). assert (Hs : In s (a_mset0 a)) by (eapply in_combine_r; eauto).
    assert (F := HF' s Hs). destruct (HC s Hs) as (u & Hu). destruct (ExpandAll_spec s (f_base _ F)) as (e & new & rep & He & _).
    destruct (expand_block_total W E t s c AW (f_base _ F)) as (e' & rm & c' & H1 & H2); [eapply combine_map_in; eauto|exists e, rep; split; auto; eapply expand_some; eauto|]. eexists. split; [exact H1|]. exact H2. }
  apply (combine3_F2 _ (fun s x => ms_ExpandAll s = Ok (fst x)) _ _ _ _ L1 L2) in HX; [|intros t s c d _ K; exact K].
  set (exps := map fst xs). assert (HE : Forall2 (fun s x => ms_ExpandAll s = Ok x) (a_mset0 a) exps) by (unfold exps; clear -HX; induction HX; cbn; constructor; auto).
  assert (EP : Forall (fun x => base (fst x) /\ (forall i, In i (snd x) -> i < ms_Size (fst x)) /\ (maxDegrees o = [] \/ dim (fst x) <= length (maxDegrees o))) exps).
  { apply Forall_forall. intros [e rm] Hx. apply In_nth_error in Hx as (k & Hk). destruct (F2_nth_r _ _ _ _ _ HE Hk) as (s & Hs & He). apply nth_error_In in Hs. destruct (ExpandAll_spec s (f_base _ (HF' s Hs))) as (e1 & new & rep & E1 & G & _ & _ & R1 & _).
    rewrite He in E1. injection E1 as <- <-. cbn [fst snd]. split; [apply G|]. split; [intros i Hi; apply (R1 i Hi)|]. rewrite (g_dim _ _ _ G). destruct i_deg0 as [|K]; auto. right. rewrite Forall_forall in K. auto. }
  destruct (rms_spec o exps EP) as (rms & Hrms & HR). pose proof AW as (A1 & A2 & A3 & A4 & A5).
  destruct (A4 (a_world a) (map fst exps) (map snd xs)) as (w1 & g & Hg & Lg).
  assert (T1 : map (fun x => fst (fst x)) xs = map fst exps) by (unfold exps; rewrite map_map; auto). assert (T2 : map (fun x : mset * list nat * list R => snd (fst x)) xs = map snd exps) by (unfold exps; rewrite map_map; auto).
  destruct (findMaxGrad_total g rms (map fst exps)) as (m & Hm).
  { rewrite map_length. symmetry. eapply F2_len; eauto. }
  { intros k rm i Hk Hi. destruct (F2_nth_r _ _ _ _ _ HR Hk) as ([e rm0] & Hx & K). destruct (proj1 (K i) Hi) as (Hi0 & _). rewrite Lg. rewrite Forall_forall in EP. destruct (EP (e, rm0) (nth_error_In _ _ Hx)) as (_ & Hlt & _). eapply offset_lt; [rewrite nth_error_map, Hx; reflexivity|]. apply Hlt. auto. }
  assert (CH : choose E o a = match m with None => UB | Some (idx, blk) => do t <- raw_get (map fst exps) blk; do v <- ms_IndexToMulti t idx; Ok (map fst exps, w1, (idx, blk), v) end).
  { unfold choose. rewrite Hxs. cbn [obind]. rewrite T1, T2, Hg. cbn [obind fst snd]. rewrite Hrms. cbn [obind]. rewrite Hm. reflexivity. }
  destruct m as [[idx blk]|].
  - left. destruct (findMaxGrad_spec _ _ _ _ _ Hm) as (rm & x & Hrm & Hi & Hx & _). destruct (F2_nth_r _ _ _ _ _ HR Hrm) as ([e rm0] & He & K). destruct (proj1 (K idx) Hi) as (Hi0 & _). clear Hi. rename Hi0 into Hi. cbn [snd] in Hi.
    destruct (F2_nth_r _ _ _ _ _ HE He) as (s & Hs & Hex). assert (F : full s) by (apply HF'; eapply nth_error_In; eauto). assert (B := f_base _ F). destruct (ExpandAll_spec s B) as (e1 & new & rep & E1 & G & _ & _ & R1 & _). rewrite Hex in E1. injection E1 as <- <-.
    specialize (R1 _ Hi). destruct (nth_error (actives e) idx) as [v|] eqn:Ev; [|apply nth_error_None in Ev; rewrite <- Size_actives in Ev; lia]. apply index_nth in Ev; [|apply G].
    unfold raw_get in CH. rewrite nth_error_map, He in CH. cbn [option_map obind fst] in CH. rewrite Ev in CH. cbn [obind] in CH.
    unfold adapt_step. rewrite CH. cbn [obind]. unfold raw_get at 1. rewrite Hs. cbn [obind].
    destruct (choose_sound E o a _ _ _ _ _ I CH) as (exps' & _ & _ & HE' & _ & _ & _ & s2 & e2 & rm2 & x2 & Hs2 & He2 & Hi2 & Hv2 & _). rewrite Hs in Hs2. injection Hs2 as <-.
    destruct (F2_nth _ _ _ _ _ HE' Hs) as (er & Her & Hex'). rewrite He2 in Her. injection Her as <-. rewrite Hex in Hex'. injection Hex' as <- <-.
    assert (Lv : length v = dim s). { rewrite <- (g_dim _ _ _ G). apply (b_len _ (g_base _ _ _ G)). apply active_in_all; [apply G|]. apply member_active; [apply G|]. exists idx. auto. }
    destruct (AddActive_spec s v B Lv) as (s' & r1 & new1 & E2 & G2 & Hr). rewrite E2. cbn [obind fst].
    assert (Sz : ms_Size s' = ms_Size s + 1).
    { apply index_nth in Ev; [|apply G]. rewrite (g_act _ _ _ G), nth_error_app2 in Ev by (rewrite <- Size_actives; lia). destruct (ExpandAll_spec s B) as (e1 & new' & rep & E1 & G1 & C1 & _). rewrite Hex in E1. injection E1 as <- <-.
      assert (new' = new) by (apply (app_inv_head (actives s)); rewrite <- (g_act _ _ _ G1); apply (g_act _ _ _ G)). subst new'. destruct (C1 v (nth_error_In _ _ Ev)) as ((Q1 & Q2 & _) & _).
      rewrite !Size_actives, (g_act _ _ _ G2), app_length. destruct Hr as [(k & _ & _ & _ & [[K1 _]|[_ ->]])|(_ & _ & _ & K1 & _)]; [contradiction|reflexivity|congruence]. }
    unfold raw_get at 1. rewrite i_sizes0, nth_error_map, Hs. cbn [option_map obind]. rewrite Sz, Nat.eqb_refl. cbn [negb]. rewrite A1. cbn [obind].
    assert (Lc : option_map (@length R) (nth_error (a_coeffs a) blk) = Some (ms_Size s)) by (rewrite <- nth_error_map, i_coeffs0, nth_error_map, Hs; auto). unfold raw_get at 1. destruct (nth_error (a_coeffs a) blk) as [old|]; [|discriminate]. injection Lc as Lc. cbn [obind].
    rewrite Lc, Nat.ltb_irrefl. destruct (A2 w1 (upd (a_mset0 a) blk s') (upd (a_coeffs a) blk (repeat 0%R (ms_Size s + 1)))) as ([w2 c2] & ->). cbn [obind fst snd]. destruct (A3 w2 (upd (a_mset0 a) blk s') c2) as ([w3 te] & ->). cbn [obind]. eauto.
  - right. split; [unfold adapt_step; rewrite CH; reflexivity|]. exists exps, (map snd xs), w1, g. split; auto. split; auto. intros blk s u Hs Hu Ha.
    destruct (F2_nth _ _ _ _ _ HE Hs) as ([e rm] & He & Hex). destruct (expanded_candidates s e rm u (HF' s (nth_error_In _ _ Hs)) (HN' s (nth_error_In _ _ Hs)) Hex Hu) as (i & Hi & Hiu).
    destruct (F2_nth _ _ _ _ _ HR He) as (rm' & Hrm' & K). rewrite Forall_forall in EP. destruct (EP _ (nth_error_In _ _ He)) as (Be & _).
    assert (Hi' : In i rm') by (apply K; cbn [fst snd]; split; auto; right; exists u; split; auto; apply index_nth; auto).
    destruct (findMaxGrad_none _ _ _ Hm blk rm' i Hrm' Hi') as (y & Hy & Hd). exists y. split; auto. exists e, i. rewrite nth_error_map, He. auto.
Qed.
Print Assumptions C53_progress_partial.

Lemma omap_ub {A B} (f : A -> outcome B) l : (forall a, In a l -> (exists b, f a = Ok b) \/ f a = UB) -> (exists a, In a l /\ f a = UB) -> omap f l = UB.
Proof.
  induction l as [|a l IH]; intros H (x & Hx & Hu); [destruct Hx|]. cbn [omap]. destruct (H a (or_introl eq_refl)) as [(b & Hb)| ->]; [|reflexivity]. rewrite Hb. cbn [obind].
  destruct Hx as [->|Hx]; [congruence|]. rewrite IH; [reflexivity|intros; apply H; right; auto|eauto].
Qed.
(** The other case: a component with no candidate left (for example, because its limiter admits nothing more) makes the iteration read element 0 of an empty list. *)
Theorem C53_no_candidate_refuted : forall W (E : world W) inD outD o w mset0 a0 l a s, sized_world E -> answering_world E -> Forall made mset0 ->
  adapt_init E inD outD o w mset0 = Ok a0 -> history E o a0 l a -> In s (a_mset0 a) -> (forall u, ~ candidate s u) -> 0 < ms_Size s -> adapt_step E o a = UB.
Proof.
  intros W E inD outD o w mset0 a0 l a s SW AW HM H0 HH Hs HC Hz. destruct (made_inv _ HM) as (HB & HF & HN).
  destruct (init_sound E inD outD o w mset0 a0 HB SW H0) as (I0 & Em & _). rewrite <- Em in HF, HN. destruct (history_full _ E o a0 l a SW I0 HF HN HH) as (I & HF' & HN'). clear HF HN HB I0 Em H0 HH HM.
  rewrite Forall_forall in HF', HN'. pose proof I as [].
  assert (L1 : length (a_tmp a) = length (a_mset0 a)) by (rewrite <- (map_length dim (a_tmp a)), i_tmp0; apply map_length).
  assert (L2 : length (a_coeffs a) = length (a_mset0 a)) by (rewrite <- (map_length (@length R) (a_coeffs a)), i_coeffs0; apply map_length).
  assert (EB : forall t s c, In s (a_mset0 a) -> dim t = dim s -> (forall u, ~ candidate s u) -> 0 < ms_Size s -> expand_block E (t, s, c) = UB).
  { clear s Hs HC Hz. intros t s c Hs D HC Hz. cbn [expand_block]. rewrite (assign_same t s D). cbn [obind]. assert (F := HF' s Hs). destruct (ExpandAll_spec s (f_base _ F)) as (e & new & rep & He & _). rewrite He. cbn [obind fst snd].
    destruct (expand_none s e rep F He HC) as (-> & _ & Z). destruct AW as (A1 & _). rewrite A1. cbn [obind]. rewrite Z. destruct (ms_Size s); [lia|]. reflexivity. }
  unfold adapt_step, choose. rewrite omap_ub; [reflexivity| |].
  - intros [[t s1] c] Hin. assert (Hts : In (t, s1) (combine (a_tmp a) (a_mset0 a))) by (eapply in_combine_l; eauto). assert (Hs1 : In s1 (a_mset0 a)) by (eapply in_combine_r; eauto).
    assert (D : dim t = dim s1) by (eapply combine_map_in; eauto). assert (F := HF' s1 Hs1). destruct (ExpandAll_spec s1 (f_base _ F)) as (e & new & rep & He & G & _ & _ & R1 & R2).
    destruct rep as [|i rep].
    + cbn [expand_block]. rewrite (assign_same t s1 D). cbn [obind]. rewrite He. cbn [obind fst snd]. destruct AW as (A1 & _). rewrite A1. cbn [obind]. destruct (ms_Size e); [left; cbn; eauto|right; reflexivity].
    + left. destruct (expand_block_total W E t s1 c AW (f_base _ F) D) as (e' & rm & c' & H1 & _); [|eauto]. exists e, (i :: rep). split; auto. specialize (R1 i (or_introl eq_refl)). apply R2. lia.
  - apply In_nth_error in Hs as (k & Hk). assert (Lk : k < length (a_mset0 a)) by (apply nth_error_Some; congruence).
    destruct (nth_error (a_tmp a) k) as [t|] eqn:Et; [|apply nth_error_None in Et; lia]. destruct (nth_error (a_coeffs a) k) as [c|] eqn:Ec; [|apply nth_error_None in Ec; lia].
    assert (CN : forall A B (la : list A) (lb : list B) k a b, nth_error la k = Some a -> nth_error lb k = Some b -> nth_error (combine la lb) k = Some (a, b)).
    { clear. induction la as [|x la IH]; intros [|y lb] [|k] a b H1 H2; try discriminate; cbn in *; [congruence|auto]. }
    assert (K1 := CN _ _ _ _ _ _ _ Et Hk). assert (K2 := CN _ _ _ _ _ _ _ K1 Ec). exists (t, s, c). split; [eapply nth_error_In; eauto|]. apply EB; auto; [eapply nth_error_In; eauto|].
    eapply combine_map_in; eauto. eapply nth_error_In; eauto.
Qed.
Print Assumptions C53_no_candidate_refuted.

(** When the gradient is zero (or NaN) everywhere the chosen index is never assigned, and is used. *)
Theorem C53_zero_gradient_refuted : forall W (E : world W) inD outD o w mset0 a0 l a, sized_world E -> answering_world E -> Forall made mset0 ->
  adapt_init E inD outD o w mset0 = Ok a0 -> history E o a0 l a -> (forall s, In s (a_mset0 a) -> exists u, candidate s u) ->
  (forall sets c w1 g, w_grad E (a_world a) sets c = Ok (w1, g) -> Forall (fun y => y = Fin 0 \/ y = NaN) g) -> adapt_step E o a = UB.
Proof.
  intros W E inD outD o w mset0 a0 l a SW AW HM H0 HH HC HZ. destruct (C53_progress_partial W E inD outD o w mset0 a0 l a SW AW HM H0 HH HC) as [(a' & Ha)|[H _]]; auto. exfalso.
  destruct (C53_adds_largest W E inD outD o w mset0 a0 l a a' SW HM H0 HH Ha) as (exps & cs & g & w1 & blk & s & s' & v & x & _ & Hg & _ & _ & _ & _ & _ & _ & _ & (e & i & _ & _ & Hx) & Hp & _).
  specialize (HZ _ _ _ _ Hg). rewrite Forall_forall in HZ. destruct (HZ x (nth_error_In _ _ Hx)) as [-> | ->]; cbn in Hp; [|discriminate]. rewrite Rabs_R0 in Hp. destruct (Rlt_dec 0 0); [lra|discriminate].
Qed.
Print Assumptions C53_zero_gradient_refuted.

(** The gradient is taken at the trained coefficients followed by zeros for the candidates, when Expand reports every new index once, in order. *)
Theorem C53_frontier_coefficients_partial : forall W (E : world W) old k, 0 < k -> frontier_coeffs E old (seq (length old) k) (length old + k) = Ok (old ++ repeat 0%R k).
Proof.
  intros W E old k Hk. unfold frontier_coeffs. rewrite seq_app, Nat.add_0_l.
  assert (FA : forall A S (f : S -> A -> outcome S) l1 l2 s, ofold f (l1 ++ l2) s = obind (ofold f l1 s) (ofold f l2)).
  { clear. induction l1 as [|x l1 IH]; intros l2 s; cbn [ofold app obind]; [auto|]. destruct (f s x); cbn; auto. }
  rewrite FA.
  assert (P1 : forall m j, j + m = length old -> ofold (frontier_step E old (seq (length old) k)) (seq j m) (firstn j old, j, 0) = Ok (old, length old, 0)).
  { induction m as [|m IH]; intros j Hj; cbn [seq ofold].
    - rewrite Nat.add_0_r in Hj. subst j. rewrite firstn_all. reflexivity.
    - unfold frontier_step at 1. unfold raw_get. destruct k as [|k']; [lia|]. cbn [seq nth_error obind]. destruct (Nat.eqb_spec j (length old)); [lia|].
      destruct (nth_error old j) as [x|] eqn:Ex; [|apply nth_error_None in Ex; lia]. cbn [obind]. rewrite <- (IH (S j)) by lia. f_equal. f_equal. f_equal.
      clear -Ex. revert j Ex. induction old as [|y old IH]; intros [|j] Ex; cbn in *; try discriminate; [congruence|rewrite IH; auto]. }
  assert (P2 : forall m j c oi, j + m = k -> ofold (frontier_step E old (seq (length old) k)) (seq (length old + j) m) (c, oi, j) = Ok (c ++ repeat 0%R m, oi, k)).
  { induction m as [|m IH]; intros j c oi Hj; cbn [seq ofold repeat].
    - rewrite app_nil_r. f_equal. f_equal. lia.
    - unfold frontier_step at 1. unfold raw_get. rewrite (nth_error_nth' _ 0) by (rewrite seq_length; lia). rewrite seq_nth by lia. cbn [obind]. rewrite Nat.eqb_refl. cbn [obind]. rewrite <- Nat.add_succ_r, IH by lia. rewrite <- app_assoc. reflexivity. }
  specialize (P1 (length old) 0 ltac:(lia)). cbn [firstn] in P1. rewrite P1. cbn [obind]. specialize (P2 k 0 old (length old) ltac:(lia)). rewrite Nat.add_0_r in P2. rewrite P2. reflexivity.
Qed.
Print Assumptions C53_frontier_coefficients_partial.

(** With two or more inputs Expand may report an index twice. Then later candidates are given old coefficients, and coefficients past the end are read: for the total-order-1 set in two dimensions, with a world where such reads are errors, no call with room to grow ever returns. *)
Theorem C53_stray_refuted : forall W (E : world W) o w fuel, sized_world E -> (forall s, w_create E s = Ok tt) -> (forall w s c, exists r, w_train E w s c = Ok r) -> (forall w s c, exists r, w_test E w s c = Ok r) ->
  (forall i, w_stray E i = UB) -> 3 < maxSize o -> 0 < maxPatience o -> (maxDegrees o = [] \/ length (maxDegrees o) = 2) -> 0 < fuel ->
  TrainMapAdaptive E fuel 2 1 o w [t21] = UB.
Proof.
  intros W E o w fuel SW A1 A2 A3 A5 Hs Hp Hd Hf. unfold TrainMapAdaptive, adapt_init. change (length [t21]) with 1. cbn [Nat.eqb negb raw_get nth_error obind seq combine ofold]. unfold check_block.
  change (dim t21) with 2. rewrite Nat.eqb_refl. cbn [negb]. rewrite A1. cbn [obind]. change (2 + 0 + 1 <? 1) with false. change (2 + 0 + 1 - 1) with 2. destruct (CreateTotalOrder_spec 2 0 (fun _ => true)) as (k & Hk & _); [lia|]. pose proof (constant_set _ _ Hk) as (_ & Dk & _). rewrite Hk. cbn [obind ofold app].
  change (2 + 1 - 1) with 2. change (2 =? 2) with true. cbn [negb]. change (ms_Size t21) with 3. replace (negb (length (maxDegrees o) =? 0) && negb (length (maxDegrees o) =? 2)) with false by (destruct Hd as [-> | ->]; reflexivity).
  destruct (A2 w [t21] (map (fun s => repeat 0%R (ms_Size s)) [t21])) as ([w1 c1] & Ht). rewrite Ht. cbn [obind fst snd]. destruct (A3 w1 [t21] c1) as ([w2 te] & ->). cbn [obind fst snd].
  specialize (SW _ _ _ _ _ Ht). destruct c1 as [|c [|]]; try discriminate SW. injection SW as SW. change (length (a2g t21)) with 3 in SW.
  destruct fuel as [|fuel]; [lia|]. cbn [adapt_loop]. unfold goes_on. cbn [a_size a_patience]. change (0 + 3) with 3. replace (3 <? maxSize o) with true by (symmetry; apply Nat.ltb_lt; lia). replace (0 <? maxPatience o) with true by (symmetry; apply Nat.ltb_lt; lia). cbn [andb].
  unfold adapt_step, choose. cbn [a_tmp a_mset0 a_coeffs combine omap expand_block]. rewrite assign_same by (rewrite Dk; reflexivity). cbn [obind].
  assert (X : ms_ExpandAll t21 = Ok (c12s, [3;4;3;5])) by (vm_compute; reflexivity). rewrite X. cbn [obind fst snd]. rewrite A1. cbn [obind]. change (ms_Size c12s) with 6.
  destruct c as [|x [|y [|z [|]]]]; try discriminate SW. unfold frontier_coeffs. cbn [seq ofold frontier_step raw_get nth_error obind Nat.eqb app]. rewrite A5. reflexivity.
Qed.
Print Assumptions C53_stray_refuted.

(** ** Examples *)
(** Training leaves zeros, the second iteration has the only good test error, all gradients are infinite. *)
Definition ex_world : world nat := MkWorld nat (fun _ => Ok tt) (fun w s _ => Ok (w, map (fun s => repeat 0%R (ms_Size s)) s))
  (fun w _ _ => Ok (S w, if w =? 2 then MInf else PInf)) (fun w s _ => Ok (w, repeat PInf (total s))) (fun _ => Ok 0%R).
Lemma ex_world_ok : sized_world ex_world /\ ending_world ex_world /\ answering_world ex_world.
Proof.
  split; [|split].
  - intros w s c w' c' H. injection H as <- <-. rewrite map_map. apply map_ext. intros t. apply repeat_length.
  - repeat split; intros; discriminate.
  - repeat split; intros; cbn; eauto. do 2 eexists. split; [reflexivity|]. apply repeat_length.
Qed.
Lemma t11_made : Forall made [t11].
Proof. constructor; [|constructor]. exists (fun _ => true), any. apply r_start. exact t11_start. Qed.
Lemma t11_usable : Forall usable [t11].
Proof. eapply Forall_impl; [|exact t11_made]. intros s H. left. exact H. Qed.
(** Three more iterations than the best one are made, then the sets of the second iteration, of degree 3, are returned. *)
Example C52_best_example : exists w' s c, TrainMapAdaptive ex_world 20 1 1 (MkAtm 3 100 []) 0 [t11] = Ok (w', [s], c) /\ ms_Size s = 4 /\ member s [3].
Proof. do 3 eexists. split; [vm_compute; reflexivity|]. split; [reflexivity|]. exists 3. vm_compute. reflexivity. Qed.
(** The same training with no room to grow returns the constant. *)
Example C52_initial_sets_example : exists w' s c, TrainMapAdaptive ex_world 20 1 1 (MkAtm 3 2 []) 0 [t11] = Ok (w', [s], c) /\ ms_Size s = 1.
Proof. do 3 eexists. split; [vm_compute; reflexivity|]. reflexivity. Qed.
Example C53_example : exists a0 a', adapt_init ex_world 1 1 (MkAtm 3 100 [3]) 0 [t11] = Ok a0 /\ adapt_step ex_world (MkAtm 3 100 [3]) a0 = Ok a' /\ exists s, a_mset0 a' = [s] /\ member s [2].
Proof. do 2 eexists. split; [vm_compute; reflexivity|]. split; [vm_compute; reflexivity|]. eexists. split; [reflexivity|]. exists 2. vm_compute. reflexivity. Qed.
(** A set whose limiter admits nothing more: training it with room to grow is an error. *)
Definition t11full : mset := Eval vm_compute in val e1 (ms_CreateTotalOrder 1 1 (below 2)).
Lemma t11full_none u : ~ candidate t11full u.
Proof.
  intros C. assert (B : start 1 (below 2) t11full) by (apply (s_total 1 1); vm_compute; reflexivity). destruct (reach_inv (fun _ => true) 1 (below 2) t11full (r_start _ _ _ _ B)) as (F & N & _ & _).
  assert (H : exists e, ms_ExpandAll t11full = Ok (e, [])) by (eexists; vm_compute; reflexivity). destruct H as (e & H). destruct (expanded_candidates _ _ _ _ F N H C) as (i & [] & _).
Qed.
Example C53_no_candidate_example : Forall made [t11full] /\ exists a0, adapt_init ex_world 1 1 (MkAtm 3 100 []) 0 [t11full] = Ok a0 /\ adapt_step ex_world (MkAtm 3 100 []) a0 = UB.
Proof.
  assert (M : Forall made [t11full]) by (constructor; [|constructor]; exists (fun _ => true), (below 2); apply r_start; apply (s_total 1 1); vm_compute; reflexivity).
  split; [exact M|]. destruct (adapt_init ex_world 1 1 (MkAtm 3 100 []) 0 [t11full]) as [a0| | |] eqn:E0; try (vm_compute in E0; discriminate E0). exists a0. split; auto.
  destruct ex_world_ok as (W1 & _ & W3). apply (C53_no_candidate_refuted nat ex_world 1 1 (MkAtm 3 100 []) 0 [t11full] a0 [] a0 t11full W1 W3 M E0); [constructor| |exact t11full_none|vm_compute; lia].
  destruct (init_sound ex_world 1 1 _ 0 [t11full] a0 (proj1 (made_inv _ M)) W1 E0) as (_ & Em & _). rewrite Em. left. auto.
Qed.
