(** The Gaussian density computes the normal log density and its score. *)
From Coq Require Import Reals List Lia Lra Permutation.
From Coquelicot Require Import Coquelicot.
From Verif Require Import Base SpecExpansion SpecMaps SpecDensity SpecGauss QuadCC DetMul CholProofs ExpansionModel ExpansionProofs MapsModel MapsProofs
  DensityModel DensityProofs ReduceModel ReduceProofs GaussModel.
Import ListNotations.
Local Open Scope R_scope.

(** What the code needs of Eigen::LLT: for a symmetric positive definite matrix it factorises, solves with L and
    L^T, multiplies by L and knows the product of L's diagonal. *)
Definition chol_correct (llt : LLT) : Prop :=
  forall n Sg, spd n Sg -> exists L, chol_factor n Sg L /\ ch_n (llt Sg) = n /\ ch_detL (llt Sg) = rprod (fun i => entry L i i) n /\
    forall b, length b = n -> (length (ch_solveL (llt Sg) b) = n /\ matvec L (ch_solveL (llt Sg) b) = b) /\
      (length (ch_solveU (llt Sg) b) = n /\ vecmat n (ch_solveU (llt Sg) b) L = b) /\ ch_mulL (llt Sg) b = matvec L b.
Definition exact_llt : LLT := fun A => let n := length A in let L := chol_list n A in
  MkChol n (fsolve_list n L) (usolve_list n L) (matvec L) (rprod (fun i => entry L i i) n).
Lemma exact_llt_correct : chol_correct exact_llt.
Proof.
  intros n Sg H. exists (chol_list n Sg). unfold exact_llt. assert (length Sg = n) as -> by apply H. cbn [ch_n ch_detL ch_solveL ch_solveU ch_mulL].
  pose proof (chol_list_ok n Sg H) as F. split; [auto|]. split; [auto|]. split; [auto|]. intros b Hb. split; [|split; auto].
  - eapply fsolve_list_ok; eauto.
  - eapply usolve_list_ok; eauto.
Qed.

Lemma omap_ok {A B} (f : A -> outcome B) (g : A -> B) l : (forall a, In a l -> f a = Ok (g a)) -> omap f l = Ok (map g l).
Proof.
  induction l as [|a l IH]; intros H; auto. cbn [omap map]. rewrite H by (cbn; auto). cbn [obind]. rewrite IH by (intros; apply H; cbn; auto). reflexivity.
Qed.
Lemma v_write_raw_ok n v l : inside n v -> v_stride v = 1%nat -> length l = n ->
  exists v', v_write_raw v l = Ok v' /\ only_entries v v' /\ entries v' = map Fin l.
Proof.
  intros (Hn & Hs & Hi) H1 Hl. unfold v_write_raw.
  destruct (ofold_inv (fun b k => do x <- raw_get l k; raw_set b (v_off v + k) (Fin x))
    (fun k b => length b = length (v_buf v) /\ forall i, nth_error b i = if ((v_off v <=? i) && (i <? v_off v + k))%nat then Some (Fin (nth (i - v_off v) l 0)) else nth_error (v_buf v) i)
    (length l) 0 (v_buf v)) as (b & E & Lb & Eb).
  - split; auto. intros i. destruct (Nat.leb_spec (v_off v) i), (Nat.ltb_spec i (v_off v + 0)); cbn [andb]; auto; lia.
  - intros k b Hk [Lb Eb]. assert (Hin : (v_off v + k < length b)%nat).
    { rewrite Lb. specialize (Hi k ltac:(lia)). unfold place in Hi. rewrite H1 in Hi. lia. }
    eexists. split.
    + rewrite raw_get_nth by lia. cbn [obind]. apply raw_set_upd. exact Hin.
    + split; [rewrite upd_length; auto|]. intros i. destruct (Nat.eq_dec i (v_off v + k)) as [->|N].
      * rewrite (nth_error_nth' _ NaN) by (rewrite upd_length; auto). rewrite nth_upd_eq by auto.
        destruct (Nat.leb_spec (v_off v) (v_off v + k)), (Nat.ltb_spec (v_off v + k) (v_off v + S k)); cbn [andb]; try lia. do 3 f_equal. lia.
      * rewrite nth_error_upd_neq by auto. rewrite Eb.
        destruct (Nat.leb_spec (v_off v) i), (Nat.ltb_spec i (v_off v + k)), (Nat.ltb_spec i (v_off v + S k)); cbn [andb]; auto; lia.
  - cbn [Nat.add] in Eb. rewrite E. cbn [obind]. eexists. split; [reflexivity|]. split.
    + repeat split; auto. cbn [v_buf]. intros i Ho. rewrite Eb. destruct (Nat.leb_spec (v_off v) i), (Nat.ltb_spec i (v_off v + length l)); cbn [andb]; auto.
      exfalso. apply (Ho (i - v_off v)%nat); [lia|]. unfold place. rewrite H1. lia.
    + unfold entries. cbn [v_len v_buf]. rewrite Hn. apply (nth_ext _ _ NaN NaN); [rewrite !map_length, seq_length; auto|].
      intros j Hj. rewrite map_length, seq_length in Hj. rewrite nth_map_seq by auto.
      change (place {| v_buf := b; v_off := v_off v; v_stride := v_stride v; v_len := v_len v |} j) with (place v j).
      rewrite (nth_indep (map Fin l) NaN (Fin 0)) by (rewrite map_length; lia). rewrite map_nth.
      assert (Pj : place v j = (v_off v + j)%nat) by (unfold place; rewrite H1; lia).
      pose proof (nth_error_nth' b NaN ltac:(rewrite Lb; apply (Hi j Hj)) : nth_error b (place v j) = Some (nth (place v j) b NaN)) as E1.
      rewrite Eb, Pj in E1. destruct (Nat.leb_spec (v_off v) (v_off v + j)), (Nat.ltb_spec (v_off v + j) (v_off v + length l)); cbn [andb] in E1; try lia.
      change (nth (place v j) b NaN = Fin (nth j l 0)). rewrite Pj. injection E1 as E1. rewrite <- E1. do 2 f_equal. lia.
Qed.
Lemma sub_const n v c : inside n v -> exists v', ofold (fun v j => do a <- v_get v j; v_set v j (dsub a c)) (seq 0 n) v = Ok v' /\
  only_entries v v' /\ entries v' = map (fun a => dsub a c) (entries v).
Proof.
  intros Hin. destruct (v_update_ok dsub n v (repeat c n) Hin (repeat_length c n)) as (v' & E & O & En). exists v'. split; [|split; auto].
  - unfold v_update in E. destruct Hin as (Hn & _). rewrite Hn in E. rewrite <- E. apply (ofold_ext _ _ (fun _ => True)); auto. intros w j _ Hj. apply in_seq in Hj.
    destruct (v_get w j); cbn [obind]; auto. unfold raw_get. rewrite (nth_error_nth' _ c) by (rewrite repeat_length; lia). rewrite nth_repeat. reflexivity.
  - rewrite En. assert (L : length (entries v) = n) by (unfold entries; rewrite map_length, seq_length; apply Hin). rewrite <- L. clear.
    induction (entries v) as [|a l IH]; [reflexivity|]. cbn [length repeat combine map fst snd]. rewrite IH. reflexivity.
Qed.

(** ** The shift by the mean *)
Definition mean_of (G : gauss) (n : nat) : list R := if (length (ga_mean G) =? 0)%nat then zeros n else ga_mean G.
Lemma minus_length a b : length a = length b -> length (minus a b) = length a.
Proof. intros H. unfold minus. rewrite vadd_length; auto. rewrite map_length. auto. Qed.
Lemma coord_minus a b i : length a = length b -> (i < length a)%nat -> coord (minus a b) i = coord a i - coord b i.
Proof.
  revert b i. induction a as [|x a IH]; intros [|y b] i H Hi; cbn in *; try discriminate; [lia|]. destruct i as [|i].
  - unfold coord. cbn. ring.
  - unfold coord in *. cbn. unfold minus in IH. apply IH; lia.
Qed.
Lemma map_opp_minus a b : length a = length b -> map Ropp (minus a b) = minus b a.
Proof.
  revert b. induction a as [|x a IH]; intros [|y b] H; cbn in *; try discriminate; auto. f_equal; [ring|]. apply IH. lia.
Qed.
Lemma shift_ok g f G n col : (ga_mean G = [] \/ length (ga_mean G) = n) -> length col = n -> (forall p, f p 0 = g p) ->
  ga_shift g f G n col = Ok (map (fun i => f (coord col i) (coord (mean_of G n) i)) (seq 0 n)).
Proof.
  intros Hm Hc Hf. unfold ga_shift. apply omap_ok. intros i Hi. apply in_seq in Hi. rewrite raw_get_nth by lia. cbn [obind]. unfold mean_of.
  destruct (Nat.eqb_spec (length (ga_mean G)) 0) as [E|E].
  - rewrite <- Hf. unfold coord, zeros. rewrite nth_repeat. reflexivity.
  - destruct Hm as [Hm|Hm]; [rewrite Hm in E; cbn in E; lia|]. rewrite raw_get_nth by lia. reflexivity.
Qed.
Lemma shift_minus G n col : (ga_mean G = [] \/ length (ga_mean G) = n) -> length col = n -> ga_shift (fun p => p) Rminus G n col = Ok (minus col (mean_of G n)).
Proof.
  intros Hm Hc. rewrite (shift_ok _ Rminus) by (auto; intros; ring). f_equal.
  assert (Hl : length (mean_of G n) = n). { unfold mean_of. destruct (Nat.eqb_spec (length (ga_mean G)) 0); [apply repeat_length|]. destruct Hm as [Hm|]; auto. rewrite Hm in n0. cbn in n0. lia. }
  apply (list_ext n); [rewrite map_length, seq_length; auto|rewrite minus_length; lia|]. intros i Hi. rewrite coord_map_seq' by auto.
  rewrite coord_minus by lia. reflexivity.
Qed.
Lemma mean_of_length G n : (ga_mean G = [] \/ length (ga_mean G) = n) -> length (mean_of G n) = n.
Proof. intros Hm. unfold mean_of. destruct (Nat.eqb_spec (length (ga_mean G)) 0); [apply repeat_length|]. destruct Hm as [Hm|]; auto. rewrite Hm in n0. cbn in n0. lia. Qed.
Lemma shift_score G n col : (ga_mean G = [] \/ length (ga_mean G) = n) -> length col = n -> ga_shift Ropp (fun p m => - p + m) G n col = Ok (minus (mean_of G n) col).
Proof.
  intros Hm Hc. rewrite (shift_ok _ (fun p m => - p + m)) by (auto; intros; ring). f_equal.
  pose proof (mean_of_length G n Hm) as Hl.
  apply (list_ext n); [rewrite map_length, seq_length; auto|rewrite minus_length; lia|]. intros i Hi. rewrite coord_map_seq' by auto.
  rewrite coord_minus by lia. ring.
Qed.

(** ** LogDensityImpl *)
Lemma dot_self_rsum y n : length y = n -> dot y y = rsum (fun i => kernel_norm (coord y i)) n.
Proof. intros H. apply (dot_rsum y y n). exact H. Qed.
Lemma gauss_values G sch n (w : list R -> list R) ld : ga_dim G = n -> (ga_mean G = [] \/ length (ga_mean G) = n) -> ga_logDetCov G = Fin ld ->
  complete n (sch n) ->
  (if ga_idCov G then forall d, w d = d else forall d, length d = n -> chol_apply ch_solveL (ga_chol G) d = Ok (w d) /\ length (w d) = n) ->
  logdens (fun s => s = 1%nat) (gauss_density G sch) n
    (fun x v => v = - / 2 * dot (w (minus x (mean_of G n))) (w (minus x (mean_of G n))) - / 2 * (INR n * ln (2 * PI) + ld)).
Proof.
  intros Hd Hm Hld Hs Hw pts out [Hr Hc] Hin Hst. cbn [gauss_density d_LogDensityImpl]. unfold ga_LogDensityImpl. rewrite Hr, Hd, Nat.eqb_refl. cbn [negb].
  set (N := length (mx_cols pts)) in *. pose proof (mean_of_length G n Hm) as Hml. rewrite Forall_forall in Hc.
  rewrite (omap_ok _ (fun col => minus col (mean_of G n))) by (intros col Hcol; apply shift_minus; auto). cbn [obind].
  assert (E2 : (if ga_idCov G then Ok (map (fun col => minus col (mean_of G n)) (mx_cols pts)) else omap (chol_apply ch_solveL (ga_chol G)) (map (fun col => minus col (mean_of G n)) (mx_cols pts)))
     = Ok (map (fun col => w (minus col (mean_of G n))) (mx_cols pts)) /\ forall col, In col (mx_cols pts) -> length (w (minus col (mean_of G n))) = n).
  { destruct (ga_idCov G).
    - split; [f_equal; apply map_ext; intros; rewrite Hw; auto|]. intros col Hcol. rewrite Hw, minus_length; rewrite (Hc col Hcol); auto.
    - assert (Hlen : forall col, In col (mx_cols pts) -> length (minus col (mean_of G n)) = n) by (intros col Hcol; rewrite minus_length; rewrite (Hc col Hcol); auto).
      split; [|intros col Hcol; apply Hw; auto]. rewrite (omap_ok _ w).
      + rewrite map_map. reflexivity.
      + intros d Hd'. apply in_map_iff in Hd' as [col [<- Hcol]]. apply Hw. auto. }
  destruct E2 as [-> Hwl]. cbn [obind].
  set (diff := map (fun col => w (minus col (mean_of G n))) (mx_cols pts)).
  rewrite (rd_run_complete _ (fun i j => coord (nth j diff []) i) N kernel_norm (- / 2) n (sch n) Hs).
  2:{ intros r k Hrn Hk. assert (Hkd : (k < length diff)%nat) by (unfold diff; rewrite map_length; auto). unfold raw_get at 1. rewrite (nth_error_nth' diff [] Hkd). cbn [obind]. apply raw_get_nth.
      assert (In (nth k diff []) diff) as HI by (apply nth_In; auto). unfold diff in HI at 2. apply in_map_iff in HI as [col [E Hcol]]. rewrite <- E, Hwl; auto. }
  cbn [obind].
  destruct (v_write_raw_ok N out (map (fun k => rsum (fun r => kernel_norm (coord (nth k diff []) r)) n * - / 2) (seq 0 N)) Hin Hst ltac:(rewrite map_length, seq_length; auto)) as (v1 & E1 & O1 & En1).
  rewrite E1. cbn [obind]. rewrite Hld. cbn [dadd dscale].
  assert (Hin1 : inside N v1). { destruct O1 as (A1 & A2 & A3 & A4 & _), Hin as (B1 & B2 & B3). split; [congruence|]. split; [congruence|]. intros j Hj. unfold place. rewrite A1, A2, A4. apply B3. auto. }
  destruct (sub_const N v1 (Fin (/ 2 * (INR n * logtau + ld))) Hin1) as (v2 & E3 & O2 & En2). exists v2.
  exists (map (fun x => - / 2 * dot (w (minus x (mean_of G n))) (w (minus x (mean_of G n))) - / 2 * (INR n * ln (2 * PI) + ld)) (mx_cols pts)).
  split; [exact E3|]. split; [eapply only_entries_trans; eauto|]. split.
  - rewrite En2, En1, !map_map. apply (nth_ext _ _ NaN NaN); [rewrite !map_length, seq_length; auto|]. intros j Hj. rewrite map_length, seq_length in Hj.
    rewrite nth_map_seq by auto. pose (h := fun x => Fin (- / 2 * dot (w (minus x (mean_of G n))) (w (minus x (mean_of G n))) - / 2 * (INR n * ln (2 * PI) + ld))).
    fold h. rewrite (nth_indep _ NaN (h [])) by (rewrite map_length; auto). rewrite map_nth. unfold h, dsub, dneg, dadd. f_equal.
    assert (Ed : nth j diff [] = w (minus (nth j (mx_cols pts) []) (mean_of G n))).
    { unfold diff. pose (f := fun col => w (minus col (mean_of G n))). fold f. rewrite (nth_indep _ [] (f [])) by (rewrite map_length; auto). rewrite map_nth. reflexivity. }
    rewrite Ed. rewrite (dot_self_rsum _ n) by (apply Hwl, nth_In; auto). unfold logtau. ring.
  - clear. induction (mx_cols pts) as [|x l IH]; cbn [map]; constructor; auto.
Qed.
