(** Proofs about arrays in memory: conversions, matrix products and sums. *)
From Coq Require Import Reals List Arith Lia Lra.
From Verif Require Import Base SpecLayout MISetModel MISetOps DensityModel GaussModel GaussProofs LayoutModel.
Import ListNotations.
Local Open Scope nat_scope.

(** The arrays that views and Eigen objects stand for. *)
Definition of_view (v : view2) : array := MkArr (v2_rows v) (v2_cols v) (v2_addr v).
Definition of_emat (m : emat) : array := MkArr (e_rows m) (e_cols m) (e_addr m).
Definition of_tview (A : tview) : array := if t_tr A then transposed (of_view (t_view A)) else of_view (t_view A).
(** Views as Kokkos makes them: LayoutLeft and LayoutRight views, or parts of them, have stride 1 along
    one direction and do not overlap themselves. *)
Definition kokkos_view (v : view2) : Prop :=
  match v2_lay v with
  | LayoutLeft => v2_s0 v = 1 /\ v2_rows v <= v2_s1 v
  | LayoutRight => v2_s1 v = 1 /\ v2_cols v <= v2_s0 v
  | LayoutStride => True
  end.

Lemma kview_kokkos l d r c : kokkos_view (kview l d r c).
Proof. destruct l; cbn; lia. Qed.
Lemma to_mat dbg v : kokkos_view v -> exists e, KokkosToMat dbg v = Ok e /\ same_entries (of_view v) (of_emat e).
Proof.
  unfold kokkos_view, KokkosToMat. destruct v as [l d r c s0 s1]; destruct l; cbn [v2_lay v2_data v2_rows v2_cols v2_s0 v2_s1].
  - intros (-> & H). rewrite Nat.eqb_refl. cbn [orb negb]. rewrite andb_false_r. eexists. split; [reflexivity|].
    split; [reflexivity|]. split; [reflexivity|]. intros i j (Hi & Hj). cbn [of_view ar_rows ar_cols v2_rows] in *.
    cbn [of_view of_emat ar_at]. unfold v2_addr, e_addr. cbn [v2_data v2_s0 v2_s1 e_rowmajor e_data e_outer e_inner]. rewrite Nat.max_r by lia. lia.
  - intros (-> & H). rewrite Nat.eqb_refl, orb_true_r. cbn [negb]. rewrite andb_false_r. eexists. split; [reflexivity|].
    split; [reflexivity|]. split; [reflexivity|]. intros i j (Hi & Hj). cbn [of_view ar_rows ar_cols v2_cols] in *.
    cbn [of_view of_emat ar_at]. unfold v2_addr, e_addr. cbn [v2_data v2_s0 v2_s1 e_rowmajor e_data e_outer e_inner]. rewrite Nat.max_l by lia. lia.
  - intros _. eexists. split; [reflexivity|]. repeat split.
Qed.
Lemma raw_get_nth (mem : list R) p : p < length mem -> raw_get mem p = Ok (nth p mem 0%R).
Proof. intros H. unfold raw_get. rewrite (nth_error_nth' mem 0%R H). reflexivity. Qed.
Lemma in_positions r c p : In p (positions r c) <-> fst p < r /\ snd p < c.
Proof. unfold positions. destruct p as [i j]. rewrite in_prod_iff, !in_seq. cbn. lia. Qed.
Lemma nodup_prod {A B} (l : list A) (m : list B) : NoDup l -> NoDup m -> NoDup (list_prod l m).
Proof.
  induction l as [|a l IH]; intros Hl Hm; cbn; [constructor|]. inversion Hl as [|? ? Ha Hl']; subst.
  assert (NM : NoDup (map (fun y => (a, y)) m)).
  { clear IH. induction Hm as [|y m Hy Hm IHm]; cbn; constructor; auto. rewrite in_map_iff. intros (z & E & Hz). injection E as ->. contradiction. }
  revert NM. generalize (map (fun y => (a, y)) m) as q, (in_map_iff (fun y => (a, y)) m). intros q Hq NM.
  induction q as [|z q IHq]; cbn; auto. inversion NM as [|? ? Hz NM']; subst. constructor.
  - rewrite in_app_iff. intros [?|Hin]; [contradiction|]. destruct (proj1 (Hq z) (or_introl eq_refl)) as (y & <- & _).
    rewrite in_prod_iff in Hin. tauto.
  - clear Hz. assert (X : forall z', In z' q -> exists y, (a, y) = z').
    { intros z' Hz'. destruct (proj1 (Hq z') (or_intror Hz')) as (y & E & _). eauto. }
    clear Hq IHq NM. induction q as [|w q IHq]; cbn; auto. inversion NM' as [|? ? Hw NM'']; subst. constructor.
    + rewrite in_app_iff. intros [?|Hin]; [contradiction|]. destruct (X w (or_introl eq_refl)) as (y & <-). rewrite in_prod_iff in Hin. tauto.
    + apply IHq; auto. intros z' Hz'. apply X. right. exact Hz'.
Qed.
Lemma nodup_positions r c : NoDup (positions r c).
Proof. apply nodup_prod; apply seq_NoDup. Qed.

(** Writing values at addresses that are all different. *)
Lemma write_all {P T} (z : T) (addr : P -> nat) : forall (vals : list (P * T)) (mem : list T),
  (forall p x, In (p, x) vals -> addr p < length mem) -> NoDup (map (fun px => addr (fst px)) vals) ->
  exists mem', ofold (fun mem px => raw_set mem (addr (fst px)) (snd px)) vals mem = Ok mem' /\ length mem' = length mem /\
    (forall p x, In (p, x) vals -> nth (addr p) mem' z = x) /\
    (forall q, ~ In q (map (fun px => addr (fst px)) vals) -> nth q mem' z = nth q mem z).
Proof.
  induction vals as [|[p x] vals IH]; intros mem Hin Hnd; cbn [ofold].
  - exists mem. repeat split; auto. intros p x [].
  - cbn [fst snd]. unfold raw_set at 1. destruct (Nat.ltb_spec (addr p) (length mem)) as [H|H]; [|specialize (Hin p x (or_introl eq_refl)); lia].
    cbn [obind]. cbn [map fst] in Hnd. inversion Hnd as [|? ? H1 H2]; subst.
    destruct (IH (upd mem (addr p) x)) as (mem' & E & L & HV & HF).
    { intros p' x' Hp. rewrite upd_length. apply (Hin p' x'). right; auto. }
    { exact H2. }
    exists mem'. split; [exact E|]. rewrite upd_length in L. split; [exact L|]. split.
    + intros p' x' [Eq|Hp]; [|apply HV; auto]. injection Eq as <- <-. rewrite HF by exact H1. apply nth_upd_eq; auto.
    + intros q Hq. cbn [map fst In] in Hq. rewrite HF by tauto. apply nth_upd_neq. tauto.
Qed.

(** The addresses of the entries of an Eigen map of a view that does not overlap itself. *)
Lemma nodup_addr C eC : same_entries (of_view C) (of_emat eC) -> no_overlap (of_view C) ->
  NoDup (map (fun p : nat * nat => e_addr eC (fst p) (snd p)) (positions (v2_rows C) (v2_cols C))).
Proof.
  intros (_ & _ & HC) NC. set (PS := positions _ _).
  assert (X : forall l, (forall p, In p l -> In p PS) -> NoDup l -> NoDup (map (fun p : nat * nat => e_addr eC (fst p) (snd p)) l)).
  { induction l as [|a l IH]; intros Hs Hn; cbn; [constructor|]. inversion Hn as [|? ? h1 h2]; subst. constructor; [|apply IH; auto; intros p Hp; apply Hs; right; auto].
    rewrite in_map_iff. intros (p & Eq & Hp).
    assert (P1 : in_array (of_view C) (fst p) (snd p)) by (apply in_positions, Hs; right; auto).
    assert (P2 : in_array (of_view C) (fst a) (snd a)) by (apply in_positions, Hs; left; auto).
    pose proof (HC _ _ P1) as E1. pose proof (HC _ _ P2) as E2. cbn [of_view of_emat ar_at] in E1, E2. rewrite <- E1, <- E2 in Eq.
    destruct (NC _ _ _ _ P1 P2 Eq) as (F1 & F2). apply h1. replace a with p; auto. destruct p, a; cbn in *; congruence. }
  apply X; auto. apply nodup_positions.
Qed.

Section Gemm.
Variables (dbg : bool) (alpha beta : R) (A B : tview) (C : view2) (mem : list R).
Hypothesis (VA : kokkos_view (t_view A)) (VB : kokkos_view (t_view B)) (VC : kokkos_view C).
Hypothesis (D1 : ar_cols (of_tview A) = ar_rows (of_tview B)) (D2 : ar_rows (of_view C) = ar_rows (of_tview A)) (D3 : ar_cols (of_view C) = ar_cols (of_tview B)).
Hypothesis (IA : inside (length mem) (of_tview A)) (IB : inside (length mem) (of_tview B)) (IC : inside (length mem) (of_view C)).
Hypothesis (NC : no_overlap (of_view C)).

Lemma op_get_ok X e i k : same_entries (of_view (t_view X)) (of_emat e) -> inside (length mem) (of_tview X) -> in_array (of_tview X) i k ->
  op_get R mem X e i k = Ok (entry mem (of_tview X) i k).
Proof.
  intros (_ & _ & HE) HI H. pose proof (HI i k H) as L. unfold op_get, of_tview, entry in *. destruct (t_tr X).
  - cbn [ar_at transposed] in *. assert (H' : in_array (of_view (t_view X)) k i) by (destruct H; split; auto).
    pose proof (HE k i H') as E. cbn [ar_at of_view of_emat] in E, L |- *. rewrite <- E. apply raw_get_nth. exact L.
  - pose proof (HE i k H) as E. cbn [ar_at of_view of_emat] in E, L |- *. rewrite <- E. apply raw_get_nth. exact L.
Qed.
Lemma t_rows_of X : t_rows X = ar_rows (of_tview X).
Proof. unfold t_rows, of_tview. destruct (t_tr X); reflexivity. Qed.
Lemma t_cols_of X : t_cols X = ar_cols (of_tview X).
Proof. unfold t_cols, of_tview. destruct (t_tr X); reflexivity. Qed.
Definition gemm_value (i j : nat) : R :=
  (beta * entry mem (of_view C) i j + alpha * sum_to (ar_cols (of_tview A)) (fun k => entry mem (of_tview A) i k * entry mem (of_tview B) k j))%R.
Lemma gemm_entry_ok eA eB eC i j : same_entries (of_view (t_view A)) (of_emat eA) -> same_entries (of_view (t_view B)) (of_emat eB) ->
  same_entries (of_view C) (of_emat eC) -> in_array (of_view C) i j ->
  gemm_entry R 0%R Rplus Rmult mem alpha A B eA eB beta eC i j = Ok (gemm_value i j).
Proof.
  intros HA HB HC H. unfold gemm_entry, gemm_value.
  destruct HC as (_ & _ & HC). pose proof (HC i j H) as E. cbn [ar_at of_view of_emat] in E. rewrite <- E.
  rewrite raw_get_nth by (apply (IC i j H)). cbn [obind]. rewrite t_cols_of.
  destruct H as (Hi & Hj). rewrite D2 in Hi. rewrite D3 in Hj.
  assert (X : forall n, n <= ar_cols (of_tview A) ->
    ofold (fun s k => do a <- op_get R mem A eA i k; do b <- op_get R mem B eB k j; Ok (s + alpha * a * b)%R) (seq 0 n) 0%R =
    Ok (alpha * sum_to n (fun k => entry mem (of_tview A) i k * entry mem (of_tview B) k j))%R).
  { induction n as [|n IH]; intros Hn; [cbn; f_equal; ring|]. rewrite seq_S.
    assert (OA : forall (f : R -> nat -> outcome R) l a s, ofold f (l ++ [a]) s = do s' <- ofold f l s; f s' a).
    { intros f l. induction l as [|h t IHl]; intros a s; cbn [ofold app obind]; [destruct (f s a); reflexivity|]. destruct (f s h); cbn [obind]; auto. }
    rewrite OA, IH by lia. cbn [obind Nat.add]. rewrite (op_get_ok A eA i n HA IA) by (split; lia). cbn [obind].
    rewrite (op_get_ok B eB n j HB IB) by (split; lia). cbn [obind sum_to]. f_equal. cbn [Nat.add]. ring. }
  rewrite X by lia. cbn [obind]. reflexivity.
Qed.
Lemma dgemm_ok : exists mem', dgemm R 0%R Rplus Rmult dbg alpha A B beta C mem = Ok mem' /\ length mem' = length mem /\
  (forall i j, in_array (of_view C) i j -> entry mem' (of_view C) i j = gemm_value i j) /\
  (forall q, ~ addressed (of_view C) q -> nth q mem' 0%R = nth q mem 0%R).
Proof.
  unfold dgemm. destruct (to_mat dbg C VC) as (eC & -> & HC). destruct (to_mat dbg _ VB) as (eB & -> & HB). destruct (to_mat dbg _ VA) as (eA & -> & HA). cbn [obind].
  rewrite !t_rows_of, !t_cols_of. rewrite D1, Nat.eqb_refl. change (v2_rows C) with (ar_rows (of_view C)). change (v2_cols C) with (ar_cols (of_view C)).
  rewrite D2, D3, !Nat.eqb_refl. cbn [andb].
  rewrite (GaussProofs.omap_ok _ (fun p => (p, gemm_value (fst p) (snd p)))).
  2:{ intros p Hp. apply in_positions in Hp. rewrite (gemm_entry_ok eA eB eC) by (auto; split; rewrite ?D2, ?D3; tauto). reflexivity. }
  cbn [obind]. set (PS := positions _ _).
  assert (Hmem : forall p, In p PS -> in_array (of_view C) (fst p) (snd p)).
  { intros p Hp. apply in_positions in Hp. split; rewrite ?D2, ?D3; tauto. }
  assert (HadR : forall p, In p PS -> e_addr eC (fst p) (snd p) = v2_addr C (fst p) (snd p)).
  { intros p Hp. destruct HC as (_ & _ & HC). symmetry. apply (HC _ _ (Hmem p Hp)). }
  destruct (write_all 0%R (fun p : nat * nat => e_addr eC (fst p) (snd p)) (map (fun p => (p, gemm_value (fst p) (snd p))) PS) mem) as (mem' & E & L & HV & HF).
  - intros p x Hp. apply in_map_iff in Hp. destruct Hp as (p' & Eq & Hp). injection Eq as -> _. rewrite HadR by auto. apply (IC _ _ (Hmem p Hp)).
  - rewrite map_map. cbn [fst]. unfold PS. rewrite <- D2, <- D3. apply (nodup_addr C eC HC NC).
  - exists mem'. split; [exact E|]. split; [exact L|]. split.
    + intros i j Hij. assert (HI : In (i, j) PS) by (apply in_positions; destruct Hij; rewrite D2, D3 in *; cbn; split; auto).
      unfold entry. cbn [ar_at of_view]. pose proof (HadR (i, j) HI) as EA. cbn [fst snd] in EA. rewrite <- EA.
      apply (HV (i, j)). apply in_map_iff. exists (i, j). auto.
    + intros q Hq. apply HF. rewrite map_map. cbn [fst]. rewrite in_map_iff. intros (p & <- & Hp). apply Hq. exists (fst p), (snd p). split; [apply Hmem; auto|].
      cbn. symmetry. apply HadR. auto.
Qed.
End Gemm.

(** Products over any arithmetic: what the output held before takes part. *)
Section AnyGemm.
Variables (T : Type) (zero : T) (add mul : T -> T -> T).
Lemma raw_get_any (mem : list T) p : p < length mem -> raw_get mem p = Ok (nth p mem zero).
Proof. intros H. unfold raw_get. rewrite (nth_error_nth' mem zero H). reflexivity. Qed.
Lemma op_get_any mem X e i k : same_entries (of_view (t_view X)) (of_emat e) -> inside (length mem) (of_tview X) -> in_array (of_tview X) i k ->
  exists a, op_get T mem X e i k = Ok a.
Proof.
  intros (_ & _ & HE) HI H. pose proof (HI i k H) as L. unfold op_get, of_tview in *. destruct (t_tr X).
  - assert (H' : in_array (of_view (t_view X)) k i) by (destruct H; split; auto).
    pose proof (HE k i H') as E. cbn [ar_at of_view of_emat transposed] in E, L |- *. rewrite <- E, raw_get_any by exact L. eauto.
  - pose proof (HE i k H) as E. cbn [ar_at of_view of_emat] in E, L |- *. rewrite <- E, raw_get_any by exact L. eauto.
Qed.
Lemma gemm_any dbg alpha beta A B C (mem : list T) : kokkos_view (t_view A) -> kokkos_view (t_view B) -> kokkos_view C ->
  ar_cols (of_tview A) = ar_rows (of_tview B) -> ar_rows (of_view C) = ar_rows (of_tview A) -> ar_cols (of_view C) = ar_cols (of_tview B) ->
  inside (length mem) (of_tview A) -> inside (length mem) (of_tview B) -> inside (length mem) (of_view C) -> no_overlap (of_view C) ->
  exists mem', dgemm T zero add mul dbg alpha A B beta C mem = Ok mem' /\ length mem' = length mem /\
    forall i j, in_array (of_view C) i j -> exists s, nth (v2_addr C i j) mem' zero = add (mul beta (nth (v2_addr C i j) mem zero)) s.
Proof.
  intros VA VB VC D1 D2 D3 IA IB IC NC.
  unfold dgemm. destruct (to_mat dbg C VC) as (eC & -> & HC). destruct (to_mat dbg _ VB) as (eB & -> & HB). destruct (to_mat dbg _ VA) as (eA & -> & HA). cbn [obind].
  rewrite !t_rows_of, !t_cols_of, D1, Nat.eqb_refl. change (v2_rows C) with (ar_rows (of_view C)). change (v2_cols C) with (ar_cols (of_view C)).
  rewrite D2, D3, !Nat.eqb_refl. cbn [andb]. rewrite <- D2, <- D3.
  assert (ENT : forall p, In p (positions (ar_rows (of_view C)) (ar_cols (of_view C))) ->
    exists s, gemm_entry T zero add mul mem alpha A B eA eB beta eC (fst p) (snd p) = Ok (add (mul beta (nth (v2_addr C (fst p) (snd p)) mem zero)) s)).
  { intros [i j] Hp. apply in_positions in Hp. cbn [fst snd] in *. unfold gemm_entry.
    destruct HC as (_ & _ & HC). pose proof (HC i j Hp) as E. cbn [ar_at of_view of_emat] in E. rewrite <- E.
    rewrite raw_get_any by (apply (IC i j Hp)). cbn [obind]. rewrite t_cols_of.
    assert (X : forall l s, (forall k, In k l -> k < ar_cols (of_tview A)) -> exists s',
      ofold (fun s k => do a <- op_get T mem A eA i k; do b <- op_get T mem B eB k j; Ok (add s (mul (mul alpha a) b))) l s = Ok s').
    { induction l as [|k l IHl]; intros s Hl; cbn [ofold]; eauto. assert (Hk : k < ar_cols (of_tview A)) by (apply Hl; left; auto). destruct Hp as (Hi & Hj).
      destruct (op_get_any mem A eA i k HA IA) as (a & ->); [split; lia|]. destruct (op_get_any mem B eB k j HB IB) as (b & ->); [split; lia|].
      cbn [obind]. apply IHl. intros k' Hk'. apply Hl. right; auto. }
    destruct (X (seq 0 (ar_cols (of_tview A))) zero) as (s & ->); [intros k Hk; apply in_seq in Hk; lia|]. cbn [obind]. eauto. }
  assert (OM : forall l, (forall p, In p l -> In p (positions (ar_rows (of_view C)) (ar_cols (of_view C)))) ->
    exists vals, GaussModel.omap (fun p => do x <- gemm_entry T zero add mul mem alpha A B eA eB beta eC (fst p) (snd p); Ok (p, x)) l = Ok vals /\ map fst vals = l /\
      forall p x, In (p, x) vals -> exists s, x = add (mul beta (nth (v2_addr C (fst p) (snd p)) mem zero)) s).
  { induction l as [|p l IHl]; intros Hl; [exists []; repeat split; intros ? ? []|]. cbn [GaussModel.omap].
    destruct (ENT p (Hl p (or_introl eq_refl))) as (s & ->). cbn [obind]. destruct IHl as (vals & -> & F & HS); [intros q Hq; apply Hl; right; auto|]. cbn [obind].
    eexists. split; [reflexivity|]. split; [cbn; rewrite F; reflexivity|]. intros q x [Eq|Hq]; [injection Eq as <- <-; eauto|eapply HS; eauto]. }
  destruct (OM _ (fun p H => H)) as (vals & -> & F & HS). cbn [obind].
  destruct (write_all zero (fun p : nat * nat => e_addr eC (fst p) (snd p)) vals mem) as (mem' & E & L & HV & _).
  - intros p x Hp. assert (Hin : In p (map fst vals)) by (apply in_map_iff; exists (p, x); auto). rewrite F in Hin. apply in_positions in Hin.
    destruct HC as (_ & _ & HC). pose proof (HC _ _ Hin) as EA. cbn [of_emat ar_at] in EA. rewrite <- EA. apply (IC _ _ Hin).
  - rewrite <- (map_map fst (fun p : nat * nat => e_addr eC (fst p) (snd p))), F. apply (nodup_addr C eC HC NC).
  - exists mem'. split; [exact E|]. split; [exact L|]. intros i j Hij. assert (Hin : In (i, j) (map fst vals)) by (rewrite F; apply in_positions; exact Hij).
    apply in_map_iff in Hin. destruct Hin as ([p x] & Ep & Hin). cbn [fst] in Ep. subst p. destruct (HS _ _ Hin) as (s & Ex). exists s.
    pose proof (HV _ _ Hin) as HVx. cbn [fst snd] in HVx, Ex. destruct HC as (_ & _ & HC). pose proof (HC _ _ Hij) as EA. cbn [of_view of_emat ar_at] in EA. rewrite EA at 1. rewrite HVx. exact Ex.
Qed.
End AnyGemm.

(** * Sums in place, any schedule *)
Section Adding.
Variables (x y : view2) (mem0 : list R).
Notation arx := (of_view x).
Notation ary := (of_view y).
Hypothesis (DR : v2_rows y = v2_rows x) (DC : v2_cols y = v2_cols x).
Hypothesis (IX : inside (length mem0) arx) (IY : inside (length mem0) ary) (NX : no_overlap arx).
Hypothesis (HXY : apart arx ary \/ same_entries arx ary).

Definition add_inv (st : list R * (nat * nat -> addpc R)) : Prop :=
  length (fst st) = length mem0 /\
  (forall q, ~ addressed arx q -> nth q (fst st) 0%R = nth q mem0 0%R) /\
  (forall i j, in_array arx i j ->
     match snd st (i, j) with
     | AStart => entry (fst st) arx i j = entry mem0 arx i j
     | AGotX a => entry (fst st) arx i j = entry mem0 arx i j /\ a = entry mem0 arx i j
     | AGotXY a b => entry (fst st) arx i j = entry mem0 arx i j /\ a = entry mem0 arx i j /\ b = entry mem0 ary i j
     | ADone => entry (fst st) arx i j = (entry mem0 arx i j + entry mem0 ary i j)%R
     end).
Definition pc_rank {T} (q : addpc T) : nat := match q with AStart => 3 | AGotX _ => 2 | AGotXY _ _ => 1 | ADone => 0 end.
Lemma y_read st i j : add_inv st -> in_array arx i j -> (forall a, snd st (i, j) = AGotX R a -> entry (fst st) ary i j = entry mem0 ary i j).
Proof.
  intros (L & HF & HI) H a Ea. destruct HXY as [HA|(_ & _ & HE)].
  - unfold entry. apply HF. intros (i' & j' & H' & E). apply (HA i' j' i j H'); [destruct H; split; cbn in *; lia|exact E].
  - specialize (HI i j H). rewrite Ea in HI. unfold entry in *. rewrite <- (HE i j H). tauto.
Qed.
Lemma add_step_ok st i j : add_inv st -> in_array arx i j ->
  exists st', add_step R Rplus x y st (i, j) = Ok st' /\ add_inv st' /\
    pc_rank (snd st' (i, j)) = pc_rank (snd st (i, j)) - 1 /\ (forall p, p <> (i, j) -> snd st' p = snd st p).
Proof.
  intros Inv H. pose proof Inv as (L & HF & HI). destruct st as [mem pc]. cbn [fst snd] in *. unfold add_step. cbn [fst snd].
  pose proof (HI i j H) as Hij. assert (OUT : forall p q, p <> (i, j) -> (if (fst p =? i) && (snd p =? j) then q else pc p) = pc p).
  { intros [a b] q Hp. cbn. destruct (Nat.eqb_spec a i) as [->|]; cbn; auto. destruct (Nat.eqb_spec b j) as [->|]; auto. congruence. }
  assert (AX : v2_addr x i j < length mem) by (rewrite L; apply (IX i j H)).
  assert (AY : v2_addr y i j < length mem) by (rewrite L; apply (IY i j); destruct H; split; cbn in *; lia).
  destruct (pc (i, j)) as [|a|a b|] eqn:Epc.
  - rewrite raw_get_nth by exact AX. cbn [obind]. eexists. split; [reflexivity|]. cbn [fst snd]. split; [|split; [rewrite !Nat.eqb_refl; reflexivity|intros p Hp; apply OUT; auto]].
    split; [exact L|]. split; [exact HF|]. cbn [fst snd]. intros i' j' H'. destruct (Nat.eqb_spec i' i) as [->|]; cbn [andb]; [|apply HI; auto].
    destruct (Nat.eqb_spec j' j) as [->|]; [|apply HI; auto]. split; auto.
  - rewrite raw_get_nth by exact AY. cbn [obind]. eexists. split; [reflexivity|]. cbn [fst snd]. split; [|split; [rewrite !Nat.eqb_refl; reflexivity|intros p Hp; apply OUT; auto]].
    split; [exact L|]. split; [exact HF|]. cbn [fst snd]. intros i' j' H'. destruct (Nat.eqb_spec i' i) as [->|]; cbn [andb]; [|apply HI; auto].
    destruct (Nat.eqb_spec j' j) as [->|]; [|apply HI; auto]. destruct Hij as (E1 & E2). split; [auto|]. split; [auto|].
    exact (y_read (mem, pc) i j Inv H a Epc).
  - unfold raw_set. destruct (Nat.ltb_spec (v2_addr x i j) (length mem)) as [_|]; [|lia]. cbn [obind]. eexists. split; [reflexivity|]. cbn [fst snd].
    split; [|split; [rewrite !Nat.eqb_refl; reflexivity|intros p Hp; apply OUT; auto]].
    split; [cbn; rewrite upd_length; exact L|]. split.
    + cbn [fst]. intros q Hq. rewrite nth_upd_neq; [apply HF; auto|]. intros E. apply Hq. exists i, j. split; auto.
    + cbn [fst snd]. intros i' j' H'. destruct (Nat.eqb_spec i' i) as [->|Ni]; cbn [andb].
      * destruct (Nat.eqb_spec j' j) as [->|Nj].
        -- unfold entry at 1. cbn [ar_at of_view]. rewrite nth_upd_eq by exact AX. destruct Hij as (_ & -> & ->). reflexivity.
        -- assert (E : entry (upd mem (v2_addr x i j) (a + b)%R) arx i j' = entry mem arx i j').
           { unfold entry. cbn [ar_at of_view]. apply nth_upd_neq. intros E. destruct (NX i j i j' H H' E) as (_ & ?). congruence. }
           rewrite E. apply HI; auto.
      * assert (E : entry (upd mem (v2_addr x i j) (a + b)%R) arx i' j' = entry mem arx i' j').
        { unfold entry. cbn [ar_at of_view]. apply nth_upd_neq. intros E. destruct (NX i j i' j' H H' E) as (? & _). congruence. }
        rewrite E. apply HI; auto.
  - exists (mem, pc). split; [reflexivity|]. cbn [snd]. rewrite Epc. split; [exact Inv|]. split; [reflexivity|]. auto.
Qed.
Fixpoint turns (p : nat * nat) (s : list (nat * nat)) : nat :=
  match s with [] => 0 | q :: s => (if ((fst q =? fst p) && (snd q =? snd p))%bool then 1 else 0) + turns p s end.
Lemma add_run : forall s st, add_inv st -> (forall p, In p s -> in_array arx (fst p) (snd p)) ->
  exists st', ofold (add_step R Rplus x y) s st = Ok st' /\ add_inv st' /\
    forall p, pc_rank (snd st' p) = pc_rank (snd st p) - turns p s.
Proof.
  induction s as [|[i j] s IH]; intros st Inv Hs; cbn [ofold turns].
  - exists st. repeat split; try apply Inv. intros p. lia.
  - destruct (add_step_ok st i j Inv (Hs (i, j) (or_introl eq_refl))) as (st1 & -> & Inv1 & R1 & O1). cbn [obind].
    destruct (IH st1 Inv1) as (st2 & E & Inv2 & R2); [intros p Hp; apply Hs; right; auto|].
    exists st2. split; [exact E|]. split; [exact Inv2|]. intros [a b]. rewrite R2. cbn [fst snd].
    destruct (Nat.eqb_spec i a) as [->|Na]; cbn [andb]; [destruct (Nat.eqb_spec j b) as [->|Nb]; [rewrite R1; lia|]|]; rewrite O1 by congruence; lia.
Qed.
Lemma add_all s : (forall p, In p s -> in_array arx (fst p) (snd p)) -> (forall i j, in_array arx i j -> 3 <= turns (i, j) s) ->
  exists mem pc, AddInPlace R Rplus x y s mem0 = Ok (mem, pc) /\ length mem = length mem0 /\
    (forall i j, in_array arx i j -> pc (i, j) = ADone /\ entry mem arx i j = (entry mem0 arx i j + entry mem0 ary i j)%R) /\
    (forall q, ~ addressed arx q -> nth q mem 0%R = nth q mem0 0%R).
Proof.
  intros Hs Ht. assert (I0 : add_inv (mem0, fun _ => AStart)) by (repeat split; auto).
  destruct (add_run s _ I0 Hs) as ([mem pc] & E & (L & HF & HI) & HR). exists mem, pc. split; [exact E|]. split; [exact L|]. split; [|exact HF].
  intros i j H. pose proof (HR (i, j)) as R. cbn [snd pc_rank] in R. pose proof (Ht i j H). specialize (HI i j H). cbn [fst snd] in HI.
  destruct (pc (i, j)); cbn [pc_rank] in R; try lia. auto.
Qed.
End Adding.

(** * Eigen overloads *)
(** A row-major matrix whose rows follow each other without gaps. *)
Definition packed (e : emat) : Prop := e_rowmajor e = true /\ e_inner e = 1 /\ (e_outer e = e_cols e \/ e_rows e <= 1).
Lemma const_row_same e : packed e -> same_entries (of_emat e) (of_view (ConstRowMatToKokkos e)).
Proof.
  intros (R & I & O). repeat split. intros i j (Hi & Hj). cbn in Hi, Hj. cbn [of_emat of_view ar_at]. unfold e_addr, v2_addr. rewrite R, I. cbn.
  destruct O as [->|O]; [lia|]. replace i with 0 by lia. lia.
Qed.
Lemma view_matrix_ok (mem : list R) v : inside (length mem) (of_view v) ->
  view_matrix mem v = Ok (MkMat (v2_rows v) (shown mem (of_view v)) (v2_s0 v) (v2_s1 v)).
Proof.
  intros HI. unfold view_matrix, view_cols.
  rewrite (GaussProofs.omap_ok _ (fun j => map (fun i => entry mem (of_view v) i j) (seq 0 (v2_rows v)))); [reflexivity|].
  intros j Hj. apply in_seq in Hj. rewrite (GaussProofs.omap_ok _ (fun i => entry mem (of_view v) i j)); [reflexivity|].
  intros i Hi. apply in_seq in Hi. apply raw_get_nth. apply (HI i j). split; cbn; lia.
Qed.
Lemma shown_same mem a b : same_entries a b -> shown mem a = shown mem b.
Proof.
  intros (HR & HC & HE). unfold shown. rewrite <- HR, <- HC. apply map_ext_in. intros j Hj. apply in_seq in Hj. apply map_ext_in. intros i Hi. apply in_seq in Hi.
  unfold entry. rewrite (HE i j); auto. split; lia.
Qed.
Lemma inside_same n a b : same_entries a b -> inside n a -> inside n b.
Proof. intros (HR & HC & HE) HI i j (Hi & Hj). assert (H : in_array a i j) by (split; lia). rewrite <- HE by auto. apply HI; auto. Qed.
Lemma packed_view mem e : packed e -> inside (length mem) (of_emat e) ->
  view_matrix mem (ConstRowMatToKokkos e) = Ok (right_mat (e_rows e) (shown mem (of_emat e))).
Proof.
  intros P I. pose proof (const_row_same e P) as S. rewrite view_matrix_ok by (apply (inside_same _ _ _ S I)). rewrite <- (shown_same mem _ _ S).
  unfold right_mat, shown. rewrite map_length, seq_length. reflexivity.
Qed.
Lemma each_length f : forall a o y, each f a o = Ok y -> length y = length o.
Proof. induction a as [|p a IH]; intros [|q o] y; cbn [each]; try discriminate; try (intros E; injection E as <-; reflexivity). destruct (f p q); try discriminate. cbn [obind]. destruct (each f a o) eqn:E; try discriminate. cbn [obind]. intros X; injection X as <-. cbn. erewrite IH; eauto. Qed.
Lemma each2_length f : forall a b o y, each2 f a b o = Ok y -> length y = length o.
Proof. induction a as [|p a IH]; intros [|r b] [|q o] y; cbn [each2]; try discriminate; try (intros E; injection E as <-; reflexivity). destruct (f p r q); try discriminate. cbn [obind]. destruct (each2 f a b o) eqn:E; try discriminate. cbn [obind]. intros X; injection X as <-. cbn. erewrite IH; eauto. Qed.
Lemma as_right_alloc r n y : length y = n -> as_right (same_layout (alloc_mat r n) y) = Ok y.
Proof. intros L. unfold as_right, alloc_mat, right_mat, same_layout. cbn. rewrite repeat_length, L, Nat.eqb_refl. reflexivity. Qed.
