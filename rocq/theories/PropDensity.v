(** Properties C48 and C49: pullback and pushforward densities. *)
From Coq Require Import Reals List Lia Lra.
From Coquelicot Require Import Coquelicot.
From Verif Require Import Base SpecExpansion SpecMaps SpecDensity ExpansionModel ExpansionProofs MapsModel LeafModel MapsContract MapsProofs TruthProofs LeafProofs
  DetProofs DensityModel DensityProofs SpecGauss DetMul CholProofs ReduceModel GaussModel GaussProofs PropGauss SpecFactory FactoryModel PropBuild.
Import ListNotations.
Local Open Scope R_scope.

(** LogDensity of [D] is [lp] on vectors of length n, for outputs of the admitted strides. *)
Definition is_dens (st : nat -> Prop) (D : density) (n : nat) (lp : list R -> R) : Prop := logdens st D n (fun x v => v = lp x).
Definition any_stride (s : nat) : Prop := True.
(** The map [K] with coefficients [c]. *)
Definition with_coeffs (K : cmap) (c : list R) : mapobj := MkObj K (Some c).

Lemma check_ok K P c : dims K P -> length c = p_nc P -> o_check (with_coeffs K c) = true.
Proof.
  intros (_ & _ & H) L. unfold o_check, with_coeffs. cbn [o_map o_coeffs]. rewrite H, L, Nat.eqb_refl. apply orb_true_r.
Qed.
Lemma Evaluate_obj K P c pts : imp_eval K P -> length c = p_nc P -> is_mat (p_in P) pts ->
  o_Evaluate (with_coeffs K c) pts = Ok (right_mat (p_out P) (map (p_eval P c) (mx_cols pts))) /\
  is_mat (p_out P) (right_mat (p_out P) (map (p_eval P c) (mx_cols pts))).
Proof.
  intros (Hd & H) L Hp. split.
  - unfold o_Evaluate. rewrite (check_ok K P) by auto. cbn [negb with_coeffs o_map o_c o_coeffs].
    destruct Hd as (D1 & D2 & D3). rewrite D2. rewrite (each_ok _ (p_eval P c) (p_in P) (p_out P)).
    + cbn [obind]. unfold same_layout, alloc_mat, right_mat. cbn. rewrite repeat_length, map_length. reflexivity.
    + intros x o Lx Lo. apply H; auto.
    + apply Hp.
    + apply alloc_cols.
    + apply alloc_len.
  - split; [reflexivity|]. cbn [right_mat mx_cols]. eapply map_is_mat; [exact Hp| |reflexivity]. intros x Lx.
    apply (H c x (zeros (p_out P))); auto. apply repeat_length.
Qed.
Lemma LogDeterminant_obj K P c pts : imp_logdet K P -> length c = p_nc P -> is_mat (p_in P) pts ->
  o_LogDeterminant (with_coeffs K c) pts = Ok (map (fun x => Fin (p_logdet P c x)) (mx_cols pts)).
Proof.
  intros (Hd & H) L Hp. unfold o_LogDeterminant. rewrite (check_ok K P) by auto. cbn [negb with_coeffs o_map o_c o_coeffs].
  apply (each_logdet_ok _ _ (p_in P)); [|apply Hp]. intros x o Lx. apply H; auto.
Qed.
Lemma Forall2_map_l {A B C} (f : A -> B) (V : B -> C -> Prop) l vs : Forall2 V (map f l) vs <-> Forall2 (fun x v => V (f x) v) l vs.
Proof.
  split.
  - revert vs. induction l as [|a l IH]; intros vs H; inversion H; subst; constructor; auto.
  - induction 1; constructor; auto.
Qed.
Lemma Forall2_length' {A B} (V : A -> B -> Prop) l vs : Forall2 V l vs -> length vs = length l.
Proof. induction 1; cbn; auto. Qed.
(** Adding or subtracting log determinants to finite values. *)
Lemma combine_fin (f : dbl -> dbl -> dbl) (h : R -> R -> R) (g : list R -> R) (V : list R -> R -> Prop) :
  (forall a b, f (Fin a) (Fin b) = Fin (h a b)) -> forall l vs, Forall2 V l vs ->
  exists ws, map (fun p => f (fst p) (snd p)) (combine (map Fin vs) (map (fun x => Fin (g x)) l)) = map Fin ws /\
    Forall2 (fun x v => exists w, V x w /\ v = h w (g x)) l ws.
Proof.
  intros Hf l vs H. induction H as [|x v l vs Hv H (ws & E & F)]; [exists []; split; auto|].
  exists (h v (g x) :: ws). cbn [map combine fst snd]. rewrite Hf, E. split; auto. constructor; eauto.
Qed.

Lemma pullback_rel st K P c D V : imp_eval K P -> imp_logdet K P -> length c = p_nc P -> d_dim D = p_out P ->
  logdens st D (p_out P) V ->
  exists PB, PullbackDensity (with_coeffs K c) D = Ok PB /\ d_dim PB = p_out P /\
    logdens st PB (p_in P) (fun x v => exists w, V (p_eval P c x) w /\ v = w + p_logdet P c x).
Proof.
  intros HE HL Lc Hdim HD. unfold PullbackDensity. cbn [with_coeffs o_map]. assert (m_out K = p_out P) as -> by apply HE.
  rewrite Hdim, Nat.eqb_refl. cbn [negb]. eexists. split; [reflexivity|]. split; [reflexivity|].
  intros pts out Hp Hi Hs. cbn [d_LogDensityImpl]. unfold pb_LogDensityImpl. fold (with_coeffs K c).
  destruct (Evaluate_obj K P c pts HE Lc Hp) as (-> & HM). cbn [obind].
  destruct (HD _ out HM) as (o1 & vs & E1 & O1 & N1 & F1); auto.
  { cbn [right_mat mx_cols]. rewrite map_length. auto. }
  rewrite E1. cbn [obind]. rewrite (LogDeterminant_obj K P) by auto. cbn [obind].
  destruct (v_update_ok dadd (length (mx_cols pts)) o1 (map (fun x => Fin (p_logdet P c x)) (mx_cols pts))) as (o2 & E2 & O2 & N2).
  { eapply only_entries_inside; eauto. } { apply map_length. }
  cbn [right_mat mx_cols] in F1. apply (proj1 (Forall2_map_l (p_eval P c) V _ _)) in F1.
  destruct (combine_fin dadd Rplus (p_logdet P c) _ (fun a b => eq_refl) _ _ F1) as (ws & E3 & F3).
  exists o2, ws. split; [auto|]. split; [eapply only_entries_trans; eauto|]. split; [|exact F3]. rewrite N2, N1. exact E3.
Qed.
Lemma logdens_ext st D n (V W : list R -> R -> Prop) : (forall x v, length x = n -> V x v -> W x v) -> logdens st D n V -> logdens st D n W.
Proof.
  intros HVW H pts out Hp Hi Hs. destruct (H pts out Hp Hi Hs) as (o & vs & E & O & N & F). exists o, vs. split; auto. split; auto. split; auto.
  destruct Hp as [_ Hp]. clear - HVW F Hp. induction F; constructor; inversion Hp; subst; auto.
Qed.

(** The pullback of [lp] by [P]: log density lp(T(x)) + log|det dT(x)|, the log determinant being the
    logarithm of the absolute determinant of the Jacobian in the trailing inputs. *)
Theorem C48_pullback : forall st K P c D lp, imp_eval K P -> imp_logdet K P -> length c = p_nc P -> d_dim D = p_out P ->
  is_dens st D (p_out P) lp ->
  exists PB, PullbackDensity (with_coeffs K c) D = Ok PB /\ d_dim PB = p_out P /\ is_dens st PB (p_in P) (pullback P c lp) /\
    (true_logdet P -> forall x, length x = p_in P ->
       exists J, trailing_jacobian P c x J /\ det (p_out P) J <> 0 /\ pullback P c lp x = lp (p_eval P c x) + ln (Rabs (det (p_out P) J))).
Proof.
  intros st K P c D lp HE HL Lc Hdim HD. destruct (pullback_rel st K P c D _ HE HL Lc Hdim HD) as (PB & E & Ed & H).
  exists PB. split; [auto|]. split; [auto|]. split.
  - eapply logdens_ext; [|exact H]. cbn. intros x v _ (w & -> & ->). reflexivity.
  - intros HT x Lx. destruct (HT c x Lc Lx) as (J & H1 & H2 & H3). exists J. split; auto. split; auto. unfold pullback. rewrite H3. reflexivity.
Qed.
Print Assumptions C48_pullback.

(** Where the map is degenerate, so that its log determinant is log 0 ([None]), the log density of the
    pullback is minus infinity; the other points of the batch are not affected. *)
Theorem C48_degenerate : forall st K P c D lp (ld : list R -> option R), imp_eval K P -> length c = p_nc P -> d_dim D = p_out P ->
  is_dens st D (p_out P) lp -> st 1%nat -> (forall x out, length x = p_in P -> m_logdet K c x out = Ok (ld x)) ->
  exists PB, PullbackDensity (with_coeffs K c) D = Ok PB /\ forall pts, is_mat (p_in P) pts ->
    d_LogDensity PB pts = Ok (map (fun x => match ld x with Some l => Fin (lp (p_eval P c x) + l) | None => MInf end) (mx_cols pts)).
Proof.
  intros st K P c D lp ld HE Lc Hdim HD H1 HL. unfold PullbackDensity. cbn [with_coeffs o_map]. assert (m_out K = p_out P) as -> by apply HE.
  rewrite Hdim, Nat.eqb_refl. cbn [negb]. eexists. split; [reflexivity|]. intros pts Hp. unfold d_LogDensity. cbn [d_LogDensityImpl]. unfold pb_LogDensityImpl. fold (with_coeffs K c).
  destruct (Evaluate_obj K P c pts HE Lc Hp) as (-> & HM). cbn [obind]. set (out := alloc_vec _).
  assert (Hi : inside (length (mx_cols pts)) out) by apply alloc_inside.
  destruct (HD _ out HM) as (o1 & vs & E1 & O1 & N1 & F1); auto.
  { cbn [right_mat mx_cols]. rewrite map_length. auto. }
  rewrite E1. cbn [obind]. assert (EL : o_LogDeterminant (with_coeffs K c) pts = Ok (map (fun x => of_logdet (ld x)) (mx_cols pts))).
  { unfold o_LogDeterminant. rewrite (check_ok K P) by (try apply HE; auto). cbn [negb with_coeffs o_map o_c o_coeffs]. destruct Hp as [_ Hp]. clear - HL Hp. induction (mx_cols pts) as [|p l IH]; auto.
    inversion Hp; subst. cbn [each_logdet map]. rewrite HL by auto. cbn [obind]. rewrite IH by auto. reflexivity. }
  rewrite EL. cbn [obind]. destruct (v_update_ok dadd (length (mx_cols pts)) o1 (map (fun x => of_logdet (ld x)) (mx_cols pts))) as (o2 & E2 & O2 & N2).
  { eapply only_entries_inside; eauto. } { apply map_length. }
  rewrite E2. cbn [obind]. f_equal. pose proof (only_entries_trans _ _ _ O1 O2) as (A1 & A2 & A3 & A4 & _). cbn in A1, A2, A3, A4. rewrite repeat_length in A4.
  transitivity (entries o2).
  { unfold entries, place. rewrite A1, A2, A3, <- A4. apply (nth_ext _ _ NaN NaN); [rewrite map_length, seq_length; auto|]. intros j Hj. rewrite nth_map_seq by auto. f_equal. lia. }
  rewrite N2, N1. cbn [right_mat mx_cols] in F1. apply (proj1 (Forall2_map_l (p_eval P c) _ _ _)) in F1. clear - F1. induction F1 as [|x v l vs -> F IH]; [reflexivity|].
  cbn [map combine fst snd]. rewrite IH. f_equal. destruct (ld x); reflexivity.
Qed.
Print Assumptions C48_degenerate.

Lemma pushforward_rel st K P c D V tol : imp_inv 0 tol K P -> imp_logdet K P -> length c = p_nc P -> p_in P = p_out P -> d_dim D = p_out P ->
  logdens st D (p_out P) V ->
  exists PF, PushforwardDensity (with_coeffs K c) D = Ok PF /\ d_dim PF = p_out P /\
    logdens st PF (p_out P) (fun y v => exists x w, length x = p_out P /\ close tol (p_eval P c x) y /\ V x w /\ v = w - p_logdet P c x).
Proof.
  intros HI HL Lc Hio Hdim HD. unfold PushforwardDensity. cbn [with_coeffs o_map].
  assert (m_in K = p_in P) as -> by apply HI. assert (m_out K = p_out P) as -> by apply HI.
  rewrite Hdim, Hio, Nat.eqb_refl. cbn [negb]. eexists. split; [reflexivity|]. split; [reflexivity|].
  intros pts out Hp Hi Hs. cbn [d_LogDensityImpl]. unfold pf_LogDensityImpl. fold (with_coeffs K c).
  assert (HV : exists xs, o_Inverse (with_coeffs K c) (alloc_mat 0 (length (mx_cols pts))) pts = Ok (right_mat (p_out P) xs) /\
    Forall (fun x => length x = p_out P) xs /\ Forall2 (fun y x => close tol (p_eval P c x) y) (mx_cols pts) xs).
  { unfold o_Inverse. rewrite (check_ok K P) by (try apply HI; auto). cbn [negb with_coeffs o_map o_c o_coeffs].
    rewrite alloc_len, Nat.eqb_refl. cbn [negb]. assert (m_out K = p_out P) as -> by apply HI.
    assert (exists xs, each2 (m_inv K c) (mx_cols (alloc_mat 0 (length (mx_cols pts)))) (mx_cols pts) (mx_cols (alloc_mat (p_out P) (length (mx_cols pts)))) = Ok xs /\
      length xs = length (mx_cols pts) /\ Forall (fun x => length x = p_out P) xs /\ Forall2 (fun y x => close tol (p_eval P c x) y) (mx_cols pts) xs) as (xs & E & L & F1 & F2).
    { destruct Hp as [_ Hp]. cbn [alloc_mat right_mat mx_cols]. clear - HI Lc Hp Hio. induction (mx_cols pts) as [|y l IH]; [exists []; repeat split; auto|].
      inversion Hp as [|? ? Hy Hl]; subst. destruct (IH Hl) as (xs & E & L & F1 & F2). destruct HI as (_ & HI).
      destruct (HI c (fresh 0) y (fresh (p_out P))) as (x & Ex & Lx & Cx); auto; [apply repeat_length|].
      exists (x :: xs). cbn [length repeat each2]. rewrite Ex. cbn [obind]. rewrite E. cbn [obind]. split; auto. split; [cbn; auto|]. split; [constructor; auto|].
      constructor; auto. rewrite firstn_nil in Cx. auto. }
    rewrite E. cbn [obind]. exists xs. split; [|split; auto]. unfold same_layout, alloc_mat, right_mat. cbn. rewrite repeat_length, L. reflexivity. }
  destruct HV as (xs & -> & F1 & F2). cbn [obind]. assert (Lxs := Forall2_length' _ _ _ F2).
  assert (HM : is_mat (p_out P) (right_mat (p_out P) xs)) by (split; auto).
  destruct (HD _ out HM) as (o1 & vs & E1 & O1 & N1 & F3); auto.
  { cbn [right_mat mx_cols]. rewrite Lxs. auto. }
  rewrite E1. cbn [obind]. rewrite (LogDeterminant_obj K P) by (auto; rewrite Hio; auto). cbn [obind right_mat mx_cols] in *.
  destruct (v_update_ok dsub (length (mx_cols pts)) o1 (map (fun x => Fin (p_logdet P c x)) xs)) as (o2 & E2 & O2 & N2).
  { eapply only_entries_inside; eauto. } { rewrite map_length. auto. }
  destruct (combine_fin dsub Rminus (p_logdet P c) _ (fun a b => eq_refl) _ _ F3) as (ws & E3 & F4).
  exists o2, ws. split; [auto|]. split; [eapply only_entries_trans; eauto|]. split; [rewrite N2, N1; exact E3|].
  clear - F1 F2 F4. revert ws F4. induction F2 as [|y x l xs Hy F2 IH]; intros ws F4; inversion F4 as [|? ? ? ? (w & Vw & Ew)]; subst; constructor.
  - exists x, w. inversion F1; subst. auto.
  - apply IH; auto. inversion F1; auto.
Qed.

(** The pushforward evaluates lp(x) - log|det dT(x)| at a point x with T(x) within the tolerance of the
    root finder of y; with an exact inverse that is the pushforward density. *)
Theorem C48_pushforward : forall st K P c D lp tol, imp_inv 0 tol K P -> imp_logdet K P -> length c = p_nc P -> p_in P = p_out P ->
  d_dim D = p_out P -> is_dens st D (p_out P) lp ->
  exists PF, PushforwardDensity (with_coeffs K c) D = Ok PF /\ d_dim PF = p_out P /\
    logdens st PF (p_out P) (fun y v => exists x, length x = p_out P /\ close tol (p_eval P c x) y /\ v = lp x - p_logdet P c x) /\
    (tol = 0 -> injective P -> forall inv, (forall y, length y = p_out P -> length (inv y) = p_out P /\ p_eval P c (inv y) = y) ->
       is_dens st PF (p_out P) (fun y => lp (inv y) - p_logdet P c (inv y))).
Proof.
  intros st K P c D lp tol HI HL Lc Hio Hdim HD. destruct (pushforward_rel st K P c D _ tol HI HL Lc Hio Hdim HD) as (PF & E & Ed & H).
  exists PF. split; [auto|]. split; [auto|]. split.
  - eapply logdens_ext; [|exact H]. cbn. intros y v _ (x & w & Lx & Cx & -> & ->). eauto.
  - intros -> HJ inv Hinv. eapply logdens_ext; [|exact H]. cbn. intros y v Ly (x & w & Lx & Cx & -> & ->).
    destruct (Hinv y Ly) as (L & Ey). apply close0 in Cx. replace (inv y) with x; auto.
    apply (HJ c []); auto; [cbn; lia|]. cbn [app]. congruence.
Qed.
Print Assumptions C48_pushforward.

(** With an exact inverse the two transports undo each other. *)
Theorem C48_mutual_inverse : forall st K P c D lp, imp_eval K P -> imp_inv 0 0 K P -> imp_logdet K P -> injective P ->
  length c = p_nc P -> p_in P = p_out P -> d_dim D = p_out P -> is_dens st D (p_out P) lp ->
  (exists PF PB, PushforwardDensity (with_coeffs K c) D = Ok PF /\ PullbackDensity (with_coeffs K c) PF = Ok PB /\ is_dens st PB (p_out P) lp) /\
  (exists PB PF, PullbackDensity (with_coeffs K c) D = Ok PB /\ PushforwardDensity (with_coeffs K c) PB = Ok PF /\ is_dens st PF (p_out P) lp).
Proof.
  intros st K P c D lp HE HI HL HJ Lc Hio Hdim HD. split.
  - destruct (pushforward_rel st K P c D _ 0 HI HL Lc Hio Hdim HD) as (PF & E1 & Ed1 & H1).
    destruct (pullback_rel st K P c PF _ HE HL Lc Ed1 H1) as (PB & E2 & Ed2 & H2). exists PF, PB. split; auto. split; auto.
    rewrite Hio in H2. eapply logdens_ext; [|exact H2]. cbn. intros x v Lx (w & (x' & w' & Lx' & Cx & -> & ->) & ->).
    apply close0 in Cx. replace x' with x; [ring|]. apply (HJ c []); auto. cbn; lia.
  - destruct (pullback_rel st K P c D _ HE HL Lc Hdim HD) as (PB & E1 & Ed1 & H1). rewrite Hio in H1.
    destruct (pushforward_rel st K P c PB _ 0 HI HL Lc Hio Ed1 H1) as (PF & E2 & Ed2 & H2). exists PB, PF. split; auto. split; auto.
    eapply logdens_ext; [|exact H2]. cbn. intros y v Ly (x & w & Lx & Cx & (w' & -> & ->) & ->). apply close0 in Cx. rewrite Cx. ring.
Qed.
Print Assumptions C48_mutual_inverse.

(** Pulling back twice is pulling back by the composition. *)
Theorem C48_composition : forall st K1 P1 K2 P2 c1 c2 D lp, imp_eval K1 P1 -> imp_logdet K1 P1 -> imp_eval K2 P2 -> imp_logdet K2 P2 ->
  length c1 = p_nc P1 -> length c2 = p_nc P2 -> p_out P1 = p_in P2 -> p_out P2 = p_in P2 -> d_dim D = p_out P2 -> is_dens st D (p_out P2) lp ->
  exists D2 D1, PullbackDensity (with_coeffs K2 c2) D = Ok D2 /\ PullbackDensity (with_coeffs K1 c1) D2 = Ok D1 /\
    is_dens st D1 (p_in P1) (pullback (cmp_pmap (p_in P1) [P1; P2]) (c1 ++ c2) lp).
Proof.
  intros st K1 P1 K2 P2 c1 c2 D lp E1 L1 E2 L2 C1 C2 H12 H22 Hdim HD.
  destruct (pullback_rel st K2 P2 c2 D _ E2 L2 C2 Hdim HD) as (D2 & A2 & B2 & H2). rewrite <- H12 in H2.
  destruct (pullback_rel st K1 P1 c1 D2 _ E1 L1 C1 ltac:(congruence) H2) as (D1 & A1 & B1 & H1).
  exists D2, D1. split; auto. split; auto. eapply logdens_ext; [|exact H1]. cbn. intros x v Lx (w & (w' & -> & ->) & ->).
  unfold pullback. cbn [cmp_pmap p_eval p_logdet cmp_eval cmp_logdet].
  rewrite firstn_app, skipn_app, C1, Nat.sub_diag, firstn_O, app_nil_r, <- C1, firstn_all, skipn_all. cbn [skipn app].
  rewrite <- C2, firstn_all. ring.
Qed.
Print Assumptions C48_composition.

(** Dimension mismatches and maps without coefficients are rejected. *)
Theorem C48_rejects : forall M D,
  (m_out (o_map M) <> d_dim D <-> PullbackDensity M D = Throw) /\
  (m_in (o_map M) <> d_dim D \/ m_out (o_map M) <> m_in (o_map M) <-> PushforwardDensity M D = Throw) /\
  (m_nc (o_map M) <> 0%nat -> o_coeffs M = None -> forall PB, PullbackDensity M D = Ok PB -> forall pts, d_LogDensity PB pts = Throw) /\
  (m_nc (o_map M) <> 0%nat -> o_coeffs M = None -> forall PF, PushforwardDensity M D = Ok PF -> forall pts, d_LogDensity PF pts = Throw) /\
  (forall PF, PushforwardDensity M D = Ok PF -> forall pts, d_LogDensityInputGrad PF pts = Throw).
Proof.
  intros M D. unfold PullbackDensity, PushforwardDensity.
  assert (U : m_nc (o_map M) <> 0%nat -> o_coeffs M = None -> o_check M = false).
  { intros H E. unfold o_check. rewrite E. destruct (Nat.eqb_spec (m_nc (o_map M)) 0); [lia|reflexivity]. }
  split; [|split; [|split; [|split]]].
  - destruct (Nat.eqb_spec (m_out (o_map M)) (d_dim D)); cbn; split; intros H; try congruence; lia.
  - destruct (Nat.eqb_spec (m_in (o_map M)) (d_dim D)); cbn; [destruct (Nat.eqb_spec (m_out (o_map M)) (m_in (o_map M))); cbn|];
      (split; [intros [H|H]|intros H]); auto; try congruence; try lia.
  - intros H E PB HP pts. destruct (negb _); [discriminate|]. injection HP as <-. unfold d_LogDensity. cbn [d_LogDensityImpl].
    unfold pb_LogDensityImpl, o_Evaluate. rewrite (U H E). reflexivity.
  - intros H E PB HP pts. destruct (negb _); [discriminate|]. destruct (negb _); [discriminate|]. injection HP as <-. unfold d_LogDensity. cbn [d_LogDensityImpl].
    unfold pf_LogDensityImpl, o_Inverse. rewrite (U H E). reflexivity.
  - intros PB HP pts. destruct (negb _); [discriminate|]. destruct (negb _); [discriminate|]. injection HP as <-. reflexivity.
Qed.
Print Assumptions C48_rejects.

(** * C49 *)
Lemma ldi_obj K P c pts : imp_ldi K P -> length c = p_nc P -> is_mat (p_in P) pts ->
  o_LogDeterminantInputGrad (with_coeffs K c) pts = Ok (right_mat (p_in P) (map (p_ldi P c) (mx_cols pts))).
Proof.
  intros (Hd & H) L Hp. unfold o_LogDeterminantInputGrad. rewrite (check_ok K P) by auto. cbn [negb with_coeffs o_map o_c o_coeffs].
  assert (Er : mx_rows pts = p_in P) by apply Hp. rewrite Er. rewrite (each_ok _ (p_ldi P c) (p_in P) (p_in P)).
  - cbn [obind]. unfold same_layout, alloc_mat, right_mat. cbn. rewrite repeat_length, map_length. reflexivity.
  - intros x o Lx Lo. apply H; auto.
  - apply Hp.
  - apply alloc_cols.
  - apply alloc_len.
Qed.
Lemma ldc_obj K P c pts : imp_ldc K P -> length c = p_nc P -> is_mat (p_in P) pts ->
  o_LogDeterminantCoeffGrad (with_coeffs K c) pts = Ok (right_mat (p_nc P) (map (p_ldc P c) (mx_cols pts))).
Proof.
  intros (Hd & H) L Hp. unfold o_LogDeterminantCoeffGrad. rewrite (check_ok K P) by auto. cbn [negb with_coeffs o_map o_c o_coeffs].
  assert (m_nc K = p_nc P) as -> by apply Hd. rewrite (each_ok _ (p_ldc P c) (p_in P) (p_nc P)).
  - cbn [obind]. unfold same_layout, alloc_mat, right_mat. cbn. rewrite repeat_length, map_length. reflexivity.
  - intros x o Lx Lo. apply H; auto.
  - apply Hp.
  - apply alloc_cols.
  - apply alloc_len.
Qed.
Lemma combine_map_r {A B} (f : A -> B) l : combine l (map f l) = map (fun x => (x, f x)) l.
Proof. induction l; cbn; congruence. Qed.
Lemma mat_add_ok n x s0 s1 (f g : list R -> list R) (l : list (list R)) :
  (forall a, In a l -> length (f a) = n /\ length (g a) = n) -> x = MkMat n (map f l) s0 s1 ->
  mat_add x (right_mat n (map g l)) = Ok (MkMat n (map (fun a => vadd (f a) (g a)) l) s0 s1).
Proof.
  intros H ->. unfold mat_add. cbn [mx_rows mx_cols right_mat].
  assert (E : each (fun a b => add_into n b a) (map g l) (map f l) = Ok (map (fun a => vadd (f a) (g a)) l)).
  { induction l as [|a l IH]; auto. cbn [map each]. destruct (H a (or_introl eq_refl)) as (L1 & L2). rewrite <- L1 at 1.
    rewrite add_same by congruence. cbn [obind]. rewrite IH by (intros; apply H; right; auto). reflexivity. }
  rewrite E. reflexivity.
Qed.

(** LogDensityInputGrad and the Kokkos overload of LogDensityCoeffGrad write the chain-rule combinations
    of the gradient [g] of the reference and the gradients of the map. *)
Theorem C49_values : forall (L : layout) K P c D g, imp_eval K P -> length c = p_nc P -> d_dim D = p_out P ->
  inputgrad L D (p_out P) g -> (forall r n, L r n n 1%nat) -> (forall y, length y = p_out P -> length (g y) = p_out P) ->
  exists PB, PullbackDensity (with_coeffs K c) D = Ok PB /\
    (imp_grad K P -> imp_ldi K P -> inputgrad any_layout PB (p_in P) (pullback_grad P c g)) /\
    (imp_cgrad K P -> imp_ldc K P -> forall pts, is_mat (p_in P) pts ->
       pb_LogDensityCoeffGrad (with_coeffs K c) D pts = Ok (right_mat (p_nc P) (map (pullback_cgrad P c g) (mx_cols pts)))).
Proof.
  intros L K P c D g HE Lc Hdim HG HL Hg. unfold PullbackDensity. cbn [with_coeffs o_map]. assert (m_out K = p_out P) as -> by apply HE.
  rewrite Hdim, Nat.eqb_refl. cbn [negb]. eexists. split; [reflexivity|]. fold (with_coeffs K c). split.
  - intros HGr HLi pts out Hp Ho Hn _. cbn [d_InputGradImpl]. unfold pb_InputGradImpl.
    destruct (Evaluate_obj K P c pts HE Lc Hp) as (-> & HM). cbn [obind].
    rewrite (LogDensityInputGrad_ok L D (p_out P) g _ HG HL HM). cbn [obind right_mat mx_cols]. rewrite map_map.
    cbn [with_coeffs o_map o_c o_coeffs]. rewrite (each2_ok _ (p_grad P c) (p_in P) (p_out P) (p_in P)).
    + cbn [obind]. fold (with_coeffs K c). rewrite (ldi_obj K P) by auto. cbn [obind]. rewrite combine_map_r, map_map. cbn [fst snd].
      unfold same_layout. cbn [mx_rows mx_s0 mx_s1]. destruct Ho as [Eo Ho]. rewrite Eo.
      apply (mat_add_ok (p_in P) _ _ _ (fun x => p_grad P c x (g (p_eval P c x))) (p_ldi P c)); auto.
      intros a Ha. destruct Hp as [_ Hp]. rewrite Forall_forall in Hp. specialize (Hp a Ha). destruct HE as (_ & HE), HGr as (_ & HGr), HLi as (_ & HLi).
      destruct (HE c a (zeros (p_out P)) Lc Hp) as (_ & LE); [apply repeat_length|]. split.
      * apply (HGr c a (g (p_eval P c a)) (zeros (p_in P))); auto; apply repeat_length.
      * apply (HLi c a (zeros (p_in P))); auto; apply repeat_length.
    + intros x s o Lx Ls Lo. apply HGr; auto.
    + apply Hp.
    + eapply map_is_mat with (n := p_in P); [exact Hp| |reflexivity]. intros x Lx. apply Hg. destruct HE as (_ & HE).
      apply (HE c x (zeros (p_out P))); auto. apply repeat_length.
    + apply Ho.
    + apply map_length.
    + auto.
  - intros HGr HLi pts Hp. unfold pb_LogDensityCoeffGrad, pb_CoeffGradImpl.
    destruct (Evaluate_obj K P c pts HE Lc Hp) as (-> & HM). cbn [obind].
    rewrite (LogDensityInputGrad_ok L D (p_out P) g _ HG HL HM). cbn [obind right_mat mx_cols]. rewrite map_map.
    cbn [with_coeffs o_map o_c o_coeffs]. assert (m_nc K = p_nc P) as -> by apply HE.
    rewrite (each2_ok _ (p_cgrad P c) (p_in P) (p_out P) (p_nc P)).
    + cbn [obind]. fold (with_coeffs K c). rewrite (ldc_obj K P) by auto. cbn [obind]. rewrite combine_map_r, map_map. cbn [fst snd].
      rewrite (mat_add_ok (p_nc P) _ (length (mx_cols pts)) 1 (fun x => p_cgrad P c x (g (p_eval P c x))) (p_ldc P c) (mx_cols pts)).
      * unfold right_mat. rewrite map_length. reflexivity.
      * intros a Ha. destruct Hp as [_ Hp]. rewrite Forall_forall in Hp. specialize (Hp a Ha). destruct HE as (_ & HE), HGr as (_ & HGr), HLi as (_ & HLi).
        destruct (HE c a (zeros (p_out P)) Lc Hp) as (_ & LE); [apply repeat_length|]. split.
        { apply (HGr c a (g (p_eval P c a)) (zeros (p_nc P))); auto; apply repeat_length. }
        { apply (HLi c a (zeros (p_nc P))); auto; apply repeat_length. }
      * unfold same_layout, alloc_mat, right_mat. cbn. rewrite repeat_length. reflexivity.
    + intros x s o Lx Ls Lo. apply HGr; auto.
    + apply Hp.
    + eapply map_is_mat with (n := p_in P); [exact Hp| |reflexivity]. intros x Lx. apply Hg. destruct HE as (_ & HE).
      apply (HE c x (zeros (p_out P))); auto. apply repeat_length.
    + apply alloc_cols.
    + apply map_length.
    + rewrite alloc_len. reflexivity.
Qed.
Print Assumptions C49_values.

(** Those combinations are the derivatives of the pullback log density, jointly in coefficients and
    inputs, when the map's gradients and the reference's gradient are derivatives. *)
Theorem C49_derivatives : forall P lp g, sized P -> true_gradients P -> true_logdet_gradients P -> gradient_of (p_out P) lp g ->
  forall (gc gx : R -> list R) t vc vx, velocity gc t vc -> velocity gx t vx -> length vc = p_nc P -> length vx = p_in P ->
    is_derive (fun u => pullback P (gc u) lp (gx u)) t
      (dot (pullback_cgrad P (gc t) g (gx t)) vc + dot (pullback_grad P (gc t) g (gx t)) vx).
Proof.
  intros P lp g HS HT HL (Hg & HD) gc gx t vc vx Vc Vx Lc Lx.
  destruct (value_velocity P gc gx t vc vx HS HT Vc Vx Lc Lx) as (w & Vw & Lw & Hw).
  specialize (HD _ t w Vw Lw). specialize (HL gc gx t vc vx Vc Vx Lc Lx).
  assert (Lct : length (gc t) = p_nc P) by (rewrite <- Lc; apply Vc). assert (Lxt : length (gx t) = p_in P) by (rewrite <- Lx; apply Vx).
  assert (Ly : length (p_eval P (gc t) (gx t)) = p_out P) by (rewrite <- Lw; apply Vw).
  destruct (HS (gc t) (gx t) (g (p_eval P (gc t) (gx t))) Lct Lxt (Hg _ Ly)) as (_ & S2 & S3 & S4 & S5).
  unfold pullback, pullback_cgrad, pullback_grad. rewrite !dot_vadd_l by congruence.
  replace (dot (p_cgrad P (gc t) (gx t) (g (p_eval P (gc t) (gx t)))) vc + dot (p_ldc P (gc t) (gx t)) vc + (dot (p_grad P (gc t) (gx t) (g (p_eval P (gc t) (gx t)))) vx + dot (p_ldi P (gc t) (gx t)) vx))
    with (dot (g (p_eval P (gc t) (gx t))) w + (dot (p_ldc P (gc t) (gx t)) vc + dot (p_ldi P (gc t) (gx t)) vx))
    by (rewrite Hw by (apply Hg; auto); ring).
  apply (is_derive_plus (fun u => lp (p_eval P (gc u) (gx u))) (fun u => p_logdet P (gc u) (gx u))); auto.
Qed.
Print Assumptions C49_derivatives.

(** The overload for Eigen matrices returns the gradient in the inputs: one row per input rather than
    per coefficient, and the entries of LogDensityInputGrad. *)
Theorem C49_eigen_overload_refuted : forall (L : layout) K P c D g PB, imp_eval K P -> length c = p_nc P -> d_dim D = p_out P ->
  inputgrad L D (p_out P) g -> (forall r n, L r n n 1%nat) -> (forall y, length y = p_out P -> length (g y) = p_out P) ->
  imp_grad K P -> imp_ldi K P -> PullbackDensity (with_coeffs K c) D = Ok PB -> forall pts, is_mat (p_in P) pts ->
  exists r, pb_LogDensityCoeffGrad_eigen (with_coeffs K c) D pts = Ok r /\ d_LogDensityInputGrad PB pts = Ok r /\
    mx_cols r = map (pullback_grad P c g) (mx_cols pts) /\ mx_rows r = p_in P /\ (p_nc P <> p_in P -> mx_rows r <> p_nc P).
Proof.
  intros L K P c D g PB HE Lc Hdim HG HL Hg HGr HLi HPB pts Hp.
  destruct (C49_values L K P c D g HE Lc Hdim HG HL Hg) as (PB' & E & H1 & _). rewrite HPB in E. injection E as <-.
  specialize (H1 HGr HLi). exists (right_mat (p_in P) (map (pullback_grad P c g) (mx_cols pts))).
  assert (E2 : d_LogDensityInputGrad PB pts = Ok (right_mat (p_in P) (map (pullback_grad P c g) (mx_cols pts)))).
  { apply (LogDensityInputGrad_ok any_layout); auto. intros; exact I. }
  split; [|split; [exact E2|split; [reflexivity|split; [reflexivity|intros H; cbn; congruence]]]].
  rewrite <- E2. unfold PullbackDensity in HPB. destruct (negb _); [discriminate|]. injection HPB as <-. reflexivity.
Qed.
Print Assumptions C49_eigen_overload_refuted.

(** ** Examples: the standard normal as reference, an offset map and a map made by CreateTriangular *)
Definition std_lp (n : nat) (x : list R) : R := - / 2 * dot x x - / 2 * (INR n * ln (2 * PI)).
Lemma minus_zeros x : minus x (zeros (length x)) = x.
Proof. induction x as [|a x IH]; [reflexivity|]. unfold minus, zeros in *. cbn. rewrite IH. f_equal. ring. Qed.
Lemma zeros_minus x : minus (zeros (length x)) x = map Ropp x.
Proof. induction x as [|a x IH]; [reflexivity|]. unfold minus, zeros in *. cbn. rewrite IH. f_equal. ring. Qed.
Lemma std_pdf n x v : length x = n -> normal_logpdf n (zeros n) (unit_matrix n) x v <-> v = std_lp n x.
Proof.
  intros Hx. assert (H : normal_logpdf n (zeros n) (unit_matrix n) x (std_lp n x)).
  { exists x. subst n. rewrite minus_zeros, unit_det, ln_1, Rplus_0_r. repeat split. apply unit_matvec. auto. }
  split; [|intros ->; auto]. intros H'. apply (C50_unique n (zeros n) (unit_matrix n) x v _ (unit_spd n) H' H).
Qed.
Lemma std_is_dens sch n : schedules sch -> is_dens (fun s => s = 1%nat) (gauss_density (gauss_std n) sch) n (std_lp n).
Proof.
  intros Hs pts out Hp Hi Hst. destruct (C50_logdensity_partial exact_llt sch n _ _ _ exact_llt_correct Hs (by_dim exact_llt n) pts out Hp Hi Hst) as (o & vs & A & B & C & F).
  exists o, vs. repeat (split; [assumption|]). destruct Hp as [_ Hc]. clear - F Hc. induction F as [|x v l l' E _ IH]; constructor; inversion Hc; subst; auto. apply std_pdf; auto.
Qed.
Lemma std_inputgrad sch n : inputgrad any_layout (gauss_density (gauss_std n) sch) n (map Ropp).
Proof.
  intros pts out Hp Ho Hl HL. destruct (C50_gradient_partial exact_llt sch n _ _ _ exact_llt_correct (by_dim exact_llt n)) as (g & H1 & H2).
  rewrite (H1 pts out Hp Ho Hl I). do 2 f_equal. apply map_ext_in. intros x Hx. destruct Hp as [_ Hc]. rewrite Forall_forall in Hc. specialize (Hc x Hx).
  destruct (H2 x Hc) as [Lg Sg]. unfold normal_score in Sg. rewrite unit_matvec in Sg by auto. rewrite Sg. subst n. apply zeros_minus.
Qed.
Lemma std_gradient n : gradient_of n (std_lp n) (map Ropp).
Proof.
  apply (C50_score_is_gradient n (zeros n) (unit_matrix n)); [apply unit_spd|apply zeros_length| |].
  - intros x Hx. apply std_pdf; auto.
  - intros x Hx. rewrite map_length. split; auto. unfold normal_score. rewrite unit_matvec by (rewrite map_length; auto). subst n. rewrite zeros_minus. reflexivity.
Qed.
Example C48_example : exists P S T c PB, CreateTriangular 7 S 4 3 2 bounded_opts = Ok T /\ imp_eval T P /\ length c = p_nc P /\ p_nc P = 31%nat /\
  PullbackDensity (with_coeffs T c) (gauss_density (gauss_std 3) ex_sched) = Ok PB /\
  is_dens (fun s => s = 1%nat) PB 4 (fun x => - / 2 * dot (p_eval P c x) (p_eval P c x) - / 2 * (INR 3 * ln (2 * PI)) + p_logdet P c x).
Proof.
  assert (HS : supported bounded_opts 2) by (split; [intros H; discriminate H|]; split; [cbn; lra|right; left; split; [discriminate|reflexivity]]).
  destruct (C64_triangular_partial 7 4 3 2 bounded_opts ltac:(cbn; lia) ltac:(lia) HS eq_refl ltac:(cbn; lia)) as (comps & pts & wts & alphas & L & CC & _ & (S & HSc) & X).
  destruct (X S HSc) as (T & E & A & B & C & D & _ & _ & F). destruct (F eq_refl) as (G & _). exists (triangular_spec 4 3 pts wts bounded_opts alphas), S, T, (repeat 0 31).
  assert (N : p_nc (triangular_spec 4 3 pts wts bounded_opts alphas) = 31%nat) by (destruct D as [[_ [_ <-]] _]; rewrite C; reflexivity).
  destruct (C48_pullback (fun s => s = 1%nat) T (triangular_spec 4 3 pts wts bounded_opts alphas) (repeat 0 31) (gauss_density (gauss_std 3) ex_sched) (std_lp 3) D G
    ltac:(rewrite repeat_length; congruence) eq_refl (std_is_dens ex_sched 3 ex_sched_ok)) as (PB & E1 & _ & E2 & _).
  exists PB. split; [exact E|]. split; [exact D|]. split; [rewrite repeat_length; congruence|]. split; [exact N|]. split; [exact E1|exact E2].
Qed.
Example C48_inverse_example : let K := aff_map (aff_make_b [1; 2]) in let D := gauss_density (gauss_std 2) ex_sched in
  (exists PF PB, PushforwardDensity (with_coeffs K []) D = Ok PF /\ PullbackDensity (with_coeffs K []) PF = Ok PB /\ is_dens (fun s => s = 1%nat) PB 2 (std_lp 2)) /\
  exists PF, PushforwardDensity (with_coeffs K []) D = Ok PF /\ is_dens (fun s => s = 1%nat) PF 2 (fun y => std_lp 2 (minus y [1; 2]) - 0).
Proof.
  intros K D. split.
  - apply (C48_mutual_inverse (fun s => s = 1%nat) K (shift_pmap [1; 2]) [] D (std_lp 2)); try reflexivity.
    + apply shift_imp_eval.
    + apply shift_imp_inv.
    + apply shift_imp_logdet.
    + apply shift_injective.
    + apply std_is_dens, ex_sched_ok.
  - destruct (C48_pushforward (fun s => s = 1%nat) K (shift_pmap [1; 2]) [] D (std_lp 2) 0 (shift_imp_inv [1; 2] 0) (shift_imp_logdet [1; 2]) eq_refl eq_refl eq_refl (std_is_dens ex_sched 2 ex_sched_ok)) as (PF & E & _ & _ & H).
    exists PF. split; [exact E|]. apply H; [reflexivity|apply shift_injective|]. intros y Hy. cbn in Hy. split; [cbn; rewrite minus_length; auto|].
    destruct y as [|a [|b [|]]]; try discriminate. cbn. f_equal; [ring|f_equal; ring].
Qed.
Definition hermite_opts : options := MkOpt ProbHermite None None PSoftPlus ClenshawCurtis 0 0 1 0 5 true true 0.
Example C49_example : exists P S T c PB, CreateTriangular 7 S 4 3 2 hermite_opts = Ok T /\ length c = 31%nat /\
  PullbackDensity (with_coeffs T c) (gauss_density (gauss_std 3) ex_sched) = Ok PB /\
  inputgrad any_layout PB 4 (fun x => vadd (p_grad P c x (map Ropp (p_eval P c x))) (p_ldi P c x)) /\
  (forall pts, is_mat 4 pts -> pb_LogDensityCoeffGrad (with_coeffs T c) (gauss_density (gauss_std 3) ex_sched) pts =
     Ok (right_mat 31 (map (fun x => vadd (p_cgrad P c x (map Ropp (p_eval P c x))) (p_ldc P c x)) (mx_cols pts)))) /\
  (forall pts, is_mat 4 pts -> exists r, pb_LogDensityCoeffGrad_eigen (with_coeffs T c) (gauss_density (gauss_std 3) ex_sched) pts = Ok r /\ mx_rows r = 4%nat).
Proof.
  assert (HS : supported hermite_opts 2) by (split; [intros _; lia|]; split; [exact I|left; split; reflexivity]).
  assert (HU : unbounded hermite_opts) by (split; reflexivity).
  destruct (C64_triangular_partial 7 4 3 2 hermite_opts ltac:(cbn; lia) ltac:(lia) HS eq_refl ltac:(cbn; lia)) as (comps & pts & wts & alphas & L & CC & _ & (S & HSc) & X).
  destruct (X S HSc) as (T & E & A & B & C & D & CG & Gr & F). destruct (F eq_refl) as (LD & LC & LI). set (P := triangular_spec 4 3 pts wts hermite_opts alphas) in *.
  assert (N : p_nc P = 31%nat) by (destruct D as [[_ [_ <-]] _]; rewrite C; reflexivity).
  assert (Lc : length (repeat 0 31) = p_nc P) by (rewrite repeat_length; congruence).
  assert (HI : inputgrad any_layout (gauss_density (gauss_std 3) ex_sched) (p_out P) (map Ropp)) by apply std_inputgrad.
  assert (HL : forall y : list R, length y = p_out P -> length (map Ropp y) = p_out P) by (intros y Hy; rewrite map_length; auto).
  destruct (C49_values any_layout T P (repeat 0 31) (gauss_density (gauss_std 3) ex_sched) (map Ropp) D Lc eq_refl HI ltac:(intros; exact I) HL) as (PB & E1 & E2 & E3).
  exists P, S, T, (repeat 0 31), PB. split; [exact E|]. split; [rewrite repeat_length; reflexivity|]. split; [exact E1|]. split; [exact (E2 (Gr HU) (LI HU))|]. split.
  - intros q Hq. pose proof (E3 CG LC q Hq) as E4. rewrite N in E4. exact E4.
  - intros q Hq. destruct (C49_eigen_overload_refuted any_layout T P (repeat 0 31) (gauss_density (gauss_std 3) ex_sched) (map Ropp) PB D Lc eq_refl HI ltac:(intros; exact I) HL (Gr HU) (LI HU) E1 q Hq) as (r & R1 & _ & _ & R2 & _).
    exists r. split; auto.
Qed.
Example C49_derivative_example : gradient_of 2 (pullback (shift_pmap [1; 2]) [] (std_lp 2)) (pullback_grad (shift_pmap [1; 2]) [] (map Ropp)).
Proof.
  split.
  - intros y Hy. destruct y as [|a [|b [|]]]; try discriminate. reflexivity.
  - intros gy t vy Hv Lv. pose proof (C49_derivatives (shift_pmap [1; 2]) (std_lp 2) (map Ropp) ltac:(apply shift_sized) (shift_true [1; 2]) (shift_true_logdet_gradients [1; 2]) (std_gradient 2)
      (fun _ => []) gy t [] vy) as H. specialize (H ltac:(split; [auto|cbn; intros; lia]) Hv eq_refl Lv). rewrite dot_nil_r, Rplus_0_l in H. exact H.
Qed.
(** A singular affine map: every point has log density minus infinity. *)
Example C48_degenerate_example : forall lib, lu_det (lib [[1; 1]; [2; 2]]) = det 2 [[1; 1]; [2; 2]] ->
  exists PB, PullbackDensity (with_coeffs (aff_map (aff_make_A lib [[1; 1]; [2; 2]] [])) []) (gauss_density (gauss_std 2) ex_sched) = Ok PB /\
    d_LogDensity PB (right_mat 2 [[3; 4]; [5; 6]]) = Ok [MInf; MInf].
Proof.
  intros lib HD. destruct (C48_degenerate (fun s => s = 1%nat) (aff_map (aff_make_A lib [[1; 1]; [2; 2]] [])) (affine_pmap 2 2 [[1; 1]; [2; 2]] (zeros 2)) [] (gauss_density (gauss_std 2) ex_sched) (std_lp 2) (fun _ => None)) as (PB & E & H); auto.
  - apply (aff_imp_eval lib [[1; 1]; [2; 2]] [] 2 2); auto. split; auto.
  - apply std_is_dens, ex_sched_ok.
  - intros x out _. cbn [aff_map m_logdet aff_make_A af_logdet]. change (aff_block [[1; 1]; [2; 2]]) with [[1; 1]; [2; 2]]. rewrite HD. unfold log_abs. destruct (Req_EM_T _ 0) as [Q|Q]; [reflexivity|]. exfalso. apply Q. cbn. ring.
  - exists PB. split; [exact E|]. rewrite H; [reflexivity|]. split; [reflexivity|repeat constructor].
Qed.
