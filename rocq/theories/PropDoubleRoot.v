(** C73: the inverse of a function in double precision. Vocabulary is in SpecDouble.v and
    SpecDoubleRoot.v. *)
From Coq Require Import Reals ZArith Bool Lra Lia.
From Flocq Require Import Core BinarySingleNaN.
From Verif Require Import SpecDouble SpecDoubleRoot DoubleModel DoubleProofs DoubleRootModel DoubleRootProofs.
Local Open Scope R_scope.

Lemma triple {A B C : Type} (a x : A) (b y : B) (c z : C) : (a, b, c) = (x, y, z) -> x = a /\ y = b /\ z = c.
Proof. intros H. injection H. auto. Qed.

Lemma loop_count L f yd xtol ftol nhalf : forall n it b, match f_itp_loop L f yd xtol ftol nhalf n it b with FReturned _ i => (i < it + n)%nat | FLeft _ i => (i <= it + n)%nat end.
Proof.
  induction n as [|n IH]; intros it b; cbn [f_itp_loop]; [lia|]. destruct (dlt _ ftol); [lia|].
  match goal with |- context [if (?p || ?q)%bool then _ else _] => destruct (p || q)%bool end; [lia|].
  match goal with |- context [f_itp_loop _ _ _ _ _ _ n (S it) ?bb] => specialize (IH (S it) bb); destruct (f_itp_loop L f yd xtol ftol nhalf n (S it) bb) end; lia.
Qed.

(** For every function, target, start, tolerances and library: at most 10000 trial points; info is 0 or
    -2 (never the documented -1), and with -2 the result is NaN. *)
Theorem C73_codes : forall (L : libm2) (f : double -> double) (yd x0 xtol ftol x : double) (info : Z) (it : nat),
  f_InverseSingleBracket L f yd x0 xtol ftol = (x, info, it) ->
  (N.of_nat it <= 10000)%N /\ (info = 0%Z \/ info = (-2)%Z /\ x = nan).
Proof.
  intros L f yd x0 xtol ftol x info it. unfold f_InverseSingleBracket. assert (EI : N.of_nat f_itp_its = 10000%N) by reflexivity.
  generalize dependent f_itp_its. intros its EI. destruct (f_FindBracket f x0 x0 yd) as (b, bi).
  destruct ((bi <? 0)%Z || _)%bool. { intros H. apply triple in H. destruct H as (-> & -> & ->). split; [cbn; lia|auto]. }
  pose proof (loop_count L f yd xtol ftol (f_nhalf L b xtol) its 0 b) as K. destruct (f_itp_loop _ _ _ _ _ _ _ _ _) as [xc i|b' i]; intros H; apply triple in H; destruct H as (-> & -> & ->).
  - split; [lia|auto].
  - destruct (Nat.ltb_spec its i); [lia|]. split; [lia|auto].
Qed.
Print Assumptions C73_codes.

(** For every nondecreasing function of doubles, finite target, positive tolerance on the values,
    start and library, the result is NaN, or its value is within the tolerance of the target, or it
    is the midpoint of two ordered doubles whose values enclose the target and that are closer than
    the tolerances, or 10000 trial points were used up. Missing: that the last does not happen
    (see C73_limit_refuted). *)
Theorem C73_answers_partial : forall (L : libm2) (f : double -> double) (yd x0 xtol ftol x : double) (info : Z) (it : nat),
  nondecreasing64 f -> finite yd -> lt64 d0 ftol ->
  f_InverseSingleBracket L f yd x0 xtol ftol = (x, info, it) ->
  x = nan \/
  info = 0%Z /\ (lt64 (Babs (dsub (f x) yd)) ftol \/
    exists lo hi, le64 lo hi /\ le64 (f lo) yd /\ le64 yd (f hi) /\ x = dmul dhalf (dadd hi lo) /\
      (lt64 (dsub hi lo) xtol \/ lt64 (dsub (f hi) (f lo)) ftol \/ N.of_nat it = 10000%N)).
Proof.
  intros L f yd x0 xtol ftol x info it Hf Hy Ht. unfold f_InverseSingleBracket. assert (EI : N.of_nat f_itp_its = 10000%N) by reflexivity.
  generalize dependent f_itp_its. intros its EI. pose proof (bracket_info f yd x0 x0) as BI. destruct (f_FindBracket f x0 x0 yd) as (b, bi) eqn:EB. cbn [snd] in BI.
  destruct ((bi <? 0)%Z || _)%bool eqn:C. { intros H. apply triple in H. destruct H as (-> & -> & ->). auto. }
  apply orb_false_iff in C. destruct C as (C1 & C2). apply orb_false_iff in C2. destruct C2 as (C2 & C3).
  assert (bi = 0%Z) as -> by (destruct BI as [->|[->| ->]]; [reflexivity|discriminate C1|discriminate C1]).
  destruct (bracket_ok f yd x0 b (proj1 (proj2 Hf)) EB) as (HV & BO). pose proof (fin_numeric yd Hy) as Ny.
  assert (K : kept f yd b).
  { split; [auto|]. destruct BO as [BO|BO]; [auto|right]. split; [auto|]. destruct HV as (V1 & V2). destruct (le_numeric _ _ BO) as (N1 & N2). destruct Hf as (H1 & _).
    rewrite <- V1, <- V2. split; [apply not_gt; auto; rewrite V1; auto|apply not_lt; auto; rewrite V2; auto]. }
  pose proof (loop_ok L f yd xtol ftol (f_nhalf L b xtol) Hf Hy Ht its 0 b K) as Q. destruct (f_itp_loop _ _ _ _ _ _ _ _ _) as [xc i|b' i]; intros H; apply triple in H; destruct H as (-> & -> & ->).
  - right. split; [auto|]. left. apply Q.
  - destruct Q as ((_ & K') & Q1 & Q2). destruct K' as [K'|(A & B & D)].
    + left. rewrite K', add_nan_r. apply mul_nan_r.
    + right. destruct (Nat.ltb_spec its i); [lia|]. split; [auto|]. right. exists (f_xlb b'), (f_xub b'). do 4 (split; [auto|]). destruct Q2 as [->|[Q2|Q2]]; auto.
Qed.
Print Assumptions C73_answers_partial.

(** ** A NaN as target *)
Lemma one_step x0 : finite x0 -> Rabs (real x0) + 1 <= largest -> dgt (dsub (dadd x0 d1) x0) d10 = false.
Proof.
  intros F H. destruct d1_ok as (F1 & V1). assert (F10 : finite d10 /\ real d10 = 10).
  { destruct (dconst_ok 10 0) as (A & B); [reflexivity|lia|cbn; rewrite Rabs_pos_eq by lra; pose proof (bp_largest 10 ltac:(lia)) as K; cbn in K; lra|]. split; [exact A|]. unfold d10. rewrite B. cbn. lra. }
  destruct F10 as (F10 & V10).
  assert (Q : Rabs (real x0 + real d1) <= largest). { rewrite V1. eapply Rle_trans; [apply Rabs_triang|]. rewrite Rabs_R1. exact H. }
  destruct (dadd_ok x0 d1 F F1 Q) as (FA & VA & _). rewrite V1 in VA.
  assert (W : Rabs (real (dadd x0 d1) - (real x0 + 1)) <= 1).
  { rewrite VA. destruct (round_N_pt radix2 fexp64 (fun x => negb (Z.even x)) (real x0 + 1)) as (_ & N). specialize (N (real x0) (real_fmt x0)).
    replace (real x0 - (real x0 + 1)) with (- (1)) in N by ring. rewrite Rabs_Ropp, Rabs_R1 in N. exact N. }
  assert (D : Rabs (real (dadd x0 d1) - real x0) <= 2) by (apply Rabs_le_inv in W; apply Rabs_le; lra).
  destruct (dsub_ok _ x0 FA F) as (FS & VS & _). { pose proof (bp_largest 1 ltac:(lia)) as K. cbn in K. lra. }
  destruct (dgt (dsub (dadd x0 d1) x0) d10) eqn:G; [|reflexivity]. exfalso. apply (dgt_ok _ _ FS F10) in G. rewrite V10, VS in G.
  assert (nearest (real (dadd x0 d1) - real x0) <= 2); [|lra]. apply nearest_le; [apply (fmt_bp 1); lia|]. apply Rabs_le_inv in D. lra.
Qed.

(** With a NaN as target every function, start and library gives info = 0: nothing tells the caller. *)
Theorem C73_nan_target_refuted : forall (L : libm2) (f : double -> double) (x0 xtol ftol : double),
  finite x0 -> Rabs (real x0) + 1 <= largest ->
  exists x it, f_InverseSingleBracket L f nan x0 xtol ftol = (x, 0%Z, it).
Proof.
  intros L f x0 xtol ftol F H. unfold f_InverseSingleBracket, f_FindBracket. rewrite gt_nan_r. unfold f_bracket_its. change 128%nat with (S 127). generalize 127%nat. intros k.
  cbn [f_upper_loop f_xlb f_ylb f_xub f_yub]. unfold f_flat at 1. cbn [f_xlb f_ylb f_xub f_yub]. rewrite (one_step x0 F H), andb_false_r. rewrite lt_nan_r.
  cbn [f_xlb f_ylb f_xub f_yub]. rewrite lt_nan_r, gt_nan_r. cbn [Z.ltb Z.compare orb].
  pose proof (loop_count L f nan xtol ftol (f_nhalf L (MkFB x0 (f x0) (dadd x0 d1) (f (dadd x0 d1))) xtol) f_itp_its 0 (MkFB x0 (f x0) (dadd x0 d1) (f (dadd x0 d1)))) as K.
  destruct (f_itp_loop _ _ _ _ _ _ _ _ _) as [xc i|b' i]; [eauto|]. destruct (Nat.ltb_spec f_itp_its i); [lia|]. eauto.
Qed.
Print Assumptions C73_nan_target_refuted.

(** ** The iterations run out *)
Definition far : double := dconst 1 60.
Definition far_u : double := dadd far (dconst 256 0).
Definition far_l : double := dsub far (dconst 128 0).
Definition d4 : double := dconst 4 0.
Definition d8 : double := dconst 8 0.
Definition small : double := dconst 1 (-20).
(** 0 up to 2^60, 8 above. *)
Definition step64 (x : double) : double := if is_nan x then nan else if dle x far then d0 else d8.

Ltac same64 := apply B2SF_inj; vm_compute; reflexivity.

Lemma step64_nondecreasing : nondecreasing64 step64.
Proof.
  split; [|split; [reflexivity|]].
  - intros x H. unfold step64. unfold numeric in *. rewrite H. destruct (dle x far); reflexivity.
  - intros x y H. destruct (le_numeric _ _ H) as (N1 & N2). unfold step64, numeric in *. rewrite N1, N2.
    destruct (dle y far) eqn:Ey.
    + assert (dle x far = true) as ->.
      { assert (Q : le64 x far). { apply (le_trans64 x y far H). unfold dle in Ey. unfold le64. destruct (Bcompare y far) as [[| |]|]; auto; discriminate. }
        unfold dle. destruct Q as [-> | ->]; reflexivity. }
      right. vm_compute. reflexivity.
    + destruct (dle x far); [left|right]; vm_compute; reflexivity.
Qed.

Lemma real_eq64 r (y c : double) : finite y -> real y = r -> finite c -> real c = r -> r <> 0 -> y = c.
Proof.
  intros Fy V' F E N. unfold real, finite in *. apply B2R_inj; [destruct y; try discriminate; [cbn in V'; lra|reflexivity]|destruct c; try discriminate; [cbn in E; lra|reflexivity]|lra].
Qed.
Lemma exact64 r (y c : double) : faithful r y -> finite c -> real c = r -> r <> 0 -> y = c.
Proof.
  intros H F E N. assert (Fm : fmt r) by (rewrite <- E; apply real_fmt).
  destruct (faithful_between r y r r H) as (Fy & V); [rewrite <- E; apply finite_largest, F|auto|auto|lra|lra|]. apply (real_eq64 r); auto. lra.
Qed.

Definition xc_of (b : fbracket) (p1 p2 xtol : double) : double :=
  let xb := dmul dhalf (dadd (f_xub b) (f_xlb b)) in
  let xf := ddiv (dsub (dmul (f_xub b) (f_ylb b)) (dmul (f_xlb b) (f_yub b))) (dsub (f_ylb b) (f_yub b)) in
  let sigma := if dgt (dsub xb xf) d0 then d1 else dm1 in
  let delta := dfmin (dmul dtenth p1) (Babs (dsub xb xf)) in
  let xf := dadd xf (dmul delta sigma) in
  let rho := dfmin (dsub (dmul xtol p2) (dmul dhalf (dsub (f_xub b) (f_xlb b)))) (Babs (dsub xf xb)) in
  dsub xb (dmul sigma rho).

Lemma int_ok m : (Z.abs m < 2 ^ 53)%Z -> finite (dconst m 0) /\ real (dconst m 0) = IZR m.
Proof.
  intros H. assert (bp 0 = 1) as E by reflexivity. destruct (dconst_ok m 0 H) as (A & B); [lia| |rewrite E, Rmult_1_r in B; auto].
  rewrite E, Rmult_1_r, <- abs_IZR. apply Rle_trans with (bp 53); [|apply bp_largest; lia]. rewrite <- (IZR_Zpower radix2 53) by lia. apply IZR_le. cbn [radix_val radix2]. lia.
Qed.

Lemma Rpower2 (z : Z) : Rpower 2 (IZR z) = bp z.
Proof. rewrite bpow_powerRZ. cbn [radix_val radix2]. symmetry. apply powerRZ_Rpower. lra. Qed.

Lemma fmin_left x y : finite x -> finite y -> real x < real y -> dfmin x y = x.
Proof. intros A B H. unfold dfmin. rewrite (Bcompare_correct _ _ x y A B), Rcompare_Lt; auto. Qed.

Section Stuck.
Variable L : libm2.
Hypothesis HL : good_libm2 L.
Definition b0 : fbracket := MkFB far d0 far_u d8.
Definition b1 : fbracket := MkFB far_l d0 far_u d8.

Lemma pow_int (c : double) m n r : (Z.abs m < 2 ^ 53)%Z -> (Z.abs n < 2 ^ 53)%Z -> (0 < m)%Z -> finite c -> real c = r -> Rpower (IZR m) (IZR n) = r -> l_pow L (dconst m 0) (dconst n 0) = c.
Proof.
  intros Hm Hn H0 Fc Ec Er. destruct (int_ok m Hm) as (F1 & V1), (int_ok n Hn) as (F2 & V2). destruct HL as (P & _).
  specialize (P _ _ F1 F2). rewrite V1, V2, Er in P. specialize (P (IZR_lt 0 m H0)). apply (exact64 r); auto. rewrite <- Er. apply Rgt_not_eq, exp_pos.
Qed.

Lemma half27 : f_nhalf L b0 small = dconst 27 0.
Proof.
  unfold f_nhalf. destruct HL as (_ & Lg & Ce).
  replace (ddiv (dmul dhalf (dsub (f_xub b0) (f_xlb b0))) small) with (dconst 1 27) by same64.
  destruct (dconst_ok 1 27) as (F & V); [reflexivity|lia|rewrite Rmult_1_l, Rabs_pos_eq by apply bpow_ge_0; apply bp_largest; lia|]. rewrite Rmult_1_l in V.
  destruct (int_ok 27 ltac:(reflexivity)) as (F' & V').
  assert (l_log2 L (dconst 1 27) = dconst 27 0) as ->.
  { apply (exact64 27); auto. replace 27 with (ln (real (dconst 1 27)) / ln 2); [apply Lg; [exact F|rewrite V; apply bp_pos]|].
    rewrite V, <- (Rpower2 27). unfold Rpower. rewrite ln_exp. field. pose proof ln_lt_2. lra. }
  destruct (Ce _ F') as (A & B). rewrite V', Zceil_IZR in B. apply (real_eq64 27); auto.
Qed.

Lemma xc_is b it p1 p2 : l_pow L (dsub (f_xub b) (f_xlb b)) d2 = p1 -> l_pow L d2 (dsub (dadd (dconst 27 0) d1) (dint it)) = p2 ->
  f_Find_x_ITP L b dtenth d2 (dconst 27 0) d1 it small = xc_of b p1 p2 small.
Proof. intros H1 H2. unfold f_Find_x_ITP, xc_of. rewrite H1, H2. reflexivity. Qed.

Lemma two_ok e : (-1074 <= e <= 1023)%Z -> finite (dconst 1 e) /\ real (dconst 1 e) = bp e.
Proof. intros H. destruct (dconst_ok 1 e) as (F & V); [reflexivity|lia|rewrite Rmult_1_l, Rabs_pos_eq by apply bpow_ge_0; apply bp_largest; lia|]. rewrite Rmult_1_l in V. auto. Qed.

(** pow at the arguments that occur *)
Lemma pow_sq m : (0 < m < 2 ^ 26)%Z -> l_pow L (dconst m 0) d2 = dconst (m * m) 0.
Proof.
  intros H. assert (0 < m * m < 2 ^ 53)%Z by nia. destruct (int_ok (m * m)) as (F & V); [rewrite Z.abs_eq; lia|].
  apply (pow_int (dconst (m * m) 0) m 2 (IZR (m * m))); try (rewrite Z.abs_eq; lia); try lia; auto.
  rewrite mult_IZR. replace (IZR 2) with (INR 2) by (rewrite INR_IZR_INZ; reflexivity). rewrite Rpower_pow; [ring|apply (IZR_lt 0); lia].
Qed.
Lemma pow_2 e : (0 <= e <= 1023)%Z -> l_pow L d2 (dconst e 0) = dconst 1 e.
Proof.
  intros H. destruct (two_ok e ltac:(lia)) as (F & V). apply (pow_int (dconst 1 e) 2 e (bp e)); auto; try (rewrite Z.abs_eq; lia); try lia. apply Rpower2.
Qed.

Definition b_next (b : fbracket) (it : nat) (b' : fbracket) : Prop :=
  forall n, f_itp_loop L step64 d4 small small (dconst 27 0) (S n) it b = f_itp_loop L step64 d4 small small (dconst 27 0) n (S it) b'.

Lemma next b it xc b' : f_Find_x_ITP L b dtenth d2 (dconst 27 0) d1 it small = xc ->
  dlt (Babs (dsub (step64 xc) d4)) small = false ->
  b' = (if dgt (step64 xc) d4 then MkFB (f_xlb b) (f_ylb b) xc (step64 xc) else MkFB xc (step64 xc) (f_xub b) (f_yub b)) ->
  dlt (dsub (f_xub b') (f_xlb b')) small = false -> dlt (dsub (f_yub b') (f_ylb b')) small = false -> b_next b it b'.
Proof. intros E1 E2 E3 E4 E5 n. cbn [f_itp_loop]. rewrite E1, E2, <- E3, E4, E5. reflexivity. Qed.

Lemma next0 it e : dsub (dadd (dconst 27 0) d1) (dint it) = dconst e 0 -> (0 <= e <= 1023)%Z -> xc_of b0 (dconst (256 * 256) 0) (dconst 1 e) small = far -> b_next b0 it b0.
Proof.
  intros E He X. assert (S0 : step64 far = d0) by same64. apply (next b0 it far); [|vm_compute; reflexivity|rewrite S0; replace (dgt d0 d4) with false by (vm_compute; reflexivity); reflexivity|vm_compute; reflexivity|vm_compute; reflexivity].
  rewrite (xc_is b0 it (dconst (256 * 256) 0) (dconst 1 e)); [exact X| |rewrite E; apply pow_2, He].
  replace (dsub (f_xub b0) (f_xlb b0)) with (dconst 256 0) by same64. apply pow_sq. lia.
Qed.
Lemma next3 : b_next b0 3 b1.
Proof.
  assert (S0 : step64 far_l = d0) by same64. apply (next b0 3 far_l); [|vm_compute; reflexivity|rewrite S0; replace (dgt d0 d4) with false by (vm_compute; reflexivity); reflexivity|vm_compute; reflexivity|vm_compute; reflexivity].
  rewrite (xc_is b0 3 (dconst (256 * 256) 0) (dconst 1 25)); [same64| |].
  - replace (dsub (f_xub b0) (f_xlb b0)) with (dconst 256 0) by same64. apply pow_sq. lia.
  - replace (dsub (dadd (dconst 27 0) d1) (dint 3)) with (dconst 25 0) by same64. apply pow_2. lia.
Qed.

Lemma xc_late p : finite p -> 0 <= real p <= bp 24 -> xc_of b1 (dconst (384 * 384) 0) p small = far_u.
Proof.
  intros Fp Hp. unfold xc_of.
  replace (dmul dhalf (dadd (f_xub b1) (f_xlb b1))) with far by same64.
  replace (ddiv (dsub (dmul (f_xub b1) (f_ylb b1)) (dmul (f_xlb b1) (f_yub b1))) (dsub (f_ylb b1) (f_yub b1))) with far_l by same64.
  replace (dgt (dsub far far_l) d0) with true by (vm_compute; reflexivity). cbv zeta.
  replace (dfmin (dmul dtenth (dconst (384 * 384) 0)) (Babs (dsub far far_l))) with (dconst 128 0) by same64.
  replace (dadd far_l (dmul (dconst 128 0) d1)) with far by same64. replace (Babs (dsub far far)) with d0 by same64.
  replace (dmul dhalf (dsub (f_xub b1) (f_xlb b1))) with (dconst 192 0) by same64.
  assert (B16 : fmt 16) by (apply (fmt_bp 4); lia). assert (L16 : 256 <= largest) by (apply (bp_largest 8); lia).
  destruct (two_ok (-20) ltac:(lia)) as (Fs & Vs). fold small in Fs, Vs.
  assert (P16 : 0 <= real small * real p <= 16).
  { rewrite Vs. split; [apply Rmult_le_pos; [apply bpow_ge_0|lra]|]. replace 16 with (bp (-20) * bp 24) by (rewrite <- bpow_plus; reflexivity). apply Rmult_le_compat_l; [apply bpow_ge_0|lra]. }
  destruct (dmul_ok small p Fs Fp) as (Fm & Vm); [rewrite Rabs_pos_eq; lra|].
  assert (M16 : 0 <= real (dmul small p) <= 16) by (rewrite Vm; split; [apply nearest_ge; [apply fmt_0|lra]|apply nearest_le; [auto|lra]]).
  destruct (int_ok 192 ltac:(reflexivity)) as (F192 & V192).
  destruct (dsub_ok (dmul small p) (dconst 192 0) Fm F192) as (Fd & Vd & _); [rewrite V192; apply Rabs_le; lra|]. rewrite V192 in Vd.
  assert (F1 : forall m, (Z.abs m < 2 ^ 53)%Z -> fmt (IZR m)). { intros m Hm. replace (IZR m) with (IZR m * bp 0) by (cbn; ring). apply fmt_int; [auto|lia]. }
  assert (D : -192 <= real (dsub (dmul small p) (dconst 192 0)) <= -176) by (rewrite Vd; split; [apply nearest_ge; [apply F1; lia|lra]|apply nearest_le; [apply F1; lia|lra]]).
  set (q := dsub (dmul small p) (dconst 192 0)) in *. destruct d0_ok as (F0 & V0). rewrite (fmin_left q d0) by (auto; rewrite V0; lra).
  destruct d1_ok as (Fo & Vo). destruct (dmul_ok d1 q Fo Fd) as (Fq & Vq); [rewrite Vo, Rmult_1_l; apply Rabs_le; lra|]. rewrite Vo, Rmult_1_l, nearest_fmt in Vq by apply real_fmt.
  destruct (two_ok 60 ltac:(lia)) as (Ff & Vf). fold far in Ff, Vf.
  assert (Big : bp 60 + 192 <= largest). { apply Rle_trans with (bp 61); [|apply bp_largest; lia]. change (bp 61) with (IZR (2 ^ 61)). change (bp 60) with (IZR (2 ^ 60)). rewrite <- plus_IZR. apply IZR_le. lia. }
  assert (P60 : 192 <= bp 60). { change (bp 60) with (IZR (2 ^ 60)). apply IZR_le. lia. }
  destruct (dsub_ok far (dmul d1 q) Ff Fq) as (Fx & Vx & _); [rewrite Vf, Vq; rewrite Rabs_pos_eq; lra|]. rewrite Vf, Vq in Vx.
  assert (Q : forall m, (Z.abs m < 2 ^ 53)%Z -> 0 <= IZR m <= 192 -> dadd far (dconst m 0) = far_u -> real far_u = nearest (bp 60 + IZR m)).
  { intros m Hm Hr E. destruct (int_ok m Hm) as (Fi & Vi). destruct (dadd_ok far (dconst m 0) Ff Fi) as (_ & V & _); [rewrite Vf, Vi, Rabs_pos_eq; lra|]. rewrite E, Vf, Vi in V. exact V. }
  pose proof (Q 176%Z ltac:(lia) ltac:(lra) ltac:(same64)) as Q1. pose proof (Q 192%Z ltac:(lia) ltac:(lra) ltac:(same64)) as Q2.
  assert (N1 : nearest (bp 60 + 176) <= nearest (bp 60 - real q)) by (apply nearest_mono; lra).
  assert (N2 : nearest (bp 60 - real q) <= nearest (bp 60 + 192)) by (apply nearest_mono; lra).
  apply (real_eq64 (real far_u)); [exact Fx|lra|reflexivity|reflexivity|]. rewrite Q1. apply Rgt_not_eq, Rlt_le_trans with 16; [lra|]. apply nearest_ge; [auto|lra].
Qed.

Lemma late it : (4 <= it)%nat /\ (N.of_nat it < 10000)%N -> b_next b1 it b1.
Proof.
  intros H. assert (S0 : step64 far_u = d8) by same64. apply (next b1 it far_u); [|vm_compute; reflexivity|rewrite S0; replace (dgt d8 d4) with true by (vm_compute; reflexivity); reflexivity|vm_compute; reflexivity|vm_compute; reflexivity].
  assert (Fi := int_ok (Z.of_nat it)). destruct Fi as (Fi & Vi); [rewrite Z.abs_eq; lia|]. fold (dint it) in Fi, Vi.
  replace (dadd (dconst 27 0) d1) with (dconst 28 0) in * by same64.
  destruct (int_ok 28 ltac:(reflexivity)) as (F28 & V28).
  assert (Hz : (- 10000 <= 28 - Z.of_nat it <= 24)%Z) by lia.
  assert (Rz : -10000 <= IZR (28 - Z.of_nat it) <= 24) by (split; apply IZR_le; lia).
  assert (L16 : 16384 <= largest) by (apply (bp_largest 14); lia).
  destruct (dsub_ok (dconst 28 0) (dint it) F28 Fi) as (Fd & Vd & _). { rewrite V28, Vi, <- minus_IZR. apply Rabs_le. lra. }
  rewrite V28, Vi, <- minus_IZR, nearest_fmt in Vd. 2:{ replace (IZR (28 - Z.of_nat it)) with (IZR (28 - Z.of_nat it) * bp 0) by (cbn; ring). apply fmt_int; lia. }
  destruct d2_ok as (F2 & V2). destruct HL as (P & _). specialize (P d2 _ F2 Fd). rewrite V2, Vd, Rpower2 in P. specialize (P ltac:(lra)).
  assert (Hb : 0 <= bp (28 - Z.of_nat it) <= bp 24) by (split; [apply bpow_ge_0|apply bp_le; lia]).
  destruct (faithful_between _ _ 0 (bp 24) P) as (Fp & Vp); [rewrite Rabs_pos_eq by lra; apply Rle_trans with (bp 24); [lra|apply bp_largest; lia]|apply fmt_0|apply fmt_bp; lia|lra|lra|].
  rewrite (xc_is b1 it (dconst (384 * 384) 0) (l_pow L d2 (dsub (dconst 28 0) (dint it)))); [apply xc_late; auto| |].
  - replace (dsub (f_xub b1) (f_xlb b1)) with (dconst 384 0) by same64. apply pow_sq. lia.
  - replace (dadd (dconst 27 0) d1) with (dconst 28 0) by same64. reflexivity.
Qed.

Lemma late_all : forall n it, (4 <= it)%nat -> (N.of_nat (it + n) <= 10000)%N -> f_itp_loop L step64 d4 small small (dconst 27 0) n it b1 = FLeft b1 (it + n).
Proof. induction n as [|n IH]; intros it H1 H2; [cbn; f_equal; lia|]. rewrite (late it) by lia. rewrite IH by lia. f_equal. lia. Qed.

Lemma stuck_loop n : (N.of_nat n <= 9996)%N -> f_itp_loop L step64 d4 small small (dconst 27 0) (4 + n) 0 b0 = FLeft b1 (4 + n).
Proof.
  intros H. cbn [plus]. rewrite (next0 0 28), (next0 1 27), (next0 2 26), next3; try lia; try same64. rewrite late_all by lia. reflexivity.
Qed.
End Stuck.

Lemma stuck_bracket : f_FindBracket step64 far far d4 = (b0, 0%Z).
Proof.
  assert (E : forall b : fbracket * Z, B2SF (f_xlb (fst b)) = B2SF far -> B2SF (f_ylb (fst b)) = B2SF d0 -> B2SF (f_xub (fst b)) = B2SF far_u -> B2SF (f_yub (fst b)) = B2SF d8 -> snd b = 0%Z -> b = (b0, 0%Z)).
  { intros [[x1 y1 x2 y2] i]. cbn [fst snd f_xlb f_ylb f_xub f_yub]. intros H1 H2 H3 H4 ->. apply B2SF_inj in H1, H2, H3, H4. subst. reflexivity. }
  apply E; vm_compute; reflexivity.
Qed.

(** Whatever the library, there are a nondecreasing function, a target, a start and a tolerance for
    which the search ends after 10000 trial points with info = 0 (success), although the value at the
    result misses the target by 4, and although no two finite doubles enclosing the target are closer
    than 256: no tolerance is met. The documentation gives -1 for this case. *)
Theorem C73_limit_refuted : forall L : libm2, good_libm2 L ->
  exists (f : double -> double) (yd x0 tol x : double) (it : nat),
    nondecreasing64 f /\ finite yd /\ finite x0 /\ finite tol /\ real tol = bpow radix2 (-20) /\
    f_InverseSingleBracket L f yd x0 tol tol = (x, 0%Z, it) /\ N.of_nat it = 10000%N /\
    finite (f x) /\ Rabs (real (f x) - real yd) = 4 /\
    forall lo hi, finite lo -> finite hi -> le64 (f lo) yd -> le64 yd (f hi) -> 256 <= real hi - real lo.
Proof.
  intros L HL. exists step64, d4, far, small, far, f_itp_its. destruct (two_ok 60 ltac:(lia)) as (Ff & Vf). fold far in Ff, Vf.
  destruct (two_ok (-20) ltac:(lia)) as (Fs & Vs). destruct (int_ok 4 ltac:(reflexivity)) as (F4 & V4).
  split; [apply step64_nondecreasing|]. do 4 (split; [auto; fail|]). split; [|split; [reflexivity|split; [reflexivity|split]]].
  - unfold f_InverseSingleBracket. rewrite stuck_bracket. cbn [f_xlb f_ylb f_xub f_yub b0].
    replace (((0 <? 0)%Z || (dgt d0 d4 || dlt d8 d4))%bool) with false by (vm_compute; reflexivity).
    fold b0. rewrite (half27 L HL). assert (E : exists n, f_itp_its = (4 + n)%nat /\ (N.of_nat n <= 9996)%N).
    { assert (EI : N.of_nat f_itp_its = 10000%N) by reflexivity. exists (f_itp_its - 4)%nat. lia. }
    destruct E as (n & E & Hn). rewrite E, (stuck_loop L HL n Hn). rewrite Nat.ltb_irrefl. f_equal. f_equal. cbn [f_xub f_xlb b1]. same64.
  - replace (step64 far) with d0 by same64. unfold d4. rewrite V4. destruct d0_ok as (_ & ->). rewrite Rminus_0_l, Rabs_Ropp. apply Rabs_pos_eq. lra.
  - intros lo hi Fl Fh Hl Hh. unfold step64 in Hl, Hh.
    assert (NL : is_nan lo = false) by (destruct lo; auto; discriminate Fl). assert (NH : is_nan hi = false) by (destruct hi; auto; discriminate Fh). rewrite NL in Hl. rewrite NH in Hh.
    assert (A : real lo <= bp 60). { rewrite <- Vf. apply (dle_ok lo far Fl Ff). destruct (dle lo far); [auto|]. exfalso. destruct Hl as [Hl|Hl]; vm_compute in Hl; discriminate Hl. }
    assert (B : bp 60 < real hi).
    { destruct (dle hi far) eqn:D; [exfalso; destruct Hh as [Hh|Hh]; vm_compute in Hh; discriminate Hh|]. apply Rnot_le_lt. intros C. rewrite <- Vf in C. apply (dle_ok hi far Fh Ff) in C. congruence. }
    assert (C : succ radix2 fexp64 (bp 60) <= real hi). { apply succ_le_lt; auto with typeclass_instances. - apply fmt_bp. lia. - apply real_fmt. }
    rewrite succ_eq_pos, ulp_bpow in C by apply bpow_ge_0. replace (bp (fexp64 (60 + 1))) with 256 in C by reflexivity. lra.
Qed.
Print Assumptions C73_limit_refuted.

(** The hypotheses are satisfiable: the step function above (and, below, the answer for the identity). *)
Example C73_hypotheses : nondecreasing64 step64 /\ finite d4 /\ lt64 d0 small.
Proof. split; [apply step64_nondecreasing|]. split; vm_compute; reflexivity. Qed.
Example C73_identity_nondecreasing : nondecreasing64 (fun x => x).
Proof. split; [auto|split; [reflexivity|auto]]. Qed.
(** A constant function does not attain a larger value: -2 and NaN. *)
Example C73_constant : forall L, f_InverseSingleBracket L (fun x => if is_nan x then nan else d1) d4 d0 small small = (nan, (-2)%Z, O).
Proof. intros L. reflexivity. Qed.
