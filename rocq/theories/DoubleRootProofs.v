(** Lemmas for root finding in double precision. *)
From Coq Require Import Reals ZArith Bool Lra Lia.
From Flocq Require Import Core BinarySingleNaN.
From Verif Require Import SpecDouble SpecDoubleRoot DoubleModel DoubleProofs DoubleRootModel.
Local Open Scope R_scope.

(** ** The order of doubles *)
Lemma numeric_cases x : numeric x -> x = ninf \/ x = pinf \/ finite x.
Proof. destruct x as [s|[|]| |s m e H]; unfold numeric, finite; cbn; auto; discriminate. Qed.
Lemma fin_numeric x : finite x -> numeric x.
Proof. destruct x; unfold numeric, finite; cbn; auto; discriminate. Qed.
Lemma cmp_fin x y : finite x -> finite y -> Bcompare x y = Some (Rcompare (real x) (real y)).
Proof. intros; apply Bcompare_correct; auto. Qed.
Lemma fin_neq x : finite x -> x <> ninf /\ x <> pinf.
Proof. intros H. split; intros ->; discriminate H. Qed.
Lemma cmp_ninf x : numeric x -> Bcompare ninf x = Some (match x with B754_infinity true => Eq | _ => Lt end).
Proof. destruct x as [s|[|]| |[|] m e H]; unfold numeric; cbn; auto; discriminate. Qed.
Lemma cmp_pinf x : numeric x -> Bcompare x pinf = Some (match x with B754_infinity false => Eq | _ => Lt end).
Proof. destruct x as [s|[|]| |[|] m e H]; unfold numeric; cbn; auto; discriminate. Qed.
Lemma cmp_swap (x y : double) : Bcompare y x = match Bcompare x y with Some c => Some (CompOpp c) | None => None end.
Proof. apply Bcompare_swap. Qed.

Lemma le_spec x y : le64 x y <-> numeric x /\ numeric y /\ (x = ninf \/ y = pinf \/ finite x /\ finite y /\ real x <= real y).
Proof.
  split.
  - intros H. assert (NX : numeric x) by (destruct x as [s|[|]| |[|] m e H']; try reflexivity; destruct y; destruct H; discriminate).
    assert (NY : numeric y) by (destruct y as [s|[|]| |[|] m e H']; try reflexivity; destruct x; destruct H; discriminate).
    split; [auto|]. split; [auto|]. destruct (numeric_cases x NX) as [->|[->|FX]]; auto.
    + destruct (numeric_cases y NY) as [->|[->|FY]]; auto; [destruct H; discriminate|]. exfalso. unfold le64 in H. rewrite (cmp_swap y pinf), cmp_pinf in H by auto.
      destruct y as [s|[|]| |[|] m e H']; try discriminate FY; destruct H; discriminate.
    + destruct (numeric_cases y NY) as [->|[->|FY]]; auto.
      * exfalso. unfold le64 in H. rewrite (cmp_swap ninf x), cmp_ninf in H by auto. destruct x as [s|[|]| |[|] m e H']; try discriminate FX; destruct H; discriminate.
      * right. right. split; [auto|]. split; [auto|]. unfold le64 in H. rewrite cmp_fin in H by auto. destruct (Rcompare_spec (real x) (real y)); try lra. destruct H; discriminate.
  - intros (NX & NY & [->|[->|(FX & FY & H)]]); unfold le64.
    + rewrite cmp_ninf by auto. destruct y as [s|[|]| |[|] m e H']; auto.
    + rewrite cmp_pinf by auto. destruct x as [s|[|]| |[|] m e H']; auto.
    + rewrite cmp_fin by auto. destruct (Rcompare_spec (real x) (real y)); auto. lra.
Qed.
Lemma le_trans64 x y z : le64 x y -> le64 y z -> le64 x z.
Proof.
  rewrite !le_spec. intros (NX & NY & A) (_ & NZ & B). split; [auto|]. split; [auto|].
  destruct A as [A|[A|(F1 & F2 & A)]]; auto.
  - subst y. destruct B as [B|[B|(F1 & _)]]; auto; discriminate.
  - destruct B as [B|[B|(F3 & F4 & B)]]; auto; [subst y; discriminate|]. right. right. split; [auto|]. split; [auto|lra].
Qed.
Lemma le_refl64 x : numeric x -> le64 x x.
Proof. intros N. apply le_spec. split; [auto|]. split; [auto|]. destruct (numeric_cases x N) as [->|[->|F]]; auto. right. right. split; [auto|]. split; [auto|lra]. Qed.
Lemma total64 x y : numeric x -> numeric y -> exists c, Bcompare x y = Some c.
Proof. destruct x as [s|[|]| |[|] m e H], y as [s'|[|]| |[|] m' e' H']; unfold numeric; cbn; intros A B; try discriminate; eauto. Qed.
Lemma gt_true x y : dgt x y = true <-> lt64 y x.
Proof. unfold dgt, lt64. rewrite (cmp_swap x y). destruct (Bcompare x y) as [[]|]; cbn; split; congruence. Qed.
Lemma lt_true x y : dlt x y = true <-> lt64 x y.
Proof. unfold dlt, lt64. destruct (Bcompare x y) as [[]|]; cbn; split; congruence. Qed.
Lemma not_gt x y : numeric x -> numeric y -> dgt x y = false -> le64 x y.
Proof. intros A B H. destruct (total64 x y A B) as (c & E). unfold dgt in H. unfold le64. rewrite E in *. destruct c; auto; discriminate. Qed.
Lemma not_lt x y : numeric x -> numeric y -> dlt x y = false -> le64 y x.
Proof. intros A B H. destruct (total64 x y A B) as (c & E). unfold dlt in H. unfold le64. rewrite (cmp_swap x y), E in *. cbn. destruct c; cbn; auto; discriminate. Qed.
Lemma lt_le x y : lt64 x y -> le64 x y. Proof. intros H; left; exact H. Qed.
Lemma lt_not_le x y : lt64 x y -> ~ le64 y x.
Proof. unfold lt64, le64. rewrite (cmp_swap x y). intros ->. cbn. intros [H|H]; discriminate. Qed.
Lemma le_numeric x y : le64 x y -> numeric x /\ numeric y. Proof. intros H. apply le_spec in H. tauto. Qed.

(** NaN spreads. *)
Lemma nan_eq x : is_nan x = true -> x = nan. Proof. destruct x; try discriminate; reflexivity. Qed.
Lemma sub_nan_r x : dsub x nan = nan. Proof. destruct x as [s|s| |s m e H]; reflexivity. Qed.
Lemma sub_nan_l x : dsub nan x = nan. Proof. destruct x; reflexivity. Qed.
Lemma add_nan_r x : dadd x nan = nan. Proof. destruct x; reflexivity. Qed.
Lemma mul_nan_r x : dmul x nan = nan. Proof. destruct x; reflexivity. Qed.
Lemma lt_nan_l x : dlt nan x = false. Proof. destruct x; reflexivity. Qed.
Lemma lt_nan_r x : dlt x nan = false. Proof. destruct x as [s|[|]| |[|] m e H]; reflexivity. Qed.
Lemma gt_nan_l x : dgt nan x = false. Proof. destruct x; reflexivity. Qed.
Lemma gt_nan_r x : dgt x nan = false. Proof. destruct x as [s|[|]| |[|] m e H]; reflexivity. Qed.

(** ** Adding a positive step does not go down *)
Lemma sign_neg (x : double) : Bsign x = true -> real x <= 0.
Proof. unfold real. destruct x as [a|a| |a m e H]; cbn; intros E; try lra. subst a. apply Rlt_le, F2R_lt_0. reflexivity. Qed.
Lemma sign_pos (x : double) : Bsign x = false -> 0 <= real x.
Proof. unfold real. destruct x as [a|a| |a m e H]; cbn; intros E; try lra. subst a. apply Rlt_le, F2R_gt_0. reflexivity. Qed.
Lemma add_up x s : numeric x -> finite s -> 0 <= real s -> le64 x (dadd x s).
Proof.
  intros N F S. destruct (numeric_cases x N) as [->|[->|FX]].
  - assert (dadd ninf s = ninf) as -> by (destruct s; try discriminate F; reflexivity). apply le_refl64. reflexivity.
  - assert (dadd pinf s = pinf) as -> by (destruct s; try discriminate F; reflexivity). apply le_refl64. reflexivity.
  - pose proof (Bplus_correct 53 1024 _ _ mode_NE x s FX F) as H. fold (dadd x s) in H.
    destruct (Rlt_bool_spec (Rabs (round radix2 (SpecFloat.fexp 53 1024) (round_mode mode_NE) (B2R x + B2R s))) (bpow radix2 1024)) as [L|L].
    + destruct H as (E & FF & _). apply le_spec. split; [apply fin_numeric; auto|]. split; [apply fin_numeric; auto|]. right. right. split; [auto|]. split; [auto|].
      unfold real at 2. rewrite E. change (real x <= nearest (real x + real s)). apply nearest_ge; [apply real_fmt|lra].
    + destruct H as (E & SG). cbn in E. assert (EP : dadd x s = pinf).
      { assert (Bsign x = false).
        { destruct (Bsign x) eqn:SX; auto. exfalso. pose proof (sign_neg x SX).
          assert (SS : Bsign s = true) by (destruct (Bsign s); auto; discriminate). pose proof (sign_neg s SS).
          replace (B2R x + B2R s) with (real x) in L by (unfold real in *; lra). change (round radix2 (SpecFloat.fexp 53 1024) (round_mode mode_NE) (real x)) with (nearest (real x)) in L.
          rewrite nearest_fmt in L by apply real_fmt. pose proof (finite_largest x FX). pose proof largest_lt. lra. }
        rewrite H in E. destruct (dadd x s) as [a|[|]| |a m e H']; cbn in E; try discriminate; reflexivity. }
      rewrite EP. apply le_spec. split; [apply fin_numeric; auto|]. split; [reflexivity|]. auto.
Qed.
Lemma sub_down x s : numeric x -> finite s -> 0 <= real s -> le64 (dsub x s) x.
Proof.
  intros N F S. destruct (numeric_cases x N) as [->|[->|FX]].
  - assert (dsub ninf s = ninf) as -> by (destruct s; try discriminate F; reflexivity). apply le_refl64. reflexivity.
  - assert (dsub pinf s = pinf) as -> by (destruct s; try discriminate F; reflexivity). apply le_refl64. reflexivity.
  - pose proof (Bminus_correct 53 1024 _ _ mode_NE x s FX F) as H. fold (dsub x s) in H.
    destruct (Rlt_bool_spec (Rabs (round radix2 (SpecFloat.fexp 53 1024) (round_mode mode_NE) (B2R x - B2R s))) (bpow radix2 1024)) as [L|L].
    + destruct H as (E & FF & _). apply le_spec. split; [apply fin_numeric; auto|]. split; [apply fin_numeric; auto|]. right. right. split; [auto|]. split; [auto|].
      unfold real at 1. rewrite E. change (nearest (real x - real s) <= real x). apply nearest_le; [apply real_fmt|lra].
    + destruct H as (E & SG). cbn in E. assert (EP : dsub x s = ninf).
      { assert (Bsign x = true).
        { destruct (Bsign x) eqn:SX; auto. exfalso. pose proof (sign_pos x SX).
          assert (SS : Bsign s = true) by (destruct (Bsign s); auto; discriminate). pose proof (sign_neg s SS).
          replace (B2R x - B2R s) with (real x) in L by (unfold real in *; lra). change (round radix2 (SpecFloat.fexp 53 1024) (round_mode mode_NE) (real x)) with (nearest (real x)) in L.
          rewrite nearest_fmt in L by apply real_fmt. pose proof (finite_largest x FX). pose proof largest_lt. lra. }
        rewrite H in E. destruct (dsub x s) as [a|[|]| |a m e H']; cbn in E; try discriminate; reflexivity. }
      rewrite EP. apply le_spec. split; [reflexivity|]. split; [apply fin_numeric; auto|]. auto.
Qed.

(** ** The loops *)
Definition step_ok (n : nat) (s : double) : Prop := exists k, finite s /\ real s = bp (Z.of_nat k) /\ (k + n <= 200)%nat.
Lemma step_double n s : step_ok (S n) s -> step_ok n (dmul s d2).
Proof.
  intros (k & F & E & Hk). exists (S k). destruct d2_ok as (F2 & E2).
  assert (M : real s * real d2 = bp (Z.of_nat (S k))) by (rewrite E, E2, Nat2Z.inj_succ; unfold Z.succ; rewrite bpow_plus, bpow_1; cbn; ring).
  destruct (dmul_ok s d2 F F2) as (G1 & G2).
  { rewrite M, Rabs_pos_eq by apply Rlt_le, bp_pos. apply bp_largest. lia. }
  split; [auto|]. split; [|lia]. rewrite G2, M. apply nearest_fmt, fmt_bp. lia.
Qed.
Lemma step_pos n s : step_ok n s -> finite s /\ 0 <= real s.
Proof. intros (k & F & E & _). split; [auto|]. rewrite E. apply Rlt_le, bp_pos. Qed.
Lemma step_one : step_ok 128 d1.
Proof. exists 0%nat. destruct d1_ok as (A & B). split; [auto|]. split; [rewrite B; reflexivity|lia]. Qed.

Definition has_values (f : double -> double) (b : fbracket) : Prop := f_ylb b = f (f_xlb b) /\ f_yub b = f (f_xub b).

Lemma lower_ok f yd : forall n s b b', numeric (f_xub b) -> f_yub b = f (f_xub b) -> step_ok n s -> f_lower_loop f yd n s b = (b', 0%Z) ->
  le64 (f_xlb b') (f_xub b') /\ has_values f b'.
Proof.
  induction n as [|n IH]; intros s b b' N E HS; cbn [f_lower_loop]; [discriminate|].
  destruct (f_flat _); [discriminate|]. cbn [f_xlb f_ylb f_xub f_yub]. destruct (step_pos _ _ HS) as (F & P). pose proof (sub_down _ s N F P) as D.
  destruct (dgt (f (dsub (f_xub b) s)) yd).
  - intros H. apply IH in H; auto; cbn [f_xlb f_ylb f_xub f_yub]; auto; [apply (le_numeric _ _ D)|]. apply step_double. auto.
  - intros H. injection H as <-. cbn [f_xlb f_ylb f_xub f_yub]. split; [exact D|]. split; [reflexivity|exact E].
Qed.
Lemma upper_ok f yd : forall n s b b', numeric (f_xlb b) -> f_ylb b = f (f_xlb b) -> step_ok n s -> f_upper_loop f yd n s b = (b', 0%Z) ->
  le64 (f_xlb b') (f_xub b') /\ has_values f b'.
Proof.
  induction n as [|n IH]; intros s b b' N E HS; cbn [f_upper_loop]; [discriminate|].
  destruct (f_flat _); [discriminate|]. cbn [f_xlb f_ylb f_xub f_yub]. destruct (step_pos _ _ HS) as (F & P). pose proof (add_up _ s N F P) as D.
  destruct (dlt (f (dadd (f_xlb b) s)) yd).
  - intros H. apply IH in H; auto; cbn [f_xlb f_ylb f_xub f_yub]; auto; [apply (le_numeric _ _ D)|]. apply step_double. auto.
  - intros H. injection H as <-. cbn [f_xlb f_ylb f_xub f_yub]. split; [exact D|]. split; [exact E|reflexivity].
Qed.
Lemma upper_nan f yd s n ylb xub yub : f nan = nan -> f_upper_loop f yd (S n) s (MkFB nan ylb xub yub) = (MkFB nan ylb nan nan, 0%Z).
Proof.
  intros E. cbn [f_upper_loop f_xlb f_ylb f_xub f_yub]. assert (dadd nan s = nan) as -> by reflexivity. rewrite E. unfold f_flat. cbn [f_xlb f_ylb f_xub f_yub].
  rewrite sub_nan_l. rewrite sub_nan_r. rewrite gt_nan_l, andb_false_r, lt_nan_l. reflexivity.
Qed.
Lemma bracket_info f yd x0 x1 : let i := snd (f_FindBracket f x0 x1 yd) in i = 0%Z \/ i = (-1)%Z \/ i = (-2)%Z.
Proof.
  cbv zeta. unfold f_FindBracket.
  assert (A : forall n s b, let i := snd (f_lower_loop f yd n s b) in i = 0%Z \/ i = (-1)%Z \/ i = (-2)%Z).
  { induction n as [|n IH]; intros s b; cbn [f_lower_loop]; cbv zeta; [auto|]. destruct (f_flat _); [auto|]. destruct (dgt _ _); [apply IH|auto]. }
  assert (B : forall n s b, let i := snd (f_upper_loop f yd n s b) in i = 0%Z \/ i = (-1)%Z \/ i = (-2)%Z).
  { induction n as [|n IH]; intros s b; cbn [f_upper_loop]; cbv zeta; [auto|]. destruct (f_flat _); [auto|]. destruct (dlt _ _); [apply IH|auto]. }
  destruct (dgt _ _); [apply A|apply B].
Qed.
(** After a successful search: the ends are ordered, or the starting point is a NaN. *)
Lemma bracket_ok f yd x0 b : f nan = nan -> f_FindBracket f x0 x0 yd = (b, 0%Z) ->
  has_values f b /\ (f_xlb b = nan \/ le64 (f_xlb b) (f_xub b)).
Proof.
  intros EN. unfold f_FindBracket, f_bracket_its. destruct (is_nan x0) eqn:N0.
  - apply nan_eq in N0. subst x0. rewrite EN, gt_nan_l. change 128%nat with (S 127). rewrite upper_nan by auto. intros H. injection H as <-. cbn [f_xlb]. split; [split; auto|auto].
  - destruct (dgt (f x0) yd); intros H.
    + apply lower_ok in H; [tauto|exact N0|reflexivity|apply step_one].
    + apply upper_ok in H; [tauto|exact N0|reflexivity|apply step_one].
Qed.

Section Loop.
Variables (L : libm2) (f : double -> double) (yd xtol ftol nhalf : double).
Hypothesis Hf : nondecreasing64 f.
Hypothesis Hy : finite yd.
Hypothesis Ht : lt64 d0 ftol.
Lemma equal_returns y : le64 y yd -> le64 yd y -> dlt (Babs (dsub y yd)) ftol = true.
Proof.
  intros A B. apply le_spec in A, B. destruct A as (NY & _ & A). destruct B as (_ & _ & B). destruct (fin_neq _ Hy) as (Y1 & Y2).
  assert (FY : finite y). { destruct (numeric_cases y NY) as [->|[->|]]; auto; [destruct B as [B|[B|(_ & B & _)]]|destruct A as [A|[A|(A & _)]]]; try congruence; discriminate. }
  assert (E : real y = real yd). { destruct (fin_neq _ FY). destruct A as [A|[A|(_ & _ & A)]]; try congruence. destruct B as [B|[B|(_ & _ & B)]]; try congruence. lra. }
  destruct (dsub_ok y yd FY Hy) as (F & V & _). { rewrite E, Rminus_diag_eq, Rabs_R0 by auto. pose proof largest_pos. lra. }
  rewrite E, Rminus_diag_eq in V by auto. rewrite nearest_fmt in V by apply fmt_0.
  assert (FA : finite (Babs (dsub y yd))) by (unfold finite; rewrite is_finite_Babs; exact F).
  assert (VA : real (Babs (dsub y yd)) = 0) by (unfold real in *; rewrite B2R_Babs, V; apply Rabs_R0).
  apply lt_true. destruct d0_ok as (F0 & V0). unfold lt64 in *. destruct (is_finite ftol) eqn:FT.
  - rewrite cmp_fin in * by auto. rewrite V0 in Ht. rewrite VA. exact Ht.
  - destruct ftol as [s|[|]| |s m e H]; try discriminate FT; try discriminate Ht. change (B754_infinity false) with pinf. rewrite cmp_pinf by (apply fin_numeric; auto).
    destruct (Babs (dsub y yd)) as [s'|[|]| |s' m' e' H']; try reflexivity; discriminate FA.
Qed.
Definition kept (b : fbracket) : Prop := has_values f b /\ (f_xlb b = nan \/ le64 (f_xlb b) (f_xub b) /\ le64 (f (f_xlb b)) yd /\ le64 yd (f (f_xub b))).
Lemma loop_ok : forall n it b, kept b ->
  match f_itp_loop L f yd xtol ftol nhalf n it b with
  | FReturned x i => lt64 (Babs (dsub (f x) yd)) ftol /\ (i < it + n)%nat
  | FLeft b' i => kept b' /\ (i <= it + n)%nat /\ (i = (it + n)%nat \/ lt64 (dsub (f_xub b') (f_xlb b')) xtol \/ lt64 (dsub (f (f_xub b')) (f (f_xlb b'))) ftol)
  end.
Proof.
  pose proof (fin_numeric yd Hy) as Ny. destruct Hf as (H1 & H2 & H3). induction n as [|n IH]; intros it b K; cbn [f_itp_loop]; [split; [exact K|]; split; [lia|left; lia]|].
  destruct (dlt (Babs _) ftol) eqn:C1; [apply lt_true in C1; split; [exact C1|lia]|].
  set (xc := f_Find_x_ITP L b dtenth d2 nhalf d1 it xtol). destruct K as ((V1 & V2) & K).
  match goal with |- context [dsub (f_xub ?b1) (f_xlb ?b1)] => set (b' := b1) in * end.
  assert (K' : kept b').
  { unfold b'. destruct (is_nan xc) eqn:NX.
    - apply nan_eq in NX. rewrite NX, H2, gt_nan_l. split; [split; auto|left; reflexivity].
    - pose proof (H1 xc NX) as NY. destruct K as [K|(A & B & C)].
      + exfalso. assert (xc = nan) as E; [|rewrite E in NX; discriminate]. unfold xc, f_Find_x_ITP. rewrite K, add_nan_r, mul_nan_r. apply sub_nan_l.
      + destruct (dgt (f xc) yd) eqn:G.
        * apply gt_true in G. split; [split; auto|]. right. cbn [f_xlb f_xub]. split; [|split; [auto|apply lt_le; auto]].
          destruct (le_numeric _ _ A) as (NL & _). destruct (dlt xc (f_xlb b)) eqn:Q; [|apply not_lt; auto]. exfalso. apply lt_true, lt_le, H3 in Q.
          apply (lt_not_le _ _ G). eapply le_trans64; eauto.
        * apply not_gt in G; auto. split; [split; auto|]. right. cbn [f_xlb f_xub]. split; [|split; auto].
          destruct (le_numeric _ _ A) as (_ & NU). destruct (dgt xc (f_xub b)) eqn:Q; [|apply not_gt; auto]. exfalso. apply gt_true, lt_le, H3 in Q.
          unfold xc in Q, G. rewrite equal_returns in C1; [discriminate C1|exact G|]. eapply le_trans64; [exact C|exact Q]. }
  destruct (dlt (dsub (f_xub b') (f_xlb b')) xtol) eqn:T1; [apply lt_true in T1; cbn [orb]; split; [exact K'|]; split; [lia|auto]|].
  destruct (dlt (dsub (f_yub b') (f_ylb b')) ftol) eqn:T2.
  - apply lt_true in T2. cbn [orb]. split; [exact K'|]. split; [lia|]. right. right. destruct K' as ((<- & <-) & _). exact T2.
  - cbn [orb]. specialize (IH (S it) b' K'). destruct (f_itp_loop L f yd xtol ftol nhalf n (S it) b') as [x i|b1 i]; [split; [apply IH|destruct IH; lia]|].
    destruct IH as (I1 & I2 & I3). split; [auto|]. split; [lia|]. replace (it + S n)%nat with (S it + n)%nat by lia. exact I3.
Qed.
End Loop.
