(** C81: coefficients set from MATLAB are the numbers given. *)
From Coq Require Import ZArith Reals Lra.
From Flocq Require Import Core IEEE754.Binary IEEE754.Bits.
From Verif Require Import Base SpecBytes MatCoeffModel.

(** ** Bytes *)
Lemma le_bytes_length n z : length (le_bytes n z) = n.
Proof. revert z; induction n as [|n IH]; intros z; cbn; auto. Qed.
Lemma of_le_bytes_le n z : of_le_bytes (le_bytes n z) = (z mod 256 ^ Z.of_nat n)%Z.
Proof.
  revert z; induction n as [|n IH]; intros z.
  - cbn. now rewrite Z.mod_1_r.
  - cbn [le_bytes of_le_bytes]. rewrite IH, Nat2Z.inj_succ, Z.pow_succ_r by lia.
    rewrite (Z.rem_mul_r z 256 (256 ^ Z.of_nat n)); [reflexivity|lia|]. apply Z.pow_pos_nonneg; lia.
Qed.
Lemma bits_range d : (0 <= bits_of_b64 d < 2 ^ 64)%Z.
Proof. exact (bits_of_binary_float_range 52 11 eq_refl eq_refl d). Qed.
Lemma double_roundtrip d : b64_of_bits (of_le_bytes (le_bytes 8 (bits_of_b64 d))) = d.
Proof.
  rewrite of_le_bytes_le. change (256 ^ Z.of_nat 8)%Z with (2 ^ 64)%Z.
  rewrite Z.mod_small by apply bits_range.
  exact (binary_float_of_bits_of_binary_float 52 11 eq_refl eq_refl eq_refl d).
Qed.

Lemma load_pieces {A} (g : A -> list Z) (l : list A) n pre :
  (forall a, length (g a) = 8) -> forall i, length pre = 8 * i ->
  load_from (View1 n (pre ++ flat_map g l)) i (length l) = Ok (map (fun a => b64_of_bits (of_le_bytes (g a))) l).
Proof.
  intros G. revert pre. induction l as [|a l IH]; intros pre i Hi; [reflexivity|].
  cbn [length load_from flat_map map]. unfold load at 1. cbn [bytes].
  rewrite !app_length, G, Hi.
  destruct (Nat.leb_spec (8 * i + 8) (8 * i + (8 + length (flat_map g l)))) as [_|H]; [|lia].
  rewrite <- Hi at 1. rewrite skipn_app, skipn_all, Nat.sub_diag. cbn [skipn app].
  rewrite <- (G a) at 1. rewrite firstn_app, firstn_all, Nat.sub_diag. cbn [firstn]. rewrite app_nil_r. cbn [obind].
  rewrite app_assoc. rewrite (IH (pre ++ g a) (i + 1)); [reflexivity|].
  rewrite app_length, G, Hi. lia.
Qed.
Lemma load_short v n : 1 <= n -> forall i, length (bytes v) < 8 * (i + n) -> load_from v i n = UB.
Proof.
  induction n as [|n IH]; [lia|]. intros _ i H. cbn [load_from]. unfold load at 1.
  destruct (Nat.leb_spec (8 * i + 8) (length (bytes v))) as [L|L]; [|reflexivity]. cbn [obind].
  rewrite IH; [reflexivity|lia|lia].
Qed.
Lemma flat_map_length {A} (g : A -> list Z) w l : (forall a, length (g a) = w) -> length (flat_map g l) = w * length l.
Proof. intros G. induction l as [|a l IH]; cbn; [lia|]. rewrite app_length, G, IH. lia. Qed.
Lemma memory_length x : length (memory x) =
  (match x with Doubles _ => 8 | Singles _ => 4 | Ints c _ => width c end) * numel x.
Proof. destruct x; cbn [memory numel]; apply flat_map_length; intros; apply le_bytes_length. Qed.

Lemma copy_doubles l : 1 <= length l -> copy_in (MexToKokkos1d (Doubles l)) = Ok l.
Proof.
  intros H. unfold copy_in, MexToKokkos1d. cbn [vlen numel memory]. rewrite Nat.max_r by exact H.
  rewrite (load_pieces (fun d => le_bytes 8 (bits_of_b64 d)) l _ []); [|intros; apply le_bytes_length|reflexivity].
  f_equal. rewrite <- (map_id l) at 2. apply map_ext. exact double_roundtrip.
Qed.
Lemma copy_narrow x : 1 <= numel x -> length (memory x) < 8 * numel x -> copy_in (MexToKokkos1d x) = UB.
Proof.
  intros H L. unfold copy_in, MexToKokkos1d. cbn [vlen]. rewrite Nat.max_r by exact H.
  apply load_short; [exact H|exact L].
Qed.
Lemma copy_empty x : numel x = 0 -> copy_in (MexToKokkos1d x) = UB.
Proof.
  intros H. unfold copy_in, MexToKokkos1d. cbn [vlen]. rewrite H. apply load_short; [lia|].
  cbn [bytes]. rewrite memory_length, H. lia.
Qed.
Lemma copy_wide c l : width c = 8 -> 1 <= length l ->
  copy_in (MexToKokkos1d (Ints c l)) = Ok (map (fun z => b64_of_bits (z mod 2 ^ 64)) l).
Proof.
  intros W H. unfold copy_in, MexToKokkos1d. cbn [vlen numel memory]. rewrite Nat.max_r by exact H.
  rewrite (load_pieces (le_bytes (width c)) l _ []); [|intros; now rewrite le_bytes_length|reflexivity].
  f_equal. apply map_ext. intros z. rewrite of_le_bytes_le, W. reflexivity.
Qed.

(** ** Double vectors *)
(** Setting a vector of doubles with as many elements as there are coefficients: the coefficients
    are these doubles, bit for bit, an evaluation uses them, and Coeffs gives them back. *)
Theorem C81_doubles : forall f xs, 1 <= length xs -> length xs = nc f ->
  exists g, ml_SetCoeffs f (Doubles xs) = Ok g /\ nc g = nc f /\
    ml_Coeffs g = Doubles xs /\ ml_uses g = Ok xs /\ cpp_uses g = Ok xs.
Proof.
  intros f xs H L. exists (Fn (nc f) (Some xs)).
  assert (coeffs_read (Fn (nc f) (Some xs)) = Ok xs) as E.
  { unfold coeffs_read. cbn [nc saved]. rewrite <- L, Nat.leb_refl. now rewrite firstn_all. }
  repeat split.
  - unfold ml_SetCoeffs, SetCoeffs. rewrite copy_doubles by exact H.
    unfold MexToKokkos1d at 1. cbn [vlen numel]. rewrite Nat.max_r by exact H. rewrite L, Nat.eqb_refl.
    destruct (saved f); reflexivity.
  - exact E.
  - unfold cpp_uses, CheckCoefficients. cbn [nc saved]. rewrite L, Nat.eqb_refl, orb_true_r. exact E.
Qed.
(** Once coefficients are set, vectors of any class with another number of elements are
    rejected. (An empty vector counts as one of length one.) *)
Theorem C81_wrong_length_partial : forall f s x, saved f = Some s -> 1 <= numel x -> numel x <> nc f ->
  ml_SetCoeffs f x = Throw.
Proof.
  intros f s x E H N. unfold ml_SetCoeffs, SetCoeffs. rewrite E.
  unfold MexToKokkos1d at 1. cbn [vlen]. rewrite Nat.max_r by exact H.
  destruct (Nat.eqb_spec (numel x) (nc f)); [contradiction|reflexivity].
Qed.
(** After any history of calls with non-empty vectors of doubles, of which the first fits, the
    coefficients are those of the last call that fits. *)
Theorem C81_history : forall n first l, 1 <= n -> length first = n -> Forall (fun x => 1 <= length x) l ->
  exists g, session (fresh n) (map Doubles (first :: l)) = Ok g /\
    ml_Coeffs g = Doubles (last_of_length n l first) /\ ml_uses g = Ok (last_of_length n l first).
Proof.
  intros n first l Hn Hf Hl.
  assert (G : forall l s, Forall (fun x => 1 <= length x) l -> length s = n ->
    session (Fn n (Some s)) (map Doubles l) = Ok (Fn n (Some (last_of_length n l s))) /\ length (last_of_length n l s) = n).
  { clear. induction l as [|x l IH]; intros s Hl Hs; [split; [reflexivity|exact Hs]|].
    pose proof (Forall_inv Hl) as Hx. cbn beta in Hx. apply Forall_inv_tail in Hl.
    cbn [map session last_of_length]. unfold ml_SetCoeffs, SetCoeffs. cbn [saved nc]. rewrite copy_doubles by exact Hx.
    unfold MexToKokkos1d. cbn [vlen numel]. rewrite Nat.max_r by exact Hx.
    destruct (Nat.eqb_spec (length x) n) as [E|E]; cbn [negb obind]; apply IH; auto. }
  destruct (G l first Hl Hf) as [E L].
  exists (Fn n (Some (last_of_length n l first))). split; [|split; [reflexivity|]].
  - cbn [map session]. unfold ml_SetCoeffs, SetCoeffs, fresh. cbn [saved nc]. rewrite copy_doubles by lia. cbn [obind]. exact E.
  - unfold ml_uses, coeffs_read. cbn [nc saved]. rewrite <- L at 1. rewrite Nat.leb_refl. rewrite <- L at 1. now rewrite firstn_all.
Qed.
(** The first call is accepted whatever the number of elements. With too few, an evaluation in
    MATLAB reads past the coefficients; with too many it uses the first ones. C++ throws. *)
Theorem C81_first_length_refuted : forall n xs, 1 <= n -> 1 <= length xs -> length xs <> n ->
  exists g, ml_SetCoeffs (fresh n) (Doubles xs) = Ok g /\ cpp_uses g = Throw /\
    ml_uses g = if n <? length xs then Ok (firstn n xs) else UB.
Proof.
  intros n xs Hn Hx N. exists (Fn n (Some xs)). split; [|split].
  - unfold ml_SetCoeffs, SetCoeffs, fresh. cbn [saved nc]. now rewrite copy_doubles by exact Hx.
  - unfold cpp_uses, CheckCoefficients. cbn [nc saved]. destruct (Nat.eqb_spec n 0); [lia|].
    destruct (Nat.eqb_spec (length xs) n); [contradiction|reflexivity].
  - unfold ml_uses, coeffs_read. cbn [nc saved].
    destruct (Nat.leb_spec n (length xs)), (Nat.ltb_spec n (length xs)); try reflexivity; lia.
Qed.
(** Evaluating before any coefficients are set: C++ throws, MATLAB reads outside the memory. *)
Theorem C81_unset_refuted : forall n, 1 <= n -> cpp_uses (fresh n) = Throw /\ ml_uses (fresh n) = UB.
Proof. intros [|n] H; [lia|]. split; reflexivity. Qed.

(** ** Other classes *)
(** Classes with elements of fewer than eight bytes, single among them: the call reads past the end
    of the MATLAB array. *)
Theorem C81_narrow_refuted : forall f x, 1 <= numel x -> numel x = nc f \/ saved f = None ->
  match x with Doubles _ => False | Singles _ => True | Ints c _ => width c < 8 end ->
  ml_SetCoeffs f x = UB.
Proof.
  intros f x H L C. unfold ml_SetCoeffs, SetCoeffs. rewrite copy_narrow; [|exact H|].
  2: { rewrite memory_length. destruct x; [contradiction|lia|nia]. }
  unfold MexToKokkos1d. cbn [vlen]. rewrite Nat.max_r by exact H.
  destruct (saved f); [|reflexivity]. destruct L as [L|L]; [|discriminate L]. now rewrite L, Nat.eqb_refl.
Qed.

Lemma small_bits v : (0 < v < 2 ^ 52)%Z -> B2R 53 1024 (b64_of_bits v) = (IZR v * bpow radix2 (-1074))%R.
Proof.
  intros H. unfold b64_of_bits, binary_float_of_bits. rewrite B2R_FF2B.
  unfold binary_float_of_bits_aux, split_bits.
  change (2 ^ 52)%Z with 4503599627370496%Z in *.
  rewrite (Z.mod_small v 4503599627370496) by lia.
  rewrite (Z.div_small v 4503599627370496) by lia.
  destruct v as [|p|p]; [lia| |lia]. cbn. unfold F2R. cbn.
  replace (9223372036854775808 <=? Z.pos p)%Z with false by (symmetry; apply Z.leb_gt; lia). reflexivity.
Qed.
(** int64 and uint64 vectors are accepted, and their bits are taken for those of doubles: v becomes
    v * 2^-1074 for every v below 2^52, so every coefficient is practically zero. *)
Theorem C81_int64_refuted : forall f c l, width c = 8 -> 1 <= length l -> length l = nc f ->
  Forall (fun v => 0 < v < 2 ^ 52)%Z l ->
  exists g, ml_SetCoeffs f (Ints c l) = Ok g /\
    numbers (ml_Coeffs g) = map (fun v => IZR v * bpow radix2 (-1074))%R l /\
    numbers (ml_Coeffs g) <> numbers (Ints c l).
Proof.
  intros f c l W H L F.
  exists (Fn (nc f) (Some (map (fun z => b64_of_bits (z mod 2 ^ 64)) l))).
  assert (numbers (Doubles (map (fun z => b64_of_bits (z mod 2 ^ 64)) l)) = map (fun v => IZR v * bpow radix2 (-1074))%R l) as E.
  { cbn [numbers]. rewrite map_map. apply map_ext_in. intros v I. rewrite Forall_forall in F. specialize (F v I).
    rewrite Z.mod_small by (change (2 ^ 52)%Z with 4503599627370496%Z in F; change (2 ^ 64)%Z with 18446744073709551616%Z; lia).
    apply small_bits, F. }
  split; [|split; [exact E|]].
  - unfold ml_SetCoeffs, SetCoeffs. rewrite copy_wide by assumption.
    unfold MexToKokkos1d at 1. cbn [vlen numel]. rewrite Nat.max_r by exact H. rewrite L, Nat.eqb_refl. cbn [negb obind].
    destruct (saved f); reflexivity.
  - unfold ml_Coeffs. cbn [saved]. rewrite E. cbn [numbers]. destruct l as [|v l]; [cbn in H; lia|].
    cbn [map]. intros X. injection X as X _. pose proof (Forall_inv F) as V. cbn beta in V.
    assert (0 < IZR v)%R by (apply (IZR_lt 0); lia).
    assert (bpow radix2 (-1074) < bpow radix2 0)%R as B by (apply bpow_lt; lia). cbn [bpow] in B.
    fold (bpow radix2 (-1074)) in *. nra.
Qed.
(** An empty vector becomes a view of one entry of an empty array. It is never accepted, not even by
    a map without coefficients. *)
Theorem C81_empty_refuted : forall f x, numel x = 0 ->
  ml_SetCoeffs f x = if (match saved f with None => true | Some _ => false end) || (nc f =? 1) then UB else Throw.
Proof.
  intros f x H. unfold ml_SetCoeffs, SetCoeffs. rewrite copy_empty by exact H.
  unfold MexToKokkos1d. cbn [vlen]. rewrite H. cbn [Nat.max].
  destruct (saved f); [|reflexivity]. cbn [orb]. rewrite Nat.eqb_sym. destruct (nc f =? 1); reflexivity.
Qed.
(** So the calls that return are those with a non-empty vector of eight-byte elements that fits or
    is the first. *)
Theorem C81_accepted : forall f x,
  (exists g, ml_SetCoeffs f x = Ok g) <->
  1 <= numel x /\ (saved f = None \/ numel x = nc f) /\
  match x with Doubles _ => True | Singles _ => False | Ints c _ => width c = 8 end.
Proof.
  intros f x. split.
  - intros [g E]. destruct (Nat.eq_dec (numel x) 0) as [Z|Z].
    { rewrite C81_empty_refuted in E by exact Z. destruct (_ || _); discriminate E. }
    split; [lia|]. split.
    + destruct (saved f) as [s|] eqn:S; [right|left; reflexivity].
      destruct (Nat.eq_dec (numel x) (nc f)) as [e|e]; [exact e|].
      rewrite (C81_wrong_length_partial f s) in E by (auto; lia). discriminate E.
    + assert (forall C : match x with Doubles _ => False | Singles _ => True | Ints c _ => width c < 8 end, False) as K.
      { intros C. destruct (saved f) as [s|] eqn:S.
        - destruct (Nat.eq_dec (numel x) (nc f)) as [e|e].
          + rewrite C81_narrow_refuted in E by (auto; lia). discriminate E.
          + rewrite (C81_wrong_length_partial f s) in E by (auto; lia). discriminate E.
        - rewrite C81_narrow_refuted in E by (auto; lia). discriminate E. }
      destruct x as [l|l|c l]; [exact I|exact (K I)|].
      destruct (Nat.lt_ge_cases (width c) 8) as [W|W]; [exfalso; exact (K W)|]. destruct c; cbn in *; lia.
  - intros (H & L & C). unfold ml_SetCoeffs, SetCoeffs.
    assert (exists l, copy_in (MexToKokkos1d x) = Ok l) as [r E].
    { destruct x as [l|l|c l]; [|contradiction|]; eexists; [apply copy_doubles, H|apply copy_wide; assumption]. }
    rewrite E. unfold MexToKokkos1d. cbn [vlen]. rewrite Nat.max_r by exact H.
    destruct (saved f); [|eexists; reflexivity]. destruct L as [L|L]; [discriminate L|]. rewrite L, Nat.eqb_refl. eexists; reflexivity.
Qed.

(** ** Cases *)
(** 1, -2.5 and a NaN with a payload; 0x3FF0..., 0xC004..., 0x7FF8...2A *)
Definition ex_doubles : list binary64 :=
  map b64_of_bits [4607182418800017408; 13835621305155846144; 9221120237041090602]%Z.
Example ex_set : match ml_SetCoeffs (fresh 3) (Doubles ex_doubles) with
  | Ok g => match saved g with Some s => map bits_of_b64 s | None => [] end
  | _ => [] end = [4607182418800017408; 13835621305155846144; 9221120237041090602]%Z.
Proof. vm_compute. reflexivity. Qed.
Example ex_bytes : memory (Ints I16 [(-2)%Z; 258%Z]) = [254; 255; 2; 1]%Z.
Proof. reflexivity. Qed.
(** int64(1) is set as the smallest positive double. *)
Example ex_int64 : match ml_SetCoeffs (fresh 1) (Ints I64 [1%Z]) with
  | Ok g => match saved g with Some [d] => bits_of_b64 d | _ => 0%Z end | _ => 0%Z end = 1%Z.
Proof. vm_compute. reflexivity. Qed.
Example ex_session : last_of_length 2 [[B754_zero 53 1024 true]; [B754_zero 53 1024 true; B754_zero 53 1024 false]] [] =
  [B754_zero 53 1024 true; B754_zero 53 1024 false].
Proof. reflexivity. Qed.

Print Assumptions C81_doubles.
Print Assumptions C81_wrong_length_partial.
Print Assumptions C81_history.
Print Assumptions C81_first_length_refuted.
Print Assumptions C81_unset_refuted.
Print Assumptions C81_narrow_refuted.
Print Assumptions C81_int64_refuted.
Print Assumptions C81_empty_refuted.
Print Assumptions C81_accepted.
