(* Mixed precision fused multiply-add: theorems. *)
From Coq Require Import ZArith QArith Qabs Qround Bool Lia Lqa Qfield.
From Verif Require Import QUtil FpFormatModel FpFormatSpec FpFormatProofs FpFormatProofs2 FpFormatProps TruncProps AdderModel AdderProofs AdderProofs2 AdderProofs3 AdderProps MpfmaModel MpfmaProofs MpfmaProofs2 MpfmaProofs3.
Open Scope Z_scope.

(* position of the product below the top of z: exponents of x, y and z without bias *)
Definition gap (F G : fpfmt) (Ex Ey Ez : Z) : Z := (Ex - ieee_bias F) + (Ey - ieee_bias F) - (Ez - ieee_bias G) + fsz G + 4.
(* the exponent arithmetic of max(e)+2 bits does not wrap *)
Definition gap_fits (F G : fpfmt) (Ex Ey Ez : Z) : Prop :=
  - 2 ^ (Z.max (esz F) (esz G) + 1) <= gap F G Ex Ey Ez < 2 ^ (Z.max (esz F) (esz G) + 1).
Lemma gap_ediff : forall F G Ex Ey Ez, ediff F G Ex Ey Ez = gap F G Ex Ey Ez.
Proof. intros. unfold ediff, gap, msz. lia. Qed.
Lemma gap_hd : forall F G Ex Ey Ez, gap_fits F G Ex Ey Ez ->
  - 2 ^ (mp_esize F G - 1) <= ediff F G Ex Ey Ez < 2 ^ (mp_esize F G - 1).
Proof. intros F G Ex Ey Ez H. rewrite gap_ediff. unfold mp_esize. replace (Z.max (esz F) (esz G) + 2 - 1) with (Z.max (esz F) (esz G) + 1) by lia. exact H. Qed.

(* it never wraps with one format whose exponent range covers its precision (all IEEE formats) *)
Theorem gap_fits_same : forall F Ex Ey Ez, fmt_ok F -> fsz F + 1 <= 2 ^ (esz F - 1) ->
  0 < Ex < 2 ^ esz F - 1 -> 0 < Ey < 2 ^ esz F - 1 -> 0 < Ez < 2 ^ esz F - 1 -> gap_fits F F Ex Ey Ez.
Proof.
  intros F Ex Ey Ez Hok Hp H1 H2 H3. pose proof (B_eq F Hok) as HB. destruct Hok as [He Hf]. unfold gap_fits, gap. rewrite Z.max_id, Z.pow_add_r by lia.
  unfold ieee_bias in *. lia.
Qed.
Theorem gap_fits_mixed : forall Ex Ey Ez, (0 < Ex < 31 -> 0 < Ey < 31 -> 0 < Ez < 255 -> gap_fits ML_Binary16 ML_Binary32 Ex Ey Ez) /\
  (0 < Ex < 255 -> 0 < Ey < 255 -> 0 < Ez < 2047 -> gap_fits ML_Binary32 ML_Binary64 Ex Ey Ez).
Proof. intros Ex Ey Ez. split; intros H1 H2 H3; unfold gap_fits, gap, ieee_bias; cbn; lia. Qed.

(* ---- z more than f+4 binades above the product: correctly rounded sum, if it does not round
   up to the next power of two *)
Theorem mpfma_far_correct_partial : forall F G x y z sx sy sz Ex Mx Ey My Ez Mz k, fmt_ok F -> fmt_ok G ->
  normal_word F x sx Ex Mx -> normal_word F y sy Ey My -> normal_word G z sz Ez Mz -> gap_fits F G Ex Ey Ez ->
  gap F G Ex Ey Ez < 0 ->
  let q := (normal_val F sx Ex Mx * normal_val F sy Ey My + normal_val G sz Ez Mz)%Q in
  1 - ieee_bias G <= k <= ieee_bias G -> (p2 k <= Qabs q)%Q -> (Qabs q < p2 k * (2 - p2 (- (fsz G + 1))))%Q ->
  correctly_rounded G q (mpfma F G x y z).
Proof.
  intros F G x y z sx sy sz Ex Mx Ey My Ez Mz k HF HG Hx Hy Hz Hfit Hneg q Hk L1 L2.
  apply (z_branch F G HF HG x y z sx sy sz Ex Mx Ey My Ez Mz Hx Hy Hz (gap_hd _ _ _ _ _ Hfit) k); auto. rewrite gap_ediff. auto.
Qed.
(* the only test case of the file (binary16), and 1.5 * 1.5 + 1.25 * 2^40 (binary32) *)
Example mpfma_far_case : gap ML_Binary16 ML_Binary16 4 11 22 < 0 /\ mpfma ML_Binary16 ML_Binary16 0x1231 0x2cdc 0x5b5e = 0x5b5e /\
  gap ML_Binary32 ML_Binary32 127 127 167 < 0 /\ normal_word ML_Binary32 0x53a00000 false 167 0x200000 /\
  mpfma ML_Binary32 ML_Binary32 0x3fc00000 0x3fc00000 0x53a00000 = 0x53a00000.
Proof. split; [|split; [|split; [|split]]]; try (vm_compute; reflexivity). nwc. Qed.

(* ---- otherwise the result is the rounding of half of the sum, with the product divided by
   2^(o+1-2p) when the accumulator has more than 2p-1 digits.  (o+3 <= 2p holds for one format
   of at least three digits.) *)
Definition shift_bits (F G : fpfmt) : Z := Z.max (fsz G + 2) (2 * fsz F + 2) - (2 * fsz F + 2).
Theorem mpfma_value : forall F G x y z sx sy sz Ex Mx Ey My Ez Mz k, fmt_ok F -> fmt_ok G ->
  normal_word F x sx Ex Mx -> normal_word F y sy Ey My -> normal_word G z sz Ez Mz -> gap_fits F G Ex Ey Ez ->
  0 <= gap F G Ex Ey Ez -> (gap F G Ex Ey Ez < fsz G + Z.max (fsz G + 2) (2 * fsz F + 2) + 5 \/ fsz G + 2 <= 2 * fsz F) ->
  let q := ((normal_val F sx Ex Mx * normal_val F sy Ey My * p2 (- shift_bits F G) + normal_val G sz Ez Mz) * (1 # 2))%Q in
  1 - ieee_bias G <= k <= ieee_bias G -> (p2 k <= Qabs q)%Q -> (Qabs q < p2 k * (2 - p2 (- (fsz G + 1))))%Q ->
  (xorb sx sy <> sz -> correctly_rounded G q (mpfma F G x y z)) /\ (xorb sx sy = sz -> rounded_away G q (mpfma F G x y z)).
Proof.
  intros F G x y z sx sy sz Ex Mx Ey My Ez Mz k HF HG Hx Hy Hz Hfit H0 Hw q Hk L1 L2. rewrite <- gap_ediff in H0, Hw.
  assert (Eq : q = half_sum F G sx sy sz Ex Mx Ey My Ez Mz).
  { unfold q, half_sum, shift_bits, mp_prod_size, msz. do 4 f_equal. f_equal. lia. }
  rewrite Eq in *. pose proof (N_eq F G) as EN. unfold mp_prod_size in EN. unfold msz in EN. split; intros Hs.
  - apply (sub_branch F G HF HG x y z sx sy sz Ex Mx Ey My Ez Mz Hx Hy Hz (gap_hd _ _ _ _ _ Hfit) k); auto. unfold msz. lia.
  - apply (add_branch F G HF HG x y z sx sy sz Ex Mx Ey My Ez Mz Hx Hy Hz (gap_hd _ _ _ _ _ Hfit) k); auto. unfold msz. lia.
Qed.
(* binary32: 1.5 * 1.5 - 1; binary16 product and binary32 accumulator: 1 * 1 + 1 gives (1/8 + 1) / 2 *)
Example mpfma_value_case : mpfma ML_Binary32 ML_Binary32 0x3fc00000 0x3fc00000 0xbf800000 = 0x3f200000 /\
  shift_bits ML_Binary16 ML_Binary32 = 3 /\ mpfma ML_Binary16 ML_Binary32 0x3c00 0x3c00 0x3f800000 = 0x3f100000.
Proof. split; [|split]; vm_compute; reflexivity. Qed.

Lemma rounded_nearest : forall F q c, correctly_rounded F q c \/ rounded_away F q c ->
  exists r, get_value_from_integer_coding F c = Num r /\ nearest F q r.
Proof. intros F q c [[r [D [Nr _]]]|[r [D [Nr _]]]]; eauto. Qed.
(* a result nearest to a number of less than half the magnitude is not the rounding *)
Lemma half_not_rounded : forall F q q' c k, fmt_ok F -> 1 - ieee_bias F <= k -> k < ieee_bias F ->
  (exists r, get_value_from_integer_coding F c = Num r /\ nearest F q' r) ->
  (p2 k <= Qabs q')%Q -> (Qabs q' < p2 k * (2 - p2 (- (fsz F + 1))))%Q ->
  (p2 (k + 1) <= Qabs q)%Q ->
  ~ correctly_rounded F q c.
Proof.
  intros F q q' c k Hok Hk1 Hk2 [r [D [Rr Nr]]] L1 L2 Q1. pose proof (p2_pos k) as Pk. destruct Hok as [He Hf] eqn:EH. clear EH.
  pose proof (conj He Hf) as Hok'.
  (* a representable number of the sign of q and magnitude 2^(k+1) *)
  set (s := if Qlt_le_dec q 0 then true else false).
  assert (Es : (q == sg s * Qabs q)%Q).
  { unfold s. destruct (Qlt_le_dec q 0); cbn [sg]; [rewrite (Qabs_neg q) by lra|rewrite (Qabs_pos q) by lra]; ring. }
  assert (Rp : representable F (sg s * p2 (k + 1))) by (apply representable_sg, representable_p2; auto; apply range_eq; auto; lia).
  assert (Br : (Qabs r < p2 (k + 1))%Q).
  { (* the largest number below 2^(k+1) is at most half a unit from q' *)
    set (t := (p2 k * (2 - p2 (- fsz F)))%Q).
    assert (Pf : (0 < p2 (- fsz F))%Q) by apply p2_pos.
    assert (Pf2 : (p2 (- fsz F) <= 1)%Q) by (change 1%Q with (p2 0); apply p2_le; lia).
    assert (E2 : (p2 (- fsz F) == 2 * p2 (- (fsz F + 1)))%Q).
    { rewrite <- p2_succ. replace (- (fsz F + 1) + 1) with (- fsz F) by lia. reflexivity. }
    assert (Rt : representable F t).
    { exists (2 ^ (fsz F + 1) - 1), (k - fsz F). pose proof (pow2_pos (fsz F + 1) ltac:(lia)). split; [|split].
      - rewrite Z.abs_eq; lia.
      - unfold ieee_bias in *. pose proof (pe_half F Hok'). lia.
      - unfold t, Z.sub. rewrite inject_Z_plus, <- p2_Z by lia. change (inject_Z (- (1))) with (-1)%Q. rewrite !p2_plus.
        change (p2 1) with 2%Q. pose proof (p2_opp (fsz F)) as O.
        setoid_replace ((p2 (fsz F) * 2 + -1) * (p2 k * p2 (- fsz F)))%Q with (p2 k * (2 * (p2 (- fsz F) * p2 (fsz F)) - p2 (- fsz F)))%Q by ring. rewrite O. ring. }
    destruct (Qlt_le_dec (Qabs r) (p2 (k + 1))) as [|C]; auto. exfalso. rewrite p2_succ in C.
    set (s' := if Qlt_le_dec q' 0 then true else false).
    assert (Es' : (q' == sg s' * Qabs q')%Q).
    { unfold s'. destruct (Qlt_le_dec q' 0); cbn [sg]; [rewrite (Qabs_neg q') by lra|rewrite (Qabs_pos q') by lra]; ring. }
    pose proof (Nr (sg s' * t)%Q (representable_sg F s' t Rt)) as N1.
    assert (A1 : (Qabs (q' - sg s' * t) == Qabs (Qabs q' - t))%Q).
    { setoid_replace (q' - sg s' * t)%Q with (sg s' * (Qabs q' - t))%Q by (rewrite Es' at 1; ring). apply sg_abs. }
    pose proof (Qabs_triangle_reverse r q') as T. rewrite A1 in N1. rewrite (Qabs_Qminus q' r) in N1.
    assert (Bt : (Qabs (Qabs q' - t) < 2 * p2 k - Qabs q')%Q).
    { unfold t. destruct (Qlt_le_dec (Qabs q') (p2 k * (2 - p2 (- fsz F)))) as [C2|C2].
      - rewrite Qabs_neg by lra. nra.
      - rewrite Qabs_pos by lra. nra. }
    lra. }
  apply (not_rounded F q c r (sg s * p2 (k + 1))); auto.
  assert (A1 : (Qabs (q - sg s * p2 (k + 1)) == Qabs q - p2 (k + 1))%Q).
  { setoid_replace (q - sg s * p2 (k + 1))%Q with (sg s * (Qabs q - p2 (k + 1)))%Q by (rewrite Es at 1; ring). rewrite sg_abs, Qabs_pos by lra. reflexivity. }
  rewrite A1. pose proof (Qabs_triangle_reverse q r). lra.
Qed.

(* one format: the result is half of the sum and is wrong *)
Theorem mpfma_half_refuted : forall F x y z sx sy sz Ex Mx Ey My Ez Mz k, fmt_ok F -> 2 <= fsz F -> fsz F + 1 <= 2 ^ (esz F - 1) ->
  normal_word F x sx Ex Mx -> normal_word F y sy Ey My -> normal_word F z sz Ez Mz ->
  0 <= gap F F Ex Ey Ez ->
  let q := (normal_val F sx Ex Mx * normal_val F sy Ey My + normal_val F sz Ez Mz)%Q in
  2 - ieee_bias F <= k <= ieee_bias F -> (p2 k <= Qabs q)%Q -> (Qabs q < p2 k * (2 - p2 (- (fsz F + 1))))%Q ->
  (exists r, get_value_from_integer_coding F (mpfma F F x y z) = Num r /\ nearest F (q * (1 # 2)) r) /\
  ~ correctly_rounded F q (mpfma F F x y z).
Proof.
  intros F x y z sx sy sz Ex Mx Ey My Ez Mz k HF Hf2 Hp Hx Hy Hz H0 q Hk L1 L2.
  assert (Hfit : gap_fits F F Ex Ey Ez) by (apply gap_fits_same; auto; [destruct Hx|destruct Hy|destruct Hz]; auto).
  assert (Ek : (p2 k == 2 * p2 (k - 1))%Q) by (rewrite <- p2_succ; replace (k - 1 + 1) with k by lia; reflexivity).
  assert (S0 : shift_bits F F = 0) by (unfold shift_bits; lia).
  set (q' := ((normal_val F sx Ex Mx * normal_val F sy Ey My * p2 (- shift_bits F F) + normal_val F sz Ez Mz) * (1 # 2))%Q).
  assert (Eq' : (q' == q * (1 # 2))%Q) by (unfold q', q; rewrite S0; change (p2 (- 0)) with 1%Q; ring).
  assert (EA : (Qabs q' == Qabs q * (1 # 2))%Q) by (rewrite Eq', Qabs_Qmult; reflexivity).
  assert (M1 : (p2 (k - 1) <= Qabs q')%Q) by (rewrite EA; lra).
  assert (M2 : (Qabs q' < p2 (k - 1) * (2 - p2 (- (fsz F + 1))))%Q) by (rewrite EA; rewrite Ek in L2; lra).
  destruct (mpfma_value F F x y z sx sy sz Ex Mx Ey My Ez Mz (k - 1) HF HF Hx Hy Hz Hfit H0 ltac:(lia) ltac:(lia) M1 M2) as [V1 V2]. fold q' in V1, V2.
  assert (R : exists r, get_value_from_integer_coding F (mpfma F F x y z) = Num r /\ nearest F q' r).
  { apply rounded_nearest. destruct (bool_dec (xorb sx sy) sz) as [Hs|Hs]; [right; auto|left; auto]. }
  split.
  - destruct R as [r [D [Rr Nr]]]. exists r. split; auto. split; auto. intros u Ru. rewrite <- !Eq'. now apply Nr.
  - apply (half_not_rounded F q q' _ (k - 1)); auto; try lia. replace (k - 1 + 1) with k by lia. auto.
Qed.
(* 1 * 1 + 2^-20 gives 0.5 + 2^-21;  1 * 1 + 2^-24: the half rounds away from the even *)
Example mpfma_half_case : normal_word ML_Binary32 0x3f800000 false 127 0 /\ normal_word ML_Binary32 0x35800000 false 107 0 /\
  0 <= gap ML_Binary32 ML_Binary32 127 127 107 /\ mpfma ML_Binary32 ML_Binary32 0x3f800000 0x3f800000 0x35800000 = 0x3f000008 /\
  mpfma ML_Binary32 ML_Binary32 0x3f800000 0x3f800000 0x33800000 = 0x3f000001.
Proof. split; [nwc|split; [nwc|split; [|split]]]; vm_compute; (reflexivity || discriminate). Qed.

(* ---- accumulator of more than twice the digits (o+1 > 2p), product and z of the same sign: the
   product is divided by at least two and the whole halved *)
Theorem mpfma_mixed_refuted : forall F G x y z sx sy sz Ex Mx Ey My Ez Mz k, fmt_ok F -> fmt_ok G ->
  normal_word F x sx Ex Mx -> normal_word F y sy Ey My -> normal_word G z sz Ez Mz -> gap_fits F G Ex Ey Ez ->
  2 * fsz F < fsz G -> 0 <= gap F G Ex Ey Ez < 2 * fsz G + 7 -> xorb sx sy = sz ->
  let q' := ((normal_val F sx Ex Mx * normal_val F sy Ey My * p2 (2 * fsz F - fsz G) + normal_val G sz Ez Mz) * (1 # 2))%Q in
  1 - ieee_bias G <= k < ieee_bias G -> (p2 k <= Qabs q')%Q -> (Qabs q' < p2 k * (2 - p2 (- (fsz G + 1))))%Q ->
  (exists r, get_value_from_integer_coding G (mpfma F G x y z) = Num r /\ nearest G q' r) /\
  ~ correctly_rounded G (normal_val F sx Ex Mx * normal_val F sy Ey My + normal_val G sz Ez Mz) (mpfma F G x y z).
Proof.
  intros F G x y z sx sy sz Ex Mx Ey My Ez Mz k HF HG Hx Hy Hz Hfit Hw Hg Hs q' Hk L1 L2.
  assert (S0 : - shift_bits F G = 2 * fsz F - fsz G) by (unfold shift_bits; lia).
  pose proof (mpfma_value F G x y z sx sy sz Ex Mx Ey My Ez Mz k HF HG Hx Hy Hz Hfit ltac:(lia) ltac:(lia)) as V. rewrite S0 in V.
  destruct (V ltac:(lia) L1 L2) as [_ V2]. specialize (V2 Hs).
  assert (R : exists r, get_value_from_integer_coding G (mpfma F G x y z) = Num r /\ nearest G q' r) by (apply rounded_nearest; auto).
  split; [exact R|]. apply (half_not_rounded G _ q' _ k); auto; try lia.
  set (a := (inject_Z ((2 ^ fsz F + Mx) * (2 ^ fsz F + My)) * p2 (Ex + Ey - 2 * ieee_bias F - 2 * fsz F))%Q).
  set (b := (inject_Z (2 ^ fsz G + Mz) * p2 (Ez - ieee_bias G - fsz G))%Q).
  assert (Ea : (normal_val F sx Ex Mx * normal_val F sy Ey My == sg sz * a)%Q) by (rewrite <- Hs; apply vxy_eq; auto).
  assert (Eb : (normal_val G sz Ez Mz == sg sz * b)%Q) by (apply vz_eq; auto).
  assert (A0 : (0 < a)%Q).
  { unfold a. apply Qmult_lt_0_compat; [apply inj_pos|apply p2_pos]. destruct Hx as [[_ [_ X]] _]. destruct Hy as [[_ [_ Y]] _]. destruct HF. pose proof (pow2_pos (fsz F) ltac:(lia)). nia. }
  assert (B0 : (0 < b)%Q).
  { unfold b. apply Qmult_lt_0_compat; [apply inj_pos|apply p2_pos]. destruct Hz as [[_ [_ X]] _]. destruct HG. pose proof (pow2_pos (fsz G) ltac:(lia)). lia. }
  assert (Pd : (0 < p2 (2 * fsz F - fsz G))%Q) by apply p2_pos.
  assert (Pd1 : (p2 (2 * fsz F - fsz G) <= 1)%Q) by (change 1%Q with (p2 0); apply p2_le; lia).
  assert (Eq' : (q' == sg sz * ((a * p2 (2 * fsz F - fsz G) + b) * (1 # 2)))%Q) by (unfold q'; rewrite Ea, Eb; ring).
  assert (Ap : (0 <= a * p2 (2 * fsz F - fsz G))%Q) by (apply Qmult_le_0_compat; lra).
  assert (Ap2 : (a * p2 (2 * fsz F - fsz G) <= a)%Q) by nra.
  assert (Aq' : (Qabs q' == (a * p2 (2 * fsz F - fsz G) + b) * (1 # 2))%Q) by (rewrite Eq'; apply sg_pos_abs; lra).
  assert (Aq : (Qabs (normal_val F sx Ex Mx * normal_val F sy Ey My + normal_val G sz Ez Mz) == a + b)%Q).
  { rewrite Ea, Eb. setoid_replace (sg sz * a + sg sz * b)%Q with (sg sz * (a + b))%Q by ring. apply sg_pos_abs. lra. }
  rewrite Aq, p2_succ. rewrite Aq' in L1. lra.
Qed.
(* binary16 * binary16 + binary32: 1 * 1 + 1; binary32 * binary32 + binary64 likewise *)
Example mpfma_mixed_case : 2 * fsz ML_Binary16 < fsz ML_Binary32 /\ 2 * fsz ML_Binary32 < fsz ML_Binary64 /\
  normal_word ML_Binary16 0x3c00 false 15 0 /\ 0 <= gap ML_Binary16 ML_Binary32 15 15 127 < 2 * fsz ML_Binary32 + 7 /\
  gap_fits ML_Binary16 ML_Binary32 15 15 127 /\ mpfma ML_Binary16 ML_Binary32 0x3c00 0x3c00 0x3f800000 = 0x3f100000.
Proof.
  split; [reflexivity|]. split; [reflexivity|]. split; [nwc|]. split; [split; vm_compute; (reflexivity || discriminate)|]. split; [|vm_compute; reflexivity].
  apply (gap_fits_mixed 15 15 127); lia.
Qed.

(* ---- z a power of two far above a product of the other sign: one and a half times z *)
Theorem mpfma_round_up_refuted : forall F G x y z sx sy sz Ex Mx Ey My Ez, fmt_ok F -> fmt_ok G ->
  normal_word F x sx Ex Mx -> normal_word F y sy Ey My -> normal_word G z sz Ez 0 -> gap_fits F G Ex Ey Ez ->
  gap F G Ex Ey Ez < 0 -> xorb sx sy <> sz -> 1 < Ez ->
  (exists r, get_value_from_integer_coding G (mpfma F G x y z) = Num r /\ (2 * r == 3 * normal_val G sz Ez 0)%Q) /\
  ~ correctly_rounded G (normal_val F sx Ex Mx * normal_val F sy Ey My + normal_val G sz Ez 0) (mpfma F G x y z).
Proof.
  intros F G x y z sx sy sz Ex Mx Ey My Ez HF HG Hx Hy Hz Hfit Hneg Hs HE2. rewrite <- gap_ediff in Hneg. change (differ (xorb sx sy) sz) in Hs.
  pose proof (gap_hd _ _ _ _ _ Hfit) as Hd. pose proof (po2 F G HF HG) as [Hp Ho]. pose proof (N_eq F G) as EN. pose proof (W_eq F G) as EW. pose proof (m_ge F G) as [Hm1 Hm2].
  pose proof (P_b F G HF HG x y sx sy Ex Mx Ey My Hx Hy) as HP. pose proof (PP_b F G HF HG x y sx sy Ex Mx Ey My Hx Hy) as HPP.
  pose proof (B_eq G HG) as HB. set (f := fsz G) in *. set (N := mp_max_diff F G) in *. set (W := mp_width F G) in *.
  assert (Ef : f = msz G - 1) by (unfold msz; lia).
  assert (HEz : 0 < Ez < 2 ^ esz G - 1) by (destruct Hz; auto).
  assert (Eb : base F G Ex Ey Ez = Ez - ieee_bias G + 1) by (unfold base; destruct (Z.ltb_spec (ediff F G Ex Ey Ez) 0); lia).
  assert (EZZ : ZZ F G Ex Ey Ez 0 = 2 ^ (f + N)).
  { unfold ZZ, dc. destruct (Z.ltb_spec (ediff F G Ex Ey Ez) 0); [|lia]. fold N f. rewrite Z.add_0_r, <- Z.pow_add_r by lia. f_equal. lia. }
  set (PPn := PP F G Mx My) in *.
  assert (Q1 : 2 ^ (N - 2) <= 2 ^ (f + N - 2)) by (apply Z.pow_le_mono_r; lia).
  assert (Q2 : 2 ^ (f + N) = 4 * 2 ^ (f + N - 2)) by (change 4 with (2 ^ 2); rewrite <- Z.pow_add_r by lia; f_equal; lia).
  assert (Q3 : 2 ^ (f + N - 1) = 2 * 2 ^ (f + N - 2)) by (rewrite <- Z.pow_succ_r by lia; f_equal; lia).
  pose proof (pow2_pos (N - 2) ltac:(lia)) as PN. pose proof (pow2_pos (msz G + 2) ltac:(lia)) as Po. pose proof (pow2_pos (2 * msz F + msz G) ltac:(lia)) as Ppo.
  assert (QW : 2 ^ (f + N) < 2 ^ (W + 1)) by (apply Z.pow_lt_mono_r; lia).
  destruct (abs_sub F G HF HG x y z sx sy sz Ex Mx Ey My Ez 0 Hx Hy Hz Hd Hs) as [_ A2]. rewrite EZZ in A2. fold PPn in A2.
  assert (Hlt : PPn < 2 ^ (f + N)) by (clear A2; lia). destruct (A2 Hlt) as [EA ESg]. clear A2.
  set (V := 2 ^ (f + N) - PPn) in *.
  assert (HVb : 2 ^ (f + N - 1) <= V < 2 ^ (f + N)) by (unfold V; lia).
  assert (HL : Z.log2 V = f + N - 1) by (apply Z.log2_unique; [lia|]; replace (Z.succ (f + N - 1)) with (f + N) by lia; exact HVb).
  assert (HVp : 0 < V < 2 ^ (W + 1)) by lia.
  set (k := Ez - ieee_bias G - 1).
  assert (Ek : base F G Ex Ey Ez - W + Z.log2 V = k) by (rewrite Eb, HL; unfold k; lia).
  assert (EK : qrne (inject_Z V * p2 (f - Z.log2 V)) = 2 ^ (f + 1)).
  { rewrite HL. apply qrne_close. rewrite <- p2_Z by lia.
    setoid_replace (inject_Z V * p2 (f - (f + N - 1)) - p2 (f + 1))%Q with (- (inject_Z PPn * p2 (1 - N)))%Q.
    - rewrite Qabs_opp, Qabs_pos by (apply Qmult_le_0_compat; [apply Qlt_le_weak, inj_pos; lia|apply Qlt_le_weak, p2_pos]).
      apply Qlt_le_trans with (inject_Z (2 ^ (N - 2)) * p2 (1 - N))%Q; [apply Qmult_lt_r; [apply p2_pos|apply inj_lt; lia]|].
      rewrite <- p2_Z by lia. rewrite <- p2_plus. replace (N - 2 + (1 - N)) with (-1) by lia. change (p2 (-1)) with (1 # 2)%Q. lra.
    - unfold V, Z.sub at 1. rewrite inject_Z_plus, inject_Z_opp, <- p2_Z by lia. replace (f - (f + N - 1)) with (1 - N) by lia.
      rewrite Qmult_plus_distr_l, <- p2_plus. replace (f + N + (1 - N)) with (f + 1) by lia. ring. }
  assert (NW : normal_word G (mpfma F G x y z) sz (k + 1 + ieee_bias G) (2 ^ (f - 1))).
  { destruct (mpfma_word F G HF HG x y z sx sy sz Ex Mx Ey My Ez 0 Hx Hy Hz Hd V EA HVp) as [_ [_ K2]]. fold f in K2. specialize (K2 EK). fold W in K2. rewrite Ek, ESg in K2. clear ESg EA.
    unfold k in *. replace (Ez - ieee_bias G - 1 + 1 + ieee_bias G) with Ez in * by lia. rewrite (Z.mod_small Ez) in K2 by lia.
    destruct HG as [He Hf]. clear - K2 He Hf HEz HB. pose proof (pow2_pos (f - 1) ltac:(lia)). split; [split; [exact K2|]|lia]. split; [lia|]. pose proof (pf_half G (conj He Hf)) as PH. fold f in PH. fold f. lia. }
  clear ESg EA EK HL Ek HVb HVp Hlt QW Q1 Q2 Q3 EZZ HPP PN Po Ppo Hd. clear V.
  destruct (decode_normal G HG _ _ _ _ NW) as [r [D Er]].
  assert (EH : (inject_Z (2 ^ (f - 1)) * p2 (- f) == 1 # 2)%Q).
  { rewrite <- p2_Z by (destruct HG; lia). rewrite <- p2_plus. replace (f - 1 + - f) with (-1) by lia. reflexivity. }
  assert (Er2 : (r == sg sz * (p2 (Ez - ieee_bias G) * (3 # 2)))%Q).
  { rewrite Er. unfold normal_val. fold f. rewrite EH. replace (k + 1 + ieee_bias G - ieee_bias G) with (Ez - ieee_bias G) by (unfold k; lia). ring. }
  assert (Ev : (normal_val G sz Ez 0 == sg sz * p2 (Ez - ieee_bias G))%Q) by (unfold normal_val; change (inject_Z 0) with 0%Q; ring).
  split; [exists r; split; [auto|rewrite Er2, Ev; ring]|].
  assert (Rz : representable G (sg sz * p2 (Ez - ieee_bias G))) by (apply representable_sg, representable_p2; auto; apply range_eq; auto; lia).
  apply (not_rounded G _ (mpfma F G x y z) r (sg sz * p2 (Ez - ieee_bias G))); auto.
  (* the product is below a quarter of z *)
  set (h := p2 (Ez - ieee_bias G)) in *. assert (Ph : (0 < h)%Q) by apply p2_pos.
  rewrite (vxy_eq F F HF sx sy Ex Mx Ey My), Ev, Er2.
  set (P := (2 ^ fsz F + Mx) * (2 ^ fsz F + My)) in *. pose proof (pow2_pos (2 * msz F - 2) ltac:(lia)) as Pp.
  set (t := (inject_Z P * p2 (Ex + Ey - 2 * ieee_bias F - 2 * fsz F))%Q).
  assert (T0 : (0 < t)%Q) by (unfold t; apply Qmult_lt_0_compat; [apply inj_pos; lia|apply p2_pos]).
  assert (T1 : (t < (1 # 4) * h)%Q).
  { apply Qlt_le_trans with (inject_Z (2 ^ (2 * msz F)) * p2 (Ex + Ey - 2 * ieee_bias F - 2 * fsz F))%Q; [unfold t; apply Qmult_lt_r; [apply p2_pos|apply inj_lt; lia]|].
    rewrite <- p2_Z by lia. rewrite <- p2_plus. change (1 # 4)%Q with (p2 (-2)). unfold h. rewrite <- p2_plus. apply p2_le. unfold ediff, msz in *. lia. }
  assert (Sg : (sg (xorb sx sy) == - sg sz)%Q) by (unfold differ in Hs; destruct sx, sy, sz; cbn [xorb sg] in *; try congruence; reflexivity).
  rewrite Sg.
  setoid_replace (- sg sz * t + sg sz * h - sg sz * h)%Q with (- (sg sz * t))%Q by ring.
  setoid_replace (- sg sz * t + sg sz * h - sg sz * (h * (3 # 2)))%Q with (- (sg sz * (t + (1 # 2) * h)))%Q by ring.
  rewrite !Qabs_opp, !sg_pos_abs by lra. lra.
Qed.
(* 1 * 1 - 2^30 gives -1.5 * 2^30 *)
Example mpfma_round_up_case : gap ML_Binary32 ML_Binary32 127 127 157 < 0 /\ normal_word ML_Binary32 0xce800000 true 157 0 /\
  mpfma ML_Binary32 ML_Binary32 0x3f800000 0x3f800000 0xce800000 = 0xcec00000.
Proof. split; [|split]; try (vm_compute; reflexivity). nwc. Qed.

(* ---- exact cancellation: the result is a power of two, unless its exponent field happens to be 0 *)
Theorem mpfma_cancel_refuted : forall F x y z sx sy sz Ex Mx Ey My Ez Mz, fmt_ok F -> fsz F + 1 <= 2 ^ (esz F - 1) ->
  normal_word F x sx Ex Mx -> normal_word F y sy Ey My -> normal_word F z sz Ez Mz ->
  (normal_val F sx Ex Mx * normal_val F sy Ey My + normal_val F sz Ez Mz == 0)%Q ->
  let E := (Ex + Ey - ieee_bias F - 3 * fsz F - 5) mod 2 ^ esz F in
  has_fields F (mpfma F F x y z) (xorb sx sy) E 0 /\
  (E <> 0 -> get_value_from_integer_coding F (mpfma F F x y z) <> PZero /\ get_value_from_integer_coding F (mpfma F F x y z) <> MZero).
Proof.
  intros F x y z sx sy sz Ex Mx Ey My Ez Mz HF Hpe Hx Hy Hz Hq E.
  assert (Hfit : gap_fits F F Ex Ey Ez) by (apply gap_fits_same; auto; [destruct Hx|destruct Hy|destruct Hz]; auto).
  pose proof (gap_hd _ _ _ _ _ Hfit) as Hd. pose proof (po2 F F HF HF) as [Hp _]. pose proof (N_eq F F) as EN. pose proof (W_eq F F) as EW. pose proof (m_ge F F) as [Hm1 Hm2].
  assert (Em : mp_prod_size F F = 2 * msz F) by (unfold mp_prod_size; lia). rewrite Em in *.
  pose proof (vxy_eq F F HF sx sy Ex Mx Ey My) as E1. pose proof (vz_eq F HF sz Ez Mz) as E2.
  pose proof (P_b F F HF HF x y sx sy Ex Mx Ey My Hx Hy) as HP. pose proof (Z_b F F HF HF z sz Ez Mz Hz) as HZ.
  set (P := (2 ^ fsz F + Mx) * (2 ^ fsz F + My)) in *. set (Zm := 2 ^ fsz F + Mz) in *.
  pose proof (pow2_pos (2 * msz F - 2) ltac:(lia)) as Pp. pose proof (pow2_pos (fsz F) ltac:(unfold msz in *; lia)) as Pf.
  set (a := (inject_Z P * p2 (Ex + Ey - 2 * ieee_bias F - 2 * fsz F))%Q) in *. set (b := (inject_Z Zm * p2 (Ez - ieee_bias F - fsz F))%Q) in *.
  assert (A0 : (0 < a)%Q) by (unfold a; apply Qmult_lt_0_compat; [apply inj_pos; lia|apply p2_pos]).
  assert (B0 : (0 < b)%Q) by (unfold b; apply Qmult_lt_0_compat; [apply inj_pos; lia|apply p2_pos]).
  rewrite E1, E2 in Hq.
  assert (Hs : xorb sx sy <> sz) by (intros Hs; rewrite Hs in Hq; destruct sz; cbn [sg] in Hq; lra).
  assert (Hab : (a == b)%Q) by (destruct sx, sy, sz; cbn [xorb sg] in *; try congruence; lra).
  change (differ (xorb sx sy) sz) in Hs.
  (* the binades *)
  assert (Ba1 : (p2 (Ex + Ey - 2 * ieee_bias F) <= a)%Q).
  { unfold a. apply Qle_trans with (inject_Z (2 ^ (2 * msz F - 2)) * p2 (Ex + Ey - 2 * ieee_bias F - 2 * fsz F))%Q.
    - rewrite <- p2_Z by lia. rewrite <- p2_plus. apply p2_le. unfold msz. lia.
    - apply Qmult_le_compat_r; [apply inj_le; lia|apply Qlt_le_weak, p2_pos]. }
  assert (Ba2 : (a < p2 (Ex + Ey - 2 * ieee_bias F + 2))%Q).
  { unfold a. apply Qlt_le_trans with (inject_Z (2 ^ (2 * msz F)) * p2 (Ex + Ey - 2 * ieee_bias F - 2 * fsz F))%Q.
    - apply Qmult_lt_r; [apply p2_pos|apply inj_lt; lia].
    - rewrite <- p2_Z by lia. rewrite <- p2_plus. apply p2_le. unfold msz. lia. }
  assert (Bb1 : (p2 (Ez - ieee_bias F) <= b)%Q).
  { unfold b. apply Qle_trans with (inject_Z (2 ^ fsz F) * p2 (Ez - ieee_bias F - fsz F))%Q.
    - rewrite <- p2_Z by (unfold msz in *; lia). rewrite <- p2_plus. apply p2_le. lia.
    - apply Qmult_le_compat_r; [apply inj_le; lia|apply Qlt_le_weak, p2_pos]. }
  assert (Bb2 : (b < p2 (Ez - ieee_bias F + 1))%Q).
  { unfold b. apply Qlt_le_trans with (inject_Z (2 ^ msz F) * p2 (Ez - ieee_bias F - fsz F))%Q.
    - apply Qmult_lt_r; [apply p2_pos|apply inj_lt; lia].
    - rewrite <- p2_Z by lia. rewrite <- p2_plus. apply p2_le. unfold msz. lia. }
  assert (G1 : Ex + Ey - 2 * ieee_bias F < Ez - ieee_bias F + 1).
  { destruct (Z_lt_le_dec (Ex + Ey - 2 * ieee_bias F) (Ez - ieee_bias F + 1)) as [|C]; auto. apply p2_le in C. lra. }
  assert (G2 : Ez - ieee_bias F < Ex + Ey - 2 * ieee_bias F + 2).
  { destruct (Z_lt_le_dec (Ez - ieee_bias F) (Ex + Ey - 2 * ieee_bias F + 2)) as [|C]; auto. apply p2_le in C. lra. }
  set (d := ediff F F Ex Ey Ez) in *. assert (Hdr : 0 <= d <= mp_max_diff F F) by (unfold d, ediff; rewrite EN; unfold msz in *; lia).
  (* the aligned operands are equal *)
  destruct (pb_eqs F F HF HF sx sy sz Ex Mx Ey My Ez Mz (proj1 Hdr)) as [EU [Z1 Z2]]. fold d P Zm in Z1, Z2.
  destruct (ZZ_in F F Ex Ey Ez Mz Hdr) as [_ EZ]. fold d Zm in EZ. rewrite <- EZ in Z2.
  set (U := base F F Ex Ey Ez - mp_width F F) in *. pose proof (p2_pos U) as PU.
  replace (2 * msz F - mp_prod_size F F) with 0 in Z1 by lia. rewrite p2_0, Qmult_1_r, E1 in Z1. rewrite E2 in Z2. fold a b in Z1, Z2.
  assert (Sg : forall s u v, (sg s * u * (1 # 2) == sg s * v)%Q -> (u * (1 # 2) == v)%Q) by (intros [] u v; cbn [sg]; lra).
  apply Sg in Z1. apply Sg in Z2.
  assert (EQ : PP F F Mx My = ZZ F F Ex Ey Ez Mz).
  { assert (T : (inject_Z (PP F F Mx My) * p2 U == inject_Z (ZZ F F Ex Ey Ez Mz) * p2 U)%Q) by (rewrite <- Z1, <- Z2, Hab; reflexivity).
    apply Qmult_inj_r in T; [|apply p2_nz]. unfold Qeq in T. cbn [Qnum Qden inject_Z] in T. lia. }
  destruct (abs_sub F F HF HF x y z sx sy sz Ex Mx Ey My Ez Mz Hx Hy Hz Hd Hs) as [A1 _].
  destruct A1 as [EA ESg]; [clear - EQ; lia|]. replace (PP F F Mx My - ZZ F F Ex Ey Ez Mz) with 0 in EA by (clear - EQ; lia).
  assert (El : mp_lzc F F x y z = mp_width F F + 1) by (unfold mp_lzc; rewrite EA; reflexivity).
  assert (Enm : mp_normed F F x y z = 0) by (unfold mp_normed; rewrite EA, Z.mul_0_l; apply Z.mod_0_l; apply Z.pow_nonzero; lia).
  assert (S0 : forall lo hi, 0 <= hi - lo + 1 -> sub_signal 0 lo hi = 0).
  { intros lo hi H. unfold sub_signal. rewrite Z.shiftr_0_l. apply Z.mod_0_l. apply Z.pow_nonzero; lia. }
  set (o := msz F) in *. set (W := mp_width F F) in *.
  assert (Er : mp_rounded o W 0 = 0).
  { unfold mp_rounded. rewrite Z.testbit_0_l. cbn [andb b2z]. rewrite S0 by lia. apply Z.mod_0_l. apply Z.pow_nonzero; lia. }
  assert (Ov : mp_overflow o W 0 = false) by (unfold mp_overflow; rewrite Er; apply Z.testbit_0_l).
  assert (Ef : mp_field o W 0 = 0) by (unfold mp_field; rewrite Ov, Er; apply S0; lia).
  assert (Ee : mp_exp F F x y z = E).
  { unfold mp_exp. fold o W. rewrite Enm, Ov, El, (diff_eq F F HF HF x y z sx sy sz Ex Mx Ey My Ez Mz Hx Hy Hz Hd). fold d.
    destruct (Z.ltb_spec d 0); [lia|]. pose proof (ES_ge F F HF HF) as [T1 T2]. destruct HF as [He Hf] eqn:EHF. rewrite <- Znumtheory.Zmod_div_mod.
    - unfold E. f_equal. unfold mp_exp_xy, mp_offset. rewrite Z.max_id, !bias_eq. destruct Hx as [Hx1 _]. destruct Hy as [Hy1 _].
      rewrite (hw_exp_fields F (conj He Hf) _ _ _ _ Hx1), (hw_exp_fields F (conj He Hf) _ _ _ _ Hy1). fold W. rewrite EW. unfold o, msz. cbn [b2z]. lia.
    - apply pow2_pos; lia.
    - apply pow2_pos; lia.
    - exists (2 ^ (mp_esize F F - esz F)). rewrite <- Z.pow_add_r by lia. f_equal. lia. }
  assert (HFd : has_fields F (mpfma F F x y z) (xorb sx sy) E 0).
  { split; [|split].
    - unfold mpfma. fold o W. rewrite Enm, Ef, Ee, ESg. reflexivity.
    - apply Z.mod_pos_bound. apply pow2_pos. destruct HF; lia.
    - lia. }
  split; auto. intros NZ. pose proof (decode_ieee F HF _ _ _ _ HFd) as D. revert D NZ. generalize E. intros e' D NZ.
  split; intros C; rewrite C in D; inversion D; congruence.
Qed.
(* 1 * 1 - 1 *)
Example mpfma_cancel_case : normal_word ML_Binary32 0xbf800000 true 127 0 /\
  (normal_val ML_Binary32 false 127 0 * normal_val ML_Binary32 false 127 0 + normal_val ML_Binary32 true 127 0 == 0)%Q /\
  mpfma ML_Binary32 ML_Binary32 0x3f800000 0x3f800000 0xbf800000 = 0x1a800000.
Proof. split; [nwc|split]; vm_compute; reflexivity. Qed.

Print Assumptions gap_fits_same.
Print Assumptions gap_fits_mixed.
Print Assumptions mpfma_far_correct_partial.
Print Assumptions mpfma_value.
Print Assumptions mpfma_half_refuted.
Print Assumptions mpfma_mixed_refuted.
Print Assumptions mpfma_round_up_refuted.
Print Assumptions mpfma_cancel_refuted.
