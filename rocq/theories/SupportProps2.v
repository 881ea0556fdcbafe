(* The C support library: exponent, mantissa, sign and leading zeros. *)
From Coq Require Import ZArith QArith Qabs List Bool Lia Lqa.
From Verif Require Import QUtil FpFormatModel FpFormatSpec FpFormatProofs FpFormatProps TruncProps SupportModel SupportProps.
Import ListNotations.
Open Scope Z_scope.

(* the value of a word made of given fields, when it is a number *)
Definition datum (F : fpfmt) (c : Z) (v : fpv) : Prop :=
  exists s E M, has_fields F c s E M /\ ieee_datum F s E M v.

(* ---------------- exponent insertion ---------------- *)
Lemma ins_fields : forall F k, fmt_ok F -> 0 <= k < 2 ^ esz F -> has_fields F (k * 2 ^ fsz F) false k 0.
Proof. intros F k Hok Hk. pose proof (pf_ge F Hok). split; [lia|]. split; lia. Qed.
Lemma ins_low : forall e f k w, 0 <= e -> 0 <= f -> e + f <= w ->
  Z.land ((k * 2 ^ f) mod 2 ^ w) ((2 ^ e - 1) * 2 ^ f) = (k mod 2 ^ e) * 2 ^ f.
Proof.
  intros e f k w He Hf Hw. rewrite land_fld by lia. f_equal.
  replace w with (f + (w - f)) by lia. rewrite Z.pow_add_r by lia. rewrite Z.mul_comm, Z.mul_mod_distr_l by (apply Z.pow_nonzero; lia).
  rewrite Z.mul_comm, Z.div_mul by (apply Z.pow_nonzero; lia).
  symmetry. apply Znumtheory.Zmod_div_mod; try (apply pow2_pos; lia). exists (2 ^ (w - f - e)). rewrite <- Z.pow_add_r by lia. f_equal. lia.
Qed.
Lemma ins32 : forall k, ml_exp_insertion_fp32 k = (k + 127) mod 2 ^ 8 * 2 ^ 23.
Proof.
  intros k. unfold ml_exp_insertion_fp32, u32. rewrite Z.shiftl_mul_pow2 by lia.
  change 0x7f800000 with ((2 ^ 8 - 1) * 2 ^ 23). apply ins_low; lia.
Qed.
Lemma mod_mod64 : forall x, ((x mod 2 ^ 64) * 2 ^ 52) mod 2 ^ 64 = (x * 2 ^ 52) mod 2 ^ 64.
Proof. intros. rewrite Z.mul_mod_idemp_l by (apply Z.pow_nonzero; lia). reflexivity. Qed.
Lemma ins64 : forall k, ml_exp_insertion_fp64 k = (k + 1023) mod 2 ^ 11 * 2 ^ 52.
Proof.
  intros k. unfold ml_exp_insertion_fp64, u64. rewrite Z.shiftl_mul_pow2, mod_mod64 by lia.
  change 0x7ff0000000000000 with ((2 ^ 11 - 1) * 2 ^ 52). apply ins_low; lia.
Qed.
Lemma ins_datum : forall F k, fmt_ok F -> - ieee_bias F <= k <= ieee_bias F + 1 ->
  exists v, datum F ((k + ieee_bias F) * 2 ^ fsz F) v /\
  (k = - ieee_bias F -> v = PZero) /\ (k = ieee_bias F + 1 -> v = PInf) /\
  (- ieee_bias F < k <= ieee_bias F -> exists q, v = Num q /\ (q == p2 k)%Q).
Proof.
  intros F k Hok Hk. pose proof (pe1_ge F Hok) as P1. pose proof (pe_half F Hok) as P2. unfold ieee_bias in *.
  pose proof (ins_fields F (k + (2 ^ (esz F - 1) - 1)) Hok ltac:(lia)) as HF.
  destruct (Z.eq_dec k (- (2 ^ (esz F - 1) - 1))) as [->|N1].
  { exists PZero. split; [|split; [auto|split; [lia|lia]]]. eexists _, _, _. split; [exact HF|].
    replace (- (2 ^ (esz F - 1) - 1) + (2 ^ (esz F - 1) - 1)) with 0 by lia. constructor. }
  destruct (Z.eq_dec k (2 ^ (esz F - 1) - 1 + 1)) as [->|N2].
  { exists PInf. split; [|split; [lia|split; [auto|lia]]]. eexists _, _, _. split; [exact HF|].
    replace (2 ^ (esz F - 1) - 1 + 1 + (2 ^ (esz F - 1) - 1)) with (2 ^ esz F - 1) by lia. constructor. }
  exists (Num (p2 k)). split; [|split; [lia|split; [lia|]]].
  - eexists _, _, _. split; [exact HF|]. apply d_normal; [lia|]. unfold ieee_bias.
    replace (k + (2 ^ (esz F - 1) - 1) - (2 ^ (esz F - 1) - 1)) with k by lia. change (inject_Z 0) with 0%Q. ring.
  - intros _. exists (p2 k). split; [auto|reflexivity].
Qed.
(* inserting an exponent of the normal range gives that power of two; one
   below gives zero and one above gives infinity *)
Theorem c_exp_insertion : forall F ins,
  (F, ins) = (ML_Binary32, ml_exp_insertion_fp32) \/ (F, ins) = (ML_Binary64, ml_exp_insertion_fp64) ->
  forall k, - ieee_bias F <= k <= ieee_bias F + 1 ->
  exists v, datum F (ins k) v /\
  (k = - ieee_bias F -> v = PZero) /\ (k = ieee_bias F + 1 -> v = PInf) /\
  (- ieee_bias F < k <= ieee_bias F -> exists q, v = Num q /\ (q == p2 k)%Q).
Proof.
  intros F ins HS k Hk. destruct HS as [K|K]; injection K as -> ->.
  - change (ieee_bias ML_Binary32) with 127 in *. rewrite ins32.
    rewrite Z.mod_small by (change (2 ^ 8) with 256; lia). exact (ins_datum ML_Binary32 k ok32 Hk).
  - change (ieee_bias ML_Binary64) with 1023 in *. rewrite ins64.
    rewrite Z.mod_small by (change (2 ^ 11) with 2048; lia). exact (ins_datum ML_Binary64 k ok64 Hk).
Qed.
(* outside of that range the exponent silently wraps around *)
Theorem c_exp_insertion_wraps_refuted : forall k,
  ml_exp_insertion_fp32 (k + 256) = ml_exp_insertion_fp32 k /\ ml_exp_insertion_fp64 (k + 2048) = ml_exp_insertion_fp64 k.
Proof.
  intros k. rewrite !ins32, !ins64. split.
  - replace (k + 256 + 127) with (k + 127 + 1 * 2 ^ 8) by (change (2 ^ 8) with 256; lia). rewrite Z_mod_plus_full. reflexivity.
  - replace (k + 2048 + 1023) with (k + 1023 + 1 * 2 ^ 11) by (change (2 ^ 11) with 2048; lia). rewrite Z_mod_plus_full. reflexivity.
Qed.
Theorem c_exp_insertion_no_offset : forall F ins,
  (F, ins) = (ML_Binary32, ml_exp_insertion_no_offset_fp32) \/ (F, ins) = (ML_Binary64, ml_exp_insertion_no_offset_fp64) ->
  forall k, 0 < k < 2 ^ esz F - 1 -> exists q, datum F (ins k) (Num q) /\ (q == p2 (k - ieee_bias F))%Q.
Proof.
  intros F ins HS k Hk.
  assert (Hok : fmt_ok F) by (destruct HS as [K|K]; injection K as -> _; [exact ok32|exact ok64]).
  assert (EQ : ins k = k * 2 ^ fsz F).
  { destruct HS as [K|K]; injection K as -> ->; cbn [esz fsz ML_Binary32 ML_Binary64] in *.
    - unfold ml_exp_insertion_no_offset_fp32, u32. rewrite Z.shiftl_mul_pow2 by lia. apply Z.mod_small.
      change (2 ^ 8) with 256 in Hk. change (2 ^ 23) with 8388608. change (2 ^ 32) with 4294967296. lia.
    - unfold ml_exp_insertion_no_offset_fp64, u64. rewrite Z.shiftl_mul_pow2, mod_mod64 by lia. apply Z.mod_small.
      change (2 ^ 11) with 2048 in Hk. change (2 ^ 52) with 4503599627370496. change (2 ^ 64) with 18446744073709551616. lia. }
  rewrite EQ. exists (p2 (k - ieee_bias F)). split; [|reflexivity].
  exists false, k, 0. split; [apply ins_fields; auto; lia|]. apply d_normal; [lia|]. change (inject_Z 0) with 0%Q. ring.
Qed.

(* ---------------- exponent and mantissa extraction ---------------- *)
Lemma ext32 : forall c s E M, has_fields ML_Binary32 c s E M -> Z.land (Z.shiftr c 23) 0xff = E.
Proof.
  intros c s E M H. rewrite Z.shiftr_div_pow2 by lia. change 0xff with (2 ^ 8 - 1). rewrite land_pow2 by lia.
  exact (c_exp ML_Binary32 ok32 c s E M H).
Qed.
Lemma ext64 : forall c s E M, has_fields ML_Binary64 c s E M -> Z.land (Z.shiftr c 52) 0x7ff = E.
Proof.
  intros c s E M H. rewrite Z.shiftr_div_pow2 by lia. change 0x7ff with (2 ^ 11 - 1). rewrite land_pow2 by lia.
  exact (c_exp ML_Binary64 ok64 c s E M H).
Qed.
Lemma s32_small : forall a, - 2 ^ 31 <= a < 2 ^ 31 -> s32 (a mod 2 ^ 32) = a /\ s32 a = a.
Proof.
  intros a Ha. assert (G : s32 a = a).
  { unfold s32. change (2 ^ 32) with 4294967296 in *. change (2 ^ 31) with 2147483648 in *.
    destruct (Z.lt_ge_cases a 0).
    - replace (a mod 4294967296) with (a + 4294967296) by (apply Z.mod_unique with (-1); lia).
      rewrite (proj2 (Z.ltb_ge _ _)) by lia. lia.
    - rewrite Z.mod_small by lia. rewrite (proj2 (Z.ltb_lt _ _)) by lia. reflexivity. }
  split; auto. unfold s32 in *. rewrite Z.mod_mod by (apply Z.pow_nonzero; lia). exact G.
Qed.
Lemma s64_small : forall a, - 2 ^ 63 <= a < 2 ^ 63 -> s64 (a mod 2 ^ 64) = a.
Proof.
  intros a Ha. unfold s64. rewrite Z.mod_mod by (apply Z.pow_nonzero; lia).
  change (2 ^ 64) with 18446744073709551616 in *. change (2 ^ 63) with 9223372036854775808 in *.
  destruct (Z.lt_ge_cases a 0).
  - replace (a mod 18446744073709551616) with (a + 18446744073709551616) by (apply Z.mod_unique with (-1); lia).
    rewrite (proj2 (Z.ltb_ge _ _)) by lia. lia.
  - rewrite Z.mod_small by lia. rewrite (proj2 (Z.ltb_lt _ _)) by lia. reflexivity.
Qed.
Lemma s32_of64 : forall a, s32 (a mod 2 ^ 64) = s32 a.
Proof.
  intros a. unfold s32. replace ((a mod 2 ^ 64) mod 2 ^ 32) with (a mod 2 ^ 32); [reflexivity|].
  apply Znumtheory.Zmod_div_mod; try reflexivity. exists (2 ^ 32). reflexivity.
Qed.
(* once stored in a signed variable, the extracted exponent is the biased
   exponent minus the bias *)
Theorem c_exp_extraction : forall c s E M,
  (has_fields ML_Binary32 c s E M -> s32 (ml_exp_extraction_dirty_fp32 c) = E - 127) /\
  (has_fields ML_Binary64 c s E M -> s32 (ml_exp_extraction_dirty_fp64 c) = E - 1023 /\ s64 (ml_exp_extraction_dirty_fp64 c) = E - 1023).
Proof.
  intros c s E M. split; intros H; pose proof H as [_ [HE _]].
  - unfold ml_exp_extraction_dirty_fp32, u32. rewrite (ext32 c s E M H). cbn [esz ML_Binary32] in HE. change (2 ^ 8) with 256 in HE.
    apply s32_small. change (2 ^ 31) with 2147483648. lia.
  - unfold ml_exp_extraction_dirty_fp64, u64. rewrite (ext64 c s E M H). cbn [esz ML_Binary64] in HE. change (2 ^ 11) with 2048 in HE.
    rewrite s32_of64. split.
    + apply s32_small. change (2 ^ 31) with 2147483648. lia.
    + apply s64_small. change (2 ^ 63) with 9223372036854775808. lia.
Qed.
(* used directly in an expression, the macro is unsigned: for every number
   smaller than 1 it is a huge positive value *)
Theorem c_exp_extraction_unsigned_refuted : forall c s E M, has_fields ML_Binary32 c s E M -> E < 127 ->
  2 ^ 31 <= ml_exp_extraction_dirty_fp32 c.
Proof.
  intros c s E M H HE'. pose proof H as [_ [HE _]]. unfold ml_exp_extraction_dirty_fp32, u32. rewrite (ext32 c s E M H).
  replace ((E - 127) mod 2 ^ 32) with (E - 127 + 2 ^ 32) by (apply Z.mod_unique with (-1); change (2 ^ 32) with 4294967296; lia).
  change (2 ^ 32) with 4294967296. change (2 ^ 31) with 2147483648. lia.
Qed.

Lemma mant_is_legal : forall x, ml_mantissa_extraction_fp32 x = mantissa_extraction ML_Binary32 x /\
  ml_mantissa_extraction_fp64 x = mantissa_extraction ML_Binary64 x.
Proof. intros x. split; reflexivity. Qed.
(* for a normal number the extracted mantissa is in [1, 2), keeps the sign,
   and times two to the extracted exponent gives the number back *)
Theorem c_mantissa_extraction : forall F mant ext,
  (F, mant, ext) = (ML_Binary32, ml_mantissa_extraction_fp32, ml_exp_extraction_dirty_fp32) \/
  (F, mant, ext) = (ML_Binary64, ml_mantissa_extraction_fp64, ml_exp_extraction_dirty_fp64) ->
  forall c s E M q, has_fields F c s E M -> 0 < E < 2 ^ esz F - 1 -> ieee_datum F s E M (Num q) ->
  exists m, datum F (mant c) (Num m) /\ (1 <= Qabs m)%Q /\ (Qabs m < 2)%Q /\ (q == m * p2 (s32 (ext c)))%Q.
Proof.
  intros F mant ext HS c s E M q HF HE D.
  assert (Hok : fmt_ok F) by (destruct HS as [K|K]; injection K as -> _ _; [exact ok32|exact ok64]).
  assert (EX : s32 (ext c) = E - ieee_bias F).
  { destruct HS as [K|K]; injection K as -> -> ->; apply (c_exp_extraction c s E M); auto. }
  assert (MX : mant c = mantissa_extraction F c).
  { destruct HS as [K|K]; injection K as -> -> ->; apply mant_is_legal. }
  destruct (normal_datum_of F s E M _ HE D) as [q0 [Q0 Hq]]. injection Q0 as <-.
  destruct (normal_datum_of F s E M _ HE (decode_ieee F Hok c s E M HF)) as [r [R0 Hr]].
  assert (V : view_of F c c) by (unfold view_of; apply Z.mod_small; apply (fields_range F Hok c s E M HF)).
  destruct (fp_extraction_reconstructs F c s E M c r Hok HF HE V R0) as [m [M1 [M2 [M3 [M4 M5]]]]].
  exists m. rewrite MX, EX. split; [|split; [auto|split; [auto|]]].
  - assert (RG : 0 <= mantissa_extraction F c < 2 ^ (1 + esz F + fsz F)).
    { destruct (Z.lt_ge_cases (mantissa_extraction F c) 0) as [L|L].
      - exfalso. revert L. apply Z.le_ngt. unfold mantissa_extraction. apply Z.lor_nonneg. split.
        + apply Z.land_nonneg. left. pose proof (fields_range F Hok c s E M HF). lia.
        + unfold static_raw_exp_insertion. apply Z.shiftl_nonneg. unfold bias. pose proof (pe1_ge F Hok). lia.
      - split; [exact L|].
        pose proof (fields_range F Hok c s E M HF) as R. destruct Hok as [He Hf].
        assert (B : forall n, 1 + esz F + fsz F <= n -> Z.testbit (mantissa_extraction F c) n = false).
        { intros n Hn. unfold mantissa_extraction, static_raw_exp_insertion. rewrite Z.lor_spec, Z.land_spec.
          rewrite <- (Z.mod_small c (2 ^ (1 + esz F + fsz F))) by auto. rewrite Z.mod_pow2_bits_high by lia. cbn [andb orb].
          rewrite Z.shiftl_spec by lia. unfold bias. replace (0 + - (- 2 ^ (esz F - 1) + 1)) with (2 ^ (esz F - 1) - 1) by lia.
          rewrite <- Z.ones_equiv || replace (2 ^ (esz F - 1) - 1) with (Z.ones (esz F - 1)) by (rewrite Z.ones_equiv; lia).
          apply Z.ones_spec_high. lia. }
        destruct (Z.eq_dec (mantissa_extraction F c) 0) as [Z0|Z0]; [rewrite Z0; apply pow2_pos; lia|].
        apply Z.log2_lt_pow2; [lia|]. apply Z.nle_gt. intros Q. pose proof (B _ Q) as BB. rewrite Z.bit_log2 in BB by lia. discriminate. }
    destruct (fields_exist F Hok _ RG) as [s' [E' [M' HF']]]. exists s', E', M'. split; auto.
    rewrite <- M1. apply (decode_ieee F Hok _ _ _ _ HF').
  - unfold exp_extraction in M4. rewrite (view_raw_exp F Hok c s E M HF c V), bias_eq in M4.
    replace (E + - ieee_bias F) with (E - ieee_bias F) in M4 by lia. rewrite <- M4, Hq, Hr. reflexivity.
Qed.
Example c_mantissa_example : ml_mantissa_extraction_fp32 0xc1200000 = 0xbfa00000 /\ s32 (ml_exp_extraction_dirty_fp32 0xc1200000) = 3
  /\ ml_exp_extraction_dirty_fp32 0x3f000000 = 4294967295 /\ ml_exp_insertion_fp32 (-1) = 0x3f000000
  /\ ml_exp_insertion_fp64 1024 = 0x7ff0000000000000 /\ ml_exp_insertion_no_offset_fp64 1023 = 0x3ff0000000000000.
Proof. repeat split. Qed.
Theorem c_raw_mantissa : forall c s E M,
  (has_fields ML_Binary32 c s E M -> ml_raw_mantissa_extraction_fp32 c = M) /\
  (has_fields ML_Binary64 c s E M -> ml_raw_mantissa_extraction_fp64 c = M).
Proof.
  intros. split; intros H.
  - exact (w_man ML_Binary32 ok32 c s E M H).
  - exact (w_man ML_Binary64 ok64 c s E M H).
Qed.

(* ---------------- sign copy ---------------- *)
Lemma lor_sign : forall F c s E M d t E' M', fmt_ok F -> has_fields F c s E M -> has_fields F d t E' M' ->
  has_fields F (Z.lor (Z.land c (2 ^ (esz F + fsz F))) d) (s || t) E' M'.
Proof.
  intros F c s E M d t E' M' Hok H H'. rewrite (w_sgn F Hok c s E M H). pose proof H' as [Hd [HE HM]].
  split; [|auto]. destruct s; [|rewrite Z.lor_0_l; exact Hd]. cbn [orb].
  assert (P : 2 ^ (esz F + fsz F) = 2 ^ esz F * 2 ^ fsz F) by (apply p_ef; auto).
  assert (B : 0 <= E' * 2 ^ fsz F + M' < 2 ^ (esz F + fsz F)) by (rewrite P; nia).
  assert (K : forall (b : bool), Z.lor (2 ^ (esz F + fsz F)) ((if b then 2 ^ (esz F + fsz F) else 0) + (E' * 2 ^ fsz F + M')) =
     2 ^ (esz F + fsz F) + (E' * 2 ^ fsz F + M')).
  { assert (K1 : Z.lor (E' * 2 ^ fsz F + M') (Z.shiftl 1 (esz F + fsz F)) = (E' * 2 ^ fsz F + M') + 1 * 2 ^ (esz F + fsz F)).
    { destruct Hok. apply lor_shift_add; lia. }
    assert (S1 : Z.shiftl 1 (esz F + fsz F) = 2 ^ (esz F + fsz F)) by (destruct Hok; rewrite Z.shiftl_1_l; reflexivity).
    rewrite S1 in K1. intros b. destruct b.
    - replace (2 ^ (esz F + fsz F) + (E' * 2 ^ fsz F + M')) with (E' * 2 ^ fsz F + M' + 1 * 2 ^ (esz F + fsz F)) by lia.
      rewrite <- K1. rewrite (Z.lor_comm (E' * 2 ^ fsz F + M')), Z.lor_assoc, Z.lor_diag. reflexivity.
    - rewrite Z.add_0_l, Z.lor_comm. lia. }
  specialize (K t). rewrite Hd. replace ((if t then 2 ^ (esz F + fsz F) else 0) + E' * 2 ^ fsz F + M')
    with ((if t then 2 ^ (esz F + fsz F) else 0) + (E' * 2 ^ fsz F + M')) by lia. rewrite K. lia.
Qed.
(* the sign of the result is the disjunction of both signs, so the sign of x
   is copied only when y is positive (or x negative) *)
Theorem c_copy_sign : forall c s E M d t E' M',
  (has_fields ML_Binary32 c s E M -> has_fields ML_Binary32 d t E' M' ->
     has_fields ML_Binary32 (ml_copy_signf c d) (s || t) E' M') /\
  (has_fields ML_Binary64 c s E M -> has_fields ML_Binary64 d t E' M' ->
     has_fields ML_Binary64 (ml_copy_sign c d) (s || t) E' M').
Proof.
  intros. split; intros H H'.
  - exact (lor_sign ML_Binary32 c s E M d t E' M' ok32 H H').
  - exact (lor_sign ML_Binary64 c s E M d t E' M' ok64 H H').
Qed.
Theorem c_copy_sign_refuted : forall c E M d E' M', has_fields ML_Binary64 c false E M -> has_fields ML_Binary64 d true E' M' ->
  ml_copy_sign c d = d.
Proof.
  intros c E M d E' M' H H'. unfold ml_copy_sign.
  pose proof (w_sgn ML_Binary64 ok64 c false E M H) as W. cbv iota in W.
  change 0x8000000000000000 with (2 ^ (esz ML_Binary64 + fsz ML_Binary64)). rewrite W. reflexivity.
Qed.
(* sign and exponent insertion: the sign bit of x with the power of two *)
Theorem c_sign_exp_insertion : forall x s E M k, has_fields ML_Binary64 x s E M -> -1023 < k <= 1023 ->
  exists q, datum ML_Binary64 (ml_sign_exp_insertion_fp64 (ml_aligned_sign_extraction_fp64 x) k) (Num q)
    /\ (q == (if s then -1 else 1) * p2 k)%Q.
Proof.
  intros x s E M k H Hk. exists ((if s then -1 else 1) * p2 k)%Q. split; [|reflexivity].
  unfold ml_sign_exp_insertion_fp64, ml_aligned_sign_extraction_fp64.
  fold (ml_exp_insertion_fp64 k). rewrite Z.lor_comm, ins64, Z.mod_small by (change (2 ^ 11) with 2048; lia).
  pose proof (ins_fields ML_Binary64 (k + 1023) ok64 ltac:(change (2 ^ esz ML_Binary64) with 2048; lia)) as HF.
  pose proof (lor_sign ML_Binary64 x s E M _ _ _ _ ok64 H HF) as L. rewrite orb_false_r in L.
  eexists _, _, _. split; [exact L|]. apply d_normal; [change (2 ^ esz ML_Binary64) with 2048; lia|].
  change (ieee_bias ML_Binary64) with 1023. replace (k + 1023 - 1023) with k by lia. change (inject_Z 0) with 0%Q. ring.
Qed.
Example c_copy_sign_example : ml_copy_signf 0xbf800000 0x40000000 = 0xc0000000 /\ ml_copy_signf 0x3f800000 0xc0000000 = 0xc0000000
  /\ ml_sign_exp_insertion_fp64 (ml_aligned_sign_extraction_fp64 0xbff0000000000000) 3 = 0xc020000000000000.
Proof. repeat split. Qed.

(* ---------------- leading zeros ---------------- *)
(* n is the number of leading zeros of the w-bit word x *)
Definition leading_zeros (w x n : Z) : Prop := 0 <= n <= w /\ x < 2 ^ (w - n) /\ (n < w -> 2 ^ (w - n - 1) <= x).
Lemma leading_zeros_unique : forall w x n m, 0 <= x -> leading_zeros w x n -> leading_zeros w x m -> n = m.
Proof.
  assert (L : forall w x n m, 0 <= x -> leading_zeros w x n -> leading_zeros w x m -> ~ n < m).
  { intros w x n m Hx [A1 [A2 A3]] [B1 [B2 B3]] H. specialize (A3 ltac:(lia)).
    pose proof (Z.pow_le_mono_r 2 (w - m) (w - n - 1) ltac:(lia) ltac:(lia)). lia. }
  intros w x n m Hx A B. pose proof (L w x n m Hx A B). pose proof (L w x m n Hx B A). lia.
Qed.
Lemma builtin_ok : forall w x, 0 < x < 2 ^ w -> leading_zeros w x (builtin_clz w x).
Proof.
  intros w x H. unfold builtin_clz, leading_zeros. pose proof (Z.log2_spec x ltac:(lia)) as [L U]. pose proof (Z.log2_nonneg x).
  assert (Z.log2 x < w) by (apply Z.log2_lt_pow2; lia).
  replace (w - (w - 1 - Z.log2 x)) with (Z.succ (Z.log2 x)) by lia. split; [lia|]. split; [auto|].
  intros _. replace (Z.succ (Z.log2 x) - 1) with (Z.log2 x) by lia. auto.
Qed.
Theorem c_clz_partial : forall x,
  (0 < x < 2 ^ 32 -> leading_zeros 32 x (ml_count_leading_zeros_32b x)) /\
  (0 < x < 2 ^ 64 -> leading_zeros 64 x (ml_count_leading_zeros_64b x)).
Proof.
  intros x. unfold ml_count_leading_zeros_32b, ml_count_leading_zeros_64b.
  split; intros H; rewrite (proj2 (Z.eqb_neq x 0)) by lia; apply builtin_ok; auto.
Qed.
(* a zero word has 32 (64) leading zeros but 0 is answered *)
Theorem c_clz_zero_refuted : forall n,
  (leading_zeros 32 0 n -> n = 32 /\ ml_count_leading_zeros_32b 0 = 0) /\
  (leading_zeros 64 0 n -> n = 64 /\ ml_count_leading_zeros_64b 0 = 0).
Proof.
  intros n. split; intros [H1 [H2 H3]]; (split; [|reflexivity]).
  - destruct (Z.lt_ge_cases n 32) as [L|L]; [|lia]. specialize (H3 L). pose proof (pow2_pos (32 - n - 1)). lia.
  - destruct (Z.lt_ge_cases n 64) as [L|L]; [|lia]. specialize (H3 L). pose proof (pow2_pos (64 - n - 1)). lia.
Qed.

(* the table-based versions *)
Lemma lkup_ok : forall i, 0 <= i < 256 -> exists t, nth_error ml_clz_lkup (Z.to_nat i) = Some t /\ leading_zeros 64 i t.
Proof.
  assert (G : forall n, (n < 256)%nat -> match nth_error ml_clz_lkup n with
     | Some t => ((0 <=? t) && (t <=? 64) && (Z.of_nat n <? 2 ^ (64 - t)) && ((64 <=? t) || (2 ^ (64 - t - 1) <=? Z.of_nat n))) = true
     | None => False end).
  { intros n Hn.
    assert (A : forallb (fun n => match nth_error ml_clz_lkup n with
       | Some t => (0 <=? t) && (t <=? 64) && (Z.of_nat n <? 2 ^ (64 - t)) && ((64 <=? t) || (2 ^ (64 - t - 1) <=? Z.of_nat n))
       | None => false end) (seq 0 256) = true) by (vm_compute; reflexivity).
    rewrite forallb_forall in A. specialize (A n ltac:(apply in_seq; lia)).
    destruct (nth_error ml_clz_lkup n); [exact A|discriminate]. }
  intros i Hi. specialize (G (Z.to_nat i) ltac:(lia)). destruct (nth_error ml_clz_lkup (Z.to_nat i)) as [t|]; [|contradiction].
  exists t. split; auto. rewrite Z2Nat.id in G by lia.
  apply andb_prop in G. destruct G as [G G4]. apply andb_prop in G. destruct G as [G G3]. apply andb_prop in G. destruct G as [G1 G2].
  apply Z.leb_le in G1, G2. apply Z.ltb_lt in G3. unfold leading_zeros. split; [lia|]. split; [auto|].
  intros H. apply orb_prop in G4. destruct G4 as [G4|G4]; apply Z.leb_le in G4; lia.
Qed.
Lemma clz_shift : forall x n t, 0 <= x -> 0 <= n -> n <= t -> (n = 0 \/ 0 < Z.shiftr x n) -> leading_zeros 64 (Z.shiftr x n) t ->
  leading_zeros 64 x (t - n).
Proof.
  intros x n t Hx Hn Ht HZ [H1 [H2 H3]]. rewrite Z.shiftr_div_pow2 in * by lia. pose proof (pow2_pos n Hn) as P.
  pose proof (Z.mul_div_le x (2 ^ n) P). pose proof (Z.mul_succ_div_gt x (2 ^ n) P).
  split; [lia|]. split.
  - replace (64 - (t - n)) with (64 - t + n) by lia. rewrite Z.pow_add_r by lia.
    assert (2 ^ n * Z.succ (x / 2 ^ n) <= 2 ^ n * 2 ^ (64 - t)) by (apply Z.mul_le_mono_nonneg_l; lia). lia.
  - intros L. destruct HZ as [-> |HZ].
    + rewrite Z.pow_0_r, Z.div_1_r in *. replace (64 - (t - 0) - 1) with (64 - t - 1) by lia. apply H3. lia.
    + assert (T : t < 64).
      { destruct (Z.lt_ge_cases t 64); auto. assert (t = 64) by lia. subst t. cbn in H2. lia. }
      specialize (H3 T). replace (64 - (t - n) - 1) with (n + (64 - t - 1)) by lia. rewrite Z.pow_add_r by lia.
      assert (2 ^ n * 2 ^ (64 - t - 1) <= 2 ^ n * (x / 2 ^ n)) by (apply Z.mul_le_mono_nonneg_l; lia). lia.
Qed.
Lemma lz_ge : forall x t n, 0 <= n <= 64 -> 0 <= x < 2 ^ (64 - n) -> leading_zeros 64 x t -> n <= t.
Proof.
  intros x t n Hn Hx [H1 [H2 H3]]. destruct (Z.lt_ge_cases t n) as [L|L]; auto. specialize (H3 ltac:(lia)).
  pose proof (Z.pow_le_mono_r 2 (64 - n) (64 - t - 1) ltac:(lia) ltac:(lia)). lia.
Qed.
Lemma shr_lt : forall x a b, 0 <= a -> 0 <= b -> 0 <= x < 2 ^ (a + b) -> 0 <= Z.shiftr x a < 2 ^ b.
Proof.
  intros x a b Ha Hb H. rewrite Z.shiftr_div_pow2 by lia. rewrite Z.pow_add_r in H by lia.
  split; [apply Z.div_pos; [lia|apply pow2_pos; auto]|apply Z.div_lt_upper_bound; [apply pow2_pos; auto|lia]].
Qed.
Lemma shr_pos : forall x a, 0 <= a -> 2 ^ a <= x -> 0 < Z.shiftr x a.
Proof.
  intros x a Ha H. rewrite Z.shiftr_div_pow2 by lia. pose proof (pow2_pos a Ha). apply Z.div_str_pos. lia.
Qed.
Lemma step : forall x n k, 0 <= n -> 0 <= k -> Z.shiftr x n < 2 ^ (k + k) -> 0 <= x -> (n = 0 \/ 0 < Z.shiftr x n) ->
  let n' := n + c_int (2 ^ k <=? Z.shiftr x n) * k in
  n <= n' <= n + k /\ 0 <= Z.shiftr x n' < 2 ^ k /\ (n' = 0 \/ 0 < Z.shiftr x n').
Proof.
  intros x n k Hn Hk H Hx HZ n'. subst n'. destruct (Z.leb_spec (2 ^ k) (Z.shiftr x n)) as [L|L]; cbn [c_int].
  - rewrite Z.mul_1_l. rewrite <- Z.shiftr_shiftr by lia. split; [lia|]. split.
    + apply shr_lt; try lia.
    + right. apply shr_pos; auto.
  - rewrite Z.mul_0_l, Z.add_0_r. split; [lia|]. split; [split; [apply Z.shiftr_nonneg; auto|auto]|auto].
Qed.
Theorem c_clz_fallback_64b : forall x, 0 <= x < 2 ^ 64 -> exists n, fallback_clz_64b x = Some n /\ leading_zeros 64 x n.
Proof.
  intros x Hx. unfold fallback_clz_64b.
  pose proof (step x 0 32 ltac:(lia) ltac:(lia) ltac:(rewrite Z.shiftr_0_r; apply Hx) ltac:(lia) ltac:(auto)) as [A1 [A2 A3]].
  rewrite Z.shiftr_0_r, Z.add_0_l in *. set (n1 := c_int (2 ^ 32 <=? x) * 32) in *.
  pose proof (step x n1 16 ltac:(lia) ltac:(lia) ltac:(apply A2) ltac:(lia) A3) as [B1 [B2 B3]].
  set (n2 := n1 + c_int (2 ^ 16 <=? Z.shiftr x n1) * 16) in *.
  pose proof (step x n2 8 ltac:(lia) ltac:(lia) ltac:(apply B2) ltac:(lia) B3) as [C1 [C2 C3]].
  set (n3 := n2 + c_int (2 ^ 8 <=? Z.shiftr x n2) * 8) in *.
  destruct (lkup_ok _ C2) as [t [-> T]]. eexists. split; [reflexivity|]. apply clz_shift; auto; try lia.
  apply Z.le_trans with 56; [lia|]. apply (lz_ge (Z.shiftr x n3) t 56); [lia|exact C2|exact T].
Qed.
(* the 32-bit version uses the table made for 64-bit words: 32 too many *)
Theorem c_clz_fallback_32b_refuted : forall x n, 0 <= x < 2 ^ 32 -> leading_zeros 32 x n -> fallback_clz_32b x = Some (n + 32).
Proof.
  intros x n Hx HL. unfold fallback_clz_32b.
  pose proof (step x 0 16 ltac:(lia) ltac:(lia) ltac:(rewrite Z.shiftr_0_r; apply Hx) ltac:(lia) ltac:(auto)) as [B1 [B2 B3]].
  rewrite Z.shiftr_0_r, Z.add_0_l in *. set (n2 := c_int (2 ^ 16 <=? x) * 16) in *.
  pose proof (step x n2 8 ltac:(lia) ltac:(lia) ltac:(apply B2) ltac:(lia) B3) as [C1 [C2 C3]].
  set (n3 := n2 + c_int (2 ^ 8 <=? Z.shiftr x n2) * 8) in *.
  destruct (lkup_ok _ C2) as [t [-> T]]. f_equal. apply (leading_zeros_unique 64 x); [lia| |].
  - apply clz_shift; auto; try lia. apply Z.le_trans with 56; [lia|]. apply (lz_ge (Z.shiftr x n3) t 56); [lia|exact C2|exact T].
  - destruct HL as [H1 [H2 H3]]. split; [lia|]. replace (64 - (n + 32)) with (32 - n) by lia. split; auto.
    intros L. apply H3. lia.
Qed.
Example c_clz_example : ml_count_leading_zeros_32b 0x00400000 = 9 /\ ml_count_leading_zeros_64b 1 = 63 /\
  fallback_clz_64b 0x0000010000000000 = Some 23 /\ fallback_clz_32b 0x00400000 = Some 41.
Proof. repeat split. Qed.

Print Assumptions c_class_tests_binary32_partial. Print Assumptions c_class_tests_binary64_partial.
Print Assumptions c_subnormal_and_normal_tests. Print Assumptions c_tests_match_legalizer.
Print Assumptions c_special_values. Print Assumptions comp_sign_backends_refuted.
Print Assumptions c_exp_insertion. Print Assumptions c_mantissa_extraction. Print Assumptions c_copy_sign.
Print Assumptions c_clz_fallback_64b. Print Assumptions c_clz_fallback_32b_refuted.
