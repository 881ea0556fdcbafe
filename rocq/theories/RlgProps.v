(* Properties of the legalization of hardware operations (p_rtl_legalize.py, hdl_legalizer.py). *)
From Coq Require Import ZArith Bool Lia.
From Verif Require Import RlgModel RlgSpec RlgProofs.
Local Open Scope Z_scope.

Lemma shifted_field : forall x lo k, 0 <= lo -> 0 <= k -> Z.land (if lo =? 0 then x else Z.shiftr x lo) (2 ^ k - 1) = (x / 2 ^ lo) mod 2 ^ k.
Proof.
  intros x lo k L K. rewrite land_mask by exact K. destruct (Z.eqb_spec lo 0) as [->|NE]; [now rewrite Z.pow_0_r, Z.div_1_r|]. now rewrite Z.shiftr_div_pow2 by exact L.
Qed.
Lemma mod_mod_le : forall x a b, 0 <= a <= b -> (x mod 2 ^ a) mod 2 ^ b = x mod 2 ^ a.
Proof. intros x a b H. apply Z.mod_small. pose proof (Z.mod_pos_bound x (2 ^ a) (pow_pos a ltac:(lia))). pose proof (Z.pow_le_mono_r 2 a b). lia. Qed.
Lemma bits_of_div : forall x lo hi, 0 <= lo <= hi -> bits_of x lo hi ((x / 2 ^ lo) mod 2 ^ (hi - lo + 1)).
Proof.
  intros x lo hi H. split; [apply Z.mod_pos_bound; apply pow_pos; lia|]. intros i Hi. rewrite Z.mod_pow2_bits_low by lia. rewrite <- Z.shiftr_div_pow2 by lia. rewrite Z.shiftr_spec by lia. f_equal. lia.
Qed.
Lemma bitfield_div : forall fi ft x lo hi, 0 <= lo <= hi -> f_fixed fi && f_fixed ft = true \/ f_frac ft = 0 -> bitfield fi ft x lo hi = ((x / 2 ^ lo) mod 2 ^ (hi - lo + 1)) mod 2 ^ size ft.
Proof.
  intros fi ft x lo hi H C. unfold bitfield. rewrite shifted_field by lia. unfold convert, number, scale. destruct (f_fixed fi && f_fixed ft) eqn:B; cbn [f_signed f_frac andb].
  - rewrite Z.sub_diag. cbn [Z.leb]. rewrite Z.pow_0_r, Z.mul_1_r. reflexivity.
  - destruct C as [C|C]; [discriminate C|]. rewrite C. cbn. rewrite Z.mul_1_r. reflexivity.
Qed.
(* C135.  A bit field is legalized into its bits, in a target format that holds it, when both
   formats are fixed-point ones or the target has no fraction. *)
Theorem bitfield_bits : forall fi ft x lo hi, 0 <= lo <= hi -> hi - lo + 1 <= size ft -> f_fixed fi && f_fixed ft = true \/ f_frac ft = 0 -> bits_of x lo hi (bitfield fi ft x lo hi).
Proof.
  intros fi ft x lo hi H S C. rewrite bitfield_div by assumption. rewrite mod_mod_le by lia. now apply bits_of_div.
Qed.
(* and so is a single bit *)
Theorem element_bit : forall fi ft x i, 0 <= i -> 1 <= size ft -> f_fixed fi && f_fixed ft = true \/ f_frac ft = 0 -> element fi ft x i = Z.b2z (Z.testbit x i).
Proof.
  intros fi ft x i H S C. unfold element. rewrite bitfield_div by (assumption || lia). replace (i - i + 1) with 1 by lia. rewrite mod_mod_le by lia. rewrite Z.testbit_spec' by lia. reflexivity.
Qed.
(* an arithmetic shift would do as well: a field does not see the extension of the sign *)
Theorem bitfield_arithmetic : forall n s x lo hi, 0 <= lo <= hi -> hi < n -> ((x - s * 2 ^ n) / 2 ^ lo) mod 2 ^ (hi - lo + 1) = (x / 2 ^ lo) mod 2 ^ (hi - lo + 1).
Proof.
  intros n s x lo hi H N. replace (2 ^ n) with (2 ^ (n - hi - 1) * 2 ^ (hi - lo + 1) * 2 ^ lo) by (rewrite <- !Z.pow_add_r by lia; f_equal; lia). pose proof (pow_pos lo ltac:(lia)). pose proof (pow_pos (hi - lo + 1) ltac:(lia)).
  replace (x - s * (2 ^ (n - hi - 1) * 2 ^ (hi - lo + 1) * 2 ^ lo)) with (x + (- (s * 2 ^ (n - hi - 1)) * 2 ^ (hi - lo + 1)) * 2 ^ lo) by ring. rewrite Z.div_add by lia. now rewrite Z_mod_plus_full.
Qed.
(* from bits (std_logic_vector) to a fixed-point format with a fraction, no field but 0 is right *)
Theorem bitfield_fraction_refuted : forall fi ft x lo hi, 0 <= lo <= hi -> hi - lo + 1 = size ft -> f_fixed fi = false -> 0 < f_frac ft -> (x / 2 ^ lo) mod 2 ^ (hi - lo + 1) <> 0 -> ~ bits_of x lo hi (bitfield fi ft x lo hi).
Proof.
  intros fi ft x lo hi H S F P NZ [B1 B2].
  assert (E : bitfield fi ft x lo hi = (x / 2 ^ lo) mod 2 ^ (hi - lo + 1)).
  { pose proof (bits_of_div x lo hi H) as [C1 C2]. apply Z.bits_inj'. intros i Hi. destruct (Z_lt_le_dec (hi - lo) i) as [L|L].
    - rewrite <- (Z.mod_small (bitfield fi ft x lo hi) (2 ^ (hi - lo + 1))) by lia. rewrite !Z.mod_pow2_bits_high by lia. reflexivity.
    - rewrite B2, C2 by lia. reflexivity. }
  revert E. unfold bitfield. rewrite shifted_field by lia. rewrite F. cbn [andb]. unfold convert, number, scale. cbn [f_signed f_frac andb]. rewrite Z.sub_0_r. rewrite (proj2 (Z.leb_le 0 (f_frac ft))) by lia. rewrite <- S. apply scale_differs; [exact P|lia|]. pose proof (Z.mod_pos_bound (x / 2 ^ lo) (2 ^ (hi - lo + 1)) (pow_pos (hi - lo + 1) ltac:(lia))). lia.
Qed.

(* a concatenation is legalized into its operands side by side, for unsigned operands with the same fraction as the result *)
Theorem concatenation_bits : forall fl fr fp l r, f_signed fl = false -> f_signed fr = false -> f_frac fl = f_frac fp -> f_frac fr = f_frac fp -> 0 <= size fl -> 0 <= size fr -> size fl + size fr <= size fp -> 0 <= l < 2 ^ size fl -> 0 <= r < 2 ^ size fr ->
  side_by_side l r (size fr) (concatenation fl fr fp l r).
Proof.
  intros fl fr fp l r SL SR FL FR NL NR S HL HR. unfold concatenation, convert, number, scale. rewrite SL, SR, FL, FR, Z.sub_diag. cbn [andb Z.leb]. rewrite Z.pow_0_r, !Z.mul_1_r.
  pose proof (Z.pow_le_mono_r 2 (size fl) (size fp) ltac:(lia) ltac:(lia)). pose proof (Z.pow_le_mono_r 2 (size fr) (size fp) ltac:(lia) ltac:(lia)). rewrite (Z.mod_small l) by lia. rewrite (Z.mod_small r) by lia. rewrite Z.shiftl_mul_pow2 by lia.
  pose proof (pow_pos (size fr) NR). pose proof (Z.pow_le_mono_r 2 (size fl + size fr) (size fp) ltac:(lia) ltac:(lia)) as PM. rewrite Z.pow_add_r in PM by lia. rewrite (Z.mod_small (l * 2 ^ size fr)) by nia. rewrite lor_disjoint by lia. split.
  - rewrite Z.div_add_l by lia. rewrite Z.div_small by lia. lia.
  - rewrite Z.add_comm, Z.mod_add by lia. apply Z.mod_small. lia.
Qed.
(* with a negative right operand, the left one is lost *)
Theorem concatenation_sign_refuted : forall fl fr fp l r, f_signed fr = true -> f_frac fr = f_frac fp -> 1 <= size fr -> size fr <= size fp -> 2 ^ (size fr - 1) <= r < 2 ^ size fr ->
  concatenation fl fr fp l r = 2 ^ size fp - 2 ^ size fr + r.
Proof.
  intros fl fr fp l r SR FR NR S HR. unfold concatenation. set (c := convert fl fp l).
  assert (CR : convert fr fp r = 2 ^ size fp - 2 ^ size fr + r).
  { unfold convert, number, scale. rewrite SR, FR, Z.sub_diag. rewrite (proj2 (Z.leb_le (2 ^ (size fr - 1)) r)) by lia. change (0 <=? 0) with true. cbn [andb]. rewrite Z.pow_0_r, Z.mul_1_r. pose proof (Z.pow_le_mono_r 2 (size fr) (size fp) ltac:(lia) ltac:(lia)). pose proof (pow_pos (size fr - 1) ltac:(lia)). rewrite <- (Z_mod_plus_full (r - 2 ^ size fr) 1 (2 ^ size fp)). rewrite Z.mod_small by lia. lia. }
  rewrite CR. rewrite Z.shiftl_mul_pow2 by lia. set (a := (c * 2 ^ size fr) mod 2 ^ size fp). set (k := size fr) in *. set (n := size fp) in *.
  assert (R : 2 ^ n - 2 ^ k + r = (2 ^ (n - k) - 1) * 2 ^ k + r) by (rewrite Z.mul_sub_distr_r, <- Z.pow_add_r by lia; replace (n - k + k) with n by lia; lia).
  rewrite R. rewrite <- (lor_disjoint (2 ^ (n - k) - 1) r k) by lia. rewrite Z.lor_assoc. f_equal. apply Z.bits_inj'. intros i Hi. rewrite Z.lor_spec.
  assert (EA : a = (c mod 2 ^ (n - k)) * 2 ^ k) by (unfold a; replace n with ((n - k) + k) at 1 by lia; rewrite Z.pow_add_r by lia; rewrite Z.mul_mod_distr_r by (pose proof (pow_pos k ltac:(lia)); pose proof (pow_pos (n - k) ltac:(lia)); lia); reflexivity).
  rewrite EA. destruct (Z_lt_le_dec i k) as [L|L]; [rewrite !Z.mul_pow2_bits_low by lia; reflexivity|]. rewrite !Z.mul_pow2_bits by lia. replace (2 ^ (n - k) - 1) with (Z.ones (n - k)) by (rewrite Z.ones_equiv; lia).
  destruct (Z_lt_le_dec (i - k) (n - k)) as [M|M]; [rewrite (Z.ones_spec_low (n - k)) by lia; apply orb_true_r|]. rewrite Z.mod_pow2_bits_high by lia. reflexivity.
Qed.
(* with bits as right operand and a fraction in the result, no right operand but 0 is right after 0 *)
Theorem concatenation_fraction_refuted : forall fl fr fp r, f_signed fr = false -> f_signed fl = false -> f_frac fr = 0 -> f_frac fl <= f_frac fp -> 0 < f_frac fp -> 0 <= size fr -> size fr <= size fp -> 0 < r < 2 ^ size fr -> concatenation fl fr fp 0 r <> r.
Proof.
  intros fl fr fp r SR SL FR FL P NR S HR. unfold concatenation. assert (C0 : convert fl fp 0 = 0) by (unfold convert, number, scale; rewrite SL; cbn [andb]; rewrite (proj2 (Z.leb_le 0 (f_frac fp - f_frac fl))) by lia; rewrite Z.mul_0_l; apply Zmod_0_l). rewrite C0, Z.shiftl_0_l, Zmod_0_l, Z.lor_0_l. unfold convert, number, scale. rewrite SR, FR, Z.sub_0_r. cbn [andb]. rewrite (proj2 (Z.leb_le 0 (f_frac fp))) by lia. pose proof (Z.pow_le_mono_r 2 (size fr) (size fp) ltac:(lia) ltac:(lia)). apply scale_differs; lia.
Qed.

(* the branches of a selection are converted to the format of the result, unless they have its size and another fraction *)
Theorem select_converted : forall f0 f1 fo c x0 x1, 0 <= size fo -> (size f0 = size fo -> f_frac f0 = f_frac fo /\ 0 <= x0 < 2 ^ size f0) -> (size f1 = size fo -> f_frac f1 = f_frac fo /\ 0 <= x1 < 2 ^ size f1) -> select f0 f1 fo c x0 x1 = if c then convert f0 fo x0 else convert f1 fo x1.
Proof.
  intros f0 f1 fo c x0 x1 NS H0 H1. assert (B : forall f x, (size f = size fo -> f_frac f = f_frac fo /\ 0 <= x < 2 ^ size f) -> branch f fo x = convert f fo x).
  { intros f x H. unfold branch. destruct (Z.eqb_spec (size f) (size fo)) as [E|E]; [|reflexivity]. destruct (H E) as [F X]. unfold convert, number, scale. rewrite F, Z.sub_diag. change (0 <=? 0) with true. cbv iota. rewrite Z.pow_0_r, Z.mul_1_r, E. rewrite E in X. destruct (f_signed f && (2 ^ (size fo - 1) <=? x)); [|now rewrite Z.mod_small by lia]. replace (x - 2 ^ size fo) with (x + (-1) * 2 ^ size fo) by lia. rewrite Z_mod_plus_full. now rewrite Z.mod_small by lia. }
  unfold select. destruct c; apply B; assumption.
Qed.
(* a branch with the size of the result and fewer bits of fraction is taken as it is: no value but 0 is right *)
Theorem select_fraction_refuted : forall fb fo x, size fb = size fo -> 0 <= size fo -> f_signed fb = false -> f_frac fb < f_frac fo -> 0 < x < 2 ^ size fb -> branch fb fo x = x /\ convert fb fo x <> x.
Proof.
  intros fb fo x S N SB F X. split; [unfold branch; now rewrite S, Z.eqb_refl|]. unfold convert, number, scale. rewrite SB. cbn [andb]. rewrite (proj2 (Z.leb_le 0 (f_frac fo - f_frac fb))) by lia. rewrite S in X. apply scale_differs; lia.
Qed.

(* the mantissa of a floating-point number gives its magnitude with its exponent *)
Theorem mantissa_value : forall es fs x, 0 < es -> 0 < fs -> mantissa es fs x * 2 ^ Z.max 1 (raw_exponent es fs x) = magnitude es fs x /\ 0 <= mantissa es fs x < 2 ^ (fs + 1).
Proof.
  intros es fs x HE HF. unfold mantissa, from_fields, raw_exponent, field, sub_signal, magnitude. replace (fs - 1 - 0 + 1) with fs by lia. replace (fs + es - 1 - fs + 1) with es by lia. rewrite Z.pow_0_r, Z.div_1_r. pose proof (Z.mod_pos_bound x (2 ^ fs) (pow_pos fs ltac:(lia))). pose proof (Z.mod_pos_bound (x / 2 ^ fs) (2 ^ es) (pow_pos es ltac:(lia))). rewrite Z.pow_add_r by lia. destruct (Z.eqb_spec ((x / 2 ^ fs) mod 2 ^ es) 0) as [E|E]; destruct (Z.eq_dec ((x / 2 ^ fs) mod 2 ^ es) 0) as [D|D]; try contradiction.
  - rewrite E. split; [rewrite Z.max_l by lia|]; lia.
  - rewrite Z.max_r by lia. split; [ring|lia].
Qed.
(* normal numbers are those whose mantissa has its high bit set *)
Theorem mantissa_normal : forall es fs x, 0 < es -> 0 < fs -> (2 ^ fs <= mantissa es fs x <-> raw_exponent es fs x <> 0).
Proof.
  intros es fs x HE HF. unfold mantissa, from_fields, field, sub_signal. replace (fs - 1 - 0 + 1) with fs by lia. rewrite Z.pow_0_r, Z.div_1_r. pose proof (Z.mod_pos_bound x (2 ^ fs) (pow_pos fs ltac:(lia))). destruct (Z.eqb_spec (raw_exponent es fs x) 0) as [E|E]; split; intro G; try lia; congruence.
Qed.

(* ---- samples ---- *)
Definition u8 := mkF true 8 0 false.
Definition s4 := mkF true 4 0 true.
Definition u4 := mkF true 4 0 false.
Definition u2_2 := mkF true 2 2 false.
Definition slv8 := mkF false 8 0 false.
Definition u4_4 := mkF true 4 4 false.
Example sample_bitfield : bitfield u8 u4 0xA6 2 5 = 9 /\ bitfield u4_4 u2_2 0xA6 2 5 = 9 /\ bitfield slv8 u4 0xA6 2 5 = 9 /\ bitfield slv8 u2_2 0xA6 2 5 = 4 /\ element u8 u4 0xA6 5 = 1.
Proof. repeat split. Qed.
Example sample_concatenation : concatenation u4 u4 u8 0xA 0x6 = 0xA6 /\ concatenation u4 s4 u8 0xA 0xD = 0xFD /\ concatenation u4 u4 u4_4 0 3 = 48.
Proof. repeat split. Qed.
Example sample_select : select u4 u8 u8 true 9 200 = 9 /\ select u4 u8 u8 false 9 200 = 200 /\ select s4 u8 u8 true 9 200 = 249 /\ select u4_4 u8 u8 true 0x98 200 = 0x98 /\ convert u4_4 u8 0x98 = 9.
Proof. repeat split. Qed.
(* binary32: 1.5, the smallest subnormal, zero *)
Example sample_mantissa : mantissa 8 23 0x3FC00000 = 0xC00000 /\ mantissa 8 23 1 = 1 /\ mantissa 8 23 0 = 0 /\ raw_exponent 8 23 0x3FC00000 = 127.
Proof. repeat split. Qed.

Print Assumptions bitfield_bits.
Print Assumptions element_bit.
Print Assumptions bitfield_arithmetic.
Print Assumptions bitfield_fraction_refuted.
Print Assumptions concatenation_bits.
Print Assumptions concatenation_sign_refuted.
Print Assumptions concatenation_fraction_refuted.
Print Assumptions select_converted.
Print Assumptions select_fraction_refuted.
Print Assumptions mantissa_value.
Print Assumptions mantissa_normal.
