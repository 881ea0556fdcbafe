(* Lemmas for the floating-point format properties. *)
From Coq Require Import ZArith QArith Qabs Qround Bool Lia Lqa Qfield.
From Verif Require Import QUtil FpFormatModel FpFormatSpec.
Open Scope Z_scope.

(* ---- bit lemmas ---- *)
Lemma land_pow2 : forall x n, 0 <= n -> Z.land x (2 ^ n - 1) = x mod 2 ^ n.
Proof.
  intros x n H. rewrite <- Z.land_ones by lia. f_equal.
  rewrite Z.ones_equiv. lia.
Qed.

Lemma lor_shift_add : forall a b n, 0 <= n -> 0 <= a < 2 ^ n -> Z.lor a (Z.shiftl b n) = a + b * 2 ^ n.
Proof.
  intros a b n Hn Ha. rewrite Z.shiftl_mul_pow2 by lia.
  assert (Hh : forall k, n <= k -> Z.testbit a k = false).
  { intros k Hk. rewrite <- (Z.mod_small a (2 ^ n)) by lia. apply Z.mod_pow2_bits_high; lia. }
  rewrite (Z.add_nocarry_lxor a (b * 2 ^ n)).
  - apply Z.bits_inj'. intros k Hk. rewrite Z.lor_spec, Z.lxor_spec.
    destruct (Z.lt_ge_cases k n).
    + rewrite Z.mul_pow2_bits_low by lia. destruct (Z.testbit a k); reflexivity.
    + rewrite Hh by lia. destruct (Z.testbit _ k); reflexivity.
  - apply Z.bits_inj'. intros k Hk. rewrite Z.land_spec, Z.bits_0.
    destruct (Z.lt_ge_cases k n).
    + rewrite Z.mul_pow2_bits_low by lia. apply andb_false_r.
    + rewrite Hh by lia. reflexivity.
Qed.

Section Fmt.
Variable F : fpfmt.
Hypothesis Hok : fmt_ok F.

Local Notation e := (esz F).
Local Notation f := (fsz F).

Lemma e_pos : 2 <= e. Proof. exact (proj1 Hok). Qed.
Lemma f_pos : 1 <= f. Proof. exact (proj2 Hok). Qed.

Lemma pow_split : forall a b, 0 <= a -> 0 <= b -> 2 ^ (a + b) = 2 ^ a * 2 ^ b.
Proof. intros; apply Z.pow_add_r; lia. Qed.

Lemma pe_half : 2 ^ e = 2 * 2 ^ (e - 1).
Proof. pose proof e_pos. replace e with (1 + (e - 1)) at 1 by lia. rewrite Z.pow_add_r by lia. lia. Qed.

Lemma pe1_ge : 2 <= 2 ^ (e - 1).
Proof. pose proof e_pos. change 2 with (2 ^ 1) at 1. apply Z.pow_le_mono_r; lia. Qed.

Lemma pf_ge : 2 <= 2 ^ f.
Proof. pose proof f_pos. change 2 with (2 ^ 1) at 1. apply Z.pow_le_mono_r; lia. Qed.

Lemma pf1_ge : 1 <= 2 ^ (f - 1).
Proof. pose proof f_pos. change 1 with (2 ^ 0) at 1. apply Z.pow_le_mono_r; lia. Qed.

Lemma pf_half : 2 ^ f = 2 * 2 ^ (f - 1).
Proof. pose proof f_pos. replace f with (1 + (f - 1)) at 1 by lia. rewrite Z.pow_add_r by lia. lia. Qed.

Lemma p_ef : 2 ^ (e + f) = 2 ^ e * 2 ^ f.
Proof. pose proof e_pos. pose proof f_pos. apply pow_split; lia. Qed.

Lemma p_1ef : 2 ^ (1 + e + f) = 2 * (2 ^ e * 2 ^ f).
Proof. pose proof e_pos. pose proof f_pos. rewrite !pow_split by lia. lia. Qed.

Lemma emax_eq : emax F = 2 ^ (e - 1) - 1.
Proof. unfold emax, bias. rewrite pe_half. lia. Qed.

Lemma bias_eq : bias F = - ieee_bias F.
Proof. unfold bias, ieee_bias. lia. Qed.

(* ---- fields ---- *)
Lemma fields_range : forall c s E M, has_fields F c s E M -> 0 <= c < 2 ^ (1 + e + f).
Proof.
  intros c s E M (-> & HE & HM). rewrite p_1ef. rewrite p_ef.
  pose proof pf_ge. destruct s; nia.
Qed.

Lemma fields_exist : forall c, 0 <= c < 2 ^ (1 + e + f) -> exists s E M, has_fields F c s E M.
Proof.
  intros c Hc. rewrite p_1ef in Hc. pose proof pf_ge. pose proof pe1_ge.
  pose proof pe_half as PH.
  assert (0 < 2 ^ e) by lia.
  pose proof (Z.div_mod c (2 ^ f) ltac:(lia)) as D1.
  pose proof (Z.mod_pos_bound c (2 ^ f) ltac:(lia)).
  pose proof (Z.div_mod (c / 2 ^ f) (2 ^ e) ltac:(lia)) as D2.
  pose proof (Z.mod_pos_bound (c / 2 ^ f) (2 ^ e) ltac:(lia)).
  assert (0 <= c / 2 ^ f / 2 ^ e < 2).
  { rewrite Z.div_div by lia. split; [apply Z.div_pos; nia|].
    apply Z.div_lt_upper_bound; nia. }
  exists (negb (c / 2 ^ f / 2 ^ e =? 0)), ((c / 2 ^ f) mod 2 ^ e), (c mod 2 ^ f).
  split; [|split; lia]. rewrite p_ef.
  destruct (Z.eqb_spec (c / 2 ^ f / 2 ^ e) 0) as [E0|E0]; cbn [negb].
  - rewrite E0 in D2. nia.
  - assert (E1 : c / 2 ^ f / 2 ^ e = 1) by lia. rewrite E1 in D2. nia.
Qed.

Section Fields.
Variables (c : Z) (s : bool) (E M : Z).
Hypothesis Hc : has_fields F c s E M.

Lemma c_mod_f : c mod 2 ^ f = M.
Proof.
  destruct Hc as (Ec & HE & HM). pose proof pf_ge. rewrite Ec, p_ef.
  symmetry. apply (Z.mod_unique_pos _ _ ((if s then 2 ^ e else 0) + E)); [lia|]. destruct s; ring.
Qed.
Lemma c_div_f : c / 2 ^ f = (if s then 2 ^ e else 0) + E.
Proof.
  destruct Hc as (Ec & HE & HM). pose proof pf_ge. rewrite Ec, p_ef.
  symmetry. apply (Z.div_unique_pos _ _ _ M); [lia|]. destruct s; ring.
Qed.
Lemma c_exp : (c / 2 ^ f) mod 2 ^ e = E.
Proof.
  rewrite c_div_f. destruct Hc as (Ec & HE & HM).
  symmetry. apply (Z.mod_unique_pos _ _ (if s then 1 else 0)); [lia|]. destruct s; ring.
Qed.
Lemma c_sign : c / 2 ^ (f + e) = if s then 1 else 0.
Proof.
  pose proof e_pos. pose proof f_pos.
  rewrite pow_split by lia. rewrite <- Z.div_div by (pose proof pf_ge; pose proof pe1_ge; pose proof pe_half; lia).
  rewrite c_div_f. destruct Hc as (Ec & HE & HM).
  symmetry. apply (Z.div_unique_pos _ _ _ E); [lia|]. destruct s; ring.
Qed.

Lemma view_field : forall x lo w, 0 <= lo -> 0 <= w -> lo + w <= 1 + e + f -> view_of F x c ->
  (x / 2 ^ lo) mod 2 ^ w = (c / 2 ^ lo) mod 2 ^ w.
Proof.
  intros x lo w Hl Hw Hlw V. unfold view_of in V.
  apply Z.bits_inj'. intros k Hk.
  destruct (Z.lt_ge_cases k w).
  - rewrite !Z.mod_pow2_bits_low by lia. rewrite <- !Z.shiftr_div_pow2 by lia.
    rewrite !Z.shiftr_spec by lia. rewrite <- V. rewrite Z.mod_pow2_bits_low by lia. reflexivity.
  - rewrite !Z.mod_pow2_bits_high by lia. reflexivity.
Qed.

Lemma view_raw_exp : forall x, view_of F x c -> raw_exp_extraction F x = E.
Proof.
  intros x V. pose proof e_pos. pose proof f_pos. unfold raw_exp_extraction, field_extraction, bit_size.
  destruct (Z.eqb_spec f 0); [lia|].
  replace (f + e - 1 - f + 1) with e by lia.
  destruct (Z.eqb_spec e (1 + e + f)); [lia|].
  rewrite land_pow2 by lia. rewrite Z.shiftr_div_pow2 by lia.
  rewrite (view_field x f e) by (auto; lia). apply c_exp.
Qed.

Lemma view_raw_mant : forall x, view_of F x c -> raw_mantissa_extraction F x = M.
Proof.
  intros x V. pose proof e_pos. pose proof f_pos. unfold raw_mantissa_extraction, field_extraction, bit_size.
  cbn [Z.eqb]. replace (f - 1 - 0 + 1) with f by lia.
  destruct (Z.eqb_spec f (1 + e + f)); [lia|].
  rewrite land_pow2 by lia. rewrite <- (Z.div_1_r x). change 1 with (2 ^ 0) at 1.
  rewrite (view_field x 0 f) by (auto; lia). change (2 ^ 0) with 1. rewrite Z.div_1_r. apply c_mod_f.
Qed.

Lemma view_quiet : forall x, view_of F x c ->
  field_extraction (bit_size F) (f - 1) (f - 1) x = if M <? 2 ^ (f - 1) then 0 else 1.
Proof.
  intros x V. pose proof e_pos. pose proof f_pos. unfold field_extraction, bit_size.
  replace (f - 1 - (f - 1) + 1) with 1 by lia.
  destruct (Z.eqb_spec 1 (1 + e + f)); [lia|].
  rewrite land_pow2 by lia.
  assert (X : (if f - 1 =? 0 then x else Z.shiftr x (f - 1)) = x / 2 ^ (f - 1)).
  { destruct (Z.eqb_spec (f - 1) 0) as [E0|E0].
    - rewrite E0. change (2 ^ 0) with 1. rewrite Z.div_1_r. reflexivity.
    - apply Z.shiftr_div_pow2; lia. }
  rewrite X. rewrite (view_field x (f - 1) 1) by (auto; lia).
  destruct Hc as (Ec & HE & HM). pose proof pf_half as PH. pose proof pf1_ge.
  change (2 ^ 1) with 2.
  assert (D : c / 2 ^ (f - 1) = 2 * ((if s then 2 ^ e else 0) + E) + (if M <? 2 ^ (f - 1) then 0 else 1)).
  { symmetry. apply (Z.div_unique_pos _ _ _ (M - (if M <? 2 ^ (f - 1) then 0 else 2 ^ (f - 1)))).
    - destruct (Z.ltb_spec M (2 ^ (f - 1))); lia.
    - rewrite Ec, p_ef, PH. destruct (Z.ltb_spec M (2 ^ (f - 1))); destruct s; ring. }
  rewrite D. rewrite Z.add_comm, Z.mul_comm, Z.mod_add by lia.
  destruct (M <? 2 ^ (f - 1)); reflexivity.
Qed.

Lemma view_abs : forall x, view_of F x c ->
  field_extraction (bit_size F) 0 (bit_size F - 2) x = E * 2 ^ f + M.
Proof.
  intros x V. pose proof e_pos. pose proof f_pos. unfold field_extraction, bit_size. cbn [Z.eqb].
  replace (1 + e + f - 2 - 0 + 1) with (e + f) by lia.
  destruct (Z.eqb_spec (e + f) (1 + e + f)); [lia|].
  rewrite land_pow2 by lia. rewrite <- (Z.div_1_r x). change 1 with (2 ^ 0) at 1.
  rewrite (view_field x 0 (e + f)) by (auto; lia). change (2 ^ 0) with 1. rewrite Z.div_1_r.
  destruct Hc as (Ec & HE & HM). pose proof pf_ge.
  symmetry. apply (Z.mod_unique_pos _ _ (if s then 1 else 0)).
  - rewrite p_ef. nia.
  - rewrite Ec. destruct s; ring.
Qed.

(* ---- decoding ---- *)
Lemma decode_ieee : ieee_datum F s E M (get_value_from_integer_coding F c).
Proof.
  pose proof e_pos. pose proof f_pos.
  unfold get_value_from_integer_coding.
  rewrite !land_pow2 by lia. rewrite !Z.shiftr_div_pow2 by lia.
  rewrite c_exp, c_mod_f, c_sign.
  destruct Hc as (Ec & HE & HM). pose proof pf_half. pose proof pf1_ge.
  assert (N1 : (negb ((if s then 1 else 0) =? 0)) = s) by (destruct s; reflexivity).
  assert (N2 : ((if s then 1 else 0) =? 0) = negb s) by (destruct s; reflexivity).
  rewrite N1, N2. unfold nanorinf_exp_field.
  destruct (Z.eqb_spec E (2 ^ e - 1)) as [E1|E1].
  - rewrite E1. destruct (Z.eqb_spec M 0) as [M0|M0]; cbn [andb].
    + rewrite M0. destruct s; cbn [negb]; constructor.
    + assert (Q1 : (M / 2 ^ (f - 1) =? 0) = (M <? 2 ^ (f - 1))).
      { destruct (Z.ltb_spec M (2 ^ (f - 1))).
        - rewrite Z.div_small by lia. reflexivity.
        - apply Z.eqb_neq. assert (1 <= M / 2 ^ (f - 1)); [|lia].
          apply Z.div_le_lower_bound; lia. }
      rewrite Q1. destruct (Z.ltb_spec M (2 ^ (f - 1))); cbn [negb]; constructor; auto; lia.
  - destruct (Z.eqb_spec E 0) as [E0|E0]; cbn [andb].
    + rewrite E0. destruct (Z.eqb_spec M 0) as [M0|M0]; cbn [andb].
      * rewrite M0. destruct s; constructor.
      * apply d_subnormal; auto. rewrite bias_eq.
        replace (0 + - ieee_bias F + 1) with (1 - ieee_bias F) by lia.
        destruct s; ring.
    + apply d_normal; [lia|]. rewrite bias_eq.
      replace (E + - ieee_bias F + 0) with (E - ieee_bias F) by lia.
      destruct s; ring.
Qed.
End Fields.

(* ---- canonical form of a positive finite value: N * 2^ee, and its code ---- *)
Definition canonical (v : Q) (N ee : Z) : Prop :=
  (v == inject_Z N * p2 ee)%Q /\ 1 <= N < 2 ^ (f + 1) /\
  emin_subnormal F <= ee <= emax F - f /\
  (2 ^ f <= N \/ ee = emin_subnormal F).

Definition can_code (N ee : Z) : Z := N + (ee - emin_subnormal F) * 2 ^ f.

Lemma emin_sub_eq : emin_subnormal F = 2 - 2 ^ (e - 1) - f.
Proof. unfold emin_subnormal, bias. lia. Qed.
Lemma emax_f_eq : emax F - f = 2 ^ (e - 1) - 1 - f.
Proof. rewrite emax_eq. lia. Qed.

Lemma pf1 : 2 ^ (f + 1) = 2 * 2 ^ f.
Proof. pose proof f_pos. rewrite pow_split by lia. lia. Qed.

Lemma canonical_pos : forall v N ee, canonical v N ee -> (0 < v)%Q.
Proof.
  intros v N ee (Hv & HN & _). rewrite Hv. pose proof (p2_pos ee).
  assert (0 < inject_Z N)%Q by (change 0%Q with (inject_Z 0); rewrite <- Zlt_Qlt; lia). nra.
Qed.

Lemma inj_le : forall a b, a <= b -> (inject_Z a <= inject_Z b)%Q.
Proof. intros. rewrite <- Zle_Qle. auto. Qed.
Lemma inj_lt : forall a b, a < b -> (inject_Z a < inject_Z b)%Q.
Proof. intros. rewrite <- Zlt_Qlt. auto. Qed.

Lemma canonical_binade_normal : forall v N ee, canonical v N ee -> 2 ^ f <= N ->
  qlog2 v = ee + f.
Proof.
  intros v N ee (Hv & HN & Hee & _) HN2. pose proof f_pos. pose proof (p2_pos ee).
  apply qlog2_unique.
  - rewrite Hv, p2_plus, (p2_Z f) by lia. rewrite (Qmult_comm (p2 ee)).
    apply Qmult_le_compat_r; [apply inj_le; lia | lra].
  - rewrite Hv. replace (ee + f + 1) with (ee + (f + 1)) by lia.
    rewrite p2_plus, (p2_Z (f + 1)) by lia. rewrite (Qmult_comm (p2 ee)).
    apply Qmult_lt_r; auto. apply inj_lt; lia.
Qed.

Lemma canonical_sub_log : forall v N ee, canonical v N ee -> N < 2 ^ f -> qlog2 v < emin_normal F.
Proof.
  intros v N ee C HN2. pose proof (canonical_pos _ _ _ C) as P.
  destruct C as (Hv & HN & Hee & [Hc|Hc]); [lia|].
  pose proof f_pos. pose proof (p2_pos ee).
  destruct (qlog2_spec v P) as [L _].
  apply p2_lt_inv. eapply Qle_lt_trans; [exact L|].
  rewrite Hv, Hc. replace (emin_normal F) with (emin_subnormal F + f) by (unfold emin_normal, emin_subnormal; lia).
  rewrite p2_plus, (p2_Z f) by lia. rewrite (Qmult_comm (p2 _)).
  apply Qmult_lt_r; [apply p2_pos|]. apply inj_lt; lia.
Qed.

(* rounding exponent used for v *)
Lemma canonical_exp : forall v N ee, canonical v N ee -> Z.max (qlog2 v) (emin_normal F) - f = ee.
Proof.
  intros v N ee C. pose proof C as (Hv & HN & Hee & Hc).
  assert (emin_normal F = emin_subnormal F + f) by (unfold emin_normal, emin_subnormal; lia).
  destruct (Z.le_gt_cases (2 ^ f) N).
  - rewrite (canonical_binade_normal _ _ _ C H0). lia.
  - pose proof (canonical_sub_log _ _ _ C H0). lia.
Qed.

Lemma canonical_exists : forall v, representable F v -> (0 < v)%Q -> exists N ee, canonical v N ee.
Proof.
  intros v (m & x & Hm & Hx & Hv) P. rewrite <- emin_sub_eq, <- emax_f_eq in Hx.
  pose proof f_pos. pose proof (p2_pos x) as Px.
  assert (Hm0 : 0 < m).
  { destruct (Z.lt_ge_cases 0 m); auto. exfalso.
    assert (inject_Z m <= 0)%Q by (change 0%Q with (inject_Z 0); apply inj_le; lia). nra. }
  set (ee := Z.max (qlog2 v - f) (emin_subnormal F)).
  destruct (qlog2_spec v P) as [L1 L2].
  assert (Hl : qlog2 v - f <= x).
  { assert (qlog2 v < x + (f + 1)); [|lia]. apply p2_lt_inv.
    eapply Qle_lt_trans; [exact L1|]. rewrite Hv, p2_plus, (p2_Z (f + 1)) by lia.
    rewrite (Qmult_comm (p2 x)). apply Qmult_lt_r; auto. apply inj_lt; lia. }
  assert (Hxe : ee <= x) by lia.
  exists (m * 2 ^ (x - ee)), ee.
  assert (Ev : (v == inject_Z (m * 2 ^ (x - ee)) * p2 ee)%Q).
  { rewrite Hv. rewrite inject_Z_mult. rewrite <- (p2_Z (x - ee)) by lia.
    rewrite <- Qmult_assoc, <- p2_plus. replace (x - ee + ee) with x by lia. reflexivity. }
  pose proof (p2_pos ee) as Pe.
  assert (0 < 2 ^ (x - ee)) by (apply pow2_pos; lia).
  assert (UB : m * 2 ^ (x - ee) < 2 ^ (f + 1)).
  { rewrite Zlt_Qlt. apply (Qmult_lt_r _ _ (p2 ee)); auto. rewrite <- Ev.
    rewrite <- p2_Z by lia. rewrite <- p2_plus. eapply Qlt_le_trans; [exact L2|]. apply p2_le. lia. }
  repeat split; auto; try nia; try lia.
  destruct (Z.le_gt_cases (qlog2 v - f) (emin_subnormal F)); [right; lia|left].
  rewrite Zle_Qle. apply (Qmult_le_r _ _ (p2 ee)); auto. rewrite <- Ev.
  rewrite <- p2_Z by lia. rewrite <- p2_plus. replace (f + ee) with (qlog2 v) by lia. exact L1.
Qed.

Lemma canonical_representable : forall v N ee, canonical v N ee -> representable F v.
Proof.
  intros v N ee (Hv & HN & Hee & _). exists N, ee. rewrite <- emin_sub_eq, <- emax_f_eq.
  repeat split; auto; lia.
Qed.

Lemma canonical_unique : forall v v' N ee N' ee',
  (v == v')%Q -> canonical v N ee -> canonical v' N' ee' -> N = N' /\ ee = ee'.
Proof.
  intros v v' N ee N' ee' Ev C C'.
  assert (ee = ee').
  { pose proof (canonical_exp _ _ _ C). 
    assert (C2 : canonical v N' ee') by (destruct C' as (A & B); split; [rewrite Ev; exact A|exact B]).
    pose proof (canonical_exp _ _ _ C2). lia. }
  subst ee'. split; auto.
  destruct C as (A & _). destruct C' as (B & _).
  assert (inject_Z N == inject_Z N')%Q.
  { apply (Qmult_inj_r _ _ (p2 ee)); [apply p2_nz|]. rewrite <- A, <- B. auto. }
  unfold Qeq in H; cbn in H. lia.
Qed.

Lemma omega_lt : forall v N ee, canonical v N ee -> (v < p2 (emax F + 1))%Q.
Proof.
  intros v N ee (Hv & HN & Hee & _). pose proof f_pos. rewrite Hv.
  apply Qlt_le_trans with (p2 ((f + 1) + ee)).
  - rewrite p2_plus, (p2_Z (f + 1)) by lia. apply Qmult_lt_r; [apply p2_pos|]. apply inj_lt; lia.
  - apply p2_le; lia.
Qed.

(* magnitude part of the code written by num_coding for a positive value *)
Definition mag_code (v : Q) : Z :=
  let '(eb, mant) :=
    if Qeq_bool v 0 then (0, 0)
    else if qlog2 v <? emin_normal F
         then (0, qtrunc (v / p2 (emin_subnormal F)))
         else (qlog2 v - bias F, qtrunc ((v / p2 (qlog2 v) - 1) * p2 f)) in
  Z.lor mant (Z.shiftl eb f).

Lemma qtrunc_int : forall q z, 0 <= z -> (q == inject_Z z)%Q -> qtrunc q = z.
Proof.
  intros q z H E. unfold qtrunc.
  assert (Qle_bool 0 q = true) as ->.
  { apply Qle_bool_iff. rewrite E. change 0%Q with (inject_Z 0). apply inj_le; auto. }
  apply Qfloor_int; auto.
Qed.

Lemma mag_code_canonical : forall v N ee, canonical v N ee -> mag_code v = can_code N ee.
Proof.
  intros v N ee C. pose proof (canonical_pos _ _ _ C) as P. pose proof f_pos. pose proof pf_ge.
  unfold mag_code.
  assert (Qeq_bool v 0 = false) as ->.
  { destruct (Qeq_bool v 0) eqn:X; auto. apply Qeq_bool_eq in X. lra. }
  pose proof C as (Hv & HN & Hee & Hc). rewrite pf1 in HN.
  assert (EM : emin_normal F = emin_subnormal F + f) by (unfold emin_normal, emin_subnormal; lia).
  unfold can_code.
  destruct (Z.le_gt_cases (2 ^ f) N) as [G|G].
  - rewrite (canonical_binade_normal _ _ _ C G).
    destruct (Z.ltb_spec (ee + f) (emin_normal F)); [lia|].
    rewrite (qtrunc_int _ (N - 2 ^ f)).
    + rewrite lor_shift_add by lia. unfold emin_subnormal. ring.
    + lia.
    + rewrite Hv. rewrite p2_plus.
      unfold Z.sub. rewrite inject_Z_plus, inject_Z_opp. rewrite <- (p2_Z f) by lia.
      field. split; apply p2_nz.
  - pose proof (canonical_sub_log _ _ _ C G).
    destruct (Z.ltb_spec (qlog2 v) (emin_normal F)); [|lia].
    destruct Hc as [Hc|Hc]; [lia|].
    rewrite (qtrunc_int _ N).
    + rewrite lor_shift_add by lia. rewrite Hc. ring.
    + lia.
    + rewrite Hv, Hc. field. apply p2_nz.
Qed.

Lemma can_code_bounds : forall v N ee, canonical v N ee ->
  1 <= can_code N ee < (2 ^ e - 1) * 2 ^ f.
Proof.
  intros v N ee (Hv & HN & Hee & Hc). rewrite pf1 in HN. unfold can_code.
  pose proof pf_ge. rewrite emin_sub_eq in *. rewrite emax_f_eq in Hee. rewrite pe_half. nia.
Qed.

Lemma can_fields : forall v N ee (s : bool), canonical v N ee ->
  has_fields F ((if s then 2 ^ (e + f) else 0) + can_code N ee) s
    (can_code N ee / 2 ^ f) (can_code N ee mod 2 ^ f).
Proof.
  intros v N ee s C. pose proof (can_code_bounds _ _ _ C). pose proof pf_ge.
  pose proof (Z.div_mod (can_code N ee) (2 ^ f) ltac:(lia)).
  pose proof (Z.mod_pos_bound (can_code N ee) (2 ^ f) ltac:(lia)).
  repeat split; try lia.
  - apply Z.div_pos; lia.
  - apply Z.div_lt_upper_bound; nia.
Qed.

Lemma can_div : forall v N ee, canonical v N ee ->
  can_code N ee / 2 ^ f = (ee - emin_subnormal F) + (if 2 ^ f <=? N then 1 else 0)
  /\ can_code N ee mod 2 ^ f = N - (if 2 ^ f <=? N then 2 ^ f else 0).
Proof.
  intros v N ee (Hv & HN & Hee & Hc). rewrite pf1 in HN. unfold can_code. pose proof pf_ge.
  split.
  - symmetry. apply (Z.div_unique_pos _ _ _ (N - (if 2 ^ f <=? N then 2 ^ f else 0))).
    + destruct (Z.leb_spec (2 ^ f) N); lia.
    + destruct (Z.leb_spec (2 ^ f) N); ring.
  - symmetry. apply (Z.mod_unique_pos _ _ ((ee - emin_subnormal F) + (if 2 ^ f <=? N then 1 else 0))).
    + destruct (Z.leb_spec (2 ^ f) N); lia.
    + destruct (Z.leb_spec (2 ^ f) N); ring.
Qed.

(* decoding of the code of a canonical value *)
Lemma decode_can : forall v N ee (s : bool), canonical v N ee ->
  exists q, get_value_from_integer_coding F ((if s then 2 ^ (e + f) else 0) + can_code N ee) = Num q
    /\ (q == (if s then -1 else 1) * v)%Q.
Proof.
  intros v N ee s C. pose proof (can_fields v N ee s C) as HF.
  pose proof (decode_ieee _ _ _ _ HF) as D.
  destruct (can_div _ _ _ C) as [DV MD]. rewrite DV, MD in *.
  pose proof (can_code_bounds _ _ _ C). pose proof f_pos. pose proof pf_ge.
  pose proof C as (Hv & HN & Hee & Hc). rewrite pf1 in HN. rewrite emax_f_eq in Hee.
  assert (BE : emin_subnormal F = 1 - f - ieee_bias F) by (unfold emin_subnormal; rewrite bias_eq; lia).
  pose proof emin_sub_eq as ES. rewrite emin_sub_eq in BE. pose proof pe_half as PH.
  destruct (Z.leb_spec (2 ^ f) N) as [G|G].
  - set (E := ee - emin_subnormal F + 1) in *.
    assert (1 <= E < 2 ^ e - 1) by lia.
    inversion D as [| | | | | | s' E' M' q Hr Hq E1 E2 E3 E4| s' M' q Hm Hq E1 E2 E3 E4]; subst; try lia.
    exists q. split; auto. rewrite Hq, Hv.
    replace (E - ieee_bias F) with (f + ee) by lia. rewrite p2_plus.
    unfold Z.sub. rewrite inject_Z_plus, inject_Z_opp, <- (p2_Z f) by lia.
    pose proof (p2_opp f) as PO.
    assert (R : (inject_Z N * p2 ee == p2 f * p2 ee * (1 + (inject_Z N + - p2 f) * p2 (- f)))%Q).
    { transitivity (p2 f * p2 ee + inject_Z N * p2 ee * (p2 (-f) * p2 f) - p2 f * p2 ee * (p2 (-f) * p2 f))%Q; [|ring].
      rewrite PO. ring. }
    rewrite R. ring.
  - destruct Hc as [Hc|Hc]; [lia|].
    replace (ee - emin_subnormal F + 0) with 0 in * by lia.
    replace (N - 0) with N in * by lia.
    inversion D as [| | | | | | s' E' M' q Hr Hq E1 E2 E3 E4| s' M' q Hm Hq E1 E2 E3 E4]; subst; try lia.
    exists q. split; auto. rewrite Hq, Hv.
    rewrite emin_sub_eq. replace (2 - 2 ^ (e - 1) - f) with ((1 - ieee_bias F) + - f) by lia.
    rewrite p2_plus. ring.
Qed.

(* ---- sollya_round ---- *)
Definition rnd_exp (v : Q) : Z := Z.max (qlog2 (Qabs v)) (emin_normal F) - f.

Hypothesis Hs : sollya_ok F.

Lemma sollya_round_unfold : forall v, ~ (v == 0)%Q ->
  sollya_round F v =
    let r := (inject_Z (qrne (v / p2 (rnd_exp v))) * p2 (rnd_exp v))%Q in
    if Qle_bool (p2 (emax F + 1)) (Qabs r) then None else Some r.
Proof.
  intros v H. unfold sollya_round.
  destruct (Qeq_bool v 0) eqn:X; [apply Qeq_bool_eq in X; contradiction|].
  unfold rnd_exp. rewrite Hs. replace (f + 1 - 1) with f by lia. reflexivity.
Qed.

Lemma Qabs_nz : forall v, ~ (v == 0)%Q -> (0 < Qabs v)%Q.
Proof.
  intros v H. destruct (Qlt_le_dec 0 v).
  - rewrite Qabs_pos by lra. auto.
  - rewrite Qabs_neg by auto. destruct (Qlt_le_dec 0 (- v)); auto. exfalso. apply H. lra.
Qed.

Lemma rnd_exp_ge : forall v, emin_subnormal F <= rnd_exp v.
Proof. intros. unfold rnd_exp, emin_subnormal, emin_normal. lia. Qed.

Lemma rnd_bound : forall v, ~ (v == 0)%Q -> (Qabs v < p2 (rnd_exp v + (f + 1)))%Q.
Proof.
  intros v H. destruct (qlog2_spec (Qabs v) (Qabs_nz v H)) as [_ L].
  eapply Qlt_le_trans; [exact L|]. apply p2_le. unfold rnd_exp. lia.
Qed.

(* the rounded integer significand *)
Lemma rnd_N : forall v, ~ (v == 0)%Q -> Z.abs (qrne (v / p2 (rnd_exp v))) <= 2 ^ (f + 1).
Proof.
  intros v H. pose proof (rnd_bound v H) as B. pose proof f_pos.
  pose proof (p2_pos (rnd_exp v)) as P. rewrite p2_plus, (p2_Z (f + 1)) in B by lia.
  assert (B2 : (Qabs (v / p2 (rnd_exp v)) <= inject_Z (2 ^ (f + 1)))%Q).
  { unfold Qdiv. rewrite Qabs_Qmult. rewrite (Qabs_pos (/ p2 (rnd_exp v))) by (apply Qlt_le_weak, Qinv_lt_0_compat; auto).
    apply Qle_shift_div_r; auto. rewrite Qmult_comm. lra. }
  apply Qabs_Qle_condition in B2. destruct B2 as [B2 B3].
  apply qrne_bounds_int in B3. rewrite <- inject_Z_opp in B2. apply qrne_bounds_int_l in B2. lia.
Qed.

Lemma representable_comp : forall a b, (a == b)%Q -> representable F a -> representable F b.
Proof. intros a b H (m & x & A & B & C). exists m, x. repeat split; try tauto; try lia. rewrite <- H; auto. Qed.

Lemma representable_opp : forall a, representable F a -> representable F (- a)%Q.
Proof.
  intros a (m & x & A & B & C). exists (- m), x. repeat split; try lia.
  rewrite inject_Z_opp, C. ring.
Qed.

Lemma representable_0 : representable F 0.
Proof.
  pose proof pe1_ge. pose proof f_pos. exists 0, (2 - 2 ^ (e - 1) - f).
  assert (0 < 2 ^ (f + 1)) by (apply pow2_pos; lia).
  repeat split; try lia.
Qed.

(* a rounded value below the overflow threshold is representable *)
Lemma round_representable : forall v r, sollya_round F v = Some r -> representable F r.
Proof.
  intros v r H. destruct (Qeq_dec v 0) as [E0|E0].
  - unfold sollya_round in H. rewrite (Qeq_eq_bool _ _ E0) in H. injection H as <-. apply representable_0.
  - rewrite sollya_round_unfold in H by auto. cbv zeta in H.
    set (x := rnd_exp v) in *. set (N := qrne (v / p2 x)) in *.
    destruct (Qle_bool (p2 (emax F + 1)) (Qabs (inject_Z N * p2 x))) eqn:B; [discriminate|].
    injection H as <-.
    assert (B' : (Qabs (inject_Z N * p2 x) < p2 (emax F + 1))%Q).
    { destruct (Qlt_le_dec (Qabs (inject_Z N * p2 x)) (p2 (emax F + 1))); auto.
      apply Qle_bool_iff in q. congruence. }
    pose proof (rnd_N v E0) as NB. fold x N in NB.
    pose proof (rnd_exp_ge v) as XG. fold x in XG. pose proof f_pos. pose proof pf_ge.
    pose proof (p2_pos x) as Px.
    rewrite Qabs_Qmult in B'. rewrite (Qabs_pos (p2 x)) in B' by lra.
    change (Qabs (inject_Z N)) with (inject_Z (Z.abs N)) in B'.
    destruct (Z.eq_dec (Z.abs N) (2 ^ (f + 1))) as [EN|EN].
    + (* carry into the next binade *)
      assert (Hx : x + (f + 1) < emax F + 1).
      { apply p2_lt_inv. rewrite p2_plus, (p2_Z (f + 1)) by lia. rewrite <- EN. rewrite Qmult_comm. exact B'. }
      exists (Z.sgn N * 2 ^ f), (x + 1). rewrite <- emin_sub_eq, <- emax_f_eq. rewrite pf1 in *.
      split; [nia|]. split; [lia|].
      rewrite p2_succ. rewrite inject_Z_mult.
      assert (EN2 : N = Z.sgn N * (2 * 2 ^ f)) by (rewrite <- EN; rewrite Z.mul_comm; rewrite Z.abs_sgn; lia).
      rewrite EN2 at 1. rewrite !inject_Z_mult. ring.
    + destruct (Z.eq_dec N 0) as [N0|N0].
      * rewrite N0. apply (representable_comp 0); [ring|]. apply representable_0.
      * assert (Hx : x <= emax F - f).
        { destruct (Z.le_gt_cases x (emax F - f)); auto. exfalso.
          (* then x = log - f and |N| >= 2^f *)
          assert (HL : qlog2 (Qabs v) - f = x).
          { unfold x, rnd_exp in *. rewrite emax_eq in *. pose proof pe1_ge.
            unfold emin_normal, bias in *. lia. }
          assert (NL : 2 ^ f <= Z.abs N).
          { destruct (qlog2_spec (Qabs v) (Qabs_nz v E0)) as [L _].
            replace (qlog2 (Qabs v)) with (f + x) in L by lia. rewrite p2_plus, (p2_Z f) in L by lia.
            destruct (Qlt_le_dec 0 v).
            - rewrite Qabs_pos in L by lra.
              assert (2 ^ f <= N); [|lia]. apply qrne_bounds_int_l. apply Qle_shift_div_l; auto.
            - rewrite Qabs_neg in L by lra.
              assert (N <= - 2 ^ f); [|lia]. apply qrne_bounds_int. apply Qle_shift_div_r; auto.
              rewrite inject_Z_opp. lra. }
          assert (HH : (p2 (emax F + 1) <= p2 (f + x))%Q) by (apply p2_le; lia).
          rewrite (p2_plus f x), (p2_Z f) in HH by lia.
          assert (inject_Z (2 ^ f) * p2 x <= inject_Z (Z.abs N) * p2 x)%Q by (apply Qmult_le_compat_r; [apply inj_le; lia|lra]).
          lra. }
        exists N, x. rewrite <- emin_sub_eq, <- emax_f_eq. repeat split; try lia.
Qed.

(* rounding leaves representable values unchanged *)
Lemma round_id : forall v, representable F v -> exists r, sollya_round F v = Some r /\ (r == v)%Q.
Proof.
  intros v R. destruct (Qeq_dec v 0) as [E0|E0].
  - exists 0%Q. unfold sollya_round. rewrite (Qeq_eq_bool _ _ E0). split; auto. symmetry; auto.
  - rewrite sollya_round_unfold by auto. cbv zeta.
    assert (RA : representable F (Qabs v)).
    { destruct (Qlt_le_dec 0 v).
      - apply (representable_comp v); auto. rewrite Qabs_pos by lra. reflexivity.
      - apply (representable_comp (- v)); [|apply representable_opp; auto]. rewrite Qabs_neg by lra. reflexivity. }
    destruct (canonical_exists _ RA (Qabs_nz v E0)) as (N & ee & C).
    assert (X : rnd_exp v = ee) by (unfold rnd_exp; apply (canonical_exp _ _ _ C)). rewrite X.
    pose proof C as (Hv & HN & Hee & Hc).
    set (N' := if Qlt_le_dec 0 v then N else - N).
    assert (Ev : (v == inject_Z N' * p2 ee)%Q).
    { unfold N'. destruct (Qlt_le_dec 0 v).
      - rewrite Qabs_pos in Hv by lra. auto.
      - rewrite Qabs_neg in Hv by lra. rewrite inject_Z_opp. lra. }
    rewrite (qrne_int _ N').
    2: { rewrite Ev. field. apply p2_nz. }
    exists (inject_Z N' * p2 ee)%Q. split; [|symmetry; auto].
    destruct (Qle_bool _ _) eqn:B; auto. exfalso. apply Qle_bool_iff in B.
    pose proof (omega_lt _ _ _ C). rewrite <- Ev in B. lra.
Qed.
End Fmt.
