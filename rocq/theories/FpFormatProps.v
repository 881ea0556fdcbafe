(* Final theorems: floating-point formats (C03, C04, C05, C08, C09). *)
From Coq Require Import ZArith QArith Qabs Qround Bool Lia Lqa Qfield.
From Verif Require Import QUtil FpFormatModel FpFormatSpec FpFormatProofs FpFormatProofs2.
Open Scope Z_scope.

Ltac qrep := unfold representable; repeat split; vm_compute; first [reflexivity | discriminate | intro; discriminate].

Example b16_ok : fmt_ok ML_Binary16 /\ sollya_ok ML_Binary16.
Proof. unfold fmt_ok, sollya_ok; cbn; lia. Qed.
Example b32_ok : fmt_ok ML_Binary32 /\ sollya_ok ML_Binary32.
Proof. unfold fmt_ok, sollya_ok; cbn; lia. Qed.
Example b64_ok : fmt_ok ML_Binary64 /\ sollya_ok ML_Binary64.
Proof. unfold fmt_ok, sollya_ok; cbn; lia. Qed.

(* ---------------- C03 ---------------- *)

(* decoding a word gives the datum IEEE-754 assigns to its fields *)
Theorem fp_decode_is_ieee : forall F c s E M, fmt_ok F -> has_fields F c s E M ->
  ieee_datum F s E M (get_value_from_integer_coding F c).
Proof. intros; eapply decode_ieee; eauto. Qed.

(* every word of the format has such fields *)
Theorem fp_word_has_fields : forall F c, fmt_ok F -> 0 <= c < 2 ^ (1 + esz F + fsz F) ->
  exists s E M, has_fields F c s E M.
Proof. intros; eapply fields_exist; eauto. Qed.

(* encode then decode is the identity on the numbers of the format *)
Theorem fp_encode_decode : forall F v, fmt_ok F -> sollya_ok F -> representable F v -> ~ (v == 0)%Q ->
  exists c q, get_integer_coding F (Num v) = Some c
    /\ 0 <= c < 2 ^ (1 + esz F + fsz F)
    /\ get_value_from_integer_coding F c = Num q /\ (q == v)%Q.
Proof.
  intros F v Hok Hs R Hv.
  destruct (round_id F Hok Hs v R) as (r & Hr & Er).
  assert (~ (r == 0)%Q) by (rewrite Er; auto).
  destruct (num_coding_nz F Hok Hs v r Hr H) as (N & ee & C & HC).
  destruct (decode_code F Hok r N ee H C) as (q & D & Eq).
  exists (neg_part F r + can_code F N ee), q. repeat split; auto.
  - eapply neg_part_range; eauto.
  - eapply neg_part_range; eauto.
  - rewrite Eq; auto.
Qed.

Example fp_encode_decode_case :
  representable ML_Binary16 (-(3 # 1024))%Q /\ get_integer_coding ML_Binary16 (Num (-(3 # 1024))) = Some 0x9a00.
Proof. split; [exists (-3), (-10); qrep | reflexivity]. Qed.

(* zero is coded as the word 0, which decodes to +0 *)
Theorem fp_encode_zero : forall F v, fmt_ok F -> sollya_ok F -> (v == 0)%Q ->
  get_integer_coding F (Num v) = Some 0 /\ get_value_from_integer_coding F 0 = PZero.
Proof.
  intros F v Hok Hs Hv. split.
  - cbn [get_integer_coding]. apply (num_coding_z F v 0%Q); [apply round_zero; auto|reflexivity].
  - assert (HF : has_fields F 0 false 0 0).
    { pose proof (pf_ge F Hok). pose proof (pe1_ge F Hok). pose proof (pe_half F Hok).
      repeat split; lia. }
    pose proof (decode_ieee F Hok _ _ _ _ HF) as D.
    pose proof (pe1_ge F Hok). pose proof (pe_half F Hok).
    inversion D; subst; auto; lia.
Qed.

(* decode then encode is the identity on every word that is not a NaN *)
Theorem fp_decode_encode : forall F c s E M, fmt_ok F -> sollya_ok F ->
  has_fields F c s E M -> ~ (E = 2 ^ esz F - 1 /\ M <> 0) ->
  get_integer_coding F (get_value_from_integer_coding F c) = Some c.
Proof.
  intros F c s E M Hok Hs HF NN.
  pose proof (decode_ieee F Hok _ _ _ _ HF) as D.
  pose proof (pf_ge F Hok). pose proof (pe1_ge F Hok). pose proof (pe_half F Hok).
  pose proof (e_pos F Hok). pose proof (f_pos F Hok). pose proof (pf1_ge F Hok).
  pose proof (p_ef F Hok) as PEF.
  assert (SH : Z.lor (Z.shiftl 1 (esz F)) (nanorinf_exp_field F) = 2 ^ esz F + (2 ^ esz F - 1)).
  { rewrite Z.lor_comm. unfold nanorinf_exp_field. rewrite lor_shift_add; lia. }
  pose proof HF as (Hc & HE & HM).
  destruct (Z.eq_dec E (2 ^ esz F - 1)) as [E1|E1].
  - assert (M = 0) by lia. subst E M.
    inversion D; subst; try lia.
    + cbn [get_integer_coding special_coding]. unfold nanorinf_exp_field. rewrite Z.shiftl_mul_pow2 by lia.
      f_equal. lia.
    + cbn [get_integer_coding special_coding]. rewrite SH. rewrite Z.shiftl_mul_pow2 by lia.
      f_equal. rewrite PEF. lia.
  - destruct (Z.eq_dec E 0) as [E0|E0]; [destruct (Z.eq_dec M 0) as [M0|M0]|].
    + subst E M. inversion D; subst; try lia.
      * reflexivity.
      * cbn [get_integer_coding special_coding]. rewrite Z.shiftl_mul_pow2 by lia. f_equal. lia.
    + destruct (fields_canonical F Hok c s E M HF ltac:(lia) ltac:(lia)) as (v & N & ee & C & Ec & _).
      destruct (decode_can F Hok v N ee s C) as (q & Dq & Eq). rewrite <- Ec in Dq. rewrite Dq.
      cbn [get_integer_coding].
      pose proof (canonical_pos F v N ee C) as Pv.
      assert (Rq : representable F q).
      { destruct s.
        - apply (representable_comp F (- v)); [rewrite Eq; ring|]. apply representable_opp, (canonical_representable F Hok v N ee C).
        - apply (representable_comp F v); [rewrite Eq; ring|]. apply (canonical_representable F Hok v N ee C). }
      destruct (round_id F Hok Hs q Rq) as (r & Hr & Er).
      assert (Hq0 : ~ (r == 0)%Q) by (rewrite Er, Eq; destruct s; lra).
      destruct (num_coding_nz F Hok Hs q r Hr Hq0) as (N' & ee' & C' & HC). rewrite HC.
      assert (AV : (Qabs r == v)%Q).
      { rewrite Er, Eq. destruct s.
        - rewrite Qabs_neg by lra. ring.
        - rewrite Qabs_pos by lra. ring. }
      destruct (canonical_unique F Hok _ _ _ _ _ _ AV C' C) as [-> ->].
      f_equal. rewrite Ec. unfold neg_part.
      destruct s.
      * destruct (Qle_bool 0 r) eqn:B; auto. apply Qle_bool_iff in B. rewrite Er, Eq in B. lra.
      * destruct (Qle_bool 0 r) eqn:B; auto. exfalso.
        assert (0 <= r)%Q by (rewrite Er, Eq; lra). apply Qle_bool_iff in H5. congruence.
    + destruct (fields_canonical F Hok c s E M HF ltac:(lia) ltac:(lia)) as (v & N & ee & C & Ec & _).
      destruct (decode_can F Hok v N ee s C) as (q & Dq & Eq). rewrite <- Ec in Dq. rewrite Dq.
      cbn [get_integer_coding].
      pose proof (canonical_pos F v N ee C) as Pv.
      assert (Rq : representable F q).
      { destruct s.
        - apply (representable_comp F (- v)); [rewrite Eq; ring|]. apply representable_opp, (canonical_representable F Hok v N ee C).
        - apply (representable_comp F v); [rewrite Eq; ring|]. apply (canonical_representable F Hok v N ee C). }
      destruct (round_id F Hok Hs q Rq) as (r & Hr & Er).
      assert (Hq0 : ~ (r == 0)%Q) by (rewrite Er, Eq; destruct s; lra).
      destruct (num_coding_nz F Hok Hs q r Hr Hq0) as (N' & ee' & C' & HC). rewrite HC.
      assert (AV : (Qabs r == v)%Q).
      { rewrite Er, Eq. destruct s.
        - rewrite Qabs_neg by lra. ring.
        - rewrite Qabs_pos by lra. ring. }
      destruct (canonical_unique F Hok _ _ _ _ _ _ AV C' C) as [-> ->].
      f_equal. rewrite Ec. unfold neg_part.
      destruct s.
      * destruct (Qle_bool 0 r) eqn:B; auto. apply Qle_bool_iff in B. rewrite Er, Eq in B. lra.
      * destruct (Qle_bool 0 r) eqn:B; auto. exfalso.
        assert (0 <= r)%Q by (rewrite Er, Eq; lra). apply Qle_bool_iff in H5. congruence.
Qed.

Example fp_decode_encode_case : has_fields ML_Binary32 0x80000003 true 0 3
  /\ has_fields ML_Binary32 0xc1200000 true 130 0x200000.
Proof. unfold has_fields; cbn; lia. Qed.

(* NaN words keep their class (quiet / signaling) *)
Theorem fp_nan_class_round_trip : forall F c s M, fmt_ok F -> 2 <= fsz F ->
  has_fields F c s (2 ^ esz F - 1) M -> M <> 0 ->
  exists c', get_integer_coding F (get_value_from_integer_coding F c) = Some c'
    /\ get_value_from_integer_coding F c' = get_value_from_integer_coding F c.
Proof.
  intros F c s M Hok Hf HF NM.
  pose proof (decode_ieee F Hok _ _ _ _ HF) as D.
  pose proof (pf_ge F Hok). pose proof (pe1_ge F Hok). pose proof (pe_half F Hok).
  pose proof (e_pos F Hok). pose proof (f_pos F Hok). pose proof (pf1_ge F Hok). pose proof (pf_half F Hok).
  assert (2 <= 2 ^ (fsz F - 1)) by (change 2 with (2 ^ 1) at 1; apply Z.pow_le_mono_r; lia).
  pose proof (p_ef F Hok) as PEF.
  assert (SH : Z.lor (Z.shiftl 1 (esz F)) (nanorinf_exp_field F) = 2 ^ esz F + (2 ^ esz F - 1)).
  { rewrite Z.lor_comm. unfold nanorinf_exp_field. rewrite lor_shift_add; lia. }
  inversion D; subst; try lia; cbn [get_integer_coding special_coding].
  - eexists. split; [reflexivity|].
    rewrite SH. rewrite (lor_shift_add (2 ^ (fsz F - 1) - 1) 1 (fsz F - 1)) by lia.
    rewrite lor_shift_add by lia.
    assert (HF' : has_fields F (2 ^ (fsz F - 1) - 1 + 1 * 2 ^ (fsz F - 1) + (2 ^ esz F + (2 ^ esz F - 1)) * 2 ^ fsz F)
       true (2 ^ esz F - 1) (2 ^ fsz F - 1)).
    { repeat split; try lia. }
    pose proof (decode_ieee F Hok _ _ _ _ HF') as D'. inversion D'; subst; auto; lia.
  - eexists. split; [reflexivity|].
    rewrite SH, Z.lor_0_r. rewrite lor_shift_add by lia.
    assert (HF' : has_fields F (2 ^ (fsz F - 1) - 1 + (2 ^ esz F + (2 ^ esz F - 1)) * 2 ^ fsz F)
       true (2 ^ esz F - 1) (2 ^ (fsz F - 1) - 1)).
    { repeat split; try lia. }
    pose proof (decode_ieee F Hok _ _ _ _ HF') as D'. inversion D'; subst; auto; lia.
Qed.

Example fp_nan_case : has_fields ML_Binary16 0x7c01 false 31 1.
Proof. unfold has_fields; cbn; lia. Qed.

(* encoding an arbitrary number in range: the code decodes to a nearest number
   of the format, and to the one with an even code in case of a tie *)
Theorem fp_encode_nearest_even : forall F v, fmt_ok F -> sollya_ok F -> (Qabs v <= get_omega F)%Q ->
  exists c q, get_integer_coding F (Num v) = Some c /\ 0 <= c < 2 ^ (1 + esz F + fsz F)
    /\ (get_value_from_integer_coding F c = Num q
        \/ (get_value_from_integer_coding F c = PZero /\ q = 0%Q))
    /\ nearest F v q
    /\ (forall u, representable F u -> ~ (u == q)%Q -> (Qabs (v - u) == Qabs (v - q))%Q -> Z.even c = true).
Proof.
  intros F v Hok Hs HL.
  destruct (round_below_omega F Hok Hs v HL) as (r & Hr).
  pose proof (round_nearest F Hok Hs v r Hr) as [Rr NR].
  pose proof (e_pos F Hok). pose proof (f_pos F Hok). pose proof (pf_half F Hok). pose proof (pf1_ge F Hok).
  destruct (Qeq_dec r 0) as [E0|E0].
  - exists 0, 0%Q. split; [|split; [|split; [|split; [split|]]]].
    + eapply num_coding_z; eauto.
    + split; [lia|]. apply pow2_pos; lia.
    + right. split; auto. apply (fp_encode_zero F 0%Q Hok Hs); reflexivity.
    + apply representable_0; auto.
    + intros u Ru. rewrite <- E0. apply NR; auto.
    + intros. reflexivity.
  - destruct (num_coding_nz F Hok Hs v r Hr E0) as (N & ee & C & HC).
    destruct (decode_code F Hok r N ee E0 C) as (q & D & Eq).
    exists (neg_part F r + can_code F N ee), q. split; [|split; [|split; [|split; [split|]]]]; auto.
    + eapply neg_part_range; eauto.
    + apply (representable_comp F r); auto. symmetry; auto.
    + intros u Ru. rewrite Eq. apply NR; auto.
    + intros u Ru NE EQ. rewrite Z.even_add.
      assert (EN : Z.even N = true).
      { eapply (round_tie F Hok Hs v r u); eauto. rewrite <- Eq; auto. rewrite EQ, Eq. lra. }
      rewrite (even_can F Hok _ _ _ C), EN.
      unfold neg_part. destruct (Qle_bool 0 r); [reflexivity|].
      rewrite (p_ef F Hok), Z.even_mul, H1, (Z.even_mul 2). cbn. rewrite orb_true_r. reflexivity.
Qed.

(* 1 + 2^-11 is a tie in binary16: rounds to even code of 1.0 *)
Example fp_encode_tie_case : get_integer_coding ML_Binary16 (Num (2049 # 2048)) = Some 0x3c00
  /\ get_integer_coding ML_Binary16 (Num (2051 # 2048)) = Some 0x3c02.
Proof. split; reflexivity. Qed.

(* The declared 80-bit format has a 64-bit field while the Sollya object has a
   64-bit significand: a finite word is not recovered. *)
Theorem fp_binary80_round_trip_refuted : exists c s E M,
  has_fields ML_Binary80 c s E M /\ 0 < E < 2 ^ esz ML_Binary80 - 1
  /\ get_integer_coding ML_Binary80 (get_value_from_integer_coding ML_Binary80 c) <> Some c.
Proof.
  exists (16383 * 2 ^ 64 + 1), false, 16383, 1.
  split; [unfold has_fields; cbn; lia|]. split; [cbn; lia|].
  intro H. vm_compute in H. discriminate.
Qed.

(* ---------------- C04 ---------------- *)

Theorem fp_code_strictly_increasing : forall F a b, fmt_ok F -> sollya_ok F ->
  representable F a -> representable F b -> (0 <= a)%Q -> (a < b)%Q ->
  exists ca cb, get_integer_coding F (Num a) = Some ca /\ get_integer_coding F (Num b) = Some cb
    /\ 0 <= ca < cb /\ cb < 2 ^ (esz F + fsz F).
Proof.
  intros F a b Hok Hs Ra Rb Pa L.
  pose proof (pf_ge F Hok). pose proof (p_ef F Hok).
  destruct (round_id F Hok Hs b Rb) as (rb & Hb & Eb).
  destruct (num_coding_nz F Hok Hs b rb Hb ltac:(lra)) as (N & ee & C & HC).
  assert (NP : forall r, (0 <= r)%Q -> neg_part F r = 0).
  { intros r Hr. unfold neg_part. apply Qle_bool_iff in Hr. rewrite Hr. reflexivity. }
  rewrite NP in HC by lra. pose proof (can_code_bounds F Hok _ _ _ C) as CB.
  destruct (Qeq_dec a 0) as [E0|E0].
  - exists 0, (can_code F N ee). split; [apply (fp_encode_zero F a Hok Hs E0)|].
    split; [exact HC|]. nia.
  - destruct (round_id F Hok Hs a Ra) as (ra & Ha & Ea).
    destruct (num_coding_nz F Hok Hs a ra Ha ltac:(lra)) as (N' & ee' & C' & HC').
    rewrite NP in HC' by lra. pose proof (can_code_bounds F Hok _ _ _ C') as CB'.
    exists (can_code F N' ee'), (can_code F N ee). split; [exact HC'|]. split; [exact HC|].
    assert (can_code F N' ee' < can_code F N ee); [|nia].
    eapply canonical_lt; eauto. rewrite !Qabs_pos by lra. lra.
Qed.

Example fp_order_case : representable ML_Binary16 (2047 # 2048) /\ representable ML_Binary16 1.
Proof. split; [exists 2047, (-11) | exists 1, 0]; qrep. Qed.

(* monotone on every pair of non-negative numbers in range, representable or not *)
Theorem fp_code_monotone : forall F a b, fmt_ok F -> sollya_ok F ->
  (0 <= a)%Q -> (a <= b)%Q -> (b <= get_omega F)%Q ->
  exists ca cb, get_integer_coding F (Num a) = Some ca /\ get_integer_coding F (Num b) = Some cb
    /\ 0 <= ca <= cb.
Proof.
  intros F a b Hok Hs Pa L U.
  destruct (round_below_omega F Hok Hs a) as (ra & Ha); [rewrite Qabs_pos by lra; lra|].
  destruct (round_below_omega F Hok Hs b) as (rb & Hb); [rewrite Qabs_pos by lra; lra|].
  pose proof (round_mono F Hok Hs a b ra rb Pa L Ha Hb) as LR.
  pose proof (round_nonneg F Hs a ra Pa Ha) as PR.
  assert (NP : forall r, (0 <= r)%Q -> neg_part F r = 0).
  { intros r Hr. unfold neg_part. apply Qle_bool_iff in Hr. rewrite Hr. reflexivity. }
  destruct (Qeq_dec rb 0) as [B0|B0].
  - exists 0, 0. repeat split; try lia; eapply num_coding_z; eauto. lra.
  - destruct (num_coding_nz F Hok Hs b rb Hb B0) as (N & ee & C & HC).
    rewrite NP in HC by lra. pose proof (can_code_bounds F Hok _ _ _ C).
    destruct (Qeq_dec ra 0) as [A0|A0].
    + exists 0, (can_code F N ee). split; [eapply num_coding_z; eauto|]. split; [exact HC|lia].
    + destruct (num_coding_nz F Hok Hs a ra Ha A0) as (N' & ee' & C' & HC').
      rewrite NP in HC' by lra. pose proof (can_code_bounds F Hok _ _ _ C').
      exists (can_code F N' ee'), (can_code F N ee). split; [exact HC'|]. split; [exact HC|].
      split; [lia|].
      destruct (Qeq_dec ra rb) as [EQ|NE].
      * assert (AQ : (Qabs ra == Qabs rb)%Q) by (rewrite EQ; reflexivity).
        destruct (canonical_unique F Hok _ _ _ _ _ _ AQ C' C) as [-> ->]. lia.
      * assert (can_code F N' ee' < can_code F N ee); [|lia].
        eapply canonical_lt; eauto. rewrite !Qabs_pos by lra. lra.
Qed.

Theorem fp_code_injective : forall F a b c, fmt_ok F -> sollya_ok F ->
  representable F a -> representable F b ->
  get_integer_coding F (Num a) = Some c -> get_integer_coding F (Num b) = Some c -> (a == b)%Q.
Proof.
  intros F a b c Hok Hs Ra Rb Ha Hb.
  destruct (Qeq_dec a 0) as [A0|A0]; destruct (Qeq_dec b 0) as [B0|B0].
  - rewrite A0, B0; reflexivity.
  - exfalso. destruct (fp_encode_decode F b Hok Hs Rb B0) as (c' & q & H1 & _ & H2 & _).
    destruct (fp_encode_zero F a Hok Hs A0) as (H3 & H4). congruence.
  - exfalso. destruct (fp_encode_decode F a Hok Hs Ra A0) as (c' & q & H1 & _ & H2 & _).
    destruct (fp_encode_zero F b Hok Hs B0) as (H3 & H4). congruence.
  - destruct (fp_encode_decode F a Hok Hs Ra A0) as (c1 & q1 & H1 & _ & H2 & E1).
    destruct (fp_encode_decode F b Hok Hs Rb B0) as (c2 & q2 & H3 & _ & H4 & E2).
    assert (c1 = c2) by congruence. subst c2. rewrite H2 in H4. injection H4 as <-.
    rewrite <- E1, <- E2. reflexivity.
Qed.

(* ---------------- C05 ---------------- *)

(* q is the value of some word of the given class *)
Definition normal_value F q := exists c s E M, has_fields F c s E M /\ 0 < E < 2 ^ esz F - 1
  /\ get_value_from_integer_coding F c = Num q.
Definition subnormal_value F q := exists c s M, has_fields F c s 0 M /\ M <> 0
  /\ get_value_from_integer_coding F c = Num q.

(* q is the greatest / least magnitude among a class of values *)
Definition is_max_abs (P : Q -> Prop) (m : Q) :=
  (exists q, P q /\ (q == m)%Q) /\ forall q, P q -> (Qabs q <= m)%Q.
Definition is_min_abs (P : Q -> Prop) (m : Q) :=
  (exists q, P q /\ (q == m)%Q) /\ forall q, P q -> (m <= Qabs q)%Q.

Section Bounds.
Variable F : fpfmt.
Hypothesis Hok : fmt_ok F.
Local Notation e := (esz F).
Local Notation f := (fsz F).

Lemma class_can : forall c s E M q, has_fields F c s E M -> E < 2 ^ e - 1 -> (E <> 0 \/ M <> 0) ->
  get_value_from_integer_coding F c = Num q ->
  (Qabs q == inject_Z (if E =? 0 then M else 2 ^ f + M) * p2 (emin_subnormal F + (if E =? 0 then 0 else E - 1)))%Q.
Proof.
  intros c s E M q HF HL NZ D.
  destruct (fields_canonical F Hok c s E M HF HL NZ) as (v & N & ee & C & Ec & EN & EE).
  destruct (decode_can F Hok v N ee s C) as (q' & Dq & Eq). rewrite <- Ec in Dq. rewrite D in Dq. injection Dq as <-.
  pose proof (canonical_pos F v N ee C). destruct C as (Hv & _).
  rewrite <- EN, <- EE, <- Hv, Eq. destruct s; [rewrite Qabs_neg by lra|rewrite Qabs_pos by lra]; ring.
Qed.

Lemma class_attained : forall E M, 0 <= E < 2 ^ e - 1 -> 0 <= M < 2 ^ f -> (E <> 0 \/ M <> 0) ->
  exists c q, has_fields F c false E M /\ get_value_from_integer_coding F c = Num q /\
   (q == inject_Z (if E =? 0 then M else 2 ^ f + M) * p2 (emin_subnormal F + (if E =? 0 then 0 else E - 1)))%Q.
Proof.
  intros E M HE HM NZ.
  assert (HF : has_fields F (0 + E * 2 ^ f + M) false E M) by (repeat split; lia).
  destruct (fields_canonical F Hok _ false E M HF ltac:(lia) NZ) as (v & N & ee & C & Ec & EN & EE).
  destruct (decode_can F Hok v N ee false C) as (q' & Dq & Eq). rewrite <- Ec in Dq.
  exists (0 + E * 2 ^ f + M), q'. split; auto. split; auto.
  destruct C as (Hv & _). rewrite <- EN, <- EE, <- Hv, Eq. ring.
Qed.

Lemma scaled_le : forall a b x y, 0 <= a <= b -> x <= y -> (inject_Z a * p2 x <= inject_Z b * p2 y)%Q.
Proof.
  intros a b x y Hab Hxy.
  apply Qle_trans with (inject_Z b * p2 x)%Q.
  - apply Qmult_le_compat_r; [apply inj_le; lia|apply Qlt_le_weak, p2_pos].
  - rewrite !(Qmult_comm (inject_Z b)). apply Qmult_le_compat_r; [apply p2_le; auto|].
    change 0%Q with (inject_Z 0). apply inj_le; lia.
Qed.

Lemma bound_facts : 2 <= 2 ^ f /\ 2 ^ e = 2 * 2 ^ (e - 1) /\ 2 <= 2 ^ (e - 1) /\ 1 <= f
  /\ emin_subnormal F = 2 - 2 ^ (e - 1) - f /\ emax F - f = 2 ^ (e - 1) - 1 - f /\ 2 ^ (f + 1) = 2 * 2 ^ f.
Proof.
  pose proof (pf_ge F Hok). pose proof (pe1_ge F Hok). pose proof (pe_half F Hok).
  pose proof (f_pos F Hok). pose proof (pf1 F Hok). pose proof (emin_sub_eq F). pose proof (emax_f_eq F Hok).
  repeat split; auto.
Qed.

Theorem bounds_omega : is_max_abs (normal_value F) (get_omega F).
Proof.
  destruct bound_facts as (B1 & B2 & B3 & B4 & B5 & B6 & B7).
  split.
  - destruct (class_attained (2 ^ e - 2) (2 ^ f - 1) ltac:(lia) ltac:(lia) ltac:(lia)) as (c & q & HF & D & Eq).
    exists q. split.
    + exists c, false, (2 ^ e - 2), (2 ^ f - 1). split; auto. split; [lia|auto].
    + rewrite Eq, (omega_eq F Hok). destruct (Z.eqb_spec (2 ^ e - 2) 0); [lia|].
      replace (2 ^ f + (2 ^ f - 1)) with (2 ^ (f + 1) - 1) by lia.
      replace (emin_subnormal F + (2 ^ e - 2 - 1)) with (emax F - f) by lia. reflexivity.
  - intros q (c & s & E & M & HF & HE & D).
    rewrite (class_can c s E M q HF ltac:(lia) ltac:(lia) D). rewrite (omega_eq F Hok).
    destruct HF as (_ & _ & HM). destruct (Z.eqb_spec E 0); [lia|].
    apply scaled_le; lia.
Qed.

Theorem bounds_min_normal : is_min_abs (normal_value F) (get_min_normal_value F).
Proof.
  destruct bound_facts as (B1 & B2 & B3 & B4 & B5 & B6 & B7).
  assert (EQ : (get_min_normal_value F == inject_Z (2 ^ f) * p2 (emin_subnormal F))%Q).
  { unfold get_min_normal_value. rewrite <- p2_Z, <- p2_plus by lia.
    replace (f + emin_subnormal F) with (emin_normal F); [reflexivity|]. unfold emin_normal, emin_subnormal. lia. }
  split.
  - destruct (class_attained 1 0 ltac:(lia) ltac:(lia) ltac:(lia)) as (c & q & HF & D & Eq).
    exists q. split.
    + exists c, false, 1, 0. split; auto. split; [lia|auto].
    + rewrite Eq, EQ. cbn [Z.eqb]. replace (2 ^ f + 0) with (2 ^ f) by lia.
      replace (emin_subnormal F + (1 - 1)) with (emin_subnormal F) by lia. reflexivity.
  - intros q (c & s & E & M & HF & HE & D).
    rewrite (class_can c s E M q HF ltac:(lia) ltac:(lia) D). rewrite EQ.
    destruct HF as (_ & _ & HM). destruct (Z.eqb_spec E 0); [lia|].
    apply scaled_le; lia.
Qed.

Theorem bounds_min_subnormal : is_min_abs (subnormal_value F) (get_min_subnormal_value F).
Proof.
  destruct bound_facts as (B1 & B2 & B3 & B4 & B5 & B6 & B7).
  assert (EQ : (get_min_subnormal_value F == inject_Z 1 * p2 (emin_subnormal F))%Q).
  { unfold get_min_subnormal_value. change (inject_Z 1) with 1%Q. ring. }
  split.
  - destruct (class_attained 0 1 ltac:(lia) ltac:(lia) ltac:(lia)) as (c & q & HF & D & Eq).
    exists q. split.
    + exists c, false, 1. split; auto. split; [lia|auto].
    + rewrite Eq, EQ. cbn [Z.eqb]. rewrite Z.add_0_r. reflexivity.
  - intros q (c & s & M & HF & NM & D).
    rewrite (class_can c s 0 M q HF ltac:(lia) ltac:(lia) D). rewrite EQ.
    destruct HF as (_ & _ & HM). cbn [Z.eqb]. apply scaled_le; lia.
Qed.

(* the value returned as "maximal subnormal" is larger than every subnormal:
   it is not even a subnormal *)
Theorem bounds_max_subnormal_false : forall q, subnormal_value F q ->
  (Qabs q < get_max_subnormal_value F)%Q /\ (get_min_normal_value F < get_max_subnormal_value F)%Q.
Proof.
  destruct bound_facts as (B1 & B2 & B3 & B4 & B5 & B6 & B7).
  assert (EQ : (p2 (emin_normal F) == inject_Z (2 ^ f) * p2 (emin_subnormal F))%Q).
  { rewrite <- p2_Z, <- p2_plus by lia.
    replace (f + emin_subnormal F) with (emin_normal F); [reflexivity|]. unfold emin_normal, emin_subnormal. lia. }
  assert (LT : (p2 (emin_normal F) < get_max_subnormal_value F)%Q).
  { unfold get_max_subnormal_value. pose proof (p2_pos (emin_normal F)). pose proof (p2_pos (- f)). nra. }
  intros q (c & s & M & HF & NM & D). split; [|exact LT].
  eapply Qle_lt_trans; [|exact LT].
  rewrite (class_can c s 0 M q HF ltac:(lia) ltac:(lia) D). rewrite EQ.
  destruct HF as (_ & _ & HM). cbn [Z.eqb]. apply scaled_le; lia.
Qed.

(* exponent interval: the exponents of normal values are exactly [emin, emax] *)
Theorem bounds_exponents : forall x, (emin_normal F <= x <= emax F) <->
  (exists q, normal_value F q /\ (p2 x <= Qabs q)%Q /\ (Qabs q < p2 (x + 1))%Q).
Proof.
  destruct bound_facts as (B1 & B2 & B3 & B4 & B5 & B6 & B7).
  assert (EM : emin_normal F = emin_subnormal F + f) by (unfold emin_normal, emin_subnormal; lia).
  intros x. split.
  - intros Hx. set (E := x - emin_normal F + 1).
    destruct (class_attained E 0 ltac:(unfold E; lia) ltac:(lia) ltac:(unfold E; lia)) as (c & q & HF & D & Eq).
    exists q. assert (Q1 : (q == p2 x)%Q).
    { rewrite Eq. destruct (Z.eqb_spec E 0); [unfold E in *; lia|].
      rewrite Z.add_0_r, <- p2_Z, <- p2_plus by lia.
      replace (f + (emin_subnormal F + (E - 1))) with x by (unfold E; lia). reflexivity. }
    pose proof (p2_pos x). pose proof (p2_succ x).
    split; [exists c, false, E, 0; split; [auto|split; [unfold E; lia|auto]]|].
    rewrite Q1, Qabs_pos by lra. split; lra.
  - intros (q & (c & s & E & M & HF & HE & D) & L1 & L2).
    rewrite (class_can c s E M q HF ltac:(lia) ltac:(lia) D) in L1, L2.
    destruct HF as (_ & _ & HM). destruct (Z.eqb_spec E 0); [lia|].
    set (y := emin_subnormal F + (E - 1)) in *.
    assert (A : x < f + 1 + y).
    { apply p2_lt_inv. eapply Qle_lt_trans; [exact L1|]. rewrite (p2_plus (f + 1) y), (p2_Z (f + 1)) by lia.
      apply Qmult_lt_r; [apply p2_pos|apply inj_lt; lia]. }
    assert (B : f + y < x + 1).
    { apply p2_lt_inv. eapply Qle_lt_trans; [|exact L2]. rewrite (p2_plus f y), (p2_Z f) by lia.
      apply Qmult_le_compat_r; [apply inj_le; lia|apply Qlt_le_weak, p2_pos]. }
    unfold y in *. lia.
Qed.
End Bounds.

(* C05, true part: largest number, smallest normal, smallest subnormal and
   exponent interval are the extreme values of the decoded words.  Missing: the
   maximal subnormal, which is wrong (next theorem). *)
Theorem fp_bounds_partial : forall F, fmt_ok F ->
  is_max_abs (normal_value F) (get_omega F)
  /\ is_min_abs (normal_value F) (get_min_normal_value F)
  /\ is_min_abs (subnormal_value F) (get_min_subnormal_value F)
  /\ (forall x, (fst (get_exponent_interval F) <= x <= snd (get_exponent_interval F)) <->
      exists q, normal_value F q /\ (p2 x <= Qabs q)%Q /\ (Qabs q < p2 (x + 1))%Q).
Proof.
  intros F Hok. split; [apply bounds_omega; auto|]. split; [apply bounds_min_normal; auto|].
  split; [apply bounds_min_subnormal; auto|]. apply bounds_exponents; auto.
Qed.

Theorem fp_max_subnormal_refuted : forall F, fmt_ok F ->
  ~ is_max_abs (subnormal_value F) (get_max_subnormal_value F).
Proof.
  intros F Hok ((q & Sq & Eq) & _).
  destruct (bounds_max_subnormal_false F Hok q Sq) as [A _].
  rewrite <- Eq in A. pose proof (Qle_Qabs q). lra.
Qed.

(* saturation: numbers of magnitude at most omega are kept, others become the
   infinity of their sign *)
Theorem fp_saturate_correct : forall F v, fmt_ok F ->
  ((Qabs v <= get_omega F)%Q -> fp_saturate F v = Num v)
  /\ ((get_omega F < v)%Q -> fp_saturate F v = PInf)
  /\ ((v < - get_omega F)%Q -> fp_saturate F v = MInf).
Proof.
  intros F v Hok. unfold fp_saturate.
  pose proof (canonical_pos F _ _ _ (omega_canonical F Hok)) as PO. split; [|split].
  - intros H. apply Qle_bool_iff in H. rewrite H. reflexivity.
  - intros H. destruct (Qle_bool (Qabs v) (get_omega F)) eqn:B.
    + apply Qle_bool_iff in B. rewrite Qabs_pos in B by lra. lra.
    + cbn [negb]. destruct (Qle_bool v 0) eqn:B2; auto. apply Qle_bool_iff in B2. lra.
  - intros H. destruct (Qle_bool (Qabs v) (get_omega F)) eqn:B.
    + apply Qle_bool_iff in B. rewrite Qabs_neg in B by lra. lra.
    + cbn [negb]. destruct (Qle_bool v 0) eqn:B2; auto.
      assert (v <= 0)%Q by lra. apply Qle_bool_iff in H0. congruence.
Qed.

(* ---------------- C08 ---------------- *)

(* x is any integer whose low bits are the word c (signed or unsigned view) *)
Theorem fp_class_tests_partial : forall F c s E M x, fmt_ok F -> has_fields F c s E M -> view_of F x c ->
  let d := get_value_from_integer_coding F c in
  (test_expansion F IsInfOrNaN x = true <-> (d = PInf \/ d = MInf \/ d = QNaN \/ d = SNaN))
  /\ (test_expansion F IsNaN x = true <-> (d = QNaN \/ d = SNaN))
  /\ (test_expansion F IsInfty x = true <-> (d = PInf \/ d = MInf))
  /\ (test_expansion F IsSignalingNaN x = true <-> d = SNaN)
  /\ (test_expansion F IsQuietNaN x = true <-> d = QNaN)
  /\ (test_expansion F IsZero x = true <-> (d = PZero \/ d = MZero))
  (* missing for IsSubnormal: it also answers true on zeros *)
  /\ (d <> PZero -> d <> MZero ->
      (test_expansion F IsSubnormal x = true <-> (E = 0 /\ M <> 0))).
Proof.
  intros F c s E M x Hok HF V d.
  pose proof (decode_ieee F Hok _ _ _ _ HF) as D. fold d in D.
  pose proof (view_raw_exp F Hok c s E M HF x V) as VE.
  pose proof (view_raw_mant F Hok c s E M HF x V) as VM.
  pose proof (view_quiet F Hok c s E M HF x V) as VQ.
  pose proof (view_abs F Hok c s E M HF x V) as VA.
  pose proof (pf_ge F Hok). pose proof (pe1_ge F Hok). pose proof (pe_half F Hok).
  pose proof (pf1_ge F Hok). pose proof (pf_half F Hok).
  destruct HF as (_ & HE & HM).
  unfold test_expansion. rewrite VE, VM, VA. rewrite VQ. unfold nanorinf_exp_field.
  assert (ZA : (E * 2 ^ fsz F + M =? 0) = (E =? 0) && (M =? 0)).
  { destruct (Z.eqb_spec E 0); destruct (Z.eqb_spec M 0); cbn [andb]; [apply Z.eqb_eq; nia| | |]; apply Z.eqb_neq; nia. }
  rewrite ZA.
  destruct D as [s0 M0 K1|s0 M0 K1 K2| | | | |s0 E0 M0 q K1 K2|s0 M0 q K1 K2];
    repeat match goal with
    | |- context [?a <? ?b] => destruct (Z.ltb_spec a b); try lia
    | |- context [?a =? ?b] => destruct (Z.eqb_spec a b); try lia
    end; cbn [andb negb];
    repeat split; intros; try discriminate; try tauto; try lia;
    repeat match goal with H : _ \/ _ |- _ => destruct H end; try discriminate; auto; try lia.
Qed.

Example fp_class_view_case : view_of ML_Binary32 (-8388607) 0xff800001
  /\ has_fields ML_Binary32 0xff800001 true 255 1 /\ test_expansion ML_Binary32 IsSignalingNaN (-8388607) = true.
Proof. split; [reflexivity|]. split; [unfold has_fields; cbn; lia|reflexivity]. Qed.

Theorem fp_is_subnormal_zero_refuted : forall F, fmt_ok F ->
  get_value_from_integer_coding F 0 = PZero /\ test_expansion F IsSubnormal 0 = true.
Proof.
  intros F Hok.
  assert (HF : has_fields F 0 false 0 0).
  { pose proof (pf_ge F Hok). pose proof (pe1_ge F Hok). pose proof (pe_half F Hok). repeat split; lia. }
  pose proof (decode_ieee F Hok _ _ _ _ HF) as D.
  pose proof (pe1_ge F Hok). pose proof (pe_half F Hok).
  assert (V : view_of F 0 0) by (unfold view_of; apply Z.mod_0_l; apply Z.pow_nonzero; destruct Hok; lia).
  split.
  - inversion D; subst; auto; lia.
  - unfold test_expansion. rewrite (view_raw_exp F Hok 0 false 0 0 HF 0 V). reflexivity.
Qed.

(* hardware predicates *)
Theorem hw_fp_class_tests : forall F c s E M, fmt_ok F -> has_fields F c s E M ->
  let d := get_value_from_integer_coding F c in
  (fp_is_infornan F c = true <-> (d = PInf \/ d = MInf \/ d = QNaN \/ d = SNaN))
  /\ (fp_is_nan F c = true <-> (d = QNaN \/ d = SNaN))
  /\ (fp_is_inf F c = true <-> (d = PInf \/ d = MInf))
  /\ (fp_is_pos_inf F c = true <-> d = PInf)
  /\ (fp_is_neg_inf F c = true <-> d = MInf)
  /\ (fp_is_zero F c = true <-> (d = PZero \/ d = MZero))
  /\ (fp_is_subnormal F c = true <-> (d = PZero \/ d = MZero \/ (E = 0 /\ M <> 0))).
Proof.
  intros F c s E M Hok HF d.
  pose proof (decode_ieee F Hok _ _ _ _ HF) as D. fold d in D.
  pose proof (c_exp F Hok c s E M HF) as VE. pose proof (c_mod_f F Hok c s E M HF) as VM.
  pose proof (c_sign F Hok c s E M HF) as VS.
  pose proof (pf_ge F Hok). pose proof (pe1_ge F Hok). pose proof (pe_half F Hok).
  pose proof (pf1_ge F Hok). pose proof (pf_half F Hok).
  pose proof (e_pos F Hok). pose proof (f_pos F Hok).
  unfold fp_is_pos_inf, fp_is_neg_inf, fp_is_zero, fp_is_inf, fp_is_nan, fp_is_subnormal, fp_is_infornan,
    fp_mant_is_zero, hw_raw_exp, hw_sign.
  rewrite !land_pow2, !Z.shiftr_div_pow2, VE, VM by lia.
  assert (TB : Z.testbit c (fsz F + esz F) = s).
  { rewrite Z.testbit_odd, Z.shiftr_div_pow2, VS by lia. destruct s; reflexivity. }
  rewrite TB. destruct HF as (_ & HE & HM).
  destruct D as [s0 M0 K1|s0 M0 K1 K2| | | | |s0 E0 M0 q K1 K2|s0 M0 q K1 K2]; try destruct s0;
    repeat match goal with
    | |- context [?a =? ?b] => destruct (Z.eqb_spec a b); try lia
    end; cbn [andb negb Bool.eqb];
    repeat split; intros; try discriminate; try tauto; try lia;
    repeat match goal with H : _ \/ _ |- _ => destruct H end; try discriminate; auto; try lia.
Qed.

(* ---------------- C09 ---------------- *)

Theorem fp_extraction_reconstructs : forall F c s E M x q, fmt_ok F -> has_fields F c s E M ->
  0 < E < 2 ^ esz F - 1 -> view_of F x c -> get_value_from_integer_coding F c = Num q ->
  exists m, get_value_from_integer_coding F (mantissa_extraction F c) = Num m
    /\ (1 <= Qabs m)%Q /\ (Qabs m < 2)%Q
    /\ (q == m * p2 (exp_extraction F x))%Q
    /\ emin_normal F <= exp_extraction F x <= emax F.
Proof.
  intros F c s E M x q Hok HF HE V D.
  pose proof (view_raw_exp F Hok c s E M HF x V) as VE.
  pose proof (pf_ge F Hok). pose proof (pe1_ge F Hok). pose proof (pe_half F Hok).
  pose proof (e_pos F Hok). pose proof (f_pos F Hok).
  pose proof HF as (Ec & HE' & HM).
  unfold exp_extraction. rewrite VE.
  assert (MC : has_fields F (mantissa_extraction F c) s (2 ^ (esz F - 1) - 1) M).
  { unfold mantissa_extraction, static_raw_exp_insertion, bit_size.
    set (n := esz F + fsz F) in *.
    replace (1 + esz F + fsz F - 1) with n by (unfold n; lia).
    rewrite (Z.shiftl_1_l (fsz F)).
    (* masks select disjoint parts *)
    assert (L1 : Z.lor (2 ^ fsz F - 1) (Z.shiftl 1 n) = (2 ^ fsz F - 1) + 2 ^ n).
    { rewrite lor_shift_add; [lia|unfold n; lia|]. assert (2 ^ fsz F <= 2 ^ n) by (apply Z.pow_le_mono_r; unfold n; lia). lia. }
    assert (L2 : Z.land c ((2 ^ fsz F - 1) + 2 ^ n) = (if s then 2 ^ n else 0) + M).
    { rewrite <- L1, Z.land_lor_distr_r, land_pow2 by lia.
      rewrite (c_mod_f F Hok c s E M HF).
      assert (L3 : Z.land c (Z.shiftl 1 n) = Z.shiftl (if s then 1 else 0) n).
      { apply Z.bits_inj'. intros k Hk. rewrite Z.land_spec, !Z.shiftl_spec by lia.
        destruct (Z.eq_dec k n) as [->|NE].
        - replace (n - n) with 0 by lia.
          assert (TB : Z.testbit c n = s).
          { rewrite Z.testbit_odd, Z.shiftr_div_pow2 by (unfold n; lia).
            replace n with (fsz F + esz F) by (unfold n; lia). rewrite (c_sign F Hok c s E M HF). destruct s; reflexivity. }
          rewrite TB. destruct s; reflexivity.
        - assert (Z0 : forall b : bool, Z.testbit (if b then 1 else 0) (k - n) = false).
          { intros b. destruct (Z.lt_ge_cases (k - n) 0); [apply Z.testbit_neg_r; auto|].
            destruct b; [|apply Z.bits_0]. apply Z.bits_above_log2; cbn; lia. }
          rewrite (Z0 s). pose proof (Z0 true) as Zt. cbv iota in Zt. rewrite Zt. apply andb_false_r. }
      rewrite L3. rewrite lor_shift_add; [destruct s; lia|unfold n; lia|].
      assert (2 ^ fsz F <= 2 ^ n) by (apply Z.pow_le_mono_r; unfold n; lia). lia. }
    rewrite L1, L2.
    assert (B0 : 0 + - bias F = 2 ^ (esz F - 1) - 1) by (unfold bias; lia). rewrite B0.
    assert (L4 : Z.lor ((if s then 2 ^ n else 0) + M) (Z.shiftl (2 ^ (esz F - 1) - 1) (fsz F)) =
       (if s then 2 ^ n else 0) + (2 ^ (esz F - 1) - 1) * 2 ^ fsz F + M).
    { assert (PN : 2 ^ n = 2 ^ esz F * 2 ^ fsz F) by (unfold n; apply p_ef; auto).
      assert (SS : (if s then 2 ^ n else 0) + M = Z.lor M (Z.shiftl (if s then 2 ^ esz F else 0) (fsz F))).
      { rewrite lor_shift_add by lia. rewrite PN. destruct s; lia. }
      rewrite SS, <- Z.lor_assoc, <- Z.shiftl_lor.
      assert (S2 : Z.lor (if s then 2 ^ esz F else 0) (2 ^ (esz F - 1) - 1) = (if s then 2 ^ esz F else 0) + (2 ^ (esz F - 1) - 1)).
      { destruct s; [|reflexivity]. rewrite Z.lor_comm. rewrite <- (Z.shiftl_1_l (esz F)) at 1. rewrite lor_shift_add; lia. }
      rewrite S2, lor_shift_add by lia. rewrite PN. destruct s; lia. }
    split; [exact L4|split; lia]. }
  pose proof (decode_ieee F Hok _ _ _ _ MC) as DM.
  pose proof (decode_ieee F Hok _ _ _ _ HF) as DC. rewrite D in DC.
  inversion DC as [| | | | | |s1 E1 M1 q1 Hr Hq Es1 EE1 EM1 Eq1|]; try lia.
  inversion DM as [| | | | | |s2 E2 M2 m Hr' Hm Es EE EM Ed|]; try lia.
  exists m. split; auto.
  assert (IB : 2 ^ (esz F - 1) - 1 - ieee_bias F = 0) by (unfold ieee_bias; lia). rewrite IB in Hm.
  assert (FR : (0 <= inject_Z M * p2 (- fsz F))%Q /\ (inject_Z M * p2 (- fsz F) < 1)%Q).
  { pose proof (p2_pos (- fsz F)). split.
    - apply Qmult_le_0_compat; [change 0%Q with (inject_Z 0); apply inj_le; lia|lra].
    - rewrite <- (p2_opp (fsz F)). rewrite (Qmult_comm (p2 (- fsz F))). apply Qmult_lt_r; auto.
      rewrite p2_Z by lia. apply inj_lt; lia. }
  set (fr := (inject_Z M * p2 (- fsz F))%Q) in *.
  assert (AM : (Qabs m == 1 + fr)%Q).
  { rewrite Hm, p2_0. destruct s.
    - rewrite Qabs_neg by lra. ring.
    - rewrite Qabs_pos by lra. ring. }
  rewrite AM. split; [lra|]. split; [lra|]. split.
  - rewrite Hq, Hm, p2_0. rewrite bias_eq.
    replace (E + - ieee_bias F) with (E - ieee_bias F) by lia. ring.
  - rewrite emax_eq by auto. unfold emin_normal, bias. lia.
Qed.

Example fp_extraction_case : has_fields ML_Binary32 0xc1200000 true 130 0x200000
  /\ get_value_from_integer_coding ML_Binary32 0xc1200000 = Num (-(83886080 # 8388608))%Q
  /\ exp_extraction ML_Binary32 0xc1200000 = 3
  /\ mantissa_extraction ML_Binary32 0xc1200000 = 0xbfa00000.
Proof. split; [unfold has_fields; cbn; lia|]. repeat split. Qed.

Theorem fp_exponent_insertion : forall F x, fmt_ok F -> emin_normal F <= x <= emax F ->
  exists q, get_value_from_integer_coding F (exp_insertion F x) = Num q /\ (q == p2 x)%Q.
Proof.
  intros F x Hok Hx. rewrite emax_eq in Hx by auto.
  pose proof (pf_ge F Hok). pose proof (pe1_ge F Hok). pose proof (pe_half F Hok).
  pose proof (e_pos F Hok). pose proof (f_pos F Hok).
  assert (HF : has_fields F (exp_insertion F x) false (x - bias F) 0).
  { unfold exp_insertion. rewrite Z.shiftl_mul_pow2 by lia. unfold emin_normal, bias in *. repeat split; try lia. }
  pose proof (decode_ieee F Hok _ _ _ _ HF) as D.
  assert (0 < x - bias F < 2 ^ esz F - 1) by (unfold emin_normal, bias in *; lia).
  inversion D as [| | | | | |s' E' M' q Hr Hq E1 E2 E3 E4|s' M' q HM Hq E1 E2 E3 E4]; try lia; subst.
  exists q. split; auto. rewrite Hq. replace (x - bias F - ieee_bias F) with x by (rewrite bias_eq; lia).
  change (inject_Z 0) with 0%Q. ring.
Qed.

Example fp_exponent_insertion_case : exp_insertion ML_Binary32 (-126) = 0x00800000
  /\ exp_insertion ML_Binary64 1023 = 0x7fe0000000000000.
Proof. split; reflexivity. Qed.

(* inserting the extracted exponent of a normal number and multiplying by the
   extracted mantissa are inverse operations *)
Theorem fp_exponent_extract_insert : forall F x, fmt_ok F -> emin_normal F <= x <= emax F ->
  exp_extraction F (exp_insertion F x) = x.
Proof.
  intros F x Hok Hx. rewrite emax_eq in Hx by auto.
  pose proof (pf_ge F Hok). pose proof (pe1_ge F Hok). pose proof (pe_half F Hok).
  pose proof (e_pos F Hok). pose proof (f_pos F Hok).
  assert (HF : has_fields F (exp_insertion F x) false (x - bias F) 0).
  { unfold exp_insertion. rewrite Z.shiftl_mul_pow2 by lia. unfold emin_normal, bias in *. repeat split; try lia. }
  unfold exp_extraction. rewrite (view_raw_exp F Hok _ _ _ _ HF); [lia|].
  unfold view_of. apply Z.mod_small. apply (fields_range F Hok _ _ _ _ HF).
Qed.

Print Assumptions fp_decode_is_ieee.
Print Assumptions fp_encode_decode.
Print Assumptions fp_decode_encode.
Print Assumptions fp_encode_nearest_even.
Print Assumptions fp_code_monotone.
Print Assumptions fp_bounds_partial.
Print Assumptions fp_class_tests_partial.
Print Assumptions fp_extraction_reconstructs.
Print Assumptions fp_exponent_insertion.
