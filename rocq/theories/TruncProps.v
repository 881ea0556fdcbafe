(* Hardware truncation: theorems. *)
From Coq Require Import ZArith QArith Qabs Qround Bool Lia Lqa Qfield.
From Verif Require Import QUtil FpFormatModel FpFormatSpec FpFormatProofs FpFormatProps TruncModel.
Open Scope Z_scope.

(* z is q rounded toward zero *)
Definition toward_zero (q : Q) (z : Z) : Prop :=
  (Qabs (inject_Z z) <= Qabs q)%Q /\ (Qabs q < Qabs (inject_Z z) + 1)%Q /\ (0 <= inject_Z z * q)%Q.
(* the finite value of a word *)
Definition finite_value (F : fpfmt) (c : Z) (q : Q) : Prop :=
  match get_value_from_integer_coding F c with
  | Num r => (r == q)%Q
  | PZero | MZero => (q == 0)%Q
  | _ => False
  end.

Lemma land_mask : forall x n k, 0 <= k <= n -> 0 <= x < 2 ^ n ->
  Z.land x (Z.shiftl (2 ^ n - 1) k mod 2 ^ n) = x - x mod 2 ^ k.
Proof.
  intros x n k Hk Hx.
  assert (Hr : x - x mod 2 ^ k = Z.shiftl (Z.shiftr x k) k).
  { rewrite Z.shiftl_mul_pow2, Z.shiftr_div_pow2 by lia. pose proof (Z.div_mod x (2 ^ k)). pose proof (pow2_pos k). lia. }
  rewrite Hr. apply Z.bits_inj'. intros i Hi. rewrite Z.land_spec, Z.shiftl_spec by lia.
  destruct (Z.lt_ge_cases i n) as [H1|H1].
  - rewrite Z.mod_pow2_bits_low by lia. rewrite Z.shiftl_spec by lia. destruct (Z.lt_ge_cases i k) as [H2|H2].
    + rewrite !(Z.testbit_neg_r _ (i - k)) by lia. apply andb_false_r.
    + rewrite Z.shiftr_spec by lia. replace (i - k + k) with i by lia.
      replace (2 ^ n - 1) with (Z.ones n) by (rewrite Z.ones_equiv; lia). rewrite Z.ones_spec_low by lia. apply andb_true_r.
  - rewrite Z.mod_pow2_bits_high by lia. rewrite andb_false_r. destruct (Z.lt_ge_cases i k); [lia|].
    rewrite Z.shiftr_spec by lia. replace (i - k + k) with i by lia.
    rewrite <- (Z.mod_small x (2 ^ n)) by lia. now rewrite Z.mod_pow2_bits_high by lia.
Qed.

Section T.
Variable F : fpfmt.
Hypothesis Hok : fmt_ok F.
Local Notation e := (esz F).
Local Notation f := (fsz F).

Lemma hw_exp_fields : forall c s E M, has_fields F c s E M -> hw_raw_exp F c = E.
Proof.
  intros c s E M H. destruct Hok. unfold hw_raw_exp. rewrite land_pow2, Z.shiftr_div_pow2 by lia. eapply c_exp; eauto.
Qed.
Lemma bias_ieee : bias F = - ieee_bias F. Proof. unfold bias, ieee_bias. lia. Qed.

(* fields of the result *)
Lemma trunc_fields : forall c s E M, has_fields F c s E M -> 0 <= E - ieee_bias F <= f ->
  has_fields F (fp_trunc F c) s E (M - M mod 2 ^ (f - (E - ieee_bias F))).
Proof.
  intros c s E M H Ht. pose proof H as [Hc [HE HM]]. destruct Hok as [He Hf]. unfold fp_trunc, mant_mask, int_norm_shift.
  rewrite (hw_exp_fields _ _ _ _ H), bias_ieee. set (t := E - ieee_bias F) in *.
  replace (E + - ieee_bias F) with t by (unfold t; lia).
  destruct (Z.ltb_spec f t); [lia|]. destruct (Z.ltb_spec t 0); [lia|]. rewrite Z.max_l by lia.
  pose proof (fields_range F Hok c s E M H) as Hr. unfold bit_size. rewrite land_mask by lia.
  assert (Hm : c mod 2 ^ (f - t) = M mod 2 ^ (f - t)).
  { rewrite <- (c_mod_f F Hok c s E M H). apply Znumtheory.Zmod_div_mod; try (apply pow2_pos; lia).
    exists (2 ^ t). rewrite <- Z.pow_add_r by lia. f_equal. lia. }
  rewrite Hm. pose proof (pow2_pos (f - t)). pose proof (Z.mod_pos_bound M (2 ^ (f - t))). pose proof (Z.mod_le M (2 ^ (f - t))).
  split; [|split]; lia.
Qed.

Lemma value_big : forall E M, f <= E - ieee_bias F ->
  (p2 (E - ieee_bias F) * (1 + inject_Z M * p2 (- f)) == inject_Z ((2 ^ f + M) * 2 ^ (E - ieee_bias F - f)))%Q.
Proof.
  intros E M Ht. destruct Hok as [He Hf]. rewrite inject_Z_mult, inject_Z_plus, <- !p2_Z by lia.
  rewrite <- (p2_sub_nn (E - ieee_bias F) f) by lia. pose proof (p2_opp f) as H.
  setoid_replace (p2 (E - ieee_bias F - f) * p2 f * (1 + inject_Z M * p2 (- f)))%Q
    with (p2 (E - ieee_bias F - f) * (p2 f + inject_Z M * (p2 (- f) * p2 f)))%Q by ring. rewrite H. ring.
Qed.
Lemma value_small : forall E M, 0 <= E - ieee_bias F <= f ->
  (p2 (E - ieee_bias F) * (1 + inject_Z M * p2 (- f)) * p2 (f - (E - ieee_bias F)) == inject_Z (2 ^ f + M))%Q.
Proof.
  intros E M Ht. destruct Hok as [He Hf]. rewrite inject_Z_plus, <- p2_Z by lia.
  setoid_replace (p2 f) with (p2 (f - (E - ieee_bias F)) * p2 (E - ieee_bias F))%Q by (rewrite p2_sub_nn by lia; reflexivity).
  pose proof (p2_opp f) as H. rewrite <- (p2_sub_nn f (E - ieee_bias F)) in H by lia.
  set (a := p2 (E - ieee_bias F)) in *. set (b := p2 (f - (E - ieee_bias F))) in *. set (d := p2 (- f)) in *.
  setoid_replace (a * (1 + inject_Z M * d) * b)%Q with (b * a + inject_Z M * (d * (b * a)))%Q by ring. rewrite H. ring.
Qed.
End T.

Lemma sign_tz : forall (s : bool) a z, (0 <= a)%Q -> 0 <= z -> (inject_Z z <= a)%Q -> (a < inject_Z z + 1)%Q ->
  toward_zero ((if s then -1 else 1) * a) (if s then - z else z).
Proof.
  intros s a z Ha Hz H1 H2. assert (Hz' : (0 <= inject_Z z)%Q) by (change 0%Q with (inject_Z 0); now apply inj_le).
  unfold toward_zero. destruct s.
  - rewrite inject_Z_opp. setoid_replace ((-1) * a)%Q with (- a)%Q by ring. rewrite !Qabs_opp, !Qabs_pos by auto.
    split; [auto|]. split; [auto|]. setoid_replace (- inject_Z z * - a)%Q with (inject_Z z * a)%Q by ring. now apply Qmult_le_0_compat.
  - setoid_replace (1 * a)%Q with a by ring. rewrite !Qabs_pos by auto. split; [auto|]. split; [auto|]. now apply Qmult_le_0_compat.
Qed.
Lemma toward_zero_comp : forall q q' z, (q == q')%Q -> toward_zero q z -> toward_zero q' z.
Proof. intros q q' z E [A [B C]]. unfold toward_zero. rewrite <- E. auto. Qed.

(* ---- the result is the truncation, in value, of every finite input *)
Theorem fp_trunc_value : forall F c q, fmt_ok F -> 0 <= c < 2 ^ (1 + esz F + fsz F) -> finite_value F c q ->
  exists z, toward_zero q z /\ finite_value F (fp_trunc F c) (inject_Z z).
Proof.
  intros F c q Hok Hc Hq. pose proof Hok as [He Hf].
  destruct (fp_word_has_fields F c Hok Hc) as [s [E [M H]]].
  pose proof (decode_ieee F Hok c s E M H) as D. pose proof H as [_ [HE HM]].
  pose proof (hw_exp_fields F Hok c s E M H) as Hx. pose proof (bias_ieee F) as Hb.
  assert (P0 : (0 < p2 (- fsz F))%Q) by apply p2_pos.
  assert (HMq : (0 <= inject_Z M)%Q) by (change 0%Q with (inject_Z 0); apply inj_le; lia).
  assert (Mlt : (inject_Z M * p2 (- fsz F) < 1)%Q).
  { assert (X : (inject_Z M < p2 (fsz F))%Q) by (rewrite p2_Z by lia; apply inj_lt; lia).
    pose proof (p2_opp (fsz F)). nra. }
  assert (Zero : E - ieee_bias F < 0 -> fp_trunc F c = 0).
  { intros Hlt. unfold fp_trunc. rewrite Hx, Hb. destruct (Z.ltb_spec (fsz F) (E + - ieee_bias F)); [lia|].
    destruct (Z.ltb_spec (E + - ieee_bias F) 0); [auto|lia]. }
  assert (Dec0 : finite_value F 0 0).
  { unfold finite_value. assert (H0 : has_fields F 0 false 0 0).
    { split; [lia|]. split; [split; [lia|apply pow2_pos; lia]|split; [lia|apply pow2_pos; lia]]. }
    pose proof (decode_ieee F Hok 0 false 0 0 H0) as D0. pose proof (pow2_pos (esz F - 1)).
    assert (2 ^ esz F = 2 * 2 ^ (esz F - 1)) by (rewrite <- Z.pow_succ_r by lia; f_equal; lia).
    assert (0 < 2 ^ (fsz F - 1)) by (apply pow2_pos; lia).
    inversion D0; try lia; try reflexivity. }
  assert (Hbpos : 0 < ieee_bias F).
  { unfold ieee_bias. assert (2 <= 2 ^ (esz F - 1)) by (apply (pe1_ge F Hok)). lia. }
  unfold finite_value in Hq. destruct (get_value_from_integer_coding F c) as [r| | | | | |] eqn:Er; try contradiction.
  - (* Num *)
    inversion D as [| | | | | |s' E' M' r' HEr Hr Es EE EM Eq|s' M' r' HM0 Hr Es EE EM Eq].
    + (* normal *)
      set (t := E - ieee_bias F) in *. set (a := (p2 t * (1 + inject_Z M * p2 (- fsz F)))%Q) in *.
      assert (Ha : (0 <= a)%Q).
      { unfold a. apply Qmult_le_0_compat; [apply Qlt_le_weak, p2_pos|]. assert (0 <= inject_Z M * p2 (- fsz F))%Q by (apply Qmult_le_0_compat; lra). lra. }
      assert (Hqa : (q == (if s then -1 else 1) * a)%Q).
      { rewrite <- Hq, Hr. unfold a. destruct s; ring. }
      destruct (Z.lt_ge_cases t 0) as [Ht|Ht].
      * exists 0. rewrite Zero by auto. split; auto. apply (toward_zero_comp ((if s then -1 else 1) * a)); [now symmetry|].
        replace 0 with (if s then - 0 else 0) by (destruct s; reflexivity). apply sign_tz; auto; try lia.
        change (inject_Z 0 + 1)%Q with 1%Q. unfold a.
        assert (p2 t <= 1 # 2)%Q.
        { change (1 # 2)%Q with (p2 (-1)). apply p2_le. lia. }
        pose proof (p2_pos t). nra.
      * destruct (Z.lt_ge_cases (fsz F) t) as [Ht2|Ht2].
        -- assert (Eo : fp_trunc F c = c).
           { unfold fp_trunc. rewrite Hx, Hb. destruct (Z.ltb_spec (fsz F) (E + - ieee_bias F)); [auto|lia]. }
           rewrite Eo. set (z := (2 ^ fsz F + M) * 2 ^ (t - fsz F)).
           assert (Hz : (a == inject_Z z)%Q) by (apply (value_big F Hok); lia).
           assert (Hz0 : 0 <= z) by (unfold z; pose proof (pow2_pos (fsz F)); pose proof (pow2_pos (t - fsz F)); nia).
           exists (if s then - z else z). split.
           ++ apply (toward_zero_comp ((if s then -1 else 1) * a)); [now symmetry|]. apply sign_tz; auto; rewrite Hz; lra.
           ++ unfold finite_value. rewrite Er. rewrite Hq, Hqa, Hz. destruct s; rewrite ?inject_Z_opp; ring.
        -- assert (Ht' : 0 <= E - ieee_bias F <= fsz F) by (fold t; lia).
           pose proof (trunc_fields F Hok c s E M H Ht') as H'. fold t in H'.
           set (k := fsz F - t) in *. set (z := (2 ^ fsz F + M) / 2 ^ k).
           assert (Hk : 0 <= k) by (unfold k; lia). pose proof (pow2_pos k Hk) as Pk.
           assert (Ef : 2 ^ fsz F = 2 ^ t * 2 ^ k) by (rewrite <- Z.pow_add_r by lia; f_equal; unfold k; lia).
           assert (Hzm : z * 2 ^ k = 2 ^ fsz F + (M - M mod 2 ^ k)).
           { unfold z. rewrite Ef, Z.add_comm, Z.div_add by lia. pose proof (Z.div_mod M (2 ^ k)). lia. }
           assert (Hz0 : 0 <= z) by (unfold z; apply Z.div_pos; pose proof (pow2_pos (fsz F)); lia).
           pose proof (Z.mod_pos_bound M (2 ^ k) Pk) as Hmod.
           assert (Va : (a * p2 k == inject_Z (2 ^ fsz F + M))%Q) by (apply (value_small F Hok); auto).
           assert (Vz : (inject_Z z * p2 k == inject_Z (2 ^ fsz F + (M - M mod 2 ^ k)))%Q).
           { rewrite <- Hzm, inject_Z_mult, p2_Z by lia. reflexivity. }
           pose proof (p2_pos k) as Qk.
           exists (if s then - z else z). split.
           ++ apply (toward_zero_comp ((if s then -1 else 1) * a)); [now symmetry|]. apply sign_tz; auto.
              ** apply Qmult_le_r with (z := p2 k); auto. rewrite Va, Vz. apply inj_le. lia.
              ** apply Qmult_lt_r with (z := p2 k); auto. setoid_replace ((inject_Z z + 1) * p2 k)%Q with (inject_Z z * p2 k + p2 k)%Q by ring.
                 rewrite Va, Vz. rewrite p2_Z by lia. rewrite <- inject_Z_plus. apply inj_lt. lia.
           ++ pose proof (decode_ieee F Hok _ _ _ _ H') as D'. unfold finite_value.
              inversion D' as [| | | | | |s2 E2 M2 r2 HE2 Hr2 Es2 EE2 EM2 Eq2|s2 M2 r2 HM2 Hr2 Es2 EE2 EM2 Eq2]; try lia.
              rewrite Hr2. fold t.
              assert (Va' : (p2 t * (1 + inject_Z (M - M mod 2 ^ k) * p2 (- fsz F)) * p2 k == inject_Z z * p2 k)%Q).
              { rewrite Vz. apply (value_small F Hok); auto. }
              assert (Vf : (p2 t * (1 + inject_Z (M - M mod 2 ^ k) * p2 (- fsz F)) == inject_Z z)%Q).
              { apply Qmult_inj_r with (z := p2 k); auto. intros X. rewrite X in Qk. lra. }
              destruct s; rewrite ?inject_Z_opp, <- Vf; ring.
    + (* subnormal *)
      exists 0. rewrite Zero by lia. split; auto.
      set (a := (p2 (1 - ieee_bias F) * (inject_Z M * p2 (- fsz F)))%Q).
      assert (H0 : (0 <= inject_Z M * p2 (- fsz F))%Q) by (apply Qmult_le_0_compat; lra).
      assert (Pp : (p2 (1 - ieee_bias F) <= 1)%Q).
      { rewrite <- p2_0. apply p2_le. lia. }
      pose proof (p2_pos (1 - ieee_bias F)) as Pq.
      apply (toward_zero_comp ((if s then -1 else 1) * a)).
      { rewrite <- Hq, Hr. unfold a. destruct s; ring. }
      replace 0 with (if s then - 0 else 0) by (destruct s; reflexivity). apply sign_tz; try lia.
      * apply Qmult_le_0_compat; lra.
      * change (inject_Z 0) with 0%Q. apply Qmult_le_0_compat; lra.
      * change (inject_Z 0 + 1)%Q with 1%Q. unfold a. nra.
  - (* +0 *)
    inversion D; subst. exists 0. rewrite Zero by lia. split; auto. unfold toward_zero. rewrite Hq. cbn. split; [lra|]. split; lra.
  - (* -0 *)
    inversion D; subst. exists 0. rewrite Zero by lia. split; auto. unfold toward_zero. rewrite Hq. cbn. split; [lra|]. split; lra.
Qed.
(* -5.75 -> -5, 2^30 unchanged, 0.99 -> 0 *)
Example fp_trunc_case : fp_trunc ML_Binary32 0xc0b80000 = 0xc0a00000 /\ fp_trunc ML_Binary32 0x4e800001 = 0x4e800001 /\
  fp_trunc ML_Binary32 0x3f7fffff = 0 /\ finite_value ML_Binary32 0xc0b80000 (-23 # 4).
Proof. split; [|split; [|split]]; reflexivity. Qed.

(* ---- infinities and NaNs are unchanged when the exponent range exceeds the fraction *)
Theorem fp_trunc_special : forall F c s M, fmt_ok F -> fsz F <= 2 ^ (esz F - 1) ->
  has_fields F c s (2 ^ esz F - 1) M -> fp_trunc F c = c.
Proof.
  intros F c s M Hok Hs H. pose proof (pe_half F Hok). pose proof (fields_range F Hok _ _ _ _ H). destruct Hok as [He Hf]. unfold fp_trunc, mant_mask, int_norm_shift.
  rewrite (hw_exp_fields F (conj He Hf) _ _ _ _ H), bias_ieee. unfold ieee_bias.
  replace (2 ^ esz F - 1 + - (2 ^ (esz F - 1) - 1)) with (2 ^ (esz F - 1)) by lia.
  destruct (Z.ltb_spec (fsz F) (2 ^ (esz F - 1))); [auto|]. destruct (Z.ltb_spec (2 ^ (esz F - 1)) 0); [lia|].
  unfold bit_size. rewrite land_mask by lia. replace (Z.max (fsz F - 2 ^ (esz F - 1)) 0) with 0 by lia. rewrite Z.mod_1_r. lia.
Qed.
Example fp_trunc_special_case : fsz ML_Binary16 <= 2 ^ (esz ML_Binary16 - 1) /\ fsz ML_Binary32 <= 2 ^ (esz ML_Binary32 - 1) /\
  fsz ML_Binary64 <= 2 ^ (esz ML_Binary64 - 1) /\ has_fields ML_Binary32 0xffc00001 true (2 ^ 8 - 1) 0x400001.
Proof. repeat split; cbn; lia. Qed.
(* otherwise a NaN becomes an infinity *)
Theorem fp_trunc_nan_refuted : forall F, fmt_ok F -> 2 ^ (esz F - 1) < fsz F ->
  let c := (2 ^ esz F - 1) * 2 ^ fsz F + 1 in
  get_value_from_integer_coding F c = SNaN /\ get_value_from_integer_coding F (fp_trunc F c) = PInf.
Proof.
  intros F Hok Hs c. pose proof Hok as [He Hf]. pose proof (pe_half F Hok). pose proof (pe1_ge F Hok). pose proof (pf_half F Hok). pose proof (pf_ge F Hok).
  assert (Hf1 : 2 <= 2 ^ (fsz F - 1)).
  { replace (fsz F - 1) with (Z.succ (fsz F - 2)) by lia. rewrite Z.pow_succ_r by lia. pose proof (pow2_pos (fsz F - 2)). lia. }
  assert (H' : has_fields F c false (2 ^ esz F - 1) 1) by (split; [unfold c; lia|lia]).
  split.
  - pose proof (decode_ieee F Hok _ _ _ _ H') as D. inversion D; try lia; auto.
  - assert (Ht : 0 <= 2 ^ esz F - 1 - ieee_bias F <= fsz F) by (unfold ieee_bias; lia).
    pose proof (trunc_fields F Hok _ _ _ _ H' Ht) as T.
    assert (Em : 1 mod 2 ^ (fsz F - (2 ^ esz F - 1 - ieee_bias F)) = 1).
    { apply Z.mod_small. split; [lia|]. apply Z.pow_gt_1; unfold ieee_bias; lia. }
    rewrite Em in T. pose proof (decode_ieee F Hok _ _ _ _ T) as D. change (1 - 1) with 0 in D. inversion D; try lia; auto.
Qed.
Example fp_trunc_nan_case : fmt_ok (mkfmt 2 5 6) /\ 2 ^ (2 - 1) < 5.
Proof. split; [split|]; cbn; lia. Qed.

(* ---- the sign of a negative input of magnitude below 1 is lost *)
Theorem fp_trunc_zero_sign_refuted : forall F E M, fmt_ok F -> 0 <= E < ieee_bias F -> 0 <= M < 2 ^ fsz F ->
  get_value_from_integer_coding F (fp_trunc F (2 ^ (esz F + fsz F) + E * 2 ^ fsz F + M)) = PZero.
Proof.
  intros F E M Hok HE HM. pose proof Hok as [He Hf]. pose proof (pe_half F Hok). pose proof (pe1_ge F Hok). pose proof (pf_ge F Hok).
  assert (H' : has_fields F (2 ^ (esz F + fsz F) + E * 2 ^ fsz F + M) true E M) by (split; [lia|unfold ieee_bias in HE; lia]).
  assert (E0 : fp_trunc F (2 ^ (esz F + fsz F) + E * 2 ^ fsz F + M) = 0).
  { unfold fp_trunc. rewrite (hw_exp_fields F Hok _ _ _ _ H'), bias_ieee. destruct (Z.ltb_spec (fsz F) (E + - ieee_bias F)); [lia|].
    destruct (Z.ltb_spec (E + - ieee_bias F) 0); [auto|lia]. }
  rewrite E0. assert (Hz : has_fields F 0 false 0 0) by (split; lia).
  pose proof (decode_ieee F Hok _ _ _ _ Hz) as D. inversion D; try lia; auto.
Qed.
(* -0.5 *)
Example fp_trunc_zero_case : finite_value ML_Binary32 0xbf000000 (- (1 # 2)) /\ 0 <= 126 < ieee_bias ML_Binary32 /\
  2 ^ (esz ML_Binary32 + fsz ML_Binary32) + 126 * 2 ^ fsz ML_Binary32 + 0 = 0xbf000000.
Proof. split; [|split; [split|]]; reflexivity || (cbn; lia). Qed.

Print Assumptions fp_trunc_value.
Print Assumptions fp_trunc_special.
Print Assumptions fp_trunc_nan_refuted.
Print Assumptions fp_trunc_zero_sign_refuted.
