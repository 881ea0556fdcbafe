(* Hardware adder: theorems. *)
From Coq Require Import ZArith QArith Qabs Qround Bool Lia Lqa Qfield.
From Verif Require Import QUtil FpFormatModel FpFormatSpec FpFormatProofs FpFormatProofs2 FpFormatProps TruncProps AdderModel AdderProofs AdderProofs2 AdderProofs3.
Open Scope Z_scope.

(* x = 1.5, y = 2^-23 + 2^-24 (binary32) *)
Definition ex_x : Z := 0x3fc00000.
Definition ex_y : Z := 0x34400000.
Lemma nw_check : forall F c s E M, has_fields F c s E M -> 0 < E < 2 ^ esz F - 1 -> normal_word F c s E M.
Proof. split; auto. Qed.
Ltac nwc := apply nw_check; [split; [vm_compute; reflexivity|split; split; vm_compute; (reflexivity || discriminate)]|split; vm_compute; reflexivity].

(* The sum is correctly rounded when the result has the sign of y, y is not far above x,
   and the sum does not round up to the next power of two. *)
Theorem fp_add_correct_partial : forall F x y sx sy Ex Mx Ey My k, fmt_ok F ->
  normal_word F x sx Ex Mx -> normal_word F y sy Ey My ->
  let q := (normal_val F sx Ex Mx + normal_val F sy Ey My)%Q in
  (sx = sy \/ (Qabs (normal_val F sx Ex Mx) < Qabs (normal_val F sy Ey My))%Q) ->
  Ey <= Ex + fsz F + 3 ->
  1 - ieee_bias F <= k <= ieee_bias F -> (p2 k <= Qabs q)%Q -> (Qabs q < p2 k * (2 - p2 (- (fsz F + 1))))%Q ->
  correctly_rounded F q (fp_add F x y).
Proof. intros. eapply add_correct; eauto. Qed.
(* 1.5 + (2^-23 + 2^-24): round to even *)
Example fp_add_correct_case :
  normal_word ML_Binary32 ex_x false 127 0x400000 /\ normal_word ML_Binary32 ex_y false 104 0x400000 /\
  fp_add ML_Binary32 ex_x ex_y = 0x3fc00002 /\
  (* -1 + 2.75 *)
  fp_add ML_Binary32 0xbf800000 0x40300000 = 0x3fe00000.
Proof.
  split; [|split; [|split; reflexivity]]; nwc.
Qed.

(* ---- a sum that rounds up to the power of two 2^(k+1) gives 3 * 2^k.  (The condition on
   the exponents excludes no rounding up: below it the sum rounds to x.) *)
Theorem fp_add_round_up_refuted : forall F x y sx sy Ex Mx Ey My k, fmt_ok F ->
  normal_word F x sx Ex Mx -> normal_word F y sy Ey My ->
  let q := (normal_val F sx Ex Mx + normal_val F sy Ey My)%Q in
  (sx = sy \/ (Qabs (normal_val F sx Ex Mx) < Qabs (normal_val F sy Ey My))%Q) ->
  Ey <= Ex + fsz F + 3 -> Ex <= Ey + fsz F + 3 ->
  1 - ieee_bias F <= k < ieee_bias F -> (p2 k * (2 - p2 (- (fsz F + 1))) <= Qabs q)%Q -> (Qabs q < p2 (k + 1))%Q ->
  (exists r, get_value_from_integer_coding F (fp_add F x y) = Num r /\ (Qabs r == 3 * p2 k)%Q) /\
  ~ correctly_rounded F q (fp_add F x y).
Proof.
  intros F x y sx sy Ex Mx Ey My k Hok Hx Hy q Hs H1 H2 Hk L1 L2.
  destruct (add_round_up F Hok x y sx sy Ex Mx Ey My Hx Hy k Hs H1 H2 Hk L1 L2) as [NW ES]. fold q in ES.
  destruct (decode_normal F Hok _ _ _ _ NW) as [r [D Er]]. pose proof Hok as [He Hf].
  assert (EH : (inject_Z (2 ^ (fsz F - 1)) * p2 (- fsz F) == 1 # 2)%Q).
  { rewrite <- p2_Z by lia. rewrite <- p2_plus. replace (fsz F - 1 + - fsz F) with (-1) by lia. reflexivity. }
  assert (Er2 : (r == sg sy * (3 * p2 k))%Q).
  { rewrite Er. unfold normal_val. rewrite EH. replace (k + 1 + ieee_bias F - ieee_bias F) with (k + 1) by lia. rewrite p2_succ. ring. }
  pose proof (p2_pos k) as Pk.
  split.
  - exists r. split; auto. rewrite Er2. apply sg_pos_abs. lra.
  - apply (not_rounded F q (fp_add F x y) r (sg sy * p2 (k + 1))); auto.
    + apply representable_sg. apply representable_p2; auto. apply range_eq; auto. lia.
    + assert (A : (Qabs (q - sg sy * p2 (k + 1)) == p2 (k + 1) - Qabs q)%Q).
      { setoid_replace (q - sg sy * p2 (k + 1))%Q with (sg sy * - (p2 (k + 1) - Qabs q))%Q by (rewrite ES at 1; ring).
        rewrite sg_abs, Qabs_opp, Qabs_pos by lra. reflexivity. }
      assert (C : (Qabs (q - r) == 3 * p2 k - Qabs q)%Q).
      { setoid_replace (q - r)%Q with (sg sy * - (3 * p2 k - Qabs q))%Q by (rewrite Er2, ES at 1; ring).
        rewrite p2_succ in L2. rewrite sg_abs, Qabs_opp, Qabs_pos by lra. reflexivity. }
      rewrite A, C, p2_succ. lra.
Qed.
(* (2 - 2^-23) + 2^-24 *)
Example fp_add_round_up_case : normal_word ML_Binary32 0x3fffffff false 127 0x7fffff /\ normal_word ML_Binary32 0x33800000 false 103 0 /\
  (p2 0 * (2 - p2 (- (fsz ML_Binary32 + 1))) <= Qabs (normal_val ML_Binary32 false 127 0x7fffff + normal_val ML_Binary32 false 103 0))%Q /\
  (Qabs (normal_val ML_Binary32 false 127 0x7fffff + normal_val ML_Binary32 false 103 0) < p2 (0 + 1))%Q /\
  fp_add ML_Binary32 0x3fffffff 0x33800000 = 0x40400000.
Proof.
  split; [|split; [|split; [|split]]]; try reflexivity; try (nwc); unfold Qle, Qlt; cbn; lia.
Qed.

(* ---- effective subtraction with |x| > |y| and an exact difference (1+g) 2^k, g <> 0:
   the result is (2-g) 2^k, wrong unless g = 1/2 *)
Theorem fp_add_negative_refuted : forall F x y sx sy Ex Mx Ey My k G, fmt_ok F ->
  normal_word F x sx Ex Mx -> normal_word F y sy Ey My ->
  let q := (normal_val F sx Ex Mx + normal_val F sy Ey My)%Q in
  sx <> sy -> (Qabs (normal_val F sy Ey My) < Qabs (normal_val F sx Ex Mx))%Q -> Ex <= Ey + fsz F + 3 ->
  1 - ieee_bias F <= k <= ieee_bias F -> 0 < G < 2 ^ fsz F -> (Qabs q == p2 k * (1 + inject_Z G * p2 (- fsz F)))%Q ->
  (exists r, get_value_from_integer_coding F (fp_add F x y) = Num r /\ (Qabs r == p2 k * (2 - inject_Z G * p2 (- fsz F)))%Q) /\
  (2 * G <> 2 ^ fsz F -> ~ correctly_rounded F q (fp_add F x y)).
Proof.
  intros F x y sx sy Ex Mx Ey My k G Hok Hx Hy q Hs L HE Hk HG Hv. pose proof Hok as [He Hf].
  destruct (add_negative F Hok x y sx sy Ex Mx Ey My Hx Hy k G Hs L HE Hk HG Hv) as [NW ES]. fold q in ES.
  destruct (decode_normal F Hok _ _ _ _ NW) as [r [D Er]].
  pose proof (p2_pos k) as Pk. pose proof (p2_pos (- fsz F)) as Pf.
  assert (G0 : (0 < inject_Z G)%Q) by (apply inj_pos; lia).
  assert (Gf : (inject_Z (2 ^ fsz F) * p2 (- fsz F) == 1)%Q).
  { rewrite <- p2_Z by lia. rewrite Qmult_comm. apply p2_opp. }
  assert (G1 : (inject_Z G * p2 (- fsz F) < 1)%Q) by (rewrite <- Gf; apply Qmult_lt_r; [auto|apply inj_lt; lia]).
  assert (Er2 : (r == sg sx * (p2 k * (2 - inject_Z G * p2 (- fsz F))))%Q).
  { rewrite Er. unfold normal_val. replace (k + ieee_bias F - ieee_bias F) with k by lia. unfold Z.sub. rewrite inject_Z_plus, inject_Z_opp, Qmult_plus_distr_l, Gf. ring. }
  split.
  - exists r. split; auto. rewrite Er2. apply sg_pos_abs. apply Qmult_le_0_compat; lra.
  - intros NG. apply (not_rounded F q (fp_add F x y) r q); auto.
    + apply (representable_comp F (normal_val F sx (k + ieee_bias F) G)); [now symmetry|]. unfold normal_val. apply representable_sg.
      exists (2 ^ fsz F + G), (k - fsz F). replace (k + ieee_bias F - ieee_bias F) with k by lia. split; [rewrite (pf1 F Hok); lia|]. split.
      * unfold ieee_bias in Hk. lia.
      * unfold Z.sub. rewrite p2_plus, inject_Z_plus.
        setoid_replace ((inject_Z (2 ^ fsz F) + inject_Z G) * (p2 k * p2 (- fsz F)))%Q with (p2 k * (inject_Z (2 ^ fsz F) * p2 (- fsz F) + inject_Z G * p2 (- fsz F)))%Q by ring.
        rewrite Gf. reflexivity.
    + setoid_replace (q - q)%Q with 0%Q by ring. apply Qabs_nz. intros E0.
      assert (E1 : (q == r)%Q) by lra. rewrite ES, Er2 in E1. unfold normal_val in E1. replace (k + ieee_bias F - ieee_bias F) with k in E1 by lia.
      assert (E2 : (1 + inject_Z G * p2 (- fsz F) == 2 - inject_Z G * p2 (- fsz F))%Q).
      { apply (Qmult_inj_l _ _ (p2 k)); [apply p2_nz|]. rewrite <- (sg_sg sx (p2 k * (1 + _))), E1, sg_sg. reflexivity. }
      assert (E3 : (inject_Z (2 * G) * p2 (- fsz F) == inject_Z (2 ^ fsz F) * p2 (- fsz F))%Q).
      { rewrite Gf, inject_Z_mult. change (inject_Z 2) with 2%Q. lra. }
      apply Qmult_inj_r in E3; [|apply p2_nz]. unfold Qeq in E3. cbn [Qnum Qden inject_Z] in E3. lia.
Qed.
(* 1.875 - 1 = 0.875 gives 0.625 *)
Example fp_add_negative_case : normal_word ML_Binary32 0x3ff00000 false 127 0x700000 /\ normal_word ML_Binary32 0xbf800000 true 127 0 /\
  (Qabs (normal_val ML_Binary32 false 127 0x700000 + normal_val ML_Binary32 true 127 0) == p2 (-1) * (1 + inject_Z 0x600000 * p2 (- fsz ML_Binary32)))%Q /\
  2 * 0x600000 <> 2 ^ fsz ML_Binary32 /\ fp_add ML_Binary32 0x3ff00000 0xbf800000 = 0x3f200000.
Proof.
  split; [|split; [|split; [|split]]]; try reflexivity; try (nwc). cbn; lia.
Qed.

(* ---- a power of two minus a much smaller number is halved *)
Theorem fp_add_power_refuted : forall F x y sx sy Ex Ey My, fmt_ok F ->
  normal_word F x sx Ex 0 -> normal_word F y sy Ey My -> sx <> sy -> Ey + fsz F + 3 < Ex ->
  (exists r, get_value_from_integer_coding F (fp_add F x y) = Num r /\ (2 * r == normal_val F sx Ex 0)%Q) /\
  ~ correctly_rounded F (normal_val F sx Ex 0 + normal_val F sy Ey My) (fp_add F x y).
Proof.
  intros F x y sx sy Ex Ey My Hok Hx Hy Hs HE. pose proof Hok as [He Hf].
  pose proof (add_power F Hok x y sx sy Ex 0 Ey My Hx Hy Hs eq_refl HE) as NW.
  destruct (decode_normal F Hok _ _ _ _ NW) as [r [D Er]].
  set (h := p2 (Ex - 1 - ieee_bias F)). assert (Ph : (0 < h)%Q) by apply p2_pos.
  assert (E1 : (r == sg sx * h)%Q) by (rewrite Er; unfold normal_val; fold h; change (inject_Z 0) with 0%Q; ring).
  assert (Ex2 : (normal_val F sx Ex 0 == sg sx * (2 * h))%Q).
  { unfold normal_val, h. change (inject_Z 0) with 0%Q. rewrite <- p2_succ. replace (Ex - 1 - ieee_bias F + 1) with (Ex - ieee_bias F) by lia. ring. }
  split; [exists r; split; auto; rewrite E1, Ex2; ring|].
  apply (not_rounded F _ (fp_add F x y) r (normal_val F sx Ex 0)); auto.
  - destruct Hx as [_ HEx]. apply (representable_comp F (sg sx * p2 (Ex - ieee_bias F))).
    { unfold normal_val. change (inject_Z 0) with 0%Q. ring. }
    apply representable_sg. apply representable_p2; auto. apply range_eq; auto. pose proof (B_eq F Hok). lia.
  - set (v := normal_val F sy Ey My). pose proof (binade_y F Hok y sy Ey My Hy) as [_ BY]. fold v in BY.
    assert (Hv : (Qabs v < (1 # 2) * h)%Q).
    { eapply Qlt_le_trans; [exact BY|]. unfold h. change (1 # 2)%Q with (p2 (-1)). rewrite <- p2_plus. apply p2_le. lia. }
    rewrite E1, Ex2.
    setoid_replace (sg sx * (2 * h) + v - sg sx * (2 * h))%Q with v by ring.
    setoid_replace (sg sx * (2 * h) + v - sg sx * h)%Q with (sg sx * h + v)%Q by ring.
    pose proof (Qabs_triangle_reverse (sg sx * h) (- v)) as T. rewrite Qabs_opp, sg_pos_abs in T by lra.
    setoid_replace (sg sx * h - - v)%Q with (sg sx * h + v)%Q in T by ring. lra.
Qed.
(* 1 - 2^-96 *)
Example fp_add_power_case : normal_word ML_Binary32 0x3f800000 false 127 0 /\ normal_word ML_Binary32 0x8f800000 true 31 0 /\
  fp_add ML_Binary32 0x3f800000 0x8f800000 = 0x3f000000.
Proof. split; [|split]; try reflexivity; nwc. Qed.

(* ---- y far above x: the result exponent is that of x plus p+2 *)
Theorem fp_add_far_refuted : forall F x y sx sy Ex Mx Ey My, fmt_ok F ->
  normal_word F x sx Ex Mx -> normal_word F y sy Ey My -> Ex + fsz F + 3 < Ey ->
  (exists M, normal_word F (fp_add F x y) sy (Ex + fsz F + 3) M) /\
  ~ correctly_rounded F (normal_val F sx Ex Mx + normal_val F sy Ey My) (fp_add F x y).
Proof.
  intros F x y sx sy Ex Mx Ey My Hok Hx Hy HE. pose proof Hok as [He Hf].
  destruct (add_far F Hok x y sx sy Ex Mx Ey My Hx Hy HE) as [M NW]. split; [eauto|].
  destruct (decode_normal F Hok _ _ _ _ NW) as [r [D Er]].
  set (v := normal_val F sy Ey My). set (w := normal_val F sx Ex Mx).
  pose proof (binade_x F Hok x sx Ex Mx Hx) as [_ BX]. fold w in BX.
  set (h := p2 (Ex + 3 - ieee_bias F)). assert (Ph : (0 < h)%Q) by apply p2_pos.
  destruct NW as [[_ [HEr HM]] _].
  assert (Hw : (Qabs w < (1 # 4) * h)%Q).
  { eapply Qlt_le_trans; [exact BX|]. unfold h. change (1 # 4)%Q with (p2 (-2)). rewrite <- p2_plus. apply p2_le. lia. }
  assert (Erh : (r == sg sy * (inject_Z (2 ^ fsz F + M) * h))%Q).
  { rewrite Er. unfold normal_val. apply Qmult_comp; [reflexivity|]. unfold h. replace (Ex + fsz F + 3 - ieee_bias F) with (fsz F + (Ex + 3 - ieee_bias F)) by lia.
    rewrite p2_plus, inject_Z_plus, <- p2_Z by lia. pose proof (p2_opp (fsz F)) as O.
    setoid_replace (p2 (fsz F) * p2 (Ex + 3 - ieee_bias F) * (1 + inject_Z M * p2 (- fsz F)))%Q with (p2 (Ex + 3 - ieee_bias F) * (p2 (fsz F) + inject_Z M * (p2 (- fsz F) * p2 (fsz F))))%Q by ring.
    rewrite O. ring. }
  (* v = sg sy * a with a >= 2^(f+1) h *)
  set (a := (p2 (Ey - ieee_bias F) * (1 + inject_Z My * p2 (- fsz F)))%Q).
  assert (Ev : (v == sg sy * a)%Q) by reflexivity.
  assert (Ha : (inject_Z (2 ^ (fsz F + 1)) * h <= a)%Q).
  { unfold a, h. rewrite <- p2_Z by lia. rewrite <- p2_plus.
    assert (p2 (fsz F + 1 + (Ex + 3 - ieee_bias F)) <= p2 (Ey - ieee_bias F))%Q by (apply p2_le; lia).
    destruct Hy as [[_ [_ HMy]] _]. assert (0 <= inject_Z My)%Q by (change 0%Q with (inject_Z 0); apply inj_le; lia).
    pose proof (p2_pos (- fsz F)). pose proof (p2_pos (Ey - ieee_bias F)).
    assert (0 <= inject_Z My * p2 (- fsz F))%Q by (apply Qmult_le_0_compat; lra). nra. }
  assert (Hb : (inject_Z (2 ^ fsz F + M) * h <= inject_Z (2 ^ (fsz F + 1)) * h - h)%Q).
  { setoid_replace (inject_Z (2 ^ (fsz F + 1)) * h - h)%Q with (inject_Z (2 ^ (fsz F + 1) - 1) * h)%Q.
    - apply Qmult_le_compat_r; [apply inj_le; rewrite (pf1 F Hok); lia|lra].
    - unfold Z.sub. rewrite inject_Z_plus. change (inject_Z (- (1))) with (-1)%Q. ring. }
  apply (not_rounded F _ (fp_add F x y) r v); auto.
  - destruct Hy as [[_ [_ HMy]] HEy]. apply (representable_comp F (sg sy * a)); [now symmetry|]. apply representable_sg.
    exists (2 ^ fsz F + My), (Ey - ieee_bias F - fsz F). split; [rewrite (pf1 F Hok); lia|]. split.
    + unfold ieee_bias. pose proof (pe_half F Hok). lia.
    + unfold a. unfold Z.sub. rewrite (p2_plus _ (- fsz F)), inject_Z_plus, <- p2_Z by lia. pose proof (p2_opp (fsz F)) as O.
      setoid_replace ((p2 (fsz F) + inject_Z My) * (p2 (Ey + - ieee_bias F) * p2 (- fsz F)))%Q with (p2 (Ey + - ieee_bias F) * (p2 (- fsz F) * p2 (fsz F) + inject_Z My * p2 (- fsz F)))%Q by ring.
      rewrite O. reflexivity.
  - setoid_replace (w + v - v)%Q with w by ring.
    pose proof (Qabs_triangle_reverse (v - r) (- w)) as T. rewrite Qabs_opp in T.
    setoid_replace (v - r - - w)%Q with (w + v - r)%Q in T by ring.
    assert (A : (Qabs (v - r) == a - inject_Z (2 ^ fsz F + M) * h)%Q).
    { rewrite Ev, Erh. setoid_replace (sg sy * a - sg sy * (inject_Z (2 ^ fsz F + M) * h))%Q with (sg sy * (a - inject_Z (2 ^ fsz F + M) * h))%Q by ring.
      apply sg_pos_abs. lra. }
    rewrite A in T. lra.
Qed.
(* 1 + 2^100 gives 2^26 *)
Example fp_add_far_case : normal_word ML_Binary32 0x3f800000 false 127 0 /\ normal_word ML_Binary32 0x71800000 false 227 0 /\
  fp_add ML_Binary32 0x3f800000 0x71800000 = 0x4c800000.
Proof. split; [|split]; try reflexivity; nwc. Qed.

(* ---- x + (-x) is a power of two, unless its exponent field happens to be 0 *)
Theorem fp_add_cancel_refuted : forall F x y s E M, fmt_ok F -> normal_word F x s E M -> normal_word F y (negb s) E M ->
  has_fields F (fp_add F x y) (negb s) ((E - 2 * fsz F - 4) mod 2 ^ esz F) 0 /\
  ((E - 2 * fsz F - 4) mod 2 ^ esz F <> 0 ->
   get_value_from_integer_coding F (fp_add F x y) <> PZero /\ get_value_from_integer_coding F (fp_add F x y) <> MZero).
Proof.
  intros F x y s E M Hok Hx Hy. pose proof Hok as [He Hf]. pose proof (p_ge F Hok) as Hp.
  assert (Ed : dcl F E E = msz F + 2).
  { unfold dcl. destruct (Z.ltb_spec (E + (msz F + 2) - E) 0); [lia|]. destruct (Z.ltb_spec (2 * msz F + 4) (E + (msz F + 2) - E)); lia. }
  assert (Ea : mant_add F x y = 0).
  { rewrite (mant_add_eq F Hok x y s (negb s) E M E M Hx Hy), Ed. replace (xorb s (negb s)) with true by (destruct s; reflexivity).
    unfold ay, ax. replace (2 * msz F + 4 - (msz F + 2)) with (msz F + 2) by lia. rewrite Z.add_opp_diag_r. apply Z.mod_0_l.
    apply Z.pow_nonzero; unfold add_width; lia. }
  assert (Ng : add_is_negative F x y = false) by (unfold add_is_negative; rewrite Ea, Z.testbit_0_l; reflexivity).
  assert (El : add_lzc F x y = add_width F) by (unfold add_lzc, mant_add_abs; rewrite Ng, Ea; reflexivity).
  assert (Em : res_normed_mant F x y = 0) by (unfold res_normed_mant; rewrite Ea, Z.mul_0_l; apply Z.mod_0_l; apply Z.pow_nonzero; unfold add_width; lia).
  assert (S0 : forall lo hi, 0 <= hi - lo + 1 -> sub_signal 0 lo hi = 0).
  { intros lo hi H. unfold sub_signal. rewrite Z.shiftr_0_l. apply Z.mod_0_l. apply Z.pow_nonzero; lia. }
  assert (Er : rounded_mant F 0 = 0).
  { unfold rounded_mant. rewrite Z.testbit_0_l. cbn [andb b2z]. rewrite S0 by lia. apply Z.mod_0_l. apply Z.pow_nonzero; lia. }
  assert (Ov : rounded_overflow F 0 = false) by (unfold rounded_overflow; rewrite Er; apply Z.testbit_0_l).
  assert (Ef : res_mant_field F 0 = 0) by (unfold res_mant_field; rewrite Ov, Er; apply S0; lia).
  assert (Ee : res_exp F x y = (E - 2 * fsz F - 4) mod 2 ^ esz F).
  { unfold res_exp. rewrite El, Em, Ov, (e_x F Hok x s E M Hx). rewrite <- Znumtheory.Zmod_div_mod.
    - f_equal. unfold add_width, msz. cbn [b2z]. lia.
    - apply pow2_pos; lia.
    - apply pow2_pos; lia.
    - exists (2 ^ 2). rewrite <- Z.pow_add_r by lia. f_equal. lia. }
  assert (HF : has_fields F (fp_add F x y) (negb s) ((E - 2 * fsz F - 4) mod 2 ^ esz F) 0).
  { split; [|split].
    - unfold fp_add. rewrite Ng, Em, Ef, Ee, (s_y F Hok y (negb s) E M Hy), xorb_false_l. reflexivity.
    - apply Z.mod_pos_bound. apply pow2_pos; lia.
    - split; [lia|apply pow2_pos; lia]. }
  split; auto. intros NZ. pose proof (decode_ieee F Hok _ _ _ _ HF) as D. revert D NZ.
  generalize ((E - 2 * fsz F - 4) mod 2 ^ esz F). intros e' D NZ. split; intros C; rewrite C in D; inversion D; congruence.
Qed.
(* 1 + (-1) = -2^-50 *)
Example fp_add_cancel_case : normal_word ML_Binary32 0x3f800000 false 127 0 /\ normal_word ML_Binary32 0xbf800000 true 127 0 /\
  (127 - 2 * fsz ML_Binary32 - 4) mod 2 ^ esz ML_Binary32 = 77.
Proof. split; [|split]; try reflexivity; nwc. Qed.

Print Assumptions fp_add_correct_partial.
Print Assumptions fp_add_round_up_refuted.
Print Assumptions fp_add_negative_refuted.
Print Assumptions fp_add_power_refuted.
Print Assumptions fp_add_far_refuted.
Print Assumptions fp_add_cancel_refuted.
