(* Mixed precision fused multiply-add: the datapath. *)
From Coq Require Import ZArith QArith Qabs Qround Bool Lia Lqa Qfield.
From Verif Require Import QUtil FpFormatModel FpFormatSpec FpFormatProofs FpFormatProofs2 FpFormatProps TruncProps AdderModel AdderProofs AdderProofs2 AdderProofs3 MpfmaModel MpfmaProofs.
Open Scope Z_scope.

Section D.
Variables F G : fpfmt.
Hypothesis HF : fmt_ok F.
Hypothesis HG : fmt_ok G.
Variables (x y z : Z) (sx sy sz : bool) (Ex Mx Ey My Ez Mz : Z).
Hypothesis Hx : normal_word F x sx Ex Mx.
Hypothesis Hy : normal_word F y sy Ey My.
Hypothesis Hz : normal_word G z sz Ez Mz.
Local Notation p := (msz F).
Local Notation o := (msz G).
Local Notation m := (mp_prod_size F G).
Local Notation W := (mp_width F G).
Local Notation N := (mp_max_diff F G).
Local Notation f := (fsz G).
Local Notation B := (ieee_bias G).
Local Notation ES := (mp_esize F G).
Local Notation exy := (Ex + Ey - 2 * ieee_bias F).
Local Notation vxy := (normal_val F sx Ex Mx * normal_val F sy Ey My)%Q.
Local Notation vz := (normal_val G sz Ez Mz).
Local Notation sxy := (xorb sx sy).
Local Notation P := ((2 ^ fsz F + Mx) * (2 ^ fsz F + My)).
Local Notation Zm := (2 ^ f + Mz).
Definition ediff : Z := exy - (Ez - B) + o + 3.
Local Notation d := ediff.
Hypothesis Hd : - 2 ^ (ES - 1) <= d < 2 ^ (ES - 1).

Lemma po2 : 2 <= p /\ 2 <= o. Proof. destruct HF, HG. unfold msz. lia. Qed.
Lemma N_eq : N = o + m + 4. Proof. unfold mp_max_diff, mp_width, mp_offset. rewrite Z.max_id. lia. Qed.
Lemma W_eq : W = 2 * o + m + 4. Proof. unfold mp_width, mp_offset. rewrite Z.max_id. lia. Qed.
Lemma m_ge : 2 * p <= m /\ o + 1 <= m. Proof. unfold mp_prod_size. lia. Qed.
Lemma ES_ge : 4 <= ES /\ esz G + 2 <= ES. Proof. destruct HF, HG. unfold mp_esize. lia. Qed.

Lemma diff_eq : mp_exp_diff F G x y z = d.
Proof.
  pose proof ES_ge as [E1 E2]. unfold mp_exp_diff. destruct Hx as [Hx1 _]. destruct Hy as [Hy1 _]. destruct Hz as [Hz1 _].
  rewrite (hw_exp_fields F HF _ _ _ _ Hx1), (hw_exp_fields F HF _ _ _ _ Hy1), (hw_exp_fields G HG _ _ _ _ Hz1), !bias_eq.
  unfold mp_offset. rewrite Z.max_id.
  replace (Ey + Ex + (o + 2 + (- ieee_bias F + - ieee_bias F) - - B + 1) - Ez) with d by (unfold ediff; lia).
  assert (P2 : 2 ^ ES = 2 * 2 ^ (ES - 1)) by (rewrite <- Z.pow_succ_r by lia; f_equal; lia). unfold to_signed.
  destruct (Z.le_gt_cases 0 d) as [H|H].
  - rewrite Z.mod_small by lia. destruct (Z.ltb_spec d (2 ^ (ES - 1))); lia.
  - replace (d mod 2 ^ ES) with (d + 2 ^ ES) by (apply Z.mod_unique with (-1); [left; lia|lia]).
    destruct (Z.ltb_spec (d + 2 ^ ES) (2 ^ (ES - 1))); lia.
Qed.
Definition dc : Z := if d <? 0 then 0 else if N <? d then N else d.
Lemma dc_b : 0 <= dc <= N.
Proof. pose proof po2. pose proof m_ge. pose proof N_eq. unfold dc. destruct (Z.ltb_spec d 0); [lia|]. destruct (Z.ltb_spec N d); lia. Qed.
Definition PP : Z := P * 2 ^ (o + 2).
Definition ZZ : Z := Zm * 2 ^ (N - dc).
Lemma prod_eq : mp_prod_ext F G x y = PP.
Proof. unfold mp_prod_ext, PP. now rewrite (mant_fields F HF _ _ _ _ Hx), (mant_fields F HF _ _ _ _ Hy). Qed.
Lemma shz_eq : mp_shifted_z F G x y z = ZZ.
Proof.
  pose proof dc_b. unfold mp_shifted_z, mp_shift. rewrite diff_eq. fold dc. rewrite (mant_fields G HG _ _ _ _ Hz), Z.shiftr_div_pow2 by lia.
  unfold ZZ. replace N with (N - dc + dc) at 1 by lia. rewrite Z.pow_add_r by lia. rewrite Z.mul_assoc, Z.div_mul; auto. pose proof (pow2_pos dc). lia.
Qed.
Lemma signs : mp_sign_xy F x y = sxy /\ mp_effective_op F G x y z = xorb sxy sz.
Proof.
  destruct Hx as [Hx1 _]. destruct Hy as [Hy1 _]. destruct Hz as [Hz1 _]. unfold mp_effective_op, mp_sign_xy.
  rewrite (hw_sign_fields F HF _ _ _ _ Hx1), (hw_sign_fields F HF _ _ _ _ Hy1), (hw_sign_fields G HG _ _ _ _ Hz1). auto.
Qed.
Lemma P_b : 2 ^ (2 * p - 2) <= P < 2 ^ (2 * p).
Proof.
  pose proof po2. destruct Hx as [[_ [_ H1]] _]. destruct Hy as [[_ [_ H2]] _].
  assert (E1 : 2 ^ (2 * p - 2) = 2 ^ fsz F * 2 ^ fsz F) by (rewrite <- Z.pow_add_r by (unfold msz in *; lia); f_equal; unfold msz; lia).
  assert (E2 : 2 ^ (2 * p) = (2 * 2 ^ fsz F) * (2 * 2 ^ fsz F)).
  { change 2 with (2 ^ 1) at 3 5. rewrite <- !Z.pow_add_r by (unfold msz in *; lia). f_equal. unfold msz. lia. }
  pose proof (pow2_pos (fsz F) ltac:(unfold msz in *; lia)). rewrite E1, E2. nia.
Qed.
Lemma Z_b : 2 ^ f <= Zm < 2 ^ o.
Proof. pose proof po2. destruct Hz as [[_ [_ H7]] _]. unfold msz. rewrite (pf1 G HG). lia. Qed.
Lemma PP_b : 2 ^ (2 * p + o) <= PP <= 2 ^ (N - 2) - 2 ^ (o + 2).
Proof.
  pose proof po2. pose proof P_b as [A C]. pose proof N_eq. pose proof m_ge. unfold PP. pose proof (pow2_pos (o + 2) ltac:(lia)).
  assert (E1 : 2 ^ (2 * p + o) = 2 ^ (2 * p - 2) * 2 ^ (o + 2)) by (rewrite <- Z.pow_add_r by lia; f_equal; lia).
  assert (E2 : 2 ^ (2 * p) * 2 ^ (o + 2) <= 2 ^ (N - 2)) by (rewrite <- Z.pow_add_r by lia; apply Z.pow_le_mono_r; lia).
  split; [rewrite E1; nia|]. assert ((P + 1) * 2 ^ (o + 2) <= 2 ^ (2 * p) * 2 ^ (o + 2)) by (apply Z.mul_le_mono_nonneg_r; lia). lia.
Qed.
Lemma ZZ_b : 0 < ZZ < 2 ^ W.
Proof.
  pose proof Z_b as [A C]. pose proof po2. pose proof dc_b. pose proof (pow2_pos f ltac:(unfold msz in *; lia)). unfold ZZ.
  pose proof (pow2_pos (N - dc) ltac:(lia)). split; [nia|].
  apply Z.lt_le_trans with (2 ^ o * 2 ^ (N - dc)); [nia|]. rewrite <- Z.pow_add_r by lia. apply Z.pow_le_mono_r; [lia|]. unfold mp_max_diff in *. lia.
Qed.
Lemma W_pow : 2 ^ (W + 1) = 2 * 2 ^ W /\ 2 ^ (N - 2) <= 2 ^ (W - 2) /\ 4 * 2 ^ (W - 2) = 2 ^ W.
Proof.
  pose proof po2. pose proof m_ge. pose proof W_eq. pose proof N_eq. split; [|split].
  - rewrite Z.pow_add_r by lia. lia.
  - apply Z.pow_le_mono_r; lia.
  - change 4 with (2 ^ 2). rewrite <- Z.pow_add_r by lia. f_equal. lia.
Qed.
(* the magnitude of the sum and its sign *)
Lemma abs_add : sxy = sz -> mp_add_abs F G x y z = PP + ZZ + 1 /\ mp_sign F G x y z = sxy.
Proof.
  intros Hs. destruct signs as [S1 S2]. rewrite Hs, xorb_nilpotent in S2. pose proof PP_b. pose proof ZZ_b. destruct W_pow as [W1 [W2 W3]]. pose proof (pow2_pos (o + 2) ltac:(pose proof po2; lia)).
  assert (Ng : mp_negative F G x y z = false) by (unfold mp_negative; rewrite S2; apply andb_false_r).
  unfold mp_sign, mp_add_abs. rewrite Ng, S1. split; [|apply xorb_false_l]. unfold mp_add_p1, mp_addend. rewrite S2, prod_eq, shz_eq.
  rewrite Z.mod_small; [lia|]. pose proof (pow2_pos (2 * p + o) ltac:(pose proof po2; lia)). lia.
Qed.
Lemma abs_sub : sxy <> sz ->
  (ZZ <= PP -> mp_add_abs F G x y z = PP - ZZ /\ mp_sign F G x y z = sxy) /\
  (PP < ZZ -> mp_add_abs F G x y z = ZZ - PP /\ mp_sign F G x y z = sz).
Proof.
  intros Hs. destruct signs as [S1 S2]. assert (X : xorb sxy sz = true) by (destruct sxy, sz; auto; congruence). rewrite X in S2.
  pose proof PP_b. pose proof ZZ_b. destruct W_pow as [W1 [W2 W3]]. pose proof po2. pose proof m_ge. pose proof W_eq.
  pose proof (pow2_pos (o + 2) ltac:(lia)). pose proof (pow2_pos (2 * p + o) ltac:(lia)). pose proof (pow2_pos W ltac:(lia)).
  assert (E1 : mp_add_p1 F G x y z = (PP - ZZ) mod 2 ^ (W + 1)).
  { unfold mp_add_p1, mp_addend. rewrite S2, prod_eq, shz_eq. replace (2 ^ (W + 1) - 1 - ZZ + PP + 1) with (PP - ZZ + 1 * 2 ^ (W + 1)) by lia. apply Z.mod_add. lia. }
  assert (E0 : mp_add_p0 F G x y z = (PP - ZZ - 1) mod 2 ^ (W + 1)).
  { unfold mp_add_p0, mp_addend. rewrite S2, prod_eq, shz_eq. replace (2 ^ (W + 1) - 1 - ZZ + PP) with (PP - ZZ - 1 + 1 * 2 ^ (W + 1)) by lia. apply Z.mod_add. lia. }
  split; intros C.
  - assert (E2 : mp_add_p1 F G x y z = PP - ZZ) by (rewrite E1; apply Z.mod_small; lia).
    assert (Ng : mp_negative F G x y z = false).
    { unfold mp_negative. rewrite E2, testbit_div by lia. rewrite Z.div_small by lia. reflexivity. }
    unfold mp_sign, mp_add_abs. rewrite Ng, S1, E2. split; [reflexivity|apply xorb_false_l].
  - assert (E2 : mp_add_p1 F G x y z = PP - ZZ + 2 ^ (W + 1)) by (rewrite E1; symmetry; apply Z.mod_unique with (-1); [left; lia|lia]).
    assert (E3 : mp_add_p0 F G x y z = PP - ZZ - 1 + 2 ^ (W + 1)) by (rewrite E0; symmetry; apply Z.mod_unique with (-1); [left; lia|lia]).
    assert (Ng : mp_negative F G x y z = true).
    { unfold mp_negative. rewrite S2, andb_true_r, E2, testbit_div by lia.
      replace ((PP - ZZ + 2 ^ (W + 1)) / 2 ^ W) with 1; [reflexivity|]. apply Z.div_unique with (PP - ZZ + 2 ^ W); [left; lia|lia]. }
    unfold mp_sign, mp_add_abs. rewrite Ng, S1, E3. split; [lia|]. destruct sxy, sz; auto; congruence.
Qed.

(* exponent of the top bit of the datapath, as the code takes it *)
Definition base : Z := if d <? 0 then Ez - B + 1 else exy + o + 3.
Lemma mpfma_word : forall V, mp_add_abs F G x y z = V -> 0 < V < 2 ^ (W + 1) ->
  let L := Z.log2 V in let k := base - W + L in let K := qrne (inject_Z V * p2 (f - L)) in
  2 ^ f <= K <= 2 ^ (f + 1) /\
  (K < 2 ^ (f + 1) -> mpfma F G x y z = (if mp_sign F G x y z then 2 ^ (esz G + f) else 0) + ((k + B) mod 2 ^ esz G) * 2 ^ f + (K - 2 ^ f)) /\
  (K = 2 ^ (f + 1) -> mpfma F G x y z = (if mp_sign F G x y z then 2 ^ (esz G + f) else 0) + ((k + 1 + B) mod 2 ^ esz G) * 2 ^ f + 2 ^ (f - 1)).
Proof.
  intros V EV HV L k K. pose proof po2. pose proof W_eq. pose proof m_ge. pose proof ES_ge.
  pose proof (norm_b (W + 1) V HV) as NB. replace (W + 1 - 1) with W in NB by lia.
  assert (El : lzc (W + 1) V = W - L) by (unfold lzc; destruct (Z.eqb_spec V 0); [lia|unfold L; lia]).
  assert (Enm : mp_normed F G x y z = V * 2 ^ lzc (W + 1) V).
  { unfold mp_normed, mp_lzc. rewrite EV. apply Z.mod_small. pose proof (pow2_pos W ltac:(lia)). lia. }
  set (n := V * 2 ^ lzc (W + 1) V) in *.
  assert (Ln : L < W + 1) by (apply Z.log2_lt_pow2; lia).
  destruct (mp_rounded_spec o W n ltac:(lia) ltac:(lia) NB) as [RS RB]. destruct (mp_field_spec o W n ltac:(lia) ltac:(lia) NB) as [F1 F2].
  assert (Eo : o - 1 = f) by (unfold msz; lia). rewrite Eo in *. replace (o - 2) with (f - 1) in F2 by (unfold msz; lia).
  assert (EK : K = 2 ^ f + mp_rounded o W n).
  { rewrite RS. unfold K. apply qrne_comp. unfold n. rewrite inject_Z_mult, El, <- p2_Z by lia.
    rewrite <- Qmult_assoc, <- p2_plus. replace (W - L + - (W - o + 1)) with (f - L); [reflexivity|]. unfold msz. lia. }
  assert (Eexp : mp_exp F G x y z = (k + b2z (mp_overflow o W n) + B) mod 2 ^ esz G).
  { unfold mp_exp, mp_lzc. rewrite Enm, EV, El, diff_eq. destruct HG as [He Hf].
    rewrite <- Znumtheory.Zmod_div_mod.
    - f_equal. unfold k, base, mp_exp_z, mp_exp_xy, mp_offset. rewrite Z.max_id, !bias_eq.
      destruct Hx as [Hx1 _]. destruct Hy as [Hy1 _]. destruct Hz as [Hz1 _].
      rewrite (hw_exp_fields F HF _ _ _ _ Hx1), (hw_exp_fields F HF _ _ _ _ Hy1), (hw_exp_fields G HG _ _ _ _ Hz1).
      destruct (d <? 0); lia.
    - apply pow2_pos; lia.
    - apply pow2_pos; lia.
    - exists (2 ^ (ES - esz G)). rewrite <- Z.pow_add_r by lia. f_equal. lia. }
  rewrite (pf1 G HG). split; [lia|]. unfold mpfma. rewrite Eexp, Enm.
  split; intros HK; destruct (mp_overflow o W n) eqn:Ov; cbn [b2z].
  - destruct (F2 eq_refl). lia.
  - destruct (F1 eq_refl) as [F3 F4]. rewrite F3. replace (k + 0 + B) with (k + B) by lia. lia.
  - destruct (F2 eq_refl) as [F3 F4]. rewrite F3. reflexivity.
  - destruct (F1 eq_refl). lia.
Qed.

(* the result for a magnitude w of the same rounding as V *)
Section R.
Variables (V : Z) (w q : Q) (s : bool) (k : Z).
Hypothesis EV : mp_add_abs F G x y z = V.
Hypothesis HV : 0 < V < 2 ^ (W + 1).
Hypothesis Hs : mp_sign F G x y z = s.
Local Notation L := (Z.log2 V).
Local Notation U := (base - W).
Hypothesis Wb : (p2 L <= w)%Q /\ (w < p2 (L + 1))%Q.
Hypothesis Eq : (q == sg s * (w * p2 U))%Q.
Hypothesis Hk : 1 - B <= k <= B.
Hypothesis Q1 : (p2 k <= Qabs q)%Q.
Hypothesis Q2 : (Qabs q < p2 (k + 1))%Q.

Lemma w_scale : L + U = k /\ (w * p2 U / p2 (k - f) == w * p2 (f - L))%Q /\ (Qabs q == w * p2 U)%Q.
Proof.
  destruct Wb as [W1 W2]. pose proof (p2_pos U) as PU. pose proof (p2_pos L).
  assert (W0 : (0 <= w * p2 U)%Q) by (apply Qmult_le_0_compat; lra).
  assert (EA : (Qabs q == w * p2 U)%Q) by (rewrite Eq; now apply sg_pos_abs).
  assert (Ek : L + U = k).
  { apply binade_unique with (w * p2 U)%Q; try (rewrite <- EA; auto; fail).
    - rewrite p2_plus. apply Qmult_le_compat_r; lra.
    - replace (L + U + 1) with (L + 1 + U) by lia. rewrite (p2_plus (L + 1) U). apply Qmult_lt_r; auto. }
  split; [auto|]. split; [|auto].
  setoid_replace (w * p2 U)%Q with (w * p2 (f - L) * p2 (k - f))%Q; [field; apply p2_nz|].
  rewrite <- Qmult_assoc, <- p2_plus. replace (f - L + (k - f)) with U by lia. reflexivity.
Qed.
Lemma no_up : (Qabs q < p2 k * (2 - p2 (- (f + 1))))%Q -> forall K, (Qabs (w * p2 (f - L) - inject_Z K) <= 1 # 2)%Q -> K < 2 ^ (f + 1).
Proof.
  intros H K HK. destruct HG as [He Hf]. destruct w_scale as [Ek [Es EA]]. apply Qabs_Qle_condition in HK.
  rewrite Zlt_Qlt. rewrite <- p2_Z by lia.
  assert (A : (w * p2 (f - L) < p2 (f + 1) - (1 # 2))%Q).
  { rewrite <- Es. pose proof (p2_pos (k - f)) as Pp. apply Qlt_shift_div_r; [auto|]. rewrite <- EA.
    setoid_replace ((p2 (f + 1) - (1 # 2)) * p2 (k - f))%Q with (p2 (f + 1) * p2 (k - f) - (1 # 2) * p2 (k - f))%Q by ring.
    rewrite <- p2_plus. replace (f + 1 + (k - f)) with (k + 1) by lia. rewrite p2_succ.
    assert (E : ((1 # 2) * p2 (k - f) == p2 k * p2 (- (f + 1)))%Q).
    { change (1 # 2)%Q with (p2 (-1)). rewrite <- !p2_plus. replace (-1 + (k - f)) with (k + - (f + 1)) by lia. reflexivity. }
    rewrite E. lra. }
  lra.
Qed.
Lemma Bv : 2 ^ esz G = 2 * B + 2. Proof. apply B_eq; auto. Qed.
Lemma res_near : qrne (inject_Z V * p2 (f - L)) = qrne (w * p2 (f - L)) ->
  (Qabs q < p2 k * (2 - p2 (- (f + 1))))%Q -> correctly_rounded G q (mpfma F G x y z).
Proof.
  intros EK H. destruct w_scale as [Ek [Es EA]]. destruct (mpfma_word V EV HV) as [K1 [K2 _]]. rewrite EK in K1, K2.
  replace (base - W + L) with k in K2 by lia. set (K := qrne (w * p2 (f - L))) in *.
  assert (K3 : K < 2 ^ (f + 1)). { apply no_up; auto. pose proof (qrne_half (w * p2 (f - L))) as Hh. fold K in Hh. rewrite Qabs_Qminus. exact Hh. }
  specialize (K2 K3). rewrite Hs in K2.
  assert (CR : correctly_rounded G (sg s * (w * p2 U)) (mpfma F G x y z)).
  { apply (word_rne G HG) with (k := k) (K := K).
    - rewrite <- EA. auto.
    - rewrite <- EA. auto.
    - apply range_eq; auto.
    - unfold K. apply qrne_comp. now rewrite Es.
    - lia.
    - rewrite K2. pose proof Bv. rewrite (Z.mod_small (k + B)) by lia. split; [lia|]. split; [lia|]. rewrite (pf1 G HG) in K3. lia. }
  destruct CR as [r [D [[R1 R2] R3]]]. exists r. split; auto. split; [split; auto|].
  + intros v Rv. rewrite !Eq. now apply R2.
  + intros v Rv Nv. rewrite !Eq. now apply R3.
Qed.
Lemma res_away : qrne (inject_Z V * p2 (f - L)) = Qfloor (w * p2 (f - L) + (1 # 2)) ->
  (Qabs q < p2 k * (2 - p2 (- (f + 1))))%Q -> rounded_away G q (mpfma F G x y z).
Proof.
  intros EK H. destruct w_scale as [Ek [Es EA]]. destruct (mpfma_word V EV HV) as [K1 [K2 _]]. rewrite EK in K1, K2.
  replace (base - W + L) with k in K2 by lia. set (K := Qfloor (w * p2 (f - L) + (1 # 2))) in *.
  assert (K3 : K < 2 ^ (f + 1)).
  { apply no_up; auto. pose proof (Qfloor_le (w * p2 (f - L) + (1 # 2))) as T1. pose proof (Qlt_floor (w * p2 (f - L) + (1 # 2))) as T2.
    fold K in T1, T2. rewrite inject_Z_plus in T2. change (inject_Z 1) with 1%Q in T2. apply Qabs_Qle_condition. split; lra. }
  specialize (K2 K3). rewrite Hs in K2.
  assert (CR : rounded_away G (sg s * (w * p2 U)) (mpfma F G x y z)).
  { apply (word_away G HG) with (k := k) (K := K).
    - rewrite <- EA. auto.
    - rewrite <- EA. auto.
    - apply range_eq; auto.
    - unfold K. apply Qfloor_comp. now rewrite Es.
    - lia.
    - rewrite K2. pose proof Bv. rewrite (Z.mod_small (k + B)) by lia. split; [lia|]. split; [lia|]. rewrite (pf1 G HG) in K3. lia. }
  destruct CR as [r [D [[R1 R2] R3]]]. exists r. split; auto. split; [split; auto|].
  + intros v Rv. rewrite !Eq. now apply R2.
  + intros v Rv Nv. rewrite !Eq. now apply R3.
Qed.
(* rounding up to the next power of two *)
Lemma res_up : qrne (inject_Z V * p2 (f - L)) = 2 ^ (f + 1) -> k < B ->
  normal_word G (mpfma F G x y z) s (k + 1 + B) (2 ^ (f - 1)).
Proof.
  intros EK Hk2. destruct w_scale as [Ek [Es EA]]. destruct (mpfma_word V EV HV) as [_ [_ K2]]. specialize (K2 EK).
  replace (base - W + L) with k in K2 by lia. rewrite Hs in K2. pose proof Bv. destruct HG as [He Hf].
  rewrite (Z.mod_small (k + 1 + B)) in K2 by lia. pose proof (pow2_pos (f - 1) ltac:(lia)).
  split; [split; [exact K2|]|lia]. split; [lia|]. rewrite (pf_half G HG). lia.
Qed.
End R.
End D.
