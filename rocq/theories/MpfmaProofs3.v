(* Mixed precision fused multiply-add: rounding of the sum. *)
From Coq Require Import ZArith QArith Qabs Qround Bool Lia Lqa Qfield.
From Verif Require Import QUtil FpFormatModel FpFormatSpec FpFormatProofs FpFormatProofs2 FpFormatProps TruncProps AdderModel AdderProofs AdderProofs2 AdderProofs3 MpfmaModel MpfmaProofs MpfmaProofs2.
Open Scope Z_scope.

Lemma mant_val : forall F s E M, fmt_ok F -> (normal_val F s E M == sg s * (inject_Z (2 ^ fsz F + M) * p2 (E - ieee_bias F - fsz F)))%Q.
Proof.
  intros F s E M [He Hf]. unfold normal_val. apply Qmult_comp; [reflexivity|].
  unfold Z.sub. rewrite (p2_plus _ (- fsz F)), inject_Z_plus, <- p2_Z by lia. pose proof (p2_opp (fsz F)) as O.
  setoid_replace ((p2 (fsz F) + inject_Z M) * (p2 (E + - ieee_bias F) * p2 (- fsz F)))%Q with (p2 (E + - ieee_bias F) * (p2 (- fsz F) * p2 (fsz F) + inject_Z M * p2 (- fsz F)))%Q by ring.
  rewrite O. reflexivity.
Qed.
Lemma sg_xor : forall a b, (sg (xorb a b) == sg a * sg b)%Q. Proof. intros [] []; reflexivity. Qed.
Lemma p2_Zpos : forall n, 0 <= n -> (0 < inject_Z (2 ^ n))%Q. Proof. intros n H. rewrite <- p2_Z by auto. apply p2_pos. Qed.

(* keeps the disequality out of the sight of lia *)
Definition differ (a b : bool) : Prop := a <> b.

Section E.
Variables F G : fpfmt.
Hypothesis HF : fmt_ok F.
Hypothesis HG : fmt_ok G.
Variables (x y z : Z) (sx sy sz : bool) (Ex Mx Ey My Ez Mz : Z).
Hypothesis Hx : normal_word F x sx Ex Mx.
Hypothesis Hy : normal_word F y sy Ey My.
Hypothesis Hz : normal_word G z sz Ez Mz.
Local Notation p := (msz F).
Local Notation o := (msz G).
Local Notation m := (mp_prod_size F G).
Local Notation W := (mp_width F G).
Local Notation N := (mp_max_diff F G).
Local Notation f := (fsz G).
Local Notation B := (ieee_bias G).
Local Notation ES := (mp_esize F G).
Local Notation exy := (Ex + Ey - 2 * ieee_bias F).
Local Notation vxy := (normal_val F sx Ex Mx * normal_val F sy Ey My)%Q.
Local Notation vz := (normal_val G sz Ez Mz).
Local Notation sxy := (xorb sx sy).
Local Notation P := ((2 ^ fsz F + Mx) * (2 ^ fsz F + My)).
Local Notation Zm := (2 ^ f + Mz).
Local Notation d := (ediff F G Ex Ey Ez).
Local Notation PPn := (PP F G Mx My).
Local Notation ZZn := (ZZ F G Ex Ey Ez Mz).
Local Notation bs := (base F G Ex Ey Ez).
Hypothesis Hd : - 2 ^ (ES - 1) <= d < 2 ^ (ES - 1).

Lemma vxy_eq : (vxy == sg sxy * (inject_Z P * p2 (exy - 2 * fsz F)))%Q.
Proof.
  rewrite !mant_val by auto. rewrite sg_xor, inject_Z_mult.
  setoid_replace (sg sx * (inject_Z (2 ^ fsz F + Mx) * p2 (Ex - ieee_bias F - fsz F)) * (sg sy * (inject_Z (2 ^ fsz F + My) * p2 (Ey - ieee_bias F - fsz F))))%Q
    with (sg sx * sg sy * (inject_Z (2 ^ fsz F + Mx) * inject_Z (2 ^ fsz F + My) * (p2 (Ex - ieee_bias F - fsz F) * p2 (Ey - ieee_bias F - fsz F))))%Q by ring.
  rewrite <- p2_plus. replace (Ex - ieee_bias F - fsz F + (Ey - ieee_bias F - fsz F)) with (exy - 2 * fsz F) by lia. reflexivity.
Qed.
Lemma vz_eq : (vz == sg sz * (inject_Z Zm * p2 (Ez - B - f)))%Q.
Proof. now apply mant_val. Qed.
Lemma Pb : 2 ^ (2 * p - 2) <= P < 2 ^ (2 * p). Proof. apply (P_b F G HF HG x y sx sy Ex Mx Ey My); auto. Qed.
Lemma Zb : 2 ^ f <= Zm < 2 ^ o. Proof. apply (Z_b F G HF HG z sz Ez Mz); auto. Qed.
Lemma PPb : 2 ^ (2 * p + o) <= PPn <= 2 ^ (N - 2) - 2 ^ (o + 2). Proof. apply (PP_b F G HF HG x y sx sy Ex Mx Ey My); auto. Qed.
Lemma ZZb : 0 < ZZn < 2 ^ W. Proof. apply (ZZ_b F G HF HG z sz Ex Ey Ez Mz); auto. Qed.
Lemma Bp : 0 < P. Proof. pose proof Pb. pose proof (po2 F G HF HG). pose proof (pow2_pos (2 * p - 2)). lia. Qed.

(* ---- z far above the product *)
Lemma z_branch : forall k, d < 0 -> 1 - B <= k <= B ->
  (p2 k <= Qabs (vxy + vz))%Q -> (Qabs (vxy + vz) < p2 k * (2 - p2 (- (f + 1))))%Q ->
  correctly_rounded G (vxy + vz) (mpfma F G x y z).
Proof.
  intros k Hneg Hk L1 L2. pose proof (po2 F G HF HG) as [Hp Ho]. pose proof (N_eq F G) as EN. pose proof (W_eq F G) as EW. pose proof (m_ge F G) as [Hm1 Hm2].
  pose proof Pb as HP. pose proof Zb as HZ. pose proof PPb as HPP. pose proof Bp as P0.
  pose proof (p2_pos k) as Pk. pose proof (p2_pos (- (f + 1))) as Pf.
  assert (L3 : (Qabs (vxy + vz) < p2 (k + 1))%Q) by (rewrite p2_succ; nra).
  assert (Eb : bs = Ez - B + 1) by (unfold base; destruct (Z.ltb_spec d 0); lia).
  assert (EZZ : ZZn = Zm * 2 ^ N) by (unfold ZZ, dc; destruct (Z.ltb_spec d 0); [f_equal; f_equal; lia|lia]).
  set (U := bs - W).
  set (t := (inject_Z P * p2 (exy - 2 * fsz F - U))%Q).
  assert (T0 : (0 < t)%Q) by (unfold t; apply Qmult_lt_0_compat; [now apply inj_pos|apply p2_pos]).
  assert (Hed : exy - 2 * fsz F - U + 2 * p <= N - 2) by (unfold U; rewrite Eb; unfold ediff in Hneg; unfold msz in *; lia).
  assert (T1 : (t < p2 (N - 2))%Q).
  { apply Qlt_le_trans with (inject_Z (2 ^ (2 * p)) * p2 (exy - 2 * fsz F - U))%Q.
    - unfold t. apply Qmult_lt_r; [apply p2_pos|apply inj_lt; lia].
    - rewrite <- p2_Z by lia. rewrite <- p2_plus. apply p2_le. lia. }
  assert (Exy : (vxy == sg sxy * (t * p2 U))%Q).
  { rewrite vxy_eq. unfold t. rewrite <- (Qmult_assoc (inject_Z P)), <- p2_plus. replace (exy - 2 * fsz F - U + U) with (exy - 2 * fsz F) by lia. reflexivity. }
  assert (Evz : (vz == sg sz * (inject_Z Zm * p2 N * p2 U))%Q).
  { rewrite vz_eq. rewrite <- (Qmult_assoc (inject_Z Zm)), <- p2_plus. replace (N + U) with (Ez - B - f) by (unfold U; rewrite Eb; unfold msz in *; lia). reflexivity. }
  assert (E4 : 2 ^ N = 4 * 2 ^ (N - 2)) by (change 4 with (2 ^ 2); rewrite <- Z.pow_add_r by lia; f_equal; lia).
  assert (E4q : (p2 N == 4 * p2 (N - 2))%Q) by (change 4%Q with (p2 2); rewrite <- p2_plus; replace (2 + (N - 2)) with N by lia; reflexivity).
  pose proof (pow2_pos (N - 2) ltac:(lia)) as PN. pose proof (Z.pow_le_mono_r 2 2 (o + 2) ltac:(lia) ltac:(lia)) as Po. change (2 ^ 2) with 4 in Po. pose proof (pow2_pos (2 * p + o) ltac:(lia)) as Ppo. pose proof (pow2_pos f ltac:(unfold msz in *; lia)) as Pf2.
  pose proof ZZb as HZZ. destruct (W_pow F G HF HG) as [W1 [W2 W3]].
  assert (Pf1 : 2 ^ (f + 1) = 2 * 2 ^ f) by apply (pf1 G HG).
  destruct (bool_dec sxy sz) as [Hs|Hs].
  - destruct (abs_add F G HF HG x y z sx sy sz Ex Mx Ey My Ez Mz Hx Hy Hz Hd Hs) as [EA ESg]. rewrite EZZ in EA, HZZ.
    set (V := PPn + Zm * 2 ^ N + 1) in *. set (w := (inject_Z Zm * p2 N + t)%Q).
    destruct (cell_open f (4 * Zm) (N - 2) V w ltac:(unfold msz in *; lia) ltac:(lia) ltac:(lia)) as [C1 [C2 C3]].
    + unfold V. rewrite E4. lia.
    + unfold w. rewrite (inject_Z_mult 4 Zm), E4q. change (inject_Z 4) with 4%Q. lra.
    + unfold w. rewrite (inject_Z_plus (4 * Zm) 1), (inject_Z_mult 4 Zm), E4q. change (inject_Z 4) with 4%Q. change (inject_Z 1) with 1%Q. lra.
    + apply (res_near F G HF HG x y z sx sy sz Ex Mx Ey My Ez Mz Hx Hy Hz Hd V w (vxy + vz) sxy k); auto.
      * unfold V. lia.
      * fold U. rewrite Exy, Evz, <- Hs. unfold w. ring.
  - change (differ sxy sz) in Hs. rewrite EZZ in HZZ. assert (T : 1 * 2 ^ N <= Zm * 2 ^ N) by (apply Z.mul_le_mono_nonneg_r; lia).
    assert (Hlt : PPn < Zm * 2 ^ N) by lia.
    destruct (abs_sub F G HF HG x y z sx sy sz Ex Mx Ey My Ez Mz Hx Hy Hz Hd Hs) as [_ A2]. rewrite EZZ in A2.
    destruct (A2 Hlt) as [EA ESg]. clear A2.
    set (V := Zm * 2 ^ N - PPn) in *. set (w := (inject_Z Zm * p2 N - t)%Q).
    destruct (cell_open f (4 * Zm - 1) (N - 2) V w ltac:(unfold msz in *; lia) ltac:(lia) ltac:(lia)) as [C1 [C2 C3]].
    + unfold V. rewrite E4. lia.
    + unfold w. replace (4 * Zm - 1) with (4 * Zm + - (1)) by lia. rewrite (inject_Z_plus (4 * Zm) (- (1))), (inject_Z_mult 4 Zm), E4q. change (inject_Z 4) with 4%Q. change (inject_Z (- (1))) with (-1)%Q. lra.
    + unfold w. replace (4 * Zm - 1 + 1) with (4 * Zm) by lia. rewrite (inject_Z_mult 4 Zm), E4q. change (inject_Z 4) with 4%Q. lra.
    + apply (res_near F G HF HG x y z sx sy sz Ex Mx Ey My Ez Mz Hx Hy Hz Hd V w (vxy + vz) sz k); auto.
      * unfold V. lia.
      * fold U. rewrite Exy, Evz. unfold w. unfold differ in Hs. destruct sx, sy, sz; cbn [xorb sg] in *; try congruence; ring.
Qed.

(* ---- the product branch: half of the sum with the product misplaced by m - 2p bits *)
Definition half_sum : Q := ((vxy * p2 (2 * p - m) + vz) * (1 # 2))%Q.
Local Notation U := (bs - W).
Lemma pb_eqs : 0 <= d -> U = exy - o - m - 1 /\ (vxy * p2 (2 * p - m) * (1 # 2) == sg sxy * (inject_Z PPn * p2 U))%Q /\
  (vz * (1 # 2) == sg sz * (inject_Z Zm * p2 (N - d) * p2 U))%Q.
Proof.
  intros H. pose proof (po2 F G HF HG) as [Hp Ho]. pose proof (N_eq F G) as EN. pose proof (W_eq F G) as EW. pose proof (m_ge F G) as [Hm1 Hm2].
  assert (Eb : bs = exy + o + 3) by (unfold base; destruct (Z.ltb_spec d 0); lia).
  assert (EU : U = exy - o - m - 1) by lia. split; [auto|]. split.
  - rewrite vxy_eq. unfold PP. rewrite (inject_Z_mult P), <- (p2_Z (o + 2)) by lia. change (1 # 2)%Q with (p2 (-1)).
    setoid_replace (sg sxy * (inject_Z P * p2 (exy - 2 * fsz F)) * p2 (2 * p - m) * p2 (-1))%Q with (sg sxy * (inject_Z P * (p2 (exy - 2 * fsz F) * p2 (2 * p - m) * p2 (-1))))%Q by ring.
    setoid_replace (inject_Z P * p2 (o + 2) * p2 U)%Q with (inject_Z P * (p2 (o + 2) * p2 U))%Q by ring.
    rewrite <- !p2_plus. replace (exy - 2 * fsz F + (2 * p - m) + -1) with (o + 2 + U) by (unfold msz in *; lia). reflexivity.
  - rewrite vz_eq. change (1 # 2)%Q with (p2 (-1)).
    setoid_replace (sg sz * (inject_Z Zm * p2 (Ez - B - f)) * p2 (-1))%Q with (sg sz * (inject_Z Zm * (p2 (Ez - B - f) * p2 (-1))))%Q by ring.
    setoid_replace (inject_Z Zm * p2 (N - d) * p2 U)%Q with (inject_Z Zm * (p2 (N - d) * p2 U))%Q by ring.
    rewrite <- !p2_plus. replace (Ez - B - f + -1) with (N - d + U) by (unfold ediff, msz in *; lia). reflexivity.
Qed.
Lemma half_eq : 0 <= d -> (half_sum == sg sxy * (inject_Z PPn * p2 U) + sg sz * (inject_Z Zm * p2 (N - d) * p2 U))%Q.
Proof. intros H. destruct (pb_eqs H) as [_ [E1 E2]]. unfold half_sum. rewrite <- E1, <- E2. ring. Qed.
Lemma tail_b : N <= d -> (0 < inject_Z Zm * p2 (N - d))%Q /\ (inject_Z Zm * p2 (N - d) < p2 (o + 2))%Q.
Proof.
  intros H. pose proof (po2 F G HF HG) as [Hp Ho]. pose proof Zb as HZ. pose proof (pow2_pos f ltac:(unfold msz in *; lia)) as Pf2. split.
  - apply Qmult_lt_0_compat; [apply inj_pos; lia|apply p2_pos].
  - apply Qlt_le_trans with (inject_Z (2 ^ o) * p2 (N - d))%Q; [apply Qmult_lt_r; [apply p2_pos|apply inj_lt; lia]|].
    rewrite <- p2_Z by lia. rewrite <- p2_plus. apply p2_le. lia.
Qed.
Lemma ZZ_in : 0 <= d <= N -> ZZn = Zm * 2 ^ (N - d) /\ (inject_Z ZZn == inject_Z Zm * p2 (N - d))%Q.
Proof.
  intros H. assert (E : ZZn = Zm * 2 ^ (N - d)). { unfold ZZ, dc. destruct (Z.ltb_spec d 0); [lia|]. destruct (Z.ltb_spec N d); [lia|auto]. }
  split; [auto|]. rewrite E, inject_Z_mult, <- p2_Z by lia. reflexivity.
Qed.
Lemma ZZ_out : N <= d -> ZZn = Zm.
Proof.
  pose proof (po2 F G HF HG) as [Hp Ho]. pose proof (N_eq F G) as EN. pose proof (m_ge F G) as [Hm1 Hm2].
  intros H. unfold ZZ, dc. destruct (Z.ltb_spec d 0); [lia|]. destruct (Z.ltb_spec N d).
  - replace (N - N) with 0 by lia. lia.
  - replace (N - d) with 0 by lia. lia.
Qed.
Local Notation wide := (o + 3 <= 2 * p).
Lemma P_wide : wide -> 2 ^ (f + 1) + 1 <= P.
Proof.
  intros H. pose proof Pb. pose proof (po2 F G HF HG) as [Hp Ho]. assert (2 ^ (f + 1 + 1) <= 2 ^ (2 * p - 2)) by (apply Z.pow_le_mono_r; unfold msz in *; lia).
  rewrite Z.pow_add_r in H1 by (unfold msz in *; lia). pose proof (pow2_pos (f + 1) ltac:(unfold msz in *; lia)). lia.
Qed.

(* magnitudes of the operands decide the comparison of the aligned ones *)
Lemma sub_branch : forall k, 0 <= d -> (d <= N \/ wide) -> sxy <> sz -> 1 - B <= k <= B ->
  (p2 k <= Qabs half_sum)%Q -> (Qabs half_sum < p2 k * (2 - p2 (- (f + 1))))%Q ->
  correctly_rounded G half_sum (mpfma F G x y z).
Proof.
  intros k H0 Hw Hs Hk L1 L2. pose proof (po2 F G HF HG) as [Hp Ho]. pose proof (N_eq F G) as EN. pose proof (W_eq F G) as EW. pose proof (m_ge F G) as [Hm1 Hm2].
  pose proof (p2_pos k) as Pk. pose proof (p2_pos (- (f + 1))) as Pf.
  assert (L3 : (Qabs half_sum < p2 (k + 1))%Q) by (rewrite p2_succ; nra).
  pose proof (half_eq H0) as HE. pose proof PPb as HPP. pose proof ZZb as HZZ. destruct (W_pow F G HF HG) as [W1 [W2 W3]].
  pose proof (pow2_pos (o + 2) ltac:(lia)) as Po.
  destruct (abs_sub F G HF HG x y z sx sy sz Ex Mx Ey My Ez Mz Hx Hy Hz Hd Hs) as [A1 A2].
  assert (Sg : (sg sz == - sg sxy)%Q) by (destruct sx, sy, sz; cbn [xorb sg] in *; try congruence; reflexivity).
  change (differ sxy sz) in Hs.
  destruct (Z.le_gt_cases d N) as [HN|HN].
  - destruct (ZZ_in (conj H0 HN)) as [_ EZ]. rewrite <- EZ in HE.
    destruct (Z.le_gt_cases ZZn PPn) as [HC|HC].
    + destruct (A1 HC) as [EA ESg].
      assert (HV : PPn - ZZn <> 0).
      { intros E. assert (E' : PPn = ZZn) by lia. rewrite E', Sg in HE.
        assert (HE0 : (half_sum == 0)%Q) by (rewrite HE; ring). rewrite HE0 in L1. change (Qabs 0) with 0%Q in L1. lra. }
      set (V := PPn - ZZn) in *. destruct (log2_binade V 0 ltac:(unfold V in *; lia)) as [C1 C2]. rewrite p2_0, Qmult_1_r in C1, C2. rewrite Z.add_0_r in C1, C2.
      apply (res_near F G HF HG x y z sx sy sz Ex Mx Ey My Ez Mz Hx Hy Hz Hd V (inject_Z V) half_sum sxy k); auto.
      * unfold V in *. lia.
      * rewrite HE, Sg. unfold V, Z.sub. rewrite inject_Z_plus, inject_Z_opp. ring.
    + destruct (A2 HC) as [EA ESg].
      set (V := ZZn - PPn) in *. destruct (log2_binade V 0 ltac:(unfold V in *; lia)) as [C1 C2]. rewrite p2_0, Qmult_1_r in C1, C2. rewrite Z.add_0_r in C1, C2.
      apply (res_near F G HF HG x y z sx sy sz Ex Mx Ey My Ez Mz Hx Hy Hz Hd V (inject_Z V) half_sum sz k); auto.
      * unfold V in *. pose proof (pow2_pos (2 * p + o) ltac:(lia)). lia.
      * rewrite HE, Sg. unfold V, Z.sub. rewrite inject_Z_plus, inject_Z_opp. ring.
  - destruct Hw as [Hw|Hw]; [lia|]. pose proof (P_wide Hw) as HPw. pose proof Zb as HZ. destruct (tail_b ltac:(lia)) as [T0 T1].
    clear A2. rewrite (ZZ_out ltac:(lia)) in HZZ. pose proof (ZZ_out ltac:(lia)) as EZO. rewrite EZO in A1. revert A1. set (t := (inject_Z Zm * p2 (N - d))%Q) in *.
    assert (P4 : 2 ^ (o + 2) = 4 * 2 ^ o) by (rewrite Z.pow_add_r by lia; lia).
    assert (T4 : 1 * 2 ^ (o + 2) <= PPn) by (unfold PP; apply Z.mul_le_mono_nonneg_r; pose proof (pow2_pos (f + 1) ltac:(unfold msz in *; lia)); lia).
    assert (HC : Zm <= PPn) by lia. intros A1.
    destruct (A1 HC) as [EA ESg]. clear A1. set (V := PPn - Zm) in *. set (w := (inject_Z PPn - t)%Q).
    pose proof (pow2_pos f ltac:(unfold msz in *; lia)) as Pf2.
    destruct (cell_open f (P - 1) (o + 2) V w ltac:(unfold msz in *; lia) ltac:(lia) ltac:(lia)) as [C1 [C2 C3]].
    + unfold V, PP. lia.
    + unfold w, PP. rewrite (inject_Z_mult P (2 ^ (o + 2))), <- (p2_Z (o + 2)) by lia. replace (P - 1) with (P + - (1)) by lia. rewrite (inject_Z_plus P (- (1))). change (inject_Z (- (1))) with (-1)%Q. lra.
    + unfold w, PP. rewrite (inject_Z_mult P (2 ^ (o + 2))), <- (p2_Z (o + 2)) by lia. replace (P - 1 + 1) with P by lia. lra.
    + apply (res_near F G HF HG x y z sx sy sz Ex Mx Ey My Ez Mz Hx Hy Hz Hd V w half_sum sxy k); auto.
      * unfold V in *. lia.
      * rewrite HE, Sg. unfold w. ring.
Qed.
Lemma add_branch_val : 0 <= d -> (d < N \/ wide) -> sxy = sz ->
  exists V w, mp_add_abs F G x y z = V /\ 0 < V < 2 ^ (W + 1) /\ mp_sign F G x y z = sxy /\
    (half_sum == sg sxy * (w * p2 U))%Q /\ (p2 (Z.log2 V) <= w)%Q /\ (w < p2 (Z.log2 V + 1))%Q /\
    qrne (inject_Z V * p2 (f - Z.log2 V)) = Qfloor (w * p2 (f - Z.log2 V) + (1 # 2)).
Proof.
  intros H0 Hw Hs. pose proof (po2 F G HF HG) as [Hp Ho]. pose proof (N_eq F G) as EN. pose proof (W_eq F G) as EW. pose proof (m_ge F G) as [Hm1 Hm2].
  pose proof (half_eq H0) as HE. rewrite <- Hs in HE. pose proof PPb as HPP. pose proof ZZb as HZZ. destruct (W_pow F G HF HG) as [W1 [W2 W3]].
  pose proof (pow2_pos (o + 2) ltac:(lia)) as Po. pose proof (pow2_pos (2 * p + o) ltac:(lia)) as Ppo. pose proof (pow2_pos f ltac:(unfold msz in *; lia)) as Pf2.
  destruct (abs_add F G HF HG x y z sx sy sz Ex Mx Ey My Ez Mz Hx Hy Hz Hd Hs) as [EA ESg].
  exists (PPn + ZZn + 1).
  destruct (Z.lt_ge_cases d N) as [HN|HN].
  - destruct (ZZ_in ltac:(lia)) as [EZ1 EZ]. rewrite <- EZ in HE. exists (inject_Z (PPn + ZZn)).
    assert (Ev : exists a, PPn + ZZn = 2 * a).
    { exists (P * 2 ^ (o + 1) + Zm * 2 ^ (N - d - 1)). rewrite EZ1. unfold PP.
      replace (o + 2) with (Z.succ (o + 1)) by lia. replace (N - d) with (Z.succ (N - d - 1)) at 1 by lia. rewrite !Z.pow_succ_r by lia. ring. }
    destruct Ev as [a Ea].
    assert (Ha : 2 ^ (f + 1) <= a).
    { assert (2 * 2 ^ (f + 1) <= 2 ^ (2 * p + o)); [|lia]. rewrite <- Z.pow_succ_r by (unfold msz in *; lia). apply Z.pow_le_mono_r; unfold msz in *; lia. }
    destruct (cell_up f a 1 (PPn + ZZn + 1) (inject_Z (PPn + ZZn)) ltac:(unfold msz in *; lia) Ha ltac:(lia)) as [C1 [C2 C3]].
    + rewrite Ea. change (2 ^ 1) with 2. lia.
    + rewrite Ea, inject_Z_mult. change (inject_Z 2) with 2%Q. change (p2 1) with 2%Q. lra.
    + rewrite Ea, inject_Z_plus, inject_Z_mult. change (inject_Z 2) with 2%Q. change (inject_Z 1) with 1%Q. change (p2 1) with 2%Q. lra.
    + split; [auto|]. split; [lia|]. split; [auto|]. split; [|split; [auto|split; auto]]. rewrite HE, inject_Z_plus. ring.
  - destruct Hw as [Hw|Hw]; [lia|]. pose proof (P_wide Hw) as HPw. pose proof Zb as HZ. destruct (tail_b HN) as [T0 T1].
    rewrite (ZZ_out HN) in *. set (t := (inject_Z Zm * p2 (N - d))%Q) in *. exists (inject_Z PPn + t)%Q.
    assert (P4 : 2 ^ (o + 2) = 4 * 2 ^ o) by (rewrite Z.pow_add_r by lia; lia).
    destruct (cell_up f P (o + 2) (PPn + Zm + 1) (inject_Z PPn + t)%Q ltac:(unfold msz in *; lia) ltac:(lia) ltac:(lia)) as [C1 [C2 C3]].
    + unfold PP. lia.
    + unfold PP. rewrite (inject_Z_mult P (2 ^ (o + 2))), <- (p2_Z (o + 2)) by lia. lra.
    + unfold PP. rewrite (inject_Z_mult P (2 ^ (o + 2))), <- (p2_Z (o + 2)) by lia. rewrite (inject_Z_plus P 1). change (inject_Z 1) with 1%Q. lra.
    + split; [auto|]. split; [lia|]. split; [auto|]. split; [|split; [auto|split; auto]]. rewrite HE. ring.
Qed.
Lemma add_branch : forall k, 0 <= d -> (d < N \/ wide) -> sxy = sz -> 1 - B <= k <= B ->
  (p2 k <= Qabs half_sum)%Q -> (Qabs half_sum < p2 k * (2 - p2 (- (f + 1))))%Q ->
  rounded_away G half_sum (mpfma F G x y z).
Proof.
  intros k H0 Hw Hs Hk L1 L2. pose proof (p2_pos k) as Pk. pose proof (p2_pos (- (f + 1))) as Pf.
  assert (L3 : (Qabs half_sum < p2 (k + 1))%Q) by (rewrite p2_succ; nra).
  destruct (add_branch_val H0 Hw Hs) as [V [w [EA [HV [ESg [HE [C1 [C2 C3]]]]]]]].
  apply (res_away F G HF HG x y z sx sy sz Ex Mx Ey My Ez Mz Hx Hy Hz Hd V w half_sum sxy k); auto.
Qed.
End E.
