(* Lowering of fixed-point operations: theorems.
   fx_is F v k (FixedSpec): the number v of format F has integer k.
   safe Fi Fo k (LowerProofs): the formats are equal, or both have a C type, the
   shift is smaller than the wider type, the output is not an unsigned type of
   128 bits, and k is not negative, or not shifted right, or the output type is
   so narrow that the bits inserted by the logical shift are dropped. *)
From Coq Require Import ZArith QArith Qround Qabs Bool List Lia Lqa.
From Verif Require Import QUtil FpFormatModel FpFormatProofs FixedModel FixedSpec FixedProps IndexModel IndexProps RemquoProofs LowerModel LowerProofs.
Import ListNotations.
Open Scope Z_scope.

Definition FS (i f : Z) := Build_fxfmt i f true.
Definition FU (i f : Z) := Build_fxfmt i f false.

Lemma support_ex : forall F, 1 <= isz F + frsz F <= 128 -> exists S, std_support F = Some S.
Proof.
  intros F H. unfold std_support. destruct (fx_c_bit_size_minimal F) as [_ [_ B]]. destruct (B H) as [n ->]. eauto.
Qed.
Lemma conv_is : forall Fi Fo v k r, fx_is Fi v k -> rounded_down Fo v r -> fits Fo r -> safe Fi Fo k -> conv Fi Fo k = Val r.
Proof.
  intros Fi Fo v k r [HB Hv] HR HF HS. apply (fl_spec Fo v k (frsz Fi) r Hv) in HR.
  destruct (fx_eqb Fi Fo) eqn:E.
  - unfold conv. rewrite E. apply fx_eqb_eq in E. rewrite HR, <- E, Z.sub_diag, fl_0. reflexivity.
  - assert (NE : Fi <> Fo) by (intros X; apply fx_eqb_eq in X; congruence).
    destruct (safe_support _ _ _ NE HS) as [Si [So [A _]]]. rewrite HR in *. apply (conv_fits Fi Fo Si); auto. now apply (fits_support Fi).
Qed.

(* ---- conversion *)
Theorem conversion_correct_partial : forall Fi Fo v k r, fx_is Fi v k -> rounded_down Fo v r -> fits Fo r -> safe Fi Fo k ->
  conv Fi Fo k = Val r.
Proof. exact conv_is. Qed.
(* 5.3125 -> 5.25 ; -17 - 1/2 from 48 to 16 bits *)
Example conversion_correct_case : conv (FS 4 4) (FU 6 2) 85 = Val 21 /\ conv (FS 8 40) (FS 8 8) (-35 * 2 ^ 39) = Val (-4480) /\
  safe (FS 8 40) (FS 8 8) (-35 * 2 ^ 39).
Proof.
  split; [|split]; try reflexivity. right. exists 64, 16. split; [reflexivity|]. split; [reflexivity|]. split; [cbn; lia|]. split; [now left|]. right. right. cbn. lia.
Qed.

(* a negative number that loses bits is shifted logically: the result is not
   negative *)
Theorem conversion_negative_refuted : forall Fi Fo v k r ni no, fx_is Fi v k -> rounded_down Fo v r -> fits Fo r ->
  k < 0 -> frsz Fo < frsz Fi -> fx_c_bit_size Fi = Some ni -> fx_c_bit_size Fo = Some no ->
  frsz Fi - frsz Fo < Z.max 32 (Z.max ni no) -> ni < no + (frsz Fi - frsz Fo) ->
  r < 0 /\ exists r', conv Fi Fo k = Val r' /\ 0 <= r'.
Proof.
  intros Fi Fo v k r ni no [HB Hv] HR HF K0 HL HI HO HW HN. apply (fl_spec Fo v k (frsz Fi) r Hv) in HR.
  assert (R0 : r < 0).
  { rewrite HR. unfold fl. replace (0 <=? frsz Fo - frsz Fi) with false by (symmetry; apply Z.leb_gt; lia). apply Z.div_lt_upper_bound; [apply p_pos; lia|lia]. }
  split; auto.
  assert (G : sgn Fo = true). { destruct HF as [A _]. unfold fx_lo in A. destruct (sgn Fo); auto. lia. }
  assert (EI : std_support Fi = Some (mkS ni (sgn Fi))) by (unfold std_support; now rewrite HI).
  assert (EO : std_support Fo = Some (mkS no (sgn Fo))) by (unfold std_support; now rewrite HO).
  destruct (support_facts _ _ EI) as [PI _]. destruct (support_facts _ _ EO) as [PO _]. cbn [sbits] in PI, PO.
  unfold conv. rewrite EI, EO. rewrite G.
  replace (fx_eqb Fi Fo) with false by (symmetry; apply not_true_iff_false; rewrite fx_eqb_eq; intros X; rewrite X in HL; lia).
  cbn [sbits]. set (d := frsz Fi - frsz Fo) in *. replace (frsz Fo - frsz Fi) with (- d) by lia.
  assert (SM : forall n m z, 1 <= n -> 1 <= m -> n - d < m -> exists w, wrap (mkS m true) ((z mod 2 ^ n) / 2 ^ d) = w /\ w = (z mod 2 ^ n) / 2 ^ d /\ 0 <= w < 2 ^ Z.max 0 (n - d)).
  { intros n m z H1 H2 H3. eexists. split; [reflexivity|]. pose proof (Z.mod_pos_bound z (2 ^ n) (p_pos n ltac:(lia))) as MB.
    assert (0 <= (z mod 2 ^ n) / 2 ^ d < 2 ^ Z.max 0 (n - d)).
    { split; [apply Z.div_pos; [lia|apply p_pos; lia]|]. apply Z.div_lt_upper_bound; [apply p_pos; lia|]. rewrite <- Z.pow_add_r by lia.
      eapply Z.lt_le_trans; [apply MB|]. apply Z.pow_le_mono_r; lia. }
    assert (2 ^ Z.max 0 (n - d) <= 2 ^ (m - 1)) by (apply Z.pow_le_mono_r; lia).
    rewrite wrap_small; auto. unfold s_lo, s_hi. cbn [ssgn sbits]. lia. }
  assert (AL : forall T x, sbits T = Z.max ni no -> align T x (- d) = Val (wrap T ((x mod 2 ^ sbits T) / 2 ^ d))).
  { intros T x HT. unfold align. replace (0 <? - d) with false by (symmetry; apply Z.ltb_ge; lia). replace (- d <? 0) with true by (symmetry; apply Z.ltb_lt; lia).
    unfold c_lshr. rewrite promoted_bits, HT, Z.opp_involutive. replace (d <? Z.max 32 (Z.max ni no)) with true by (symmetry; apply Z.ltb_lt; lia). reflexivity. }
  unfold mask_out. rewrite G. cbn [negb].
  destruct (Z.leb_spec ni no) as [L|L].
  - rewrite AL by (cbn [sbits]; lia). cbn [cbind sbits]. destruct (SM no no (wrap (mkS no true) k)) as [w [E1 [E2 E3]]]; try lia. rewrite E1. eexists. split; [reflexivity|]. lia.
  - rewrite AL by (cbn [sbits]; lia). cbn [cbind sbits]. destruct (SM ni no k) as [w [E1 [E2 E3]]]; try lia.
    rewrite wrap_wrap by (cbn [sbits]; lia). rewrite E1. eexists. split; [reflexivity|]. lia.
Qed.
(* -17/16 from FS4.4 to FS6.2 gives 59/4 *)
Example conversion_negative_case : fx_is (FS 4 4) (-17 # 16) (-17) /\ rounded_down (FS 6 2) (-17 # 16) (-5) /\ fits (FS 6 2) (-5) /\
  conv (FS 4 4) (FS 6 2) (-17) = Val 59.
Proof.
  split; [split; [cbn; lia|reflexivity]|]. split; [split; unfold Qle, Qlt; cbn; lia|]. split; [split; cbn; lia|reflexivity].
Qed.

(* conversions to unsigned formats of more than 64 bits have no C code *)
Theorem conversion_uint128_refuted : forall Fi Fo k r, Fi <> Fo -> sgn Fo = false -> 64 < isz Fo + frsz Fo -> conv Fi Fo k <> Val r.
Proof.
  intros Fi Fo k r NE G HB C. unfold conv in C.
  replace (fx_eqb Fi Fo) with false in C by (symmetry; apply not_true_iff_false; rewrite fx_eqb_eq; auto).
  destruct (std_support Fi) as [Si|]; [|discriminate]. destruct (std_support Fo) as [So|] eqn:EO; [|discriminate].
  destruct (support_facts _ _ EO) as [PO [SO [IN _]]]. assert (E : sbits So = 128) by (cbn [In] in IN; lia).
  assert (M : forall x, mask_out Fo So x = Rejected).
  { intros x. unfold mask_out, c_and. rewrite G, E, SO, G. reflexivity. }
  destruct (sbits Si <=? sbits So).
  - destruct (align So (wrap So k) (frsz Fo - frsz Fi)); cbn [cbind] in C; [rewrite M in C|..]; discriminate.
  - destruct (align Si k (frsz Fo - frsz Fi)); cbn [cbind] in C; [rewrite M in C|..]; discriminate.
Qed.
Example conversion_uint128_case : conv (FU 8 0) (FU 8 60) 1 = Rejected. Proof. reflexivity. Qed.

(* ---- addition and subtraction *)
Lemma fl_add : forall k0 k1 f0 f1 ft, f0 <= ft ->
  fl (k0 * 2 ^ (Z.max f0 f1 - f0) + k1 * 2 ^ (Z.max f0 f1 - f1)) (ft - Z.max f0 f1) = fl k0 (ft - f0) + fl k1 (ft - f1).
Proof.
  intros k0 k1 f0 f1 ft H. unfold fl. replace (0 <=? ft - f0) with true by (symmetry; apply Z.leb_le; lia).
  destruct (Z.max_spec f0 f1) as [[L ->]|[L ->]]; rewrite ?Z.sub_diag.
  - change (2 ^ 0) with 1. rewrite Z.mul_1_r. destruct (Z.leb_spec 0 (ft - f1)) as [A|A].
    + rewrite Z.mul_add_distr_r, <- Z.mul_assoc, <- Z.pow_add_r by lia. replace (f1 - f0 + (ft - f1)) with (ft - f0) by lia. reflexivity.
    + replace (f1 - f0) with ((ft - f0) + - (ft - f1)) by lia. rewrite Z.pow_add_r, Z.mul_assoc by lia. apply Z.div_add_l. pose proof (p_pos (- (ft - f1))). lia.
  - change (2 ^ 0) with 1. rewrite Z.mul_1_r. replace (0 <=? ft - f0) with true by (symmetry; apply Z.leb_le; lia). replace (0 <=? ft - f1) with true by (symmetry; apply Z.leb_le; lia).
    rewrite Z.mul_add_distr_r, <- (Z.mul_assoc k1), <- Z.pow_add_r by lia. replace (f0 - f1 + (ft - f0)) with (ft - f1) by lia. reflexivity.
Qed.
Lemma sum_value : forall k0 k1 f0 f1 v0 v1, (v0 == inject_Z k0 * p2 (- f0))%Q -> (v1 == inject_Z k1 * p2 (- f1))%Q ->
  (v0 + v1 == inject_Z (k0 * 2 ^ (Z.max f0 f1 - f0) + k1 * 2 ^ (Z.max f0 f1 - f1)) * p2 (- Z.max f0 f1))%Q.
Proof.
  intros k0 k1 f0 f1 v0 v1 H0 H1. rewrite H0, H1, inject_Z_plus, !inject_Z_mult. rewrite <- (p2_Z (Z.max f0 f1 - f0)), <- (p2_Z (Z.max f0 f1 - f1)) by lia.
  rewrite Qmult_plus_distr_l, <- !Qmult_assoc, <- !p2_plus. replace (Z.max f0 f1 - f0 + - Z.max f0 f1) with (- f0) by lia. replace (Z.max f0 f1 - f1 + - Z.max f0 f1) with (- f1) by lia. reflexivity.
Qed.

(* the temporary format holds whatever the output holds, plus more fraction bits *)
Lemma fits_widen : forall i f d s z, 1 <= i + f -> 0 <= d -> fits (Build_fxfmt i f s) (fl z (- d)) -> fits (Build_fxfmt i (f + d) s) z.
Proof.
  intros i f d s z HB HD [A B]. unfold fits, fx_lo, fx_hi in *. cbn [isz frsz sgn] in *. pose proof (p_pos d HD) as P.
  assert (E : fl z (- d) = z / 2 ^ d).
  { unfold fl. destruct (Z.leb_spec 0 (- d)); [|now rewrite Z.opp_involutive]. replace d with 0 by lia. change (2 ^ - 0) with 1. change (2 ^ 0) with 1. rewrite Z.div_1_r. lia. }
  rewrite E in A, B. pose proof (Z.mul_div_le z (2 ^ d) P). pose proof (Z.mod_pos_bound z (2 ^ d) P). pose proof (Z.div_mod z (2 ^ d)).
  replace (i + (f + d)) with (i + f + d) by lia. rewrite (Z.pow_add_r 2 (i + f) d) by lia.
  replace (i + f + d - 1) with (i + f - 1 + d) by lia. rewrite (Z.pow_add_r 2 (i + f - 1) d) by lia. pose proof (p_pos (i + f)). pose proof (p_pos (i + f - 1)). destruct s; nia.
Qed.

Lemma fixed_ok : forall (op : Z -> Z -> Z) F0 F1 Fo v0 v1 k0 k1 x y z r,
  let tmp := Build_fxfmt (isz Fo) (Z.max (Z.min (frsz F0) (frsz F1)) (frsz Fo)) (sgn Fo) in
  fx_is F0 v0 k0 -> fx_is F1 v1 k1 -> 1 <= isz Fo + frsz Fo -> isz tmp + frsz tmp <= 128 ->
  rounded_down tmp v0 x -> fits tmp x -> rounded_down tmp v1 y -> fits tmp y ->
  safe F0 tmp k0 -> safe F1 tmp k1 -> safe tmp Fo r -> z = op x y -> r = fl z (frsz Fo - frsz tmp) -> fits Fo r ->
  fixed_modifier op F0 F1 Fo k0 k1 = Val r.
Proof.
  intros op F0 F1 Fo v0 v1 k0 k1 x y z r tmp H0 H1 HB HT Rx Fx Ry Fy S0 S1 S2 Ez Er Fr.
  unfold fixed_modifier. change (tmp_fixed F0 F1 Fo) with tmp.
  assert (HD : 0 <= frsz tmp - frsz Fo) by (unfold tmp; cbn [frsz]; lia).
  assert (HI : isz tmp = isz Fo) by reflexivity.
  destruct (support_ex tmp) as [T HS]; [lia|]. rewrite HS. destruct (support_facts tmp T HS) as [P _].
  rewrite (conv_is F0 tmp v0 k0 x) by auto. cbn [cbind]. rewrite (conv_is F1 tmp v1 k1 y) by auto. cbn [cbind].
  rewrite <- Ez.
  assert (Fz : fits tmp z).
  { assert (ETM : tmp = Build_fxfmt (isz Fo) (frsz Fo + (frsz tmp - frsz Fo)) (sgn Fo)) by (transitivity (Build_fxfmt (isz Fo) (frsz tmp) (sgn Fo)); [reflexivity|f_equal; lia]).
    apply (eq_ind_r (fun G => fits G z) (x := Build_fxfmt (isz Fo) (frsz Fo + (frsz tmp - frsz Fo)) (sgn Fo))); [|exact ETM].
    apply fits_widen; auto. replace (- (frsz tmp - frsz Fo)) with (frsz Fo - frsz tmp) by lia. rewrite <- Er. destruct Fo; exact Fr. }
  pose proof (fits_support tmp T z HS Fz) as Bz.
  rewrite (arith_ok T z) by (auto; lia). cbn [cbind].
  rewrite (conv_fits tmp Fo T z HS Bz); [now rewrite <- Er| |now rewrite <- Er].
  destruct S2 as [S2|[ni [no [A [B [D1 [D2 D3]]]]]]]; [now left|]. right. exists ni, no. split; auto. split; auto. split; auto. split; auto.
  destruct D3 as [D3|D3]; auto. left. rewrite Er in D3. unfold fl in D3. destruct (Z.leb_spec 0 (frsz Fo - frsz tmp)) as [L|L].
  - replace (frsz Fo - frsz tmp) with 0 in D3 by lia. change (2 ^ 0) with 1 in D3. lia.
  - pose proof (p_pos (- (frsz Fo - frsz tmp))) as Q. pose proof (Z.mul_div_le z (2 ^ - (frsz Fo - frsz tmp))). nia.
Qed.

(* the operands converted to the working format fit in it, and the sum fits in
   the output format *)
Theorem addition_correct_partial : forall F0 F1 Fo v0 v1 k0 k1 x y r,
  let tmp := Build_fxfmt (isz Fo) (Z.max (Z.min (frsz F0) (frsz F1)) (frsz Fo)) (sgn Fo) in
  fx_is F0 v0 k0 -> fx_is F1 v1 k1 -> 1 <= isz Fo + frsz Fo -> isz tmp + frsz tmp <= 128 ->
  rounded_down tmp v0 x -> fits tmp x -> rounded_down tmp v1 y -> fits tmp y ->
  safe F0 tmp k0 -> safe F1 tmp k1 -> safe tmp Fo r ->
  rounded_down Fo (v0 + v1) r -> fits Fo r ->
  add_modifier F0 F1 Fo k0 k1 = Val r.
Proof.
  intros F0 F1 Fo v0 v1 k0 k1 x y r tmp H0 H1 HB HT Rx Fx Ry Fy S0 S1 S2 Rr Fr.
  apply (fixed_ok Z.add F0 F1 Fo v0 v1 k0 k1 x y (x + y) r); auto.
  fold tmp. destruct H0 as [_ V0], H1 as [_ V1].
  apply (fl_spec tmp v0 k0 (frsz F0) x V0) in Rx. apply (fl_spec tmp v1 k1 (frsz F1) y V1) in Ry.
  apply (fl_spec Fo _ _ _ r (sum_value _ _ _ _ _ _ V0 V1)) in Rr. rewrite Rr, Rx, Ry.
  assert (HD : frsz Fo <= frsz tmp) by (unfold tmp; cbn [frsz]; lia).
  destruct (Z_le_gt_dec (frsz F0) (frsz tmp)) as [L|L].
  - rewrite <- fl_add by auto. rewrite fl_fl by lia. f_equal. lia.
  - assert (frsz F1 <= frsz tmp) by (unfold tmp in *; cbn [frsz] in *; lia). rewrite (Z.add_comm (fl k0 _)). rewrite <- fl_add by auto. rewrite fl_fl by lia.
    rewrite (Z.max_comm (frsz F1)), (Z.add_comm (k1 * _)). f_equal. lia.
Qed.
(* 2.75 + 1.125 -> 3.5 *)
Example addition_correct_case : add_modifier (FU 3 2) (FU 2 3) (FU 3 1) 11 9 = Val 7 /\ fits (FU 3 1) 7 /\
  safe (FU 3 2) (FU 3 2) 11 /\ safe (FU 2 3) (FU 3 2) 9 /\ safe (FU 3 2) (FU 3 1) 7.
Proof.
  split; [reflexivity|]. split; [split; cbn; lia|]. split; [now left|]. split; right; exists 8, 8; (split; [reflexivity|]; split; [reflexivity|]; split; [cbn; lia|]; split; [right; lia|left; lia]).
Qed.

(* subtraction: moreover the second operand is not truncated *)
Theorem subtraction_correct_partial : forall F0 F1 Fo v0 v1 k0 k1 x y r,
  let tmp := Build_fxfmt (isz Fo) (Z.max (Z.min (frsz F0) (frsz F1)) (frsz Fo)) (sgn Fo) in
  fx_is F0 v0 k0 -> fx_is F1 v1 k1 -> 1 <= isz Fo + frsz Fo -> isz tmp + frsz tmp <= 128 ->
  rounded_down tmp v0 x -> fits tmp x -> rounded_down tmp v1 y -> fits tmp y ->
  safe F0 tmp k0 -> safe F1 tmp k1 -> safe tmp Fo r -> frsz F1 <= frsz tmp ->
  rounded_down Fo (v0 - v1) r -> fits Fo r ->
  sub_modifier F0 F1 Fo k0 k1 = Val r.
Proof.
  intros F0 F1 Fo v0 v1 k0 k1 x y r tmp H0 H1 HB HT Rx Fx Ry Fy S0 S1 S2 L Rr Fr.
  apply (fixed_ok Z.sub F0 F1 Fo v0 v1 k0 k1 x y (x - y) r); auto.
  fold tmp. destruct H0 as [_ V0], H1 as [_ V1].
  apply (fl_spec tmp v0 k0 (frsz F0) x V0) in Rx. apply (fl_spec tmp v1 k1 (frsz F1) y V1) in Ry.
  assert (V1' : (- v1 == inject_Z (- k1) * p2 (- frsz F1))%Q) by (rewrite V1, inject_Z_opp; ring).
  apply (fl_spec Fo (v0 - v1) _ _ r (sum_value _ _ _ _ _ _ V0 V1')) in Rr. rewrite Rr, Rx, Ry.
  assert (HD : frsz Fo <= frsz tmp) by (unfold tmp; cbn [frsz]; lia).
  assert (EN : - fl k1 (frsz tmp - frsz F1) = fl (- k1) (frsz tmp - frsz F1)).
  { unfold fl. replace (0 <=? frsz tmp - frsz F1) with true by (symmetry; apply Z.leb_le; lia). ring. }
  replace (fl k0 (frsz tmp - frsz F0) - fl k1 (frsz tmp - frsz F1)) with (fl (- k1) (frsz tmp - frsz F1) + fl k0 (frsz tmp - frsz F0)) by lia. rewrite <- fl_add by auto. rewrite fl_fl by lia.
  rewrite (Z.max_comm (frsz F1)), (Z.add_comm (- k1 * _)). f_equal. lia.
Qed.
(* 2.75 - 1.125 -> 1.5 *)
Example subtraction_correct_case : sub_modifier (FU 3 3) (FU 2 3) (FU 3 1) 22 9 = Val 3. Proof. reflexivity. Qed.

(* a truncated second operand makes the difference one unit too large *)
Theorem subtraction_rounding_refuted : forall F0 F1 Fo v0 v1 k0 k1 x y r,
  let tmp := Build_fxfmt (isz Fo) (Z.max (Z.min (frsz F0) (frsz F1)) (frsz Fo)) (sgn Fo) in
  fx_is F0 v0 k0 -> fx_is F1 v1 k1 -> 1 <= isz Fo + frsz Fo <= 128 ->
  frsz F0 <= frsz Fo < frsz F1 -> k1 mod 2 ^ (frsz F1 - frsz Fo) <> 0 ->
  rounded_down tmp v0 x -> fits tmp x -> rounded_down tmp v1 y -> fits tmp y ->
  safe F0 tmp k0 -> safe F1 tmp k1 ->
  rounded_down Fo (v0 - v1) r -> fits Fo r -> fits Fo (r + 1) ->
  sub_modifier F0 F1 Fo k0 k1 = Val (r + 1).
Proof.
  intros F0 F1 Fo v0 v1 k0 k1 x y r tmp H0 H1 HB L HM Rx Fx Ry Fy S0 S1 Rr Fr Fr1.
  assert (ET : tmp = Fo) by (unfold tmp; rewrite Z.max_r by lia; destruct Fo; reflexivity).
  apply (fixed_ok Z.sub F0 F1 Fo v0 v1 k0 k1 x y (x - y) (r + 1)); auto; fold tmp.
  - lia.
  - rewrite ET. lia.
  - left. auto.
  - destruct H0 as [_ V0], H1 as [_ V1].
    apply (fl_spec tmp v0 k0 (frsz F0) x V0) in Rx. apply (fl_spec tmp v1 k1 (frsz F1) y V1) in Ry.
    assert (V1' : (- v1 == inject_Z (- k1) * p2 (- frsz F1))%Q) by (rewrite V1, inject_Z_opp; ring).
    apply (fl_spec Fo (v0 - v1) _ _ r (sum_value _ _ _ _ _ _ V0 V1')) in Rr.
    rewrite fl_add in Rr by lia. rewrite ET in *. rewrite Z.sub_diag, fl_0, Rr, Rx, Ry.
    unfold fl. replace (0 <=? frsz Fo - frsz F1) with false by (symmetry; apply Z.leb_gt; lia). replace (- (frsz Fo - frsz F1)) with (frsz F1 - frsz Fo) by lia.
    rewrite Z.div_opp_l_nz by (auto; pose proof (p_pos (frsz F1 - frsz Fo)); lia). ring.
Qed.
(* 5 - 1.5 -> 4 *)
Example subtraction_rounding_case : sub_modifier (FU 8 0) (FU 8 4) (FU 8 0) 5 24 = Val 4 /\ rounded_down (FU 8 0) (5 - (3 # 2)) 3.
Proof. split; [reflexivity|]. split; unfold Qle, Qlt; cbn; lia. Qed.

(* an unsigned sum with a negative operand keeps a carry: the C variable holds
   2^b more than the integer of the result *)
Theorem addition_unsigned_refuted : forall F0 F1 Fo v0 v1 k0 k1 n, fx_is F0 v0 k0 -> fx_is F1 v1 k1 ->
  frsz F0 = frsz Fo -> frsz F1 = frsz Fo -> sgn Fo = false -> fx_c_bit_size Fo = Some n -> isz Fo + frsz Fo < n < 128 ->
  (exists n0, fx_c_bit_size F0 = Some n0) -> (exists n1, fx_c_bit_size F1 = Some n1) ->
  - 2 ^ (isz Fo + frsz Fo) <= k0 < 0 -> 0 <= k1 < 2 ^ (isz Fo + frsz Fo) -> fits Fo (k0 + k1) ->
  fx_is Fo (v0 + v1) (k0 + k1) /\ add_modifier F0 F1 Fo k0 k1 = Val (k0 + k1 + 2 ^ (isz Fo + frsz Fo)).
Proof.
  intros F0 F1 Fo v0 v1 k0 k1 n [B0 V0] [B1 V1] E0 E1 G HN HB [n0 N0] [n1 N1] R0 R1 Fr.
  split; [split; auto; rewrite V0, V1, E0, E1, inject_Z_plus; ring|].
  assert (ET : tmp_fixed F0 F1 Fo = Fo) by (unfold tmp_fixed; rewrite E0, E1, Z.min_id, Z.max_id; destruct Fo; reflexivity).
  unfold add_modifier, fixed_modifier. rewrite ET.
  assert (EO : std_support Fo = Some (mkS n false)) by (unfold std_support; rewrite HN, G; reflexivity). rewrite EO.
  set (b := isz Fo + frsz Fo) in *. pose proof (support_facts _ _ EO) as [PO _]. fold b in PO. cbn [sbits] in PO.
  assert (Pb : 0 < 2 ^ b) by (apply p_pos; lia).
  assert (CV : forall F k m, fx_c_bit_size F = Some m -> frsz F = frsz Fo -> fx_lo F <= k <= fx_hi F -> F <> Fo -> conv F Fo k = Val (k mod 2 ^ b)).
  { intros F k m Hm Ef Hk NE. assert (ES : std_support F = Some (mkS m (sgn F))) by (unfold std_support; now rewrite Hm).
    rewrite (conv_exact F Fo _ _ k ES EO NE).
    - rewrite G. rewrite Ef, Z.sub_diag, fl_0. reflexivity.
    - apply (fits_support F); auto.
    - split; [rewrite Ef, Z.sub_diag; cbn [sbits Z.abs]; lia|]. split; [right; cbn [sbits]; lia|]. right. left. lia. }
  assert (C0 : conv F0 Fo k0 = Val (k0 + 2 ^ b)).
  { rewrite (CV F0 k0 n0); auto.
    - f_equal. symmetry. apply (Zmod_unique _ _ (-1)); lia.
    - intros X. rewrite X in B0. unfold fx_lo in B0. rewrite G in B0. lia. }
  assert (C1 : conv F1 Fo k1 = Val k1).
  { destruct (fx_eqb F1 Fo) eqn:E; [unfold conv; now rewrite E|].
    rewrite (CV F1 k1 n1); auto; [now rewrite Z.mod_small|]. intros X. apply fx_eqb_eq in X. congruence. }
  rewrite C0, C1. cbn [cbind].
  assert (2 ^ b * 2 <= 2 ^ n) by (rewrite Z.mul_comm; replace 2 with (2 ^ 1) at 1 by reflexivity; rewrite <- Z.pow_add_r by lia; apply Z.pow_le_mono_r; lia).
  assert (HF : k0 + k1 <= 2 ^ b - 1 /\ 0 <= k0 + k1). { unfold fits, fx_lo, fx_hi in Fr. rewrite G in Fr. fold b in Fr. lia. }
  rewrite arith_ok; cbn [sbits]; [|lia|unfold s_lo, s_hi; cbn [ssgn sbits]; lia].
  cbn [cbind]. unfold conv. replace (fx_eqb Fo Fo) with true by (symmetry; now apply fx_eqb_eq). f_equal. ring.
Qed.
(* -1 + 3 gives 18 in FU4.0 *)
Example addition_unsigned_case : add_modifier (FS 8 0) (FS 8 0) (FU 4 0) (-1) 3 = Val 18. Proof. reflexivity. Qed.

(* ---- multiplication *)
Lemma sint_eqb_eq : forall S T, sint_eqb S T = true <-> S = T.
Proof. intros [a b] [a' b']. unfold sint_eqb. cbn. rewrite andb_true_iff, Z.eqb_eq, eqb_true_iff. split; [intros [-> ->]; auto|intros H; inversion H; auto]. Qed.

Lemma product_fits : forall F0 F1 Fo k0 k1, fits F0 k0 -> fits F1 k1 -> fx_ok F0 -> fx_ok F1 -> 1 <= isz Fo + (frsz F0 + frsz F1) ->
  fits Fo (fl (k0 * k1) (frsz Fo - (frsz F0 + frsz F1))) -> fx_ok Fo -> (sgn Fo = true \/ sgn F0 = false /\ sgn F1 = false) ->
  fits (Build_fxfmt (Z.min (isz Fo) (isz F0 + isz F1)) (frsz F0 + frsz F1) (sgn F0 || sgn F1)) (k0 * k1).
Proof.
  intros F0 F1 Fo k0 k1 H0 H1 O0 O1 OT HF OO HS. unfold fx_ok in *.
  destruct (Z_lt_le_dec (isz F0 + isz F1) (isz Fo)) as [L|L].
  - (* bounded by the operands *)
    unfold fits, fx_lo, fx_hi in *. cbn [isz frsz sgn]. rewrite Z.min_r by lia.
    set (b0 := isz F0 + frsz F0) in *. set (b1 := isz F1 + frsz F1) in *.
    replace (isz F0 + isz F1 + (frsz F0 + frsz F1)) with (b0 + b1) by (unfold b0, b1; lia).
    pose proof (p_half b0 O0) as E0. pose proof (p_half b1 O1) as E1.
    assert (E : 2 ^ (b0 + b1) = 2 ^ b0 * 2 ^ b1) by (apply Z.pow_add_r; lia).
    assert (E' : 2 ^ (b0 + b1 - 1) = 2 ^ b0 * 2 ^ (b1 - 1)) by (rewrite <- Z.pow_add_r by lia; f_equal; lia).
    pose proof (p_pos (b0 - 1)). pose proof (p_pos (b1 - 1)). rewrite E, E', E0, E1. destruct (sgn F0), (sgn F1); cbn [orb]; nia.
  - rewrite Z.min_l by lia. set (f := frsz F0 + frsz F1) in *. set (z := k0 * k1) in *.
    assert (NN : sgn F0 || sgn F1 = false -> 0 <= z).
    { intros E. apply orb_false_iff in E. destruct E as [EA EB]. unfold fits, fx_lo in H0, H1. rewrite EA in H0. rewrite EB in H1. unfold z. nia. }
    assert (V : (sgn Fo = true -> - 2 ^ (isz Fo + f - 1) <= z < 2 ^ (isz Fo + f - 1)) /\ (sgn Fo = false -> 0 <= z < 2 ^ (isz Fo + f))).
    { unfold fits, fx_lo, fx_hi in HF. unfold fl in HF. pose proof (p_pos (isz Fo + frsz Fo)) as Pb. destruct (Z.leb_spec 0 (frsz Fo - f)) as [A|A].
      - assert (P : 0 < 2 ^ (frsz Fo - f)) by (apply p_pos; lia).
        assert (E : 2 ^ (isz Fo + frsz Fo) = 2 ^ (isz Fo + f) * 2 ^ (frsz Fo - f)) by (rewrite <- Z.pow_add_r by lia; f_equal; lia).
        assert (E' : 2 ^ (isz Fo + frsz Fo - 1) = 2 ^ (isz Fo + f - 1) * 2 ^ (frsz Fo - f)) by (rewrite <- Z.pow_add_r by lia; f_equal; lia).
        split; intros G; rewrite G in HF.
        + rewrite E' in HF. split; apply (Z.mul_lt_mono_pos_r (2 ^ (frsz Fo - f))) || apply (Z.mul_le_mono_pos_r _ _ (2 ^ (frsz Fo - f))); lia.
        + rewrite E in HF. split; apply (Z.mul_lt_mono_pos_r (2 ^ (frsz Fo - f))) || apply (Z.mul_le_mono_pos_r _ _ (2 ^ (frsz Fo - f))); lia.
      - set (d := - (frsz Fo - f)) in *. assert (P : 0 < 2 ^ d) by (apply p_pos; lia).
        assert (E : 2 ^ (isz Fo + f) = 2 ^ (isz Fo + frsz Fo) * 2 ^ d) by (rewrite <- Z.pow_add_r by lia; f_equal; lia).
        assert (E' : 2 ^ (isz Fo + f - 1) = 2 ^ (isz Fo + frsz Fo - 1) * 2 ^ d) by (rewrite <- Z.pow_add_r by lia; f_equal; lia).
        pose proof (Z.div_mod z (2 ^ d) ltac:(lia)) as DM. pose proof (Z.mod_pos_bound z (2 ^ d) P) as MB.
        split; intros G; rewrite G in HF; rewrite ?E, ?E'; nia. }
    destruct V as [V1 V2]. unfold fits, fx_lo, fx_hi. cbn [isz frsz sgn]. pose proof (p_half (isz Fo + f) OT). pose proof (p_pos (isz Fo + f - 1)).
    destruct HS as [G|[G0 G1]].
    + specialize (V1 G). destruct (sgn F0 || sgn F1) eqn:EE; [lia|]. specialize (NN eq_refl). lia.
    + rewrite G0, G1 in *. cbn [orb] in *. specialize (NN eq_refl). destruct (sgn Fo) eqn:G; [specialize (V1 eq_refl); lia|specialize (V2 eq_refl); lia].
Qed.

Lemma mul_ok : forall S0 S1 T k0 k1, 1 <= sbits T -> s_lo S0 <= k0 <= s_hi S0 -> s_lo S1 <= k1 <= s_hi S1 ->
  ~ (T = S1 /\ T <> S0) -> (ssgn T = false -> ssgn S0 = false /\ ssgn S1 = false) -> s_lo T <= k0 * k1 <= s_hi T -> k0 * k1 <> - 2 ^ (sbits T - 1) ->
  c_mul S0 S1 T k0 k1 = Val (k0 * k1).
Proof.
  intros S0 S1 T k0 k1 HT R0 R1 NE SG R NB. unfold c_mul.
  assert (WW : wrap T k0 * wrap T k1 = k0 * k1).
  { destruct (Z.eq_dec k0 0) as [->|Z0]; [rewrite wrap_small; auto; unfold s_lo, s_hi; pose proof (p_pos (sbits T)); pose proof (p_pos (sbits T - 1)); destruct (ssgn T); lia|].
    destruct (Z.eq_dec k1 0) as [->|Z1]; [rewrite (wrap_small T 0); auto; [ring|]; unfold s_lo, s_hi; pose proof (p_pos (sbits T)); pose proof (p_pos (sbits T - 1)); destruct (ssgn T); lia|].
    assert (A0 : Z.abs k0 <= Z.abs (k0 * k1)) by (rewrite Z.abs_mul; nia). assert (A1 : Z.abs k1 <= Z.abs (k0 * k1)) by (rewrite Z.abs_mul; nia).
    rewrite !wrap_small; auto; unfold s_lo, s_hi in *; destruct (ssgn T).
    - lia.
    - destruct (SG eq_refl) as [G0 G1]. rewrite G0 in R0. rewrite G1 in R1. lia.
    - lia.
    - destruct (SG eq_refl) as [G0 G1]. rewrite G0 in R0. rewrite G1 in R1. lia. }
  destruct (sint_eqb T S0) eqn:E0.
  - apply sint_eqb_eq in E0. assert (W0 : wrap T k0 = k0) by (apply wrap_small; auto; now rewrite E0).
    destruct (sint_eqb T S1) eqn:E1; cbn [andb].
    + apply arith_ok; auto.
    + rewrite W0 in WW. rewrite WW. apply arith_ok; auto.
  - destruct (sint_eqb T S1) eqn:E1; cbn [andb].
    + exfalso. apply NE. split; [now apply sint_eqb_eq|]. intros X. apply sint_eqb_eq in X. congruence.
    + rewrite WW. apply arith_ok; auto.
Qed.

(* the C type of the product is not that of the second operand only *)
Theorem multiplication_correct_partial : forall F0 F1 Fo v0 v1 k0 k1 n0 n1 nt r,
  let tmp := Build_fxfmt (Z.min (isz Fo) (isz F0 + isz F1)) (frsz F0 + frsz F1) (sgn F0 || sgn F1) in
  fx_is F0 v0 k0 -> fx_is F1 v1 k1 -> fx_ok Fo ->
  fx_c_bit_size F0 = Some n0 -> fx_c_bit_size F1 = Some n1 -> fx_c_bit_size tmp = Some nt ->
  ~ ((nt, sgn tmp) = (n1, sgn F1) /\ (nt, sgn tmp) <> (n0, sgn F0)) ->
  (sgn Fo = true \/ sgn F0 = false /\ sgn F1 = false \/ fits tmp (k0 * k1)) -> k0 * k1 <> - 2 ^ (nt - 1) -> 1 <= isz Fo + frsz tmp ->
  safe tmp Fo (k0 * k1) -> rounded_down Fo (v0 * v1) r -> fits Fo r ->
  mul_modifier F0 F1 Fo k0 k1 = Val r.
Proof.
  intros F0 F1 Fo v0 v1 k0 k1 n0 n1 nt r tmp [B0 V0] [B1 V1] OO N0 N1 NT NE SG NB OT HS HR HF.
  assert (V : (v0 * v1 == inject_Z (k0 * k1) * p2 (- frsz tmp))%Q).
  { rewrite V0, V1, inject_Z_mult. unfold tmp. cbn [frsz]. replace (- (frsz F0 + frsz F1)) with (- frsz F0 + - frsz F1) by lia. rewrite p2_plus. ring. }
  apply (fl_spec Fo _ _ _ r V) in HR.
  assert (ES0 : std_support F0 = Some (mkS n0 (sgn F0))) by (unfold std_support; now rewrite N0).
  assert (ES1 : std_support F1 = Some (mkS n1 (sgn F1))) by (unfold std_support; now rewrite N1).
  assert (EST : std_support tmp = Some (mkS nt (sgn tmp))) by (unfold std_support; now rewrite NT).
  destruct (support_facts _ _ ES0) as [P0 _]. destruct (support_facts _ _ ES1) as [P1 _]. destruct (support_facts _ _ EST) as [PT _].
  assert (FT : fits tmp (k0 * k1)).
  { assert (X : sgn Fo = true \/ sgn F0 = false /\ sgn F1 = false -> fits tmp (k0 * k1)).
    { intros X. apply product_fits; auto; try (unfold fx_ok; lia). change (frsz F0 + frsz F1) with (frsz tmp). now rewrite <- HR. }
    destruct SG as [SG|[SG|SG]]; auto. }
  pose proof (fits_support _ _ _ EST FT) as RT.
  unfold mul_modifier. change (tmp_mul F0 F1 Fo) with tmp. rewrite ES0, ES1, EST.
  rewrite mul_ok; cbn [sbits ssgn].
  - cbn [cbind]. rewrite (conv_fits tmp Fo _ (k0 * k1) EST RT HS); [now rewrite HR|now rewrite <- HR].
  - cbn [sbits] in PT. lia.
  - apply (fits_support F0); auto.
  - apply (fits_support F1); auto.
  - intros [A C]. apply NE. inversion A. split; [congruence|]. intros X. apply C. inversion X. congruence.
  - unfold tmp. cbn [sgn]. intros E. now apply orb_false_iff.
  - auto.
  - auto.
Qed.
(* 3.5 * -2.25 *)
Example multiplication_correct_case : mul_modifier (FU 12 1) (FS 4 2) (FS 12 4) 7 (-9) = Val (-126) /\
  rounded_down (FS 12 4) ((7 # 2) * (-9 # 4)) (-126) /\ safe (FS 12 3) (FS 12 4) (-63).
Proof.
  split; [reflexivity|]. split; [split; unfold Qle, Qlt; cbn; lia|]. right. exists 16, 16. split; [reflexivity|]. split; [reflexivity|]. split; [cbn; lia|]. split; [now left|]. right. left. cbn. lia.
Qed.

(* otherwise the second operand is ignored and the first one is squared *)
Theorem multiplication_ignores_refuted : forall F0 F1 Fo n0 n1 nt,
  let tmp := Build_fxfmt (Z.min (isz Fo) (isz F0 + isz F1)) (frsz F0 + frsz F1) (sgn F0 || sgn F1) in
  fx_c_bit_size F0 = Some n0 -> fx_c_bit_size F1 = Some n1 -> fx_c_bit_size tmp = Some nt ->
  (nt, sgn tmp) = (n1, sgn F1) -> (nt, sgn tmp) <> (n0, sgn F0) ->
  (forall k0 k1 k1', mul_modifier F0 F1 Fo k0 k1 = mul_modifier F0 F1 Fo k0 k1') /\
  (forall k0 k1, 0 <= k0 -> fits tmp (k0 * k0) -> safe tmp Fo (k0 * k0) -> fits Fo (fl (k0 * k0) (frsz Fo - frsz tmp)) ->
     mul_modifier F0 F1 Fo k0 k1 = Val (fl (k0 * k0) (frsz Fo - frsz tmp))).
Proof.
  intros F0 F1 Fo n0 n1 nt tmp N0 N1 NT E NE.
  assert (ES0 : std_support F0 = Some (mkS n0 (sgn F0))) by (unfold std_support; now rewrite N0).
  assert (ES1 : std_support F1 = Some (mkS n1 (sgn F1))) by (unfold std_support; now rewrite N1).
  assert (EST : std_support tmp = Some (mkS nt (sgn tmp))) by (unfold std_support; now rewrite NT).
  destruct (support_facts _ _ EST) as [PT _]. cbn [sbits] in PT.
  assert (EE : (sint_eqb (mkS nt (sgn tmp)) (mkS n0 (sgn F0)) = false) /\ (sint_eqb (mkS nt (sgn tmp)) (mkS n1 (sgn F1)) = true)).
  { split; [apply not_true_iff_false|]; rewrite sint_eqb_eq; [intros X; apply NE; inversion X; congruence|inversion E; congruence]. }
  destruct EE as [E0 E1].
  assert (EQ : forall k0 k1, mul_modifier F0 F1 Fo k0 k1 = cbind (c_arith (mkS nt (sgn tmp)) (wrap (mkS nt (sgn tmp)) k0 * wrap (mkS nt (sgn tmp)) k0)) (fun z => conv tmp Fo z)).
  { intros k0 k1. unfold mul_modifier. change (tmp_mul F0 F1 Fo) with tmp. rewrite ES0, ES1, EST. unfold c_mul. rewrite E0, E1. reflexivity. }
  split; [intros; now rewrite !EQ|].
  intros k0 k1 K0 FT HS HF. rewrite EQ. pose proof (fits_support _ _ _ EST FT) as RT.
  assert (W : wrap (mkS nt (sgn tmp)) k0 = k0).
  { apply wrap_small; [cbn [sbits]; lia|]. revert RT. unfold s_lo, s_hi. cbn [ssgn sbits]. pose proof (p_pos nt). pose proof (p_pos (nt - 1)). destruct (sgn tmp); nia. }
  rewrite W, arith_ok by (auto; cbn [sbits]; lia). cbn [cbind]. now apply (conv_fits tmp Fo (mkS nt (sgn tmp))).
Qed.
(* 3 * 5 gives 9 *)
Example multiplication_ignores_case : mul_modifier (FU 8 0) (FU 12 0) (FU 12 0) 3 5 = Val 9. Proof. reflexivity. Qed.

(* signed operands and an unsigned output that needs all the bits of the type:
   the signed product overflows *)
Theorem multiplication_overflow_refuted : forall F0 F1 Fo k0 k1 n r,
  let tmp := Build_fxfmt (Z.min (isz Fo) (isz F0 + isz F1)) (frsz F0 + frsz F1) (sgn F0 || sgn F1) in
  fx_c_bit_size F0 = Some n -> fx_c_bit_size F1 = Some n -> fx_c_bit_size tmp = Some n -> sgn F0 = true -> sgn F1 = true -> 32 <= n ->
  2 ^ (n - 1) <= k0 * k1 -> mul_modifier F0 F1 Fo k0 k1 <> Val r.
Proof.
  intros F0 F1 Fo k0 k1 n r tmp N0 N1 NT G0 G1 HN HK C. unfold mul_modifier in C. change (tmp_mul F0 F1 Fo) with tmp in C.
  assert (GT : sgn tmp = true) by (unfold tmp; cbn [sgn]; now rewrite G0).
  unfold std_support in C. rewrite N0, N1, NT, G0, G1, GT in C. unfold c_mul in C.
  replace (sint_eqb (mkS n true) (mkS n true)) with true in C by (symmetry; now apply sint_eqb_eq). cbn [andb] in C.
  unfold c_arith, promoted in C. cbn [sbits] in C. replace (n <? 32) with false in C by (symmetry; apply Z.ltb_ge; lia).
  unfold s_hi, s_lo in C. cbn [ssgn sbits] in C. replace (k0 * k1 <=? 2 ^ (n - 1) - 1) with false in C by (symmetry; apply Z.leb_gt; lia).
  rewrite andb_false_r in C. cbn [negb andb cbind] in C. discriminate.
Qed.
(* 60000 * 60000 = 3600000000 fits in FU32.0 *)
Example multiplication_overflow_case : mul_modifier (FS 32 0) (FS 32 0) (FU 32 0) 60000 60000 = Undef /\ fits (FU 32 0) (60000 * 60000).
Proof. split; [reflexivity|]. split; cbn; lia. Qed.

(* ---- comparison *)
Definition q_cmp (p : cmp) (a b : Q) : Prop :=
  match p with Ceq => (a == b)%Q | Cne => ~ (a == b)%Q | Clt => (a < b)%Q | Cle => (a <= b)%Q | Cgt => (b < a)%Q | Cge => (b <= a)%Q end.
Theorem comparison_correct_partial : forall p F v0 v1 k0 k1, 1 <= isz F + frsz F <= 128 -> fx_is F v0 k0 -> fx_is F v1 k1 ->
  exists b, comparison p F F k0 k1 = Val b /\ (b = true <-> q_cmp p v0 v1).
Proof.
  intros p F v0 v1 k0 k1 HB [_ V0] [_ V1]. unfold comparison. replace (fx_eqb F F) with true by (symmetry; now apply fx_eqb_eq).
  destruct (support_ex F HB) as [S ->]. eexists. split; [reflexivity|].
  assert (L : forall a b x y, (x == inject_Z a * p2 (- frsz F))%Q -> (y == inject_Z b * p2 (- frsz F))%Q -> (x <= y)%Q <-> a <= b).
  { intros a b x y -> ->. rewrite scale_le. apply inj_le_iff. }
  assert (LT : forall a b x y, (x == inject_Z a * p2 (- frsz F))%Q -> (y == inject_Z b * p2 (- frsz F))%Q -> (x < y)%Q <-> a < b).
  { intros a b x y -> ->. rewrite scale_lt. apply inj_lt_iff. }
  assert (EQ : (v0 == v1)%Q <-> k0 = k1).
  { pose proof (L k0 k1 v0 v1 V0 V1). pose proof (L k1 k0 v1 v0 V1 V0). split; intros X.
    - assert (k0 <= k1) by (apply H; lra). assert (k1 <= k0) by (apply H0; lra). lia.
    - assert (v0 <= v1)%Q by (apply H; lia). assert (v1 <= v0)%Q by (apply H0; lia). lra. }
  destruct p; cbn [c_cmp q_cmp]; rewrite ?negb_true_iff, ?Z.eqb_eq, ?Z.eqb_neq, ?Z.ltb_lt, ?Z.leb_le; rewrite ?EQ, ?(L k0 k1 v0 v1 V0 V1), ?(L k1 k0 v1 v0 V1 V0), ?(LT k0 k1 v0 v1 V0 V1), ?(LT k1 k0 v1 v0 V1 V0); tauto.
Qed.
Example comparison_correct_case : comparison Clt (FS 4 4) (FS 4 4) (-3) 2 = Val true. Proof. reflexivity. Qed.
(* two formats: no code at all *)
Theorem comparison_formats_refuted : forall p F0 F1 k0 k1 b, F0 <> F1 -> comparison p F0 F1 k0 k1 <> Val b.
Proof.
  intros p F0 F1 k0 k1 b NE. unfold comparison. destruct (fx_eqb F0 F1) eqn:E; [apply fx_eqb_eq in E; contradiction|discriminate].
Qed.
Example comparison_formats_case : FS 4 4 <> FS 5 4. Proof. discriminate. Qed.

(* ---- leading zeros *)
Theorem fixed_clz_correct_partial : forall Fi Fo k n, fits Fi k -> 0 < k -> fx_c_bit_size Fi = Some n -> (n = 32 \/ n = 64) ->
  1 <= isz Fo + frsz Fo <= 128 -> fits Fo (isz Fi + frsz Fi - 1 - Z.log2 k) ->
  fixed_clz Fi Fo k = Val (isz Fi + frsz Fi - 1 - Z.log2 k).
Proof.
  intros Fi Fo k n HF K0 HN Hn HO HR.
  assert (EI : std_support Fi = Some (mkS n (sgn Fi))) by (unfold std_support; now rewrite HN).
  destruct (support_ex Fo HO) as [So EO]. destruct (support_facts _ _ EI) as [PI _]. cbn [sbits] in PI.
  pose proof (fits_support _ _ _ EO HR) as RO. destruct (support_facts _ _ EO) as [PO _].
  unfold fixed_clz. rewrite EI, EO. cbn [sbits].
  assert (KB : k < 2 ^ (isz Fi + frsz Fi)).
  { destruct HF as [_ A]. unfold fx_hi in A. pose proof (p_half (isz Fi + frsz Fi)). destruct (sgn Fi); lia. }
  assert (LB : 0 <= Z.log2 k < isz Fi + frsz Fi) by (split; [apply Z.log2_nonneg|apply Z.log2_lt_pow2; lia]).
  assert (2 ^ (isz Fi + frsz Fi) <= 2 ^ n) by (apply Z.pow_le_mono_r; lia).
  assert (W : forall z, 0 <= z < 2 ^ n -> wrap (mkS n false) z = z) by (intros; apply Z.mod_small; auto).
  assert (PN : n < 2 ^ n) by (apply Z.pow_gt_lin_r; lia).
  rewrite W by lia. assert (C : c_clz n k = Val (n - 1 - Z.log2 k)).
  { unfold c_clz. replace (k =? 0) with false by (symmetry; apply Z.eqb_neq; lia). destruct Hn as [En|En]; rewrite En; reflexivity. }
  rewrite C. cbn [cbind]. rewrite W by lia. rewrite arith_ok; [|cbn [sbits]; lia|unfold s_lo, s_hi; cbn [ssgn sbits]; lia].
  cbn [cbind]. replace (n - 1 - Z.log2 k - (n - (isz Fi + frsz Fi))) with (isz Fi + frsz Fi - 1 - Z.log2 k) by lia. rewrite wrap_small; auto. lia.
Qed.
Example fixed_clz_case : fixed_clz (FU 4 20) (FU 8 0) 0x000F00 = Val 12. Proof. reflexivity. Qed.
(* a negative number of a format narrower than its type has no leading zero, and
   a large number is returned *)
Theorem fixed_clz_negative_refuted : forall Fi Fo k n no, fits Fi k -> k < 0 -> fx_c_bit_size Fi = Some n -> (n = 32 \/ n = 64) -> isz Fi + frsz Fi < n ->
  fx_c_bit_size Fo = Some no -> fixed_clz Fi Fo k = Val (wrap (mkS no (sgn Fo)) (isz Fi + frsz Fi - n + 2 ^ n)) /\ (no = n -> sgn Fo = false -> fixed_clz Fi Fo k <> Val 0).
Proof.
  intros Fi Fo k n no HF K0 HN Hn HB HO.
  assert (EI : std_support Fi = Some (mkS n (sgn Fi))) by (unfold std_support; now rewrite HN).
  assert (EO : std_support Fo = Some (mkS no (sgn Fo))) by (unfold std_support; now rewrite HO).
  destruct (support_facts _ _ EI) as [PI _]. cbn [sbits] in PI.
  assert (PN : n < 2 ^ n) by (apply Z.pow_gt_lin_r; lia). pose proof (p_half n).
  pose proof (fits_support _ _ _ EI HF) as RI. assert (KL : - 2 ^ (n - 1) <= k).
  { unfold s_lo in RI. cbn [ssgn sbits] in RI. pose proof (p_pos (n - 1)). destruct (sgn Fi); lia. }
  assert (W : wrap (mkS n false) k = k + 2 ^ n) by (symmetry; apply (Zmod_unique _ _ (-1)); cbn [sbits]; lia).
  assert (LG : Z.log2 (k + 2 ^ n) = n - 1) by (apply Z.log2_unique; [lia|]; rewrite <- Z.add_1_r; replace (n - 1 + 1) with n by lia; lia).
  assert (EQ : fixed_clz Fi Fo k = Val (wrap (mkS no (sgn Fo)) (isz Fi + frsz Fi - n + 2 ^ n))).
  { unfold fixed_clz. rewrite EI, EO. cbn [sbits]. rewrite W. assert (C : c_clz n (k + 2 ^ n) = Val 0).
    { unfold c_clz. replace (k + 2 ^ n =? 0) with false by (symmetry; apply Z.eqb_neq; lia). rewrite LG. destruct Hn as [En|En]; rewrite En; reflexivity. }
    rewrite C. cbn [cbind]. unfold c_arith, promoted. cbn [sbits]. replace (n <? 32) with false by (symmetry; apply Z.ltb_ge; lia). cbn [ssgn andb cbind].
    f_equal. f_equal. unfold wrap. cbn [ssgn sbits]. rewrite Z.mod_0_l by lia. symmetry. apply (Zmod_unique _ _ (-1)); lia. }
  split; auto. intros -> G. rewrite EQ, G. unfold wrap. cbn [ssgn sbits]. intros C. inversion C as [C']. rewrite Z.mod_small in C'; lia.
Qed.
Example fixed_clz_negative_case : fixed_clz (FS 4 20) (FU 32 0) (-1) = Val 4294967288. Proof. reflexivity. Qed.
(* and formats of other widths have no code *)
Theorem fixed_clz_width_refuted : forall Fi Fo k n r, fx_c_bit_size Fi = Some n -> n <> 32 -> n <> 64 -> fixed_clz Fi Fo k <> Val r.
Proof.
  intros Fi Fo k n r HN A B. unfold fixed_clz, std_support. rewrite HN. destruct (fx_c_bit_size Fo); [|discriminate]. cbn [sbits]. unfold c_clz.
  rewrite (proj2 (Z.eqb_neq n 32) A), (proj2 (Z.eqb_neq n 64) B). discriminate.
Qed.
Example fixed_clz_width_case : fx_c_bit_size (FU 4 4) = Some 8. Proof. reflexivity. Qed.

Print Assumptions conversion_correct_partial.
Print Assumptions conversion_negative_refuted.
Print Assumptions conversion_uint128_refuted.
Print Assumptions addition_correct_partial.
Print Assumptions subtraction_correct_partial.
Print Assumptions subtraction_rounding_refuted.
Print Assumptions addition_unsigned_refuted.
Print Assumptions multiplication_correct_partial.
Print Assumptions multiplication_ignores_refuted.
Print Assumptions multiplication_overflow_refuted.
Print Assumptions comparison_correct_partial.
Print Assumptions comparison_formats_refuted.
Print Assumptions fixed_clz_correct_partial.
Print Assumptions fixed_clz_negative_refuted.
Print Assumptions fixed_clz_width_refuted.
