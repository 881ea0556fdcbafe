(* Proofs about the fixed-point accumulation. *)
From Coq Require Import ZArith QArith Bool List Lia.
From Verif Require Import QUtil FpFormatModel FpFormatSpec FpFormatProofs TruncProps AdderModel AdderProofs AdderProofs2 AdderProofs3 MpfmaModel MpfmaProofs3 FixMpfmaModel FixMpfmaSpec.
Import ListNotations.
Open Scope Z_scope.

Lemma log2_up_le : forall n, 1 <= n -> n <= 2 ^ Z.log2_up n.
Proof.
  intros n H. destruct (Z.eq_dec n 1) as [->|]; [cbn; lia|]. pose proof (Z.log2_up_spec n ltac:(lia)). lia.
Qed.

Section Fx.
Variable F : fpfmt.
Hypothesis Hok : fmt_ok F.
Variable k : Z.
Hypothesis Hk : 0 <= k.
Local Notation B := (ieee_bias F).
Local Notation f := (fsz F).
Local Notation W := (fx_width F k).
Local Notation MD := (fx_max_diff F k).
Local Notation ES := (fx_esize F k).

Lemma B_ge : 1 <= B. Proof. unfold ieee_bias. pose proof (pe1_ge F Hok). lia. Qed.
Lemma emax_B : emax F = B. Proof. unfold emax. rewrite (bias_eq F). pose proof (B_eq F Hok). lia. Qed.
Lemma lsb_eq : fx_lsb F = 2 * (1 - B - f). Proof. unfold fx_lsb, emin_subnormal. rewrite (bias_eq F). lia. Qed.
Lemma width_eq : W = 4 * B + k + 2 * f. Proof. unfold fx_width, fx_msb. rewrite lsb_eq, emax_B. lia. Qed.
Lemma max_eq : MD = 4 * B + k - 2. Proof. unfold fx_max_diff, msz. rewrite width_eq. lia. Qed.
Lemma W_pos : 4 <= W. Proof. rewrite width_eq. pose proof B_ge. destruct Hok. lia. Qed.

(* the exponent signal never wraps *)
Lemma esize_ok : 0 < ES /\ 4 * B + k < 2 ^ (ES - 1) /\ 2 <= 2 ^ (ES - 1).
Proof.
  pose proof B_ge as HB. pose proof (B_eq F Hok) as EB. unfold fx_esize. rewrite (bias_eq F).
  set (a := Z.log2_up (Z.abs (fx_msb F k))). set (b := Z.log2_up (Z.abs (fx_lsb F))). set (c := Z.log2_up (Z.abs (- B + - B + 1))).
  set (m := Z.max (esz F) (Z.max a (Z.max b c))).
  assert (Ha : fx_msb F k <= 2 ^ a).
  { assert (fx_msb F k = 2 * B + 1 + k) by (unfold fx_msb; rewrite emax_B; lia).
    pose proof (log2_up_le (Z.abs (fx_msb F k)) ltac:(lia)). unfold a. lia. }
  unfold fx_msb in Ha. rewrite emax_B in Ha.
  pose proof (Z.log2_up_nonneg (Z.abs (fx_msb F k))). fold a in H.
  assert (Ha2 : 2 ^ a <= 2 ^ m) by (apply Z.pow_le_mono_r; lia).
  assert (Hm2 : 2 ^ esz F <= 2 ^ m) by (apply Z.pow_le_mono_r; destruct Hok; lia).
  replace (m + 2 - 1) with (m + 1) by lia. rewrite Z.pow_add_r by lia. change (2 ^ 1) with 2.
  assert (0 < m) by (destruct Hok; lia). lia.
Qed.

Section Pair.
Variables (x y : Z) (sx sy : bool) (Ex Mx Ey My : Z).
Hypothesis Hx : has_fields F x sx Ex Mx.
Hypothesis Hy : has_fields F y sy Ey My.
Hypothesis HEx : Ex < 2 ^ esz F - 1.
Hypothesis HEy : Ey < 2 ^ esz F - 1.

Definition ms (E M : Z) : Z := (if E =? 0 then 0 else 2 ^ f) + M.
Lemma ms_b : forall E M, 0 <= M < 2 ^ f -> 0 <= ms E M < 2 ^ (f + 1).
Proof. intros E M H. unfold ms. rewrite (pf1 F Hok). destruct (E =? 0); lia. Qed.
Lemma mant_ms : forall c s E M, has_fields F c s E M -> hw_mant F c = ms E M.
Proof.
  intros c s E M H. destruct Hok. unfold hw_mant, ms. rewrite (hw_exp_fields F Hok _ _ _ _ H), land_pow2 by lia.
  now rewrite (c_mod_f F Hok _ _ _ _ H).
Qed.

Definition D : Z := 4 * B + k - Ex - Ey.
Lemma D_b : k <= D <= 4 * B + k.
Proof. pose proof (B_eq F Hok). unfold D. destruct Hx as [_ [H1 _]]. destruct Hy as [_ [H2 _]]. lia. Qed.
Lemma diff_eq : fx_exp_diff F k x y = D /\ to_signed ES (fx_exp_diff F k x y) = D.
Proof.
  pose proof D_b. destruct esize_ok as [E1 [E2 E3]].
  assert (P2 : 2 ^ ES = 2 * 2 ^ (ES - 1)) by (rewrite <- Z.pow_succ_r by lia; f_equal; lia).
  assert (E : fx_exp_diff F k x y = D).
  { unfold fx_exp_diff. rewrite (hw_exp_fields F Hok _ _ _ _ Hx), (hw_exp_fields F Hok _ _ _ _ Hy), !bias_eq.
    unfold fx_msb. rewrite emax_B. replace (2 * B + 1 + k - (Ey + Ex + (- B + - B + 1))) with D by (unfold D; lia).
    apply Z.mod_small. lia. }
  split; auto. rewrite E. unfold to_signed. destruct (Z.ltb_spec D (2 ^ (ES - 1))); lia.
Qed.
Lemma shift_eq : fx_shift F k x y = Z.min D MD.
Proof.
  destruct diff_eq as [E1 E2]. pose proof D_b. unfold fx_shift. rewrite E2, E1.
  destruct (Z.ltb_spec D 0); [lia|]. destruct (Z.ltb_spec MD D); [lia|].
  rewrite Z.mod_small; [lia|]. split; [lia|]. pose proof max_eq. pose proof B_ge.
  pose proof (Z.log2_spec MD ltac:(lia)) as [_ L]. unfold Z.succ in L. lia.
Qed.
Lemma prod_eq : fx_prod F x y = ms Ex Mx * ms Ey My.
Proof.
  unfold fx_prod. rewrite (mant_ms _ _ _ _ Hx), (mant_ms _ _ _ _ Hy). apply Z.mod_small.
  destruct Hx as [_ [_ H1]]. destruct Hy as [_ [_ H2]]. pose proof (ms_b Ex Mx H1). pose proof (ms_b Ey My H2).
  destruct Hok. unfold msz. rewrite Z.pow_add_r by lia. split; [nia|]. apply Z.mul_lt_mono_nonneg; lia.
Qed.
(* the shifted product, in units *)
Lemma shifted_eq : fx_shifted F k x y = ms Ex Mx * ms Ey My * 2 ^ (Z.max 0 (Ex + Ey - 2)).
Proof.
  unfold fx_shifted. rewrite shift_eq, prod_eq. pose proof D_b. pose proof max_eq as EM. pose proof B_ge.
  rewrite Z.shiftr_div_pow2 by lia.
  replace MD with (Z.max 0 (Ex + Ey - 2) + Z.min D MD) at 1 by (unfold D in *; lia).
  rewrite Z.pow_add_r by lia. rewrite Z.mul_assoc, Z.div_mul; auto.
  apply Z.pow_nonzero; lia.
Qed.
Lemma shifted_b : 0 <= fx_shifted F k x y < 2 ^ (W - k).
Proof.
  rewrite shifted_eq. destruct Hx as [_ [H1 H2]]. destruct Hy as [_ [H3 H4]]. pose proof (ms_b Ex Mx H2) as [A1 A2]. pose proof (ms_b Ey My H4) as [A3 A4].
  pose proof (B_eq F Hok). pose proof B_ge. rewrite width_eq. destruct Hok.
  set (z := Z.max 0 (Ex + Ey - 2)). assert (Hz : 0 <= z <= 4 * B - 2) by lia.
  assert (0 < 2 ^ z) by (apply Z.pow_pos_nonneg; lia).
  assert (P : ms Ex Mx * ms Ey My < 2 ^ (2 * f + 2)).
  { replace (2 * f + 2) with ((f + 1) + (f + 1)) by lia. rewrite Z.pow_add_r by lia. apply Z.mul_lt_mono_nonneg; lia. }
  assert (0 <= ms Ex Mx * ms Ey My) by (apply Z.mul_nonneg_nonneg; lia).
  split; [apply Z.mul_nonneg_nonneg; lia|].
  apply Z.lt_le_trans with (2 ^ (2 * f + 2) * 2 ^ z); [apply Z.mul_lt_mono_pos_r; lia|].
  rewrite <- Z.pow_add_r by lia. apply Z.pow_le_mono_r; lia.
Qed.
Lemma sign_eq : fx_sign_xy F x y = xorb sx sy.
Proof. unfold fx_sign_xy. now rewrite (hw_sign_fields F Hok _ _ _ _ Hx), (hw_sign_fields F Hok _ _ _ _ Hy). Qed.
End Pair.

(* values *)
Lemma ms_val : forall c s E M q, has_fields F c s E M -> finite_value F c q ->
  E < 2 ^ esz F - 1 /\ (q == sg s * (inject_Z (ms E M) * p2 (Z.max E 1 - B - f)))%Q.
Proof.
  intros c s E M q H (s' & E' & M' & H' & V).
  assert (s' = s /\ E' = E /\ M' = M) as (-> & -> & ->).
  { rewrite <- (hw_sign_fields F Hok _ _ _ _ H'), <- (hw_sign_fields F Hok _ _ _ _ H), <- (hw_exp_fields F Hok _ _ _ _ H'), <- (hw_exp_fields F Hok _ _ _ _ H),
      <- (c_mod_f F Hok _ _ _ _ H'), <- (c_mod_f F Hok _ _ _ _ H). auto. }
  pose proof (pe_half F Hok). pose proof (pe1_ge F Hok).
  destruct V as [V|[Q V]].
  - inversion V as [| | | | | |s2 E2 M2 r2 HE2 Hr2 Es2 EE2 EM2 Eq2|s2 M2 r2 HM2 Hr2 Es2 EE2 EM2 Eq2]; subst.
    + split; [lia|]. unfold ms. destruct (Z.eqb_spec E 0); [lia|]. rewrite Z.max_l by lia.
      rewrite Hr2. rewrite <- (mant_val F s E M Hok). unfold normal_val, sg. ring.
    + split; [lia|]. unfold ms. cbn [Z.eqb]. rewrite Z.add_0_l, Z.max_r by lia. rewrite Hr2. unfold sg.
      unfold Z.sub at 2. rewrite p2_plus. ring.
  - assert (E = 0 /\ M = 0) as [-> ->] by (destruct V as [V|V]; inversion V; auto).
    split; [lia|]. unfold ms. cbn [Z.eqb]. rewrite Q. change (inject_Z (0 + 0)) with 0%Q. ring.
Qed.

Definition units (Ex Mx Ey My : Z) : Z := ms Ex Mx * ms Ey My * 2 ^ (Z.max Ex 1 + Z.max Ey 1 - 2).
Lemma product_fields : forall x y N sx sy Ex Mx Ey My, has_fields F x sx Ex Mx -> has_fields F y sy Ey My -> product_units F x y N ->
  Ex < 2 ^ esz F - 1 /\ Ey < 2 ^ esz F - 1 /\ N = (if xorb sx sy then -1 else 1) * units Ex Mx Ey My.
Proof.
  intros x y N sx sy Ex Mx Ey My Hx Hy (qx & qy & Vx & Vy & E).
  destruct (ms_val _ _ _ _ _ Hx Vx) as [L1 Qx]. destruct (ms_val _ _ _ _ _ Hy Vy) as [L2 Qy]. split; [auto|split; [auto|]].
  rewrite Qx, Qy in E. unfold unit2 in E.
  assert (G : (inject_Z N * p2 (2 * (1 - B - f)) == inject_Z ((if xorb sx sy then -1 else 1) * units Ex Mx Ey My) * p2 (2 * (1 - B - f)))%Q).
  { rewrite E. unfold units. rewrite !inject_Z_mult, <- p2_Z by lia.
    setoid_replace (inject_Z (if xorb sx sy then -1 else 1)) with (sg sx * sg sy)%Q by (rewrite <- sg_xor; destruct (xorb sx sy); reflexivity).
    setoid_replace (sg sx * (inject_Z (ms Ex Mx) * p2 (Z.max Ex 1 - B - f)) * (sg sy * (inject_Z (ms Ey My) * p2 (Z.max Ey 1 - B - f))))%Q
      with (sg sx * sg sy * (inject_Z (ms Ex Mx) * inject_Z (ms Ey My)) * (p2 (Z.max Ex 1 - B - f) * p2 (Z.max Ey 1 - B - f)))%Q by ring.
    rewrite <- p2_plus.
    setoid_replace (sg sx * sg sy * (inject_Z (ms Ex Mx) * inject_Z (ms Ey My) * p2 (Z.max Ex 1 + Z.max Ey 1 - 2)) * p2 (2 * (1 - B - f)))%Q
      with (sg sx * sg sy * (inject_Z (ms Ex Mx) * inject_Z (ms Ey My)) * (p2 (Z.max Ex 1 + Z.max Ey 1 - 2) * p2 (2 * (1 - B - f))))%Q by ring.
    rewrite <- p2_plus. replace (Z.max Ex 1 + Z.max Ey 1 - 2 + 2 * (1 - B - f)) with (Z.max Ex 1 - B - f + (Z.max Ey 1 - B - f)) by lia. reflexivity. }
  apply Qmult_inj_r in G; [|apply p2_nz]. unfold Qeq, inject_Z in G; cbn [Qnum Qden] in G. lia.
Qed.
Lemma finite_fields : forall c q, finite_value F c q -> exists s E M, has_fields F c s E M.
Proof. intros c q (s & E & M & H & _). eauto. Qed.

(* the shifted product is the exact product or half of it *)
Lemma shifted_units : forall x y N, product_units F x y N -> well_placed F x y ->
  fx_shifted F k x y = Z.abs N /\ N = (if fx_sign_xy F x y then -1 else 1) * fx_shifted F k x y /\ 0 <= fx_shifted F k x y < 2 ^ (W - k).
Proof.
  intros x y N P [W1 W2]. pose proof P as (qx & qy & Vx & Vy & _).
  destruct (finite_fields _ _ Vx) as (sx & Ex & Mx & Hx). destruct (finite_fields _ _ Vy) as (sy & Ey & My & Hy).
  destruct (product_fields _ _ _ _ _ _ _ _ _ Hx Hy P) as (L1 & L2 & EN).
  pose proof (shifted_b _ _ _ _ _ _ _ _ Hx Hy L1 L2) as SB. rewrite (sign_eq _ _ _ _ _ _ _ _ Hx Hy).
  assert (E : fx_shifted F k x y = units Ex Mx Ey My).
  { rewrite (shifted_eq _ _ _ _ _ _ _ _ Hx Hy L1 L2). unfold units.
    pose proof Hx as [_ [X1 X2]]. pose proof Hy as [_ [Y1 Y2]].
    destruct (Z.eq_dec Ex 0) as [ZX|ZX]; [destruct (Z.eq_dec Mx 0) as [ZM|ZM]|].
    - subst Ex Mx. unfold ms at 1 3. cbn [Z.eqb]. reflexivity.
    - destruct (Z.le_gt_cases Ey 1) as [LY|LY].
      + f_equal. f_equal. lia.
      + exfalso. apply W1. split; [exists sx, Mx; subst Ex; auto|exists sy, Ey, My; split; [auto|lia]].
    - destruct (Z.eq_dec Ey 0) as [ZY|ZY]; [destruct (Z.eq_dec My 0) as [ZM|ZM]|].
      + subst Ey My. unfold ms at 2 4. cbn [Z.eqb]. rewrite Z.add_0_l, !Z.mul_0_r. reflexivity.
      + destruct (Z.le_gt_cases Ex 1) as [LX|LX].
        * f_equal. f_equal. lia.
        * exfalso. apply W2. split; [exists sy, My; subst Ey; auto|exists sx, Ex, Mx; split; [auto|lia]].
      + f_equal. f_equal. lia. }
  rewrite E in *. subst N. split; [|split; [reflexivity|auto]]. destruct (xorb sx sy); lia.
Qed.
Lemma shifted_half : forall x y N, product_units F x y N -> subnormal F x /\ above_emin F y \/ subnormal F y /\ above_emin F x ->
  2 * fx_shifted F k x y = Z.abs N /\ N = (if fx_sign_xy F x y then -2 else 2) * fx_shifted F k x y /\ 0 < fx_shifted F k x y < 2 ^ (W - k).
Proof.
  intros x y N P C. pose proof P as (qx & qy & Vx & Vy & _).
  assert (K : exists sx Ex Mx sy Ey My, has_fields F x sx Ex Mx /\ has_fields F y sy Ey My /\ (Ex = 0 /\ Mx <> 0 /\ 2 <= Ey \/ Ey = 0 /\ My <> 0 /\ 2 <= Ex)).
  { destruct C as [[(s & M & H1 & H2) (s' & E' & M' & H3 & H4)]|[(s & M & H1 & H2) (s' & E' & M' & H3 & H4)]].
    - exists s, 0, M, s', E', M'. auto 10.
    - exists s', E', M', s, 0, M. auto 10. }
  destruct K as (sx & Ex & Mx & sy & Ey & My & Hx & Hy & C').
  destruct (product_fields _ _ _ _ _ _ _ _ _ Hx Hy P) as (L1 & L2 & EN).
  pose proof (shifted_b _ _ _ _ _ _ _ _ Hx Hy L1 L2) as SB. rewrite (sign_eq _ _ _ _ _ _ _ _ Hx Hy).
  assert (0 < 2 ^ f) by (apply Z.pow_pos_nonneg; destruct Hok; lia).
  assert (PM : 0 < ms Ex Mx * ms Ey My).
  { pose proof Hx as [_ [X1 X2]]. pose proof Hy as [_ [Y1 Y2]]. unfold ms. apply Z.mul_pos_pos.
    - destruct (Z.eqb_spec Ex 0); lia.
    - destruct (Z.eqb_spec Ey 0); lia. }
  assert (E : units Ex Mx Ey My = 2 * fx_shifted F k x y /\ 0 < fx_shifted F k x y).
  { rewrite (shifted_eq _ _ _ _ _ _ _ _ Hx Hy L1 L2). unfold units.
    replace (Z.max Ex 1 + Z.max Ey 1 - 2) with (1 + Z.max 0 (Ex + Ey - 2)) by lia. rewrite Z.pow_add_r by lia.
    split; [lia|]. apply Z.mul_pos_pos; auto. apply Z.pow_pos_nonneg; lia. }
  destruct E as [E1 E2]. subst N. rewrite E1. split; [|split; [|lia]]; destruct (xorb sx sy); lia.
Qed.

(* ---- two's complement *)
Lemma acc_mod : forall x y acc, fx_acc F k x y acc = (acc + (if fx_sign_xy F x y then -1 else 1) * fx_shifted F k x y) mod 2 ^ W.
Proof.
  intros x y acc. unfold fx_acc. pose proof W_pos. assert (2 ^ W <> 0) by (apply Z.pow_nonzero; lia).
  destruct (fx_sign_xy F x y).
  - rewrite Zplus_mod_idemp_l. f_equal. lia.
  - f_equal. lia.
Qed.
Lemma two_compl_mod : forall v, - 2 ^ (W - 1) <= v < 2 ^ (W - 1) -> two_compl W (v mod 2 ^ W) = v.
Proof.
  intros v H. pose proof W_pos. assert (P : 2 ^ W = 2 * 2 ^ (W - 1)) by (rewrite <- Z.pow_succ_r by lia; f_equal; lia).
  unfold two_compl. destruct (Z.le_gt_cases 0 v).
  - rewrite Z.mod_small by lia. destruct (Z.leb_spec (2 ^ (W - 1)) v); lia.
  - replace (v mod 2 ^ W) with (v + 2 ^ W) by (apply Z.mod_unique with (-1); [left; lia|lia]).
    destruct (Z.leb_spec (2 ^ (W - 1)) (v + 2 ^ W)); lia.
Qed.
Lemma two_compl_congr : forall v, exists j, two_compl W v = v + j * 2 ^ W.
Proof. intros v. unfold two_compl. destruct (2 ^ (W - 1) <=? v); [exists (-1)|exists 0]; lia. Qed.

(* ---- sign and magnitude *)
Lemma sub_low : forall v, sub_signal v 0 (W - 1) = v mod 2 ^ W.
Proof. intros v. unfold sub_signal. rewrite Z.shiftr_0_r. f_equal. f_equal. lia. Qed.
Lemma bit_top : forall v, 0 <= v < 2 ^ (W + 1) -> Z.testbit v W = (2 ^ W <=? v).
Proof.
  intros v H. pose proof W_pos. rewrite Z.pow_add_r in H by lia. change (2 ^ 1) with 2 in H.
  rewrite Z.testbit_eqb by lia. destruct (Z.leb_spec (2 ^ W) v).
  - replace (v / 2 ^ W) with 1; [reflexivity|]. apply Z.div_unique with (v - 2 ^ W); lia.
  - rewrite Z.div_small by lia. reflexivity.
Qed.
Lemma sm_same : forall x y s a, fx_sign_xy F x y = s -> 0 <= a < 2 ^ W -> 0 <= fx_shifted F k x y < 2 ^ W ->
  fx_sm_acc F k x y s a = (s, (a + fx_shifted F k x y) mod 2 ^ W).
Proof.
  intros x y s a Hs Ha Hp. pose proof W_pos. unfold fx_sm_acc. rewrite Hs, Bool.eqb_reflx, xorb_nilpotent. f_equal.
  rewrite sub_low. assert (P : 2 ^ (W + 1) = 2 * 2 ^ W) by (rewrite Z.pow_add_r by lia; lia).
  rewrite (Z.mod_small (fx_shifted F k x y + a)) by lia. f_equal. lia.
Qed.
Lemma sm_diff : forall x y s a, fx_sign_xy F x y = negb s -> 0 <= a < 2 ^ W -> 0 <= fx_shifted F k x y < 2 ^ W ->
  fx_sm_acc F k x y s a = (if a <=? fx_shifted F k x y then (negb s, fx_shifted F k x y - a) else (s, a - fx_shifted F k x y)).
Proof.
  intros x y s a Hs Ha Hp. pose proof W_pos. unfold fx_sm_acc. rewrite Hs.
  replace (Bool.eqb (negb s) s) with false by (destruct s; reflexivity). replace (xorb (negb s) s) with true by (destruct s; reflexivity).
  assert (P : 2 ^ (W + 1) = 2 * 2 ^ W) by (rewrite Z.pow_add_r by lia; lia).
  set (N := fx_shifted F k x y) in *. rewrite !sub_low. rewrite (Z.mod_small (N + (2 ^ W - 1 - a))) by lia.
  rewrite (Z.mod_small (N + (2 ^ W - 1 - a) + 1)) by lia. rewrite bit_top by lia.
  destruct (Z.leb_spec a N) as [L|L].
  - replace (2 ^ W <=? N + (2 ^ W - 1 - a) + 1) with true by (symmetry; apply Z.leb_le; lia).
    apply (f_equal2 pair); [destruct s; reflexivity|]. symmetry. apply Z.mod_unique with 1; [left; lia|lia].
  - replace (2 ^ W <=? N + (2 ^ W - 1 - a) + 1) with false by (symmetry; apply Z.leb_gt; lia).
    apply (f_equal2 pair); [destruct s; reflexivity|]. rewrite Z.mod_small by lia. lia.
Qed.
End Fx.
