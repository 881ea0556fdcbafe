(* Properties of the dequantizer (C52). *)
From Coq Require Import ZArith QArith Qround Qabs Bool Lia Lqa.
From Verif Require Import QUtil FpFormatModel FpFormatSpec FixedProps DequantModel.
Open Scope Z_scope.

(* ------------------------------------------------------------------ *)
(* specification: r is x rounded to an integer                          *)
(* ------------------------------------------------------------------ *)
Definition rounds_to (mode : Z) (x : Q) (r : Z) : Prop :=
  let d := (inject_Z r - x)%Q in
  (mode = 0 /\ (Qabs d <= 1 # 2)%Q /\ ((Qabs d == 1 # 2)%Q -> Z.even r = true))
  \/ (mode = 1 /\ (0 <= d < 1)%Q)
  \/ (mode = 2 /\ (-(1) < d <= 0)%Q)
  \/ (mode = 3 /\ (Qabs d < 1)%Q /\ (Qabs (inject_Z r) <= Qabs x)%Q)
  \/ (mode = 4 /\ (Qabs d < 1)%Q /\ (Qabs x <= Qabs (inject_Z r))%Q).

(* ------------------------------------------------------------------ *)
(* rounding from the floor                                              *)
(* ------------------------------------------------------------------ *)
Definition cls (x : Q) : Z * bool * comparison :=
  (Qfloor x, negb (Qeq_bool x (inject_Z (Qfloor x))), ((x - inject_Z (Qfloor x)) ?= 1 # 2)%Q).
Definition incf (mode : Z) (c : Z * bool * comparison) : bool :=
  let '(fl, nz, cm) := c in
  if mode =? 0 then match cm with Lt => false | Gt => true | Eq => negb (Z.even fl) end
  else if mode =? 1 then nz
  else if mode =? 2 then false
  else if mode =? 3 then negb (0 <=? fl) && nz
  else nz && (0 <=? fl).

Lemma floor_lo : forall x, (inject_Z (Qfloor x) <= x)%Q.
Proof. apply Qfloor_le. Qed.
Lemma floor_hi : forall x, (x < inject_Z (Qfloor x) + 1)%Q.
Proof. intros x. pose proof (Qlt_floor x) as H. rewrite inject_Z_plus in H. exact H. Qed.

Lemma ceiling_floor : forall x, Qceiling x = Qfloor x + (if Qeq_bool x (inject_Z (Qfloor x)) then 0 else 1).
Proof.
  intros x. destruct (Qeq_bool x (inject_Z (Qfloor x))) eqn:E.
  - apply Qeq_bool_iff in E. rewrite (Qceiling_comp _ _ E), Qceiling_Z. lia.
  - assert (N : ~ (x == inject_Z (Qfloor x))%Q) by (intros C; apply Qeq_bool_iff in C; congruence).
    pose proof (floor_lo x). pose proof (floor_hi x). unfold Qceiling.
    rewrite (Qfloor_unique (- x) (- Qfloor x - 1)); [lia| |].
    + unfold Z.sub. rewrite inject_Z_plus, !inject_Z_opp. change (inject_Z 1) with 1%Q. lra.
    + replace (- Qfloor x - 1 + 1) with (- Qfloor x) by lia. rewrite inject_Z_opp. lra.
Qed.

Lemma floor_nonneg : forall x, (0 <=? Qfloor x) = Qle_bool 0 x.
Proof.
  intros x. pose proof (floor_lo x). pose proof (floor_hi x). destruct (Qle_bool 0 x) eqn:E.
  - apply Qle_bool_iff in E. apply Z.leb_le. assert (-1 < Qfloor x); [|lia].
    apply inj_lt_iff. change (inject_Z (-1)) with (-(1))%Q. lra.
  - apply Qle_bool_false in E. apply Z.leb_gt. apply inj_lt_iff. change (inject_Z 0) with 0%Q. lra.
Qed.

Lemma emulate_floor : forall m x, 0 <= m <= 4 ->
  emulate_round m x = Some (Qfloor x + (if incf m (cls x) then 1 else 0)).
Proof.
  intros m x B. unfold emulate_round, incf, cls, ROUND_RNE, ROUND_RU, ROUND_RD, ROUND_RZ, ROUND_RAZ.
  rewrite floor_nonneg, ceiling_floor. pose proof (floor_lo x) as L. pose proof (floor_hi x) as H.
  destruct (Z.eqb_spec m 0).
  - unfold qrne. destruct (x - inject_Z (Qfloor x) ?= 1 # 2)%Q; try (f_equal; lia).
    destruct (Z.even (Qfloor x)); cbn [negb]; f_equal; lia.
  - destruct (Z.eqb_spec m 1); [destruct (Qeq_bool x (inject_Z (Qfloor x))); reflexivity|].
    destruct (Z.eqb_spec m 2); [f_equal; lia|].
    assert (Z0 : (x == 0)%Q -> Qeq_bool x (inject_Z (Qfloor x)) = true).
    { intros E. apply Qeq_bool_iff. rewrite (Qfloor_int x 0); [exact E|exact E]. }
    destruct (Z.eqb_spec m 3).
    + destruct (Qle_bool x 0) eqn:E1, (Qle_bool 0 x) eqn:E2; cbn [negb andb];
        rewrite ?Qle_bool_iff in *; rewrite ?Qle_bool_false in *.
      * rewrite Z0 by lra. f_equal.
      * destruct (Qeq_bool x (inject_Z (Qfloor x))); reflexivity.
      * f_equal; lia.
      * lra.
    + destruct (Z.eqb_spec m 4); [|lia].
      destruct (Qle_bool x 0) eqn:E1, (Qle_bool 0 x) eqn:E2; cbn [negb andb];
        rewrite ?Qle_bool_iff in *; rewrite ?Qle_bool_false in *.
      * rewrite Z0 by lra. cbn. f_equal. lia.
      * rewrite andb_false_r. f_equal; lia.
      * rewrite andb_true_r. destruct (Qeq_bool x (inject_Z (Qfloor x))); reflexivity.
      * lra.
Qed.

(* the emulation implements the rounding modes *)
Theorem emulate_rounds : forall m x r, emulate_round m x = Some r -> rounds_to m x r.
Proof.
  intros m x r H. unfold emulate_round, ROUND_RNE, ROUND_RU, ROUND_RD, ROUND_RZ, ROUND_RAZ in H. unfold rounds_to.
  pose proof (floor_lo x) as L. pose proof (floor_hi x) as U.
  assert (C : (x <= inject_Z (Qceiling x))%Q /\ (inject_Z (Qceiling x) < x + 1)%Q).
  { rewrite ceiling_floor. destruct (Qeq_bool x (inject_Z (Qfloor x))) eqn:E; rewrite inject_Z_plus.
    - apply Qeq_bool_iff in E. change (inject_Z 0) with 0%Q. lra.
    - assert (N : ~ (x == inject_Z (Qfloor x))%Q) by (intros X; apply Qeq_bool_iff in X; congruence).
      change (inject_Z 1) with 1%Q. assert (inject_Z (Qfloor x) < x)%Q; [|lra].
      destruct (Qlt_le_dec (inject_Z (Qfloor x)) x); auto. exfalso. apply N. lra. }
  assert (Cp : (x <= 0)%Q -> (inject_Z (Qceiling x) <= 0)%Q).
  { intros P. change 0%Q with (inject_Z 0). rewrite inj_le_iff.
    apply (Qceiling_resp_le x 0) in P. exact P. }
  assert (Fp : (0 < x)%Q -> (0 <= inject_Z (Qfloor x))%Q).
  { intros P. change 0%Q with (inject_Z 0). rewrite inj_le_iff. assert (P' : (0 <= x)%Q) by lra.
    apply (Qfloor_resp_le 0 x) in P'. exact P'. }
  destruct (Z.eqb_spec m 0); [injection H as <-; left|].
  - split; auto. split; [apply qrne_half|]. intros T.
    assert (X : (x - inject_Z (Qfloor x) == 1 # 2)%Q).
    { destruct (Qeq_dec (x - inject_Z (Qfloor x)) (1#2)) as [e1|n1]; auto. exfalso.
      unfold qrne in T. destruct (x - inject_Z (Qfloor x) ?= 1 # 2)%Q eqn:C1.
      - apply Qeq_alt in C1. auto.
      - rewrite <- Qlt_alt in C1. revert T. apply Qabs_case; intros; lra.
      - rewrite <- Qgt_alt in C1. revert T. rewrite inject_Z_plus. change (inject_Z 1) with 1%Q. apply Qabs_case; intros; lra. }
    rewrite (qrne_tie _ _ X). destruct (Z.even (Qfloor x)) eqn:Ev; auto.
    rewrite Z.even_add, Ev. reflexivity.
  - right. destruct (Z.eqb_spec m 1); [injection H as <-; left; split; auto; lra|].
    right. destruct (Z.eqb_spec m 2); [injection H as <-; left; split; auto; lra|].
    right. destruct (Z.eqb_spec m 3).
    + left. split; auto. destruct (Qle_bool x 0) eqn:E1; cbn [negb] in H; injection H as <-.
      * apply Qle_bool_iff in E1. specialize (Cp E1). rewrite (Qabs_neg x) by auto. rewrite (Qabs_neg (inject_Z _)) by auto.
        split; [rewrite Qabs_pos by lra; lra|lra].
      * apply Qle_bool_false in E1. specialize (Fp E1). rewrite (Qabs_pos x) by lra. rewrite (Qabs_pos (inject_Z _)) by auto.
        split; [rewrite Qabs_neg by lra; lra|lra].
    + right. destruct (Z.eqb_spec m 4); [|discriminate]. split; auto.
      destruct (Qle_bool x 0) eqn:E1; cbn [negb] in H; injection H as <-.
      * apply Qle_bool_iff in E1. rewrite (Qabs_neg x) by auto.
        rewrite (Qabs_neg (inject_Z _)) by lra. split; [rewrite Qabs_neg by lra; lra|lra].
      * apply Qle_bool_false in E1. rewrite (Qabs_pos x) by lra. rewrite (Qabs_pos (inject_Z _)) by lra.
        split; [rewrite Qabs_pos by lra; lra|lra].
Qed.

(* ------------------------------------------------------------------ *)
(* the increment logic                                                  *)
(* ------------------------------------------------------------------ *)
Section Circuit.
Variable F : fpfmt.
Variables qsize rsize : Z.
Hypothesis HF : fmt_ok F.
Hypothesis Hq : 1 <= qsize.
Hypothesis Hr : 1 <= rsize.
Let K := frac F qsize.

Lemma K_big : 2 <= K.
Proof. unfold K, frac, product_size, mantissa_size. destruct HF. lia. Qed.

Definition qval (v : Z) : Q := (inject_Z v * p2 (- K))%Q.

Lemma qval_split : forall v, (qval v == inject_Z (v / 2 ^ K) + inject_Z (v mod 2 ^ K) * p2 (- K))%Q.
Proof.
  intros v. pose proof K_big. assert (P : 0 < 2 ^ K) by (apply Z.pow_pos_nonneg; lia).
  unfold qval. rewrite (Z.div_mod v (2 ^ K)) at 1 by lia. rewrite inject_Z_plus, inject_Z_mult, <- p2_Z by lia.
  pose proof (p2_opp K) as O.
  setoid_replace ((p2 K * inject_Z (v / 2 ^ K) + inject_Z (v mod 2 ^ K)) * p2 (- K))%Q
    with (inject_Z (v / 2 ^ K) * (p2 (- K) * p2 K) + inject_Z (v mod 2 ^ K) * p2 (- K))%Q by ring.
  rewrite O. ring.
Qed.

Lemma small_frac : forall v, let r := v mod 2 ^ K in
  (0 <= inject_Z r * p2 (- K))%Q /\ (inject_Z r * p2 (- K) < 1)%Q.
Proof.
  intros v r. pose proof K_big. assert (P : 0 < 2 ^ K) by (apply Z.pow_pos_nonneg; lia).
  assert (B : 0 <= r < 2 ^ K) by (apply Z.mod_pos_bound; auto).
  pose proof (p2_pos (- K)) as Pp. split.
  - apply Qmult_le_0_compat; [|lra]. change 0%Q with (inject_Z 0). rewrite inj_le_iff. lia.
  - rewrite <- (p2_opp K). rewrite (Qmult_comm (p2 (- K)) (p2 K)). apply Qmult_lt_r; auto.
    rewrite p2_Z by lia. rewrite inj_lt_iff. lia.
Qed.

Lemma floor_qval : forall v, Qfloor (qval v) = v / 2 ^ K.
Proof.
  intros v. pose proof (small_frac v) as [A B]. cbv zeta in A, B. pose proof (qval_split v).
  apply Qfloor_unique; [lra|]. rewrite inject_Z_plus. change (inject_Z 1) with 1%Q. lra.
Qed.

Lemma qcmp_scaled : forall v, ((qval v - inject_Z (v / 2 ^ K)) ?= 1 # 2)%Q = (v mod 2 ^ K ?= 2 ^ (K - 1)).
Proof.
  intros v. pose proof K_big. pose proof (qval_split v) as S.
  assert (Hh : (1 # 2 == inject_Z (2 ^ (K - 1)) * p2 (- K))%Q).
  { rewrite <- p2_Z, <- p2_plus by lia. replace (K - 1 + - K) with (-1) by lia. reflexivity. }
  pose proof (p2_pos (- K)) as Pp.
  assert (E : (qval v - inject_Z (v / 2 ^ K) == inject_Z (v mod 2 ^ K) * p2 (- K))%Q) by lra.
  destruct (Z.compare_spec (v mod 2 ^ K) (2 ^ (K - 1))) as [e|l|g].
  - apply Qeq_alt. rewrite E, Hh, e. reflexivity.
  - rewrite <- Qlt_alt. rewrite E, Hh. apply Qmult_lt_r; auto. rewrite inj_lt_iff. auto.
  - rewrite <- Qgt_alt. rewrite E, Hh. apply Qmult_lt_r; auto. rewrite inj_lt_iff. auto.
Qed.

Lemma cls_qval : forall v, cls (qval v) = (v / 2 ^ K, negb (v mod 2 ^ K =? 0), v mod 2 ^ K ?= 2 ^ (K - 1)).
Proof.
  intros v. unfold cls. rewrite floor_qval, qcmp_scaled. f_equal. f_equal. f_equal.
  pose proof (qval_split v) as S. pose proof (p2_pos (- K)) as Pp.
  destruct (Z.eqb_spec (v mod 2 ^ K) 0) as [e|n].
  - apply Qeq_bool_iff. rewrite S, e. change (inject_Z 0) with 0%Q. lra.
  - destruct (Qeq_bool (qval v) (inject_Z (v / 2 ^ K))) eqn:E; auto. apply Qeq_bool_iff in E. exfalso. apply n.
    assert (X : (inject_Z (v mod 2 ^ K) * p2 (- K) == 0)%Q) by lra.
    apply Qmult_integral in X. destruct X as [X|X]; [|lra]. apply inject_Z_injective. exact X.
Qed.

Lemma bits_split : forall v, let r := v mod 2 ^ K in
  round_bit F qsize v = (2 ^ (K - 1) <=? r) /\ sticky_bit F qsize v = negb (r mod 2 ^ (K - 1) =? 0)
  /\ parity_bit F qsize v = Z.odd (v / 2 ^ K) /\ (0 <=? v) = (0 <=? v / 2 ^ K).
Proof.
  intros v r. pose proof K_big. assert (P : 0 < 2 ^ K) by (apply Z.pow_pos_nonneg; lia).
  assert (P1 : 0 < 2 ^ (K - 1)) by (apply Z.pow_pos_nonneg; lia).
  assert (D : 2 ^ K = 2 * 2 ^ (K - 1)) by (rewrite <- Z.pow_succ_r by lia; f_equal; lia).
  assert (B : 0 <= r < 2 ^ K) by (apply Z.mod_pos_bound; auto).
  split; [|split; [|split]].
  - unfold round_bit. fold K. replace (K + -1) with (K - 1) by lia.
    rewrite <- (Z.mod_pow2_bits_low v K) by lia. fold r. rewrite Z.testbit_odd, Z.shiftr_div_pow2 by lia.
    destruct (Z.leb_spec (2 ^ (K - 1)) r).
    + replace (r / 2 ^ (K - 1)) with 1; [reflexivity|]. apply Z.div_unique with (r - 2 ^ (K - 1)); lia.
    + rewrite Z.div_small by lia. reflexivity.
  - unfold sticky_bit. fold K. replace (K + -2 + 1) with (K - 1) by lia. f_equal. f_equal.
    unfold r. apply Znumtheory.Zmod_div_mod; auto. exists 2. exact D.
  - unfold parity_bit. fold K. rewrite Z.add_0_r, Z.testbit_odd, Z.shiftr_div_pow2 by lia. reflexivity.
  - destruct (Z.leb_spec 0 v), (Z.leb_spec 0 (v / 2 ^ K)); auto; exfalso.
    + pose proof (Z.div_pos v (2 ^ K)). lia.
    + assert (v / 2 ^ K < 0) by (apply Z.div_lt_upper_bound; lia). lia.
Qed.

Lemma increment_correct : forall m v, 0 <= m <= 4 -> round_increment F qsize m v = incf m (cls (qval v)).
Proof.
  intros m v Hm. rewrite cls_qval. destruct (bits_split v) as (E1 & E2 & E3 & E4).
  pose proof K_big. assert (P1 : 0 < 2 ^ (K - 1)) by (apply Z.pow_pos_nonneg; lia).
  assert (D : 2 ^ K = 2 * 2 ^ (K - 1)) by (rewrite <- Z.pow_succ_r by lia; f_equal; lia).
  assert (B : 0 <= v mod 2 ^ K < 2 ^ K) by (apply Z.mod_pos_bound; lia).
  unfold round_increment. rewrite E1, E2, E3, E4. unfold incf, ROUND_RNE, ROUND_RU, ROUND_RD, ROUND_RZ, ROUND_RAZ.
  set (r := v mod 2 ^ K) in *. set (fl := v / 2 ^ K) in *.
  assert (NZ : (2 ^ (K - 1) <=? r) || negb (r mod 2 ^ (K - 1) =? 0) = negb (r =? 0)).
  { destruct (Z.leb_spec (2 ^ (K - 1)) r); cbn [orb].
    - destruct (Z.eqb_spec r 0); auto; lia.
    - rewrite Z.mod_small by lia. reflexivity. }
  rewrite NZ.
  assert (C : (2 ^ (K - 1) <=? r) && (negb (r mod 2 ^ (K - 1) =? 0) || negb (negb (Z.odd fl)))
    = match r ?= 2 ^ (K - 1) with Lt => false | Gt => true | Eq => negb (Z.even fl) end).
  { rewrite <- Z.negb_odd. destruct (Z.compare_spec r (2 ^ (K - 1))) as [e|l|g].
    - rewrite e, Z_mod_same_full. rewrite Z.leb_refl. reflexivity.
    - destruct (Z.leb_spec (2 ^ (K - 1)) r); [lia|]. reflexivity.
    - destruct (Z.leb_spec (2 ^ (K - 1)) r); [|lia]. cbn [andb].
      replace (r mod 2 ^ (K - 1)) with (r - 2 ^ (K - 1)).
      + destruct (Z.eqb_spec (r - 2 ^ (K - 1)) 0); [lia|]. reflexivity.
      + apply Z.mod_unique with 1; lia. }
  rewrite C.
  assert (M : m = 0 \/ m = 1 \/ m = 2 \/ m = 3 \/ m = 4) by lia.
  destruct M as [-> |[-> |[-> |[-> | ->]]]]; cbn [Z.eqb Pos.eqb andb orb];
    rewrite ?orb_false_r; reflexivity.
Qed.

Lemma clamp_shift : forall r, Z.shiftr (Z.max (min_bound rsize * 2 ^ K) (Z.min r (max_bound rsize * 2 ^ K))) K
  = Z.max (Z.min (max_bound rsize) (r / 2 ^ K)) (min_bound rsize).
Proof.
  intros r. pose proof K_big. assert (P : 0 < 2 ^ K) by (apply Z.pow_pos_nonneg; lia).
  rewrite Z.shiftr_div_pow2 by lia. set (lo := min_bound rsize). set (hi := max_bound rsize).
  assert (L : lo <= hi). { unfold lo, hi, min_bound, max_bound. pose proof (Z.pow_pos_nonneg 2 (rsize - 1)). lia. }
  pose proof (Z.div_mod r (2 ^ K) ltac:(lia)) as D. pose proof (Z.mod_pos_bound r (2 ^ K) P) as B.
  set (u := r / 2 ^ K) in *. set (w := r mod 2 ^ K) in *.
  destruct (Z.le_gt_cases hi u) as [A|A].
  - rewrite (Z.min_r r) by nia. rewrite Z.max_r by nia. rewrite Z.div_mul by lia. lia.
  - rewrite (Z.min_l r) by nia. destruct (Z.lt_ge_cases u lo) as [A'|A'].
    + rewrite Z.max_l by nia. rewrite Z.div_mul by lia. lia.
    + rewrite Z.max_r by nia. fold u. lia.
Qed.

(* the rounding and clamping stage, for any field value *)
Theorem dequant_rounding : forall m s E M q o, 0 <= m <= 4 ->
  exists u, emulate_round m (qval (offseted_field F qsize rsize s E M q o)) = Some u
  /\ dequant F qsize rsize m s E M q o = Z.max (Z.min (max_bound rsize) u) (min_bound rsize).
Proof.
  intros m s E M q o Hm. unfold dequant. fold K. set (v := offseted_field F qsize rsize s E M q o).
  eexists. split; [apply emulate_floor; auto|]. rewrite clamp_shift. f_equal. f_equal.
  rewrite floor_qval. unfold rounded_result. fold K. rewrite increment_correct by auto.
  pose proof K_big. rewrite Z.div_add by (apply Z.pow_nonzero; lia). reflexivity.
Qed.

(* ------------------------------------------------------------------ *)
(* the scaled field                                                     *)
(* ------------------------------------------------------------------ *)
Lemma near_cls : forall o t t', (0 < t < 1 # 2)%Q /\ (0 < t' < 1 # 2)%Q \/ (-(1 # 2) < t < 0)%Q /\ (-(1 # 2) < t' < 0)%Q ->
  forall x x', (x == inject_Z o + t)%Q -> (x' == inject_Z o + t')%Q -> cls x = cls x'.
Proof.
  assert (G : forall o t x, (x == inject_Z o + t)%Q -> (0 < t < 1 # 2)%Q -> cls x = (o, true, Lt)).
  { intros o t x E B. unfold cls. rewrite (Qfloor_unique x o); [|lra|rewrite inject_Z_plus; change (inject_Z 1) with 1%Q; lra].
    f_equal; [f_equal|].
    - apply negb_true_iff. destruct (Qeq_bool x (inject_Z o)) eqn:X; auto. apply Qeq_bool_iff in X. lra.
    - rewrite <- Qlt_alt. lra. }
  assert (G' : forall o t x, (x == inject_Z o + t)%Q -> (-(1 # 2) < t < 0)%Q -> cls x = (o - 1, true, Gt)).
  { intros o t x E B. unfold cls.
    assert (I : (inject_Z (o - 1) == inject_Z o - 1)%Q) by (unfold Z.sub; rewrite inject_Z_plus; reflexivity).
    rewrite (Qfloor_unique x (o - 1)); [|lra|replace (o - 1 + 1) with o by lia; lra].
    f_equal; [f_equal|].
    - apply negb_true_iff. destruct (Qeq_bool x (inject_Z (o - 1))) eqn:X; auto. apply Qeq_bool_iff in X. lra.
    - rewrite <- Qgt_alt. lra. }
  intros o t t' [[A B]|[A B]] x x' E E'.
  - rewrite (G o t x), (G o t' x'); auto.
  - rewrite (G' o t x), (G' o t' x'); auto.
Qed.

Lemma emulate_comp : forall m x y, 0 <= m <= 4 -> (x == y)%Q -> emulate_round m x = emulate_round m y.
Proof.
  intros m x y Hm E. rewrite !emulate_floor by auto. unfold cls. rewrite (Qfloor_comp _ _ E).
  assert (X : Qeq_bool x (inject_Z (Qfloor y)) = Qeq_bool y (inject_Z (Qfloor y))).
  { destruct (Qeq_bool y (inject_Z (Qfloor y))) eqn:Y.
    - apply Qeq_bool_iff. apply Qeq_bool_iff in Y. lra.
    - destruct (Qeq_bool x (inject_Z (Qfloor y))) eqn:Z; auto. apply Qeq_bool_iff in Z.
      assert (W : (y == inject_Z (Qfloor y))%Q) by lra. apply Qeq_bool_iff in W. congruence. }
  rewrite X. assert (Cm : ((x - inject_Z (Qfloor y)) ?= 1 # 2)%Q = ((y - inject_Z (Qfloor y)) ?= 1 # 2)%Q).
  { apply Qcompare_comp; [lra|reflexivity]. }
  rewrite Cm. reflexivity.
Qed.
Lemma emulate_cls : forall m x y, 0 <= m <= 4 -> cls x = cls y -> emulate_round m x = emulate_round m y.
Proof. intros m x y Hm E. rewrite !emulate_floor by auto. rewrite E. unfold cls in E. injection E as -> _ _. reflexivity. Qed.
Lemma emulate_ge : forall m x z u, emulate_round m x = Some u -> 0 <= m <= 4 -> (inject_Z z <= x)%Q -> z <= u.
Proof.
  intros m x z u H Hm L. rewrite emulate_floor in H by auto.
  assert (Hu : u = Qfloor x + (if incf m (cls x) then 1 else 0)) by congruence. clear H. subst u.
  apply Qfloor_resp_le in L. rewrite Qfloor_Z in L. destruct (incf m (cls x)); lia.
Qed.
Lemma emulate_le : forall m x z u, emulate_round m x = Some u -> 0 <= m <= 4 -> (x <= inject_Z z)%Q -> u <= z + 1.
Proof.
  intros m x z u H Hm L. rewrite emulate_floor in H by auto.
  assert (Hu : u = Qfloor x + (if incf m (cls x) then 1 else 0)) by congruence. clear H. subst u.
  apply Qfloor_resp_le in L. rewrite Qfloor_Z in L. destruct (incf m (cls x)); lia.
Qed.

Lemma inj_pow : forall n, 0 <= n -> (inject_Z (2 ^ n) == p2 n)%Q.
Proof. intros. rewrite p2_Z; auto. reflexivity. Qed.

(* scale with exponent field E: a normal number or zero *)
Theorem dequant_correct : forall m s E M q o (scale : Q), 0 <= m <= 4 ->
  0 <= M < 2 ^ fsz F -> E <> 0 \/ M = 0 -> - 2 ^ (qsize - 1) <= q <= 2 ^ (qsize - 1) -> - 2 ^ rsize <= o <= 2 ^ rsize ->
  (scale == inject_Z (scale_mant F s E M) * p2 (E + bias F - fsz F))%Q ->
  numeric_emulate rsize m scale q o = Some (dequant F qsize rsize m s E M q o).
Proof.
  intros m s E M q o scale Hm HM HE Bq Bo Hs.
  destruct (dequant_rounding m s E M q o Hm) as (u & Eu & ->).
  unfold numeric_emulate.
  set (x := (scale * inject_Z q + inject_Z o)%Q).
  set (v := offseted_field F qsize rsize s E M q o) in *.
  assert (Hu : exists u', emulate_round m x = Some u'
     /\ Z.max (Z.min (max_bound rsize) u') (min_bound rsize) = Z.max (Z.min (max_bound rsize) u) (min_bound rsize)).
  2:{ destruct Hu as (u' & -> & ->). reflexivity. }
  pose proof K_big as KB. destruct HF as [He Hf].
  set (N := scale_mant F s E M * q) in *.
  assert (P2f : 0 < 2 ^ fsz F) by (apply Z.pow_pos_nonneg; lia).
  assert (P2q : 0 < 2 ^ (qsize - 1)) by (apply Z.pow_pos_nonneg; lia).
  (* bounds of the product *)
  assert (BN : (N = 0 \/ 2 ^ fsz F <= N \/ N <= - 2 ^ fsz F) /\ Z.abs N <= 2 ^ (fsz F + qsize)).
  { assert (BM : 0 <= normalized_mantissa F E M < 2 ^ (fsz F + 1)).
    { unfold normalized_mantissa. rewrite Z.pow_add_r by lia. change (2 ^ 1) with 2. destruct (E =? 0); lia. }
    assert (BS : Z.abs (scale_mant F s E M) = normalized_mantissa F E M) by (unfold scale_mant; destruct s; lia).
    split.
    - assert (C : normalized_mantissa F E M = 0 \/ 2 ^ fsz F <= normalized_mantissa F E M).
      { unfold normalized_mantissa. destruct (Z.eqb_spec E 0); [left; destruct HE; lia|right; lia]. }
      unfold N. destruct (Z.eq_dec q 0) as [-> |Nq]; [left; lia|]. destruct C as [C|C].
      + left. assert (scale_mant F s E M = 0) by lia. nia.
      + right. assert (X : 2 ^ fsz F <= Z.abs (scale_mant F s E M * q)) by (rewrite Z.abs_mul, BS; nia). lia.
    - unfold N. rewrite Z.abs_mul, BS. replace (fsz F + qsize) with ((fsz F + 1) + (qsize - 1)) by lia.
      rewrite Z.pow_add_r by lia. apply Z.mul_le_mono_nonneg; lia. }
  destruct BN as [CN BN].
  set (e := E + bias F) in *. set (ms := max_shift F qsize rsize) in *.
  assert (Hms : ms = rsize + 1 + K) by (unfold ms, K, max_shift, frac; lia).
  assert (HK : K = fsz F + qsize + 3) by (unfold K, frac, product_size, mantissa_size; lia).
  assert (Hx : (x == inject_Z N * p2 (e - fsz F) + inject_Z o)%Q).
  { unfold x, N. rewrite Hs, inject_Z_mult. unfold e. ring. }
  assert (Hv : (qval v == inject_Z (scaled_field F qsize rsize s E M q) * p2 (- K) + inject_Z o)%Q).
  { unfold qval, v, offseted_field. fold K. rewrite inject_Z_plus, inject_Z_mult, inj_pow by lia.
    pose proof (p2_opp K) as O.
    setoid_replace ((inject_Z (scaled_field F qsize rsize s E M q) + inject_Z o * p2 K) * p2 (- K))%Q
      with (inject_Z (scaled_field F qsize rsize s E M q) * p2 (- K) + inject_Z o * (p2 (- K) * p2 K))%Q by ring.
    rewrite O. ring. }
  assert (Hsc : scaled_field F qsize rsize s E M q = Z.shiftr (N * 2 ^ (ms - fsz F)) (Z.max (Z.min (- e + rsize + 1) ms) 0)).
  { unfold scaled_field, extended_field, shift_amount, mantissa_size. fold ms e N. replace (fsz F + 1 - 1) with (fsz F) by lia. reflexivity. }
  set (sc := scaled_field F qsize rsize s E M q) in *.
  (* exact zero *)
  destruct (Z.eq_dec N 0) as [N0|N0].
  { exists u. split; auto. rewrite <- Eu. apply emulate_comp; auto. rewrite Hx, Hv, Hsc, N0. rewrite Z.mul_0_l, Z.shiftr_0_l.
    change (inject_Z 0) with 0%Q. ring. }
  destruct (Z.lt_ge_cases (- e + rsize + 1) 0) as [C|C].
  - (* left shift would be needed: saturated both ways *)
    rewrite Z.max_r in Hsc by lia. rewrite Z.shiftr_0_r in Hsc.
    assert (T : (qval v == inject_Z N * p2 (rsize + 1 - fsz F) + inject_Z o)%Q).
    { rewrite Hv, Hsc, inject_Z_mult, inj_pow by lia. rewrite <- Qmult_assoc, <- p2_plus.
      replace (ms - fsz F + - K) with (rsize + 1 - fsz F) by lia. reflexivity. }
    pose proof (inj_pow (rsize + 1) ltac:(lia)) as I1. pose proof (inj_pow rsize ltac:(lia)) as I0.
    pose proof (p2_succ rsize) as D. pose proof (p2_pos (rsize + 1 - fsz F)) as Pa.
    assert (Le : (p2 (rsize + 1 - fsz F) <= p2 (e - fsz F))%Q) by (apply p2_le; lia).
    assert (Fa : (p2 (fsz F) * p2 (rsize + 1 - fsz F) == p2 (rsize + 1))%Q).
    { rewrite <- p2_plus. replace (fsz F + (rsize + 1 - fsz F)) with (rsize + 1) by lia. reflexivity. }
    assert (Bo' : (- p2 rsize <= inject_Z o)%Q /\ (inject_Z o <= p2 rsize)%Q).
    { rewrite <- I0, <- inject_Z_opp, !inj_le_iff. lia. }
    assert (Pr : 2 ^ rsize = 2 * 2 ^ (rsize - 1)) by (rewrite <- Z.pow_succ_r by lia; f_equal; lia).
    assert (Ppr : 0 < 2 ^ (rsize - 1)) by (apply Z.pow_pos_nonneg; lia).
    eexists. split; [apply emulate_floor; auto|].
    set (u' := Qfloor x + (if incf m (cls x) then 1 else 0)).
    assert (Eu' : emulate_round m x = Some u') by (apply emulate_floor; auto).
    destruct CN as [CN|[CN|CN]]; [lia| |].
    + assert (QN : (p2 (fsz F) <= inject_Z N)%Q) by (rewrite <- inj_pow, inj_le_iff by lia; auto).
      assert (L1 : (p2 (rsize + 1) <= inject_Z N * p2 (rsize + 1 - fsz F))%Q).
      { rewrite <- Fa. apply Qmult_le_compat_r; [auto|lra]. }
      assert (L2 : (inject_Z N * p2 (rsize + 1 - fsz F) <= inject_Z N * p2 (e - fsz F))%Q).
      { rewrite (Qmult_comm _ (p2 (rsize + 1 - _))), (Qmult_comm _ (p2 (e - _))). apply Qmult_le_compat_r; auto. pose proof (p2_pos (fsz F)). lra. }
      assert (A1 : 2 ^ rsize <= u) by (apply (emulate_ge m (qval v)); auto; lra).
      assert (A2 : 2 ^ rsize <= u') by (apply (emulate_ge m x); auto; lra).
      unfold max_bound. lia.
    + assert (QN : (inject_Z N <= - p2 (fsz F))%Q) by (rewrite <- inj_pow, <- inject_Z_opp, inj_le_iff by lia; auto).
      assert (L1 : (inject_Z N * p2 (rsize + 1 - fsz F) <= - p2 (rsize + 1))%Q).
      { rewrite <- Fa. setoid_replace (- (p2 (fsz F) * p2 (rsize + 1 - fsz F)))%Q with ((- p2 (fsz F)) * p2 (rsize + 1 - fsz F))%Q by ring.
        apply Qmult_le_compat_r; [auto|lra]. }
      assert (L2 : (inject_Z N * p2 (e - fsz F) <= inject_Z N * p2 (rsize + 1 - fsz F))%Q).
      { assert (X : (0 <= (- inject_Z N) * (p2 (e - fsz F) - p2 (rsize + 1 - fsz F)))%Q).
        { apply Qmult_le_0_compat; [|lra]. pose proof (p2_pos (fsz F)). lra. }
        lra. }
      assert (I0' : (inject_Z (- 2 ^ rsize) == - p2 rsize)%Q) by (rewrite inject_Z_opp, I0; reflexivity).
      assert (A1 : u <= - 2 ^ rsize + 1) by (apply (emulate_le m (qval v)); auto; lra).
      assert (A2 : u' <= - 2 ^ rsize + 1) by (apply (emulate_le m x); auto; lra).
      unfold min_bound, max_bound. lia.
  - rewrite (Z.max_l _ 0) in Hsc by (destruct HF; lia).
    destruct (Z.le_gt_cases (- e + rsize + 1) (ms - fsz F)) as [C2|C2].
    + (* no bit lost *)
      rewrite Z.min_l in Hsc by lia. rewrite Z.shiftr_div_pow2 in Hsc by lia.
      replace (ms - fsz F) with ((K - fsz F + e) + (- e + rsize + 1)) in Hsc by lia.
      rewrite Z.pow_add_r, Z.mul_assoc, Z.div_mul in Hsc by (try apply Z.pow_nonzero; lia).
      exists u. split; auto. rewrite <- Eu. apply emulate_comp; auto.
      rewrite Hx, Hv, Hsc, inject_Z_mult, inj_pow by lia. rewrite <- (Qmult_assoc (inject_Z N)), <- p2_plus.
      replace (K - fsz F + e + - K) with (e - fsz F) by lia. reflexivity.
    + (* bits lost: far below one half *)
      exists u. split; auto. rewrite <- Eu. apply emulate_cls; auto.
      set (sh := Z.min (- e + rsize + 1) ms) in *.
      assert (Bsh : ms - fsz F < sh <= ms) by lia.
      set (d := sh - (ms - fsz F)).
      assert (Hd : sc = N / 2 ^ d).
      { rewrite Hsc, Z.shiftr_div_pow2 by lia. replace sh with (d + (ms - fsz F)) by (unfold d; lia).
        rewrite Z.pow_add_r by (unfold d; lia). apply Z.div_mul_cancel_r; apply Z.pow_nonzero; unfold d; lia. }
      assert (Pd : 1 <= 2 ^ d) by (assert (0 < 2 ^ d) by (apply Z.pow_pos_nonneg; unfold d; lia); lia).
      assert (Ld : 2 ^ d <= 2 ^ fsz F) by (apply Z.pow_le_mono_r; unfold d; lia).
      assert (Ex : (p2 (fsz F + qsize) * p2 (e - fsz F) < 1 # 2)%Q).
      { rewrite <- p2_plus. change (1 # 2)%Q with (p2 (-1)). apply p2_lt. lia. }
      assert (Ev : (p2 (fsz F + qsize) * p2 (- K) < 1 # 2)%Q).
      { rewrite <- p2_plus. change (1 # 2)%Q with (p2 (-1)). apply p2_lt. lia. }
      pose proof (p2_pos (e - fsz F)) as P1. pose proof (p2_pos (- K)) as P3.
      assert (Bnd : forall z w, z <= 2 ^ (fsz F + qsize) -> (0 < w)%Q -> (inject_Z z * w <= p2 (fsz F + qsize) * w)%Q).
      { intros z w Hz Hw. apply Qmult_le_compat_r; [|lra]. rewrite <- inj_pow, inj_le_iff by lia. auto. }
      assert (Pos : forall z w, 0 < z -> (0 < w)%Q -> (0 < inject_Z z * w)%Q).
      { intros z w Hz Hw. apply (Qle_lt_trans _ (0 * w)); [lra|]. apply Qmult_lt_r; auto. change 0%Q with (inject_Z 0). rewrite inj_lt_iff. auto. }
      apply (near_cls o (inject_Z N * p2 (e - fsz F)) (inject_Z sc * p2 (- K))); [|lra|lra].
      destruct CN as [CN|[CN|CN]]; [lia|left|right].
      * assert (1 <= sc) by (rewrite Hd; apply Z.div_le_lower_bound; lia).
        assert (sc <= N) by (rewrite Hd; apply Z.div_le_upper_bound; nia).
        pose proof (Bnd N _ ltac:(lia) P1). pose proof (Bnd sc _ ltac:(lia) P3).
        pose proof (Pos N _ ltac:(lia) P1). pose proof (Pos sc _ ltac:(lia) P3). lra.
      * assert (sc <= -1). { rewrite Hd. assert (N / 2 ^ d < 0) by (apply Z.div_lt_upper_bound; lia). lia. }
        assert (N <= sc) by (rewrite Hd; apply Z.div_le_lower_bound; nia).
        pose proof (Bnd (- N) _ ltac:(lia) P1). pose proof (Bnd (- sc) _ ltac:(lia) P3).
        pose proof (Pos (- N) _ ltac:(lia) P1). pose proof (Pos (- sc) _ ltac:(lia) P3). rewrite !inject_Z_opp in *. lra.
Qed.
End Circuit.

Lemma normal_value : forall F s E M q, 0 < E -> ieee_datum F s E M (Num q) ->
  (q == inject_Z (scale_mant F s E M) * p2 (E + bias F - fsz F))%Q \/ ~ fmt_ok F.
Proof.
  intros F s E M q HE D. destruct (Z_lt_le_dec (fsz F) 1) as [|H1]; [right; intros [_ H]; lia|]. left.
  inversion D; subst; [|lia]. unfold scale_mant, normalized_mantissa.
  destruct (Z.eqb_spec E 0); [lia|].
  assert (B : E + bias F - fsz F = (E - ieee_bias F) + - fsz F) by (unfold bias, ieee_bias; lia).
  rewrite B, p2_plus. pose proof (p2_opp (fsz F)) as O.
  assert (X : (inject_Z (2 ^ fsz F + M) * (p2 (E - ieee_bias F) * p2 (- fsz F))
    == p2 (E - ieee_bias F) * (1 + inject_Z M * p2 (- fsz F)))%Q).
  { rewrite inject_Z_plus, inj_pow by lia.
    setoid_replace ((p2 (fsz F) + inject_Z M) * (p2 (E - ieee_bias F) * p2 (- fsz F)))%Q
      with (p2 (E - ieee_bias F) * (p2 (- fsz F) * p2 (fsz F) + inject_Z M * p2 (- fsz F)))%Q by ring.
    rewrite O. reflexivity. }
  match goal with H : (q == _)%Q |- _ => rewrite H end.
  destruct s; [rewrite inject_Z_opp|].
  - setoid_replace (- inject_Z (2 ^ fsz F + M) * (p2 (E - ieee_bias F) * p2 (- fsz F)))%Q
      with (- (inject_Z (2 ^ fsz F + M) * (p2 (E - ieee_bias F) * p2 (- fsz F))))%Q by ring. rewrite X. ring.
  - rewrite X. ring.
Qed.

(* every normal or zero scale: the result is scale * quantized_input + offset
   rounded according to the mode, then clamped to the result format *)
Theorem dequant_ieee : forall F qsize rsize m s E M d scale q o,
  fmt_ok F -> 1 <= qsize -> 1 <= rsize -> 0 <= m <= 4 ->
  ieee_datum F s E M d -> 0 <= M < 2 ^ fsz F ->
  (0 < E /\ d = Num scale) \/ ((d = PZero \/ d = MZero) /\ (scale == 0)%Q) ->
  - 2 ^ (qsize - 1) <= q < 2 ^ (qsize - 1) -> - 2 ^ (rsize - 1) <= o < 2 ^ (rsize - 1) ->
  exists r, rounds_to m (scale * inject_Z q + inject_Z o) r
  /\ dequant F qsize rsize m s E M q o = Z.max (Z.min (2 ^ (rsize - 1) - 1) r) (- 2 ^ (rsize - 1)).
Proof.
  intros F qsize rsize m s E M d scale q o HF Hq Hr Hm D HM C Bq Bo.
  assert (Pr : 2 ^ rsize = 2 * 2 ^ (rsize - 1)) by (rewrite <- Z.pow_succ_r by lia; f_equal; lia).
  assert (X : (E <> 0 \/ M = 0) /\ (scale == inject_Z (scale_mant F s E M) * p2 (E + bias F - fsz F))%Q).
  { destruct C as [[HE ->]|[C S0]].
    - split; [lia|]. destruct (normal_value F s E M scale HE D); auto; contradiction.
    - assert (Z0 : E = 0 /\ M = 0) by (destruct C as [-> | ->]; inversion D; auto). destruct Z0 as [-> ->].
      split; auto. rewrite S0. unfold scale_mant, normalized_mantissa. cbn [Z.eqb Z.add Z.opp].
      destruct s; change (inject_Z 0) with 0%Q; ring. }
  destruct X as [X1 X2].
  pose proof (dequant_correct F qsize rsize HF Hq Hr m s E M q o scale Hm HM X1 ltac:(lia) ltac:(lia) X2) as R.
  unfold numeric_emulate in R. destruct (emulate_round m _) as [u|] eqn:Eu; [|discriminate].
  injection R as R. exists u. split; [apply emulate_rounds; auto|]. symmetry. exact R.
Qed.

(* subnormal scale: the shift drops every bit, and rounding up a positive
   product gives 0 instead of 1 *)
Theorem dequant_subnormal_refuted : forall F qsize rsize M scale,
  fmt_ok F -> 1 <= qsize -> 2 <= rsize -> fsz F + qsize + 3 <= 2 ^ (esz F - 1) - 1 -> 0 < M < 2 ^ fsz F ->
  ieee_datum F false 0 M (Num scale) ->
  dequant F qsize rsize ROUND_RU false 0 M 1 0 = 0
  /\ numeric_emulate rsize ROUND_RU scale 1 0 = Some 1.
Proof.
  intros F qsize rsize M scale HF Hq Hr HB HM D. pose proof (K_big F qsize HF Hq) as KB.
  assert (HK : frac F qsize = fsz F + qsize + 3) by (unfold frac, product_size, mantissa_size; lia).
  destruct HF as [He Hf]. split.
  - unfold dequant, offseted_field, scaled_field, extended_field, shift_amount, scale_mant, normalized_mantissa.
    cbn [Z.eqb Z.add]. rewrite Z.mul_1_r. unfold max_shift at 2, mantissa_size.
    replace (product_size F qsize) with (fsz F + qsize + 2) by (unfold product_size, mantissa_size; lia).
    rewrite (Z.min_r (- bias F + rsize + 1)) by (unfold bias; lia).
    rewrite (Z.max_l (rsize + 1 + _ + 1) 0) by lia.
    replace (max_shift F qsize rsize - (fsz F + 1 - 1)) with (rsize + 4 + qsize)
      by (unfold max_shift, product_size, mantissa_size; lia).
    rewrite (Z.shiftr_div_pow2 (M * _)) by lia.
    replace (rsize + 1 + (fsz F + qsize + 2) + 1) with (fsz F + (rsize + 4 + qsize)) by lia.
    rewrite (Z.pow_add_r 2 (fsz F)), Z.div_mul_cancel_r by (try apply Z.pow_nonzero; lia).
    rewrite Z.div_small by lia. cbn [Z.mul Z.add].
    assert (R0 : round_increment F qsize ROUND_RU 0 = false).
    { unfold round_increment, round_bit, sticky_bit. rewrite Z.testbit_0_l, Zmod_0_l. reflexivity. }
    unfold rounded_result. rewrite R0. cbn [Z.mul Z.add].
    assert (P : 0 < 2 ^ (rsize - 1)) by (apply Z.pow_pos_nonneg; lia).
    assert (Pk : 0 < 2 ^ frac F qsize) by (apply Z.pow_pos_nonneg; lia).
    rewrite Z.min_l by (unfold max_bound; nia). rewrite Z.max_r by (unfold min_bound; nia).
    apply Z.shiftr_0_l.
  - inversion D; subst; [lia|].
    match goal with H : (scale == _)%Q |- _ => rename H into HS end.
    assert (B : (0 < scale * inject_Z 1 + inject_Z 0 <= 1)%Q).
    { change (inject_Z 1) with 1%Q. change (inject_Z 0) with 0%Q.
      assert (P1 : (p2 (1 - ieee_bias F) <= p2 0)%Q) by (apply p2_le; unfold ieee_bias; lia). rewrite p2_0 in P1.
      pose proof (p2_pos (1 - ieee_bias F)) as P0.
      assert (F1 : (0 < inject_Z M * p2 (- fsz F))%Q).
      { pose proof (p2_pos (- fsz F)). apply (Qle_lt_trans _ (0 * p2 (- fsz F))); [lra|]. apply Qmult_lt_r; auto.
        change 0%Q with (inject_Z 0). rewrite inj_lt_iff. lia. }
      assert (F2 : (inject_Z M * p2 (- fsz F) <= 1)%Q).
      { rewrite <- (p2_opp (fsz F)), (Qmult_comm (p2 (- fsz F))). pose proof (p2_pos (- fsz F)).
        apply Qmult_le_compat_r; [|lra]. rewrite p2_Z, inj_le_iff by lia. lia. }
      assert (G1 : (0 < p2 (1 - ieee_bias F) * (inject_Z M * p2 (- fsz F)))%Q) by (apply Qmult_lt_0_compat; auto).
      assert (G2 : (p2 (1 - ieee_bias F) * (inject_Z M * p2 (- fsz F)) <= 1 * 1)%Q).
      { apply Qle_trans with (1 * (inject_Z M * p2 (- fsz F)))%Q; [apply Qmult_le_compat_r; lra|lra]. }
      lra. }
    unfold numeric_emulate. change (emulate_round ROUND_RU (scale * inject_Z 1 + inject_Z 0)%Q)
      with (Some (Qceiling (scale * inject_Z 1 + inject_Z 0)%Q)).
    assert (C1 : Qceiling (scale * inject_Z 1 + inject_Z 0)%Q = 1).
    { unfold Qceiling. rewrite (Qfloor_unique _ (-1)); [reflexivity| |]; change (inject_Z (-1)) with (-(1))%Q; change (inject_Z (-1 + 1)) with 0%Q; lra. }
    rewrite C1. f_equal. unfold max_bound, min_bound.
    assert (2 <= 2 ^ (rsize - 1)). { change 2 with (2 ^ 1) at 1. apply Z.pow_le_mono_r; lia. } lia.
Qed.

From Coq Require Import List.
Import ListNotations.
Definition map_modes (f : Z -> Z) : list Z := map f [0; 1; 2; 3; 4].
(* scale = 0.625, input 17, offset 1337 (a test of the code), all modes; a
   saturated case; a scale of exponent field 1 *)
Example dequant_case : let F := (mkfmt 8 23 24) in
  map_modes (fun m => dequant F 32 32 m false 126 (2 ^ 21) 17 1337) = [1348; 1348; 1347; 1347; 1348]
  /\ map_modes (fun m => dequant F 32 32 m true 126 (2 ^ 21) 17 0) = [-11; -10; -11; -10; -11]
  /\ dequant F 32 32 0 false 227 0 17 12 = 2 ^ 31 - 1
  /\ map_modes (fun m => dequant F 32 32 m false 1 5 3 (-7)) = [-7; -6; -7; -6; -7].
Proof. vm_compute. auto. Qed.

Example dequant_case_hyps :
  ieee_datum (mkfmt 8 23 24) false 126 (2 ^ 21) (Num (5 # 8)) /\ fmt_ok (mkfmt 8 23 24)
  /\ fsz (mkfmt 8 23 24) + 32 + 3 <= 2 ^ (esz (mkfmt 8 23 24) - 1) - 1.
Proof. split; [apply d_normal; [cbn; lia|vm_compute; reflexivity]|split; [split; cbn; lia|cbn; lia]]. Qed.

Print Assumptions emulate_rounds.
Print Assumptions dequant_rounding.
Print Assumptions dequant_correct.
Print Assumptions dequant_ieee.
Print Assumptions dequant_subnormal_refuted.
