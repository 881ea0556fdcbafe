(* Hardware adder: lemmas about the sum. *)
From Coq Require Import ZArith QArith Qabs Qround Bool Lia Lqa Qfield.
From Verif Require Import QUtil FpFormatModel FpFormatSpec FpFormatProofs FpFormatProofs2 FpFormatProps TruncProps AdderModel AdderProofs AdderProofs2.
Open Scope Z_scope.

Lemma qrne_close : forall q z, (Qabs (q - inject_Z z) < 1 # 2)%Q -> qrne q = z.
Proof.
  intros q z H. pose proof (qrne_half q) as Hh. apply Qabs_Qle_condition in Hh. apply Qabs_Qlt_condition in H.
  assert (A : (inject_Z (qrne q) < inject_Z (z + 1))%Q) by (rewrite inject_Z_plus; change (inject_Z 1) with 1%Q; lra).
  assert (C : (inject_Z (z - 1) < inject_Z (qrne q))%Q) by (unfold Z.sub; rewrite inject_Z_plus; change (inject_Z (- (1))) with (-1)%Q; lra).
  rewrite <- Zlt_Qlt in A, C. lia.
Qed.
Lemma qrne_below : forall q z, (q < inject_Z z - (1 # 2))%Q -> qrne q < z.
Proof.
  intros q z H. pose proof (qrne_half q) as Hh. apply Qabs_Qle_condition in Hh. rewrite Zlt_Qlt. lra.
Qed.
Lemma sg_pos_abs : forall s a, (0 <= a)%Q -> (Qabs (sg s * a) == a)%Q.
Proof. intros s a H. rewrite sg_abs. apply Qabs_pos; auto. Qed.
Lemma inj_pos : forall z, 0 < z -> (0 < inject_Z z)%Q. Proof. intros z H. change 0%Q with (inject_Z 0). now apply inj_lt. Qed.
Lemma log2_binade : forall V w, 0 < V -> (p2 (Z.log2 V + w) <= inject_Z V * p2 w)%Q /\ (inject_Z V * p2 w < p2 (Z.log2 V + w + 1))%Q.
Proof.
  intros V w HV. pose proof (Z.log2_spec V HV) as [A C]. pose proof (Z.log2_nonneg V). pose proof (p2_pos w).
  replace (Z.log2 V + w + 1) with (Z.succ (Z.log2 V) + w) by lia. rewrite !p2_plus, (p2_Z (Z.log2 V)), (p2_Z (Z.succ (Z.log2 V))) by lia. split.
  - apply Qmult_le_compat_r; [now apply inj_le|lra].
  - apply Qmult_lt_r; [auto|now apply inj_lt].
Qed.

Section P.
Variable F : fpfmt.
Hypothesis Hok : fmt_ok F.
Variables (x y : Z) (sx sy : bool) (Ex Mx Ey My : Z).
Hypothesis Hx : normal_word F x sx Ex Mx.
Hypothesis Hy : normal_word F y sy Ey My.
Local Notation e := (esz F).
Local Notation f := (fsz F).
Local Notation B := (ieee_bias F).
Local Notation p := (msz F).
Local Notation vx := (normal_val F sx Ex Mx).
Local Notation vy := (normal_val F sy Ey My).
Local Notation d := (Ex + (p + 2) - Ey).
Local Notation u := (Ex - B - f - (p + 2)).
Local Notation AX := (ax F Mx).
Local Notation AY := (ay F My).

Lemma B_eq : 2 ^ e = 2 * B + 2. Proof. unfold ieee_bias. pose proof (pe_half F Hok). lia. Qed.
Lemma range_eq : forall k, 1 - B <= k <= B -> emin_normal F <= k <= emax F.
Proof. intros k H. pose proof B_eq. unfold emin_normal, emax. rewrite (bias_eq F). lia. Qed.

Lemma binade_x : (p2 (Ex - B) <= Qabs vx)%Q /\ (Qabs vx < p2 (Ex - B + 1))%Q.
Proof.
  rewrite (val_x F Hok sx Ex Mx). pose proof (p_ge F Hok) as Hp. pose proof (ax_b F Hok x sx Ex Mx Hx) as [A C].
  pose proof (pow2_pos (2 * p + 1) ltac:(lia)). assert (P : (0 <= inject_Z AX * p2 u)%Q) by (apply Qmult_le_0_compat; [apply Qlt_le_weak, inj_pos; lia|apply Qlt_le_weak, p2_pos]).
  rewrite sg_pos_abs by auto. pose proof (p2_pos u).
  assert (E1 : (p2 (Ex - B) == inject_Z (2 ^ (2 * p + 1)) * p2 u)%Q).
  { rewrite <- p2_Z by lia. rewrite <- p2_plus. replace (2 * p + 1 + u) with (Ex - B) by (unfold msz; lia). reflexivity. }
  assert (E2 : (p2 (Ex - B + 1) == inject_Z (2 ^ (2 * p + 2)) * p2 u)%Q).
  { rewrite <- p2_Z by lia. rewrite <- p2_plus. replace (2 * p + 2 + u) with (Ex - B + 1) by (unfold msz; lia). reflexivity. }
  rewrite E1, E2. split; [apply Qmult_le_compat_r; [now apply inj_le|lra]|apply Qmult_lt_r; [auto|now apply inj_lt]].
Qed.
Lemma binade_y : (p2 (Ey - B) <= Qabs vy)%Q /\ (Qabs vy < p2 (Ey - B + 1))%Q.
Proof.
  assert (HM : 0 <= My < 2 ^ f) by (destruct Hy as [[_ [_ H]] _]; auto). destruct Hok as [He Hf].
  unfold normal_val. rewrite p2_succ.
  assert (A : (0 <= inject_Z My * p2 (- f))%Q) by (apply Qmult_le_0_compat; [change 0%Q with (inject_Z 0); apply inj_le; lia|apply Qlt_le_weak, p2_pos]).
  assert (C : (inject_Z My * p2 (- f) < 1)%Q).
  { rewrite <- (p2_opp f). rewrite (Qmult_comm (p2 (- f))), (p2_Z f) by lia. apply Qmult_lt_r; [apply p2_pos|apply inj_lt; lia]. }
  pose proof (p2_pos (Ey - B)). rewrite sg_pos_abs by (apply Qmult_le_0_compat; lra). split; nra.
Qed.

(* exact sum in the unit of the adder *)
Lemma exact_sum : 0 <= d <= 2 * p + 4 -> (sx = sy \/ AX < AY d) ->
  (vx + vy == sg sy * (inject_Z (if xorb sx sy then AY d - AX else AY d + AX) * p2 u))%Q.
Proof.
  intros Hd H. rewrite (val_x F Hok sx Ex Mx), (val_y F Hok sy Ex Ey My d ltac:(lia)). replace (u + (d - d)) with u by lia.
  destruct sx, sy; cbn [xorb sg]; unfold Z.sub; rewrite inject_Z_plus, ?inject_Z_opp; ring.
Qed.
Lemma abs_lt : d <= 2 * p + 4 -> (Qabs vx < Qabs vy)%Q -> AX < AY d.
Proof.
  intros Hd H. rewrite (val_x F Hok sx Ex Mx), (val_y F Hok sy Ex Ey My d Hd) in H. replace (u + (d - d)) with u in H by lia.
  pose proof (p2_pos u). rewrite !sg_abs, !Qabs_Qmult, !(Qabs_pos (p2 u)) in H by lra. apply Qmult_lt_r in H; auto.
  pose proof (ax_b F Hok x sx Ex Mx Hx). pose proof (p_ge F Hok). pose proof (pow2_pos (2 * p + 1)).
  assert (0 < AY d).
  { unfold ay. pose proof (Y_b F Hok y sy Ey My Hy). pose proof (pow2_pos f ltac:(unfold msz in *; lia)). pose proof (pow2_pos (2 * p + 4 - d) ltac:(lia)). nia. }
  rewrite !Qabs_pos in H by (apply Qlt_le_weak, inj_pos; lia). rewrite <- Zlt_Qlt in H. exact H.
Qed.
Lemma dcl_in : 0 <= d <= 2 * p + 4 -> dcl F Ex Ey = d.
Proof. intros H. unfold dcl. destruct (Z.ltb_spec d 0); [lia|]. destruct (Z.ltb_spec (2 * p + 4) d); lia. Qed.

Lemma add_correct : forall k, (sx = sy \/ (Qabs vx < Qabs vy)%Q) -> Ey <= Ex + f + 3 -> 1 - B <= k <= B ->
  (p2 k <= Qabs (vx + vy))%Q -> (Qabs (vx + vy) < p2 k * (2 - p2 (- (f + 1))))%Q ->
  correctly_rounded F (vx + vy) (fp_add F x y).
Proof.
  intros k Hs He' Hk L1 L2. pose proof (p_ge F Hok) as Hp. pose proof Hok as [He Hf]. pose proof B_eq as HB.
  assert (Hd0 : 0 <= d) by (unfold msz; lia).
  pose proof (p2_pos k) as Pk. pose proof (p2_pos (- (f + 1))) as Pf.
  assert (L3 : (Qabs (vx + vy) < p2 (k + 1))%Q) by (rewrite p2_succ; nra).
  assert (KB : forall K q, (Qabs (vx + vy) == q)%Q -> K = qrne (q / p2 (k - f)) -> K < 2 ^ (f + 1)).
  { intros K q Eq ->. apply qrne_below. rewrite <- Eq. pose proof (p2_pos (k - f)) as P.
    apply Qlt_shift_div_r; [auto|]. rewrite <- p2_Z by lia.
    setoid_replace ((p2 (f + 1) - (1 # 2)) * p2 (k - f))%Q with (p2 (f + 1) * p2 (k - f) - (1 # 2) * p2 (k - f))%Q by ring.
    rewrite <- p2_plus. replace (f + 1 + (k - f)) with (k + 1) by lia. rewrite p2_succ.
    assert (E : ((1 # 2) * p2 (k - f) == p2 k * p2 (- (f + 1)))%Q).
    { change (1 # 2)%Q with (p2 (-1)). rewrite <- !p2_plus. replace (-1 + (k - f)) with (k + - (f + 1)) by lia. reflexivity. }
    rewrite E. lra. }
  destruct (Z.le_gt_cases d (2 * p + 4)) as [Hd|Hd].
  - (* no clamping *)
    assert (Hc : sx = sy \/ AX < AY d) by (destruct Hs as [H|H]; [now left|right; now apply abs_lt]).
    pose proof (exact_sum (conj Hd0 Hd) Hc) as ES.
    assert (Hc' : sx = sy \/ AX < AY (dcl F Ex Ey)) by (rewrite dcl_in by lia; auto).
    pose proof (add_nonneg F Hok x y sx sy Ex Mx Ey My Hx Hy Hc') as AN.
    pose proof (fp_add_nonneg F Hok x y sx sy Ex Mx Ey My Hx Hy Hc') as [K1 [K2 _]]. rewrite dcl_in in * by lia.
    set (V := if xorb sx sy then AY d - AX else AY d + AX) in *. destruct AN as [_ [HV _]].
    destruct (log2_binade V u ltac:(lia)) as [B1 B2].
    assert (P0 : (0 <= inject_Z V * p2 u)%Q) by (apply Qmult_le_0_compat; [apply Qlt_le_weak, inj_pos; lia|apply Qlt_le_weak, p2_pos]).
    assert (EA : (Qabs (vx + vy) == inject_Z V * p2 u)%Q) by (rewrite ES; now apply sg_pos_abs).
    assert (Ek : Z.log2 V + u = k).
    { apply binade_unique with (inject_Z V * p2 u)%Q; auto; rewrite <- EA; auto. }
    assert (EKq : qrne (inject_Z V * p2 (f - Z.log2 V)) = qrne (inject_Z V * p2 u / p2 (k - f))).
    { apply qrne_comp. setoid_replace (inject_Z V * p2 u)%Q with (inject_Z V * p2 (f - Z.log2 V) * p2 (k - f))%Q.
      - field. apply p2_nz.
      - rewrite <- Qmult_assoc, <- p2_plus. replace (f - Z.log2 V + (k - f)) with u by lia. reflexivity. }
    rewrite EKq, Ek in *. set (K := qrne (inject_Z V * p2 u / p2 (k - f))) in *.
    assert (K3 : K < 2 ^ (f + 1)) by (apply (KB K (inject_Z V * p2 u)%Q); auto).
    specialize (K2 K3).
    assert (CR : correctly_rounded F (sg sy * (inject_Z V * p2 u)) (fp_add F x y)).
    { apply word_rne with (k := k) (K := K); auto.
      - now apply range_eq.
      - lia.
      - rewrite K2. rewrite (Z.mod_small (k + B)) by lia. split; [lia|]. split; [lia|]. rewrite (pf1 F Hok) in K3. lia. }
    destruct CR as [r [D [[R1 R2] R3]]]. exists r. split; auto. split; [split; auto|].
    + intros w Rw. rewrite !ES. now apply R2.
    + intros w Rw Nw. rewrite !ES. now apply R3.
  - (* y is below the guard bits: same sign *)
    pose proof binade_x as [BX1 BX2]. pose proof binade_y as [BY1 BY2].
    assert (Es : sx = sy).
    { destruct Hs as [H|H]; auto. exfalso. assert (p2 (Ey - B + 1) <= p2 (Ex - B))%Q by (apply p2_le; lia). lra. }
    assert (Edcl : dcl F Ex Ey = 2 * p + 4).
    { unfold dcl. destruct (Z.ltb_spec d 0); [lia|]. destruct (Z.ltb_spec (2 * p + 4) d); lia. }
    assert (Hc' : sx = sy \/ AX < AY (dcl F Ex Ey)) by now left.
    pose proof (fp_add_nonneg F Hok x y sx sy Ex Mx Ey My Hx Hy Hc') as [K1 [K2 _]]. rewrite Edcl, Es, xorb_nilpotent in K1, K2.
    set (V := AY (2 * p + 4) + AX) in *.
    pose proof (ax_b F Hok x sx Ex Mx Hx) as AXb. pose proof (X_b F Hok x sx Ex Mx Hx) as Xb. pose proof (Y_b F Hok y sy Ey My Hy) as Yb.
    assert (EV : V = (2 ^ f + Mx) * 2 ^ (p + 2) + (2 ^ f + My)).
    { unfold V, ax, ay. replace (2 * p + 4 - (2 * p + 4)) with 0 by lia. lia. }
    set (X := 2 ^ f + Mx) in *. set (Y := 2 ^ f + My) in *.
    assert (Pp : 2 ^ (p + 2) = 4 * 2 ^ p) by (rewrite Z.pow_add_r by lia; lia).
    pose proof (pow2_pos p ltac:(lia)) as P2p. pose proof (pow2_pos f ltac:(lia)) as P2f.
    assert (HV : 2 ^ (2 * p + 1) <= V < 2 ^ (2 * p + 2)).
    { assert (E1 : 2 ^ (2 * p + 1) = 2 ^ f * 2 ^ (p + 2)) by (rewrite <- Z.pow_add_r by lia; f_equal; unfold msz; lia).
      assert (E2 : 2 ^ (2 * p + 2) = 2 ^ p * 2 ^ (p + 2)) by (rewrite <- Z.pow_add_r by lia; f_equal; lia).
      rewrite E1, E2, EV. nia. }
    assert (HL : Z.log2 V = 2 * p + 1) by (apply Z.log2_unique; [lia|]; replace (Z.succ (2 * p + 1)) with (2 * p + 2) by lia; exact HV).
    rewrite HL in *.
    assert (Ek0 : 2 * p + 1 + u = Ex - B) by (unfold msz; lia). rewrite Ek0 in *.
    (* exact sum *)
    assert (Vx : (vx == sg sy * (inject_Z X * p2 (Ex - B - f)))%Q).
    { rewrite (val_x F Hok sx Ex Mx), Es. apply Qmult_comp; [reflexivity|]. unfold ax. fold X. rewrite inject_Z_mult, <- (p2_Z (p + 2)) by lia.
      rewrite <- Qmult_assoc, <- p2_plus. replace (p + 2 + u) with (Ex - B - f) by lia. reflexivity. }
    assert (Vy : (vy == sg sy * (inject_Z Y * p2 (Ey - B - f)))%Q).
    { rewrite (val_y F Hok sy Ex Ey My (2 * p + 4) ltac:(lia)). apply Qmult_comp; [reflexivity|]. unfold ay. fold Y.
      replace (2 * p + 4 - (2 * p + 4)) with 0 by lia. rewrite Z.mul_1_r. replace (u + (2 * p + 4 - d)) with (Ey - B - f) by lia. reflexivity. }
    set (q := (inject_Z X * p2 (Ex - B - f) + inject_Z Y * p2 (Ey - B - f))%Q).
    assert (ES : (vx + vy == sg sy * q)%Q) by (rewrite Vx, Vy; unfold q; ring).
    assert (X0 : (0 < inject_Z X)%Q) by (apply inj_pos; lia). assert (Y0 : (0 < inject_Z Y)%Q) by (apply inj_pos; lia).
    pose proof (p2_pos (Ex - B - f)) as Px. pose proof (p2_pos (Ey - B - f)) as Py.
    assert (Q0 : (0 <= q)%Q) by (unfold q; pose proof (Qmult_lt_0_compat _ _ X0 Px); pose proof (Qmult_lt_0_compat _ _ Y0 Py); lra).
    assert (EA : (Qabs (vx + vy) == q)%Q) by (rewrite ES; now apply sg_pos_abs).
    (* the tail is below a quarter of a unit *)
    assert (Tail : forall w, w <= - (p + 2) -> (0 < inject_Z Y * p2 w)%Q /\ (inject_Z Y * p2 w < 1 # 4)%Q).
    { intros w Hw. pose proof (p2_pos w) as Pw. split; [now apply Qmult_lt_0_compat|].
      apply Qlt_le_trans with (inject_Z (2 ^ p) * p2 w)%Q; [apply Qmult_lt_r; [auto|apply inj_lt; lia]|].
      rewrite <- p2_Z by lia. rewrite <- p2_plus. change (1 # 4)%Q with (p2 (-2)). apply p2_le. lia. }
    assert (Eq : (q == (inject_Z X + inject_Z Y * p2 (Ey - Ex)) * p2 (Ex - B - f))%Q).
    { unfold q. rewrite Qmult_plus_distr_l, <- (Qmult_assoc (inject_Z Y)), <- p2_plus. replace (Ey - Ex + (Ex - B - f)) with (Ey - B - f) by lia. reflexivity. }
    destruct (Tail (Ey - Ex) ltac:(lia)) as [T1 T2]. destruct (Tail (- (p + 2)) ltac:(lia)) as [T3 T4].
    assert (Bq1 : (p2 (Ex - B) <= q)%Q).
    { rewrite Eq. replace (Ex - B) with (f + (Ex - B - f)) at 1 by lia. rewrite p2_plus. apply Qmult_le_compat_r; [|lra].
      rewrite p2_Z by lia. assert (inject_Z (2 ^ f) <= inject_Z X)%Q by (apply inj_le; lia). lra. }
    assert (Bq2 : (q < p2 (Ex - B + 1))%Q).
    { rewrite Eq. replace (Ex - B + 1) with (p + (Ex - B - f)) by (unfold msz; lia). rewrite p2_plus. apply Qmult_lt_r; [auto|].
      rewrite (p2_Z p) by lia. assert (inject_Z (X + 1) <= inject_Z (2 ^ p))%Q by (apply inj_le; lia). rewrite inject_Z_plus in H. change (inject_Z 1) with 1%Q in H. lra. }
    assert (Ek : Ex - B = k) by (apply binade_unique with q; auto; rewrite <- EA; auto).
    assert (K0 : qrne (inject_Z V * p2 (f - (2 * p + 1))) = X).
    { apply qrne_close. assert (E : (inject_Z V * p2 (f - (2 * p + 1)) - inject_Z X == inject_Z Y * p2 (- (p + 2)))%Q).
      { rewrite EV, inject_Z_plus, inject_Z_mult, <- (p2_Z (p + 2)) by lia. replace (f - (2 * p + 1)) with (- (p + 2)) by (unfold msz; lia).
        pose proof (p2_opp (p + 2)) as O. setoid_replace ((inject_Z X * p2 (p + 2) + inject_Z Y) * p2 (- (p + 2)) - inject_Z X)%Q
          with (inject_Z X * (p2 (- (p + 2)) * p2 (p + 2) - 1) + inject_Z Y * p2 (- (p + 2)))%Q by ring. rewrite O. ring. }
      rewrite E, Qabs_pos by lra. lra. }
    assert (K0' : X = qrne (q / p2 (k - f))).
    { symmetry. apply qrne_close. rewrite <- Ek.
      assert (E : (q / p2 (Ex - B - f) - inject_Z X == inject_Z Y * p2 (Ey - Ex))%Q) by (rewrite Eq; field; apply p2_nz).
      rewrite E, Qabs_pos by lra. lra. }
    rewrite K0 in *. assert (K3 : X < 2 ^ (f + 1)) by (pose proof (pf_p F Hok); rewrite (pf1 F Hok); lia). specialize (K2 K3).
    assert (CR : correctly_rounded F (sg sy * q) (fp_add F x y)).
    { apply word_rne with (k := k) (K := X); auto.
      - rewrite <- Ek; auto.
      - rewrite <- Ek; auto.
      - now apply range_eq.
      - rewrite K2, Ek. rewrite (Z.mod_small (k + B)) by lia. split; [lia|]. split; [lia|]. rewrite (pf1 F Hok) in K3. lia. }
    destruct CR as [r [D [[R1 R2] R3]]]. exists r. split; auto. split; [split; auto|].
    + intros w Rw. rewrite !ES. now apply R2.
    + intros w Rw Nw. rewrite !ES. now apply R3.
Qed.

(* rounding up to a power of two *)
Lemma add_round_up : forall k, (sx = sy \/ (Qabs vx < Qabs vy)%Q) -> Ey <= Ex + f + 3 -> Ex <= Ey + f + 3 -> 1 - B <= k < B ->
  (p2 k * (2 - p2 (- (f + 1))) <= Qabs (vx + vy))%Q -> (Qabs (vx + vy) < p2 (k + 1))%Q ->
  normal_word F (fp_add F x y) sy (k + 1 + B) (2 ^ (f - 1)) /\ (vx + vy == sg sy * Qabs (vx + vy))%Q.
Proof.
  intros k Hs He1 He2 Hk L1 L3. pose proof (p_ge F Hok) as Hp. pose proof Hok as [He Hf]. pose proof B_eq as HB.
  assert (Hd : 0 <= d <= 2 * p + 4) by (unfold msz; lia).
  pose proof (p2_pos k) as Pk.
  assert (Hf2 : (p2 (- (f + 1)) <= 1 # 4)%Q) by (change (1 # 4)%Q with (p2 (-2)); apply p2_le; lia).
  assert (L2 : (p2 k <= Qabs (vx + vy))%Q) by nra.
  assert (Hc : sx = sy \/ AX < AY d) by (destruct Hs as [H|H]; [now left|right; apply abs_lt; [lia|auto]]).
  pose proof (exact_sum Hd Hc) as ES.
  assert (Hc' : sx = sy \/ AX < AY (dcl F Ex Ey)) by (rewrite dcl_in by lia; auto).
  pose proof (add_nonneg F Hok x y sx sy Ex Mx Ey My Hx Hy Hc') as AN.
  pose proof (fp_add_nonneg F Hok x y sx sy Ex Mx Ey My Hx Hy Hc') as [K1 [_ K2]]. rewrite dcl_in in * by lia.
  set (V := if xorb sx sy then AY d - AX else AY d + AX) in *. destruct AN as [_ [HV _]].
  destruct (log2_binade V u ltac:(lia)) as [B1 B2].
  assert (P0 : (0 <= inject_Z V * p2 u)%Q) by (apply Qmult_le_0_compat; [apply Qlt_le_weak, inj_pos; lia|apply Qlt_le_weak, p2_pos]).
  assert (EA : (Qabs (vx + vy) == inject_Z V * p2 u)%Q) by (rewrite ES; now apply sg_pos_abs).
  assert (Ek : Z.log2 V + u = k).
  { apply binade_unique with (inject_Z V * p2 u)%Q; auto; rewrite <- EA; auto. }
  set (K := qrne (inject_Z V * p2 (f - Z.log2 V))) in *.
  assert (Eq : (inject_Z V * p2 (f - Z.log2 V) * p2 (k - f) == inject_Z V * p2 u)%Q).
  { rewrite <- Qmult_assoc, <- p2_plus. replace (f - Z.log2 V + (k - f)) with u by lia. reflexivity. }
  assert (K3 : K = 2 ^ (f + 1)).
  { assert (G : (inject_Z (2 ^ (f + 1)) - (1 # 2) <= inject_Z V * p2 (f - Z.log2 V))%Q).
    { pose proof (p2_pos (k - f)) as P. apply Qmult_le_r with (z := p2 (k - f)); auto. rewrite Eq, <- EA. rewrite <- p2_Z by lia.
      setoid_replace ((p2 (f + 1) - (1 # 2)) * p2 (k - f))%Q with (p2 (f + 1) * p2 (k - f) - p2 (-1) * p2 (k - f))%Q by (change (p2 (-1)) with (1 # 2)%Q; ring).
      rewrite <- !p2_plus. replace (f + 1 + (k - f)) with (k + 1) by lia. replace (-1 + (k - f)) with (k + - (f + 1)) by lia.
      rewrite p2_succ, p2_plus. lra. }
    assert (Ev : Z.even (2 ^ (f + 1)) = true) by (rewrite (pf1 F Hok), Z.even_mul; reflexivity).
    assert (2 ^ (f + 1) <= K); [|lia]. unfold K. set (q := (inject_Z V * p2 (f - Z.log2 V))%Q) in *.
    assert (M1 : qrne (inject_Z (2 ^ (f + 1)) - (1 # 2)) = 2 ^ (f + 1)).
    { rewrite (qrne_tie _ (2 ^ (f + 1) - 1)).
      - rewrite Z.even_sub, Ev. cbn. lia.
      - unfold Z.sub. rewrite inject_Z_plus. change (inject_Z (- (1))) with (-1)%Q. ring. }
    rewrite <- M1 at 1. now apply qrne_mono. }
  specialize (K2 K3). rewrite Ek in K2. split; [|rewrite EA; auto]. split; [|lia]. rewrite K2. rewrite (Z.mod_small (k + 1 + B)) by lia.
  pose proof (pf_half F Hok). pose proof (pf1_ge F Hok). split; [reflexivity|]. lia.
Qed.

(* effective subtraction, |x| > |y| *)
Lemma abs_gt : d <= 2 * p + 4 -> (Qabs vy < Qabs vx)%Q -> AY d < AX.
Proof.
  intros Hd H. rewrite (val_x F Hok sx Ex Mx), (val_y F Hok sy Ex Ey My d Hd) in H. replace (u + (d - d)) with u in H by lia.
  pose proof (p2_pos u). rewrite !sg_abs, !Qabs_Qmult, !(Qabs_pos (p2 u)) in H by lra. apply Qmult_lt_r in H; auto.
  pose proof (ax_b F Hok x sx Ex Mx Hx). pose proof (p_ge F Hok). pose proof (pow2_pos (2 * p + 1)).
  assert (0 < AY d).
  { unfold ay. pose proof (Y_b F Hok y sy Ey My Hy). pose proof (pow2_pos f ltac:(unfold msz in *; lia)). pose proof (pow2_pos (2 * p + 4 - d) ltac:(lia)). nia. }
  rewrite !Qabs_pos in H by (apply Qlt_le_weak, inj_pos; lia). rewrite <- Zlt_Qlt in H. exact H.
Qed.
Lemma neg_parts : sx <> sy -> AY (dcl F Ex Ey) < AX ->
  let V := AX - AY (dcl F Ex Ey) in
  let m := 2 ^ add_width F - V * 2 ^ (add_width F - 1 - Z.log2 V) in
  fp_add F x y = (if sx then 2 ^ (e + f) else 0)
    + ((Z.log2 V + u + B + b2z (rounded_overflow F m)) mod 2 ^ e) * 2 ^ f + res_mant_field F m /\ 0 < V < 2 ^ (add_width F - 1).
Proof.
  intros Hs H V m. destruct (add_neg F Hok x y sx sy Ex Mx Ey My Hx Hy Hs H) as [Em [HV [Ng Ea]]]. fold V in Em, HV, Ea. split; auto.
  pose proof (p_ge F Hok) as Hp. pose proof Hok as [He Hf]. set (n := add_width F) in *.
  assert (En : n = 3 * p + 5) by reflexivity.
  assert (En2 : 2 ^ n = 2 * 2 ^ (n - 1)) by (rewrite <- Z.pow_succ_r by lia; f_equal; lia).
  assert (El : lzc n V = n - 1 - Z.log2 V) by (unfold lzc; destruct (Z.eqb_spec V 0); [lia|auto]).
  pose proof (normed_bounds F V ltac:(fold n; lia)) as NB. fold n in NB. rewrite El in NB.
  assert (Elz : add_lzc F x y = n - 1 - Z.log2 V) by (unfold add_lzc; rewrite Ea; fold n; auto).
  assert (Enm : res_normed_mant F x y = m).
  { unfold res_normed_mant. rewrite Em, Elz. fold n. unfold m. rewrite Z.mul_sub_distr_r. symmetry.
    apply Z.mod_unique with (2 ^ (n - 1 - Z.log2 V) - 1); [left; pose proof (pow2_pos (n - 1)); lia|]. lia. }
  assert (Ee : res_exp F x y = (Z.log2 V + u + B + b2z (rounded_overflow F m)) mod 2 ^ e).
  { unfold res_exp. rewrite Elz, (e_x F Hok x sx Ex Mx Hx), Enm. rewrite <- Znumtheory.Zmod_div_mod.
    - f_equal. rewrite En. unfold msz. lia.
    - apply pow2_pos; lia.
    - apply pow2_pos; lia.
    - exists (2 ^ 2). rewrite <- Z.pow_add_r by lia. f_equal. lia. }
  unfold fp_add. rewrite Ng, (s_y F Hok y sy Ey My Hy), Enm, Ee. replace (xorb true sy) with sx; [reflexivity|].
  destruct sx, sy; auto; congruence.
Qed.

Lemma add_negative : forall k G, sx <> sy -> (Qabs vy < Qabs vx)%Q -> Ex <= Ey + f + 3 -> 1 - B <= k <= B -> 0 < G < 2 ^ f ->
  (Qabs (vx + vy) == p2 k * (1 + inject_Z G * p2 (- f)))%Q ->
  normal_word F (fp_add F x y) sx (k + B) (2 ^ f - G) /\ (vx + vy == normal_val F sx (k + B) G)%Q.
Proof.
  intros k G Hs L He' Hk HG Hv. pose proof (p_ge F Hok) as Hp. pose proof Hok as [He Hf]. pose proof B_eq as HB.
  pose proof binade_x as [BX1 BX2]. pose proof binade_y as [BY1 BY2].
  assert (Hd : 0 <= d <= 2 * p + 4).
  { split; [|unfold msz; lia]. destruct (Z.le_gt_cases Ey Ex) as [H|H]; [unfold msz; lia|].
    assert (p2 (Ex - B + 1) <= p2 (Ey - B))%Q by (apply p2_le; lia). lra. }
  assert (Hg : AY (dcl F Ex Ey) < AX) by (rewrite dcl_in by auto; apply abs_gt; [lia|auto]).
  destruct (neg_parts Hs Hg) as [EF HV]. rewrite dcl_in in * by auto. set (V := AX - AY d) in *.
  assert (ES : (vx + vy == sg sx * (inject_Z V * p2 u))%Q).
  { rewrite (val_x F Hok sx Ex Mx), (val_y F Hok sy Ex Ey My d ltac:(lia)). replace (u + (d - d)) with u by lia.
    unfold V, Z.sub. rewrite inject_Z_plus, inject_Z_opp. destruct sx, sy; cbn [sg]; try congruence; ring. }
  assert (P0 : (0 <= inject_Z V * p2 u)%Q) by (apply Qmult_le_0_compat; [apply Qlt_le_weak, inj_pos; lia|apply Qlt_le_weak, p2_pos]).
  assert (EA : (Qabs (vx + vy) == inject_Z V * p2 u)%Q) by (rewrite ES; now apply sg_pos_abs).
  assert (EV : (inject_Z V * p2 u == inject_Z (2 ^ f + G) * p2 (k - f))%Q).
  { rewrite <- EA, Hv. rewrite inject_Z_plus, <- p2_Z by lia. pose proof (p2_opp f) as O. unfold Z.sub. rewrite p2_plus.
    setoid_replace ((p2 f + inject_Z G) * (p2 k * p2 (- f)))%Q with (p2 k * (p2 (- f) * p2 f + inject_Z G * p2 (- f)))%Q by ring. rewrite O. ring. }
  destruct (log2_binade V u ltac:(lia)) as [B1 B2].
  assert (Ek : Z.log2 V + u = k).
  { pose proof (p2_pos (k - f)) as Pkf. assert (Pf : (p2 k == inject_Z (2 ^ f) * p2 (k - f))%Q) by (rewrite <- p2_Z by lia; rewrite <- p2_plus; replace (f + (k - f)) with k by lia; reflexivity).
    assert (Pf1 : (p2 (k + 1) == inject_Z (2 ^ (f + 1)) * p2 (k - f))%Q) by (rewrite <- p2_Z by lia; rewrite <- p2_plus; replace (f + 1 + (k - f)) with (k + 1) by lia; reflexivity).
    apply binade_unique with (inject_Z V * p2 u)%Q; auto.
    - rewrite EV, Pf. apply Qmult_le_compat_r; [apply inj_le; lia|lra].
    - rewrite EV, Pf1. apply Qmult_lt_r; [auto|apply inj_lt; rewrite (pf1 F Hok); lia]. }
  set (n := add_width F) in *. assert (En : n = 3 * p + 5) by reflexivity.
  assert (Ln : Z.log2 V < n - 1) by (apply Z.log2_lt_pow2; lia).
  set (s := 2 * p + 5) in *.
  assert (EN : V * 2 ^ (n - 1 - Z.log2 V) = 2 ^ s * (2 ^ f + G)).
  { assert (Q1 : (inject_Z (V * 2 ^ (n - 1 - Z.log2 V)) == inject_Z (2 ^ s * (2 ^ f + G)))%Q).
    { rewrite !inject_Z_mult, <- (p2_Z (n - 1 - Z.log2 V)), <- (p2_Z s) by (unfold s; lia).
      assert (Pn : ~ (p2 (k - f) == 0)%Q) by apply p2_nz. apply (Qmult_inj_r _ _ (p2 (k - f))); auto.
      setoid_replace (p2 s * inject_Z (2 ^ f + G) * p2 (k - f))%Q with (p2 s * (inject_Z (2 ^ f + G) * p2 (k - f)))%Q by ring. rewrite <- EV.
      setoid_replace (inject_Z V * p2 (n - 1 - Z.log2 V) * p2 (k - f))%Q with (inject_Z V * (p2 (n - 1 - Z.log2 V) * p2 (k - f)))%Q by ring.
      setoid_replace (p2 s * (inject_Z V * p2 u))%Q with (inject_Z V * (p2 s * p2 u))%Q by ring. rewrite <- !p2_plus.
      replace (n - 1 - Z.log2 V + (k - f)) with (s + u); [reflexivity|]. unfold s. unfold msz in *. lia. }
    unfold Qeq in Q1. cbn in Q1. lia. }
  rewrite EN, Ek in EF.
  assert (Ep : 2 ^ n = 2 ^ s * (2 * 2 ^ f)).
  { rewrite <- (pf1 F Hok), <- Z.pow_add_r by (unfold s; lia). f_equal. unfold s, msz in *. lia. }
  replace (2 ^ n - 2 ^ s * (2 ^ f + G)) with (2 ^ s * (2 ^ f - G)) in EF by lia.
  set (m := 2 ^ s * (2 ^ f - G)) in *.
  assert (P2s : 0 < 2 ^ s) by (apply pow2_pos; unfold s; lia).
  assert (Ps1 : 2 ^ s = 2 * 2 ^ (s - 1)) by (rewrite <- Z.pow_succ_r by (unfold s; lia); f_equal; lia).
  assert (Er : rounded_mant F m = 2 ^ f - G).
  { unfold rounded_mant. replace (2 * p + 4) with (s - 1) by (unfold s; lia). fold s.
    assert (T : Z.testbit m (s - 1) = false).
    { rewrite testbit_div by (unfold s; lia). unfold m. rewrite Ps1. replace (2 * 2 ^ (s - 1) * (2 ^ f - G)) with (2 * (2 ^ f - G) * 2 ^ (s - 1)) by ring.
      rewrite Z.div_mul by (pose proof (pow2_pos (s - 1)); unfold s in *; lia). rewrite Z.odd_mul. reflexivity. }
    rewrite T. cbn [andb b2z]. rewrite sub_signal_div by (unfold s; lia). unfold m. rewrite Z.mul_comm, Z.div_mul by lia.
    replace (3 * p + 3 - s + 1) with f by (unfold s, msz; lia). rewrite (Z.mod_small (2 ^ f - G)) by lia. rewrite Z.add_0_r. apply Z.mod_small. rewrite (pf_p F Hok). lia. }
  assert (Ov : rounded_overflow F m = false).
  { unfold rounded_overflow. rewrite Er, testbit_div by lia. replace (p - 1) with f by (unfold msz; lia). rewrite Z.div_small by lia. reflexivity. }
  assert (Ef : res_mant_field F m = 2 ^ f - G).
  { unfold res_mant_field. rewrite Ov, Er, sub_signal_div by lia. rewrite Z.div_1_r. apply Z.mod_small. replace (p - 2 - 0 + 1) with f by (unfold msz; lia). lia. }
  rewrite Ov, Ef in EF. cbn [b2z] in EF. rewrite Z.add_0_r, (Z.mod_small (k + B)) in EF by lia.
  split.
  - split; [|lia]. rewrite EF. split; [reflexivity|]. lia.
  - rewrite ES, <- EA, Hv. unfold normal_val. replace (k + B - B) with k by lia. reflexivity.
Qed.

(* x a power of two, y opposite and far below *)
Lemma add_power : sx <> sy -> Mx = 0 -> Ey + f + 3 < Ex -> normal_word F (fp_add F x y) sx (Ex - 1) 0.
Proof.
  intros Hs HM HE. pose proof (p_ge F Hok) as Hp. pose proof Hok as [He Hf]. pose proof B_eq as HB.
  assert (Edcl : dcl F Ex Ey = 2 * p + 4).
  { unfold dcl. destruct (Z.ltb_spec d 0); [unfold msz in *; lia|]. destruct (Z.ltb_spec (2 * p + 4) d); [auto|unfold msz in *; lia]. }
  pose proof (Y_b F Hok y sy Ey My Hy) as Yb. set (Y := 2 ^ f + My) in *.
  pose proof (pow2_pos f ltac:(lia)) as Pf.
  assert (EY : AY (2 * p + 4) = Y) by (unfold ay; fold Y; replace (2 * p + 4 - (2 * p + 4)) with 0 by lia; lia).
  assert (EX : AX = 2 ^ (2 * p + 1)).
  { unfold ax. rewrite HM, Z.add_0_r, <- Z.pow_add_r by lia. f_equal. unfold msz. lia. }
  assert (E2 : 2 ^ (2 * p + 1) = 2 * 2 ^ (2 * p)) by (rewrite <- Z.pow_succ_r by lia; f_equal; lia).
  assert (E3 : 2 ^ (2 * p) = 2 ^ p * 2 ^ p) by (rewrite <- Z.pow_add_r by lia; f_equal; lia).
  assert (P4 : 4 <= 2 ^ p) by (change 4 with (2 ^ 2); apply Z.pow_le_mono_r; lia).
  assert (Hg : AY (dcl F Ex Ey) < AX) by (rewrite Edcl, EY, EX; nia).
  destruct (neg_parts Hs Hg) as [EF HV]. rewrite Edcl, EY, EX in *. set (V := 2 ^ (2 * p + 1) - Y) in *.
  assert (HL : Z.log2 V = 2 * p).
  { apply Z.log2_unique; [lia|]. replace (Z.succ (2 * p)) with (2 * p + 1) by lia. unfold V. nia. }
  set (n := add_width F) in *. assert (En : n = 3 * p + 5) by reflexivity. rewrite HL in EF.
  replace (n - 1 - 2 * p) with (p + 4) in EF by lia.
  assert (Em : 2 ^ n - V * 2 ^ (p + 4) = Y * 2 ^ (p + 4)).
  { unfold V. rewrite Z.mul_sub_distr_r, <- Z.pow_add_r by lia. replace (2 * p + 1 + (p + 4)) with n by lia. lia. }
  rewrite Em in EF. set (m := Y * 2 ^ (p + 4)) in *.
  assert (Hm : 0 <= m < 2 ^ (2 * p + 4)).
  { unfold m. replace (2 * p + 4) with (p + (p + 4)) by lia. rewrite (Z.pow_add_r 2 p (p + 4)) by lia. pose proof (pow2_pos (p + 4) ltac:(lia)).
    split; [apply Z.mul_nonneg_nonneg; lia|apply Z.mul_lt_mono_pos_r; lia]. }
  assert (Er : rounded_mant F m = 0).
  { unfold rounded_mant. assert (T : Z.testbit m (2 * p + 4) = false) by (rewrite testbit_div, Z.div_small by lia; reflexivity).
    rewrite T. cbn [andb b2z]. rewrite sub_signal_div by lia.
    assert (2 ^ (2 * p + 5) = 2 * 2 ^ (2 * p + 4)) by (rewrite <- Z.pow_succ_r by lia; f_equal; lia).
    rewrite (Z.div_small m) by lia. rewrite (Z.mod_0_l (2 ^ (3 * p + 3 - (2 * p + 5) + 1))) by (apply Z.pow_nonzero; lia).
    apply (Z.mod_0_l (2 ^ p)). apply Z.pow_nonzero; lia. }
  assert (Ov : rounded_overflow F m = false) by (unfold rounded_overflow; rewrite Er; apply Z.testbit_0_l).
  assert (Ef : res_mant_field F m = 0).
  { unfold res_mant_field. rewrite Ov, Er. unfold sub_signal. rewrite Z.shiftr_0_l. apply Z.mod_0_l. pose proof (pow2_pos (p - 2 - 0 + 1)). lia. }
  rewrite Ov, Ef in EF. cbn [b2z] in EF. destruct Hx as [_ HEx]. destruct Hy as [_ HEy].
  replace (2 * p + u + B + 0) with (Ex - 1) in EF by (unfold msz; lia). rewrite Z.mod_small in EF by lia.
  split; [|lia]. rewrite EF. split; [reflexivity|]. lia.
Qed.

(* y far above x *)
Lemma add_far : Ex + f + 3 < Ey -> exists M, normal_word F (fp_add F x y) sy (Ex + f + 3) M.
Proof.
  intros HE. pose proof (p_ge F Hok) as Hp. pose proof Hok as [He Hf]. pose proof B_eq as HB.
  assert (Edcl : dcl F Ex Ey = 0) by (unfold dcl; destruct (Z.ltb_spec d 0); [auto|unfold msz in *; lia]).
  pose proof (X_b F Hok x sx Ex Mx Hx) as Xb. pose proof (Y_b F Hok y sy Ey My Hy) as Yb. set (X := 2 ^ f + Mx) in *. set (Y := 2 ^ f + My) in *.
  pose proof (pow2_pos f ltac:(lia)) as Pf. pose proof (pow2_pos p ltac:(lia)) as Pp. pose proof (pf_p F Hok) as Epf.
  assert (Ep : 2 ^ (2 * p + 4) = 4 * 2 ^ p * 2 ^ (p + 2)) by (change 4 with (2 ^ 2); rewrite <- !Z.pow_add_r by lia; f_equal; lia).
  pose proof (pow2_pos (p + 2) ltac:(lia)) as Pp2.
  assert (EY : AY 0 = Y * 2 ^ (2 * p + 4)) by (unfold ay; fold Y; f_equal; f_equal; lia).
  assert (EX : AX = X * 2 ^ (p + 2)) by reflexivity.
  assert (Hlt : AX < AY 0).
  { rewrite EX, EY, Ep. apply Z.lt_le_trans with (2 ^ p * 2 ^ (p + 2)); [apply Z.mul_lt_mono_pos_r; lia|].
    rewrite Z.mul_assoc. apply Z.mul_le_mono_nonneg_r; [lia|]. rewrite Z.mul_assoc. rewrite <- (Z.mul_1_l (2 ^ p)) at 1. apply Z.mul_le_mono_nonneg_r; lia. }
  assert (Hc' : sx = sy \/ AX < AY (dcl F Ex Ey)) by (rewrite Edcl; now right).
  pose proof (fp_add_nonneg F Hok x y sx sy Ex Mx Ey My Hx Hy Hc') as [K1 [K2 K3]]. rewrite Edcl in *.
  set (V := if xorb sx sy then AY 0 - AX else AY 0 + AX) in *.
  assert (HX2 : X * 2 ^ (p + 2) < 2 ^ (2 * p + 2)).
  { replace (2 * p + 2) with (p + (p + 2)) by lia. rewrite (Z.pow_add_r 2 p (p + 2)) by lia. apply Z.mul_lt_mono_pos_r; lia. }
  assert (HX3 : 0 < X * 2 ^ (p + 2)) by (apply Z.mul_pos_pos; lia).
  assert (E22 : 2 ^ (2 * p + 4) = 4 * 2 ^ (2 * p + 2)) by (change 4 with (2 ^ 2); rewrite <- !Z.pow_add_r by lia; f_equal; lia).
  assert (VB : Y * 2 ^ (2 * p + 4) - 2 ^ (2 * p + 2) < V < Y * 2 ^ (2 * p + 4) + 2 ^ (2 * p + 2)).
  { unfold V. rewrite EX, EY. destruct (xorb sx sy); lia. }
  assert (E33 : 2 ^ (3 * p + 3) = 2 ^ f * 2 ^ (2 * p + 4)) by (rewrite <- Z.pow_add_r by lia; f_equal; unfold msz; lia).
  assert (E34 : 2 ^ (3 * p + 4) = 2 * 2 ^ (3 * p + 3)) by (rewrite <- Z.pow_succ_r by lia; f_equal; lia).
  assert (E32 : 2 ^ (3 * p + 3) = 2 * 2 ^ (3 * p + 2)) by (rewrite <- Z.pow_succ_r by lia; f_equal; lia).
  pose proof (pow2_pos (2 * p + 2) ltac:(lia)) as P22. pose proof (pf_ge F Hok) as Pf2.
  destruct (Z.le_gt_cases (2 ^ (3 * p + 3)) V) as [HV|HV].
  - (* same binade *)
    assert (HL : Z.log2 V = 3 * p + 3).
    { apply Z.log2_unique; [lia|]. split; [auto|]. replace (Z.succ (3 * p + 3)) with (3 * p + 4) by lia. rewrite E34, E33.
      assert (Y * 2 ^ (2 * p + 4) <= (2 * 2 ^ f - 1) * 2 ^ (2 * p + 4)) by (apply Z.mul_le_mono_nonneg_r; lia). lia. }
    rewrite HL in *.
    assert (EK : qrne (inject_Z V * p2 (f - (3 * p + 3))) = Y).
    { apply qrne_close. replace (f - (3 * p + 3)) with (- (2 * p + 4)) by (unfold msz; lia).
      assert (E : (inject_Z V * p2 (- (2 * p + 4)) - inject_Z Y == inject_Z (V - Y * 2 ^ (2 * p + 4)) * p2 (- (2 * p + 4)))%Q).
      { unfold Z.sub. rewrite inject_Z_plus, inject_Z_opp, inject_Z_mult, <- (p2_Z (2 * p + 4)) by lia. pose proof (p2_opp (2 * p + 4)) as O.
        setoid_replace ((inject_Z V + - (inject_Z Y * p2 (2 * p + 4))) * p2 (- (2 * p + 4)))%Q with (inject_Z V * p2 (- (2 * p + 4)) - inject_Z Y * (p2 (- (2 * p + 4)) * p2 (2 * p + 4)))%Q by ring. rewrite O. ring. }
      pose proof (p2_pos (- (2 * p + 4))) as P. rewrite E, Qabs_Qmult, (Qabs_pos (p2 _)) by lra.
      change (Qabs (inject_Z (V - Y * 2 ^ (2 * p + 4)))) with (inject_Z (Z.abs (V - Y * 2 ^ (2 * p + 4)))).
      apply Qlt_le_trans with (inject_Z (2 ^ (2 * p + 2)) * p2 (- (2 * p + 4)))%Q; [apply Qmult_lt_r; [auto|apply inj_lt; lia]|].
      rewrite <- p2_Z by lia. rewrite <- p2_plus. change (1 # 2)%Q with (p2 (-1)). apply p2_le. lia. }
    rewrite EK in *. exists My. rewrite K2 by (rewrite (pf1 F Hok); lia).
    destruct Hx as [_ HEx]. destruct Hy as [[_ [_ HMy]] HEy]. replace (3 * p + 3 + u + B) with (Ex + f + 3) by (unfold msz; lia). rewrite Z.mod_small by lia.
    split; [|lia]. split; [unfold Y; lia|]. lia.
  - (* just below a power of two *)
    assert (EY' : Y = 2 ^ f).
    { destruct (Z.le_gt_cases Y (2 ^ f)); [lia|]. assert ((2 ^ f + 1) * 2 ^ (2 * p + 4) <= Y * 2 ^ (2 * p + 4)) by (apply Z.mul_le_mono_nonneg_r; lia). lia. }
    assert (HL : Z.log2 V = 3 * p + 2).
    { apply Z.log2_unique; [lia|]. replace (Z.succ (3 * p + 2)) with (3 * p + 3) by lia. split; [|auto].
      rewrite EY' in VB. assert (2 * 2 ^ (2 * p + 4) <= 2 ^ f * 2 ^ (2 * p + 4)) by (apply Z.mul_le_mono_nonneg_r; lia). lia. }
    rewrite HL in *.
    assert (EK : qrne (inject_Z V * p2 (f - (3 * p + 2))) = 2 ^ (f + 1)).
    { apply qrne_close. replace (f - (3 * p + 2)) with (- (2 * p + 3)) by (unfold msz; lia).
      assert (EE : 2 ^ f * 2 ^ (2 * p + 4) = 2 ^ (f + 1) * 2 ^ (2 * p + 3)) by (rewrite <- !Z.pow_add_r by lia; f_equal; lia).
      assert (E : (inject_Z V * p2 (- (2 * p + 3)) - inject_Z (2 ^ (f + 1)) == inject_Z (V - 2 ^ (f + 1) * 2 ^ (2 * p + 3)) * p2 (- (2 * p + 3)))%Q).
      { unfold Z.sub. rewrite inject_Z_plus, inject_Z_opp, inject_Z_mult, <- (p2_Z (2 * p + 3)) by lia. pose proof (p2_opp (2 * p + 3)) as O.
        setoid_replace ((inject_Z V + - (inject_Z (2 ^ (f + 1)) * p2 (2 * p + 3))) * p2 (- (2 * p + 3)))%Q with (inject_Z V * p2 (- (2 * p + 3)) - inject_Z (2 ^ (f + 1)) * (p2 (- (2 * p + 3)) * p2 (2 * p + 3)))%Q by ring. rewrite O. ring. }
      pose proof (p2_pos (- (2 * p + 3))) as P. rewrite E, Qabs_Qmult, (Qabs_pos (p2 _)) by lra.
      change (Qabs (inject_Z (V - 2 ^ (f + 1) * 2 ^ (2 * p + 3)))) with (inject_Z (Z.abs (V - 2 ^ (f + 1) * 2 ^ (2 * p + 3)))).
      apply Qlt_le_trans with (inject_Z (2 ^ (2 * p + 2)) * p2 (- (2 * p + 3)))%Q; [apply Qmult_lt_r; [auto|apply inj_lt; rewrite EY' in VB; lia]|].
      rewrite <- p2_Z by lia. rewrite <- p2_plus. change (1 # 2)%Q with (p2 (-1)). apply p2_le. lia. }
    rewrite EK in *. exists (2 ^ (f - 1)). rewrite (K3 eq_refl).
    destruct Hx as [_ HEx]. destruct Hy as [_ HEy]. replace (3 * p + 2 + u + 1 + B) with (Ex + f + 3) by (unfold msz; lia). rewrite Z.mod_small by lia.
    pose proof (pf_half F Hok). pose proof (pf1_ge F Hok). split; [|lia]. split; [reflexivity|]. lia.
Qed.
End P.
