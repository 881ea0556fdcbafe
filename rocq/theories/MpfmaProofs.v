(* Mixed precision fused multiply-add: normalization and rounding. *)
From Coq Require Import ZArith QArith Qabs Qround Bool Lia Lqa Qfield.
From Verif Require Import QUtil FpFormatModel FpFormatSpec FpFormatProofs FpFormatProofs2 FpFormatProps TruncProps AdderModel AdderProofs AdderProofs2 AdderProofs3 MpfmaModel.
Open Scope Z_scope.

(* the word c is q rounded to nearest, ties away from zero *)
Definition rounded_away (F : fpfmt) (q : Q) (c : Z) : Prop :=
  exists r, get_value_from_integer_coding F c = Num r /\ nearest F q r /\
    forall u, representable F u -> ~ (u == r)%Q -> (Qabs (q - u) == Qabs (q - r))%Q -> (Qabs u < Qabs r)%Q.

Lemma norm_b : forall n V, 0 < V < 2 ^ n -> 2 ^ (n - 1) <= V * 2 ^ lzc n V < 2 ^ n.
Proof.
  intros n V HV. unfold lzc. destruct (Z.eqb_spec V 0) as [E0|E0]; [lia|].
  assert (HL : 2 ^ Z.log2 V <= V < 2 ^ Z.succ (Z.log2 V)) by (apply Z.log2_spec; lia).
  assert (Ln : Z.log2 V < n) by (apply Z.log2_lt_pow2; lia). pose proof (Z.log2_nonneg V).
  set (k := n - 1 - Z.log2 V). assert (0 <= k) by (unfold k; lia). pose proof (pow2_pos k H0).
  assert (E1 : 2 ^ (n - 1) = 2 ^ Z.log2 V * 2 ^ k) by (rewrite <- Z.pow_add_r by lia; f_equal; unfold k; lia).
  assert (E2 : 2 ^ n = 2 ^ Z.succ (Z.log2 V) * 2 ^ k) by (rewrite <- Z.pow_add_r by lia; f_equal; unfold k; lia).
  rewrite E1, E2. nia.
Qed.

Lemma mp_rounded_spec : forall o W m, 2 <= o -> o < W -> 2 ^ W <= m < 2 ^ (W + 1) ->
  2 ^ (o - 1) + mp_rounded o W m = qrne (inject_Z m * p2 (- (W - o + 1))) /\ 0 <= mp_rounded o W m <= 2 ^ (o - 1).
Proof.
  intros o W m Ho HW Hm. set (s := W - o + 1).
  assert (Hm0 : 0 <= m) by (pose proof (pow2_pos W); lia).
  pose proof (rne_bits m s ltac:(unfold s; lia) Hm0) as R.
  assert (Hq : 2 ^ (o - 1) <= m / 2 ^ s < 2 ^ o).
  { pose proof (pow2_pos s ltac:(unfold s; lia)).
    assert (2 ^ W = 2 ^ s * 2 ^ (o - 1)) by (rewrite <- Z.pow_add_r by (unfold s; lia); f_equal; unfold s; lia).
    assert (2 ^ (W + 1) = 2 ^ s * 2 ^ o) by (rewrite <- Z.pow_add_r by (unfold s; lia); f_equal; unfold s; lia).
    split; [apply Z.div_le_lower_bound; lia|apply Z.div_lt_upper_bound; lia]. }
  assert (P2 : 2 ^ o = 2 * 2 ^ (o - 1)) by (rewrite <- Z.pow_succ_r by lia; f_equal; lia).
  assert (Efield : sub_signal m s (W - 1) = m / 2 ^ s - 2 ^ (o - 1)).
  { rewrite sub_signal_div by (unfold s; lia). replace (W - 1 - s + 1) with (o - 1) by (unfold s; lia).
    symmetry. apply Z.mod_unique with 1; [left; lia|lia]. }
  assert (Est : sub_signal m 0 (W - o - 1) = m mod 2 ^ (s - 1)).
  { rewrite sub_signal_div by lia. rewrite Z.div_1_r. do 2 f_equal. unfold s. lia. }
  assert (Er : mp_rounded o W m = m / 2 ^ s - 2 ^ (o - 1) + b2z (Z.testbit m (s - 1) && (negb (m mod 2 ^ (s - 1) =? 0) || Z.testbit m s))).
  { unfold mp_rounded. fold s. rewrite Efield, Est. apply Z.mod_small.
    destruct (Z.testbit m (s - 1) && (negb (m mod 2 ^ (s - 1) =? 0) || Z.testbit m s)); cbn [b2z]; lia. }
  split; [lia|]. rewrite Er. destruct (Z.testbit m (s - 1) && (negb (m mod 2 ^ (s - 1) =? 0) || Z.testbit m s)); cbn [b2z]; lia.
Qed.

Lemma mp_field_spec : forall o W m, 2 <= o -> o < W -> 2 ^ W <= m < 2 ^ (W + 1) ->
  (mp_overflow o W m = false -> mp_field o W m = mp_rounded o W m /\ mp_rounded o W m < 2 ^ (o - 1)) /\
  (mp_overflow o W m = true -> mp_field o W m = 2 ^ (o - 2) /\ mp_rounded o W m = 2 ^ (o - 1)).
Proof.
  intros o W m Ho HW Hm. destruct (mp_rounded_spec o W m Ho HW Hm) as [_ B].
  assert (P1 : 2 ^ (o - 1) = 2 * 2 ^ (o - 2)) by (rewrite <- Z.pow_succ_r by lia; f_equal; lia).
  pose proof (pow2_pos (o - 2) ltac:(lia)) as Pp.
  unfold mp_field, mp_overflow. rewrite testbit_div by lia. set (r := mp_rounded o W m) in *.
  assert (D : r < 2 ^ (o - 1) \/ r = 2 ^ (o - 1)) by lia. split; intros H; rewrite H.
  - assert (Hr : r < 2 ^ (o - 1)). { destruct D as [D|D]; auto. rewrite D, Z.div_same in H by lia. discriminate. }
    split; auto. rewrite sub_signal_div by lia. rewrite Z.div_1_r. apply Z.mod_small. replace (o - 2 - 0 + 1) with (o - 1) by lia. lia.
  - assert (Hr : r = 2 ^ (o - 1)). { destruct D as [D|D]; auto. rewrite Z.div_small in H by lia. discriminate. }
    split; auto. rewrite sub_signal_div by lia. replace (o - 1 - 1 + 1) with (o - 1) by lia. rewrite Hr, P1.
    rewrite Z.mul_comm, Z.pow_1_r, Z.div_mul by lia. apply Z.mod_small. lia.
Qed.

(* two numbers of the same cell of at most half a unit in the last place *)
Lemma half_cell : forall c v, (inject_Z c < v * 2)%Q -> (v * 2 < inject_Z (c + 1))%Q -> qrne v = (c + 1) / 2.
Proof.
  intros c v A C. rewrite inject_Z_plus in C. change (inject_Z 1) with 1%Q in C.
  pose proof (Z.div_mod (c + 1) 2 ltac:(lia)) as E. pose proof (Z.mod_pos_bound (c + 1) 2 ltac:(lia)) as Bd.
  set (t := (c + 1) / 2) in *. set (b := (c + 1) mod 2) in *.
  assert (Ec : (inject_Z c == 2 * inject_Z t + inject_Z b - 1)%Q).
  { replace c with (2 * t + b - 1) by lia. unfold Z.sub. rewrite !inject_Z_plus, inject_Z_mult. change (inject_Z 2) with 2%Q. change (inject_Z (- (1))) with (-1)%Q. ring. }
  apply qrne_close. apply Qabs_Qlt_condition.
  assert (D : b = 0 \/ b = 1) by lia. destruct D as [D|D]; rewrite D in Ec; [change (inject_Z 0) with 0%Q in Ec|change (inject_Z 1) with 1%Q in Ec]; split; lra.
Qed.
Lemma half_cell_floor : forall c v, (inject_Z c <= v * 2)%Q -> (v * 2 < inject_Z (c + 1))%Q -> Qfloor (v + (1 # 2)) = (c + 1) / 2.
Proof.
  intros c v A C. rewrite inject_Z_plus in C. change (inject_Z 1) with 1%Q in C.
  pose proof (Z.div_mod (c + 1) 2 ltac:(lia)) as E. pose proof (Z.mod_pos_bound (c + 1) 2 ltac:(lia)) as Bd.
  set (t := (c + 1) / 2) in *. set (b := (c + 1) mod 2) in *.
  assert (Ec : (inject_Z c == 2 * inject_Z t + inject_Z b - 1)%Q).
  { replace c with (2 * t + b - 1) by lia. unfold Z.sub. rewrite !inject_Z_plus, inject_Z_mult. change (inject_Z 2) with 2%Q. change (inject_Z (- (1))) with (-1)%Q. ring. }
  assert (D : b = 0 \/ b = 1) by lia.
  apply Qfloor_unique; [|rewrite inject_Z_plus; change (inject_Z 1) with 1%Q]; destruct D as [D|D]; rewrite D in Ec; [change (inject_Z 0) with 0%Q in Ec|change (inject_Z 1) with 1%Q in Ec|change (inject_Z 0) with 0%Q in Ec|change (inject_Z 1) with 1%Q in Ec]; lra.
Qed.

(* a cell [a 2^h, (a+1) 2^h) with a of at least f+2 bits lies in one binade and one half unit *)
Lemma cell_bounds : forall f a h w, 0 <= f -> 2 ^ (f + 1) <= a -> 0 <= h ->
  (inject_Z a * p2 h <= w)%Q -> (w < inject_Z (a + 1) * p2 h)%Q ->
  let L := Z.log2 a + h in
  (p2 L <= w)%Q /\ (w < p2 (L + 1))%Q /\
  let c := a / 2 ^ (Z.log2 a - f - 1) in
  (inject_Z c <= w * p2 (f - L) * 2)%Q /\ (w * p2 (f - L) * 2 < inject_Z (c + 1))%Q /\
  ((inject_Z a * p2 h < w)%Q -> (inject_Z c < w * p2 (f - L) * 2)%Q).
Proof.
  intros f a h w Hf Ha Hh A C L. pose proof (pow2_pos (f + 1) ltac:(lia)) as P0.
  pose proof (Z.log2_spec a ltac:(lia)) as [L1 L2]. set (l := Z.log2 a) in *.
  assert (Hl : f + 1 <= l). { apply Z.log2_le_mono in Ha. rewrite Z.log2_pow2 in Ha by lia. exact Ha. }
  pose proof (p2_pos h) as Ph.
  assert (Q1 : (p2 L <= w)%Q).
  { eapply Qle_trans; [|exact A]. unfold L. rewrite p2_plus, (p2_Z l) by lia. apply Qmult_le_compat_r; [now apply inj_le|lra]. }
  assert (Q2 : (w < p2 (L + 1))%Q).
  { eapply Qlt_le_trans; [exact C|]. replace (L + 1) with (Z.succ l + h) by (unfold L; lia). rewrite p2_plus, (p2_Z (Z.succ l)) by lia. apply Qmult_le_compat_r; [apply inj_le; lia|lra]. }
  split; [auto|]. split; [auto|].
  set (t := l - f - 1). pose proof (pow2_pos t ltac:(unfold t; lia)) as Pt.
  pose proof (Z.div_mod a (2 ^ t) ltac:(lia)) as E. pose proof (Z.mod_pos_bound a (2 ^ t) ltac:(lia)) as Bd.
  set (c := a / 2 ^ t) in *. intros c'. subst c'.
  assert (W : (w * p2 (f - L) * 2 == w * p2 (- h) * p2 (- t))%Q).
  { change 2%Q with (p2 1). rewrite <- !Qmult_assoc, <- !p2_plus. replace (f - L + 1) with (- h + - t) by (unfold L, t; lia). reflexivity. }
  assert (Hh1 : (p2 h * p2 (- h) == 1)%Q) by (rewrite Qmult_comm; apply p2_opp).
  assert (Ht1 : (inject_Z (2 ^ t) * p2 (- t) == 1)%Q) by (rewrite <- p2_Z by (unfold t; lia); rewrite Qmult_comm; apply p2_opp).
  pose proof (p2_pos (- h)) as Ph'. pose proof (p2_pos (- t)) as Pt'.
  assert (A1 : (inject_Z a <= w * p2 (- h))%Q).
  { setoid_replace (inject_Z a) with (inject_Z a * p2 h * p2 (- h))%Q by (rewrite <- Qmult_assoc, Hh1; ring). apply Qmult_le_compat_r; [auto|lra]. }
  assert (C1 : (w * p2 (- h) < inject_Z (a + 1))%Q).
  { setoid_replace (inject_Z (a + 1)) with (inject_Z (a + 1) * p2 h * p2 (- h))%Q by (rewrite <- Qmult_assoc, Hh1; ring). apply Qmult_lt_r; auto. }
  assert (D1 : forall z, (inject_Z z == inject_Z (z * 2 ^ t) * p2 (- t))%Q) by (intros z; rewrite inject_Z_mult, <- Qmult_assoc, Ht1; ring).
  rewrite !W. split; [|split].
  - rewrite (D1 c). apply Qmult_le_compat_r; [|lra]. eapply Qle_trans; [|exact A1]. apply inj_le. nia.
  - rewrite (D1 (c + 1)). apply Qmult_lt_r; [auto|]. eapply Qlt_le_trans; [exact C1|]. apply inj_le. nia.
  - intros S. assert (A2 : (inject_Z a < w * p2 (- h))%Q).
    { setoid_replace (inject_Z a) with (inject_Z a * p2 h * p2 (- h))%Q by (rewrite <- Qmult_assoc, Hh1; ring). apply Qmult_lt_r; auto. }
    rewrite (D1 c). apply Qmult_lt_r; [auto|]. eapply Qle_lt_trans; [|exact A2]. apply inj_le. nia.
Qed.
Lemma cell_log2 : forall a h V, 0 < a -> 0 <= h -> a * 2 ^ h <= V < (a + 1) * 2 ^ h -> Z.log2 V = Z.log2 a + h.
Proof.
  intros a h V Ha Hh HV. pose proof (Z.log2_spec a Ha) as [L1 L2]. pose proof (Z.log2_nonneg a). pose proof (pow2_pos h Hh).
  apply Z.log2_unique; [lia|]. replace (Z.succ (Z.log2 a + h)) with (Z.succ (Z.log2 a) + h) by lia. rewrite !Z.pow_add_r by lia. nia.
Qed.
(* the rounding of the integer V decides that of w *)
Lemma cell_open : forall f a h V w, 0 <= f -> 2 ^ (f + 1) <= a -> 0 <= h ->
  a * 2 ^ h < V < (a + 1) * 2 ^ h -> (inject_Z a * p2 h < w)%Q -> (w < inject_Z (a + 1) * p2 h)%Q ->
  let L := Z.log2 V in (p2 L <= w)%Q /\ (w < p2 (L + 1))%Q /\ qrne (inject_Z V * p2 (f - L)) = qrne (w * p2 (f - L)).
Proof.
  intros f a h V w Hf Ha Hh HV A C L. pose proof (pow2_pos (f + 1) ltac:(lia)).
  assert (EL : L = Z.log2 a + h) by (apply cell_log2; lia). rewrite EL.
  destruct (cell_bounds f a h w Hf Ha Hh ltac:(lra) C) as [W1 [W2 [W3 [W4 W5]]]].
  assert (V1 : (inject_Z a * p2 h < inject_Z V)%Q) by (rewrite p2_Z, <- inject_Z_mult by lia; apply inj_lt; lia).
  assert (V2 : (inject_Z V < inject_Z (a + 1) * p2 h)%Q) by (rewrite p2_Z, <- inject_Z_mult by lia; apply inj_lt; lia).
  destruct (cell_bounds f a h (inject_Z V) Hf Ha Hh ltac:(lra) V2) as [_ [_ [V3 [V4 V5]]]].
  split; [auto|]. split; [auto|]. rewrite (half_cell _ _ (V5 V1) V4), (half_cell _ _ (W5 A) W4). reflexivity.
Qed.
Lemma cell_up : forall f a h V w, 0 <= f -> 2 ^ (f + 1) <= a -> 0 <= h ->
  a * 2 ^ h < V < (a + 1) * 2 ^ h -> (inject_Z a * p2 h <= w)%Q -> (w < inject_Z (a + 1) * p2 h)%Q ->
  let L := Z.log2 V in (p2 L <= w)%Q /\ (w < p2 (L + 1))%Q /\ qrne (inject_Z V * p2 (f - L)) = Qfloor (w * p2 (f - L) + (1 # 2)).
Proof.
  intros f a h V w Hf Ha Hh HV A C L. pose proof (pow2_pos (f + 1) ltac:(lia)).
  assert (EL : L = Z.log2 a + h) by (apply cell_log2; lia). rewrite EL.
  destruct (cell_bounds f a h w Hf Ha Hh A C) as [W1 [W2 [W3 [W4 W5]]]].
  assert (V1 : (inject_Z a * p2 h < inject_Z V)%Q) by (rewrite p2_Z, <- inject_Z_mult by lia; apply inj_lt; lia).
  assert (V2 : (inject_Z V < inject_Z (a + 1) * p2 h)%Q) by (rewrite p2_Z, <- inject_Z_mult by lia; apply inj_lt; lia).
  destruct (cell_bounds f a h (inject_Z V) Hf Ha Hh ltac:(lra) V2) as [_ [_ [V3 [V4 V5]]]].
  split; [auto|]. split; [auto|]. rewrite (half_cell _ _ (V5 V1) V4), (half_cell_floor _ _ W3 W4). reflexivity.
Qed.

Section G.
Variable G : fpfmt.
Hypothesis Hok : fmt_ok G.
Local Notation e := (esz G).
Local Notation f := (fsz G).
Local Notation B := (ieee_bias G).

(* rounding up of the halves *)
Lemma word_away : forall (s : bool) q k K c, (p2 k <= q)%Q -> (q < p2 (k + 1))%Q -> emin_normal G <= k <= emax G ->
  K = Qfloor (q / p2 (k - f) + (1 # 2)) -> 2 ^ f <= K < 2 ^ (f + 1) -> has_fields G c s (k + B) (K - 2 ^ f) ->
  rounded_away G (sg s * q) c.
Proof.
  intros s q k K c L1 L2 Hk EK HK Hc. pose proof Hok as [He Hf]. pose proof (p2_pos k) as Pk.
  assert (Q0 : (0 < q)%Q) by lra. assert (Qz : ~ (q == 0)%Q) by lra.
  assert (Hx : rnd_exp G q = k - f).
  { unfold rnd_exp. rewrite (qlog2_unique (Qabs q) k); [lia| |]; rewrite Qabs_pos by lra; auto. }
  assert (NE : 0 < k + B < 2 ^ e - 1).
  { unfold emin_normal, emax in Hk. rewrite (bias_eq G) in Hk. lia. }
  destruct (decode_normal G Hok c s (k + B) (K - 2 ^ f) (conj Hc NE)) as [r [Dr Er]].
  assert (Er' : (r == sg s * (inject_Z K * p2 (k - f)))%Q).
  { rewrite Er. unfold normal_val. apply Qmult_comp; [reflexivity|]. replace (k + B - B) with k by lia.
    unfold Z.sub. rewrite inject_Z_plus, inject_Z_opp, p2_plus, <- (p2_Z f) by lia.
    pose proof (p2_opp f) as O. setoid_replace (p2 k * (1 + (inject_Z K + - p2 f) * p2 (- f)))%Q with (p2 k * (1 + inject_Z K * p2 (- f) - p2 (- f) * p2 f))%Q by ring.
    rewrite O. ring. }
  pose proof (p2_pos (k - f)) as P.
  set (t := (q / p2 (k - f))%Q) in *. assert (Et : (q == t * p2 (k - f))%Q) by (unfold t; field; apply p2_nz).
  assert (B1 : (inject_Z K <= t + (1 # 2))%Q) by (rewrite EK; apply Qfloor_le).
  assert (B2 : (t + (1 # 2) < inject_Z K + 1)%Q) by (rewrite EK; pose proof (Qlt_floor (t + (1 # 2))) as Fl; rewrite inject_Z_plus in Fl; exact Fl).
  assert (AK : (Qabs (t - inject_Z K) <= 1 # 2)%Q) by (apply Qabs_Qle_condition; split; lra).
  assert (NNi : forall z, z <> K -> (Qabs (t - inject_Z K) <= Qabs (t - inject_Z z))%Q /\ ((Qabs (t - inject_Z z) <= Qabs (t - inject_Z K))%Q -> z = K - 1)).
  { intros z Hz. assert (D : z <= K - 1 \/ K + 1 <= z) by lia. destruct D as [D|D].
    - assert (inject_Z z <= inject_Z K - 1)%Q.
      { apply inj_le in D. unfold Z.sub in D. rewrite inject_Z_plus in D. change (inject_Z (- (1))) with (-1)%Q in D. lra. }
      rewrite (Qabs_pos (t - inject_Z z)) by lra. split; [lra|]. intros T. destruct (Z.eq_dec z (K - 1)); auto. exfalso.
      assert (D' : z <= K - 2) by lia. apply inj_le in D'. unfold Z.sub in D'. rewrite inject_Z_plus in D'. change (inject_Z (- (2))) with (-2)%Q in D'. lra.
    - assert (inject_Z K + 1 <= inject_Z z)%Q.
      { apply inj_le in D. rewrite inject_Z_plus in D. change (inject_Z 1) with 1%Q in D. lra. }
      rewrite (Qabs_neg (t - inject_Z z)) by lra. split; [lra|]. intros T. exfalso.
      apply Qabs_Qle_condition in AK. apply Qle_lteq in T. destruct T as [T|T].
      + assert (Qabs (t - inject_Z K) <= 1 # 2)%Q by (apply Qabs_Qle_condition; lra). lra.
      + assert (Qabs (t - inject_Z K) <= 1 # 2)%Q by (apply Qabs_Qle_condition; lra). lra. }
  assert (Sc : forall z, (Qabs (q - inject_Z z * p2 (k - f)) == Qabs (t - inject_Z z) * p2 (k - f))%Q).
  { intros z. setoid_replace (q - inject_Z z * p2 (k - f))%Q with ((t - inject_Z z) * p2 (k - f))%Q by (rewrite Et; ring).
    rewrite Qabs_Qmult, (Qabs_pos (p2 (k - f))) by lra. reflexivity. }
  assert (NN : forall z, (Qabs (q - inject_Z K * p2 (k - f)) <= Qabs (q - inject_Z z * p2 (k - f)))%Q).
  { intros z. destruct (Z.eq_dec z K) as [->|Nz]; [lra|]. rewrite !Sc. apply Qmult_le_compat_r; [apply NNi; auto|lra]. }
  assert (Fold : forall u, (Qabs (sg s * q - u) == Qabs (q - sg s * u))%Q).
  { intros u. rewrite <- (sg_abs s (sg s * q - u)). apply Qabs_wd. destruct s; cbn [sg]; ring. }
  assert (Dr' : (Qabs (sg s * q - r) == Qabs (q - inject_Z K * p2 (k - f)))%Q).
  { rewrite Fold. apply Qabs_wd. rewrite Er', sg_sg. reflexivity. }
  pose proof (pow2_pos f ltac:(lia)) as Pf2.
  exists r. split; auto. split; [split|].
  - apply (representable_comp G (sg s * (inject_Z K * p2 (k - f)))); [now symmetry|]. apply representable_sg.
    exists K, (k - f). split; [lia|]. split; [|reflexivity]. unfold emin_normal, emax in Hk. rewrite (bias_eq G) in Hk. unfold ieee_bias in *. pose proof (pe_half G Hok). lia.
  - intros u Ru. rewrite Dr', Fold.
    destruct (repr_multiple G Hok q (sg s * u) Qz (representable_sg G s u Ru)) as [[z Hz]|[z Hz]]; rewrite Hx in Hz.
    + rewrite Hz. apply NN.
    + specialize (NN z). lra.
  - intros u Ru Nu Eu. rewrite Dr', Fold in Eu.
    destruct (repr_multiple G Hok q (sg s * u) Qz (representable_sg G s u Ru)) as [[z Hz]|[z Hz]]; rewrite Hx in Hz.
    + assert (Nz : z <> K). { intros ->. apply Nu. rewrite Er', <- Hz, sg_sg. reflexivity. }
      destruct (NNi z Nz) as [_ N2].
      assert (Ez : z = K - 1).
      { apply N2. rewrite Hz, !Sc in Eu. apply Qmult_le_r with (z := p2 (k - f)); [auto|]. rewrite Eu. lra. }
      rewrite <- (sg_abs s u), Hz, Er', sg_abs, Ez. rewrite !Qabs_pos.
      * apply Qmult_lt_r; [auto|apply inj_lt; lia].
      * apply Qmult_le_0_compat; [|lra]. change 0%Q with (inject_Z 0). apply inj_le. lia.
      * apply Qmult_le_0_compat; [|lra]. change 0%Q with (inject_Z 0). apply inj_le. lia.
    + specialize (NN z). lra.
Qed.
End G.
