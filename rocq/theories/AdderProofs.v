(* Hardware adder: lemmas. *)
From Coq Require Import ZArith QArith Qabs Qround Bool Lia Lqa Qfield.
From Verif Require Import QUtil FpFormatModel FpFormatSpec FpFormatProofs FpFormatProofs2 FpFormatProps AdderModel.
Open Scope Z_scope.

Lemma sub_signal_div : forall v lo hi, 0 <= lo <= hi + 1 -> sub_signal v lo hi = (v / 2 ^ lo) mod 2 ^ (hi - lo + 1).
Proof. intros. unfold sub_signal. now rewrite Z.shiftr_div_pow2 by lia. Qed.
Lemma testbit_div : forall v k, 0 <= k -> Z.testbit v k = Z.odd (v / 2 ^ k).
Proof. intros. rewrite Z.testbit_odd, Z.shiftr_div_pow2 by lia. reflexivity. Qed.

(* round bit, sticky bit and least significant bit give round to nearest even *)
Lemma rne_bits : forall N s, 1 <= s -> 0 <= N ->
  N / 2 ^ s + b2z (Z.testbit N (s - 1) && (negb (N mod 2 ^ (s - 1) =? 0) || Z.testbit N s)) = qrne (inject_Z N * p2 (- s)).
Proof.
  intros N s Hs HN. rewrite !testbit_div by lia.
  assert (Ps : 2 ^ s = 2 * 2 ^ (s - 1)) by (rewrite <- Z.pow_succ_r by lia; f_equal; lia).
  set (h := 2 ^ (s - 1)) in *. assert (Hh : 0 < h) by (apply pow2_pos; lia).
  set (A := N / 2 ^ s). set (r := N mod 2 ^ s).
  assert (EN : N = 2 * h * A + r) by (unfold A, r; rewrite <- Ps; apply Z.div_mod; lia).
  assert (Hr : 0 <= r < 2 * h) by (unfold r; rewrite <- Ps; apply Z.mod_pos_bound; lia).
  assert (Ed : N / h = 2 * A + (if r <? h then 0 else 1)).
  { destruct (Z.ltb_spec r h).
    - symmetry. apply Z.div_unique with r; [left; lia|]. lia.
    - symmetry. apply Z.div_unique with (r - h); [left; lia|]. lia. }
  assert (Em : N mod h = if r <? h then r else r - h).
  { destruct (Z.ltb_spec r h).
    - symmetry. apply Z.mod_unique with (2 * A); [left; lia|]. lia.
    - symmetry. apply Z.mod_unique with (2 * A + 1); [left; lia|]. lia. }
  rewrite Ed, Em.
  assert (P : (0 < p2 (- s))%Q) by apply p2_pos.
  assert (Ph : (p2 (- s) * inject_Z (2 * h) == 1)%Q).
  { rewrite <- Ps, <- p2_Z by lia. apply p2_opp. }
  rewrite inject_Z_mult in Ph. change (inject_Z 2) with 2%Q in Ph.
  assert (EQ : (inject_Z N * p2 (- s) == inject_Z A + inject_Z r * p2 (- s))%Q).
  { rewrite EN, inject_Z_plus, !inject_Z_mult. change (inject_Z 2) with 2%Q.
    setoid_replace ((2 * inject_Z h * inject_Z A + inject_Z r) * p2 (- s))%Q with (inject_Z A * (p2 (- s) * (2 * inject_Z h)) + inject_Z r * p2 (- s))%Q by ring.
    rewrite Ph. ring. }
  assert (R0 : (0 <= inject_Z r)%Q) by (change 0%Q with (inject_Z 0); apply inj_le; lia).
  assert (Fl : Qfloor (inject_Z N * p2 (- s)) = A).
  { apply Qfloor_unique.
    - rewrite EQ. assert (0 <= inject_Z r * p2 (- s))%Q by (apply Qmult_le_0_compat; lra). lra.
    - rewrite EQ, inject_Z_plus. change (inject_Z 1) with 1%Q.
      assert (inject_Z r < 2 * inject_Z h)%Q by (change 2%Q with (inject_Z 2); rewrite <- inject_Z_mult; apply inj_lt; lia). nra. }
  unfold qrne. rewrite Fl.
  assert (ED : (inject_Z N * p2 (- s) - inject_Z A == inject_Z r * p2 (- s))%Q) by (rewrite EQ; ring).
  assert (Half : (inject_Z h * p2 (- s) == 1 # 2)%Q) by lra.
  assert (Hodd : Z.odd (2 * A + 1) = true) by (rewrite Z.odd_add, Z.odd_mul; reflexivity).
  assert (Hev : Z.odd (2 * A + 0) = false) by (rewrite Z.add_0_r, Z.odd_mul; reflexivity).
  destruct (Z.ltb_spec r h) as [H|H].
  - rewrite Hev. cbn [andb b2z].
    replace (Qcompare (inject_Z N * p2 (- s) - inject_Z A) (1 # 2)) with Lt; [lia|]. symmetry. apply -> Qlt_alt.
    rewrite ED, <- Half. apply Qmult_lt_r; [auto|]. apply inj_lt. lia.
  - rewrite Hodd. rewrite andb_true_l. destruct (Z.eqb_spec (r - h) 0) as [E|E].
    + cbn [negb orb]. replace (Qcompare (inject_Z N * p2 (- s) - inject_Z A) (1 # 2)) with Eq.
      * rewrite <- Z.negb_odd. fold A. destruct (Z.odd A); cbn [negb b2z]; lia.
      * symmetry. apply -> Qeq_alt. rewrite ED, <- Half. replace r with h by lia. reflexivity.
    + cbn [negb orb b2z]. replace (Qcompare (inject_Z N * p2 (- s) - inject_Z A) (1 # 2)) with Gt; [lia|].
      symmetry. apply -> Qgt_alt. rewrite ED, <- Half. apply Qmult_lt_r; [auto|]. apply inj_lt. lia.
Qed.

(* ---- normalization and rounding of a magnitude V *)
Section R.
Variable F : fpfmt.
Hypothesis Hok : fmt_ok F.
Local Notation p := (msz F).
Local Notation n := (add_width F).
Lemma p_ge : 2 <= p. Proof. destruct Hok. unfold msz. lia. Qed.

Lemma normed_bounds : forall V, 0 < V < 2 ^ n ->
  2 ^ (n - 1) <= V * 2 ^ lzc n V < 2 ^ n.
Proof.
  intros V HV. unfold lzc. destruct (Z.eqb_spec V 0) as [E0|E0]; [lia|].
  assert (HL : 2 ^ Z.log2 V <= V < 2 ^ Z.succ (Z.log2 V)) by (apply Z.log2_spec; lia).
  assert (Ln : Z.log2 V < n) by (apply Z.log2_lt_pow2; lia). pose proof (Z.log2_nonneg V).
  set (k := n - 1 - Z.log2 V). assert (0 <= k) by (unfold k; lia). pose proof (pow2_pos k H0).
  assert (E1 : 2 ^ (n - 1) = 2 ^ Z.log2 V * 2 ^ k) by (rewrite <- Z.pow_add_r by lia; f_equal; unfold k; lia).
  assert (E2 : 2 ^ n = 2 ^ Z.succ (Z.log2 V) * 2 ^ k) by (rewrite <- Z.pow_add_r by lia; f_equal; unfold k; lia).
  rewrite E1, E2. nia.
Qed.

Lemma rounded_spec : forall m, 2 ^ (n - 1) <= m < 2 ^ n ->
  2 ^ fsz F + rounded_mant F m = qrne (inject_Z m * p2 (- (2 * p + 5))) /\ 0 <= rounded_mant F m <= 2 ^ fsz F.
Proof.
  intros m Hm. pose proof p_ge as Hp. destruct Hok as [He Hf].
  set (s := 2 * p + 5). assert (En : n = p + s) by (unfold add_width, s; lia).
  assert (Hm0 : 0 <= m) by (pose proof (pow2_pos (n - 1)); lia).
  pose proof (rne_bits m s ltac:(unfold s; lia) Hm0) as R.
  assert (Hq : 2 ^ (p - 1) <= m / 2 ^ s < 2 ^ p).
  { pose proof (pow2_pos s ltac:(unfold s; lia)).
    assert (2 ^ (n - 1) = 2 ^ s * 2 ^ (p - 1)) by (rewrite <- Z.pow_add_r by (unfold s; lia); f_equal; lia).
    assert (2 ^ n = 2 ^ s * 2 ^ p) by (rewrite <- Z.pow_add_r by (unfold s; lia); f_equal; lia).
    split; [apply Z.div_le_lower_bound; lia|apply Z.div_lt_upper_bound; lia]. }
  assert (P2 : 2 ^ p = 2 * 2 ^ (p - 1)) by (rewrite <- Z.pow_succ_r by lia; f_equal; lia).
  assert (Ef : 2 ^ fsz F = 2 ^ (p - 1)) by (f_equal; unfold msz; lia).
  assert (Efield : sub_signal m (2 * p + 5) (3 * p + 3) = m / 2 ^ s - 2 ^ (p - 1)).
  { rewrite sub_signal_div by lia. replace (3 * p + 3 - (2 * p + 5) + 1) with (p - 1) by lia. fold s.
    symmetry. apply Z.mod_unique with 1; [left; lia|lia]. }
  assert (Est : sub_signal m 0 (2 * p + 3) = m mod 2 ^ (s - 1)).
  { rewrite sub_signal_div by lia. rewrite Z.div_1_r. do 2 f_equal. unfold s. lia. }
  assert (Er : rounded_mant F m = m / 2 ^ s - 2 ^ (p - 1) + b2z (Z.testbit m (s - 1) && (negb (m mod 2 ^ (s - 1) =? 0) || Z.testbit m s))).
  { unfold rounded_mant. rewrite Efield, Est. replace (2 * p + 4) with (s - 1) by (unfold s; lia). fold s. apply Z.mod_small.
    destruct (Z.testbit m (s - 1) && (negb (m mod 2 ^ (s - 1) =? 0) || Z.testbit m s)); cbn [b2z]; lia. }
  split; [lia|]. rewrite Er, Ef. destruct (Z.testbit m (s - 1) && (negb (m mod 2 ^ (s - 1) =? 0) || Z.testbit m s)); cbn [b2z]; lia.
Qed.

(* no overflow: the field; overflow: half of the top *)
Lemma field_spec : forall m, 2 ^ (n - 1) <= m < 2 ^ n ->
  (rounded_overflow F m = false -> res_mant_field F m = rounded_mant F m /\ rounded_mant F m < 2 ^ fsz F) /\
  (rounded_overflow F m = true -> res_mant_field F m = 2 ^ (fsz F - 1) /\ rounded_mant F m = 2 ^ fsz F).
Proof.
  intros m Hm. destruct (rounded_spec m Hm) as [_ B]. pose proof p_ge as Hp. destruct Hok as [He Hf].
  assert (Ef : fsz F = p - 1) by (unfold msz; lia). rewrite Ef in *.
  assert (P1 : 2 ^ (p - 1) = 2 * 2 ^ (p - 1 - 1)) by (rewrite <- Z.pow_succ_r by lia; f_equal; lia).
  pose proof (pow2_pos (p - 1 - 1) ltac:(lia)) as Pp.
  unfold res_mant_field, rounded_overflow. rewrite testbit_div by lia. set (r := rounded_mant F m) in *.
  assert (D : r < 2 ^ (p - 1) \/ r = 2 ^ (p - 1)) by lia. split; intros H; rewrite H.
  - assert (Hr : r < 2 ^ (p - 1)). { destruct D as [D|D]; auto. rewrite D, Z.div_same in H by lia. discriminate. }
    split; auto. rewrite sub_signal_div by lia. rewrite Z.div_1_r. apply Z.mod_small. replace (p - 2 - 0 + 1) with (p - 1) by lia. lia.
  - assert (Hr : r = 2 ^ (p - 1)). { destruct D as [D|D]; auto. rewrite Z.div_small in H by lia. discriminate. }
    split; auto. rewrite sub_signal_div by lia. replace (p - 1 - 1 + 1) with (p - 1) by lia. rewrite Hr, P1.
    rewrite Z.mul_comm, Z.pow_1_r, Z.div_mul by lia. apply Z.mod_small. lia.
Qed.
End R.
