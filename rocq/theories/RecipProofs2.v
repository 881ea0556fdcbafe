(* The last stage of the reciprocal unit: mantissa, rounding, exponent. *)
From Coq Require Import ZArith QArith Qabs Qround Lia Bool.
From Verif Require Import QUtil FixedModel FixedSpec FpFormatModel FpFormatSpec FpFormatProofs AdderModel AdderProofs3
  RtlFixedModel RtlFixedProps RecipModel RecipProofs.
Open Scope Z_scope.

Definition F32 := ML_Binary32.

(* q is y / 2^24 rounded to nearest, ties to even *)
Definition near24 (y q : Z) : Prop :=
  2 ^ 24 * q - 2 ^ 23 <= y <= 2 ^ 24 * q + 2 ^ 23 /\
  (y = 2 ^ 24 * q - 2 ^ 23 \/ y = 2 ^ 24 * q + 2 ^ 23 -> Z.even q = true).

Lemma testbit_div : forall y n, 0 <= n -> b2z (Z.testbit y n) = (y / 2 ^ n) mod 2.
Proof.
  intros y n H. rewrite Z.testbit_eqb by auto. pose proof (Z.mod_pos_bound (y / 2 ^ n) 2 ltac:(lia)).
  destruct (Z.eqb_spec ((y / 2 ^ n) mod 2) 1); cbn [b2z]; lia.
Qed.

Lemma final_stage : forall y, 2 ^ 47 <= y < 2 ^ 48 ->
  not_decrement F32 y = false /\ 2 ^ 23 <= rc_field F32 y + 2 ^ 23 < 2 ^ 24 /\ near24 y (2 ^ 23 + rc_field F32 y + rc_incr F32 y).
Proof.
  intros y B.
  assert (N : not_decrement F32 y = false).
  { unfold not_decrement. change (2 * msz F32) with 48. destruct (Z.testbit y 48) eqn:T; auto.
    pose proof (testbit_div y 48 ltac:(lia)) as P. rewrite T in P. rewrite Z.div_small in P by lia. discriminate. }
  split; [auto|].
  assert (FE : rc_field F32 y = y / 2 ^ 24 - 2 ^ 23).
  { unfold rc_field. rewrite N. change (rc_lsb F32 - 1) with 24. change (rc_msb F32 - 1) with 46.
    unfold sub_signal. rewrite Z.shiftr_div_pow2 by lia. change (46 - 24 + 1) with 23.
    symmetry. apply (Z.mod_unique_pos _ _ 1); [|lia].
    assert (2 ^ 23 <= y / 2 ^ 24) by (apply Z.div_le_lower_bound; lia).
    assert (y / 2 ^ 24 < 2 ^ 24) by (apply Z.div_lt_upper_bound; lia). lia. }
  destruct (div_rem y (2 ^ 24) ltac:(lia)) as (r & Br & Er). set (n := y / 2 ^ 24) in *.
  assert (Hn : 2 ^ 23 <= n < 2 ^ 24) by lia. split; [lia|].
  destruct (div_rem r (2 ^ 23) ltac:(lia)) as (t & Bt & Et).
  assert (RB : b2z (rc_round F32 y) = r / 2 ^ 23).
  { unfold rc_round. rewrite N. change (rc_lsb F32 - 2) with 23. rewrite testbit_div by lia.
    replace y with (r + (2 * n) * 2 ^ 23) by lia. rewrite Z.div_add by lia.
    replace (r / 2 ^ 23 + 2 * n) with (r / 2 ^ 23 + n * 2) by lia. rewrite Z.mod_add by lia. apply Z.mod_small. lia. }
  assert (SB : rc_sticky F32 y = negb (t =? 0)).
  { unfold rc_sticky. rewrite N. change (rc_lsb F32 - 3) with 22. unfold sub_signal. rewrite Z.shiftr_0_r.
    change (22 - 0 + 1) with 23. f_equal. f_equal. symmetry. apply (Z.mod_unique_pos _ _ (2 * n + r / 2 ^ 23)); lia. }
  assert (LB : rc_least F32 y = negb (Z.even n)).
  { unfold rc_least. rewrite N. change (rc_lsb F32 - 1) with 24.
    rewrite Z.testbit_eqb by lia. fold n. rewrite Zmod_even. destruct (Z.even n); reflexivity. }
  assert (R01 : r / 2 ^ 23 = 0 \/ r / 2 ^ 23 = 1) by lia.
  unfold rc_incr. rewrite SB, LB, FE. replace (2 ^ 23 + (n - 2 ^ 23)) with n by lia.
  unfold near24. destruct (rc_round F32 y); cbn [b2z andb] in *.
  - destruct (Z.eqb_spec t 0) as [T0|T0]; cbn [negb orb].
    + destruct (Z.even n) eqn:Ev; cbn [negb b2z].
      * rewrite Z.add_0_r. split; [lia|]. auto.
      * split; [lia|]. intros _. rewrite Z.even_add, Ev. reflexivity.
    + cbn [b2z]. split; [lia|]. intros [P|P]; lia.
  - rewrite Z.add_0_r. split; [lia|]. intros [P|P]; lia.
Qed.

Lemma final_exp : forall E y, 0 <= E < 256 -> not_decrement F32 y = false -> rc_exp F32 E y = (253 - E) mod 256.
Proof.
  intros E y H N. unfold rc_exp. rewrite N. change (-2 * bias F32) with 254. change (2 ^ (esz F32 + 2)) with 1024.
  change (2 ^ esz F32) with 256. change 1024 with (4 * 256).
  assert (A : ((254 - E) mod (4 * 256)) mod 256 = (254 - E) mod 256).
  { symmetry. apply Znumtheory.Zmod_div_mod; [lia|lia|]. exists 4. lia. }
  rewrite A. rewrite Zplus_mod_idemp_l. replace (254 - E + (256 - 1)) with (253 - E + 1 * 256) by lia. apply Z.mod_add. lia.
Qed.

Lemma fields32 : forall w s E M, has_fields F32 w s E M -> hw_raw_exp F32 w = E /\ hw_sign F32 w = s /\
  hw_mant F32 w = if E =? 0 then M else 2 ^ 23 + M.
Proof.
  intros w s E M H. assert (Hok : fmt_ok F32) by (split; cbn; lia).
  assert (A : hw_raw_exp F32 w = E).
  { unfold hw_raw_exp. rewrite Z.shiftr_div_pow2, land_pow2 by (cbn; lia). apply (c_exp F32 Hok w s E M H). }
  split; [auto|]. split.
  - unfold hw_sign. rewrite Z.testbit_eqb by (cbn; lia). rewrite (c_sign F32 Hok w s E M H). destruct s; reflexivity.
  - unfold hw_mant. rewrite A, land_pow2 by (cbn; lia). rewrite (c_mod_f F32 Hok w s E M H). destruct (E =? 0); reflexivity.
Qed.

Section Normal.
Variables (w : Z) (s : bool) (E M : Z).
Hypothesis HF : has_fields F32 w s E M.
Hypothesis HE : E <> 0.
Hypothesis HM : M <> 0.
Local Notation X := (2 ^ 23 + M).

Lemma m_range : 0 < M < 2 ^ 23.
Proof. destruct HF as (_ & _ & B). change (2 ^ fsz F32) with (2 ^ 23) in B. lia. Qed.
Lemma e_range : 1 <= E < 256.
Proof. destruct HF as (_ & B & _). change (2 ^ esz F32) with 256 in B. lia. Qed.
Lemma x_range : 2 ^ 23 <= X < 2 ^ 24.
Proof. pose proof m_range. lia. Qed.
Lemma y4_strict : 2 ^ 47 <= y4 X < 2 ^ 48 - 2 ^ 24.
Proof.
  pose proof m_range. pose proof (d4_range X x_range) as [D0 D1]. unfold d4 in D0, D1. nia.
Qed.

(* the significand of the result *)
Definition sig := 2 ^ 23 + rc_field F32 (y4 X) + rc_incr F32 (y4 X).
Lemma sig_near : near24 (y4 X) sig.
Proof. pose proof y4_strict. destruct (final_stage (y4 X) ltac:(lia)) as (_ & _ & P). exact P. Qed.
Lemma sig_range : 2 ^ 23 <= sig < 2 ^ 24.
Proof. pose proof y4_strict. pose proof sig_near as [P _]. split; lia. Qed.

Lemma reciprocal_word : reciprocal F32 w = (if s then 2 ^ 31 else 0) + ((253 - E) mod 256) * 2 ^ 23 + (sig - 2 ^ 23).
Proof.
  pose proof y4_strict. pose proof sig_range as SR. pose proof e_range.
  destruct (final_stage (y4 X) ltac:(lia)) as (N & FR & _).
  destruct (fields32 w s E M HF) as (A & B & C).
  unfold reciprocal. rewrite A, B, C. destruct (Z.eqb_spec E 0); [lia|].
  change (msz F32) with 24. change (approximation F32) with (approximation ML_Binary32).
  rewrite (approximation_int X x_range). rewrite (final_exp E (y4 X)) by (auto; lia).
  change (2 ^ fsz F32) with (2 ^ 23). change (2 ^ (esz F32 + fsz F32)) with (2 ^ 31).
  assert (0 <= (253 - E) mod 256 < 256) by (apply Z.mod_pos_bound; lia). unfold sig in *.
  rewrite Z.mod_small; [|lia]. lia.
Qed.

Lemma result_fields : has_fields F32 (reciprocal F32 w) s ((253 - E) mod 256) (sig - 2 ^ 23).
Proof.
  pose proof sig_range. split; [|split].
  - rewrite reciprocal_word. destruct s; reflexivity.
  - change (2 ^ esz F32) with 256. apply Z.mod_pos_bound. lia.
  - change (2 ^ fsz F32) with (2 ^ 23). lia.
Qed.

(* position of the significand with respect to 2^47 / X *)
Lemma sig_error : 2 ^ 25 * Z.abs (sig * X - 2 ^ 47) <= X * (2 ^ 24 + 8).
Proof.
  pose proof x_range. pose proof (d4_range X x_range) as [D0 D1]. unfold d4 in D0, D1. pose proof sig_near as [P _].
  assert (Z.abs (2 ^ 24 * (sig * X) - X * y4 X) <= X * 2 ^ 23) by nia. lia.
Qed.

Lemma quotient : exists m d, 2 ^ 48 = m * X + d /\ 0 <= d < X /\ m = 2 ^ 48 / X /\ d = 2 ^ 48 mod X.
Proof.
  pose proof x_range. exists (2 ^ 48 / X), (2 ^ 48 mod X). pose proof (Z.div_mod (2 ^ 48) X ltac:(lia)).
  pose proof (Z.mod_pos_bound (2 ^ 48) X ltac:(lia)). split; [lia|]. auto.
Qed.

Lemma sig_even : Z.even (2 ^ 48 / X) = true -> sig = 2 ^ 48 / X / 2 /\ (2 ^ 48 / X / 2) * X * 2 <= 2 ^ 48 < (2 ^ 48 / X / 2) * X * 2 + X.
Proof.
  intros Ev. pose proof x_range. destruct quotient as (m & d & Q & Bd & Em & _). rewrite <- Em in *.
  apply Z.even_spec in Ev. destruct Ev as [k K]. assert (m / 2 = k) as -> by (rewrite K, Z.mul_comm; apply Z.div_mul; lia).
  split; [|lia]. pose proof (d4_range X x_range) as [D0 D1]. unfold d4 in D0, D1. pose proof sig_near as [P _].
  assert (EQ : (y4 X - 2 ^ 24 * k) * X = 2 ^ 23 * d - (2 ^ 71 - X * y4 X)) by (subst m; lia).
  assert (-4 < y4 X - 2 ^ 24 * k) by nia. assert (y4 X - 2 ^ 24 * k < 2 ^ 23) by nia. lia.
Qed.

Lemma sig_odd : Z.even (2 ^ 48 / X) = false -> 6 < 2 ^ 48 mod X ->
  sig = 2 ^ 48 / X / 2 + 1 /\ (2 ^ 48 / X / 2) * X * 2 + X < 2 ^ 48 < (2 ^ 48 / X / 2) * X * 2 + 2 * X.
Proof.
  intros Ev Hd. pose proof x_range. destruct quotient as (m & d & Q & Bd & Em & Ed). rewrite <- Em, <- Ed in *.
  assert (Od : Z.odd m = true) by (rewrite <- Z.negb_even, Ev; reflexivity). apply Z.odd_spec in Od. destruct Od as [k K].
  assert (m / 2 = k) as -> by (symmetry; apply (Z.div_unique_pos _ _ _ 1); lia).
  split; [|lia]. pose proof (d4_range X x_range) as [D0 D1]. unfold d4 in D0, D1. pose proof sig_near as [P _].
  assert (EQ : (y4 X - 2 ^ 23 * m) * X = 2 ^ 23 * d - (2 ^ 71 - X * y4 X)) by lia.
  assert (0 < y4 X - 2 ^ 23 * m) by nia. assert (y4 X - 2 ^ 23 * m < 2 ^ 23) by nia. lia.
Qed.

(* 1/x a little above the middle of two numbers, the lower one even: rounded down *)
Lemma sig_wrong : forall m, X * m = 2 ^ 48 - 1 -> m mod 4 = 1 -> 2 * sig = m - 1.
Proof.
  intros m Q H4. pose proof x_range. pose proof m_range.
  pose proof (d4_range X x_range) as [D0 D1]. unfold d4 in D0, D1. pose proof sig_near as [P T].
  pose proof (Z.div_mod m 4 ltac:(lia)) as DM. rewrite H4 in DM. set (k := m / 4) in *.
  assert (EQ : (y4 X - 2 ^ 23 * m) * X = 2 ^ 23 - (2 ^ 71 - X * y4 X)) by lia.
  assert (-4 < y4 X - 2 ^ 23 * m) by nia. assert (y4 X - 2 ^ 23 * m < 1) by nia.
  destruct (Z.eq_dec (y4 X) (2 ^ 23 * m)) as [Y|Y]; [|lia].
  assert (sig = 2 * k \/ sig = 2 * k + 1) as [S|S] by lia; [lia|].
  assert (Z.even sig = true) as EV by (apply T; lia). rewrite S, Z.add_comm, Z.even_add_mul_2 in EV. discriminate.
Qed.
End Normal.
