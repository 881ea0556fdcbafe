(* bfloat16: conversions, constants and rounding (C125). *)
From Coq Require Import ZArith QArith Qabs Qround Bool Lia Lqa.
From Verif Require Import QUtil FpFormatModel FpFormatSpec FpFormatProofs FpFormatProofs2 LlvmProofs Bf16Model Bf16Spec Bf16Proofs.
Open Scope Z_scope.

Lemma extend_word : forall c, 0 <= c < 2 ^ 16 -> bf16_to_f32 c = c * 65536.
Proof.
  intros c H. unfold bf16_to_f32. rewrite land_pow2, Z.shiftl_mul_pow2 by lia. change (2 ^ 16) with 65536 in *. apply Z.mod_small. change (2 ^ 32) with (65536 * 65536). lia.
Qed.

(* widening is exact on every word, and narrowing undoes it *)
Theorem bf16_widen_exact : forall c, 0 <= c < 2 ^ 16 ->
  same_datum (get_value_from_integer_coding ML_Binary32 (bf16_to_f32 c)) (get_value_from_integer_coding BFloat16_Base c) /\
  f32_to_bf16 (bf16_to_f32 c) = c.
Proof.
  intros c H. rewrite extend_word by exact H. split.
  - destruct (fields_exist bf16 okb c H) as (s & E & M & HF). pose proof (double_fields _ _ _ _ HF) as HF'.
    rewrite decode_base. pose proof (decode_ieee bf16 okb _ _ _ _ HF) as D. pose proof (decode_ieee ML_Binary32 ok32 _ _ _ _ HF') as D'.
    pose proof HF as (_ & HE & HM). cbn [esz fsz bf16] in HE, HM.
    destruct (Z.eq_dec E 255) as [E1|E1].
    + subst E. inversion D; subst; cbn [esz fsz bf16] in *; change (2 ^ 8) with 256 in *; change (2 ^ (7 - 1)) with 64 in *; change (2 ^ 7) with 128 in *; try lia;
      inversion D'; subst; cbn [esz fsz ML_Binary32] in *; change (2 ^ 8) with 256 in *; change (2 ^ (23 - 1)) with 4194304 in *; try lia; exact I.
    + change (2 ^ 8) with 256 in HE.
      destruct (decode_fin ML_Binary32 _ s E _ ok32 eq_refl HF' ltac:(lia)) as [a [A1 A2]].
      destruct (decode_fin bf16 c s E M okb eq_refl HF ltac:(lia)) as [b [B1 B2]].
      assert (AB : (a == b)%Q).
      { rewrite A2, B2. cbn [fsz ML_Binary32 bf16]. unfold mag. replace (Z.max E 1 - 127 - 7) with (16 + (Z.max E 1 - 127 - 23)) by lia.
        rewrite p2_plus. change (p2 16) with (inject_Z 65536). rewrite (Qmult_assoc (inject_Z _) (inject_Z 65536)), <- inject_Z_mult.
        assert (X : (if E =? 0 then M * 65536 else 2 ^ 23 + M * 65536) = (if E =? 0 then M else 2 ^ 7 + M) * 65536).
        { change (2 ^ 23) with 8388608. change (2 ^ 7) with 128. destruct (E =? 0); lia. }
        rewrite X. reflexivity. }
      inversion D; subst; cbn [esz fsz bf16] in *; change (2 ^ 8) with 256 in *; try lia;
      inversion D'; subst; cbn [esz fsz ML_Binary32] in *; change (2 ^ 8) with 256 in *; try lia; try exact I;
      repeat match goal with
      | K : _ = get_value_from_integer_coding _ _ |- _ => rewrite <- K in *; clear K
      end; cbn [fin same_datum] in *; congruence || (injection A1 as ->; injection B1 as ->; exact AB).
  - rewrite narrow_word by (change (2 ^ 32) with (65536 * 65536); change (2 ^ 16) with 65536 in H; lia). apply Z.div_mul. lia.
Qed.

(* narrowing rounds finite numbers toward zero *)
Theorem bf16_narrow_truncates : forall c q, 0 <= c < 2 ^ 32 -> fin (get_value_from_integer_coding ML_Binary32 c) = Some q ->
  exists d, fin (get_value_from_integer_coding BFloat16_Base (f32_to_bf16 c)) = Some d /\ toward_zero bf16 q d.
Proof.
  intros c q Hc Hq. destruct (code_trunc c q Hc Hq) as (d & t & x & D & T & _). exists d. rewrite narrow_word by exact Hc.
  split; [rewrite decode_base; exact D|exact T].
Qed.

(* infinities are kept; a NaN is kept with its class if one of its seven upper
   significand bits is set, and becomes an infinity otherwise *)
Theorem bf16_narrow_special : forall c s M, has_fields ML_Binary32 c s 255 M ->
  get_value_from_integer_coding BFloat16_Base (f32_to_bf16 c) =
  if M / 65536 =? 0 then (if s then MInf else PInf) else get_value_from_integer_coding ML_Binary32 c.
Proof.
  intros c s M HF. pose proof (fields_range ML_Binary32 ok32 _ _ _ _ HF) as R. rewrite narrow_word by exact R. rewrite decode_base.
  pose proof (half_fields _ _ _ _ HF) as HH. pose proof (decode_ieee bf16 okb _ _ _ _ HH) as D. pose proof (decode_ieee ML_Binary32 ok32 _ _ _ _ HF) as D'.
  pose proof HF as (_ & _ & HM). cbn [fsz ML_Binary32] in HM. change (2 ^ 23) with 8388608 in HM.
  pose proof (Z.div_mod M 65536 ltac:(lia)) as DM. pose proof (Z.mod_pos_bound M 65536 ltac:(lia)) as MB. set (m := M / 65536) in *.
  assert (CL : m = 0 \/ m <> 0) by lia.
  destruct (Z.eqb_spec m 0) as [Z0|NZ].
  - rewrite Z0 in D. inversion D; subst; cbn [esz fsz bf16] in *; change (2 ^ 8) with 256 in *; change (2 ^ (7 - 1)) with 64 in *; try lia; reflexivity.
  - inversion D; subst; cbn [esz fsz bf16] in *; change (2 ^ 8) with 256 in *; change (2 ^ (7 - 1)) with 64 in *; try lia;
    inversion D'; subst; cbn [esz fsz ML_Binary32] in *; change (2 ^ 8) with 256 in *; change (2 ^ (23 - 1)) with 4194304 in *; try lia; reflexivity.
Qed.
Theorem bf16_narrow_nan_refuted : forall (s : bool) M, 0 < M < 65536 ->
  let c := (if s then 2 ^ 31 else 0) + 255 * 2 ^ 23 + M in
  get_value_from_integer_coding ML_Binary32 c = SNaN /\
  get_value_from_integer_coding BFloat16_Base (f32_to_bf16 c) = (if s then MInf else PInf).
Proof.
  intros s M HM c. assert (HF : has_fields ML_Binary32 c s 255 M) by (unfold has_fields, c; cbn; destruct s; lia).
  split.
  - pose proof (decode_ieee ML_Binary32 ok32 _ _ _ _ HF) as D. inversion D; subst; cbn [esz fsz ML_Binary32] in *; change (2 ^ 8) with 256 in *; change (2 ^ (23 - 1)) with 4194304 in *; try lia; reflexivity.
  - rewrite (bf16_narrow_special _ _ _ HF). rewrite Z.div_small by lia. reflexivity.
Qed.

(* a constant of a table is the number rounded to binary32 then toward zero *)
Theorem bf16_constant : forall v r, sollya_round ML_Binary32 v = Some r ->
  exists c d, bfloat16_get_cst (BNum v) = Some c /\ 0 <= c < 2 ^ 16 /\
    fin (get_value_from_integer_coding BFloat16_Base c) = Some d /\ toward_zero bf16 r d.
Proof.
  intros v r H. destruct (cst_trunc v r H) as (c & d & t & x & C & Hc & D & T & _). exists c, d.
  split; [exact C|]. split; [exact Hc|]. split; [exact D|exact T].
Qed.
(* it is within a unit: the accuracy asked by unit_tests/bfloat16.py *)
Theorem bf16_constant_error : forall v r, sollya_round ML_Binary32 v = Some r -> (p2 (-126) <= Qabs v)%Q ->
  exists c d, bfloat16_get_cst (BNum v) = Some c /\ fin (get_value_from_integer_coding BFloat16_Base c) = Some d /\
    (Qabs (v - d) < p2 (-7) * Qabs v)%Q.
Proof.
  intros v r H L. destruct (cst_trunc v r H) as (c & d & t & x & C & Hc & D & T & Ed & Ht & Hx & Hx' & Er). exists c, d.
  split; [exact C|]. split; [exact D|].
  pose proof (p2_pos (-126)) as P126. assert (NZ : ~ (v == 0)%Q) by (intro Z0; rewrite Z0 in L; change (Qabs 0) with 0%Q in L; lra).
  pose proof (Qabs_nz v NZ) as P. destruct (qlog2_spec (Qabs v) P) as [A B]. set (k := qlog2 (Qabs v)) in *.
  assert (K : -126 < k + 1) by (apply p2_lt_inv; lra).
  pose proof H as H'. rewrite (sollya_round_unfold ML_Binary32 s32 v NZ) in H'. cbv zeta in H'.
  assert (E : rnd_exp ML_Binary32 v = k - 23) by (unfold rnd_exp; fold k; change (emin_normal ML_Binary32) with (-126); cbn [fsz ML_Binary32]; lia).
  rewrite E in H'. set (n := qrne (v / p2 (k - 23))) in *.
  destruct (Qle_bool (p2 (emax ML_Binary32 + 1)) (Qabs (inject_Z n * p2 (k - 23)))); [discriminate H'|]. injection H' as H'.
  pose proof (p2_pos (k - 23)) as PK. pose proof (p2_pos x) as PX.
  assert (VR : (Qabs (v - r) <= p2 (-24) * Qabs v)%Q).
  { pose proof (qrne_half (v / p2 (k - 23))) as HH. fold n in HH. rewrite <- H'.
    assert (X : (v - inject_Z n * p2 (k - 23) == - (inject_Z n - v / p2 (k - 23)) * p2 (k - 23))%Q) by (field; apply p2_nz).
    rewrite X, Qabs_Qmult, Qabs_opp. rewrite (Qabs_pos (p2 (k - 23))) by lra.
    apply Qle_trans with ((1 # 2) * p2 (k - 23))%Q; [apply Qmult_le_compat_r; [exact HH|lra]|].
    replace (k - 23) with (-23 + k) by lia. rewrite p2_plus. change (p2 (-23)) with (1 # 8388608)%Q. change (p2 (-24)) with (1 # 16777216)%Q. lra. }
  assert (N23 : 8388608 <= Z.abs n).
  { apply qrne_abs_ge. rewrite abs_div_p2. change (inject_Z 8388608) with (p2 23). replace 23 with (k + - (k - 23)) at 1 by lia. rewrite p2_plus.
    apply Qmult_le_compat_r; [exact A|apply Qlt_le_weak, p2_pos]. }
  assert (RN : (p2 (-126) <= Qabs r)%Q).
  { rewrite <- H', Qabs_Qmult, (Qabs_pos (p2 (k - 23))) by lra. change (Qabs (inject_Z n)) with (inject_Z (Z.abs n)).
    apply Qle_trans with (p2 (23 + (k - 23))); [apply p2_le; lia|]. rewrite p2_plus. change (p2 23) with (inject_Z 8388608). apply Qmult_le_compat_r; [rewrite <- Zle_Qle; exact N23|lra]. }
  assert (DA : (Qabs d == inject_Z (Z.abs t) * p2 x)%Q) by (rewrite Ed, Qabs_Qmult, (Qabs_pos (p2 x)) by lra; reflexivity).
  assert (AR : (Qabs r <= Qabs d + Qabs (r - d))%Q).
  { assert (Y : (r == d + (r - d))%Q) by ring. rewrite Y at 1. apply Qabs_triangle. }
  assert (T128 : 128 <= Z.abs t).
  { destruct Hx as [->|Hx]; [|exact Hx].
    assert (X : (p2 (-126) < inject_Z (Z.abs t + 1) * p2 (-133))%Q) by (rewrite inject_Z_plus; change (inject_Z 1) with 1%Q; lra).
    change (p2 (-126)) with (p2 (7 + -133)) in X. rewrite p2_plus in X. apply Qmult_lt_r in X; [|exact PX]. change (p2 7) with (inject_Z 128) in X.
    rewrite <- Zlt_Qlt in X. lia. }
  destruct T as (_ & _ & T3 & _).
  assert (X1 : (128 * p2 x <= Qabs r)%Q).
  { eapply Qle_trans; [|exact T3]. rewrite DA. apply Qmult_le_compat_r; [change 128%Q with (inject_Z 128); rewrite <- Zle_Qle; exact T128|lra]. }
  assert (RV : (Qabs r <= Qabs v + Qabs (v - r))%Q).
  { assert (Y : (r == v + - (v - r))%Q) by ring. rewrite Y at 1. eapply Qle_trans; [apply Qabs_triangle|]. rewrite Qabs_opp. lra. }
  assert (VD : (Qabs (v - d) <= Qabs (v - r) + Qabs (r - d))%Q).
  { assert (Y : (v - d == (v - r) + (r - d))%Q) by ring. rewrite Y. apply Qabs_triangle. }
  change (p2 (-24)) with (1 # 16777216)%Q in VR. change (p2 (-7)) with (1 # 128)%Q. lra.
Qed.

(* after round_to_bfloat16, the error can reach fifteen sixteenths of a unit,
   not a half: the number is rounded to 11 digits, then truncated to 8 *)
Theorem bf16_rounded_constant : forall v, (p2 (-126) <= Qabs (round_digits 11 v))%Q -> (Qabs (round_digits 11 v) < p2 128)%Q ->
  exists c d t x, bfloat16_get_cst (round_to_bfloat16 v) = Some c /\ 0 <= c < 2 ^ 16 /\
    fin (get_value_from_integer_coding BFloat16_Base c) = Some d /\ (d == inject_Z t * p2 x)%Q /\ 128 <= Z.abs t <= 255 /\
    toward_zero bf16 (round_digits 11 v) d /\ (Qabs (v - d) <= (15 # 16) * p2 x)%Q.
Proof.
  intros v A B. destruct (rounded_cst v A B) as (q & c & d & t & x & _ & _ & C & Hc & D & T & Ed & Ht & _ & L). exists c, d, t, x.
  split; [exact C|]. split; [exact Hc|]. split; [exact D|]. split; [exact Ed|]. split; [exact Ht|]. split; [exact T|exact L].
Qed.

(* between two consecutive bfloat16 numbers, three eighths of the way from the
   upper one: the number is left as it is, and the constant is the lower one *)
Theorem bf16_round_refuted : forall N e j, 128 <= N <= 254 -> -133 <= e <= 120 -> 5 <= j <= 7 ->
  let v := (inject_Z (8 * N + j) * p2 (e - 3))%Q in
  exists q c d, round_to_bfloat16 v = BNum q /\ (q == v)%Q /\ bfloat16_get_cst (round_to_bfloat16 v) = Some c /\
    fin (get_value_from_integer_coding BFloat16_Base c) = Some d /\ (d == inject_Z N * p2 e)%Q /\ ~ nearest bf16 v d.
Proof.
  intros N e j HN He Hj v. pose proof (p2_pos (e - 3)) as PE. pose proof (p2_pos e) as PE'.
  assert (P8 : (p2 e == 8 * p2 (e - 3))%Q) by (change 8%Q with (p2 3); rewrite <- p2_plus; replace (3 + (e - 3)) with e by lia; reflexivity).
  assert (V0 : (0 < v)%Q) by (unfold v; apply Qmult_lt_0_compat; [change 0%Q with (inject_Z 0); rewrite <- Zlt_Qlt; lia|exact PE]).
  assert (VA : Qabs v = v \/ (Qabs v == v)%Q) by (right; apply Qabs_pos; lra).
  assert (VQ : (Qabs v == v)%Q) by (apply Qabs_pos; lra).
  assert (K : qlog2 (Qabs v) = e + 7).
  { apply qlog2_unique; rewrite VQ; unfold v.
    - replace (e + 7) with (10 + (e - 3)) by lia. rewrite p2_plus. change (p2 10) with (inject_Z 1024). apply Qmult_le_compat_r; [rewrite <- Zle_Qle; lia|lra].
    - replace (e + 7 + 1) with (11 + (e - 3)) by lia. rewrite p2_plus. change (p2 11) with (inject_Z 2048). apply Qmult_lt_r; [exact PE|]. rewrite <- Zlt_Qlt. lia. }
  assert (R : (round_digits 11 v == v)%Q).
  { unfold round_digits. destruct (Qeq_bool v 0) eqn:X; [apply Qeq_bool_eq in X; lra|]. cbv zeta. rewrite K.
    replace (e + 7 - (11 - 1)) with (e - 3) by lia. rewrite (qrne_int _ (8 * N + j)); [reflexivity|]. unfold v. field. apply p2_nz. }
  assert (A : (p2 (-126) <= Qabs (round_digits 11 v))%Q).
  { rewrite R, VQ. unfold v. apply Qle_trans with (p2 (10 + (e - 3))); [apply p2_le; lia|]. rewrite p2_plus. change (p2 10) with (inject_Z 1024).
    apply Qmult_le_compat_r; [rewrite <- Zle_Qle; lia|lra]. }
  assert (B : (Qabs (round_digits 11 v) < p2 128)%Q).
  { rewrite R, VQ. unfold v. apply Qlt_le_trans with (p2 (11 + (e - 3))); [|apply p2_le; lia]. rewrite p2_plus. change (p2 11) with (inject_Z 2048).
    apply Qmult_lt_r; [exact PE|]. rewrite <- Zlt_Qlt. lia. }
  destruct (rounded_cst v A B) as (q & c & d & t & x & RB & Eq & C & Hc & D & T & Ed & Ht & LS & _).
  exists q, c, d. split; [exact RB|]. split; [rewrite Eq; exact R|]. split; [exact C|]. split; [exact D|].
  pose proof (p2_pos x) as PX. rewrite R in LS. destruct T as (_ & T2 & T3 & _). rewrite R in T2, T3. rewrite VQ in T3.
  assert (D0 : (0 <= d)%Q).
  { destruct (Qlt_le_dec d 0) as [G|G]; [|exact G]. assert (0 < v * - d)%Q by (apply Qmult_lt_0_compat; lra). lra. }
  rewrite (Qabs_pos d D0) in T3. rewrite (Qabs_pos (v - d)) in LS by lra.
  assert (T0 : 128 <= t).
  { destruct (Z.lt_ge_cases t 0) as [G|G]; [|lia]. rewrite Ed in D0. assert (inject_Z t * p2 x < 0)%Q; [|lra].
    setoid_replace 0%Q with (0 * p2 x)%Q by ring. apply Qmult_lt_r; [exact PX|]. change 0%Q with (inject_Z 0). rewrite <- Zlt_Qlt. exact G. }
  assert (V1 : (v < 256 * p2 e)%Q).
  { unfold v. rewrite P8. setoid_replace (256 * (8 * p2 (e - 3)))%Q with (2048 * p2 (e - 3))%Q by ring. apply Qmult_lt_r; [exact PE|]. change 2048%Q with (inject_Z 2048). rewrite <- Zlt_Qlt. lia. }
  assert (V2 : (128 * p2 e <= v)%Q).
  { unfold v. rewrite P8. setoid_replace (128 * (8 * p2 (e - 3)))%Q with (1024 * p2 (e - 3))%Q by ring. apply Qmult_le_compat_r; [|lra]. change 1024%Q with (inject_Z 1024). rewrite <- Zle_Qle. lia. }
  assert (D1 : (128 * p2 x <= d)%Q) by (rewrite Ed; apply Qmult_le_compat_r; [change 128%Q with (inject_Z 128); rewrite <- Zle_Qle; lia|lra]).
  assert (D2 : (d <= 255 * p2 x)%Q) by (rewrite Ed; apply Qmult_le_compat_r; [change 255%Q with (inject_Z 255); rewrite <- Zle_Qle; lia|lra]).
  assert (X1 : x < e + 1) by (apply p2_lt_inv; rewrite p2_succ; lra).
  assert (X2 : e < x + 1) by (apply p2_lt_inv; rewrite p2_succ; lra).
  assert (x = e) by lia. subst x.
  assert (TN : t = N).
  { assert (G1 : (inject_Z (8 * t) * p2 (e - 3) <= inject_Z (8 * N + j) * p2 (e - 3))%Q).
    { fold v. rewrite inject_Z_mult. change (inject_Z 8) with 8%Q. apply Qle_trans with d; [rewrite Ed, P8; lra|exact T3]. }
    assert (G2 : (inject_Z (8 * N + j) * p2 (e - 3) < inject_Z (8 * t + 8) * p2 (e - 3))%Q).
    { fold v. rewrite inject_Z_plus, inject_Z_mult. change (inject_Z 8) with 8%Q. rewrite Ed, P8 in LS. lra. }
    rewrite <- (Qmult_le_r _ _ _ PE), <- Zle_Qle in G1 || (apply Qmult_le_r in G1; [|exact PE]; rewrite <- Zle_Qle in G1).
    apply Qmult_lt_r in G2; [|exact PE]. rewrite <- Zlt_Qlt in G2. lia. }
  subst t. split; [exact Ed|]. intros [_ HNr].
  specialize (HNr (inject_Z (N + 1) * p2 e)%Q).
  assert (RP : representable bf16 (inject_Z (N + 1) * p2 e)).
  { exists (N + 1), e. cbn [esz fsz bf16]. change (2 ^ (7 + 1)) with 256. change (2 ^ (8 - 1)) with 128. split; [lia|]. split; [lia|reflexivity]. }
  specialize (HNr RP).
  assert (Y1 : (v - d == inject_Z j * p2 (e - 3))%Q).
  { unfold v. rewrite Ed, P8, inject_Z_plus, inject_Z_mult. change (inject_Z 8) with 8%Q. ring. }
  assert (Y2 : (v - inject_Z (N + 1) * p2 e == - (inject_Z (8 - j) * p2 (e - 3)))%Q).
  { unfold v. unfold Z.sub at 2. rewrite P8, !inject_Z_plus, inject_Z_opp, inject_Z_mult. change (inject_Z 8) with 8%Q. change (inject_Z 1) with 1%Q. ring. }
  rewrite Y1, Y2, Qabs_opp, !Qabs_Qmult, (Qabs_pos (p2 (e - 3))) in HNr by lra.
  change (Qabs (inject_Z j)) with (inject_Z (Z.abs j)) in HNr. change (Qabs (inject_Z (8 - j))) with (inject_Z (Z.abs (8 - j))) in HNr.
  apply Qmult_le_r in HNr; [|exact PE]. rewrite <- Zle_Qle in HNr. lia.
Qed.

(* small numbers are flushed, the sign is lost *)
Theorem bf16_flush : forall v, (Qabs (round_digits 11 v) < p2 (-126))%Q ->
  bfloat16_get_cst (round_to_bfloat16 v) = Some 0 /\
  round_to_bfloat16 v = BSpec BFloat16_Base (if Qle_bool 0 (round_digits 11 v) then PZero else MZero).
Proof.
  intros v H. assert (E : round_to_bfloat16 v = BSpec BFloat16_Base (if Qle_bool 0 (round_digits 11 v) then PZero else MZero)).
  { unfold round_to_bfloat16. cbv zeta. change (get_min_normal_value ML_Binary32) with (p2 (-126)).
    destruct (Qle_bool (p2 (-126)) (Qabs (round_digits 11 v))) eqn:X; [apply Qle_bool_iff in X; lra|]. reflexivity. }
  split; [|exact E]. rewrite E. destruct (Qle_bool 0 (round_digits 11 v)); reflexivity.
Qed.
Theorem bf16_flush_sign_refuted : forall v, (v < 0)%Q -> (- p2 (-127) < v)%Q ->
  round_to_bfloat16 v = BSpec BFloat16_Base MZero /\ bfloat16_get_cst (round_to_bfloat16 v) = Some 0 /\
  get_integer_coding BFloat16_Base MZero = Some (2 ^ 15) /\ get_value_from_integer_coding BFloat16_Base 0 = PZero.
Proof.
  intros v N L. assert (NZ : ~ (v == 0)%Q) by (intro Z0; lra).
  destruct (digits_form v NZ) as (n & k & Er & Hn & Hv & Hk1 & Hk2).
  pose proof (p2_pos (-127)) as P. assert (K : k < -127) by (apply p2_lt_inv; rewrite Qabs_neg in Hk1 by lra; lra).
  assert (B1 : (p2 (k - 11) <= p2 (-127) * (1 # 2))%Q).
  { change (1 # 2)%Q with (p2 (-1)). rewrite <- p2_plus. apply p2_le. lia. }
  assert (B2 : (p2 (k - 11) * 2048 <= Qabs v)%Q).
  { eapply Qle_trans; [|exact Hk1]. change 2048%Q with (p2 11). rewrite <- p2_plus. apply p2_le. lia. }
  pose proof (p2_pos (k - 11)) as PK. rewrite Qabs_neg in B2 by lra.
  assert (S0 : (p2 (-126) == 2 * p2 (-127))%Q) by reflexivity.
  apply Qabs_Qle_condition in Hv. destruct Hv as [H1 H2].
  assert (R0 : (round_digits 11 v < 0)%Q) by lra.
  assert (F : (Qabs (round_digits 11 v) < p2 (-126))%Q) by (rewrite Qabs_neg by lra; rewrite S0; lra).
  destruct (bf16_flush v F) as [C E]. destruct (Qle_bool 0 (round_digits 11 v)) eqn:X; [apply Qle_bool_iff in X; lra|].
  split; [exact E|]. split; [exact C|]. split; reflexivity.
Qed.

(* overflow gives the right infinity, but begins too high *)
Theorem bf16_overflow : forall v, (p2 128 <= Qabs (round_digits 11 v))%Q ->
  exists c, bfloat16_get_cst (round_to_bfloat16 v) = Some c /\
    get_value_from_integer_coding BFloat16_Base c = (if Qle_bool 0 (round_digits 11 v) then PInf else MInf).
Proof.
  intros v H. assert (E : round_to_bfloat16 v = BInf (negb (Qle_bool 0 (round_digits 11 v)))).
  { unfold round_to_bfloat16. cbv zeta. change (get_min_normal_value ML_Binary32) with (p2 (-126)).
    assert (L : (p2 (-126) <= p2 128)%Q) by (apply p2_le; lia). rewrite (proj2 (Qle_bool_iff _ _)) by lra. cbn [negb].
    now rewrite (round32_big _ H). }
  rewrite E. destruct (Qle_bool 0 (round_digits 11 v)); eexists; split; reflexivity.
Qed.
Theorem bf16_overflow_refuted : forall v, ((2 - (1 # 256)) * p2 127 <= v)%Q -> (v < (2 - (1 # 2048)) * p2 127)%Q ->
  exists c d, bfloat16_get_cst (round_to_bfloat16 v) = Some c /\ fin (get_value_from_integer_coding BFloat16_Base c) = Some d /\
    (d == get_omega BFloat16_Base)%Q /\ sollya_round bf16 v = None.
Proof.
  intros v A B. pose proof (p2_pos 117) as P. assert (P127 : (p2 127 == 1024 * p2 117)%Q) by reflexivity.
  assert (P128 : (p2 128 == 2048 * p2 117)%Q) by reflexivity. rewrite P127 in A, B.
  assert (VQ : (Qabs v == v)%Q) by (apply Qabs_pos; lra).
  assert (K : qlog2 (Qabs v) = 127) by (apply qlog2_unique; rewrite VQ; [rewrite P127; lra|change (127 + 1) with 128; rewrite P128; lra]).
  set (n := qrne (v / p2 117)).
  assert (R : round_digits 11 v = (inject_Z n * p2 117)%Q).
  { unfold round_digits. destruct (Qeq_bool v 0) eqn:X; [apply Qeq_bool_eq in X; lra|]. cbv zeta. rewrite K. reflexivity. }
  assert (VN : (v == (v / p2 117) * p2 117)%Q) by (field; apply p2_nz).
  assert (N1 : 2044 <= n).
  { apply qrne_bounds_int_l. change (inject_Z 2044) with 2044%Q. apply (Qmult_le_r _ _ (p2 117) P). rewrite <- VN. lra. }
  assert (N2 : n <= 2047).
  { pose proof (qrne_half (v / p2 117)) as H. fold n in H. apply Qabs_Qle_condition in H. destruct H as [_ H].
    assert (Q1 : (v / p2 117 < 4095 # 2)%Q) by (apply (Qmult_lt_r _ _ (p2 117) P); rewrite <- VN; lra).
    assert (Q2 : (inject_Z n < inject_Z 2048)%Q) by (change (inject_Z 2048) with 2048%Q; lra). rewrite <- Zlt_Qlt in Q2. lia. }
  assert (I1 : (2044 <= inject_Z n)%Q) by (change 2044%Q with (inject_Z 2044); rewrite <- Zle_Qle; exact N1).
  assert (I2 : (inject_Z n <= 2047)%Q) by (change 2047%Q with (inject_Z 2047); rewrite <- Zle_Qle; exact N2).
  assert (M1 : (2044 * p2 117 <= inject_Z n * p2 117)%Q) by (apply Qmult_le_compat_r; lra).
  assert (M2 : (inject_Z n * p2 117 <= 2047 * p2 117)%Q) by (apply Qmult_le_compat_r; lra).
  assert (RQ : (Qabs (round_digits 11 v) == inject_Z n * p2 117)%Q) by (rewrite R; apply Qabs_pos; lra).
  assert (P126 : (p2 (-126) <= p2 117)%Q) by (apply p2_le; lia).
  destruct (rounded_cst v) as (q & c & d & t & x & RB & Eq & C & Hc & D & T & Ed & Ht & LS & _).
  { rewrite RQ. lra. }
  { rewrite RQ, P128. lra. }
  exists c, d. split; [exact C|]. split; [exact D|]. destruct T as (T1 & T2 & T3 & T4). rewrite RQ in T3. rewrite R in T2, LS.
  assert (D0 : (0 <= d)%Q).
  { destruct (Qlt_le_dec d 0) as [G|G]; [|exact G]. assert (0 < inject_Z n * p2 117 * - d)%Q by (apply Qmult_lt_0_compat; lra). lra. }
  rewrite (Qabs_pos d D0) in T3.
  assert (W : (get_omega BFloat16_Base == 255 * 8 * p2 117)%Q) by (vm_compute; reflexivity).
  assert (U : (255 * 8 * p2 117 <= d)%Q).
  { apply Qle_trans with (Qabs (inject_Z 255 * p2 120))%Q.
    - rewrite Qabs_pos by (vm_compute; discriminate). vm_compute. discriminate.
    - rewrite <- (Qabs_pos d D0). apply T4; [exists 255, 120; cbn [esz fsz bf16]; split; [reflexivity|split; [split; discriminate|reflexivity]]|].
      rewrite RQ. rewrite Qabs_pos by (vm_compute; discriminate). change (inject_Z 255 * p2 120)%Q with (255 * p2 120)%Q.
      assert (Y : (255 * p2 120 == 2040 * p2 117)%Q) by reflexivity. rewrite Y. lra. }
  destruct T1 as (m & e & Hm & He & Em). cbn [esz fsz bf16] in Hm, He. change (2 ^ (7 + 1)) with 256 in Hm. change (2 ^ (8 - 1)) with 128 in He.
  assert (L2 : (d <= 255 * p2 120)%Q).
  { rewrite Em. pose proof (p2_pos e). apply Qle_trans with (255 * p2 e)%Q.
    - apply Qmult_le_compat_r; [change 255%Q with (inject_Z 255); rewrite <- Zle_Qle; lia|lra].
    - rewrite !(Qmult_comm 255). apply Qmult_le_compat_r; [apply p2_le; lia|lra]. }
  assert (Y : (255 * p2 120 == 2040 * p2 117)%Q) by reflexivity. split; [lra|].
  assert (NZ : ~ (v == 0)%Q) by (intro Z0; lra). rewrite (sollya_round_unfold bf16 eq_refl v NZ). cbv zeta.
  assert (RE : rnd_exp bf16 v = 120) by (unfold rnd_exp; rewrite K; reflexivity). rewrite RE.
  assert (G : 256 <= qrne (v / p2 120)).
  { change 256 with (qrne (511 # 2)). apply qrne_mono. pose proof (p2_pos 120) as P120. apply (Qmult_le_r _ _ (p2 120) P120).
    assert (VN' : (v == (v / p2 120) * p2 120)%Q) by (field; apply p2_nz). rewrite <- VN'. assert (Y' : (p2 120 == 8 * p2 117)%Q) by reflexivity. rewrite Y'. lra. }
  destruct (Qle_bool _ _) eqn:O; [reflexivity|]. apply not_true_iff_false in O. elim O. apply Qle_bool_iff.
  change (emax bf16 + 1) with (8 + 120). rewrite p2_plus. rewrite Qabs_Qmult, (Qabs_pos (p2 120)) by (apply Qlt_le_weak, p2_pos).
  change (Qabs (inject_Z (qrne (v / p2 120)))) with (inject_Z (Z.abs (qrne (v / p2 120)))). change (p2 8) with (inject_Z 256).
  apply Qmult_le_compat_r; [rewrite <- Zle_Qle; lia|apply Qlt_le_weak, p2_pos].
Qed.

(* special values declared with the format are all coded 0; those declared with
   binary32 are coded as they should *)
Theorem bf16_special_refuted : forall s, (forall q, s <> Num q) ->
  bfloat16_get_cst (BSpec BFloat16_Base s) = Some 0.
Proof. intros [q| | | | | |] H; try reflexivity. now elim (H q). Qed.
Theorem bf16_special32 : forall s, (forall q, s <> Num q) ->
  exists c, bfloat16_get_cst (BSpec ML_Binary32 s) = Some c /\ get_value_from_integer_coding BFloat16_Base c = s.
Proof. intros [q| | | | | |] H; try (eexists; split; reflexivity). now elim (H q). Qed.

Example ex_narrow : f32_to_bf16 0x3F8CCCCD = 0x3F8C /\ bf16_to_f32 0x3F8C = 0x3F8C0000 /\ f32_to_bf16 0x7F800001 = 0x7F80.
Proof. repeat split. Qed.
Example ex_narrow_hyp : fin (get_value_from_integer_coding ML_Binary32 0x3F8CCCCD) <> None /\ has_fields ML_Binary32 0xFFC00000 true 255 4194304.
Proof. split; [discriminate|unfold has_fields; cbn; lia]. Qed.
(* 1.1: nearest is 0x3F8D, the constant is 0x3F8C *)
Example ex_constant : bfloat16_get_cst (BNum (11 # 10)) = Some 0x3F8C /\ bfloat16_get_cst (round_to_bfloat16 (11 # 10)) = Some 0x3F8C /\
  option_map (Qle_bool 1) (sollya_round ML_Binary32 (11 # 10)) = Some true.
Proof. repeat split. Qed.
Example ex_constant_error : (p2 (-126) <= Qabs (- (11 # 10)))%Q /\ bfloat16_get_cst (BNum (- (11 # 10))) = Some 0xBF8C.
Proof. split; [vm_compute; discriminate|reflexivity]. Qed.
Example ex_rounded : (p2 (-126) <= Qabs (round_digits 11 (1 # 3)))%Q /\ (Qabs (round_digits 11 (1 # 3)) < p2 128)%Q /\
  bfloat16_get_cst (round_to_bfloat16 (1 # 3)) = Some 0x3EAA.
Proof. split; [vm_compute; discriminate|split; reflexivity]. Qed.
Example ex_refuted : let v := (inject_Z (8 * 128 + 6) * p2 (-7 - 3))%Q in bfloat16_get_cst (round_to_bfloat16 v) = Some 0x3F80 /\ (v == 1 + (3 # 512))%Q.
Proof. split; reflexivity. Qed.
Example ex_overflow : bfloat16_get_cst (round_to_bfloat16 (p2 128 - p2 119)) = Some 0x7F7F /\ bfloat16_get_cst (round_to_bfloat16 (- p2 130)) = Some 0xFF80.
Proof. split; vm_compute; reflexivity. Qed.

Print Assumptions bf16_widen_exact.
Print Assumptions bf16_narrow_truncates.
Print Assumptions bf16_narrow_special.
Print Assumptions bf16_narrow_nan_refuted.
Print Assumptions bf16_constant.
Print Assumptions bf16_constant_error.
Print Assumptions bf16_rounded_constant.
Print Assumptions bf16_round_refuted.
Print Assumptions bf16_flush.
Print Assumptions bf16_flush_sign_refuted.
Print Assumptions bf16_overflow.
Print Assumptions bf16_overflow_refuted.
Print Assumptions bf16_special_refuted.
Print Assumptions bf16_special32.
