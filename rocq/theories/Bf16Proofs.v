From Coq Require Import ZArith QArith Qabs Qround Bool Lia Lqa.
From Verif Require Import QUtil FpFormatModel FpFormatSpec FpFormatProofs FpFormatProofs2 LlvmProofs Bf16Model Bf16Spec.
Open Scope Z_scope.

Lemma ok32 : fmt_ok ML_Binary32. Proof. split; cbn; lia. Qed.
Lemma okb : fmt_ok bf16. Proof. split; cbn; lia. Qed.
Lemma s32 : sollya_ok ML_Binary32. Proof. reflexivity. Qed.
Lemma decode_base : forall c, get_value_from_integer_coding BFloat16_Base c = get_value_from_integer_coding bf16 c.
Proof. reflexivity. Qed.

(* ------------------------------------------------------------------ *)
(* values from fields                                                   *)
(* ------------------------------------------------------------------ *)
Definition mag (f E M : Z) : Q := (inject_Z (if E =? 0 then M else 2 ^ f + M) * p2 (Z.max E 1 - 127 - f))%Q.
Definition sgn (s : bool) : Q := if s then (-1)%Q else 1%Q.

Lemma decode_fin : forall F c s E M, fmt_ok F -> esz F = 8 -> has_fields F c s E M -> E < 255 ->
  exists q, fin (get_value_from_integer_coding F c) = Some q /\ (q == sgn s * mag (fsz F) E M)%Q.
Proof.
  intros F c s E M Hok He HF L. pose proof (decode_ieee F Hok _ _ _ _ HF) as D.
  assert (B : ieee_bias F = 127) by (unfold ieee_bias; rewrite He; reflexivity).
  assert (PE : 2 ^ esz F = 256) by (rewrite He; reflexivity).
  destruct Hok as [_ Hf]. destruct HF as (_ & HE & HM). unfold mag, sgn.
  inversion D as [s' M' Hq E1 E2 E3 E4|s' M' Hm Hq E1 E2 E3 E4|E1 E2 E3 E4|E1 E2 E3 E4|E1 E2 E3 E4|E1 E2 E3 E4|s' E' M' q Hr Hq E1 E2 E3 E4|s' M' q Hm Hq E1 E2 E3 E4]; subst; try lia.
  - exists 0%Q. split; [reflexivity|]. rewrite Z.eqb_refl. change (inject_Z 0) with 0%Q. ring.
  - exists 0%Q. split; [reflexivity|]. rewrite Z.eqb_refl. change (inject_Z 0) with 0%Q. ring.
  - exists q. split; [reflexivity|]. rewrite Hq, B. destruct (Z.eqb_spec E 0); [lia|]. rewrite Z.max_l by lia.
    replace (E - 127 - fsz F) with ((E - 127) + - fsz F) by lia. rewrite p2_plus, inject_Z_plus, <- (p2_Z (fsz F)) by lia.
    pose proof (p2_opp (fsz F)) as PO.
    assert (R : (p2 (E - 127) * (1 + inject_Z M * p2 (- fsz F)) == (p2 (fsz F) + inject_Z M) * (p2 (E - 127) * p2 (- fsz F)))%Q).
    { transitivity (p2 (E - 127) * (p2 (- fsz F) * p2 (fsz F)) + inject_Z M * p2 (E - 127) * p2 (- fsz F))%Q; [rewrite PO; ring|ring]. }
    rewrite <- R. ring.
  - exists q. split; [reflexivity|]. rewrite Hq, B, Z.eqb_refl. change (Z.max 0 1) with 1.
    replace (1 - 127 - fsz F) with ((1 - 127) + - fsz F) by lia. rewrite p2_plus. ring.
Qed.

Lemma mag_nonneg : forall f E M, 1 <= f -> 0 <= M -> (0 <= mag f E M)%Q.
Proof.
  intros f E M Hf HM. unfold mag. apply Qmult_le_0_compat; [|apply Qlt_le_weak, p2_pos].
  change 0%Q with (inject_Z 0). rewrite <- Zle_Qle. pose proof (pow2_pos f ltac:(lia)). destruct (E =? 0); lia.
Qed.
Lemma abs_sgn : forall s x, (0 <= x)%Q -> (Qabs (sgn s * x) == x)%Q.
Proof. intros s x H. rewrite Qabs_Qmult, (Qabs_pos x H). destruct s; cbn; ring. Qed.

(* upper half of a word *)
Lemma half_fields : forall c s E M, has_fields ML_Binary32 c s E M -> has_fields bf16 (c / 65536) s E (M / 65536).
Proof.
  intros c s E M (Ec & HE & HM). cbn in HE, HM. unfold has_fields. cbn [esz fsz bf16].
  change (2 ^ (8 + 7)) with 32768. change (2 ^ 7) with 128. change (2 ^ 8) with 256.
  change (2 ^ 23) with 8388608 in *. change (2 ^ 8) with 256 in HE.
  cbn [esz fsz ML_Binary32] in Ec. change (2 ^ (8 + 23)) with 2147483648 in Ec. change (2 ^ 23) with 8388608 in Ec.
  pose proof (Z.div_mod M 65536 ltac:(lia)). pose proof (Z.mod_pos_bound M 65536 ltac:(lia)).
  split; [|split; [lia|]].
  - symmetry. apply (Z.div_unique_pos _ _ _ (M mod 65536)); [lia|]. destruct s; lia.
  - split; [apply Z.div_pos; lia|apply Z.div_lt_upper_bound; lia].
Qed.
Lemma double_fields : forall c s E M, has_fields bf16 c s E M -> has_fields ML_Binary32 (c * 65536) s E (M * 65536).
Proof.
  intros c s E M (Ec & HE & HM). unfold has_fields in *. cbn in *. destruct s; lia.
Qed.

Lemma mag_half : forall E M, 0 <= M < 8388608 ->
  (mag 7 E (M / 65536) <= mag 23 E M)%Q /\
  (mag 23 E M - mag 7 E (M / 65536) <= (65535 # 65536) * p2 (Z.max E 1 - 134))%Q.
Proof.
  intros E M HM. unfold mag. set (x := Z.max E 1 - 134).
  replace (Z.max E 1 - 127 - 7) with x by (unfold x; lia).
  replace (Z.max E 1 - 127 - 23) with (x + - 16) by (unfold x; lia). rewrite p2_plus.
  change (p2 (-16)) with (1 # 65536)%Q. pose proof (p2_pos x) as P.
  pose proof (Z.div_mod M 65536 ltac:(lia)) as DM. pose proof (Z.mod_pos_bound M 65536 ltac:(lia)) as MB.
  set (m := M / 65536) in *. set (r := M mod 65536) in *.
  set (a := if E =? 0 then M else 2 ^ 23 + M). set (b := if E =? 0 then m else 2 ^ 7 + m).
  assert (AB : a = b * 65536 + r).
  { unfold a, b. change (2 ^ 23) with 8388608. change (2 ^ 7) with 128. destruct (E =? 0); lia. }
  assert (AQ : (inject_Z a == inject_Z b * 65536 + inject_Z r)%Q).
  { rewrite AB, inject_Z_plus, inject_Z_mult. change (inject_Z 65536) with 65536%Q. reflexivity. }
  assert (R0 : (0 <= inject_Z r)%Q) by (change 0%Q with (inject_Z 0); rewrite <- Zle_Qle; lia).
  assert (R1 : (inject_Z r <= 65535)%Q) by (change 65535%Q with (inject_Z 65535); rewrite <- Zle_Qle; lia).
  assert (Y : (inject_Z a * (p2 x * (1 # 65536)) == inject_Z b * p2 x + inject_Z r * (1 # 65536) * p2 x)%Q) by (rewrite AQ; ring).
  rewrite Y. assert (Z0 : (0 <= inject_Z r * (1 # 65536) * p2 x)%Q).
  { apply Qmult_le_0_compat; [apply Qmult_le_0_compat; [exact R0|lra]|lra]. }
  assert (Z1 : (inject_Z r * (1 # 65536) * p2 x <= (65535 # 65536) * p2 x)%Q).
  { apply Qmult_le_compat_r; [lra|lra]. }
  split; lra.
Qed.

(* the value of a bfloat16 word is representable *)
Lemma mag_repr : forall E M s, 0 <= E < 255 -> 0 <= M < 128 -> representable bf16 (sgn s * mag 7 E M)%Q.
Proof.
  intros E M s HE HM. exists ((if s then -1 else 1) * (if E =? 0 then M else 2 ^ 7 + M)), (Z.max E 1 - 127 - 7).
  cbn [esz fsz bf16]. change (2 ^ (7 + 1)) with 256. change (2 ^ (8 - 1)) with 128. change (2 ^ 7) with 128. split; [|split].
  - destruct s, (E =? 0); lia.
  - lia.
  - unfold mag. change (2 ^ 7) with 128. rewrite inject_Z_mult. unfold sgn. destruct s; cbn [inject_Z]; [change (inject_Z (-1)) with (-1)%Q|change (inject_Z 1) with 1%Q]; ring.
Qed.

Lemma toward_zero_mag : forall s E M, 0 <= E < 255 -> 0 <= M < 8388608 ->
  toward_zero bf16 (sgn s * mag 23 E M) (sgn s * mag 7 E (M / 65536)).
Proof.
  intros s E M HE HM.
  assert (Hm : 0 <= M / 65536 < 128) by (split; [apply Z.div_pos; lia|apply Z.div_lt_upper_bound; lia]).
  destruct (mag_half E M HM) as [L1 L2].
  pose proof (mag_nonneg 23 E M ltac:(lia) ltac:(lia)) as P1. pose proof (mag_nonneg 7 E (M / 65536) ltac:(lia) ltac:(lia)) as P2.
  split; [now apply mag_repr|]. split; [|split].
  - setoid_replace (sgn s * mag 23 E M * (sgn s * mag 7 E (M / 65536)))%Q with (mag 23 E M * mag 7 E (M / 65536))%Q by (destruct s; cbn [sgn]; ring).
    now apply Qmult_le_0_compat.
  - rewrite !abs_sgn by assumption. exact L1.
  - intros u (m & e & Hm1 & He & Hu) LU. rewrite abs_sgn in LU by assumption. rewrite abs_sgn by assumption.
    cbn [esz fsz bf16] in Hm1, He. change (2 ^ (7 + 1)) with 256 in Hm1. change (2 ^ (8 - 1)) with 128 in He.
    set (x := Z.max E 1 - 134) in *.
    assert (UQ : (Qabs u == inject_Z (Z.abs m) * p2 e)%Q).
    { rewrite Hu, Qabs_Qmult. rewrite (Qabs_pos (p2 e)) by (apply Qlt_le_weak, p2_pos). reflexivity. }
    set (b := if E =? 0 then M / 65536 else 2 ^ 7 + M / 65536).
    assert (BQ : (mag 7 E (M / 65536) == inject_Z b * p2 x)%Q).
    { unfold mag, b. replace (Z.max E 1 - 127 - 7) with x by (unfold x; lia). reflexivity. }
    assert (L3 : (Qabs u < inject_Z (b + 1) * p2 x)%Q).
    { rewrite inject_Z_plus. change (inject_Z 1) with 1%Q. pose proof (p2_pos x). lra. }
    rewrite BQ. pose proof (p2_pos x) as PX. destruct (Z.le_gt_cases x e) as [G|G].
    + assert (T : exists t, 0 <= t /\ (Qabs u == inject_Z t * p2 x)%Q).
      { exists (Z.abs m * 2 ^ (e - x)). split; [apply Z.mul_nonneg_nonneg; [lia|apply Z.lt_le_incl, pow2_pos; lia]|].
        rewrite UQ, inject_Z_mult, <- (p2_Z (e - x)) by lia. rewrite <- Qmult_assoc, <- p2_plus. replace (e - x + x) with e by lia. reflexivity. }
      destruct T as [t [T0 TQ]]. rewrite TQ in L3 |- *. apply Qmult_lt_r in L3; [|exact PX]. rewrite <- Zlt_Qlt in L3.
      apply Qmult_le_compat_r; [rewrite <- Zle_Qle; lia|lra].
    + assert (E <> 0) by (unfold x in G; intros ->; lia).
      assert (B7 : 128 <= b) by (unfold b; destruct (Z.eqb_spec E 0); [lia|change (2 ^ 7) with 128; lia]).
      rewrite UQ. apply Qle_trans with (inject_Z 256 * p2 (x - 1))%Q.
      * apply Qle_trans with (inject_Z 256 * p2 e)%Q.
        -- apply Qmult_le_compat_r; [rewrite <- Zle_Qle; lia|apply Qlt_le_weak, p2_pos].
        -- rewrite !(Qmult_comm (inject_Z 256)). apply Qmult_le_compat_r; [apply p2_le; lia|change (inject_Z 256) with 256%Q; lra].
      * assert (X : (p2 x == 2 * p2 (x - 1))%Q) by (replace x with (x - 1 + 1) at 1 by lia; apply p2_succ).
        assert (BB : (128 <= inject_Z b)%Q) by (change 128%Q with (inject_Z 128); rewrite <- Zle_Qle; exact B7).
        apply Qle_trans with (128 * p2 x)%Q; [rewrite X; change (inject_Z 256) with 256%Q; lra|apply Qmult_le_compat_r; [exact BB|lra]].
Qed.

(* narrowing a word with a finite value *)
Lemma narrow_word : forall c, 0 <= c < 2 ^ 32 -> f32_to_bf16 c = c / 65536.
Proof.
  intros c H. unfold f32_to_bf16. rewrite land_pow2, Z.shiftr_div_pow2 by lia. change (2 ^ 16) with 65536.
  apply Z.mod_small. split; [apply Z.div_pos; lia|apply Z.div_lt_upper_bound; lia].
Qed.
Lemma fields32 : forall c, 0 <= c < 2 ^ 32 -> exists s E M, has_fields ML_Binary32 c s E M.
Proof. intros c H. apply (fields_exist ML_Binary32 ok32). exact H. Qed.

Lemma trunc_values : forall c s E M, has_fields ML_Binary32 c s E M -> E < 255 ->
  exists r d, fin (get_value_from_integer_coding ML_Binary32 c) = Some r /\ fin (get_value_from_integer_coding bf16 (c / 65536)) = Some d /\
    (r == sgn s * mag 23 E M)%Q /\ (d == sgn s * mag 7 E (M / 65536))%Q.
Proof.
  intros c s E M HF L. destruct (decode_fin ML_Binary32 c s E M ok32 eq_refl HF L) as [r [R1 R2]].
  destruct (decode_fin bf16 _ s E _ okb eq_refl (half_fields _ _ _ _ HF) L) as [d [D1 D2]].
  exists r, d. split; [exact R1|]. split; [exact D1|]. split; assumption.
Qed.

Lemma toward_zero_comp : forall F a b a' b', (a == a')%Q -> (b == b')%Q -> toward_zero F a b -> toward_zero F a' b'.
Proof.
  intros F a b a' b' HA HB (R & S0 & L & M). split; [|split; [|split]].
  - eapply representable_comp; [exact HB|exact R].
  - rewrite <- HA, <- HB. exact S0.
  - rewrite <- HA, <- HB. exact L.
  - intros u U1 U2. rewrite <- HB. apply M; [exact U1|]. rewrite HA. exact U2.
Qed.

(* ------------------------------------------------------------------ *)
(* constants                                                            *)
(* ------------------------------------------------------------------ *)
Lemma code_trunc : forall c q, 0 <= c < 2 ^ 32 -> fin (get_value_from_integer_coding ML_Binary32 c) = Some q ->
  exists d t x, fin (get_value_from_integer_coding bf16 (c / 65536)) = Some d /\ toward_zero bf16 q d /\
    (d == inject_Z t * p2 x)%Q /\ Z.abs t <= 255 /\ (x = -133 \/ 128 <= Z.abs t) /\ -133 <= x /\
    (Qabs (q - d) <= (65535 # 65536) * p2 x)%Q.
Proof.
  intros c q Hc Hq. destruct (fields32 c Hc) as (s & E & M & HF).
  assert (L : E < 255).
  { pose proof (decode_ieee ML_Binary32 ok32 _ _ _ _ HF) as D. pose proof HF as (_ & HE & _). cbn [esz ML_Binary32] in HE. change (2 ^ 8) with 256 in HE.
    destruct (Z.eq_dec E 255) as [->|]; [|lia]. exfalso. inversion D; subst; cbn [esz ML_Binary32] in *; change (2 ^ 8) with 256 in *; try lia;
    match goal with H : _ = get_value_from_integer_coding _ _ |- _ => rewrite <- H in Hq; discriminate Hq end. }
  destruct (trunc_values c s E M HF L) as (r & d & R1 & D1 & R2 & D2).
  pose proof HF as (_ & HE & HM). cbn [esz fsz ML_Binary32] in HE, HM. change (2 ^ 23) with 8388608 in HM.
  assert (r = q) by congruence. subst r.
  set (b := if E =? 0 then M / 65536 else 2 ^ 7 + M / 65536).
  assert (Hm : 0 <= M / 65536 < 128) by (split; [apply Z.div_pos; lia|apply Z.div_lt_upper_bound; lia]).
  assert (Hb : 0 <= b <= 255) by (unfold b; change (2 ^ 7) with 128; destruct (E =? 0); lia).
  exists d, ((if s then -1 else 1) * b), (Z.max E 1 - 134). split; [exact D1|]. split; [|split; [|split; [|split; [|split]]]].
  - eapply toward_zero_comp; [symmetry; exact R2|symmetry; exact D2|]. apply toward_zero_mag; lia.
  - rewrite D2. unfold mag. fold b. replace (Z.max E 1 - 127 - 7) with (Z.max E 1 - 134) by lia. rewrite inject_Z_mult.
    destruct s; cbn [sgn]; [change (inject_Z (-1)) with (-1)%Q|change (inject_Z 1) with 1%Q]; ring.
  - destruct s; lia.
  - destruct (Z.eqb_spec E 0) as [->|N]; [left; reflexivity|right].
    assert (B7 : 128 <= b) by (unfold b; destruct (Z.eqb_spec E 0); [lia|change (2 ^ 7) with 128; lia]). destruct s; lia.
  - lia.
  - destruct (mag_half E M HM) as [L1 L2].
    assert (X : (q - d == sgn s * (mag 23 E M - mag 7 E (M / 65536)))%Q) by (rewrite R2, D2; ring).
    rewrite X, abs_sgn by lra. exact L2.
Qed.

Lemma coding_round : forall v r, sollya_round ML_Binary32 v = Some r ->
  exists c q, get_integer_coding ML_Binary32 (Num v) = Some c /\ 0 <= c < 2 ^ 32 /\
    fin (get_value_from_integer_coding ML_Binary32 c) = Some q /\ (q == r)%Q.
Proof.
  intros v r H. destruct (Qeq_dec r 0) as [Z0|NZ].
  - exists 0, 0%Q. split; [cbn [get_integer_coding]; apply (num_coding_z ML_Binary32 v r); assumption|].
    split; [lia|]. split; [reflexivity|]. symmetry. exact Z0.
  - destruct (num_coding_nz ML_Binary32 ok32 s32 v r H NZ) as (N & ee & C & HC).
    destruct (decode_code ML_Binary32 ok32 r N ee NZ C) as (q & D & Eq).
    exists (neg_part ML_Binary32 r + can_code ML_Binary32 N ee), q. split; [exact HC|]. split.
    + eapply (neg_part_range ML_Binary32 ok32); eassumption.
    + rewrite D. split; [reflexivity|exact Eq].
Qed.

Lemma cst_trunc : forall v r, sollya_round ML_Binary32 v = Some r ->
  exists c d t x, bfloat16_get_cst (BNum v) = Some c /\ 0 <= c < 2 ^ 16 /\ fin (get_value_from_integer_coding bf16 c) = Some d /\
    toward_zero bf16 r d /\ (d == inject_Z t * p2 x)%Q /\ Z.abs t <= 255 /\ (x = -133 \/ 128 <= Z.abs t) /\ -133 <= x /\
    (Qabs (r - d) <= (65535 # 65536) * p2 x)%Q.
Proof.
  intros v r H. destruct (coding_round v r H) as (c & q & HC & Hr & Hq & Eq).
  destruct (code_trunc c q Hr Hq) as (d & t & x & D & T & Ed & Ht & Hx & Hx' & L).
  exists (c / 65536), d, t, x. split; [|split].
  - unfold bfloat16_get_cst, coding32. rewrite HC. cbn [option_map]. now rewrite Z.shiftr_div_pow2 by lia.
  - change (2 ^ 32) with (65536 * 65536) in Hr. change (2 ^ 16) with 65536. split; [apply Z.div_pos; lia|apply Z.div_lt_upper_bound; lia].
  - split; [exact D|]. split; [eapply toward_zero_comp; [exact Eq|reflexivity|exact T]|]. split; [exact Ed|]. split; [exact Ht|]. split; [exact Hx|].
    split; [exact Hx'|]. rewrite <- Eq. exact L.
Qed.

Lemma qrne_abs_ge : forall q z, (inject_Z z <= Qabs q)%Q -> z <= Z.abs (qrne q).
Proof.
  intros q z H. destruct (Qlt_le_dec q 0) as [N|P].
  - rewrite Qabs_neg in H by lra. apply (qrne_bounds_int_l (- q) z) in H. rewrite qrne_opp in H. lia.
  - rewrite Qabs_pos in H by lra. apply (qrne_bounds_int_l q z) in H. lia.
Qed.
Lemma qrne_abs_le : forall q z, (Qabs q <= inject_Z z)%Q -> Z.abs (qrne q) <= z.
Proof.
  intros q z H. apply Qabs_Qle_condition in H. destruct H as [A B]. apply qrne_bounds_int in B.
  assert (A' : (inject_Z (- z) <= q)%Q) by (rewrite inject_Z_opp; exact A). apply qrne_bounds_int_l in A'. lia.
Qed.
Lemma abs_div_p2 : forall v e, (Qabs (v / p2 e) == Qabs v * p2 (- e))%Q.
Proof.
  intros v e. unfold Qdiv. rewrite Qabs_Qmult. rewrite (Qabs_pos (/ p2 e)) by (apply Qlt_le_weak, Qinv_lt_0_compat, p2_pos).
  assert (X : (/ p2 e == p2 (- e))%Q); [|rewrite X; reflexivity].
  pose proof (p2_opp e) as O. pose proof (p2_nz e). transitivity (/ p2 e * (p2 (- e) * p2 e))%Q; [rewrite O; ring|field; assumption].
Qed.

(* rounding to 11 digits *)
Lemma digits_form : forall v, ~ (v == 0)%Q -> exists n k, (round_digits 11 v == inject_Z n * p2 (k - 10))%Q /\ 1024 <= Z.abs n <= 2048 /\
  (Qabs (v - round_digits 11 v) <= p2 (k - 11))%Q /\ (p2 k <= Qabs v)%Q /\ (Qabs v < p2 (k + 1))%Q.
Proof.
  intros v NZ. pose proof (Qabs_nz v NZ) as P. destruct (qlog2_spec (Qabs v) P) as [A B]. set (k := qlog2 (Qabs v)) in *.
  exists (qrne (v / p2 (k - 10))), k.
  assert (E : round_digits 11 v = (inject_Z (qrne (v / p2 (k - 10))) * p2 (k - 10))%Q).
  { unfold round_digits. destruct (Qeq_bool v 0) eqn:X; [apply Qeq_bool_eq in X; contradiction|]. cbv zeta. fold k. reflexivity. }
  rewrite E. split; [reflexivity|]. split; [|split; [|split; assumption]].
  - split.
    + apply qrne_abs_ge. rewrite abs_div_p2. change (inject_Z 1024) with (p2 10). replace 10 with (k + - (k - 10)) at 1 by lia. rewrite p2_plus.
      apply Qmult_le_compat_r; [exact A|apply Qlt_le_weak, p2_pos].
    + apply qrne_abs_le. rewrite abs_div_p2. change (inject_Z 2048) with (p2 11). replace 11 with ((k + 1) + - (k - 10)) at 1 by lia. rewrite p2_plus.
      apply Qmult_le_compat_r; [lra|apply Qlt_le_weak, p2_pos].
  - pose proof (qrne_half (v / p2 (k - 10))) as H. set (n := qrne (v / p2 (k - 10))) in *. pose proof (p2_pos (k - 10)) as PK.
    assert (X : (v - inject_Z n * p2 (k - 10) == - (inject_Z n - v / p2 (k - 10)) * p2 (k - 10))%Q) by (field; apply p2_nz).
    rewrite X, Qabs_Qmult, Qabs_opp. rewrite (Qabs_pos (p2 (k - 10))) by lra.
    assert (Y : (p2 (k - 10) == 2 * p2 (k - 11))%Q) by (replace (k - 10) with (k - 11 + 1) by lia; apply p2_succ).
    apply Qle_trans with ((1 # 2) * p2 (k - 10))%Q; [apply Qmult_le_compat_r; [exact H|lra]|rewrite Y; lra].
Qed.

Lemma digits_repr32 : forall n k, 1024 <= Z.abs n <= 2048 -> (p2 (-126) <= Qabs (inject_Z n * p2 (k - 10)))%Q -> (Qabs (inject_Z n * p2 (k - 10)) < p2 128)%Q ->
  representable ML_Binary32 (inject_Z n * p2 (k - 10)).
Proof.
  intros n k Hn A B. rewrite Qabs_Qmult, (Qabs_pos (p2 (k - 10))) in A, B by (apply Qlt_le_weak, p2_pos).
  change (Qabs (inject_Z n)) with (inject_Z (Z.abs n)) in A, B. pose proof (p2_pos (k - 10)) as PK.
  assert (S0 : forall j, (inject_Z (2 ^ j) * p2 (k - 10) == p2 (j + (k - 10)))%Q \/ j < 0).
  { intro j. destruct (Z.lt_ge_cases j 0); [right; lia|left]. rewrite p2_plus, (p2_Z j) by lia. reflexivity. }
  assert (LB : (p2 k <= inject_Z (Z.abs n) * p2 (k - 10))%Q).
  { destruct (S0 10) as [E|]; [|lia]. replace (10 + (k - 10)) with k in E by lia. rewrite <- E. apply Qmult_le_compat_r; [rewrite <- Zle_Qle; change (2 ^ 10) with 1024; lia|lra]. }
  unfold representable. cbn [esz fsz ML_Binary32]. change (2 ^ (23 + 1)) with 16777216. change (2 ^ (8 - 1)) with 128.
  destruct (Z.eq_dec (Z.abs n) 2048) as [E|N].
  - rewrite E in A, B. destruct (S0 11) as [F|]; [|lia]. change (2 ^ 11) with 2048 in F. replace (11 + (k - 10)) with (k + 1) in F by lia.
    rewrite F in A, B. assert (A' : -126 <= k + 1) by (apply Z.nlt_ge; intro L; apply p2_lt in L; lra). apply p2_lt_inv in B.
    exists (n * 4096), (k - 22). split; [lia|]. split; [lia|]. rewrite inject_Z_mult. change (inject_Z 4096) with (p2 12).
    rewrite <- Qmult_assoc, <- p2_plus. replace (12 + (k - 22)) with (k - 10) by lia. reflexivity.
  - assert (K1 : k < 128) by (apply p2_lt_inv; lra).
    assert (K2 : -126 < k + 1).
    { apply p2_lt_inv. destruct (S0 11) as [F|]; [|lia]. replace (11 + (k - 10)) with (k + 1) in F by lia. rewrite <- F.
      eapply Qle_lt_trans; [exact A|]. apply Qmult_lt_r; [exact PK|]. rewrite <- Zlt_Qlt. change (2 ^ 11) with 2048. lia. }
    exists (n * 8192), (k - 23). split; [lia|]. split; [lia|]. rewrite inject_Z_mult. change (inject_Z 8192) with (p2 13).
    rewrite <- Qmult_assoc, <- p2_plus. replace (13 + (k - 23)) with (k - 10) by lia. reflexivity.
Qed.

Lemma int_gap : forall a e, (Qabs (inject_Z a * p2 e) < 8 * p2 e)%Q -> (Qabs (inject_Z a * p2 e) <= 7 * p2 e)%Q.
Proof.
  intros a e H. rewrite Qabs_Qmult, (Qabs_pos (p2 e)) in * by (apply Qlt_le_weak, p2_pos). change (Qabs (inject_Z a)) with (inject_Z (Z.abs a)) in *.
  pose proof (p2_pos e). apply Qmult_lt_r in H; [|assumption]. change 8%Q with (inject_Z 8) in H. rewrite <- Zlt_Qlt in H.
  apply Qmult_le_compat_r; [change 7%Q with (inject_Z 7); rewrite <- Zle_Qle; lia|lra].
Qed.

(* the constant of a rounded number *)
Lemma rounded_cst : forall v, (p2 (-126) <= Qabs (round_digits 11 v))%Q -> (Qabs (round_digits 11 v) < p2 128)%Q ->
  exists q c d t x, round_to_bfloat16 v = BNum q /\ (q == round_digits 11 v)%Q /\ bfloat16_get_cst (round_to_bfloat16 v) = Some c /\ 0 <= c < 2 ^ 16 /\
    fin (get_value_from_integer_coding bf16 c) = Some d /\ toward_zero bf16 (round_digits 11 v) d /\
    (d == inject_Z t * p2 x)%Q /\ 128 <= Z.abs t <= 255 /\ (Qabs (round_digits 11 v - d) < p2 x)%Q /\
    (Qabs (v - d) <= (15 # 16) * p2 x)%Q.
Proof.
  intros v A B. set (r := round_digits 11 v) in *.
  assert (NZ : ~ (v == 0)%Q).
  { intro Z0. assert (r = 0%Q) by (unfold r, round_digits; rewrite (Qeq_eq_bool _ _ Z0); reflexivity). rewrite H in A. pose proof (p2_pos (-126)).
    change (Qabs 0) with 0%Q in A. lra. }
  destruct (digits_form v NZ) as (n & k & Er & Hn & Hv & Hk1 & Hk2). fold r in Er, Hv.
  assert (R : representable ML_Binary32 r).
  { eapply representable_comp; [symmetry; exact Er|]. apply digits_repr32; [exact Hn| |]; rewrite <- Er; assumption. }
  destruct (round_id ML_Binary32 ok32 s32 r R) as (q & Hq & Eq).
  destruct (round_id ML_Binary32 ok32 s32 q ltac:(eapply representable_comp; [symmetry; exact Eq|exact R])) as (q' & Hq' & Eq').
  assert (RB : round_to_bfloat16 v = BNum q).
  { unfold round_to_bfloat16. cbv zeta. fold r. change (get_min_normal_value ML_Binary32) with (p2 (-126)).
    rewrite (proj2 (Qle_bool_iff _ _) A). cbn [negb]. now rewrite Hq. }
  destruct (cst_trunc q q' Hq') as (c & d & t & x & C & Hc & D & T & Ed & Ht & Hx & Hx' & L).
  assert (EQ : (q' == r)%Q) by (rewrite Eq', Eq; reflexivity).
  apply (toward_zero_comp _ _ d r d EQ (Qeq_refl d)) in T. rewrite EQ in L.
  pose proof (p2_pos x) as PX.
  assert (LS : (Qabs (r - d) < p2 x)%Q) by lra.
  assert (AR : (Qabs r <= Qabs d + Qabs (r - d))%Q).
  { assert (Y : (r == d + (r - d))%Q) by ring. rewrite Y at 1. apply Qabs_triangle. }
  assert (DA : (Qabs d == inject_Z (Z.abs t) * p2 x)%Q).
  { rewrite Ed, Qabs_Qmult, (Qabs_pos (p2 x)) by lra. reflexivity. }
  assert (T128 : 128 <= Z.abs t).
  { destruct Hx as [->|Hx]; [|exact Hx].
    assert (X : (p2 (-126) < inject_Z (Z.abs t + 1) * p2 (-133))%Q).
    { rewrite inject_Z_plus. change (inject_Z 1) with 1%Q. lra. }
    change (p2 (-126)) with (p2 (7 + -133)) in X. rewrite p2_plus in X. apply Qmult_lt_r in X; [|exact PX]. change (p2 7) with (inject_Z 128) in X.
    rewrite <- Zlt_Qlt in X. lia. }
  assert (RA : (Qabs r == inject_Z (Z.abs n) * p2 (k - 10))%Q).
  { rewrite Er, Qabs_Qmult. rewrite (Qabs_pos (p2 (k - 10))) by (apply Qlt_le_weak, p2_pos). reflexivity. }
  destruct T as (T1 & T2 & T3 & T4).
  assert (X1 : x + 7 <= k + 1).
  { apply Z.nlt_ge. intro G. assert (G' : (p2 (k + 2) <= p2 (x + 7))%Q) by (apply p2_le; lia).
    assert (G1 : (p2 (x + 7) <= Qabs d)%Q).
    { rewrite DA, Z.add_comm, p2_plus. change (p2 7) with (inject_Z 128). apply Qmult_le_compat_r; [rewrite <- Zle_Qle; exact T128|lra]. }
    assert (G2 : (Qabs r <= p2 (k + 1))%Q).
    { rewrite RA. replace (k + 1) with (11 + (k - 10)) by lia. rewrite p2_plus. change (p2 11) with (inject_Z 2048).
      apply Qmult_le_compat_r; [rewrite <- Zle_Qle; lia|apply Qlt_le_weak, p2_pos]. }
    assert (G3 : (p2 (k + 2) == 2 * p2 (k + 1))%Q) by (replace (k + 2) with (k + 1 + 1) by lia; apply p2_succ).
    pose proof (p2_pos (k + 1)). lra. }
  assert (X2 : k <= x + 7).
  { apply Z.lt_succ_r. apply p2_lt_inv.
    assert (G1 : (p2 k <= Qabs r)%Q).
    { rewrite RA. replace k with (10 + (k - 10)) at 1 by lia. rewrite p2_plus. change (p2 10) with (inject_Z 1024).
      apply Qmult_le_compat_r; [rewrite <- Zle_Qle; lia|apply Qlt_le_weak, p2_pos]. }
    replace (Z.succ (x + 7)) with (8 + x) by lia. rewrite p2_plus. change (p2 8) with (inject_Z 256).
    assert (G2 : (inject_Z (Z.abs t) * p2 x <= inject_Z 255 * p2 x)%Q) by (apply Qmult_le_compat_r; [rewrite <- Zle_Qle; exact Ht|lra]).
    change (inject_Z 255) with 255%Q in G2. change (inject_Z 256) with 256%Q. lra. }
  assert (Q1 : (Qabs (v - r) <= (1 # 16) * p2 x)%Q).
  { eapply Qle_trans; [exact Hv|]. change (1 # 16)%Q with (p2 (-4)). rewrite <- p2_plus. apply p2_le. lia. }
  assert (Q2 : (Qabs (r - d) <= (7 # 8) * p2 x)%Q).
  { destruct (Z.eq_dec x (k - 6)) as [EX|NX].
    - assert (G1 : (p2 (k + 1) <= Qabs d)%Q).
      { replace (k + 1) with (7 + x) by lia. rewrite DA, p2_plus. change (p2 7) with (inject_Z 128). apply Qmult_le_compat_r; [rewrite <- Zle_Qle; exact T128|lra]. }
      assert (G2 : (Qabs r <= p2 (k + 1))%Q).
      { rewrite RA. replace (k + 1) with (11 + (k - 10)) by lia. rewrite p2_plus. change (p2 11) with (inject_Z 2048).
        apply Qmult_le_compat_r; [rewrite <- Zle_Qle; lia|apply Qlt_le_weak, p2_pos]. }
      assert (G3 : (Qabs r == Qabs d)%Q) by lra.
      assert (G4 : (r - d == 0)%Q).
      { destruct (Qlt_le_dec r 0) as [N|P], (Qlt_le_dec d 0) as [N'|P'].
        - rewrite !Qabs_neg in G3 by lra. lra.
        - rewrite (Qabs_neg r), (Qabs_pos d) in G3 by lra. assert (0 < - r * d)%Q by (apply Qmult_lt_0_compat; lra). lra.
        - rewrite (Qabs_pos r), (Qabs_neg d) in G3 by lra. assert (H0 : (0 < r)%Q) by lra. assert (0 < r * - d)%Q by (apply Qmult_lt_0_compat; lra). lra.
        - rewrite !Qabs_pos in G3 by lra. lra. }
      rewrite G4. change (Qabs 0) with 0%Q. lra.
    - assert (M : exists a, (r - d == inject_Z a * p2 (x - 3))%Q).
      { exists (n * 2 ^ (k - 7 - x) - t * 8). unfold Z.sub at 1. rewrite inject_Z_plus, inject_Z_opp, !inject_Z_mult. rewrite <- (p2_Z (k - 7 - x)) by lia.
        change (inject_Z 8) with (p2 3). rewrite Er, Ed.
        assert (Y1 : (p2 (k - 10) == p2 (k - 7 - x) * p2 (x - 3))%Q) by (rewrite <- p2_plus; replace (k - 7 - x + (x - 3)) with (k - 10) by lia; reflexivity).
        assert (Y2 : (p2 x == p2 3 * p2 (x - 3))%Q) by (rewrite <- p2_plus; replace (3 + (x - 3)) with x by lia; reflexivity).
        rewrite Y1, Y2. ring. }
      destruct M as [a Ea]. assert (Y2 : (p2 x == 8 * p2 (x - 3))%Q) by (change 8%Q with (p2 3); rewrite <- p2_plus; replace (3 + (x - 3)) with x by lia; reflexivity).
      rewrite Ea in LS |- *. rewrite Y2 in LS |- *. apply int_gap in LS. lra. }
  exists q, c, d, t, x. split; [exact RB|]. split; [exact Eq|]. split; [rewrite RB; exact C|]. split; [exact Hc|]. split; [exact D|].
  split; [split; [exact T1|split; [exact T2|split; assumption]]|]. split; [exact Ed|]. split; [lia|]. split; [exact LS|].
  assert (Y : (v - d == (v - r) + (r - d))%Q) by ring. rewrite Y. eapply Qle_trans; [apply Qabs_triangle|]. lra.
Qed.

Lemma round32_big : forall v, (p2 128 <= Qabs v)%Q -> sollya_round ML_Binary32 v = None.
Proof.
  intros v H. pose proof (p2_pos 128). assert (NZ : ~ (v == 0)%Q) by (intro Z0; rewrite Z0 in H; change (Qabs 0) with 0%Q in H; lra).
  rewrite (sollya_round_unfold ML_Binary32 s32 v NZ). cbv zeta.
  pose proof (Qabs_nz v NZ) as P. destruct (qlog2_spec (Qabs v) P) as [A B]. set (k := qlog2 (Qabs v)) in *.
  assert (K : 128 < k + 1) by (apply p2_lt_inv; lra).
  assert (E : rnd_exp ML_Binary32 v = k - 23) by (unfold rnd_exp; fold k; change (emin_normal ML_Binary32) with (-126); cbn [fsz ML_Binary32]; lia).
  rewrite E. assert (N : 8388608 <= Z.abs (qrne (v / p2 (k - 23)))).
  { apply qrne_abs_ge. rewrite abs_div_p2. change (inject_Z 8388608) with (p2 23). replace 23 with (k + - (k - 23)) at 1 by lia. rewrite p2_plus.
    apply Qmult_le_compat_r; [exact A|apply Qlt_le_weak, p2_pos]. }
  assert (L : (p2 (emax ML_Binary32 + 1) <= Qabs (inject_Z (qrne (v / p2 (k - 23))) * p2 (k - 23)))%Q); [|now rewrite (proj2 (Qle_bool_iff _ _) L)].
  change (emax ML_Binary32 + 1) with 128. rewrite Qabs_Qmult, (Qabs_pos (p2 (k - 23))) by (apply Qlt_le_weak, p2_pos).
  change (Qabs (inject_Z (qrne (v / p2 (k - 23))))) with (inject_Z (Z.abs (qrne (v / p2 (k - 23))))).
  apply Qle_trans with (p2 (23 + (k - 23))); [apply p2_le; lia|]. rewrite p2_plus. change (p2 23) with (inject_Z 8388608).
  apply Qmult_le_compat_r; [rewrite <- Zle_Qle; exact N|apply Qlt_le_weak, p2_pos].
Qed.
