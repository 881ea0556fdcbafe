(* The C support library: theorems. *)
From Coq Require Import ZArith QArith Qabs List Bool Lia Lqa.
From Verif Require Import QUtil FpFormatModel FpFormatSpec FpFormatProofs FpFormatProps TruncProps SupportModel.
Import ListNotations.
Open Scope Z_scope.

(* ---------------- specification ---------------- *)
(* what each test means, on the datum of an encoding *)
Definition min_normal (F : fpfmt) : Q := p2 (1 - ieee_bias F).
Definition test_meaning (F : fpfmt) (t : c_test) (v : fpv) : Prop :=
  match t with
  | TIEEENormalPositive => exists q, v = Num q /\ (min_normal F <= q)%Q
  | TInfOrNaN => v = PInf \/ v = MInf \/ v = QNaN \/ v = SNaN
  | TNaN => v = QNaN \/ v = SNaN
  | TSignalingNaN => v = SNaN
  | TQuietNaN => v = QNaN
  | TSubnormal => exists q, v = Num q /\ (Qabs q < min_normal F)%Q
  | TInfty => v = PInf \/ v = MInf
  | TPositiveInfty => v = PInf
  | TNegativeInfty => v = MInf
  | TZero => v = PZero \/ v = MZero
  | TPositiveZero => v = PZero
  | TNegativeZero => v = MZero
  end.
Definition normal_datum (F : fpfmt) (v : fpv) : Prop := exists q, v = Num q /\ (min_normal F <= Qabs q)%Q.

(* ---------------- masks ---------------- *)
Lemma land_fld : forall x k w, 0 <= k -> 0 <= w ->
  Z.land x ((2 ^ w - 1) * 2 ^ k) = (x / 2 ^ k) mod 2 ^ w * 2 ^ k.
Proof.
  intros x k w Hk Hw. rewrite <- Z.shiftr_div_pow2, <- land_pow2, <- !Z.shiftl_mul_pow2 by lia.
  apply Z.bits_inj'. intros i Hi. rewrite Z.land_spec, !Z.shiftl_spec by lia.
  destruct (Z.lt_ge_cases i k).
  - rewrite !(Z.testbit_neg_r _ (i - k)) by lia. apply andb_false_r.
  - rewrite Z.land_spec, Z.shiftr_spec by lia. replace (i - k + k) with i by lia. reflexivity.
Qed.
Lemma c_int_true : forall b, c_true (c_int b) = b. Proof. destruct b; reflexivity. Qed.

Section W.
Variable F : fpfmt.
Hypothesis Hok : fmt_ok F.
Local Notation e := (esz F).
Local Notation f := (fsz F).
Variables (c : Z) (s : bool) (E M : Z).
Hypothesis HF : has_fields F c s E M.

Lemma w_exp : Z.land c ((2 ^ e - 1) * 2 ^ f) = E * 2 ^ f.
Proof. destruct Hok. rewrite land_fld by lia. f_equal. apply (c_exp F Hok c s E M HF). Qed.
Lemma w_man : Z.land c (2 ^ f - 1) = M.
Proof. destruct Hok. rewrite land_pow2 by lia. apply (c_mod_f F Hok c s E M HF). Qed.
Lemma w_sgn : Z.land c (2 ^ (e + f)) = if s then 2 ^ (e + f) else 0.
Proof.
  destruct Hok. replace (2 ^ (e + f)) with ((2 ^ 1 - 1) * 2 ^ (e + f)) at 1 by (change (2 ^ 1 - 1) with 1; lia). rewrite land_fld by lia.
  rewrite (Z.add_comm e f), (c_sign F Hok c s E M HF). destruct s; [change (1 mod 2 ^ 1) with 1|change (0 mod 2 ^ 1) with 0]; lia.
Qed.
Lemma w_abs : Z.land c (2 ^ (e + f) - 1) = E * 2 ^ f + M.
Proof.
  destruct Hok. rewrite land_pow2 by lia. destruct HF as [-> [HE HM]].
  assert (P : 2 ^ (e + f) = 2 ^ e * 2 ^ f) by (apply Z.pow_add_r; lia).
  assert (0 <= E * 2 ^ f + M < 2 ^ (e + f)) by (rewrite P; nia).
  destruct s.
  - replace (2 ^ (e + f) + E * 2 ^ f + M) with ((E * 2 ^ f + M) + 1 * 2 ^ (e + f)) by lia.
    rewrite Z_mod_plus_full. apply Z.mod_small; auto.
  - apply Z.mod_small. lia.
Qed.
Lemma w_quiet : Z.land c (2 ^ (f - 1)) = if M <? 2 ^ (f - 1) then 0 else 2 ^ (f - 1).
Proof.
  pose proof Hok as [He Hf]. pose proof (pf_half F Hok) as Ph.
  replace (2 ^ (f - 1)) with ((2 ^ 1 - 1) * 2 ^ (f - 1)) at 1 by (change (2 ^ 1 - 1) with 1; lia). rewrite land_fld by lia.
  assert (Q : (c / 2 ^ (f - 1)) mod 2 ^ 1 = M / 2 ^ (f - 1)).
  { pose proof (c_mod_f F Hok c s E M HF) as Mf. rewrite Ph, (Z.mul_comm 2), Z.rem_mul_r in Mf by (try lia; apply Z.pow_nonzero; lia).
    change (2 ^ 1) with 2. apply Z.div_unique with (c mod 2 ^ (f - 1)); [left; apply Z.mod_pos_bound; lia|lia]. }
  rewrite Q. destruct HF as [_ [_ HM]]. destruct (Z.ltb_spec M (2 ^ (f - 1))).
  - rewrite Z.div_small by lia. lia.
  - replace (M / 2 ^ (f - 1)) with 1; [lia|]. apply Z.div_unique with (M - 2 ^ (f - 1)); lia.
Qed.
Lemma w_code : forall (s' : bool) E' M', has_fields F (if s' then 2 ^ (e + f) + E' * 2 ^ f + M' else E' * 2 ^ f + M') s' E' M' ->
  c = (if s' then 2 ^ (e + f) + E' * 2 ^ f + M' else E' * 2 ^ f + M') <-> s = s' /\ E = E' /\ M = M'.
Proof.
  intros s' E' M' H'. destruct Hok. split.
  - intros Hc. rewrite Hc in HF.
    set (d := if s' then _ else _) in *.
    pose proof (c_sign F Hok d s E M HF) as A1. pose proof (c_sign F Hok d s' E' M' H') as A2.
    pose proof (c_exp F Hok d s E M HF) as B1. pose proof (c_exp F Hok d s' E' M' H') as B2.
    pose proof (c_mod_f F Hok d s E M HF) as C1. pose proof (c_mod_f F Hok d s' E' M' H') as C2.
    split; [|split]; try congruence. rewrite A1 in A2. destruct s, s'; auto; discriminate.
  - intros [-> [-> ->]]. destruct HF as [-> _]. destruct s'; lia.
Qed.

(* ---- sizes of the numbers ---- *)
Lemma frac_bounds : (0 <= inject_Z M * p2 (- f))%Q /\ (inject_Z M * p2 (- f) < 1)%Q.
Proof.
  destruct HF as [_ [_ HM]]. destruct Hok as [He Hf]. pose proof (p2_pos (- f)). split.
  - apply Qmult_le_0_compat; [change 0%Q with (inject_Z 0); apply inj_le; lia|lra].
  - rewrite <- (p2_opp f). rewrite (Qmult_comm (p2 (- f))). apply Qmult_lt_r; auto.
    rewrite p2_Z by lia. apply inj_lt; lia.
Qed.
Lemma sgn_abs : forall (t : bool) a b, (0 <= a)%Q -> (0 <= b)%Q -> (Qabs ((if t then -1 else 1) * a * b) == a * b)%Q.
Proof.
  intros t a b Ha Hb. assert (0 <= a * b)%Q by (apply Qmult_le_0_compat; auto).
  destruct t; [rewrite Qabs_neg|rewrite Qabs_pos]; lra.
Qed.
Lemma normal_big : forall (t : bool) q, 0 < E < 2 ^ e - 1 ->
  (q == (if t then -1 else 1) * p2 (E - ieee_bias F) * (1 + inject_Z M * p2 (- f)))%Q -> (min_normal F <= Qabs q)%Q.
Proof.
  intros t q HE Hq. destruct frac_bounds as [L U]. rewrite Hq, sgn_abs; [|apply Qlt_le_weak, p2_pos|lra].
  unfold min_normal. pose proof (p2_le (1 - ieee_bias F) (E - ieee_bias F) ltac:(lia)). pose proof (p2_pos (E - ieee_bias F)).
  assert (0 <= p2 (E - ieee_bias F) * (inject_Z M * p2 (- f)))%Q by (apply Qmult_le_0_compat; lra). lra.
Qed.
Lemma subnormal_small : forall (t : bool) q,
  (q == (if t then -1 else 1) * p2 (1 - ieee_bias F) * (inject_Z M * p2 (- f)))%Q -> (Qabs q < min_normal F)%Q.
Proof.
  intros t q Hq. destruct frac_bounds as [L U]. rewrite Hq, sgn_abs; [|apply Qlt_le_weak, p2_pos|lra].
  unfold min_normal. pose proof (p2_pos (1 - ieee_bias F)).
  apply Qlt_le_trans with (p2 (1 - ieee_bias F) * 1)%Q; [|lra].
  apply Qmult_lt_l; auto.
Qed.
Lemma Num_inv : forall a b, Num a = Num b -> a = b. Proof. intros a b H. injection H; auto. Qed.

(* ---- generic form of the macros ---- *)
Definition g_test (t : c_test) : option bool :=
  match t with
  | TIEEENormalPositive => None
  | TInfOrNaN => Some (Z.land c ((2 ^ e - 1) * 2 ^ f) =? (2 ^ e - 1) * 2 ^ f)
  | TNaN => Some ((Z.land c ((2 ^ e - 1) * 2 ^ f) =? (2 ^ e - 1) * 2 ^ f) && negb (Z.land c (2 ^ f - 1) =? 0))
  | TSignalingNaN => Some ((Z.land c ((2 ^ e - 1) * 2 ^ f) =? (2 ^ e - 1) * 2 ^ f) && negb (Z.land c (2 ^ f - 1) =? 0)
                     && (Z.land c (2 ^ (f - 1)) =? 0))
  | TQuietNaN => Some ((Z.land c ((2 ^ e - 1) * 2 ^ f) =? (2 ^ e - 1) * 2 ^ f) && negb (Z.land c (2 ^ f - 1) =? 0)
                     && negb (Z.land c (2 ^ (f - 1)) =? 0))
  | TSubnormal => Some (Z.land c ((2 ^ e - 1) * 2 ^ f) =? 0)
  | TInfty => Some (Z.land c (2 ^ (e + f) - 1) =? (2 ^ e - 1) * 2 ^ f)
  | TPositiveInfty => Some (c =? (2 ^ e - 1) * 2 ^ f)
  | TNegativeInfty => Some (c =? 2 ^ (e + f) + (2 ^ e - 1) * 2 ^ f)
  | TZero => Some (Z.land c (2 ^ (e + f) - 1) =? 0)
  | TPositiveZero => Some (c =? 0)
  | TNegativeZero => Some (c =? 2 ^ (e + f))
  end.

Lemma code_eqb : forall (s' : bool) E' M', 0 <= E' < 2 ^ e -> 0 <= M' < 2 ^ f ->
  (c =? (if s' then 2 ^ (e + f) + E' * 2 ^ f + M' else E' * 2 ^ f + M')) = Bool.eqb s s' && (E =? E') && (M =? M').
Proof.
  intros s' E' M' H1 H2.
  assert (H' : has_fields F (if s' then 2 ^ (e + f) + E' * 2 ^ f + M' else E' * 2 ^ f + M') s' E' M').
  { split; [destruct s'; lia|auto]. }
  pose proof (w_code s' E' M' H') as W.
  destruct (Z.eqb_spec c (if s' then 2 ^ (e + f) + E' * 2 ^ f + M' else E' * 2 ^ f + M')) as [Q|Q].
  - apply W in Q. destruct Q as [-> [-> ->]]. rewrite eqb_reflx, !Z.eqb_refl. reflexivity.
  - symmetry. destruct (Bool.eqb s s') eqn:A; [|reflexivity]. destruct (Z.eqb_spec E E'); [|reflexivity].
    destruct (Z.eqb_spec M M'); [|reflexivity]. exfalso. apply Q, W. apply eqb_prop in A. auto.
Qed.

Lemma fields_of_datum : forall v, ieee_datum F s E M v ->
  match v with
  | QNaN => (E =? 2 ^ e - 1) = true /\ (E =? 0) = false /\ (M =? 0) = false /\ (M <? 2 ^ (f - 1)) = false
  | SNaN => (E =? 2 ^ e - 1) = true /\ (E =? 0) = false /\ (M =? 0) = false /\ (M <? 2 ^ (f - 1)) = true
  | PInf => (E =? 2 ^ e - 1) = true /\ (E =? 0) = false /\ (M =? 0) = true /\ s = false
  | MInf => (E =? 2 ^ e - 1) = true /\ (E =? 0) = false /\ (M =? 0) = true /\ s = true
  | PZero => (E =? 2 ^ e - 1) = false /\ (E =? 0) = true /\ (M =? 0) = true /\ s = false
  | MZero => (E =? 2 ^ e - 1) = false /\ (E =? 0) = true /\ (M =? 0) = true /\ s = true
  | Num q => (E =? 2 ^ e - 1) = false /\ (E =? 0) && (M =? 0) = false
  end.
Proof.
  intros v D.
  pose proof (pf_ge F Hok) as P1. pose proof (pe1_ge F Hok) as P2. pose proof (pe_half F Hok) as P3.
  pose proof (pf1_ge F Hok) as P4. clear HF.
  destruct D as [s0 M0 D1|s0 M0 D1 D2| | | | |s0 E0 M0 q D1 D2|s0 M0 q D1 D2].
  - rewrite Z.eqb_refl, !(proj2 (Z.eqb_neq _ _)), (proj2 (Z.ltb_ge _ _)) by lia. auto.
  - rewrite Z.eqb_refl, !(proj2 (Z.eqb_neq _ _)), (proj2 (Z.ltb_lt _ _)) by lia. auto.
  - rewrite !Z.eqb_refl, (proj2 (Z.eqb_neq _ _)) by lia. auto.
  - rewrite !Z.eqb_refl, (proj2 (Z.eqb_neq _ _)) by lia. auto.
  - rewrite !Z.eqb_refl, (proj2 (Z.eqb_neq _ _)) by lia. auto.
  - rewrite !Z.eqb_refl, (proj2 (Z.eqb_neq _ _)) by lia. auto.
  - rewrite (proj2 (Z.eqb_neq E0 (2 ^ e - 1))), (proj2 (Z.eqb_neq E0 0)) by lia. auto.
  - rewrite (proj2 (Z.eqb_neq 0 (2 ^ e - 1))), (proj2 (Z.eqb_neq M0 0)) by lia. auto.
Qed.

Lemma g_test_ok : forall t b v, ieee_datum F s E M v -> t <> TSubnormal -> g_test t = Some b ->
  (b = true <-> test_meaning F t v).
Proof.
  intros t b v D T H. apply fields_of_datum in D.
  pose proof (pf_ge F Hok) as P1. pose proof (pe1_ge F Hok) as P2. pose proof (pe_half F Hok) as P3.
  pose proof (pf1_ge F Hok) as P4. pose proof HF as (_ & HE & HM).
  pose proof (code_eqb false (2 ^ e - 1) 0 ltac:(lia) ltac:(lia)) as K1. pose proof (code_eqb true (2 ^ e - 1) 0 ltac:(lia) ltac:(lia)) as K2.
  pose proof (code_eqb false 0 0 ltac:(lia) ltac:(lia)) as K3. pose proof (code_eqb true 0 0 ltac:(lia) ltac:(lia)) as K4. cbv iota in *.
  rewrite ?Z.add_0_r, ?Z.mul_0_l in *. change (0 + 0) with 0 in K3. rewrite ?Z.add_0_r in K4.
  assert (EE : forall k, (E * 2 ^ f =? k * 2 ^ f) = (E =? k)).
  { intros k. destruct (Z.eqb_spec E k) as [->|N]; [apply Z.eqb_refl|]. apply Z.eqb_neq. intros Q. apply N.
    apply Z.mul_cancel_r in Q; lia. }
  assert (AA : forall k, (E * 2 ^ f + M =? k * 2 ^ f) = (E =? k) && (M =? 0)).
  { intros k. destruct (Z.eqb_spec (E * 2 ^ f + M) (k * 2 ^ f)) as [Q|Q].
    - assert (E = k /\ M = 0) as [-> ->] by (apply (Z.div_mod_unique (2 ^ f)); lia). rewrite !Z.eqb_refl. reflexivity.
    - destruct (Z.eqb_spec E k); [|reflexivity]. destruct (Z.eqb_spec M 0); [|reflexivity]. subst. lia. }
  pose proof (AA 0) as A0. rewrite Z.mul_0_l in A0.
  assert (QQ : ((if M <? 2 ^ (f - 1) then 0 else 2 ^ (f - 1)) =? 0) = (M <? 2 ^ (f - 1))).
  { destruct (M <? 2 ^ (f - 1)); [reflexivity|]. apply Z.eqb_neq. lia. }
  destruct t; try contradiction; cbn [g_test] in H; try discriminate H; injection H as <-; cbn [test_meaning];
    rewrite ?w_exp, ?w_man, ?w_quiet, ?w_abs, ?EE, ?AA, ?A0, ?K1, ?K2, ?K3, ?K4, ?QQ;
    clear K1 K2 K3 K4 EE AA A0 QQ P1 P2 P3 P4 HE HM;
    (destruct v; [destruct D as [D1 D2]|destruct D as [D1 [D2 [D3 D4]]]..]); rewrite ?D1, ?D2, ?D3, ?D4; cbn [andb negb Bool.eqb];
    try (destruct (E =? 0); destruct (M =? 0); try discriminate D2); destruct s; try discriminate;
    (split; intros Q; try discriminate Q; auto;
     repeat match goal with Hd : _ \/ _ |- _ => destruct Hd end; try discriminate; auto).
Qed.
End W.

Lemma ok32 : fmt_ok ML_Binary32. Proof. split; cbn; lia. Qed.
Lemma ok64 : fmt_ok ML_Binary64. Proof. split; cbn; lia. Qed.
Lemma b32_g : forall c t b, g_test ML_Binary32 c t = Some b -> exists n, c_test32 t c = Some n /\ c_true n = b.
Proof.
  intros c t b H. destruct t; cbn [g_test] in H; try discriminate H; injection H as <-; cbn [c_test32];
    eexists; (split; [reflexivity|]);
    unfold ml_is_signaling_nanf, ml_is_quiet_nanf, ml_is_nan_or_inff, ml_is_nanf, ml_is_inff, ml_is_plus_inff, ml_is_minus_inff, ml_is_zerof,
      ml_is_positivezerof, ml_is_negativezerof, ml_is_subnormalf; rewrite ?c_int_true; reflexivity.
Qed.
Lemma b64_g : forall c t b, g_test ML_Binary64 c t = Some b -> exists n, c_test64 t c = Some n /\ c_true n = b.
Proof.
  intros c t b H. destruct t; cbn [g_test] in H; try discriminate H; injection H as <-; cbn [c_test64];
    eexists; (split; [reflexivity|]);
    unfold ml_is_signaling_nan, ml_is_quiet_nan, ml_is_nan_or_inf, ml_is_nan, ml_is_inf, ml_is_plus_inf, ml_is_minus_inf, ml_is_zero,
      ml_is_positivezero, ml_is_negativezero, ml_is_subnormal; rewrite ?c_int_true; reflexivity.
Qed.
Lemma g_total : forall F c t, t <> TIEEENormalPositive -> exists b, g_test F c t = Some b.
Proof. intros F c t H. destruct t; try contradiction; cbn [g_test]; eauto. Qed.

(* ---------------- class tests ---------------- *)
(* Missing: TSubnormal (also true on zeros) and TIEEENormalPositive, which
   cannot be built; both are treated below. *)
Theorem c_class_tests_binary32_partial : forall c s E M v t, has_fields ML_Binary32 c s E M -> ieee_datum ML_Binary32 s E M v ->
  t <> TSubnormal -> t <> TIEEENormalPositive ->
  exists n, c_test32 t c = Some n /\ (c_true n = true <-> test_meaning ML_Binary32 t v).
Proof.
  intros c s E M v t HF D T1 T2. destruct (g_total ML_Binary32 c t T2) as [b G].
  destruct (b32_g c t b G) as [n [Hn Hb]]. exists n. split; auto. rewrite Hb.
  apply (g_test_ok ML_Binary32 ok32 c s E M HF t b v D T1 G).
Qed.

Lemma num_datum_of : forall F s E M q, ieee_datum F s E M (Num q) ->
  (0 < E < 2 ^ esz F - 1 /\ (q == (if s then -1 else 1) * p2 (E - ieee_bias F) * (1 + inject_Z M * p2 (- fsz F)))%Q) \/
  (E = 0 /\ (q == (if s then -1 else 1) * p2 (1 - ieee_bias F) * (inject_Z M * p2 (- fsz F)))%Q).
Proof.
  intros F s E M q D. remember (Num q) as v eqn:V. destruct D; try discriminate V; injection V as <-; auto.
Qed.
Lemma normal_datum_of : forall F s E M v, 0 < E < 2 ^ esz F - 1 -> ieee_datum F s E M v ->
  exists q, v = Num q /\ (q == (if s then -1 else 1) * p2 (E - ieee_bias F) * (1 + inject_Z M * p2 (- fsz F)))%Q.
Proof. intros F s E M v HE D. destruct D; try lia. eauto. Qed.
(* positive normal numbers: the unsigned subtraction wraps on a zero exponent
   field and the sign bit pushes negative words out of the bound *)
Lemma c_shr52 : forall c s E M, has_fields ML_Binary64 c s E M -> Z.shiftr c 52 = (if s then 2 ^ 11 else 0) + E.
Proof.
  intros c s E M HF. rewrite Z.shiftr_div_pow2 by lia. exact (c_div_f ML_Binary64 ok64 c s E M HF).
Qed.
Theorem c_class_tests_binary64_partial : forall c s E M v t, has_fields ML_Binary64 c s E M -> ieee_datum ML_Binary64 s E M v ->
  t <> TSubnormal ->
  exists n, c_test64 t c = Some n /\ (c_true n = true <-> test_meaning ML_Binary64 t v).
Proof.
  intros c s E M v t HF D T1.
  assert (DT : {t = TIEEENormalPositive} + {t <> TIEEENormalPositive}) by (destruct t; (left; reflexivity) || (right; discriminate)).
  destruct DT as [->|T2].
  - cbn [c_test64]. eexists. split; [reflexivity|]. unfold ml_is_normal_positive_fp64. rewrite c_int_true, (c_shr52 c s E M HF).
    pose proof HF as [_ [HE HM]]. cbn [esz fsz ML_Binary64] in HE, HM.
    assert (R : (u64 ((if s then 2 ^ 11 else 0) + E - 1) <? 2046) = negb s && (0 <? E) && (E <? 2047)).
    { unfold u64. change (2 ^ 11) with 2048 in *. change (2 ^ 64) with 18446744073709551616.
      destruct (Z.ltb_spec 0 E).
      - rewrite Z.mod_small by (destruct s; lia). destruct s; cbn [negb andb]; [apply Z.ltb_ge; lia|].
        destruct (Z.ltb_spec E 2047); [apply Z.ltb_lt|apply Z.ltb_ge]; lia.
      - assert (E = 0) by lia. subst E. rewrite andb_false_r. cbn [andb]. destruct s; cbn; reflexivity. }
    change 0x7FE with 2046. rewrite R. cbn [test_meaning].
    assert (PN : forall a, (0 <= a)%Q -> (0 <= 1 + a)%Q) by (intros; lra).
    pose proof (frac_bounds ML_Binary64 ok64 c s E M HF) as [FL FU].
    split.
    + intros H. apply andb_prop in H. destruct H as [H H3]. apply andb_prop in H. destruct H as [H1 H2].
      apply negb_true_iff in H1. apply Z.ltb_lt in H2, H3. subst s.
      destruct (normal_datum_of ML_Binary64 false E M v ltac:(change (2 ^ esz ML_Binary64) with 2048; lia) D) as [q [-> Hq]].
      exists q. split; auto. pose proof (normal_big ML_Binary64 ok64 c false E M HF false q ltac:(cbn; lia) Hq) as B.
      assert (0 <= q)%Q.
      { rewrite Hq. apply Qmult_le_0_compat; [|apply PN; auto]. apply Qmult_le_0_compat; [lra|apply Qlt_le_weak, p2_pos]. }
      rewrite Qabs_pos in B by auto. exact B.
    + intros [q [-> Hq]]. assert (Q0 : (0 < q)%Q) by (pose proof (p2_pos (1 - ieee_bias ML_Binary64)) as P; unfold min_normal in Hq; lra).
      destruct (num_datum_of ML_Binary64 s E M q D) as [[HE0 Hq0]|[-> Hq0]].
      * destruct s.
        -- exfalso. assert (q <= 0)%Q; [|lra]. rewrite Hq0.
           assert (0 <= p2 (E - ieee_bias ML_Binary64) * (1 + inject_Z M * p2 (- fsz ML_Binary64)))%Q
             by (apply Qmult_le_0_compat; [apply Qlt_le_weak, p2_pos|apply PN; auto]). lra.
        -- change (2 ^ esz ML_Binary64) with 2048 in HE0. cbn [negb andb]. apply andb_true_intro. split; apply Z.ltb_lt; lia.
      * exfalso. pose proof (subnormal_small ML_Binary64 ok64 c s 0 M HF s q Hq0) as B. rewrite Qabs_pos in B by lra. lra.
  - destruct (g_total ML_Binary64 c t T2) as [b G].
    destruct (b64_g c t b G) as [n [Hn Hb]]. exists n. split; auto. rewrite Hb.
    apply (g_test_ok ML_Binary64 ok64 c s E M HF t b v D T1 G).
Qed.

(* the "subnormal" tests hold exactly on zeros and subnormal numbers, and the
   "normal" macros exactly on normal numbers, infinities and NaNs *)
Lemma num_size : forall F c s E M q, fmt_ok F -> has_fields F c s E M -> ieee_datum F s E M (Num q) ->
  (E = 0 /\ (Qabs q < min_normal F)%Q) \/ (E <> 0 /\ (min_normal F <= Qabs q)%Q).
Proof.
  intros F c s E M q Hok HF D.
  inversion D as [| | | | | |s0 E0 M0 q0 HE0 Hq0 E1 E2 E3 E4|s0 M0 q0 HM0 Hq0 E1 E2 E3 E4]; subst.
  - right. split; [lia|]. eapply (normal_big F Hok c s E M HF); eauto.
  - left. split; [lia|]. eapply (subnormal_small F Hok c s 0 M HF); eauto.
Qed.
Lemma exp0_meaning : forall F c s E M v, fmt_ok F -> has_fields F c s E M -> ieee_datum F s E M v ->
  (E = 0 <-> (v = PZero \/ v = MZero \/ exists q, v = Num q /\ (Qabs q < min_normal F)%Q)).
Proof.
  intros F c s E M v Hok HF D. pose proof (pe1_ge F Hok). pose proof (pe_half F Hok).
  destruct v as [q| | | | | |]; [|inversion D; subst..].
  - destruct (num_size F c s E M q Hok HF D) as [[H1 H2]|[H1 H2]].
    + split; auto. intros _. right; right. eauto.
    + split; [contradiction|]. intros [K|[K|[q' [K1 K2]]]]; try discriminate. injection K1 as <-. lra.
  - split; [lia|]. intros [K|[K|[q' [K1 K2]]]]; discriminate.
  - split; [lia|]. intros [K|[K|[q' [K1 K2]]]]; discriminate.
  - split; auto.
  - split; auto.
  - split; [lia|]. intros [K|[K|[q' [K1 K2]]]]; discriminate.
  - split; [lia|]. intros [K|[K|[q' [K1 K2]]]]; discriminate.
Qed.
Lemma exp_mask_zero : forall F c s E M, fmt_ok F -> has_fields F c s E M ->
  (Z.land c ((2 ^ esz F - 1) * 2 ^ fsz F) =? 0) = true <-> E = 0.
Proof.
  intros F c s E M Hok HF. rewrite (w_exp F Hok c s E M HF). pose proof (pf_ge F Hok). destruct HF as [_ [HE _]].
  rewrite Z.eqb_eq. split; [|intros ->; lia]. intros Q. apply Z.mul_eq_0 in Q. lia.
Qed.
Theorem c_subnormal_and_normal_tests : forall F sub nor, 
  (F, sub, nor) = (ML_Binary32, ml_is_subnormalf, ml_is_normalf) \/ (F, sub, nor) = (ML_Binary64, ml_is_subnormal, ml_is_normal) ->
  forall c s E M v, has_fields F c s E M -> ieee_datum F s E M v ->
  (c_true (sub c) = true <-> (v = PZero \/ v = MZero \/ test_meaning F TSubnormal v)) /\
  (c_true (nor c) = true <-> (normal_datum F v \/ test_meaning F TInfOrNaN v)).
Proof.
  intros F sub nor HS c s E M v HF D.
  assert (Hok : fmt_ok F) by (destruct HS as [K|K]; injection K as -> _ _; [exact ok32|exact ok64]).
  assert (SN : c_true (sub c) = (Z.land c ((2 ^ esz F - 1) * 2 ^ fsz F) =? 0) /\
               c_true (nor c) = negb (Z.land c ((2 ^ esz F - 1) * 2 ^ fsz F) =? 0)).
  { destruct HS as [K|K]; injection K as -> -> ->; unfold ml_is_subnormalf, ml_is_subnormal; rewrite c_int_true; split; reflexivity. }
  destruct SN as [-> ->]. pose proof (exp_mask_zero F c s E M Hok HF) as Z0.
  pose proof (exp0_meaning F c s E M v Hok HF D) as X0. split.
  - rewrite Z0, X0. reflexivity.
  - rewrite negb_true_iff. rewrite <- not_true_iff_false, Z0, X0. cbn [test_meaning]. unfold normal_datum. split.
    + intros N. destruct v as [q| | | | | |]; auto; try (exfalso; apply N; auto; fail).
      left. exists q. split; auto. destruct (num_size F c s E M q Hok HF D) as [[H1 H2]|[H1 H2]]; auto.
      exfalso. apply N. right; right. eauto.
    + intros [[q [-> Hq]]|Q] N.
      * destruct N as [N|[N|[q' [N1 N2]]]]; try discriminate. injection N1 as <-. lra.
      * destruct Q as [-> |[-> |[-> | ->]]]; destruct N as [N|[N|[q' [N1 N2]]]]; discriminate.
Qed.
Theorem c_is_subnormal_refuted :
  (ieee_datum ML_Binary32 false 0 0 PZero /\ c_test32 TSubnormal 0 = Some 1 /\ ~ test_meaning ML_Binary32 TSubnormal PZero) /\
  (ieee_datum ML_Binary64 true 0 0 MZero /\ c_test64 TSubnormal (2 ^ 63) = Some 1 /\ ~ test_meaning ML_Binary64 TSubnormal MZero).
Proof.
  split; (split; [constructor|split; [reflexivity|intros [q [H _]]; discriminate]]).
Qed.
(* the positive-normal test of a binary32 value does not build *)
Theorem c_normal_positive_binary32_refuted : forall c, c_test32 TIEEENormalPositive c = None.
Proof. reflexivity. Qed.

(* the C macros and the expansion of the same node by the legalizer agree on
   every word *)
Definition legal_pred (t : c_test) : option test_pred :=
  match t with
  | TInfOrNaN => Some IsInfOrNaN | TNaN => Some IsNaN | TSignalingNaN => Some IsSignalingNaN
  | TQuietNaN => Some IsQuietNaN | TSubnormal => Some IsSubnormal | TInfty => Some IsInfty | TZero => Some IsZero
  | _ => None
  end.
Lemma g_legal : forall F c s E M t p b x, fmt_ok F -> has_fields F c s E M -> view_of F x c -> legal_pred t = Some p ->
  g_test F c t = Some b -> test_expansion F p x = b.
Proof.
  intros F c s E M t p b x Hok HF V L G.
  pose proof (view_raw_exp F Hok c s E M HF x V) as VE. pose proof (view_raw_mant F Hok c s E M HF x V) as VM.
  pose proof (view_quiet F Hok c s E M HF x V) as VQ. pose proof (view_abs F Hok c s E M HF x V) as VA.
  pose proof (pf_ge F Hok) as P1. pose proof (pf1_ge F Hok) as P4. pose proof HF as (_ & HE & HM).
  assert (EE : forall k, (E * 2 ^ fsz F =? k * 2 ^ fsz F) = (E =? k)).
  { intros k. destruct (Z.eqb_spec E k) as [->|N]; [apply Z.eqb_refl|]. apply Z.eqb_neq. intros Q. apply N.
    apply Z.mul_cancel_r in Q; lia. }
  pose proof (EE 0) as E0. rewrite Z.mul_0_l in E0.
  assert (AA : (E * 2 ^ fsz F + M =? (2 ^ esz F - 1) * 2 ^ fsz F) = (E =? 2 ^ esz F - 1) && (M =? 0)).
  { destruct (Z.eqb_spec (E * 2 ^ fsz F + M) ((2 ^ esz F - 1) * 2 ^ fsz F)) as [Q|Q].
    - assert (E = 2 ^ esz F - 1 /\ M = 0) as [-> ->] by (apply (Z.div_mod_unique (2 ^ fsz F)); lia). rewrite !Z.eqb_refl. reflexivity.
    - destruct (Z.eqb_spec E (2 ^ esz F - 1)); [|reflexivity]. destruct (Z.eqb_spec M 0); [|reflexivity]. subst. lia. }
  assert (QQ : ((if M <? 2 ^ (fsz F - 1) then 0 else 2 ^ (fsz F - 1)) =? 0) = (M <? 2 ^ (fsz F - 1))).
  { destruct (M <? 2 ^ (fsz F - 1)); [reflexivity|]. apply Z.eqb_neq. lia. }
  destruct t; try discriminate L; injection L as <-; cbn [g_test] in G; injection G as <-;
    unfold test_expansion, nanorinf_exp_field; rewrite ?VE, ?VM, ?VQ, ?VA;
    rewrite ?(w_exp F Hok c s E M HF), ?(w_man F Hok c s E M HF), ?(w_quiet F Hok c s E M HF), ?(w_abs F Hok c s E M HF), ?EE, ?E0, ?AA, ?QQ;
    rewrite <- ?andb_assoc; try reflexivity.
  all: destruct (M <? 2 ^ (fsz F - 1)); reflexivity.
Qed.
Theorem c_tests_match_legalizer : forall c s E M x t p, legal_pred t = Some p ->
  (has_fields ML_Binary32 c s E M -> view_of ML_Binary32 x c ->
     exists n, c_test32 t c = Some n /\ c_true n = test_expansion ML_Binary32 p x) /\
  (has_fields ML_Binary64 c s E M -> view_of ML_Binary64 x c ->
     exists n, c_test64 t c = Some n /\ c_true n = test_expansion ML_Binary64 p x).
Proof.
  intros c s E M x t p L. assert (T : t <> TIEEENormalPositive) by (intros ->; discriminate L). split; intros HF V.
  - destruct (g_total ML_Binary32 c t T) as [b G]. destruct (b32_g c t b G) as [n [Hn Hb]].
    exists n. split; auto. rewrite Hb. symmetry. eapply (g_legal ML_Binary32); eauto. exact ok32.
  - destruct (g_total ML_Binary64 c t T) as [b G]. destruct (b64_g c t b G) as [n [Hn Hb]].
    exists n. split; auto. rewrite Hb. symmetry. eapply (g_legal ML_Binary64); eauto. exact ok64.
Qed.
Example c_tests_example :
  c_test32 TSignalingNaN 0xff800001 = Some 1 /\ test_expansion ML_Binary32 IsSignalingNaN (-8388607) = true /\
  view_of ML_Binary32 (-8388607) 0xff800001 /\ has_fields ML_Binary32 0xff800001 true 255 1 /\
  ieee_datum ML_Binary32 true 255 1 SNaN /\
  c_test64 TIEEENormalPositive 0x0010000000000000 = Some 1 /\ c_test64 TIEEENormalPositive 0x8010000000000000 = Some 0 /\
  c_test64 TIEEENormalPositive 0x000fffffffffffff = Some 0.
Proof.
  split; [reflexivity|]. split; [reflexivity|]. split; [reflexivity|]. split; [unfold has_fields; cbn; lia|].
  split; [apply (d_snan ML_Binary32 true 1); cbn; lia|]. repeat split.
Qed.

(* ---------------- the special values ---------------- *)
Theorem c_special_values : forall F l, (F, l) = (ML_Binary32, fp32_sv) \/ (F, l) = (ML_Binary64, fp64_sv) ->
  exists w w', map Some l = [get_integer_coding F PInf; get_integer_coding F MInf; Some w; Some w';
                 get_integer_coding F PZero; get_integer_coding F MZero; get_integer_coding F QNaN; get_integer_coding F SNaN] /\
    (exists q, get_value_from_integer_coding F w = Num q /\ (q == get_omega F)%Q) /\
    (exists q, get_value_from_integer_coding F w' = Num q /\ (q == - get_omega F)%Q).
Proof.
  intros F l [H|H]; injection H as -> ->; eexists _, _; (split; [reflexivity|]); split; eexists; split; reflexivity.
Qed.

(* ---------------- sign comparison ---------------- *)
Lemma lxor_sign : forall F c s E M c' s' E' M', fmt_ok F -> has_fields F c s E M -> has_fields F c' s' E' M' ->
  Z.testbit (Z.lxor c c') (esz F + fsz F) = xorb s s'.
Proof.
  intros F c s E M c' s' E' M' Hok H H'. rewrite Z.lxor_spec.
  assert (TB : forall c s E M, has_fields F c s E M -> Z.testbit c (esz F + fsz F) = s).
  { clear - Hok. intros c s E M HF. pose proof Hok as [He Hf]. rewrite Z.testbit_odd, Z.shiftr_div_pow2 by lia.
    rewrite Z.add_comm, (c_sign F Hok c s E M HF). destruct s; reflexivity. }
  rewrite (TB _ _ _ _ H), (TB _ _ _ _ H'). reflexivity.
Qed.
Lemma land_bit : forall x k, 0 <= k -> c_true (Z.land x (2 ^ k)) = Z.testbit x k.
Proof.
  intros x k Hk. replace (2 ^ k) with ((2 ^ 1 - 1) * 2 ^ k) by (change (2 ^ 1 - 1) with 1; lia). rewrite land_fld by lia.
  rewrite Z.testbit_odd, Z.shiftr_div_pow2 by lia. change (2 ^ 1) with 2. rewrite Zmod_odd.
  pose proof (pow2_pos k Hk). unfold c_true. destruct (Z.odd (x / 2 ^ k)); [|reflexivity].
  rewrite (proj2 (Z.eqb_neq _ _)) by lia. reflexivity.
Qed.
Theorem c_comp_sign_differs : forall c s E M c' s' E' M',
  (has_fields ML_Binary32 c s E M -> has_fields ML_Binary32 c' s' E' M' -> c_true (ml_comp_signf c c') = xorb s s') /\
  (has_fields ML_Binary64 c s E M -> has_fields ML_Binary64 c' s' E' M' -> c_true (ml_comp_sign c c') = xorb s s').
Proof.
  intros. split; intros H H'.
  - unfold ml_comp_signf. change 0x80000000 with (2 ^ 31). rewrite land_bit by lia.
    exact (lxor_sign ML_Binary32 c s E M c' s' E' M' ok32 H H').
  - unfold ml_comp_sign. rewrite <- (lxor_sign ML_Binary64 c s E M c' s' E' M' ok64 H H'). cbn [esz fsz ML_Binary64].
    change (11 + 52) with 63.
    assert (R : 0 <= Z.lxor c c' < 2 ^ 64).
    { pose proof (fields_range ML_Binary64 ok64 _ _ _ _ H) as R1. pose proof (fields_range ML_Binary64 ok64 _ _ _ _ H') as R2.
      change (2 ^ (1 + esz ML_Binary64 + fsz ML_Binary64)) with (2 ^ 64) in *. split.
      - apply Z.lxor_nonneg; lia.
      - destruct (Z.eq_dec (Z.lxor c c') 0) as [->|N]; [reflexivity|].
        assert (0 <= Z.lxor c c') by (apply Z.lxor_nonneg; lia).
        apply Z.log2_lt_pow2; [lia|]. pose proof (Z.log2_lxor c c' ltac:(lia) ltac:(lia)).
        assert (forall z, 0 <= z < 2 ^ 64 -> Z.log2 z < 64).
        { intros z Hz. destruct (Z.eq_dec z 0) as [->|]; [reflexivity|]. apply Z.log2_lt_pow2; lia. }
        pose proof (H2 c R1). pose proof (H2 c' R2). lia. }
    rewrite Z.testbit_odd. rewrite Z.shiftr_div_pow2 by lia.
    assert (0 <= Z.lxor c c' / 2 ^ 63 < 2).
    { split; [apply Z.div_pos; lia|apply Z.div_lt_upper_bound; lia]. }
    assert (Z.lxor c c' / 2 ^ 63 = 0 \/ Z.lxor c c' / 2 ^ 63 = 1) as [-> | ->] by lia; reflexivity.
Qed.
(* ... while the expansion of the same node used by the LLVM back-end answers
   true when the signs are the same: on non-zero numbers the two back-ends
   always disagree *)
Lemma num_sign : forall F s E M q, fmt_ok F -> 0 <= M -> ieee_datum F s E M (Num q) -> ~ (q == 0)%Q ->
  if s then (q < 0)%Q else (0 < q)%Q.
Proof.
  intros F s E M q Hok HM D N.
  assert (FR : (0 <= inject_Z M * p2 (- fsz F))%Q).
  { apply Qmult_le_0_compat; [change 0%Q with (inject_Z 0); apply inj_le; lia|apply Qlt_le_weak, p2_pos]. }
  inversion D as [| | | | | |s0 E0 M0 q0 HE0 Hq0 E1 E2 E3 E4|s0 M0 q0 HM0 Hq0 E1 E2 E3 E4]; subst.
  - assert (0 <= p2 (E - ieee_bias F) * (1 + inject_Z M * p2 (- fsz F)))%Q
      by (apply Qmult_le_0_compat; [apply Qlt_le_weak, p2_pos|lra]). destruct s; lra.
  - assert (0 <= p2 (1 - ieee_bias F) * (inject_Z M * p2 (- fsz F)))%Q
      by (apply Qmult_le_0_compat; [apply Qlt_le_weak, p2_pos|lra]). destruct s; lra.
Qed.
Theorem comp_sign_backends_refuted : forall c s E M c' s' E' M' q q',
  has_fields ML_Binary32 c s E M -> has_fields ML_Binary32 c' s' E' M' ->
  ieee_datum ML_Binary32 s E M (Num q) -> ieee_datum ML_Binary32 s' E' M' (Num q') -> ~ (q == 0)%Q -> ~ (q' == 0)%Q ->
  legalize_comp_sign q q' = negb (c_true (ml_comp_signf c c')).
Proof.
  intros c s E M c' s' E' M' q q' H H' D D' N N'.
  rewrite (proj1 (c_comp_sign_differs c s E M c' s' E' M') H H').
  pose proof (num_sign ML_Binary32 s E M q ok32 ltac:(destruct H; lia) D N) as S.
  pose proof (num_sign ML_Binary32 s' E' M' q' ok32 ltac:(destruct H'; lia) D' N') as S'.
  unfold legalize_comp_sign.
  assert (T : forall a b, (a <= b)%Q -> Qle_bool a b = true) by (intros; apply Qle_bool_iff; auto).
  assert (U : forall a b, (b < a)%Q -> Qle_bool a b = false).
  { intros a b Hab. destruct (Qle_bool a b) eqn:Q; auto. apply Qle_bool_iff in Q. lra. }
  destruct s, s'; cbn [xorb negb].
  - rewrite (T q 0%Q), (T q' 0%Q) by lra. apply orb_true_r.
  - rewrite (U 0%Q q), (U q' 0%Q) by lra. rewrite andb_false_r. reflexivity.
  - rewrite (U 0%Q q'), (U q 0%Q) by lra. rewrite andb_false_r. reflexivity.
  - rewrite (T 0%Q q), (T 0%Q q') by lra. reflexivity.
Qed.
Example comp_sign_example : ml_comp_signf 0x3f800000 0xbf800000 = 0x80000000 /\ ml_comp_sign 0x3ff0000000000000 0xbff0000000000000 = 1
  /\ ml_comp_signf 0x3f800000 0x40000000 = 0 /\ legalize_comp_sign 1 2 = true.
Proof. repeat split. Qed.
