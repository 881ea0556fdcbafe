(* Fixed-point codec, rounding, truncation, saturation (C06, C07, C58). *)
Require Import ZArith QArith Qround Qabs Bool List Lia Lqa.
From Verif Require Import QUtil FpFormatModel FpFormatSpec FpFormatProofs FixedModel FixedSpec.
Import ListNotations.
Open Scope Z_scope.

(* ---- helpers ---- *)
Lemma Qle_bool_false : forall a b, Qle_bool a b = false <-> (b < a)%Q.
Proof.
  intros a b. split; intros H.
  - destruct (Qlt_le_dec b a); auto. apply Qle_bool_iff in q. congruence.
  - destruct (Qle_bool a b) eqn:E; auto. apply Qle_bool_iff in E. lra.
Qed.

Lemma p2_opp_r : forall a, (p2 a * p2 (- a) == 1)%Q.
Proof. intros. rewrite Qmult_comm. apply p2_opp. Qed.

Lemma scale_back : forall k f, (inject_Z k * p2 (- f) * p2 f == inject_Z k)%Q.
Proof. intros. rewrite <- Qmult_assoc, p2_opp. ring. Qed.

Lemma Qceiling_int : forall q z, (q == inject_Z z)%Q -> Qceiling q = z.
Proof. intros q z H. rewrite (Qceiling_comp _ _ H). apply Qceiling_Z. Qed.

Lemma qtrunc_comp : forall a b, (a == b)%Q -> qtrunc a = qtrunc b.
Proof.
  intros a b E. unfold qtrunc.
  rewrite (Qfloor_comp _ _ E), (Qceiling_comp _ _ E).
  destruct (Qle_bool 0 a) eqn:A; destruct (Qle_bool 0 b) eqn:B; auto.
  - apply Qle_bool_iff in A. apply Qle_bool_false in B. lra.
  - apply Qle_bool_iff in B. apply Qle_bool_false in A. lra.
Qed.

Lemma qtrunc_int : forall q z, (q == inject_Z z)%Q -> qtrunc q = z.
Proof.
  intros q z H. unfold qtrunc. rewrite (Qfloor_int _ _ H), (Qceiling_int _ _ H).
  destruct (Qle_bool 0 q); auto.
Qed.

Lemma inj_le_iff : forall a b, (inject_Z a <= inject_Z b)%Q <-> a <= b.
Proof. intros. rewrite <- Zle_Qle. tauto. Qed.
Lemma inj_lt_iff : forall a b, (inject_Z a < inject_Z b)%Q <-> a < b.
Proof. intros. rewrite <- Zlt_Qlt. tauto. Qed.

Lemma scale_le : forall a b f, (a * p2 f <= b * p2 f)%Q <-> (a <= b)%Q.
Proof. intros. apply Qmult_le_r, p2_pos. Qed.
Lemma scale_lt : forall a b f, (a * p2 f < b * p2 f)%Q <-> (a < b)%Q.
Proof. intros. apply Qmult_lt_r, p2_pos. Qed.

Lemma fx_max_hi : forall F, fx_ok F -> (fx_max F == inject_Z (fx_hi F) * p2 (- frsz F))%Q.
Proof.
  intros F H. unfold fx_ok in H. unfold fx_max, fx_hi. destruct (sgn F).
  - rewrite p2_Z by lia. unfold Z.sub. rewrite inject_Z_plus. change (inject_Z (- (1))) with (-(1))%Q.
    replace (isz F + frsz F + -1) with (isz F + frsz F + - (1)) by lia. ring.
  - rewrite p2_Z by lia. rewrite Z.add_0_r.
    unfold Z.sub. rewrite inject_Z_plus. change (inject_Z (- (1))) with (-(1))%Q. ring.
Qed.

Lemma fx_min_lo : forall F, fx_ok F -> (fx_min F == inject_Z (fx_lo F) * p2 (- frsz F))%Q.
Proof.
  intros F H. unfold fx_ok in H. unfold fx_min, fx_lo. destruct (sgn F); cbn [negb].
  - rewrite p2_Z by lia. rewrite inject_Z_opp. ring.
  - change (inject_Z 0) with 0%Q. ring.
Qed.

(* ---- bounds ---- *)

(* get_min_value and get_max_value are the least and greatest numbers of the
   format *)
Theorem fx_bounds : forall F, fx_ok F ->
  fx_value F (fx_min F) /\ fx_value F (fx_max F) /\
  forall v, fx_value F v -> (fx_min F <= v <= fx_max F)%Q.
Proof.
  intros F H. assert (Hp : fx_lo F <= fx_hi F).
  { unfold fx_lo, fx_hi, fx_ok in *. destruct (sgn F).
    - pose proof (pow2_pos (isz F + frsz F - 1) ltac:(lia)). lia.
    - pose proof (pow2_pos (isz F + frsz F) ltac:(lia)). lia. }
  split; [|split].
  - exists (fx_lo F). split; [lia|]. apply fx_min_lo; auto.
  - exists (fx_hi F). split; [lia|]. apply fx_max_hi; auto.
  - intros v [k [Hk E]]. rewrite E, fx_min_lo, fx_max_hi by auto.
    rewrite !scale_le, !inj_le_iff. auto.
Qed.

(* ---- C06: codec ---- *)

(* encoding a number of the format gives its two's complement word *)
Theorem fx_encode_correct : forall F v k, fx_ok F -> fx_is F v k ->
  fx_encode F v = Some (k mod 2 ^ (isz F + frsz F)).
Proof.
  intros F v k H [Hk E]. unfold fx_encode, fx_bits.
  assert (A : Qle_bool v (fx_max F) = true).
  { apply Qle_bool_iff. rewrite E, fx_max_hi, scale_le, inj_le_iff by auto. lia. }
  assert (B : Qle_bool (fx_min F) v = true).
  { apply Qle_bool_iff. rewrite E, fx_min_lo, scale_le, inj_le_iff by auto. lia. }
  rewrite A, B. cbn [negb orb].
  unfold fx_ok in H. pose proof (pow2_pos (isz F + frsz F) ltac:(lia)) as P.
  assert (Hpow : 2 ^ (isz F + frsz F) = 2 * 2 ^ (isz F + frsz F - 1)).
  { rewrite <- Z.pow_succ_r by lia. f_equal. lia. }
  assert (Hs : (0 <= v)%Q <-> 0 <= k).
  { rewrite E. setoid_replace 0%Q with (inject_Z 0 * p2 (- frsz F))%Q using relation Qeq
      by (change (inject_Z 0) with 0%Q; ring).
    rewrite scale_le, inj_le_iff. tauto. }
  unfold fx_lo, fx_hi in Hk.
  destruct (Qle_bool 0 v) eqn:C; cbn [negb].
  - apply Qle_bool_iff in C. apply Hs in C.
    rewrite (qtrunc_int _ k).
    + rewrite Z.mod_small; auto. destruct (sgn F); lia.
    + rewrite E. apply scale_back.
  - apply Qle_bool_false in C. assert (k < 0).
    { destruct (Z.lt_ge_cases k 0); auto. apply Z.ge_le in H0 || idtac. apply Hs in H0. lra. }
    destruct (sgn F); cbn [negb]; [|lia].
    rewrite (qtrunc_int _ (- k)).
    + f_equal. f_equal. unfold Z.lnot. lia.
    + rewrite Qabs_neg by lra. rewrite E, inject_Z_opp.
      rewrite <- (scale_back k (frsz F)) at 2. ring.
Qed.

(* an encoding is produced exactly for the values between the bounds *)
Theorem fx_encode_domain : forall F v, fx_ok F ->
  (exists c, fx_encode F v = Some c) <-> (fx_min F <= v <= fx_max F)%Q.
Proof.
  intros F v H. unfold fx_encode. split.
  - intros [c E]. destruct (Qle_bool v (fx_max F)) eqn:A; [|discriminate].
    destruct (Qle_bool (fx_min F) v) eqn:B; [|discriminate].
    apply Qle_bool_iff in A, B. lra.
  - intros [A B]. apply Qle_bool_iff in A, B. rewrite A, B. cbn [negb orb].
    destruct (Qle_bool 0 v) eqn:C; cbn [negb]; [eexists; reflexivity|].
    destruct (sgn F) eqn:S; cbn [negb]; [eexists; reflexivity|].
    apply Qle_bool_false in C. apply Qle_bool_iff in A.
    unfold fx_min in A. rewrite S in A. cbn [negb] in A. lra.
Qed.

Lemma qtrunc_abs_lt : forall q, (Qabs (inject_Z (qtrunc q) - q) < 1)%Q.
Proof.
  intros q. unfold qtrunc. apply Qabs_case; intros;
  destruct (Qle_bool 0 q) eqn:C;
  pose proof (Qfloor_le q); pose proof (Qlt_floor q) as L;
  pose proof (Qle_ceiling q); pose proof (Qceiling_lt q) as U;
  rewrite inject_Z_plus in L; change (inject_Z 1) with 1%Q in L;
  unfold Z.sub in U; rewrite inject_Z_plus in U; change (inject_Z (-(1))) with (-(1))%Q in U; lra.
Qed.

Lemma qtrunc_bounds : forall q, (0 <= q)%Q -> (inject_Z (qtrunc q) <= q)%Q /\ 0 <= qtrunc q.
Proof.
  intros q H. unfold qtrunc. rewrite (proj2 (Qle_bool_iff _ _) H).
  split; [apply Qfloor_le|]. rewrite <- (Qfloor_Z 0). apply Qfloor_resp_le. apply H.
Qed.

(* whatever the value, a code fits in the bit width *)
Theorem fx_encode_fits : forall F v c, fx_ok F -> fx_encode F v = Some c ->
  0 <= c < 2 ^ (isz F + frsz F).
Proof.
  intros F v c H E. assert (D : exists c, fx_encode F v = Some c) by eauto.
  rewrite fx_encode_domain in D by auto. destruct D as [A B].
  unfold fx_ok in H. pose proof (pow2_pos (isz F + frsz F) ltac:(lia)) as P.
  unfold fx_encode in E.
  rewrite (proj2 (Qle_bool_iff _ _) A), (proj2 (Qle_bool_iff _ _) B) in E. cbn [negb orb] in E.
  destruct (Qle_bool 0 v) eqn:C; cbn [negb] in E.
  - injection E as <-. apply Qle_bool_iff in C.
    assert (N : (0 <= v * p2 (frsz F))%Q).
    { pose proof (p2_pos (frsz F)). apply Qmult_le_0_compat; lra. }
    destruct (qtrunc_bounds _ N) as [T1 T2]. split; auto.
    rewrite fx_max_hi in B by auto.
    apply (scale_le _ _ (frsz F)) in B. rewrite scale_back in B.
    assert (Q : (inject_Z (qtrunc (v * p2 (frsz F))) <= inject_Z (fx_hi F))%Q) by lra.
    apply (proj1 (inj_le_iff _ _)) in Q. unfold fx_hi in Q.
    assert (Hpow : 2 ^ (isz F + frsz F) = 2 * 2 ^ (isz F + frsz F - 1)).
    { rewrite <- Z.pow_succ_r by lia. f_equal. lia. }
    destruct (sgn F); lia.
  - destruct (sgn F); cbn [negb] in E; [|discriminate]. injection E as <-.
    unfold fx_bits. apply Z.mod_pos_bound. auto.
Qed.

Lemma py_float_ok : fmt_ok py_float /\ sollya_ok py_float.
Proof. unfold fmt_ok, sollya_ok, py_float; cbn; lia. Qed.

(* decoding gives the number back for every non-negative number whose scaled
   integer has at most 53 bits.  Missing: negative numbers and wider codes, for
   which the round trip is false (below). *)
Theorem fx_decode_encode_partial : forall F v k c, fx_ok F -> frsz F <= 1000 ->
  fx_is F v k -> 0 <= k < 2 ^ 53 -> fx_encode F v = Some c ->
  exists w, fx_decode F c = Some w /\ (w == v)%Q.
Proof.
  intros F v k c H Hf Hv Hk E.
  assert (C : c = k).
  { rewrite (fx_encode_correct F v k H Hv) in E. injection E as <-. apply Z.mod_small.
    destruct Hv as [Hr _]. unfold fx_ok in H. unfold fx_hi in Hr.
    pose proof (pow2_pos (isz F + frsz F - 1) ltac:(lia)).
    assert (Hpow : 2 ^ (isz F + frsz F) = 2 * 2 ^ (isz F + frsz F - 1)).
    { rewrite <- Z.pow_succ_r by lia. f_equal. lia. }
    destruct (sgn F); lia. }
  subst c. destruct Hv as [_ Ev]. unfold fx_decode.
  destruct (Z.ltb_spec 0 (frsz F)).
  - destruct py_float_ok as [O1 O2].
    destruct (round_id py_float O1 O2 (inject_Z k)) as [r [R1 R2]].
    { exists k, 0. unfold py_float; cbn [esz fsz]. split; [lia|]. split; [lia|]. rewrite p2_0. ring. }
    rewrite R1.
    destruct (round_id py_float O1 O2 (r * p2 (- frsz F))%Q) as [s [S1 S2]].
    { exists k, (- frsz F). unfold py_float; cbn [esz fsz]. split; [lia|]. split; [lia|]. rewrite R2. reflexivity. }
    exists s. split; auto. rewrite S2, R2, Ev. reflexivity.
  - eexists. split; [reflexivity|]. rewrite Ev. reflexivity.
Qed.

(* the decoder ignores the sign bit: -1 in FS4.0 comes back as 15 *)
Theorem fx_signed_round_trip_refuted :
  exists F v c w, fx_ok F /\ fx_value F v /\ fx_encode F v = Some c /\
    fx_decode F c = Some w /\ ~ (w == v)%Q.
Proof.
  exists (Build_fxfmt 4 0 true), (-1 # 1)%Q, 15, (15 # 1)%Q.
  split; [unfold fx_ok; cbn; lia|]. split.
  { exists (-1). unfold fx_is, fx_lo, fx_hi; cbn. split; [lia|reflexivity]. }
  split; [reflexivity|]. split; [reflexivity|]. discriminate.
Qed.

(* the decoder goes through a Python float: codes of more than 53 bits lose
   their last bits, here in FU64.1 *)
Theorem fx_wide_round_trip_refuted :
  exists F v c w, fx_ok F /\ fx_value F v /\ sgn F = false /\ fx_encode F v = Some c /\
    fx_decode F c = Some w /\ ~ (w == v)%Q.
Proof.
  exists (Build_fxfmt 63 1 false), (inject_Z (2 ^ 60 + 1) * p2 (- 1))%Q, (2 ^ 60 + 1).
  eexists. split; [unfold fx_ok; cbn; lia|]. split.
  { exists (2 ^ 60 + 1). unfold fx_is, fx_lo, fx_hi; cbn -[Z.pow]. split; [vm_compute; split; discriminate|reflexivity]. }
  split; [reflexivity|]. split; [vm_compute; reflexivity|]. split; [vm_compute; reflexivity|].
  vm_compute. discriminate.
Qed.

Example fx_codec_example :
  fx_encode (Build_fxfmt 3 5 false) (13 # 32) = Some 13 /\
  fx_encode (Build_fxfmt 3 5 true) (-13 # 32) = Some 243 /\
  fx_encode (Build_fxfmt 3 5 true) (4 # 1) = None /\
  (exists w, fx_decode (Build_fxfmt 3 5 false) 13 = Some w /\ (w == 13 # 32)%Q).
Proof. repeat split; try reflexivity. eexists; split; vm_compute; reflexivity. Qed.

(* ---- C07: rounding, truncation, saturation ---- *)

Lemma round_scale : forall F (z : Z) (v : Q), (inject_Z z / p2 (frsz F) == inject_Z z * fx_ulp F)%Q.
Proof.
  intros. unfold fx_ulp, Qdiv. apply Qmult_comp; [reflexivity|].
  pose proof (p2_nz (frsz F)). field_simplify_eq; auto. rewrite p2_opp_r. reflexivity.
Qed.

Lemma v_scale : forall F v, (v == p2 (frsz F) * v * fx_ulp F)%Q.
Proof.
  intros. unfold fx_ulp.
  setoid_replace (p2 (frsz F) * v * p2 (- frsz F))%Q with (v * (p2 (frsz F) * p2 (- frsz F)))%Q using relation Qeq by ring.
  rewrite p2_opp_r. ring.
Qed.

(* every rounding direction returns a point of the grid *)
Theorem fx_round_grid : forall F m v, fx_grid F (fx_round F m v).
Proof. intros. unfold fx_round. eexists. apply round_scale, v. Qed.

(* nearest: at most half a unit away, ties to the even point *)
Theorem fx_round_nearest : forall F v,
  (Qabs (fx_round F FxRN v - v) <= (1 # 2) * fx_ulp F)%Q /\
  forall k, (v == (inject_Z k + (1 # 2)) * fx_ulp F)%Q ->
    (fx_round F FxRN v == inject_Z (if Z.even k then k else k + 1) * fx_ulp F)%Q.
Proof.
  intros F v. pose proof (p2_pos (- frsz F)) as P. fold (fx_ulp F) in P. split.
  - unfold fx_round. cbn [fx_rnd_fun]. rewrite round_scale by auto.
    pose proof (qrne_half (p2 (frsz F) * v)) as H.
    rewrite (v_scale F v) at 2.
    setoid_replace (inject_Z (qrne (p2 (frsz F) * v)) * fx_ulp F - p2 (frsz F) * v * fx_ulp F)%Q
      with ((inject_Z (qrne (p2 (frsz F) * v)) - p2 (frsz F) * v) * fx_ulp F)%Q using relation Qeq by ring.
    rewrite Qabs_Qmult, (Qabs_pos (fx_ulp F)) by lra.
    apply Qmult_le_r; auto.
  - intros k E. unfold fx_round. cbn [fx_rnd_fun]. rewrite round_scale by auto.
    rewrite (qrne_tie (p2 (frsz F) * v) k); [reflexivity|].
    rewrite E. unfold fx_ulp.
    setoid_replace (p2 (frsz F) * ((inject_Z k + (1 # 2)) * p2 (- frsz F)))%Q
      with ((inject_Z k + (1 # 2)) * (p2 (frsz F) * p2 (- frsz F)))%Q using relation Qeq by ring.
    rewrite p2_opp_r. ring.
Qed.

Lemma scaled_bound : forall F v z,
  ((inject_Z z <= p2 (frsz F) * v)%Q <-> (inject_Z z * fx_ulp F <= v)%Q) /\
  ((p2 (frsz F) * v <= inject_Z z)%Q <-> (v <= inject_Z z * fx_ulp F)%Q) /\
  ((inject_Z z < p2 (frsz F) * v)%Q <-> (inject_Z z * fx_ulp F < v)%Q) /\
  ((p2 (frsz F) * v < inject_Z z)%Q <-> (v < inject_Z z * fx_ulp F)%Q).
Proof.
  intros. unfold fx_ulp.
  rewrite <- (scale_le (inject_Z z) _ (- frsz F)), <- (scale_le _ (inject_Z z) (- frsz F)).
  rewrite <- (scale_lt (inject_Z z) _ (- frsz F)), <- (scale_lt _ (inject_Z z) (- frsz F)).
  pose proof (v_scale F v) as E. unfold fx_ulp in E. rewrite <- E. tauto.
Qed.

(* directed roundings: the largest grid point below, the smallest above, and
   the one toward zero *)
Theorem fx_round_directed : forall F v,
  ((fx_round F FxRD v <= v)%Q /\ (v < fx_round F FxRD v + fx_ulp F)%Q) /\
  ((v <= fx_round F FxRU v)%Q /\ (fx_round F FxRU v - fx_ulp F < v)%Q) /\
  ((0 <= v)%Q -> (0 <= fx_round F FxRZ v <= v)%Q /\ (v < fx_round F FxRZ v + fx_ulp F)%Q) /\
  ((v <= 0)%Q -> (v <= fx_round F FxRZ v <= 0)%Q /\ (fx_round F FxRZ v - fx_ulp F < v)%Q).
Proof.
  intros F v. set (x := (p2 (frsz F) * v)%Q).
  assert (D : ((inject_Z (Qfloor x) * fx_ulp F <= v)%Q /\ (v < inject_Z (Qfloor x) * fx_ulp F + fx_ulp F)%Q)).
  { split.
    - apply (scaled_bound F v). apply Qfloor_le.
    - setoid_replace (inject_Z (Qfloor x) * fx_ulp F + fx_ulp F)%Q with (inject_Z (Qfloor x + 1) * fx_ulp F)%Q using relation Qeq.
      + apply (scaled_bound F v). apply Qlt_floor.
      + rewrite inject_Z_plus. change (inject_Z 1) with 1%Q. ring. }
  assert (U : ((v <= inject_Z (Qceiling x) * fx_ulp F)%Q /\ (inject_Z (Qceiling x) * fx_ulp F - fx_ulp F < v)%Q)).
  { split.
    - apply (scaled_bound F v). apply Qle_ceiling.
    - setoid_replace (inject_Z (Qceiling x) * fx_ulp F - fx_ulp F)%Q with (inject_Z (Qceiling x - 1) * fx_ulp F)%Q using relation Qeq.
      + apply (scaled_bound F v). apply Qceiling_lt.
      + unfold Z.sub. rewrite inject_Z_plus. change (inject_Z (-(1))) with (-(1))%Q. ring. }
  pose proof (p2_pos (- frsz F)) as P. fold (fx_ulp F) in P. pose proof (p2_pos (frsz F)) as P'.
  split; [|split]; [| |split].
  - unfold fx_round; cbn [fx_rnd_fun]; rewrite round_scale by auto. exact D.
  - unfold fx_round; cbn [fx_rnd_fun]; rewrite round_scale by auto. exact U.
  - intros Hv. unfold fx_round; cbn [fx_rnd_fun]; rewrite round_scale by auto. fold x.
    assert (X : (0 <= x)%Q) by (unfold x; apply Qmult_le_0_compat; lra).
    destruct (Qle_bool x 0) eqn:C; cbn [negb].
    + apply Qle_bool_iff in C. rewrite (Qceiling_int x 0) in U |- * by (change (inject_Z 0) with 0%Q; lra).
      rewrite (Qfloor_int x 0) in D by (change (inject_Z 0) with 0%Q; lra).
      change (inject_Z 0) with 0%Q in *. lra.
    + assert (0 <= Qfloor x) by (rewrite <- (Qfloor_Z 0); apply Qfloor_resp_le, X).
      apply (proj2 (inj_le_iff _ _)) in H. change (inject_Z 0) with 0%Q in H.
      assert (0 <= inject_Z (Qfloor x) * fx_ulp F)%Q by (apply Qmult_le_0_compat; lra). lra.
  - intros Hv. unfold fx_round; cbn [fx_rnd_fun]; rewrite round_scale by auto. fold x.
    assert (X : (x <= 0)%Q).
    { unfold x. assert (0 <= p2 (frsz F) * - v)%Q by (apply Qmult_le_0_compat; lra). lra. }
    rewrite (proj2 (Qle_bool_iff _ _) X). cbn [negb].
    assert (Qceiling x <= 0) by (rewrite <- (Qceiling_Z 0); apply Qceiling_resp_le, X).
    apply (proj2 (inj_le_iff _ _)) in H. change (inject_Z 0) with 0%Q in H.
    assert (0 <= - inject_Z (Qceiling x) * fx_ulp F)%Q by (apply Qmult_le_0_compat; lra). lra.
Qed.

(* truncation: the scaled value is truncated toward zero and wrapped modulo
   2^n into the range of the format *)
Theorem fx_truncate_wraps : forall F v, fx_ok F ->
  exists k, fx_is F (fx_truncate F v) k /\
    (k - qtrunc (v * p2 (frsz F))%Q) mod 2 ^ (isz F + frsz F) = 0.
Proof.
  intros F v H. unfold fx_truncate. set (t := qtrunc (v * p2 (frsz F))%Q).
  pose proof H as H'. unfold fx_ok in H. unfold fx_bits.
  pose proof (pow2_pos (isz F + frsz F) ltac:(lia)) as P.
  assert (Hpow : 2 ^ (isz F + frsz F) = 2 * 2 ^ (isz F + frsz F - 1)).
  { rewrite <- Z.pow_succ_r by lia. f_equal. lia. }
  replace (2 ^ (isz F + frsz F) - 1) with (Z.ones (isz F + frsz F)) by (rewrite Z.ones_equiv; lia).
  rewrite Z.land_ones by lia. set (m := t mod 2 ^ (isz F + frsz F)).
  assert (Hm : 0 <= m < 2 ^ (isz F + frsz F)) by (apply Z.mod_pos_bound; lia).
  assert (Hd : (m - t) mod 2 ^ (isz F + frsz F) = 0).
  { unfold m. rewrite Zminus_mod_idemp_l, Z.sub_diag. reflexivity. }
  destruct (Qle_bool (inject_Z m * p2 (- frsz F)) (fx_max F)) eqn:C; cbn [negb].
  - exists m. split; auto. split; [|reflexivity].
    apply Qle_bool_iff in C. rewrite fx_max_hi, scale_le, inj_le_iff in C by auto.
    split; auto. unfold fx_lo. destruct (sgn F); lia.
  - apply Qle_bool_false in C. rewrite fx_max_hi, scale_lt, inj_lt_iff in C by auto.
    exists (m - 2 ^ (isz F + frsz F)). split; [split|].
    + unfold fx_hi, fx_lo in *. destruct (sgn F); lia.
    + unfold Z.sub. rewrite inject_Z_plus, inject_Z_opp. rewrite <- (p2_Z (isz F + frsz F)) by lia.
      setoid_replace (p2 (isz F)) with (p2 (isz F + frsz F) * p2 (- frsz F))%Q using relation Qeq.
      * ring.
      * rewrite <- p2_plus. replace (isz F + frsz F + - frsz F) with (isz F) by lia. reflexivity.
    + replace (m - 2 ^ (isz F + frsz F) - t) with (m - t + (-1) * 2 ^ (isz F + frsz F)) by lia.
      rewrite Z_mod_plus_full. auto.
Qed.

(* in range, truncation is the toward-zero grid neighbour; it is the identity
   on the numbers of the format *)
Theorem fx_truncate_in_range : forall F v, fx_ok F -> (fx_min F <= v <= fx_max F)%Q ->
  (fx_truncate F v == inject_Z (qtrunc (v * p2 (frsz F))) * fx_ulp F)%Q /\
  (Qabs (fx_truncate F v - v) < fx_ulp F)%Q /\
  (Qabs (fx_truncate F v) <= Qabs v)%Q /\
  (fx_value F v -> (fx_truncate F v == v)%Q).
Proof.
  intros F v H [A B].
  destruct (fx_truncate_wraps F v H) as [k [[Hk E] Hm]].
  set (x := (v * p2 (frsz F))%Q) in *. set (t := qtrunc x) in *.
  pose proof (p2_pos (- frsz F)) as P. fold (fx_ulp F) in P. pose proof (p2_pos (frsz F)) as P'.
  assert (Ht : fx_lo F <= t <= fx_hi F).
  { rewrite fx_max_hi in B by auto. rewrite fx_min_lo in A by auto.
    apply (scale_le _ _ (frsz F)) in A, B. rewrite scale_back in A, B. fold x in A, B.
    unfold t, qtrunc. destruct (Qle_bool 0 x) eqn:C.
    - apply Qle_bool_iff in C. split.
      + apply Z.le_trans with 0.
        * unfold fx_lo, fx_ok in *. destruct (sgn F); [|lia].
          pose proof (pow2_pos (isz F + frsz F - 1) ltac:(lia)). lia.
        * rewrite <- (Qfloor_Z 0); apply Qfloor_resp_le, C.
      + rewrite <- (Qfloor_Z (fx_hi F)). apply Qfloor_resp_le, B.
    - apply Qle_bool_false in C. split.
      + rewrite <- (Qceiling_Z (fx_lo F)). apply Qceiling_resp_le, A.
      + apply Z.le_trans with 0.
        * rewrite <- (Qceiling_Z 0); apply Qceiling_resp_le. change (inject_Z 0) with 0%Q. lra.
        * unfold fx_hi, fx_ok in *. pose proof (pow2_pos (isz F + frsz F - 1) ltac:(lia)).
          pose proof (pow2_pos (isz F + frsz F) ltac:(lia)). destruct (sgn F); lia. }
  assert (K : k = t).
  { unfold fx_ok in H.
    assert (Hpow : 2 ^ (isz F + frsz F) = 2 * 2 ^ (isz F + frsz F - 1)).
    { rewrite <- Z.pow_succ_r by lia. f_equal. lia. }
    pose proof (pow2_pos (isz F + frsz F - 1) ltac:(lia)) as P2.
    apply Z.mod_divide in Hm; [|lia]. destruct Hm as [q Hq].
    assert (- 2 ^ (isz F + frsz F) < k - t < 2 ^ (isz F + frsz F)).
    { unfold fx_lo, fx_hi in *. destruct (sgn F); lia. }
    assert (q = 0) by nia. subst q. lia. }
  subst k. fold (fx_ulp F) in E.
  assert (V : (v == x * fx_ulp F)%Q).
  { unfold x. rewrite (v_scale F v) at 1. ring. }
  split; [exact E|]. split; [|split].
  - rewrite E, V.
    setoid_replace (inject_Z t * fx_ulp F - x * fx_ulp F)%Q with ((inject_Z t - x) * fx_ulp F)%Q using relation Qeq by ring.
    rewrite Qabs_Qmult, (Qabs_pos (fx_ulp F)) by lra.
    pose proof (qtrunc_abs_lt x) as T. fold t in T.
    apply (Qmult_lt_r _ _ _ P) in T. rewrite Qmult_1_l in T. exact T.
  - rewrite E, V, !Qabs_Qmult. apply Qmult_le_compat_r; [|apply Qabs_nonneg].
    unfold t, qtrunc. destruct (Qle_bool 0 x) eqn:C.
    + apply Qle_bool_iff in C. pose proof (Qfloor_le x).
      assert (0 <= Qfloor x) by (rewrite <- (Qfloor_Z 0); apply Qfloor_resp_le, C).
      apply (proj2 (inj_le_iff _ _)) in H1. change (inject_Z 0) with 0%Q in H1. rewrite !Qabs_pos; lra.
    + apply Qle_bool_false in C. pose proof (Qle_ceiling x).
      assert (Qceiling x <= 0) by (rewrite <- (Qceiling_Z 0); apply Qceiling_resp_le; change (inject_Z 0) with 0%Q; lra).
      apply (proj2 (inj_le_iff _ _)) in H1. change (inject_Z 0) with 0%Q in H1. rewrite !Qabs_neg; lra.
  - intros [k [_ Ek]]. rewrite E.
    assert (t = k). { unfold t. apply qtrunc_int. unfold x. rewrite Ek. apply scale_back. }
    rewrite H0, Ek. reflexivity.
Qed.

(* truncation may exceed the value (it truncates toward zero): -1.5 in FS4.0 *)
Theorem fx_truncate_below_refuted :
  exists F v, fx_ok F /\ (fx_min F <= v <= fx_max F)%Q /\ (v < fx_truncate F v)%Q.
Proof.
  exists (Build_fxfmt 4 0 true), (-3 # 2)%Q. split; [unfold fx_ok; cbn; lia|].
  vm_compute. split; [split; discriminate|reflexivity].
Qed.

(* saturation: identity in range, otherwise the bound on the same side; never
   further from the value than any number of the format *)
Theorem fx_saturate_correct : forall F v, fx_ok F ->
  ((fx_min F <= v <= fx_max F)%Q -> fx_saturate F v = v) /\
  (fx_min F <= fx_saturate F v <= fx_max F)%Q /\
  (forall u, (fx_min F <= u <= fx_max F)%Q -> (Qabs (v - fx_saturate F v) <= Qabs (v - u))%Q).
Proof.
  intros F v H.
  assert (M : (fx_min F <= fx_max F)%Q).
  { destruct (fx_bounds F H) as [A [B C]]. apply (C _ B). }
  unfold fx_saturate, py_min, py_max.
  destruct (Qle_bool (fx_min F) v) eqn:A; cbn [negb].
  - apply Qle_bool_iff in A. destruct (Qle_bool v (fx_max F)) eqn:B; cbn [negb].
    + apply Qle_bool_iff in B. split; [auto|]. split; [lra|]. intros u Hu.
      setoid_replace (v - v)%Q with 0%Q using relation Qeq by ring. rewrite Qabs_pos by lra. apply Qabs_nonneg.
    + apply Qle_bool_false in B. split; [intros; lra|]. split; [lra|]. intros u Hu.
      rewrite !Qabs_pos; lra.
  - apply Qle_bool_false in A. rewrite (proj2 (Qle_bool_iff _ _) M). cbn [negb].
    split; [intros; lra|]. split; [lra|]. intros u Hu. rewrite !Qabs_neg; lra.
Qed.

Example fx_round_example :
  let F := Build_fxfmt 3 2 true in
  (fx_round F FxRN (3 # 8) == 1 # 2)%Q /\ (fx_round F FxRN (1 # 8) == 0)%Q /\
  (fx_round F FxRZ (-7 # 8) == -3 # 4)%Q /\ (fx_truncate F (9 # 2) == -7 # 2)%Q /\
  (fx_saturate F (9 # 2) == 15 # 4)%Q /\ (fx_saturate F (1 # 8) == 1 # 8)%Q.
Proof. vm_compute. repeat split. Qed.

(* ---- C58: C constants ---- *)

(* the integer printed in a C constant is the scaled integer, and the two
   64-bit halves of a 128-bit constant reassemble it, each half being in the
   range of the C type it is printed with *)
Theorem fx_c_constants : forall F v k, fx_ok F -> fx_is F v k ->
  fx_c_cst F v = k /\ c_int128 (fx_128b_halves F v) = k /\
  (isz F + frsz F <= 128 ->
   let '(hi, lo) := fx_128b_halves F v in
   0 <= lo < 2 ^ 64 /\
   (if sgn F then - 2 ^ 63 <= hi < 2 ^ 63 else 0 <= hi < 2 ^ 64)).
Proof.
  intros F v k H [Hk E].
  assert (T : qtrunc (v * p2 (frsz F)) = k).
  { apply qtrunc_int. rewrite E. apply scale_back. }
  split; [exact T|]. unfold fx_128b_halves. rewrite T. split.
  - unfold c_int128. cbn [fst snd]. rewrite Z.shiftl_mul_pow2, Z.shiftr_div_pow2 by lia.
    pose proof (Z.div_mod k (2 ^ 64) ltac:(lia)). lia.
  - intros Hn. split; [apply Z.mod_pos_bound; lia|].
    rewrite Z.shiftr_div_pow2 by lia. unfold fx_ok in H. unfold fx_lo, fx_hi in Hk.
    destruct (sgn F).
    + assert (2 ^ (isz F + frsz F - 1) <= 2 ^ 127) by (apply Z.pow_le_mono_r; lia).
      split; [apply Z.div_le_lower_bound; lia|apply Z.div_lt_upper_bound; lia].
    + assert (2 ^ (isz F + frsz F) <= 2 ^ 128) by (apply Z.pow_le_mono_r; lia).
      split; [apply Z.div_pos; lia|apply Z.div_lt_upper_bound; lia].
Qed.

(* the C support width is the smallest standard one that is large enough, and
   exists exactly for 1 to 128 bits *)
Theorem fx_c_bit_size_minimal : forall F,
  (forall n, fx_c_bit_size F = Some n ->
     isz F + frsz F <= n /\ In n [8; 16; 32; 64; 128] /\
     forall m, In m [8; 16; 32; 64; 128] -> isz F + frsz F <= m -> n <= m) /\
  ((exists n, fx_c_bit_size F = Some n) <-> 1 <= isz F + frsz F <= 128).
Proof.
  intros F. unfold fx_c_bit_size, fx_bits. set (b := isz F + frsz F).
  destruct (Z.ltb_spec b 1); cbn [orb].
  { split; [discriminate|]. split; [intros [n N]; discriminate|lia]. }
  destruct (Z.ltb_spec 128 b).
  { split; [discriminate|]. split; [intros [n N]; discriminate|lia]. }
  cbn [filter].
  destruct (Z.leb_spec b 8), (Z.leb_spec b 16), (Z.leb_spec b 32), (Z.leb_spec b 64), (Z.leb_spec b 128);
    try lia; cbn [fold_left]; (split; [intros n N; injection N as <-|split; [lia|eexists; reflexivity]]);
    cbn [In]; (split; [lia|split; [lia|intros m M; lia]]).
Qed.

Example fx_c_example :
  fx_128b_halves (Build_fxfmt 64 64 true) (-1 # 2) = (-1, 2 ^ 63) /\
  fx_c_bit_size (Build_fxfmt 5 12 false) = Some 32.
Proof. split; vm_compute; reflexivity. Qed.

Print Assumptions fx_bounds.
Print Assumptions fx_encode_correct.
Print Assumptions fx_encode_domain.
Print Assumptions fx_encode_fits.
Print Assumptions fx_decode_encode_partial.
Print Assumptions fx_signed_round_trip_refuted.
Print Assumptions fx_wide_round_trip_refuted.
Print Assumptions fx_round_grid.
Print Assumptions fx_round_nearest.
Print Assumptions fx_round_directed.
Print Assumptions fx_truncate_wraps.
Print Assumptions fx_truncate_in_range.
Print Assumptions fx_truncate_below_refuted.
Print Assumptions fx_saturate_correct.
Print Assumptions fx_c_constants.
Print Assumptions fx_c_bit_size_minimal.
