(* The reciprocal unit on binary32 words: accuracy, correct rounding and its exceptions, the
   inputs and outputs out of the normal range, and binary64. *)
From Coq Require Import ZArith QArith Qabs Qround Lia Lqa Bool List.
From Verif Require Import QUtil FixedModel FixedSpec FpFormatModel FpFormatSpec FpFormatProofs FpFormatProofs2 AdderModel AdderProofs3
  LlvmProofs RtlFixedModel RtlFixedProps RecipModel RecipProofs RecipProofs2.
Import ListNotations.
Open Scope Z_scope.

Lemma inj_pos : forall a, 0 < a -> (0 < inject_Z a)%Q.
Proof. intros. change 0%Q with (inject_Z 0). rewrite <- Zlt_Qlt. auto. Qed.

Lemma value_scaled : forall E M, (p2 (E - ieee_bias F32) * (1 + inject_Z M * p2 (- fsz F32)) == inject_Z (2 ^ 23 + M) * p2 (E - 150))%Q.
Proof.
  intros E M. change (ieee_bias F32) with 127. change (- fsz F32) with (-23).
  replace (E - 127) with (E - 150 + 23) by lia. rewrite p2_plus, inject_Z_plus.
  assert (A : (p2 23 * p2 (-23) == 1)%Q) by (rewrite <- p2_plus; reflexivity).
  rewrite <- (p2_Z 23) by lia.
  transitivity (p2 (E - 150) * (p2 23 + inject_Z M * (p2 23 * p2 (-23))))%Q; [ring|]. rewrite A. ring.
Qed.

(* the inverse of the scaled number *)
Lemma inverse_scaled : forall X E, 0 < X ->
  (/ (inject_Z X * p2 (E - 150)) == inject_Z (2 ^ 47) / inject_Z X * p2 (103 - E))%Q.
Proof.
  intros X E H. pose proof (inj_pos X H) as HX. pose proof (p2_pos (E - 150)) as HP.
  rewrite <- (p2_Z 47) by lia.
  assert (A : (p2 47 * p2 (103 - E) * p2 (E - 150) == 1)%Q).
  { rewrite <- !p2_plus. replace (47 + (103 - E) + (E - 150)) with 0 by lia. apply p2_0. }
  apply (Qmult_inj_r _ _ (inject_Z X * p2 (E - 150))); [nra|].
  rewrite Qmult_comm, Qmult_inv_r by nra.
  transitivity (p2 47 * p2 (103 - E) * p2 (E - 150))%Q; [symmetry; exact A|]. field. lra.
Qed.

Definition sgnq (s : bool) : Q := (if s then -1 else 1)%Q.
Lemma sgnq_inv : forall s a, ~ (a == 0)%Q -> (/ (sgnq s * a) == sgnq s * / a)%Q.
Proof. intros [|] a H; unfold sgnq; field; auto. Qed.
Lemma sgnq_abs : forall s a b, (Qabs (sgnq s * a - sgnq s * b) == Qabs (a - b))%Q.
Proof.
  intros [|] a b; unfold sgnq.
  - rewrite Qabs_Qminus. apply Qabs_wd. ring.
  - apply Qabs_wd. ring.
Qed.

Section Statement.
Variables (w : Z) (s : bool) (E M : Z) (x : Q).
Hypothesis HF : has_fields F32 w s E M.
Hypothesis HX : ieee_datum F32 s E M (Num x).
Hypothesis HE : E <> 0.

Lemma x_scaled : (x == sgnq s * (inject_Z (2 ^ 23 + M) * p2 (E - 150)))%Q.
Proof.
  inversion HX as [| | | | | |s0 E0 M0 q HN V|s0 M0 q]; subst; [|lia].
  rewrite V. rewrite <- Qmult_assoc, value_scaled. destruct s; unfold sgnq; ring.
Qed.
Lemma m_nonneg : 0 <= M < 2 ^ 23.
Proof. destruct HF as (_ & _ & B). exact B. Qed.
Lemma inv_x : (/ x == sgnq s * (inject_Z (2 ^ 47) / inject_Z (2 ^ 23 + M) * p2 (103 - E)))%Q.
Proof.
  pose proof m_nonneg. pose proof (inj_pos (2 ^ 23 + M) ltac:(lia)). pose proof (p2_pos (E - 150)).
  rewrite x_scaled, sgnq_inv by nra. rewrite inverse_scaled by lia. reflexivity.
Qed.
End Statement.

(* ---- powers of two ---- *)
Lemma y4_one : y4 (2 ^ 23) = 2 ^ 48.
Proof. vm_compute. reflexivity. Qed.

Lemma power_word : forall w s E, has_fields F32 w s E 0 -> E <> 0 ->
  has_fields F32 (reciprocal F32 w) s ((254 - E) mod 256) 0.
Proof.
  intros w s E HF HE. destruct (fields32 w s E 0 HF) as (A & B & C).
  destruct HF as (_ & RE & _). change (2 ^ esz F32) with 256 in RE.
  assert (RR : 0 <= (254 - E) mod 256 < 256) by (apply Z.mod_pos_bound; lia).
  split; [|split; [exact RR|cbn; lia]].
  unfold reciprocal. rewrite A, B, C. destruct (Z.eqb_spec E 0); [lia|]. rewrite (Z.add_0_r (2 ^ 23)).
  change (msz F32) with 24. change (approximation F32) with (approximation ML_Binary32).
  rewrite (approximation_int (2 ^ 23)) by lia. rewrite y4_one.
  assert (X : rc_exp F32 E (2 ^ 48) = (254 - E) mod 256).
  { unfold rc_exp. change (not_decrement F32 (2 ^ 48)) with true. cbn iota. change (-2 * bias F32) with 254.
    change (2 ^ (esz F32 + 2)) with 1024. change (2 ^ esz F32) with 256.
    rewrite Z.add_0_r, Z.mod_mod by lia. symmetry. apply Znumtheory.Zmod_div_mod; [lia|lia|]. exists 4. lia. }
  rewrite X. change (rc_field F32 (2 ^ 48)) with 0. change (rc_incr F32 (2 ^ 48)) with 0. rewrite !Z.add_0_r.
  rewrite Z.mod_small; [reflexivity|]. change (2 ^ (esz F32 + fsz F32)) with (256 * 2 ^ 23). change (2 ^ fsz F32) with (2 ^ 23). lia.
Qed.

Lemma normal_datum : forall s E M, 0 < E < 255 -> ieee_datum F32 s E M (Num (sgnq s * (inject_Z (2 ^ 23 + M) * p2 (E - 150)))).
Proof.
  intros s E M H. apply d_normal; [exact H|]. rewrite <- value_scaled. destruct s; unfold sgnq; ring.
Qed.

(* half a unit in the last place of the result and 2^-22 of a unit *)
Theorem reciprocal_accurate : forall w s E M x, has_fields F32 w s E M -> 1 <= E <= 252 ->
  ieee_datum F32 s E M (Num x) ->
  exists E' M' r, has_fields F32 (reciprocal F32 w) s E' M' /\ 1 <= E' <= 253 /\ ieee_datum F32 s E' M' (Num r) /\
    (Qabs (r - / x) <= ((1 # 2) + p2 (-22)) * p2 (E' - 150))%Q.
Proof.
  intros w s E M x HF HE HX. pose proof (m_nonneg w s E M HF) as BM.
  pose proof (inv_x w s E M x HF HX ltac:(lia)) as IX.
  assert (P22 : (0 < p2 (-22))%Q) by apply p2_pos.
  destruct (Z.eq_dec M 0) as [->|HM].
  - exists (254 - E), 0, (sgnq s * (inject_Z (2 ^ 23 + 0) * p2 (254 - E - 150)))%Q.
    pose proof (power_word w s E HF ltac:(lia)) as PW. rewrite Z.mod_small in PW by lia.
    split; [exact PW|]. split; [lia|]. split; [apply normal_datum; lia|].
    pose proof (p2_pos (254 - E - 150)).
    assert (Z0 : (sgnq s * (inject_Z (2 ^ 23 + 0) * p2 (254 - E - 150)) - / x == 0)%Q).
    { rewrite IX. rewrite Z.add_0_r. rewrite <- (p2_Z 23), <- (p2_Z 47) by lia.
      assert (p2 47 / p2 23 == p2 24)%Q as -> by reflexivity.
      rewrite <- !p2_plus. replace (24 + (103 - E)) with (23 + (254 - E - 150)) by lia. ring. }
    rewrite Z0. change (Qabs 0) with 0%Q. nra.
  - exists (253 - E), (sig M - 2 ^ 23), (sgnq s * (inject_Z (2 ^ 23 + (sig M - 2 ^ 23)) * p2 (253 - E - 150)))%Q.
    pose proof (result_fields w s E M HF ltac:(lia) HM) as RF. rewrite Z.mod_small in RF by lia.
    split; [exact RF|]. split; [lia|]. split; [apply normal_datum; lia|].
    rewrite IX, sgnq_abs. replace (253 - E - 150) with (103 - E) by lia.
    replace (2 ^ 23 + (sig M - 2 ^ 23)) with (sig M) by lia.
    assert (Z1 : (inject_Z (sig M) * p2 (103 - E) - inject_Z (2 ^ 47) / inject_Z (2 ^ 23 + M) * p2 (103 - E)
      == (inject_Z (sig M) - inject_Z (2 ^ 47) / inject_Z (2 ^ 23 + M)) * p2 (103 - E))%Q) by ring.
    rewrite Z1, Qabs_Qmult. pose proof (p2_pos (103 - E)) as PP. rewrite (Qabs_pos (p2 (103 - E))) by lra.
    apply Qmult_le_compat_r; [|lra].
    pose proof (sig_error w s E M HF HM) as SE. pose proof (inj_pos (2 ^ 23 + M) ltac:(lia)) as PX.
    assert (Z2 : (inject_Z (sig M) - inject_Z (2 ^ 47) / inject_Z (2 ^ 23 + M) ==
       inject_Z (sig M * (2 ^ 23 + M) - 2 ^ 47) / inject_Z (2 ^ 23 + M))%Q).
    { rewrite inject_Z_sub, inject_Z_mult. field. lra. }
    rewrite Z2. unfold Qdiv. rewrite Qabs_Qmult.
    rewrite (Qabs_pos (/ _)) by (apply Qlt_le_weak, Qinv_lt_0_compat; auto).
    apply Qle_shift_div_r; [auto|].
    rewrite Zle_Qle, !inject_Z_mult in SE.
    change (Qabs (inject_Z (sig M * (2 ^ 23 + M) - 2 ^ 47))) with (inject_Z (Z.abs (sig M * (2 ^ 23 + M) - 2 ^ 47))).
    change (inject_Z (2 ^ 25)) with 33554432%Q in SE. change (inject_Z (2 ^ 24 + 8)) with 16777224%Q in SE.
    change (p2 (-22)) with (1 # 4194304)%Q. lra.
Qed.
Example reciprocal_accurate_ex : has_fields F32 0x40400000 false 128 4194304 /\ reciprocal F32 0x40400000 = 0x3eaaaaab.
Proof. split; [split; [reflexivity|split; vm_compute; split; congruence]|]. vm_compute. reflexivity. Qed.

(* correct rounding: always, but when 1/x is above the middle of two numbers by no more than
   six 2^-48 *)
Definition clear_of_middle (M : Z) : Prop :=
  M = 0 \/ Z.even (2 ^ 48 / (2 ^ 23 + M)) = true \/ 6 < 2 ^ 48 mod (2 ^ 23 + M).

Lemma round_inv : forall s X N E v, 2 ^ 23 < X < 2 ^ 24 -> 1 <= E <= 252 ->
  (v == sgnq s * (inject_Z (2 ^ 47) / inject_Z X * p2 (103 - E)))%Q ->
  2 * Z.abs (N * X - 2 ^ 47) < X -> 2 ^ 23 <= N < 2 ^ 24 ->
  exists r, sollya_round F32 v = Some r /\ (r == sgnq s * (inject_Z N * p2 (103 - E)))%Q.
Proof.
  intros s X N E v BX BE EV HN BN. pose proof (inj_pos X ltac:(lia)) as PX. pose proof (p2_pos (103 - E)) as PP.
  set (g := (inject_Z (2 ^ 47) / inject_Z X)%Q) in *.
  assert (G1 : (p2 23 <= g)%Q).
  { rewrite p2_Z by lia. unfold g. apply Qle_shift_div_l; auto. rewrite <- inject_Z_mult, <- Zle_Qle. lia. }
  assert (G2 : (g < p2 24)%Q).
  { rewrite p2_Z by lia. unfold g. apply Qlt_shift_div_r; auto. rewrite <- inject_Z_mult, <- Zlt_Qlt. lia. }
  pose proof (p2_pos 23) as P23.
  assert (AV : (Qabs v == g * p2 (103 - E))%Q).
  { rewrite EV. rewrite Qabs_Qmult. rewrite (Qabs_pos (g * _)) by nra. destruct s; unfold sgnq; [change (Qabs (-1)) with 1%Q|change (Qabs 1) with 1%Q]; ring. }
  assert (NZ : Qeq_bool v 0 = false).
  { apply not_true_is_false. intro Q. apply Qeq_bool_iff in Q. rewrite Q in AV. change (Qabs 0) with 0%Q in AV. nra. }
  assert (LG : qlog2 (Qabs v) = 126 - E).
  { apply qlog2_unique; rewrite AV.
    - replace (126 - E) with (23 + (103 - E)) by lia. rewrite p2_plus. apply Qmult_le_compat_r; lra.
    - replace (126 - E + 1) with (24 + (103 - E)) by lia. rewrite p2_plus. apply Qmult_lt_compat_r; lra. }
  unfold sollya_round. rewrite NZ, LG. change (emin_normal F32) with (-126). change (sprec F32 - 1) with 23.
  rewrite Z.max_l by lia. replace (126 - E - 23) with (103 - E) by lia.
  assert (DV : (v / p2 (103 - E) == sgnq s * g)%Q) by (rewrite EV; field; lra).
  assert (RG : qrne g = N).
  { apply qrne_close. unfold g.
    assert (Z2 : (inject_Z (2 ^ 47) / inject_Z X - inject_Z N == - (inject_Z (N * X - 2 ^ 47) / inject_Z X))%Q).
    { rewrite inject_Z_sub, inject_Z_mult. field. lra. }
    rewrite Z2, Qabs_opp. unfold Qdiv. rewrite Qabs_Qmult, (Qabs_pos (/ _)) by (apply Qlt_le_weak, Qinv_lt_0_compat; auto).
    apply Qlt_shift_div_r; auto. rewrite Zlt_Qlt, inject_Z_mult in HN.
    change (Qabs (inject_Z (N * X - 2 ^ 47))) with (inject_Z (Z.abs (N * X - 2 ^ 47))). change (inject_Z 2) with 2%Q in HN. lra. }
  assert (RV : (inject_Z (qrne (v / p2 (103 - E))) == sgnq s * inject_Z N)%Q).
  { rewrite (qrne_comp _ _ DV). destruct s; unfold sgnq.
    - rewrite (qrne_comp (-1 * g) (- g)) by ring. rewrite qrne_opp, RG, inject_Z_opp. ring.
    - rewrite (qrne_comp (1 * g) g) by ring. rewrite RG. ring. }
  assert (OV : Qle_bool (p2 (emax F32 + 1)) (Qabs (inject_Z (qrne (v / p2 (103 - E))) * p2 (103 - E))) = false).
  { apply not_true_is_false. intro Q. apply Qle_bool_iff in Q. change (emax F32 + 1) with 128 in Q.
    rewrite RV, !Qabs_Qmult in Q. assert (S1 : (Qabs (sgnq s) == 1)%Q) by (destruct s; reflexivity). rewrite S1 in Q.
    rewrite (Qabs_pos (p2 (103 - E))) in Q by lra.
    assert (IN : (0 <= inject_Z N)%Q) by (apply Qlt_le_weak, inj_pos; lia). rewrite (Qabs_pos (inject_Z N)) in Q by auto.
    assert (LN : (inject_Z N < p2 24)%Q) by (rewrite p2_Z by lia; rewrite <- Zlt_Qlt; lia).
    assert (p2 (24 + (103 - E)) <= p2 128)%Q by (apply p2_le; lia). rewrite p2_plus in *. nra. }
  rewrite OV. eexists. split; [reflexivity|]. rewrite RV. ring.
Qed.

Theorem reciprocal_correctly_rounded_partial : forall w s E M x, has_fields F32 w s E M -> 1 <= E <= 252 ->
  ieee_datum F32 s E M (Num x) -> clear_of_middle M ->
  exists E' M' r r', has_fields F32 (reciprocal F32 w) s E' M' /\ ieee_datum F32 s E' M' (Num r) /\
    sollya_round F32 (/ x) = Some r' /\ (r' == r)%Q.
Proof.
  intros w s E M x HF HE HX HC. pose proof (m_nonneg w s E M HF) as BM.
  pose proof (inv_x w s E M x HF HX ltac:(lia)) as IX.
  destruct (Z.eq_dec M 0) as [->|HM].
  - pose proof (power_word w s E HF ltac:(lia)) as PW. rewrite Z.mod_small in PW by lia.
    pose proof (normal_datum s (254 - E) 0 ltac:(lia)) as ND.
    assert (EQ : (/ x == sgnq s * (inject_Z (2 ^ 23 + 0) * p2 (254 - E - 150)))%Q).
    { rewrite IX. rewrite Z.add_0_r. rewrite <- (p2_Z 23), <- (p2_Z 47) by lia.
      assert (p2 47 / p2 23 == p2 24)%Q as -> by reflexivity.
      rewrite <- !p2_plus. replace (24 + (103 - E)) with (23 + (254 - E - 150)) by lia. ring. }
    destruct (round_id F32 ltac:(split; cbn; lia) ltac:(reflexivity) (/ x)%Q) as (r' & R1 & R2).
    { exists ((if s then -1 else 1) * 2 ^ 23), (254 - E - 150). split; [destruct s; cbn; lia|]. split; [change (-149 <= 254 - E - 150 <= 104); lia|].
      rewrite EQ, Z.add_0_r. destruct s; unfold sgnq; rewrite inject_Z_mult; [change (inject_Z (-1)) with (-1)%Q|change (inject_Z 1) with 1%Q]; ring. }
    exists (254 - E), 0, (sgnq s * (inject_Z (2 ^ 23 + 0) * p2 (254 - E - 150)))%Q, r'.
    split; [exact PW|]. split; [exact ND|]. split; [exact R1|]. rewrite R2. exact EQ.
  - pose proof (result_fields w s E M HF ltac:(lia) HM) as RF. rewrite Z.mod_small in RF by lia.
    pose proof (normal_datum s (253 - E) (sig M - 2 ^ 23) ltac:(lia)) as ND.
    assert (BS : 2 * Z.abs (sig M * (2 ^ 23 + M) - 2 ^ 47) < 2 ^ 23 + M).
    { destruct (Z.even (2 ^ 48 / (2 ^ 23 + M))) eqn:Ev.
      - destruct (sig_even w s E M HF HM Ev) as [S1 S2]. rewrite S1. lia.
      - destruct HC as [|[|HC]]; [lia|congruence|]. destruct (sig_odd w s E M HF HM Ev HC) as [S1 S2]. rewrite S1. lia. }
    destruct (round_inv s (2 ^ 23 + M) (sig M) E (/ x)%Q ltac:(lia) HE IX BS (sig_range w s E M HF HM)) as (r' & R1 & R2).
    exists (253 - E), (sig M - 2 ^ 23), (sgnq s * (inject_Z (2 ^ 23 + (sig M - 2 ^ 23)) * p2 (253 - E - 150)))%Q, r'.
    split; [exact RF|]. split; [exact ND|]. split; [exact R1|]. rewrite R2.
    replace (2 ^ 23 + (sig M - 2 ^ 23)) with (sig M) by lia. replace (253 - E - 150) with (103 - E) by lia. reflexivity.
Qed.
Example clear_of_middle_ex : clear_of_middle 4194304 /\ clear_of_middle 1 /\ ~ clear_of_middle 8388607 /\ ~ clear_of_middle 432403.
Proof.
  unfold clear_of_middle. split; [|split; [|split]].
  - right. right. vm_compute. reflexivity.
  - right. left. vm_compute. reflexivity.
  - intros [H|[H|H]]; vm_compute in H; discriminate.
  - intros [H|[H|H]]; vm_compute in H; discriminate.
Qed.

(* significands X dividing 2^48 - 1 with a quotient of the form 4k+1: always the wrong number *)
Theorem reciprocal_misrounded_refuted : forall w s E M x m, has_fields F32 w s E M -> 1 <= E <= 252 ->
  ieee_datum F32 s E M (Num x) -> M <> 0 -> (2 ^ 23 + M) * m = 2 ^ 48 - 1 -> m mod 4 = 1 ->
  exists E' M' r r', has_fields F32 (reciprocal F32 w) s E' M' /\ ieee_datum F32 s E' M' (Num r) /\
    sollya_round F32 (/ x) = Some r' /\ ~ (r' == r)%Q.
Proof.
  intros w s E M x m HF HE HX HM Q H4. pose proof (m_nonneg w s E M HF) as BM.
  pose proof (inv_x w s E M x HF HX ltac:(lia)) as IX.
  pose proof (result_fields w s E M HF ltac:(lia) HM) as RF. rewrite Z.mod_small in RF by lia.
  pose proof (normal_datum s (253 - E) (sig M - 2 ^ 23) ltac:(lia)) as ND.
  pose proof (sig_wrong w s E M HF HM m Q H4) as SW.
  assert (2 ^ 24 <= m) by nia. assert (m < 2 ^ 25 - 3) by nia.
  assert (Q2 : (sig M + 1) * (2 ^ 23 + M) * 2 = 2 ^ 48 - 1 + (2 ^ 23 + M)) by nia.
  destruct (round_inv s (2 ^ 23 + M) (sig M + 1) E (/ x)%Q ltac:(lia) HE IX ltac:(lia) ltac:(lia)) as (r' & R1 & R2).
  exists (253 - E), (sig M - 2 ^ 23), (sgnq s * (inject_Z (2 ^ 23 + (sig M - 2 ^ 23)) * p2 (253 - E - 150)))%Q, r'.
  split; [exact RF|]. split; [exact ND|]. split; [exact R1|]. rewrite R2.
  replace (2 ^ 23 + (sig M - 2 ^ 23)) with (sig M) by lia. replace (253 - E - 150) with (103 - E) by lia.
  rewrite inject_Z_plus. change (inject_Z 1) with 1%Q. pose proof (p2_pos (103 - E)). intro C. destruct s; unfold sgnq in C; lra.
Qed.
Example reciprocal_misrounded_ex : (2 ^ 23 + 8388607) * 16777217 = 2 ^ 48 - 1 /\ 16777217 mod 4 = 1 /\
  (2 ^ 23 + 432403) * 31909605 = 2 ^ 48 - 1 /\ 31909605 mod 4 = 1 /\
  reciprocal F32 0x3fffffff = 0x3f000000.
Proof. split; [reflexivity|]. split; [reflexivity|]. split; [reflexivity|]. split; [reflexivity|]. vm_compute. reflexivity. Qed.

(* ---- out of the normal range ---- *)
(* 2^126 < |x| < 2^127: the subnormal result is the significand without its leading digit *)
Theorem reciprocal_subnormal_result_refuted : forall w s M x, has_fields F32 w s 253 M -> M <> 0 ->
  ieee_datum F32 s 253 M (Num x) ->
  exists M', has_fields F32 (reciprocal F32 w) s 0 M' /\
    (Qabs (inject_Z M' * p2 (-149) - (2 * Qabs (/ x) - p2 (-126))) <= p2 (-149))%Q.
Proof.
  intros w s M x HF HM HX. pose proof (m_nonneg w s 253 M HF) as BM.
  pose proof (inv_x w s 253 M x HF HX ltac:(lia)) as IX.
  pose proof (result_fields w s 253 M HF ltac:(lia) HM) as RF. change ((253 - 253) mod 256) with 0 in RF.
  exists (sig M - 2 ^ 23). split; [exact RF|]. pose proof (inj_pos (2 ^ 23 + M) ltac:(lia)) as PX.
  set (g := (inject_Z (2 ^ 47) / inject_Z (2 ^ 23 + M))%Q) in *.
  assert (PG : (0 <= g)%Q) by (unfold g; apply Qle_shift_div_l; auto; rewrite Qmult_0_l; apply Qlt_le_weak; apply inj_pos; lia).
  assert (AX : (Qabs (/ x) == g * p2 (-150))%Q).
  { rewrite IX, Qabs_Qmult. change (103 - 253) with (-150). rewrite (Qabs_pos (g * p2 (-150))) by (pose proof (p2_pos (-150)); nra).
    destruct s; unfold sgnq; [change (Qabs (-1)) with 1%Q|change (Qabs 1) with 1%Q]; ring. }
  rewrite AX. pose proof (p2_pos (-149)) as P149.
  assert (A1 : (2 * (g * p2 (-150)) == g * p2 (-149))%Q) by (rewrite (p2_succ (-150) : (p2 (-149) == _)%Q); ring).
  assert (A2 : (p2 (-126) == inject_Z (2 ^ 23) * p2 (-149))%Q) by (rewrite <- (p2_Z 23), <- p2_plus by lia; reflexivity).
  rewrite A1, A2, inject_Z_sub.
  assert (A3 : ((inject_Z (sig M) - inject_Z (2 ^ 23)) * p2 (-149) - (g * p2 (-149) - inject_Z (2 ^ 23) * p2 (-149)) ==
    (inject_Z (sig M) - g) * p2 (-149))%Q) by ring.
  rewrite A3, Qabs_Qmult, (Qabs_pos (p2 (-149))) by lra.
  assert (A4 : (Qabs (inject_Z (sig M) - g) <= 1)%Q).
  { pose proof (sig_error w s 253 M HF HM) as SE.
    assert (Z2 : (inject_Z (sig M) - g == inject_Z (sig M * (2 ^ 23 + M) - 2 ^ 47) / inject_Z (2 ^ 23 + M))%Q).
    { unfold g. rewrite inject_Z_sub, inject_Z_mult. field. lra. }
    rewrite Z2. unfold Qdiv. rewrite Qabs_Qmult, (Qabs_pos (/ _)) by (apply Qlt_le_weak, Qinv_lt_0_compat; auto).
    apply Qle_shift_div_r; [auto|]. rewrite Qmult_1_l.
    change (Qabs (inject_Z (sig M * (2 ^ 23 + M) - 2 ^ 47))) with (inject_Z (Z.abs (sig M * (2 ^ 23 + M) - 2 ^ 47))).
    rewrite <- Zle_Qle. lia. }
  nra.
Qed.
(* 2^127 < |x|: infinity or NaN, where 1/x is a subnormal number *)
Theorem reciprocal_huge_refuted : forall w s M, has_fields F32 w s 254 M -> M <> 0 ->
  exists M', has_fields F32 (reciprocal F32 w) s 255 M'.
Proof.
  intros w s M HF HM. exists (sig M - 2 ^ 23). exact (result_fields w s 254 M HF ltac:(lia) HM).
Qed.
(* 2^127 itself: flushed to zero *)
Theorem reciprocal_2p127_refuted : forall w s, has_fields F32 w s 254 0 -> has_fields F32 (reciprocal F32 w) s 0 0.
Proof. intros w s HF. exact (power_word w s 254 HF ltac:(lia)). Qed.
(* infinities stay, instead of becoming zeros *)
Theorem reciprocal_infinity_refuted : forall w s, has_fields F32 w s 255 0 -> has_fields F32 (reciprocal F32 w) s 255 0.
Proof. intros w s HF. exact (power_word w s 255 HF ltac:(lia)). Qed.
(* a NaN becomes a number *)
Theorem reciprocal_nan_refuted : forall w s M, has_fields F32 w s 255 M -> M <> 0 ->
  exists M' r, has_fields F32 (reciprocal F32 w) s 254 M' /\ ieee_datum F32 s 254 M' (Num r).
Proof.
  intros w s M HF HM. exists (sig M - 2 ^ 23). eexists. split; [exact (result_fields w s 255 M HF ltac:(lia) HM)|].
  apply normal_datum. lia.
Qed.
(* zeros become 2^127 with their sign *)
Theorem reciprocal_zero_refuted : reciprocal F32 0 = 254 * 2 ^ 23 /\ reciprocal F32 (2 ^ 31) = 2 ^ 31 + 254 * 2 ^ 23.
Proof. vm_compute. auto. Qed.
(* subnormal inputs: 2^-127, with inverse 2^127, gives 1.38 * 2^126; 2^-149 gives a number
   although its inverse exceeds every number *)
Theorem reciprocal_subnormal_refuted : reciprocal F32 0x400000 = 0x7eb0dc47 /\ reciprocal F32 1 = 0x7efffffc /\
  sollya_round F32 (/ p2 (-149)) = None.
Proof. vm_compute. auto. Qed.
(* binary64: the error of the last iteration overflows its format, 2 - 2^-52 gives nearly 1 *)
Theorem reciprocal_binary64_refuted : reciprocal ML_Binary64 0x3fffffffffffffff = 0x3fefffffffff0000 /\
  num_coding ML_Binary64 (/ (2 - p2 (-52))) = Some 0x3fe0000000000001.
Proof. split; vm_compute; reflexivity. Qed.

(* in any format the sign is the one of the input *)
Theorem reciprocal_sign : forall F w, fmt_ok F -> hw_sign F (reciprocal F w) = hw_sign F w.
Proof.
  intros F w [He Hf]. unfold reciprocal.
  set (t := (_ + rc_incr F _) mod 2 ^ (esz F + fsz F)). pose proof (Z.pow_pos_nonneg 2 (esz F + fsz F) ltac:(lia) ltac:(lia)) as P.
  assert (B : 0 <= t < 2 ^ (esz F + fsz F)) by (apply Z.mod_pos_bound; lia). clearbody t.
  unfold hw_sign at 1. rewrite Z.testbit_eqb by lia. rewrite (Z.add_comm (fsz F) (esz F)).
  destruct (hw_sign F w).
  - replace ((2 ^ (esz F + fsz F) + t) / 2 ^ (esz F + fsz F)) with 1; [reflexivity|]. apply (Z.div_unique_pos _ _ _ t); lia.
  - rewrite Z.div_small by lia. reflexivity.
Qed.
Example reciprocal_sign_ex : reciprocal F32 0xc0400000 = 0xbeaaaaab.
Proof. vm_compute. reflexivity. Qed.

Print Assumptions reciprocal_accurate.
Print Assumptions reciprocal_correctly_rounded_partial.
Print Assumptions reciprocal_misrounded_refuted.
