(* The argument reduction of the exponential: exactness and accuracy. *)
From Coq Require Import ZArith QArith Qabs Qround Lia Reals Qreals Lra.
From Verif Require Import QUtil RoundSpec RoundProofs RoundRne RealLn2 RealUtil ExpModel.
Open Scope Z_scope.

Section Reduce.
Variables (p m em : Z) (rnd : Q -> Q) (c : exp_cst).
Let F := mkF p (Some em).
Hypothesis Hr : nearest_in F rnd.
Let hp := p - m - 3.
Hypothesis Hm : 1 <= m.
Hypothesis Hp : 2 * m + 8 <= p.
Hypothesis Hp24 : 24 <= p.
Hypothesis Hem : em <= - 2 * p - 10.
Hypothesis Hil : nearestR F (invlog2 c) (/ ln 2).
Hypothesis Hhi : nearestR (mkF hp None) (log2_hi c) (ln 2).
Hypothesis Hlo : nearestR F (log2_lo c) (ln 2 - Q2R (log2_hi c)).

Let Hp1 : 1 <= prec F. Proof. cbn [F prec]. lia. Qed.

Ltac expok := unfold exp_ok, F; cbn [emin]; unfold hp; lia.
Local Open Scope R_scope.



Lemma il_err : Rabs (Q2R (invlog2 c) - / ln 2) <= Q2R (p2 (- p)).
Proof.
  destruct ln2_num_bounds as [A B].
  assert (I : 0 < / ln 2 <= 1.45).
  { split; [apply Rinv_0_lt_compat; lra|]. apply Rmult_le_reg_r with (ln 2); [lra|]. rewrite Rinv_l by (apply Rgt_not_eq; lra). lra. }
  replace (- p)%Z with ((1 - p) - 1)%Z by lia.
  apply (nearestR_half F (1 - p) _ _ Hp1 Hil); [expok|].
  cbn [F prec]. replace (p + (1 - p))%Z with 1%Z by lia. rewrite (p2R_Z 1) by lia. change (IZR (2 ^ 1)) with 2.
  rewrite Rabs_pos_eq; lra.
Qed.

Lemma hi_err : Rabs (Q2R (log2_hi c) - ln 2) <= Q2R (p2 (- hp - 1)).
Proof.
  destruct ln2_num_bounds as [A B].
  apply (nearestR_half (mkF hp None) (- hp) _ _); [cbn; unfold hp; lia|exact Hhi|exact I|].
  cbn [prec]. replace (hp + - hp)%Z with 0%Z by lia. rewrite p2R_0. rewrite Rabs_pos_eq; lra.
Qed.

Lemma lo_err : Rabs (Q2R (log2_lo c) - (ln 2 - Q2R (log2_hi c))) <= Q2R (p2 (- hp - p - 2)).
Proof.
  replace (- hp - p - 2)%Z with ((- hp - p - 1) - 1)%Z by lia.
  apply (nearestR_half F _ _ _ Hp1 Hlo); [expok|].
  cbn [F prec]. replace (p + (- hp - p - 1))%Z with (- hp - 1)%Z by lia.
  rewrite Rabs_minus_sym. apply hi_err.
Qed.

Lemma hp_small : 0 < Q2R (p2 (- hp - 1)) <= / 128.
Proof.
  split; [apply p2R_pos|]. apply Rle_trans with (Q2R (p2 (-7))); [apply p2R_le; unfold hp; lia|].
  assert (E : Q2R (p2 (-7)) * Q2R (p2 7) = 1) by (rewrite <- p2R_plus; apply p2R_0).
  rewrite (p2R_Z 7) in E by lia. change (2 ^ 7)%Z with 128%Z in E. lra.
Qed.

Lemma hi_num : 0.685 <= Q2R (log2_hi c) <= 0.702.
Proof.
  pose proof ln2_num_bounds. pose proof hi_err as E. apply Rabs_le_inv in E. pose proof hp_small. lra.
Qed.

Lemma lo_num : Rabs (Q2R (log2_lo c)) <= Q2R (p2 (- hp - 1)).
Proof.
  (* 2^(-hp-1) and its opposite are numbers of the format *)
  assert (I : inF F (p2 (- hp - 1))).
  { exists 1%Z, (- hp - 1)%Z. split; [unfold inject_Z; ring|]. split.
    - cbn [F prec]. assert (1 <= 2 ^ p)%Z by (apply (Z.pow_le_mono_r 2 0); lia). lia.
    - expok. }
  pose proof (inF_opp F Hp1 _ I) as I2. destruct Hlo as [_ N].
  pose proof (N _ I) as N1. pose proof (N _ I2) as N2. rewrite Q2R_opp in N2.
  pose proof hi_err as E. apply Rabs_le_inv in E.
  revert N1 N2. unfold Rabs. repeat destruct (Rcase_abs _); intros; lra.
Qed.

(* the reduced argument never leaves the format: x the argument *)
Variable x : Q.
Hypothesis Hx : inF F x.
Hypothesis Hxb : Rabs (Q2R x * Q2R (invlog2 c)) <= Q2R (p2 m).
Let k := red_k rnd c x.

Lemma k_num : Rabs (IZR k - Q2R x * Q2R (invlog2 c)) <= 1 / 2 + Q2R (p2 (m - p - 1))
  /\ (Z.abs k <= 2 ^ m)%Z.
Proof.
  assert (Bq : (Qabs (x * invlog2 c) <= p2 m)%Q).
  { apply Rle_Qle. rewrite Q2R_abs, Q2R_mult. exact Hxb. }
  assert (Oe : exp_ok F (m - p)) by (expok).
  assert (E : (Qabs (rnd (x * invlog2 c) - x * invlog2 c) <= p2 (m - p - 1))%Q).
  { apply (rnd_half F Hp1 rnd Hr (m - p)); auto. cbn [F prec]. replace (p + (m - p))%Z with m by lia. auto. }
  assert (I : inF F (p2 m)).
  { exists 1%Z, m. split; [unfold inject_Z; ring|]. split.
    - cbn [F prec]. assert (1 <= 2 ^ p)%Z by (apply (Z.pow_le_mono_r 2 0); lia). lia.
    - expok. }
  pose proof (rnd_abs_le_F F Hp1 rnd Hr _ _ I Bq) as B2.
  pose proof (qrne_half (rnd (x * invlog2 c))) as H. fold (red_k rnd c x) in H. fold k in H.
  split.
  - apply Qle_Rle in E, H. rewrite Q2R_abs, Q2R_minus in E, H. rewrite Q2R_mult in E. rewrite Q2R_Z in H.
    replace (Q2R (1 # 2)) with (1 / 2) in H by (unfold Q2R; cbn; lra).
    apply Rabs_le_inv in E, H. apply Rabs_le. lra.
  - rewrite p2_Z in B2 by lia. apply Qabs_le_iff in B2. destruct B2 as [B3 B4]. rewrite <- inject_Z_opp in B3.
    apply qrne_bounds_int_l in B3. apply qrne_bounds_int in B4. unfold k, red_k. lia.
Qed.

Let rho := Q2R x - IZR k * ln 2.

Lemma kR : Rabs (IZR k) <= Q2R (p2 m).
Proof. destruct k_num as [_ H]. rewrite p2R_Z by lia. rewrite <- abs_IZR. apply IZR_le; auto. Qed.

Lemma x_num : Rabs (Q2R x) <= Q2R (p2 m).
Proof.
  pose proof il_err as E. apply Rabs_le_inv in E.
  assert (S : 0 < Q2R (p2 (- p)) <= / 32768) by (apply p2R_small; lia).
  destruct ln2_num_bounds as [A B].
  assert (I : 1.4 < / ln 2).
  { apply Rmult_lt_reg_r with (ln 2); [lra|]. rewrite Rinv_l by (apply Rgt_not_eq; lra). lra. }
  revert Hxb. rewrite Rabs_mult, (Rabs_pos_eq (Q2R (invlog2 c))) by lra. pose proof (Rabs_pos (Q2R x)). nra.
Qed.

Lemma rho_num : Rabs rho <= 0.3467.
Proof.
  destruct k_num as [E _]. pose proof il_err as Ei. pose proof x_num as X. destruct ln2_num_bounds as [A B].
  destruct (p2R_small (m - p - 1) ltac:(lia)) as [S1 S2].
  assert (T : Rabs (Q2R x * Q2R (invlog2 c) - Q2R x * / ln 2) <= Q2R (p2 (m - p))).
  { replace (Q2R x * Q2R (invlog2 c) - Q2R x * / ln 2) with (Q2R x * (Q2R (invlog2 c) - / ln 2)) by ring.
    rewrite Rabs_mult. replace (m - p)%Z with (m + - p)%Z by lia. rewrite p2R_plus.
    apply Rmult_le_compat; auto using Rabs_pos. }
  destruct (p2R_small (m - p) ltac:(lia)) as [S3 S4].
  assert (R : rho = - (ln 2 * (IZR k - Q2R x * / ln 2))) by (unfold rho; field; lra).
  rewrite R, Rabs_Ropp, Rabs_mult, (Rabs_pos_eq (ln 2)) by lra.
  assert (U : Rabs (IZR k - Q2R x * / ln 2) <= 1 / 2 + / 32768 + / 32768).
  { apply Rabs_le_inv in E, T. apply Rabs_le. lra. }
  pose proof (Rabs_pos (IZR k - Q2R x * / ln 2)). nra.
Qed.

Local Open Scope Z_scope.

(* the product by the high part of log 2 is exact *)
Lemma hi_mult : mult (- hp) (log2_hi c).
Proof.
  destruct Hhi as [I _].
  assert (H1 : 1 <= prec (mkF hp None)) by (cbn; unfold hp; lia).
  apply (inF_big (mkF hp None) H1 (- hp) _ I). cbn [prec]. replace (hp + - hp - 1) with (-1) by lia.
  apply Rlt_Qlt. rewrite Q2R_abs. pose proof hi_num. rewrite Rabs_pos_eq by lra.
  replace (Q2R (p2 (-1))) with (1/2)%R by (cbv; lra). lra.
Qed.

Lemma pre_mul_in : inF F (inject_Z k * log2_hi c).
Proof.
  apply (inF_intro F Hp1 (- hp)).
  - destruct hi_mult as [j Hj]. exists (k * j). rewrite Hj, inject_Z_mult. ring.
  - expok.
  - apply Rle_Qle. rewrite Q2R_abs, Q2R_mult, Q2R_Z, Rabs_mult. cbn [F prec].
    apply Rle_trans with (Q2R (p2 m)); [|apply p2R_le; unfold hp; lia].
    pose proof kR. pose proof hi_num. rewrite (Rabs_pos_eq (Q2R (log2_hi c))) by lra.
    pose proof (Rabs_pos (IZR k)). nra.
Qed.

Lemma pre_mul_exact : (exact_pre_mul rnd c k == inject_Z k * log2_hi c)%Q.
Proof. apply (rnd_id F rnd Hr). apply pre_mul_in. Qed.

Lemma khi_num : (Rabs (IZR k * (ln 2 - Q2R (log2_hi c))) <= Q2R (p2 (m - hp - 1)))%R.
Proof.
  rewrite Rabs_mult. replace (m - hp - 1) with (m + (- hp - 1)) by lia. rewrite p2R_plus.
  apply Rmult_le_compat; auto using Rabs_pos, kR. rewrite Rabs_minus_sym. apply hi_err.
Qed.
Lemma mhp_small : (0 < Q2R (p2 (m - hp - 1)) <= / 64)%R.
Proof.
  split; [apply p2R_pos|]. apply Rle_trans with (Q2R (p2 (-6))); [apply p2R_le; unfold hp; lia|].
  assert (E : (Q2R (p2 (-6)) * Q2R (p2 6) = 1)%R) by (rewrite <- p2R_plus; apply p2R_0).
  rewrite (p2R_Z 6) in E by lia. change (2 ^ 6)%Z with 64%Z in E. lra.
Qed.

Lemma hi_val : (Q2R (x - inject_Z k * log2_hi c) = rho + IZR k * (ln 2 - Q2R (log2_hi c)))%R.
Proof. rewrite Q2R_minus, Q2R_mult, Q2R_Z. unfold rho. ring. Qed.

Lemma hi_part_num : (Rabs (Q2R (x - inject_Z k * log2_hi c)) <= 0.3624)%R.
Proof.
  rewrite hi_val. pose proof rho_num as R. pose proof khi_num as K. pose proof mhp_small.
  apply Rabs_le_inv in R, K. apply Rabs_le. lra.
Qed.

(* the subtraction is exact *)
Lemma hi_part_in : inF F (x - inject_Z k * log2_hi c).
Proof.
  destruct (Z.eq_dec k 0) as [K0|K0].
  { apply (inF_comp F x); auto. rewrite K0. unfold inject_Z. ring. }
  (* |x| > 1/4 *)
  assert (X4 : (1 / 4 < Rabs (Q2R x))%R).
  { pose proof rho_num as R. destruct ln2_num_bounds as [A B].
    assert (1 <= Rabs (IZR k))%R by (rewrite <- abs_IZR; apply (IZR_le 1); lia).
    assert (T : (Rabs (IZR k * ln 2) <= Rabs (Q2R x) + Rabs rho)%R).
    { replace (IZR k * ln 2)%R with (Q2R x - rho)%R by (unfold rho; ring).
      eapply Rle_trans; [apply Rabs_triang|]. rewrite Rabs_Ropp. lra. }
    rewrite Rabs_mult, (Rabs_pos_eq (ln 2)) in T by lra. nra. }
  assert (Mx : mult (- p - 1) x).
  { apply (inF_big F Hp1 _ _ Hx). cbn [F prec]. replace (p + (- p - 1) - 1) with (-2) by lia.
    apply Rlt_Qlt. rewrite Q2R_abs. replace (Q2R (p2 (-2))) with (1/4)%R by (cbv; lra). auto. }
  apply (inF_intro F Hp1 (- p - 1)).
  - apply mult_minus; auto. destruct (mult_le (- hp) (- p - 1) _ ltac:(unfold hp; lia) hi_mult) as [j Hj].
    exists (k * j). rewrite Hj, inject_Z_mult. ring.
  - expok.
  - apply Rle_Qle. rewrite Q2R_abs. cbn [F prec]. replace (p + (- p - 1)) with (-1) by lia.
    replace (Q2R (p2 (-1))) with (1/2)%R by (cbv; lra). pose proof hi_part_num. lra.
Qed.

Theorem hi_part_exact : (exact_hi_part rnd c x == x - inject_Z k * log2_hi c)%Q.
Proof.
  unfold exact_hi_part. fold k.
  rewrite (rnd_comp F rnd Hr _ (x - inject_Z k * log2_hi c)%Q).
  - apply (rnd_id F rnd Hr), hi_part_in.
  - rewrite pre_mul_exact. reflexivity.
Qed.

(* ---- accuracy ---- *)
Local Open Scope R_scope.
Let u := Q2R (p2 (- p)).
Lemma u_pos : 0 < u <= / 16000000.
Proof.
  unfold u. split; [apply p2R_pos|]. apply Rle_trans with (Q2R (p2 (-24))); [apply p2R_le; lia|].
  assert (E : Q2R (p2 (-24)) * Q2R (p2 24) = 1) by (rewrite <- p2R_plus; apply p2R_0).
  rewrite (p2R_Z 24) in E by lia. change (2 ^ 24)%Z with 16777216%Z in E. lra.
Qed.
Lemma u_shift : forall j, (0 <= j)%Z -> Q2R (p2 (- p - j)) = u / IZR (2 ^ j).
Proof. intros j H. unfold u. apply p2R_sub; auto. Qed.

(* rounding of a rational of magnitude at most 2^-j *)
Lemma rndR : forall j y, (0 <= j <= p)%Z -> Rabs (Q2R y) <= Q2R (p2 (- j)) ->
  Rabs (Q2R (rnd y) - Q2R y) <= u / IZR (2 ^ (j + 1)).
Proof.
  intros j y Hj Hy. rewrite <- u_shift by lia. rewrite <- Q2R_minus, <- Q2R_abs. apply Qle_Rle.
  replace (- p - (j + 1))%Z with ((- p - j) - 1)%Z by lia. apply (rnd_half F Hp1 rnd Hr).
  - expok.
  - apply Rle_Qle. rewrite Q2R_abs. cbn [F prec]. replace (p + (- p - j))%Z with (- j)%Z by lia. auto.
Qed.

Let hi := exact_hi_part rnd c x.
Let lo := exact_lo_part rnd c x.
Let r := red_r rnd c x.

Lemma klo_num : Rabs (IZR k * Q2R (log2_lo c)) <= / 64.
Proof.
  rewrite Rabs_mult. apply Rle_trans with (Q2R (p2 m) * Q2R (p2 (- hp - 1))).
  - apply Rmult_le_compat; auto using Rabs_pos, kR, lo_num.
  - rewrite <- p2R_plus. replace (m + (- hp - 1))%Z with (m - hp - 1)%Z by lia. apply mhp_small.
Qed.

Lemma lo_val : Rabs (Q2R lo + IZR k * (ln 2 - Q2R (log2_hi c))) <= u / 64 /\ Rabs (Q2R lo) <= 0.0157.
Proof.
  pose proof klo_num as K. pose proof u_pos as U.
  assert (E1 : Rabs (Q2R lo - - (IZR k * Q2R (log2_lo c))) <= u / 128).
  { assert (Q : Q2R (- inject_Z k * log2_lo c)%Q = - (IZR k * Q2R (log2_lo c))) by (rewrite Q2R_mult, Q2R_opp, Q2R_Z; ring).
    rewrite <- Q. apply (rndR 6); [lia|]. rewrite Q, Rabs_Ropp, p2R_neg by lia. exact K. }
  assert (E2 : Rabs (IZR k * Q2R (log2_lo c) - IZR k * (ln 2 - Q2R (log2_hi c))) <= u / 128).
  { replace (IZR k * Q2R (log2_lo c) - IZR k * (ln 2 - Q2R (log2_hi c))) with (IZR k * (Q2R (log2_lo c) - (ln 2 - Q2R (log2_hi c)))) by ring.
    rewrite Rabs_mult. apply Rle_trans with (Q2R (p2 m) * Q2R (p2 (- hp - p - 2))).
    - apply Rmult_le_compat; auto using Rabs_pos, kR, lo_err.
    - rewrite <- p2R_plus. change (u / 128) with (u / IZR (2 ^ 7)). rewrite <- u_shift by lia. apply p2R_le. unfold hp. lia. }
  apply Rabs_le_inv in E1, E2, K. split; apply Rabs_le; lra.
Qed.

Lemma hi_R : Q2R hi = rho + IZR k * (ln 2 - Q2R (log2_hi c)) /\ Rabs (Q2R hi) <= 0.3624.
Proof.
  assert (E : Q2R hi = Q2R (x - inject_Z k * log2_hi c)) by (apply Qeq_eqR, hi_part_exact).
  rewrite E. split; [apply hi_val|apply hi_part_num].
Qed.

Lemma hilo : Rabs (Q2R hi + Q2R lo - rho) <= u / 64.
Proof.
  destruct hi_R as [H _]. destruct lo_val as [L _]. rewrite H. 
  replace (rho + IZR k * (ln 2 - Q2R (log2_hi c)) + Q2R lo - rho) with (Q2R lo + IZR k * (ln 2 - Q2R (log2_hi c))) by ring. auto.
Qed.

(* the reduced argument *)
Theorem r_accurate : Rabs (Q2R r - rho) <= u / 4 + u / 64 /\ Rabs (Q2R r) <= 0.347.
Proof.
  pose proof hilo as H. pose proof rho_num as R. pose proof u_pos as U.
  assert (E : Rabs (Q2R r - (Q2R hi + Q2R lo)) <= u / 4).
  { rewrite <- Q2R_plus. apply (rndR 1); [lia|]. rewrite Q2R_plus, p2R_neg by lia. change (2 ^ 1)%Z with 2%Z.
    apply Rabs_le_inv in H, R. apply Rabs_le. lra. }
  apply Rabs_le_inv in E, H, R. split; apply Rabs_le; lra.
Qed.


(* the value of the sub-polynomial at r *)
Variable s : Q.
Hypothesis Hs : Rabs (Q2R s - exp_rem2 (Q2R r)) <= u / 32.

Let ls := rnd (lo + s).
Let hls := rnd (hi + ls).
Let poly := rnd (1 + hls).

Lemma hls_val : Rabs (Q2R hls - (exp rho - 1)) <= 0.4737 * u.
Proof.
  destruct r_accurate as [R1 R2]. pose proof u_pos as U. pose proof hilo as HL. pose proof rho_num as RN.
  destruct lo_val as [_ LN]. destruct hi_R as [_ HN].
  assert (X : Rabs (exp_rem2 (Q2R r) - exp_rem2 rho) <= 0.43 * (u / 4 + u / 64)).
  { eapply Rle_trans; [apply (exp_rem2_lip 0.43)|].
    - intros t Ht. assert (B : Rabs t <= 0.35).
      { apply Rabs_le_inv in R2, RN. apply Rabs_le. revert Ht. unfold Rmin, Rmax. destruct (Rle_dec _ _); lra. }
      pose proof (exp_num t B). apply Rabs_le. lra.
    - apply Rmult_le_compat_l; [lra|auto]. }
  assert (RN' : Rabs rho <= 0.35) by (eapply Rle_trans; [exact RN|lra]).
  pose proof (exp_num rho RN') as EN.
  assert (EQ : exp_rem2 rho = exp rho - 1 - rho) by reflexivity.
  assert (Q2 : Rabs (exp rho - 1 - rho) <= 0.08).
  { apply Rabs_le_inv in RN.
    assert (P2 : 0 <= rho * rho <= 0.1203) by nra.
    assert (T5 : Rabs (exp rho - expT 8 rho) <= 2 * Rabs rho ^ 8) by (apply exp_taylor; lra).
    assert (A8 : Rabs rho ^ 8 <= 0.3467 ^ 8) by (apply pow_incr; split; [apply Rabs_pos|apply Rabs_le; lra]).
    rewrite expT_8 in T5. cbn [pow] in A8, T5.
    set (z := rho * rho) in *.
    assert (B3 : - 0.0418 <= z * rho <= 0.0418) by nra.
    assert (B4 : 0 <= z * rho * rho <= 0.0145) by (replace (z * rho * rho) with (z * z) by (unfold z; ring); nra).
    assert (B5 : - 0.0051 <= z * rho * rho * rho <= 0.0051) by nra.
    assert (B6 : 0 <= z * rho * rho * rho * rho <= 0.0018) by (replace (z * rho * rho * rho * rho) with (z * rho * (z * rho)) by (unfold z; ring); nra).
    assert (B7 : - 0.00063 <= z * rho * rho * rho * rho * rho <= 0.00063) by nra.
    apply Rabs_le_inv in T5. apply Rabs_le. lra. }
  apply Rabs_le_inv in Hs. apply Rabs_le_inv in X. 
  assert (E4 : Rabs (Q2R ls - (Q2R lo + Q2R s)) <= u / 16).
  { rewrite <- Q2R_plus. apply (rndR 3); [lia|]. rewrite Q2R_plus, p2R_neg by lia. change (2 ^ 3)%Z with 8%Z.
    apply Rabs_le_inv in LN, Q2. apply Rabs_le. lra. }
  assert (E5 : Rabs (Q2R hls - (Q2R hi + Q2R ls)) <= u / 4).
  { rewrite <- Q2R_plus. apply (rndR 1); [lia|]. rewrite Q2R_plus, p2R_neg by lia. change (2 ^ 1)%Z with 2%Z.
    apply Rabs_le_inv in E4, HL. apply Rabs_le. lra. }
  apply Rabs_le_inv in E4, E5, HL. apply Rabs_le. lra.
Qed.

Theorem poly_accurate :
  Rabs (Q2R poly - exp rho) <= 1.4737 * u
  /\ (Q2R poly < 1 \/ exp rho < 1 -> Rabs (Q2R poly - exp rho) <= 0.9737 * u)
  /\ 0.7 <= Q2R poly <= 1.42 /\ 0.7042 <= exp rho <= 1.4196.
Proof.
  pose proof hls_val as H. pose proof u_pos as U. pose proof rho_num as RN.
  assert (RN' : Rabs rho <= 0.35) by (eapply Rle_trans; [exact RN|lra]).
  pose proof (exp_num rho RN') as EN. apply Rabs_le_inv in H.
  assert (Ev : Q2R (1 + hls) = 1 + Q2R hls) by (rewrite Q2R_plus, Q2R_1; ring).
  assert (E6 : Rabs (Q2R poly - (1 + Q2R hls)) <= u).
  { rewrite <- Ev. replace u with (u / IZR (2 ^ (-1 + 1))) by (change (IZR (2 ^ (-1 + 1))) with 1; field).
    rewrite <- Q2R_minus, <- Q2R_abs. change (-1 + 1)%Z with 0%Z. rewrite <- u_shift by lia.
    apply Qle_Rle. replace (- p - 0)%Z with ((1 - p) - 1)%Z by lia. apply (rnd_half F Hp1 rnd Hr); [expok|].
    apply Rle_Qle. rewrite Q2R_abs. cbn [F prec]. replace (p + (1 - p))%Z with 1%Z by lia.
    rewrite Ev, (p2R_Z 1) by lia. change (2 ^ 1)%Z with 2%Z. apply Rabs_le. lra. }
  assert (E7 : 1 + Q2R hls <= 1 -> Rabs (Q2R poly - (1 + Q2R hls)) <= u / 2).
  { intros L. rewrite <- Ev. apply (rndR 0); [lia|]. rewrite Ev. change (- 0)%Z with 0%Z. rewrite p2R_0. apply Rabs_le. lra. }
  assert (I1 : inF F 1).
  { exists 1%Z, 0%Z. split; [reflexivity|]. split; [|expok].
    cbn [F prec]. assert (1 <= 2 ^ p)%Z by (apply (Z.pow_le_mono_r 2 0); lia). lia. }
  assert (E8 : Rabs (Q2R poly - (1 + Q2R hls)) <= Rabs (Q2R hls)).
  { rewrite <- Ev, <- Q2R_minus, <- Q2R_abs, <- Q2R_abs. apply Qle_Rle.
    eapply Qle_trans; [apply (rnd_near F rnd Hr _ 1 I1)|].
    apply Rle_Qle. rewrite !Q2R_abs, Q2R_minus, Q2R_plus, Q2R_1. replace (1 - (1 + Q2R hls)) with (- Q2R hls) by ring.
    rewrite Rabs_Ropp. lra. }
  apply Rabs_le_inv in E6.
  split; [apply Rabs_le; lra|]. split; [|split; lra].
  intros C. destruct (Rle_lt_dec (Q2R hls) 0) as [L|L].
  - assert (E : Rabs (Q2R poly - (1 + Q2R hls)) <= u / 2) by (apply E7; lra). apply Rabs_le_inv in E. apply Rabs_le. lra.
  - rewrite (Rabs_pos_eq (Q2R hls)) in E8 by lra. apply Rabs_le_inv in E8.
    destruct C as [C|C]; [|apply Rabs_le; lra].
    (* the sum exceeds 1 but rounds to at most 1 *)
    assert (G1 : (1 <= poly)%Q).
    { apply (rnd_ge_F F rnd Hr); auto. apply Rle_Qle. rewrite Ev, Q2R_1. lra. }
    apply Qle_Rle in G1. rewrite Q2R_1 in G1. lra.
Qed.
End Reduce.
