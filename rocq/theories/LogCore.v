(* The logarithm: real analysis of the reduction and error of the
   computation, for any constants and polynomial. *)
From Coq Require Import ZArith QArith Qabs Lia Reals Qreals Lra.
From Verif Require Import QUtil FpFormatModel RoundSpec RoundProofs LimbModel LimbBounds LimbTriple RealUtil LogModel LogSpec LogLimb.
Open Scope R_scope.

Lemma ln_le_sub : forall x, 0 < x -> ln x <= x - 1.
Proof.
  intros x Hx. destruct (Rle_lt_dec (ln x) (x - 1)); auto.
  pose proof (exp_ineq1_le (ln x)) as H. rewrite exp_ln in H by auto. lra.
Qed.
Lemma ln_ge_inv : forall x, 0 < x -> 1 - / x <= ln x.
Proof.
  intros x Hx. pose proof (ln_le_sub (/ x) (Rinv_0_lt_compat _ Hx)) as H. rewrite ln_Rinv in H by auto. lra.
Qed.
Lemma ln_lip : forall c a b, 0 < c -> c <= a -> c <= b -> Rabs (ln a - ln b) <= / c * Rabs (a - b).
Proof.
  assert (W : forall c a b, 0 < c -> c <= a -> c <= b -> ln a - ln b <= / c * Rabs (a - b)).
  { intros c a b Hc Ha Hb. pose proof (ln_le_sub (a / b)) as H. assert (0 < a / b) by (apply Rdiv_lt_0_compat; lra).
    specialize (H H0). unfold Rdiv in H. rewrite ln_mult in H; [|lra|apply Rinv_0_lt_compat; lra]. rewrite ln_Rinv in H by lra.
    assert (E : a * / b - 1 = / b * (a - b)) by (field; lra). rewrite E in H.
    assert (/ b <= / c) by (apply Rinv_le_contravar; lra). assert (0 < / b) by (apply Rinv_0_lt_compat; lra).
    pose proof (Rle_abs (a - b)). pose proof (Rabs_pos (a - b)).
    assert (/ b * (a - b) <= / b * Rabs (a - b)) by (apply Rmult_le_compat_l; lra).
    assert (/ b * Rabs (a - b) <= / c * Rabs (a - b)) by (apply Rmult_le_compat_r; lra). lra. }
  intros c a b Hc Ha Hb. pose proof (W c a b Hc Ha Hb). pose proof (W c b a Hc Hb Ha). rewrite (Rabs_minus_sym b a) in H0.
  apply Rabs_le. lra.
Qed.

Lemma Qabs_R : forall a b, (Qabs a <= b)%Q -> Rabs (Q2R a) <= Q2R b.
Proof. intros. rewrite <- Q2R_abs. apply Qle_Rle; auto. Qed.

(* a number of hs digits is a number of more digits *)
Lemma inF_more : forall a b x, (0 <= a <= b)%Z -> inF (mkF a None) x -> inF (mkF b None) x.
Proof.
  intros a b x H (m & e & E & B & _). exists m, e. split; auto. split; [|exact I]. cbn [prec] in *.
  pose proof (Z.pow_le_mono_r 2 a b). lia.
Qed.
(* product of an integer and a number of fewer digits *)
Lemma inF_scale : forall a b k x, (0 <= a)%Z -> (0 <= b)%Z -> (Z.abs k <= 2 ^ b)%Z -> inF (mkF a None) x -> inF (mkF (a + b) None) (inject_Z k * x)%Q.
Proof.
  intros a b k x Ha Hb Hk (m & e & E & B & _). cbn [prec] in B. exists (k * m)%Z, e. split; [rewrite E, inject_Z_mult; ring|]. split; [|exact I].
  cbn [prec]. rewrite Z.abs_mul, Z.pow_add_r by auto. rewrite (Z.mul_comm (2 ^ a)). apply Z.mul_le_mono_nonneg; lia.
Qed.

Section Core.
Variables p hs : Z.
Hypothesis Hp : (12 <= p)%Z.
Hypothesis Hhs : (10 <= hs <= p)%Z.
Notation F := (mkF p None).
Variable rnd : Q -> Q.
Hypothesis Hr : nearest_in F rnd.
Notation U := (Q2R (p2 (- p))).
Notation w := (Q2R (p2 (- hs - 1))).

Lemma U_small : 0 < U <= / 4096.
Proof.
  split; [apply p2R_pos|]. replace (/ 4096) with (Q2R (p2 (-12))) by (unfold Q2R; cbn; lra). apply p2R_le. clear - Hp; lia.
Qed.
Lemma w_small : 0 < w <= / 2048.
Proof.
  split; [apply p2R_pos|]. replace (/ 2048) with (Q2R (p2 (-11))) by (unfold Q2R; cbn; lra). apply p2R_le. clear - Hhs; lia.
Qed.

(* the two words of a number of absolute value at most 1 *)
Lemma two_words_bounds : forall v x, two_words hs F v x -> Rabs x <= 1 ->
  inF F (fst v) /\ inF (mkF hs None) (fst v) /\ inF F (snd v)
  /\ Rabs (Q2R (fst v) - x) <= w /\ Rabs (Q2R (snd v)) <= w /\ Rabs (Q2R (fst v) + Q2R (snd v) - x) <= U * w.
Proof.
  intros [h l] x [H1 H2] Bx. cbn [fst snd] in *.
  assert (Bh : Rabs (Q2R h - x) <= w).
  { apply (nearestR_half (mkF hs None) (- hs) h x); cbn [prec]; auto; [lia|exact I|].
    replace (hs + - hs)%Z with 0%Z by ring. rewrite p2R_0. auto. }
  assert (Bh' : Rabs (x - Q2R h) <= w) by (rewrite Rabs_minus_sym; auto).
  assert (Il : inF F (p2 (- hs - 1))).
  { exists 1%Z, (- hs - 1)%Z. split; [ring|]. split; [|exact I]. cbn [prec]. change (Z.abs 1) with (2 ^ 0)%Z. apply Z.pow_le_mono_r; lia. }
  split; [apply (inF_more hs p); [lia|apply H1]|]. split; [apply H1|]. split; [apply H2|]. split; auto.
  assert (E : Rabs (Q2R l - (x - Q2R h)) <= U * w).
  { rewrite <- p2R_plus. replace (- p + (- hs - 1))%Z with (- hs - p - 1)%Z by ring.
    apply (nearestR_half F (- hs - p)%Z l (x - Q2R h)); cbn [prec]; auto; [lia|exact I|].
    eapply Rle_trans; [exact Bh'|]. apply p2R_le. lia. }
  split; [|replace (Q2R h + Q2R l - x) with (Q2R l - (x - Q2R h)) by ring; exact E].
  set (d := x - Q2R h) in *. set (W := p2 (- hs - 1)) in *.
  assert (In : inF F (- W)%Q) by (apply (inF_opp F); cbn [prec]; [lia|auto]).
  destruct H2 as [Hl Hn]. pose proof (Hn W Il) as N1. pose proof (Hn (- W)%Q In) as N2. rewrite Q2R_opp in N2.
  clear - Bh' N1 N2. apply Rabs_le_inv in Bh'. apply Rabs_le.
  unfold Rabs in N1, N2. repeat destruct Rcase_abs in *; lra.
Qed.

(* the whole computation from the reduced argument: rs is the exact reduced
   argument, Lg the real number the words read in the table stand for *)
Lemma log_core : forall poly c red corr k hi lo delta rho eta lam Hi (rs Lg : R),
  log_poly F delta poly -> two_words hs F (c_log2_hi c, c_log2_lo c) (ln 2) ->
  inF F red -> Rabs (Q2R red) <= 1 / 64 -> (corr == inject_Z k)%Q -> (Z.abs k <= 2 ^ (p - hs))%Z ->
  inF F hi -> inF F lo -> Rabs (Q2R hi) <= Hi -> Rabs (Q2R lo) <= lam -> Rabs (Q2R hi + Q2R lo - Lg) <= eta ->
  Rabs (Q2R red - rs) <= rho -> 0.99 <= 1 + rs -> 0.99 <= 1 + Q2R red ->
  exists V, log_tail rnd poly c red corr hi lo = rnd V
  /\ Rabs (Q2R V - (IZR k * ln 2 + ln (1 + rs) - Lg))
     <= U * Rabs (IZR k) * (12 * U + 12 * w) + (64 * (U * U) + delta) * Rabs (Q2R red) + U * U * Hi + 3 * U * lam + eta + 1.0102 * rho.
Proof.
  intros poly c red corr k hi lo delta rho eta lam Hi rs Lg Hpoly H2 Ir Br Ek Bk Ih Il Bh Bl Be Brho C1 C2.
  destruct (Hpoly red Ir Br) as (Ip & Bp & Ep).
  pose proof ln2_num_bounds as L2.
  destruct (two_words_bounds _ _ H2) as (I2h & I2h' & I2l & B1 & B2 & B3); [rewrite Rabs_pos_eq; lra|].
  cbn [fst snd] in *. destruct w_small as [W0 W1]. destruct U_small as [U0 U1].
  assert (Ikf : inF F corr).
  { apply (inF_comp F _ _ (Qeq_sym _ _ Ek)). exists k, 0%Z. split; [rewrite p2_0; ring|]. split; [|exact I]. cbn [prec].
    pose proof (Z.pow_le_mono_r 2 (p - hs) p). lia. }
  assert (Ikh : inF F (corr * c_log2_hi c)%Q).
  { apply (inF_comp F (inject_Z k * c_log2_hi c)%Q); [rewrite Ek; reflexivity|].
    replace p with (hs + (p - hs))%Z at 1 by ring. apply inF_scale; auto; lia. }
  assert (Bp' : (Qabs (poly red) <= 1 # 32)%Q).
  { apply Rle_Qle. rewrite Q2R_abs. replace (Q2R (1 # 32)) with (1 / 32) by (unfold Q2R; cbn [Qnum Qden]; lra). auto. }
  assert (B2h : (Qabs (c_log2_hi c) <= 7 # 10)%Q).
  { apply Rle_Qle. rewrite Q2R_abs. replace (Q2R (7 # 10)) with (7 / 10) by (unfold Q2R; cbn [Qnum Qden]; lra).
    apply Rabs_le_inv in B1. apply Rabs_le. lra. }
  assert (B2l : (Qabs (c_log2_lo c) <= 1 # 1024)%Q).
  { apply Rle_Qle. rewrite Q2R_abs. replace (Q2R (1 # 1024)) with (1 / 1024) by (unfold Q2R; cbn [Qnum Qden]; lra). lra. }
  destruct (tail_error p Hp rnd Hr poly c red corr hi lo Ir Ip Ikf I2h I2l Ih Il Ikh Bp' B2h B2l) as (V & EV & BV).
  exists V. split; auto. apply Qabs_R in BV.
  repeat rewrite ?Q2R_plus, ?Q2R_minus, ?Q2R_mult, ?Q2R_abs in BV.
  rewrite (Qeq_eqR _ _ Ek), Q2R_Z in BV.
  replace (Q2R 12) with 12 in BV by (unfold Q2R; cbn [Qnum Qden]; lra). replace (Q2R 64) with 64 in BV by (unfold Q2R; cbn [Qnum Qden]; lra).
  replace (Q2R 11) with 11 in BV by (unfold Q2R; cbn [Qnum Qden]; lra). replace (Q2R 3) with 3 in BV by (unfold Q2R; cbn [Qnum Qden]; lra).
  rewrite Rabs_mult in BV.
  set (l2h := Q2R (c_log2_hi c)) in *. set (l2l := Q2R (c_log2_lo c)) in *. set (v := Q2R V) in *.
  set (rd := Q2R red) in *. set (pl := Q2R (poly red)) in *. set (h := Q2R hi) in *. set (l := Q2R lo) in *.
  set (kk := IZR k) in *.
  assert (Hln : Rabs (ln (1 + rd) - ln (1 + rs)) <= 1.0102 * rho).
  { eapply Rle_trans; [apply (ln_lip 0.99); lra|]. replace (1 + rd - (1 + rs)) with (rd - rs) by ring.
    assert (/ 0.99 * Rabs (rd - rs) <= / 0.99 * rho) by (apply Rmult_le_compat_l; lra).
    pose proof (Rabs_pos (rd - rs)). lra. }
  assert (Hk : Rabs (kk * (l2h + l2l - ln 2)) <= Rabs kk * (U * w)).
  { rewrite Rabs_mult. apply Rmult_le_compat_l; [apply Rabs_pos|auto]. }
  assert (N1 : U * (U * Rabs h) <= U * U * Hi).
  { rewrite <- Rmult_assoc. apply Rmult_le_compat_l; [|auto]. apply Rmult_le_pos; lra. }
  assert (N2 : 3 * (U * Rabs l) <= 3 * U * lam).
  { rewrite <- Rmult_assoc. apply Rmult_le_compat_l; lra. }
  assert (N3 : 11 * (U * (Rabs kk * Rabs l2l)) <= 11 * (U * (Rabs kk * w))).
  { apply Rmult_le_compat_l; [lra|]. apply Rmult_le_compat_l; [lra|]. apply Rmult_le_compat_l; [apply Rabs_pos|auto]. }
  replace (v - (kk * ln 2 + ln (1 + rs) - Lg)) with
    ((v - (rd + rd * pl + kk * (l2h + l2l) - (h + l))) + (rd * (1 + pl) - ln (1 + rd)) + (ln (1 + rd) - ln (1 + rs))
     + kk * (l2h + l2l - ln 2) - (h + l - Lg)) by ring.
  clear - BV Ep Hln Hk N1 N2 N3 Be.
  set (a1 := v - _) in *. set (a2 := rd * (1 + pl) - _) in *. set (a3 := ln (1 + rd) - _) in *. set (a4 := kk * _) in *. set (a5 := h + l - Lg) in *.
  replace (U * Rabs kk * (12 * U + 12 * w) + (64 * (U * U) + delta) * Rabs rd + U * U * Hi + 3 * U * lam + eta + 1.0102 * rho)
    with ((12 * (U * (U * Rabs kk)) + 64 * (U * (U * Rabs rd)) + U * U * Hi + 11 * (U * (Rabs kk * w)) + 3 * U * lam) + delta * Rabs rd + 1.0102 * rho
          + Rabs kk * (U * w) + eta) by ring.
  clearbody a1 a2 a3 a4 a5.
  apply Rabs_le_inv in Ep, Hln, Hk, Be. apply Rabs_le_inv in BV. apply Rabs_le. lra.
Qed.
End Core.
