(* The logarithm: wrong claims about it, and existence of its constants. *)
From Coq Require Import ZArith QArith Qabs Qround Lia Bool List Reals Qreals Lra.
From Verif Require Import QUtil FpFormatModel SpecialModel RoundSpec RoundProofs RoundRne RealUtil RealLog DivModel DivProofs DivScheme DivProps LimbModel LogModel LogSpec LogLimb LogReduce LogCore LogProofs LogDouble LogProps.
Open Scope R_scope.

(* generic_log.py:158-160: the interval written down for the reduced argument
   contains none of its values *)
Definition red_interval_lo : Q := (1 - (1 # 64))%Q.
Theorem red_interval_refuted : forall p rnd c m, (12 <= p)%Z -> nearest_in (mkF p None) rnd -> table_ok (265 # 32768) (c_inv c) = true ->
  (1 <= m)%Q -> (m < 2)%Q -> (red_vx p rnd (fun v => v) c m < red_interval_lo)%Q /\ (Qabs (red_vx p rnd (fun v => v) c m) <= 1 # 64)%Q.
Proof.
  intros p rnd c m Hp Hr Ht M1 M2. destruct (reduced_argument p Hp c Ht m M1 M2) as (A1 & _). unfold red_vx, red_interval_lo.
  set (a := arg_red _ _ _ _) in *. clearbody a. set (F := mkF p None) in *.
  assert (I : inF F (1 # 64)%Q).
  { exists 1%Z, (-6)%Z. split; [reflexivity|]. split; [|exact I]. cbn [prec F]. change (Z.abs 1) with (2 ^ 0)%Z. apply Z.pow_le_mono_r; lia. }
  assert (B : (Qabs (a * m + - (1)) <= 1 # 64)%Q).
  { assert (E : (Qabs (a * m + - (1)) == Qabs (a * m - 1))%Q) by (apply Qabs_wd; ring). rewrite E. apply Qle_trans with (265 # 32768)%Q; [auto|discriminate]. }
  pose proof (rnd_abs_le_F F ltac:(cbn [prec F]; lia) rnd Hr _ _ I B) as R. split; auto.
  apply Qle_lt_trans with (1 # 64)%Q; [|reflexivity]. eapply Qle_trans; [|exact R]. apply Qle_Qabs.
Qed.

(* ---- binary64: wrong entry of the table ---- *)
Section Mismatch.
Variables p hs q : Z.
Hypothesis Hp : (12 <= p)%Z.
Hypothesis Hhs0 : (10 <= hs < p)%Z.
Hypothesis Hq : (12 <= q)%Z.
Notation F := (mkF p None).
Variable rnd : Q -> Q.
Hypothesis Hr : nearest_in F rnd.
Variable conv : Q -> Q.
Hypothesis Hc : nearest_in (mkF q None) conv.
Notation U := (Q2R (p2 (- p))).
Variable poly : Q -> Q.
Variable delta : R.
Hypothesis Hpoly : log_poly F delta poly.
Hypothesis Hdelta : 0 <= delta <= U / 8.
Variable c : log_cst.
Hypothesis Hinv : c_inv c = generic_inv_approx_table.
Hypothesis Hl2 : two_words hs F (c_log2_hi c, c_log2_lo c) (ln 2).
Hypothesis Htab : log_tables hs F (fun i => nth (Z.to_nat i) (c_inv c) 0%Q) (load (c_log c)) (load (c_log_tho c)).
Hypothesis Hsq : ((181 # 128) <= c_sqrt2 c <= 182 # 128)%Q.
Variable emin : Z.

Theorem log_mismatch_refuted : forall x i, inF F x -> (0 < x)%Q -> (Z.abs (qlog2 x) < 2 ^ (p - hs))%Z -> (1 <= i <= 127)%Z ->
  (1 + inject_Z (i + 1) / 128 - p2 (- q) < mant_of x)%Q -> (mant_of x < 1 + inject_Z (i + 1) / 128)%Q ->
  1 / 1000 <= Rabs (Q2R (value (log_scheme p rnd conv poly c emin (Num x))) - ln (Q2R x)).
Proof.
  intros x i Ix Px Bx Hi L H. destruct (scheme_value p rnd conv poly c emin x ltac:(lia) Hr Ix Px) as (f & v & Es & Iv & Ev & Eq & Em).
  rewrite Es. rewrite (Qeq_eqR _ _ (value_of_value _)). unfold reduced_log, reduced_log_split.
  assert (Pv : (0 < v)%Q) by (rewrite Ev; apply Qmult_lt_0_compat; [auto|apply p2_pos]).
  destruct (mant_of_range v Pv) as (M1 & M2 & Evm). rewrite <- Em in L, H.
  set (m := mant_of v) in *. clearbody m.
  assert (El : ln (Q2R v) + IZR f * ln 2 = ln (Q2R x)).
  { rewrite (Qeq_eqR _ _ Ev), Q2R_mult, ln_mult; [|rewrite <- Q2R_0; apply Qlt_Rlt; auto|apply p2R_pos]. rewrite ln_p2, opp_IZR. ring. }
  assert (Ht : step_ok (c_inv c) = true) by (rewrite Hinv; exact generic_step).
  destruct (mismatch p q Hp Hq conv Hc c Ht m i Hi L H) as (Ti & _ & _ & Ea & A1 & A2 & A3 & A4).
  set (b := inv_at (c_inv c) (i + 1)) in *. clearbody b. unfold red_vx. rewrite Ti.
  set (ar := arg_red p conv c m) in *. clearbody ar.
  pose proof (U_small p Hp) as US. assert (Hhs : (10 <= hs <= p)%Z) by lia. pose proof (w_small p hs Hhs) as W. set (w := Q2R (p2 (- hs - 1))) in *.
  pose proof ln2_num_bounds as L2.
  set (rs := (ar * m + - (1))%Q). assert (Ers : (rs == b * m - 1)%Q) by (unfold rs; rewrite Ea; ring).
  assert (Brs : Rabs (Q2R rs) <= 1 / 120).
  { rewrite (Qeq_eqR _ _ Ers). rewrite Ea in A4. apply Qabs_R in A4. replace (1 / 120) with (Q2R (1 # 120)) by (unfold Q2R; cbn [Qnum Qden]; lra). exact A4. }
  assert (Brd : Rabs (Q2R (rnd rs) - Q2R rs) <= U * Rabs (Q2R rs)).
  { pose proof (rnd_rel F ltac:(cbn [prec]; lia) rnd Hr rs eq_refl) as Z. apply Qabs_R in Z. rewrite Q2R_minus, Q2R_mult, Q2R_abs in Z. exact Z. }
  assert (Bu : U * Rabs (Q2R rs) <= U * (1 / 120)) by (apply Rmult_le_compat_l; lra).
  assert (Br : Rabs (Q2R (rnd rs)) <= 0.0084).
  { apply Rabs_le_inv in Brs, Brd. apply Rabs_le. lra. }
  pose proof (Rabs_le_inv _ _ Br) as Br'. pose proof (Rabs_le_inv _ _ Brs) as Brs'.
  set (tc := negb (Qle_bool m (c_sqrt2 c))). set (k := (qlog2 x + (if tc then 1 else 0))%Z).
  assert (Bk : (Z.abs k <= 2 ^ (p - hs))%Z) by (unfold k; destruct tc; lia).
  set (corr := o_add (rounded_ops rnd) (rnd (inject_Z (qlog2 v + f))) (if tc then 1%Q else 0%Q)).
  assert (Pk : (2 ^ (p - hs) + 1 <= 2 ^ p)%Z).
  { pose proof (Z.pow_le_mono_r 2 (p - hs) (p - 1) ltac:(lia) ltac:(lia)). pose proof (Z.pow_pos_nonneg 2 (p - 1) ltac:(lia) ltac:(lia)).
    replace (2 ^ p)%Z with (2 * 2 ^ (p - 1))%Z; [lia|]. rewrite <- Z.pow_succ_r by lia. f_equal. lia. }
  assert (Ec : (corr == inject_Z k)%Q).
  { unfold corr. rewrite Eq. cbn [rounded_ops o_add].
    assert (Ii : forall z, (Z.abs z <= 2 ^ p)%Z -> inF F (inject_Z z)).
    { intros z Hz. exists z, 0%Z. split; [rewrite p2_0; ring|]. split; [exact Hz|exact I]. }
    assert (G1 : (rnd (inject_Z (qlog2 x)) == inject_Z (qlog2 x))%Q) by (apply (rnd_id F rnd Hr); apply Ii; lia).
    assert (G2 : (rnd (inject_Z (qlog2 x)) + (if tc then 1 else 0) == inject_Z k)%Q).
    { rewrite G1. unfold k. rewrite (inject_Z_plus (qlog2 x)). destruct tc; reflexivity. }
    eapply Qeq_trans; [apply (rnd_comp F rnd Hr); exact G2|]. apply (rnd_id F rnd Hr). apply Ii. lia. }
  clearbody corr.
  set (a := nth (Z.to_nat i) (c_inv c) 0%Q) in *.
  assert (Rb : 1 / 2 <= Q2R b).
  { replace (1 / 2) with (Q2R (1 # 2)) by (unfold Q2R; cbn [Qnum Qden]; lra). apply Qle_Rle; auto. }
  assert (Rab : Q2R b + 1 / 512 <= Q2R a).
  { replace (1 / 512) with (Q2R (1 # 512)) by (unfold Q2R; cbn [Qnum Qden]; lra). rewrite <- Q2R_plus. apply Qle_Rle; auto. }
  assert (Ra : Q2R a <= 1) by (rewrite <- Q2R_1; apply Qle_Rle; auto).
  assert (Rm : 1 <= Q2R m < 2).
  { split; [rewrite <- Q2R_1; apply Qle_Rle; auto|]. replace 2 with (Q2R 2) by (unfold Q2R; cbn [Qnum Qden]; lra). apply Qlt_Rlt; auto. }
  destruct Htab as [_ T1]. specialize (T1 i ltac:(lia)). cbv beta in T1. fold a in T1. clearbody a.
  set (Lg := if tc then ln (2 * Q2R a) else ln (Q2R a)).
  set (hi := if tc then fst (load (c_log_tho c) i) else fst (load (c_log c) i)).
  set (lo := if tc then snd (load (c_log_tho c) i) else snd (load (c_log c) i)).
  assert (La : - ln 2 <= ln (Q2R a) <= 0).
  { split; [rewrite <- ln_Rinv by lra; apply ln_le; lra|rewrite <- ln_1; apply ln_le; lra]. }
  assert (G : forall vv y, two_words hs F vv y -> Rabs y <= 1 -> inF F (fst vv) /\ inF F (snd vv) /\ Rabs (Q2R (fst vv)) <= 2 /\ Rabs (Q2R (snd vv)) <= w /\ Rabs (Q2R (fst vv) + Q2R (snd vv) - y) <= U * w).
  { intros vv y Hv By. destruct (two_words_bounds p hs Hp Hhs vv y Hv By) as (G1 & _ & G2 & G3 & G4 & G5). fold w in G3, G4, G5.
    split; auto. split; auto. split; [|auto]. apply Rabs_le_inv in G3, By. apply Rabs_le. lra. }
  assert (X : inF F hi /\ inF F lo /\ Rabs (Q2R hi) <= 2 /\ Rabs (Q2R lo) <= w /\ Rabs (Q2R hi + Q2R lo - Lg) <= U * w).
  { unfold hi, lo, Lg. destruct tc.
    - apply G; [apply T1|]. rewrite ln_mult by lra. apply Rabs_le. lra.
    - apply G; [apply T1|]. apply Rabs_le. lra. }
  destruct X as (Ih & Il & Bh & Bl & Be). clearbody hi lo.
  destruct (log_core p hs Hp Hhs rnd Hr poly c (rnd rs) corr k hi lo delta (U * (1 / 120)) (U * w) w 2 (Q2R rs) Lg Hpoly Hl2) as (V & EV & BV).
  1: apply (rnd_inF F rnd Hr). 1: lra. 1: exact Ec. 1: exact Bk. 1: exact Ih. 1: exact Il. 1: exact Bh. 1: exact Bl. 1: exact Be. 1: lra. 1: lra. 1: lra.
  fold w in BV. rewrite EV.
  assert (ET : IZR k * ln 2 + ln (1 + Q2R rs) - Lg = ln (Q2R x) + (ln (Q2R b) - ln (Q2R a))).
  { rewrite <- El, (Qeq_eqR _ _ Evm), Q2R_mult, ln_mult, ln_p2 by (try apply p2R_pos; lra).
    replace (1 + Q2R rs) with (Q2R b * Q2R m) by (rewrite (Qeq_eqR _ _ Ers), Q2R_minus, Q2R_mult, Q2R_1; ring). rewrite (ln_mult (Q2R b)) by lra.
    unfold k, Lg. rewrite plus_IZR, <- Eq, plus_IZR. destruct tc; [rewrite (ln_mult 2) by lra|]; lra. }
  rewrite ET in BV.
  assert (Gap : ln (Q2R b) - ln (Q2R a) <= - (1 / 512)).
  { pose proof (ln_le_sub (Q2R b / Q2R a)) as S. assert (0 < Q2R b / Q2R a) by (apply Rdiv_lt_0_compat; lra). specialize (S H0).
    unfold Rdiv in S. rewrite ln_mult, ln_Rinv in S; [|lra|lra|apply Rinv_0_lt_compat; lra].
    assert (Q2R b * / Q2R a <= 1 - 1 / 512).
    { apply Rmult_le_reg_r with (Q2R a); [lra|]. rewrite Rmult_assoc, Rinv_l by lra. lra. }
    lra. }
  (* sizes *)
  assert (UK : U * Rabs (IZR k) <= / 1024).
  { rewrite <- abs_IZR. apply Rle_trans with (U * IZR (2 ^ (p - hs))); [apply Rmult_le_compat_l; [lra|apply IZR_le; auto]|].
    rewrite <- p2R_Z, <- p2R_plus by lia. replace (/ 1024) with (Q2R (p2 (-10))) by (unfold Q2R; cbn; lra). apply p2R_le. lia. }
  assert (N0 : 0 <= U * Rabs (IZR k)) by (apply Rmult_le_pos; [lra|apply Rabs_pos]).
  assert (Uk2 : U * Rabs (IZR k) * (12 * U + 12 * w) <= / 1024 * 0.0088).
  { apply Rmult_le_compat; lra. }
  assert (UU : U * U <= / 4096 * / 4096) by (apply Rmult_le_compat; lra). assert (Uw : U * w <= / 4096 * / 2048) by (apply Rmult_le_compat; lra).
  assert (Rr : (64 * (U * U) + delta) * Rabs (Q2R (rnd rs)) <= (64 * (/ 4096 * / 4096) + / 4096 / 8) * 0.0084).
  { assert (0 <= U * U) by (apply Rmult_le_pos; lra). apply Rmult_le_compat; [lra|apply Rabs_pos|lra|auto]. }
  assert (BV' : Rabs (Q2R V - (ln (Q2R x) + (ln (Q2R b) - ln (Q2R a)))) <= 0.00003).
  { eapply Rle_trans; [exact BV|]. lra. }
  assert (Bl2 : Rabs (ln (Q2R x) + (ln (Q2R b) - ln (Q2R a))) <= 0.6932 * Rabs (IZR k) + 0.72).
  { rewrite <- ET.
    assert (Z1 : Rabs (IZR k * ln 2) <= 0.6932 * Rabs (IZR k)) by (rewrite Rabs_mult, (Rabs_pos_eq (ln 2)), Rmult_comm by lra; apply Rmult_le_compat_r; [apply Rabs_pos|lra]).
    assert (Z2 : Rabs (ln (1 + Q2R rs)) <= 0.009).
    { apply Rabs_le. pose proof (ln_le_sub (1 + Q2R rs) ltac:(lra)). pose proof (ln_ge_inv (1 + Q2R rs) ltac:(lra)).
      assert (/ (1 + Q2R rs) <= / (1 - 1 / 120)) by (apply Rinv_le_contravar; lra). lra. }
    assert (Z3 : Rabs Lg <= ln 2).
    { unfold Lg. apply Rabs_le. destruct tc; [rewrite ln_mult by lra|]; lra. }
    apply Rabs_le_inv in Z1, Z2, Z3. apply Rabs_le. lra. }
  pose proof (rnd_rel F ltac:(cbn [prec]; lia) rnd Hr V eq_refl) as N. apply Qabs_R in N. rewrite Q2R_minus, Q2R_mult, Q2R_abs in N. cbn [prec] in N.
  set (T := ln (Q2R x) + (ln (Q2R b) - ln (Q2R a))) in *.
  assert (BVa : Rabs (Q2R V) <= 0.6932 * Rabs (IZR k) + 0.73).
  { pose proof (Rabs_triang T (Q2R V - T)) as Z. replace (T + (Q2R V - T)) with (Q2R V) in Z by ring. lra. }
  assert (UV : U * Rabs (Q2R V) <= U * (0.6932 * Rabs (IZR k) + 0.73)) by (apply Rmult_le_compat_l; lra).
  assert (Fin : Q2R (rnd V) - ln (Q2R x) <= - (1 / 1000)).
  { apply Rabs_le_inv in N, BV'. unfold T in BV'. lra. }
  rewrite Rabs_left1 by lra. lra.
Qed.
End Mismatch.

(* ---- just below one, in binary32 ---- *)
Fixpoint qpow (q : Q) (n : nat) : Q := match n with O => 1%Q | S m => (q * qpow q m)%Q end.
Fixpoint lnTQ (n : nat) (t : Q) : Q :=
  match n with O => 0%Q | S m => (lnTQ m t + qpow (-1) m / inject_Z (Z.of_nat (S m)) * qpow t (S m))%Q end.
Lemma qpow_R : forall n q, Q2R (qpow q n) = Q2R q ^ n.
Proof. induction n as [|n IH]; intros q; cbn [qpow pow]; [apply Q2R_1|]. rewrite Q2R_mult, IH. reflexivity. Qed.
Lemma lnTQ_R : forall n t, Q2R (lnTQ n t) = lnT n (Q2R t).
Proof.
  induction n as [|n IH]; intros t; [apply Q2R_0|]. cbn [lnTQ lnT]. rewrite Q2R_plus, Q2R_mult, IH, qpow_R. unfold Qdiv. rewrite Q2R_mult, qpow_R, Q2R_inv.
  - rewrite Q2R_Z, <- INR_IZR_INZ. replace (Q2R (-1)) with (-1) by (unfold Q2R; cbn [Qnum Qden]; lra). reflexivity.
  - unfold Qeq. cbn [inject_Z Qnum Qden]. lia.
Qed.

(* a logarithm between two rationals, decided on rationals *)
Definition ln_bounds_ok (n : nat) (t a b : Q) : bool :=
  Qle_bool (Qabs t) (1 # 2) && Qle_bool (a + 2 * qpow (Qabs t) (S n)) (lnTQ n t) && Qle_bool (lnTQ n t + 2 * qpow (Qabs t) (S n)) b.
Lemma ln_bounds : forall n t a b, ln_bounds_ok n t a b = true -> Q2R a <= ln (1 + Q2R t) <= Q2R b.
Proof.
  intros n t a b H. unfold ln_bounds_ok in H. rewrite !andb_true_iff in H. destruct H as ((H1 & H2) & H3). apply Qle_bool_iff in H1, H2, H3.
  apply Qle_Rle in H1, H2, H3. rewrite Q2R_plus, Q2R_mult, qpow_R, lnTQ_R, Q2R_abs in H2, H3. rewrite Q2R_abs in H1.
  replace (Q2R (1 # 2)) with (1 / 2) in H1 by (unfold Q2R; cbn [Qnum Qden]; lra). replace (Q2R 2) with 2 in H2, H3 by (unfold Q2R; cbn [Qnum Qden]; lra).
  pose proof (ln_taylor n (Q2R t) H1) as B. apply Rabs_le_inv in B. lra.
Qed.

(* the reduced argument of 1 - 2^-24 *)
Definition below_red : Q := 16776959 # 4294967296.

(* whatever the value of the polynomial, the product is away from the logarithm *)
Lemma below_gap : forall pl, inF (mkF 24 None) pl ->
  17 * Q2R (p2 (-47)) <= Rabs (Q2R below_red * (1 + Q2R pl) - ln (1 + Q2R below_red)).
Proof.
  intros pl Ip. set (lo := (below_red * (1 + inject_Z (-16733398) * p2 (-33)) + 17 * p2 (-47))%Q).
  set (hi := (below_red * (1 + inject_Z (-16733397) * p2 (-33)) - 17 * p2 (-47))%Q).
  assert (B : Q2R lo <= ln (1 + Q2R below_red) <= Q2R hi) by (apply (ln_bounds 7); vm_compute; reflexivity).
  unfold lo, hi in B. rewrite Q2R_plus, Q2R_minus, !Q2R_mult, !Q2R_plus, !Q2R_mult, !Q2R_Z, Q2R_1 in B. clear lo hi.
  replace (Q2R 17) with 17 in B by (unfold Q2R; cbn [Qnum Qden]; lra).
  assert (C : Q2R pl <= -16733398 * Q2R (p2 (-33)) \/ -16733397 * Q2R (p2 (-33)) <= Q2R pl).
  { destruct (Qlt_le_dec pl (- p2 (-10))) as [L|L].
    - destruct (inF_big (mkF 24 None) ltac:(cbn [prec]; lia) (-33) pl Ip) as [z Ez].
      { cbn [prec]. change (24 + -33 - 1)%Z with (-10)%Z. rewrite Qabs_neg.
        - rewrite <- (Qopp_involutive (p2 (-10))). apply Qopp_lt_compat. auto.
        - apply Qlt_le_weak. apply Qlt_trans with (- p2 (-10))%Q; [auto|reflexivity]. }
      rewrite (Qeq_eqR _ _ Ez), Q2R_mult, Q2R_Z. pose proof (p2R_pos (-33)) as P.
      destruct (Z_le_gt_dec z (-16733398)) as [G|G]; [left|right]; apply Rmult_le_compat_r; try lra; apply IZR_le; lia.
    - right. apply Qle_Rle in L. rewrite Q2R_opp in L. replace (Q2R (p2 (-10))) with (1 / 1024) in L by (unfold Q2R; cbn; lra).
      replace (Q2R (p2 (-33))) with (1 / 8589934592) by (unfold Q2R; cbn; lra). lra. }
  assert (R0 : 0 < Q2R below_red) by (unfold Q2R, below_red; cbn [Qnum Qden]; lra).
  assert (D0 : 0 < 17 * Q2R (p2 (-47))) by (pose proof (p2R_pos (-47)); lra).
  set (r := Q2R below_red) in *. set (s := Q2R (p2 (-33))) in *. set (d := 17 * Q2R (p2 (-47))) in *. clearbody r s d.
  destruct C as [C|C].
  - assert (r * Q2R pl <= r * (-16733398 * s)) by (apply Rmult_le_compat_l; lra). rewrite Rabs_left1; lra.
  - assert (r * (-16733397 * s) <= r * Q2R pl) by (apply Rmult_le_compat_l; lra).
    pose proof (Rle_abs (r * (1 + Q2R pl) - ln (1 + r))). lra.
Qed.

Definition below_one : Q := 16777215 # 16777216.

Theorem log_below_one_refuted : forall rnd poly c emin,
  nearest_in (mkF 24 None) rnd ->
  (forall r, inF (mkF 24 None) r -> (Qabs r <= 1 # 64)%Q -> inF (mkF 24 None) (poly r) /\ (Qabs (poly r) <= 1 # 32)%Q) ->
  two_words 14 (mkF 24 None) (c_log2_hi c, c_log2_lo c) (ln 2) ->
  c_inv c = generic_inv_approx_table ->
  log_tables 14 (mkF 24 None) (fun i => nth (Z.to_nat i) (c_inv c) 0%Q) (load (c_log c)) (load (c_log_tho c)) ->
  ((181 # 128) <= c_sqrt2 c <= 182 # 128)%Q -> (emin <= -1)%Z ->
  12 * Q2R (p2 (-47)) <= Rabs (Q2R (value (log_scheme 24 rnd (fun v => v) poly c emin (Num below_one))) - ln (Q2R below_one))
  /\ Q2R (p2 (-24)) <= Rabs (ln (Q2R below_one)) < Q2R (p2 (-23)).
Proof.
  intros rnd poly c emin Hr Hpoly Hl2 Hinv Htab Hsq He. set (F := mkF 24 None) in *.
  assert (Es : log_scheme 24 rnd (fun v => v) poly c emin (Num below_one) = of_value (reduced_log 24 rnd (fun v => v) poly c 0 below_one)).
  { unfold log_scheme. cbn [t_neg PowModel.t_inf PowModel.t_pinf PowModel.t_minf PowModel.t_nan t_subnormal PowModel.t_zero value orb].
    change (Qle_bool 0 below_one) with true. cbn [negb].
    assert (E : Qle_bool (p2 emin) (Qabs below_one) = true) by (apply Qle_bool_iff; apply Qle_trans with (p2 (-1)); [apply p2_le; auto|discriminate]).
    rewrite E. reflexivity. }
  rewrite Es, (Qeq_eqR _ _ (value_of_value _)). clear Es.
  assert (Lb : (Q2R (p2 (-24)) <= Rabs (ln (Q2R below_one)) < Q2R (p2 (-23))) /\ Rabs (ln (Q2R below_one)) <= 1.1 * Q2R (p2 (-24))).
  { assert (X : Q2R below_one = 1 - Q2R (p2 (-24))) by (unfold Q2R, below_one; cbn; lra).
    assert (Y : Q2R (p2 (-23)) = 2 * Q2R (p2 (-24))) by (unfold Q2R; cbn; lra). assert (Z : 0 < Q2R (p2 (-24)) < / 100) by (unfold Q2R; cbn; lra).
    rewrite Y, X. clear X Y. set (t := Q2R (p2 (-24))) in *. clearbody t. pose proof (ln_le_sub (1 - t) ltac:(lra)) as A. pose proof (ln_ge_inv (1 - t) ltac:(lra)) as B.
    assert (/ (1 - t) < 1 + 1.1 * t). { apply Rmult_lt_reg_r with (1 - t); [lra|]. rewrite Rinv_l by lra. nra. }
    rewrite Rabs_left1; lra. }
  destruct Lb as [Lb Lb']. split; [|exact Lb]. clear Lb.
  unfold reduced_log. assert (Em : (mant_of below_one == 16777215 # 8388608)%Q) by reflexivity.
  assert (Ei : table_index (mant_of below_one) = 127%Z) by reflexivity.
  set (m := mant_of below_one) in *. clearbody m.
  assert (Et : Qle_bool m (c_sqrt2 c) = false).
  { destruct (Qle_bool m (c_sqrt2 c)) eqn:E; auto. apply Qle_bool_iff in E. exfalso. destruct Hsq as [_ S].
    assert (L : (m <= 182 # 128)%Q) by (eapply Qle_trans; eauto). rewrite Em in L. apply L. reflexivity. }
  rewrite Et. cbn [negb]. change (qlog2 below_one + 0)%Z with (-1)%Z.
  set (corr := o_add (rounded_ops rnd) (rnd (inject_Z (-1))) 1%Q).
  assert (Ec : (corr == 0)%Q).
  { unfold corr. cbn [rounded_ops o_add].
    assert (G1 : (rnd (inject_Z (-1)) == inject_Z (-1))%Q).
    { apply (rnd_id F rnd Hr). exists (-1)%Z, 0%Z. split; [reflexivity|]. split; [vm_compute; discriminate|exact I]. }
    assert (G2 : (rnd (inject_Z (-1)) + 1 == 0)%Q) by (rewrite G1; reflexivity).
    eapply Qeq_trans; [apply (rnd_comp F rnd Hr); exact G2|]. apply (rnd_id F rnd Hr). apply inF_0. cbn [prec F]. lia. }
  clearbody corr. unfold reduced_log_split. rewrite Ei. unfold red_vx.
  assert (M1 : (1 <= m)%Q) by (rewrite Em; discriminate). assert (M2 : (m < 2)%Q) by (rewrite Em; reflexivity).
  assert (Ht : table_ok (265 # 32768) (c_inv c) = true) by (rewrite Hinv; exact generic_table_accuracy).
  pose proof (arg_red_entry 24 ltac:(lia) c Ht m M1 M2) as Ea. rewrite Ei in Ea. change (127 =? 0)%Z with false in Ea. cbv iota in Ea.
  assert (E127 : (nth (Z.to_nat 127) (c_inv c) 0 == 257 # 512)%Q) by (rewrite Hinv; reflexivity). rewrite E127 in Ea.
  set (a := arg_red _ _ _ _) in *. clearbody a.
  assert (Er : (rnd (a * m + - (1)) == below_red)%Q).
  { eapply Qeq_trans; [apply (rnd_comp F rnd Hr (a * m + - (1))%Q below_red); rewrite Ea, Em; reflexivity|].
    apply (rnd_id F rnd Hr). exists 16776959%Z, (-32)%Z. split; [reflexivity|]. split; [vm_compute; discriminate|exact I]. }
  pose proof (rnd_inF F rnd Hr (a * m + - (1))) as Ir.
  set (red := rnd (a * m + - (1))%Q) in *. clearbody red. clear a Ea.
  destruct Htab as [_ T]. specialize (T 127%Z ltac:(lia)). cbv beta in T. destruct T as [_ T].
  rewrite (Qeq_eqR _ _ E127) in T. replace (2 * Q2R (257 # 512)) with (1 + Q2R (1 # 256)) in T by (unfold Q2R; cbn [Qnum Qden]; lra).
  set (Lg := ln (1 + Q2R (1 # 256))) in *.
  assert (BL : 0 <= Lg <= Q2R (p2 (-8))).
  { assert (B : Q2R 0 <= Lg <= Q2R (1 # 256)) by (apply (ln_bounds 3); vm_compute; reflexivity). rewrite Q2R_0 in B. exact B. }
  destruct T as [T1 T2]. destruct (load (c_log_tho c) 127) as [hi lo]. cbn [fst snd] in *.
  assert (Bh : Rabs (Q2R hi - Lg) <= Q2R (p2 (-23))).
  { apply (nearestR_half (mkF 14 None) (-22) hi Lg); cbn [prec]; auto; [lia|exact I|]. rewrite Rabs_pos_eq by lra. change (14 + -22)%Z with (-8)%Z. lra. }
  assert (Bh' : Rabs (Lg - Q2R hi) <= Q2R (p2 (-23))) by (rewrite Rabs_minus_sym; auto).
  assert (Be : Rabs (Q2R lo - (Lg - Q2R hi)) <= Q2R (p2 (-48))).
  { apply (nearestR_half F (-47) lo (Lg - Q2R hi)); cbn [prec F]; auto; [lia|exact I]. }
  assert (Bl : Rabs (Q2R lo) <= Q2R (p2 (-23)) + Q2R (p2 (-48))).
  { apply Rabs_le_inv in Be, Bh'. apply Rabs_le. lra. }
  pose proof ln2_num_bounds as L2.
  destruct (two_words_bounds 24 14 ltac:(lia) ltac:(lia) _ _ Hl2) as (I2h & _ & I2l & B1 & B2 & B3); [rewrite Rabs_pos_eq; lra|]. cbn [fst snd] in *.
  assert (W : Q2R (p2 (-14 - 1)) = / 32768) by (unfold Q2R; cbn; lra). change (- (14) - 1)%Z with (-14 - 1)%Z in *. rewrite W in B1, B2.
  assert (B2h : (Qabs (c_log2_hi c) <= 7 # 10)%Q).
  { apply Rle_Qle. rewrite Q2R_abs. replace (Q2R (7 # 10)) with (7 / 10) by (unfold Q2R; cbn [Qnum Qden]; lra). apply Rabs_le_inv in B1. apply Rabs_le. lra. }
  assert (B2l : (Qabs (c_log2_lo c) <= 1 # 1024)%Q).
  { apply Rle_Qle. rewrite Q2R_abs. replace (Q2R (1 # 1024)) with (1 / 1024) by (unfold Q2R; cbn [Qnum Qden]; lra). lra. }
  destruct (Hpoly red Ir ltac:(rewrite Er; discriminate)) as [Ip Bp].
  assert (I0 : inF F 0%Q) by (apply inF_0; cbn [prec F]; lia).
  assert (Ih : inF F hi) by (apply (inF_more 14 24); [lia|apply T1]).
  assert (Ik : inF F corr) by (apply (inF_comp F 0%Q); [symmetry; exact Ec|auto]).
  assert (Ikh : inF F (corr * c_log2_hi c)%Q) by (apply (inF_comp F 0%Q); [rewrite Ec; ring|auto]).
  destruct (tail_error 24 ltac:(lia) rnd Hr poly c red corr hi lo Ir Ip Ik I2h I2l Ih ltac:(apply T2) Ikh Bp B2h B2l) as (V & EV & BV).
  rewrite EV. apply Qabs_R in BV. pose proof (below_gap (poly red) Ip) as Gap.
  repeat rewrite ?Q2R_plus, ?Q2R_minus, ?Q2R_mult, ?Q2R_abs in BV.
  rewrite (Qeq_eqR _ _ Ec), (Qeq_eqR _ _ Er), Q2R_0 in BV. rewrite !Rmult_0_l, !Rabs_R0 in BV.
  replace (Q2R 12) with 12 in BV by (unfold Q2R; cbn [Qnum Qden]; lra). replace (Q2R 64) with 64 in BV by (unfold Q2R; cbn [Qnum Qden]; lra).
  replace (Q2R 11) with 11 in BV by (unfold Q2R; cbn [Qnum Qden]; lra). replace (Q2R 3) with 3 in BV by (unfold Q2R; cbn [Qnum Qden]; lra).
  assert (Elx : ln (Q2R below_one) = ln (1 + Q2R below_red) - Lg).
  { assert (X : 1 + Q2R below_red = Q2R below_one * (1 + Q2R (1 # 256))) by (unfold Q2R, below_one, below_red; cbn [Qnum Qden]; lra).
    unfold Lg. rewrite X, ln_mult by (unfold Q2R, below_one; cbn [Qnum Qden]; lra). ring. }
  rewrite Elx in *.
  assert (U24 : Q2R (p2 (- (24))) = 8388608 * Q2R (p2 (-47))) by (unfold Q2R; cbn; lra).
  assert (U23 : Q2R (p2 (-23)) = / 8388608) by (unfold Q2R; cbn; lra).
  assert (U48 : Q2R (p2 (-48)) = 1 / 2 * Q2R (p2 (-47))) by (unfold Q2R; cbn; lra).
  assert (U47 : 0 < Q2R (p2 (-47)) <= / 140000000000000) by (unfold Q2R; cbn; lra).
  assert (Rr : Rabs (Q2R below_red) <= 1 / 256) by (rewrite Rabs_pos_eq; unfold Q2R, below_red; cbn [Qnum Qden]; lra).
  assert (Bhi : Rabs (Q2R hi) <= 1 / 128).
  { replace (Q2R (p2 (-8))) with (1 / 256) in BL by (unfold Q2R; cbn; lra). apply Rabs_le_inv in Bh. apply Rabs_le. lra. }
  change (prec (mkF 24 None)) with 24%Z in *. rewrite U24 in BV. rewrite U23, U48 in *.
  set (u := Q2R (p2 (-47))) in *. clearbody u.
  pose proof (Rabs_pos (Q2R below_red)) as R0. pose proof (Rabs_pos (Q2R hi)) as H0. pose proof (Rabs_pos (Q2R lo)) as l0.
  assert (UU : 8388608 * u <= / 16000000) by lra.
  assert (Bv1 : 8388608 * u * (8388608 * u * Rabs (Q2R below_red)) <= 8388608 * u * (/ 16000000 * (1 / 256))).
  { apply Rmult_le_compat_l; [lra|]. apply Rmult_le_compat; lra. }
  assert (Bv2 : 8388608 * u * (8388608 * u * Rabs (Q2R hi)) <= 8388608 * u * (/ 16000000 * (1 / 128))).
  { apply Rmult_le_compat_l; [lra|]. apply Rmult_le_compat; lra. }
  assert (Bv3 : 8388608 * u * Rabs (Q2R lo) <= 8388608 * u * (/ 8388608 + / 10000000000)) by (apply Rmult_le_compat_l; lra).
  assert (BV' : Rabs (Q2R V - (Q2R below_red + Q2R below_red * Q2R (poly red) + 0 - (Q2R hi + Q2R lo))) <= 3.3 * u).
  { eapply Rle_trans; [exact BV|]. lra. }
  clear BV.
  pose proof (rnd_rel F ltac:(cbn [prec F]; lia) rnd Hr V eq_refl) as N. apply Qabs_R in N. rewrite Q2R_minus, Q2R_mult, Q2R_abs in N.
  change (- prec F)%Z with (- (24))%Z in N. rewrite U24 in N.
  assert (U24' : Q2R (p2 (-24)) = 8388608 * u) by exact U24. rewrite U24' in Lb'.
  destruct (Rle_lt_dec (12 * u) (Rabs (Q2R (rnd V) - (ln (1 + Q2R below_red) - Lg)))) as [G|G]; [exact G|exfalso].
  set (L := ln (1 + Q2R below_red) - Lg) in *. set (z := Q2R (rnd V)) in *. set (y := Q2R V) in *.
  assert (Ny : 8388608 * u * Rabs y <= / 16000000 * Rabs y) by (apply Rmult_le_compat_r; [apply Rabs_pos|lra]).
  assert (By : Rabs y <= 9.4e6 * u).
  { pose proof (Rabs_triang (z - L) L) as T. replace (z - L + L) with z in T by ring.
    pose proof (Rabs_triang z (y - z)) as T'. replace (z + (y - z)) with y in T' by ring. rewrite (Rabs_minus_sym y z) in T'. lra. }
  assert (By' : 8388608 * u * Rabs y <= 8388608 * u * (9.4e6 * u)) by (apply Rmult_le_compat_l; lra).
  assert (By2 : 8388608 * u * (9.4e6 * u) <= 0.6 * u).
  { replace (8388608 * u * (9.4e6 * u)) with ((8388608 * u) * 9.4e6 * u) by ring. apply Rmult_le_compat_r; lra. }
  replace (Q2R below_red * (1 + Q2R (poly red)) - ln (1 + Q2R below_red))
    with ((z - L) - (z - y) - (y - (Q2R below_red + Q2R below_red * Q2R (poly red) + 0 - (Q2R hi + Q2R lo))) + (Q2R lo - (Lg - Q2R hi))) in Gap
    by (unfold L; ring).
  clear - G N By' By2 BV' Be Gap U47.
  set (a1 := z - L) in *. set (a2 := z - y) in *. set (a3 := y - _) in *. set (a4 := Q2R lo - _) in *.
  clearbody a1 a2 a3 a4. apply Rabs_def2 in G. apply Rabs_le_inv in N, BV', Be. clear - G N By' By2 BV' Be Gap U47.
  unfold Rabs in Gap. destruct Rcase_abs in Gap; lra.
Qed.
