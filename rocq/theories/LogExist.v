(* The constants of the logarithm exist: the hypotheses of its theorems can be
   met. *)
From Coq Require Import ZArith QArith Qabs Qround Lia Bool List Reals Qreals Lra.
From Verif Require Import QUtil FpFormatModel SpecialModel RoundSpec RoundProofs RoundRne RealUtil RealLog DivModel DivProofs DivScheme DivProps LimbModel LogModel LogSpec LogLimb LogReduce LogCore LogProofs LogDouble LogProps LogNear.
Import ListNotations.
Open Scope R_scope.

Lemma nearestR_opp : forall F q x, (1 <= prec F)%Z -> nearestR F q x -> nearestR F (- q) (- x).
Proof.
  intros F q x Hp [I N]. split; [apply (inF_opp F Hp); auto|]. intros f If. rewrite Q2R_opp.
  pose proof (N (- f)%Q (inF_opp F Hp f If)) as H. rewrite Q2R_opp in H.
  replace (- Q2R q - - x) with (- (Q2R q - x)) by ring. rewrite Rabs_Ropp.
  replace (Q2R f - - x) with (- (- Q2R f - x)) by ring. rewrite Rabs_Ropp. exact H.
Qed.

(* every real number has a nearest number without bound on the exponent *)
Theorem nearestR_exists : forall p x, (1 <= p)%Z -> exists q, nearestR (mkF p None) q x.
Proof.
  intros p x Hp. set (F := mkF p None).
  assert (Pos : forall x, 0 < x -> exists q, nearestR F q x).
  { clear x. intros x Px. destruct (binade_R x ltac:(lra)) as (e & L & H). rewrite Rabs_pos_eq in L, H by lra.
    set (s := (e + 1 - p)%Z). set (n := Int_part (x / Q2R (p2 s))). destruct (base_Int_part (x / Q2R (p2 s))) as [B1 B2]. fold n in B1, B2.
    pose proof (p2R_pos s) as Ps.
    assert (Ex : x / Q2R (p2 s) * Q2R (p2 s) = x) by (field; lra). set (y := x / Q2R (p2 s)) in *. clearbody y.
    assert (C1 : IZR n * Q2R (p2 s) <= x) by (rewrite <- Ex; apply Rmult_le_compat_r; lra).
    assert (C2 : x < IZR (n + 1) * Q2R (p2 s)) by (rewrite <- Ex; apply Rmult_lt_compat_r; [lra|]; rewrite plus_IZR; lra).
    assert (Se : Q2R (p2 e) = IZR (2 ^ (p - 1)) * Q2R (p2 s)) by (rewrite <- p2R_Z, <- p2R_plus by lia; f_equal; f_equal; unfold s; lia).
    assert (Se1 : Q2R (p2 (e + 1)) = IZR (2 ^ p) * Q2R (p2 s)) by (rewrite <- p2R_Z, <- p2R_plus by lia; f_equal; f_equal; unfold s; lia).
    assert (N1 : (2 ^ (p - 1) <= n)%Z).
    { assert (A : IZR (2 ^ (p - 1)) * Q2R (p2 s) < IZR (n + 1) * Q2R (p2 s)) by lra. apply Rmult_lt_reg_r in A; [|lra]. apply lt_IZR in A. lia. }
    assert (N2 : (n < 2 ^ p)%Z).
    { assert (A : IZR n * Q2R (p2 s) < IZR (2 ^ p) * Q2R (p2 s)) by lra. apply Rmult_lt_reg_r in A; [|lra]. apply lt_IZR in A. lia. }
    pose proof (Z.pow_pos_nonneg 2 (p - 1) ltac:(lia) ltac:(lia)) as P1.
    assert (In : inF F (inject_Z n * p2 s)) by (exists n, s; split; [reflexivity|]; split; [cbn [prec F]; lia|exact I]).
    assert (In1 : inF F (inject_Z (n + 1) * p2 s)) by (exists (n + 1)%Z, s; split; [reflexivity|]; split; [cbn [prec F]; lia|exact I]).
    assert (Out : forall f, inF F f -> Q2R f <= IZR n * Q2R (p2 s) \/ IZR (n + 1) * Q2R (p2 s) <= Q2R f).
    { intros f If. destruct (Qlt_le_dec (p2 e) f) as [G|G].
      - destruct (inF_big F ltac:(cbn [prec F]; lia) s f If) as [z Ez].
        { cbn [prec F]. replace (p + s - 1)%Z with e by (unfold s; lia). eapply Qlt_le_trans; [exact G|apply Qle_Qabs]. }
        rewrite (Qeq_eqR _ _ Ez), Q2R_mult, Q2R_Z.
        destruct (Z_le_gt_dec z n); [left|right]; apply Rmult_le_compat_r; try lra; apply IZR_le; lia.
      - left. apply Qle_Rle in G. rewrite Se in G. eapply Rle_trans; [exact G|]. apply Rmult_le_compat_r; [lra|apply IZR_le; auto]. }
    destruct (Rle_lt_dec (x - IZR n * Q2R (p2 s)) (IZR (n + 1) * Q2R (p2 s) - x)) as [G|G].
    - exists (inject_Z n * p2 s)%Q. split; auto. intros f If. rewrite Q2R_mult, Q2R_Z. destruct (Out f If) as [O|O].
      + rewrite !Rabs_left1; lra.
      + rewrite (Rabs_left1 (IZR n * _ - x)) by lra. rewrite Rabs_pos_eq; lra.
    - exists (inject_Z (n + 1) * p2 s)%Q. split; auto. intros f If. rewrite Q2R_mult, Q2R_Z. destruct (Out f If) as [O|O].
      + rewrite (Rabs_pos_eq (IZR (n + 1) * _ - x)) by lra. rewrite Rabs_left1; lra.
      + rewrite !Rabs_pos_eq; lra. }
  destruct (Rtotal_order x 0) as [N|[->|P]].
  - destruct (Pos (- x) ltac:(lra)) as (q & Hq). exists (- q)%Q. rewrite <- (Ropp_involutive x). apply nearestR_opp; auto.
  - exists 0%Q. split; [apply inF_0; auto|]. intros f _. rewrite Q2R_0, Rminus_0_r, Rabs_R0. apply Rabs_pos.
  - apply Pos. exact P.
Qed.

Lemma two_words_exists : forall hs p x, (1 <= hs)%Z -> (1 <= p)%Z -> exists v, two_words hs (mkF p None) v x.
Proof.
  intros hs p x Hh Hp. destruct (nearestR_exists hs x Hh) as (h & Nh). destruct (nearestR_exists p (x - Q2R h) Hp) as (l & Nl).
  exists (h, l). split; auto.
Qed.

Lemma list_exists : forall (A : Type) (d : A) (P : nat -> A -> Prop), (forall i, exists a, P i a) ->
  forall n, exists l, forall i, (i < n)%nat -> P i (nth i l d).
Proof.
  intros A d P H n.
  assert (X : exists l, length l = n /\ forall i, (i < n)%nat -> P i (nth i l d)).
  { induction n as [|n [l [Ln IH]]]; [exists []; split; [reflexivity|lia]|]. destruct (H n) as [a Ha].
    exists (l ++ [a])%list. split; [rewrite app_length, Ln; cbn; lia|]. intros i Hi. destruct (Nat.eq_dec i n) as [->|N].
    - rewrite app_nth2 by lia. replace (n - length l)%nat with O by lia. exact Ha.
    - rewrite app_nth1 by lia. apply IH. lia. }
  destruct X as (l & _ & X). exists l. exact X.
Qed.

Theorem log_constants_exist : forall p hs, (1 <= hs)%Z -> (1 <= p)%Z -> exists c,
  c_inv c = generic_inv_approx_table /\ two_words hs (mkF p None) (c_log2_hi c, c_log2_lo c) (ln 2)
  /\ log_tables hs (mkF p None) (fun i => nth (Z.to_nat i) (c_inv c) 0%Q) (load (c_log c)) (load (c_log_tho c))
  /\ ((181 # 128) <= c_sqrt2 c <= 182 # 128)%Q.
Proof.
  intros p hs Hh Hp. set (F := mkF p None).
  destruct (two_words_exists hs p (ln 2) Hh Hp) as ([h l] & H2).
  assert (T : forall g : R -> R, exists t : list (Q * Q), nth 0 t (0%Q, 0%Q) = (0%Q, 0%Q) /\
    forall i, (1 <= i < 128)%nat -> two_words hs F (nth i t (0%Q, 0%Q)) (g (Q2R (nth i generic_inv_approx_table 0%Q)))).
  { intros g. destruct (list_exists (Q * Q) (0%Q, 0%Q) (fun i v => (i = O /\ v = (0%Q, 0%Q)) \/ (i <> O /\ two_words hs F v (g (Q2R (nth i generic_inv_approx_table 0%Q)))))) with (n := 128%nat) as (t & Ht).
    { intros [|i]; [exists (0%Q, 0%Q); left; auto|]. destruct (two_words_exists hs p (g (Q2R (nth (S i) generic_inv_approx_table 0%Q))) Hh Hp) as (v & Hv).
      exists v. right. split; [lia|exact Hv]. }
    exists t. split.
    - destruct (Ht O ltac:(lia)) as [[_ E]|[E _]]; [exact E|lia].
    - intros i Hi. destruct (Ht i ltac:(lia)) as [[E _]|[_ E]]; [lia|exact E]. }
  destruct (T ln) as (t1 & T10 & T1). destruct (T (fun r => ln (2 * r))) as (t2 & _ & T2).
  exists (mkLogCst (181 # 128) h l generic_inv_approx_table t1 t2). cbn [c_inv c_log2_hi c_log2_lo c_log c_log_tho c_sqrt2].
  split; [reflexivity|]. split; [exact H2|]. split; [|split; discriminate].
  split; [exact T10|]. intros i Hi. unfold load. split; [apply T1; lia|apply (T2 (Z.to_nat i)); lia].
Qed.

(* a polynomial for every format: the series, rounded *)
Fixpoint pw (r : Q) (n : nat) : Q := match n with O => 1%Q | S m => (r * pw r m)%Q end.
Fixpoint serQ (n : nat) (r : Q) : Q := match n with O => 0%Q | S m => (serQ m r + pw (- (1)) (S m) * (1 # Pos.of_nat (S (S m))) * pw r (S m))%Q end.
Fixpoint serR (n : nat) (x : R) : R := match n with O => 0 | S m => serR m x + (-1) ^ S m / INR (S (S m)) * x ^ S m end.

Lemma pw_R : forall r n, Q2R (pw r n) = Q2R r ^ n.
Proof. induction n as [|n IH]; cbn [pw pow]; [unfold Q2R; cbn; lra|]. rewrite Q2R_mult, IH. reflexivity. Qed.
Lemma serQ_R : forall n r, Q2R (serQ n r) = serR n (Q2R r).
Proof.
  induction n as [|n IH]; intros r; cbn [serQ serR]; [apply Q2R_0|]. rewrite Q2R_plus, !Q2R_mult, IH, !pw_R. f_equal. f_equal.
  unfold Rdiv. f_equal.
  - f_equal. unfold Q2R; cbn; lra.
  - unfold Q2R. cbn [Qnum Qden]. rewrite Rmult_1_l. f_equal. rewrite INR_IZR_INZ. f_equal. lia.
Qed.
Lemma serR_ln : forall n x, lnT (S n) x = x * (1 + serR n x).
Proof.
  induction n as [|n IH]; intros x; [cbn [lnT serR pow INR]; field|].
  change (lnT (S (S n)) x) with (lnT (S n) x + (-1) ^ S n / INR (S (S n)) * x ^ S (S n)). rewrite IH. cbn [serR].
  change (x ^ S (S n)) with (x * x ^ S n). ring.
Qed.
Lemma serR_bound : forall n x, Rabs x <= 1 / 2 -> Rabs (serR n x) <= Rabs x - Rabs x ^ S n.
Proof.
  induction n as [|n IH]; intros x Hx; [cbn [serR pow]; rewrite Rabs_R0; lra|].
  cbn [serR]. eapply Rle_trans; [apply Rabs_triang|]. specialize (IH x Hx).
  assert (A : Rabs ((-1) ^ S n / INR (S (S n)) * x ^ S n) <= 1 / 2 * Rabs x ^ S n).
  { unfold Rdiv at 1. rewrite !Rabs_mult, pow_1_abs, <- RPow_abs, Rmult_1_l.
    apply Rmult_le_compat_r; [apply pow_le, Rabs_pos|].
    assert (P : 2 <= INR (S (S n))) by (rewrite !S_INR; pose proof (pos_INR n); lra). rewrite Rabs_pos_eq; [|left; apply Rinv_0_lt_compat; lra].
    apply Rle_trans with (/ 2); [apply Rinv_le_contravar; lra|lra]. }
  assert (P : 0 <= Rabs x ^ S n) by (apply pow_le, Rabs_pos). change (Rabs x ^ S (S n)) with (Rabs x * Rabs x ^ S n).
  assert (Rabs x * Rabs x ^ S n <= 1 / 2 * Rabs x ^ S n) by (apply Rmult_le_compat_r; auto). lra.
Qed.

Definition series (p : Z) (r : Q) : Q := rne (mkF p None) (serQ (Z.to_nat p) r).
Theorem series_ok : forall p, (2 <= p)%Z -> log_poly (mkF p None) (Q2R (p2 (- p)) / 8) (series p).
Proof.
  intros p Hp r Ir Br. set (F := mkF p None) in *. pose proof (rne_nearest F ltac:(cbn [prec F]; lia)) as Hr.
  unfold series. fold F. set (P := serQ (Z.to_nat p) r) in *. pose proof (rnd_inF F (rne F) Hr P) as Is.
  pose proof (rnd_rel F ltac:(cbn [prec F]; lia) (rne F) Hr P eq_refl) as N. apply Qabs_R in N. rewrite Q2R_minus, Q2R_mult, Q2R_abs in N.
  change (- prec F)%Z with (- p)%Z in N. set (s := Q2R (rne F P)) in *.
  assert (EP : Q2R P = serR (Z.to_nat p) (Q2R r)) by apply serQ_R.
  set (x := Q2R r) in *. clearbody s. pose proof (serR_bound (Z.to_nat p) x ltac:(lra)) as BP. rewrite <- EP in BP.
  pose proof (ln_taylor (S (Z.to_nat p)) x ltac:(lra)) as T. rewrite serR_ln, <- EP in T.
  set (pp := Q2R P) in *. clearbody pp. set (U := Q2R (p2 (- p))) in *.
  assert (U4 : 0 < U <= 1 / 4).
  { split; [apply p2R_pos|]. assert (L : (p2 (- p) <= p2 (-2))%Q) by (apply p2_le; lia). apply Qle_Rle in L. replace (Q2R (p2 (-2))) with (1 / 4) in L by (unfold Q2R; cbn; lra). exact L. }
  assert (X0 := Rabs_pos x). assert (P0 : forall n, 0 <= Rabs x ^ n) by (intros; apply pow_le; auto).
  assert (PU : Rabs x ^ Z.to_nat p <= U).
  { assert (G : forall n, Rabs x ^ n <= Q2R (p2 (- Z.of_nat n))).
    { induction n as [|n IH]; [cbn [pow]; change (p2 (- Z.of_nat 0)) with 1%Q; unfold Q2R; cbn; lra|].
      cbn [pow]. replace (- Z.of_nat (S n))%Z with (-1 + - Z.of_nat n)%Z by lia. rewrite p2R_plus. replace (Q2R (p2 (-1))) with (1 / 2) by (unfold Q2R; cbn; lra).
      apply Rmult_le_compat; auto; lra. }
    specialize (G (Z.to_nat p)). rewrite Z2Nat.id in G by lia. exact G. }
  specialize (P0 (S (Z.to_nat p))) as P1.
  assert (B1 : Rabs pp <= 1 / 64) by lra.
  assert (N' : Rabs (s - pp) <= U * (1 / 64)).
  { eapply Rle_trans; [exact N|]. apply Rmult_le_compat_l; lra. }
  split; [exact Is|]. split; [apply Rabs_le_inv in N', B1; apply Rabs_le; lra|].
  assert (T5 : 2 * Rabs x ^ S (S (Z.to_nat p)) <= 1 / 32 * U * Rabs x).
  { cbn [pow]. assert (Rabs x * Rabs x ^ Z.to_nat p <= 1 / 64 * U) by (apply Rmult_le_compat; auto).
    assert (Rabs x * (Rabs x * Rabs x ^ Z.to_nat p) <= Rabs x * (1 / 64 * U)) by (apply Rmult_le_compat_l; auto). lra. }
  set (d := ln (1 + x) - x * (1 + pp)) in *.
  replace (x * (1 + s) - ln (1 + x)) with (x * (s - pp) - d) by (unfold d; ring). clearbody d.
  assert (M : Rabs (x * (s - pp)) <= Rabs x * (U * (1 / 64))) by (rewrite Rabs_mult; apply Rmult_le_compat_l; auto).
  pose proof (Rabs_triang (x * (s - pp)) (- d)) as Tr. rewrite Rabs_Ropp in Tr. replace (x * (s - pp) + - d) with (x * (s - pp) - d) in Tr by ring.
  assert (0 <= U * Rabs x) by (apply Rmult_le_pos; lra). lra.
Qed.

(* the hypotheses of log_far, log_around_one, log_above_one, log_one,
   log_below_one_refuted and log_mismatch_refuted *)
Example log_case : forall p hs, (12 <= p)%Z -> (10 <= hs < p)%Z -> exists c,
  nearest_in (mkF p None) (rne (mkF p None)) /\ log_poly (mkF p None) (Q2R (p2 (- p)) / 8) (series p) /\ 0 <= Q2R (p2 (- p)) / 8 <= Q2R (p2 (- p)) / 8
  /\ table_ok (265 # 32768) (c_inv c) = true /\ c_inv c = generic_inv_approx_table
  /\ two_words hs (mkF p None) (c_log2_hi c, c_log2_lo c) (ln 2)
  /\ log_tables hs (mkF p None) (fun i => nth (Z.to_nat i) (c_inv c) 0%Q) (load (c_log c)) (load (c_log_tho c))
  /\ ((181 # 128) <= c_sqrt2 c <= 182 # 128)%Q.
Proof.
  intros p hs Hp Hhs. destruct (log_constants_exist p hs ltac:(lia) ltac:(lia)) as (c & H1 & H2 & H3 & H4). exists c.
  split; [apply rne_nearest; cbn; lia|]. split; [apply series_ok; lia|]. split; [pose proof (p2R_pos (- p)); lra|].
  split; [rewrite H1; exact generic_table_accuracy|]. split; [exact H1|]. split; [exact H2|]. split; [exact H3|]. exact H4.
Qed.
Example log_sizes : hi_size 23 8 = 14%Z /\ hi_size 52 11 = 40%Z.
Proof. split; reflexivity. Qed.
(* data of the theorems *)
Example log_far_case : inF (mkF 24 None) 10%Q /\ (Z.abs (qlog2 10) < 2 ^ (24 - hi_size 23 8))%Z /\ ((182 # 128) < 10)%Q.
Proof. split; [exists 10%Z, 0%Z; split; [reflexivity|split; [vm_compute; discriminate|exact I]]|split; reflexivity]. Qed.
Example log_subnormal_case : inF (mkF 24 None) (p2 (-149)) /\ (Z.abs (qlog2 (p2 (-149))) < 2 ^ (24 - hi_size 23 8))%Z /\ (2 * p2 (-149) <= 181 # 128)%Q.
Proof. split; [exists 1%Z, (-149)%Z; split; [reflexivity|split; [vm_compute; discriminate|exact I]]|split; [reflexivity|vm_compute; discriminate]]. Qed.
Example log_above_case : inF (mkF 24 None) (16777218 # 16777216)%Q /\ (1 < 16777218 # 16777216)%Q /\ ((16777218 # 16777216) < 129 # 128)%Q.
Proof. split; [exists 8388609%Z, (-23)%Z; split; [reflexivity|split; [vm_compute; discriminate|exact I]]|split; reflexivity]. Qed.
(* 1.5 - 2^-52 in binary64 *)
Example log_mismatch_case : let x := (6755399441055743 # 4503599627370496)%Q in
  inF (mkF 53 None) x /\ (1 + inject_Z (63 + 1) / 128 - p2 (- (24)) < mant_of x)%Q /\ (mant_of x < 1 + inject_Z (63 + 1) / 128)%Q
  /\ (10 <= hi_size 52 11 < 53)%Z /\ (Z.abs (qlog2 x) < 2 ^ (53 - hi_size 52 11))%Z.
Proof.
  cbv zeta. split; [exists 6755399441055743%Z, (-52)%Z; split; [reflexivity|split; [vm_compute; discriminate|exact I]]|].
  split; [reflexivity|]. split; [reflexivity|]. split; [cbn; lia|reflexivity].
Qed.
Example log_special_case : ieee_log_special MZero = Some MInf /\ ieee_log_special (Num (-1)) = Some QNaN.
Proof. split; reflexivity. Qed.

Print Assumptions log_special.
Print Assumptions log_far.
Print Assumptions log_mismatch_refuted.
Print Assumptions log_below_one_refuted.
