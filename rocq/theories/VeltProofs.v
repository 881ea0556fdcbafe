(* Veltkamp's splitting and Dekker's product with rounded operations, for any
   rounding to nearest: proofs shared by the Python blocks (ml_blocks.py) and
   the C library (ml_multi_prec_lib.c).  The operations are given by the
   equations they satisfy, so the order of the operands of a sum is free. *)
From Coq Require Import ZArith QArith Qabs Lia Lqa Bool.
From Verif Require Import QUtil RoundSpec RoundProofs.
Open Scope Z_scope.

Lemma Qabs_tri_low : forall a b, (Qabs a - Qabs b <= Qabs (a + b))%Q.
Proof.
  intros a b. pose proof (Qabs_triangle (a + b) (- b)) as T. rewrite Qabs_opp in T.
  assert (E : (Qabs (a + b + - b) == Qabs a)%Q) by (apply Qabs_wd; ring). lra.
Qed.
Lemma mul_abs_le : forall a b x y, (Qabs a <= x)%Q -> (Qabs b <= y)%Q -> (Qabs (a * b) <= x * y)%Q.
Proof.
  intros a b x y Ha Hb. rewrite Qabs_Qmult. pose proof (Qabs_nonneg a). pose proof (Qabs_nonneg b).
  apply Qle_trans with (Qabs a * y)%Q.
  - rewrite !(Qmult_comm (Qabs a)). apply Qmult_le_compat_r; auto.
  - apply Qmult_le_compat_r; lra.
Qed.
Lemma mult_Zmul : forall e k x, mult e x -> mult e (inject_Z k * x).
Proof. intros e k x [m Hm]. exists (k * m). rewrite Hm, inject_Z_mult. ring. Qed.

Section V.
Variable F : fmt.
Notation p := (prec F).
Variable rnd : Q -> Q.
Hypothesis Hp : 2 <= p.
Hypothesis Hr : nearest_in F rnd.
Lemma V_p1 : 1 <= p. Proof. clear - Hp; lia. Qed.

(* multiple of the smallest positive number *)
Definition onF (x : Q) : Prop := match emin F with None => True | Some k => mult k x end.
Lemma onF_comp : forall x y, (x == y)%Q -> onF x -> onF y.
Proof. intros x y E. unfold onF. destruct (emin F); auto. apply mult_comp; auto. Qed.
Lemma onF_in : forall x, inF F x -> onF x.
Proof.
  intros x (m & e & Hx & _ & He). unfold onF, exp_ok in *. destruct (emin F) as [k|]; auto.
  apply (mult_le e); auto. exists m; auto.
Qed.
Lemma onF_mult : forall e x, exp_ok F e -> mult e x -> onF x.
Proof. intros e x O M. unfold onF, exp_ok in *. destruct (emin F); auto. apply (mult_le e); auto. Qed.
Lemma onF_plus : forall x y, onF x -> onF y -> onF (x + y).
Proof. unfold onF. intros. destruct (emin F); auto. apply mult_plus; auto. Qed.
Lemma onF_minus : forall x y, onF x -> onF y -> onF (x - y).
Proof. unfold onF. intros. destruct (emin F); auto. apply mult_minus; auto. Qed.
Lemma onF_Z : forall k x, onF x -> onF (inject_Z k * x).
Proof. unfold onF. intros. destruct (emin F); auto. apply mult_Zmul; auto. Qed.
Lemma onF_rnd : forall x, onF (rnd x).
Proof. intros. apply onF_in, (rnd_inF F rnd Hr). Qed.

Lemma G_in : forall e x, onF x -> mult e x -> (Qabs x <= p2 (p + e))%Q -> inF F x.
Proof.
  intros e x O M B. unfold onF in O. destruct (emin F) as [k|] eqn:E.
  - destruct (Z.le_gt_cases k e).
    + apply (inF_intro F V_p1 e); auto. unfold exp_ok. rewrite E. auto.
    + apply (inF_intro F V_p1 k); auto; [unfold exp_ok; rewrite E; lia|].
      pose proof (p2_le (p + e) (p + k) ltac:(lia)). lra.
  - apply (inF_intro F V_p1 e); auto. unfold exp_ok. rewrite E. auto.
Qed.
Lemma G_id : forall e x, onF x -> mult e x -> (Qabs x <= p2 (p + e))%Q -> (rnd x == x)%Q.
Proof. intros. apply (rnd_id F rnd Hr). apply (G_in e); auto. Qed.
Lemma G_half : forall e x, onF x -> (Qabs x <= p2 (p + e))%Q -> (Qabs (rnd x - x) <= p2 (e - 1))%Q.
Proof.
  intros e x O B. unfold onF in O. destruct (emin F) as [k|] eqn:E.
  - destruct (Z.le_gt_cases k e).
    + apply (rnd_half F V_p1 rnd Hr); auto. unfold exp_ok. rewrite E. auto.
    + assert (I : (rnd x == x)%Q).
      { apply (rnd_id F rnd Hr). apply (inF_intro F V_p1 k); auto; [unfold exp_ok; rewrite E; lia|].
        pose proof (p2_le (p + e) (p + k) ltac:(lia)). lra. }
      rewrite I. setoid_replace (x - x)%Q with 0%Q by ring. pose proof (p2_pos (e - 1)). change (Qabs 0) with 0%Q. lra.
  - apply (rnd_half F V_p1 rnd Hr); auto. unfold exp_ok. rewrite E. auto.
Qed.
Lemma in_big : forall e x, inF F x -> (p2 (p + e - 1) <= Qabs x)%Q -> mult e x.
Proof.
  intros e x I L. destruct (Qlt_le_dec (p2 (p + e - 1)) (Qabs x)) as [H|H].
  - apply (inF_big F V_p1); auto.
  - assert (M : mult e (p2 (p + e - 1))) by (apply mult_p2; pose proof V_p1; lia).
    destruct (Qlt_le_dec x 0).
    + rewrite Qabs_neg in * by lra. apply (mult_comp _ (- p2 (p + e - 1))); [lra|]. apply mult_opp; auto.
    + rewrite Qabs_pos in * by lra. apply (mult_comp _ (p2 (p + e - 1))); [lra|]. auto.
Qed.
Lemma G_big : forall e x, onF x -> (p2 (p + e - 1) <= Qabs x)%Q -> mult e (rnd x).
Proof.
  intros e x O B.
  assert (K : exp_ok F e \/ exists k, emin F = Some k /\ e < k).
  { unfold exp_ok. destruct (emin F) as [k|]; auto. destruct (Z.le_gt_cases k e); [left; auto|right]. exists k. auto. }
  destruct K as [K|[k [K1 K2]]].
  - apply in_big; [apply (rnd_inF F rnd Hr)|]. apply (rnd_abs_ge_F F V_p1 rnd Hr); auto; [|pose proof (p2_pos (p + e - 1)); lra].
    apply (inF_intro F V_p1 e); auto; [apply mult_p2; pose proof V_p1; lia|].
    rewrite Qabs_pos by (pose proof (p2_pos (p + e - 1)); lra). apply p2_le. lia.
  - pose proof (onF_rnd x) as M. unfold onF in M. rewrite K1 in M. apply (mult_le k); auto. lia.
Qed.

(* the exponent of a non-zero number of the format *)
Lemma norm_exp : forall x, inF F x -> ~ (x == 0)%Q ->
  exists e, (p2 (p + e - 1) <= Qabs x)%Q /\ (Qabs x < p2 (p + e))%Q /\ mult e x.
Proof.
  intros x I N. assert (Hpos : (0 < Qabs x)%Q) by qabs_lra. pose proof (qlog2_spec _ Hpos) as [L1 L2].
  exists (qlog2 (Qabs x) + 1 - p). replace (p + (qlog2 (Qabs x) + 1 - p) - 1) with (qlog2 (Qabs x)) by lia.
  replace (p + (qlog2 (Qabs x) + 1 - p)) with (qlog2 (Qabs x) + 1) by lia. split; auto. split; auto.
  apply in_big; auto. replace (p + (qlog2 (Qabs x) + 1 - p) - 1) with (qlog2 (Qabs x)) by lia. auto.
Qed.

(* ---------------- Veltkamp ---------------- *)
Section Split.
Variable s : Z.
Hypothesis Hs : 1 <= s <= p - 1.
Notation C := (inject_Z (2 ^ s + 1)).
Lemma C_eq : (C == p2 s + 1)%Q.
Proof. rewrite inject_Z_plus. rewrite (p2_Z s) by lia. reflexivity. Qed.

Lemma velt_core : forall x g d xh xl e, inF F x -> (p2 (p + e - 1) <= Qabs x)%Q -> (Qabs x < p2 (p + e))%Q -> mult e x ->
  (g == rnd (C * x))%Q -> (d == rnd (x - g))%Q -> (xh == rnd (g + d))%Q -> (xl == rnd (x - xh))%Q ->
  (xh + xl == x)%Q /\ mult (s + e) xh /\ (Qabs xh <= p2 (p + e))%Q /\ (Qabs xl <= p2 (s + e - 1))%Q.
Proof.
  intros x g d xh xl e I L U M Eg Ed Eh El.
  assert (Ps : (p2 (p + e - 1) == inject_Z (2 ^ (p - 1)) * p2 e)%Q).
  { rewrite p2_prec by lia. replace (p - 1 + e) with (p + e - 1) by lia. reflexivity. }
  pose proof (onF_in x I) as Ox.
  assert (OC : onF (C * x)) by (apply onF_Z; auto).
  assert (Og : onF g) by (apply (onF_comp (rnd (C * x))); [symmetry; auto|apply onF_rnd]).
  pose proof (p2_pos e) as Pe. pose proof (p2_pos s) as Pss. pose proof (p2_pos (s + e)) as Pse.
  assert (Es : (p2 (s + e) == p2 s * p2 e)%Q) by apply p2_plus.
  assert (Ep : (p2 (p + e) == 2 * p2 (p + e - 1))%Q) by (replace (p + e) with (p + e - 1 + 1) at 1 by lia; apply p2_succ).
  assert (S2 : (2 <= p2 s)%Q) by (setoid_replace 2%Q with (p2 1) by reflexivity; apply p2_le; lia).
  assert (AC : (Qabs (C * x) == p2 s * Qabs x + Qabs x)%Q).
  { rewrite Qabs_Qmult, (Qabs_pos C) by (rewrite C_eq; lra). rewrite C_eq. ring. }
  assert (Esp : (p2 (p + (s + e)) == p2 s * p2 (p + e))%Q) by (rewrite <- p2_plus; replace (p + (s + e)) with (s + (p + e)) by lia; reflexivity).
  (* the first rounding *)
  assert (UB : (p2 s * Qabs x <= p2 s * p2 (p + e) - p2 (s + e))%Q).
  { assert (UB1 : (Qabs x <= p2 (p + e) - p2 e)%Q).
    { pose proof (mult_lt_le e (Qabs x) (2 ^ p - 1) (mult_abs e x M)) as T. replace (2 ^ p - 1 + 1) with (2 ^ p) in T by lia.
      rewrite p2_prec in T by lia. specialize (T U). unfold Z.sub in T. rewrite inject_Z_plus, Qmult_plus_distr_l, p2_prec in T by lia.
      change (inject_Z (- (1))) with (-1)%Q in T. lra. }
    rewrite Es. setoid_replace (p2 s * p2 (p + e) - p2 s * p2 e)%Q with ((p2 (p + e) - p2 e) * p2 s)%Q by ring.
    rewrite (Qmult_comm (p2 s)). apply Qmult_le_compat_r; lra. }
  assert (ER : (Qabs (g - C * x) <= p2 (s + e))%Q /\ (p2 s * p2 (p + e - 1) <= p2 s * Qabs x - Qabs (g - C * x))%Q).
  { destruct (Qlt_le_dec (p2 (p + e - 1)) (Qabs x)) as [H|H].
    - assert (E1 : (Qabs (g - C * x) <= p2 (s + e))%Q).
      { rewrite Eg. replace (s + e) with (s + e + 1 - 1) by lia. apply G_half; auto. rewrite AC.
        replace (p + (s + e + 1)) with (p + (s + e) + 1) by lia. rewrite p2_succ, Esp.
        assert (1 * p2 (p + e) <= p2 s * p2 (p + e))%Q by (apply Qmult_le_compat_r; [lra|pose proof (p2_pos (p + e)); lra]). lra. }
      split; auto.
      assert (LB : (p2 (p + e - 1) + p2 e <= Qabs x)%Q).
      { destruct (Qlt_le_dec (Qabs x) (p2 (p + e - 1) + p2 e)) as [G|G]; auto. exfalso.
        pose proof (mult_lt_le e (Qabs x) (2 ^ (p - 1)) (mult_abs e x M)) as T.
        rewrite inject_Z_plus, Qmult_plus_distr_l, <- Ps in T. change (inject_Z 1) with 1%Q in T.
        assert (Qabs x < p2 (p + e - 1) + 1 * p2 e)%Q as G' by lra. specialize (T G'). lra. }
      assert (p2 s * (p2 (p + e - 1) + p2 e) <= p2 s * Qabs x)%Q.
      { rewrite !(Qmult_comm (p2 s)). apply Qmult_le_compat_r; lra. } lra.
    - assert (E0 : (g == C * x)%Q).
      { rewrite Eg. apply (G_id (p + e - 1)); auto.
        - apply mult_Zmul. destruct (Qlt_le_dec x 0).
          + rewrite Qabs_neg in * by lra. apply (mult_comp _ (- p2 (p + e - 1))); [lra|]. apply mult_opp, mult_p2. lia.
          + rewrite Qabs_pos in * by lra. apply (mult_comp _ (p2 (p + e - 1))); [lra|]. apply mult_p2. lia.
        - rewrite AC. assert (p2 s * Qabs x <= p2 s * p2 (p + e - 1))%Q by (rewrite !(Qmult_comm (p2 s)); apply Qmult_le_compat_r; lra).
          assert (p2 (p + (p + e - 1)) == p2 p * p2 (p + e - 1))%Q by apply p2_plus.
          assert (2 * p2 s <= p2 p)%Q by (rewrite <- p2_succ; apply p2_le; lia).
          assert (2 * p2 s * p2 (p + e - 1) <= p2 p * p2 (p + e - 1))%Q by (apply Qmult_le_compat_r; [lra|pose proof (p2_pos (p + e - 1)); lra]).
          assert (1 * p2 (p + e - 1) <= p2 s * p2 (p + e - 1))%Q by (apply Qmult_le_compat_r; [lra|pose proof (p2_pos (p + e - 1)); lra]). lra. }
      assert (Z0 : (Qabs (g - C * x) == 0)%Q) by (rewrite E0; setoid_replace (C * x - C * x)%Q with 0%Q by ring; reflexivity).
      rewrite Z0. split; [lra|].
      assert (p2 s * p2 (p + e - 1) <= p2 s * Qabs x)%Q by (rewrite !(Qmult_comm (p2 s)); apply Qmult_le_compat_r; lra). lra. }
  destruct ER as [ER1 ER2].
  (* the second one *)
  assert (XG : (Qabs (x - g) <= p2 (p + (s + e)))%Q /\ (p2 (p + (s + e) - 1) <= Qabs (x - g))%Q).
  { assert (D : (x - g == - (p2 s * x) + - (g - C * x))%Q) by (rewrite C_eq; ring).
    assert (A1 : (Qabs (- (p2 s * x)) == p2 s * Qabs x)%Q) by (rewrite Qabs_opp, Qabs_Qmult, (Qabs_pos (p2 s)) by lra; reflexivity).
    split.
    - rewrite D. eapply Qle_trans; [apply Qabs_triangle|]. rewrite A1, Qabs_opp. rewrite Esp. lra.
    - rewrite D. eapply Qle_trans; [|apply Qabs_tri_low]. rewrite A1, Qabs_opp.
      replace (p + (s + e) - 1) with (s + (p + e - 1)) by lia. rewrite p2_plus. exact ER2. }
  destruct XG as [XG1 XG2].
  assert (Ogx : onF (x - g)) by (apply onF_minus; auto).
  assert (Md : mult (s + e) d) by (apply (mult_comp _ (rnd (x - g))); [symmetry; auto|]; apply G_big; auto).
  assert (Mg : mult (s + e) g).
  { apply (mult_comp _ (rnd (C * x))); [symmetry; auto|]. apply G_big; auto. rewrite AC.
    replace (p + (s + e) - 1) with (s + (p + e - 1)) by lia. rewrite p2_plus.
    assert (p2 s * p2 (p + e - 1) <= p2 s * Qabs x)%Q by (rewrite !(Qmult_comm (p2 s)); apply Qmult_le_compat_r; lra).
    pose proof (Qabs_nonneg x). lra. }
  assert (Od : onF d) by (apply (onF_comp (rnd (x - g))); [symmetry; auto|apply onF_rnd]).
  assert (HD : (Qabs (g + d - x) <= p2 (s + e - 1))%Q).
  { setoid_replace (g + d - x)%Q with (rnd (x - g) - (x - g))%Q by (rewrite Ed; ring). apply G_half; auto. }
  assert (Es1 : (p2 (s + e) == 2 * p2 (s + e - 1))%Q) by (replace (s + e) with (s + e - 1 + 1) at 1 by lia; apply p2_succ).
  assert (Mgd : mult (s + e) (g + d)) by (apply mult_plus; auto).
  assert (Bgd : (Qabs (g + d) <= p2 (p + e))%Q).
  { assert (T : (Qabs (g + d) < p2 (p + e) + p2 (s + e))%Q).
    { setoid_replace (g + d)%Q with (x + (g + d - x))%Q by ring.
      eapply Qle_lt_trans; [apply Qabs_triangle|]. lra. }
    assert (Q1 : (p2 (p + e) == inject_Z (2 ^ (p - s)) * p2 (s + e))%Q).
    { rewrite p2_prec by lia. replace (p - s + (s + e)) with (p + e) by lia. reflexivity. }
    rewrite Q1 in *. apply (mult_lt_le (s + e)); [apply mult_abs; auto|].
    rewrite inject_Z_plus, Qmult_plus_distr_l. change (inject_Z 1) with 1%Q. lra. }
  assert (Exh : (xh == g + d)%Q).
  { rewrite Eh. apply (G_id (s + e)); auto; [apply onF_plus; auto|]. pose proof (p2_le (p + e) (p + (s + e)) ltac:(lia)). lra. }
  assert (Exl : (xl == x - xh)%Q).
  { rewrite El. apply (G_id e).
    - apply onF_minus; auto. apply (onF_comp (g + d)); [symmetry; auto|apply onF_plus; auto].
    - apply mult_minus; auto. apply (mult_comp _ (g + d)); [symmetry; auto|]. apply (mult_le (s + e)); auto; lia.
    - rewrite Exh. rewrite Qabs_Qminus. pose proof (p2_le (s + e - 1) (p + e) ltac:(lia)). lra. }
  split; [rewrite Exl; ring|]. split; [apply (mult_comp _ (g + d)); [symmetry; auto|auto]|]. rewrite Exh at 1. split; auto.
  rewrite Exl, Exh, Qabs_Qminus. auto.
Qed.

Lemma velt_zero : forall x g d xh xl, (x == 0)%Q ->
  (g == rnd (C * x))%Q -> (d == rnd (x - g))%Q -> (xh == rnd (g + d))%Q -> (xl == rnd (x - xh))%Q ->
  (xh == 0)%Q /\ (xl == 0)%Q.
Proof.
  intros x g d xh xl Z Eg Ed Eh El.
  assert (R0 : forall y, (y == 0)%Q -> (rnd y == 0)%Q).
  { intros y E. rewrite (rnd_comp F rnd Hr y 0 E). apply (rnd_id F rnd Hr). apply inF_0, V_p1. }
  assert (G0 : (g == 0)%Q) by (rewrite Eg; apply R0; rewrite Z; ring).
  assert (D0 : (d == 0)%Q) by (rewrite Ed; apply R0; rewrite Z, G0; ring).
  assert (H0 : (xh == 0)%Q) by (rewrite Eh; apply R0; rewrite G0, D0; ring).
  split; auto. rewrite El. apply R0. rewrite Z, H0. ring.
Qed.

(* all the values are multiples of what x is a multiple of *)
Lemma velt_mult : forall a x g d xh xl, exp_ok F a -> mult a x ->
  (g == rnd (C * x))%Q -> (d == rnd (x - g))%Q -> (xh == rnd (g + d))%Q -> (xl == rnd (x - xh))%Q ->
  mult a xh /\ mult a xl.
Proof.
  intros a x g d xh xl O M Eg Ed Eh El.
  assert (R : forall y z, (z == rnd y)%Q -> mult a y -> mult a z).
  { intros y z E My. apply (mult_comp _ (rnd y)); [symmetry; auto|]. apply (rnd_mult F V_p1 rnd Hr); auto. }
  assert (Mg : mult a g) by (apply (R _ _ Eg), mult_Zmul; auto).
  assert (Md : mult a d) by (apply (R _ _ Ed), mult_minus; auto).
  assert (Mh : mult a xh) by (apply (R _ _ Eh), mult_plus; auto).
  split; auto. apply (R _ _ El), mult_minus; auto.
Qed.

Lemma sub_in : forall q e x, 1 <= q -> onF x -> mult e x -> (Qabs x <= p2 (q + e))%Q -> inF (mkF q (emin F)) x.
Proof.
  intros q e x Hq O M B. unfold onF in O. destruct (emin F) as [k|] eqn:E.
  - destruct (Z.le_gt_cases k e).
    + apply (inF_intro (mkF q (Some k)) Hq e); auto.
    + apply (inF_intro (mkF q (Some k)) Hq k); auto; [cbn; lia|]. cbn [prec].
      pose proof (p2_le (q + e) (q + k) ltac:(lia)). lra.
  - apply (inF_intro (mkF q None) Hq e); auto.
Qed.

Hypothesis Hs2 : 2 <= s.
(* high part: x rounded to nearest on p - s digits; low part: s - 1 digits *)
Theorem velt_exact : forall x g d xh xl, inF F x ->
  (g == rnd (C * x))%Q -> (d == rnd (x - g))%Q -> (xh == rnd (g + d))%Q -> (xl == rnd (x - xh))%Q ->
  (xh + xl == x)%Q /\ inF (mkF (p - s) (emin F)) xh /\ inF (mkF (s - 1) (emin F)) xl
  /\ (forall f, inF (mkF (p - s) (emin F)) f -> (Qabs (xh - x) <= Qabs (f - x))%Q).
Proof.
  intros x g d xh xl I Eg Ed Eh El. destruct (Qeq_dec x 0) as [Z|N].
  - destruct (velt_zero x g d xh xl Z Eg Ed Eh El) as [H0 L0]. split; [rewrite Z, H0, L0; ring|].
    split; [apply (inF_comp _ 0); [symmetry; auto|]; apply inF_0; cbn [prec]; lia|].
    split; [apply (inF_comp _ 0); [symmetry; auto|]; apply inF_0; cbn [prec]; lia|].
    intros f _. setoid_replace (xh - x)%Q with 0%Q by (rewrite H0, Z; ring). change (Qabs 0) with 0%Q. apply Qabs_nonneg.
  - destruct (norm_exp x I N) as [e [L [U M]]].
    destruct (velt_core x g d xh xl e I L U M Eg Ed Eh El) as [V1 [V2 [V3 V4]]].
    assert (Oh : onF xh) by (apply (onF_comp (rnd (g + d))); [symmetry; auto|apply onF_rnd]).
    assert (Ol : onF xl) by (apply (onF_comp (rnd (x - xh))); [symmetry; auto|apply onF_rnd]).
    assert (B : (p2 (s + e) == 2 * p2 (s + e - 1))%Q) by (replace (s + e) with (s + e - 1 + 1) at 1 by lia; apply p2_succ).
    split; auto. split.
    { apply (sub_in _ (s + e)); auto; [lia|]. replace (p - s + (s + e)) with (p + e) by lia. auto. }
    split.
    { apply (sub_in _ e); auto; [lia| |replace (s - 1 + e) with (s + e - 1) by lia; auto].
      apply (mult_comp _ (x - xh)); [lra|]. apply mult_minus; auto. apply (mult_le (s + e)); auto; lia. }
    intros f If.
    assert (X : (Qabs (xh - x) <= p2 (s + e - 1))%Q) by (setoid_replace (xh - x)%Q with (- xl)%Q by lra; rewrite Qabs_opp; auto).
    (* any multiple of 2^(s+e) is at least as far *)
    assert (FAR : forall z, mult (s + e) z -> (Qabs (xh - x) <= Qabs (z - x))%Q).
    { intros z Mz. destruct (Qeq_dec z xh) as [Ez|Nz]; [rewrite Ez; lra|].
      assert (D : (p2 (s + e) <= Qabs (z - xh))%Q) by (apply mult_nz; [apply mult_minus; auto|intros G; apply Nz; lra]).
      pose proof (Qabs_triangle (z - x) (x - xh)) as T. setoid_replace (z - x + (x - xh))%Q with (z - xh)%Q in T by ring.
      rewrite (Qabs_Qminus x xh) in T. lra. }
    destruct (Qlt_le_dec (p2 (p + e - 1)) (Qabs f)) as [H|H].
    + apply FAR. apply (inF_big (mkF (p - s) (emin F)) ltac:(cbn [prec]; lia)); auto. cbn [prec].
      replace (p - s + (s + e) - 1) with (p + e - 1) by lia. auto.
    + assert (MB : mult (s + e) (p2 (p + e - 1))) by (apply mult_p2; lia).
      destruct (Qlt_le_dec x 0) as [Neg|Pos].
      * pose proof (FAR (- p2 (p + e - 1))%Q (mult_opp _ _ MB)) as G. rewrite (Qabs_neg x) in L by lra.
        assert (- p2 (p + e - 1) <= f)%Q by (apply Qabs_le_iff in H; tauto).
        rewrite (Qabs_pos (- p2 (p + e - 1) - x)) in G by lra. rewrite (Qabs_pos (f - x)) by lra. lra.
      * pose proof (FAR (p2 (p + e - 1))%Q MB) as G. rewrite (Qabs_pos x) in L by lra.
        assert (f <= p2 (p + e - 1))%Q by (apply Qabs_le_iff in H; tauto).
        rewrite (Qabs_neg (p2 (p + e - 1) - x)) in G by lra. rewrite (Qabs_neg (f - x)) by lra. lra.
Qed.

(* ---------------- Dekker ---------------- *)
Hypothesis Hs3 : p <= 2 * s <= p + 1.
Hypothesis Hp4 : 4 <= p.
Lemma dekker_core : forall x y xh xl yh yl z a1 t1 a2 t2 a3 t3 a4 t4 e f a,
  (xh + xl == x)%Q -> (yh + yl == y)%Q ->
  (p2 (p + e - 1) <= Qabs x)%Q -> (Qabs x <= p2 (p + e))%Q -> mult (s + e) xh -> (Qabs xh <= p2 (p + e))%Q ->
  mult e x -> (Qabs xl <= p2 (s + e - 1))%Q ->
  (p2 (p + f - 1) <= Qabs y)%Q -> (Qabs y <= p2 (p + f))%Q -> mult (s + f) yh -> (Qabs yh <= p2 (p + f))%Q ->
  mult f y -> (Qabs yl <= p2 (s + f - 1))%Q ->
  exp_ok F a -> mult a (xh * yh) -> mult a (xh * yl) -> mult a (xl * yh) -> mult a (xl * yl) -> mult a (x * y) ->
  (z == rnd (x * y))%Q -> (a1 == rnd (xh * yh))%Q -> (t1 == rnd (a1 - z))%Q -> (a2 == rnd (xh * yl))%Q -> (t2 == rnd (t1 + a2))%Q ->
  (a3 == rnd (xl * yh))%Q -> (t3 == rnd (t2 + a3))%Q -> (a4 == rnd (xl * yl))%Q -> (t4 == rnd (t3 + a4))%Q ->
  (a1 == xh * yh)%Q /\ (a2 == xh * yl)%Q /\ (a3 == xl * yh)%Q /\ (a4 == xl * yl)%Q /\ (z + t4 == x * y)%Q.
Proof.
  intros x y xh xl yh yl z a1 t1 a2 t2 a3 t3 a4 t4 e f a Sx Sy Lx Ux Mxh Bxh Mx Bxl Ly Uy Myh Byh My Byl
    Oa M1 M2 M3 M4 MM Ez E1 F1 E2 F2 E3 F3 E4 F4.
  set (w := e + f).
  assert (Mxl : mult e xl) by (apply (mult_comp _ (x - xh)); [lra|]; apply mult_minus; auto; apply (mult_le (s + e)); auto; lia).
  assert (Myl : mult f yl) by (apply (mult_comp _ (y - yh)); [lra|]; apply mult_minus; auto; apply (mult_le (s + f)); auto; lia).
  assert (BB : forall u v m n k, (Qabs u <= p2 m)%Q -> (Qabs v <= p2 n)%Q -> m + n = k -> (Qabs (u * v) <= p2 k)%Q).
  { intros u v m n k Hu Hv <-. rewrite p2_plus. apply mul_abs_le; auto. }
  assert (RM : forall u v, (u == rnd v)%Q -> mult a v -> mult a u).
  { intros u v E M. apply (mult_comp _ (rnd v)); [symmetry; auto|]. apply (rnd_mult F V_p1 rnd Hr); auto. }
  assert (ON : forall u, mult a u -> onF u) by (intros u Hu; apply (onF_mult a); auto).
  (* the four products are exact *)
  assert (A1 : (a1 == xh * yh)%Q).
  { rewrite E1. apply (G_id (2 * s + w)); auto.
    - replace (2 * s + w) with ((s + e) + (s + f)) by (unfold w; lia). apply prod_mult; auto.
    - apply Qle_trans with (p2 (2 * p + w)); [apply (BB _ _ (p + e) (p + f)); auto; unfold w; lia|apply p2_le; lia]. }
  assert (A2 : (a2 == xh * yl)%Q).
  { rewrite E2. apply (G_id (s + w)); auto.
    - replace (s + w) with ((s + e) + f) by (unfold w; lia). apply prod_mult; auto.
    - apply Qle_trans with (p2 (p + s - 1 + w)); [apply (BB _ _ (p + e) (s + f - 1)); auto; unfold w; lia|apply p2_le; lia]. }
  assert (A3 : (a3 == xl * yh)%Q).
  { rewrite E3. apply (G_id (s + w)); auto.
    - replace (s + w) with (e + (s + f)) by (unfold w; lia). apply prod_mult; auto.
    - apply Qle_trans with (p2 (p + s - 1 + w)); [apply (BB _ _ (s + e - 1) (p + f)); auto; unfold w; lia|apply p2_le; lia]. }
  assert (B4 : (Qabs (xl * yl) <= p2 (p - 1 + w))%Q).
  { apply Qle_trans with (p2 (2 * s - 2 + w)); [apply (BB _ _ (s + e - 1) (s + f - 1)); auto; unfold w; lia|apply p2_le; lia]. }
  assert (A4 : (a4 == xl * yl)%Q).
  { rewrite E4. apply (G_id w); auto.
    - apply prod_mult; auto.
    - pose proof (p2_le (p - 1 + w) (p + w) ltac:(lia)). lra. }
  (* the product and its error *)
  assert (Oz : mult a z) by (apply (RM _ _ Ez); auto).
  assert (EZ : (Qabs (x * y - z) <= p2 (p - 1 + w))%Q).
  { rewrite Qabs_Qminus, Ez. replace (p - 1 + w) with ((p + w) - 1) by lia. apply G_half; auto.
    apply (BB _ _ (p + e) (p + f)); auto. unfold w. lia. }
  assert (Mz : mult (p - 1 + w) z).
  { apply (mult_comp _ (rnd (x * y))); [symmetry; auto|]. apply G_big; auto. rewrite Qabs_Qmult.
    replace (p + (p - 1 + w) - 1) with ((p + e - 1) + (p + f - 1)) by (unfold w; lia). rewrite p2_plus.
    pose proof (p2_pos (p + e - 1)). pose proof (p2_pos (p + f - 1)).
    apply Qle_trans with (Qabs x * p2 (p + f - 1))%Q; [apply Qmult_le_compat_r; lra|].
    rewrite !(Qmult_comm (Qabs x)). apply Qmult_le_compat_r; lra. }
  assert (P1 : (p2 (p + w) == 2 * p2 (p - 1 + w))%Q) by (replace (p + w) with (p - 1 + w + 1) by lia; apply p2_succ).
  assert (B2 : (Qabs (xh * yl) <= p2 (p + s - 1 + w))%Q) by (apply (BB _ _ (p + e) (s + f - 1)); auto; unfold w; lia).
  assert (Bxly : (Qabs (xl * y) <= p2 (p + s - 1 + w))%Q) by (apply (BB _ _ (s + e - 1) (p + f)); auto; unfold w; lia).
  assert (PS : (p2 (p + s + w) == 2 * p2 (p + s - 1 + w))%Q) by (replace (p + s + w) with (p + s - 1 + w + 1) by lia; apply p2_succ).
  assert (Q1 : (p2 (p - 1 + w) <= p2 (p + s - 1 + w))%Q) by (apply p2_le; lia).
  assert (T1 : (t1 == xh * yh - z)%Q).
  { rewrite F1. rewrite (rnd_comp F rnd Hr _ (xh * yh - z)) by (rewrite A1; ring).
    apply (G_id (p - 1 + w)); [apply ON, mult_minus; auto| |].
    - apply mult_minus; auto. apply (mult_le (2 * s + w)); [lia|].
      replace (2 * s + w) with ((s + e) + (s + f)) by (unfold w; lia). apply prod_mult; auto.
    - setoid_replace (xh * yh - z)%Q with ((x * y - z) + - (xh * yl + xl * y))%Q by (rewrite <- Sx, <- Sy; ring).
      pose proof (Qabs_triangle (x * y - z) (- (xh * yl + xl * y))) as T. pose proof (Qabs_triangle (xh * yl) (xl * y)) as T'.
      rewrite Qabs_opp in T. apply Qle_trans with (p2 (p + s + w + 1)); [rewrite p2_succ; pose proof (p2_pos (p + s - 1 + w)); lra|apply p2_le; lia]. }
  assert (Ot1 : mult a (xh * yh - z)) by (apply mult_minus; auto).
  assert (T2 : (t2 == x * y - z - xl * y)%Q).
  { rewrite F2. rewrite (rnd_comp F rnd Hr _ (x * y - z - xl * y)) by (rewrite T1, A2, <- Sx, <- Sy; ring).
    assert (EQ : (xh * yh - z + xh * yl == x * y - z - xl * y)%Q) by (rewrite <- Sx, <- Sy; ring).
    apply (G_id (s + w)).
    - apply ON. apply (mult_comp _ (xh * yh - z + xh * yl)); [auto|]. apply mult_plus; auto.
    - apply (mult_comp _ (xh * yh - z + xh * yl)); [auto|]. apply mult_plus; [apply mult_minus|].
      + apply (mult_le (2 * s + w)); [lia|]. replace (2 * s + w) with ((s + e) + (s + f)) by (unfold w; lia). apply prod_mult; auto.
      + apply (mult_le (p - 1 + w)); [lia|auto].
      + replace (s + w) with ((s + e) + f) by (unfold w; lia). apply prod_mult; auto.
    - pose proof (Qabs_triangle (x * y - z) (- (xl * y))) as T. rewrite Qabs_opp in T.
      apply Qle_trans with (p2 (p + s + w)); [|apply p2_le; lia].
      setoid_replace (x * y - z - xl * y)%Q with (x * y - z + - (xl * y))%Q by ring. lra. }
  assert (T3 : (t3 == x * y - z - xl * yl)%Q).
  { rewrite F3. rewrite (rnd_comp F rnd Hr _ (x * y - z - xl * yl)) by (rewrite T2, A3, <- Sx, <- Sy; ring).
    assert (EQ : (xh * yh - z + xh * yl + xl * yh == x * y - z - xl * yl)%Q) by (rewrite <- Sx, <- Sy; ring).
    apply (G_id (s + w)).
    - apply ON. apply (mult_comp _ (xh * yh - z + xh * yl + xl * yh)); [auto|]. apply mult_plus; auto. apply mult_plus; auto.
    - apply (mult_comp _ (xh * yh - z + xh * yl + xl * yh)); [auto|]. apply mult_plus; [apply mult_plus; [apply mult_minus|]|].
      + apply (mult_le (2 * s + w)); [lia|]. replace (2 * s + w) with ((s + e) + (s + f)) by (unfold w; lia). apply prod_mult; auto.
      + apply (mult_le (p - 1 + w)); [lia|auto].
      + replace (s + w) with ((s + e) + f) by (unfold w; lia). apply prod_mult; auto.
      + replace (s + w) with (e + (s + f)) by (unfold w; lia). apply prod_mult; auto.
    - pose proof (Qabs_triangle (x * y - z) (- (xl * yl))) as T. rewrite Qabs_opp in T.
      apply Qle_trans with (p2 (p + w)); [|apply p2_le; lia].
      setoid_replace (x * y - z - xl * yl)%Q with (x * y - z + - (xl * yl))%Q by ring. lra. }
  assert (T4 : (t4 == x * y - z)%Q).
  { rewrite F4. rewrite (rnd_comp F rnd Hr _ (x * y - z)) by (rewrite T3, A4; ring).
    apply (G_id w).
    - apply ON, mult_minus; auto.
    - apply mult_minus; [unfold w; apply prod_mult; auto|apply (mult_le (p - 1 + w)); [lia|auto]].
    - pose proof (p2_pos (p - 1 + w)); lra. }
  split; auto. split; auto. split; auto. split; auto. rewrite T4. ring.
Qed.

Theorem dekker_exact : forall x y ea eb gx dx xh xl gy dy yh yl z a1 t1 a2 t2 a3 t3 a4 t4,
  inF F x -> inF F y -> mult ea x -> mult eb y -> exp_ok F ea -> exp_ok F eb -> exp_ok F (ea + eb) ->
  (gx == rnd (C * x))%Q -> (dx == rnd (x - gx))%Q -> (xh == rnd (gx + dx))%Q -> (xl == rnd (x - xh))%Q ->
  (gy == rnd (C * y))%Q -> (dy == rnd (y - gy))%Q -> (yh == rnd (gy + dy))%Q -> (yl == rnd (y - yh))%Q ->
  (z == rnd (x * y))%Q -> (a1 == rnd (xh * yh))%Q -> (t1 == rnd (a1 - z))%Q -> (a2 == rnd (xh * yl))%Q -> (t2 == rnd (t1 + a2))%Q ->
  (a3 == rnd (xl * yh))%Q -> (t3 == rnd (t2 + a3))%Q -> (a4 == rnd (xl * yl))%Q -> (t4 == rnd (t3 + a4))%Q ->
  (a1 == xh * yh)%Q /\ (a2 == xh * yl)%Q /\ (a3 == xl * yh)%Q /\ (a4 == xl * yl)%Q /\ (z + t4 == x * y)%Q.
Proof.
  intros x y ea eb gx dx xh xl gy dy yh yl z a1 t1 a2 t2 a3 t3 a4 t4 Ix Iy Mx My Oa Ob Oab
    X1 X2 X3 X4 Y1 Y2 Y3 Y4 Ez E1 F1 E2 F2 E3 F3 E4 F4.
  destruct (velt_mult ea x gx dx xh xl Oa Mx X1 X2 X3 X4) as [Mxh Mxl].
  destruct (velt_mult eb y gy dy yh yl Ob My Y1 Y2 Y3 Y4) as [Myh Myl].
  assert (R0 : forall y z, (z == rnd y)%Q -> (y == 0)%Q -> (z == 0)%Q).
  { intros u v E E'. rewrite E, (rnd_comp F rnd Hr u 0 E'). apply (rnd_id F rnd Hr). apply inF_0, V_p1. }
  assert (ZZ : (x == 0)%Q \/ (y == 0)%Q -> (xh * yh == 0)%Q -> (xh * yl == 0)%Q -> (xl * yh == 0)%Q -> (xl * yl == 0)%Q ->
    (a1 == xh * yh)%Q /\ (a2 == xh * yl)%Q /\ (a3 == xl * yh)%Q /\ (a4 == xl * yl)%Q /\ (z + t4 == x * y)%Q).
  { intros HZ P1 P2 P3 P4. assert (P0 : (x * y == 0)%Q) by (destruct HZ as [H|H]; rewrite H; ring).
    pose proof (R0 _ _ Ez P0) as Z0. pose proof (R0 _ _ E1 P1) as A1. pose proof (R0 _ _ E2 P2) as A2.
    pose proof (R0 _ _ E3 P3) as A3. pose proof (R0 _ _ E4 P4) as A4.
    assert (T1 : (t1 == 0)%Q) by (apply (R0 _ _ F1); lra). assert (T2 : (t2 == 0)%Q) by (apply (R0 _ _ F2); lra).
    assert (T3 : (t3 == 0)%Q) by (apply (R0 _ _ F3); lra). assert (T4 : (t4 == 0)%Q) by (apply (R0 _ _ F4); lra).
    rewrite P0, P1, P2, P3, P4, Z0, T4. repeat split; auto. }
  destruct (Qeq_dec x 0) as [Zx|Nx].
  { destruct (velt_zero x gx dx xh xl Zx X1 X2 X3 X4) as [H0 L0]. apply ZZ; [auto| | | |]; rewrite ?H0, ?L0; ring. }
  destruct (Qeq_dec y 0) as [Zy|Ny].
  { destruct (velt_zero y gy dy yh yl Zy Y1 Y2 Y3 Y4) as [H0 L0]. apply ZZ; [auto| | | |]; rewrite ?H0, ?L0; ring. }
  destruct (norm_exp x Ix Nx) as [e [Lx [Ux Me]]]. destruct (norm_exp y Iy Ny) as [f [Ly [Uy Mf]]].
  destruct (velt_core x gx dx xh xl e Ix Lx Ux Me X1 X2 X3 X4) as [V1 [V2 [V3 V4]]].
  destruct (velt_core y gy dy yh yl f Iy Ly Uy Mf Y1 Y2 Y3 Y4) as [W1 [W2 [W3 W4]]].
  apply (dekker_core x y xh xl yh yl z a1 t1 a2 t2 a3 t3 a4 t4 e f (ea + eb)); auto; try (apply prod_mult; auto); lra.
Qed.
End Split.
End V.
