(* Exact rational helpers: powers of two, binary logarithm, roundings.
   Sollya numbers are modelled as exact rationals (trusted simplification:
   Sollya evaluates these expressions exactly or with enough precision for
   floor/comparison to be exact). *)
From Coq Require Import ZArith QArith Qround Qabs Lia Lqa Bool.
From Coq Require Import Qfield.
Open Scope Z_scope.

(* 2^e for any integer exponent; models S2**e in the Python code *)
Definition p2 (e : Z) : Q :=
  if 0 <=? e then inject_Z (2 ^ e) else 1 # (Z.to_pos (2 ^ (- e))).

(* floor(log2 v) for v > 0; models sollya.floor(sollya.log2(v)) *)
Definition qlog2 (v : Q) : Z :=
  let l := Z.log2 (Qnum v) - Z.log2 (Zpos (Qden v)) in
  if Qle_bool (p2 l) v then l else l - 1.

(* nearest integer, ties to even; models sollya.nearestint / RN *)
Definition qrne (q : Q) : Z :=
  let fl := Qfloor q in
  let r := (q - inject_Z fl)%Q in
  match Qcompare r (1 # 2) with
  | Lt => fl
  | Gt => fl + 1
  | Eq => if Z.even fl then fl else fl + 1
  end.

(* int(v): truncation toward zero *)
Definition qtrunc (q : Q) : Z := if Qle_bool 0 q then Qfloor q else Qceiling q.

Lemma p2_Z : forall e, 0 <= e -> (p2 e == inject_Z (2 ^ e))%Q.
Proof. intros e H. unfold p2. destruct (Z.leb_spec 0 e); [reflexivity | lia]. Qed.

Lemma p2_neg : forall e, e < 0 -> (p2 e == / inject_Z (2 ^ (- e)))%Q.
Proof.
  intros e H. unfold p2. destruct (Z.leb_spec 0 e); [lia|].
  assert (0 < 2 ^ (- e)) by (apply Z.pow_pos_nonneg; lia).
  destruct (2 ^ (- e)) as [|p|p] eqn:E; try lia. reflexivity.
Qed.

Lemma p2_pos : forall e, (0 < p2 e)%Q.
Proof.
  intros e. unfold p2. destruct (Z.leb_spec 0 e).
  - unfold Qlt; cbn. assert (0 < 2 ^ e) by (apply Z.pow_pos_nonneg; lia). lia.
  - unfold Qlt; cbn. lia.
Qed.

Lemma p2_nz : forall e, ~ (p2 e == 0)%Q.
Proof. intros e H. pose proof (p2_pos e). lra. Qed.

Lemma pow2_pos : forall e, 0 <= e -> 0 < 2 ^ e.
Proof. intros; apply Z.pow_pos_nonneg; lia. Qed.

Lemma inj_nz : forall z, z <> 0 -> ~ (inject_Z z == 0)%Q.
Proof. intros z H E. unfold Qeq in E; cbn in E. lia. Qed.

Lemma p2_plus_nn : forall a b, 0 <= a -> 0 <= b -> (p2 (a + b) == p2 a * p2 b)%Q.
Proof.
  intros. rewrite !p2_Z by lia. rewrite <- inject_Z_mult.
  rewrite Z.pow_add_r by lia. reflexivity.
Qed.

Lemma p2_opp : forall a, (p2 (- a) * p2 a == 1)%Q.
Proof.
  intros a. destruct (Z.lt_trichotomy a 0) as [H|[H|H]].
  - rewrite (p2_Z (- a)) by lia. rewrite (p2_neg a) by lia.
    apply Qmult_inv_r. apply inj_nz. pose proof (pow2_pos (- a)). lia.
  - subst. reflexivity.
  - rewrite (p2_Z a) by lia. rewrite (p2_neg (- a)) by lia.
    rewrite Z.opp_involutive. rewrite Qmult_comm.
    apply Qmult_inv_r. apply inj_nz. pose proof (pow2_pos a). lia.
Qed.

Lemma p2_sub_nn : forall a b, 0 <= a -> 0 <= b -> (p2 (a - b) * p2 b == p2 a)%Q.
Proof.
  intros a b Ha Hb. destruct (Z.le_gt_cases b a).
  - rewrite <- p2_plus_nn by lia. replace (a - b + b) with a by lia. reflexivity.
  - replace b with (a + (b - a)) at 2 by lia. rewrite p2_plus_nn by lia.
    replace (a - b) with (- (b - a)) by lia.
    transitivity (p2 a * (p2 (- (b - a)) * p2 (b - a)))%Q; [ring|].
    rewrite p2_opp. ring.
Qed.

Lemma p2_plus : forall a b, (p2 (a + b) == p2 a * p2 b)%Q.
Proof.
  intros a b.
  set (n := Z.abs a + Z.abs b).
  assert (H : (p2 (a + b) * (p2 n * p2 n) == (p2 a * p2 b) * (p2 n * p2 n))%Q).
  { transitivity (p2 (a + n) * p2 (b + n))%Q.
    - rewrite <- (p2_plus_nn (a + n) (b + n)) by lia.
      rewrite <- (p2_plus_nn n n) by lia.
      pose proof (p2_sub_nn (a + n + (b + n)) (n + n) ltac:(lia) ltac:(lia)) as H0.
      replace (a + n + (b + n) - (n + n)) with (a + b) in H0 by lia. exact H0.
    - pose proof (p2_sub_nn (a + n) n ltac:(lia) ltac:(lia)) as H1.
      pose proof (p2_sub_nn (b + n) n ltac:(lia) ltac:(lia)) as H2.
      replace (a + n - n) with a in H1 by lia.
      replace (b + n - n) with b in H2 by lia.
      rewrite <- H1, <- H2. ring. }
  apply (Qmult_inj_r _ _ (p2 n * p2 n)%Q); [|exact H].
  intro E. pose proof (p2_pos n). nra.
Qed.

Lemma p2_lt : forall a b, a < b -> (p2 a < p2 b)%Q.
Proof.
  intros a b H. replace b with (a + (b - a)) by lia. rewrite p2_plus.
  assert (1 < p2 (b - a))%Q.
  { rewrite p2_Z by lia. change 1%Q with (inject_Z 1). rewrite <- Zlt_Qlt.
    apply Z.pow_gt_1; lia. }
  pose proof (p2_pos a). nra.
Qed.

Lemma p2_le : forall a b, a <= b -> (p2 a <= p2 b)%Q.
Proof.
  intros a b H. destruct (Z.eq_dec a b); [subst; lra|].
  apply Qlt_le_weak, p2_lt; lia.
Qed.

Lemma p2_lt_inv : forall a b, (p2 a < p2 b)%Q -> a < b.
Proof.
  intros a b H. destruct (Z.lt_ge_cases a b); auto.
  pose proof (p2_le b a ltac:(lia)). lra.
Qed.

Lemma p2_succ : forall a, (p2 (a + 1) == 2 * p2 a)%Q.
Proof. intros. rewrite p2_plus. change (p2 1) with (2 # 1). ring. Qed.

Lemma p2_0 : (p2 0 == 1)%Q.
Proof. reflexivity. Qed.

(* the binade of a positive number is unique *)
Lemma binade_unique : forall v a b,
  (p2 a <= v)%Q -> (v < p2 (a + 1))%Q -> (p2 b <= v)%Q -> (v < p2 (b + 1))%Q -> a = b.
Proof.
  intros. assert (a < b + 1) by (apply p2_lt_inv; lra).
  assert (b < a + 1) by (apply p2_lt_inv; lra). lia.
Qed.

Lemma qlog2_spec : forall v, (0 < v)%Q -> (p2 (qlog2 v) <= v)%Q /\ (v < p2 (qlog2 v + 1))%Q.
Proof.
  intros [n d] H. unfold qlog2. cbn [Qnum Qden].
  assert (Hn : 0 < n) by (unfold Qlt in H; cbn in H; lia).
  set (ln := Z.log2 n). set (ld := Z.log2 (Zpos d)).
  pose proof (Z.log2_spec n Hn) as [L1 L2]. fold ln in L1, L2.
  pose proof (Z.log2_spec (Zpos d) ltac:(lia)) as [D1 D2]. fold ld in D1, D2.
  pose proof (Z.log2_nonneg n). fold ln in H0.
  pose proof (Z.log2_nonneg (Zpos d)). fold ld in H1.
  assert (Ev : (n # d == inject_Z n / inject_Z (Zpos d))%Q) by (rewrite Qmake_Qdiv; reflexivity).
  assert (Dp : (0 < inject_Z (Zpos d))%Q) by (unfold Qlt; cbn; lia).
  assert (Dv : ((n # d) * inject_Z (Zpos d) == inject_Z n)%Q).
  { rewrite Ev. field. intro E. lra. }
  rewrite Zle_Qle in L1, D1. rewrite Zlt_Qlt in L2, D2.
  rewrite <- p2_Z in L1, D1 by lia. rewrite <- p2_Z in L2, D2 by lia.
  assert (E1 : (p2 ln == p2 (ln - ld) * p2 ld)%Q).
  { rewrite <- p2_plus. replace (ln - ld + ld) with ln by lia. reflexivity. }
  replace (Z.succ ln) with (ln + 1) in L2 by lia.
  replace (Z.succ ld) with (ld + 1) in D2 by lia.
  rewrite p2_succ in L2, D2.
  pose proof (p2_pos (ln - ld)) as P. pose proof (p2_pos ld) as P'.
  set (X := (n # d)) in *. set (D := inject_Z (Zpos d)) in *.
  set (l := p2 (ln - ld)) in *. set (dd := p2 ld) in *.
  assert (U : (X < 2 * l)%Q).
  { destruct (Qlt_le_dec X (2 * l)) as [|C]; auto. exfalso.
    assert (2 * l * D <= X * D)%Q by (apply Qmult_le_compat_r; lra).
    assert (l * dd <= l * D)%Q by (rewrite !(Qmult_comm l); apply Qmult_le_compat_r; lra).
    lra. }
  assert (Lw : (l < 2 * X)%Q).
  { destruct (Qlt_le_dec l (2 * X)) as [|C]; auto. exfalso.
    assert (2 * X * D <= l * D)%Q by (apply Qmult_le_compat_r; lra).
    assert (l * D < l * (2 * dd))%Q by (apply Qmult_lt_l; lra).
    lra. }
  destruct (Qle_bool l X) eqn:E.
  - apply Qle_bool_iff in E. split; [exact E|].
    rewrite p2_succ. fold l. lra.
  - assert (~ (l <= X)%Q) by (intro C; apply Qle_bool_iff in C; congruence).
    replace (ln - ld - 1 + 1) with (ln - ld) by lia. fold l. split; [|lra].
    assert (2 * p2 (ln - ld - 1) == l)%Q.
    { rewrite <- p2_succ. replace (ln - ld - 1 + 1) with (ln - ld) by lia. reflexivity. }
    lra.
Qed.

Lemma qlog2_unique : forall v e, (p2 e <= v)%Q -> (v < p2 (e + 1))%Q -> qlog2 v = e.
Proof.
  intros v e H1 H2. pose proof (p2_pos e).
  destruct (qlog2_spec v ltac:(lra)). eapply binade_unique; eauto.
Qed.

Lemma Qfloor_unique : forall q z, (inject_Z z <= q)%Q -> (q < inject_Z (z + 1))%Q -> Qfloor q = z.
Proof.
  intros q z H1 H2.
  pose proof (Qfloor_le q). pose proof (Qlt_floor q).
  assert (inject_Z (Qfloor q) < inject_Z (z + 1))%Q by lra.
  assert (inject_Z z < inject_Z (Qfloor q + 1))%Q by lra.
  rewrite <- Zlt_Qlt in *. lia.
Qed.

Lemma Qfloor_int : forall q z, (q == inject_Z z)%Q -> Qfloor q = z.
Proof. intros q z H. rewrite H. apply Qfloor_Z. Qed.

Lemma qrne_int : forall q z, (q == inject_Z z)%Q -> qrne q = z.
Proof.
  intros q z H. unfold qrne. rewrite (Qfloor_int q z H).
  assert (E : Qcompare (q - inject_Z z) (1 # 2) = Lt).
  { apply (proj1 (Qlt_alt _ _)). lra. }
  rewrite E. reflexivity.
Qed.

Lemma qrne_comp : forall a b, (a == b)%Q -> qrne a = qrne b.
Proof.
  intros a b E. unfold qrne. rewrite (Qfloor_comp a b E).
  rewrite (Qcompare_comp (a - inject_Z (Qfloor b))%Q (b - inject_Z (Qfloor b))%Q) with (y := (1 # 2)%Q); [reflexivity| |reflexivity].
  rewrite E. reflexivity.
Qed.

(* |qrne q - q| <= 1/2 *)
Lemma qrne_half : forall q, (Qabs (inject_Z (qrne q) - q) <= 1 # 2)%Q.
Proof.
  intros q. unfold qrne.
  pose proof (Qfloor_le q). pose proof (Qlt_floor q) as H0.
  rewrite inject_Z_plus in H0. change (inject_Z 1) with 1%Q in H0.
  apply Qabs_Qle_condition.
  destruct (Qcompare (q - inject_Z (Qfloor q)) (1 # 2)) eqn:E.
  - apply Qeq_alt in E. destruct (Z.even _); rewrite ?inject_Z_plus; change (inject_Z 1) with 1%Q; lra.
  - apply Qlt_alt in E. lra.
  - apply Qgt_alt in E. rewrite inject_Z_plus; change (inject_Z 1) with 1%Q; lra.
Qed.

(* a tie always goes to the even integer *)
Lemma qrne_tie : forall q z, (q - inject_Z z == 1 # 2)%Q -> qrne q = (if Z.even z then z else z + 1).
Proof.
  intros q z H. unfold qrne.
  assert (F : Qfloor q = z).
  { apply Qfloor_unique; [lra | rewrite inject_Z_plus; change (inject_Z 1) with 1%Q; lra]. }
  rewrite F. rewrite (proj1 (Qeq_alt _ _)); auto.
Qed.

Lemma qrne_mono : forall a b, (a <= b)%Q -> qrne a <= qrne b.
Proof.
  intros a b H.
  pose proof (qrne_half a) as Ha. pose proof (qrne_half b) as Hb.
  apply Qabs_Qle_condition in Ha. apply Qabs_Qle_condition in Hb.
  destruct (Z.le_gt_cases (qrne a) (qrne b)) as [|C]; auto. exfalso.
  assert (L : (inject_Z (qrne b + 1) <= inject_Z (qrne a))%Q) by (rewrite <- Zle_Qle; lia).
  rewrite inject_Z_plus in L. change (inject_Z 1) with 1%Q in L.
  assert (E : (a == b)%Q) by lra.
  rewrite (qrne_comp a b E) in C. lia.
Qed.

Lemma qrne_bounds_int : forall q z, (q <= inject_Z z)%Q -> qrne q <= z.
Proof. intros q z H. rewrite <- (qrne_int (inject_Z z) z ltac:(reflexivity)). apply qrne_mono; auto. Qed.

Lemma qrne_bounds_int_l : forall q z, (inject_Z z <= q)%Q -> z <= qrne q.
Proof. intros q z H. rewrite <- (qrne_int (inject_Z z) z ltac:(reflexivity)) at 1. apply qrne_mono; auto. Qed.
