(* Properties of the remainder/quotient digit recurrence (C53). *)
From Coq Require Import ZArith QArith Qabs Qround Bool Lia Lqa Setoid.
From Verif Require Import QUtil FpFormatModel FpFormatProofs FixedProps RoundSpec RoundProofs RoundRne IndexModel IndexProps RemquoModel RemquoProofs.
Open Scope Z_scope.

(* IEEE-754 5.3.1 remainder: r = x - y n, n the integer nearest to x/y, even on
   a tie *)
Definition ieee_remainder (x y : Q) (n : Z) (r : Q) : Prop :=
  (r == x - inject_Z n * y)%Q /\ (2 * Qabs r <= Qabs y)%Q /\ ((2 * Qabs r == Qabs y)%Q -> Z.even n = true).
(* C99 remquo: the quotient has the sign of x/y and is congruent in magnitude to
   n modulo 2^k *)
Definition c_quotient (k : Z) (x y : Q) (n q : Z) : Prop :=
  q = (if qlt (x * y) 0 then -1 else 1) * (Z.abs n mod 2 ^ k).

Section Rq.
Variable rnd : Q -> Q.
Variables p es W qs : Z.
Notation F := (mkF p (Some es)).
(* precision at least 2; 1 is not below the smallest normal number *)
Hypothesis Hp : 2 <= p.
Hypothesis Hes : es + p <= 1.
(* quotient on W bits, at least the precision; qs bits returned *)
Hypothesis HW : p <= W.
Hypothesis Hqs : 1 <= qs < W.
Hypothesis Hr : nearest_in F rnd.

Lemma qsign_abs : forall v, (inject_Z (qsign v) * Qabs v == v)%Q.
Proof.
  intros v. unfold qsign. destruct (qlt v 0) eqn:E.
  - apply qlt_true in E. rewrite Qabs_neg by lra. change (inject_Z (-1)) with (-1)%Q. ring.
  - apply qlt_false in E. rewrite Qabs_pos by lra. change (inject_Z 1) with 1%Q. ring.
Qed.
Lemma qsign_sq : forall v, (inject_Z (qsign v) * inject_Z (qsign v) == 1)%Q.
Proof. intros v. unfold qsign. destruct (qlt v 0); reflexivity. Qed.
Lemma qsign_qabs : forall v r, (Qabs (inject_Z (qsign v) * r) == Qabs r)%Q.
Proof. intros v r. unfold qsign. rewrite Qabs_Qmult. destruct (qlt v 0); [change (Qabs (inject_Z (-1))) with 1%Q|change (Qabs (inject_Z 1)) with 1%Q]; ring. Qed.
Lemma qsign_mul : forall x y, ~ (x == 0)%Q -> ~ (y == 0)%Q -> qsign x * qsign y = if qlt (x * y) 0 then -1 else 1.
Proof.
  intros x y Nx Ny. unfold qsign.
  assert (A : forall a b, (0 < a)%Q -> (0 < b)%Q -> (0 < a * b)%Q) by (intros; apply Qmult_lt_0_compat; auto).
  destruct (qlt x 0) eqn:E1; destruct (qlt y 0) eqn:E2; rewrite ?qlt_true, ?qlt_false in *.
  - replace (qlt (x * y) 0) with false; [reflexivity|]. symmetry. apply qlt_false. pose proof (A (- x) (- y) ltac:(lra) ltac:(lra))%Q.
    setoid_replace (x * y)%Q with (- x * - y)%Q by ring. lra.
  - assert (0 < y)%Q by (destruct (Qlt_le_dec 0 y); auto; exfalso; apply Ny; lra).
    replace (qlt (x * y) 0) with true; [reflexivity|]. symmetry. apply qlt_true. pose proof (A (- x) y ltac:(lra) ltac:(lra))%Q.
    setoid_replace (x * y)%Q with (- (- x * y))%Q by ring. lra.
  - assert (0 < x)%Q by (destruct (Qlt_le_dec 0 x); auto; exfalso; apply Nx; lra).
    replace (qlt (x * y) 0) with true; [reflexivity|]. symmetry. apply qlt_true. pose proof (A x (- y) ltac:(lra) ltac:(lra))%Q.
    setoid_replace (x * y)%Q with (- (x * - y))%Q by ring. lra.
  - assert (0 < x)%Q by (destruct (Qlt_le_dec 0 x); auto; exfalso; apply Nx; lra).
    assert (0 < y)%Q by (destruct (Qlt_le_dec 0 y); auto; exfalso; apply Ny; lra).
    replace (qlt (x * y) 0) with false; [reflexivity|]. symmetry. apply qlt_false. pose proof (A x y ltac:(lra) ltac:(lra))%Q. lra.
Qed.

(* below half the divisor as computed: really below half *)
Lemma early_exit : forall vx vy, inF F vx -> inF F vy -> ~ (vx == 0)%Q -> ~ (vy == 0)%Q ->
  (Qabs vx < Qabs (rnd (vy * (1 # 2))))%Q -> (2 * Qabs vx < Qabs vy)%Q.
Proof.
  intros vx vy Fx Fy Nx Ny L. pose proof (p1 p es Hp) as Hp1.
  destruct (Qlt_le_dec (2 * Qabs vx) (Qabs vy)) as [|G]; auto. exfalso.
  assert (B : (Qabs (rnd (vy * (1 # 2))) <= Qabs vx)%Q).
  { apply (rnd_abs_le_F F Hp1 rnd Hr); [apply inF_abs; auto|]. rewrite Qabs_mul_pos by lra. lra. }
  lra.
Qed.

(* the half used by the tests is the exact half *)
Definition half_ok (vy : Q) : Prop := (Qabs vy < p2 (es + p - 1))%Q \/ inF F (vy / 2).
Lemma half_ok_eq : forall vy, inF F vy -> ~ (vy == 0)%Q -> half_ok vy -> (half rnd p es vy == Qabs vy / 2)%Q.
Proof.
  intros vy Fy Ny H. unfold half. destruct (is_sub p es vy) eqn:E; [reflexivity|].
  unfold half_y. rewrite E. unfold rm. unfold is_sub, enorm in E. apply qlt_false in E.
  destruct H as [H|H]; [lra|]. rewrite (rnd_comp F rnd Hr _ (vy / 2)) by field. rewrite (rnd_id F rnd Hr) by auto.
  unfold Qdiv. rewrite Qabs_mul_pos by reflexivity. reflexivity.
Qed.

Theorem remquo_correct : forall vx vy, inF F vx -> inF F vy -> ~ (vx == 0)%Q -> ~ (vy == 0)%Q ->
  real_e p es vx - es + 1 <= 5000 -> half_ok vy ->
  exists q r neg n, remquo rnd p es W qs vx vy = Some (q, r, neg)
  /\ ieee_remainder vx vy n r /\ c_quotient qs vx vy n q
  /\ (~ Qabs vx == Qabs vy -> r == 0 -> neg = qlt vx 0)%Q.
Proof.
  intros vx vy Fx Fy Nx Ny Hwd Hh. pose proof (p1 p es Hp) as Hp1.
  pose proof (Qabs_nz vx Nx) as Px. pose proof (Qabs_nz vy Ny) as Py.
  unfold remquo. destruct (qlt (Qabs vx) (Qabs (rm rnd vy (1 # 2)))) eqn:E1.
  { apply qlt_true in E1. apply early_exit in E1; auto. exists 0, vx, (qlt vx 0), 0. split; [reflexivity|]. split; [|split].
    - split; [change (inject_Z 0) with 0%Q; ring|]. split; [lra|]. intros; lra.
    - unfold c_quotient. change (Z.abs 0) with 0. rewrite Zmod_0_l. lia.
    - auto. }
  assert (P1 : 1 mod 2 ^ qs = 1).
  { apply Z.mod_small. pose proof (Z.pow_le_mono_r 2 1 qs ltac:(lia) ltac:(lia)). lia. }
  assert (Z0 : (rsub rnd vx vx == 0)%Q) by (apply (rsub_exact rnd p es Hr); [ring|]; apply inF_0; auto).
  destruct (Qeq_bool vx vy) eqn:E2.
  { apply Qeq_bool_iff in E2. exists 1, (rsub rnd vx vx), false, 1. split; [reflexivity|]. split; [|split].
    - split; [rewrite Z0, E2; change (inject_Z 1) with 1%Q; ring|]. rewrite Z0. change (Qabs 0) with 0%Q. split; [lra|]. intros; lra.
    - unfold c_quotient. change (Z.abs 1) with 1. rewrite P1.
      replace (qlt (vx * vy) 0) with false; [reflexivity|]. symmetry. apply qlt_false. rewrite E2.
      destruct (Qlt_le_dec vy 0); [setoid_replace (vy * vy)%Q with (- vy * - vy)%Q by ring|]; apply Qmult_le_0_compat; lra.
    - intros C. exfalso. apply C. rewrite E2. reflexivity. }
  destruct (Qeq_bool vx (- vy)) eqn:E3.
  { apply Qeq_bool_iff in E3. exists (-1), (rsub rnd vx vx), false, (-1). split; [reflexivity|]. split; [|split].
    - split; [rewrite Z0, E3; change (inject_Z (-1)) with (-1)%Q; ring|]. rewrite Z0. change (Qabs 0) with 0%Q. split; [lra|]. intros; lra.
    - unfold c_quotient. change (Z.abs (-1)) with 1. rewrite P1.
      replace (qlt (vx * vy) 0) with true; [reflexivity|]. symmetry. apply qlt_true. rewrite E3.
      assert (0 < vy * vy)%Q; [|lra]. destruct (Qlt_le_dec vy 0); [setoid_replace (vy * vy)%Q with (- vy * - vy)%Q by ring; apply Qmult_lt_0_compat; lra|].
      assert (0 < vy)%Q by (destruct (Qlt_le_dec 0 vy); auto; exfalso; apply Ny; lra). apply Qmult_lt_0_compat; auto.
    - intros C. exfalso. apply C. rewrite E3, Qabs_opp. reflexivity. }
  destruct (digit_loop_spec rnd p es W qs Hp Hes HW ltac:(lia) Hr vx vy Fx Fy Nx Ny Hwd) as (k0 & m & r & K0 & M0 & M1 & Fm & T & E & R).
  pose proof (half_ok_eq vy Fy Ny Hh) as Eh.
  set (adj := adjust rnd p es W vy m k0) in *.
  assert (Had : (adj = 0 /\ (2 * m <= Qabs vy)%Q /\ ((2 * m == Qabs vy)%Q -> Z.even k0 = true))
             \/ (adj = 1 /\ (Qabs vy <= 2 * m)%Q /\ ((2 * m == Qabs vy)%Q -> Z.even (k0 + 1) = true))).
  { assert (Hd : (half rnd p es vy * 2 == Qabs vy)%Q) by (rewrite Eh; field).
    unfold adj, adjust. destruct (qlt (half rnd p es vy) m) eqn:Et; cbn [orb].
    - apply qlt_true in Et. right. split; [reflexivity|]. split; [lra|]. intros; lra.
    - apply qlt_false in Et. destruct (Qeq_bool m (half rnd p es vy)) eqn:Ee; cbn [andb].
      + apply Qeq_bool_iff in Ee. assert (Tie : (2 * m == Qabs vy)%Q) by lra.
        rewrite (tie_small p es W Hp HW vx vy k0 m) by auto. rewrite Z.rem_mod_nonneg by lia.
        destruct (Z.eqb_spec (k0 mod 2) 1) as [Eo|No].
        * right. split; [reflexivity|]. split; [lra|]. intros _. rewrite Z.add_1_r, Z.even_succ. apply Z.odd_spec.
          exists (k0 / 2). pose proof (Z.div_mod k0 2). lia.
        * left. split; [reflexivity|]. split; [lra|]. intros _. apply Z.even_spec. exists (k0 / 2).
          pose proof (Z.div_mod k0 2). pose proof (Z.mod_pos_bound k0 2). lia.
      + left. split; [reflexivity|]. split; [lra|]. intros Tie. exfalso.
        assert (m == half rnd p es vy)%Q as X by lra. apply Qeq_bool_iff in X. congruence. }
  assert (Fr : inF F (m - inject_Z adj * Qabs vy)).
  { destruct Had as [(-> & _)|(-> & A & _)].
    - apply (inF_comp F m); [change (inject_Z 0) with 0%Q; ring|auto].
    - apply (inF_comp F (m - Qabs vy)); [change (inject_Z 1) with 1%Q; ring|]. apply sterbenz; auto; [apply inF_abs; auto|lra]. }
  specialize (R Fr). set (n := k0 + adj) in *.
  assert (Hn : 0 <= n) by (unfold n; destruct Had as [(-> & _)|(-> & _)]; lia).
  exists (qsign vx * qsign vy * (n mod 2 ^ qs)), r, (xorb (qlt vx 0) (qlt (inject_Z (qsign vx) * r) 0)), (qsign vx * qsign vy * n).
  split; [exact E|].
  assert (En : (m - inject_Z adj * Qabs vy == Qabs vx - inject_Z n * Qabs vy)%Q).
  { rewrite <- T. unfold n. rewrite inject_Z_plus. ring. }
  split; [|split].
  - split; [|split].
    + rewrite R, En, !inject_Z_mult. 
      setoid_replace (vx - inject_Z (qsign vx) * inject_Z (qsign vy) * inject_Z n * vy)%Q
        with (vx - inject_Z (qsign vx) * inject_Z n * (inject_Z (qsign vy) * vy))%Q by ring.
      assert (Ey : (inject_Z (qsign vy) * vy == Qabs vy)%Q).
      { rewrite <- (qsign_abs vy) at 2. rewrite Qmult_assoc, qsign_sq. ring. }
      rewrite Ey. rewrite <- (qsign_abs vx) at 3. ring.
    + rewrite R, qsign_qabs. destruct Had as [(-> & A & _)|(-> & A & _)].
      * change (inject_Z 0) with 0%Q. rewrite Qabs_pos by lra. lra.
      * change (inject_Z 1) with 1%Q. rewrite Qabs_neg by lra. lra.
    + rewrite R, qsign_qabs. intros Tie.
      assert (Ev : Z.even n = true).
      { unfold n. destruct Had as [(Ea & A & B)|(Ea & A & B)]; rewrite Ea in *.
        - change (inject_Z 0) with 0%Q in Tie. rewrite Qabs_pos in Tie by lra. rewrite Z.add_0_r. apply B. lra.
        - change (inject_Z 1) with 1%Q in Tie. rewrite Qabs_neg in Tie by lra. apply B. lra. }
      rewrite !Z.even_mul, Ev. apply orb_true_r.
  - unfold c_quotient. rewrite <- qsign_mul by auto. f_equal. rewrite !Z.abs_mul. replace (Z.abs (qsign vx)) with 1 by (unfold qsign; destruct (qlt vx 0); reflexivity).
    replace (Z.abs (qsign vy)) with 1 by (unfold qsign; destruct (qlt vy 0); reflexivity). rewrite !Z.mul_1_l, Z.abs_eq by auto. reflexivity.
  - intros _ Hz. replace (qlt (inject_Z (qsign vx) * r) 0) with false; [apply xorb_false_r|]. symmetry. apply qlt_false. rewrite Hz. lra.
Qed.

(* equal operands: the zero returned never has the sign of a negative x *)
Theorem remquo_zero_sign_refuted : forall v, inF F v -> (v < 0)%Q ->
  exists r, remquo rnd p es W qs v v = Some (1, r, false) /\ (r == 0)%Q /\ qlt v 0 = true.
Proof.
  intros v Fv Nv. pose proof (p1 p es Hp) as Hp1. exists (rsub rnd v v).
  assert (E1 : qlt (Qabs v) (Qabs (rm rnd v (1 # 2))) = false).
  { apply qlt_false. apply (rnd_abs_le_F F Hp1 rnd Hr); [apply inF_abs; auto|]. rewrite Qabs_mul_pos by lra.
    pose proof (Qabs_nonneg v). lra. }
  split; [|split].
  - unfold remquo. rewrite E1. replace (Qeq_bool v v) with true; [reflexivity|]. symmetry. apply Qeq_bool_iff. reflexivity.
  - apply (rsub_exact rnd p es Hr); [ring|]. apply inF_0; auto.
  - apply qlt_true. auto.
Qed.

(* special operands *)
Theorem remquo_special : forall x y,
  ((x = QNaN \/ x = SNaN \/ y = QNaN \/ y = SNaN \/ y = PZero \/ y = MZero
    \/ (x = PInf \/ x = MInf)) -> scheme rnd p es W qs x y = Res 0 QNaN)
  /\ ((x = PZero \/ x = MZero) -> (exists v, y = Num v) \/ y = PInf \/ y = MInf -> scheme rnd p es W qs x y = Res 0 x)
  /\ ((exists v, x = Num v) -> y = PInf \/ y = MInf -> scheme rnd p es W qs x y = Res 0 x).
Proof.
  intros x y. split; [|split].
  - intros H. unfold scheme. destruct x, y; cbn; try reflexivity; exfalso; intuition congruence.
  - intros [-> | ->] [[v ->]|[-> | ->]]; reflexivity.
  - intros [v ->] [-> | ->]; reflexivity.
Qed.
End Rq.

(* ------------------------------------------------------------------ *)
(* divisors whose half is not a number of the format                    *)
(* ------------------------------------------------------------------ *)
Section Refuted.
Variables p es W qs : Z.
Notation F := (mkF p (Some es)).
Hypothesis Hp : 3 <= p <= 4000.
Hypothesis Hes : es + p <= 1.
Hypothesis HW : p <= W.
Hypothesis Hqs : 1 <= qs < W.

Let num (k : Z) : Q := (inject_Z k * p2 es)%Q.

Lemma num_inF : forall k, Z.abs k <= 2 ^ p -> inF F (num k).
Proof. intros k H. exists k, es. split; [reflexivity|]. split; [exact H|]. unfold exp_ok. cbn. lia. Qed.
Lemma num_abs : forall k, 0 <= k -> (Qabs (num k) == num k)%Q.
Proof. intros k H. apply Qabs_pos. unfold num. apply Qmult_le_0_compat; [change 0%Q with (inject_Z 0); rewrite inj_le_iff; lia|pose proof (p2_pos es); lra]. Qed.
Lemma num_lt : forall a b, (num a < num b)%Q <-> a < b.
Proof.
  intros a b. unfold num. pose proof (p2_pos es). split; intros H0.
  - apply Qmult_lt_r in H0; auto. apply inj_lt_iff; auto.
  - apply Qmult_lt_r; auto. apply inj_lt_iff; auto.
Qed.
Lemma num_le : forall a b, (num a <= num b)%Q <-> a <= b.
Proof.
  intros a b. unfold num. pose proof (p2_pos es). split; intros H0.
  - apply Qmult_le_r in H0; auto. apply inj_le_iff; auto.
  - apply Qmult_le_r; auto. apply inj_le_iff; auto.
Qed.
Lemma num_eq : forall a b, (num a == num b)%Q -> a = b.
Proof. intros a b H. pose proof (num_le a b). pose proof (num_le b a). assert (a <= b /\ b <= a); [|lia]. split; [apply H0|apply H1]; lra. Qed.
Lemma num_plus : forall a b, (num (a + b) == num a + num b)%Q.
Proof. intros. unfold num. rewrite inject_Z_plus. ring. Qed.
Lemma num_mul : forall a b, (num (a * b) == inject_Z a * num b)%Q.
Proof. intros. unfold num. rewrite inject_Z_mult. ring. Qed.
Lemma num_log : forall k a, 0 <= a -> 2 ^ a <= k < 2 ^ (a + 1) -> qlog2 (Qabs (num k)) = es + a.
Proof.
  intros k a Ha H. pose proof (Z.pow_pos_nonneg 2 a). pose proof (p2_pos es).
  apply qlog2_unique; rewrite num_abs by lia; unfold num.
  - replace (es + a) with (a + es) by lia. rewrite p2_plus, p2_Z by lia. apply Qmult_le_compat_r; [|lra]. apply inj_le_iff. lia.
  - replace (es + a + 1) with (a + 1 + es) by lia. rewrite p2_plus, (p2_Z (a + 1)) by lia. apply Qmult_lt_r; [auto|]. apply inj_lt_iff. lia.
Qed.

Lemma pw : 2 ^ p = 4 * 2 ^ (p - 2) /\ 2 ^ (p - 1) = 2 * 2 ^ (p - 2) /\ 2 ^ (p - 2) = 2 * 2 ^ (p - 3) /\ 1 <= 2 ^ (p - 3).
Proof.
  assert (A : forall k, 0 <= k -> 2 ^ (k + 1) = 2 * 2 ^ k) by (intros; rewrite Z.pow_add_r by lia; change (2 ^ 1) with 2; lia).
  pose proof (A (p - 1) ltac:(lia)) as A1. pose proof (A (p - 2) ltac:(lia)) as A2. pose proof (A (p - 3) ltac:(lia)) as A3.
  replace (p - 1 + 1) with p in A1 by lia. replace (p - 2 + 1) with (p - 1) in A2 by lia. replace (p - 3 + 1) with (p - 2) in A3 by lia.
  pose proof (Z.pow_pos_nonneg 2 (p - 3)). lia.
Qed.

(* rounding of an odd half *)
Lemma odd_half : forall h, 2 ^ (p - 2) <= h < 2 ^ (p - 1) ->
  (Qabs (rm (rne F) (num (2 * h + 1)) (1 # 2)) == num (if Z.even h then h else h + 1))%Q.
Proof.
  intros h Hh. pose proof pw as (A1 & A2 & A3 & A4).
  assert (Ev : (num (2 * h + 1) * (1 # 2) == (inject_Z h + (1 # 2)) * p2 es)%Q).
  { unfold num. rewrite inject_Z_plus, inject_Z_mult. change (inject_Z 2) with 2%Q. change (inject_Z 1) with 1%Q. field. }
  pose proof (p2_pos es) as Pe.
  assert (Ph : (1 <= inject_Z h)%Q) by (change 1%Q with (inject_Z 1); apply inj_le_iff; lia).
  assert (Pv : (0 < num (2 * h + 1) * (1 # 2))%Q) by (rewrite Ev; apply Qmult_lt_0_compat; lra).
  unfold rm. set (v := (num (2 * h + 1) * (1 # 2))%Q) in *.
  assert (Lv : qlog2 (Qabs v) = es + (p - 2)).
  { assert (Eb : (Qabs v == (inject_Z h + (1 # 2)) * p2 es)%Q) by (rewrite Qabs_pos by lra; exact Ev).
    apply qlog2_unique; rewrite Eb.
    - replace (es + (p - 2)) with (p - 2 + es) by lia. rewrite p2_plus, (p2_Z (p - 2)) by lia. apply Qmult_le_compat_r; [|lra].
      assert (inject_Z (2 ^ (p - 2)) <= inject_Z h)%Q by (apply inj_le_iff; lia). lra.
    - replace (es + (p - 2) + 1) with (p - 1 + es) by lia. rewrite p2_plus, (p2_Z (p - 1)) by lia. apply Qmult_lt_r; [auto|].
      assert (inject_Z (h + 1) <= inject_Z (2 ^ (p - 1)))%Q as X by (apply inj_le_iff; lia). rewrite inject_Z_plus in X. change (inject_Z 1) with 1%Q in X. lra. }
  assert (Ee : rexp F v = es) by (unfold rexp; cbn [prec emin]; rewrite Lv; lia).
  unfold rne. destruct (Qeq_bool v 0) eqn:E0; [apply Qeq_bool_iff in E0; lra|]. rewrite Ee.
  assert (Et : (v / p2 es - inject_Z h == 1 # 2)%Q) by (rewrite Ev; field; apply p2_nz).
  rewrite (qrne_tie _ h Et). apply num_abs. destruct (Z.even h); lia.
Qed.

Lemma refuted_setup : forall X Y, 2 ^ (p - 1) <= Y < 2 ^ p -> 0 < X <= 2 ^ p ->
  inF F (num X) /\ inF F (num Y) /\ ~ (num X == 0)%Q /\ ~ (num Y == 0)%Q /\ real_e p es (num X) - es + 1 <= 5000
  /\ is_sub p es (num Y) = false /\ nearest_in F (rne F).
Proof.
  intros X Y HY HX. pose proof pw as (A1 & A2 & A3 & A4).
  assert (Z0 : (num 0 == 0)%Q) by (unfold num; change (inject_Z 0) with 0%Q; ring).
  assert (NX : ~ (num X == 0)%Q) by (intros E; rewrite <- Z0 in E; apply num_eq in E; lia).
  assert (NY : ~ (num Y == 0)%Q) by (intros E; rewrite <- Z0 in E; apply num_eq in E; lia).
  split; [apply num_inF; lia|]. split; [apply num_inF; lia|]. split; [auto|]. split; [auto|]. split; [|split].
  - unfold real_e, enorm. assert (qlog2 (Qabs (num X)) <= es + p); [|lia].
    destruct (Z.eq_dec X (2 ^ p)) as [-> |].
    + rewrite (num_log _ p); try lia. split; [lia|]. rewrite Z.pow_add_r by lia. change (2 ^ 1) with 2. lia.
    + pose proof (Z.log2_spec X ltac:(lia)). pose proof (Z.log2_nonneg X). rewrite (num_log X (Z.log2 X)); auto.
      assert (Z.log2 X < p) by (apply Z.log2_lt_pow2; lia). lia.
  - apply qlt_false. unfold enorm. rewrite num_abs by lia. unfold num. replace (es + p - 1) with (p - 1 + es) by lia.
    rewrite p2_plus, (p2_Z (p - 1)) by lia. apply Qmult_le_compat_r; [apply inj_le_iff; lia|pose proof (p2_pos es); lra].
  - apply rne_nearest. cbn. lia.
Qed.

(* half rounded up onto x: x is returned, although x - y is nearer to 0 *)
Theorem remquo_half_up_refuted : forall j, 0 <= j -> 4 * j + 3 < 2 ^ (p - 1) ->
  let y := num (2 ^ (p - 1) + 4 * j + 3) in
  let x := num (2 ^ (p - 2) + 2 * j + 2) in
  exists r neg, remquo (rne F) p es W qs x y = Some (0, r, neg) /\ (r == x)%Q
  /\ forall n, ~ ieee_remainder x y n r.
Proof.
  intros j Hj Hj2 y x. pose proof pw as (A1 & A2 & A3 & A4).
  destruct (refuted_setup (2 ^ (p - 2) + 2 * j + 2) (2 ^ (p - 1) + 4 * j + 3) ltac:(lia) ltac:(lia)) as (Fx & Fy & Nx & Ny & Hw & Sy & Hr).
  set (Y := 2 ^ (p - 1) + 4 * j + 3) in *. set (X := 2 ^ (p - 2) + 2 * j + 2) in *. set (h := 2 ^ (p - 2) + 2 * j + 1).
  assert (EY : Y = 2 * h + 1) by (unfold Y, h; lia). assert (EX : X = h + 1) by (unfold X, h; lia).
  assert (Hodd : Z.even h = false).
  { unfold h. rewrite A3. replace (2 * 2 ^ (p - 3) + 2 * j + 1) with (1 + 2 * (2 ^ (p - 3) + j)) by lia. rewrite Z.even_add_mul_even; [reflexivity|exists 1; lia]. }
  assert (Eh : (Qabs (rm (rne F) y (1 # 2)) == num X)%Q).
  { unfold y. rewrite EY. rewrite odd_half by lia. rewrite Hodd, EX. reflexivity. }
  assert (Ex : (Qabs x == num X)%Q) by (apply num_abs; lia). assert (Ey : (Qabs y == num Y)%Q) by (apply num_abs; lia).
  destruct (digit_loop_spec (rne F) p es W qs ltac:(lia) Hes HW ltac:(lia) Hr x y Fx Fy Nx Ny Hw) as (k0 & m & r & K0 & M0 & M1 & Fm & T & E & R).
  assert (K : k0 = 0).
  { destruct (Z.eq_dec k0 0) as [|NK]; auto. exfalso. rewrite Ey in M1, T. rewrite Ex in T.
    assert (num Y <= inject_Z k0 * num Y)%Q; [rewrite <- num_mul; apply num_le; nia|].
    assert (num X < num Y)%Q by (apply num_lt; lia). lra. }
  subst k0. assert (Em : (m == num X)%Q) by (rewrite <- Ex, <- T; change (inject_Z 0) with 0%Q; ring).
  assert (Ehalf : (half (rne F) p es y == num X)%Q) by (unfold half, half_y; unfold y; rewrite Sy; exact Eh).
  assert (Ad : adjust (rne F) p es W y m 0 = 0).
  { unfold adjust. replace (qlt (half (rne F) p es y) m) with false by (symmetry; apply qlt_false; rewrite Ehalf, Em; lra).
    replace (swrap W 0) with 0 by (symmetry; apply swrap_small; [lia|]; pose proof (Z.pow_pos_nonneg 2 (W - 1)); lia).
    cbn [orb]. change (Z.rem 0 2 =? 1) with false. rewrite andb_false_r. reflexivity. }
  rewrite Ad in *. exists r, (xorb (qlt x 0) (qlt (inject_Z (qsign x) * r) 0)).
  assert (Sx : qsign x = 1).
  { unfold qsign. replace (qlt x 0) with false; [reflexivity|]. symmetry. apply qlt_false. pose proof (Qabs_nonneg x). rewrite Ex in H. exact H. }
  assert (Er : (r == x)%Q).
  { rewrite R; [rewrite Sx, Em; change (inject_Z 1) with 1%Q; change (inject_Z 0) with 0%Q; unfold x; ring|].
    apply (inF_comp F m); [change (inject_Z 0) with 0%Q; ring|auto]. }
  split; [|split; [exact Er|]].
  - unfold remquo. rewrite E. replace (qlt (Qabs x) (Qabs (rm (rne F) y (1 # 2)))) with false by (symmetry; apply qlt_false; rewrite Eh, Ex; lra).
    replace (Qeq_bool x y) with false; [|symmetry; destruct (Qeq_bool x y) eqn:B; auto; apply Qeq_bool_iff in B; apply num_eq in B; lia].
    replace (Qeq_bool x (- y)) with false.
    2:{ symmetry. destruct (Qeq_bool x (- y)) eqn:B; auto. apply Qeq_bool_iff in B. exfalso.
        assert (x == num (- Y))%Q as B2 by (rewrite B; unfold y, num; rewrite inject_Z_opp; ring). apply num_eq in B2. lia. }
    rewrite Z.add_0_l, Zmod_0_l, Z.mul_0_r. reflexivity.
  - intros n (_ & B & _). rewrite Er, Ex, Ey in B. change 2%Q with (inject_Z 2) in B. rewrite <- num_mul in B. apply (proj1 (num_le _ _)) in B. lia.
Qed.

(* half rounded down onto the partial remainder, odd quotient: taken for a tie *)
Theorem remquo_half_down_refuted : forall j, 0 <= j -> 6 * j + 1 < 2 ^ (p - 2) ->
  let y := num (2 ^ (p - 1) + 4 * j + 1) in
  let x := num (3 * 2 ^ (p - 2) + 6 * j + 1) in
  exists r neg, remquo (rne F) p es W qs x y = Some (2 mod 2 ^ qs, r, neg) /\ (r == num (- (2 ^ (p - 2) + 2 * j + 1)))%Q
  /\ forall n, ~ ieee_remainder x y n r.
Proof.
  intros j Hj Hj2 y x. pose proof pw as (A1 & A2 & A3 & A4).
  destruct (refuted_setup (3 * 2 ^ (p - 2) + 6 * j + 1) (2 ^ (p - 1) + 4 * j + 1) ltac:(lia) ltac:(lia)) as (Fx & Fy & Nx & Ny & Hw & Sy & Hr).
  set (Y := 2 ^ (p - 1) + 4 * j + 1) in *. set (X := 3 * 2 ^ (p - 2) + 6 * j + 1) in *. set (h := 2 ^ (p - 2) + 2 * j).
  assert (EY : Y = 2 * h + 1) by (unfold Y, h; lia). assert (EX : X = Y + h) by (unfold X, Y, h; lia).
  assert (Heven : Z.even h = true).
  { unfold h. rewrite A3. replace (2 * 2 ^ (p - 3) + 2 * j) with (0 + 2 * (2 ^ (p - 3) + j)) by lia. rewrite Z.even_add_mul_even; [reflexivity|exists 1; lia]. }
  assert (Bh : 2 ^ (p - 2) <= h < 2 ^ (p - 1)) by (unfold h; lia).
  assert (Eh : (Qabs (rm (rne F) y (1 # 2)) == num h)%Q).
  { unfold y. rewrite EY. rewrite odd_half by lia. rewrite Heven. reflexivity. }
  assert (Ex : (Qabs x == num X)%Q) by (apply num_abs; lia). assert (Ey : (Qabs y == num Y)%Q) by (apply num_abs; lia).
  destruct (digit_loop_spec (rne F) p es W qs ltac:(lia) Hes HW ltac:(lia) Hr x y Fx Fy Nx Ny Hw) as (k0 & m & r & K0 & M0 & M1 & Fm & T & E & R).
  assert (K : k0 = 1).
  { rewrite Ey in M1, T. rewrite Ex in T.
    destruct (Z_lt_le_dec k0 1) as [C|C]; [|destruct (Z_lt_le_dec 1 k0) as [C2|C2]; [|lia]]; exfalso.
    - assert (k0 = 0) by lia. subst k0. change (inject_Z 0) with 0%Q in T. assert (num Y <= num X)%Q by (apply num_le; lia). lra.
    - assert (num (2 * Y) <= inject_Z k0 * num Y)%Q; [rewrite <- num_mul; apply num_le; nia|].
      assert (num X < num (2 * Y))%Q by (apply num_lt; lia). lra. }
  subst k0. assert (Em : (m == num h)%Q).
  { rewrite Ex, Ey in T. rewrite EX, num_plus in T. change (inject_Z 1) with 1%Q in T. lra. }
  assert (Ehalf : (half (rne F) p es y == num h)%Q) by (unfold half, half_y; unfold y; rewrite Sy; exact Eh).
  assert (Ad : adjust (rne F) p es W y m 1 = 1).
  { unfold adjust. replace (Qeq_bool m (half (rne F) p es y)) with true by (symmetry; apply Qeq_bool_iff; rewrite Ehalf; exact Em).
    replace (swrap W 1) with 1; [cbn; rewrite orb_true_r; reflexivity|].
    symmetry. apply swrap_small; [lia|]. pose proof (Z.pow_le_mono_r 2 1 (W - 1) ltac:(lia) ltac:(lia)). change (2 ^ 1) with 2 in *. lia. }
  rewrite Ad in *. exists r, (xorb (qlt x 0) (qlt (inject_Z (qsign x) * r) 0)).
  assert (Sn : forall k, 0 <= k -> qsign (num k) = 1).
  { intros k Hk. unfold qsign. replace (qlt (num k) 0) with false; [reflexivity|]. symmetry. apply qlt_false.
    pose proof (Qabs_nonneg (num k)) as B. rewrite num_abs in B by auto. exact B. }
  assert (Sx : qsign x = 1) by (apply Sn; lia). assert (Sy1 : qsign y = 1) by (apply Sn; lia).
  assert (Ed : (m - inject_Z 1 * Qabs y == num (- (h + 1)))%Q).
  { rewrite Em, Ey, EY. change (inject_Z 1) with 1%Q. unfold num. rewrite inject_Z_opp, !inject_Z_plus, inject_Z_mult. change (inject_Z 2) with 2%Q. change (inject_Z 1) with 1%Q. ring. }
  assert (Er : (r == num (- (h + 1)))%Q).
  { rewrite R; [rewrite Sx, Ed; change (inject_Z 1) with 1%Q; ring|].
    apply (inF_comp F (num (- (h + 1)))); [symmetry; exact Ed|apply num_inF; lia]. }
  split; [|split; [exact Er|]].
  - unfold remquo. rewrite E.
    replace (qlt (Qabs x) (Qabs (rm (rne F) y (1 # 2)))) with false by (symmetry; apply qlt_false; rewrite Eh, Ex; apply num_le; lia).
    replace (Qeq_bool x y) with false; [|symmetry; destruct (Qeq_bool x y) eqn:B; auto; apply Qeq_bool_iff in B; apply num_eq in B; lia].
    replace (Qeq_bool x (- y)) with false.
    2:{ symmetry. destruct (Qeq_bool x (- y)) eqn:B; auto. apply Qeq_bool_iff in B. exfalso.
        assert (x == num (- Y))%Q as B2 by (rewrite B; unfold y, num; rewrite inject_Z_opp; ring). apply num_eq in B2. lia. }
    rewrite Sx, Sy1. rewrite !Z.mul_1_l. reflexivity.
  - intros n (_ & B & _). rewrite Er, Ey in B.
    assert (Ea : (Qabs (num (- (h + 1))) == num (h + 1))%Q).
    { rewrite <- (num_abs (h + 1)) by lia. rewrite <- (Qabs_opp (num (h + 1))). apply Qabs_wd. unfold num. rewrite inject_Z_opp. ring. }
    rewrite Ea in B. change 2%Q with (inject_Z 2) in B. rewrite <- num_mul in B. apply (proj1 (num_le _ _)) in B. lia.
Qed.
End Refuted.

(* binary32 *)
Definition rq32 := remquo (rne (mkF 24 (Some (-149)))) 24 (-149) 32 7.
Definition same (a b : option (Z * Q * bool)) : bool :=
  match a, b with
  | Some (q, r, s), Some (q', r', s') => (q =? q') && Qeq_bool r r' && eqb s s'
  | _, _ => false
  end.
Example remquo_case :
  same (rq32 (11 # 2) 2) (Some (3, (-(1 # 2))%Q, true)) = true
  /\ same (rq32 (-5) 2) (Some (-2, (-1)%Q, true)) = true
  /\ same (rq32 (inject_Z (2 ^ 40)) 3) (Some (2 ^ 40 / 3 mod 128, 1%Q, false)) = true
  /\ same (rq32 1 (3 * p2 (-149))) (Some ((2 ^ 149 / 3 + 1) mod 128, (- p2 (-149))%Q, true)) = true
  /\ same (rq32 (inject_Z (2 ^ 22 + 2) * p2 (-149)) (inject_Z (2 ^ 23 + 3) * p2 (-149)))
          (Some (0, (inject_Z (2 ^ 22 + 2) * p2 (-149))%Q, false)) = true.
Proof. vm_compute. auto. Qed.
Example remquo_case_hyps : half_ok 24 (-149) 3 /\ half_ok 24 (-149) (3 * p2 (-149)) /\ inF (mkF 24 (Some (-149))) 3.
Proof.
  split; [right|split; [left; vm_compute; reflexivity|]].
  - exists 3, (-1). split; [reflexivity|]. split; vm_compute; congruence.
  - exists 3, 0. split; [reflexivity|]. split; vm_compute; congruence.
Qed.

Print Assumptions remquo_correct.
Print Assumptions remquo_zero_sign_refuted.
Print Assumptions remquo_special.
Print Assumptions remquo_half_up_refuted.
Print Assumptions remquo_half_down_refuted.
