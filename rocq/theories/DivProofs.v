(* The reduced division: Newton-Raphson iterations and corrected quotient, for
   operands of any exponent and any rounding to nearest of precision p without
   bound on the exponents. *)
From Coq Require Import ZArith QArith Qround Qabs Lia Lqa Bool.
From Verif Require Import QUtil RoundSpec RoundProofs VeltProofs DivModel DivCore.
From Verif Require FpFormatProofs.
Open Scope Z_scope.

Lemma p2_inv : forall k, (p2 k * p2 (- k) == 1)%Q.
Proof. intros. rewrite Qmult_comm. apply p2_opp. Qed.

(* a power of two times a rounding with the operand scaled back *)
Definition sgn (s : bool) : Q := if s then (-1)%Q else 1%Q.
Definition sc (s : bool) (k : Z) (rnd : Q -> Q) (v : Q) : Q := (sgn s * p2 (- k) * rnd (sgn s * p2 k * v))%Q.

Lemma sgn2 : forall s, (sgn s * sgn s == 1)%Q.
Proof. destruct s; reflexivity. Qed.
Lemma sgn_abs : forall s, (Qabs (sgn s) == 1)%Q.
Proof. destruct s; reflexivity. Qed.

Lemma mle : forall e a b, (0 <= e)%Q -> (a <= b)%Q -> (e * a <= e * b)%Q.
Proof. intros e a b P H. rewrite (Qmult_comm e a), (Qmult_comm e b). apply Qmult_le_compat_r; auto. Qed.

Section P.
Variable p : Z.
Hypothesis Hp : 12 <= p.
Notation F := (mkF p None).
Notation u := (p2 (- p)).
Notation u_pos := (u_pos p).
Notation u_small := (u_small p Hp).
Notation C1 := (C1 p Hp).
Notation C2 := (C2 p Hp).

Lemma ule : forall a b, (a <= b)%Q -> (u * a <= u * b)%Q.
Proof. intros a b H. rewrite (Qmult_comm u a), (Qmult_comm u b). apply Qmult_le_compat_r; auto. pose proof u_pos. lra. Qed.
Lemma inF_sc : forall s k x, inF F x -> inF F (sgn s * p2 k * x).
Proof.
  intros s k x (m & e & Hx & Hm & _). exists ((if s then -1 else 1) * m), (e + k). split; [|split; [|exact I]].
  - rewrite Hx, p2_plus, inject_Z_mult. destruct s; unfold sgn; change (inject_Z (-1)) with (-1)%Q; change (inject_Z 1) with 1%Q; ring.
  - destruct s; lia.
Qed.
Lemma sc_nearest : forall s k rnd, nearest_in F rnd -> nearest_in F (sc s k rnd).
Proof.
  intros s k rnd Hr. split; [|split].
  - intros x y E. unfold sc. rewrite (rnd_comp F rnd Hr (sgn s * p2 k * x) (sgn s * p2 k * y)); [reflexivity|]. rewrite E. reflexivity.
  - intros x. unfold sc. apply inF_sc. apply (rnd_inF F rnd Hr).
  - intros x f Hf. unfold sc.
    assert (A : forall g, (Qabs (sgn s * p2 (- k) * g - x) == Qabs (g - sgn s * p2 k * x) * p2 (- k))%Q).
    { intros g. rewrite <- Qabs_mul_pos by apply p2_pos. pose proof (p2_inv k) as E1. pose proof (sgn2 s) as E2.
      destruct s; unfold sgn in *.
      - rewrite <- Qabs_opp. apply Qabs_wd. transitivity (p2 (- k) * g + (p2 k * p2 (- k)) * x)%Q; [rewrite E1; ring|ring].
      - apply Qabs_wd. transitivity (p2 (- k) * g - (p2 k * p2 (- k)) * x)%Q; [rewrite E1; ring|ring]. }
    rewrite A. assert (Ef : (f == sgn s * p2 (- k) * (sgn s * p2 k * f))%Q).
    { pose proof (p2_inv k) as E1. pose proof (sgn2 s) as E2.
      transitivity ((sgn s * sgn s) * (p2 k * p2 (- k)) * f)%Q; [rewrite E1, E2; ring|ring]. }
    rewrite Ef at 1. rewrite A. apply Qmult_le_compat_r; [|pose proof (p2_pos (- k)); lra].
    apply (rnd_near F rnd Hr). apply inF_sc; auto.
Qed.

(* significand of a number, in [1, 2) *)
Definition mant (d : Q) : Q := (Qabs d * p2 (- qlog2 (Qabs d)))%Q.
Lemma mant_range : forall d, ~ (d == 0)%Q -> (1 <= mant d)%Q /\ (mant d < 2)%Q.
Proof.
  intros d Nd. unfold mant. pose proof (FpFormatProofs.Qabs_nz d Nd) as P. destruct (qlog2_spec _ P) as [L U].
  set (k := qlog2 (Qabs d)) in *. pose proof (p2_pos (- k)) as Pk. pose proof (p2_inv k) as E. rewrite p2_succ in U.
  split.
  - rewrite <- E. apply Qmult_le_compat_r; lra.
  - assert (Qabs d * p2 (- k) < 2 * p2 k * p2 (- k))%Q by (apply Qmult_lt_r; auto). lra.
Qed.
Definition isneg (d : Q) : bool := negb (Qle_bool 0 d).
Lemma mant_eq : forall d, (d == sgn (isneg d) * p2 (qlog2 (Qabs d)) * mant d)%Q.
Proof.
  intros d. unfold mant. pose proof (p2_inv (qlog2 (Qabs d))) as E. set (k := qlog2 (Qabs d)) in *. clearbody k.
  transitivity (sgn (isneg d) * Qabs d * (p2 k * p2 (- k)))%Q; [|ring]. rewrite E. unfold isneg, sgn.
  destruct (Qle_bool 0 d) eqn:Q1; cbn [negb].
  - apply Qle_bool_iff in Q1. rewrite Qabs_pos by auto. ring.
  - rewrite Qabs_neg; [ring|]. destruct (Qlt_le_dec 0 d); auto. exfalso.
    assert (0 <= d)%Q by lra. apply Qle_bool_iff in H. congruence.
Qed.
Lemma mant_in : forall d, inF F d -> inF F (mant d).
Proof.
  intros d I. unfold mant. apply (inF_comp F (sgn (isneg d) * p2 (- qlog2 (Qabs d)) * d)%Q); [|apply inF_sc; auto].
  set (w := p2 (- qlog2 (Qabs d))). clearbody w.
  unfold isneg, sgn. destruct (Qle_bool 0 d) eqn:Q1; cbn [negb].
  - apply Qle_bool_iff in Q1. rewrite Qabs_pos by auto. ring.
  - rewrite Qabs_neg; [ring|]. destruct (Qlt_le_dec 0 d); auto. exfalso.
    assert (0 <= d)%Q by lra. apply Qle_bool_iff in H. congruence.
Qed.

Section R.
Variable rnd : Q -> Q.
Hypothesis Hr : nearest_in F rnd.

(* the bound on the error of the reciprocal under which the quotient is right *)
Definition good (d E : Q) : Prop := (E <= 9 # 64)%Q \/ ((E == 1 # 6)%Q /\ (mant d < 5 # 3)%Q).

Theorem reduced_division_correct : forall x d y E, inF F x -> inF F d -> ~ (x == 0)%Q -> ~ (d == 0)%Q ->
  (Qabs (1 - d * y) < u)%Q -> (Qabs (1 - d * y) <= (1 # 2) * (mant d * u) + E * u)%Q -> good d E ->
  (snd (compute_reduced_division rnd x d y) == rnd (x / d))%Q.
Proof.
  intros x d y E Ix Id Nx Nd Dl DlE HE. unfold compute_reduced_division, dividend_mult. cbn [snd].
  set (sx := isneg x). set (sd := isneg d). set (a := qlog2 (Qabs x)). set (b := qlog2 (Qabs d)).
  pose proof (mant_eq x) as Ex. pose proof (mant_eq d) as Ed. fold sx a in Ex. fold sd b in Ed.
  destruct (mant_range x Nx) as [X1 X2]. destruct (mant_range d Nd) as [D1 D2].
  pose proof (mant_in x Ix) as Mx. pose proof (mant_in d Id) as Md.
  unfold good in HE. set (mx := mant x) in *. set (md := mant d) in *.
  set (y' := (sgn sd * p2 b * y)%Q).
  assert (Ey : (y == sgn sd * p2 (- b) * y')%Q).
  { unfold y'. pose proof (p2_inv b). pose proof (sgn2 sd). transitivity ((sgn sd * sgn sd) * (p2 b * p2 (- b)) * y)%Q; [rewrite H, H0; ring|ring]. }
  assert (Edy : (d * y == md * y')%Q) by (rewrite Ed at 1; unfold y'; ring).
  set (S := xorb sx sd).
  assert (ES : (sgn sx * sgn sd == sgn S)%Q) by (unfold S; destruct sx, sd; reflexivity).
  clearbody mx md sx sd a b.
  assert (Pab : (p2 a * p2 (- b) == p2 (a - b))%Q) by (rewrite <- p2_plus; reflexivity).
  assert (Exy : (x * y == sgn S * p2 (a - b) * (mx * y'))%Q).
  { rewrite Ex, Ey, <- ES, <- Pab. ring. }
  pose proof (sc_nearest S (a - b) rnd Hr) as H1. pose proof (sc_nearest sx a rnd Hr) as H2.
  assert (un : forall s k v, (rnd (sgn s * p2 k * v) == sgn s * p2 k * sc s k rnd v)%Q).
  { intros s k v. unfold sc. pose proof (p2_inv k). pose proof (sgn2 s).
    transitivity ((sgn s * sgn s) * (p2 k * p2 (- k)) * rnd (sgn s * p2 k * v))%Q; [rewrite H, H0; ring|ring]. }
  set (q0' := sc S (a - b) rnd (mx * y')%Q).
  assert (Q0 : (rnd (x * y) == sgn S * p2 (a - b) * q0')%Q).
  { rewrite (rnd_comp F rnd Hr _ _ Exy). apply un. }
  set (q0 := rnd (x * y)%Q) in *.
  assert (Ee : (- q0 * d + x == sgn sx * p2 a * (mx - md * q0'))%Q).
  { rewrite Q0, Ex, Ed. pose proof (p2_inv b) as Eb. pose proof (sgn2 sd) as E2.
    transitivity (- (sgn sx * (sgn sd * sgn sd) * p2 a * (p2 b * p2 (- b)) * q0' * md) + sgn sx * p2 a * mx)%Q; [rewrite <- ES, <- Pab; ring|rewrite Eb, E2; ring]. }
  set (r' := sc sx a rnd (mx - md * q0')%Q).
  assert (R0 : (rnd (- q0 * d + x) == sgn sx * p2 a * r')%Q).
  { rewrite (rnd_comp F rnd Hr _ _ Ee). apply un. }
  set (r := rnd (- q0 * d + x)%Q) in *.
  assert (Ez : (r * y + q0 == sgn S * p2 (a - b) * (q0' + r' * y'))%Q).
  { rewrite R0, Q0, Ey at 1. rewrite <- ES, <- Pab. ring. }
  assert (Eq : (x / d == sgn S * p2 (a - b) * (mx / md))%Q).
  { rewrite Ex, Ed, <- ES, <- Pab. pose proof (p2_inv b) as Eb. pose proof (sgn2 sd) as E2.
    assert (Nb : ~ (p2 b == 0)%Q) by apply p2_nz. assert (Ns : ~ (sgn sd == 0)%Q) by (destruct sd; discriminate).
    assert (I1 : (p2 (- b) == / p2 b)%Q) by (apply (Qmult_inj_l _ _ (p2 b)); auto; rewrite Eb; field; auto).
    assert (I2 : (sgn sd == / sgn sd)%Q) by (destruct sd; reflexivity).
    rewrite I1. rewrite I2 at 2. field. split; [|split]; auto. lra. }
  rewrite (rnd_comp F rnd Hr _ _ Ez), (rnd_comp F rnd Hr _ _ Eq), !un.
  apply Qmult_comp; [reflexivity|].
  apply (quotient_correct p Hp (sc S (a - b) rnd) (sc sx a rnd) (sc S (a - b) rnd) (sc S (a - b) rnd) mx md y' E); auto;
    rewrite <- Edy; auto.
Qed.

(* ---- Newton-Raphson ---- *)
Lemma rel : forall x, (Qabs (rnd x - x) <= u * Qabs x)%Q.
Proof. intros x. apply (rnd_rel F C1 rnd Hr x eq_refl). Qed.

(* the new approximation before its rounding *)
Definition nr_pre (d a : Q) : Q := (nr_error rnd d a * a + a)%Q.

Lemma nr_pre_error : forall d a e, (Qabs (1 - d * a) <= e)%Q ->
  (Qabs (1 - d * nr_pre d a) <= e * e + u * (e * (1 + e)))%Q.
Proof.
  intros d a e He. unfold nr_pre, nr_error. pose proof u_pos as Pu.
  set (t := (1 - d * a)%Q) in *. assert (Et : (- d * a + 1 == t)%Q) by (unfold t; ring).
  rewrite (rnd_comp F rnd Hr _ _ Et). set (er := (rnd t - t)%Q).
  assert (Er : (Qabs er <= u * e)%Q).
  { unfold er. eapply Qle_trans; [apply rel|]. apply ule; lra. }
  assert (E : (1 - d * (rnd t * a + a) == t * t - (1 - t) * er)%Q) by (unfold er, t; ring).
  rewrite E. clearbody er t.
  assert (Ep : (0 <= e)%Q) by (pose proof (Qabs_nonneg t); lra).
  assert (A1 : (Qabs (t * t) <= e * e)%Q) by (apply mul_abs_le; auto).
  assert (A0 : (Qabs (1 - t) <= 1 + e)%Q) by qabs_lra.
  assert (A2 : (Qabs ((1 - t) * er) <= (1 + e) * (u * e))%Q) by (apply mul_abs_le; auto).
  set (m1 := (t * t)%Q) in *. set (m2 := ((1 - t) * er)%Q) in *. clearbody m1 m2.
  assert (A3 : ((1 + e) * (u * e) == u * (e * (1 + e)))%Q) by ring. rewrite A3 in A2.
  set (b1 := (e * e)%Q) in *. set (b2 := (u * (e * (1 + e)))%Q) in *. clearbody b1 b2. qabs_lra.
Qed.

Lemma nr_step_error : forall d a e, (Qabs (1 - d * a) <= e)%Q ->
  let e2 := (e * e + u * (e * (1 + e)))%Q in
  (Qabs (1 - d * nr_step rnd d a) <= e2 + u * (1 + e2))%Q.
Proof.
  intros d a e He e2. pose proof (nr_pre_error d a e He) as H. fold e2 in H. pose proof u_pos as Pu.
  unfold nr_step. fold (nr_pre d a). set (v := nr_pre d a) in *. set (er := (rnd v - v)%Q).
  pose proof (rel v) as R. fold er in R.
  assert (E : (1 - d * rnd v == (1 - d * v) - d * er)%Q) by (unfold er; ring). rewrite E.
  assert (A : (Qabs (d * er) <= u * (1 + e2))%Q).
  { rewrite Qabs_Qmult. pose proof (Qabs_nonneg d).
    eapply Qle_trans; [rewrite Qmult_comm; apply Qmult_le_compat_r; [exact R|auto]|].
    assert (E2 : (u * Qabs v * Qabs d == u * Qabs (d * v))%Q) by (rewrite Qabs_Qmult; ring). rewrite E2.
    assert (B : (Qabs (d * v) <= 1 + e2)%Q) by (set (dv := (d * v)%Q) in *; clearbody dv; clearbody e2; qabs_lra).
    apply ule; lra. }
  set (m := (d * er)%Q) in *. set (n := (1 - d * v)%Q) in *. set (b := (u * (1 + e2))%Q) in *. clearbody m n b e2. qabs_lra.
Qed.

(* e^(2^n) *)
Fixpoint sq (n : nat) (e : Q) : Q := match n with O => e | S n => sq n (e * e)%Q end.

Lemma nr_bound : forall d a e, (0 <= e)%Q -> (e <= 1 # 8)%Q -> (Qabs (1 - d * a) <= e + 2 * u)%Q ->
  (Qabs (1 - d * nr_pre d a) <= e * e + u * (6 * e + 8 * u))%Q
  /\ (Qabs (1 - d * nr_step rnd d a) <= e * e + 2 * u)%Q.
Proof.
  intros d a e E0 E8 H. pose proof u_pos as Pu. pose proof u_small as Su.
  pose proof (nr_pre_error d a _ H) as A. pose proof (nr_step_error d a _ H) as B. cbn zeta in B.
  set (f := (e + 2 * u)%Q) in *. assert (F0 : (0 <= f)%Q) by (unfold f; lra). assert (F8 : (f <= 33 # 256)%Q) by (unfold f; lra).
  assert (F1 : (f * (1 + f) <= (6 # 5) * f)%Q) by (rewrite Qmult_comm; apply Qmult_le_compat_r; lra).
  assert (F2 : (u * (f * (1 + f)) <= u * ((6 # 5) * f))%Q) by (apply ule; lra).
  assert (F3 : (f * f == e * e + u * (4 * e + 4 * u))%Q) by (unfold f; ring).
  assert (F4 : (u * ((6 # 5) * f) == u * ((6 # 5) * e) + u * ((12 # 5) * u))%Q) by (unfold f; ring).
  assert (Ue : (0 <= u * e)%Q) by (apply Qmult_le_0_compat; lra). assert (Uu : (0 <= u * u)%Q) by (apply Qmult_le_0_compat; lra).
  assert (P : (f * f + u * (f * (1 + f)) <= e * e + u * (6 * e + 8 * u))%Q) by lra.
  split; [lra|]. eapply Qle_trans; [exact B|].
  assert (Gt : (f * f + u * (f * (1 + f)) <= e * e + (52 # 10) * (u * e) + (64 # 10) * (u * u))%Q) by lra.
  set (g := (f * f + u * (f * (1 + f)))%Q) in *.
  assert (Ue8 : (u * e <= u * (1 # 8))%Q) by (apply ule; lra).
  assert (Uu8 : (u * u <= u * (1 # 4096))%Q) by (apply ule; lra).
  assert (Ee : (e * e <= (1 # 8) * (1 # 8))%Q).
  { apply Qle_trans with (e * (1 # 8))%Q; [apply mle; lra|apply Qmult_le_compat_r; lra]. }
  assert (G : (g <= 1 # 16)%Q) by lra.
  assert (Ug : (u * g <= u * (1 # 16))%Q) by (apply ule; lra).
  lra.
Qed.

Lemma e_small : forall e, (0 <= e)%Q -> (e <= 1 # 8)%Q -> (0 <= e * e)%Q /\ (e * e <= 1 # 8)%Q.
Proof.
  intros e E0 E8. split; [apply Qmult_le_0_compat; auto|].
  apply Qle_trans with (e * (1 # 8))%Q; [apply mle; lra|lra].
Qed.

(* n iterations from a seed of relative error e: error e^(2^n) plus two
   roundings *)
Theorem reciprocal_error : forall n d s e, (0 <= e)%Q -> (e <= 1 # 8)%Q -> (Qabs (1 - d * s) <= e + 2 * u)%Q ->
  (Qabs (1 - d * compute_reduced_reciprocal rnd s d n) <= sq n e + 2 * u)%Q.
Proof.
  induction n as [|n IH]; intros d s e E0 E8 H; cbn [compute_reduced_reciprocal sq]; auto.
  destruct (e_small e E0 E8) as [A B]. apply IH; auto. apply nr_bound; auto.
Qed.

(* the last iteration, before its final rounding *)
Lemma reciprocal_last : forall m d s e, (0 <= e)%Q -> (e <= 1 # 8)%Q -> (Qabs (1 - d * s) <= e + 2 * u)%Q ->
  exists v, (compute_reduced_reciprocal rnd s d (S m) = rnd v)
    /\ (Qabs (1 - d * v) <= sq m e * sq m e + u * (6 * sq m e + 8 * u))%Q.
Proof.
  induction m as [|m IH]; intros d s e E0 E8 H.
  - exists (nr_pre d s). split; [reflexivity|]. apply nr_bound; auto.
  - destruct (e_small e E0 E8) as [A B].
    destruct (IH d (nr_step rnd d s) (e * e)%Q A B) as (v & V1 & V2); [apply nr_bound; auto|].
    exists v. split; auto.
Qed.

(* rounding an approximation v of 1/d adds at most half a unit of its binade *)
Lemma recip_round : forall d v E, ~ (d == 0)%Q -> (0 <= E)%Q -> (2 * E <= 1)%Q -> (Qabs (1 - d * v) <= E * u)%Q ->
  (Qabs (1 - d * rnd v) <= (1 # 2) * (mant d * u) + E * u)%Q.
Proof.
  intros d v E Nd E0 E1 H. pose proof u_pos as Pu. pose proof u_small as Su.
  destruct (mant_range d Nd) as [D1 D2]. set (b := qlog2 (Qabs d)).
  assert (Eb : (Qabs d == mant d * p2 b)%Q).
  { unfold mant. fold b. transitivity (Qabs d * (p2 b * p2 (- b)))%Q; [rewrite p2_inv; ring|ring]. }
  set (md := mant d) in *. clearbody md.
  assert (K : (Qabs (rnd v - v) * p2 b <= (1 # 2) * u)%Q).
  { pose proof (p2_pos b) as Pb. pose proof (p2_pos (- b)) as Pb'.
    destruct (Qlt_le_dec (p2 (- b)) (Qabs v)) as [C|C].
    - (* v is at most E u above the power of two *)
      assert (Ib : forall s, inF F (sgn s * p2 (- b) * 1)).
      { intros s. apply inF_sc. apply (inF_comp F (p2 0)); [apply p2_0|]. apply (inF_intro F C1 0); [apply mult_p2; lia|exact I|].
        rewrite Qabs_pos by (rewrite p2_0; lra). apply p2_le. cbn [prec]. lia. }
      assert (Vb : (Qabs v * p2 b <= 1 + E * u)%Q).
      { assert (V1 : (Qabs (d * v) <= 1 + E * u)%Q) by (set (dv := (d * v)%Q) in *; clearbody dv; set (eu := (E * u)%Q) in *; clearbody eu; qabs_lra).
        rewrite Qabs_Qmult, Eb in V1. pose proof (Qabs_nonneg v).
        assert (0 <= p2 b * Qabs v)%Q by (apply Qmult_le_0_compat; lra).
        assert (1 * (p2 b * Qabs v) <= md * (p2 b * Qabs v))%Q by (apply Qmult_le_compat_r; auto). lra. }
      assert (N : (Qabs (rnd v - v) <= Qabs v - p2 (- b))%Q).
      { destruct (Qlt_le_dec v 0) as [S|S].
        - eapply Qle_trans; [apply (rnd_near F rnd Hr v (sgn true * p2 (- b) * 1)), Ib|]. unfold sgn.
          rewrite (Qabs_neg v) in * by lra. apply Qabs_case; intros; lra.
        - eapply Qle_trans; [apply (rnd_near F rnd Hr v (sgn false * p2 (- b) * 1)), Ib|]. unfold sgn.
          rewrite (Qabs_pos v) in * by lra. apply Qabs_case; intros; lra. }
      assert (N2 : (Qabs (rnd v - v) * p2 b <= (Qabs v - p2 (- b)) * p2 b)%Q) by (apply Qmult_le_compat_r; lra).
      pose proof (p2_opp b) as Eo.
      assert (Eu : (E * u <= (1 # 2) * u)%Q) by (apply Qmult_le_compat_r; lra). lra.
    - assert (R : (Qabs (rnd v - v) <= p2 (- b - p - 1))%Q).
      { apply (rnd_half F C1 rnd Hr (- b - p)); [exact I|]. cbn [prec]. replace (p + (- b - p)) with (- b) by lia. auto. }
      assert (E2 : (p2 (- b - p - 1) * p2 b == (1 # 2) * u)%Q).
      { rewrite <- p2_plus. replace (- b - p - 1 + b) with (- p - 1) by lia. pose proof (pu_m1 p). lra. }
      rewrite <- E2. apply Qmult_le_compat_r; lra. }
  assert (Eq : (1 - d * rnd v == (1 - d * v) - d * (rnd v - v))%Q) by ring. rewrite Eq.
  assert (A : (Qabs (d * (rnd v - v)) <= (1 # 2) * (md * u))%Q).
  { rewrite Qabs_Qmult, Eb. setoid_replace (md * p2 b * Qabs (rnd v - v))%Q with (Qabs (rnd v - v) * p2 b * md)%Q by ring.
    setoid_replace ((1 # 2) * (md * u))%Q with ((1 # 2) * u * md)%Q by ring. apply Qmult_le_compat_r; lra. }
  set (m := (d * (rnd v - v))%Q) in *. set (n := (1 - d * v)%Q) in *. set (bb := ((1 # 2) * (md * u))%Q) in *. set (eu := (E * u)%Q) in *.
  clearbody m n bb eu. qabs_lra.
Qed.

(* Markstein: with a correctly rounded reciprocal, the quotient is correctly
   rounded, whatever the operands *)
Theorem markstein : forall x d, inF F x -> inF F d -> ~ (x == 0)%Q -> ~ (d == 0)%Q ->
  (snd (compute_reduced_division rnd x d (rnd (1 / d))) == rnd (x / d))%Q.
Proof.
  intros x d Ix Id Nx Nd. pose proof u_pos as Pu.
  assert (E0 : (1 - d * (1 / d) == 0)%Q) by (field; auto).
  assert (H : (Qabs (1 - d * rnd (1 / d)) <= (1 # 2) * (mant d * u) + 0 * u)%Q).
  { apply recip_round; auto; try lra. rewrite E0. change (Qabs 0) with 0%Q. lra. }
  destruct (mant_range d Nd) as [D1 D2].
  assert (Mu : (mant d * u < 2 * u)%Q) by (apply Qmult_lt_r; auto).
  apply (reduced_division_correct x d _ 0); auto; [lra|]. left. lra.
Qed.

(* the whole reduced division, from the seed *)
Theorem reduced_correct : forall m x d s e E, inF F x -> inF F d -> ~ (x == 0)%Q -> ~ (d == 0)%Q ->
  (e <= 1 # 8)%Q -> (Qabs (1 - d * s) <= e)%Q ->
  (sq m e * sq m e + u * (6 * sq m e + 8 * u) <= E * u)%Q ->
  ((E <= 9 # 64)%Q \/ (E == 1 # 6)%Q) -> (mant d < 2 - 2 * E)%Q ->
  (snd (compute_reduced_division rnd x d (compute_reduced_reciprocal rnd s d (S m))) == rnd (x / d))%Q.
Proof.
  intros m x d s e E Ix Id Nx Nd E8 Hs HE1 HE2 Hd. pose proof u_pos as Pu. pose proof u_small as Su.
  assert (E0 : (0 <= e)%Q) by (pose proof (Qabs_nonneg (1 - d * s)); lra).
  destruct (reciprocal_last m d s e E0 E8) as (v & V1 & V2); [lra|]. rewrite V1.
  assert (V3 : (Qabs (1 - d * v) <= E * u)%Q) by lra.
  assert (EE : (0 <= E)%Q).
  { destruct (Qlt_le_dec E 0) as [N|N]; auto. assert (E * u < 0 * u)%Q by (apply Qmult_lt_r; auto).
    pose proof (Qabs_nonneg (1 - d * v)). lra. }
  destruct (mant_range d Nd) as [D1 D2].
  assert (H : (Qabs (1 - d * rnd v) <= (1 # 2) * (mant d * u) + E * u)%Q) by (apply recip_round; auto; destruct HE2; lra).
  assert (Mu : (mant d * u < (2 - 2 * E) * u)%Q) by (apply Qmult_lt_r; auto).
  apply (reduced_division_correct x d _ E); auto; [lra|]. unfold good. destruct HE2 as [K|K]; [left|right]; auto.
  split; auto. lra.
Qed.
End R.
End P.
