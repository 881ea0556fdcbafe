(* The divisor 2 - 2^(1-p) (all digits one): the Newton-Raphson iterations do
   not converge to its correctly rounded reciprocal, and the corrected quotient
   inherits the error. *)
From Coq Require Import ZArith QArith Qround Qabs Lia Lqa Bool.
From Verif Require Import QUtil RoundSpec RoundProofs RoundRne VeltProofs DivModel DivCore DivProofs DivRange.
Open Scope Z_scope.

Section O.
Variable p : Z.
Hypothesis Hp : 12 <= p.
Notation F := (mkF p None).
Notation u := (p2 (- p)).
Notation ri := (rne F).
Definition ones : Q := (2 - 2 * u)%Q.

Let Hr := Hri p Hp.
Lemma half_in : inF F (1 # 2).
Proof.
  apply (inF_comp F (p2 (- 1))); [reflexivity|]. apply (inF_intro F (C1' p Hp) (- 1)); [apply mult_p2; lia|exact I|].
  rewrite Qabs_pos by (pose proof (p2_pos (- 1)); lra). apply p2_le. cbn [prec]. lia.
Qed.
Lemma ones_in : inF F ones.
Proof.
  pose proof (DivCore.u_pos p) as Pu. pose proof (DivCore.u_small p Hp) as Su. unfold ones.
  apply (grid_in p Hp 0).
  - apply mult_minus; [apply (mult_comp _ (p2 1)); [reflexivity|apply mult_p2; lia]|].
    apply (mult_comp _ (p2 (1 - p))); [apply (pu1 p)|apply mult_p2; lia].
  - rewrite Qabs_pos by lra. change (0 + 1) with 1. setoid_replace (p2 1) with 2%Q by reflexivity. lra.
Qed.

(* the tie between 1/2 and 1/2 + u goes to 1/2 *)
Lemma tie_half : (ri ((1 # 2) + (1 # 2) * u) == 1 # 2)%Q.
Proof.
  pose proof (DivCore.u_pos p) as Pu. pose proof (DivCore.u_small p Hp) as Su.
  set (v := ((1 # 2) + (1 # 2) * u)%Q).
  assert (Nv : Qeq_bool v 0 = false).
  { destruct (Qeq_bool v 0) eqn:E; auto. apply Qeq_bool_iff in E. unfold v in E. lra. }
  unfold rne. rewrite Nv.
  assert (L : qlog2 (Qabs v) = - 1).
  { apply qlog2_unique; rewrite Qabs_pos by (unfold v; lra).
    - setoid_replace (p2 (- 1)) with (1 # 2)%Q by reflexivity. unfold v. lra.
    - setoid_replace (p2 (- 1 + 1)) with 1%Q by reflexivity. unfold v. lra. }
  unfold rexp. cbn [emin prec]. rewrite L. replace (-1 - p + 1) with (- p) by lia.
  assert (HN : (p2 (p - 1) * (2 * u) == 1)%Q) by (rewrite <- (pu1 p), <- p2_plus; replace (p - 1 + (1 - p)) with 0 by lia; apply p2_0).
  set (N := 2 ^ (p - 1)) in *. assert (EN : (p2 (p - 1) == inject_Z N)%Q) by (apply p2_Z; lia). rewrite EN in HN.
  assert (Neven : Z.even N = true) by (unfold N; rewrite Z.even_pow by lia; reflexivity).
  rewrite (qrne_tie _ N).
  - rewrite Neven. lra.
  - unfold v. transitivity (((1 # 2) + (1 # 2) * u - inject_Z N * (2 * u) * (1 # 2)) / u)%Q; [field; lra|rewrite HN; field; lra].
Qed.

(* numbers of the format close to 1/2 *)
Lemma near_half : forall a, inF F a -> (a <= (1 # 2) - (1 # 2) * u)%Q \/ (a == 1 # 2)%Q \/ (a == (1 # 2) + u)%Q \/ ((1 # 2) + 2 * u <= a)%Q.
Proof.
  intros a Ia. pose proof (DivCore.u_pos p) as Pu. pose proof (DivCore.u_small p Hp) as Su. pose proof (pu_m1 p) as Pm.
  destruct (Qlt_le_dec a (1 # 4)) as [C|C]; [left; lra|].
  destruct (Qlt_le_dec a (1 # 2)) as [D|D].
  - left. assert (M : mult (- 2 + 1 - p) a) by (apply in_grid; auto; rewrite Qabs_pos by lra; setoid_replace (p2 (- 2)) with (1 # 4)%Q by reflexivity; auto).
    replace (- 2 + 1 - p) with (- p - 1) in M by lia.
    assert (Mh : mult (- p - 1) ((1 # 2) - a)%Q) by (apply mult_minus; auto; apply (mult_comp _ (p2 (- 1))); [reflexivity|apply mult_p2; lia]).
    assert (Nz : ~ ((1 # 2) - a == 0)%Q) by lra. pose proof (mult_nz _ _ Mh Nz) as L. rewrite Qabs_pos in L by lra. lra.
  - right. assert (M : mult (- 1 + 1 - p) a) by (apply in_grid; auto; rewrite Qabs_pos by lra; setoid_replace (p2 (- 1)) with (1 # 2)%Q by reflexivity; auto).
    replace (- 1 + 1 - p) with (- p) in M by lia.
    assert (Mh : mult (- p) (a - (1 # 2))%Q) by (apply mult_minus; auto; apply (mult_comp _ (p2 (- 1))); [reflexivity|apply mult_p2; lia]).
    destruct (Qeq_dec a (1 # 2)) as [E|E]; [left; auto|right].
    destruct (Qeq_dec a ((1 # 2) + u)) as [E2|E2]; [left; auto|right].
    assert (Nz : ~ (a - (1 # 2) == 0)%Q) by lra. pose proof (mult_nz _ _ Mh Nz) as L. rewrite Qabs_pos in L by lra.
    assert (M2 : mult (- p) (a - (1 # 2) - u)%Q) by (apply mult_minus; auto; apply mult_p2; lia).
    assert (Nz2 : ~ (a - (1 # 2) - u == 0)%Q) by lra. pose proof (mult_nz _ _ M2 Nz2) as L2. rewrite Qabs_pos in L2 by lra. lra.
Qed.

(* one iteration never climbs above 1/2 *)
Lemma ones_step : forall a, inF F a -> ~ (a == (1 # 2) + u)%Q -> (nr_step ri ones a <= 1 # 2)%Q.
Proof.
  intros a Ia Na. pose proof (DivCore.u_pos p) as Pu. pose proof (DivCore.u_small p Hp) as Su.
  rewrite <- tie_half. unfold nr_step. apply (rnd_mono F ri Hr). unfold nr_error.
  set (t := (1 - ones * a)%Q). assert (Et : (- ones * a + 1 == t)%Q) by (unfold t; ring).
  assert (Er0 : (Qabs (ri t - t) <= u * Qabs t)%Q) by apply (rel p Hp ri Hr).
  assert (E1 : (ri (- ones * a + 1) == ri t)%Q) by (apply (rnd_comp F ri Hr); auto).
  assert (E2 : (ri (- ones * a + 1) * a + a == ri t * a + a)%Q) by (rewrite E1; reflexivity).
  rewrite E2. clear E1 E2. set (e := ri t) in *.
  assert (Uu : (0 < u * u)%Q) by (apply Qmult_lt_0_compat; auto).
  assert (Ea : (ones * a == 1 - t)%Q) by (unfold t; ring).
  (* it suffices to compare after multiplication by the divisor *)
  assert (Goal1 : ((1 + e) * (1 - t) <= 1 - u * u)%Q).
  { assert (Et2 : (t == 1 - 2 * a + 2 * (u * a))%Q) by (unfold t, ones; ring).
    assert (Uu2 : (u * u <= (1 # 4096) * u)%Q) by (apply Qmult_le_compat_r; lra).
    destruct (near_half a Ia) as [C|[C|[C|C]]]; [| |contradiction|].
    - (* a below: t at least 2 u - u^2 *)
      destruct (Qlt_le_dec 1 t) as [T1|T1].
      { assert (Le : (1 <= e)%Q).
        { unfold e. apply (rnd_ge_F F ri Hr); [|lra]. apply (inF_comp F (p2 0)); [apply p2_0|]. apply (inF_intro F (C1' p Hp) 0); [apply mult_p2; lia|exact I|].
          rewrite Qabs_pos by (rewrite p2_0; lra). apply p2_le. cbn [prec]. lia. }
        assert (K : (0 <= (1 + e) * (t - 1))%Q) by (apply Qmult_le_0_compat; lra).
        setoid_replace ((1 + e) * (1 - t))%Q with (- ((1 + e) * (t - 1)))%Q by ring. lra. }
      assert (Ca : ((1 - u) * a <= (1 - u) * ((1 # 2) - (1 # 2) * u))%Q) by (apply mle; lra).
      assert (T0 : ((7 # 4) * u <= t)%Q).
      { assert (Eu : ((1 - u) * ((1 # 2) - (1 # 2) * u) == (1 # 2) - u + (1 # 2) * (u * u))%Q) by ring.
        assert (Eu2 : ((1 - u) * a == a - u * a)%Q) by ring. lra. }
      rewrite (Qabs_pos t) in Er0 by lra.
      assert (K : ((1 + e) * (1 - t) <= (1 + t + u * t) * (1 - t))%Q) by (apply Qmult_le_compat_r; [qabs_lra|lra]).
      assert (Tt : ((7 # 4) * u * t <= t * t)%Q) by (apply Qmult_le_compat_r; lra).
      assert (Ut : (u * ((7 # 4) * u) <= u * t)%Q) by (apply mle; lra).
      assert (Utt : (0 <= u * (t * t))%Q) by (apply Qmult_le_0_compat; [lra|apply Qmult_le_0_compat; lra]).
      assert (Ex : ((1 + t + u * t) * (1 - t) == 1 - t * t + u * t - u * (t * t))%Q) by ring.
      assert (Ex2 : ((7 # 4) * u * t == (7 # 4) * (u * t))%Q) by ring. lra.
    - (* a = 1/2 *)
      assert (Ht : (t == u)%Q) by (rewrite Et2, C; ring).
      assert (He : (e == u)%Q).
      { unfold e. rewrite (rnd_comp F ri Hr _ _ Ht). apply (rnd_id F ri Hr). apply (inF_intro F (C1' p Hp) (- p)); [apply mult_p2; lia|exact I|].
        rewrite Qabs_pos by lra. apply p2_le. cbn [prec]. lia. }
      rewrite Ht, He. ring_simplify. lra.
    - (* a above *)
      assert (Ca : ((1 - u) * ((1 # 2) + 2 * u) <= (1 - u) * a)%Q) by (apply mle; lra).
      assert (T0 : (t <= - (2 * u))%Q).
      { assert (Eu : ((1 - u) * ((1 # 2) + 2 * u) == (1 # 2) + (3 # 2) * u - 2 * (u * u))%Q) by ring.
        assert (Eu2 : ((1 - u) * a == a - u * a)%Q) by ring. lra. }
      rewrite (Qabs_neg t) in Er0 by lra.
      assert (K : ((1 + e) * (1 - t) <= (1 + t + u * - t) * (1 - t))%Q) by (apply Qmult_le_compat_r; [qabs_lra|lra]).
      set (s := (- t)%Q) in *. assert (Es : (t == - s)%Q) by (unfold s; ring). assert (S0 : (2 * u <= s)%Q) by lra.
      assert (Ex : ((1 + t + u * s) * (1 - t) == 1 - s * s + u * s + u * (s * s))%Q) by (rewrite Es; ring).
      assert (Ss : (2 * u * s <= s * s)%Q) by (apply Qmult_le_compat_r; lra).
      assert (Us : (u * (2 * u) <= u * s)%Q) by (apply mle; lra).
      assert (Uss : (u * (s * s) <= (1 # 4096) * (s * s))%Q) by (apply Qmult_le_compat_r; [lra|apply Qmult_le_0_compat; lra]).
      assert (Ex2 : (2 * u * s == 2 * (u * s))%Q) by ring. lra. }
  apply (Qmult_lt_0_le_reg_r _ _ ones); [unfold ones; lra|].
  setoid_replace ((e * a + a) * ones)%Q with ((1 + e) * (ones * a))%Q by ring. rewrite Ea.
  setoid_replace (((1 # 2) + (1 # 2) * u) * ones)%Q with (1 - u * u)%Q by (unfold ones; ring). auto.
Qed.

Lemma ones_recip : forall n s, inF F s -> ~ (s == (1 # 2) + u)%Q ->
  let y := compute_reduced_reciprocal ri s ones n in inF F y /\ ~ (y == (1 # 2) + u)%Q.
Proof.
  pose proof (DivCore.u_pos p) as Pu.
  induction n as [|n IH]; intros s Is Ns; cbn [compute_reduced_reciprocal]; [auto|].
  apply IH; [unfold nr_step; apply (rnd_inF F ri Hr)|]. pose proof (ones_step s Is Ns). lra.
Qed.

(* whatever the number of iterations and the seed (except the answer itself),
   1 / ones comes out below its rounding *)
Theorem ones_quotient_refuted : forall n s, inF F s -> ~ (s == (1 # 2) + u)%Q ->
  (snd (compute_reduced_division ri 1 ones (compute_reduced_reciprocal ri s ones n)) <= 1 # 2)%Q.
Proof.
  intros n s Is Ns. destruct (ones_recip n s Is Ns) as [Iy Ny]. set (y := compute_reduced_reciprocal ri s ones n) in *.
  unfold compute_reduced_division, dividend_mult. cbn [snd].
  assert (E0 : (ri (1 * y) == y)%Q) by (rewrite (rnd_comp F ri Hr (1 * y) y) by ring; apply (rnd_id F ri Hr); auto).
  assert (E1 : (ri (- ri (1 * y) * ones + 1) == nr_error ri ones y)%Q) by (unfold nr_error; apply (rnd_comp F ri Hr); rewrite E0; ring).
  rewrite (rnd_comp F ri Hr _ (nr_error ri ones y * y + y)%Q) by (apply Qplus_comp; [apply Qmult_comp|]; auto; reflexivity).
  apply ones_step; auto.
Qed.
Theorem ones_rounded : forall rnd, nearest_in F rnd -> (rnd (1 / ones) == (1 # 2) + u)%Q.
Proof.
  intros rnd H. pose proof (DivCore.u_pos p) as Pu. pose proof (DivCore.u_small p Hp) as Su.
  set (v := (1 / ones)%Q). assert (Ev : (v * ones == 1)%Q) by (unfold v, ones; field; lra). unfold ones in Ev.
  assert (P2 : (p2 (- 1 + 1 - p) == u)%Q) by (replace (- 1 + 1 - p) with (- p) by lia; reflexivity).
  assert (Uu : (0 < u * u)%Q) by (apply Qmult_lt_0_compat; auto).
  assert (Uu2 : (u * u <= (1 # 4096) * u)%Q) by (apply Qmult_le_compat_r; lra).
  assert (V1 : ((1 # 2) + (1 # 2) * u < v)%Q).
  { destruct (Qlt_le_dec ((1 # 2) + (1 # 2) * u) v) as [|C]; auto. exfalso.
    assert (v * (2 - 2 * u) <= ((1 # 2) + (1 # 2) * u) * (2 - 2 * u))%Q by (apply Qmult_le_compat_r; lra).
    assert (((1 # 2) + (1 # 2) * u) * (2 - 2 * u) == 1 - u * u)%Q by ring. lra. }
  assert (V2 : (v < (1 # 2) + u)%Q).
  { destruct (Qlt_le_dec v ((1 # 2) + u)) as [|C]; auto. exfalso.
    assert (((1 # 2) + u) * (2 - 2 * u) <= v * (2 - 2 * u))%Q by (apply Qmult_le_compat_r; lra).
    assert (((1 # 2) + u) * (2 - 2 * u) == 1 + u - 2 * (u * u))%Q by ring. lra. }
  apply (round_to p Hp rnd (- 1)); auto.
  - setoid_replace (p2 (- 1)) with (1 # 2)%Q by reflexivity. lra.
  - change (- 1 + 1) with 0. rewrite p2_0. lra.
  - replace (- 1 + 1 - p) with (- p) by lia. apply mult_plus; [apply (mult_comp _ (p2 (- 1))); [reflexivity|apply mult_p2; lia]|apply mult_p2; lia].
  - rewrite P2, Qabs_neg by lra. lra.
Qed.
End O.
