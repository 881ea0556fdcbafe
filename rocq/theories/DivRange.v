(* The reduced division in a format with bounded exponents: nothing is lost
   when the operands are scaled around one. *)
From Coq Require Import ZArith QArith Qround Qabs Lia Lqa Bool.
From Verif Require Import QUtil RoundSpec RoundProofs RoundRne VeltProofs DivModel DivCore DivProofs.
From Verif Require FpFormatProofs FpFormatProofs2.
Open Scope Z_scope.

Lemma mult_mul : forall a b x y, mult a x -> mult b y -> mult (a + b) (x * y).
Proof. intros a b x y [i Hi] [j Hj]. exists (i * j). rewrite Hi, Hj, p2_plus, inject_Z_mult. ring. Qed.

(* ---- congruence of the reduced computation ---- *)
Section Comp.
Variables (F : fmt) (rnd : Q -> Q).
Hypothesis Hr : nearest_in F rnd.
Lemma nr_step_comp : forall d d' a a', (d == d')%Q -> (a == a')%Q -> (nr_step rnd d a == nr_step rnd d' a')%Q.
Proof.
  intros d d' a a' Ed Ea. unfold nr_step. apply (rnd_comp F rnd Hr).
  assert (E : (nr_error rnd d a == nr_error rnd d' a')%Q) by (unfold nr_error; apply (rnd_comp F rnd Hr); rewrite Ed, Ea; reflexivity).
  rewrite E, Ea. reflexivity.
Qed.
Lemma recip_comp : forall n d d' s s', (d == d')%Q -> (s == s')%Q ->
  (compute_reduced_reciprocal rnd s d n == compute_reduced_reciprocal rnd s' d' n)%Q.
Proof.
  induction n as [|n IH]; intros d d' s s' Ed Es; cbn [compute_reduced_reciprocal]; auto.
  apply IH; auto. apply nr_step_comp; auto.
Qed.
Lemma division_comp : forall x x' d d' y y', (x == x')%Q -> (d == d')%Q -> (y == y')%Q ->
  (snd (compute_reduced_division rnd x d y) == snd (compute_reduced_division rnd x' d' y'))%Q.
Proof.
  intros x x' d d' y y' Ex Ed Ey. unfold compute_reduced_division, dividend_mult. cbn [snd].
  assert (E0 : (rnd (x * y) == rnd (x' * y'))%Q) by (apply (rnd_comp F rnd Hr); rewrite Ex, Ey; reflexivity).
  assert (E1 : (rnd (- rnd (x * y) * d + x) == rnd (- rnd (x' * y') * d' + x'))%Q) by (apply (rnd_comp F rnd Hr); rewrite E0, Ex, Ed; reflexivity).
  apply (rnd_comp F rnd Hr). apply Qplus_comp; [apply Qmult_comp|]; auto.
Qed.
End Comp.

Section B.
Variables p em : Z.
Hypothesis Hp : 12 <= p.
Hypothesis Hem : em <= - 3 * p - 4.
Notation F := (mkF p None).
Notation Fb := (mkF p (Some em)).
Notation u := (p2 (- p)).
Notation ri := (rne F).
Notation rb := (rne Fb).

Lemma Hri : nearest_in F ri. Proof. apply rne_nearest. cbn [prec]. lia. Qed.
Lemma Hrb : nearest_in Fb rb. Proof. apply rne_nearest. cbn [prec]. lia. Qed.
Lemma C1' : 1 <= prec F. Proof. cbn [prec]. lia. Qed.
Lemma C1b : 1 <= prec Fb. Proof. cbn [prec]. lia. Qed.

Lemma rne_agree : forall v, mult em v \/ (p2 (em + p - 1) <= Qabs v)%Q -> (rb v == ri v)%Q.
Proof.
  intros v H. destruct (Qlt_le_dec (Qabs v) (p2 (em + p - 1))) as [C|C].
  - destruct H as [H|H]; [|lra]. assert (B : (Qabs v <= p2 (p + em))%Q).
    { pose proof (p2_le (em + p - 1) (p + em) ltac:(lia)). lra. }
    rewrite (rnd_id F ri Hri); [apply (rnd_id Fb rb Hrb)|].
    + apply (inF_intro Fb C1b em); auto. cbn [exp_ok emin]. unfold exp_ok. cbn [emin]. lia.
    + apply (inF_intro F C1' em); auto. exact I.
  - unfold rne. destruct (Qeq_bool v 0) eqn:E; [reflexivity|].
    assert (Pv : (0 < Qabs v)%Q) by (pose proof (p2_pos (em + p - 1)); lra).
    assert (R : rexp Fb v = rexp F v).
    { unfold rexp. cbn [emin prec]. destruct (qlog2_spec _ Pv) as [L U].
      assert (K : (p2 (em + p - 1) < p2 (qlog2 (Qabs v) + 1))%Q) by lra.
      destruct (Z.le_gt_cases (qlog2 (Qabs v) + 1) (em + p - 1)) as [Z1|Z1]; [|lia].
      pose proof (p2_le _ _ Z1). lra. }
    rewrite R. reflexivity.
Qed.

(* a value close to 1/d with |d| at most 4 is at least 1/8 *)
Lemma recip_low : forall d v, (Qabs d <= 4)%Q -> (Qabs (1 - d * v) <= 1 # 2)%Q -> (p2 (- 3) <= Qabs v)%Q.
Proof.
  intros d v Hd H. assert (A : ((1 # 2) <= Qabs (d * v))%Q) by (set (dv := (d * v)%Q) in *; clearbody dv; qabs_lra).
  rewrite Qabs_Qmult in A. pose proof (Qabs_nonneg v) as Pv.
  assert (B : (Qabs d * Qabs v <= 4 * Qabs v)%Q) by (apply Qmult_le_compat_r; auto).
  setoid_replace (p2 (- 3)) with (1 # 8)%Q by reflexivity. lra.
Qed.

Lemma nr_agree : forall d s e, (0 <= e)%Q -> (e <= 1 # 8)%Q -> mult (1 - p) d -> (Qabs d <= 4)%Q -> inF F s ->
  (Qabs (1 - d * s) <= e + 2 * u)%Q -> (nr_step rb d s == nr_step ri d s)%Q.
Proof.
  intros d s e E0 E8 Md Bd Is H. pose proof (DivCore.u_pos p) as Pu. pose proof (DivCore.u_small p Hp) as Su.
  assert (Ls : (p2 (- 3) <= Qabs s)%Q) by (apply (recip_low d); auto; lra).
  pose proof (in_grid p Hp _ _ Is Ls) as Ms.
  assert (E1 : (nr_error rb d s == nr_error ri d s)%Q).
  { unfold nr_error. apply rne_agree. left. apply (mult_le (1 - p + (- 3 + 1 - p))); [lia|].
    apply mult_plus.
    - apply (mult_comp _ (- (d * s))%Q); [ring|]. apply mult_opp, mult_mul; auto.
    - apply (mult_comp _ (p2 0)); [apply p2_0|]. apply mult_p2. lia. }
  unfold nr_step. rewrite (rnd_comp Fb rb Hrb _ (nr_error ri d s * s + s)%Q); [|rewrite E1; reflexivity].
  apply rne_agree. right. fold (nr_pre ri d s).
  destruct (nr_bound p Hp ri Hri d s e E0 E8 H) as [B _].
  assert (L : (p2 (- 3) <= Qabs (nr_pre ri d s))%Q).
  { apply (recip_low d); auto. eapply Qle_trans; [exact B|].
    assert (Ee : (e * e <= (1 # 8) * (1 # 8))%Q) by (apply Qle_trans with (e * (1 # 8))%Q; [apply mle; lra|apply Qmult_le_compat_r; lra]).
    assert (Ue : (u * (6 * e + 8 * u) <= u * 2)%Q) by (apply mle; lra). lra. }
  eapply Qle_trans; [|exact L]. apply p2_le. lia.
Qed.

Lemma recip_agree : forall n d s e, (0 <= e)%Q -> (e <= 1 # 8)%Q -> mult (1 - p) d -> (Qabs d <= 4)%Q -> inF F s ->
  (Qabs (1 - d * s) <= e + 2 * u)%Q ->
  (compute_reduced_reciprocal rb s d n == compute_reduced_reciprocal ri s d n)%Q
  /\ inF F (compute_reduced_reciprocal ri s d n).
Proof.
  induction n as [|n IH]; intros d s e E0 E8 Md Bd Is H; cbn [compute_reduced_reciprocal].
  - split; [reflexivity|auto].
  - destruct (e_small e E0 E8) as [A B].
    destruct (nr_bound p Hp ri Hri d s e E0 E8 H) as [_ K].
    destruct (IH d (nr_step ri d s) (e * e)%Q A B Md Bd) as [I1 I2]; auto.
    { unfold nr_step. apply (rnd_inF F ri Hri). }
    split; auto. rewrite <- I1. apply (recip_comp Fb rb Hrb); [reflexivity|]. apply (nr_agree d s e); auto.
Qed.

Lemma sq_le : forall n e, (0 <= e)%Q -> (e <= 1 # 8)%Q -> (0 <= sq n e)%Q /\ (sq n e <= 1 # 8)%Q.
Proof.
  induction n as [|n IH]; intros e E0 E8; cbn [sq]; auto. destruct (e_small e E0 E8). apply IH; auto.
Qed.

Lemma quotient_agree : forall x d y, mult (1 - p) x -> ~ (x == 0)%Q -> mult (1 - p) d -> (Qabs d <= 4)%Q ->
  inF F y -> (Qabs (1 - d * y) <= (1 # 8) + 2 * u)%Q ->
  (snd (compute_reduced_division rb x d y) == snd (compute_reduced_division ri x d y))%Q.
Proof.
  intros x d y Mx Nx Md Bd Iy H. pose proof (DivCore.u_pos p) as Pu. pose proof (DivCore.u_small p Hp) as Su.
  assert (Ly : (p2 (- 3) <= Qabs y)%Q) by (apply (recip_low d); auto; lra).
  pose proof (mult_nz _ _ Mx Nx) as Lx.
  assert (Lxy : (p2 (- 2 - p) <= Qabs (x * y))%Q).
  { rewrite Qabs_Qmult. replace (- 2 - p) with ((1 - p) + (- 3)) by lia. rewrite p2_plus. pose proof (p2_pos (- 3)). pose proof (p2_pos (1 - p)).
    eapply Qle_trans; [apply Qmult_le_compat_r; [exact Lx|lra]|]. apply mle; [apply Qabs_nonneg|auto]. }
  unfold compute_reduced_division, dividend_mult. cbn [snd].
  assert (A0 : (rb (x * y) == ri (x * y))%Q).
  { apply rne_agree. right. eapply Qle_trans; [|exact Lxy]. apply p2_le. lia. }
  set (q0 := ri (x * y)%Q) in *.
  assert (Iq : inF F q0) by apply (rnd_inF F ri Hri).
  assert (Lq : (p2 (- 2 - p) <= Qabs q0)%Q).
  { pose proof (p2_pos (- 2 - p)) as Pq. assert (Ip : inF F (p2 (- 2 - p))).
    { apply (inF_intro F C1' (- 2 - p)); [apply mult_p2; lia|exact I|].
      rewrite Qabs_pos by lra. apply p2_le. cbn [prec]. lia. }
    apply (rnd_abs_ge_F F C1' ri Hri); auto; lra. }
  pose proof (in_grid p Hp _ _ Iq Lq) as Mq.
  assert (A1 : (rb (- rb (x * y) * d + x) == ri (- q0 * d + x))%Q).
  { rewrite (rnd_comp Fb rb Hrb _ (- q0 * d + x)%Q); [|rewrite A0; reflexivity].
    apply rne_agree. left. apply (mult_le ((- 2 - p + 1 - p) + (1 - p))); [lia|]. apply mult_plus.
    - apply (mult_comp _ (- (q0 * d))%Q); [ring|]. apply mult_opp, mult_mul; auto.
    - apply (mult_le (1 - p)); auto. lia. }
  set (r := ri (- q0 * d + x)%Q) in *.
  rewrite (rnd_comp Fb rb Hrb _ (r * y + q0)%Q); [|apply Qplus_comp; [apply Qmult_comp|]; auto; reflexivity].
  apply rne_agree. right.
  apply Qle_trans with (p2 (- 3 - p)); [apply p2_le; lia|].
  (* the correction is small before q0 *)
  set (X := Qabs x) in *. set (Y := Qabs y) in *. assert (X0 : (0 <= X)%Q) by apply Qabs_nonneg. assert (Y0 : (0 <= Y)%Q) by apply Qabs_nonneg.
  pose proof (rel p Hp ri Hri (x * y)) as R0. fold q0 in R0. rewrite Qabs_Qmult in *. fold X Y in R0, Lxy.
  pose proof (rel p Hp ri Hri (- q0 * d + x)) as R1. fold r in R1.
  assert (Dy : (Qabs d * Y <= 2)%Q).
  { unfold Y. rewrite <- Qabs_Qmult. set (dy := (d * y)%Q) in *. clearbody dy. qabs_lra. }
  assert (T : (Qabs (- q0 * d + x) <= (9 # 64) * X)%Q).
  { assert (E : (- q0 * d + x == x * (1 - d * y) - d * (q0 - x * y))%Q) by ring. rewrite E.
    assert (T1 : (Qabs (x * (1 - d * y)) <= X * ((1 # 8) + 2 * u))%Q) by (apply mul_abs_le; [unfold X; lra|auto]).
    assert (T2 : (Qabs (d * (q0 - x * y)) <= Qabs d * (u * (X * Y)))%Q) by (apply mul_abs_le; [lra|auto]).
    assert (T3 : (Qabs d * (u * (X * Y)) <= (2 * X) * u)%Q).
    { setoid_replace (Qabs d * (u * (X * Y)))%Q with ((Qabs d * Y) * (X * u))%Q by ring.
      setoid_replace ((2 * X) * u)%Q with (2 * (X * u))%Q by ring. apply Qmult_le_compat_r; auto. apply Qmult_le_0_compat; lra. }
    assert (T4 : (X * u <= X * (1 # 4096))%Q) by (apply mle; lra).
    set (m1 := (x * (1 - d * y))%Q) in *. set (m2 := (d * (q0 - x * y))%Q) in *.
    set (k := (X * u)%Q) in *. assert (T5 : (X * ((1 # 8) + 2 * u) == (1 # 8) * X + 2 * k)%Q) by (unfold k; ring).
    assert (T6 : (2 * X * u == 2 * k)%Q) by (unfold k; ring). rewrite T5 in T1. rewrite T6 in T3.
    clearbody m1 m2 k. qabs_lra. }
  assert (Rb : (Qabs r <= (1 # 4) * X)%Q).
  { assert (Ut : (u * Qabs (- q0 * d + x) <= (1 # 4096) * Qabs (- q0 * d + x))%Q) by (apply Qmult_le_compat_r; [lra|apply Qabs_nonneg]).
    set (w := (- q0 * d + x)%Q) in *. clearbody w r. qabs_lra. }
  assert (Ry : (Qabs (r * y) <= (1 # 4) * (X * Y))%Q).
  { rewrite Qabs_Qmult. fold Y. setoid_replace ((1 # 4) * (X * Y))%Q with ((1 # 4) * X * Y)%Q by ring. apply Qmult_le_compat_r; auto. }
  assert (XY : (0 <= X * Y)%Q) by (apply Qmult_le_0_compat; auto).
  assert (Uxy : (u * (X * Y) <= (1 # 4096) * (X * Y))%Q) by (apply Qmult_le_compat_r; lra).
  assert (Axy : (Qabs (x * y) == X * Y)%Q) by apply Qabs_Qmult.
  pose proof (p2_succ (- 3 - p)) as Es. replace (- 3 - p + 1) with (- 2 - p) in Es by lia. pose proof (p2_pos (- 3 - p)).
  set (xy := (X * Y)%Q) in *. set (ry := (r * y)%Q) in *. set (v := (x * y)%Q) in *. clearbody xy ry v q0.
  set (h := (u * xy)%Q) in *. clearbody h. qabs_lra.
Qed.

(* the reduced division in the bounded format *)
Theorem reduced_correct_bounded : forall m x d s e E, inF F x -> mult (1 - p) x -> inF F d -> mult (1 - p) d ->
  ~ (x == 0)%Q -> ~ (d == 0)%Q -> (Qabs d <= 4)%Q -> inF F s ->
  (e <= 1 # 8)%Q -> (Qabs (1 - d * s) <= e)%Q ->
  (sq m e * sq m e + u * (6 * sq m e + 8 * u) <= E * u)%Q ->
  ((E <= 9 # 64)%Q \/ (E == 1 # 6)%Q) -> (mant d < 2 - 2 * E)%Q ->
  (snd (compute_reduced_division rb x d (compute_reduced_reciprocal rb s d (S m))) == ri (x / d))%Q.
Proof.
  intros m x d s e E Ix Mx Id Md Nx Nd Bd Is E8 Hs HE1 HE2 Hd. pose proof (DivCore.u_pos p) as Pu.
  assert (E0 : (0 <= e)%Q) by (pose proof (Qabs_nonneg (1 - d * s)); lra).
  assert (Hs' : (Qabs (1 - d * s) <= e + 2 * u)%Q) by lra.
  destruct (recip_agree (S m) d s e E0 E8 Md Bd Is Hs') as [A I1].
  pose proof (reciprocal_error p Hp ri Hri (S m) d s e E0 E8 Hs') as Er.
  destruct (sq_le (S m) e E0 E8) as [_ S8].
  rewrite (division_comp Fb rb Hrb x x d d _ (compute_reduced_reciprocal ri s d (S m))) by (auto; reflexivity).
  rewrite quotient_agree; auto; [|lra].
  apply (reduced_correct p Hp ri Hri m x d s e E); auto.
Qed.

(* scaling and rounding *)
Lemma rne_scale : forall v k, (p2 (em + p - 1) <= Qabs v * p2 k)%Q -> (rb (v * p2 k) == ri v * p2 k)%Q.
Proof.
  intros v k H. pose proof (p2_pos k) as Pk.
  assert (Av : (Qabs (v * p2 k) == Qabs v * p2 k)%Q) by (apply Qabs_mul_pos; auto).
  rewrite rne_agree; [|right; rewrite Av; auto].
  unfold rne. pose proof (p2_pos (em + p - 1)) as P0.
  assert (Nv : ~ (v == 0)%Q). { intros E. rewrite E in H. change (Qabs 0) with 0%Q in H. lra. }
  assert (Nvk : ~ (v * p2 k == 0)%Q). { intros E. apply Nv. apply (Qmult_inj_r _ _ (p2 k)); [apply p2_nz|]. rewrite E. ring. }
  destruct (Qeq_bool v 0) eqn:E1; [apply Qeq_bool_iff in E1; contradiction|].
  destruct (Qeq_bool (v * p2 k) 0) eqn:E2; [apply Qeq_bool_iff in E2; contradiction|].
  pose proof (FpFormatProofs.Qabs_nz v Nv) as Pv. destruct (qlog2_spec _ Pv) as [L U].
  assert (Q : qlog2 (Qabs (v * p2 k)) = qlog2 (Qabs v) + k).
  { apply qlog2_unique; rewrite Av; [rewrite p2_plus; apply Qmult_le_compat_r; lra|].
    replace (qlog2 (Qabs v) + k + 1) with ((qlog2 (Qabs v) + 1) + k) by lia. rewrite p2_plus. apply Qmult_lt_r; auto. }
  unfold rexp. cbn [emin prec]. rewrite Q. set (t := qlog2 (Qabs v) - p + 1). replace (qlog2 (Qabs v) + k - p + 1) with (t + k) by (unfold t; lia).
  rewrite (QUtil.qrne_comp (v * p2 k / p2 (t + k)) (v / p2 t)); [rewrite p2_plus; ring|].
  rewrite p2_plus. field. split; apply p2_nz.
Qed.
End B.
