(* Error analysis of the square root iterations, on values related by
   relative errors, without any rounding function. *)
From Coq Require Import ZArith QArith Qabs Lia Lqa Setoid.
From Verif Require Import QUtil RoundSpec RoundProofs SqrtModel.
From Verif Require DivProofs.
Open Scope Q_scope.

(* r is x up to a relative error k *)
Definition relerr (k x r : Q) : Prop := Qabs (r - x) <= k * Qabs x.

Lemma relerr_delta : forall k x r, 0 <= k -> relerr k x r -> exists d, r == x * (1 + d) /\ Qabs d <= k.
Proof.
  intros k x r Hk H. unfold relerr in H. destruct (Qeq_dec x 0) as [Z|N].
  - exists 0. split; [|change (Qabs 0) with 0; auto].
    assert (A : Qabs x == 0) by (rewrite Z; reflexivity). rewrite A in H.
    assert (B : k * 0 == 0) by ring. rewrite B in H. apply Qabs_le_iff in H. rewrite Z in *. lra.
  - exists ((r - x) / x). split; [field; auto|].
    assert (P : 0 < Qabs x).
    { destruct (Qlt_le_dec 0 (Qabs x)); auto. exfalso. apply N. apply Qabs_le_iff in q. lra. }
    apply (Qmult_lt_0_le_reg_r _ _ (Qabs x)); auto. rewrite <- Qabs_Qmult.
    setoid_replace ((r - x) / x * x) with (r - x) by (field; auto). exact H.
Qed.

Lemma relerr_weak : forall k k' x r, k <= k' -> relerr k x r -> relerr k' x r.
Proof.
  unfold relerr. intros k k' x r H L. eapply Qle_trans; [exact L|].
  apply Qmult_le_compat_r; auto. apply Qabs_nonneg.
Qed.

Lemma absmul : forall a b A B, Qabs a <= A -> Qabs b <= B -> Qabs (a * b) <= A * B.
Proof.
  intros a b A B Ha Hb. rewrite Qabs_Qmult.
  pose proof (Qabs_nonneg a). pose proof (Qabs_nonneg b).
  apply (Qle_trans _ (A * Qabs b)); [apply Qmult_le_compat_r; auto|].
  rewrite !(Qmult_comm A). apply Qmult_le_compat_r; auto. lra.
Qed.

Lemma sqle : forall a A, Qabs a <= A -> a * a <= A * A /\ 0 <= a * a.
Proof.
  intros a A H. pose proof (absmul a a A A H H) as K. apply Qabs_le_iff in K. split; [tauto|].
  destruct (Qlt_le_dec a 0).
  - setoid_replace (a * a) with ((- a) * (- a)) by ring. apply Qmult_le_0_compat; lra.
  - apply Qmult_le_0_compat; lra.
Qed.

Ltac split_abs := repeat match goal with H : Qabs _ <= _ |- _ => apply Qabs_le_iff in H; destruct H end.

Section Err.
Variable u : Q.
Hypothesis u0 : 0 <= u.
Hypothesis u12 : 4096 * u <= 1.

(* u^2 and the like *)
Lemma ux : forall x, 0 <= x -> 0 <= u * x /\ 4096 * (u * x) <= x.
Proof.
  intros x H. split; [apply Qmult_le_0_compat; auto|].
  assert (0 <= (1 - 4096 * u) * x) by (apply Qmult_le_0_compat; lra). lra.
Qed.

(* the factor 1 + mult of an iteration *)
Lemma mult_error : forall e d1 d2 E, 0 <= E -> E <= 1 # 8 -> Qabs e <= E -> Qabs d1 <= (9 # 2) * u -> Qabs d2 <= u ->
  Qabs ((1 # 2) * (e - d1 * (1 - e)) * (1 + d2) - (1 # 2) * e) <= (21 # 8) * u.
Proof.
  intros e d1 d2 E E0 E8 He H1 H2.
  pose proof (absmul (1 - e) d1 (9 # 8) ((9 # 2) * u)) as A1.
  assert (B1 : Qabs (1 - e) <= 9 # 8) by (apply Qabs_le_iff; split_abs; lra).
  specialize (A1 B1 H1).
  assert (B2 : Qabs (e - d1 * (1 - e)) <= 1 # 7).
  { apply Qabs_le_iff. split_abs. lra. }
  pose proof (absmul (e - d1 * (1 - e)) d2 (1 # 7) u B2 H2) as A2.
  apply Qabs_le_iff. split_abs. lra.
Qed.

(* the new approximation y * (1 + m), rounded *)
Lemma approx_error : forall e m d3 E, 0 <= E -> E <= 1 # 8 -> Qabs e <= E ->
  Qabs (m - (1 # 2) * e) <= (21 # 8) * u -> Qabs d3 <= u ->
  Qabs (1 - (1 - e) * ((1 + m) * (1 + d3)) * ((1 + m) * (1 + d3))) <= E * E + 8 * u.
Proof.
  intros e m d3 E E0 E8 He Hm H3.
  set (t := m - (1 # 2) * e) in *.
  assert (Em : m == (1 # 2) * e + t) by (unfold t; ring).
  destruct (ux u u0) as [uu0 uu]. destruct (ux (u * u) uu0) as [uuu0 uuu].
  destruct (sqle e E He) as [S1 S0]. 
  assert (He8 : Qabs e <= 1 # 8) by lra.
  destruct (sqle e (1 # 8) He8) as [S1' _].
  assert (C : Qabs (e * (e * e)) <= (1 # 8) * (E * E)).
  { apply absmul; auto. apply Qabs_le_iff. lra. }
  assert (T1 : Qabs (2 - e - e * e) <= 17 # 8).
  { apply Qabs_le_iff. split_abs. lra. }
  pose proof (absmul _ _ _ _ T1 Hm) as T2.
  pose proof (absmul _ _ _ _ Hm Hm) as T3.
  assert (T4 : Qabs (1 - e) <= 9 # 8) by (apply Qabs_le_iff; split_abs; lra).
  pose proof (absmul _ _ _ _ T4 T3) as T5.
  set (W := (1 - e) * ((1 + m) * (1 + m))).
  assert (EW : 1 - W == (3 # 4) * (e * e) + (1 # 4) * (e * (e * e)) - (2 - e - e * e) * t - (1 - e) * (t * t)).
  { unfold W. rewrite Em. ring. }
  assert (BW : Qabs (1 - W) <= (25 # 32) * (E * E) + (23 # 4) * u).
  { rewrite EW. apply Qabs_le_iff. split_abs. lra. }
  assert (EE : E * E <= 1 # 64).
  { assert (Qabs E <= 1 # 8) by (apply Qabs_le_iff; lra). destruct (sqle E (1 # 8)); auto. }
  assert (BW' : Qabs W <= 33 # 32) by (apply Qabs_le_iff; split_abs; lra).
  pose proof (absmul _ _ _ _ H3 H3) as D2.
  assert (D : Qabs (2 * d3 + d3 * d3) <= (33 # 16) * u) by (apply Qabs_le_iff; split_abs; lra).
  pose proof (absmul _ _ _ _ BW' D) as WD.
  setoid_replace (1 - (1 - e) * ((1 + m) * (1 + d3)) * ((1 + m) * (1 + d3)))
    with (1 - W - W * (2 * d3 + d3 * d3)) by (unfold W; ring).
  clearbody W t. apply Qabs_le_iff. split_abs. 
  assert (0 <= E * E) by (apply Qmult_le_0_compat; auto). lra.
Qed.

(* one Newton-Raphson iteration on the reciprocal square root *)
Lemma iteration_error : forall v y sq m y' E, 0 < y -> 0 <= E -> E <= 1 # 8 ->
  Qabs (1 - v * y * y) <= E ->
  relerr ((9 # 2) * u) (y * y) sq -> relerr u (- ((1 # 2) * v) * sq + (1 # 2)) m -> relerr u (y * m + y) y' ->
  Qabs (1 - v * y' * y') <= E * E + 8 * u /\ 0 < y' /\ Qabs (y' - y) <= ((1 # 2) * E + 4 * u) * y.
Proof.
  intros v y sq m y' E Hy E0 E8 He Hsq Hm Hy'.
  assert (u4 : 0 <= (9 # 2) * u) by lra.
  destruct (relerr_delta _ _ _ u4 Hsq) as (d1 & Q1 & D1).
  destruct (relerr_delta _ _ _ u0 Hm) as (d2 & Q2 & D2).
  destruct (relerr_delta _ _ _ u0 Hy') as (d3 & Q3 & D3).
  set (e := 1 - v * y * y) in *.
  assert (Qm : m == (1 # 2) * (e - d1 * (1 - e)) * (1 + d2)).
  { rewrite Q2, Q1. unfold e. ring. }
  pose proof (mult_error e d1 d2 E E0 E8 He D1 D2) as M. rewrite <- Qm in M.
  assert (Em : Qabs m <= (1 # 2) * E + (21 # 8) * u) by (apply Qabs_le_iff; split_abs; lra).
  assert (Em' : Qabs (1 + m) <= 5 # 4) by (apply Qabs_le_iff; split_abs; lra).
  pose proof (absmul _ _ _ _ Em' D3) as X.
  assert (Y : Qabs ((1 + m) * (1 + d3) - 1) <= (1 # 2) * E + 4 * u).
  { setoid_replace ((1 + m) * (1 + d3) - 1) with (m + (1 + m) * d3) by ring. apply Qabs_le_iff; split_abs; lra. }
  split; [|split].
  - setoid_replace (1 - v * y' * y') with (1 - (1 - e) * ((1 + m) * (1 + d3)) * ((1 + m) * (1 + d3))).
    + apply approx_error; auto.
    + rewrite Q3. unfold e. ring.
  - rewrite Q3. setoid_replace ((y * m + y) * (1 + d3)) with (y * ((1 + m) * (1 + d3))) by ring.
    setoid_replace 0 with (y * 0) by ring. apply Qmult_lt_l; auto. split_abs. lra.
  - setoid_replace (y' - y) with (((1 + m) * (1 + d3) - 1) * y) by (rewrite Q3; ring).
    rewrite Qabs_mul_pos by auto. apply Qmult_le_compat_r; auto. lra.
Qed.

(* an iteration from an approximation which is already accurate *)
Lemma late_iteration_error : forall v y sq m y' E, 0 < y -> 0 <= E -> E <= 1 # 1024 ->
  Qabs (1 - v * y * y) <= E ->
  relerr u (y * y) sq -> relerr u (- ((1 # 2) * v) * sq + (1 # 2)) m -> relerr u (y * m + y) y' ->
  Qabs (1 - v * y' * y') <= E * E + (25 # 8) * u.
Proof.
  intros v y sq m y' E Hy E0 E8 He Hsq Hm Hy'.
  destruct (relerr_delta _ _ _ u0 Hsq) as (d1 & Q1 & D1).
  destruct (relerr_delta _ _ _ u0 Hm) as (d2 & Q2 & D2).
  destruct (relerr_delta _ _ _ u0 Hy') as (d3 & Q3 & D3).
  set (e := 1 - v * y * y) in *.
  assert (Qm : m == (1 # 2) * (e - d1 * (1 - e)) * (1 + d2)).
  { rewrite Q2, Q1. unfold e. ring. }
  assert (B1 : Qabs (1 - e) <= 1025 # 1024) by (apply Qabs_le_iff; split_abs; lra).
  pose proof (absmul _ _ _ _ D1 B1) as A1.
  assert (B2 : Qabs (e - d1 * (1 - e)) <= 1 # 512) by (apply Qabs_le_iff; split_abs; lra).
  pose proof (absmul _ _ _ _ B2 D2) as A2.
  set (t := m - (1 # 2) * e). assert (Em : m == (1 # 2) * e + t) by (unfold t; ring).
  assert (Ht : Qabs t <= (33 # 64) * u).
  { unfold t. rewrite Qm. apply Qabs_le_iff. split_abs. lra. }
  destruct (ux u u0) as [uu0 uu]. 
  destruct (sqle e E He) as [S1 S0].
  assert (C : Qabs (e * (e * e)) <= (1 # 1024) * (E * E)).
  { apply absmul; [apply Qabs_le_iff; split_abs; lra|]. apply Qabs_le_iff. lra. }
  assert (EE : E * E <= 1 # 1048576).
  { assert (Qabs E <= 1 # 1024) by (apply Qabs_le_iff; lra). destruct (sqle E (1 # 1024)); auto. }
  assert (T1 : Qabs (2 - e - e * e) <= 513 # 256) by (apply Qabs_le_iff; split_abs; lra).
  pose proof (absmul _ _ _ _ T1 Ht) as T2.
  pose proof (absmul _ _ _ _ Ht Ht) as T3.
  pose proof (absmul _ _ _ _ B1 T3) as T5.
  set (W := (1 - e) * ((1 + m) * (1 + m))).
  assert (EW : 1 - W == (3 # 4) * (e * e) + (1 # 4) * (e * (e * e)) - (2 - e - e * e) * t - (1 - e) * (t * t)).
  { unfold W. rewrite Em. ring. }
  assert (BW : Qabs (1 - W) <= E * E + (17 # 16) * u).
  { rewrite EW. apply Qabs_le_iff. split_abs. lra. }
  assert (BW' : Qabs W <= 257 # 256) by (apply Qabs_le_iff; split_abs; lra).
  pose proof (absmul _ _ _ _ D3 D3) as D2'.
  assert (D : Qabs (2 * d3 + d3 * d3) <= (129 # 64) * u) by (apply Qabs_le_iff; split_abs; lra).
  pose proof (absmul _ _ _ _ BW' D) as WD.
  setoid_replace (1 - v * y' * y') with (1 - W - W * (2 * d3 + d3 * d3)).
  - clearbody W t. apply Qabs_le_iff. split_abs. lra.
  - rewrite Q3. unfold W, e. ring.
Qed.

(* a correction s + (v - s^2) * h, where h is about 1/(2 s) *)
Lemma correction_error : forall r k R K, 0 <= R -> R <= 1 # 8 -> Qabs r <= R -> 0 <= K -> K <= 1 # 8 -> Qabs (k - 1) <= K ->
  Qabs (1 - (1 - r) * (1 + (1 # 2) * (r * k)) * (1 + (1 # 2) * (r * k))) <= R * K + R * R.
Proof.
  intros r k R K R0 R8 Hr K0 K8 Hk.
  set (t := k - 1) in *. assert (Ek : k == 1 + t) by (unfold t; ring). clearbody t.
  setoid_replace (1 - (1 - r) * (1 + (1 # 2) * (r * k)) * (1 + (1 # 2) * (r * k)))
    with (- (r * t) + (r * r) * (1 + t - (1 # 4) * ((1 + t) * (1 + t)) * (1 - r))) by (rewrite Ek; ring).
  pose proof (absmul _ _ _ _ Hr Hk) as A1.
  destruct (sqle r R Hr) as [S1 S0].
  assert (T1 : Qabs (1 + t) <= 9 # 8) by (apply Qabs_le_iff; split_abs; lra).
  destruct (sqle _ _ T1) as [S2 S3].
  assert (T2 : Qabs ((1 + t) * (1 + t)) <= 81 # 64) by (apply Qabs_le_iff; lra).
  assert (T3 : Qabs r <= 1 # 8) by lra.
  pose proof (absmul _ _ _ _ T2 T3) as A2.
  assert (L : (49 # 64) <= (1 + t) * (1 + t)).
  { assert (0 <= (1 + t - (7 # 8)) * (1 + t + (7 # 8))) by (split_abs; apply Qmult_le_0_compat; lra).
    lra. }
  assert (T4 : Qabs (1 + t - (1 # 4) * ((1 + t) * (1 + t)) * (1 - r)) <= 1).
  { apply Qabs_le_iff. split_abs. split; lra. }
  assert (T5 : Qabs (r * r) <= R * R) by (apply Qabs_le_iff; lra).
  pose proof (absmul _ _ _ _ T5 T4) as A3.
  apply Qabs_le_iff. split_abs. lra.
Qed.

(* a number known up to a relative error, squared *)
Lemma square_error : forall x d X, Qabs (1 - x) <= X -> X <= 1 # 256 -> Qabs d <= u ->
  Qabs (1 - x * ((1 + d) * (1 + d))) <= X + (33 # 16) * u.
Proof.
  intros x d X Hx X8 Hd.
  pose proof (absmul _ _ _ _ Hd Hd) as D2. destruct (ux u u0) as [uu0 uu].
  assert (D : Qabs (2 * d + d * d) <= (65 # 32) * u) by (apply Qabs_le_iff; split_abs; lra).
  assert (Hx' : Qabs (1 - x) <= 1 # 256) by lra.
  pose proof (absmul _ _ _ _ Hx' D) as XD.
  setoid_replace (1 - x * ((1 + d) * (1 + d))) with (1 - x - (2 * d + d * d) + (1 - x) * (2 * d + d * d)) by ring.
  apply Qabs_le_iff. split_abs. lra.
Qed.

(* the ratio between h and 1/(2 s) *)
Lemma ratio_error : forall P r eps R X, 0 < P -> P * P * (1 - r) == 1 - eps -> Qabs r <= R -> Qabs eps <= X -> R + X <= 1 # 64 ->
  Qabs (P - 1) <= (9 # 16) * (R + X).
Proof.
  intros P r eps R X HP EP Hr Hx HRX.
  assert (R0 : 0 <= R) by (pose proof (Qabs_nonneg r); lra).
  assert (X0 : 0 <= X) by (pose proof (Qabs_nonneg eps); lra).
  set (t := P - 1). assert (Et : P == 1 + t) by (unfold t; ring).
  assert (Q : t * (2 + t) * (1 - r) == r - eps).
  { rewrite <- (Qplus_inj_r _ _ (1 - r)). setoid_replace (r - eps + (1 - r)) with (1 - eps) by ring. rewrite <- EP, Et. ring. }
  clearbody t. 
  destruct (Qlt_le_dec t (- (9 # 16) * (R + X))) as [L|L].
  - exfalso.
    assert (T : - t * ((2 + t) * (1 - r)) <= R + X).
    { setoid_replace (- t * ((2 + t) * (1 - r))) with (- (t * (2 + t) * (1 - r))) by ring. rewrite Q. split_abs. lra. }
    destruct (Qlt_le_dec t (- (1 # 16))) as [L2|L2].
    + assert (A : (1 # 16) * (63 # 64) < - t * ((2 + t) * (1 - r))).
      {
        assert (B2 : (1 # 16) <= - t * (2 + t)).
        { assert (0 <= (- t - (1 # 16)) * (1 + t)) by (apply Qmult_le_0_compat; lra).
          assert (0 < 1 + t) by lra. lra. }
        assert (B3 : (63 # 64) <= 1 - r) by (split_abs; lra).
        assert (B4 : (1 # 16) * (63 # 64) <= - t * (2 + t) * (1 - r)).
        { apply (Qle_trans _ (- t * (2 + t) * (63 # 64))); [apply Qmult_le_compat_r; lra|].
          apply DivProofs.mle; lra. }
        setoid_replace (- t * ((2 + t) * (1 - r))) with (- t * (2 + t) * (1 - r)) by ring. lra. }
      lra.
    + assert (B : (30 # 16) * (63 # 64) <= (2 + t) * (1 - r)).
      { apply (Qle_trans _ ((2 + t) * (63 # 64))); [apply Qmult_le_compat_r; lra|]. apply DivProofs.mle; split_abs; lra. }
      pose proof (DivProofs.mle (- t) _ _ ltac:(lra) B). lra.
  - destruct (Qlt_le_dec ((9 # 16) * (R + X)) t) as [L2|L2]; [exfalso|apply Qabs_le_iff; lra].
    assert (T : t * ((2 + t) * (1 - r)) <= R + X).
    { setoid_replace (t * ((2 + t) * (1 - r))) with (t * (2 + t) * (1 - r)) by ring. rewrite Q. split_abs. lra. }
    assert (B : 2 * (63 # 64) <= (2 + t) * (1 - r)).
    { apply (Qle_trans _ ((2 + t) * (63 # 64))); [apply Qmult_le_compat_r; lra|]. apply DivProofs.mle; split_abs; lra. }
    pose proof (DivProofs.mle t _ _ ltac:(lra) B). lra.
Qed.

Lemma step_error : forall v s g d R X, 0 < v -> 0 < s -> 0 < g ->
  Qabs (v - s * s) <= R * v -> Qabs (1 - 4 * v * g * g) <= X -> R + X <= 1 # 64 ->
  relerr u (- s * s + v) d ->
  0 < d * g + s /\ Qabs (v - (d * g + s) * (d * g + s)) <= (R * ((9 # 16) * (R + X) + (17 # 16) * u) + R * R) * v.
Proof.
  intros v s g d R X Hv Hs Hg Hr Hx HRX Hd.
  destruct (relerr_delta _ _ _ u0 Hd) as (de & Qd & D).
  assert (Nv : ~ v == 0) by lra. assert (Ns : ~ s == 0) by lra.
  set (r := (v - s * s) / v). assert (Er : s * s == v * (1 - r)) by (unfold r; field; auto).
  assert (Hr' : Qabs r <= R).
  { apply (Qmult_lt_0_le_reg_r _ _ v); auto. rewrite <- Qabs_mul_pos by auto.
    setoid_replace (r * v) with (v - s * s) by (unfold r; field; auto). auto. }
  assert (R0 : 0 <= R) by (pose proof (Qabs_nonneg r); lra).
  assert (X0 : 0 <= X) by (pose proof (Qabs_nonneg (1 - 4 * v * g * g)); lra).
  set (P := 2 * v * g / s).
  assert (HP : 0 < P).
  { unfold P. apply Qlt_shift_div_l; auto. setoid_replace (0 * s) with 0 by ring.
    apply Qmult_lt_0_compat; [|auto]. lra. }
  assert (EP : P * P * (1 - r) == 1 - (1 - 4 * v * g * g)).
  { assert (A : 1 - r == s * s / v) by (rewrite Er; field; auto). rewrite A. unfold P. field. auto. }
  pose proof (ratio_error P r _ R X HP EP Hr' Hx HRX) as HPe.
  set (k := P * (1 + de)).
  assert (Ew : d * g + s == s * (1 + (1 # 2) * (r * k))).
  { rewrite Qd. unfold k, P, r. field. auto. }
  set (K := (9 # 16) * (R + X) + (17 # 16) * u).
  assert (Hk : Qabs (k - 1) <= K).
  { unfold k, K. assert (HP' : Qabs P <= 17 # 16) by (apply Qabs_le_iff; split_abs; lra).
    pose proof (absmul _ _ _ _ HP' D).
    setoid_replace (P * (1 + de) - 1) with (P - 1 + P * de) by ring. apply Qabs_le_iff; split_abs; lra. }
  assert (K8 : K <= 1 # 8) by (unfold K; lra).
  assert (K0 : 0 <= K) by (unfold K; lra).
  assert (Hk' : Qabs k <= 9 # 8) by (apply Qabs_le_iff; split_abs; lra).
  pose proof (absmul _ _ _ _ Hr' Hk') as Hrk.
  rewrite Ew. clearbody K k. split.
  - apply Qmult_lt_0_compat; auto. split_abs. lra.
  - setoid_replace (v - s * (1 + (1 # 2) * (r * k)) * (s * (1 + (1 # 2) * (r * k))))
      with ((1 - (1 - r) * (1 + (1 # 2) * (r * k)) * (1 + (1 # 2) * (r * k))) * v).
    + rewrite Qabs_mul_pos by auto. apply Qmult_le_compat_r; [|lra].
      apply (correction_error r k R K); auto; lra.
    + setoid_replace (s * (1 + (1 # 2) * (r * k)) * (s * (1 + (1 # 2) * (r * k))))
        with ((s * s) * (1 + (1 # 2) * (r * k)) * (1 + (1 # 2) * (r * k))) by ring.
      rewrite Er. ring.
Qed.

(* rounding a number whose square is known *)
Lemma rounded_square : forall v w s X, 0 < v -> 0 < w -> Qabs (v - w * w) <= X * v -> X <= 1 # 256 ->
  relerr u w s -> 0 < s /\ Qabs (v - s * s) <= (X + (33 # 16) * u) * v.
Proof.
  intros v w s X Hv Hw Hx X8 Hs. destruct (relerr_delta _ _ _ u0 Hs) as (d & Qs & D).
  assert (Nv : ~ v == 0) by lra.
  split; [rewrite Qs; apply Qmult_lt_0_compat; auto; split_abs; lra|].
  set (x := w * w / v).
  assert (Hx' : Qabs (1 - x) <= X).
  { apply (Qmult_lt_0_le_reg_r _ _ v); auto. rewrite <- Qabs_mul_pos by auto.
    setoid_replace ((1 - x) * v) with (v - w * w) by (unfold x; field; auto). auto. }
  setoid_replace (v - s * s) with ((1 - x * ((1 + d) * (1 + d))) * v).
  - rewrite Qabs_mul_pos by auto. apply Qmult_le_compat_r; [|lra]. apply square_error; auto.
  - rewrite Qs. unfold x. field. auto.
Qed.

End Err.

(* a * a, n times *)
Fixpoint pw (a : Q) (n : nat) : Q := match n with O => a | S n => pw (a * a) n end.

(* The computation with a rounding rnd, as far as its operations have a
   relative error u: the conditions under which they do are hypotheses, which
   hold for any operand without a bound on the exponent, and for the operands
   met by the code otherwise. *)
Section Chain.
Variable u v : Q.
Variable rnd : Q -> Q.
Variables fin ok : Q -> Prop.
Hypothesis u0 : 0 <= u.
Hypothesis u12 : 4096 * u <= 1.
Hypothesis Hv : 0 < v.
Hypothesis Hfin : forall x, fin (rnd x).
Hypothesis Hcomp : forall x y, x == y -> rnd x == rnd y.
Hypothesis Hok : forall x, ok x -> relerr u x (rnd x).
Hypothesis ok_comp : forall x y, x == y -> ok x -> ok y.
(* numbers around sqrt v *)
Hypothesis G1 : forall x, 0 < x -> v <= 8 * (x * x) -> ok x.
Hypothesis G2 : forall s, fin s -> 0 < s -> 3 * v <= 4 * (s * s) -> ok (- s * s + v).
(* numbers around 1/sqrt v *)
Hypothesis G3 : forall x, 0 < x -> 1 <= 8 * (v * x * x) -> ok x.
Hypothesis G4 : forall y, fin y -> 0 < y -> Qabs (1 - v * y * y) <= 1 # 16 ->
  relerr ((9 # 2) * u) (y * y) (rnd (y * y))
  /\ ok (- ((1 # 2) * v) * rnd (y * y) + (1 # 2))
  /\ ok (- rnd (y * ((1 # 2) * v)) * y + (1 # 2))
  /\ ok ((1 # 2) * y) /\ rnd ((1 # 2) * y) == (1 # 2) * y.
Hypothesis G5 : rnd ((1 # 2) * v) == (1 # 2) * v.
(* a second computation, on v0 = v / 4^j *)
Variable rnd2 : Q -> Q.
Variable v0 : Q.
Variable j : Z.
Definition agree : Prop := (forall x k x2, ok x -> x == p2 k * x2 -> rnd x == p2 k * rnd2 x2) /\ v == p2 (2 * j) * v0.

Lemma relerr_comp : forall k x y r t, x == y -> r == t -> relerr k x r -> relerr k y t.
Proof. unfold relerr. intros k x y r t E1 E2 H. rewrite <- E1, <- E2. exact H. Qed.

Lemma rel_rnd : forall k x y, x == y -> relerr k x (rnd x) -> relerr k y (rnd y).
Proof. intros k x y E H. apply (relerr_comp k x y (rnd x) (rnd y)); auto. Qed.

Lemma chain_step : forall y h E, h == (1 # 2) * v -> fin y -> 0 < y -> 0 <= E -> E <= 1 # 16 -> Qabs (1 - v * y * y) <= E ->
  let y' := rsqrt_iteration rnd y h in
  fin y' /\ 0 < y' /\ Qabs (1 - v * y' * y') <= E * E + 8 * u
  /\ forall y0 h0, agree -> y == p2 (- j) * y0 -> h == p2 (2 * j) * h0 -> ok (y * y) -> y' == p2 (- j) * rsqrt_iteration rnd2 y0 h0.
Proof.
  intros y h E Eh Fy Py E0 E16 He y'.
  assert (He' : Qabs (1 - v * y * y) <= 1 # 16) by lra.
  destruct (G4 y Fy Py He') as (R1 & R2 & _).
  unfold rsqrt_iteration in y'. cbv zeta in y'.
  set (sq := rnd (y * y)) in *.
  set (m := rnd (- h * sq + (1 # 2))) in *.
  assert (K2 : ok (- h * sq + (1 # 2))).
  { apply (ok_comp (- ((1 # 2) * v) * sq + (1 # 2))); [rewrite Eh; reflexivity|exact R2]. }
  assert (R2' : relerr u (- ((1 # 2) * v) * sq + (1 # 2)) m).
  { apply (relerr_comp _ (- h * sq + (1 # 2)) _ m m); [rewrite Eh; reflexivity|reflexivity|apply Hok; exact K2]. }
  assert (E8 : E <= 1 # 8) by lra.
  assert (K3 : ok (y * m + y)).
  { destruct (relerr_delta _ _ _ (ltac:(lra) : 0 <= (9 # 2) * u) R1) as (d1 & Q1 & D1).
    destruct (relerr_delta _ _ _ u0 R2') as (d2 & Q2 & D2).
    assert (Qm : m == (1 # 2) * ((1 - v * y * y) - d1 * (1 - (1 - v * y * y))) * (1 + d2)).
    { rewrite Q2, Q1. ring. }
    pose proof (mult_error u u12 _ d1 d2 E E0 E8 He D1 D2) as M. rewrite <- Qm in M.
    assert (Lm : (3 # 4) <= 1 + m) by (split_abs; lra).
    assert (Ly : v * y * y <= 17 # 16 /\ (15 # 16) <= v * y * y) by (split_abs; lra).
    apply G3.
    - setoid_replace (y * m + y) with (y * (1 + m)) by ring. apply Qmult_lt_0_compat; lra.
    - setoid_replace (v * (y * m + y) * (y * m + y)) with (v * y * y * ((1 + m) * (1 + m))) by ring.
      assert (S1 : (9 # 16) <= (1 + m) * (1 + m)).
      { assert (0 <= (1 + m - (3 # 4)) * (1 + m + (3 # 4))) by (apply Qmult_le_0_compat; lra). lra. }
      assert (S2 : (15 # 16) * (9 # 16) <= v * y * y * ((1 + m) * (1 + m))).
      { apply (Qle_trans _ (v * y * y * (9 # 16))); [apply Qmult_le_compat_r; lra|].
        apply DivProofs.mle; lra. }
      lra. }
  destruct (iteration_error u u0 u12 v y sq m y' E Py E0 E8 He R1 R2' (Hok _ K3)) as (A & B & _).
  split; [apply Hfin|]. split; [exact B|]. split; [exact A|].
  intros y0 h0 [Hag Hv0] Ey Eh0 K1. unfold rsqrt_iteration. cbv zeta.
  assert (J : p2 (2 * j) * p2 (- (2 * j)) == 1) by (rewrite Qmult_comm; apply p2_opp).
  assert (Esq : sq == p2 (- (2 * j)) * rnd2 (y0 * y0)).
  { apply Hag; auto. rewrite Ey. replace (- (2 * j))%Z with (- j + - j)%Z by lia. rewrite p2_plus. ring. }
  assert (Em : m == p2 0 * rnd2 (- h0 * rnd2 (y0 * y0) + (1 # 2))).
  { apply Hag; auto. rewrite Esq, Eh0, p2_0.
    setoid_replace (- (p2 (2 * j) * h0) * (p2 (- (2 * j)) * rnd2 (y0 * y0)))
      with (- (p2 (2 * j) * p2 (- (2 * j))) * h0 * rnd2 (y0 * y0)) by ring. rewrite J. ring. }
  apply Hag; auto. rewrite Em, Ey, p2_0. ring.
Qed.

(* the squares of the approximations are in the range of the format *)
Definition squares_ok : Prop := forall y, fin y -> 0 < y -> Qabs (1 - v * y * y) <= 1 # 16 -> ok (y * y).

Lemma chain_iter : forall n y h a, h == (1 # 2) * v -> fin y -> 0 < y -> 0 <= a -> a <= 1 # 32 -> Qabs (1 - v * y * y) <= a + 9 * u ->
  let y' := rsqrt_iterations rnd y h n in
  fin y' /\ 0 < y' /\ Qabs (1 - v * y' * y') <= pw a n + 9 * u
  /\ (squares_ok -> agree -> forall y0 h0, y == p2 (- j) * y0 -> h == p2 (2 * j) * h0 -> y' == p2 (- j) * rsqrt_iterations rnd2 y0 h0 n).
Proof.
  induction n; intros y h a Eh Fy Py a0 a32 He; cbn [rsqrt_iterations pw].
  - auto.
  - destruct (chain_step y h (a + 9 * u) Eh Fy Py ltac:(lra) ltac:(lra) He) as (F' & P' & B' & C').
    assert (A : a * a <= 1 # 32).
    { assert (0 <= a * ((1 # 32) - a)) by (apply Qmult_le_0_compat; lra). lra. }
    assert (A0 : 0 <= a * a) by (apply Qmult_le_0_compat; auto).
    assert (B'' : Qabs (1 - v * rsqrt_iteration rnd y h * rsqrt_iteration rnd y h) <= a * a + 9 * u).
    { eapply Qle_trans; [exact B'|]. destruct (ux u u0 u12 u u0) as [uu0 uu].
      assert (0 <= ((1 # 32) - a) * u) by (apply Qmult_le_0_compat; lra). lra. }
    destruct (IHn (rsqrt_iteration rnd y h) h (a * a) Eh F' P' A0 A B'') as (F2 & P2 & B2 & C2).
    split; [exact F2|]. split; [exact P2|]. split; [exact B2|].
    intros Sq Ag y0 h0 Ey Eh0. apply C2; auto. apply C'; auto. apply Sq; auto. lra.
Qed.

(* one more iteration, when no square is subnormal *)
Lemma chain_late : forall y h E, squares_ok -> h == (1 # 2) * v -> fin y -> 0 < y -> 0 <= E -> E <= 1 # 1024 -> Qabs (1 - v * y * y) <= E ->
  let y' := rsqrt_iteration rnd y h in Qabs (1 - v * y' * y') <= E * E + (25 # 8) * u.
Proof.
  intros y h E Sq Eh Fy Py E0 E16 He y'.
  assert (He' : Qabs (1 - v * y * y) <= 1 # 16) by lra.
  destruct (G4 y Fy Py He') as (R1 & R2 & _). pose proof (Hok _ (Sq y Fy Py He')) as R0.
  unfold rsqrt_iteration in y'. cbv zeta in y'.
  set (sq := rnd (y * y)) in *.
  set (m := rnd (- h * sq + (1 # 2))) in *.
  assert (K2 : ok (- h * sq + (1 # 2))).
  { apply (ok_comp (- ((1 # 2) * v) * sq + (1 # 2))); [rewrite Eh; reflexivity|exact R2]. }
  assert (R2' : relerr u (- ((1 # 2) * v) * sq + (1 # 2)) m).
  { apply (relerr_comp _ (- h * sq + (1 # 2)) _ m m); [rewrite Eh; reflexivity|reflexivity|apply Hok; exact K2]. }
  apply (late_iteration_error u u0 u12 v y sq m y' E Py E0 E16 He R0 R2').
  apply Hok.
  destruct (relerr_delta _ _ _ u0 R0) as (d1 & Q1 & D1).
  destruct (relerr_delta _ _ _ u0 R2') as (d2 & Q2 & D2).
  assert (Qm : m == (1 # 2) * ((1 - v * y * y) - d1 * (1 - (1 - v * y * y))) * (1 + d2)).
  { rewrite Q2, Q1. ring. }
  pose proof (mult_error u u12 _ d1 d2 E E0 ltac:(lra) He ltac:(lra) D2) as M. rewrite <- Qm in M.
  assert (Lm : (3 # 4) <= 1 + m) by (split_abs; lra).
  assert (Ly : v * y * y <= 17 # 16 /\ (15 # 16) <= v * y * y) by (split_abs; lra).
  apply G3.
  - setoid_replace (y * m + y) with (y * (1 + m)) by ring. apply Qmult_lt_0_compat; lra.
  - setoid_replace (v * (y * m + y) * (y * m + y)) with (v * y * y * ((1 + m) * (1 + m))) by ring.
    assert (S1 : (9 # 16) <= (1 + m) * (1 + m)).
    { assert (0 <= (1 + m - (3 # 4)) * (1 + m + (3 # 4))) by (apply Qmult_le_0_compat; lra). lra. }
    assert (S2 : (15 # 16) * (9 # 16) <= v * y * y * ((1 + m) * (1 + m))).
    { apply (Qle_trans _ (v * y * y * (9 # 16))); [apply Qmult_le_compat_r; lra|].
      apply DivProofs.mle; lra. }
    lra.
Qed.

(* the correction: the value w which the last operation rounds *)
Lemma chain_final : forall y h, h == (1 # 2) * v -> fin y -> 0 < y -> Qabs (1 - v * y * y) <= 10 * u ->
  exists w, sqrt_correction rnd v h y == rnd w /\ 0 < w /\ Qabs (v - w * w) <= 20 * (u * u) * v
  /\ forall y0 h0, agree -> y == p2 (- j) * y0 -> h == p2 (2 * j) * h0 -> sqrt_correction rnd v h y == p2 j * sqrt_correction rnd2 v0 h0 y0.
Proof.
  intros y h Eh Fy Py He. destruct (ux u u0 u12 u u0) as [uu0 uu].
  assert (He16 : Qabs (1 - v * y * y) <= 1 # 16) by lra.
  destruct (G4 y Fy Py He16) as (_ & _ & R6 & Kg & Eg).
  unfold sqrt_correction.
  set (s := rnd (v * y)). set (t5 := rnd (y * h)). set (g := rnd ((1 # 2) * y)) in *.
  set (d := rnd (- s * s + v)). set (t6 := rnd (- t5 * y + (1 # 2))).
  set (s1 := rnd (d * g + s)). set (g1 := rnd (t6 * g + g)). set (d1 := rnd (- s1 * s1 + v)).
  set (pr := rnd (d1 * g1 + s1)). set (dl := rnd (- pr * pr + v)). cbv zeta.
  exists (dl * g1 + pr). split; [reflexivity|].
  assert (Pg : 0 < g) by (rewrite Eg; lra).
  (* s *)
  assert (Pvy : 0 < v * y) by (apply Qmult_lt_0_compat; auto).
  assert (A0 : Qabs (v - v * y * (v * y)) <= 10 * u * v).
  { setoid_replace (v - v * y * (v * y)) with ((1 - v * y * y) * v) by ring. rewrite Qabs_mul_pos by auto.
    apply Qmult_le_compat_r; lra. }
  assert (uv : 0 <= u * v /\ 4096 * (u * v) <= v) by (apply ux; auto; lra).
  destruct uv as [uv0 uv]. destruct (ux u u0 u12 (u * v) uv0) as [uuv0 uuv].
  assert (Lvy : 15 * v <= 16 * (v * y * (v * y))) by (split_abs; lra).
  assert (Ks : ok (v * y)) by (apply G1; [auto|lra]).
  pose proof (Hok _ Ks : relerr u (v * y) s) as Rs.
  destruct (rounded_square u u0 u12 v (v * y) s (10 * u) Hv Pvy A0 ltac:(lra) Rs) as [Ps As].
  assert (As' : Qabs (v - s * s) <= (49 # 4) * u * v).
  { eapply Qle_trans; [exact As|]. apply Qmult_le_compat_r; lra. }
  assert (near : forall x X, Qabs (v - x * x) <= X -> 4 * X <= v -> 3 * v <= 4 * (x * x)).
  { intros x X H1 H2. apply Qabs_le_iff in H1. lra. }
  (* g1 *)
  assert (E5 : rnd (y * ((1 # 2) * v)) == t5) by (apply Hcomp; rewrite Eh; reflexivity).
  assert (K6 : ok (- t5 * y + (1 # 2))).
  { apply (ok_comp (- rnd (y * ((1 # 2) * v)) * y + (1 # 2))); [rewrite E5; reflexivity|exact R6]. }
  assert (Rt6 : relerr u (- rnd (y * ((1 # 2) * v)) * y + (1 # 2)) t6).
  { apply (relerr_comp _ (- t5 * y + (1 # 2)) _ t6 t6); [rewrite E5; reflexivity|reflexivity|apply Hok; exact K6]. }
  assert (K5 : ok (y * ((1 # 2) * v))).
  { apply G1; [setoid_replace (y * ((1 # 2) * v)) with ((1 # 2) * (v * y)) by ring; lra|].
    setoid_replace (y * ((1 # 2) * v) * (y * ((1 # 2) * v))) with ((1 # 4) * (v * y * (v * y))) by ring. lra. }
  assert (K5' : ok (y * h)) by (apply (ok_comp (y * ((1 # 2) * v))); [rewrite Eh; reflexivity|exact K5]).
  pose proof (Hok _ K5) as Rt5.
  assert (Hg1 : Qabs (1 - 4 * v * g1 * g1) <= 9 * u /\ 0 < g1 /\ ok (t6 * g + g)).
  { destruct (relerr_delta _ _ _ u0 Rt5) as (d8 & Q8 & D8).
    destruct (relerr_delta _ _ _ u0 Rt6) as (d2 & Q2 & D2).
    set (e := 1 - v * y * y) in *.
    assert (Qm : t6 == (1 # 2) * (e - d8 * (1 - e)) * (1 + d2)).
    { rewrite Q2, Q8. unfold e. ring. }
    pose proof (mult_error u u12 e d8 d2 (10 * u) ltac:(lra) ltac:(lra) He ltac:(lra) D2) as M. rewrite <- Qm in M.
    assert (Lt : (15 # 16) <= 1 + t6 /\ 1 + t6 <= (17 # 16)) by (split_abs; lra).
    assert (Kg1 : ok (t6 * g + g)).
    { apply G3.
      - setoid_replace (t6 * g + g) with (g * (1 + t6)) by ring. apply Qmult_lt_0_compat; lra.
      - setoid_replace (v * (t6 * g + g) * (t6 * g + g)) with (v * g * g * ((1 + t6) * (1 + t6))) by ring.
        assert (S1 : (15 # 16) * (15 # 16) <= (1 + t6) * (1 + t6)).
        { assert (0 <= (1 + t6 - (15 # 16)) * (1 + t6 + (15 # 16))) by (apply Qmult_le_0_compat; lra). lra. }
        assert (S0 : (15 # 64) <= v * g * g).
        { rewrite Eg. setoid_replace (v * ((1 # 2) * y) * ((1 # 2) * y)) with ((1 # 4) * (1 - e)) by (unfold e; ring). split_abs. lra. }
        assert (S2 : (15 # 64) * ((15 # 16) * (15 # 16)) <= v * g * g * ((1 + t6) * (1 + t6))).
        { apply (Qle_trans _ (v * g * g * ((15 # 16) * (15 # 16)))); [apply Qmult_le_compat_r; [exact S0|lra]|].
          apply DivProofs.mle; [lra|exact S1]. }
        lra. }
    destruct (relerr_delta _ _ _ u0 (Hok _ Kg1 : relerr u (t6 * g + g) g1)) as (d3 & Q3 & D3).
    pose proof (approx_error u u0 u12 e t6 d3 (10 * u) ltac:(lra) ltac:(lra) He M D3) as A.
    assert (Q : 1 - 4 * v * g1 * g1 == 1 - (1 - e) * ((1 + t6) * (1 + d3)) * ((1 + t6) * (1 + d3))).
    { rewrite Q3, Eg. unfold e. ring. }
    split; [|split; [|exact Kg1]].
    - rewrite Q. eapply Qle_trans; [exact A|]. lra.
    - rewrite Q3. setoid_replace ((t6 * g + g) * (1 + d3)) with (g * ((1 + t6) * (1 + d3))) by ring.
      apply Qmult_lt_0_compat; auto. apply Qmult_lt_0_compat; split_abs; lra. }
  destruct Hg1 as (Ag1 & Pg1 & Kg1).
  assert (Ag : Qabs (1 - 4 * v * g * g) <= 10 * u).
  { setoid_replace (1 - 4 * v * g * g) with (1 - v * y * y) by (rewrite Eg; ring). auto. }
  (* s1 *)
  assert (Kd : ok (- s * s + v)) by (apply G2; [apply Hfin|auto|apply (near s _ As'); lra]).
  pose proof (Hok _ Kd : relerr u (- s * s + v) d) as Rd.
  destruct (step_error u u0 u12 v s g d ((49 # 4) * u) (10 * u) Hv Ps Pg As' Ag ltac:(lra) Rd) as [P1 A1].
  assert (A1' : Qabs (v - (d * g + s) * (d * g + s)) <= 400 * (u * u) * v).
  { eapply Qle_trans; [exact A1|]. apply Qmult_le_compat_r; lra. }
  assert (Ks1 : ok (d * g + s)).
  { apply G1; auto. pose proof (near _ _ A1') as N. lra. }
  pose proof (Hok _ Ks1 : relerr u (d * g + s) s1) as Rs1.
  destruct (rounded_square u u0 u12 v _ s1 (400 * (u * u)) Hv P1 A1' ltac:(lra) Rs1) as [Ps1 As1].
  assert (As1' : Qabs (v - s1 * s1) <= (9 # 4) * u * v).
  { eapply Qle_trans; [exact As1|]. apply Qmult_le_compat_r; lra. }
  assert (Kd1 : ok (- s1 * s1 + v)) by (apply G2; [apply Hfin|auto|apply (near s1 _ As1'); lra]).
  pose proof (Hok _ Kd1 : relerr u (- s1 * s1 + v) d1) as Rd1.
  destruct (step_error u u0 u12 v s1 g1 d1 ((9 # 4) * u) (9 * u) Hv Ps1 Pg1 As1' Ag1 ltac:(lra) Rd1) as [P2 A2].
  assert (A2' : Qabs (v - (d1 * g1 + s1) * (d1 * g1 + s1)) <= 32 * (u * u) * v).
  { eapply Qle_trans; [exact A2|]. apply Qmult_le_compat_r; lra. }
  assert (Kpr : ok (d1 * g1 + s1)).
  { apply G1; auto. pose proof (near _ _ A2') as N. lra. }
  pose proof (Hok _ Kpr : relerr u (d1 * g1 + s1) pr) as Rpr.
  destruct (rounded_square u u0 u12 v _ pr (32 * (u * u)) Hv P2 A2' ltac:(lra) Rpr) as [Ppr Apr].
  assert (Apr' : Qabs (v - pr * pr) <= (133 # 64) * u * v).
  { eapply Qle_trans; [exact Apr|]. apply Qmult_le_compat_r; lra. }
  assert (Kdl : ok (- pr * pr + v)) by (apply G2; [apply Hfin|auto|apply (near pr _ Apr'); lra]).
  pose proof (Hok _ Kdl : relerr u (- pr * pr + v) dl) as Rdl.
  destruct (step_error u u0 u12 v pr g1 dl ((133 # 64) * u) (9 * u) Hv Ppr Pg1 Apr' Ag1 ltac:(lra) Rdl) as [P3 A3].
  assert (A3' : Qabs (v - (dl * g1 + pr) * (dl * g1 + pr)) <= 20 * (u * u) * v).
  { eapply Qle_trans; [exact A3|]. apply Qmult_le_compat_r; lra. }
  assert (KR : ok (dl * g1 + pr)).
  { apply G1; auto. pose proof (near _ _ A3') as N. lra. }
  split; [exact P3|]. split; [exact A3'|].
  intros y0 h0 [Hag Hv0] Ey Eh0.
  assert (J : p2 j * p2 (- j) == 1) by (rewrite Qmult_comm; apply p2_opp).
  assert (J2 : p2 (2 * j) == p2 j * p2 j) by (rewrite <- p2_plus; replace (j + j)%Z with (2 * j)%Z by lia; reflexivity).
  assert (Jm : forall a b, p2 (2 * j) * a * (p2 (- j) * b) == p2 j * (a * b)).
  { intros a b. rewrite J2. setoid_replace (p2 j * p2 j * a * (p2 (- j) * b)) with (p2 j * p2 (- j) * (p2 j * (a * b))) by ring.
    rewrite J. ring. }
  assert (Jn : forall a b, p2 j * a * (p2 (- j) * b) == a * b).
  { intros a b. setoid_replace (p2 j * a * (p2 (- j) * b)) with (p2 j * p2 (- j) * (a * b)) by ring. rewrite J. ring. }
  assert (Js : forall a, - (p2 j * a) * (p2 j * a) + p2 (2 * j) * v0 == p2 (2 * j) * (- a * a + v0)).
  { intros a. rewrite J2. ring. }
  assert (Es : s == p2 j * rnd2 (v0 * y0)).
  { apply Hag; auto. rewrite Ey. rewrite Hv0 at 1. apply Jm. }
  assert (E5' : t5 == p2 j * rnd2 (y0 * h0)).
  { apply Hag; auto. rewrite Ey, Eh0. rewrite Qmult_comm, Jm. ring. }
  assert (Eg' : g == p2 (- j) * rnd2 ((1 # 2) * y0)).
  { apply Hag; auto. rewrite Ey. ring. }
  assert (Ed : d == p2 (2 * j) * rnd2 (- rnd2 (v0 * y0) * rnd2 (v0 * y0) + v0)).
  { apply Hag; auto. rewrite Es. rewrite Hv0 at 1. apply Js. }
  assert (E6 : t6 == p2 0 * rnd2 (- rnd2 (y0 * h0) * y0 + (1 # 2))).
  { apply Hag; auto. rewrite E5', Ey, p2_0.
    setoid_replace (- (p2 j * rnd2 (y0 * h0)) * (p2 (- j) * y0)) with (- (p2 j * rnd2 (y0 * h0) * (p2 (- j) * y0))) by ring.
    rewrite Jn. ring. }
  rewrite p2_0 in E6.
  set (s' := rnd2 (v0 * y0)) in *. set (t5' := rnd2 (y0 * h0)) in *. set (g' := rnd2 ((1 # 2) * y0)) in *.
  set (d' := rnd2 (- s' * s' + v0)) in *. set (t6' := rnd2 (- t5' * y0 + (1 # 2))) in *.
  assert (Es1 : s1 == p2 j * rnd2 (d' * g' + s')).
  { apply Hag; auto. rewrite Ed, Eg', Es, Jm. ring. }
  assert (Eg1 : g1 == p2 (- j) * rnd2 (t6' * g' + g')).
  { apply Hag; auto. rewrite E6, Eg'. ring. }
  set (s1' := rnd2 (d' * g' + s')) in *. set (g1' := rnd2 (t6' * g' + g')) in *.
  assert (Ed1 : d1 == p2 (2 * j) * rnd2 (- s1' * s1' + v0)).
  { apply Hag; auto. rewrite Es1. rewrite Hv0 at 1. apply Js. }
  set (d1' := rnd2 (- s1' * s1' + v0)) in *.
  assert (Epr : pr == p2 j * rnd2 (d1' * g1' + s1')).
  { apply Hag; auto. rewrite Ed1, Eg1, Es1, Jm. ring. }
  set (pr' := rnd2 (d1' * g1' + s1')) in *.
  assert (Edl : dl == p2 (2 * j) * rnd2 (- pr' * pr' + v0)).
  { apply Hag; auto. rewrite Epr. rewrite Hv0 at 1. apply Js. }
  set (dl' := rnd2 (- pr' * pr' + v0)) in *.
  apply Hag; auto. rewrite Edl, Eg1, Epr, Jm. ring.
Qed.

(* the whole computation *)
Lemma chain_sqrt : forall n y a, fin y -> 0 < y -> 0 <= a -> a <= 1 # 32 -> Qabs (1 - v * y * y) <= a + 9 * u -> pw a n <= u ->
  exists w, compute_sqrt rnd v y n == rnd w /\ 0 < w /\ Qabs (v - w * w) <= 20 * (u * u) * v
  /\ (squares_ok -> agree -> forall y0, y == p2 (- j) * y0 -> rnd2 ((1 # 2) * v0) == (1 # 2) * v0 ->
      compute_sqrt rnd v y n == p2 j * compute_sqrt rnd2 v0 y0 n).
Proof.
  intros n y a Fy Py a0 a32 He Hn. unfold compute_sqrt.
  destruct (chain_iter n y (rnd ((1 # 2) * v)) a G5 Fy Py a0 a32 He) as (F' & P' & B' & C').
  destruct (chain_final _ (rnd ((1 # 2) * v)) G5 F' P' ltac:(lra)) as (w & W1 & W2 & W3 & W4).
  exists w. split; [exact W1|]. split; [exact W2|]. split; [exact W3|].
  intros Sq Ag y0 Ey Ev.
  assert (Eh : rnd ((1 # 2) * v) == p2 (2 * j) * rnd2 ((1 # 2) * v0)).
  { destruct Ag as [_ Hv0]. rewrite G5, Ev. rewrite Hv0 at 1. ring. }
  apply W4; auto.
Qed.

Lemma chain_isqrt : forall n y a, fin y -> 0 < y -> 0 <= a -> a <= 1 # 32 -> Qabs (1 - v * y * y) <= a + 9 * u ->
  let r := compute_isqrt rnd v y n in fin r /\ 0 < r /\ Qabs (1 - v * r * r) <= pw a n + 9 * u.
Proof.
  intros n y a Fy Py a0 a32 He. unfold compute_isqrt.
  destruct (chain_iter n y (rnd ((1 # 2) * v)) a G5 Fy Py a0 a32 He) as (F' & P' & B' & _). auto.
Qed.

Lemma iterations_last : forall n y h,
  rsqrt_iterations rnd y h (S n) = rsqrt_iteration rnd (rsqrt_iterations rnd y h n) h.
Proof. induction n; intros y h; cbn [rsqrt_iterations]; auto. cbn [rsqrt_iterations] in IHn. apply IHn. Qed.

Lemma pw_le : forall n a, 0 <= a -> a <= 1 -> 0 <= pw a n /\ pw a n <= a.
Proof.
  induction n; intros a A0 A1; cbn [pw]; [lra|].
  assert (0 <= a * a) by (apply Qmult_le_0_compat; auto).
  assert (0 <= a * (1 - a)) by (apply Qmult_le_0_compat; lra).
  destruct (IHn (a * a)) as [I1 I2]; lra.
Qed.

Lemma chain_isqrt_late : forall n y a, squares_ok -> fin y -> 0 < y -> 0 <= a -> a <= 1 # 32 -> Qabs (1 - v * y * y) <= a + 9 * u ->
  pw a n + 9 * u <= 1 # 1024 ->
  let r := compute_isqrt rnd v y (S n) in
  Qabs (1 - v * r * r) <= (pw a n + 9 * u) * (pw a n + 9 * u) + (25 # 8) * u.
Proof.
  intros n y a Sq Fy Py a0 a32 He Hn r. unfold r, compute_isqrt. rewrite iterations_last.
  destruct (chain_iter n y (rnd ((1 # 2) * v)) a G5 Fy Py a0 a32 He) as (F' & P' & B' & _).
  apply chain_late; auto. destruct (pw_le n a a0 ltac:(lra)). lra.
Qed.

End Chain.
