(* Multi-limb blocks with rounded operations: error of the triple-word blocks.

   The bounds are absolute bounds in terms of the limbs and hold without any
   condition on the overlap of the limbs or on cancellations; the relative
   bounds which the meta-blocks declare are derived from them under the
   documented conditions. *)
From Coq Require Import ZArith QArith Qround Qabs List Bool Lia Lqa Setoid.
From Verif Require Import QUtil RoundSpec RoundProofs LimbModel LimbRound LimbBounds.
Import ListNotations.
Open Scope Z_scope.

Section Triple.
Variable F : fmt.
Notation p := (prec F).
Hypothesis Hp : 3 <= p.
Lemma T_p1 : 1 <= p. Proof. clear - Hp; lia. Qed.
Variable rnd : Q -> Q.
Hypothesis Hr : nearest_in F rnd.
Notation u := (p2 (- p)).

Lemma tri : forall a b, (Qabs (a + b) <= Qabs a + Qabs b)%Q.
Proof. exact Qabs_triangle. Qed.
Lemma tri3 : forall a b c, (Qabs (a + b + c) <= Qabs a + Qabs b + Qabs c)%Q.
Proof. intros. pose proof (tri (a + b) c). pose proof (tri a b). lra. Qed.

(* one addition *)
Lemma add1 : forall a b, inF F a -> inF F b ->
  let s := rnd (a + b) in inF F s /\ (Qabs (s - (a + b)) <= u * Qabs (a + b))%Q /\ (Qabs s <= (1 + u) * Qabs (a + b))%Q.
Proof.
  intros a b Ha Hb s. pose proof (sum_rel F T_p1 rnd Hr a b Ha Hb) as E. fold s in E.
  split; [apply (rnd_inF F rnd Hr)|]. split; auto.
  pose proof (tri (s - (a + b)) (a + b)) as T. setoid_replace (s - (a + b) + (a + b))%Q with s in T by ring. lra.
Qed.

(* an exact addition *)
Lemma two : forall a b, inF F a -> inF F b ->
  let '(s, e) := twosum (rounded_ops rnd) a b in
  (s + e == a + b)%Q /\ inF F s /\ inF F e /\ (Qabs e <= u * Qabs (a + b))%Q /\ (Qabs s <= (1 + u) * Qabs (a + b))%Q
  /\ (s == rnd (s + e))%Q.
Proof.
  intros a b Ha Hb. pose proof (twosum_F F Hp rnd Hr a b Ha Hb) as T.
  destruct (twosum (rounded_ops rnd) a b) as [s e]. destruct T as (T1 & T2 & T3 & T4 & T5).
  destruct (add1 a b Ha Hb) as (_ & _ & B). rewrite <- T1 in B.
  split; auto. split; auto. split; auto. split; auto. split; auto.
  apply (Qeq_trans _ _ _ T1). apply (rnd_comp F rnd Hr). symmetry. auto.
Qed.

Lemma mono : forall a b, (a <= b)%Q -> (u * a <= u * b)%Q.
Proof. intros. apply mul_le_l; auto. pose proof (u_pos F). lra. Qed.

(* FastTwoSum without its ordering condition *)
Lemma fts_abs : forall a b, inF F a -> inF F b ->
  let '(s, e) := fasttwosum (rounded_ops rnd) a b in
  (Qabs (s + e - (a + b)) <= 4 * u * Qabs b)%Q /\ inF F s /\ inF F e
  /\ (Qabs s <= (1 + u) * Qabs (a + b))%Q /\ (Qabs e <= u * Qabs (a + b) + 4 * u * Qabs b)%Q.
Proof.
  intros a b Ha Hb. unfold fasttwosum. cbn [rounded_ops o_add o_sub].
  destruct (add1 a b Ha Hb) as (Is & E1 & Bs). set (s := rnd (a + b)) in *.
  assert (D : (Qabs (s - (a + b)) <= Qabs b)%Q).
  { pose proof (rnd_near F rnd Hr (a + b) a Ha) as N. fold s in N.
    setoid_replace (a - (a + b))%Q with (- b)%Q in N by ring. rewrite Qabs_opp in N. exact N. }
  destruct (add1 s (- a) Is (inF_opp F T_p1 a Ha)) as (Ib & E2 & _).
  set (b0 := rnd (s - a)) in *.
  assert (Eb : (b0 == rnd (s + - a))%Q) by (apply (rnd_comp F rnd Hr); ring).
  assert (Ib' : inF F b0) by (apply (rnd_inF F rnd Hr)).
  destruct (add1 b (- b0) Hb (inF_opp F T_p1 b0 Ib')) as (Ie & E3 & _).
  set (e := rnd (b - b0)) in *.
  assert (Ee : (e == rnd (b + - b0))%Q) by (apply (rnd_comp F rnd Hr); ring).
  assert (Ie' : inF F e) by (apply (rnd_inF F rnd Hr)).
  rewrite <- Eb in E2. rewrite <- Ee in E3.
  set (d := (s - (a + b))%Q) in *.
  assert (Q1 : (Qabs (s + - a) <= 2 * Qabs b)%Q).
  { setoid_replace (s + - a)%Q with (b + d)%Q by (unfold d; ring). pose proof (tri b d). lra. }
  set (d2 := (b0 - (s + - a))%Q) in *.
  assert (Q2 : (Qabs d2 <= 2 * (u * Qabs b))%Q) by (pose proof (mono _ _ Q1); lra).
  assert (Q3 : (Qabs (b + - b0) <= Qabs d + Qabs d2)%Q).
  { setoid_replace (b + - b0)%Q with (- d + - d2)%Q by (unfold d, d2; ring).
    pose proof (tri (- d) (- d2)) as T. rewrite !Qabs_opp in T. exact T. }
  set (d3 := (e - (b + - b0))%Q) in *.
  pose proof (mono _ _ Q3) as Q4. pose proof (mono _ _ D) as Q5. pose proof (mono _ _ Q2) as Q6.
  pose proof (u_8 F Hp) as U8. pose proof (u_pos F) as Up. pose proof (Qabs_nonneg b) as Nb.
  assert (Q7 : (u * (u * Qabs b) <= (1 # 8) * (u * Qabs b))%Q).
  { apply Qmult_le_compat_r; [lra|]. apply Qmult_le_0_compat; lra. }
  assert (Nub : (0 <= u * Qabs b)%Q) by (apply Qmult_le_0_compat; lra).
  split.
  { setoid_replace (s + e - (a + b))%Q with (d3 + - d2)%Q by (unfold d3, d2; ring).
    pose proof (tri d3 (- d2)) as T. rewrite Qabs_opp in T. lra. }
  split; auto. split; auto. split; auto.
  assert (Ed : (e == d3 + - d + - d2)%Q) by (unfold d3, d2, d; ring).
  rewrite Ed. pose proof (tri3 d3 (- d) (- d2)) as T. rewrite !Qabs_opp in T. lra.
Qed.

(* ------------------------------------------------------------------ *)
(* normalization and conversion to fewer limbs                          *)
(* ------------------------------------------------------------------ *)
Theorem normalize_33_low : forall xh xm xl, inF F xh -> inF F xm -> inF F xl ->
  let '(rh, rm, rl) := normalize_33 (rounded_ops rnd) xh xm xl in
  (Qabs rl <= u * u * (Qabs (xh + xm + xl) + 3 * Qabs (xm + xl)))%Q.
Proof.
  intros xh xm xl H1 H2 H3. unfold normalize_33, add211.
  pose proof (two xm xl H2 H3) as T1. destruct (twosum _ xm xl) as [t1h t1l]. destruct T1 as (A1 & A2 & A3 & A4 & A5 & _).
  pose proof (two xh t1h H1 A2) as T2. destruct (twosum _ xh t1h) as [rh t2l]. destruct T2 as (B1 & B2 & B3 & B4 & B5 & _).
  pose proof (two t2l t1l B3 A3) as T3. destruct (twosum _ t2l t1l) as [rm rl]. destruct T3 as (C1 & C2 & C3 & C4 & C5 & _).
  set (S := Qabs (xh + xm + xl)). set (M := Qabs (xm + xl)) in *.
  assert (Q1 : (Qabs (xh + t1h) <= S + Qabs t1l)%Q).
  { unfold S. setoid_replace (xh + t1h)%Q with ((xh + xm + xl) + - t1l)%Q by lra.
    pose proof (tri (xh + xm + xl) (- t1l)) as T. rewrite Qabs_opp in T. exact T. }
  pose proof (tri t2l t1l) as Q2.
  pose proof (mono _ _ Q1) as Q3. pose proof (mono _ _ Q2) as Q4. pose proof (mono _ _ A4) as Q5.
  pose proof (mono _ _ (Qle_trans _ _ _ B4 Q3)) as Q6. pose proof (mono _ _ Q5) as Q7.
  pose proof (u_8 F Hp) as U8. pose proof (u_pos F) as Up. assert (NM : (0 <= M)%Q) by apply Qabs_nonneg.
  assert (Nu : (0 <= u * u * M)%Q) by (repeat apply Qmult_le_0_compat; lra).
  assert (Q8 : (u * (u * (u * M)) <= (1 # 8) * (u * u * M))%Q).
  { setoid_replace (u * (u * (u * M)))%Q with (u * (u * u * M))%Q by ring. apply Qmult_le_compat_r; lra. }
  lra.
Qed.

(* ml_blocks.py:1556-1560 *)
Theorem normalize_23_error : forall xh xm xl, inF F xh -> inF F xm -> inF F xl ->
  let '(rh, rl) := normalize_23 (rounded_ops rnd) xh xm xl in
  inF F rh /\ inF F rl
  /\ (Qabs (rh + rl - (xh + xm + xl)) <= u * u * (Qabs (xh + xm + xl) + 3 * Qabs (xm + xl)))%Q.
Proof.
  intros xh xm xl H1 H2 H3. unfold normalize_23, add211.
  pose proof (two xm xl H2 H3) as T1. destruct (twosum _ xm xl) as [t1h t1l]. destruct T1 as (A1 & A2 & A3 & A4 & A5 & _).
  pose proof (two xh t1h H1 A2) as T2. destruct (twosum _ xh t1h) as [rh t2l]. destruct T2 as (B1 & B2 & B3 & B4 & B5 & _).
  cbn [rounded_ops o_add]. destruct (add1 t2l t1l B3 A3) as (C1 & C2 & _). set (rl := rnd (t2l + t1l)) in *.
  split; auto. split; auto.
  set (S := Qabs (xh + xm + xl)). set (M := Qabs (xm + xl)) in *.
  assert (Q1 : (Qabs (xh + t1h) <= S + Qabs t1l)%Q).
  { unfold S. setoid_replace (xh + t1h)%Q with ((xh + xm + xl) + - t1l)%Q by lra.
    pose proof (tri (xh + xm + xl) (- t1l)) as T. rewrite Qabs_opp in T. exact T. }
  pose proof (tri t2l t1l) as Q2.
  pose proof (mono _ _ Q1) as Q3. pose proof (mono _ _ Q2) as Q4. pose proof (mono _ _ A4) as Q5.
  pose proof (mono _ _ (Qle_trans _ _ _ B4 Q3)) as Q6. pose proof (mono _ _ Q5) as Q7.
  pose proof (u_8 F Hp) as U8. pose proof (u_pos F) as Up. assert (NM : (0 <= M)%Q) by apply Qabs_nonneg.
  assert (Nu : (0 <= u * u * M)%Q) by (repeat apply Qmult_le_0_compat; lra).
  assert (Q8 : (u * (u * (u * M)) <= (1 # 8) * (u * u * M))%Q).
  { setoid_replace (u * (u * (u * M)))%Q with (u * (u * u * M))%Q by ring. apply Qmult_le_compat_r; lra. }
  setoid_replace (rh + rl - (xh + xm + xl))%Q with (rl - (t2l + t1l))%Q by lra. lra.
Qed.

(* ------------------------------------------------------------------ *)
(* additions                                                            *)
(* ------------------------------------------------------------------ *)
Lemma upow : forall x, (0 <= x)%Q -> (0 <= u * x)%Q /\ (u * x <= (1 # 8) * x)%Q.
Proof.
  intros x Hx. pose proof (u_8 F Hp) as U8. pose proof (u_pos F) as Up.
  split; [apply Qmult_le_0_compat; lra|]. apply Qmult_le_compat_r; lra.
Qed.

(* the last two thirds of add333 and add332: xm and ym are added exactly to
   the error t1 of the high limbs, l is what is left *)
Lemma add_tail : forall t1 a b l A, inF F t1 -> inF F a -> inF F b -> inF F l -> (Qabs t1 <= u * A)%Q ->
  let '(t2, t3) := twosum (rounded_ops rnd) a b in
  let '(t7, t4) := twosum (rounded_ops rnd) t1 t2 in
  let '(rm, rl) := twosum (rounded_ops rnd) t7 (rnd (rnd (t3 + t4) + l)) in
  inF F rm /\ inF F rl /\ (rm == rnd (rm + rl))%Q
  /\ (Qabs (rm + rl - (t1 + a + b + l)) <= 3 * (u * (u * (u * A))) + 5 * (u * (u * Qabs (a + b))) + u * Qabs l)%Q.
Proof.
  intros t1 a b l A I1 Ia Ib Il L1.
  pose proof (two a b Ia Ib) as T. destruct (twosum _ a b) as [t2 t3]. destruct T as (A1 & A2 & A3 & A4 & A5 & _).
  pose proof (two t1 t2 I1 A2) as T. destruct (twosum _ t1 t2) as [t7 t4]. destruct T as (B1 & B2 & B3 & B4 & B5 & _).
  destruct (add1 t3 t4 A3 B3) as (C1 & C2 & C3). set (t5 := rnd (t3 + t4)) in *.
  destruct (add1 t5 l C1 Il) as (D1 & D2 & D3). set (t8 := rnd (t5 + l)) in *.
  pose proof (two t7 t8 B2 D1) as T. destruct (twosum _ t7 t8) as [rm rl]. destruct T as (E1 & E2 & E3 & E4 & E5 & E6).
  split; auto. split; auto. split; auto.
  setoid_replace (rm + rl - (t1 + a + b + l))%Q with ((t5 - (t3 + t4)) + (t8 - (t5 + l)))%Q by lra.
  set (B := Qabs (a + b)) in *.
  assert (NA : (0 <= A)%Q).
  { pose proof (u_pos F). pose proof (Qabs_nonneg t1). destruct (Qlt_le_dec A 0) as [C|]; auto.
    exfalso. assert (u * A < 0)%Q; [|lra]. rewrite Qmult_comm. rewrite <- (Qmult_0_l u). apply Qmult_lt_compat_r; auto. }
  assert (NB : (0 <= B)%Q) by apply Qabs_nonneg.
  destruct (upow A NA) as [PA1 PA2]. destruct (upow _ PA1) as [PA3 PA4]. destruct (upow _ PA3) as [PA5 PA6].
  destruct (upow _ PA5) as [PA7 PA8].
  destruct (upow B NB) as [PB1 PB2]. destruct (upow _ PB1) as [PB3 PB4]. destruct (upow _ PB3) as [PB5 PB6].
  pose proof (tri t1 t2) as Q1.
  assert (Q2 : (Qabs (t1 + t2) <= u * A + (9 # 8) * B)%Q) by lra.
  pose proof (mono _ _ Q2) as Q3.
  assert (Q4 : (Qabs (t3 + t4) <= u * (u * A) + (17 # 8) * (u * B))%Q) by (pose proof (tri t3 t4); lra).
  pose proof (mono _ _ Q4) as Q5.
  assert (Q6 : (Qabs t5 <= (9 # 8) * (u * (u * A)) + (5 # 2) * (u * B))%Q).
  { eapply Qle_trans; [exact C3|]. destruct (upow _ (Qabs_nonneg (t3 + t4))). lra. }
  assert (Q7 : (Qabs (t5 + l) <= (9 # 8) * (u * (u * A)) + (5 # 2) * (u * B) + Qabs l)%Q) by (pose proof (tri t5 l); lra).
  pose proof (mono _ _ Q7) as Q8.
  pose proof (tri (t5 - (t3 + t4)) (t8 - (t5 + l))) as Q9. lra.
Qed.

(* ml_blocks.py:943-951 *)
Theorem add333_error : forall xh xm xl yh ym yl, inF F xh -> inF F xm -> inF F xl -> inF F yh -> inF F ym -> inF F yl ->
  let '(rh, rm, rl) := add333 (rounded_ops rnd) xh xm xl yh ym yl in
  inF F rh /\ inF F rm /\ inF F rl /\ (rm == rnd (rm + rl))%Q
  /\ (Qabs (rh + rm + rl - (xh + xm + xl + (yh + ym + yl)))
      <= 3 * (u * (u * (u * Qabs (xh + yh)))) + 5 * (u * (u * Qabs (xm + ym))) + 3 * (u * Qabs (xl + yl)))%Q.
Proof.
  intros xh xm xl yh ym yl H1 H2 H3 H4 H5 H6. unfold add333, add211.
  pose proof (two xh yh H1 H4) as T. destruct (twosum _ xh yh) as [rh t1]. destruct T as (A1 & A2 & A3 & A4 & _).
  cbn [rounded_ops o_add]. destruct (add1 xl yl H3 H6) as (B1 & B2 & B3). set (t6 := rnd (xl + yl)) in *.
  pose proof (add_tail t1 xm ym t6 (Qabs (xh + yh)) A3 H2 H5 B1 A4) as T.
  destruct (twosum _ xm ym) as [t2 t3]. destruct (twosum _ t1 t2) as [t7 t4].
  destruct (twosum _ t7 (rnd (rnd (t3 + t4) + t6))) as [rm rl]. destruct T as (C1 & C2 & C3 & C4).
  split; auto. split; auto. split; auto. split; auto.
  setoid_replace (rh + rm + rl - (xh + xm + xl + (yh + ym + yl)))%Q
    with ((rm + rl - (t1 + xm + ym + t6)) + (t6 - (xl + yl)))%Q by lra.
  pose proof (tri (rm + rl - (t1 + xm + ym + t6)) (t6 - (xl + yl))) as Q1.
  pose proof (mono _ _ B3) as Q2. pose proof (upow _ (Qabs_nonneg (xl + yl))) as [P1 P2]. pose proof (upow _ P1) as [P3 P4]. lra.
Qed.

(* ml_blocks.py:953-961 *)
Theorem add332_error : forall xh xm xl yh yl, inF F xh -> inF F xm -> inF F xl -> inF F yh -> inF F yl ->
  let '(rh, rm, rl) := add332 (rounded_ops rnd) xh xm xl yh yl in
  inF F rh /\ inF F rm /\ inF F rl /\ (rm == rnd (rm + rl))%Q
  /\ (Qabs (rh + rm + rl - (xh + xm + xl + (yh + yl)))
      <= 3 * (u * (u * (u * Qabs (xh + yh)))) + 5 * (u * (u * Qabs (xm + yl))) + u * Qabs xl)%Q.
Proof.
  intros xh xm xl yh yl H1 H2 H3 H4 H5. unfold add332, add211.
  pose proof (two xh yh H1 H4) as T. destruct (twosum _ xh yh) as [rh t1]. destruct T as (A1 & A2 & A3 & A4 & _).
  cbn [rounded_ops o_add].
  pose proof (add_tail t1 xm yl xl (Qabs (xh + yh)) A3 H2 H5 H3 A4) as T.
  destruct (twosum _ xm yl) as [t2 t3]. destruct (twosum _ t1 t2) as [t7 t4].
  destruct (twosum _ t7 (rnd (rnd (t3 + t4) + xl))) as [rm rl]. destruct T as (C1 & C2 & C3 & C4).
  split; auto. split; auto. split; auto. split; auto.
  setoid_replace (rh + rm + rl - (xh + xm + xl + (yh + yl)))%Q
    with (rm + rl - (t1 + xm + yl + xl))%Q by lra. exact C4.
Qed.

(* ml_blocks.py:963-964 *)
Theorem add323_error : forall xh xl yh ym yl, inF F xh -> inF F xl -> inF F yh -> inF F ym -> inF F yl ->
  let '(rh, rm, rl) := add323 (rounded_ops rnd) xh xl yh ym yl in
  inF F rh /\ inF F rm /\ inF F rl /\ (rm == rnd (rm + rl))%Q
  /\ (Qabs (rh + rm + rl - (xh + xl + (yh + ym + yl)))
      <= 3 * (u * (u * (u * Qabs (xh + yh)))) + 5 * (u * (u * Qabs (xl + ym))) + u * Qabs yl)%Q.
Proof.
  intros xh xl yh ym yl H1 H2 H3 H4 H5. unfold add323.
  pose proof (add332_error yh ym yl xh xl H3 H4 H5 H1 H2) as T.
  destruct (add332 _ yh ym yl xh xl) as [[rh rm] rl]. destruct T as (C1 & C2 & C3 & C4 & C5).
  split; auto. split; auto. split; auto. split; auto.
  setoid_replace (rh + rm + rl - (xh + xl + (yh + ym + yl)))%Q with (rh + rm + rl - (yh + ym + yl + (xh + xl)))%Q by ring.
  rewrite (Qplus_comm xh yh), (Qplus_comm xl ym). exact C5.
Qed.

(* ml_blocks.py:1052-1059, when FastTwoSum is applied in order *)
Theorem add322_error : forall xh xl yh yl, inF F xh -> inF F xl -> inF F yh -> inF F yl -> (Qabs yh <= Qabs xh)%Q ->
  let '(rh, rm, rl) := add322 (rounded_ops rnd) xh xl yh yl in
  inF F rh /\ inF F rm /\ inF F rl /\ (rm == rnd (rm + rl))%Q
  /\ (Qabs (rh + rm + rl - (xh + xl + (yh + yl)))
      <= u * (u * (u * Qabs (xh + yh))) + 3 * (u * (u * Qabs (xl + yl))))%Q.
Proof.
  intros xh xl yh yl H1 H2 H3 H4 L. unfold add322, add211.
  pose proof (fts F Hp rnd Hr xh yh H1 H3 (or_intror L)) as T. destruct (fasttwosum _ xh yh) as [rh t1]. destruct T as [A1 A2].
  destruct (add1 xh yh H1 H3) as (A3 & A4 & _). rewrite <- A1 in A4.
  assert (Irh : inF F rh) by (apply (inF_comp F (rnd (xh + yh))); [symmetry; exact A1|exact A3]).
  assert (It1 : inF F t1).
  { apply (inF_comp F (xh + yh - rnd (xh + yh))); [lra|]. apply (sum_error_F F T_p1 rnd Hr); auto. }
  assert (Bt1 : (Qabs t1 <= u * Qabs (xh + yh))%Q).
  { setoid_replace t1 with (- (rh - (xh + yh)))%Q by lra. rewrite Qabs_opp. exact A4. }
  pose proof (two xl yl H2 H4) as T. destruct (twosum _ xl yl) as [t2 t3]. destruct T as (B1 & B2 & B3 & B4 & B5 & _).
  pose proof (two t1 t2 It1 B2) as T. destruct (twosum _ t1 t2) as [t4 t5]. destruct T as (C1 & C2 & C3 & C4 & C5 & _).
  cbn [rounded_ops o_add]. destruct (add1 t3 t5 B3 C3) as (D1 & D2 & D3). set (t6 := rnd (t3 + t5)) in *.
  pose proof (two t4 t6 C2 D1) as T. destruct (twosum _ t4 t6) as [rm rl]. destruct T as (E1 & E2 & E3 & E4 & E5 & E6).
  split; auto. split; auto. split; auto. split; auto.
  setoid_replace (rh + rm + rl - (xh + xl + (yh + yl)))%Q with (t6 - (t3 + t5))%Q by lra.
  set (A := Qabs (xh + yh)) in *. set (B := Qabs (xl + yl)) in *.
  assert (NB : (0 <= B)%Q) by apply Qabs_nonneg.
  destruct (upow B NB) as [P1 P2]. destruct (upow _ P1) as [P3 P4]. destruct (upow _ P3) as [P5 P6].
  assert (Q1 : (Qabs (t1 + t2) <= u * A + (9 # 8) * B)%Q) by (pose proof (tri t1 t2); lra).
  pose proof (mono _ _ Q1) as Q2.
  assert (Q3 : (Qabs (t3 + t5) <= u * (u * A) + (17 # 8) * (u * B))%Q) by (pose proof (tri t3 t5); lra).
  pose proof (mono _ _ Q3) as Q4. lra.
Qed.

(* ml_blocks.py:1105-1110 *)
Theorem add313_error : forall x yh ym yl, inF F x -> inF F yh -> inF F ym -> inF F yl ->
  let '(rh, rm, rl) := add313 (rounded_ops rnd) x yh ym yl in
  inF F rh /\ inF F rm /\ inF F rl /\ (rm == rnd (rm + rl))%Q
  /\ (Qabs (rh + rm + rl - (x + (yh + ym + yl)))
      <= u * (u * (u * Qabs (x + yh))) + u * (u * Qabs ym) + u * Qabs yl)%Q.
Proof.
  intros x yh ym yl H1 H2 H3 H4. unfold add313, add211.
  pose proof (two x yh H1 H2) as T. destruct (twosum _ x yh) as [rh t1]. destruct T as (A1 & A2 & A3 & A4 & A5 & _).
  pose proof (two t1 ym A3 H3) as T. destruct (twosum _ t1 ym) as [t2 t3]. destruct T as (B1 & B2 & B3 & B4 & B5 & _).
  cbn [rounded_ops o_add]. destruct (add1 t3 yl B3 H4) as (D1 & D2 & D3). set (t4 := rnd (t3 + yl)) in *.
  pose proof (two t2 t4 B2 D1) as T. destruct (twosum _ t2 t4) as [rm rl]. destruct T as (E1 & E2 & E3 & E4 & E5 & E6).
  split; auto. split; auto. split; auto. split; auto.
  setoid_replace (rh + rm + rl - (x + (yh + ym + yl)))%Q with (t4 - (t3 + yl))%Q by lra.
  pose proof (tri t1 ym) as Q1. pose proof (tri t3 yl) as Q2.
  pose proof (mono _ _ Q2) as Q3. pose proof (mono _ _ Q1) as Q4. pose proof (mono _ _ (Qle_trans _ _ _ B4 Q4)) as Q5.
  pose proof (mono _ _ (mono _ _ A4)) as Q6. lra.
Qed.

(* Add222 without any condition on its operands *)
Theorem add222_abs : forall xh xl yh yl, inF F xh -> inF F xl -> inF F yh -> inF F yl ->
  let '(zh, zl) := add222 (rounded_ops rnd) xh xl yh yl in
  inF F zh /\ inF F zl
  /\ (Qabs (zh + zl - (xh + xl + (yh + yl))) <= 8 * (u * (u * Qabs (xh + yh))) + 8 * (u * Qabs (xl + yl)))%Q
  /\ (Qabs zh <= 2 * Qabs (xh + yh) + 2 * Qabs (xl + yl))%Q
  /\ (Qabs zl <= 2 * (u * Qabs (xh + yh)) + 7 * (u * Qabs (xl + yl)))%Q.
Proof.
  intros xh xl yh yl H1 H2 H3 H4. unfold add222.
  pose proof (two xh yh H1 H3) as T. destruct (twosum _ xh yh) as [v1 v2]. destruct T as (A1 & A2 & A3 & A4 & A5 & _).
  cbn [rounded_ops o_add]. destruct (add1 xl yl H2 H4) as (B1 & B2 & B3). set (v3 := rnd (xl + yl)) in *.
  destruct (add1 v2 v3 A3 B1) as (C1 & C2 & C3). set (v4 := rnd (v2 + v3)) in *.
  pose proof (fts_abs v1 v4 A2 C1) as T. destruct (fasttwosum _ v1 v4) as [zh zl]. destruct T as (D1 & D2 & D3 & D4 & D5).
  set (A := Qabs (xh + yh)) in *. set (B := Qabs (xl + yl)) in *.
  assert (NA : (0 <= A)%Q) by apply Qabs_nonneg. assert (NB : (0 <= B)%Q) by apply Qabs_nonneg.
  destruct (upow A NA) as [PA1 PA2]. destruct (upow _ PA1) as [PA3 PA4]. destruct (upow _ PA3) as [PA5 PA6].
  destruct (upow B NB) as [PB1 PB2]. destruct (upow _ PB1) as [PB3 PB4]. destruct (upow _ PB3) as [PB5 PB6].
  assert (Q1 : (Qabs (v2 + v3) <= u * A + B + u * B)%Q) by (pose proof (tri v2 v3); lra).
  pose proof (mono _ _ Q1) as Q2.
  assert (Q3 : (Qabs v4 <= (9 # 8) * (u * A) + (81 # 64) * B)%Q).
  { eapply Qle_trans; [exact C3|]. lra. }
  pose proof (mono _ _ Q3) as Q4.
  assert (Q5 : (Qabs (v1 + v4) <= (81 # 64) * A + (81 # 64) * B)%Q) by (pose proof (tri v1 v4); lra).
  pose proof (mono _ _ Q5) as Q6.
  split; auto. split; auto. split; [|split].
  - setoid_replace (zh + zl - (xh + xl + (yh + yl)))%Q
      with ((zh + zl - (v1 + v4)) + (v4 - (v2 + v3)) + (v3 - (xl + yl)))%Q by lra.
    pose proof (tri3 (zh + zl - (v1 + v4)) (v4 - (v2 + v3)) (v3 - (xl + yl))) as T. lra.
  - lra.
  - lra.
Qed.

Lemma cube : forall k, (p2 (k - 3 * p) == p2 k * (u * (u * u)))%Q.
Proof. intros k. rewrite <- !p2_plus. replace (k + (- p + (- p + - p))) with (k - 3 * p) by lia. reflexivity. Qed.

Lemma absmul_le : forall a b c d, (Qabs a <= c * Qabs b)%Q -> (Qabs (a * d) <= c * Qabs (b * d))%Q.
Proof. intros a b c d H. rewrite !Qabs_Qmult, Qmult_assoc. apply Qmult_le_compat_r; auto. apply Qabs_nonneg. Qed.

Lemma abs_low : forall a b, (Qabs a - Qabs b <= Qabs (a + b))%Q.
Proof. intros a b. pose proof (tri (a + b) (- b)) as T. rewrite Qabs_opp in T. setoid_replace (a + b + - b)%Q with a in T by ring. lra. Qed.

(* ------------------------------------------------------------------ *)
(* products (no underflow: unbounded exponents)                         *)
(* ------------------------------------------------------------------ *)
Section NoUnderflow.
Hypothesis Hinf : emin F = None.

Lemma rd : forall x, inF F (rnd x) /\ (Qabs (rnd x - x) <= u * Qabs x)%Q /\ (Qabs (rnd x) <= Qabs x + u * Qabs x)%Q.
Proof.
  intros x. pose proof (rnd_rel F T_p1 rnd Hr x Hinf) as R. split; [apply (rnd_inF F rnd Hr)|]. split; auto.
  pose proof (tri (rnd x - x) x) as T. setoid_replace (rnd x - x + x)%Q with (rnd x) in T by ring. lra.
Qed.

Lemma prod : forall x y, inF F x -> inF F y ->
  let '(h, l) := mul211 (rounded_ops rnd) x y in
  (h + l == x * y)%Q /\ inF F h /\ inF F l /\ (Qabs h <= Qabs (x * y) + u * Qabs (x * y))%Q /\ (Qabs l <= u * Qabs (x * y))%Q.
Proof.
  intros x y Hx Hy. unfold mul211. cbn [rounded_ops o_mul o_fms].
  pose proof (mul211_inf F Hp rnd Hr Hinf x y Hx Hy) as M.
  destruct (rd (x * y)) as (A & B & C). split; auto. split; auto. split; [apply (rnd_inF F rnd Hr)|]. split; auto.
  setoid_replace (rnd (x * y - rnd (x * y)))%Q with (- (rnd (x * y) - x * y))%Q by lra. rewrite Qabs_opp. exact B.
Qed.

(* ml_blocks.py:1159-1167 *)
Theorem mul322_error : forall xh xl yh yl, inF F xh -> inF F xl -> inF F yh -> inF F yl ->
  let '(rh, rm, rl) := mul322 (rounded_ops rnd) xh xl yh yl in
  inF F rh /\ inF F rm /\ inF F rl
  /\ (Qabs (rh + rm + rl - (xh + xl) * (yh + yl))
      <= 17 * (u * (u * (u * Qabs (xh * yh)))) + 62 * (u * (u * (Qabs (xh * yl) + Qabs (xl * yh)))) + 4 * (u * Qabs (xl * yl)))%Q.
Proof.
  intros xh xl yh yl H1 H2 H3 H4. unfold mul322, add211.
  pose proof (prod xh yh H1 H3) as T. destruct (mul211 _ xh yh) as [rh t1]. destruct T as (A1 & A2 & A3 & A4 & A5).
  pose proof (prod xh yl H1 H4) as T. destruct (mul211 _ xh yl) as [t2 t3]. destruct T as (B1 & B2 & B3 & B4 & B5).
  pose proof (prod xl yh H2 H3) as T. destruct (mul211 _ xl yh) as [t4 t5]. destruct T as (C1 & C2 & C3 & C4 & C5).
  cbn [rounded_ops o_mul]. destruct (rd (xl * yl)) as (D1 & D2 & D3). set (t6 := rnd (xl * yl)) in *.
  pose proof (add222_abs t2 t3 t4 t5 B2 B3 C2 C3) as T. destruct (add222 _ t2 t3 t4 t5) as [t7 t8]. destruct T as (E1 & E2 & E3 & E4 & E5).
  pose proof (two t1 t6 A3 D1) as T. destruct (twosum _ t1 t6) as [t9 t10]. destruct T as (F1 & F2 & F3 & F4 & F5 & _).
  pose proof (add222_abs t7 t8 t9 t10 E1 E2 F2 F3) as T. destruct (add222 _ t7 t8 t9 t10) as [rm rl]. destruct T as (G1 & G2 & G3 & _ & _).
  split; auto. split; auto. split; auto.
  setoid_replace (rh + rm + rl - (xh + xl) * (yh + yl))%Q
    with ((rm + rl - (t7 + t8 + (t9 + t10))) + (t7 + t8 - (t2 + t3 + (t4 + t5))) + (t6 - xl * yl))%Q by lra.
  set (H := Qabs (xh * yh)) in *. set (M1 := Qabs (xh * yl)) in *. set (M2 := Qabs (xl * yh)) in *. set (L := Qabs (xl * yl)) in *.
  assert (NH : (0 <= H)%Q) by apply Qabs_nonneg. assert (NM1 : (0 <= M1)%Q) by apply Qabs_nonneg.
  assert (NM2 : (0 <= M2)%Q) by apply Qabs_nonneg. assert (NL : (0 <= L)%Q) by apply Qabs_nonneg.
  destruct (upow H NH) as [PA1 PA2]. destruct (upow _ PA1) as [PA3 PA4]. destruct (upow _ PA3) as [PA5 PA6]. destruct (upow _ PA5) as [PA7 PA8].
  destruct (upow M1 NM1) as [PB1 PB2]. destruct (upow _ PB1) as [PB3 PB4]. destruct (upow _ PB3) as [PB5 PB6].
  destruct (upow M2 NM2) as [PC1 PC2]. destruct (upow _ PC1) as [PC3 PC4]. destruct (upow _ PC3) as [PC5 PC6].
  destruct (upow L NL) as [PD1 PD2]. destruct (upow _ PD1) as [PD3 PD4]. destruct (upow _ PD3) as [PD5 PD6].
  assert (Q1 : (Qabs (t2 + t4) <= (9 # 8) * (M1 + M2))%Q) by (pose proof (tri t2 t4); lra).
  assert (Q2 : (Qabs (t3 + t5) <= u * M1 + u * M2)%Q) by (pose proof (tri t3 t5); lra).
  pose proof (mono _ _ Q1) as Q3. pose proof (mono _ _ Q2) as Q4. pose proof (mono _ _ Q3) as Q5.
  assert (K7 : (Qabs t7 <= (5 # 2) * (M1 + M2))%Q) by lra.
  assert (K8 : (Qabs t8 <= (25 # 8) * (u * M1 + u * M2))%Q) by lra.
  assert (Q6 : (Qabs (t1 + t6) <= u * H + (9 # 8) * L)%Q) by (pose proof (tri t1 t6); lra).
  pose proof (mono _ _ Q6) as Q7.
  assert (K9 : (Qabs t9 <= (9 # 8) * (u * H) + (81 # 64) * L)%Q) by lra.
  assert (K10 : (Qabs t10 <= u * (u * H) + (9 # 8) * (u * L))%Q) by lra.
  assert (Q8 : (Qabs (t7 + t9) <= (5 # 2) * (M1 + M2) + (9 # 8) * (u * H) + (81 # 64) * L)%Q) by (pose proof (tri t7 t9); lra).
  assert (Q9 : (Qabs (t8 + t10) <= (25 # 8) * (u * M1 + u * M2) + u * (u * H) + (9 # 8) * (u * L))%Q) by (pose proof (tri t8 t10); lra).
  pose proof (mono _ _ (mono _ _ Q8)) as Q10. pose proof (mono _ _ Q9) as Q11.
  pose proof (tri3 (rm + rl - (t7 + t8 + (t9 + t10))) (t7 + t8 - (t2 + t3 + (t4 + t5))) (t6 - xl * yl)) as T. lra.
Qed.

(* ml_blocks.py:1289-1303 *)
Theorem mul323_error : forall xh xl yh ym yl, inF F xh -> inF F xl -> inF F yh -> inF F ym -> inF F yl ->
  let '(rh, rm, rl) := mul323 (rounded_ops rnd) xh xl yh ym yl in
  inF F rh /\ inF F rm /\ inF F rl
  /\ (Qabs (rh + rm + rl - (xh + xl) * (yh + ym + yl))
      <= 17 * (u * (u * (u * Qabs (xh * yh))))
         + 172 * (u * (u * (Qabs (xh * ym) + Qabs (xh * yl) + Qabs (xl * yh) + Qabs (xl * ym)))) + 4 * (u * Qabs (xl * yl)))%Q.
Proof.
  intros xh xl yh ym yl H1 H2 H3 H4 H5. unfold mul323, add211.
  pose proof (prod xh yh H1 H3) as T. destruct (mul211 _ xh yh) as [rh t1]. destruct T as (A1 & A2 & A3 & A4 & A5).
  pose proof (prod xh ym H1 H4) as T. destruct (mul211 _ xh ym) as [t2 t3]. destruct T as (B1 & B2 & B3 & B4 & B5).
  pose proof (prod xh yl H1 H5) as T. destruct (mul211 _ xh yl) as [t4 t5]. destruct T as (C1 & C2 & C3 & C4 & C5).
  pose proof (prod xl yh H2 H3) as T. destruct (mul211 _ xl yh) as [t6 t7]. destruct T as (D1 & D2 & D3 & D4 & D5).
  pose proof (prod xl ym H2 H4) as T. destruct (mul211 _ xl ym) as [t8 t9]. destruct T as (E1 & E2 & E3 & E4 & E5).
  cbn [rounded_ops o_mul]. destruct (rd (xl * yl)) as (F1 & F2 & F3). set (t10 := rnd (xl * yl)) in *.
  pose proof (add222_abs t2 t3 t4 t5 B2 B3 C2 C3) as T. destruct (add222 _ t2 t3 t4 t5) as [t11 t12]. destruct T as (G1 & G2 & G3 & G4 & G5).
  pose proof (add222_abs t6 t7 t8 t9 D2 D3 E2 E3) as T. destruct (add222 _ t6 t7 t8 t9) as [t13 t14]. destruct T as (I1 & I2 & I3 & I4 & I5).
  pose proof (add222_abs t11 t12 t13 t14 G1 G2 I1 I2) as T. destruct (add222 _ t11 t12 t13 t14) as [t15 t16]. destruct T as (J1 & J2 & J3 & J4 & J5).
  pose proof (two t1 t10 A3 F1) as T. destruct (twosum _ t1 t10) as [t17 t18]. destruct T as (K1 & K2 & K3 & K4 & K5 & _).
  pose proof (add222_abs t17 t18 t15 t16 K2 K3 J1 J2) as T. destruct (add222 _ t17 t18 t15 t16) as [rm rl]. destruct T as (L1 & L2 & L3 & _ & _).
  split; auto. split; auto. split; auto.
  setoid_replace (rh + rm + rl - (xh + xl) * (yh + ym + yl))%Q
    with ((rm + rl - (t17 + t18 + (t15 + t16))) + (t15 + t16 - (t11 + t12 + (t13 + t14)))
          + ((t11 + t12 - (t2 + t3 + (t4 + t5))) + (t13 + t14 - (t6 + t7 + (t8 + t9))) + (t10 - xl * yl)))%Q by lra.
  set (a := Qabs (xh * yh)) in *. set (b := Qabs (xh * ym)) in *. set (c := Qabs (xh * yl)) in *.
  set (d := Qabs (xl * yh)) in *. set (e := Qabs (xl * ym)) in *. set (f := Qabs (xl * yl)) in *.
  assert (Na : (0 <= a)%Q) by apply Qabs_nonneg. assert (Nb : (0 <= b)%Q) by apply Qabs_nonneg.
  assert (Nc : (0 <= c)%Q) by apply Qabs_nonneg. assert (Nd : (0 <= d)%Q) by apply Qabs_nonneg.
  assert (Ne : (0 <= e)%Q) by apply Qabs_nonneg. assert (Nf : (0 <= f)%Q) by apply Qabs_nonneg.
  set (M1 := (b + c)%Q). set (M2 := (d + e)%Q). set (M := (M1 + M2)%Q).
  assert (NM1 : (0 <= M1)%Q) by (unfold M1; lra). assert (NM2 : (0 <= M2)%Q) by (unfold M2; lra).
  destruct (upow a Na) as [PA1 PA2]. destruct (upow _ PA1) as [PA3 PA4]. destruct (upow _ PA3) as [PA5 PA6].
  destruct (upow M1 NM1) as [PB1 PB2]. destruct (upow _ PB1) as [PB3 PB4]. destruct (upow _ PB3) as [PB5 PB6].
  destruct (upow M2 NM2) as [PC1 PC2]. destruct (upow _ PC1) as [PC3 PC4]. destruct (upow _ PC3) as [PC5 PC6].
  destruct (upow f Nf) as [PD1 PD2]. destruct (upow _ PD1) as [PD3 PD4]. destruct (upow _ PD3) as [PD5 PD6].
  assert (R1 : (Qabs (t2 + t4) <= (9 # 8) * M1)%Q).
  { pose proof (tri t2 t4). destruct (upow b Nb). destruct (upow c Nc). unfold M1. lra. }
  assert (R2 : (Qabs (t3 + t5) <= u * M1)%Q) by (pose proof (tri t3 t5); unfold M1; lra).
  assert (R3 : (Qabs (t6 + t8) <= (9 # 8) * M2)%Q).
  { pose proof (tri t6 t8). destruct (upow d Nd). destruct (upow e Ne). unfold M2. lra. }
  assert (R4 : (Qabs (t7 + t9) <= u * M2)%Q) by (pose proof (tri t7 t9); unfold M2; lra).
  assert (EM : (u * (u * (M1 + d + e)) == u * (u * M1) + u * (u * M2))%Q) by (unfold M2; ring).
  rewrite EM. clear EM. clearbody M1 M2. clear M.
  pose proof (mono _ _ R1) as S1. pose proof (mono _ _ R2) as S2. pose proof (mono _ _ S1) as S3.
  pose proof (mono _ _ R3) as S4. pose proof (mono _ _ R4) as S5. pose proof (mono _ _ S4) as S6.
  assert (X1 : (Qabs (t11 + t13) <= (5 # 2) * M1 + (5 # 2) * M2)%Q) by (pose proof (tri t11 t13); lra).
  assert (X2 : (Qabs (t12 + t14) <= (25 # 8) * (u * M1) + (25 # 8) * (u * M2))%Q) by (pose proof (tri t12 t14); lra).
  pose proof (mono _ _ X1) as X3. pose proof (mono _ _ X2) as X4. pose proof (mono _ _ X3) as X5.
  assert (Y1 : (Qabs t15 <= (93 # 16) * M1 + (93 # 16) * M2)%Q) by lra.
  assert (Y2 : (Qabs t16 <= (31 # 4) * (u * M1) + (31 # 4) * (u * M2))%Q) by lra.
  assert (Q6 : (Qabs (t1 + t10) <= u * a + (9 # 8) * f)%Q) by (pose proof (tri t1 t10); lra).
  pose proof (mono _ _ Q6) as Q7.
  assert (Z1 : (Qabs (t17 + t15) <= (9 # 8) * (u * a) + (81 # 64) * f + (93 # 16) * M1 + (93 # 16) * M2)%Q)
    by (pose proof (tri t17 t15); lra).
  assert (Z2 : (Qabs (t18 + t16) <= u * (u * a) + (9 # 8) * (u * f) + (31 # 4) * (u * M1) + (31 # 4) * (u * M2))%Q)
    by (pose proof (tri t18 t16); lra).
  pose proof (mono _ _ (mono _ _ Z1)) as Z3. pose proof (mono _ _ Z2) as Z4.
  eapply Qle_trans; [apply tri3|].
  pose proof (tri3 (t11 + t12 - (t2 + t3 + (t4 + t5))) (t13 + t14 - (t6 + t7 + (t8 + t9))) (t10 - xl * yl)) as T. lra.
Qed.

(* ml_blocks.py:1312-1336; the product of the two low limbs is left out *)
Theorem mul333_error : forall xh xm xl yh ym yl, inF F xh -> inF F xm -> inF F xl -> inF F yh -> inF F ym -> inF F yl ->
  let '(rh, rm, rl) := mul333 (rounded_ops rnd) xh xm xl yh ym yl in
  inF F rh /\ inF F rm /\ inF F rl
  /\ (Qabs (rh + rm + rl - ((xh + xm + xl) * (yh + ym + yl) - xl * yl))
      <= 25 * (u * (u * (u * Qabs (xh * yh)))) + 62 * (u * (u * (Qabs (xh * ym) + Qabs (xm * yh))))
         + 35 * (u * (u * Qabs (xm * ym)))
         + 10 * (u * (Qabs (xh * yl) + Qabs (xl * yh) + Qabs (xm * yl) + Qabs (xl * ym))))%Q.
Proof.
  intros xh xm xl yh ym yl H1 H2 H3 H4 H5 H6. unfold mul333, add211.
  pose proof (prod xh yh H1 H4) as T. destruct (mul211 _ xh yh) as [rh t1]. destruct T as (A1 & A2 & A3 & A4 & A5).
  pose proof (prod xh ym H1 H5) as T. destruct (mul211 _ xh ym) as [t2 t3]. destruct T as (B1 & B2 & B3 & B4 & B5).
  pose proof (prod xm yh H2 H4) as T. destruct (mul211 _ xm yh) as [t4 t5]. destruct T as (C1 & C2 & C3 & C4 & C5).
  pose proof (prod xm ym H2 H5) as T. destruct (mul211 _ xm ym) as [t6 t7]. destruct T as (D1 & D2 & D3 & D4 & D5).
  cbn [rounded_ops o_mul o_add].
  destruct (rd (xh * yl)) as (E1 & E2 & E3). set (t8 := rnd (xh * yl)) in *.
  destruct (rd (xl * yh)) as (F1 & F2 & F3). set (t9 := rnd (xl * yh)) in *.
  destruct (rd (xm * yl)) as (G1 & G2 & G3). set (t10 := rnd (xm * yl)) in *.
  destruct (rd (xl * ym)) as (I1 & I2 & I3). set (t11 := rnd (xl * ym)) in *.
  destruct (rd (t8 + t9)) as (J1 & J2 & J3). set (t12 := rnd (t8 + t9)) in *.
  destruct (rd (t10 + t11)) as (K1 & K2 & K3). set (t13 := rnd (t10 + t11)) in *.
  pose proof (two t1 t6 A3 D2) as T. destruct (twosum _ t1 t6) as [t14 t15]. destruct T as (L1 & L2 & L3 & L4 & L5 & _).
  destruct (rd (t7 + t15)) as (M1 & M2 & M3). set (t16 := rnd (t7 + t15)) in *.
  destruct (rd (t12 + t13)) as (N1 & N2 & N3). set (t17 := rnd (t12 + t13)) in *.
  destruct (rd (t16 + t17)) as (O1 & O2 & O3). set (t18 := rnd (t16 + t17)) in *.
  pose proof (two t14 t18 L2 O1) as T. destruct (twosum _ t14 t18) as [t19 t20]. destruct T as (P1 & P2 & P3 & P4 & P5 & _).
  pose proof (add222_abs t2 t3 t4 t5 B2 B3 C2 C3) as T. destruct (add222 _ t2 t3 t4 t5) as [t21 t22]. destruct T as (Q1 & Q2 & Q3 & Q4 & Q5).
  pose proof (add222_abs t21 t22 t19 t20 Q1 Q2 P2 P3) as T. destruct (add222 _ t21 t22 t19 t20) as [rm rl]. destruct T as (R1 & R2 & R3 & _ & _).
  split; auto. split; auto. split; auto.
  setoid_replace (rh + rm + rl - ((xh + xm + xl) * (yh + ym + yl) - xl * yl))%Q
    with ((rm + rl - (t21 + t22 + (t19 + t20))) + (t21 + t22 - (t2 + t3 + (t4 + t5))) + (t18 - (t16 + t17))
          + ((t16 - (t7 + t15)) + (t17 - (t12 + t13)) + ((t12 - (t8 + t9)) + (t13 - (t10 + t11))))
          + ((t8 - xh * yl) + (t9 - xl * yh) + ((t10 - xm * yl) + (t11 - xl * ym))))%Q by lra.
  set (a := Qabs (xh * yh)) in *. set (b := Qabs (xh * ym)) in *. set (c := Qabs (xm * yh)) in *. set (d := Qabs (xm * ym)) in *.
  set (e := Qabs (xh * yl)) in *. set (f := Qabs (xl * yh)) in *. set (g := Qabs (xm * yl)) in *. set (h := Qabs (xl * ym)) in *.
  assert (Na : (0 <= a)%Q) by apply Qabs_nonneg. assert (Nb : (0 <= b)%Q) by apply Qabs_nonneg.
  assert (Nc : (0 <= c)%Q) by apply Qabs_nonneg. assert (Nd : (0 <= d)%Q) by apply Qabs_nonneg.
  assert (Ne : (0 <= e)%Q) by apply Qabs_nonneg. assert (Nf : (0 <= f)%Q) by apply Qabs_nonneg.
  assert (Ng : (0 <= g)%Q) by apply Qabs_nonneg. assert (Nh : (0 <= h)%Q) by apply Qabs_nonneg.
  set (M := (b + c)%Q) in *. set (E := (e + f + g + h)%Q) in *.
  assert (NM : (0 <= M)%Q) by (unfold M; lra). assert (NE : (0 <= E)%Q) by (unfold E; lra).
  destruct (upow a Na) as [PA1 PA2]. destruct (upow _ PA1) as [PA3 PA4]. destruct (upow _ PA3) as [PA5 PA6]. destruct (upow _ PA5) as [PA7 PA8].
  destruct (upow M NM) as [PB1 PB2]. destruct (upow _ PB1) as [PB3 PB4]. destruct (upow _ PB3) as [PB5 PB6].
  destruct (upow d Nd) as [PC1 PC2]. destruct (upow _ PC1) as [PC3 PC4]. destruct (upow _ PC3) as [PC5 PC6].
  destruct (upow E NE) as [PD1 PD2]. destruct (upow _ PD1) as [PD3 PD4]. destruct (upow _ PD3) as [PD5 PD6].
  assert (V1 : (Qabs (t2 + t4) <= (9 # 8) * M)%Q).
  { pose proof (tri t2 t4). destruct (upow b Nb). destruct (upow c Nc). unfold M. lra. }
  assert (V2 : (Qabs (t3 + t5) <= u * M)%Q) by (pose proof (tri t3 t5); unfold M; lra).
  assert (V3 : (Qabs (t8 + t9) + Qabs (t10 + t11) <= (9 # 8) * E)%Q).
  { pose proof (tri t8 t9). pose proof (tri t10 t11). destruct (upow e Ne). destruct (upow f Nf). destruct (upow g Ng). destruct (upow h Nh).
    unfold E. lra. }
  assert (V4 : (Qabs (t8 - xh * yl) + Qabs (t9 - xl * yh) + Qabs (t10 - xm * yl) + Qabs (t11 - xl * ym) <= u * E)%Q) by (unfold E; lra).
  pose proof (mono _ _ V3) as V5.
  assert (V6 : (Qabs (t12 - (t8 + t9)) + Qabs (t13 - (t10 + t11)) <= (9 # 8) * (u * E))%Q) by lra.
  assert (V7 : (Qabs (t12 + t13) <= (81 # 64) * E)%Q).
  { pose proof (tri t12 t13). destruct (upow _ (Qabs_nonneg (t8 + t9))). destruct (upow _ (Qabs_nonneg (t10 + t11))). lra. }
  pose proof (mono _ _ V7) as V8.
  assert (V9 : (Qabs t17 <= (3 # 2) * E)%Q) by lra.
  assert (W1 : (Qabs (t1 + t6) <= u * a + (9 # 8) * d)%Q) by (pose proof (tri t1 t6); lra).
  pose proof (mono _ _ W1) as W2.
  assert (W3 : (Qabs t14 <= (9 # 8) * (u * a) + (81 # 64) * d)%Q) by lra.
  assert (W4 : (Qabs (t7 + t15) <= u * (u * a) + (17 # 8) * (u * d))%Q) by (pose proof (tri t7 t15); lra).
  pose proof (mono _ _ W4) as W5.
  assert (W6 : (Qabs t16 <= (9 # 8) * (u * (u * a)) + (5 # 2) * (u * d))%Q) by lra.
  assert (W7 : (Qabs (t16 + t17) <= (9 # 8) * (u * (u * a)) + (5 # 2) * (u * d) + (3 # 2) * E)%Q) by (pose proof (tri t16 t17); lra).
  pose proof (mono _ _ W7) as W8.
  assert (W9 : (Qabs t18 <= (4 # 3) * (u * (u * a)) + 3 * (u * d) + (27 # 16) * E)%Q) by lra.
  assert (X1 : (Qabs (t14 + t18) <= (4 # 3) * (u * a) + (27 # 16) * d + (27 # 16) * E)%Q) by (pose proof (tri t14 t18); lra).
  pose proof (mono _ _ X1) as X2.
  assert (X3 : (Qabs t19 <= (3 # 2) * (u * a) + 2 * d + 2 * E)%Q) by lra.
  pose proof (mono _ _ V1) as Y1. pose proof (mono _ _ V2) as Y2. pose proof (mono _ _ Y1) as Y3.
  assert (Y4 : (Qabs t21 <= (5 # 2) * M)%Q) by lra.
  assert (Y5 : (Qabs t22 <= (25 # 8) * (u * M))%Q) by lra.
  assert (Z1 : (Qabs (t21 + t19) <= (5 # 2) * M + (3 # 2) * (u * a) + 2 * d + 2 * E)%Q) by (pose proof (tri t21 t19); lra).
  assert (Z2 : (Qabs (t22 + t20) <= (25 # 8) * (u * M) + (4 # 3) * (u * (u * a)) + (27 # 16) * (u * d) + (27 # 16) * (u * E))%Q)
    by (pose proof (tri t22 t20); lra).
  pose proof (mono _ _ (mono _ _ Z1)) as Z3. pose proof (mono _ _ Z2) as Z4.
  eapply Qle_trans; [apply tri3|].
  pose proof (tri3 (rm + rl - (t21 + t22 + (t19 + t20))) (t21 + t22 - (t2 + t3 + (t4 + t5))) (t18 - (t16 + t17))) as T1.
  pose proof (tri3 (t16 - (t7 + t15)) (t17 - (t12 + t13)) ((t12 - (t8 + t9)) + (t13 - (t10 + t11)))) as T2.
  pose proof (tri (t12 - (t8 + t9)) (t13 - (t10 + t11))) as T3.
  pose proof (tri3 (t8 - xh * yl) (t9 - xl * yh) ((t10 - xm * yl) + (t11 - xl * ym))) as T4.
  pose proof (tri (t10 - xm * yl) (t11 - xl * ym)) as T5. lra.
Qed.

(* ml_blocks.py:1381-1391 *)
Theorem mul313_error : forall x yh ym yl, inF F x -> inF F yh -> inF F ym -> inF F yl ->
  let '(rh, rm, rl) := mul313 (rounded_ops rnd) x yh ym yl in
  inF F rh /\ inF F rm /\ inF F rl /\ (rm == rnd (rm + rl))%Q
  /\ (Qabs (rh + rm + rl - x * (yh + ym + yl))
      <= u * (u * (u * Qabs (x * yh))) + 4 * (u * (u * Qabs (x * ym))) + 4 * (u * Qabs (x * yl)))%Q.
Proof.
  intros x yh ym yl H1 H2 H3 H4. unfold mul313, add211.
  pose proof (prod x yh H1 H2) as T. destruct (mul211 _ x yh) as [rh t2]. destruct T as (A1 & A2 & A3 & A4 & A5).
  pose proof (prod x ym H1 H3) as T. destruct (mul211 _ x ym) as [t3 t4]. destruct T as (B1 & B2 & B3 & B4 & B5).
  cbn [rounded_ops o_mul o_add]. destruct (rd (x * yl)) as (C1 & C2 & C3). set (t5 := rnd (x * yl)) in *.
  pose proof (two t2 t3 A3 B2) as T. destruct (twosum _ t2 t3) as [t9 t7]. destruct T as (D1 & D2 & D3 & D4 & D5 & _).
  destruct (add1 t4 t5 B3 C1) as (E1 & E2 & E3). set (t8 := rnd (t4 + t5)) in *.
  destruct (add1 t7 t8 D3 E1) as (F1 & F2 & F3). set (t10 := rnd (t7 + t8)) in *.
  pose proof (two t9 t10 D2 F1) as T. destruct (twosum _ t9 t10) as [rm rl]. destruct T as (G1 & G2 & G3 & G4 & G5 & G6).
  split; auto. split; auto. split; auto. split; auto.
  setoid_replace (rh + rm + rl - x * (yh + ym + yl))%Q
    with ((t10 - (t7 + t8)) + (t8 - (t4 + t5)) + (t5 - x * yl))%Q by lra.
  set (A := Qabs (x * yh)) in *. set (B := Qabs (x * ym)) in *. set (C := Qabs (x * yl)) in *.
  assert (NA : (0 <= A)%Q) by apply Qabs_nonneg. assert (NB : (0 <= B)%Q) by apply Qabs_nonneg.
  assert (NC : (0 <= C)%Q) by apply Qabs_nonneg.
  destruct (upow A NA) as [PA1 PA2]. destruct (upow _ PA1) as [PA3 PA4]. destruct (upow _ PA3) as [PA5 PA6].
  destruct (upow B NB) as [PB1 PB2]. destruct (upow _ PB1) as [PB3 PB4]. destruct (upow _ PB3) as [PB5 PB6].
  destruct (upow C NC) as [PC1 PC2]. destruct (upow _ PC1) as [PC3 PC4]. destruct (upow _ PC3) as [PC5 PC6].
  assert (Q1 : (Qabs (t2 + t3) <= u * A + (9 # 8) * B)%Q) by (pose proof (tri t2 t3); lra).
  pose proof (mono _ _ Q1) as Q2.
  assert (Q3 : (Qabs (t4 + t5) <= u * B + (9 # 8) * C)%Q) by (pose proof (tri t4 t5); lra).
  pose proof (mono _ _ Q3) as Q4.
  assert (Q5 : (Qabs t8 <= (9 # 8) * (u * B) + (81 # 64) * C)%Q) by lra.
  assert (Q6 : (Qabs (t7 + t8) <= u * (u * A) + (9 # 4) * (u * B) + (81 # 64) * C)%Q) by (pose proof (tri t7 t8); lra).
  pose proof (mono _ _ Q6) as Q7.
  pose proof (tri3 (t10 - (t7 + t8)) (t8 - (t4 + t5)) (t5 - x * yl)) as T. lra.
Qed.

(* |x - rnd x| is also small against the rounded value *)
Lemma rd_low : forall x, (Qabs (rnd x - x) <= u * Qabs (rnd x))%Q.
Proof.
  intros x. destruct (Qeq_dec x 0) as [Z|NZ].
  { pose proof (rnd_rel F T_p1 rnd Hr x Hinf) as R. assert (E : (Qabs x == 0)%Q) by (rewrite Z; reflexivity).
    rewrite E in R. apply Qabs_le_iff in R. pose proof (upow _ (Qabs_nonneg (rnd x))). apply Qabs_le_iff. lra. }
  assert (Px : (0 < Qabs x)%Q).
  { destruct (Qlt_le_dec 0 (Qabs x)) as [|C]; auto. exfalso. apply NZ. apply Qabs_le_iff in C. lra. }
  destruct (qlog2_spec (Qabs x) Px) as [L1 L2]. set (e := qlog2 (Qabs x)) in *.
  assert (Ie : inF F (p2 e)).
  { apply (inF_intro F T_p1 (e + 1 - p)).
    - exists (2 ^ (p - 1)). replace e with ((p - 1) + (e + 1 - p)) at 1 by lia. rewrite p2_plus. rewrite (p2_Z (p - 1)) by lia. reflexivity.
    - unfold exp_ok. rewrite Hinf. exact I.
    - rewrite Qabs_pos by (pose proof (p2_pos e); lra). apply p2_le. lia. }
  pose proof (rnd_abs_ge_F F T_p1 rnd Hr x (p2 e)) as G.
  assert (G' : (p2 e <= Qabs (rnd x))%Q).
  { apply G; auto; pose proof (p2_pos e); lra. }
  pose proof (rnd_half F T_p1 rnd Hr (e + 1 - p) x) as Hh.
  assert (Hh' : (Qabs (rnd x - x) <= p2 (e + 1 - p - 1))%Q).
  { apply Hh.
    - unfold exp_ok. rewrite Hinf. exact I.
    - replace (p + (e + 1 - p)) with (e + 1) by lia. lra. }
  eapply Qle_trans; [exact Hh'|].
  replace (e + 1 - p - 1) with (- p + e) by lia. rewrite !p2_plus. apply mono. exact G'.
Qed.

(* ml_blocks.py:1198-1202 *)
Theorem mul321_error : forall xh xl y, inF F xh -> inF F xl -> inF F y ->
  let '(rh, rm, rl) := mul321 (rounded_ops rnd) xh xl y in
  inF F rh /\ (rm == rnd (rm + rl))%Q
  /\ (Qabs (rh + rm + rl - (xh + xl) * y) <= 8 * (u * (u * (u * Qabs (xh * y)))) + 8 * (u * (u * Qabs (xl * y))))%Q.
Proof.
  intros xh xl y H1 H2 H3. unfold mul321.
  pose proof (prod xh y H1 H3) as T. destruct (mul211 _ xh y) as [rh t1]. destruct T as (A1 & A2 & A3 & A4 & A5).
  pose proof (prod xl y H2 H3) as T. destruct (mul211 _ xl y) as [t4 t5] eqn:E. destruct T as (B1 & B2 & B3 & B4 & B5).
  assert (L : (Qabs t5 <= u * Qabs t4)%Q).
  { unfold mul211 in E. cbn [rounded_ops o_mul o_fms] in E. injection E as E4 E5.
    setoid_replace t5 with (- (rnd (xl * y) - xl * y))%Q by (rewrite E4; lra). rewrite Qabs_opp. rewrite <- E4. apply rd_low. }
  unfold add221. pose proof (add212_error F Hp rnd Hr t1 t4 t5 A3 B2 B3 L) as T.
  destruct (add212 _ t1 t4 t5) as [rm rl]. destruct T as [T1 T2].
  split; auto. split; auto.
  setoid_replace (rh + rm + rl - (xh + xl) * y)%Q with (rm + rl - (t1 + t4 + t5))%Q by lra.
  eapply Qle_trans; [exact T2|].
  rewrite (p2_declared F 3). assert (E3 : (p2 3 == 8)%Q) by reflexivity. rewrite E3.
  assert (Q1 : (Qabs (t1 + t4 + t5) <= u * Qabs (xh * y) + Qabs (xl * y))%Q).
  { setoid_replace (t1 + t4 + t5)%Q with (t1 + xl * y)%Q by lra. pose proof (tri t1 (xl * y)). lra. }
  pose proof (mono _ _ (mono _ _ Q1)). lra.
Qed.

(* ------------------------------------------------------------------ *)
(* the relative errors declared by the meta-blocks (p = 53 in the code)  *)
(* ------------------------------------------------------------------ *)
(* MB_Mul321 (ml_blocks.py:1217-1219): 2^-154 = 2^(5 - 3p), limbs without overlap *)
Theorem mul321_declared : forall xh xl y, inF F xh -> inF F xl -> inF F y -> (Qabs xl <= u * Qabs xh)%Q ->
  let '(rh, rm, rl) := mul321 (rounded_ops rnd) xh xl y in
  (Qabs (rh + rm + rl - (xh + xl) * y) <= p2 (5 - 3 * p) * Qabs ((xh + xl) * y))%Q.
Proof.
  intros xh xl y H1 H2 H3 L. pose proof (mul321_error xh xl y H1 H2 H3) as T.
  destruct (mul321 _ xh xl y) as [[rh rm] rl]. destruct T as (_ & _ & T). eapply Qle_trans; [exact T|].
  rewrite cube. assert (E5 : (p2 5 == 32)%Q) by reflexivity. rewrite E5.
  pose proof (absmul_le xl xh u y L) as L'. set (A := Qabs (xh * y)) in *.
  assert (NA : (0 <= A)%Q) by apply Qabs_nonneg.
  destruct (upow A NA) as [P1 P2]. destruct (upow _ P1) as [P3 P4]. destruct (upow _ P3) as [P5 P6].
  assert (S : ((7 # 8) * A <= Qabs ((xh + xl) * y))%Q).
  { setoid_replace ((xh + xl) * y)%Q with (xh * y + xl * y)%Q by ring. pose proof (abs_low (xh * y) (xl * y)) as T'. fold A in T'. lra. }
  pose proof (mono _ _ (mono _ _ (mono _ _ S))) as S3. pose proof (mono _ _ (mono _ _ L')) as L3. lra.
Qed.

(* MB_Mul322 (ml_blocks.py:1184-1186): 2^-149 = 2^(10 - 3p); 2^-151 is reached *)
Theorem mul322_declared : forall xh xl yh yl, inF F xh -> inF F xl -> inF F yh -> inF F yl ->
  (Qabs xl <= u * Qabs xh)%Q -> (Qabs yl <= u * Qabs yh)%Q ->
  let '(rh, rm, rl) := mul322 (rounded_ops rnd) xh xl yh yl in
  (Qabs (rh + rm + rl - (xh + xl) * (yh + yl)) <= p2 (8 - 3 * p) * Qabs ((xh + xl) * (yh + yl)))%Q.
Proof.
  intros xh xl yh yl H1 H2 H3 H4 Lx Ly. pose proof (mul322_error xh xl yh yl H1 H2 H3 H4) as T.
  destruct (mul322 _ xh xl yh yl) as [[rh rm] rl]. destruct T as (_ & _ & _ & T). eapply Qle_trans; [exact T|].
  rewrite cube. assert (E8 : (p2 8 == 256)%Q) by reflexivity. rewrite E8.
  pose proof (absmul_le xl xh u yh Lx) as L1. pose proof (absmul_le xl xh u yl Lx) as L2.
  pose proof (absmul_le yl yh u xh Ly) as L3. rewrite (Qmult_comm yl xh), (Qmult_comm yh xh) in L3.
  set (A := Qabs (xh * yh)) in *. set (M1 := Qabs (xh * yl)) in *. set (M2 := Qabs (xl * yh)) in *. set (L := Qabs (xl * yl)) in *.
  assert (NA : (0 <= A)%Q) by apply Qabs_nonneg.
  destruct (upow A NA) as [P1 P2]. destruct (upow _ P1) as [P3 P4]. destruct (upow _ P3) as [P5 P6].
  pose proof (mono _ _ L3) as L4.
  assert (L5 : (L <= u * (u * A))%Q) by lra.
  assert (S : ((47 # 64) * A <= Qabs ((xh + xl) * (yh + yl)))%Q).
  { setoid_replace ((xh + xl) * (yh + yl))%Q with (xh * yh + (xh * yl + xl * yh + xl * yl))%Q by ring.
    pose proof (abs_low (xh * yh) (xh * yl + xl * yh + xl * yl)) as T'. fold A in T'.
    pose proof (tri3 (xh * yl) (xl * yh) (xl * yl)) as T2. fold M1 M2 L in T2. lra. }
  pose proof (mono _ _ (mono _ _ (mono _ _ S))) as S3. pose proof (mono _ _ (mono _ _ L1)) as K1.
  pose proof (mono _ _ (mono _ _ L3)) as K3. pose proof (mono _ _ L5) as K5. lra.
Qed.

(* MB_Mul313 (ml_blocks.py:1402-1419): b_o, b_u >= 2 *)
Theorem mul313_declared : forall x yh ym yl bo bu, inF F x -> inF F yh -> inF F ym -> inF F yl ->
  2 <= bo -> 2 <= bu -> (Qabs ym <= p2 (- bo) * Qabs yh)%Q -> (Qabs yl <= p2 (- bu) * Qabs ym)%Q ->
  let '(rh, rm, rl) := mul313 (rounded_ops rnd) x yh ym yl in
  (Qabs (rh + rm + rl - x * (yh + ym + yl))
   <= (p2 (4 - p - bo - bu) + p2 (5 - 2 * p - bo) + p2 (3 - 3 * p)) * Qabs (x * (yh + ym + yl)))%Q.
Proof.
  intros x yh ym yl bo bu H1 H2 H3 H4 Ho Hu Lm Ll. pose proof (mul313_error x yh ym yl H1 H2 H3 H4) as T.
  destruct (mul313 _ x yh ym yl) as [[rh rm] rl]. destruct T as (_ & _ & _ & _ & T). eapply Qle_trans; [exact T|].
  rewrite cube. assert (E3 : (p2 3 == 8)%Q) by reflexivity. rewrite E3.
  replace (4 - p - bo - bu) with (4 + (- p + (- bo + - bu))) by lia.
  replace (5 - 2 * p - bo) with (5 + (- p + (- p + - bo))) by lia.
  rewrite !(p2_plus 4), !(p2_plus 5), !p2_plus. assert (E4 : (p2 4 == 16)%Q) by reflexivity. assert (E5 : (p2 5 == 32)%Q) by reflexivity.
  rewrite E4, E5. clear E3 E4 E5.
  pose proof (p2_le (- bo) (-2) ltac:(lia)) as Bo. pose proof (p2_le (- bu) (-2) ltac:(lia)) as Bu.
  assert (Eq : (p2 (-2) == 1 # 4)%Q) by reflexivity. rewrite Eq in Bo, Bu. clear Eq.
  pose proof (p2_pos (- bo)) as Po. pose proof (p2_pos (- bu)) as Pu. set (o := p2 (- bo)) in *. set (w := p2 (- bu)) in *. clearbody o w.
  assert (Lm' : (Qabs (x * ym) <= o * Qabs (x * yh))%Q).
  { rewrite !(Qmult_comm x). apply absmul_le. exact Lm. }
  assert (Ll' : (Qabs (x * yl) <= w * Qabs (x * ym))%Q).
  { rewrite !(Qmult_comm x). apply absmul_le. exact Ll. }
  set (A := Qabs (x * yh)) in *. set (B := Qabs (x * ym)) in *. set (C := Qabs (x * yl)) in *.
  assert (NA : (0 <= A)%Q) by apply Qabs_nonneg.
  assert (LC : (C <= w * (o * A))%Q).
  { eapply Qle_trans; [exact Ll'|]. apply mul_le_l; lra. }
  assert (NoA : (0 <= o * A)%Q) by (apply Qmult_le_0_compat; lra).
  assert (LoA : (o * A <= (1 # 4) * A)%Q) by (apply Qmult_le_compat_r; lra).
  assert (LwA : (w * (o * A) <= (1 # 4) * (o * A))%Q) by (apply Qmult_le_compat_r; lra).
  assert (S : ((11 # 16) * A <= Qabs (x * (yh + ym + yl)))%Q).
  { setoid_replace (x * (yh + ym + yl))%Q with (x * yh + (x * ym + x * yl))%Q by ring.
    pose proof (abs_low (x * yh) (x * ym + x * yl)) as T'. fold A in T'. pose proof (tri (x * ym) (x * yl)) as T2. fold B C in T2. lra. }
  set (SS := Qabs (x * (yh + ym + yl))) in *. clearbody SS A B C.
  assert (So : (o * ((11 # 16) * A) <= o * SS)%Q) by (apply mul_le_l; lra).
  assert (Sw : (w * (o * ((11 # 16) * A)) <= w * (o * SS))%Q) by (apply mul_le_l; lra).
  pose proof (mono _ _ (mono _ _ (mono _ _ S))) as S3. pose proof (mono _ _ (mono _ _ So)) as S2. pose proof (mono _ _ Sw) as S1.
  pose proof (mono _ _ (mono _ _ Lm')) as K2. pose proof (mono _ _ LC) as K1.
  pose proof (upow _ NA) as [V1 _]. pose proof (upow _ V1) as [V2 _]. pose proof (upow _ V2) as [V3 _].
  pose proof (upow _ NoA) as [V4 _]. pose proof (upow _ V4) as [V5 _].
  assert (V6 : (0 <= u * (w * (o * A)))%Q) by (apply upow; apply Qmult_le_0_compat; lra).
  lra.
Qed.

End NoUnderflow.

(* MB_Add322 (ml_blocks.py:1079-1092): declared 2^-120; 2^-155 is reached *)
Theorem add322_declared : forall xh xl yh yl, inF F xh -> inF F xl -> inF F yh -> inF F yl ->
  (Qabs xl <= u * Qabs xh)%Q -> (Qabs yl <= u * Qabs yh)%Q -> (Qabs (yh + yl) <= (1 # 4) * Qabs (xh + xl))%Q ->
  let '(rh, rm, rl) := add322 (rounded_ops rnd) xh xl yh yl in
  (Qabs (rh + rm + rl - (xh + xl + (yh + yl))) <= p2 (4 - 3 * p) * Qabs (xh + xl + (yh + yl)))%Q.
Proof.
  intros xh xl yh yl H1 H2 H3 H4 Lx Ly L.
  pose proof (abs_low xh xl) as X1. pose proof (abs_low yh yl) as Y1. pose proof (tri xh xl) as X2.
  pose proof (Qabs_nonneg xh) as NX. pose proof (Qabs_nonneg yh) as NY.
  destruct (upow _ NX) as [P1 P2]. destruct (upow _ NY) as [Q1 Q2].
  assert (Lh : (Qabs yh <= (9 # 28) * Qabs xh)%Q) by lra.
  pose proof (add322_error xh xl yh yl H1 H2 H3 H4 ltac:(lra)) as T.
  destruct (add322 _ xh xl yh yl) as [[rh rm] rl]. destruct T as (_ & _ & _ & _ & T). eapply Qle_trans; [exact T|].
  rewrite cube. assert (E4 : (p2 4 == 16)%Q) by reflexivity. rewrite E4.
  pose proof (tri xh yh) as T1. pose proof (tri xl yl) as T2.
  pose proof (abs_low (xh + xl) (yh + yl)) as S.
  assert (S' : ((21 # 32) * Qabs xh <= Qabs (xh + xl + (yh + yl)))%Q) by lra.
  pose proof (mono _ _ (mono _ _ (mono _ _ S'))) as S3.
  assert (K1 : (Qabs (xh + yh) <= (37 # 28) * Qabs xh)%Q) by lra.
  pose proof (mono _ _ Lh) as Lh1.
  assert (K2 : (Qabs (xl + yl) <= (37 # 28) * (u * Qabs xh))%Q) by lra.
  pose proof (mono _ _ (mono _ _ (mono _ _ K1))) as K3. pose proof (mono _ _ (mono _ _ K2)) as K4.
  destruct (upow _ P1) as [P3 _]. destruct (upow _ P3) as [P5 _]. lra.
Qed.

(* MB_Add331 (ml_blocks.py:1116-1130), which expands to MP_Add313: b_o >= 2,
   b_u >= 1, the three-limb operand smaller than a quarter of the other one *)
Theorem add331_declared : forall x yh ym yl bo bu, inF F x -> inF F yh -> inF F ym -> inF F yl ->
  2 <= bo -> 1 <= bu <= p -> (Qabs ym <= p2 (- bo) * Qabs yh)%Q -> (Qabs yl <= p2 (- bu) * Qabs ym)%Q ->
  (Qabs (yh + ym + yl) <= (1 # 4) * Qabs x)%Q ->
  let '(rh, rm, rl) := add313 (rounded_ops rnd) x yh ym yl in
  (Qabs (rh + rm + rl - (x + (yh + ym + yl)))
   <= (p2 (1 - p - bo - bu) + p2 (5 - 3 * p)) * Qabs (x + (yh + ym + yl)))%Q.
Proof.
  intros x yh ym yl bo bu H1 H2 H3 H4 Ho Hu Lm Ll L. pose proof (add313_error x yh ym yl H1 H2 H3 H4) as T.
  destruct (add313 _ x yh ym yl) as [[rh rm] rl]. destruct T as (_ & _ & _ & _ & T). eapply Qle_trans; [exact T|].
  rewrite cube. assert (E5 : (p2 5 == 32)%Q) by reflexivity. rewrite E5.
  replace (1 - p - bo - bu) with (1 + (- p + (- bo + - bu))) by lia. rewrite (p2_plus 1), !p2_plus.
  assert (E1 : (p2 1 == 2)%Q) by reflexivity. rewrite E1. clear E1 E5.
  pose proof (p2_le (- bo) (-2) ltac:(lia)) as Bo. pose proof (p2_le (- bu) (-1) ltac:(lia)) as Bu.
  pose proof (p2_le (- p) (- bu) ltac:(lia)) as Bp.
  assert (Eq : (p2 (-2) == 1 # 4)%Q) by reflexivity. rewrite Eq in Bo. clear Eq.
  assert (Eq : (p2 (-1) == 1 # 2)%Q) by reflexivity. rewrite Eq in Bu. clear Eq.
  pose proof (p2_pos (- bo)) as Po. pose proof (p2_pos (- bu)) as Pu. set (o := p2 (- bo)) in *. set (w := p2 (- bu)) in *. clearbody o w.
  set (Y := Qabs yh) in *. set (B := Qabs ym) in *. set (C := Qabs yl) in *. set (X := Qabs x) in *.
  assert (NY : (0 <= Y)%Q) by apply Qabs_nonneg. assert (NX : (0 <= X)%Q) by apply Qabs_nonneg.
  assert (NoY : (0 <= o * Y)%Q) by (apply Qmult_le_0_compat; lra).
  assert (LC : (C <= w * (o * Y))%Q).
  { eapply Qle_trans; [exact Ll|]. apply mul_le_l; lra. }
  assert (LoY : (o * Y <= (1 # 4) * Y)%Q) by (apply Qmult_le_compat_r; lra).
  assert (LwY : (w * (o * Y) <= (1 # 2) * (o * Y))%Q) by (apply Qmult_le_compat_r; lra).
  assert (LuB : (u * B <= w * (o * Y))%Q).
  { apply Qle_trans with (u * (o * Y))%Q; [apply mono; exact Lm|]. apply Qmult_le_compat_r; lra. }
  pose proof (abs_low yh (ym + yl)) as Y1. setoid_replace (yh + (ym + yl))%Q with (yh + ym + yl)%Q in Y1 by ring. fold Y in Y1.
  pose proof (tri ym yl) as Y2. fold B C in Y2.
  pose proof (abs_low x (yh + ym + yl)) as S. fold X in S.
  pose proof (tri x yh) as K. fold X Y in K.
  assert (S1 : ((3 # 4) * X <= Qabs (x + (yh + ym + yl)))%Q) by lra.
  assert (S2 : (Y <= (2 # 5) * X)%Q) by lra.
  assert (S3 : (Qabs (x + yh) <= (7 # 5) * X)%Q) by lra.
  set (SS := Qabs (x + (yh + ym + yl))) in *. set (D := Qabs (x + yh)) in *. clearbody SS D X Y B C.
  assert (S4 : (Y <= (8 # 15) * SS)%Q) by lra.
  assert (So : (o * Y <= o * ((8 # 15) * SS))%Q) by (apply mul_le_l; lra).
  assert (Sw : (w * (o * Y) <= w * (o * ((8 # 15) * SS)))%Q) by (apply mul_le_l; lra).
  assert (S5 : (D <= (28 # 15) * SS)%Q) by lra.
  pose proof (mono _ _ Sw) as W1. pose proof (mono _ _ (mono _ _ (mono _ _ S5))) as W2.
  pose proof (mono _ _ LC) as W3. pose proof (mono _ _ LuB) as W4.
  assert (NS : (0 <= SS)%Q) by lra.
  destruct (upow _ NS) as [V1 _]. destruct (upow _ V1) as [V2 _]. destruct (upow _ V2) as [V3 _].
  assert (V6 : (0 <= u * (w * (o * SS)))%Q) by (apply upow; apply Qmult_le_0_compat; [lra|apply Qmult_le_0_compat; lra]).
  lra.
Qed.
End Triple.
