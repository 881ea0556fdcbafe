(* Absolute error bounds of the two-word operations of the logarithm, without
   conditions on the operands. *)
From Coq Require Import ZArith QArith Qabs Lia Lqa.
From Verif Require Import QUtil FpFormatModel RoundSpec RoundProofs LimbModel LimbBounds LimbTriple LogModel.
Open Scope Q_scope.

Section L.
Variable F : fmt.
Notation p := (prec F).
Hypothesis Hp : (3 <= p)%Z.
Variable rnd : Q -> Q.
Hypothesis Hr : nearest_in F rnd.
Notation u := (p2 (- p)).

(* Add212 without any condition *)
Lemma add212_abs : forall x yh yl, inF F x -> inF F yh -> inF F yl ->
  let '(zh, zl) := add212 (rounded_ops rnd) x yh yl in
  inF F zh /\ inF F zl
  /\ Qabs (zh + zl - (x + (yh + yl))) <= 6 * (u * (u * Qabs (x + yh))) + 6 * (u * Qabs yl)
  /\ Qabs zh <= 2 * Qabs (x + yh) + 2 * Qabs yl
  /\ Qabs zl <= 2 * (u * Qabs (x + yh)) + 6 * (u * Qabs yl).
Proof.
  intros x yh yl H1 H2 H3. unfold add212.
  pose proof (two F Hp rnd Hr x yh H1 H2) as T. destruct (twosum _ x yh) as [t1 t2]. destruct T as (A1 & A2 & A3 & A4 & A5 & _).
  cbn [rounded_ops o_add]. destruct (add1 F Hp rnd Hr t2 yl A3 H3) as (B1 & B2 & B3). set (t3 := rnd (t2 + yl)) in *.
  pose proof (fts_abs F Hp rnd Hr t1 t3 A2 B1) as T. destruct (fasttwosum _ t1 t3) as [zh zl]. destruct T as (D1 & D2 & D3 & D4 & D5).
  set (A := Qabs (x + yh)) in *. set (B := Qabs yl) in *.
  assert (NA : 0 <= A) by apply Qabs_nonneg. assert (NB : 0 <= B) by apply Qabs_nonneg.
  destruct (upow F Hp A NA) as [PA1 PA2]. destruct (upow F Hp _ PA1) as [PA3 PA4]. destruct (upow F Hp _ PA3) as [PA5 PA6].
  destruct (upow F Hp B NB) as [PB1 PB2]. destruct (upow F Hp _ PB1) as [PB3 PB4].
  assert (Q1 : Qabs (t2 + yl) <= u * A + B) by (pose proof (tri t2 yl); unfold B; lra).
  pose proof (mono F _ _ Q1) as Q2.
  assert (Q3 : Qabs t3 <= (9 # 8) * (u * A) + (9 # 8) * B) by (eapply Qle_trans; [exact B3|lra]).
  pose proof (mono F _ _ Q3) as Q4.
  assert (Q5 : Qabs (t1 + t3) <= (81 # 64) * A + (9 # 8) * B) by (pose proof (tri t1 t3); lra).
  pose proof (mono F _ _ Q5) as Q6.
  split; auto. split; auto. split; [|split]; try lra.
  setoid_replace (zh + zl - (x + (yh + yl))) with ((zh + zl - (t1 + t3)) + (t3 - (t2 + yl))) by lra.
  pose proof (tri (zh + zl - (t1 + t3)) (t3 - (t2 + yl))) as T. lra.
Qed.

(* the first word of Add222 is the rounding of a number close to the sum *)
Lemma add222_fst : forall xh xl yh yl, inF F xh -> inF F xl -> inF F yh -> inF F yl ->
  exists V, fst (add222 (rounded_ops rnd) xh xl yh yl) = rnd V
  /\ Qabs (V - (xh + xl + (yh + yl))) <= u * (u * Qabs (xh + yh)) + 3 * (u * Qabs (xl + yl)).
Proof.
  intros xh xl yh yl H1 H2 H3 H4. unfold add222.
  pose proof (two F Hp rnd Hr xh yh H1 H3) as T. destruct (twosum _ xh yh) as [v1 v2]. destruct T as (A1 & A2 & A3 & A4 & A5 & _).
  cbn [rounded_ops o_add]. destruct (add1 F Hp rnd Hr xl yl H2 H4) as (B1 & B2 & B3). set (v3 := rnd (xl + yl)) in *.
  destruct (add1 F Hp rnd Hr v2 v3 A3 B1) as (C1 & C2 & C3). set (v4 := rnd (v2 + v3)) in *.
  exists (v1 + v4). split; [reflexivity|].
  set (A := Qabs (xh + yh)) in *. set (B := Qabs (xl + yl)) in *.
  assert (NA : 0 <= A) by apply Qabs_nonneg. assert (NB : 0 <= B) by apply Qabs_nonneg.
  destruct (upow F Hp A NA) as [PA1 PA2]. destruct (upow F Hp _ PA1) as [PA3 PA4].
  destruct (upow F Hp B NB) as [PB1 PB2]. destruct (upow F Hp _ PB1) as [PB3 PB4].
  assert (Q1 : Qabs (v2 + v3) <= u * A + B + u * B) by (pose proof (tri v2 v3); lra).
  pose proof (mono F _ _ Q1) as Q2.
  setoid_replace (v1 + v4 - (xh + xl + (yh + yl))) with ((v4 - (v2 + v3)) + (v3 - (xl + yl))) by lra.
  pose proof (tri (v4 - (v2 + v3)) (v3 - (xl + yl))) as T. lra.
Qed.
End L.

Section Tail.
Variable p : Z.
Hypothesis Hp : (12 <= p)%Z.
Notation F := (mkF p None).
Variable rnd : Q -> Q.
Hypothesis Hr : nearest_in F rnd.
Notation u := (p2 (- p)).

Lemma p3 : (3 <= prec F)%Z. Proof. cbn [prec]. clear - Hp; lia. Qed.
Lemma u_small : u <= 1 # 4096.
Proof. setoid_replace (1 # 4096) with (p2 (-12)) by reflexivity. apply p2_le. clear - Hp; lia. Qed.
Lemma u_scale : forall x, 0 <= x -> 0 <= u * x /\ u * x <= (1 # 4096) * x.
Proof.
  intros x Hx. split; [apply Qmult_le_0_compat; [pose proof (p2_pos (- p)); lra|auto]|apply Qmult_le_compat_r; [apply u_small|auto]].
Qed.
Lemma um : forall a b, a <= b -> u * a <= u * b.
Proof. exact (mono F). Qed.

Lemma tail_error : forall poly c red k hi lo,
  inF F red -> inF F (poly red) -> inF F k -> inF F (c_log2_hi c) -> inF F (c_log2_lo c) -> inF F hi -> inF F lo ->
  inF F (k * c_log2_hi c) -> Qabs (poly red) <= 1 # 32 -> Qabs (c_log2_hi c) <= 7 # 10 -> Qabs (c_log2_lo c) <= 1 # 1024 ->
  exists V, log_tail rnd poly c red k hi lo = rnd V
  /\ Qabs (V - (red + red * poly red + k * (c_log2_hi c + c_log2_lo c) - (hi + lo)))
     <= 12 * (u * (u * Qabs k)) + 64 * (u * (u * Qabs red)) + u * (u * Qabs hi) + 11 * (u * Qabs (k * c_log2_lo c)) + 3 * (u * Qabs lo).
Proof.
  intros poly c red k hi lo Ir Ip Ik I2h I2l Ih Il Ikh Bp B2h B2l. unfold log_tail.
  set (pl := poly red) in *. clearbody pl. set (l2h := c_log2_hi c) in *. set (l2l := c_log2_lo c) in *. clearbody l2h l2l.
  cbn [rounded_ops o_mul o_neg mul211 o_fms].
  pose proof (mul211_inf F p3 rnd Hr eq_refl red pl Ir Ip) as M.
  assert (M1 : Qabs (rnd (red * pl) - red * pl) <= u * Qabs (red * pl)) by (apply (rd F p3 rnd Hr eq_refl)).
  set (h0 := rnd (red * pl)) in *. set (l0 := rnd (red * pl - h0)) in *.
  pose proof (add212_abs F p3 rnd Hr red h0 l0 Ir (rnd_inF F rnd Hr _) (rnd_inF F rnd Hr _)) as T.
  destruct (add212 _ red h0 l0) as [m0h m0l]. destruct T as (N1 & N2 & N3 & N4 & N5). cbn [prec] in N3, N4, N5, M1.
  assert (E1 : rnd (k * l2h) == k * l2h) by (apply (rnd_id F rnd Hr); auto).
  destruct (rd F p3 rnd Hr eq_refl (k * l2l)) as (I1 & E2 & E3). cbn [prec] in E2, E3.
  set (lh := rnd (k * l2h)) in *. set (ll := rnd (k * l2l)) in *.
  pose proof (add222_abs F p3 rnd Hr lh ll m0h m0l (rnd_inF F rnd Hr _) I1 N1 N2) as T.
  destruct (add222 _ lh ll m0h m0l) as [rh rl]. destruct T as (R1 & R2 & R3 & R4 & R5). cbn [prec] in R3, R4, R5.
  pose proof (add222_fst F p3 rnd Hr (- hi) (- lo) rh rl (inF_opp F (T_p1 F p3) _ Ih) (inF_opp F (T_p1 F p3) _ Il) R1 R2) as (V & EV & BV).
  destruct (add222 _ (- hi) (- lo) rh rl) as [zh zl]. cbn [fst] in EV. cbn [prec] in BV. exists V. split; auto.
  set (R := Qabs red) in *. set (K := Qabs k) in *. set (H := Qabs hi) in *. set (L := Qabs (k * l2l)) in *. set (l := Qabs lo) in *.
  assert (NR : 0 <= R) by apply Qabs_nonneg. assert (NK : 0 <= K) by apply Qabs_nonneg. assert (NH : 0 <= H) by apply Qabs_nonneg.
  assert (NL : 0 <= L) by apply Qabs_nonneg. assert (Nl : 0 <= l) by apply Qabs_nonneg.
  assert (Brp : Qabs (red * pl) <= (1 # 32) * R).
  { rewrite Qabs_Qmult, Qmult_comm. apply Qmult_le_compat_r; auto. }
  assert (BL : L <= (1 # 1024) * K).
  { unfold L. rewrite Qabs_Qmult, Qmult_comm. apply Qmult_le_compat_r; auto. }
  assert (Bkh : Qabs (k * l2h) <= (7 # 10) * K).
  { rewrite Qabs_Qmult, Qmult_comm. apply Qmult_le_compat_r; auto. }
  destruct (u_scale R NR) as [a1 a2]. destruct (u_scale _ a1) as [a3 a4]. destruct (u_scale _ a3) as [a5 a6].
  destruct (u_scale K NK) as [b1 b2]. destruct (u_scale _ b1) as [b3 b4]. destruct (u_scale _ b3) as [b5 b6].
  destruct (u_scale L NL) as [c1 c2]. destruct (u_scale _ c1) as [c3 c4]. destruct (u_scale _ c3) as [c5 c6].
  destruct (u_scale H NH) as [d1 d2]. destruct (u_scale _ d1) as [d3 d4].
  destruct (u_scale l Nl) as [e1 e2].
  pose proof (um _ _ Brp) as P1.
  assert (Bl0 : Qabs l0 <= (1 # 32) * (u * R)).
  { setoid_replace l0 with (- (h0 - red * pl)) by lra. rewrite Qabs_opp. lra. }
  assert (Bh0 : Qabs (red + h0) <= (104 # 100) * R).
  { setoid_replace (red + h0) with (red + red * pl + (h0 - red * pl)) by lra. pose proof (tri3 red (red * pl) (h0 - red * pl)). fold R in H0. lra. }
  pose proof (um _ _ Bh0) as P2. pose proof (um _ _ P2) as P3'. pose proof (um _ _ Bl0) as P4.
  assert (Bmh : Qabs m0h <= (21 # 10) * R) by lra.
  assert (Bml : Qabs m0l <= (23 # 10) * (u * R)) by lra.
  assert (Em : Qabs (m0h + m0l - (red + red * pl)) <= (65 # 10) * (u * (u * R))).
  { setoid_replace (red + red * pl) with (red + (h0 + l0)) by lra. lra. }
  assert (BS : Qabs (lh + m0h) <= (7 # 10) * K + (21 # 10) * R).
  { pose proof (tri lh m0h) as T. rewrite E1 in T at 2. lra. }
  assert (Bs : Qabs (ll + m0l) <= (1001 # 1000) * L + (23 # 10) * (u * R)).
  { pose proof (tri ll m0l). lra. }
  pose proof (um _ _ BS) as P5. pose proof (um _ _ P5) as P6. pose proof (um _ _ Bs) as P7. pose proof (um _ _ BL) as P0.
  assert (Brh : Qabs rh <= (15 # 10) * K + 5 * R) by lra.
  assert (Brl : Qabs rl <= (142 # 100) * (u * K) + (43 # 10) * (u * R)) by lra.
  assert (Ba : Qabs (- hi + rh) <= H + (15 # 10) * K + 5 * R).
  { pose proof (tri (- hi) rh) as T. rewrite (Qabs_opp hi) in T. fold H in T. lra. }
  assert (Bb : Qabs (- lo + rl) <= l + (142 # 100) * (u * K) + (43 # 10) * (u * R)).
  { pose proof (tri (- lo) rl) as T. rewrite (Qabs_opp lo) in T. fold l in T. lra. }
  pose proof (um _ _ (um _ _ Ba)) as P8. pose proof (um _ _ Bb) as P9.
  setoid_replace (V - (red + red * pl + k * (l2h + l2l) - (hi + lo)))
    with ((V - (- hi + - lo + (rh + rl))) + (rh + rl - (lh + ll + (m0h + m0l))) + ((m0h + m0l - (red + red * pl)) + (ll - k * l2l)))
    by (rewrite E1; ring).
  pose proof (tri3 (V - (- hi + - lo + (rh + rl))) (rh + rl - (lh + ll + (m0h + m0l))) ((m0h + m0l - (red + red * pl)) + (ll - k * l2l))) as T1.
  pose proof (tri (m0h + m0l - (red + red * pl)) (ll - k * l2l)) as T2.
  eapply Qle_trans; [exact T1|].
  assert (X1 : Qabs (rh + rl - (lh + ll + (m0h + m0l))) <= 8 * (u * (u * ((7 # 10) * K + (21 # 10) * R))) + 8 * (u * ((1001 # 1000) * L + (23 # 10) * (u * R)))) by lra.
  clear R3 R4 R5 N3 N4 N5. lra.
Qed.
End Tail.
