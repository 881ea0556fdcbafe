(* Theorems about the C multi-precision library, and Veltkamp/Dekker for the
   Python blocks. *)
From Coq Require Import ZArith QArith Qabs List Bool Lia Lqa.
From Verif Require Import QUtil RoundSpec RoundProofs RoundRne LimbModel LimbRound LimbBounds VeltProofs SupportModel MpLibModel.
From Verif Require Import FpFormatModel.
Import ListNotations.
Open Scope Z_scope.

(* ---------------- the Python blocks: split and product without fma ---------------- *)
Theorem split_rounded : forall F rnd s x, nearest_in F rnd -> 2 <= s <= prec F - 1 -> inF F x ->
  let '(xh, xl) := split (rounded_ops rnd) (inject_Z (2 ^ s + 1)) x in
  (xh + xl == x)%Q /\ inF (mkF (prec F - s) (emin F)) xh /\ inF (mkF (s - 1) (emin F)) xl
  /\ (forall f, inF (mkF (prec F - s) (emin F)) f -> (Qabs (xh - x) <= Qabs (f - x))%Q).
Proof.
  intros F rnd s x Hr Hs I. unfold split. cbn [rounded_ops o_mul o_sub o_add].
  eapply (velt_exact F rnd ltac:(lia) Hr s ltac:(lia) ltac:(lia) x); auto; try reflexivity.
  apply (rnd_comp F rnd Hr). ring.
Qed.
Theorem mul211_nofma_rounded : forall F rnd s x y ea eb, nearest_in F rnd -> 4 <= prec F -> prec F <= 2 * s <= prec F + 1 ->
  inF F x -> inF F y -> mult ea x -> mult eb y -> exp_ok F ea -> exp_ok F eb -> exp_ok F (ea + eb) ->
  let '(zh, zl) := mul211_nofma (rounded_ops rnd) (inject_Z (2 ^ s + 1)) x y in
  (zh == rnd (x * y))%Q /\ (zh + zl == x * y)%Q.
Proof.
  intros F rnd s x y ea eb Hr Hp Hs Ix Iy Mx My Oa Ob Oab. unfold mul211_nofma, split. cbn [rounded_ops o_mul o_sub o_add].
  split; [reflexivity|].
  assert (HS1 : 1 <= s <= prec F - 1) by lia.
  pose proof (dekker_exact F rnd ltac:(lia) Hr s HS1 Hs Hp x y ea eb _ _
    (rnd (rnd (x - rnd (inject_Z (2 ^ s + 1)%Z * x)) + rnd (inject_Z (2 ^ s + 1)%Z * x)))%Q _ _ _
    (rnd (rnd (y - rnd (inject_Z (2 ^ s + 1)%Z * y)) + rnd (inject_Z (2 ^ s + 1)%Z * y)))%Q _ _ _ _ _ _ _ _ _ _
    Ix Iy Mx My Oa Ob Oab (Qeq_refl _) (Qeq_refl _) ltac:(apply (rnd_comp F rnd Hr); ring) (Qeq_refl _)
    (Qeq_refl _) (Qeq_refl _) ltac:(apply (rnd_comp F rnd Hr); ring) (Qeq_refl _)
    (Qeq_refl _) (Qeq_refl _) (Qeq_refl _) (Qeq_refl _) (Qeq_refl _) (Qeq_refl _) (Qeq_refl _) (Qeq_refl _) (Qeq_refl _)) as D.
  apply D.
Qed.
Definition b53 := rne (mkF 53 (Some (-1074))).
Definition b24 := rne (mkF 24 (Some (-149))).
Example split_example :
  let '(xh, xl) := split (rounded_ops b24) (inject_Z 4097) (inject_Z 16777215 * p2 (-20))%Q in
  (xh == 16)%Q /\ (xl == - p2 (-20))%Q.
Proof. vm_compute. split; reflexivity. Qed.
Example mul211_nofma_example :
  let x := (inject_Z (2 ^ 53 - 1) * p2 (-52))%Q in
  let '(zh, zl) := mul211_nofma (rounded_ops b53) (inject_Z 134217729) x x in
  (zh == inject_Z (2 ^ 53 - 2) * p2 (-51))%Q /\ (zl == p2 (-104))%Q.
Proof. vm_compute. split; reflexivity. Qed.

(* ---------------- the C library ---------------- *)
Definition F64 : fmt := mkF 53 (Some (-1074)).
Definition F32 : fmt := mkF 24 (Some (-149)).
Lemma n64 : nearest_in F64 b53. Proof. apply rne_nearest. cbn; lia. Qed.
Lemma n32 : nearest_in F32 b24. Proof. apply rne_nearest. cbn; lia. Qed.

(* the hexadecimal constant of the source is 2^27 + 1 *)
Theorem split_constant : exists q, get_value_from_integer_coding ML_Binary64 0x41a0000002000000 = Num q /\ (q == inject_Z 134217729)%Q.
Proof. eexists. split; [vm_compute; reflexivity|]. vm_compute. reflexivity. Qed.

Section Lib.
Variable rnd : Q -> Q.
Hypothesis Hr : nearest_in F64 rnd.

Theorem ml_split_dd_d_exact : forall x, inF F64 x ->
  let '(xh, xl) := ml_split_dd_d rnd x in
  (xh + xl == x)%Q /\ inF (mkF 26 (Some (-1074))) xh /\ inF (mkF 26 (Some (-1074))) xl
  /\ (forall f, inF (mkF 26 (Some (-1074))) f -> (Qabs (xh - x) <= Qabs (f - x))%Q).
Proof.
  intros x I. unfold ml_split_dd_d.
  exact (velt_exact F64 rnd ltac:(cbn; lia) Hr 27 ltac:(cbn; lia) ltac:(lia) x _ _ _ _ I (Qeq_refl _) (Qeq_refl _) (Qeq_refl _) (Qeq_refl _)).
Qed.

(* no rounding error as long as the last digits of the product do not underflow *)
Lemma mult_dd : forall x y ea eb, inF F64 x -> inF F64 y -> mult ea x -> mult eb y -> -1074 <= ea -> -1074 <= eb -> -1074 <= ea + eb ->
  let '(xh, xl) := ml_split_dd_d rnd x in let '(yh, yl) := ml_split_dd_d rnd y in
  (rnd (xh * yh) == xh * yh)%Q /\ (rnd (xh * yl) == xh * yl)%Q /\ (rnd (xl * yh) == xl * yh)%Q /\ (rnd (xl * yl) == xl * yl)%Q /\
  let '(zh, zl) := ml_mult_dd_d2 rnd x y in (zh == rnd (x * y))%Q /\ (zh + zl == x * y)%Q.
Proof.
  intros x y ea eb Ix Iy Mx My Oa Ob Oab. unfold ml_mult_dd_d2, ml_split_dd_d. cbn [fst snd].
  assert (K : forall P1 P2 P3 P4 A B : Prop, A -> (P1 /\ P2 /\ P3 /\ P4 /\ B) -> (P1 /\ P2 /\ P3 /\ P4 /\ A /\ B)) by tauto.
  apply K; [reflexivity|].
  pose proof (dekker_exact F64 rnd ltac:(cbn; lia) Hr 27 ltac:(cbn; lia) ltac:(cbn; lia) ltac:(cbn; lia) x y ea eb _ _ _ _ _ _ _ _ _ _
    (rnd (- rnd (x * y) + rnd (fst (ml_split_dd_d rnd x) * fst (ml_split_dd_d rnd y))))%Q _ _ _ _ _ _
    Ix Iy Mx My Oa Ob Oab (Qeq_refl _) (Qeq_refl _) (Qeq_refl _) (Qeq_refl _)
    (Qeq_refl _) (Qeq_refl _) (Qeq_refl _) (Qeq_refl _)
    (Qeq_refl _) (Qeq_refl _) ltac:(apply (rnd_comp F64 rnd Hr); unfold ml_split_dd_d; cbn [fst snd]; change (2 ^ 27 + 1) with 134217729; ring) (Qeq_refl _) (Qeq_refl _) (Qeq_refl _) (Qeq_refl _) (Qeq_refl _) (Qeq_refl _)) as D.
  exact D.
Qed.
Theorem ml_mult_dd_d2_exact : forall x y ea eb, inF F64 x -> inF F64 y -> mult ea x -> mult eb y ->
  -1074 <= ea -> -1074 <= eb -> -1074 <= ea + eb ->
  let '(zh, zl) := ml_mult_dd_d2 rnd x y in (zh == rnd (x * y))%Q /\ (zh + zl == x * y)%Q.
Proof.
  intros x y ea eb Ix Iy Mx My Oa Ob Oab. pose proof (mult_dd x y ea eb Ix Iy Mx My Oa Ob Oab) as H.
  destruct (ml_split_dd_d rnd x). destruct (ml_split_dd_d rnd y). apply H.
Qed.
(* fusing the products with the additions changes nothing *)
Theorem ml_mult_dd_d2_contraction : forall x y ea eb, inF F64 x -> inF F64 y -> mult ea x -> mult eb y ->
  -1074 <= ea -> -1074 <= eb -> -1074 <= ea + eb ->
  (fst (ml_mult_dd_d2_contracted rnd x y) == fst (ml_mult_dd_d2 rnd x y))%Q /\
  (snd (ml_mult_dd_d2_contracted rnd x y) == snd (ml_mult_dd_d2 rnd x y))%Q.
Proof.
  intros x y ea eb Ix Iy Mx My Oa Ob Oab. pose proof (mult_dd x y ea eb Ix Iy Mx My Oa Ob Oab) as H.
  unfold ml_mult_dd_d2_contracted, ml_mult_dd_d2.
  destruct (ml_split_dd_d rnd x) as [xh xl]. destruct (ml_split_dd_d rnd y) as [yh yl]. cbn [fst snd].
  destruct H as (H1 & H2 & H3 & H4 & _). split; [reflexivity|].
  assert (R : forall a b c d, (a == b)%Q -> (c == d)%Q -> (rnd (a + c) == rnd (b + d))%Q).
  { intros a b c d E1 E2. apply (rnd_comp F64 rnd Hr). rewrite E1, E2. reflexivity. }
  apply R; [|symmetry; auto]. apply R; [|symmetry; auto]. apply R; [|symmetry; auto]. apply R; [reflexivity|symmetry; auto].
Qed.

Definition uu : Q := p2 (-53).
Lemma two64 : forall x y, ml_add_dd_d2 rnd x y = twosum (rounded_ops rnd) x y. Proof. reflexivity. Qed.
Theorem ml_add_dd_d2_exact : forall x y, inF F64 x -> inF F64 y ->
  let '(s, t) := ml_add_dd_d2 rnd x y in (s == rnd (x + y))%Q /\ (s + t == x + y)%Q /\ inF F64 s /\ inF F64 t.
Proof.
  intros x y Hx Hy. rewrite two64. pose proof (twosum_F F64 ltac:(cbn; lia) rnd Hr x y Hx Hy) as T.
  destruct (twosum _ x y). tauto.
Qed.
(* the header asks for x >= y: what is needed is |x| >= |y| *)
Theorem ml_add_dd_d2_fast_exact : forall x y, inF F64 x -> inF F64 y -> (Qabs y <= Qabs x)%Q ->
  let '(s, t) := ml_add_dd_d2_fast rnd x y in (s == rnd (x + y))%Q /\ (s + t == x + y)%Q.
Proof. exact (fasttwosum_exact F64 ltac:(cbn; lia) rnd Hr). Qed.

(* relative to the result: half a unit in the last place of it *)
Lemma sum_rel_r : forall a b, inF F64 a -> inF F64 b -> (Qabs (a + b - rnd (a + b)) <= uu * Qabs (rnd (a + b)))%Q.
Proof.
  intros a b Ha Hb. destruct (Qeq_dec (rnd (a + b)) 0) as [Z|N].
  - pose proof (sum_rel F64 ltac:(cbn; lia) rnd Hr a b Ha Hb) as S. rewrite Z in *. change (Qabs 0) with 0%Q.
    setoid_replace (0 - (a + b))%Q with (- (a + b))%Q in S by ring. rewrite Qabs_opp in S.
    setoid_replace (a + b - 0)%Q with (a + b)%Q by ring. change (- prec F64) with (-53) in S.
    pose proof (Qabs_nonneg (a + b)) as G. assert (p2 (-53) < 1)%Q by reflexivity.
    destruct (Qlt_le_dec 0 (Qabs (a + b))) as [L|L]; [|lra]. exfalso.
    assert (p2 (-53) * Qabs (a + b) < 1 * Qabs (a + b))%Q by (apply Qmult_lt_r; auto). lra.
  - set (v := (a + b)%Q) in *.
    assert (Ov : onF F64 v) by (apply onF_plus; apply onF_in; auto).
    destruct (norm_exp F64 ltac:(cbn; lia) (rnd v) (rnd_inF F64 rnd Hr v) N) as [e [L [U M]]]. cbn [prec F64] in *.
    assert (V : (Qabs v <= p2 (53 + e))%Q).
    { destruct (Qlt_le_dec (p2 (53 + e)) (Qabs v)) as [G|G]; auto. exfalso.
      assert (I : inF F64 (p2 (53 + e)) \/ 53 + e < -1074).
      { destruct (Z.lt_ge_cases (53 + e) (-1074)); auto. left.
        apply (G_in F64 ltac:(cbn; lia) (53 + e)); [apply (onF_mult F64 (53 + e)); [unfold exp_ok; cbn [emin F64]; lia|exists 1; ring]|exists 1; ring|].
        rewrite Qabs_pos by (pose proof (p2_pos (53 + e)); lra). apply p2_le. cbn [prec F64]. lia. }
      destruct I as [I|I].
      - pose proof (rnd_abs_ge_F F64 ltac:(cbn; lia) rnd Hr v _ I ltac:(pose proof (p2_pos (53 + e)); lra) ltac:(lra)). lra.
      - (* below the smallest number: the rounded value would be zero *)
        apply N. apply (mult_small (-1074)); [apply (onF_rnd F64 rnd Hr)|]. pose proof (p2_le (53 + e) (-1074) ltac:(lia)). lra. }
    pose proof (G_half F64 rnd ltac:(cbn; lia) Hr e v Ov V) as H. rewrite Qabs_Qminus.
    apply Qle_trans with (p2 (e - 1)); auto. unfold uu.
    setoid_replace (p2 (e - 1)) with (p2 (-53) * p2 (53 + e - 1))%Q by (rewrite <- p2_plus; replace (-53 + (53 + e - 1)) with (e - 1) by lia; reflexivity).
    rewrite !(Qmult_comm (p2 (-53))). apply Qmult_le_compat_r; auto. pose proof (p2_pos (-53)); lra.
Qed.

(* the result of an addition is a normalized pair *)
Definition normal_dd (x : dd) : Prop := inF F64 (fst x) /\ inF F64 (snd x) /\ (Qabs (snd x) <= uu * Qabs (fst x))%Q.
Lemma two_normal : forall x y, inF F64 x -> inF F64 y -> normal_dd (ml_add_dd_d2 rnd x y).
Proof.
  intros x y Hx Hy. pose proof (ml_add_dd_d2_exact x y Hx Hy) as T. destruct (ml_add_dd_d2 rnd x y) as [s t].
  destruct T as (T1 & T2 & T3 & T4). split; auto. split; auto. cbn [fst snd].
  setoid_replace t with (x + y - rnd (x + y))%Q by lra. rewrite T1. apply sum_rel_r; auto.
Qed.
Theorem ml_add_dd_d_dd_error : forall x y, inF F64 x -> normal_dd y ->
  let '(zh, zl) := ml_add_dd_d_dd rnd x y in
  normal_dd (zh, zl) /\ (zh == rnd (zh + zl))%Q /\
  (Qabs (zh + zl - (x + fst y + snd y)) <= 4 * (uu * uu) * Qabs (x + fst y + snd y))%Q.
Proof.
  intros x [yh yl] Hx (Hh & Hl & HN). unfold ml_add_dd_d_dd. cbn [fst snd] in *.
  pose proof (ml_add_dd_d2_exact x yh Hx Hh) as T. destruct (ml_add_dd_d2 rnd x yh) as [t1 t2]. destruct T as (T1 & T2 & T3 & T4).
  cbn [fst snd]. pose proof (add_cond F64 ltac:(cbn; lia) rnd Hr t1 t2 x yh yl Hx Hh Hl T1 T2 HN) as [_ C].
  pose proof (two_normal t1 (rnd (t2 + yl)) T3 (rnd_inF F64 rnd Hr _)) as N.
  pose proof (ml_add_dd_d2_exact t1 (rnd (t2 + yl)) T3 (rnd_inF F64 rnd Hr _)) as T. destruct (ml_add_dd_d2 rnd t1 _) as [zh zl].
  destruct T as (Z1 & Z2 & _). split; auto. split.
  - rewrite Z1 at 1. apply (rnd_comp F64 rnd Hr). symmetry; auto.
  - setoid_replace (zh + zl - (x + yh + yl))%Q with (rnd (t2 + yl) - (t2 + yl))%Q by lra. exact C.
Qed.

(* sum of two pairs: the error is relative to the result up to the second
   term, which counts only when the operands cancel *)
Theorem ml_add_dd_dd2_error : forall x y, normal_dd x -> normal_dd y ->
  let '(zh, zl) := ml_add_dd_dd2 rnd x y in
  normal_dd (zh, zl) /\ (zh == rnd (zh + zl))%Q /\
  (Qabs (zh + zl - (fst x + snd x + fst y + snd y)) <=
     9 * (uu * uu) * Qabs (fst x + snd x + fst y + snd y) + 5 * (uu * uu * uu) * Qabs (fst y))%Q.
Proof.
  intros [xh xl] [yh yl] (X1 & X2 & X3) (Y1 & Y2 & Y3). unfold ml_add_dd_dd2. cbn [fst snd] in *.
  pose proof (two_normal xh yh X1 Y1) as N1. pose proof (ml_add_dd_d2_exact xh yh X1 Y1) as T.
  destruct (ml_add_dd_d2 rnd xh yh) as [t1 t2]. destruct T as (T1 & T2 & T3 & T4).
  pose proof (ml_add_dd_d_dd_error xl (t1, t2) X2 N1) as E1. destruct (ml_add_dd_d_dd rnd xl (t1, t2)) as [s1 s2].
  destruct E1 as (N2 & _ & E1). cbn [fst snd] in E1.
  pose proof (ml_add_dd_d_dd_error yl (s1, s2) Y2 N2) as E2. destruct (ml_add_dd_d_dd rnd yl (s1, s2)) as [zh zl].
  destruct E2 as (N3 & Z & E2). cbn [fst snd] in E2. split; auto. split; auto.
  set (S := Qabs (xh + xl + yh + yl)). set (Y := Qabs yh) in *.
  assert (A1 : (Qabs (xl + t1 + t2) <= S + uu * Y)%Q).
  { setoid_replace (xl + t1 + t2)%Q with ((xh + xl + yh + yl) + - yl)%Q by lra.
    eapply Qle_trans; [apply Qabs_triangle|]. rewrite Qabs_opp. fold S. lra. }
  set (A := Qabs (xl + t1 + t2)) in *.
  set (D := (s1 + s2 - (xl + t1 + t2))%Q) in *.
  assert (A2 : (Qabs (yl + s1 + s2) <= S + Qabs D)%Q).
  { setoid_replace (yl + s1 + s2)%Q with ((xh + xl + yh + yl) + D)%Q by (unfold D; lra). apply Qabs_triangle. }
  assert (B : (Qabs (zh + zl - (xh + xl + yh + yl)) <= Qabs (zh + zl - (yl + s1 + s2)) + Qabs D)%Q).
  { setoid_replace (zh + zl - (xh + xl + yh + yl))%Q with ((zh + zl - (yl + s1 + s2)) + D)%Q by (unfold D; lra). apply Qabs_triangle. }
  pose proof (Qabs_nonneg (xh + xl + yh + yl)) as PS. fold S in PS. pose proof (Qabs_nonneg yh) as PY. fold Y in PY.
  assert (U1 : (0 < uu)%Q) by apply p2_pos. assert (U2 : (64 * (uu * uu) <= 1)%Q) by (vm_compute; discriminate).
  set (w := (uu * uu)%Q) in *. assert (W : (0 < w)%Q) by reflexivity.
  set (W2 := Qabs (yl + s1 + s2)) in *.
  assert (C1 : (w * A <= w * S + w * uu * Y)%Q).
  { apply Qle_trans with (w * (S + uu * Y))%Q; [|lra]. rewrite !(Qmult_comm w). apply Qmult_le_compat_r; lra. }
  assert (C2 : (w * W2 <= w * S + w * Qabs D)%Q).
  { apply Qle_trans with (w * (S + Qabs D))%Q; [|lra]. rewrite !(Qmult_comm w). apply Qmult_le_compat_r; lra. }
  assert (E1' : (Qabs D <= 4 * w * S + 4 * w * uu * Y)%Q) by lra.
  assert (C3 : (w * Qabs D <= (1 # 16) * (w * S) + (1 # 16) * (w * uu * Y))%Q).
  { apply Qle_trans with (w * (4 * w * S + 4 * w * uu * Y))%Q.
    - rewrite !(Qmult_comm w). apply Qmult_le_compat_r; lra.
    - assert (P1 : (0 <= w * S)%Q) by (apply Qmult_le_0_compat; lra).
      assert (P2 : (0 <= w * uu * Y)%Q) by (apply Qmult_le_0_compat; [apply Qmult_le_0_compat; lra|lra]).
      assert (G1 : (64 * w * (w * S) <= 1 * (w * S))%Q) by (apply Qmult_le_compat_r; auto).
      assert (G2 : (64 * w * (w * uu * Y) <= 1 * (w * uu * Y))%Q) by (apply Qmult_le_compat_r; auto). lra. }
  assert (P1 : (0 <= w * S)%Q) by (apply Qmult_le_0_compat; lra).
  assert (P2 : (0 <= w * uu * Y)%Q) by (apply Qmult_le_0_compat; [apply Qmult_le_0_compat; lra|lra]).
  lra.
Qed.

(* fused multiply-add: the pair is accurate to twice the precision *)
Theorem ml_fma_dd_d3_error : forall x y z ea eb, inF F64 x -> inF F64 y -> inF F64 z -> mult ea x -> mult eb y ->
  -1074 <= ea -> -1074 <= eb -> -1074 <= ea + eb ->
  let '(rh, rl) := ml_fma_dd_d3 rnd x y z in
  ml_fma rnd x y z = rh /\ (rh == rnd (rh + rl))%Q /\
  (Qabs (rh + rl - (x * y + z)) <= 4 * (uu * uu) * Qabs (x * y + z))%Q.
Proof.
  intros x y z ea eb Ix Iy Iz Mx My Oa Ob Oab. unfold ml_fma, ml_fma_dd_d3.
  pose proof (ml_mult_dd_d2_exact x y ea eb Ix Iy Mx My Oa Ob Oab) as P. destruct (ml_mult_dd_d2 rnd x y) as [ph pl].
  destruct P as [P1 P2].
  assert (OP : onF F64 (x * y)).
  { apply (onF_mult F64 (ea + eb)); [unfold exp_ok; cbn [emin F64]; auto|apply prod_mult; auto]. }
  assert (Op : onF F64 pl).
  { apply (onF_comp F64 (x * y - rnd (x * y))); [lra|]. apply onF_minus; auto. apply (onF_rnd F64 rnd Hr). }
  assert (NP : normal_dd (ph, pl)).
  { cbn. assert (Ip : inF F64 ph) by (apply (inF_comp F64 (rnd (x * y))); [symmetry; auto|apply (rnd_inF F64 rnd Hr)]).
    split; auto. cbn [fst snd].
    (* pl is the error of the product: as sum_rel_r *)
    destruct (Qeq_dec ph 0) as [Z|N].
    - assert (XY : (x * y == 0)%Q).
      { destruct (Qeq_dec (x * y) 0) as [E|E]; auto. exfalso.
        assert (L : (p2 (-1074) <= Qabs (x * y))%Q) by (apply mult_nz; auto).
        pose proof (rnd_abs_ge_F F64 ltac:(cbn; lia) rnd Hr (x * y) (p2 (-1074))) as G.
        rewrite <- P1, Z in G. change (Qabs 0) with 0%Q in G.
        assert (I0 : inF F64 (p2 (-1074))).
        { apply (inF_intro F64 ltac:(cbn; lia) (-1074)); [exists 1; ring|unfold exp_ok; cbn [emin F64]; lia|].
          rewrite Qabs_pos by (pose proof (p2_pos (-1074)); lra). apply p2_le. cbn [prec F64]. lia. }
        specialize (G I0 ltac:(pose proof (p2_pos (-1074)); lra) L). pose proof (p2_pos (-1074)). lra. }
      assert (E : (pl == 0)%Q) by lra. split; [apply (inF_comp F64 0); [symmetry; auto|apply inF_0; cbn; lia]|].
      rewrite E, Z. change (Qabs 0) with 0%Q. lra.
    - destruct (norm_exp F64 ltac:(cbn; lia) ph Ip N) as [e [L [U M]]]. cbn [prec F64] in *.
      assert (V : (Qabs (x * y) <= p2 (53 + e))%Q).
      { destruct (Qlt_le_dec (p2 (53 + e)) (Qabs (x * y))) as [G|G]; auto. exfalso.
        destruct (Z.lt_ge_cases (53 + e) (-1074)) as [K|K].
        - apply N. apply (mult_small (-1074)); [apply (onF_in F64 ph Ip)|]. pose proof (p2_le (53 + e) (-1074) ltac:(lia)). lra.
        - assert (I0 : inF F64 (p2 (53 + e))).
          { apply (inF_intro F64 ltac:(cbn; lia) (53 + e)); [exists 1; ring|unfold exp_ok; cbn [emin F64]; lia|].
            rewrite Qabs_pos by (pose proof (p2_pos (53 + e)); lra). apply p2_le. cbn [prec F64]. lia. }
          pose proof (rnd_abs_ge_F F64 ltac:(cbn; lia) rnd Hr (x * y) _ I0 ltac:(pose proof (p2_pos (53 + e)); lra) ltac:(lra)) as B.
          rewrite <- P1 in B. lra. }
      pose proof (G_half F64 rnd ltac:(cbn; lia) Hr e (x * y) OP V) as H. rewrite <- P1 in H.
      assert (HL : (Qabs pl <= p2 (e - 1))%Q).
      { setoid_replace pl with (- (ph - x * y))%Q by lra. rewrite Qabs_opp. auto. }
      split.
      + destruct (Qeq_dec x 0) as [Zx|Nx].
        { exfalso. apply N. rewrite P1. rewrite (rnd_comp F64 rnd Hr _ 0) by (rewrite Zx; ring).
          apply (rnd_id F64 rnd Hr). apply inF_0. cbn; lia. }
        destruct (Qeq_dec y 0) as [Zy|Ny].
        { exfalso. apply N. rewrite P1. rewrite (rnd_comp F64 rnd Hr _ 0) by (rewrite Zy; ring).
          apply (rnd_id F64 rnd Hr). apply inF_0. cbn; lia. }
        destruct (norm_exp F64 ltac:(cbn; lia) x Ix Nx) as [ex [Lx [Ux Mx']]]. destruct (norm_exp F64 ltac:(cbn; lia) y Iy Ny) as [ey [Ly [Uy My']]].
        cbn [prec F64] in *.
        assert (Mp : mult (ex + ey) ph).
        { apply (mult_comp _ (rnd (x * y))); [symmetry; auto|]. apply (mult_le (52 + ex + ey)); [lia|].
          apply (G_big F64 rnd ltac:(cbn; lia) Hr); auto. cbn [prec F64]. rewrite Qabs_Qmult.
          replace (53 + (52 + ex + ey) - 1) with ((53 + ex - 1) + (53 + ey - 1)) by lia. rewrite p2_plus.
          pose proof (p2_pos (53 + ex - 1)). pose proof (p2_pos (53 + ey - 1)).
          apply Qle_trans with (Qabs x * p2 (53 + ey - 1))%Q; [apply Qmult_le_compat_r; lra|].
          rewrite !(Qmult_comm (Qabs x)). apply Qmult_le_compat_r; lra. }
        apply (G_in F64 ltac:(cbn; lia) (ex + ey)); auto.
        * apply (mult_comp _ (x * y - ph)); [lra|]. apply mult_minus; auto. apply prod_mult; auto.
        * assert (V2 : (Qabs (x * y) <= p2 (53 + (53 + (ex + ey))))%Q).
          { replace (53 + (53 + (ex + ey))) with ((53 + ex) + (53 + ey)) by lia. rewrite p2_plus. apply mul_abs_le; lra. }
          pose proof (G_half F64 rnd ltac:(cbn; lia) Hr (53 + (ex + ey)) (x * y) OP V2) as H2. rewrite <- P1 in H2.
          setoid_replace pl with (- (ph - x * y))%Q by lra. rewrite Qabs_opp. cbn [prec F64].
          pose proof (p2_le (53 + (ex + ey) - 1) (53 + (ex + ey)) ltac:(lia)). lra.
      + apply Qle_trans with (p2 (e - 1)); auto. unfold uu.
        setoid_replace (p2 (e - 1)) with (p2 (-53) * p2 (53 + e - 1))%Q by (rewrite <- p2_plus; replace (-53 + (53 + e - 1)) with (e - 1) by lia; reflexivity).
        rewrite !(Qmult_comm (p2 (-53))). apply Qmult_le_compat_r; auto. pose proof (p2_pos (-53)); lra. }
  pose proof (ml_add_dd_d_dd_error z (ph, pl) Iz NP) as E. destruct (ml_add_dd_d_dd rnd z (ph, pl)) as [rh rl].
  destruct E as (_ & E1 & E2). cbn [fst snd] in *. split; [reflexivity|]. split; auto.
  setoid_replace (x * y + z)%Q with (z + ph + pl)%Q by lra. exact E2.
Qed.
End Lib.

Theorem ml_add_dd_d2_fast_refuted : exists x y, inF F64 x /\ inF F64 y /\ (y <= x)%Q /\
  let '(s, t) := ml_add_dd_d2_fast b53 x y in ~ (s + t == x + y)%Q.
Proof.
  exists 1%Q, (inject_Z (- (2 ^ 53 + 2))).
  split; [exists 1, 0; split; [reflexivity|split; [cbn; lia|cbn; lia]]|].
  split; [exists (- (2 ^ 52 + 1)), 1; split; [reflexivity|split; [cbn; lia|cbn; lia]]|].
  split; [discriminate|]. vm_compute. discriminate.
Qed.
Theorem ml_split_ds_s_exact : forall rnd, nearest_in F32 rnd -> forall x, inF F32 x ->
  let '(xh, xl) := ml_split_ds_s rnd x in
  (xh + xl == x)%Q /\ inF (mkF 12 (Some (-149))) xh /\ inF (mkF 11 (Some (-149))) xl
  /\ (forall f, inF (mkF 12 (Some (-149))) f -> (Qabs (xh - x) <= Qabs (f - x))%Q).
Proof.
  intros rnd Hr x I. unfold ml_split_ds_s.
  exact (velt_exact F32 rnd ltac:(cbn; lia) Hr 12 ltac:(cbn; lia) ltac:(lia) x _ _ _ _ I (Qeq_refl _) (Qeq_refl _) (Qeq_refl _) (Qeq_refl _)).
Qed.

(* what the C back-end makes of an operation with a double-double result *)
Definition val (x : operand) : Q := match x with OpD x => x | OpDD x => fst x + snd x end.
Definition valid (x : operand) : Prop := match x with OpD x => inF F64 x | OpDD x => normal_dd x end.
Definition hi (x : operand) : Q := match x with OpD x => x | OpDD x => fst x end.
Theorem c_double_double_addition : forall rnd, nearest_in F64 rnd -> forall x y, valid x -> valid y ->
  exists z, c_addition rnd x y = Some z /\ normal_dd z /\
    (Qabs (fst z + snd z - (val x + val y)) <= 9 * (uu * uu) * Qabs (val x + val y) + 5 * (uu * uu * uu) * Qabs (hi y))%Q.
Proof.
  intros rnd Hr x y Vx Vy.
  assert (U : (0 < uu * uu)%Q) by reflexivity. assert (U3 : (0 < uu * uu * uu)%Q) by reflexivity.
  assert (POS : forall a b, (0 <= uu * uu * Qabs a)%Q /\ (0 <= uu * uu * uu * Qabs b)%Q).
  { intros. split; (apply Qmult_le_0_compat; [lra|apply Qabs_nonneg]). }
  destruct x as [x|[xh xl]], y as [y|[yh yl]]; cbn [val valid hi fst snd] in *; (eexists; split; [reflexivity|]).
  - pose proof (two_normal rnd Hr x y Vx Vy). pose proof (ml_add_dd_d2_exact rnd Hr x y Vx Vy) as T. destruct (ml_add_dd_d2 rnd x y) as [s t].
    split; auto. destruct T as (_ & T & _). cbn [fst snd]. setoid_replace (s + t - (x + y))%Q with 0%Q by lra.
    change (Qabs 0) with 0%Q. destruct (POS (x + y)%Q y). lra.
  - pose proof (ml_add_dd_d_dd_error rnd Hr x (yh, yl) Vx Vy) as T. destruct (ml_add_dd_d_dd rnd x (yh, yl)) as [s t].
    destruct T as (T1 & _ & T2). split; auto. cbn [fst snd] in *. destruct (POS (x + (yh + yl))%Q yh).
    setoid_replace (x + yh + yl)%Q with (x + (yh + yl))%Q in T2 by ring. lra.
  - pose proof (ml_add_dd_d_dd_error rnd Hr y (xh, xl) Vy Vx) as T. destruct (ml_add_dd_d_dd rnd y (xh, xl)) as [s t].
    destruct T as (T1 & _ & T2). split; auto. cbn [fst snd] in *. destruct (POS (xh + xl + y)%Q y).
    setoid_replace (y + xh + xl)%Q with (xh + xl + y)%Q in T2 by ring. lra.
  - pose proof (ml_add_dd_dd2_error rnd Hr (xh, xl) (yh, yl) Vx Vy) as T. destruct (ml_add_dd_dd2 rnd (xh, xl) (yh, yl)) as [s t].
    destruct T as (T1 & _ & T2). split; auto. cbn [fst snd] in *.
    setoid_replace (xh + xl + yh + yl)%Q with (xh + xl + (yh + yl))%Q in T2 by ring. exact T2.
Qed.
Theorem c_double_double_subtraction_partial : forall rnd, nearest_in F64 rnd -> forall x y, normal_dd x -> normal_dd y ->
  exists z, c_subtraction rnd (OpDD x) (OpDD y) = Some z /\ normal_dd z /\
    (Qabs (fst z + snd z - (fst x + snd x - (fst y + snd y))) <=
     9 * (uu * uu) * Qabs (fst x + snd x - (fst y + snd y)) + 5 * (uu * uu * uu) * Qabs (fst y))%Q.
Proof.
  intros rnd Hr x [yh yl] Vx (V1 & V2 & V3). cbn [fst snd] in *.
  assert (VN : normal_dd (ml_neg_dd (yh, yl))).
  { unfold normal_dd, ml_neg_dd. cbn [fst snd]. rewrite !Qabs_opp.
    split; [apply (inF_opp F64 ltac:(cbn; lia)); auto|]. split; [apply (inF_opp F64 ltac:(cbn; lia)); auto|auto]. }
  eexists. split; [reflexivity|].
  pose proof (ml_add_dd_dd2_error rnd Hr x _ Vx VN) as T. destruct (ml_add_dd_dd2 rnd x (ml_neg_dd (yh, yl))) as [s t].
  destruct T as (T1 & _ & T2). split; auto. unfold ml_neg_dd in T2. cbn [fst snd] in *. rewrite Qabs_opp in T2.
  setoid_replace (fst x + snd x + - yh + - yl)%Q with (fst x + snd x - (yh + yl))%Q in T2 by ring. exact T2.
Qed.
(* only double operands can be multiplied, and nothing else can be subtracted *)
Theorem c_double_double_missing_refuted : forall rnd x y a b,
  c_multiplication rnd (OpDD x) (OpDD y) = None /\ c_multiplication rnd (OpDD x) (OpD b) = None /\
  c_multiplication rnd (OpD a) (OpDD y) = None /\ c_subtraction rnd (OpDD x) (OpD b) = None /\
  c_subtraction rnd (OpD a) (OpDD y) = None /\ c_subtraction rnd (OpD a) (OpD b) = None.
Proof. intros. repeat split. Qed.

(* ---------------- fused multiply-add ---------------- *)
(* it is not rounded once: the sum of the low parts falls on a tie *)
Theorem ml_fma_refuted : exists x y z, inF F64 x /\ inF F64 y /\ inF F64 z /\ ~ (ml_fma b53 x y z == b53 (x * y + z))%Q
  /\ exists f, inF F64 f /\ (Qabs (f - (x * y + z)) < Qabs (ml_fma b53 x y z - (x * y + z)))%Q.
Proof.
  exists (inject_Z (2 ^ 52 - 1) * p2 (-52))%Q, (inject_Z (2 ^ 52 + 1) * p2 (-105))%Q, (inject_Z (2 ^ 52 + 1) * p2 (-52))%Q.
  split; [eexists _, (-52); split; [reflexivity|split; [cbn; lia|cbn; lia]]|].
  split; [eexists _, (-105); split; [reflexivity|split; [cbn; lia|cbn; lia]]|].
  split; [eexists _, (-52); split; [reflexivity|split; [cbn; lia|cbn; lia]]|].
  split; [vm_compute; discriminate|].
  exists (inject_Z (2 ^ 52 + 1) * p2 (-52))%Q.
  split; [eexists _, (-52); split; [reflexivity|split; [cbn; lia|cbn; lia]]|]. vm_compute. reflexivity.
Qed.

(* float version through double: the product of two floats is exact in double *)
Lemma f32_in_f64 : forall x, inF F32 x -> inF F64 x.
Proof.
  intros x H. destruct (inF_elim F32 ltac:(cbn; lia) x H) as (e & M & O & B). unfold exp_ok in O. cbn [emin prec F32] in *.
  apply (inF_intro F64 ltac:(cbn; lia) e); auto; [unfold exp_ok; cbn [emin F64]; lia|]. cbn [prec F64].
  pose proof (p2_le (24 + e) (53 + e) ltac:(lia)). lra.
Qed.
Lemma f32_prod : forall x y, inF F32 x -> inF F32 y -> inF F64 (x * y).
Proof.
  intros x y Hx Hy. destruct (inF_elim F32 ltac:(cbn; lia) x Hx) as (e & M & O & B). destruct (inF_elim F32 ltac:(cbn; lia) y Hy) as (f & M' & O' & B').
  unfold exp_ok in *. cbn [emin prec F32] in *.
  apply (inF_intro F64 ltac:(cbn; lia) (e + f)); auto; [apply prod_mult; auto|unfold exp_ok; cbn [emin F64]; lia|]. cbn [prec F64].
  apply Qle_trans with (p2 (24 + e) * p2 (24 + f))%Q; [apply mul_abs_le; auto|]. rewrite <- p2_plus. apply p2_le. lia.
Qed.
(* the midpoint of two consecutive floats is a double *)
Lemma midpoint_pos : forall a b, inF F32 a -> inF F32 b -> (0 <= a)%Q -> (a < b)%Q ->
  (forall h, inF F32 h -> (a < h)%Q -> (h < b)%Q -> False) -> inF F64 ((a + b) * (1 # 2)).
Proof.
  intros a b Ia Ib Pa L N.
  assert (K : exists e, -149 <= e /\ mult e b /\ (Qabs b <= p2 (24 + e))%Q /\ (a == b - p2 e)%Q).
  { destruct (inF_canonical F32 ltac:(cbn; lia) b Ib) as (e & M & O & B & C). unfold exp_ok in O. cbn [emin prec F32] in *.
    rewrite (Qabs_pos b) in * by lra. pose proof (p2_pos e) as Pe.
    assert (STEP : forall k, -149 <= k -> mult k b -> (b <= p2 (24 + k))%Q -> (p2 k <= b)%Q -> ((b - p2 k <= a)%Q -> mult k a) -> (a == b - p2 k)%Q).
    { intros k Hk Mb Bb Lb Ma. pose proof (p2_pos k) as Pk.
      assert (H : (b - p2 k <= a)%Q).
      { destruct (Qlt_le_dec a (b - p2 k)) as [G|G]; auto. exfalso. apply (N (b - p2 k)%Q); auto; [|lra].
        apply (inF_intro F32 ltac:(cbn; lia) k); [apply mult_minus; auto; exists 1; ring|unfold exp_ok; cbn [emin F32]; auto|].
        cbn [prec F32]. rewrite Qabs_pos by lra. lra. }
      destruct (Qeq_dec a (b - p2 k)) as [E|E]; auto. exfalso.
      specialize (Ma H). assert (M2 : mult k (b - a)) by (apply mult_minus; auto).
      pose proof (mult_nz k (b - a) M2 ltac:(lra)) as Z. rewrite Qabs_pos in Z by lra. apply E. lra. }
    assert (bp : (p2 e <= b)%Q).
    { pose proof (mult_nz e b M ltac:(lra)) as Z. rewrite Qabs_pos in Z by lra. auto. }
    destruct C as [C|[C|C]]; [lra| |].
    - injection C as <-. exists (-149). split; [lia|]. split; auto. split; [rewrite Qabs_pos by lra; lra|]. apply STEP; auto; try lia; try lra.
      intros _. apply (onF_in F32 a Ia).
    - destruct (Qlt_le_dec (p2 (24 + e - 1)) b) as [G|G].
      + exists e. split; auto. split; auto. split; [rewrite Qabs_pos by lra; lra|]. apply STEP; auto; try lra.
        intros H. apply (in_big F32 ltac:(cbn; lia)); auto. cbn [prec F32]. rewrite Qabs_pos by lra.
        assert (b - p2 e >= p2 (24 + e - 1))%Q; [|lra].
        pose proof (mult_nz e (b - p2 (24 + e - 1)) ltac:(apply mult_minus; auto; apply mult_p2; lia) ltac:(lra)) as Z.
        rewrite Qabs_pos in Z by lra. lra.
      + assert (E : (b == p2 (24 + e - 1))%Q) by lra. destruct (Z.eq_dec e (-149)) as [-> |NE].
        * exists (-149). split; [lia|]. split; auto. split; [rewrite Qabs_pos by lra; lra|]. apply STEP; auto; try lia; try lra. intros _. apply (onF_in F32 a Ia).
        * exists (e - 1). split; [lia|]. assert (Mb : mult (e - 1) b) by (apply (mult_le e); auto; lia).
          replace (24 + (e - 1)) with (24 + e - 1) by lia. split; auto. split; [rewrite Qabs_pos by lra; lra|].
          assert (p2 e == 2 * p2 (e - 1))%Q by (replace e with (e - 1 + 1) at 1 by lia; apply p2_succ).
          apply STEP; auto; try lia; try lra; [replace (24 + (e - 1)) with (24 + e - 1) by lia; lra|].
          intros H'. apply (in_big F32 ltac:(cbn; lia)); auto. cbn [prec F32]. rewrite Qabs_pos by lra.
          assert (p2 (24 + e - 1) == 2 * p2 (24 + (e - 1) - 1))%Q by (rewrite <- p2_succ; replace (24 + (e - 1) - 1 + 1) with (24 + e - 1) by lia; reflexivity).
          pose proof (p2_le (e - 1) (24 + (e - 1) - 1) ltac:(lia)). lra. }
  destruct K as (e & He & M & B & E).
  assert (P : (p2 e == 2 * p2 (e - 1))%Q) by (replace e with (e - 1 + 1) at 1 by lia; apply p2_succ).
  apply (inF_comp F64 (b - p2 (e - 1))); [rewrite E, P; field|].
  rewrite (Qabs_pos b) in B by lra. pose proof (p2_pos (e - 1)).
  apply (inF_intro F64 ltac:(cbn; lia) (e - 1)).
  - apply mult_minus; [apply (mult_le e); auto; lia|exists 1; ring].
  - unfold exp_ok. cbn [emin F64]. lia.
  - cbn [prec F64]. rewrite Qabs_pos by lra. pose proof (p2_le (24 + e) (53 + (e - 1)) ltac:(lia)). lra.
Qed.
Lemma midpoint : forall a b, inF F32 a -> inF F32 b -> (a < b)%Q ->
  (forall h, inF F32 h -> (a < h)%Q -> (h < b)%Q -> False) -> inF F64 ((a + b) * (1 # 2)).
Proof.
  intros a b Ia Ib L N. destruct (Qlt_le_dec a 0) as [H|H]; [|apply midpoint_pos; auto].
  destruct (Qlt_le_dec 0 b) as [G|G]; [exfalso; apply (N 0%Q); auto; apply inF_0; cbn; lia|].
  apply (inF_comp F64 (- ((- b + - a) * (1 # 2)))); [ring|]. apply (inF_opp F64 ltac:(cbn; lia)).
  apply midpoint_pos; try (apply (inF_opp F32 ltac:(cbn; lia)); auto); try lra.
  intros h Ih L1 L2. apply (N (- h)%Q); [apply (inF_opp F32 ltac:(cbn; lia)); auto|lra|lra].
Qed.
(* rounding to double then to float misses the nearest float only when the
   double is halfway between two floats *)
Lemma double_rounding : forall rnd32 rnd64, nearest_in F32 rnd32 -> nearest_in F64 rnd64 -> forall v w, (w == rnd64 v)%Q ->
  (forall f, inF F32 f -> (Qabs (rnd32 w - v) <= Qabs (f - v))%Q) \/
  (exists f, inF F32 f /\ ~ (f == rnd32 w)%Q /\ (Qabs (f - w) == Qabs (rnd32 w - w))%Q).
Proof.
  intros r3 r6 H3 H6 v w Ew. set (r := r3 w). set (g := r3 v).
  assert (Ir : inF F32 r) by apply (rnd_inF F32 r3 H3). assert (Ig : inF F32 g) by apply (rnd_inF F32 r3 H3).
  destruct (Qlt_le_dec (Qabs (g - v)) (Qabs (r - v))) as [L|L].
  2:{ left. intros f If. pose proof (rnd_near F32 r3 H3 v f If) as G. fold g in G. lra. }
  right. exists g. split; auto. split; [intros E; rewrite E in L; lra|].
  pose proof (rnd_near F32 r3 H3 w g Ig) as R. fold r in R.
  destruct (Qlt_le_dec (Qabs (r - w)) (Qabs (g - w))) as [S|S]; [exfalso|lra].
  assert (UP : forall h, inF F32 h -> (h <= v)%Q -> (h <= w)%Q) by (intros h Ih G; rewrite Ew; apply (rnd_ge_F F64 r6 H6); auto; apply f32_in_f64; auto).
  assert (DN : forall h, inF F32 h -> (v <= h)%Q -> (w <= h)%Q) by (intros h Ih G; rewrite Ew; apply (rnd_le_F F64 r6 H6); auto; apply f32_in_f64; auto).
  destruct (Qlt_le_dec r g) as [C|C].
  - assert (NB : forall h, inF F32 h -> (r < h)%Q -> (h < g)%Q -> False).
    { intros h Ih A B. destruct (Qlt_le_dec v h) as [D|D].
      - assert (g <= h)%Q by (apply (rnd_le_F F32 r3 H3); auto; lra). lra.
      - assert (h <= r)%Q by (apply (rnd_ge_F F32 r3 H3); auto). lra. }
    pose proof (midpoint r g Ir Ig C NB) as Im. set (m := ((r + g) * (1 # 2))%Q) in *.
    assert (V : (m <= v)%Q) by (unfold m; clear - L C; revert L; apply Qabs_case; apply Qabs_case; intros; lra).
    assert (W : (m <= w)%Q) by (rewrite Ew; apply (rnd_ge_F F64 r6 H6); auto).
    unfold m in W. clear - W S C. revert S. apply Qabs_case; apply Qabs_case; intros; lra.
  - assert (C' : (g < r)%Q).
    { destruct (Qeq_dec g r) as [E|E]; [rewrite E in L; lra|lra]. }
    assert (NB : forall h, inF F32 h -> (g < h)%Q -> (h < r)%Q -> False).
    { intros h Ih A B. destruct (Qlt_le_dec h v) as [D|D].
      - assert (h <= g)%Q by (apply (rnd_ge_F F32 r3 H3); auto; lra). lra.
      - assert (r <= h)%Q by (apply (rnd_le_F F32 r3 H3); auto). lra. }
    pose proof (midpoint g r Ig Ir C' NB) as Im. set (m := ((g + r) * (1 # 2))%Q) in *.
    assert (V : (v <= m)%Q) by (unfold m; clear - L C'; revert L; apply Qabs_case; apply Qabs_case; intros; lra).
    assert (W : (w <= m)%Q) by (rewrite Ew; apply (rnd_le_F F64 r6 H6); auto).
    unfold m in W. clear - W S C'. revert S. apply Qabs_case; apply Qabs_case; intros; lra.
Qed.
Theorem ml_fmaf_nearest_partial : forall rnd32 rnd64, nearest_in F32 rnd32 -> nearest_in F64 rnd64 -> forall x y z,
  inF F32 x -> inF F32 y -> inF F32 z ->
  let v := (x * y + z)%Q in let r := ml_fmaf rnd32 rnd64 x y z in
  (inF F64 v -> (r == rnd32 v)%Q) /\
  ((forall f, inF F32 f -> (Qabs (r - v) <= Qabs (f - v))%Q) \/
   (exists f, inF F32 f /\ ~ (f == r)%Q /\ (Qabs (f - rnd64 v) == Qabs (r - rnd64 v))%Q)).
Proof.
  intros r3 r6 H3 H6 x y z Ix Iy Iz v r.
  assert (E : (r6 (r6 (x * y) + z) == r6 v)%Q).
  { apply (rnd_comp F64 r6 H6). unfold v. rewrite (rnd_id F64 r6 H6 (x * y)) by (apply f32_prod; auto). reflexivity. }
  split.
  - intros I. unfold r, ml_fmaf. apply (rnd_comp F32 r3 H3). rewrite E. apply (rnd_id F64 r6 H6); auto.
  - destruct (double_rounding r3 r6 H3 H6 v _ E) as [D|[f [D1 [D2 D3]]]]; [left; exact D|right].
    exists f. split; auto. split; auto. rewrite <- E. exact D3.
Qed.
Theorem ml_fmaf_refuted : exists x y z, inF F32 x /\ inF F32 y /\ inF F32 z /\
  exists f, inF F32 f /\ (Qabs (f - (x * y + z)) < Qabs (ml_fmaf b24 b53 x y z - (x * y + z)))%Q.
Proof.
  exists (inject_Z (2 ^ 23 - 1) * p2 (-23))%Q, (inject_Z (2 ^ 23 + 1) * p2 (-47))%Q, (inject_Z (2 ^ 23 + 1) * p2 (-23))%Q.
  split; [eexists _, (-23); split; [reflexivity|split; [cbn; lia|cbn; lia]]|].
  split; [eexists _, (-47); split; [reflexivity|split; [cbn; lia|cbn; lia]]|].
  split; [eexists _, (-23); split; [reflexivity|split; [cbn; lia|cbn; lia]]|].
  exists (inject_Z (2 ^ 23 + 1) * p2 (-23))%Q.
  split; [eexists _, (-23); split; [reflexivity|split; [cbn; lia|cbn; lia]]|]. vm_compute. reflexivity.
Qed.

Example dd_normal_example : normal_dd (1, p2 (-60))%Q /\ normal_dd (- (1), inject_Z 3 * p2 (-70))%Q.
Proof.
  split; (split; [|split]).
  - exists 1, 0. split; [reflexivity|split; cbn; lia].
  - exists 1, (-60). split; [reflexivity|split; cbn; lia].
  - vm_compute. discriminate.
  - exists (-1), 0. split; [reflexivity|split; cbn; lia].
  - exists 3, (-70). split; [reflexivity|split; cbn; lia].
  - vm_compute. discriminate.
Qed.
Example dd_add_example :
  (* the second sum keeps digits no double holds *)
  let '(h, l) := ml_add_dd_dd2 b53 (1, p2 (-60))%Q (p2 (-53), p2 (-110))%Q in
  (h == 1 + p2 (-52))%Q /\ (l == p2 (-60) - p2 (-53))%Q /\
  let '(h', l') := ml_add_dd_d_dd b53 3 (p2 (-53), p2 (-110))%Q in (h' == 3)%Q /\ (l' == p2 (-53))%Q.
Proof. vm_compute. repeat split; reflexivity. Qed.
Example dd_fma_example :
  let x := (inject_Z (2 ^ 53 - 1) * p2 (-52))%Q in
  let '(rh, rl) := ml_fma_dd_d3 b53 x x (- (4))%Q in
  (rh == - p2 (-50))%Q /\ (rl == p2 (-104))%Q /\ (rh + rl == x * x - 4)%Q.
Proof. vm_compute. repeat split; reflexivity. Qed.

Print Assumptions split_rounded.
Print Assumptions mul211_nofma_rounded.
Print Assumptions split_constant.
Print Assumptions ml_split_dd_d_exact.
Print Assumptions ml_mult_dd_d2_exact.
Print Assumptions ml_mult_dd_d2_contraction.
Print Assumptions ml_add_dd_d2_exact.
Print Assumptions ml_add_dd_d2_fast_exact.
Print Assumptions ml_add_dd_d_dd_error.
Print Assumptions ml_add_dd_dd2_error.
Print Assumptions ml_fma_dd_d3_error.
Print Assumptions ml_add_dd_d2_fast_refuted.
Print Assumptions ml_split_ds_s_exact.
Print Assumptions c_double_double_addition.
Print Assumptions c_double_double_subtraction_partial.
Print Assumptions c_double_double_missing_refuted.
Print Assumptions ml_fma_refuted.
Print Assumptions ml_fmaf_nearest_partial.
Print Assumptions ml_fmaf_refuted.
