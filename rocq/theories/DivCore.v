(* Correct rounding of the corrected quotient (Markstein's argument), for
   operands in [1, 2) and any rounding to nearest. *)
From Coq Require Import ZArith Znumtheory Zpow_facts QArith Qround Qabs Lia Lqa Bool.
From Verif Require Import QUtil RoundSpec RoundProofs VeltProofs.
Open Scope Z_scope.

Lemma mult_abs_ge : forall e x, mult e x -> ~ (x == 0)%Q -> (p2 e <= Qabs x)%Q.
Proof. exact mult_nz. Qed.

(* two multiples of w at a distance less than w are equal *)
Lemma mult_eq : forall e x y, mult e x -> mult e y -> (Qabs (x - y) < p2 e)%Q -> (x == y)%Q.
Proof.
  intros e x y Mx My H. assert (E : (x - y == 0)%Q) by (apply (mult_small e); auto; apply mult_minus; auto). lra.
Qed.

Lemma inj_minus : forall a b, (inject_Z (a - b) == inject_Z a - inject_Z b)%Q.
Proof. intros. unfold Z.sub, Qminus. rewrite inject_Z_plus, inject_Z_opp. reflexivity. Qed.

Section Core.
Variable p : Z.
Hypothesis Hp : 12 <= p.
Notation F := (mkF p None).
Notation u := (p2 (- p)).

Lemma C1 : 1 <= prec F. Proof. cbn [prec]; clear - Hp; lia. Qed.
Lemma C2 : 2 <= prec F. Proof. cbn [prec]; clear - Hp; lia. Qed.
Lemma u_pos : (0 < u)%Q. Proof. apply p2_pos. Qed.
Lemma u_small : (4096 * u <= 1)%Q.
Proof.
  pose proof (p2_le (- p) (-12) ltac:(lia)) as H.
  assert (E : (p2 (-12) == 1 # 4096)%Q) by reflexivity. rewrite E in H. lra.
Qed.
Lemma pu1 : (p2 (1 - p) == 2 * u)%Q.
Proof. replace (1 - p) with (- p + 1) by lia. apply p2_succ. Qed.
Lemma pu_m1 : (2 * p2 (- p - 1) == u)%Q.
Proof. rewrite <- p2_succ. replace (- p - 1 + 1) with (- p) by lia. reflexivity. Qed.

(* numbers of the format in [2^k, 2^(k+1)) are multiples of 2^(k+1-p) *)
Lemma in_grid : forall k x, inF F x -> (p2 k <= Qabs x)%Q -> mult (k + 1 - p) x.
Proof.
  intros k x I B. apply (in_big F C2); auto. cbn [prec].
  replace (p + (k + 1 - p) - 1) with k by lia. auto.
Qed.
Lemma grid_in : forall k x, mult (k + 1 - p) x -> (Qabs x <= p2 (k + 1))%Q -> inF F x.
Proof.
  intros k x M B. apply (inF_intro F C1 (k + 1 - p)); [auto|exact I|].
  cbn [prec]. replace (p + (k + 1 - p)) with (k + 1) by lia. auto.
Qed.

(* a value and its rounding, when the value is within half a unit of a
   multiple of the unit of its binade *)
Lemma round_to : forall rnd k v g, nearest_in F rnd -> (p2 k <= v)%Q -> (g <= p2 (k + 1))%Q ->
  mult (k + 1 - p) g -> (2 * Qabs (v - g) < p2 (k + 1 - p))%Q -> (rnd v == g)%Q.
Proof.
  intros rnd k v g Hr L Gu M H.
  pose proof (p2_pos k) as Pk. pose proof (p2_pos (k + 1 - p)) as Pw.
  assert (Ok : mult (k + 1 - p) (p2 k)) by (apply mult_p2; lia).
  assert (Gl : (p2 k <= g)%Q).
  { destruct (Qlt_le_dec g (p2 k)) as [C|C]; auto. exfalso.
    assert (E : (p2 k == g)%Q) by (apply (mult_eq (k + 1 - p)); auto; qabs_lra). lra. }
  assert (Gi : inF F g).
  { apply (grid_in k); auto. rewrite Qabs_pos by lra. auto. }
  pose proof (rnd_near F rnd Hr v g Gi) as N.
  assert (Rl : (p2 k <= rnd v)%Q).
  { apply (rnd_ge_F F rnd Hr); auto. apply (grid_in k); auto. rewrite Qabs_pos by lra. apply p2_le; lia. }
  assert (Rm : mult (k + 1 - p) (rnd v)).
  { apply in_grid; [apply (rnd_inF F rnd Hr)|]. rewrite Qabs_pos by lra. auto. }
  apply (mult_eq (k + 1 - p)); auto. qabs_lra.
Qed.

(* the quotient of two numbers of the format is not a midpoint: it is at least
   u w / d away from the odd multiples of w/2, w the unit of its binade *)
Lemma not_midpoint : forall k x d m, mult (1 - p) x -> mult (1 - p) d -> (1 <= d)%Q -> (d < 2)%Q -> -1 <= k <= 0 ->
  (exists j, m == inject_Z (2 * j + 1) * p2 (k - p))%Q -> (p2 (k + 1 - p) * u <= Qabs (x - d * m))%Q.
Proof.
  intros k x d m [X Hx] [D Hd] L U Hk [j Hm].
  assert (HD : 0 < D < 2 ^ p).
  { rewrite Hd in L, U. pose proof (p2_pos (1 - p)) as P1.
    assert (E : (inject_Z (2 ^ p) * p2 (1 - p) == 2)%Q).
    { rewrite p2_prec by lia. replace (p + (1 - p)) with 1 by lia. reflexivity. }
    split.
    - apply Z.nle_gt. intros C. assert (inject_Z D <= 0)%Q by (rewrite Zle_Qle in C; auto).
      assert (inject_Z D * p2 (1 - p) <= 0)%Q by (setoid_replace 0%Q with (0 * p2 (1 - p))%Q by ring; apply Qmult_le_compat_r; lra). lra.
    - rewrite Zlt_Qlt. apply (Qmult_lt_r _ _ (p2 (1 - p))); auto. lra. }
  (* x - d m = (X 2^(p-k) - D (2j+1)) * 2^(1-p) 2^(k-p) *)
  assert (E : (x - d * m == inject_Z (X * 2 ^ (p - k) - D * (2 * j + 1)) * (p2 (k + 1 - p) * u))%Q).
  { assert (E1 : (p2 (k + 1 - p) * u == p2 (1 - p) * p2 (k - p))%Q).
    { rewrite <- !p2_plus. replace (k + 1 - p + - p) with (1 - p + (k - p)) by lia. reflexivity. }
    rewrite E1, Hx, Hd, Hm. rewrite inj_minus, (inject_Z_mult X), (inject_Z_mult D).
    rewrite <- (p2_Z (p - k)) by lia.
    assert (E2 : (p2 (p - k) * p2 (k - p) == 1)%Q).
    { rewrite <- p2_plus. replace (p - k + (k - p)) with 0 by lia. apply p2_0. }
    transitivity (inject_Z X * p2 (1 - p) * (p2 (p - k) * p2 (k - p)) - inject_Z D * p2 (1 - p) * (inject_Z (2 * j + 1) * p2 (k - p)))%Q; [rewrite E2; ring|ring]. }
  assert (NZ : X * 2 ^ (p - k) - D * (2 * j + 1) <> 0).
  { intros C. assert (Dv : (2 ^ (p - k) | D * (2 * j + 1))) by (exists X; lia).
    assert (Rp : rel_prime (2 ^ (p - k)) (2 * j + 1)).
    { apply rel_prime_sym. apply rel_prime_Zpower_r; [lia|].
      apply rel_prime_sym. apply prime_rel_prime; [exact prime_2|]. intros [c Hc]. lia. }
    assert (Dv2 : (2 ^ (p - k) | D)).
    { apply (Gauss _ (2 * j + 1)); auto. rewrite Z.mul_comm. auto. }
    apply Z.divide_pos_le in Dv2; [|lia]. pose proof (Z.pow_le_mono_r 2 p (p - k) ltac:(lia) ltac:(lia)). lia. }
  rewrite E. pose proof (p2_pos (k + 1 - p)) as P1. pose proof u_pos as P2.
  assert (P : (0 < p2 (k + 1 - p) * u)%Q) by (apply Qmult_lt_0_compat; auto).
  rewrite Qabs_mul_pos by auto.
  assert (B : (1 <= Qabs (inject_Z (X * 2 ^ (p - k) - D * (2 * j + 1))))%Q).
  { set (z := X * 2 ^ (p - k) - D * (2 * j + 1)) in *. clearbody z.
    destruct (Z.lt_total z 0) as [C|[C|C]]; [|lia|].
    - assert (H : z <= -1) by lia. rewrite Zle_Qle in H. change (inject_Z (-1)) with (-1)%Q in H. rewrite Qabs_neg; lra.
    - assert (H : 1 <= z) by lia. rewrite Zle_Qle in H. change (inject_Z 1) with 1%Q in H. rewrite Qabs_pos; lra. }
  assert (T : (1 * (p2 (k + 1 - p) * u) <= Qabs (inject_Z (X * 2 ^ (p - k) - D * (2 * j + 1))) * (p2 (k + 1 - p) * u))%Q) by (apply Qmult_le_compat_r; lra).
  lra.
Qed.

Lemma mant_max : forall d, inF F d -> (1 <= d)%Q -> (d < 2)%Q -> (d <= 2 - 2 * u)%Q.
Proof.
  intros d I L U. assert (M : mult (0 + 1 - p) d) by (apply in_grid; auto; rewrite Qabs_pos by lra; rewrite p2_0; auto).
  replace (0 + 1 - p) with (1 - p) in M by lia.
  assert (E : (inject_Z (2 ^ p - 1 + 1) * p2 (1 - p) == 2)%Q).
  { replace (2 ^ p - 1 + 1) with (2 ^ p) by lia. rewrite p2_prec by lia. replace (p + (1 - p)) with 1 by lia. reflexivity. }
  assert (H : (d <= inject_Z (2 ^ p - 1) * p2 (1 - p))%Q) by (apply mult_lt_le; auto; lra).
  rewrite inject_Z_plus in E. rewrite inj_minus in H. rewrite pu1 in *. change (inject_Z 1) with 1%Q in *. rewrite inj_minus in E. change (inject_Z 1) with 1%Q in *. lra.
Qed.

(* which multiple of w the value t is nearest to, when t is a quotient error *)
Lemma side0 : forall w d y t rho, (0 < w)%Q -> (1 <= d)%Q -> (d <= 2 - 2 * u)%Q -> (Qabs (1 - d * y) < u)%Q ->
  (0 <= t)%Q -> (t <= (3 # 2) * w - 4 * (u * w))%Q -> (w * u <= Qabs (d * t - d * ((1 # 2) * w)))%Q ->
  (Qabs rho <= 2 * (u * w))%Q -> ((t <= w)%Q -> (rho == 0)%Q) ->
  exists s, ((s == 0)%Q \/ (s == w)%Q) /\ (2 * Qabs (t - s) < w)%Q /\ (2 * Qabs (t * (d * y) + rho * y - s) < w)%Q.
Proof.
  intros w d y t rho Pw D1 D2 Dl T0 T1 Gap Hrho Hz. pose proof u_pos as Pu. pose proof u_small as Su.
  assert (Puw : (0 < u * w)%Q) by (apply Qmult_lt_0_compat; auto).
  assert (Dy : (1 - u < d * y)%Q /\ (d * y < 1 + u)%Q) by (split; qabs_lra).
  destruct Dy as [Y1 Y2].
  assert (Q1 : (t * (1 - u) <= t * (d * y))%Q) by (rewrite !(Qmult_comm t); apply Qmult_le_compat_r; lra).
  assert (Q2 : (t * (d * y) <= t * (1 + u))%Q) by (rewrite !(Qmult_comm t); apply Qmult_le_compat_r; lra).
  destruct (Qlt_le_dec (2 * t) w) as [C|C].
  - exists 0%Q. split; [left; reflexivity|].
    assert (R0 : (rho == 0)%Q) by (apply Hz; lra).
    assert (G : (w * u <= d * ((1 # 2) * w - t))%Q).
    { rewrite Qabs_neg in Gap; [lra|]. setoid_replace (d * t - d * ((1 # 2) * w))%Q with (- (d * ((1 # 2) * w - t)))%Q by ring.
      assert (0 <= d * ((1 # 2) * w - t))%Q by (apply Qmult_le_0_compat; lra). lra. }
    assert (G2 : (d * ((1 # 2) * w - t) <= (2 - 2 * u) * ((1 # 2) * w - t))%Q) by (apply Qmult_le_compat_r; lra).
    assert (G3 : ((2 - 2 * u) * ((1 # 2) * w - t) <= 2 * ((1 # 2) * w - t))%Q) by (apply Qmult_le_compat_r; lra).
    assert (T2 : (t * (1 + u) <= ((1 # 2) * w - (1 # 2) * (u * w)) * (1 + u))%Q) by (apply Qmult_le_compat_r; lra).
    assert (N0 : (0 <= t * (1 - u))%Q) by (apply Qmult_le_0_compat; lra).
    assert (Puuw : (0 < u * (u * w))%Q) by (apply Qmult_lt_0_compat; auto).
    rewrite R0. split; [rewrite Qabs_pos by lra; lra|].
    setoid_replace (t * (d * y) + 0 * y - 0)%Q with (t * (d * y))%Q by ring.
    rewrite Qabs_pos by lra. lra.
  - assert (G : (w * u <= d * (t - (1 # 2) * w))%Q).
    { rewrite Qabs_pos in Gap; [lra|]. setoid_replace (d * t - d * ((1 # 2) * w))%Q with (d * (t - (1 # 2) * w))%Q by ring.
      apply Qmult_le_0_compat; lra. }
    assert (G2 : (d * (t - (1 # 2) * w) <= (2 - 2 * u) * (t - (1 # 2) * w))%Q) by (apply Qmult_le_compat_r; lra).
    assert (T3 : ((1 # 2) * w <= t * (1 - u))%Q) by lra.
    assert (Tp : (0 < t)%Q) by lra.
    assert (T4 : (t * (1 - u) < t * (d * y))%Q) by (rewrite !(Qmult_comm t); apply Qmult_lt_r; lra).
    assert (T5 : (t * u <= ((3 # 2) * w) * u)%Q) by (apply Qmult_le_compat_r; lra).
    exists w. split; [right; reflexivity|].
    assert (Tw : ((1 # 2) * w < t)%Q).
    { destruct (Qeq_dec t ((1 # 2) * w)) as [E|E]; [|lra]. exfalso. assert (d * (t - (1 # 2) * w) == 0)%Q by (rewrite E; ring). lra. }
    split; [qabs_lra|].
    destruct (Qlt_le_dec w t) as [B|B].
    + assert (Yb : (Qabs y <= 1 + u)%Q).
      { assert (Yp : (0 <= y)%Q).
        { destruct (Qlt_le_dec y 0) as [N|N]; auto. assert (0 <= d * - y)%Q by (apply Qmult_le_0_compat; lra). lra. }
        rewrite Qabs_pos by auto. assert (1 * y <= d * y)%Q by (apply Qmult_le_compat_r; lra). lra. }
      assert (Rb : (Qabs (rho * y) <= 2 * (u * w) * (1 + u))%Q) by (apply mul_abs_le; auto).
      assert (Ruu : (2 * (u * w) * (1 + u) <= (9 # 4) * (u * w))%Q).
      { assert (u * w * u <= u * w * (1 # 8))%Q by (rewrite !(Qmult_comm (u * w)); apply Qmult_le_compat_r; lra). lra. }
      assert (Uw : (4096 * (u * w) <= w)%Q) by (assert (4096 * u * w <= 1 * w)%Q by (apply Qmult_le_compat_r; lra); lra).
      set (ry := (rho * y)%Q) in *. clearbody ry. set (td := (t * (d * y))%Q) in *. clearbody td.
      set (uw := (u * w)%Q) in *. assert (TU : (t * u <= (3 # 2) * uw)%Q) by (unfold uw; lra).
      assert (Q1' : (t - t * u <= td)%Q) by lra. assert (Q2' : (td <= t + t * u)%Q) by lra.
      clearbody uw. set (tu := (t * u)%Q) in *. clearbody tu. qabs_lra.
    + assert (R0 : (rho == 0)%Q) by (apply Hz; lra). rewrite R0.
      setoid_replace (t * (d * y) + 0 * y - w)%Q with (t * (d * y) - w)%Q by ring.
      assert (T6 : (t * (1 + u) <= w * (1 + u))%Q) by (apply Qmult_le_compat_r; lra).
      assert (Uw : (4096 * (u * w) <= w)%Q) by (assert (4096 * u * w <= 1 * w)%Q by (apply Qmult_le_compat_r; lra); lra).
      set (td := (t * (d * y))%Q) in *. clearbody td. apply Qabs_case; intros; lra.
Qed.

Lemma side : forall w d y t rho, (0 < w)%Q -> (1 <= d)%Q -> (d <= 2 - 2 * u)%Q -> (Qabs (1 - d * y) < u)%Q ->
  (Qabs t <= (3 # 2) * w - 4 * (u * w))%Q ->
  (w * u <= Qabs (d * t - d * ((1 # 2) * w)))%Q -> (w * u <= Qabs (d * t + d * ((1 # 2) * w)))%Q ->
  (Qabs rho <= 2 * (u * w))%Q -> ((Qabs t <= w)%Q -> (rho == 0)%Q) ->
  exists s, ((s == 0)%Q \/ (s == w)%Q \/ (s == - w)%Q) /\ (2 * Qabs (t - s) < w)%Q /\ (2 * Qabs (t * (d * y) + rho * y - s) < w)%Q.
Proof.
  intros w d y t rho Pw D1 D2 Dl T1 G1 G2 Hrho Hz. destruct (Qlt_le_dec t 0) as [C|C].
  - rewrite Qabs_neg in T1, Hz by lra.
    destruct (side0 w d y (- t) (- rho)) as (s & Hs & H1 & H2); auto.
    + lra.
    + rewrite <- Qabs_opp. setoid_replace (- (d * - t - d * ((1 # 2) * w)))%Q with (d * t + d * ((1 # 2) * w))%Q by ring. auto.
    + rewrite Qabs_opp. auto.
    + intros K. rewrite (Hz K). reflexivity.
    + exists (- s)%Q. split; [destruct Hs as [Hs|Hs]; [left|right; right]; rewrite Hs; reflexivity|].
      rewrite <- Qabs_opp in H1, H2. split.
      * setoid_replace (- (- t - s))%Q with (t - - s)%Q in H1 by ring. auto.
      * setoid_replace (- (- t * (d * y) + - rho * y - s))%Q with (t * (d * y) + rho * y - - s)%Q in H2 by ring. auto.
  - rewrite Qabs_pos in T1, Hz by lra. destruct (side0 w d y t rho) as (s & Hs & H1 & H2); auto.
    exists s. split; [destruct Hs; auto|auto].
Qed.

(* from an approximate quotient q0 close enough, the corrected quotient *)
Lemma finish : forall r2 r3 r4 k x d y q0, nearest_in F r2 -> nearest_in F r3 -> nearest_in F r4 -> -1 <= k <= 0 ->
  inF F x -> (1 <= x)%Q -> (x < 2)%Q -> inF F d -> (1 <= d)%Q -> (d < 2)%Q ->
  (Qabs (1 - d * y) < u)%Q ->
  (p2 k + p2 (k - p) < x / d)%Q -> (x / d < p2 (k + 1))%Q ->
  mult (k + 1 - p) q0 ->
  (Qabs (x / d - q0) <= (3 # 2) * p2 (k + 1 - p) - 4 * (u * p2 (k + 1 - p)))%Q ->
  (r3 (q0 + r2 (x - d * q0) * y) == r4 (x / d))%Q.
Proof.
  intros r2 r3 r4 k x d y q0 Hr2 Hr3 Hr4 Hk Ix X1 X2 Id D1 D2 Dl L U Mq0 T.
  pose proof (mant_max d Id D1 D2) as D3. pose proof u_pos as Pu. pose proof u_small as Su.
  set (w := p2 (k + 1 - p)) in *. assert (Pw : (0 < w)%Q) by apply p2_pos.
  assert (Wh : (2 * p2 (k - p) == w)%Q) by (unfold w; rewrite <- p2_succ; replace (k - p + 1) with (k + 1 - p) by lia; reflexivity).
  assert (Mx : mult (1 - p) x).
  { replace (1 - p) with (0 + 1 - p) by lia. apply in_grid; auto. rewrite Qabs_pos by lra. rewrite p2_0. auto. }
  assert (Md : mult (1 - p) d).
  { replace (1 - p) with (0 + 1 - p) by lia. apply in_grid; auto. rewrite Qabs_pos by lra. rewrite p2_0. auto. }
  set (q := (x / d)%Q) in *. assert (Eq : (x == d * q)%Q) by (unfold q; field; lra). clearbody q.
  set (t := (q - q0)%Q) in *.
  assert (Uw : (4096 * (u * w) <= w)%Q) by (assert (4096 * u * w <= 1 * w)%Q by (apply Qmult_le_compat_r; lra); lra).
  assert (Puw : (0 < u * w)%Q) by (apply Qmult_lt_0_compat; auto).
  (* midpoints *)
  assert (G1 : (w * u <= Qabs (d * t - d * ((1 # 2) * w)))%Q).
  { destruct Mq0 as [j Hj]. setoid_replace (d * t - d * ((1 # 2) * w))%Q with (x - d * (q0 + (1 # 2) * w))%Q by (unfold t; rewrite Eq; ring).
    apply not_midpoint; auto. exists j. rewrite inject_Z_plus, inject_Z_mult. change (inject_Z 1) with 1%Q. change (inject_Z 2) with 2%Q.
    rewrite Hj. fold w. rewrite <- Wh. field. }
  assert (G2 : (w * u <= Qabs (d * t + d * ((1 # 2) * w)))%Q).
  { destruct Mq0 as [j Hj]. setoid_replace (d * t + d * ((1 # 2) * w))%Q with (x - d * (q0 - (1 # 2) * w))%Q by (unfold t; rewrite Eq; ring).
    apply not_midpoint; auto. exists (j - 1). replace (2 * (j - 1) + 1) with (2 * j - 1) by lia.
    rewrite inj_minus, inject_Z_mult. change (inject_Z 1) with 1%Q. change (inject_Z 2) with 2%Q.
    rewrite Hj. fold w. rewrite <- Wh. field. }
  (* the residual *)
  set (e := (x - d * q0)%Q). assert (Ee : (e == d * t)%Q) by (unfold e, t; rewrite Eq; ring).
  assert (Me : mult (k + 2 - 2 * p) e).
  { unfold e. apply mult_minus; [apply (mult_le (1 - p)); auto; lia|].
    replace (k + 2 - 2 * p) with (1 - p + (k + 1 - p)) by lia. apply prod_mult; auto. }
  assert (Eb : (Qabs e <= 2 * Qabs t)%Q).
  { rewrite Ee, Qabs_Qmult, (Qabs_pos d) by lra. apply Qmult_le_compat_r; [lra|apply Qabs_nonneg]. }
  set (rho := (r2 e - e)%Q).
  assert (R1 : (Qabs rho <= 2 * (u * w))%Q).
  { unfold rho.
    assert (H : (p2 (k + 3 - 2 * p - 1) == 2 * (u * w))%Q).
    { unfold w. rewrite <- (p2_plus (- p)). rewrite <- p2_succ. replace (- p + (k + 1 - p) + 1) with (k + 3 - 2 * p - 1) by lia. reflexivity. }
    rewrite <- H. apply (rnd_half F C1 r2 Hr2); [exact I|]. cbn [prec].
    assert (H2 : (p2 (p + (k + 3 - 2 * p)) == 4 * w)%Q).
    { unfold w. replace (p + (k + 3 - 2 * p)) with (k + 1 - p + 1 + 1) by lia. rewrite !p2_succ. ring. }
    rewrite H2. lra. }
  assert (R0 : (Qabs t <= w)%Q -> (rho == 0)%Q).
  { intros K. unfold rho. rewrite (rnd_id F r2 Hr2); [ring|].
    apply (inF_intro F C1 (k + 2 - 2 * p)); auto; [exact I|]. cbn [prec].
    assert (H2 : (p2 (p + (k + 2 - 2 * p)) == 2 * w)%Q).
    { unfold w. replace (p + (k + 2 - 2 * p)) with (k + 1 - p + 1) by lia. rewrite p2_succ. ring. }
    rewrite H2. lra. }
  destruct (side w d y t rho Pw D1 D3 Dl T G1 G2 R1 R0) as (s & Hs & S1 & S2).
  set (g := (q0 + s)%Q).
  assert (Mg : mult (k + 1 - p) g).
  { unfold g. apply mult_plus; auto.
    assert (Mw : mult (k + 1 - p) w) by (apply mult_p2; lia).
    destruct Hs as [Hs|[Hs|Hs]].
    - apply (mult_comp _ 0); [lra|apply mult_0].
    - apply (mult_comp _ w); [lra|auto].
    - apply (mult_comp _ (- w)); [lra|apply mult_opp; auto]. }
  assert (Mlo : mult (k + 1 - p) (p2 k)) by (apply mult_p2; lia).
  assert (Mhi : mult (k + 1 - p) (p2 (k + 1))) by (apply mult_p2; lia).
  assert (Tg : (t - s == q - g)%Q) by (unfold t, g; ring).
  rewrite Tg in S1.
  assert (Zg : (t * (d * y) + rho * y - s == q0 + r2 e * y - g)%Q).
  { unfold rho, g. rewrite Ee at 2. ring. }
  rewrite Zg in S2.
  assert (Gu : (g <= p2 (k + 1))%Q).
  { destruct (Qlt_le_dec (p2 (k + 1)) g) as [B|B]; auto. exfalso.
    assert (E : (p2 (k + 1) == g)%Q) by (apply (mult_eq (k + 1 - p)); auto; fold w; qabs_lra). lra. }
  assert (Gl : (p2 k + w <= g)%Q).
  { destruct (Qlt_le_dec g (p2 k + w)) as [B|B]; auto. exfalso.
    assert (E : (p2 k == g)%Q) by (apply (mult_eq (k + 1 - p)); auto; fold w; qabs_lra).
    rewrite <- E in S1. qabs_lra. }
  rewrite (round_to r3 k _ g Hr3); auto.
  - symmetry. apply (round_to r4 k); auto. lra.
  - set (z := (q0 + r2 e * y)%Q) in *. clearbody z. qabs_lra.
Qed.

(* when the first approximation could be a unit and a half away, the quotient
   is close to a multiple of the unit: integer versions *)
Lemma corner_A : forall H X D N, 2048 <= H -> H <= D < 2 * H -> X < 2 * H -> 2 * D - 8 < X ->
  3 * D - 8 < 2 * Z.abs (X * H - D * N) -> 2 * Z.abs (X * H - D * N) < 3 * D -> False.
Proof.
  intros H X D N HH HD HX Hq A B.
  set (b := D - H). set (a := 2 * H - X). set (M := N - (2 * H - a - 2 * b)).
  assert (Ea : X = 2 * H - a) by (unfold a; lia). assert (Eb : D = H + b) by (unfold b; lia).
  assert (EN : N = 2 * H - a - 2 * b + M) by (unfold M; lia).
  assert (Hab : 1 <= a /\ 0 <= b /\ a + 2 * b <= 7) by lia. clearbody a b M.
  assert (E : X * H - D * N = b * (a + 2 * b) - D * M) by (subst X D N; ring).
  assert (C : 0 <= b * (a + 2 * b) <= 21) by nia.
  rewrite E in A, B. set (c := b * (a + 2 * b)) in *. clearbody c. clear E.
  assert (M = 0 \/ M = 1 \/ M = -1 \/ 2 <= M \/ M <= -2) as [->|[->|[->|[K|K]]]] by lia; try lia.
  - assert (2 * D <= D * M) by nia. lia.
  - assert (D * M <= - 2 * D) by nia. lia.
Qed.

Lemma corner_B : forall U X D N, 4096 <= U -> X < D < U -> D - 4 < X ->
  (55 * U - 256 <= 64 * X \/ (5 * U - 24 <= 6 * X /\ 6 * D < 5 * U)) ->
  3 * D - 8 < 2 * Z.abs (X * U - D * N) -> 2 * Z.abs (X * U - D * N) < 3 * D -> False.
Proof.
  intros U X D N HU HX Hk Hg A B.
  set (k := D - X). set (M := U - N).
  assert (Ek : X = D - k) by (unfold k; lia). assert (EN : N = U - M) by (unfold M; lia).
  assert (K : 1 <= k <= 3) by lia. clearbody k M.
  assert (E : X * U - D * N = D * M - k * U) by (subst X N; ring).
  rewrite E in A, B. clear E.
  assert (k = 1 \/ k = 2 \/ k = 3) as [-> | [-> | ->]] by lia;
  (assert (M <= -2 \/ M = -1 \/ M = 0 \/ M = 1 \/ M = 2 \/ M = 3 \/ M = 4 \/ M = 5 \/ 6 <= M)
    as [J|[->|[->|[->|[->|[->|[->|[->|J]]]]]]]] by lia;
   [assert (D * M <= - 2 * D) by nia; lia| | | | | | | |assert (6 * D <= D * M) by nia; lia];
   destruct Hg as [Hg|Hg]; lia).
Qed.

Theorem quotient_correct : forall r1 r2 r3 r4 x d y E,
  nearest_in F r1 -> nearest_in F r2 -> nearest_in F r3 -> nearest_in F r4 ->
  inF F x -> (1 <= x)%Q -> (x < 2)%Q -> inF F d -> (1 <= d)%Q -> (d < 2)%Q ->
  (Qabs (1 - d * y) < u)%Q -> (Qabs (1 - d * y) <= (1 # 2) * (d * u) + E * u)%Q ->
  ((E <= 9 # 64)%Q \/ ((E == 1 # 6)%Q /\ (d < 5 # 3)%Q)) ->
  (r3 (r1 (x * y) + r2 (x - d * r1 (x * y)) * y) == r4 (x / d))%Q.
Proof.
  intros r1 r2 r3 r4 x d y E Hr1 Hr2 Hr3 Hr4 Ix X1 X2 Id D1 D2 Dl DlE HE.
  pose proof (mant_max d Id D1 D2) as D3. pose proof (mant_max x Ix X1 X2) as X3.
  pose proof u_pos as Pu. pose proof u_small as Su.
  assert (Mx : mult (1 - p) x).
  { replace (1 - p) with (0 + 1 - p) by lia. apply in_grid; auto. rewrite Qabs_pos by lra. rewrite p2_0. auto. }
  assert (Md : mult (1 - p) d).
  { replace (1 - p) with (0 + 1 - p) by lia. apply in_grid; auto. rewrite Qabs_pos by lra. rewrite p2_0. auto. }
  assert (Dy : (1 - u < d * y)%Q /\ (d * y < 1 + u)%Q) by (split; qabs_lra). destruct Dy as [Y1 Y2].
  set (q := (x / d)%Q) in *. assert (Eq : (x == d * q)%Q) by (unfold q; field; lra).
  assert (Qp : (0 < q)%Q) by (unfold q; apply Qlt_shift_div_l; lra).
  assert (Exy : (x * y == q * (d * y))%Q) by (rewrite Eq; ring).
  assert (XYl : (q * (1 - u) <= x * y)%Q) by (rewrite Exy, !(Qmult_comm q); apply Qmult_le_compat_r; lra).
  assert (XYu : (x * y <= q * (1 + u))%Q) by (rewrite Exy, !(Qmult_comm q); apply Qmult_le_compat_r; lra).
  assert (Uu : (0 < u * u)%Q) by (apply Qmult_lt_0_compat; auto).
  assert (Uuu : (4096 * (u * u) <= u)%Q) by (assert (4096 * u * u <= 1 * u)%Q by (apply Qmult_le_compat_r; lra); lra).
  (* a number of the format has integer coordinates *)
  destruct Mx as [X Hx]. destruct Md as [D Hd]. rewrite pu1 in Hx, Hd.
  assert (EU : (inject_Z (2 ^ p) * u == 1)%Q) by (rewrite p2_prec by lia; replace (p + - p) with 0 by lia; apply p2_0).
  assert (U12 : 4096 <= 2 ^ p) by (change 4096 with (2 ^ 12); apply Z.pow_le_mono_r; lia).
  assert (cmp : forall a b, (inject_Z a * (2 * u) < inject_Z b * (2 * u))%Q -> a < b).
  { intros a b K. rewrite Zlt_Qlt. apply (Qmult_lt_r _ _ (2 * u)); auto. lra. }
  assert (EH : 2 ^ p = 2 * 2 ^ (p - 1)).
  { replace p with (1 + (p - 1)) at 1 by lia. rewrite Z.pow_add_r by lia. reflexivity. }
  destruct (Qlt_le_dec x d) as [C|C].
  - (* quotient below 1 *)
    assert (Xd : (x <= d - 2 * u)%Q).
    { assert (K : X < D) by (apply cmp; lra). assert (K2 : X <= D - 1) by lia. rewrite Zle_Qle, inj_minus in K2.
      change (inject_Z 1) with 1%Q in K2. assert (inject_Z X * (2 * u) <= (inject_Z D - 1) * (2 * u))%Q by (apply Qmult_le_compat_r; lra). lra. }
    assert (q1 : (q < 1)%Q) by (unfold q; apply Qlt_shift_div_r; lra).
    assert (L : (p2 (-1) + p2 (-1 - p) < q)%Q).
    { assert (E1 : (p2 (-1 - p) == (1 # 2) * u)%Q) by (pose proof pu_m1 as K; replace (- p - 1) with (-1 - p) in K by lia; lra).
      assert (E2 : (p2 (-1) == 1 # 2)%Q) by reflexivity. rewrite E1, E2.
      apply (Qmult_lt_l _ _ d); [lra|]. rewrite <- Eq.
      assert (d * u <= (2 - 2 * u) * u)%Q by (apply Qmult_le_compat_r; lra). lra. }
    assert (XY1 : (1 # 2 <= x * y)%Q).
    { eapply Qle_trans; [|exact XYl].
      assert (d * ((1 # 2)) <= x * (1 - u))%Q by (assert (1 * (1 - u) <= x * (1 - u))%Q by (apply Qmult_le_compat_r; lra); lra).
      apply (Qmult_lt_0_le_reg_r _ _ d); [lra|]. setoid_replace (q * (1 - u) * d)%Q with (x * (1 - u))%Q by (rewrite Eq; ring). lra. }
    assert (XY2 : (x * y <= 1)%Q).
    { eapply Qle_trans; [exact XYu|]. apply (Qmult_lt_0_le_reg_r _ _ d); [lra|].
      setoid_replace (q * (1 + u) * d)%Q with (x * (1 + u))%Q by (rewrite Eq; ring).
      assert (x * (1 + u) <= (d - 2 * u) * (1 + u))%Q by (apply Qmult_le_compat_r; lra).
      assert (d * u <= 2 * u)%Q by (apply Qmult_le_compat_r; lra). lra. }
    set (q0 := r1 (x * y)%Q).
    assert (Mq0 : mult (- p) q0).
    { replace (- p) with (-1 + 1 - p) by lia. apply in_grid; [apply (rnd_inF F r1 Hr1)|].
      apply (rnd_abs_ge_F F C1 r1 Hr1); [apply (inF_intro F C1 (-1)); [apply mult_p2; lia|exact I|]| |].
      - rewrite Qabs_pos by (pose proof (p2_pos (-1)); lra). apply p2_le. cbn [prec]. lia.
      - pose proof (p2_pos (-1)); lra.
      - rewrite Qabs_pos by lra. exact XY1. }
    assert (Nq0 : (Qabs (q0 - x * y) <= (1 # 2) * u)%Q).
    { assert (E1 : (p2 (- p - 1) == (1 # 2) * u)%Q) by (pose proof pu_m1; lra). rewrite <- E1.
      apply (rnd_half F C1 r1 Hr1 (- p)); [exact I|]. cbn [prec]. replace (p + - p) with 0 by lia.
      rewrite Qabs_pos by lra. rewrite p2_0. auto. }
    apply (finish r2 r3 r4 (-1)); auto; try lia.
    replace (-1 + 1 - p) with (- p) by lia. fold q.
    destruct (Qlt_le_dec ((3 # 2) * u - 4 * (u * u)) (Qabs (q - q0))) as [B|B]; [exfalso|auto].
    (* the corner *)
    assert (Tq : (Qabs (q - x * y) == q * Qabs (1 - d * y))%Q).
    { rewrite Exy. setoid_replace (q - q * (d * y))%Q with (q * (1 - d * y))%Q by ring. rewrite Qabs_Qmult, (Qabs_pos q) by lra. reflexivity. }
    assert (T1 : (q * Qabs (1 - d * y) <= q * u)%Q) by (rewrite !(Qmult_comm q); apply Qmult_le_compat_r; lra).
    assert (T1s : (q * u < 1 * u)%Q) by (apply Qmult_lt_r; lra).
    assert (T2 : (q * Qabs (1 - d * y) <= q * ((1 # 2) * (d * u) + E * u))%Q) by (rewrite !(Qmult_comm q); apply Qmult_le_compat_r; lra).
    assert (T3 : (q * ((1 # 2) * (d * u) + E * u) == ((1 # 2) * x + q * E) * u)%Q) by (rewrite Eq; ring).
    assert (Eqb : (q * E <= 9 # 64)%Q \/ ((q * E <= 1 # 6)%Q /\ (d < 5 # 3)%Q)).
    { destruct HE as [HE|[HE HE2]].
      - left. assert (q * E <= q * (9 # 64))%Q by (rewrite !(Qmult_comm q); apply Qmult_le_compat_r; lra). lra.
      - right. split; auto. rewrite HE. lra. }
    assert (Tri : (Qabs (q - q0) <= Qabs (q - x * y) + (1 # 2) * u)%Q).
    { setoid_replace (q - q0)%Q with ((q - x * y) + - (q0 - x * y))%Q by ring.
      eapply Qle_trans; [apply Qabs_triangle|]. rewrite Qabs_opp. lra. }
    assert (B1 : (u - 4 * (u * u) < q * u)%Q) by lra.
    assert (B2 : (1 - 4 * u < q)%Q) by (apply (Qmult_lt_r _ _ u); lra).
    assert (B3 : (1 - 4 * u < (1 # 2) * x + q * E)%Q) by (apply (Qmult_lt_r _ _ u); lra).
    assert (B4 : (d - 8 * u < x)%Q).
    { assert (d * (1 - 4 * u) < d * q)%Q by (apply Qmult_lt_l; lra).
      assert (d * u < 2 * u)%Q by (apply Qmult_lt_r; lra). lra. }
    destruct Mq0 as [N HN].
    assert (Ed : (d * Qabs (q - q0) == inject_Z (Z.abs (X * 2 ^ p - D * N)) * (2 * u * u))%Q).
    { transitivity (Qabs (d * (q - q0)))%Q; [rewrite Qabs_Qmult, (Qabs_pos d) by lra; reflexivity|].
      setoid_replace (d * (q - q0))%Q with (inject_Z (X * 2 ^ p - D * N) * (2 * u * u))%Q.
      - rewrite Qabs_mul_pos by (assert (0 < 2 * (u * u))%Q by lra; lra). apply Qmult_comp; [|reflexivity].
        unfold Qabs, inject_Z. reflexivity.
      - setoid_replace (d * (q - q0))%Q with (x - d * q0)%Q by (rewrite Eq; ring). rewrite HN, Hx, Hd.
        rewrite inj_minus, !inject_Z_mult.
        transitivity (inject_Z X * (2 * u) * (inject_Z (2 ^ p) * u) - inject_Z D * (2 * u) * (inject_Z N * u))%Q; [rewrite EU; ring|ring]. }
    assert (P2u : (0 < 2 * u * u)%Q) by lra.
    assert (Lo : (d * ((3 # 2) * u - 4 * (u * u)) < d * Qabs (q - q0))%Q) by (apply Qmult_lt_l; lra).
    assert (Hi : (d * Qabs (q - q0) < d * ((3 # 2) * u))%Q) by (apply Qmult_lt_l; lra).
    assert (D2U : D < 2 ^ p) by (apply cmp; lra).
    assert (X4 : D - 4 < X).
    { apply cmp. rewrite inj_minus. change (inject_Z 4) with 4%Q. lra. }
    apply (corner_B (2 ^ p) X D N); auto.
    + split; auto. apply cmp; lra.
    + rewrite <- EU in B3 at 1.
      destruct Eqb as [Eqb|[Eqb Hd2]]; [left|right; split].
      * assert (K : (55 * inject_Z (2 ^ p) - 256 < 64 * inject_Z X)%Q).
        { apply (Qmult_lt_r _ _ u); auto. lra. }
        assert (K2 : (inject_Z (55 * 2 ^ p - 256) < inject_Z (64 * X))%Q) by (rewrite inj_minus, !inject_Z_mult; exact K).
        rewrite <- Zlt_Qlt in K2. lia.
      * assert (K : (5 * inject_Z (2 ^ p) - 24 < 6 * inject_Z X)%Q).
        { apply (Qmult_lt_r _ _ u); auto. lra. }
        assert (K2 : (inject_Z (5 * 2 ^ p - 24) < inject_Z (6 * X))%Q) by (rewrite inj_minus, !inject_Z_mult; exact K).
        rewrite <- Zlt_Qlt in K2. lia.
      * assert (K : (6 * inject_Z D < 5 * inject_Z (2 ^ p))%Q).
        { apply (Qmult_lt_r _ _ u); auto. lra. }
        assert (K2 : (inject_Z (6 * D) < inject_Z (5 * 2 ^ p))%Q) by (rewrite !inject_Z_mult; exact K).
        rewrite <- Zlt_Qlt in K2. lia.
    + set (A := Z.abs (X * 2 ^ p - D * N)) in *. rewrite Ed in Lo.
      assert (K : (inject_Z D * (3 # 2) - 4 < inject_Z A)%Q).
      { apply (Qmult_lt_r _ _ (2 * u * u)); auto.
        assert (d * (u * u) < 2 * (u * u))%Q by (apply Qmult_lt_r; lra). rewrite Hd in Lo, H. lra. }
      assert (K2 : (inject_Z (3 * D - 8) < inject_Z (2 * A))%Q) by (rewrite inj_minus, !inject_Z_mult; change (inject_Z 3) with 3%Q; change (inject_Z 8) with 8%Q; change (inject_Z 2) with 2%Q; lra).
      rewrite <- Zlt_Qlt in K2. exact K2.
    + set (A := Z.abs (X * 2 ^ p - D * N)) in *. rewrite Ed in Hi.
      assert (K : (inject_Z A < inject_Z D * (3 # 2))%Q).
      { apply (Qmult_lt_r _ _ (2 * u * u)); auto. rewrite Hd in Hi. lra. }
      assert (K2 : (inject_Z (2 * A) < inject_Z (3 * D))%Q) by (rewrite !inject_Z_mult; change (inject_Z 3) with 3%Q; change (inject_Z 2) with 2%Q; lra).
      rewrite <- Zlt_Qlt in K2. exact K2.
  - destruct (Qeq_dec x d) as [Ed|Nd].
    + (* equal operands *)
      assert (q1 : (q == 1)%Q) by (unfold q; rewrite Ed; field; lra).
      assert (I1 : inF F 1).
      { apply (inF_comp F (p2 0)); [apply p2_0|]. apply (inF_intro F C1 0); [apply mult_p2; lia|exact I|].
        rewrite Qabs_pos by (rewrite p2_0; lra). apply p2_le. cbn [prec]. lia. }
      rewrite (rnd_comp F r4 Hr4 q 1 q1), (rnd_id F r4 Hr4 1 I1).
      rewrite q1 in XYl, XYu.
      set (q0 := r1 (x * y)%Q).
      assert (Iu : inF F (1 - u)).
      { apply (grid_in (-1)).
        - replace (-1 + 1 - p) with (- p) by lia. apply mult_minus; [|apply mult_p2; lia].
          apply (mult_comp _ (p2 0)); [apply p2_0|apply mult_p2; lia].
        - replace (-1 + 1) with 0 by lia. rewrite Qabs_pos by lra. rewrite p2_0. lra. }
      assert (Q0l : (1 - u <= q0)%Q) by (apply (rnd_ge_F F r1 Hr1); auto; lra).
      assert (Mq0 : mult (- p) q0).
      { replace (- p) with (-1 + 1 - p) by lia. apply in_grid; [apply (rnd_inF F r1 Hr1)|].
        change (p2 (-1)) with (1 # 2)%Q. rewrite Qabs_pos; lra. }
      assert (Q0u : (q0 <= 1)%Q).
      { assert (N1 : (Qabs (q0 - x * y) <= Qabs (1 - x * y))%Q) by (apply (rnd_near F r1 Hr1); auto).
        destruct (Qlt_le_dec 1 q0) as [B|B]; auto. exfalso.
        assert (M2 : mult (1 - p) q0).
        { replace (1 - p) with (0 + 1 - p) by lia. apply in_grid; [apply (rnd_inF F r1 Hr1)|]. rewrite p2_0, Qabs_pos; lra. }
        assert (M1 : mult (1 - p) 1) by (apply (mult_comp _ (p2 0)); [apply p2_0|apply mult_p2; lia]).
        assert (XY : (x * y < 1 + u)%Q).
        { rewrite Exy, q1. lra. }
        assert (E1 : (q0 == 1)%Q).
        { apply (mult_eq (1 - p)); auto. rewrite pu1. qabs_lra. }
        lra. }
      assert (Q0 : (q0 == 1)%Q \/ (q0 == 1 - u)%Q).
      { destruct (Qlt_le_dec (1 - u) q0) as [B|B]; [left|right; lra].
        apply (mult_eq (- p)); auto; [apply (mult_comp _ (p2 0)); [apply p2_0|apply mult_p2; lia]|]. qabs_lra. }
      assert (Res : (r2 (x - d * q0) == d * (1 - q0))%Q).
      { rewrite (rnd_comp F r2 Hr2 (x - d * q0) (d * (1 - q0))) by (rewrite Ed; ring).
        apply (rnd_id F r2 Hr2). destruct Q0 as [Q0|Q0].
        - apply (inF_comp F 0); [rewrite Q0; ring|apply (inF_0 F C1)].
        - apply (inF_comp F (inject_Z D * p2 (1 - 2 * p))).
          + rewrite Q0, Hd. replace (1 - 2 * p) with (- p + - p + 1) by lia. rewrite p2_succ, p2_plus. ring.
          + assert (HD : 0 <= D < 2 ^ p).
            { split; [|apply cmp; lra].
              assert (0 < D); [|lia]. apply cmp. rewrite <- Hd. setoid_replace (inject_Z 0 * (2 * u))%Q with 0%Q by ring. lra. }
            exists D, (1 - 2 * p). split; [reflexivity|]. split; [cbn [prec]; lia|exact I]. }
      assert (Zv : (q0 + r2 (x - d * q0) * y == 1 - (1 - q0) * (1 - d * y))%Q) by (rewrite Res; ring).
      rewrite (rnd_comp F r3 Hr3 _ _ Zv).
      assert (Sm : (Qabs ((1 - q0) * (1 - d * y)) <= u * u)%Q).
      { apply mul_abs_le; [rewrite Qabs_pos; lra|lra]. }
      set (v := (1 - (1 - q0) * (1 - d * y))%Q) in *.
      assert (V : (Qabs (v - 1) <= u * u)%Q).
      { setoid_replace (v - 1)%Q with (- ((1 - q0) * (1 - d * y)))%Q by (unfold v; ring). rewrite Qabs_opp. auto. }
      clearbody v.
      pose proof (rnd_near F r3 Hr3 v 1 I1) as N1.
      assert (I2 : inF F (p2 (-1))) by (apply (inF_intro F C1 (-1)); [apply mult_p2; lia|exact I|]; rewrite Qabs_pos by (pose proof (p2_pos (-1)); lra); apply p2_le; cbn [prec]; lia).
      assert (L2 : (p2 (-1) <= r3 v)%Q) by (apply (rnd_ge_F F r3 Hr3); auto; change (p2 (-1)) with (1 # 2)%Q; qabs_lra).
      apply (mult_eq (- p)).
      * replace (- p) with (-1 + 1 - p) by lia. apply in_grid; [apply (rnd_inF F r3 Hr3)|]. rewrite Qabs_pos; auto.
        pose proof (p2_pos (-1)); lra.
      * apply (mult_comp _ (p2 0)); [apply p2_0|apply mult_p2; lia].
      * qabs_lra.
    + (* quotient above 1 *)
      assert (Xd : (d + 2 * u <= x)%Q).
      { assert (K : D < X) by (apply cmp; lra). assert (K2 : D <= X - 1) by lia. rewrite Zle_Qle, inj_minus in K2.
        change (inject_Z 1) with 1%Q in K2. assert (inject_Z D * (2 * u) <= (inject_Z X - 1) * (2 * u))%Q by (apply Qmult_le_compat_r; lra). lra. }
      assert (q2 : (q < 2)%Q) by (unfold q; apply Qlt_shift_div_r; lra).
      assert (L : (p2 0 + p2 (0 - p) < q)%Q).
      { rewrite p2_0. replace (0 - p) with (- p) by lia. apply (Qmult_lt_l _ _ d); [lra|]. rewrite <- Eq.
        assert (d * u <= (2 - 2 * u) * u)%Q by (apply Qmult_le_compat_r; lra). lra. }
      assert (XY1 : (1 <= x * y)%Q).
      { eapply Qle_trans; [|exact XYl]. apply (Qmult_lt_0_le_reg_r _ _ d); [lra|].
        setoid_replace (q * (1 - u) * d)%Q with (x * (1 - u))%Q by (rewrite Eq; ring).
        assert ((d + 2 * u) * (1 - u) <= x * (1 - u))%Q by (apply Qmult_le_compat_r; lra).
        assert (d * u <= (2 - 2 * u) * u)%Q by (apply Qmult_le_compat_r; lra). lra. }
      assert (XY2 : (x * y <= 2)%Q).
      { eapply Qle_trans; [exact XYu|]. apply (Qmult_lt_0_le_reg_r _ _ d); [lra|].
        setoid_replace (q * (1 + u) * d)%Q with (x * (1 + u))%Q by (rewrite Eq; ring).
        assert (x * (1 + u) <= (2 - 2 * u) * (1 + u))%Q by (apply Qmult_le_compat_r; lra). lra. }
      set (q0 := r1 (x * y)%Q).
      assert (Mq0 : mult (1 - p) q0).
      { replace (1 - p) with (0 + 1 - p) by lia. apply in_grid; [apply (rnd_inF F r1 Hr1)|].
        apply (rnd_abs_ge_F F C1 r1 Hr1); [apply (inF_intro F C1 0); [apply mult_p2; lia|exact I|]| |].
        - rewrite Qabs_pos by (pose proof (p2_pos 0); lra). apply p2_le. cbn [prec]. lia.
        - pose proof (p2_pos 0); lra.
        - rewrite Qabs_pos by lra. rewrite p2_0. exact XY1. }
      assert (Nq0 : (Qabs (q0 - x * y) <= u)%Q).
      { replace u with (p2 (1 - p - 1)) by (f_equal; lia).
        apply (rnd_half F C1 r1 Hr1 (1 - p)); [exact I|]. cbn [prec]. replace (p + (1 - p)) with 1 by lia.
        rewrite Qabs_pos by lra. change (p2 1) with 2%Q. auto. }
      apply (finish r2 r3 r4 0); auto; try lia.
      replace (0 + 1 - p) with (1 - p) by lia. fold q. rewrite pu1.
      destruct (Qlt_le_dec ((3 # 2) * (2 * u) - 4 * (u * (2 * u))) (Qabs (q - q0))) as [B|B]; [exfalso|auto].
      assert (Tq : (Qabs (q - x * y) == q * Qabs (1 - d * y))%Q).
      { rewrite Exy. setoid_replace (q - q * (d * y))%Q with (q * (1 - d * y))%Q by ring. rewrite Qabs_Qmult, (Qabs_pos q) by lra. reflexivity. }
      assert (T1 : (q * Qabs (1 - d * y) <= q * u)%Q) by (rewrite !(Qmult_comm q); apply Qmult_le_compat_r; lra).
      assert (T1s : (q * u < 2 * u)%Q) by (apply Qmult_lt_r; lra).
      assert (Tri : (Qabs (q - q0) <= Qabs (q - x * y) + u)%Q).
      { setoid_replace (q - q0)%Q with ((q - x * y) + - (q0 - x * y))%Q by ring.
        eapply Qle_trans; [apply Qabs_triangle|]. rewrite Qabs_opp. lra. }
      assert (B1 : ((2 - 8 * u) * u < q * u)%Q) by lra.
      assert (B2 : (2 - 8 * u < q)%Q) by (apply (Qmult_lt_r _ _ u); lra).
      assert (B4 : (2 * d - 16 * u < x)%Q).
      { assert (d * (2 - 8 * u) < d * q)%Q by (apply Qmult_lt_l; lra).
        assert (d * u < 2 * u)%Q by (apply Qmult_lt_r; lra). lra. }
      destruct Mq0 as [N HN]. rewrite pu1 in HN.
      assert (EU2 : (inject_Z (2 ^ (p - 1)) * (2 * u) == 1)%Q) by (rewrite EH, inject_Z_mult in EU; change (inject_Z 2) with 2%Q in EU; lra).
      assert (Ed2 : (d * Qabs (q - q0) == inject_Z (Z.abs (X * 2 ^ (p - 1) - D * N)) * (2 * u * (2 * u)))%Q).
      { transitivity (Qabs (d * (q - q0)))%Q; [rewrite Qabs_Qmult, (Qabs_pos d) by lra; reflexivity|].
        setoid_replace (d * (q - q0))%Q with (inject_Z (X * 2 ^ (p - 1) - D * N) * (2 * u * (2 * u)))%Q.
        - rewrite Qabs_mul_pos by (assert (0 < 4 * (u * u))%Q by lra; lra). apply Qmult_comp; [|reflexivity].
          unfold Qabs, inject_Z. reflexivity.
        - setoid_replace (d * (q - q0))%Q with (x - d * q0)%Q by (rewrite Eq; ring). rewrite HN, Hx, Hd.
          rewrite inj_minus, !inject_Z_mult.
          transitivity (inject_Z X * (2 * u) * (inject_Z (2 ^ (p - 1)) * (2 * u)) - inject_Z D * (2 * u) * (inject_Z N * (2 * u)))%Q; [rewrite EU2; ring|ring]. }
      assert (P2u : (0 < 2 * u * (2 * u))%Q) by lra.
      assert (Lo : (d * ((3 # 2) * (2 * u) - 4 * (u * (2 * u))) < d * Qabs (q - q0))%Q) by (apply Qmult_lt_l; lra).
      assert (Hi : (d * Qabs (q - q0) < d * (3 * u))%Q) by (apply Qmult_lt_l; lra).
      assert (P1 : (inject_Z (2 ^ (p - 1)) * (2 * u) == 1)%Q) by exact EU2.
      apply (corner_A (2 ^ (p - 1)) X D N).
      * change 2048 with (2 ^ 11). apply Z.pow_le_mono_r; lia.
      * split.
        -- apply Z.nlt_ge. intros K. rewrite Zlt_Qlt in K.
           assert (inject_Z D * (2 * u) < inject_Z (2 ^ (p - 1)) * (2 * u))%Q by (apply Qmult_lt_r; lra). lra.
        -- rewrite <- EH. apply cmp. lra.
      * rewrite <- EH. apply cmp. lra.
      * apply cmp. rewrite inj_minus, inject_Z_mult. change (inject_Z 2) with 2%Q. change (inject_Z 8) with 8%Q. lra.
      * set (A := Z.abs (X * 2 ^ (p - 1) - D * N)) in *. rewrite Ed2 in Lo.
        assert (K : (inject_Z D * (3 # 2) - 4 < inject_Z A)%Q).
        { apply (Qmult_lt_r _ _ (2 * u * (2 * u))); auto.
          assert (d * (u * u) < 2 * (u * u))%Q by (apply Qmult_lt_r; lra). rewrite Hd in Lo, H. lra. }
        assert (K2 : (inject_Z (3 * D - 8) < inject_Z (2 * A))%Q) by (rewrite inj_minus, !inject_Z_mult; change (inject_Z 3) with 3%Q; change (inject_Z 8) with 8%Q; change (inject_Z 2) with 2%Q; lra).
        rewrite <- Zlt_Qlt in K2. exact K2.
      * set (A := Z.abs (X * 2 ^ (p - 1) - D * N)) in *. rewrite Ed2 in Hi.
        assert (K : (inject_Z A < inject_Z D * (3 # 2))%Q).
        { apply (Qmult_lt_r _ _ (2 * u * (2 * u))); auto. rewrite Hd in Hi. lra. }
        assert (K2 : (inject_Z (2 * A) < inject_Z (3 * D))%Q) by (rewrite !inject_Z_mult; change (inject_Z 3) with 3%Q; change (inject_Z 2) with 2%Q; lra).
        rewrite <- Zlt_Qlt in K2. exact K2.
Qed.
End Core.
