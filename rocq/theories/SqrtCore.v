(* From a value w whose square is within 20 u^2 of v to the correctly rounded
   square root: the exceptions are the v which are too close to the square of
   a middle of two numbers; these are solutions of n^2 + n = M 2^(p-1) + c. *)
From Coq Require Import ZArith QArith Qround Qabs List Bool Lia Lqa Setoid.
From Verif Require Import QUtil RoundSpec RoundProofs SqrtSpec DivCore DivProofs.
From Verif Require Import SqrtErr.
Import ListNotations.
Open Scope Z_scope.

Lemma sq_lt_inv : forall a b, (0 <= b)%Q -> (a * a < b * b)%Q -> (a < b)%Q.
Proof.
  intros a b Hb H. destruct (Qlt_le_dec a b) as [L|L]; auto. exfalso.
  assert (0 <= (a - b) * (a + b))%Q by (apply Qmult_le_0_compat; lra). lra.
Qed.
Lemma sq_le_mono : forall a b, (0 <= a)%Q -> (a <= b)%Q -> (a * a <= b * b)%Q.
Proof. intros a b H L. assert (0 <= (b - a) * (a + b))%Q by (apply Qmult_le_0_compat; lra). lra. Qed.
Lemma sq_lt_mono : forall a b, (0 <= a)%Q -> (a < b)%Q -> (a * a < b * b)%Q.
Proof. intros a b H L. assert (0 < (b - a) * (a + b))%Q by (apply Qmult_lt_0_compat; lra). lra. Qed.

Section Hard.
Variables (F : fmt) (rnd : Q -> Q) (j M : Z) (v w : Q).
Notation p := (prec F).
Notation u := (p2 (- prec F)).
Notation ulp := (p2 (j + 1 - prec F)).
Hypothesis Hp : 12 <= p.
Hypothesis Hr : nearest_in F rnd.
Hypothesis Hj : exp_ok F (j - p).
Hypothesis Ev : (v == inject_Z M * p2 (2 * j + 1 - p))%Q.
Hypothesis HM : 2 ^ (p - 1) <= M <= 2 ^ (p + 1) - 2.

Let Hp1 : 1 <= p. Proof. lia. Qed.

Lemma ulp_pos : (0 < ulp)%Q. Proof. apply p2_pos. Qed.
Lemma hu12 : (4096 * u <= 1)%Q.
Proof.
  pose proof (p2_le (- p) (-12) ltac:(lia)) as H.
  change (p2 (-12)) with (1 # 4096)%Q in H. lra.
Qed.
Lemma pj : (p2 j == inject_Z (2 ^ (p - 1)) * ulp)%Q.
Proof. rewrite p2_prec by lia. replace (p - 1 + (j + 1 - p)) with j by lia. reflexivity. Qed.
Lemma pj1 : (p2 (j + 1) == inject_Z (2 ^ p) * ulp)%Q.
Proof. rewrite p2_prec by lia. replace (p + (j + 1 - p)) with (j + 1) by lia. reflexivity. Qed.
Lemma ulp2 : (p2 (2 * j + 1 - p) == inject_Z (2 ^ (p - 1)) * (ulp * ulp))%Q.
Proof.
  rewrite <- p2_plus, p2_prec by lia. replace (p - 1 + (j + 1 - p + (j + 1 - p))) with (2 * j + 1 - p) by lia. reflexivity.
Qed.
Lemma Ev4 : (4 * v == inject_Z (M * 2 ^ (p + 1)) * (ulp * ulp))%Q.
Proof.
  rewrite Ev, ulp2, inject_Z_mult. replace (2 ^ (p + 1)) with (4 * 2 ^ (p - 1)).
  2:{ replace (p + 1) with (2 + (p - 1)) by lia. rewrite Z.pow_add_r by lia. reflexivity. }
  rewrite inject_Z_mult. change (inject_Z 4) with 4%Q. ring.
Qed.

(* 2^(2j) <= v < 2^(2j+2) (1 - u) *)
Lemma v_low : (p2 j * p2 j <= v)%Q.
Proof.
  rewrite Ev. rewrite <- p2_plus. 
  assert (E : (p2 (j + j) == inject_Z (2 ^ (p - 1)) * p2 (2 * j + 1 - p))%Q).
  { rewrite p2_prec by lia. replace (p - 1 + (2 * j + 1 - p)) with (j + j) by lia. reflexivity. }
  rewrite E. apply Qmult_le_compat_r; [rewrite <- Zle_Qle; lia|]. pose proof (p2_pos (2 * j + 1 - p)); lra.
Qed.
Lemma v_high : (v <= p2 (j + 1) * p2 (j + 1) * (1 - u))%Q.
Proof.
  rewrite Ev. rewrite <- p2_plus.
  assert (E : (p2 (j + 1 + (j + 1)) == inject_Z (2 ^ (p + 1)) * p2 (2 * j + 1 - p))%Q).
  { rewrite p2_prec by lia. replace (p + 1 + (2 * j + 1 - p)) with (j + 1 + (j + 1)) by lia. reflexivity. }
  rewrite E. 
  assert (E2 : (inject_Z (2 ^ (p + 1)) * u == 2)%Q).
  { rewrite p2_prec by lia. replace (p + 1 + - p) with 1 by lia. reflexivity. }
  setoid_replace (inject_Z (2 ^ (p + 1)) * p2 (2 * j + 1 - p) * (1 - u))%Q
    with ((inject_Z (2 ^ (p + 1)) - inject_Z (2 ^ (p + 1)) * u) * p2 (2 * j + 1 - p))%Q by ring.
  rewrite E2. apply Qmult_le_compat_r; [|pose proof (p2_pos (2 * j + 1 - p)); lra].
  change 2%Q with (inject_Z 2). rewrite <- inj_minus, <- Zle_Qle. lia.
Qed.

(* numbers of the format around sqrt v are multiples of the ulp *)
Lemma grid_mult : forall f, inF F f -> (p2 j <= f)%Q -> mult (j + 1 - p) f.
Proof.
  intros f Hf Hl. destruct (Qlt_le_dec (p2 j) f) as [L|L].
  - apply (inF_big F Hp1); auto. replace (p + (j + 1 - p) - 1) with j by lia.
    rewrite Qabs_pos; auto. pose proof (p2_pos j); lra.
  - apply (mult_comp _ (p2 j)); [lra|]. apply mult_p2. lia.
Qed.
Lemma grid_F : forall k, 0 <= k <= 2 ^ p -> inF F (inject_Z k * ulp).
Proof.
  intros k Hk. apply (inF_intro F Hp1 (j + 1 - p)); [exists k; reflexivity| |].
  - apply (exp_ok_le F (j - p)); auto. lia.
  - replace (p + (j + 1 - p)) with (j + 1) by lia. rewrite pj1.
    rewrite Qabs_pos.
    + apply Qmult_le_compat_r; [rewrite <- Zle_Qle; lia|pose proof ulp_pos; lra].
    + apply Qmult_le_0_compat; [change 0%Q with (inject_Z 0); rewrite <- Zle_Qle; lia|pose proof ulp_pos; lra].
Qed.
Lemma ulp_le : forall a b, a <= b -> (inject_Z a * ulp <= inject_Z b * ulp)%Q.
Proof. intros a b H. apply Qmult_le_compat_r; [rewrite <- Zle_Qle; auto|pose proof ulp_pos; lra]. Qed.
Lemma ulp_lt_inv : forall a b, (inject_Z a * ulp < inject_Z b * ulp)%Q -> a < b.
Proof. intros a b H. apply Qmult_lt_r in H; [|apply ulp_pos]. rewrite <- Zlt_Qlt in H. auto. Qed.
Lemma ulp_le_inv : forall a b, (inject_Z a * ulp <= inject_Z b * ulp)%Q -> a <= b.
Proof. intros a b H. apply Qmult_le_r in H; [|apply ulp_pos]. rewrite <- Zle_Qle in H. auto. Qed.

(* sufficient condition, with integers only *)
Lemma sqrt_rn_intro : forall k R, (R == inject_Z k * ulp)%Q -> 2 ^ (p - 1) <= k <= 2 ^ p ->
  (2 * k - 1) * (2 * k - 1) <= M * 2 ^ (p + 1) -> M * 2 ^ (p + 1) <= (2 * k + 1) * (2 * k + 1) ->
  sqrt_rn F v R.
Proof.
  intros k R ER Hk L1 L2. pose proof ulp_pos as Pu. pose proof (p2_pos j) as Pj.
  assert (Hpp : 0 < 2 ^ (p - 1)) by (apply Z.pow_pos_nonneg; lia).
  assert (R0 : (0 <= R)%Q).
  { rewrite ER. apply Qmult_le_0_compat; [change 0%Q with (inject_Z 0); rewrite <- Zle_Qle; lia|lra]. }
  assert (PR : (p2 j <= R)%Q) by (rewrite ER, pj; apply ulp_le; lia).
  assert (sqz : forall z, ((inject_Z z * ulp) * (inject_Z z * ulp) == inject_Z (z * z) * (ulp * ulp))%Q).
  { intros z. rewrite inject_Z_mult. ring. }
  split; [|split; [exact R0|]].
  { apply (inF_comp F (inject_Z k * ulp)); [symmetry; auto|]. apply grid_F. lia. }
  intros f Hf f0. split; intros L.
  - destruct (Qlt_le_dec (p2 j) f) as [G|G].
    + destruct (grid_mult f Hf ltac:(lra)) as [i Ei].
      rewrite Ei, ER in L. apply ulp_lt_inv in L.
      apply (Qle_trans _ ((inject_Z (2 * k - 1) * ulp) * (inject_Z (2 * k - 1) * ulp))).
      * apply sq_le_mono; [lra|]. rewrite Ei, ER.
        setoid_replace (inject_Z i * ulp + inject_Z k * ulp)%Q with (inject_Z (i + k) * ulp)%Q by (rewrite inject_Z_plus; ring).
        apply ulp_le. lia.
      * rewrite sqz, Ev4. apply Qmult_le_compat_r; [rewrite <- Zle_Qle; lia|]. apply Qmult_le_0_compat; lra.
    + destruct (Z.eq_dec k (2 ^ (p - 1))) as [Ek|Nk].
      * assert (ER' : (R == p2 j)%Q) by (rewrite ER, pj, Ek; reflexivity).
        apply (Qle_trans _ ((2 * p2 j) * (2 * p2 j))); [apply sq_le_mono; lra|].
        pose proof v_low. lra.
      * apply (Qle_trans _ ((inject_Z (2 * k - 1) * ulp) * (inject_Z (2 * k - 1) * ulp))).
        -- apply sq_le_mono; [lra|]. rewrite ER.
           assert (f <= inject_Z (k - 1) * ulp)%Q.
           { apply (Qle_trans _ (p2 j)); auto. rewrite pj. apply ulp_le. lia. }
           setoid_replace (inject_Z (2 * k - 1) * ulp)%Q with (inject_Z (k - 1) * ulp + inject_Z k * ulp)%Q.
           { lra. } replace (2 * k - 1) with (k - 1 + k) by lia. rewrite inject_Z_plus. ring.
        -- rewrite sqz, Ev4. apply Qmult_le_compat_r; [rewrite <- Zle_Qle; lia|]. apply Qmult_le_0_compat; lra.
  - destruct (grid_mult f Hf ltac:(lra)) as [i Ei].
    rewrite Ei, ER in L. apply ulp_lt_inv in L.
    apply (Qle_trans _ ((inject_Z (2 * k + 1) * ulp) * (inject_Z (2 * k + 1) * ulp))).
    + rewrite sqz, Ev4. apply Qmult_le_compat_r; [rewrite <- Zle_Qle; lia|]. apply Qmult_le_0_compat; lra.
    + apply sq_le_mono.
      * apply Qmult_le_0_compat; [change 0%Q with (inject_Z 0); rewrite <- Zle_Qle; lia|lra].
      * rewrite Ei, ER.
        setoid_replace (inject_Z i * ulp + inject_Z k * ulp)%Q with (inject_Z (i + k) * ulp)%Q by (rewrite inject_Z_plus; ring).
        apply ulp_le. lia.
Qed.

Hypothesis Hw : (0 < w)%Q.
Hypothesis Hclose : (Qabs (v - w * w) <= 20 * (u * u) * v)%Q.

Lemma u2v : (u * u * v < ulp * ulp)%Q.
Proof.
  pose proof v_high as H. pose proof (p2_pos (- p)) as Pu. pose proof (p2_pos (j + 1)) as P1.
  assert (E : (ulp == u * p2 (j + 1))%Q) by (rewrite <- p2_plus; replace (- p + (j + 1)) with (j + 1 - p) by lia; reflexivity).
  rewrite E. set (a := p2 (j + 1)) in *. 
  assert (A2 : (0 < a * a)%Q) by (apply Qmult_lt_0_compat; auto).
  assert (Hlt : (v < a * a)%Q).
  { assert (0 < a * a * u)%Q by (apply Qmult_lt_0_compat; auto). lra. }
  setoid_replace (u * a * (u * a))%Q with (u * u * (a * a))%Q by ring.
  apply Qmult_lt_l; auto. apply Qmult_lt_0_compat; auto.
Qed.

Lemma w_bounds : (w < p2 (j + 1))%Q /\ ((p2 j * p2 j) * (1 - 20 * (u * u)) <= w * w)%Q.
Proof.
  pose proof v_high as H. pose proof v_low as L. pose proof hu12 as U. pose proof (p2_pos (- p)) as Pu. pose proof (p2_pos (j + 1)) as P1. pose proof (p2_pos j) as Pj.
  apply Qabs_le_iff in Hclose. destruct Hclose as [C1 C2].
  destruct (ux u ltac:(lra) U u ltac:(lra)) as [uu0 uu].
  destruct (ux u ltac:(lra) U (u * u) uu0) as [uuu0 uuu].
  split.
  - apply sq_lt_inv; [lra|]. set (a := p2 (j + 1)) in *. set (q := u) in *. clearbody q a.
    assert (A2 : (0 < a * a)%Q) by (apply Qmult_lt_0_compat; auto).
    assert (X : (v * (1 + 20 * (q * q)) <= a * a * (1 - q) * (1 + 20 * (q * q)))%Q).
    { apply Qmult_le_compat_r; lra. }
    assert (Y : (0 < a * a * (q - 20 * (q * q) + 20 * (q * (q * q))))%Q).
    { apply Qmult_lt_0_compat; auto. lra. }
    lra.
  - set (b := (p2 j * p2 j)%Q) in *. set (q := u) in *. clearbody q b.
    assert (b * (1 - 20 * (q * q)) <= v * (1 - 20 * (q * q)))%Q by (apply Qmult_le_compat_r; lra).
    lra.
Qed.

Lemma mid_sq : forall n, ((inject_Z (n + 1) * ulp + inject_Z n * ulp) * (inject_Z (n + 1) * ulp + inject_Z n * ulp) - 4 * v
  == inject_Z (4 * (n * n + n - M * 2 ^ (p - 1)) + 1) * (ulp * ulp))%Q.
Proof.
  intros n. rewrite Ev4.
  replace (4 * (n * n + n - M * 2 ^ (p - 1)) + 1) with ((n + 1 + n) * (n + 1 + n) - M * 2 ^ (p + 1)).
  2:{ replace (2 ^ (p + 1)) with (4 * 2 ^ (p - 1)). 1: ring.
      replace (p + 1) with (2 + (p - 1)) by lia. rewrite Z.pow_add_r by lia. reflexivity. }
  rewrite inj_minus, !inject_Z_mult, !inject_Z_plus. ring.
Qed.

Lemma c_range : forall c, (- (80) * (u * u * v) <= inject_Z (4 * c + 1) * (ulp * ulp))%Q ->
  (inject_Z (4 * c + 1) * (ulp * ulp) <= 80 * (u * u * v))%Q -> -20 <= c <= 19.
Proof.
  intros c L1 L2. pose proof u2v as U. pose proof ulp_pos as P.
  assert (P2 : (0 < ulp * ulp)%Q) by (apply Qmult_lt_0_compat; auto).
  set (a := (ulp * ulp)%Q) in *. clearbody a.
  assert (X : (inject_Z (4 * c + 1) * a < inject_Z 80 * a)%Q) by (change (inject_Z 80) with 80%Q; lra).
  assert (Y : (inject_Z (-80) * a < inject_Z (4 * c + 1) * a)%Q) by (change (inject_Z (-80)) with (-(80))%Q; lra).
  apply Qmult_lt_r in X; auto. apply Qmult_lt_r in Y; auto. rewrite <- Zlt_Qlt in X, Y. lia.
Qed.

(* exceptions: v is close to the square of the middle of two numbers *)
Theorem hard_case :
  (forall n c, 2 ^ (p - 1) <= n < 2 ^ p -> -20 <= c <= 19 -> n * n + n = M * 2 ^ (p - 1) + c -> sqrt_rn F v (rnd w)) ->
  sqrt_rn F v (rnd w).
Proof.
  intros HC. pose proof ulp_pos as Pu. pose proof (p2_pos j) as Pj. pose proof (p2_pos (j + 1)) as Pj1.
  pose proof v_low as VL. pose proof v_high as VH. destruct w_bounds as [W1 W2].
  pose proof hu12 as U. pose proof (p2_pos (- p)) as P0.
  destruct (ux u ltac:(lra) U u ltac:(lra)) as [uu0 uu].
  assert (Hpp : 0 < 2 ^ (p - 1)) by (apply Z.pow_pos_nonneg; lia).
  assert (Hpp2 : 2 ^ p = 2 * 2 ^ (p - 1)).
  { replace p with (1 + (p - 1)) at 1 by lia. rewrite Z.pow_add_r by lia. reflexivity. }
  assert (R0 : (0 <= rnd w)%Q) by (apply (rnd_ge_F F rnd Hr); [apply inF_0; auto|lra]).
  assert (Rup : (rnd w <= p2 (j + 1))%Q).
  { apply (rnd_le_F F rnd Hr); [|lra]. apply (inF_comp F (inject_Z (2 ^ p) * ulp)); [symmetry; apply pj1|]. apply grid_F. lia. }
  pose proof (rnd_inF F rnd Hr w) as RF.
  set (R := rnd w) in *.
  assert (near_lo : forall f, inF F f -> (f < R)%Q -> (f + R <= 2 * w)%Q).
  { intros f Hf L. pose proof (rnd_near F rnd Hr w f Hf) as N. fold R in N. clearbody R. qabs_lra. }
  assert (near_hi : forall f, inF F f -> (R < f)%Q -> (2 * w <= f + R)%Q).
  { intros f Hf L. pose proof (rnd_near F rnd Hr w f Hf) as N. fold R in N. clearbody R. qabs_lra. }
  clearbody R. apply Qabs_le_iff in Hclose. destruct Hclose as [C1 C2].
  split; [exact RF|]. split; [exact R0|]. intros f Hf f0. split; intros L.
  - destruct (Qlt_le_dec (4 * v) ((f + R) * (f + R))) as [B|]; [|assumption].
    assert (RL : (p2 j < R)%Q).
    { assert (4 * (p2 j * p2 j) < (2 * R) * (2 * R))%Q.
      { apply (Qlt_le_trans _ ((f + R) * (f + R))); [lra|]. apply sq_le_mono; lra. }
      apply sq_lt_inv; auto. lra. }
    destruct (grid_mult R RF ltac:(lra)) as [k Ek].
    assert (Hk : 2 ^ (p - 1) < k <= 2 ^ p).
    { split; [apply ulp_lt_inv; rewrite <- pj, <- Ek; exact RL|apply ulp_le_inv; rewrite <- pj1, <- Ek; exact Rup]. }
    set (n := k - 1). assert (En : k = n + 1) by (unfold n; lia).
    assert (Fn : inF F (inject_Z n * ulp)) by (apply grid_F; lia).
    assert (Ln : (inject_Z n * ulp < R)%Q).
    { rewrite Ek. apply Qmult_lt_r; auto. rewrite <- Zlt_Qlt. lia. }
    assert (Lf : (f <= inject_Z n * ulp)%Q).
    { destruct (Qlt_le_dec (p2 j) f) as [G|G].
      - destruct (grid_mult f Hf ltac:(lra)) as [i Ei]. rewrite Ei in *. apply ulp_le.
        rewrite Ek in L. apply ulp_lt_inv in L. lia.
      - apply (Qle_trans _ (p2 j)); auto. rewrite pj. apply ulp_le. lia. }
    pose proof (near_lo _ Fn Ln) as NL.
    assert (n0 : (0 <= inject_Z n * ulp)%Q) by lra.
    assert (S1 : ((f + R) * (f + R) <= (R + inject_Z n * ulp) * (R + inject_Z n * ulp))%Q) by (apply sq_le_mono; lra).
    assert (S2 : ((R + inject_Z n * ulp) * (R + inject_Z n * ulp) <= (2 * w) * (2 * w))%Q) by (apply sq_le_mono; lra).
    pose proof (mid_sq n) as Mid. rewrite <- En, <- Ek in Mid.
    assert (Z0 : (0 <= u * u * v)%Q) by (apply Qmult_le_0_compat; [lra|pose proof (Qmult_lt_0_compat _ _ Pj Pj); lra]).
    assert (Cr : -20 <= n * n + n - M * 2 ^ (p - 1) <= 19).
    { apply c_range; rewrite <- Mid; lra. }
    destruct (HC n (n * n + n - M * 2 ^ (p - 1)) ltac:(lia) Cr ltac:(lia)) as (_ & _ & K).
    apply (K f Hf f0). exact L.
  - destruct (Qlt_le_dec ((f + R) * (f + R)) (4 * v)) as [B|]; [|assumption].
    assert (RL : (p2 j <= R)%Q).
    { destruct (Qlt_le_dec R (p2 j)) as [RL|]; [exfalso|assumption].
      assert (Fj : inF F (p2 j)).
      { apply (inF_comp F (inject_Z (2 ^ (p - 1)) * ulp)); [symmetry; apply pj|]. apply grid_F. lia. }
      pose proof (near_hi _ Fj RL) as N.
      assert (RU : (R <= p2 j * (1 - u))%Q).
      { assert (E1 : (p2 j * (1 - u) == inject_Z (2 ^ p - 1) * p2 (j - p))%Q).
        { rewrite inj_minus. change (inject_Z 1) with 1%Q.
          setoid_replace ((inject_Z (2 ^ p) - 1) * p2 (j - p))%Q with (inject_Z (2 ^ p) * p2 (j - p) - p2 (j - p))%Q by ring.
          rewrite p2_prec by lia. replace (p + (j - p)) with j by lia.
          assert (E2 : (p2 j * u == p2 (j - p))%Q) by (rewrite <- p2_plus; replace (j + - p) with (j - p) by lia; reflexivity).
          rewrite <- E2. ring. }
        rewrite E1. destruct (Qlt_le_dec (p2 (j - 1)) R) as [G|G].
        - apply mult_lt_le.
          + apply (inF_big F Hp1); auto. replace (p + (j - p) - 1) with (j - 1) by lia. rewrite Qabs_pos; auto.
          + replace (2 ^ p - 1 + 1) with (2 ^ p) by lia. rewrite p2_prec by lia. replace (p + (j - p)) with j by lia. exact RL.
        - rewrite <- E1. apply (Qle_trans _ (p2 (j - 1))); auto.
          assert (E3 : (p2 j == 2 * p2 (j - 1))%Q) by (rewrite <- p2_succ; replace (j - 1 + 1) with j by lia; reflexivity).
          rewrite E3. assert (0 < p2 (j - 1))%Q by apply p2_pos.
          assert (0 <= p2 (j - 1) * (1 - 2 * u))%Q by (apply Qmult_le_0_compat; lra). lra. }
      assert (W3 : (w <= p2 j * (1 - (1 # 2) * u))%Q) by lra.
      assert (W4 : (w * w <= (p2 j * (1 - (1 # 2) * u)) * (p2 j * (1 - (1 # 2) * u)))%Q) by (apply sq_le_mono; lra).
      set (b := p2 j) in *. set (q := u) in *. clearbody q b.
      assert (b2 : (0 < b * b)%Q) by (apply Qmult_lt_0_compat; auto).
      assert (0 < b * b * (q - (1 # 4) * (q * q) - 20 * (q * q)))%Q by (apply Qmult_lt_0_compat; [auto|lra]).
      lra. }
    destruct (grid_mult R RF RL) as [n En].
    assert (LR : (R < p2 (j + 1))%Q).
    { destruct (Qlt_le_dec R (p2 (j + 1))) as [|G]; [assumption|exfalso].
      assert ((2 * p2 (j + 1)) * (2 * p2 (j + 1)) <= (f + R) * (f + R))%Q by (apply sq_le_mono; lra).
      assert (0 < p2 (j + 1) * p2 (j + 1) * u)%Q by (repeat apply Qmult_lt_0_compat; auto). lra. }
    assert (Hn : 2 ^ (p - 1) <= n < 2 ^ p).
    { split; [apply ulp_le_inv; rewrite <- pj, <- En; exact RL|apply ulp_lt_inv; rewrite <- pj1, <- En; exact LR]. }
    assert (Fn : inF F (inject_Z (n + 1) * ulp)) by (apply grid_F; lia).
    assert (Ln : (R < inject_Z (n + 1) * ulp)%Q).
    { rewrite En. apply Qmult_lt_r; auto. rewrite <- Zlt_Qlt. lia. }
    assert (Lf : (inject_Z (n + 1) * ulp <= f)%Q).
    { destruct (grid_mult f Hf ltac:(lra)) as [i Ei]. rewrite Ei in *. apply ulp_le.
      rewrite En in L. apply ulp_lt_inv in L. lia. }
    pose proof (near_hi _ Fn Ln) as NL.
    assert (S1 : ((inject_Z (n + 1) * ulp + R) * (inject_Z (n + 1) * ulp + R) <= (f + R) * (f + R))%Q) by (apply sq_le_mono; lra).
    assert (S2 : ((2 * w) * (2 * w) <= (inject_Z (n + 1) * ulp + R) * (inject_Z (n + 1) * ulp + R))%Q) by (apply sq_le_mono; lra).
    pose proof (mid_sq n) as Mid. rewrite <- En in Mid.
    assert (Z0 : (0 <= u * u * v)%Q) by (apply Qmult_le_0_compat; [lra|pose proof (Qmult_lt_0_compat _ _ Pj Pj); lra]).
    assert (Cr : -20 <= n * n + n - M * 2 ^ (p - 1) <= 19).
    { apply c_range; rewrite <- Mid; lra. }
    destruct (HC n (n * n + n - M * 2 ^ (p - 1)) ltac:(lia) Cr ltac:(lia)) as (_ & _ & K).
    apply (K f Hf f0). exact L.
Qed.

End Hard.

(* ---- the exceptions ---- *)

(* solutions of n^2 + n = c modulo 2^k *)
Fixpoint sols (c : Z) (k : nat) : list Z :=
  match k with
  | O => [0]
  | S k' =>
      filter (fun n => (n * n + n - c) mod 2 ^ Z.of_nat k =? 0)
             (flat_map (fun a => [a; a + 2 ^ Z.of_nat k']) (sols c k'))
  end.

Lemma sols_complete : forall c k n, (n * n + n - c) mod 2 ^ Z.of_nat k = 0 -> In (n mod 2 ^ Z.of_nat k) (sols c k).
Proof.
  induction k as [|k IH]; intros n H.
  - cbn. left. rewrite Z.mod_1_r. reflexivity.
  - cbn [sols]. apply filter_In.
    assert (Pk : 0 < 2 ^ Z.of_nat k) by (apply Z.pow_pos_nonneg; lia).
    assert (E2 : 2 ^ Z.of_nat (S k) = 2 ^ Z.of_nat k * 2).
    { rewrite Nat2Z.inj_succ, Z.pow_succ_r by lia. lia. }
    assert (Hk : (n * n + n - c) mod 2 ^ Z.of_nat k = 0).
    { apply Z.mod_divide; [lia|]. apply Z.mod_divide in H; [|lia]. rewrite E2 in H.
      destruct H as [q Hq]. exists (q * 2). lia. }
    split.
    + apply in_flat_map. exists (n mod 2 ^ Z.of_nat k). split; [apply IH; auto|].
      rewrite E2, Z.rem_mul_r by lia.
      pose proof (Z.mod_pos_bound (n / 2 ^ Z.of_nat k) 2 ltac:(lia)) as B.
      cbn [In]. assert (C : (n / 2 ^ Z.of_nat k) mod 2 = 0 \/ (n / 2 ^ Z.of_nat k) mod 2 = 1) by lia.
      destruct C as [-> | ->]; [left; lia|right; left; lia].
    + apply Z.eqb_eq. set (m := 2 ^ Z.of_nat (S k)) in *.
      assert (Pm : 0 < m) by (unfold m; apply Z.pow_pos_nonneg; lia).
      apply Z.mod_divide in H; [|lia]. apply Z.mod_divide; [lia|].
      destruct H as [q Hq]. rewrite (Z.div_mod n m) in Hq by lia.
      set (r := n mod m) in *. set (t := n / m) in *. clearbody r t m.
      exists (q - t * m * t - 2 * t * r - t). rewrite !Z.mul_sub_distr_r. lia.
Qed.

(* all of them, with the v they stand for *)
Definition exceptions (p : Z) : list Z :=
  flat_map (fun i =>
    let c := Z.of_nat i - 20 in
    map (fun a => let n := a + 2 ^ (p - 1) in (n * n + n - c) / 2 ^ (p - 1)) (sols c (Z.to_nat (p - 1)))) (seq 0 40).

Lemma exceptions_complete : forall p n c M, 1 <= p -> 2 ^ (p - 1) <= n < 2 ^ p -> -20 <= c <= 19 ->
  n * n + n = M * 2 ^ (p - 1) + c -> In M (exceptions p).
Proof.
  intros p n c M Hp Hn Hc E. unfold exceptions. apply in_flat_map.
  exists (Z.to_nat (c + 20)). split; [apply in_seq; lia|].
  rewrite Z2Nat.id by lia. replace (c + 20 - 20) with c by lia.
  assert (Pk : 0 < 2 ^ (p - 1)) by (apply Z.pow_pos_nonneg; lia).
  assert (E2 : 2 ^ p = 2 ^ (p - 1) * 2).
  { replace p with (Z.succ (p - 1)) at 1 by lia. rewrite Z.pow_succ_r by lia. lia. }
  apply in_map_iff. exists (n mod 2 ^ (p - 1)). split.
  - assert (En : n mod 2 ^ (p - 1) = n - 2 ^ (p - 1)).
    { symmetry. apply (Z.mod_unique_pos _ _ 1); lia. }
    rewrite En. replace (n - 2 ^ (p - 1) + 2 ^ (p - 1)) with n by lia.
    replace (n * n + n - c) with (M * 2 ^ (p - 1)) by lia. apply Z.div_mul. lia.
  - rewrite <- (Z2Nat.id (p - 1)) at 1 by lia. apply sols_complete.
    rewrite Z2Nat.id by lia. replace (n * n + n - c) with (M * 2 ^ (p - 1)) by lia. apply Z.mod_mul. lia.
Qed.
