(* Multi-limb blocks evaluated with rounded limb operations: error-free
   transforms and what follows from them. *)
From Coq Require Import ZArith QArith Qround Qabs List Bool Lia Lqa Setoid.
From Verif Require Import QUtil RoundSpec RoundProofs LimbModel.
Import ListNotations.
Open Scope Z_scope.

Lemma nearest_opp : forall F rnd, nearest_in F rnd -> nearest_in F (fun q => - rnd (- q))%Q.
Proof.
  intros F rnd (Hc & Hi & Hn). split; [|split].
  - intros x y E. rewrite (Hc (- x) (- y))%Q; [reflexivity|]. rewrite E. reflexivity.
  - intros x. destruct (Hi (- x)%Q) as (m & e & E & Hm). exists (- m), e.
    rewrite Z.abs_opp. split; auto. rewrite E, inject_Z_opp. ring.
  - intros x f (m & e & E & Hm). 
    assert (Hf : inF F (- f)) by (exists (- m), e; rewrite Z.abs_opp; split; auto; rewrite E, inject_Z_opp; ring).
    pose proof (Hn (- x)%Q (- f)%Q Hf). 
    setoid_replace (- rnd (- x) - x)%Q with (- (rnd (- x) - - x))%Q by ring.
    rewrite Qabs_opp. eapply Qle_trans; [exact H|].
    setoid_replace (- f - - x)%Q with (- (f - x))%Q by ring. rewrite Qabs_opp. lra.
Qed.

Section Round.
Variable F : fmt.
Notation p := (prec F).
Hypothesis Hp : 2 <= p.
Lemma Hp1 : 1 <= p. Proof. clear - Hp; lia. Qed.
#[local] Hint Resolve Hp1 : core.

Section One.
Variable rnd : Q -> Q.
Hypothesis Hr : nearest_in F rnd.

Lemma inF_abs : forall x, inF F x -> inF F (Qabs x).
Proof.
  intros x H. destruct (Qlt_le_dec x 0).
  - apply (inF_comp F (- x)); [rewrite Qabs_neg by lra; reflexivity|]. apply inF_opp; auto.
  - apply (inF_comp F x); [rewrite Qabs_pos by lra; reflexivity|]. auto.
Qed.

Lemma inF_double : forall x, inF F x -> inF F (2 * x).
Proof.
  intros x H. destruct (inF_elim F Hp1 x H) as (e & M & O & B).
  apply (inF_intro F Hp1 (e + 1)).
  - destruct M as [k Hk]. exists k. rewrite Hk, p2_succ. ring.
  - apply (exp_ok_le F e); auto; lia.
  - rewrite Z.add_assoc, p2_succ, Qabs_Qmult. change (Qabs 2) with 2%Q. lra.
Qed.

(* rounding does not go below x/2 on multiples of a possible exponent *)
Lemma rnd_ge_half : forall x z ez, inF F x -> (0 <= x)%Q -> mult ez z -> exp_ok F ez ->
  (x <= 2 * z)%Q -> (x <= 2 * rnd z)%Q.
Proof.
  intros x z ez Hx Px Mz Oz Hz.
  destruct (inF_elim F Hp1 x Hx) as (e & M & O & B).
  assert (D : exp_ok F (e - 1) \/ emin F = Some e).
  { unfold exp_ok in *. destruct (emin F) as [k|]; auto. destruct (Z.eq_dec k e); [right; congruence|left; lia]. }
  destruct D as [D|D].
  - assert (Hf : inF F (x / 2)).
    { apply (inF_intro F Hp1 (e - 1)); auto.
      - destruct M as [k Hk]. exists k. replace e with (e - 1 + 1) in Hk by lia. rewrite p2_succ in Hk.
        rewrite Hk. field.
      - setoid_replace (x / 2)%Q with (x * (1 # 2))%Q by field.
        rewrite Qabs_mul_pos by lra. 
        assert (2 * p2 (p + (e - 1)) == p2 (p + e))%Q by (rewrite <- p2_succ; replace (p + (e - 1) + 1) with (p + e) by lia; reflexivity).
        lra. }
    assert (x / 2 <= rnd z)%Q.
    { apply (rnd_ge_F F rnd Hr); auto. setoid_replace (x / 2)%Q with (x * (1 # 2))%Q by field. lra. }
    setoid_replace (x / 2)%Q with (x * (1 # 2))%Q in H by field. lra.
  - assert (Mz' : mult e z) by (apply (mult_le ez); auto; unfold exp_ok in Oz; rewrite D in Oz; auto).
    destruct M as [k Hk]. destruct Mz' as [j Hj].
    pose proof (p2_pos e) as Pe.
    assert (Hkj : k <= 2 * j).
    { rewrite Hk, Hj in Hz. setoid_replace (2 * (inject_Z j * p2 e))%Q with (inject_Z (2 * j) * p2 e)%Q in Hz
        by (rewrite inject_Z_mult; ring).
      apply Qmult_lt_0_le_reg_r in Hz; auto. rewrite <- Zle_Qle in Hz. exact Hz. }
    assert (Hk0 : 0 <= k).
    { rewrite Hk in Px. setoid_replace 0%Q with (inject_Z 0 * p2 e)%Q in Px by (change (inject_Z 0) with 0%Q; ring).
      apply Qmult_lt_0_le_reg_r in Px; auto. rewrite <- Zle_Qle in Px. exact Px. }
    set (f := (k + 1) / 2).
    assert (Hf1 : k <= 2 * f <= k + 1) by (unfold f; pose proof (Z.div_mod (k + 1) 2); pose proof (Z.mod_pos_bound (k + 1) 2); lia).
    assert (Hf2 : f <= j) by lia.
    assert (Hfk : f <= 2 ^ p).
    { assert (inject_Z k <= inject_Z (2 ^ p))%Q.
      { rewrite Hk, Qabs_mul_pos, <- p2_prec in B by (auto; lia).
        apply Qmult_lt_0_le_reg_r in B; auto. eapply Qle_trans; [apply Qle_Qabs|exact B]. }
      rewrite <- Zle_Qle in H. assert (1 < 2 ^ p) by (apply Z.pow_gt_1; lia). lia. }
    assert (HfF : inF F (inject_Z f * p2 e)) by (exists f, e; split; [reflexivity|split; [lia|auto]]).
    assert (inject_Z f * p2 e <= rnd z)%Q.
    { apply (rnd_ge_F F rnd Hr); auto. rewrite Hj. apply Qmult_le_compat_r; [|lra]. rewrite <- Zle_Qle. exact Hf2. }
    assert (inject_Z k * p2 e <= inject_Z (2 * f) * p2 e)%Q.
    { apply Qmult_le_compat_r; [|lra]. rewrite <- Zle_Qle. lia. }
    rewrite inject_Z_mult in H0. change (inject_Z 2) with 2%Q in H0. rewrite Hk. lra.
Qed.

Lemma p2_mp : (0 < p2 (- p))%Q /\ (4 * p2 (- p) <= 1)%Q.
Proof.
  split; [apply p2_pos|]. pose proof (p2_le (- p) (-2) ltac:(lia)).
  assert ((p2 (-2) == 1 # 4)%Q) by reflexivity. lra.
Qed.

(* C23, Fast2Sum *)
Theorem fasttwosum_exact : forall x y, inF F x -> inF F y -> (Qabs y <= Qabs x)%Q ->
  let '(s, e) := fasttwosum (rounded_ops rnd) x y in
  (s == rnd (x + y))%Q /\ (s + e == x + y)%Q.
Proof.
  intros x y Hx Hy H. cbn. split; [reflexivity|].
  set (s := rnd (x + y)).
  assert (E1 : (rnd (s - x) == s - x)%Q) by (apply (rnd_id F rnd Hr); apply (fast2sum_F F Hp1 rnd Hr); auto).
  assert (E2 : (rnd (y - rnd (s - x)) == y - (s - x))%Q).
  { rewrite (rnd_comp F rnd Hr _ (x + y - s)%Q) by (rewrite E1; ring).
    rewrite (rnd_id F rnd Hr); [ring|]. apply (sum_error_F F Hp1 rnd Hr); auto. }
  rewrite E2. ring.
Qed.

End One.

Lemma near_x : forall rnd, nearest_in F rnd -> forall x y, inF F x -> inF F y -> (0 < x)%Q -> (Qabs y <= x)%Q ->
  let v := rnd (rnd (x + y)%Q - y)%Q in (x <= 2 * v)%Q /\ (v <= 2 * x)%Q.
Proof.
  intros rnd Hr x y Hx Hy Px Hxy. cbn.
  pose proof (sum_rel F Hp1 rnd Hr x y Hx Hy) as S. pose proof p2_mp as [P1 P2].
  assert (Hs : (Qabs (x + y) <= 2 * x)%Q) by qabs_lra.
  assert (B : (Qabs (rnd (x + y)%Q - (x + y)) <= (1 # 2) * x)%Q).
  { assert (p2 (- p) * Qabs (x + y) <= (1 # 4) * Qabs (x + y))%Q.
    { apply Qmult_le_compat_r; [lra|apply Qabs_nonneg]. } lra. }
  apply Qabs_le_iff in B.
  destruct (inF_elim F Hp1 x Hx) as (ex & Mx & Ox & _). destruct (inF_elim F Hp1 y Hy) as (ey & My & Oy & _).
  set (e := Z.min ex ey). assert (O : exp_ok F e) by (apply exp_ok_min; auto).
  assert (Mx' : mult e x) by (apply (mult_le ex); auto; lia).
  assert (My' : mult e y) by (apply (mult_le ey); auto; lia).
  assert (M : mult e (rnd (x + y)%Q - y)).
  { apply mult_minus; auto. apply (rnd_mult F Hp1 rnd Hr); auto. apply mult_plus; auto. }
  split.
  - apply (rnd_ge_half rnd Hr x _ e); auto; lra.
  - apply (rnd_le_F F rnd Hr); [apply inF_double; auto|]. lra.
Qed.

(* C23, TwoSum *)
Theorem twosum_exact : forall rnd x y, nearest_in F rnd -> inF F x -> inF F y ->
  let '(s, e) := twosum (rounded_ops rnd) x y in
  (s == rnd (x + y)%Q)%Q /\ (s + e == x + y)%Q.
Proof.
  intros rnd x y Hr Hx Hy. cbn. split; [reflexivity|].
  set (s := rnd (x + y)%Q). set (x' := rnd (s - y)%Q). set (y' := rnd (s - x')%Q).
  assert (He : inF F (x + y - s)) by (apply (sum_error_F F Hp1 rnd Hr); auto).
  assert (Main : (y' == s - x')%Q /\ inF F (x - x') /\ inF F (y - y')).
  { destruct (Qlt_le_dec (Qabs y) (Qabs x)) as [L|L].
    2:{ assert (Ex : (x' == s - y)%Q).
        { apply (rnd_id F rnd Hr). apply (inF_comp F (rnd (y + x)%Q - y)).
          - unfold s. rewrite (rnd_comp F rnd Hr (y + x) (x + y)) by ring. reflexivity.
          - apply (fast2sum_F F Hp1 rnd Hr); auto. }
        assert (Ey : (y' == y)%Q).
        { unfold y'. rewrite (rnd_comp F rnd Hr _ y) by (rewrite Ex; ring). apply (rnd_id F rnd Hr); auto. }
        split; [rewrite Ey, Ex; ring|]. split.
        - apply (inF_comp F (x + y - s)); auto. rewrite Ex. ring.
        - apply (inF_comp F 0); [rewrite Ey; ring|apply inF_0; auto]. }
    assert (Hdec : inF F (x + y) \/ (Qabs y <= Qabs (x + y))%Q).
    { destruct (Qlt_le_dec x 0) as [X|X]; destruct (Qlt_le_dec y 0) as [Y|Y].
      - right. qabs_lra.
      - destruct (Qlt_le_dec (- x) (2 * y)) as [C|C].
        + left. apply (inF_comp F (y - - x)); [ring|]. apply sterbenz; auto; [apply inF_opp; auto| |]; qabs_lra.
        + right. qabs_lra.
      - destruct (Qlt_le_dec x (2 * - y)) as [C|C].
        + left. apply (inF_comp F (x - - y)); [ring|]. apply sterbenz; auto; [apply inF_opp; auto| |]; qabs_lra.
        + right. qabs_lra.
      - right. qabs_lra. }
    destruct Hdec as [Hd|Hd].
    - assert (Es : (s == x + y)%Q) by (apply (rnd_id F rnd Hr); auto).
      assert (Ex : (x' == x)%Q).
      { unfold x'. rewrite (rnd_comp F rnd Hr _ x) by (rewrite Es; ring). apply (rnd_id F rnd Hr); auto. }
      assert (Ey : (y' == y)%Q).
      { unfold y'. rewrite (rnd_comp F rnd Hr _ y) by (rewrite Ex, Es; ring). apply (rnd_id F rnd Hr); auto. }
      split; [rewrite Ey, Ex, Es; ring|].
      split; (apply (inF_comp F 0); [rewrite ?Ex, ?Ey; ring|apply inF_0; auto]).
    - assert (Hs : (Qabs (- y) <= Qabs s)%Q).
      { rewrite Qabs_opp. apply (rnd_abs_ge_F F Hp1 rnd Hr); auto; [apply inF_abs; auto|apply Qabs_nonneg]. }
      assert (Fs : inF F s) by (apply (rnd_inF F rnd Hr)).
      assert (Hy' : (y' == s - x')%Q).
      { apply (rnd_id F rnd Hr). apply (inF_opp_inv F Hp1). 
        apply (inF_comp F (rnd (s + - y)%Q - s)); [unfold x'; unfold Qminus at 2 3; ring|].
        apply (fast2sum_F F Hp1 rnd Hr); auto. apply inF_opp; auto. }
      split; auto. split.
      + destruct (Qlt_le_dec 0 x) as [Px|Nx].
        * pose proof (near_x rnd Hr x y Hx Hy Px ltac:(qabs_lra)) as [N1 N2].
          apply sterbenz; auto. apply (rnd_inF F rnd Hr).
        * destruct (Qeq_dec x 0) as [Zx|Zx]; [exfalso; qabs_lra|].
          pose proof (near_x _ (nearest_opp F rnd Hr) (- x) (- y) ltac:(apply inF_opp; auto) ltac:(apply inF_opp; auto) ltac:(lra) ltac:(rewrite Qabs_opp; qabs_lra)) as [N1 N2].
          assert (E : (rnd (- (- rnd (- (- x + - y)) - - y)) == x')%Q).
          { unfold x', s. apply (rnd_comp F rnd Hr). rewrite (rnd_comp F rnd Hr (- (- x + - y)) (x + y)) by ring. ring. }
          rewrite E in N1, N2.
          apply sterbenz_neg; auto; [apply (rnd_inF F rnd Hr)|lra|lra].
      + apply (inF_opp_inv F Hp1). apply (inF_comp F (s + - y - rnd (s + - y)%Q)).
        * rewrite Hy'. unfold x'. unfold Qminus. ring.
        * apply (sum_error_F F Hp1 rnd Hr); auto. apply inF_opp; auto. }
  destruct Main as (Ey & Fx & Fy).
  rewrite (rnd_comp F rnd Hr (rnd (x - x')%Q + rnd (y - y')%Q) (x + y - s)).
  - rewrite (rnd_id F rnd Hr _ He). ring.
  - rewrite (rnd_id F rnd Hr _ Fx), (rnd_id F rnd Hr _ Fy), Ey. ring.
Qed.

End Round.
