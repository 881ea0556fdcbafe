(* Multi-limb blocks with rounded operations: exactness of the blocks the code
   declares exact, relative error of the double-word blocks against the bounds
   declared by the meta-blocks, comparisons and constants. *)
From Coq Require Import ZArith QArith Qround Qabs List Bool Lia Lqa Setoid.
From Verif Require Import QUtil RoundSpec RoundProofs LimbModel LimbRound.
Import ListNotations.
Open Scope Z_scope.

Section Bounds.
Variable F : fmt.
Notation p := (prec F).
Hypothesis Hp : 3 <= p.
Lemma B_p2 : 2 <= p. Proof. clear - Hp; lia. Qed.
Lemma B_p1 : 1 <= p. Proof. clear - Hp; lia. Qed.
#[local] Hint Resolve B_p1 B_p2 : core.
Variable rnd : Q -> Q.
Hypothesis Hr : nearest_in F rnd.

Notation u := (p2 (- p)).

Lemma u_pos : (0 < u)%Q. Proof. apply p2_pos. Qed.
Lemma u_8 : (8 * u <= 1)%Q.
Proof.
  pose proof (p2_le (- p) (-3) ltac:(lia)). assert ((p2 (-3) == 1 # 8)%Q) by reflexivity. lra.
Qed.

Lemma rF : forall x, inF F (rnd x). Proof. apply (rnd_inF F rnd Hr). Qed.
#[local] Hint Resolve rF : core.

Lemma mul_le_l : forall a b c, (0 <= a)%Q -> (b <= c)%Q -> (a * b <= a * c)%Q.
Proof. intros. rewrite !(Qmult_comm a). apply Qmult_le_compat_r; auto. Qed.

Lemma tri_up : forall a b e x, (Qabs (a - b) <= e)%Q -> (Qabs b <= x)%Q -> (Qabs a <= x + e)%Q.
Proof. intros a b e x H1 H2. apply Qabs_le_iff in H1, H2. apply Qabs_le_iff. lra. Qed.
Lemma tri_low : forall a b e, (Qabs (a - b) <= e)%Q -> (Qabs b - e <= Qabs a)%Q.
Proof. intros a b e H1. pose proof (Qabs_triangle a (b - a)). rewrite Qabs_Qminus in H1.
  setoid_replace (a + (b - a))%Q with b in H by ring. lra. Qed.
Lemma tri_low' : forall a b e, (Qabs b <= e)%Q -> (Qabs a - e <= Qabs (a + b))%Q.
Proof. intros a b e H1. apply tri_low. setoid_replace (a + b - a)%Q with b by ring. auto. Qed.

(* two numbers of the format which do not cancel exactly leave at least u|y| *)
Lemma cancel_min : forall x y, inF F x -> inF F y -> ~ (x + y == 0)%Q -> (u * Qabs y <= Qabs (x + y))%Q.
Proof.
  intros x y Hx Hy N. destruct (Qlt_le_dec (Qabs (x + y)) (u * Qabs y)) as [C|]; auto. exfalso. apply N.
  destruct (inF_canonical F B_p1 y Hy) as (e & My & Oy & By & Cy).
  assert (Hu : (u * p2 (p + e) == p2 e)%Q) by (rewrite <- p2_plus; replace (- p + (p + e)) with e by lia; reflexivity).
  assert (Huy : (u * Qabs y < p2 e)%Q).
  { rewrite <- Hu. rewrite !(Qmult_comm u). apply Qmult_lt_r; auto. apply u_pos. }
  assert (K : mult e x -> (x + y == 0)%Q).
  { intros Mx. apply (mult_small e); [apply mult_plus; auto|lra]. }
  destruct (Qlt_le_dec (p2 (p + e - 1)) (Qabs x)) as [L|L].
  { apply K. apply (inF_big F B_p1); auto. }
  destruct Cy as [Cy|[Cy|Cy]].
  - assert (E : (Qabs y == 0)%Q) by (rewrite Cy; reflexivity). rewrite E in C.
    pose proof (Qabs_nonneg (x + y)). lra.
  - apply K. destruct (inF_elim F B_p1 x Hx) as (g & Mx & Ox & _).
    apply (mult_le g); auto. unfold exp_ok in Ox. rewrite Cy in Ox. auto.
  - set (P := p2 (p + e - 1)) in *.
    assert (HP : (2 * P == p2 (p + e))%Q) by (unfold P; rewrite <- p2_succ; replace (p + e - 1 + 1) with (p + e) by lia; reflexivity).
    assert (HuP : (u * P == p2 (e - 1))%Q) by (unfold P; rewrite <- p2_plus; replace (- p + (p + e - 1)) with (e - 1) by lia; reflexivity).
    assert (T : (Qabs y - Qabs x <= Qabs (x + y))%Q) by qabs_lra.
    assert (HyP : (Qabs y <= P)%Q).
    { pose proof (mult_lt_le e (Qabs y) (2 ^ (p - 1)) (mult_abs _ _ My)) as G.
      assert (EP : (inject_Z (2 ^ (p - 1)) * p2 e == P)%Q).
      { rewrite p2_prec by lia. unfold P. replace (p - 1 + e) with (p + e - 1) by lia. reflexivity. }
      rewrite inject_Z_plus in G. change (inject_Z 1) with 1%Q in G. rewrite EP in G. apply G.
      setoid_replace ((inject_Z (2 ^ (p - 1)) + 1) * p2 e)%Q with (P + p2 e)%Q by (rewrite <- EP; ring). lra. }
    assert (EyP : (Qabs y == P)%Q) by lra.
    assert (Huy' : (u * Qabs y == p2 (e - 1))%Q) by (rewrite EyP; auto).
    assert (H2 : (2 * p2 (e - 1) == p2 e)%Q) by (rewrite <- p2_succ; replace (e - 1 + 1) with e by lia; reflexivity).
    assert (Hsm : (4 * p2 (e - 1) <= P)%Q).
    { rewrite <- HuP. pose proof u_8. pose proof (p2_pos (p + e - 1)). fold P in H0.
      assert (8 * u * P <= 1 * P)%Q by (apply Qmult_le_compat_r; lra). lra. }
    assert (Mx : mult (e - 1) x).
    { apply (inF_big F B_p1); auto. replace (p + (e - 1) - 1) with (p + e - 1 - 1) by lia.
      assert (2 * p2 (p + e - 1 - 1) == P)%Q by (unfold P; rewrite <- p2_succ; replace (p + e - 1 - 1 + 1) with (p + e - 1) by lia; reflexivity).
      pose proof (p2_pos (e - 1)). lra. }
    apply (mult_small (e - 1)); [apply mult_plus; auto; apply (mult_le e); auto; lia|]. lra.
Qed.

Lemma fts : forall a b, inF F a -> inF F b -> (a == 0)%Q \/ (Qabs b <= Qabs a)%Q ->
  let '(s, e) := fasttwosum (rounded_ops rnd) a b in
  (s == rnd (a + b))%Q /\ (s + e == a + b)%Q.
Proof.
  intros a b Ha Hb [Z|L].
  - cbn. split; [reflexivity|].
    assert (E1 : (rnd (a + b) == b)%Q) by (rewrite (rnd_comp F rnd Hr _ b) by lra; apply (rnd_id F rnd Hr); auto).
    assert (E2 : (rnd (rnd (a + b) - a) == b)%Q).
    { rewrite (rnd_comp F rnd Hr _ b) by lra. apply (rnd_id F rnd Hr); auto. }
    rewrite (rnd_comp F rnd Hr (b - rnd (rnd (a + b) - a)) 0) by lra.
    rewrite (rnd_id F rnd Hr 0) by (apply inF_0; auto). lra.
  - apply (fasttwosum_exact F B_p2 rnd Hr); auto.
Qed.

Lemma twosum_F : forall a b, inF F a -> inF F b ->
  let '(s, e) := twosum (rounded_ops rnd) a b in
  (s == rnd (a + b))%Q /\ (s + e == a + b)%Q /\ inF F s /\ inF F e /\ (Qabs e <= u * Qabs (a + b))%Q.
Proof.
  intros a b Ha Hb. pose proof (twosum_exact F B_p2 rnd a b Hr Ha Hb) as T.
  destruct (twosum (rounded_ops rnd) a b) as [s e] eqn:E. destruct T as [T1 T2].
  split; auto. split; auto. split; [apply (inF_comp F (rnd (a + b))); auto; symmetry; auto|].
  assert (Ee : (e == a + b - rnd (a + b))%Q) by lra.
  split.
  - apply (inF_comp F (a + b - rnd (a + b))); [lra|]. apply (sum_error_F F B_p1 rnd Hr); auto.
  - rewrite Ee. pose proof (sum_rel F B_p1 rnd Hr a b Ha Hb). rewrite Qabs_Qminus. exact H.
Qed.

(* ------------------------------------------------------------------ *)
(* blocks declared exact (_local_relative_error_eval = 0)               *)
(* ------------------------------------------------------------------ *)

(* ml_blocks.py:1487-1530 MB_Normalize_33 *)
Theorem normalize_33_exact : forall xh xm xl, inF F xh -> inF F xm -> inF F xl ->
  let '(rh, rm, rl) := normalize_33 (rounded_ops rnd) xh xm xl in
  (rh + rm + rl == xh + xm + xl)%Q /\ inF F rh /\ inF F rm /\ inF F rl
  /\ (rm == rnd (rm + rl))%Q.
Proof.
  intros xh xm xl H1 H2 H3. unfold normalize_33, add211.
  pose proof (twosum_F xm xl H2 H3) as T1. destruct (twosum _ xm xl) as [t1h t1l]. destruct T1 as (A1 & A2 & A3 & A4 & _).
  pose proof (twosum_F xh t1h H1 A3) as T2. destruct (twosum _ xh t1h) as [rh t2l]. destruct T2 as (B1 & B2 & B3 & B4 & _).
  pose proof (twosum_F t2l t1l B4 A4) as T3. destruct (twosum _ t2l t1l) as [rm rl]. destruct T3 as (C1 & C2 & C3 & C4 & _).
  split; [lra|]. split; auto. split; auto. split; auto.
  apply (Qeq_trans _ _ _ C1). apply (rnd_comp F rnd Hr). lra.
Qed.

(* ml_blocks.py:982-1008 MB_Add321, under its documented condition *)
Theorem add321_exact : forall xh xl y, inF F xh -> inF F xl -> inF F y -> (Qabs y <= Qabs xh)%Q ->
  let '(rh, rm, rl) := add321 (rounded_ops rnd) xh xl y in
  (rh + rm + rl == xh + xl + y)%Q /\ inF F rh /\ inF F rm /\ inF F rl.
Proof.
  intros xh xl y H1 H2 H3 L. unfold add321.
  pose proof (fts xh y H1 H3 (or_intror L)) as T1. destruct (fasttwosum _ xh y) as [rh t1]. destruct T1 as [A1 A2].
  assert (A3 : inF F rh) by (apply (inF_comp F (rnd (xh + y))); auto; symmetry; auto).
  assert (A4 : inF F t1).
  { apply (inF_comp F (xh + y - rnd (xh + y))); [lra|]. apply (sum_error_F F B_p1 rnd Hr); auto. }
  pose proof (twosum_F t1 xl A4 H2) as T2. destruct (twosum _ t1 xl) as [rm rl]. destruct T2 as (B1 & B2 & B3 & B4 & _).
  split; [lra|]. auto.
Qed.

(* product with a fused multiply-subtract: exact unless the last digits
   underflow *)
Theorem mul211_exact : forall x y ex ey,
  mult ex x -> mult ey y -> (Qabs x <= p2 (p + ex))%Q -> (Qabs y <= p2 (p + ey))%Q -> exp_ok F (ex + ey) ->
  let '(zh, zl) := mul211 (rounded_ops rnd) x y in
  (zh == rnd (x * y))%Q /\ (zh + zl == x * y)%Q /\ inF F zh /\ inF F zl.
Proof.
  intros x y ex ey Mx My Bx By O. unfold mul211. cbn [rounded_ops o_mul o_fms].
  assert (M : mult (ex + ey) (x * y)) by (apply prod_mult; auto).
  assert (B : (Qabs (x * y) <= p2 (p + p + (ex + ey)))%Q).
  { replace (p + p + (ex + ey)) with ((p + ex) + (p + ey)) by lia. rewrite p2_plus, Qabs_Qmult.
    pose proof (Qabs_nonneg x). pose proof (Qabs_nonneg y). pose proof (p2_pos (p + ex)).
    apply Qle_trans with (p2 (p + ex) * Qabs y)%Q; [apply Qmult_le_compat_r; auto|]. apply mul_le_l; lra. }
  pose proof (prod_error_F F B_p1 rnd Hr _ _ O M B) as E.
  pose proof (rnd_id F rnd Hr _ E) as E'.
  split; [reflexivity|]. split; [lra|]. split; auto.
Qed.

(* ------------------------------------------------------------------ *)
(* double-word plus single-word                                         *)
(* ------------------------------------------------------------------ *)
Lemma add_cond : forall t1 t2 x yh yl, inF F x -> inF F yh -> inF F yl ->
  (t1 == rnd (x + yh))%Q -> (t1 + t2 == x + yh)%Q -> (Qabs yl <= u * Qabs yh)%Q ->
  ((t1 == 0)%Q \/ (Qabs (rnd (t2 + yl)) <= Qabs t1)%Q) /\
  (Qabs (rnd (t2 + yl) - (t2 + yl)) <= 4 * (u * u) * Qabs (x + yh + yl))%Q.
Proof.
  intros t1 t2 x yh yl Hx Hyh Hyl E1 E2 Hl.
  assert (F1 : inF F t1) by (apply (inF_comp F (rnd (x + yh))); auto; symmetry; auto).
  assert (F2 : inF F t2).
  { apply (inF_comp F (x + yh - rnd (x + yh))); [lra|]. apply (sum_error_F F B_p1 rnd Hr); auto. }
  pose proof u_pos as U1. pose proof u_8 as U2.
  set (a := (x + yh)%Q) in *.
  assert (Hdec : inF F a \/ (Qabs yh <= 2 * Qabs a)%Q).
    { destruct (Qlt_le_dec (2 * Qabs a) (Qabs yh)) as [C|C]; [left|right; lra].
      (* |yh| > 2|x + yh|: opposite signs, factor two *)
      unfold a in *. destruct (Qlt_le_dec yh 0).
      - apply (inF_comp F (x - - yh)); [ring|]. apply sterbenz; auto; [apply inF_opp; auto| |]; qabs_lra.
      - apply (inF_comp F (yh - - x)); [ring|]. apply sterbenz; auto; [apply inF_opp; auto| |]; qabs_lra. }
    destruct Hdec as [Ha|Ha].
    - assert (Et : (t1 == a)%Q) by (rewrite E1; apply (rnd_id F rnd Hr); auto).
      assert (Er : (rnd (t2 + yl) == yl)%Q) by (rewrite (rnd_comp F rnd Hr _ yl) by lra; apply (rnd_id F rnd Hr); auto).
      split.
      + destruct (Qeq_dec a 0) as [Z|N]; [left; lra|right].
        rewrite Er, Et. pose proof (cancel_min x yh Hx Hyh N). fold a in H. lra.
      + setoid_replace (rnd (t2 + yl) - (t2 + yl))%Q with 0%Q by lra. change (Qabs 0) with 0%Q.
        apply Qmult_le_0_compat; [|apply Qabs_nonneg]. assert (0 <= u * u)%Q by (apply Qmult_le_0_compat; lra). lra.
    - set (A := Qabs a) in *. assert (PA : (0 <= A)%Q) by apply Qabs_nonneg.
      pose proof (sum_rel F B_p1 rnd Hr x yh Hx Hyh) as S1. fold a in S1.
      assert (T2 : (Qabs t2 <= u * A)%Q).
      { assert (Et : (t2 == a - rnd a)%Q) by lra. rewrite Et, Qabs_Qminus. exact S1. }
      assert (UA : (0 <= u * A)%Q) by (apply Qmult_le_0_compat; lra).
      assert (UA8 : (8 * (u * A) <= A)%Q).
      { assert (8 * u * A <= 1 * A)%Q by (apply Qmult_le_compat_r; auto). lra. }
      assert (Hyl2 : (Qabs yl <= 2 * (u * A))%Q).
      { eapply Qle_trans; [exact Hl|]. apply Qle_trans with (u * (2 * A))%Q; [apply mul_le_l; lra|lra]. }
      assert (B3 : (Qabs (t2 + yl) <= 3 * (u * A))%Q) by (eapply Qle_trans; [apply Qabs_triangle|]; lra).
      pose proof (sum_rel F B_p1 rnd Hr t2 yl F2 Hyl) as S2.
      assert (UUA : (0 <= u * u * A)%Q) by (rewrite <- Qmult_assoc; apply Qmult_le_0_compat; lra).
      assert (UUA8 : (8 * (u * u * A) <= u * A)%Q).
      { assert (u * (8 * (u * A)) <= u * A)%Q by (apply mul_le_l; lra). lra. }
      assert (S3 : (Qabs (rnd (t2 + yl) - (t2 + yl)) <= 3 * (u * u * A))%Q).
      { eapply Qle_trans; [exact S2|]. apply Qle_trans with (u * (3 * (u * A)))%Q; [apply mul_le_l; lra|lra]. }
      split.
      + right.
        assert (L1 : (A - u * A <= Qabs t1)%Q) by (rewrite E1; apply tri_low; exact S1).
        assert (L2 : (Qabs (rnd (t2 + yl)) <= 3 * (u * A) + 3 * (u * u * A))%Q) by (apply (tri_up _ (t2 + yl)); auto). lra.
      + assert (LS : (A - 2 * (u * A) <= Qabs (a + yl))%Q) by (apply tri_low'; auto).
        eapply Qle_trans; [exact S3|].
        apply Qle_trans with (4 * (u * u) * (A - 2 * (u * A)))%Q.
        * assert (u * u * (8 * (u * A)) <= u * u * A)%Q by (apply mul_le_l; [apply Qmult_le_0_compat; lra|auto]). lra.
        * apply mul_le_l; auto. assert (0 <= u * u)%Q by (apply Qmult_le_0_compat; lra). lra. 
Qed.

Lemma add_core : forall t1 t2 x yh yl, inF F x -> inF F yh -> inF F yl ->
  (t1 == rnd (x + yh))%Q -> (t1 + t2 == x + yh)%Q -> (Qabs yl <= u * Qabs yh)%Q ->
  let '(zh, zl) := fasttwosum (rounded_ops rnd) t1 (rnd (t2 + yl)) in
  (zh == rnd (zh + zl))%Q /\ (Qabs (zh + zl - (x + yh + yl)) <= 4 * (u * u) * Qabs (x + yh + yl))%Q.
Proof.
  intros t1 t2 x yh yl Hx Hyh Hyl E1 E2 Hl.
  assert (F1 : inF F t1) by (apply (inF_comp F (rnd (x + yh))); auto; symmetry; auto).
  assert (F2 : inF F t2).
  { apply (inF_comp F (x + yh - rnd (x + yh))); [lra|]. apply (sum_error_F F B_p1 rnd Hr); auto. }
  pose proof u_pos as U1. pose proof u_8 as U2.
  set (a := (x + yh)%Q) in *.
  pose proof (add_cond t1 t2 x yh yl Hx Hyh Hyl E1 E2 Hl) as Hcond. fold a in Hcond.
  destruct Hcond as [Hc1 Hc2].
  pose proof (fts t1 (rnd (t2 + yl)) F1 ltac:(auto) Hc1) as T. destruct (fasttwosum _ t1 _) as [zh zl]. destruct T as [Z1 Z2].
  split; [apply (Qeq_trans _ _ _ Z1); apply (rnd_comp F rnd Hr); lra|].
  setoid_replace (zh + zl - (a + yl))%Q with (rnd (t2 + yl) - (t2 + yl))%Q by lra. exact Hc2.
Qed.

Lemma p2_declared : forall k, (p2 (- (2 * p - k)) == p2 k * (u * u))%Q.
Proof. intros k. rewrite <- !p2_plus. replace (k + (- p + - p)) with (- (2 * p - k)) by lia. reflexivity. Qed.

Lemma weaken_bound : forall c k s, (c <= p2 k)%Q -> (c * (u * u) * Qabs s <= p2 (- (2 * p - k)) * Qabs s)%Q.
Proof.
  intros. rewrite p2_declared. pose proof u_pos. apply Qmult_le_compat_r; [|apply Qabs_nonneg].
  apply Qmult_le_compat_r; auto. apply Qmult_le_0_compat; lra.
Qed.

(* MB_Add212/MB_Add221: local relative error declared 2^-(2p-3) *)
Theorem add212_error : forall x yh yl, inF F x -> inF F yh -> inF F yl -> (Qabs yl <= u * Qabs yh)%Q ->
  let '(zh, zl) := add212 (rounded_ops rnd) x yh yl in
  (zh == rnd (zh + zl))%Q /\ (Qabs (zh + zl - (x + yh + yl)) <= p2 (- (2 * p - 3)) * Qabs (x + yh + yl))%Q.
Proof.
  intros x yh yl Hx Hyh Hyl Hl. unfold add212.
  pose proof (twosum_F x yh Hx Hyh) as T. destruct (twosum _ x yh) as [t1 t2]. destruct T as (T1 & T2 & _).
  pose proof (add_core t1 t2 x yh yl Hx Hyh Hyl T1 T2 Hl) as C. cbn [rounded_ops o_add].
  destruct (fasttwosum _ t1 _) as [zh zl]. destruct C as [C1 C2]. split; auto.
  eapply Qle_trans; [exact C2|]. apply weaken_bound. discriminate.
Qed.

(* MB_Add221_Fast/MB_Add212_Fast: same declared bound, under |xh| >= |y| *)
Theorem add221_fast_error : forall xh xl y, inF F xh -> inF F xl -> inF F y -> (Qabs xl <= u * Qabs xh)%Q ->
  (Qabs y <= Qabs xh)%Q ->
  let '(zh, zl) := add221_fast (rounded_ops rnd) xh xl y in
  (zh == rnd (zh + zl))%Q /\ (Qabs (zh + zl - (xh + xl + y)) <= p2 (- (2 * p - 3)) * Qabs (xh + xl + y))%Q.
Proof.
  intros xh xl y Hxh Hxl Hy Hl Hlt. unfold add221_fast.
  pose proof (fts xh y Hxh Hy (or_intror Hlt)) as T. destruct (fasttwosum _ xh y) as [t1 t2]. destruct T as (T1 & T2).
  assert (T1' : (t1 == rnd (y + xh))%Q) by (apply (Qeq_trans _ _ _ T1); apply (rnd_comp F rnd Hr); ring).
  assert (T2' : (t1 + t2 == y + xh)%Q) by lra.
  pose proof (add_core t1 t2 y xh xl Hy Hxh Hxl T1' T2' Hl) as C. cbn [rounded_ops o_add].
  destruct (fasttwosum _ t1 _) as [zh zl]. destruct C as [C1 C2]. split; auto.
  setoid_replace (xh + xl + y)%Q with (y + xh + xl)%Q by ring.
  eapply Qle_trans; [exact C2|]. apply weaken_bound. discriminate.
Qed.


(* ------------------------------------------------------------------ *)
(* double-word plus double-word                                         *)
(* ------------------------------------------------------------------ *)

(* MB_Add222: local relative error declared 2^-(2p-6); it holds when the two
   high limbs do not cancel by more than a factor 16 (in particular when they
   have the same sign) *)
Theorem add222_error : 6 <= p -> forall xh xl yh yl,
  inF F xh -> inF F xl -> inF F yh -> inF F yl ->
  (Qabs xl <= u * Qabs xh)%Q -> (Qabs yl <= u * Qabs yh)%Q ->
  (Qabs xh + Qabs yh <= 16 * Qabs (xh + yh))%Q ->
  let '(zh, zl) := add222 (rounded_ops rnd) xh xl yh yl in
  (zh == rnd (zh + zl))%Q
  /\ (Qabs (zh + zl - (xh + xl + (yh + yl))) <= p2 (- (2 * p - 6)) * Qabs (xh + xl + (yh + yl)))%Q.
Proof.
  intros Hp6 xh xl yh yl H1 H2 H3 H4 Lx Ly K. unfold add222.
  pose proof (twosum_F xh yh H1 H3) as T. destruct (twosum _ xh yh) as [v1 v2]. destruct T as (T1 & T2 & T3 & T4 & T5).
  cbn [rounded_ops o_add].
  pose proof u_pos as U1.
  assert (U2 : (64 * u <= 1)%Q).
  { pose proof (p2_le (- p) (-6) ltac:(lia)). assert ((p2 (-6) == 1 # 64)%Q) by reflexivity. lra. }
  set (A := Qabs (xh + yh)) in *. set (H := (Qabs xh + Qabs yh)%Q) in *.
  assert (PA : (0 <= A)%Q) by apply Qabs_nonneg.
  set (v3 := rnd (xl + yl)) in *. set (v4 := rnd (v2 + v3)) in *.
  set (B := (u * A)%Q) in *. set (C := (u * B)%Q).
  assert (PB : (0 <= B)%Q) by (apply Qmult_le_0_compat; lra).
  assert (B64 : (64 * B <= A)%Q).
  { unfold B. assert (64 * u * A <= 1 * A)%Q by (apply Qmult_le_compat_r; auto). lra. }
  assert (PC : (0 <= C)%Q) by (apply Qmult_le_0_compat; lra).
  assert (C64 : (64 * C <= B)%Q) by (unfold C; assert (64 * u * B <= 1 * B)%Q by (apply Qmult_le_compat_r; auto); lra).
  assert (D64 : (64 * (u * C) <= C)%Q) by (assert (64 * u * C <= 1 * C)%Q by (apply Qmult_le_compat_r; auto); lra).
  assert (L3 : (Qabs (xl + yl) <= 16 * B)%Q).
  { eapply Qle_trans; [apply Qabs_triangle|]. apply Qle_trans with (u * H)%Q; [unfold H; lra|].
    apply Qle_trans with (u * (16 * A))%Q; [apply mul_le_l; [lra|exact K]|unfold B; lra]. }
  pose proof (sum_rel F B_p1 rnd Hr xl yl H2 H4) as E3. fold v3 in E3.
  assert (E3' : (Qabs (v3 - (xl + yl)) <= 16 * C)%Q).
  { eapply Qle_trans; [exact E3|]. apply Qle_trans with (u * (16 * B))%Q; [apply mul_le_l; lra|unfold C; lra]. }
  assert (L4 : (Qabs (v2 + v3) <= 18 * B)%Q).
  { assert (Qabs v3 <= 16 * B + 16 * C)%Q by (apply (tri_up _ (xl + yl)); auto). eapply Qle_trans; [apply Qabs_triangle|]. lra. }
  pose proof (sum_rel F B_p1 rnd Hr v2 v3 T4 ltac:(unfold v3; auto)) as E4. fold v4 in E4.
  assert (E4' : (Qabs (v4 - (v2 + v3)) <= 18 * C)%Q).
  { eapply Qle_trans; [exact E4|]. apply Qle_trans with (u * (18 * B))%Q; [apply mul_le_l; lra|unfold C; lra]. }
  assert (Cond : (Qabs v4 <= Qabs v1)%Q).
  { assert (Qabs v4 <= 18 * B + 18 * C)%Q by (apply (tri_up _ (v2 + v3)); auto).
    assert (A - B <= Qabs v1)%Q by (apply tri_low; setoid_replace (v1 - (xh + yh))%Q with (- v2)%Q by lra; rewrite Qabs_opp; exact T5). lra. }
  pose proof (fts v1 v4 T3 ltac:(unfold v4; auto) (or_intror Cond)) as Z. destruct (fasttwosum _ v1 v4) as [zh zl].
  destruct Z as [Z1 Z2].
  split; [apply (Qeq_trans _ _ _ Z1); apply (rnd_comp F rnd Hr); lra|].
  set (S := (xh + xl + (yh + yl))%Q) in *.
  assert (Err : (Qabs (zh + zl - S) <= 34 * C)%Q).
  { setoid_replace (zh + zl - S)%Q with ((v4 - (v2 + v3)) + (v3 - (xl + yl)))%Q by (unfold S; lra).
    eapply Qle_trans; [apply Qabs_triangle|]. lra. }
  assert (LS : (A - 16 * B <= Qabs S)%Q).
  { assert (ES : (S == (xh + yh) + (xl + yl))%Q) by (unfold S; ring). rewrite ES. apply tri_low'; auto. }
  eapply Qle_trans; [exact Err|]. rewrite p2_declared. assert (P6 : (p2 6 == 64)%Q) by reflexivity. rewrite P6.
  apply Qle_trans with (64 * (u * u) * (A - 16 * B))%Q; [|apply mul_le_l; auto].
  - assert (EQ : (64 * (u * u) * (A - 16 * B) == 64 * C - 16 * (64 * (u * C)))%Q) by (unfold C, B; ring). lra.
  - assert (0 <= u * u)%Q by (apply Qmult_le_0_compat; lra). lra.
Qed.

(* ------------------------------------------------------------------ *)
(* products (no underflow: unbounded exponents)                         *)
(* ------------------------------------------------------------------ *)
Section NoUnderflow.
Hypothesis Hinf : emin F = None.

Lemma mul211_inf : forall x y, inF F x -> inF F y ->
  (rnd (x * y) + rnd (x * y - rnd (x * y)) == x * y)%Q.
Proof.
  intros x y Hx Hy. destruct (inF_elim F B_p1 x Hx) as (ex & Mx & _ & Bx).
  destruct (inF_elim F B_p1 y Hy) as (ey & My & _ & By).
  pose proof (mul211_exact x y ex ey Mx My Bx By) as T. unfold exp_ok in T. rewrite Hinf in T. specialize (T I).
  cbn [mul211 rounded_ops o_mul o_fms] in T. destruct T as (_ & T & _). exact T.
Qed.

(* MB_Mul212/MB_Mul221: declared 2^-(2p-4) *)
Theorem mul212_error : forall x yh yl, inF F x -> inF F yh -> inF F yl -> (Qabs yl <= u * Qabs yh)%Q ->
  let '(zh, zl) := mul212 (rounded_ops rnd) x yh yl in
  (zh == rnd (zh + zl))%Q /\ (Qabs (zh + zl - x * (yh + yl)) <= p2 (- (2 * p - 4)) * Qabs (x * (yh + yl)))%Q.
Proof.
  intros x yh yl H1 H2 H3 Ly. unfold mul212, mul211. cbn [rounded_ops o_mul o_fms o_add].
  pose proof (mul211_inf x yh H1 H2) as M.
  set (t1 := rnd (x * yh)) in *. set (t2 := rnd (x * yh - t1)) in *.
  set (t3 := rnd (x * yl)). set (t4 := rnd (t2 + t3)).
  pose proof u_pos as U1. pose proof u_8 as U2.
  set (P := Qabs (x * yh)). assert (PP : (0 <= P)%Q) by apply Qabs_nonneg.
  set (B := (u * P)%Q) in *. set (C := (u * B)%Q). set (D := (u * C)%Q).
  assert (PB : (0 <= B)%Q) by (apply Qmult_le_0_compat; lra).
  assert (PC : (0 <= C)%Q) by (apply Qmult_le_0_compat; lra).
  assert (PD : (0 <= D)%Q) by (apply Qmult_le_0_compat; lra).
  assert (B8 : (8 * B <= P)%Q) by (unfold B; assert (8 * u * P <= 1 * P)%Q by (apply Qmult_le_compat_r; auto); lra).
  assert (C8 : (8 * C <= B)%Q) by (unfold C; assert (8 * u * B <= 1 * B)%Q by (apply Qmult_le_compat_r; auto); lra).
  assert (D8 : (8 * D <= C)%Q) by (unfold D; assert (8 * u * C <= 1 * C)%Q by (apply Qmult_le_compat_r; auto); lra).
  pose proof (rnd_rel F B_p1 rnd Hr (x * yh) Hinf) as R1. fold t1 P B in R1.
  assert (L2 : (Qabs t2 <= B)%Q) by (assert (Et : (t2 == - (t1 - x * yh))%Q) by lra; rewrite Et, Qabs_opp; exact R1).
  assert (Lxy : (Qabs (x * yl) <= B)%Q).
  { rewrite Qabs_Qmult. unfold B, P. rewrite Qabs_Qmult.
    apply Qle_trans with (Qabs x * (u * Qabs yh))%Q; [apply mul_le_l; [apply Qabs_nonneg|auto]|lra]. }
  pose proof (rnd_rel F B_p1 rnd Hr (x * yl) Hinf) as R3. fold t3 in R3.
  assert (R3' : (Qabs (t3 - x * yl) <= C)%Q) by (eapply Qle_trans; [exact R3|]; unfold C; apply mul_le_l; lra).
  assert (L4 : (Qabs (t2 + t3) <= 2 * B + C)%Q).
  { assert (Qabs t3 <= B + C)%Q by (apply (tri_up _ (x * yl)); auto). eapply Qle_trans; [apply Qabs_triangle|]. lra. }
  pose proof (rnd_rel F B_p1 rnd Hr (t2 + t3) Hinf) as R4. fold t4 in R4.
  assert (R4' : (Qabs (t4 - (t2 + t3)) <= 2 * C + D)%Q).
  { eapply Qle_trans; [exact R4|]. apply Qle_trans with (u * (2 * B + C))%Q; [apply mul_le_l; lra|unfold D, C; lra]. }
  assert (Cond : (Qabs t4 <= Qabs t1)%Q).
  { assert (Qabs t4 <= 2 * B + C + (2 * C + D))%Q by (apply (tri_up _ (t2 + t3)); auto).
    assert (P - B <= Qabs t1)%Q by (apply tri_low; exact R1). lra. }
  pose proof (fts t1 t4 ltac:(unfold t1; auto) ltac:(unfold t4; auto) (or_intror Cond)) as Z.
  destruct (fasttwosum _ t1 t4) as [zh zl]. destruct Z as [Z1 Z2].
  split; [apply (Qeq_trans _ _ _ Z1); apply (rnd_comp F rnd Hr); lra|].
  assert (Err : (Qabs (zh + zl - x * (yh + yl)) <= 3 * C + D)%Q).
  { setoid_replace (zh + zl - x * (yh + yl))%Q with ((t4 - (t2 + t3)) + (t3 - x * yl))%Q by lra.
    eapply Qle_trans; [apply Qabs_triangle|]. lra. }
  assert (LS : (P - B <= Qabs (x * (yh + yl)))%Q).
  { assert (ES : (x * (yh + yl) == x * yh + x * yl)%Q) by ring. rewrite ES. apply tri_low'; auto. }
  eapply Qle_trans; [exact Err|]. rewrite p2_declared. assert (P4 : (p2 4 == 16)%Q) by reflexivity. rewrite P4.
  apply Qle_trans with (16 * (u * u) * (P - B))%Q; [|apply mul_le_l; auto].
  - assert (EQ : (16 * (u * u) * (P - B) == 16 * C - 16 * D)%Q) by (unfold D, C, B; ring). lra.
  - assert (0 <= u * u)%Q by (apply Qmult_le_0_compat; lra). lra.
Qed.

(* MB_Mul222: declared 2^-(2p-4); the variant with fused operations *)
Theorem mul222_error : forall xh xl yh yl, inF F xh -> inF F xl -> inF F yh -> inF F yl ->
  (Qabs xl <= u * Qabs xh)%Q -> (Qabs yl <= u * Qabs yh)%Q ->
  let '(zh, zl) := mul222 (rounded_ops rnd) xh xl yh yl in
  (zh == rnd (zh + zl))%Q
  /\ (Qabs (zh + zl - (xh + xl) * (yh + yl)) <= p2 (- (2 * p - 4)) * Qabs ((xh + xl) * (yh + yl)))%Q.
Proof.
  intros xh xl yh yl H1 H2 H3 H4 Lx Ly. unfold mul222. cbn [rounded_ops o_mul o_fms o_fma].
  pose proof (mul211_inf xh yh H1 H3) as M.
  set (t1 := rnd (xh * yh)) in *. set (t2 := rnd (xh * yh - t1)) in *.
  set (t3 := rnd (xh * yl + t2)). set (t4 := rnd (xl * yh + t3)).
  pose proof u_pos as U1. pose proof u_8 as U2.
  set (P := Qabs (xh * yh)). assert (PP : (0 <= P)%Q) by apply Qabs_nonneg.
  set (B := (u * P)%Q) in *. set (C := (u * B)%Q). set (D := (u * C)%Q).
  assert (PB : (0 <= B)%Q) by (apply Qmult_le_0_compat; lra).
  assert (PC : (0 <= C)%Q) by (apply Qmult_le_0_compat; lra).
  assert (PD : (0 <= D)%Q) by (apply Qmult_le_0_compat; lra).
  assert (B8 : (8 * B <= P)%Q) by (unfold B; assert (8 * u * P <= 1 * P)%Q by (apply Qmult_le_compat_r; auto); lra).
  assert (C8 : (8 * C <= B)%Q) by (unfold C; assert (8 * u * B <= 1 * B)%Q by (apply Qmult_le_compat_r; auto); lra).
  assert (D8 : (8 * D <= C)%Q) by (unfold D; assert (8 * u * C <= 1 * C)%Q by (apply Qmult_le_compat_r; auto); lra).
  pose proof (rnd_rel F B_p1 rnd Hr (xh * yh) Hinf) as R1. fold t1 P B in R1.
  assert (L2 : (Qabs t2 <= B)%Q) by (assert (Et : (t2 == - (t1 - xh * yh))%Q) by lra; rewrite Et, Qabs_opp; exact R1).
  pose proof (Qabs_nonneg xh) as N1. pose proof (Qabs_nonneg yh) as N2. pose proof (Qabs_nonneg xl) as N3. pose proof (Qabs_nonneg yl) as N4.
  assert (EP : (P == Qabs xh * Qabs yh)%Q) by (unfold P; apply Qabs_Qmult).
  assert (La : (Qabs (xh * yl) <= B)%Q).
  { rewrite Qabs_Qmult. unfold B. rewrite EP. apply Qle_trans with (Qabs xh * (u * Qabs yh))%Q; [apply mul_le_l; auto|lra]. }
  assert (Lb : (Qabs (xl * yh) <= B)%Q).
  { rewrite Qabs_Qmult. unfold B. rewrite EP. apply Qle_trans with (u * Qabs xh * Qabs yh)%Q; [apply Qmult_le_compat_r; auto|lra]. }
  assert (Lc : (Qabs (xl * yl) <= C)%Q).
  { rewrite Qabs_Qmult. unfold C, B. rewrite EP. apply Qle_trans with (u * Qabs xh * Qabs yl)%Q; [apply Qmult_le_compat_r; auto|].
    apply Qle_trans with (u * Qabs xh * (u * Qabs yh))%Q; [apply mul_le_l; auto|lra]. apply Qmult_le_0_compat; lra. }
  assert (L3 : (Qabs (xh * yl + t2) <= 2 * B)%Q) by (eapply Qle_trans; [apply Qabs_triangle|]; lra).
  pose proof (rnd_rel F B_p1 rnd Hr (xh * yl + t2) Hinf) as R3. fold t3 in R3.
  assert (R3' : (Qabs (t3 - (xh * yl + t2)) <= 2 * C)%Q).
  { eapply Qle_trans; [exact R3|]. apply Qle_trans with (u * (2 * B))%Q; [apply mul_le_l; lra|unfold C; lra]. }
  assert (L4 : (Qabs (xl * yh + t3) <= 3 * B + 2 * C)%Q).
  { assert (Qabs t3 <= 2 * B + 2 * C)%Q by (apply (tri_up _ (xh * yl + t2)); auto). eapply Qle_trans; [apply Qabs_triangle|]. lra. }
  pose proof (rnd_rel F B_p1 rnd Hr (xl * yh + t3) Hinf) as R4. fold t4 in R4.
  assert (R4' : (Qabs (t4 - (xl * yh + t3)) <= 3 * C + 2 * D)%Q).
  { eapply Qle_trans; [exact R4|]. apply Qle_trans with (u * (3 * B + 2 * C))%Q; [apply mul_le_l; lra|unfold D, C; lra]. }
  assert (Cond : (Qabs t4 <= Qabs t1)%Q).
  { assert (Qabs t4 <= 3 * B + 2 * C + (3 * C + 2 * D))%Q by (apply (tri_up _ (xl * yh + t3)); auto).
    assert (P - B <= Qabs t1)%Q by (apply tri_low; exact R1). lra. }
  pose proof (fts t1 t4 ltac:(unfold t1; auto) ltac:(unfold t4; auto) (or_intror Cond)) as Z.
  destruct (fasttwosum _ t1 t4) as [zh zl]. destruct Z as [Z1 Z2].
  split; [apply (Qeq_trans _ _ _ Z1); apply (rnd_comp F rnd Hr); lra|].
  assert (Err : (Qabs (zh + zl - (xh + xl) * (yh + yl)) <= 6 * C + 2 * D)%Q).
  { setoid_replace (zh + zl - (xh + xl) * (yh + yl))%Q with ((t4 - (xl * yh + t3)) + ((t3 - (xh * yl + t2)) - xl * yl))%Q by lra.
    eapply Qle_trans; [apply Qabs_triangle|]. assert (Qabs (t3 - (xh * yl + t2) - xl * yl) <= 3 * C)%Q by (apply Qabs_le_iff in R3', Lc; apply Qabs_le_iff; lra). lra. }
  assert (LS : (P - 2 * B - C <= Qabs ((xh + xl) * (yh + yl)))%Q).
  { assert (ES : ((xh + xl) * (yh + yl) == xh * yh + (xh * yl + (xl * yh + xl * yl)))%Q) by ring. rewrite ES.
    assert (Qabs (xh * yl + (xl * yh + xl * yl)) <= 2 * B + C)%Q by (apply Qabs_le_iff in La, Lb, Lc; apply Qabs_le_iff; lra).
    apply Qle_trans with (P - (2 * B + C))%Q; [lra|]. apply tri_low'; auto. }
  eapply Qle_trans; [exact Err|]. rewrite p2_declared. assert (P4 : (p2 4 == 16)%Q) by reflexivity. rewrite P4.
  apply Qle_trans with (16 * (u * u) * (P - 2 * B - C))%Q; [|apply mul_le_l; auto].
  - assert (ED : (u * u * C <= D)%Q) by (setoid_replace (u * u * C)%Q with (u * D)%Q by (unfold D; ring); assert (8 * u * D <= 1 * D)%Q by (apply Qmult_le_compat_r; auto); lra).
    assert (EQ : (16 * (u * u) * (P - 2 * B - C) == 16 * C - 32 * D - 16 * (u * u * C))%Q) by (unfold D, C, B; ring). lra.
  - assert (0 <= u * u)%Q by (apply Qmult_le_0_compat; lra). lra.
Qed.

End NoUnderflow.
End Bounds.
