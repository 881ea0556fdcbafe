(* Inferred fixed-point formats represent the exact results (C15-C18, C59, C61). *)
Require Import ZArith QArith Qround Qabs Bool List Lia Lqa.
From Verif Require Import QUtil FixedModel FixedSpec FixedProps SizingModel.
Import ListNotations.
Open Scope Z_scope.

(* v is in the declared range, if any *)
Definition in_range (r : range) (v : Q) : Prop :=
  match r with None => True | Some (a, b) => (a <= v <= b)%Q end.

(* the format P represents every value of the format A *)
Definition fx_contains (P A : fxfmt) : Prop := forall v, fx_value A v -> fx_value P v.

(* ---- helpers ---- *)
Lemma fx_value_iff : forall F v, fx_ok F ->
  (fx_value F v <-> fx_grid F v /\
   if sgn F then (- p2 (isz F - 1) <= v < p2 (isz F - 1))%Q else (0 <= v < p2 (isz F))%Q).
Proof.
  intros F v H. unfold fx_ok in H. unfold fx_value, fx_grid, fx_is, fx_lo, fx_hi, fx_ulp.
  assert (S1 : (p2 (isz F - 1) == inject_Z (2 ^ (isz F + frsz F - 1)) * p2 (- frsz F))%Q).
  { rewrite <- p2_Z, <- p2_plus by lia. replace (isz F + frsz F - 1 + - frsz F) with (isz F - 1) by lia. reflexivity. }
  assert (S2 : (p2 (isz F) == inject_Z (2 ^ (isz F + frsz F)) * p2 (- frsz F))%Q).
  { rewrite <- p2_Z, <- p2_plus by lia. replace (isz F + frsz F + - frsz F) with (isz F) by lia. reflexivity. }
  split.
  - intros [k [Hk E]]. split; [exists k; exact E|]. destruct (sgn F); rewrite E.
    + rewrite S1. setoid_replace (- (inject_Z (2 ^ (isz F + frsz F - 1)) * p2 (- frsz F)))%Q
        with (inject_Z (- 2 ^ (isz F + frsz F - 1)) * p2 (- frsz F))%Q using relation Qeq
        by (rewrite inject_Z_opp; ring).
      rewrite scale_le, scale_lt, inj_le_iff, inj_lt_iff. lia.
    + rewrite S2. setoid_replace 0%Q with (inject_Z 0 * p2 (- frsz F))%Q using relation Qeq
        by (change (inject_Z 0) with 0%Q; ring).
      rewrite scale_le, scale_lt, inj_le_iff, inj_lt_iff. lia.
  - intros [[k E] Hk]. exists k. split; [|exact E]. destruct (sgn F); rewrite E in Hk.
    + rewrite S1 in Hk. setoid_replace (- (inject_Z (2 ^ (isz F + frsz F - 1)) * p2 (- frsz F)))%Q
        with (inject_Z (- 2 ^ (isz F + frsz F - 1)) * p2 (- frsz F))%Q using relation Qeq in Hk
        by (rewrite inject_Z_opp; ring).
      rewrite scale_le, scale_lt, inj_le_iff, inj_lt_iff in Hk. lia.
    + rewrite S2 in Hk. setoid_replace 0%Q with (inject_Z 0 * p2 (- frsz F))%Q using relation Qeq in Hk
        by (change (inject_Z 0) with 0%Q; ring).
      rewrite scale_le, scale_lt, inj_le_iff, inj_lt_iff in Hk. lia.
Qed.

Definition qgrid (f : Z) (x : Q) : Prop := exists k, (x == inject_Z k * p2 (- f))%Q.
Lemma fx_grid_q : forall F x, fx_grid F x <-> qgrid (frsz F) x.
Proof. intros. reflexivity. Qed.

Lemma qgrid_mono : forall f g x, f <= g -> qgrid f x -> qgrid g x.
Proof.
  intros f g x H [k E]. exists (k * 2 ^ (g - f)). rewrite E, inject_Z_mult, <- p2_Z by lia.
  rewrite <- Qmult_assoc, <- p2_plus. replace (g - f + - g) with (- f) by lia. reflexivity.
Qed.
Lemma qgrid_add : forall f x y, qgrid f x -> qgrid f y -> qgrid f (x + y)%Q.
Proof. intros f x y [a A] [b B]. exists (a + b). rewrite A, B, inject_Z_plus. ring. Qed.
Lemma qgrid_opp : forall f x, qgrid f x -> qgrid f (- x)%Q.
Proof. intros f x [a A]. exists (- a). rewrite A, inject_Z_opp. ring. Qed.
Lemma qgrid_mul : forall f g x y, qgrid f x -> qgrid g y -> qgrid (f + g) (x * y)%Q.
Proof.
  intros f g x y [a A] [b B]. exists (a * b). rewrite A, B, inject_Z_mult.
  replace (- (f + g)) with (- f + - g) by lia. rewrite p2_plus. ring.
Qed.
Lemma qgrid_comp : forall f x y, (x == y)%Q -> qgrid f x -> qgrid f y.
Proof. intros f x y E [a A]. exists a. rewrite <- E. exact A. Qed.

Lemma fx_value_comp : forall F x y, (x == y)%Q -> fx_value F x -> fx_value F y.
Proof. intros F x y E [k [H K]]. exists k. split; auto. rewrite <- E. auto. Qed.

Lemma addsub_false : forall low l r d x y,
  addsub_signed low l r d = false -> in_range l x -> in_range r y ->
  (d = false) \/ (exists a b, l = Some a /\ r = Some b /\ (0 <= low a b)%Q).
Proof.
  intros low l r d x y H Hx Hy. unfold addsub_signed in H.
  destruct l as [a|]; destruct r as [b|]; auto.
  right. exists a, b. split; [|split]; auto. destruct (Qle_bool 0 (low a b)) eqn:E; [|discriminate].
  apply Qle_bool_iff in E. auto.
Qed.

(* powers of two next to one another *)
Lemma p2_pred : forall a, (p2 a == 2 * p2 (a - 1))%Q.
Proof. intros. rewrite <- p2_succ. replace (a - 1 + 1) with a by lia. reflexivity. Qed.

Ltac p2half a := pose proof (p2_pred a).

(* ---- C15: products ---- *)

(* the format inferred for a product represents the exact product of any two
   values of the operand formats *)
Theorem size_mul_exact : forall L R x y, fx_ok L -> fx_ok R ->
  fx_value L x -> fx_value R y -> fx_value (size_mul L R) (x * y)%Q.
Proof.
  intros L R x y HL HR Hx Hy.
  apply fx_value_iff in Hx; auto. apply fx_value_iff in Hy; auto.
  destruct Hx as [Gx Bx]. destruct Hy as [Gy By].
  unfold fx_ok in *.
  assert (O : fx_ok (size_mul L R)).
  { unfold fx_ok, size_mul; cbn [isz frsz]. destruct (xorb (sgn R) (sgn L)); lia. }
  apply fx_value_iff; auto. split.
  { apply fx_grid_q. unfold size_mul; cbn [frsz]. apply qgrid_mul; auto. }
  unfold size_mul; cbn [isz sgn].
  pose proof (p2_pos (isz L)) as P1. pose proof (p2_pos (isz R)) as P2.
  pose proof (p2_pos (isz L - 1)) as P3. pose proof (p2_pos (isz R - 1)) as P4.
  destruct (sgn L), (sgn R); cbn [xorb orb].
  - replace (isz L + isz R + 0 - 1) with (isz L - 1 + (isz R - 1) + 1) by lia.
    rewrite p2_succ, p2_plus. set (a := p2 (isz L - 1)) in *. set (b := p2 (isz R - 1)) in *.
    assert (0 < a * b)%Q by (apply Qmult_lt_0_compat; auto).
    assert (Qabs x <= a)%Q by (apply Qabs_Qle_condition; lra).
    assert (Qabs y <= b)%Q by (apply Qabs_Qle_condition; lra).
    assert (Qabs (x * y) <= a * b)%Q.
    { rewrite Qabs_Qmult. apply Qmult_le_compat_nonneg; split; auto using Qabs_nonneg. }
    apply Qabs_Qle_condition in H2. lra.
  - replace (isz L + isz R + 1 - 1) with (isz L - 1 + isz R + 1) by lia.
    rewrite p2_succ, p2_plus. set (a := p2 (isz L - 1)) in *. set (b := p2 (isz R)) in *.
    assert (0 < a * b)%Q by (apply Qmult_lt_0_compat; auto).
    assert (Qabs x <= a)%Q by (apply Qabs_Qle_condition; lra).
    assert (Qabs y <= b)%Q by (apply Qabs_Qle_condition; lra).
    assert (Qabs (x * y) <= a * b)%Q.
    { rewrite Qabs_Qmult. apply Qmult_le_compat_nonneg; split; auto using Qabs_nonneg. }
    apply Qabs_Qle_condition in H2. lra.
  - replace (isz L + isz R + 1 - 1) with (isz L + (isz R - 1) + 1) by lia.
    rewrite p2_succ, p2_plus. set (a := p2 (isz L)) in *. set (b := p2 (isz R - 1)) in *.
    assert (0 < a * b)%Q by (apply Qmult_lt_0_compat; auto).
    assert (Qabs x <= a)%Q by (apply Qabs_Qle_condition; lra).
    assert (Qabs y <= b)%Q by (apply Qabs_Qle_condition; lra).
    assert (Qabs (x * y) <= a * b)%Q.
    { rewrite Qabs_Qmult. apply Qmult_le_compat_nonneg; split; auto using Qabs_nonneg. }
    apply Qabs_Qle_condition in H2. lra.
  - rewrite Z.add_0_r, p2_plus. set (a := p2 (isz L)) in *. set (b := p2 (isz R)) in *.
    split; [apply Qmult_le_0_compat; lra|].
    apply Qle_lt_trans with (a * y)%Q; [apply Qmult_le_compat_r; lra|].
    apply Qmult_lt_l; lra.
Qed.

(* the extreme product (-8) * (-8) needs the whole of FS8.0's upper half *)
Example size_mul_example :
  size_mul (Build_fxfmt 4 0 true) (Build_fxfmt 4 0 true) = Build_fxfmt 8 0 true /\
  size_mul (Build_fxfmt 4 1 true) (Build_fxfmt 3 2 false) = Build_fxfmt 8 3 true /\
  fx_value (Build_fxfmt 8 0 true) (64 # 1).
Proof.
  split; [reflexivity|]. split; [reflexivity|]. exists 64. unfold fx_is, fx_lo, fx_hi; cbn.
  split; [lia|reflexivity].
Qed.

(* ---- C16: sums, differences, negations ---- *)

(* operand formats for which the inferred sum format is wide enough: equal
   signedness, or an unsigned operand with fewer integer bits than the signed
   one.  When the evaluated ranges show the sum to be non-negative (or make it
   signed), the result is unsigned (resp. signed). *)
Definition add_safe (L R : fxfmt) (l r : range) : Prop :=
  sgn (size_add L R l r) = false \/
  (sgn L = true /\ sgn R = true) \/
  (sgn L = true /\ sgn R = false /\ isz R < isz L) \/
  (sgn L = false /\ sgn R = true /\ isz L < isz R).

(* Missing: mixed signedness with an unsigned operand at least as wide as the
   signed one, where the sum does not fit (below). *)
Theorem size_add_exact_partial : forall L R l r x y, fx_ok L -> fx_ok R -> add_safe L R l r ->
  fx_value L x -> fx_value R y -> in_range l x -> in_range r y ->
  fx_value (size_add L R l r) (x + y)%Q.
Proof.
  intros L R l r x y HL HR Hs Hx Hy Rx Ry.
  apply fx_value_iff in Hx; auto. apply fx_value_iff in Hy; auto.
  destruct Hx as [Gx Bx]. destruct Hy as [Gy By].
  unfold fx_ok in *.
  apply fx_value_iff; [unfold fx_ok, size_add; cbn [isz frsz]; lia|]. split.
  { apply fx_grid_q. unfold size_add; cbn [frsz]. apply qgrid_add; eapply qgrid_mono; try eassumption; lia. }
  set (m := Z.max (isz L) (isz R)).
  pose proof (p2_le (isz L) m ltac:(lia)) as Ml. pose proof (p2_le (isz R) m ltac:(lia)) as Mr.
  p2half (isz L). p2half (isz R). p2half m. pose proof (p2_pos (isz L - 1)). pose proof (p2_pos (isz R - 1)).
  pose proof (p2_succ m) as Pm.
  assert (E : isz (size_add L R l r) = m + 1) by reflexivity. rewrite E.
  destruct (sgn (size_add L R l r)) eqn:S.
  - replace (m + 1 - 1) with m by lia.
    destruct Hs as [Hs|[Hs|[Hs|Hs]]].
    + congruence.
    + destruct Hs as [A B]. rewrite A in Bx. rewrite B in By. lra.
    + destruct Hs as [A [B C]]. rewrite A in Bx. rewrite B in By.
      pose proof (p2_le (isz R) (isz L - 1) ltac:(lia)). lra.
    + destruct Hs as [A [B C]]. rewrite A in Bx. rewrite B in By.
      pose proof (p2_le (isz L) (isz R - 1) ltac:(lia)). lra.
  - unfold size_add in S; cbn [sgn] in S.
    destruct (addsub_false _ _ _ _ x y S Rx Ry) as [D|[a [b [A [B C]]]]].
    + apply orb_false_iff in D. destruct D as [D1 D2]. rewrite D1 in Bx. rewrite D2 in By. lra.
    + subst. cbn [in_range] in Rx, Ry. destruct a as [a1 a2], b as [b1 b2]. unfold add_lower in C; cbn [fst snd] in *.
      destruct (sgn L), (sgn R); lra.
Qed.

(* a signed plus an unsigned operand of the same width: 7 + 15 in FS5.0 *)
Theorem size_add_mixed_refuted :
  exists L R x y, fx_ok L /\ fx_ok R /\ fx_value L x /\ fx_value R y /\
    ~ fx_value (size_add L R None None) (x + y)%Q.
Proof.
  exists (Build_fxfmt 4 0 true), (Build_fxfmt 4 0 false), (7 # 1)%Q, (15 # 1)%Q.
  split; [unfold fx_ok; cbn; lia|]. split; [unfold fx_ok; cbn; lia|].
  split. { exists 7. unfold fx_is, fx_lo, fx_hi; cbn. split; [lia|reflexivity]. }
  split. { exists 15. unfold fx_is, fx_lo, fx_hi; cbn. split; [lia|reflexivity]. }
  intros V. apply fx_value_iff in V; [|unfold fx_ok, size_add; cbn; lia].
  destruct V as [_ V]. unfold size_add in V; cbn in V. vm_compute in V. destruct V as [_ V]. discriminate.
Qed.

(* every mixed pair in which the unsigned operand has at least as many integer
   bits overflows for some values, as soon as the signed operand has a value
   of at least one unit of each operand *)
Theorem size_add_mixed_overflows : forall L R, fx_ok L -> fx_ok R ->
  sgn L = true -> sgn R = false -> isz L <= isz R ->
  (p2 (- frsz L) + p2 (- frsz R) <= p2 (isz L - 1))%Q ->
  exists x y, fx_value L x /\ fx_value R y /\ ~ fx_value (size_add L R None None) (x + y)%Q.
Proof.
  intros L R HL HR SL SR Hw Hu. exists (fx_max L), (fx_max R).
  destruct (fx_bounds L HL) as [_ [A _]]. destruct (fx_bounds R HR) as [_ [B _]].
  split; auto. split; auto. intros V. unfold fx_ok in *.
  apply fx_value_iff in V; [|unfold fx_ok, size_add; cbn [isz frsz]; lia].
  destruct V as [_ V]. unfold size_add in V; cbn [sgn isz addsub_signed] in V. rewrite SL in V. cbn [orb] in V.
  replace (Z.max (isz L) (isz R) + 1 - 1) with (isz R) in V by lia.
  unfold fx_max in V. rewrite SL, SR in V.
  assert (E1 : ((p2 (isz L + frsz L + -1) - 1) * p2 (- frsz L) == p2 (isz L - 1) - p2 (- frsz L))%Q).
  { replace (isz L - 1) with (isz L + frsz L + -1 + - frsz L) by lia. rewrite (p2_plus (isz L + frsz L + -1)). ring. }
  assert (E2 : ((p2 (isz R + frsz R + 0) - 1) * p2 (- frsz R) == p2 (isz R) - p2 (- frsz R))%Q).
  { replace (isz R) with (isz R + frsz R + 0 + - frsz R) at 2 by lia. rewrite (p2_plus (isz R + frsz R + 0)). ring. }
  rewrite E1, E2 in V. lra.
Qed.

Definition sub_safe (L R : fxfmt) (l r : range) : Prop :=
  sgn (size_sub L R l r) = false \/
  (sgn L = false /\ sgn R = false) \/
  (sgn L = false /\ sgn R = true /\ isz L < isz R).

(* Missing: a signed left operand (the difference overflows, below) and an
   unsigned left operand at least as wide as a signed right one. *)
Theorem size_sub_exact_partial : forall L R l r x y, fx_ok L -> fx_ok R -> sub_safe L R l r ->
  fx_value L x -> fx_value R y -> in_range l x -> in_range r y ->
  fx_value (size_sub L R l r) (x - y)%Q.
Proof.
  intros L R l r x y HL HR Hs Hx Hy Rx Ry.
  apply fx_value_iff in Hx; auto. apply fx_value_iff in Hy; auto.
  destruct Hx as [Gx Bx]. destruct Hy as [Gy By].
  unfold fx_ok in *.
  apply fx_value_iff; [unfold fx_ok, size_sub; cbn [isz frsz]; destruct (negb (sgn L)); lia|]. split.
  { apply fx_grid_q. unfold size_sub; cbn [frsz]. apply qgrid_add; [|apply qgrid_opp]; eapply qgrid_mono; try eassumption; lia. }
  set (m := Z.max (isz L) (isz R)).
  pose proof (p2_le (isz L) m ltac:(lia)) as Ml. pose proof (p2_le (isz R) m ltac:(lia)) as Mr.
  p2half (isz L). p2half (isz R). p2half m. pose proof (p2_pos (isz L - 1)). pose proof (p2_pos (isz R - 1)).
  pose proof (p2_succ m) as Pm.
  assert (E : isz (size_sub L R l r) = m + (if negb (sgn L) then 1 else 0)) by reflexivity. rewrite E.
  destruct (sgn (size_sub L R l r)) eqn:S.
  - destruct Hs as [Hs|[Hs|Hs]].
    + congruence.
    + destruct Hs as [A B]. rewrite A in *. rewrite B in By. cbn [negb].
      replace (m + 1 - 1) with m by lia. lra.
    + destruct Hs as [A [B C]]. rewrite A in *. rewrite B in By. cbn [negb].
      replace (m + 1 - 1) with m by lia.
      pose proof (p2_le (isz L) (isz R - 1) ltac:(lia)). lra.
  - unfold size_sub in S; cbn [sgn] in S.
    destruct (addsub_false _ _ _ _ x y S Rx Ry) as [D|[a [b [A [B C]]]]]; [discriminate|].
    subst. cbn [in_range] in Rx, Ry. destruct a as [a1 a2], b as [b1 b2]. unfold sub_lower in C; cbn [fst snd] in *.
    destruct (sgn L), (sgn R); cbn [negb]; rewrite ?Z.add_0_r; lra.
Qed.

(* any signed left operand overflows against any operand that can be positive:
   its minimum minus a positive value *)
Theorem size_sub_signed_refuted : forall L R, fx_ok L -> fx_ok R ->
  sgn L = true -> isz R <= isz L -> 2 <= fx_bits R ->
  exists x y, fx_value L x /\ fx_value R y /\ ~ fx_value (size_sub L R None None) (x - y)%Q.
Proof.
  intros L R HL HR SL Hw Hb. exists (fx_min L), (fx_max R).
  destruct (fx_bounds L HL) as [A _]. destruct (fx_bounds R HR) as [_ [B _]].
  split; auto. split; auto. intros V. unfold fx_ok, fx_bits in *.
  apply fx_value_iff in V; [|unfold fx_ok, size_sub; cbn [isz frsz]; destruct (negb (sgn L)); lia].
  destruct V as [_ V]. unfold size_sub in V; cbn [sgn isz addsub_signed] in V. rewrite SL in V. cbn [negb] in V.
  replace (Z.max (isz L) (isz R) + 0 - 1) with (isz L - 1) in V by lia.
  assert (E : (fx_min L == - p2 (isz L - 1))%Q).
  { unfold fx_min. rewrite SL. cbn [negb]. rewrite <- p2_plus.
    replace (isz L + frsz L - 1 + - frsz L) with (isz L - 1) by lia. reflexivity. }
  assert (P : (0 < fx_max R)%Q).
  { unfold fx_max. apply Qmult_lt_0_compat; [|apply p2_pos].
    assert (p2 0 < p2 (isz R + frsz R + (if sgn R then -1 else 0)))%Q by (apply p2_lt; destruct (sgn R); lia).
    rewrite p2_0 in H. lra. }
  rewrite E in V. lra.
Qed.

(* Missing: the smallest value of a signed format, whose opposite does not fit
   (below). *)
Theorem size_neg_exact_partial : forall A x, fx_ok A -> fx_value A x ->
  (sgn A = false \/ ~ (x == fx_min A)%Q) -> fx_value (size_neg A) (- x)%Q.
Proof.
  intros A x H Hx Hm. pose proof Hx as Hx'. apply fx_value_iff in Hx; auto. destruct Hx as [G B].
  unfold fx_ok in H. apply fx_value_iff; [unfold fx_ok, size_neg; cbn [isz frsz]; destruct (negb (sgn A)); lia|].
  split; [apply fx_grid_q; apply qgrid_opp; exact G|].
  unfold size_neg; cbn [sgn isz]. destruct (sgn A) eqn:S; cbn [negb].
  - destruct Hm as [?|Hm]; [discriminate|]. rewrite Z.add_0_r.
    assert (E : (fx_min A == - p2 (isz A - 1))%Q).
    { unfold fx_min. rewrite S. cbn [negb]. rewrite <- p2_plus.
      replace (isz A + frsz A - 1 + - frsz A) with (isz A - 1) by lia. reflexivity. }
    assert (~ (x == - p2 (isz A - 1))%Q) by (rewrite <- E; auto).
    pose proof (p2_pos (isz A - 1)).
    assert (- p2 (isz A - 1) < x)%Q.
    { destruct B as [B1 B2]. apply Qle_lteq in B1. destruct B1 as [B1|B1]; auto. exfalso. apply H0. symmetry. exact B1. }
    lra.
  - replace (isz A + 1 - 1) with (isz A) by lia. lra.
Qed.

Theorem size_neg_signed_refuted : forall A, fx_ok A -> sgn A = true ->
  fx_value A (fx_min A) /\ ~ fx_value (size_neg A) (- fx_min A)%Q.
Proof.
  intros A H S. split; [apply (fx_bounds A H)|]. intros V. unfold fx_ok in H.
  apply fx_value_iff in V; [|unfold fx_ok, size_neg; cbn [isz frsz]; destruct (negb (sgn A)); lia].
  destruct V as [_ V]. unfold size_neg in V; cbn [sgn isz] in V. rewrite S in V. cbn [negb] in V.
  assert (E : (fx_min A == - p2 (isz A - 1))%Q).
  { unfold fx_min. rewrite S. cbn [negb]. rewrite <- p2_plus.
    replace (isz A + frsz A - 1 + - frsz A) with (isz A - 1) by lia. reflexivity. }
  rewrite E, Z.add_0_r in V. pose proof (p2_pos (isz A - 1)). lra.
Qed.

Example size_addsub_example :
  size_add (Build_fxfmt 4 2 true) (Build_fxfmt 3 5 false) None None = Build_fxfmt 5 5 true /\
  add_safe (Build_fxfmt 4 2 true) (Build_fxfmt 3 5 false) None None /\
  sub_safe (Build_fxfmt 4 2 true) (Build_fxfmt 4 2 true) (Some (2 # 1, 3 # 1)%Q) (Some (0, 1)%Q) /\
  size_sub (Build_fxfmt 4 2 true) (Build_fxfmt 4 2 true) (Some (2 # 1, 3 # 1)%Q) (Some (0, 1)%Q) = Build_fxfmt 4 2 false /\
  size_neg (Build_fxfmt 4 2 false) = Build_fxfmt 5 2 true.
Proof.
  split; [reflexivity|]. split; [right; right; left; cbn; auto with zarith|].
  split; [left; reflexivity|]. split; reflexivity.
Qed.

(* ---- C17: common format ---- *)

(* the common format of two fixed-point formats represents the values of both,
   whatever their signedness *)
Theorem largest_fixed_contains : forall A B, fx_ok A -> fx_ok B ->
  fx_ok (largest_fixed A B) /\ fx_contains (largest_fixed A B) A /\ fx_contains (largest_fixed A B) B.
Proof.
  intros A B HA HB. unfold fx_ok in *.
  assert (O : fx_ok (largest_fixed A B)).
  { unfold fx_ok, largest_fixed; cbn [isz frsz].
    destruct (xorb (sgn A) (sgn B) && _); lia. }
  split; auto.
  assert (I : isz A <= isz (largest_fixed A B) /\ isz B <= isz (largest_fixed A B)).
  { unfold largest_fixed; cbn [isz]. destruct (xorb (sgn A) (sgn B) && _); lia. }
  split; intros v Hv; (apply fx_value_iff in Hv; [|auto]); destruct Hv as [G R];
    (apply fx_value_iff; [auto|]); (split;
    [apply fx_grid_q; eapply qgrid_mono; [|exact G]; unfold largest_fixed; cbn [frsz]; lia|]);
    set (m := isz (largest_fixed A B)) in *.
  - unfold largest_fixed; cbn [sgn]. destruct (sgn A) eqn:SA; cbn [orb].
    + pose proof (p2_le (isz A - 1) (m - 1) ltac:(lia)). lra.
    + destruct (sgn B) eqn:SB.
      * assert (isz A <= m - 1).
        { unfold m, largest_fixed; cbn [isz]. rewrite SA, SB. cbn [xorb andb]. destruct (Z.leb_spec (isz B) (isz A)); lia. }
        pose proof (p2_le (isz A) (m - 1) H). pose proof (p2_pos (m - 1)). lra.
      * pose proof (p2_le (isz A) m ltac:(lia)). lra.
  - unfold largest_fixed; cbn [sgn]. destruct (sgn B) eqn:SB; cbn [orb].
    + rewrite orb_true_r. pose proof (p2_le (isz B - 1) (m - 1) ltac:(lia)). lra.
    + rewrite orb_false_r. destruct (sgn A) eqn:SA.
      * assert (isz B <= m - 1).
        { unfold m, largest_fixed; cbn [isz]. rewrite SA, SB. cbn [xorb andb]. destruct (Z.leb_spec (isz A) (isz B)); lia. }
        pose proof (p2_le (isz B) (m - 1) H). pose proof (p2_pos (m - 1)). lra.
      * pose proof (p2_le (isz B) m ltac:(lia)). lra.
Qed.

Lemma largest_fixed_self : forall A, largest_fixed A A = A.
Proof.
  intros [i f s]. unfold largest_fixed; cbn. rewrite !Z.max_id, xorb_nilpotent. cbn.
  rewrite Z.add_0_r, orb_diag. reflexivity.
Qed.

(* the smallest such: any format with a value range containing both has at
   least as many integer and fraction bits (for formats of at least two bits) *)
Theorem largest_fixed_frac_minimal : forall A B P, fx_ok A -> fx_ok B -> fx_ok P ->
  2 <= fx_bits A -> 2 <= fx_bits B ->
  fx_contains P A -> fx_contains P B -> frsz (largest_fixed A B) <= frsz P.
Proof.
  assert (K : forall A P, fx_ok A -> fx_ok P -> 2 <= fx_bits A -> fx_contains P A -> frsz A <= frsz P).
  { intros A P HA HP HB C. unfold fx_bits in HB.
    assert (V : fx_value A (p2 (- frsz A))).
    { exists 1. unfold fx_is, fx_lo, fx_hi. change (inject_Z 1) with 1%Q. split; [|ring].
      unfold fx_ok in HA. assert (2 ^ 1 <= 2 ^ (isz A + frsz A)) by (apply Z.pow_le_mono_r; lia).
      assert (2 ^ 1 <= 2 ^ (isz A + frsz A - 1)).
      { apply Z.pow_le_mono_r; [lia|lia]. }
      pose proof (pow2_pos (isz A + frsz A - 1) ltac:(lia)). destruct (sgn A); lia. }
    apply C in V. destruct V as [k [_ E]].
    destruct (Z.le_gt_cases (frsz A) (frsz P)); auto. exfalso.
    assert (E2 : (1 == inject_Z k * p2 (frsz A - frsz P))%Q).
    { replace (frsz A - frsz P) with (- frsz P + frsz A) by lia. rewrite p2_plus.
      rewrite Qmult_assoc, <- E. rewrite p2_opp. reflexivity. }
    rewrite p2_Z, <- inject_Z_mult in E2 by lia. change 1%Q with (inject_Z 1) in E2.
    rewrite inject_Z_injective in E2.
    replace (frsz A - frsz P) with (Z.succ (frsz A - frsz P - 1)) in E2 by lia.
    rewrite Z.pow_succ_r in E2 by lia.
    assert (Z.even 1 = true). { rewrite E2, Z.even_mul, Z.even_mul. cbn. apply orb_true_r. }
    discriminate. }
  intros A B P HA HB HP BA BB CA CB. unfold largest_fixed; cbn [frsz].
  pose proof (K A P HA HP BA CA). pose proof (K B P HB HP BB CB). lia.
Qed.

(* the fold over any list of fixed-point, undefined or abstract-integer
   precisions represents the values of every fixed-point precision in it *)
Definition fixed_or_undef (p : prec) : Prop :=
  match p with PFix F => fx_ok F | PNone | PInt => True | POther _ _ => False end.

Lemma fold_contains : forall l p,
  fixed_or_undef p -> Forall fixed_or_undef l ->
  fixed_or_undef (fold_left largest_format l p) /\
  (forall F, (p = PFix F \/ In (PFix F) l) ->
     exists P, fold_left largest_format l p = PFix P /\ fx_contains P F).
Proof.
  induction l as [|q l IH]; intros p Hp Hl; cbn [fold_left].
  - split; auto. intros F [->|[]]. exists F. split; auto. intros v; auto.
  - inversion Hl as [|? ? Hq Hl']; subst.
    assert (Hpq : fixed_or_undef (largest_format p q)).
    { destruct p, q; cbn in *; auto; try tauto. apply largest_fixed_contains; auto. }
    destruct (IH (largest_format p q) Hpq Hl') as [I1 I2]. split; auto.
    intros F [->|[->|Hin]].
    + destruct q as [| |B|]; cbn [largest_format] in *; try (apply I2; auto; fail).
      * destruct (I2 (largest_fixed F B) (or_introl eq_refl)) as [P [E C]]. exists P. split; auto.
        intros v Hv. apply C. apply (proj1 (proj2 (largest_fixed_contains F B Hp Hq))). auto.
      * contradiction.
    + destruct p as [| |A|]; cbn [largest_format] in *; try (apply I2; auto; fail).
      * destruct (I2 (largest_fixed A F) (or_introl eq_refl)) as [P [E C]]. exists P. split; auto.
        intros v Hv. apply C. apply (proj2 (proj2 (largest_fixed_contains A F Hp Hq))). auto.
      * contradiction.
    + apply I2. auto.
Qed.

Theorem solve_equal_contains_partial : forall p l F,
  Forall fixed_or_undef (p :: l) -> In (PFix F) (p :: l) ->
  exists P, solve_equal_formats p l = PFix P /\ fx_contains P F.
Proof.
  intros p l F H Hin. unfold solve_equal_formats.
  apply fold_contains; auto. inversion H; auto.
Qed.

(* with other formats in the list the fold forgets: a mismatch gives None, which
   the next step takes for an undefined format, so that the result is the last
   operand's format only *)
Theorem solve_equal_forgets_refuted :
  solve_equal_formats (PFix (Build_fxfmt 8 0 false)) [POther 1 4; PFix (Build_fxfmt 2 0 false)]
    = PFix (Build_fxfmt 2 0 false).
Proof. reflexivity. Qed.

Example largest_example :
  largest_fixed (Build_fxfmt 4 2 true) (Build_fxfmt 4 0 false) = Build_fxfmt 5 2 true /\
  largest_fixed (Build_fxfmt 5 2 true) (Build_fxfmt 4 0 false) = Build_fxfmt 5 2 true /\
  solve_equal_formats PNone [PFix (Build_fxfmt 4 2 true); PInt; PFix (Build_fxfmt 6 0 false)]
    = PFix (Build_fxfmt 7 2 true).
Proof. repeat split. Qed.

(* ---- C18: constants ---- *)

Lemma qclog2_spec : forall q, (0 < q)%Q -> (q <= p2 (qclog2 q))%Q /\ (p2 (qclog2 q - 1) < q)%Q.
Proof.
  intros q H. unfold qclog2. destruct (qlog2_spec q H) as [A B].
  destruct (Qle_bool q (p2 (qlog2 q))) eqn:C.
  - apply Qle_bool_iff in C. split; auto.
    pose proof (p2_lt (qlog2 q - 1) (qlog2 q) ltac:(lia)). lra.
  - apply Qle_bool_false in C. replace (qlog2 q + 1 - 1) with (qlog2 q) by lia. split; lra.
Qed.

Lemma qint_test : forall x, Qeq_bool (inject_Z (qtrunc x)) x = true <-> exists k, (x == inject_Z k)%Q.
Proof.
  intros x. rewrite Qeq_bool_iff. split.
  - intros E. eexists. symmetry. exact E.
  - intros [k E]. rewrite (qtrunc_int x k E). symmetry. exact E.
Qed.

Lemma first_frac_spec : forall v fuel i,
  match first_frac v i fuel with
  | Some f => i <= f < i + Z.of_nat fuel /\ qgrid f v /\ (forall j, i <= j < f -> ~ qgrid j v)
  | None => forall j, i <= j < i + Z.of_nat fuel -> ~ qgrid j v
  end.
Proof.
  assert (G : forall v i, Qeq_bool (inject_Z (qtrunc (v * p2 i))) (v * p2 i) = true <-> qgrid i v).
  { intros v i. rewrite qint_test. split; intros [k E]; exists k.
    - rewrite <- E. rewrite <- Qmult_assoc, p2_opp_r. ring.
    - rewrite E. apply scale_back. }
  intros v fuel. induction fuel as [|n IH]; intros i; cbn [first_frac].
  - intros j Hj. lia.
  - destruct (Qeq_bool (inject_Z (qtrunc (v * p2 i))) (v * p2 i)) eqn:E.
    + apply G in E. split; [lia|]. split; auto. intros j Hj. lia.
    + assert (N : ~ qgrid i v) by (intros Q; apply G in Q; congruence).
      specialize (IH (i + 1)). destruct (first_frac v (i + 1) n) as [f|].
      * destruct IH as [A [B C]]. split; [lia|]. split; auto. intros j Hj.
        destruct (Z.eq_dec j i); [subst; auto|]. apply C. lia.
      * intros j Hj. destruct (Z.eq_dec j i); [subst; auto|]. apply IH. lia.
Qed.

(* a format is found exactly for the numbers with at most 99 fraction bits; it
   represents the constant, is signed exactly for negative ones, and has the
   fewest possible fraction bits *)
Theorem size_cst_exact : forall v,
  ((exists F, size_cst v = Some F) <-> qgrid 99 v) /\
  (forall F, size_cst v = Some F ->
     fx_ok F /\ fx_value F v /\ (sgn F = true <-> (v < 0)%Q) /\
     (forall j, 0 <= j < frsz F -> ~ qgrid j v)).
Proof.
  intros v. pose proof (first_frac_spec v 100 0) as S. unfold size_cst.
  split.
  - destruct (first_frac v 0 100) as [f|] eqn:E.
    + split; [intros _|intros _; eexists; reflexivity].
      destruct S as [A [B _]]. apply (qgrid_mono f); auto. lia.
    + split; [intros [F X]; discriminate|]. intros G. exfalso. apply (S 99); auto. lia.
  - destruct (first_frac v 0 100) as [f|] eqn:E; [|discriminate].
    destruct S as [A [B C]].
    set (a := (Qabs v + 1)%Q).
    assert (Ha : (1 <= a)%Q). { unfold a. pose proof (Qabs_nonneg v). lra. }
    destruct (qclog2_spec a ltac:(lra)) as [L1 L2].
    assert (Hl : 0 <= qclog2 a).
    { destruct (Z.lt_ge_cases (qclog2 a) 0); auto. pose proof (p2_le (qclog2 a) (-1) ltac:(lia)).
      change (p2 (-1)) with (1 # 2)%Q in H0. lra. }
    rewrite (Z.max_l (qclog2 a) 0) by lia.
    intros F HF.
    set (s := negb (Qle_bool 0 v)) in *.
    set (i := qclog2 a + (if s then 1 else 0)) in *.
    assert (Hi : 0 <= i) by (unfold i; destruct s; lia).
    injection HF as <-. cbn [isz frsz sgn].
    set (i' := if (f =? 0) && (i =? 0) then 1 else i).
    assert (Hi' : i <= i' /\ 1 <= i' + f).
    { unfold i'. destruct (Z.eqb_spec f 0), (Z.eqb_spec i 0); cbn [andb]; lia. }
    assert (O : fx_ok {| isz := i'; frsz := f; sgn := s |}) by (unfold fx_ok; cbn; lia).
    split; auto. split; [|split; [|exact C]].
    + apply fx_value_iff; auto. cbn [isz frsz sgn]. split; [exact B|].
      unfold s in *. destruct (Qle_bool 0 v) eqn:V; cbn [negb] in *.
      * apply Qle_bool_iff in V. split; auto. pose proof (p2_le (qclog2 a) i' ltac:(lia)).
        assert (a == 1 + v)%Q by (unfold a; rewrite Qabs_pos by lra; ring). lra.
      * apply Qle_bool_false in V. unfold i in Hi'.
        pose proof (p2_le (qclog2 a) (i' - 1) ltac:(lia)).
        assert (a == 1 - v)%Q by (unfold a; rewrite Qabs_neg by lra; ring). lra.
    + unfold s. destruct (Qle_bool 0 v) eqn:V; cbn [negb].
      * apply Qle_bool_iff in V. split; [discriminate|]. intros; lra.
      * apply Qle_bool_false in V. tauto.
Qed.

(* for positive integers the format is also minimal in integer bits *)
Theorem size_cst_minimal_int : forall n F P, 0 < n -> size_cst (inject_Z n) = Some F ->
  fx_ok P -> fx_value P (inject_Z n) -> isz F <= isz P.
Proof.
  intros n F P Hn HF HP HV.
  destruct (proj2 (size_cst_exact (inject_Z n)) F HF) as [O [V [Hs Hf]]].
  assert (F0 : frsz F = 0).
  { unfold size_cst in HF. pose proof (first_frac_spec (inject_Z n) 100 0) as S.
    destruct (first_frac (inject_Z n) 0 100) as [f|]; [|discriminate]. injection HF as <-. cbn [frsz] in *.
    destruct S as [A [B C]]. destruct (Z.eq_dec f 0); auto. exfalso. apply (C 0); [lia|].
    exists n. rewrite p2_0. ring. }
  unfold size_cst in HF.
  destruct (first_frac (inject_Z n) 0 100) as [f|]; [|discriminate].
  injection HF as <-. cbn [isz frsz] in *. subst f.
  assert (N : (0 < inject_Z n)%Q) by (change 0%Q with (inject_Z 0); apply inj_lt_iff; auto).
  rewrite (proj2 (Qle_bool_iff 0 (inject_Z n))) by lra. cbn [negb].
  set (a := (Qabs (inject_Z n) + 1)%Q).
  assert (Ea : (a == inject_Z (n + 1))%Q).
  { unfold a. rewrite Qabs_pos by lra. rewrite inject_Z_plus. reflexivity. }
  assert (Ha : (2 <= a)%Q).
  { rewrite Ea. change 2%Q with (inject_Z 2). apply inj_le_iff. lia. }
  destruct (qclog2_spec a ltac:(lra)) as [L1 L2].
  assert (Hl : 1 <= qclog2 a).
  { destruct (Z.lt_ge_cases (qclog2 a) 1); [|lia]. pose proof (p2_le (qclog2 a) 0 ltac:(lia)).
    rewrite p2_0 in H0. lra. }
  change (qclog2 ((Z.abs n # 1) + 1)) with (qclog2 a).
  rewrite Z.max_l, Z.add_0_r by lia. rewrite (proj2 (Z.eqb_neq (qclog2 a) 0)) by lia.
  rewrite andb_false_r.
  (* n >= 2^(l-1) *)
  assert (B : 2 ^ (qclog2 a - 1) < n + 1).
  { apply inj_lt_iff. rewrite <- Ea, <- p2_Z by lia. exact L2. }
  apply fx_value_iff in HV; auto. destruct HV as [_ HV].
  assert (HV' : (inject_Z n < p2 (isz P))%Q).
  { destruct (sgn P); [|lra]. pose proof (p2_lt (isz P - 1) (isz P) ltac:(lia)). lra. }
  assert (0 <= isz P).
  { destruct (Z.lt_ge_cases (isz P) 0); auto. pose proof (p2_le (isz P) 0 ltac:(lia)). rewrite p2_0 in H0.
    assert (1 <= inject_Z n)%Q by (change 1%Q with (inject_Z 1); apply inj_le_iff; lia). lra. }
  rewrite p2_Z in HV' by lia. apply (proj1 (inj_lt_iff _ _)) in HV'.
  assert (2 ^ (qclog2 a - 1) < 2 ^ isz P) by lia.
  apply Z.pow_lt_mono_r_iff in H0; lia.
Qed.

(* not minimal in general: 3.5 fits FU2.1 but gets FU3.1; -4 fits FS3.0 but
   gets FS4.0 *)
Theorem size_cst_minimal_refuted :
  size_cst (7 # 2) = Some (Build_fxfmt 3 1 false) /\ fx_value (Build_fxfmt 2 1 false) (7 # 2) /\
  size_cst (-4 # 1) = Some (Build_fxfmt 4 0 true) /\ fx_value (Build_fxfmt 3 0 true) (-4 # 1).
Proof.
  split; [vm_compute; reflexivity|]. split.
  { exists 7. unfold fx_is, fx_lo, fx_hi; cbn. split; [lia|reflexivity]. }
  split; [vm_compute; reflexivity|].
  exists (-4). unfold fx_is, fx_lo, fx_hi; cbn. split; [lia|reflexivity].
Qed.

Example size_cst_example :
  size_cst (5 # 8) = Some (Build_fxfmt 1 3 false) /\ size_cst 0 = Some (Build_fxfmt 1 0 false) /\
  size_cst (-3 # 4) = Some (Build_fxfmt 2 2 true) /\ size_cst (1 # 3) = None.
Proof. repeat split; vm_compute; reflexivity. Qed.

(* ---- C59: the fit test and the other inferred formats ---- *)

(* a constant accepted by the fit test is a number of the new format *)
Theorem format_does_fit_sound : forall v N, fx_ok N -> format_does_fit v N = Some true -> fx_value N v.
Proof.
  intros v N HN H. unfold format_does_fit in H.
  destruct (size_cst v) as [M|] eqn:E; [|discriminate]. injection H as H.
  destruct (proj2 (size_cst_exact v) M E) as [O [V [_ _]]].
  rewrite !andb_true_iff in H. destruct H as [[H1 H2] H3].
  apply Z.leb_le in H1, H2. apply fx_value_iff in V; auto. destruct V as [G R].
  apply fx_value_iff; auto. split; [apply fx_grid_q; eapply qgrid_mono; [|exact G]; auto|].
  destruct (sgn N), (sgn M); cbn [andb negb orb] in *; try discriminate.
  - pose proof (p2_le (isz M - 1) (isz N - 1) ltac:(lia)). lra.
  - pose proof (p2_le (isz M) (isz N - 1) ltac:(lia)). pose proof (p2_pos (isz N - 1)). lra.
  - pose proof (p2_le (isz M) (isz N) ltac:(lia)). lra.
Qed.

(* but it rejects constants that do fit (an error is raised) *)
Theorem format_does_fit_complete_refuted :
  fx_value (Build_fxfmt 3 0 true) (-4 # 1) /\ format_does_fit (-4 # 1) (Build_fxfmt 3 0 true) = Some false /\
  fx_value (Build_fxfmt 2 1 false) (7 # 2) /\ format_does_fit (7 # 2) (Build_fxfmt 2 1 false) = Some false.
Proof.
  destruct size_cst_minimal_refuted as [_ [A [_ B]]].
  split; [exact B|]. split; [vm_compute; reflexivity|]. split; [exact A|vm_compute; reflexivity].
Qed.

(* every possible leading-zero count of an n-bit operand, 0 to n, is a number
   of the format inferred for it *)
Theorem size_clz_exact : forall A n, fx_ok A -> 0 <= n <= fx_bits A -> fx_value (size_clz A) (inject_Z n).
Proof.
  intros A n H Hn. unfold fx_ok, fx_bits in *. unfold fx_bits in *.
  pose proof (Z.log2_nonneg (isz A + frsz A)).
  exists n. unfold fx_is, fx_lo, fx_hi, size_clz, fx_bits; cbn [isz frsz sgn].
  pose proof (Z.log2_spec (isz A + frsz A) ltac:(lia)) as L.
  rewrite Z.add_0_r. change (Z.succ (Z.log2 (isz A + frsz A))) with (Z.log2 (isz A + frsz A) + 1) in L.
  split; [lia|]. rewrite p2_0. ring.
Qed.

(* the concatenation of words of the operand widths is a number of the inferred
   format; a word is written most significant operand first *)
Fixpoint concat_words (l : list (fxfmt * Z)) (acc : Z) : Z :=
  match l with
  | [] => acc
  | (F, c) :: l => concat_words l (acc * 2 ^ (isz F + frsz F) + c)
  end.

Theorem size_concat_exact : forall l,
  Forall (fun p => fx_ok (fst p) /\ 0 <= snd p < 2 ^ (isz (fst p) + frsz (fst p))) l ->
  fx_value (size_concat (map fst l)) (inject_Z (concat_words l 0)).
Proof.
  assert (K : forall l n acc, 0 <= n -> 0 <= acc < 2 ^ n ->
    Forall (fun p => fx_ok (fst p) /\ 0 <= snd p < 2 ^ (isz (fst p) + frsz (fst p))) l ->
    n <= fold_left (fun x y => x + y) (map fx_bits (map fst l)) n /\
    0 <= concat_words l acc < 2 ^ fold_left (fun x y => x + y) (map fx_bits (map fst l)) n).
  { induction l as [|[F c] l IH]; intros n acc Hn Ha Hl; cbn [map fold_left concat_words].
    - split; [lia|auto].
    - inversion Hl as [|? ? [HF Hc] Hl']; subst. cbn [fst snd] in *. unfold fx_ok in HF.
      assert (B : 0 <= acc * 2 ^ (isz F + frsz F) + c < 2 ^ (n + fx_bits F)).
      { unfold fx_bits. rewrite (Z.pow_add_r 2 n) by lia.
        assert (acc * 2 ^ (isz F + frsz F) <= (2 ^ n - 1) * 2 ^ (isz F + frsz F)) by (apply Z.mul_le_mono_nonneg_r; lia).
        assert (0 <= acc * 2 ^ (isz F + frsz F)) by (apply Z.mul_nonneg_nonneg; lia). lia. }
      destruct (IH (n + fx_bits F) (acc * 2 ^ (isz F + frsz F) + c)) as [I1 I2]; auto.
      { unfold fx_bits; lia. }
      split; auto. unfold fx_bits in *. lia. }
  intros l Hl. destruct (K l 0 0 ltac:(lia) ltac:(lia) Hl) as [K1 K2].
  exists (concat_words l 0). unfold fx_is, fx_lo, fx_hi, size_concat; cbn [isz frsz sgn].
  rewrite Z.add_0_r. split; [lia|]. rewrite p2_0. ring.
Qed.

(* the format inferred for a slice has exactly the bits of the slice, and its
   least significant bit keeps the weight it had in the input *)
Theorem size_slice_exact : forall A lo hi F, size_slice A lo hi = Some F ->
  isz F + frsz F = hi - lo + 1 /\ (p2 (- frsz F) == p2 lo * p2 (- frsz A))%Q /\ lo <= hi.
Proof.
  intros A lo hi F H. unfold size_slice, fx_bits in H.
  destruct (Z.leb_spec (frsz A - lo + (isz A - (isz A + frsz A - 1 - hi))) 0); [discriminate|].
  injection H as <-. cbn [isz frsz]. split; [lia|]. split; [|lia].
  rewrite <- p2_plus. replace (- (frsz A - lo)) with (lo + - frsz A) by lia. reflexivity.
Qed.

Example size_misc_example :
  size_clz (Build_fxfmt 8 0 false) = Build_fxfmt 4 0 false /\
  size_slice (Build_fxfmt 8 4 false) 2 6 = Some (Build_fxfmt 3 2 true) /\
  size_slice (Build_fxfmt 8 4 false) 6 2 = None /\
  format_does_fit (3 # 4) (Build_fxfmt 2 2 true) = Some true /\
  concat_words [(Build_fxfmt 4 0 false, 10); (Build_fxfmt 2 2 false, 5)] 0 = 165.
Proof. repeat split; vm_compute; reflexivity. Qed.

(* ---- C61: position resolution ---- *)

(* the bit found by the resolved index has the requested place: the p-th bit
   from the LSB, the p-th bit down from the MSB, the bit of weight 2^p *)
Theorem fixed_point_position_lsb : forall A p,
  fixed_point_position A FromLSBToLSB p = p /\
  fixed_point_position A FromMSBToLSB p + p = isz A + frsz A - 1 /\
  (p2 (fixed_point_position A FromPointToLSB p) * p2 (- frsz A) == p2 p)%Q.
Proof.
  intros A p. split; [reflexivity|]. split; [unfold fixed_point_position, fx_bits; lia|].
  cbn [fixed_point_position]. rewrite <- p2_plus. replace (frsz A + p + - frsz A) with p by lia. reflexivity.
Qed.

(* FromPointToMSB is documented as the position of the bit of weight 2^p counted
   from the MSB; the most significant bit (weight 2^(isz-1)) is found at 1, not
   0, so re-resolving the result from the MSB finds a neighbouring bit *)
Theorem fixed_point_position_msb_refuted : forall A p,
  fixed_point_position A FromPointToMSB (isz A - 1) = 1 /\
  fixed_point_position A FromMSBToLSB (fixed_point_position A FromPointToMSB p)
    = fixed_point_position A FromPointToLSB p - 1.
Proof. intros. unfold fixed_point_position, fx_bits. lia. Qed.

Example fixed_point_position_example :
  fixed_point_position (Build_fxfmt 3 5 true) FromMSBToLSB 1 = 6 /\
  fixed_point_position (Build_fxfmt 3 5 true) FromPointToLSB (-2) = 3.
Proof. split; reflexivity. Qed.

Print Assumptions size_mul_exact.
Print Assumptions size_add_exact_partial.
Print Assumptions size_add_mixed_refuted.
Print Assumptions size_add_mixed_overflows.
Print Assumptions size_sub_exact_partial.
Print Assumptions size_sub_signed_refuted.
Print Assumptions size_neg_exact_partial.
Print Assumptions size_neg_signed_refuted.
Print Assumptions largest_fixed_contains.
Print Assumptions largest_fixed_frac_minimal.
Print Assumptions solve_equal_contains_partial.
Print Assumptions solve_equal_forgets_refuted.
Print Assumptions size_cst_exact.
Print Assumptions size_cst_minimal_int.
Print Assumptions size_cst_minimal_refuted.
Print Assumptions format_does_fit_sound.
Print Assumptions format_does_fit_complete_refuted.
Print Assumptions size_clz_exact.
Print Assumptions size_concat_exact.
Print Assumptions size_slice_exact.
Print Assumptions fixed_point_position_lsb.
Print Assumptions fixed_point_position_msb_refuted.
