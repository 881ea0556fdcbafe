(* The seed of the reciprocal square root: its error, and its behaviour under
   scaling by powers of four. *)
From Coq Require Import ZArith QArith Qround Qabs List Bool Lia Lqa Setoid.
From Verif Require Import QUtil RoundSpec RoundProofs RoundRne SqrtModel SqrtErr SqrtCore.
From Verif Require DivProofs DivCore.
Import ListNotations.
Open Scope Z_scope.

(* ---- table ---- *)

(* entry i is the multiple of 2^-9 nearest to 1/sqrt(1 + i/256): the squares of
   the middles enclose the inverse of 1 + i/256 *)
Definition entry_ok (i : Z) : bool :=
  let t := invsqrt_entry i in let x := (1 + inject_Z i / 256)%Q in let h := (1 # 1024)%Q in
  Qle_bool (1 # 2) t && Qle_bool t 1
  && Qle_bool ((t - h) * (t - h) * x) 1 && Qle_bool 1 ((t + h) * (t + h) * x)
  && Qle_bool (127 # 128) (x * t * t) && Qle_bool ((x + (1 # 256)) * t * t) (129 # 128).

Lemma entries_checked : forallb (fun i => entry_ok (Z.of_nat i)) (seq 0 256) = true.
Proof. vm_compute. reflexivity. Qed.

Lemma entry_check : forall i, 0 <= i < 256 -> entry_ok i = true.
Proof.
  intros i H. pose proof entries_checked as C. rewrite forallb_forall in C.
  specialize (C (Z.to_nat i)). rewrite Z2Nat.id in C by lia. apply C. apply in_seq. lia.
Qed.

Lemma nth_entry : forall i, 0 <= i < 256 -> nth (Z.to_nat i) invsqrt_approx_table 0%Q = invsqrt_entry i.
Proof.
  intros i H. unfold invsqrt_approx_table.
  rewrite (nth_indep _ 0%Q (invsqrt_entry (Z.of_nat 0))) by (rewrite map_length, seq_length; lia).
  rewrite map_nth with (f := fun i => invsqrt_entry (Z.of_nat i)). rewrite seq_nth by lia. f_equal. lia.
Qed.

Theorem invsqrt_entry_nearest : forall i, 0 <= i < 256 ->
  let t := nth (Z.to_nat i) invsqrt_approx_table 0%Q in let x := (1 + inject_Z i / 256)%Q in
  ((1 # 2) <= t /\ t <= 1 /\ (t - (1 # 1024)) * (t - (1 # 1024)) * x <= 1 /\ 1 <= (t + (1 # 1024)) * (t + (1 # 1024)) * x)%Q.
Proof.
  intros i H. rewrite nth_entry by auto. pose proof (entry_check i H) as C. unfold entry_ok in C.
  repeat (apply andb_true_iff in C; destruct C as [C ?]). repeat match goal with H : Qle_bool _ _ = true |- _ => apply Qle_bool_iff in H end.
  auto.
Qed.

Lemma table_error : forall m, (1 <= m)%Q -> (m < 2)%Q ->
  let i := Qfloor ((m - 1) * 256)%Q in let t := nth (Z.to_nat i) invsqrt_approx_table 0%Q in
  ((1 # 2) <= t /\ t <= 1 /\ Qabs (1 - m * t * t) <= 1 # 128)%Q.
Proof.
  intros m L1 L2 i t.
  pose proof (Qfloor_le ((m - 1) * 256)%Q) as B1. pose proof (Qlt_floor ((m - 1) * 256)%Q) as B2. fold i in B1, B2.
  assert (Hi : 0 <= i < 256).
  { split.
    - assert (inject_Z (-1) < inject_Z i)%Q; [|rewrite <- Zlt_Qlt in *; lia].
      rewrite inject_Z_plus in B2. change (inject_Z 1) with 1%Q in B2. change (inject_Z (-1)) with (-1)%Q. lra.
    - assert (inject_Z i < inject_Z 256)%Q; [|rewrite <- Zlt_Qlt in *; lia].
      change (inject_Z 256) with 256%Q. lra. }
  pose proof (entry_check i Hi) as C. unfold t. rewrite nth_entry by auto. clear t. set (t := invsqrt_entry i). unfold entry_ok in C.
  cbv zeta in C. fold t in C. repeat (apply andb_true_iff in C; destruct C as [C ?]).
  repeat match goal with H : Qle_bool _ _ = true |- _ => apply Qle_bool_iff in H end. clearbody t.
  split; [assumption|]. split; [assumption|].
  rewrite inject_Z_plus in B2. change (inject_Z 1) with 1%Q in B2.
  assert (E : (inject_Z i / 256 == (1 # 256) * inject_Z i)%Q) by field. rewrite E in *.
  set (a := inject_Z i) in *. clearbody a.
  assert (t2 : (0 <= t * t)%Q) by (apply Qmult_le_0_compat; lra).
  assert (X : ((1 + (1 # 256) * a) * (t * t) <= m * (t * t))%Q) by (apply Qmult_le_compat_r; lra).
  assert (Y : (m * (t * t) <= (1 + (1 # 256) * a + (1 # 256)) * (t * t))%Q) by (apply Qmult_le_compat_r; lra).
  apply Qabs_le_iff. lra.
Qed.

(* ---- sqrt 2 ---- *)
Lemma sqrt2_error : forall p, 2 <= p ->
  (0 < sqrt2_cst p)%Q /\ (Qabs (1 - (1 # 2) * (sqrt2_cst p * sqrt2_cst p)) <= (3 # 2) * p2 (- p))%Q.
Proof.
  intros p Hp. unfold sqrt2_cst.
  set (s := Z.sqrt (2 ^ (2 * p + 1))).
  assert (E0 : 2 ^ (2 * p + 1) = 2 * (2 ^ p * 2 ^ p)).
  { replace (2 * p + 1) with (1 + (p + p)) by lia. rewrite !Z.pow_add_r by lia. lia. }
  assert (P : 0 < 2 ^ p) by (apply Z.pow_pos_nonneg; lia).
  assert (P4 : 4 <= 2 ^ p) by (change 4 with (2 ^ 2); apply Z.pow_le_mono_r; lia).
  pose proof (Z.sqrt_spec (2 ^ (2 * p + 1)) ltac:(lia)) as [S1 S2]. fold s in S1, S2.
  rewrite E0 in S1, S2. set (n := (s + 1) / 2).
  assert (Hs0 : 0 <= s) by apply Z.sqrt_nonneg.
  assert (Hn : s <= 2 * n <= s + 1) by (unfold n; pose proof (Z.div_mod (s + 1) 2 ltac:(lia)); pose proof (Z.mod_pos_bound (s + 1) 2 ltac:(lia)); lia).
  set (a := 2 ^ p) in *.
  assert (Hs : 2 * s <= 3 * a - 1).
  { destruct (Z.le_gt_cases (3 * a) (2 * s)); [exfalso|lia]. assert (9 * (a * a) <= 4 * (s * s)) by nia. nia. }
  assert (Hs1 : a <= s) by nia.
  assert (Hd : Z.abs (2 * (a * a) - (2 * n) * (2 * n)) <= 3 * a).
  { assert (s * s <= 2 * n * (2 * n) <= (s + 1) * (s + 1)) by nia. unfold Z.succ in S2. nia. }
  assert (Ea : (inject_Z a * p2 (- p) == 1)%Q).
  { unfold a. rewrite <- p2_Z by lia. rewrite <- p2_plus. replace (p + - p) with 0 by lia. apply p2_0. }
  set (q := p2 (- p)) in *. pose proof (p2_pos (- p)) as Pq. fold q in Pq.
  assert (E1 : (p2 (1 - p) == 2 * q)%Q) by (unfold q; rewrite <- p2_succ; replace (- p + 1) with (1 - p) by lia; reflexivity).
  rewrite E1. split.
  - apply Qmult_lt_0_compat; [|lra]. change 0%Q with (inject_Z 0). rewrite <- Zlt_Qlt. lia.
  - clearbody q n a. clear E0 E1.
    assert (E : (1 - (1 # 2) * (inject_Z n * (2 * q) * (inject_Z n * (2 * q))) == inject_Z (2 * (a * a) - 2 * n * (2 * n)) * ((1 # 2) * (q * q)))%Q).
    { rewrite DivCore.inj_minus, !inject_Z_mult. change (inject_Z 2) with 2%Q.
      setoid_replace 1%Q with (inject_Z a * q * (inject_Z a * q))%Q at 1 by (rewrite Ea; ring). ring. }
    rewrite E. assert (Pqq : (0 < q * q)%Q) by (apply Qmult_lt_0_compat; auto).
    rewrite Qabs_mul_pos by lra.
    assert (B : (Qabs (inject_Z (2 * (a * a) - 2 * n * (2 * n))) <= inject_Z (3 * a))%Q).
    { apply Qabs_le_iff. rewrite <- inject_Z_opp, <- !Zle_Qle. lia. }
    apply (Qle_trans _ (inject_Z (3 * a) * ((1 # 2) * (q * q)))); [apply Qmult_le_compat_r; lra|].
    rewrite inject_Z_mult. change (inject_Z 3) with 3%Q.
    setoid_replace (3 * inject_Z a * ((1 # 2) * (q * q)))%Q with ((3 # 2) * q * (inject_Z a * q))%Q by ring. rewrite Ea. lra.
Qed.

(* ---- seed ---- *)

(* the correction and the power of two: about 2^(-e/2) *)
Definition seed_scale (p e : Z) : Q :=
  ((if Z.rem e 2 =? 0 then 1 else if Z.rem e 2 =? -1 then sqrt2_cst p else (1 # 2) * sqrt2_cst p) * p2 (Z.quot (- e) 2))%Q.

Lemma quot_rem : forall e,
  (exists k, e = 2 * k /\ Z.rem e 2 = 0 /\ Z.quot (- e) 2 = - k)
  \/ (exists k, e = 2 * k + 1 /\ 0 <= k /\ Z.rem e 2 = 1 /\ Z.quot (- e) 2 = - k)
  \/ (exists k, e = 2 * k + 1 /\ k < 0 /\ Z.rem e 2 = -1 /\ Z.quot (- e) 2 = - k - 1).
Proof.
  intros e. rewrite Z.quot_opp_l by lia. pose proof (Z.quot_rem e 2 ltac:(lia)) as E.
  destruct (Z_le_gt_dec 0 e) as [P|N].
  - pose proof (Z.rem_bound_pos e 2 P ltac:(lia)) as B.
    destruct (Z.eq_dec (Z.rem e 2) 0) as [Z0|N0].
    + left. exists (e ÷ 2). lia.
    + right. left. exists (e ÷ 2). lia.
  - assert (B' : -2 < Z.rem e 2 <= 0).
    { pose proof (Z.rem_opp_l e 2 ltac:(lia)) as O. pose proof (Z.rem_bound_pos (- e) 2 ltac:(lia) ltac:(lia)). lia. }
    destruct (Z.eq_dec (Z.rem e 2) 0) as [Z0|N0].
    + left. exists (e ÷ 2). lia.
    + right. right. exists (e ÷ 2 - 1). lia.
Qed.

Lemma seed_scale_eq : forall p k, 2 <= p ->
  (seed_scale p (2 * k) == p2 (- k) /\ seed_scale p (2 * k + 1) == (1 # 2) * sqrt2_cst p * p2 (- k))%Q.
Proof.
  intros p k Hp. unfold seed_scale. split.
  - destruct (quot_rem (2 * k)) as [(i & E & R & W)|[(i & E & _ & R & W)|(i & E & _ & R & W)]]; try lia.
    rewrite R, W. assert (i = k) by lia. subst i. cbn [Z.eqb]. ring.
  - destruct (quot_rem (2 * k + 1)) as [(i & E & R & W)|[(i & E & _ & R & W)|(i & E & _ & R & W)]]; try lia;
      rewrite R, W; assert (i = k) by lia; subst i.
    + change (1 =? 0) with false. change (1 =? -1) with false. cbn [Z.eqb]. ring.
    + change (-1 =? 0) with false. change (-1 =? -1) with true. cbv iota.
      assert (E2 : (p2 (- k) == 2 * p2 (- k - 1))%Q) by (rewrite <- p2_succ; replace (- k - 1 + 1) with (- k) by lia; reflexivity).
      rewrite E2. ring.
Qed.

Lemma seed_scale_error : forall p e, 2 <= p ->
  (0 < seed_scale p e)%Q /\ (Qabs (1 - p2 e * (seed_scale p e * seed_scale p e)) <= (3 # 2) * p2 (- p))%Q.
Proof.
  intros p e Hp. destruct (sqrt2_error p Hp) as [C0 C1]. pose proof (p2_pos (- p)) as Pu.
  assert (He : exists k, e = 2 * k \/ e = 2 * k + 1).
  { exists (e / 2). pose proof (Z.div_mod e 2 ltac:(lia)). pose proof (Z.mod_pos_bound e 2 ltac:(lia)). lia. }
  destruct He as (k & [-> | ->]); destruct (seed_scale_eq p k Hp) as [S1 S2]; pose proof (p2_pos (- k)) as Pk;
    assert (J : (p2 k * p2 (- k) == 1)%Q) by (rewrite Qmult_comm; apply p2_opp);
    assert (J2 : (p2 (2 * k) == p2 k * p2 k)%Q) by (rewrite <- p2_plus; replace (k + k) with (2 * k) by lia; reflexivity).
  - rewrite S1. split; [auto|]. rewrite J2.
    setoid_replace (p2 k * p2 k * (p2 (- k) * p2 (- k)))%Q with (p2 k * p2 (- k) * (p2 k * p2 (- k)))%Q by ring. rewrite J.
    setoid_replace (1 - 1 * 1)%Q with 0%Q by ring. change (Qabs 0) with 0%Q. lra.
  - rewrite S2. split; [apply Qmult_lt_0_compat; lra|]. rewrite p2_succ, J2.
    setoid_replace (2 * (p2 k * p2 k) * ((1 # 2) * sqrt2_cst p * p2 (- k) * ((1 # 2) * sqrt2_cst p * p2 (- k))))%Q
      with ((1 # 2) * (sqrt2_cst p * sqrt2_cst p) * ((p2 k * p2 (- k)) * (p2 k * p2 (- k))))%Q by ring.
    rewrite J. setoid_replace ((1 # 2) * (sqrt2_cst p * sqrt2_cst p) * (1 * 1))%Q with ((1 # 2) * (sqrt2_cst p * sqrt2_cst p))%Q by ring.
    exact C1.
Qed.

Section Seed.
Variables (p : Z) (v : Q) (rnd : Q -> Q) (ok : Q -> Prop).
Notation u := (p2 (- p)).
Hypothesis Hp : 12 <= p.
Hypothesis Hv : (0 < v)%Q.
Hypothesis Hok : forall x, ok x -> relerr u x (rnd x).
Hypothesis G3 : forall x, (0 < x)%Q -> (1 <= 8 * (v * x * x))%Q -> ok x.

Lemma seed_unfold : invsqrt_seed rnd p v = rnd (nth (Z.to_nat (invsqrt_index v)) invsqrt_approx_table 0%Q * rnd (seed_scale p (qlog2 v)))%Q.
Proof. reflexivity. Qed.

Theorem seed_error : (0 < invsqrt_seed rnd p v)%Q
  /\ (Qabs (1 - v * invsqrt_seed rnd p v * invsqrt_seed rnd p v) <= (1 # 128) + 9 * u)%Q
  /\ ok (seed_scale p (qlog2 v)) /\ ok (nth (Z.to_nat (invsqrt_index v)) invsqrt_approx_table 0%Q * rnd (seed_scale p (qlog2 v)))%Q.
Proof.
  rewrite seed_unfold.
  destruct (qlog2_spec v Hv) as [L1 L2]. set (e := qlog2 v) in *. pose proof (p2_pos e) as Pe.
  set (m := (v / p2 e)%Q). assert (Em : (v == m * p2 e)%Q) by (unfold m; field; apply p2_nz).
  assert (M1 : (1 <= m)%Q) by (unfold m; apply Qle_shift_div_l; lra).
  assert (M2 : (m < 2)%Q) by (unfold m; apply Qlt_shift_div_r; [auto|]; rewrite p2_succ in L2; lra).
  destruct (table_error m M1 M2) as (T1 & T2 & T3). fold e in T1, T2, T3.
  unfold invsqrt_index. fold e. fold m.
  set (t := nth (Z.to_nat (Qfloor ((m - 1) * 256)%Q)) invsqrt_approx_table 0%Q) in *.
  destruct (seed_scale_error p e ltac:(lia)) as [S0 S1]. set (x := seed_scale p e) in *.
  pose proof (p2_pos (- p)) as Pu.
  assert (U : (4096 * u <= 1)%Q).
  { pose proof (p2_le (- p) (-12) ltac:(lia)) as H. change (p2 (-12)) with (1 # 4096)%Q in H. lra. }
  assert (u0 : (0 <= u)%Q) by lra.
  clearbody x t. 
  assert (Lx : (Qabs (p2 e * (x * x)) <= 33 # 32)%Q) by (apply Qabs_le_iff; split_abs; lra).
  assert (Kx : ok x).
  { apply G3; auto. rewrite Em. 
    assert (1 * (p2 e * (x * x)) <= m * (p2 e * (x * x)))%Q.
    { apply Qmult_le_compat_r; [auto|]. apply Qabs_le_iff in S1. lra. }
    apply Qabs_le_iff in S1. lra. }
  destruct (relerr_delta _ _ _ u0 (Hok _ Kx)) as (d1 & Q1 & D1).
  assert (P1 : (0 < rnd x)%Q) by (rewrite Q1; apply Qmult_lt_0_compat; auto; split_abs; lra).
  assert (Sq : (forall d, Qabs d <= u -> Qabs (1 - (1 + d) * (1 + d)) <= (33 # 16) * u)%Q).
  { intros d Hd. pose proof (absmul _ _ _ _ Hd Hd) as D2. destruct (ux u u0 U u u0) as [uu0 uu].
    setoid_replace (1 - (1 + d) * (1 + d))%Q with (- (2 * d + d * d))%Q by ring. apply Qabs_le_iff; split_abs; lra. }
  set (A := (m * t * t)%Q) in *. set (B := (p2 e * (x * x))%Q) in *. set (C := ((1 + d1) * (1 + d1))%Q).
  pose proof (Sq d1 D1) as SC. fold C in SC.
  assert (BA : (Qabs A <= 129 # 128)%Q) by (apply Qabs_le_iff; split_abs; lra).
  pose proof (absmul _ _ _ _ BA S1) as AB.
  assert (BAB : (Qabs (A * B) <= 33 # 32)%Q) by (apply Qabs_le_iff; split_abs; lra).
  pose proof (absmul _ _ _ _ BAB SC) as ABC.
  assert (X1 : (Qabs (1 - A * B * C) <= (1 # 128) + 4 * u)%Q).
  { setoid_replace (1 - A * B * C)%Q with ((1 - A) + A * (1 - B) + A * B * (1 - C))%Q by ring. apply Qabs_le_iff; split_abs; lra. }
  assert (Ktx : ok (t * rnd x)).
  { apply G3; [apply Qmult_lt_0_compat; lra|].
    setoid_replace (v * (t * rnd x) * (t * rnd x))%Q with (A * B * C)%Q.
    - split_abs. lra.
    - rewrite Q1, Em. unfold A, B, C. ring. }
  destruct (relerr_delta _ _ _ u0 (Hok _ Ktx)) as (d2 & Q2 & D2).
  pose proof (Sq d2 D2) as SD. set (D := ((1 + d2) * (1 + d2))%Q) in *.
  split; [|split; [|split; assumption]].
  - rewrite Q2. apply Qmult_lt_0_compat; [apply Qmult_lt_0_compat; lra|split_abs; lra].
  - assert (BABC : (Qabs (A * B * C) <= 33 # 32)%Q) by (apply Qabs_le_iff; split_abs; lra).
    pose proof (absmul _ _ _ _ BABC SD) as ABCD.
    setoid_replace (1 - v * rnd (t * rnd x) * rnd (t * rnd x))%Q with ((1 - A * B * C) + A * B * C * (1 - D))%Q.
    + apply Qabs_le_iff; split_abs; lra.
    + rewrite Q2, Q1, Em. unfold A, B, C, D. ring.
Qed.

(* scaling *)
Variable rnd2 : Q -> Q.
Variable v0 : Q.
Variable j : Z.
Hypothesis Hcomp2 : forall x y, (x == y)%Q -> (rnd2 x == rnd2 y)%Q.
Hypothesis Hag : forall x k x2, ok x -> (x == p2 k * x2)%Q -> (rnd x == p2 k * rnd2 x2)%Q.
Hypothesis Hv0 : (v == p2 (2 * j) * v0)%Q.

Theorem seed_agree : (invsqrt_seed rnd p v == p2 (- j) * invsqrt_seed rnd2 p v0)%Q.
Proof.
  destruct seed_error as (_ & _ & K1 & K2).
  rewrite seed_unfold. unfold invsqrt_seed. fold (seed_scale p (qlog2 v0)). cbv zeta.
  change (rnd2 (nth (Z.to_nat (invsqrt_index v0)) invsqrt_approx_table 0 *
     rnd2 ((if Z.rem (qlog2 v0) 2 =? 0 then 1 else if Z.rem (qlog2 v0) 2 =? -1 then sqrt2_cst p else (1 # 2) * sqrt2_cst p) * p2 (- qlog2 v0 ÷ 2)))%Q)
    with (rnd2 (nth (Z.to_nat (invsqrt_index v0)) invsqrt_approx_table 0 * rnd2 (seed_scale p (qlog2 v0)))%Q).
  assert (J : (p2 (- (2 * j)) * p2 (2 * j) == 1)%Q) by apply p2_opp.
  pose proof (p2_pos (2 * j)) as P2. pose proof (p2_pos (- (2 * j))) as P2'.
  assert (Hv0p : (0 < v0)%Q).
  { destruct (Qlt_le_dec 0 v0); auto. exfalso. assert (0 <= p2 (2 * j) * (- v0))%Q by (apply Qmult_le_0_compat; lra). lra. }
  destruct (qlog2_spec v0 Hv0p) as [L1 L2].
  assert (L : qlog2 v = qlog2 v0 + 2 * j).
  { apply qlog2_unique; rewrite Hv0.
    - rewrite p2_plus, Qmult_comm. apply DivProofs.mle; lra.
    - replace (qlog2 v0 + 2 * j + 1) with (2 * j + (qlog2 v0 + 1)) by lia. rewrite (p2_plus (2 * j)). apply Qmult_lt_l; auto. }
  assert (I : invsqrt_index v = invsqrt_index v0).
  { unfold invsqrt_index. apply Qfloor_comp. rewrite L, Hv0. rewrite p2_plus. field. split; apply p2_nz. }
  assert (Sc : (seed_scale p (qlog2 v) == p2 (- j) * seed_scale p (qlog2 v0))%Q).
  { rewrite L. set (e := qlog2 v0). clearbody e.
    assert (He : exists k, e = 2 * k \/ e = 2 * k + 1).
    { exists (e / 2). pose proof (Z.div_mod e 2 ltac:(lia)). pose proof (Z.mod_pos_bound e 2 ltac:(lia)). lia. }
    destruct He as (k & [-> | ->]).
    - replace (2 * k + 2 * j) with (2 * (k + j)) by lia.
      rewrite (proj1 (seed_scale_eq p (k + j) ltac:(lia))), (proj1 (seed_scale_eq p k ltac:(lia))).
      rewrite <- p2_plus. replace (- j + - k) with (- (k + j)) by lia. reflexivity.
    - replace (2 * k + 1 + 2 * j) with (2 * (k + j) + 1) by lia.
      rewrite (proj2 (seed_scale_eq p (k + j) ltac:(lia))), (proj2 (seed_scale_eq p k ltac:(lia))).
      replace (- (k + j)) with (- j + - k) by lia. rewrite p2_plus. ring. }
  assert (S2 : (rnd (seed_scale p (qlog2 v)) == p2 (- j) * rnd2 (seed_scale p (qlog2 v0)))%Q) by (apply Hag; auto).
  apply Hag; auto. rewrite S2, I. ring.
Qed.
End Seed.
