(* The logarithm with a seed computed in another format (binary64: the seed is
   computed in binary32): the index of the seed and the index of the table of
   logarithms are not always the same. *)
From Coq Require Import ZArith QArith Qabs Qround Lia Lqa List Bool.
From Verif Require Import QUtil FpFormatModel RoundSpec RoundProofs RoundRne DivModel DivCore DivProofs DivProps DivScheme LogModel LogReduce.
Open Scope Q_scope.

(* just below a multiple of 1/128, the conversion goes up to that multiple *)
Lemma conv_up : forall q conv j m, (8 <= q)%Z -> nearest_in (mkF q None) conv -> (1 <= j <= 128)%Z ->
  1 <= m -> 1 + inject_Z j / 128 - p2 (- q) < m -> m < 1 + inject_Z j / 128 -> conv m == 1 + inject_Z j / 128.
Proof.
  intros q conv j m Hq Hc Hj M1 L U. set (F := mkF q None) in *. set (B := 1 + inject_Z j / 128) in *.
  assert (EB : B == inject_Z (128 + j) * p2 (- 7)).
  { unfold B. rewrite inject_Z_plus. change (inject_Z 128) with 128. change (p2 (- 7)) with (1 # 128). field. }
  assert (IB : inF F B).
  { exists (128 + j)%Z, (-7)%Z. split; [exact EB|]. split; [|exact I]. cbn [prec F]. pose proof (Z.pow_le_mono_r 2 8 q ltac:(lia) Hq). change (2 ^ 8)%Z with 256%Z in H. lia. }
  pose proof (rnd_near F conv Hc m B IB) as N. rewrite (Qabs_pos (B - m)) in N by lra.
  assert (C1 : 1 <= conv m).
  { apply (rnd_ge_F F conv Hc); auto. exists 1%Z, 0%Z. split; [reflexivity|]. split; [|exact I]. cbn [prec F]. change (Z.abs 1) with (2 ^ 0)%Z. apply Z.pow_le_mono_r; lia. }
  pose proof (rnd_inF F conv Hc m) as Ic. set (x := conv m) in *. clearbody x.
  assert (Mx : mult (1 - q) x).
  { destruct (Qle_lt_or_eq _ _ C1) as [C|C].
    - apply (inF_big F ltac:(cbn [prec F]; lia) (1 - q) x Ic). cbn [prec F]. replace (q + (1 - q) - 1)%Z with 0%Z by lia. rewrite p2_0, Qabs_pos; lra.
    - exists (2 ^ (q - 1))%Z. rewrite <- C, <- p2_Z, <- p2_plus by lia. replace (q - 1 + (1 - q))%Z with 0%Z by lia. reflexivity. }
  assert (MB : mult (1 - q) B).
  { exists ((128 + j) * 2 ^ (q - 8))%Z. rewrite EB, inject_Z_mult, <- p2_Z by lia.
    setoid_replace (inject_Z (128 + j) * p2 (q - 8) * p2 (1 - q)) with (inject_Z (128 + j) * (p2 (q - 8) * p2 (1 - q))) by ring.
    rewrite <- p2_plus. replace (q - 8 + (1 - q))%Z with (- 7)%Z by lia. reflexivity. }
  assert (D : Qabs (x - B) < p2 (1 - q)).
  { replace (1 - q)%Z with (- q + 1)%Z by lia. rewrite p2_succ. apply Qabs_le_iff in N. apply Qabs_case; intros; lra. }
  destruct Mx as [a Ea]. destruct MB as [b Eb].
  rewrite Ea, Eb in D. setoid_replace (inject_Z a * p2 (1 - q) - inject_Z b * p2 (1 - q)) with (inject_Z (a - b) * p2 (1 - q)) in D
    by (unfold Z.sub; rewrite inject_Z_plus, inject_Z_opp; ring).
  pose proof (p2_pos (1 - q)) as P. rewrite Qabs_Qmult, (Qabs_pos (p2 (1 - q))) in D by lra.
  assert (D' : Qabs (inject_Z (a - b)) < 1).
  { apply (Qmult_lt_r _ _ (p2 (1 - q))); auto. rewrite Qmult_1_l. exact D. }
  change (Qabs (inject_Z (a - b))) with (inject_Z (Z.abs (a - b))) in D'. change 1 with (inject_Z 1) in D'. rewrite <- Zlt_Qlt in D'.
  assert (a = b) by lia. subst b. rewrite Ea, Eb. reflexivity.
Qed.

(* entries of the table of inverses, with the one the seed of 2 stands for *)
Definition inv_at (t : list Q) (i : Z) : Q := if Z.eqb i 128 then 1 # 2 else nth (Z.to_nat i) t 0.

Lemma seed_at : forall t x j, nth 0 t 0 == 1 -> (0 <= j <= 128)%Z -> x == 1 + inject_Z j / 128 ->
  reciprocal_seed t (fun v => v) x == inv_at t j.
Proof.
  intros t x j T0 Hj E. unfold inv_at, reciprocal_seed.
  assert (Jb : 0 <= inject_Z j /\ inject_Z j <= 128).
  { split; [change 0 with (inject_Z 0)|change 128 with (inject_Z 128)]; rewrite <- Zle_Qle; lia. }
  assert (Eb : x == 1 + (1 # 128) * inject_Z j) by (rewrite E; field).
  assert (S : Qle_bool 0 x = true) by (apply Qle_bool_iff; lra). rewrite S.
  assert (Ax : Qabs x == x) by (apply Qabs_pos; lra).
  destruct (Z.eqb_spec j 128) as [->|N].
  - assert (X2 : x == 2) by (rewrite E; reflexivity).
    assert (L : qlog2 (Qabs x) = 1%Z) by (apply qlog2_unique; rewrite Ax, X2; [apply Qle_refl|reflexivity]).
    unfold table_index. rewrite L. assert (W : (Qabs x / p2 1 - 1) * 128 == inject_Z 0) by (rewrite Ax, X2; reflexivity).
    rewrite (Qfloor_comp _ _ W), Qfloor_Z. change (Z.to_nat 0) with 0%nat. rewrite T0. reflexivity.
  - assert (J2 : inject_Z j <= 127) by (change 127 with (inject_Z 127); rewrite <- Zle_Qle; lia).
    assert (L : qlog2 (Qabs x) = 0%Z) by (apply qlog2_unique; rewrite Ax; [rewrite p2_0; lra|change (p2 (0 + 1)) with 2; lra]).
    unfold table_index. rewrite L. assert (W : (Qabs x / p2 0 - 1) * 128 == inject_Z j) by (rewrite Ax, p2_0, Eb; field).
    rewrite (Qfloor_comp _ _ W), Qfloor_Z. change (- 0)%Z with 0%Z. rewrite p2_0. ring.
Qed.

Lemma seed_conv : forall t conv m, reciprocal_seed t conv m = reciprocal_seed t (fun v => v) (conv m).
Proof. reflexivity. Qed.

(* what is needed of the table *)
Definition step_ok (t : list Q) : bool :=
  Qeq_bool (nth 0 t 0) 1 &&
  forallb (fun n => let i := Z.of_nat n in let a := inv_at t i in let b := inv_at t (i + 1) in
    Qle_bool (b + (1 # 512)) a && Qle_bool (1 # 2) b && Qle_bool a 1 && Qeq_bool b (inject_Z (Qfloor (b * 512)) / 512)
    && Qle_abs (1 - b * (1 + inject_Z (i + 1) / 128)) (265 # 32768)) (seq 1 127).
Theorem generic_step : step_ok generic_inv_approx_table = true.
Proof. vm_compute. reflexivity. Qed.

Section D.
Variables p q : Z.
Hypothesis Hp : (12 <= p)%Z.
Hypothesis Hq : (12 <= q)%Z.
Variable conv : Q -> Q.
Hypothesis Hc : nearest_in (mkF q None) conv.
Variable c : log_cst.
Hypothesis Ht : step_ok (c_inv c) = true.

Theorem mismatch : forall m i, (1 <= i <= 127)%Z -> 1 + inject_Z (i + 1) / 128 - p2 (- q) < m -> m < 1 + inject_Z (i + 1) / 128 ->
  table_index m = i /\ 1 <= m /\ m < 2 /\
  arg_red p conv c m == inv_at (c_inv c) (i + 1) /\ (1 # 2) <= inv_at (c_inv c) (i + 1)
  /\ inv_at (c_inv c) (i + 1) + (1 # 512) <= nth (Z.to_nat i) (c_inv c) 0 /\ nth (Z.to_nat i) (c_inv c) 0 <= 1
  /\ Qabs (arg_red p conv c m * m - 1) <= 1 # 120.
Proof.
  intros m i Hi L U.
  assert (Pq : p2 (- q) <= 1 # 4096) by (setoid_replace (1 # 4096) with (p2 (-12)) by reflexivity; apply p2_le; lia).
  assert (I1 : 1 <= inject_Z i) by (change 1 with (inject_Z 1); rewrite <- Zle_Qle; lia).
  assert (I2 : inject_Z i <= 127) by (change 127 with (inject_Z 127); rewrite <- Zle_Qle; lia).
  assert (EB : 1 + inject_Z (i + 1) / 128 == 1 + (1 # 128) * inject_Z i + (1 # 128)) by (rewrite inject_Z_plus; change (inject_Z 1) with 1; field).
  assert (M1 : 1 <= m) by lra. assert (M2 : m < 2) by lra.
  destruct (one_two m M1 M2) as (Q1 & Q2 & Q3 & Nm).
  assert (Ix : table_index m = i).
  { unfold table_index. rewrite Q1.
    assert (E : (Qabs m / p2 0 - 1) * 128 == 128 * m - 128) by (rewrite Qabs_pos, p2_0 by lra; field). rewrite (Qfloor_comp _ _ E).
    pose proof (Qfloor_le (128 * m - 128)) as A. pose proof (Qlt_floor (128 * m - 128)) as B. set (z := Qfloor _) in *. clearbody z.
    assert (A1 : inject_Z z < inject_Z (i + 1)) by (rewrite inject_Z_plus; change (inject_Z 1) with 1; lra).
    assert (B1 : inject_Z i < inject_Z (z + 1)) by lra. rewrite <- Zlt_Qlt in A1, B1. lia. }
  pose proof (conv_up q conv (i + 1) m ltac:(lia) Hc ltac:(lia) M1 L U) as Ec.
  unfold step_ok in Ht. apply andb_true_iff in Ht. destruct Ht as [T0 T]. apply Qeq_bool_iff in T0.
  rewrite forallb_forall in T. specialize (T (Z.to_nat i)). assert (Hin : In (Z.to_nat i) (seq 1 127)) by (apply in_seq; lia). specialize (T Hin).
  cbv zeta in T. rewrite Z2Nat.id in T by lia.
  pose proof (seed_at (c_inv c) (conv m) (i + 1) T0 ltac:(lia) Ec) as Es.
  assert (Ei : inv_at (c_inv c) i = nth (Z.to_nat i) (c_inv c) 0).
  { unfold inv_at. destruct (Z.eqb_spec i 128); [lia|reflexivity]. }
  rewrite Ei in T. set (b := inv_at (c_inv c) (i + 1)) in *. set (a := nth (Z.to_nat i) (c_inv c) 0) in *.
  rewrite !andb_true_iff in T. destruct T as ((((T1 & T2) & T3) & T4) & T5).
  apply Qle_bool_iff in T1, T2, T3. apply Qeq_bool_iff in T4. apply Qle_abs_ok in T5.
  assert (Ea : arg_red p conv c m == b).
  { unfold arg_red. rewrite Ix. destruct (Z.eqb_spec i 0); [lia|]. rewrite seed_conv.
    assert (E9 : b == inject_Z (Qfloor (b * 512)) * p2 (- 9)) by exact T4.
    set (s := reciprocal_seed _ _ _) in *. clearbody s.
    rewrite (clear_last_entry p (Qfloor (b * 512)) s Hp); [exact Es|rewrite Es; exact E9|lra|lra]. }
  split; auto. split; auto. split; auto. split; auto. split; auto. split; auto. split; auto.
  rewrite Ea. assert (B1 : b <= 1) by lra. set (B := 1 + inject_Z (i + 1) / 128) in *. clearbody B b.
  assert (D : 0 <= b * (B - m) /\ b * (B - m) <= 1 * (B - m)).
  { split; [apply Qmult_le_0_compat; lra|apply Qmult_le_compat_r; lra]. }
  setoid_replace (b * m - 1) with (- (1 - b * B) - b * (B - m)) by ring. apply Qabs_le_iff in T5. apply Qabs_case; intros; lra.
Qed.
End D.
