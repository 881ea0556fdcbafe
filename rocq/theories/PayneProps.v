(* Properties of the Payne and Hanek reduction (C47). *)
From Coq Require Import ZArith QArith Qabs Qround Bool List Lia Lqa Setoid.
From Verif Require Import QUtil FpFormatProofs FixedProps RoundSpec RoundProofs RoundRne IndexModel IndexProps FmodProps PayneModel.
Import ListNotations.
Open Scope Z_scope.

(* specification: equal up to a multiple of 2^m and an error *)
Definition eq_mod (m : Z) (err a b : Q) : Prop := exists z : Z, (Qabs (a - b - inject_Z z * p2 m) <= err)%Q.

(* ------------------------------------------------------------------ *)
(* truncation to a grid                                                 *)
(* ------------------------------------------------------------------ *)
Lemma trunc_part : forall u v, let t := (inject_Z (qtrunc (v / p2 u)) * p2 u)%Q in
  mult u t /\ (Qabs t <= Qabs v)%Q /\ (Qabs (v - t) < p2 u)%Q.
Proof.
  intros u v t. pose proof (p2_pos u) as P. pose proof (p2_nz u) as N.
  assert (E : (v == v / p2 u * p2 u)%Q) by (field; auto).
  split; [exists (qtrunc (v / p2 u)); reflexivity|]. split.
  - unfold t. rewrite E at 2. rewrite !Qabs_Qmult, (Qabs_pos (p2 u)) by lra. apply Qmult_le_compat_r; [|lra].
    set (q := (v / p2 u)%Q). unfold qtrunc. destruct (Qle_bool 0 q) eqn:B.
    + apply Qle_bool_iff in B. assert (0 <= Qfloor q) by (change 0 with (Qfloor 0); apply Qfloor_resp_le; auto).
      rewrite !Qabs_pos; auto; [apply Qfloor_le|change 0%Q with (inject_Z 0); apply inj_le_iff; auto].
    + apply Qle_bool_false in B. assert (Qceiling q <= 0) by (change 0 with (Qceiling 0); apply Qceiling_resp_le; lra).
      rewrite !Qabs_neg; [pose proof (Qle_ceiling q); lra|lra|change 0%Q with (inject_Z 0); apply inj_le_iff; auto].
  - unfold t. assert (E2 : (v - inject_Z (qtrunc (v / p2 u)) * p2 u == - (inject_Z (qtrunc (v / p2 u)) - v / p2 u) * p2 u)%Q) by (field; auto).
    rewrite E2, Qabs_Qmult, Qabs_opp, (Qabs_pos (p2 u)) by lra.
    apply (Qlt_le_trans _ (1 * p2 u)); [|lra]. apply Qmult_lt_r; auto. apply qtrunc_abs_lt.
Qed.

Lemma local_cst_eq : forall p msb i tmp, (local_cst p msb i tmp ==
  inject_Z (qtrunc (tmp / p2 (msb - chunk_size p * (i + 1)))) * p2 (msb - chunk_size p * (i + 1)))%Q.
Proof.
  intros p msb i tmp. unfold local_cst. set (a := chunk_size p * (i + 1) - msb).
  replace (msb - chunk_size p * (i + 1)) with (- a) by (unfold a; lia).
  assert (I : (/ p2 (- a) == p2 a)%Q).
  { pose proof (p2_opp a) as X. pose proof (p2_nz (- a)). setoid_replace (p2 a) with (/ p2 (- a) * (p2 (- a) * p2 a))%Q by (field; auto). rewrite X. ring. }
  rewrite (qtrunc_comp (tmp / p2 (- a)) (tmp * p2 a)) by (unfold Qdiv; rewrite I; reflexivity).
  unfold Qdiv. setoid_replace (/ p2 a)%Q with (p2 (- a)); [reflexivity|].
  pose proof (p2_opp a) as X. pose proof (p2_nz a). setoid_replace (p2 (- a)) with (p2 (- a) * p2 a * / p2 a)%Q by (field; auto). rewrite X. ring.
Qed.

(* ------------------------------------------------------------------ *)
(* the chunks of the constant                                           *)
(* ------------------------------------------------------------------ *)
(* what is left of the constant after j chunks *)
Fixpoint rest (p msb : Z) (cst : Q) (j : nat) : Q :=
  match j with O => cst | S j' => (rest p msb cst j' - local_cst p msb (Z.of_nat j') (rest p msb cst j'))%Q end.
Definition chunk (p msb : Z) (cst : Q) (j : nat) : Q := local_cst p msb (Z.of_nat j) (rest p msb cst j).

Lemma rest_S : forall p msb cst j, (rest p msb cst (S j) == rest p msb cst j - chunk p msb cst j)%Q.
Proof. intros. reflexivity. Qed.

Lemma chunk_mult : forall p msb cst j, mult (msb - chunk_size p * (Z.of_nat j + 1)) (chunk p msb cst j).
Proof. intros. unfold chunk. eapply mult_comp; [symmetry; apply local_cst_eq|]. apply trunc_part. Qed.

Lemma rest_bound : forall p msb cst j, (Qabs (rest p msb cst (S j)) < p2 (msb - chunk_size p * Z.of_nat (S j)))%Q.
Proof.
  intros. rewrite rest_S. unfold chunk. rewrite local_cst_eq. replace (Z.of_nat (S j)) with (Z.of_nat j + 1) by lia. apply trunc_part.
Qed.

Lemma chunk_le : forall p msb cst j, (Qabs (chunk p msb cst j) <= Qabs (rest p msb cst j))%Q.
Proof. intros. unfold chunk. rewrite local_cst_eq. apply trunc_part. Qed.

Lemma rest_bound1 : forall p cst j, ~ (cst == 0)%Q -> (Qabs (rest p (cst_msb cst) cst j) < p2 (cst_msb cst + 1 - chunk_size p * Z.of_nat j))%Q.
Proof.
  intros p cst [|j] N.
  - cbn [rest]. replace (cst_msb cst + 1 - chunk_size p * Z.of_nat 0) with (cst_msb cst + 1) by lia. apply qlog2_spec, Qabs_nz; auto.
  - eapply Qlt_trans; [apply rest_bound|]. apply p2_lt. lia.
Qed.

Lemma chunk_loop_length : forall rnd p msb n i tmp, List.length (chunk_loop rnd p msb n i tmp) = n.
Proof. intros rnd p msb n. induction n as [|n IH]; intros; cbn [chunk_loop List.length]; auto. Qed.

Lemma chunk_loop_nth : forall rnd p msb cst n j0 j, (j < n)%nat ->
  nth_error (chunk_loop rnd p msb n (Z.of_nat j0) (rest p msb cst j0)) j =
  Some (rnd (chunk p msb cst (j0 + j) / (scale p (Z.of_nat (j0 + j)) * scale p (Z.of_nat (j0 + j)))), rnd (scale p (Z.of_nat (j0 + j))))%Q.
Proof.
  intros rnd p msb cst n. induction n as [|n IH]; intros j0 j Hj; [lia|]. cbn [chunk_loop].
  destruct j as [|j]; cbn [nth_error].
  - rewrite Nat.add_0_r. reflexivity.
  - replace (Z.of_nat j0 + 1) with (Z.of_nat (S j0)) by lia.
    change (rest p msb cst j0 - local_cst p msb (Z.of_nat j0) (rest p msb cst j0))%Q with (rest p msb cst (S j0)).
    rewrite IH by lia. replace (S j0 + j)%nat with (j0 + S j)%nat by lia. reflexivity.
Qed.

(* sum of the unscaled table entries *)
Fixpoint table_sum (tab : list (Q * Q)) : Q :=
  match tab with [] => 0 | (c, s) :: t => (c * s * s + table_sum t)%Q end.

Section Ph.
Variable rnd : Q -> Q.
Variables p d : Z.
Hypothesis Hd : 1 <= d.
Hypothesis Hpd : p = 4 * d + 4.
Notation F := (mkF (p + 1) None).
Hypothesis Hr : nearest_in F rnd.

Lemma cs_eq : chunk_size p = 2 * d.
Proof. unfold chunk_size. replace p with ((2 * d + 2) * 2) by lia. rewrite Z.div_mul by lia. lia. Qed.
Lemma hs_eq : half_size p = 2 * d + 3.
Proof. unfold half_size. replace p with ((2 * d + 2) * 2) by lia. rewrite Z.div_mul by lia. lia. Qed.
Lemma scale_eq : forall i, scale p i = p2 (- d * i).
Proof. intros. unfold scale. rewrite cs_eq. replace (2 * d / 2) with d by (rewrite Z.mul_comm, Z.div_mul by lia; lia). reflexivity. Qed.
Let Hp1 : 1 <= prec F. Proof. cbn; lia. Qed.

Lemma fits : forall e b v, mult e v -> (Qabs v <= p2 b)%Q -> b - e <= p + 1 -> inF F v.
Proof.
  intros e b v M B H. apply (inF_intro F Hp1 e); auto; [exact I|]. apply (Qle_trans _ _ _ B). apply p2_le. cbn [prec]. lia.
Qed.
Lemma p2_F : forall e, inF F (p2 e).
Proof. intros e. apply (fits e e); [exists 1; ring|rewrite Qabs_pos; [lra|pose proof (p2_pos e); lra]|lia]. Qed.
Lemma scale_sq : forall i, (scale p i * scale p i == p2 (- (2 * d * i)))%Q.
Proof. intros. rewrite scale_eq, <- p2_plus. replace (- d * i + - d * i) with (- (2 * d * i)) by lia. reflexivity. Qed.
Lemma div_p2 : forall v a, (v / p2 (- a) == v * p2 a)%Q.
Proof. intros v a. pose proof (p2_opp a) as X. pose proof (p2_nz (- a)) as N. assert (E : (v * p2 a == v * (p2 (- a) * p2 a) / p2 (- a))%Q) by (field; auto). rewrite E, X. field. auto. Qed.

Variable cst : Q.
Hypothesis Ncst : ~ (cst == 0)%Q.
Notation msb := (cst_msb cst).
Notation C := (chunk p msb cst).
Notation R := (rest p msb cst).

Lemma chunk_bound : forall j, (Qabs (C j) < p2 (msb + 1 - 2 * d * Z.of_nat j))%Q.
Proof. intros j. eapply Qle_lt_trans; [apply chunk_le|]. rewrite <- cs_eq. apply rest_bound1; auto. Qed.
Lemma chunk_m : forall j, mult (msb - 2 * d * (Z.of_nat j + 1)) (C j).
Proof. intros j. rewrite <- cs_eq. apply chunk_mult. Qed.

(* the two table entries are stored exactly *)
Lemma entry_exact : forall j, (rnd (C j / (scale p (Z.of_nat j) * scale p (Z.of_nat j))) == C j * p2 (2 * d * Z.of_nat j))%Q.
Proof.
  intros j. rewrite (rnd_comp F rnd Hr _ (C j * p2 (2 * d * Z.of_nat j))) by (rewrite scale_sq; apply div_p2).
  apply (rnd_id F rnd Hr). apply (fits (msb - 2 * d) (msb + 1)); [|  |lia].
  - replace (msb - 2 * d) with (msb - 2 * d * (Z.of_nat j + 1) + 2 * d * Z.of_nat j) by lia. apply prod_mult; [apply chunk_m|exists 1; ring].
  - rewrite Qabs_mul_pos by apply p2_pos. replace (msb + 1) with (msb + 1 - 2 * d * Z.of_nat j + 2 * d * Z.of_nat j) by lia.
    rewrite p2_plus. apply Qmult_le_compat_r; [|pose proof (p2_pos (2 * d * Z.of_nat j)); lra]. apply Qlt_le_weak, chunk_bound.
Qed.
Lemma scale_exact : forall i, (rnd (scale p i) == scale p i)%Q.
Proof. intros. apply (rnd_id F rnd Hr). rewrite scale_eq. apply p2_F. Qed.

Lemma table_sum_rest : forall n j0, (table_sum (chunk_loop rnd p msb n (Z.of_nat j0) (R j0)) == R j0 - R (j0 + n)%nat)%Q.
Proof.
  intros n. induction n as [|n IH]; intros j0; cbn [chunk_loop table_sum]; [rewrite Nat.add_0_r; ring|].
  replace (Z.of_nat j0 + 1) with (Z.of_nat (S j0)) by lia.
  change (R j0 - local_cst p msb (Z.of_nat j0) (R j0))%Q with (R (S j0)). rewrite IH.
  change (local_cst p msb (Z.of_nat j0) (R j0)) with (C j0). rewrite entry_exact, scale_exact.
  replace (S j0 + n)%nat with (j0 + S n)%nat by lia. rewrite rest_S.
  rewrite <- Qmult_assoc, scale_sq.
  setoid_replace (C j0 * p2 (2 * d * Z.of_nat j0) * p2 (- (2 * d * Z.of_nat j0)))%Q with (C j0); [ring|].
  rewrite <- Qmult_assoc, p2_opp_r. ring.
Qed.

(* the unscaled entries add up to the constant, up to the weight of the last chunk *)
Theorem ph_chunks_sum : forall emin, 0 < chunk_number p emin cst ->
  (Qabs (cst - table_sum (tables rnd p emin cst)) < p2 (msb - chunk_size p * chunk_number p emin cst))%Q /\
  (forall cs, In cs (tables rnd p emin cst) -> mult (msb - chunk_size p) (fst cs) /\ (Qabs (fst cs) < p2 (msb + 1))%Q).
Proof.
  intros emin Hn. unfold tables. set (n := chunk_number p emin cst) in *. split.
  - change 0 with (Z.of_nat 0). change (chunk_loop rnd p msb (Z.to_nat n) (Z.of_nat 0) cst) with (chunk_loop rnd p msb (Z.to_nat n) (Z.of_nat 0) (R 0%nat)).
    rewrite table_sum_rest. cbn [plus]. change (R 0%nat) with cst.
    setoid_replace (cst - (cst - R (Z.to_nat n)))%Q with (R (Z.to_nat n)) by ring.
    destruct (Z.to_nat n) as [|m] eqn:E; [lia|]. replace n with (Z.of_nat (S m)) by lia. apply rest_bound.
  - intros cs H. apply In_nth_error in H. destruct H as [j Hj].
    assert (L : (j < Z.to_nat n)%nat) by (rewrite <- (chunk_loop_length rnd p msb (Z.to_nat n) 0 cst); apply nth_error_Some; congruence).
    change 0 with (Z.of_nat 0) in Hj. change cst with (R 0%nat) in Hj at 2.
    rewrite (chunk_loop_nth rnd p msb cst (Z.to_nat n) 0 j L) in Hj. cbn [plus] in Hj. injection Hj as <-. cbn [fst]. split.
    + eapply mult_comp; [symmetry; apply entry_exact|]. rewrite cs_eq.
      replace (msb - 2 * d) with (msb - 2 * d * (Z.of_nat j + 1) + 2 * d * Z.of_nat j) by lia. apply prod_mult; [apply chunk_m|exists 1; ring].
    + rewrite entry_exact, Qabs_mul_pos by apply p2_pos. replace (msb + 1) with (msb + 1 - 2 * d * Z.of_nat j + 2 * d * Z.of_nat j) by lia.
      rewrite (p2_plus (msb + 1 - 2 * d * Z.of_nat j)). apply Qmult_lt_r; [apply p2_pos|apply chunk_bound].
Qed.

(* the table reaches below the smallest subnormal *)
Theorem ph_chunks_cover : forall emin, msb - chunk_size p * chunk_number p emin cst <= emin - chunk_size p.
Proof.
  intros emin. unfold chunk_number. rewrite cs_eq. set (r := msb - emin + 1).
  pose proof (Qle_ceiling (inject_Z (r + 2 * d - 1) / inject_Z (2 * d))) as H. set (N := Qceiling _) in *.
  assert (P : (0 < inject_Z (2 * d))%Q) by (change 0%Q with (inject_Z 0); apply inj_lt_iff; lia).
  assert (X : (inject_Z (r + 2 * d - 1) <= inject_Z N * inject_Z (2 * d))%Q).
  { assert (E : (inject_Z (r + 2 * d - 1) == inject_Z (r + 2 * d - 1) / inject_Z (2 * d) * inject_Z (2 * d))%Q) by (field; lra).
    rewrite E. apply Qmult_le_compat_r; lra. }
  rewrite <- inject_Z_mult in X. apply (proj1 (inj_le_iff _ _)) in X. unfold r in X. lia.
Qed.

(* ------------------------------------------------------------------ *)
(* exactness of the products and of the reductions                      *)
(* ------------------------------------------------------------------ *)
Lemma inF_scale : forall v a, inF F v -> inF F (v * p2 a).
Proof.
  intros v a H. destruct (inF_elim F Hp1 v H) as (e & M & O & B). apply (inF_intro F Hp1 (e + a)).
  - apply prod_mult; auto. exists 1. ring.
  - exact I.
  - rewrite Qabs_mul_pos by apply p2_pos. rewrite Z.add_assoc, p2_plus. apply Qmult_le_compat_r; auto. pose proof (p2_pos a); lra.
Qed.

Lemma qrne_F : forall y, inF F y -> inF F (inject_Z (qrne y)) /\ inF F (y - inject_Z (qrne y)).
Proof.
  intros y H. destruct (inF_elim F Hp1 y H) as (e & M & _ & B). cbn [prec] in B. pose proof (qrne_half y) as Hh.
  destruct (Z_lt_le_dec e 0) as [G|G].
  - assert (Mn : mult e (inject_Z (qrne y))).
    { exists (qrne y * 2 ^ (- e)). rewrite inject_Z_mult. rewrite <- Qmult_assoc, <- p2_Z by lia. rewrite p2_opp. ring. }
    assert (Bn : (Qabs (inject_Z (qrne y)) <= p2 (p + 1 + e))%Q \/ qrne y = 0 \/ qrne y = 1 \/ qrne y = -1).
    { destruct (Z_lt_le_dec (p + 1 + e) 0) as [N|N].
      - right. assert (Qabs y < 1)%Q by (eapply Qle_lt_trans; [apply B|]; rewrite <- p2_0; apply p2_lt; auto).
        assert (Y : (- (1) <= y <= 1)%Q) by (apply Qabs_le_iff; lra). destruct Y as [Y1 Y2].
        change (- (1))%Q with (inject_Z (-1)) in Y1. change 1%Q with (inject_Z 1) in Y2.
        apply qrne_bounds_int in Y2. apply qrne_bounds_int_l in Y1. lia.
      - left. rewrite p2_Z in * by lia. apply Qabs_le_iff in B. destruct B as [B1 B2]. rewrite <- inject_Z_opp in B1.
        apply qrne_bounds_int in B2. apply qrne_bounds_int_l in B1.
        change (Qabs (inject_Z (qrne y))) with (inject_Z (Z.abs (qrne y))). apply inj_le_iff. lia. }
    split.
    + destruct Bn as [Bn|Bn]; [apply (inF_intro F Hp1 e); auto; exact I|]. exists (qrne y), 0. split; [rewrite p2_0; ring|]. split; [|exact I].
      cbn [prec]. pose proof (Z.pow_pos_nonneg 2 (p + 1) ltac:(lia) ltac:(lia)). lia.
    + destruct (Z.eq_dec (qrne y) 0) as [Z0|N0].
      * rewrite Z0. apply (inF_comp F y); [change (inject_Z 0) with 0%Q; ring|auto].
      * apply (inF_intro F Hp1 e); [apply mult_minus; auto|exact I|]. cbn [prec].
        assert (1 <= Qabs (inject_Z (qrne y)))%Q by (change (Qabs (inject_Z (qrne y))) with (inject_Z (Z.abs (qrne y))); change 1%Q with (inject_Z 1); apply inj_le_iff; lia).
        assert (1 # 2 <= Qabs y)%Q.
        { revert Hh H0. apply (Qabs_case (inject_Z (qrne y) - y)); apply (Qabs_case (inject_Z (qrne y))); apply (Qabs_case y); intros; lra. }
        setoid_replace (y - inject_Z (qrne y))%Q with (- (inject_Z (qrne y) - y))%Q by ring. rewrite Qabs_opp. lra.
  - assert (Mi : mult 0 y) by (apply (mult_le e); auto). destruct Mi as [z Ez].
    assert (Ey : (y == inject_Z z)%Q) by (rewrite Ez, p2_0; ring). rewrite (qrne_int y z Ey). split.
    + apply (inF_comp F y); auto.
    + apply (inF_comp F 0); [rewrite Ey; ring|apply inF_0; auto].
Qed.

Lemma red_exact : forall y, inF F y -> (rnd (y - rnd (inject_Z (qrne y))) == y - inject_Z (qrne y))%Q.
Proof.
  intros y H. destruct (qrne_F y H) as [H1 H2]. pose proof (rnd_id F rnd Hr _ H1) as E1.
  rewrite (rnd_comp F rnd Hr _ (y - inject_Z (qrne y))) by (rewrite E1; reflexivity). apply (rnd_id F rnd Hr); auto.
Qed.

Lemma red_half : forall y, (Qabs (y - inject_Z (qrne y)) <= 1 # 2)%Q.
Proof. intros y. setoid_replace (y - inject_Z (qrne y))%Q with (- (inject_Z (qrne y) - y))%Q by ring. rewrite Qabs_opp. apply qrne_half. Qed.

Variable W : Z.
Lemma nint_small : forall b y, 0 <= b <= W - 2 -> (Qabs y <= p2 b)%Q -> nint W y = qrne y /\ Z.abs (qrne y) <= 2 ^ b.
Proof.
  intros b y Hb B. rewrite p2_Z in B by lia. apply Qabs_le_iff in B. destruct B as [B1 B2]. rewrite <- inject_Z_opp in B1.
  apply qrne_bounds_int in B2. apply qrne_bounds_int_l in B1. split; [|lia]. unfold nint. apply swrap_small; [lia|].
  assert (2 ^ b <= 2 ^ (W - 2)) by (apply Z.pow_le_mono_r; lia).
  assert (2 ^ (W - 1) = 2 * 2 ^ (W - 2)) by (rewrite <- Z.pow_succ_r by lia; f_equal; lia). pose proof (pow2_pos (W - 2) ltac:(lia)). lia.
Qed.

Variables (x : Q) (k : Z).
Hypothesis Fx : inF F x.
Hypothesis Nx : ~ (x == 0)%Q.
Hypothesis Hk : 0 <= k.
Hypothesis HW : k + p + 2 <= W.
Notation e := (qlog2 (Qabs x)).
Notation hi := (vx_hi p e x).
Notation lo := (rnd (x - vx_hi p e x)%Q).

Lemma x_mult : mult (e - p) x.
Proof. replace (e - p) with (e + 1 - (p + 1)) by lia. apply full_mult; auto. lia. Qed.
Lemma x_bound : (Qabs x < p2 (e + 1))%Q.
Proof. apply qlog2_spec, Qabs_nz; auto. Qed.
Lemma hi_facts : mult (e - 2 * d - 1) hi /\ (Qabs hi <= Qabs x)%Q /\ (Qabs (x - hi) < p2 (e - 2 * d - 1))%Q.
Proof. unfold vx_hi. rewrite hs_eq. replace (e - p + (2 * d + 3)) with (e - 2 * d - 1) by lia. apply trunc_part. Qed.
Lemma lo_exact : (lo == x - hi)%Q.
Proof.
  destruct hi_facts as (M & _ & B). apply (rnd_id F rnd Hr). apply (fits (e - p) (e - 2 * d - 1)); [|lra|lia].
  apply mult_minus; [apply x_mult|apply (mult_le (e - 2 * d - 1)); auto; lia].
Qed.

Lemma mult_exact : forall v j, inF F v -> inF F (v * C j) ->
  (rnd (rnd (v * rnd (scale p (Z.of_nat j))) * rnd (rnd (C j / (scale p (Z.of_nat j) * scale p (Z.of_nat j))) * rnd (scale p (Z.of_nat j)))) == v * C j)%Q.
Proof.
  intros v j Hv Hvc. set (a := d * Z.of_nat j).
  assert (Ea : (rnd (scale p (Z.of_nat j)) == p2 (- a))%Q) by (rewrite scale_exact, scale_eq; unfold a; replace (- d * Z.of_nat j) with (- (d * Z.of_nat j)) by lia; reflexivity).
  assert (E1 : (rnd (v * rnd (scale p (Z.of_nat j))) == v * p2 (- a))%Q).
  { rewrite (rnd_comp F rnd Hr _ (v * p2 (- a))) by (rewrite Ea; reflexivity). apply (rnd_id F rnd Hr), inF_scale; auto. }
  assert (E2 : (rnd (rnd (C j / (scale p (Z.of_nat j) * scale p (Z.of_nat j))) * rnd (scale p (Z.of_nat j))) == C j * p2 a)%Q).
  { assert (X : (rnd (C j / (scale p (Z.of_nat j) * scale p (Z.of_nat j))) * rnd (scale p (Z.of_nat j)) == C j * p2 a)%Q).
    { rewrite Ea, entry_exact, <- Qmult_assoc, <- p2_plus. replace (2 * d * Z.of_nat j + - a) with a by (unfold a; lia). reflexivity. }
    rewrite (rnd_comp F rnd Hr _ _ X). apply (rnd_id F rnd Hr). apply inF_scale.
    apply (fits (msb - 2 * d * (Z.of_nat j + 1)) (msb + 1 - 2 * d * Z.of_nat j)); [apply chunk_m|apply Qlt_le_weak, chunk_bound|lia]. }
  rewrite (rnd_comp F rnd Hr _ (v * C j)); [apply (rnd_id F rnd Hr); auto|].
  rewrite E1, E2. setoid_replace (v * p2 (- a) * (C j * p2 a))%Q with (v * C j * (p2 (- a) * p2 a))%Q by ring. rewrite p2_opp. ring.
Qed.

Lemma Qabs_prod_le : forall a b A B, (Qabs a <= p2 A)%Q -> (Qabs b <= p2 B)%Q -> (Qabs (a * b) <= p2 (A + B))%Q.
Proof.
  intros a b A B Ha Hb. rewrite Qabs_Qmult, p2_plus. apply (Qle_trans _ (p2 A * Qabs b)).
  - apply Qmult_le_compat_r; auto. apply Qabs_nonneg.
  - rewrite !(Qmult_comm (p2 A)). apply Qmult_le_compat_r; auto. pose proof (p2_pos A); lra.
Qed.

Lemma hi_prod : forall j, mult (e - 2 * d - 1 + (msb - 2 * d * (Z.of_nat j + 1))) (hi * C j) /\
  (Qabs (hi * C j) <= p2 (e + 1 + (msb + 1 - 2 * d * Z.of_nat j)))%Q /\ inF F (hi * C j) /\ inF F hi.
Proof.
  intros j. destruct hi_facts as (M & B & _). pose proof x_bound.
  assert (M2 : mult (e - 2 * d - 1 + (msb - 2 * d * (Z.of_nat j + 1))) (hi * C j)) by (apply prod_mult; auto; apply chunk_m).
  assert (B2 : (Qabs (hi * C j) <= p2 (e + 1 + (msb + 1 - 2 * d * Z.of_nat j)))%Q) by (apply Qabs_prod_le; [lra|apply Qlt_le_weak, chunk_bound]).
  split; auto. split; auto. split; [apply (fits _ _ _ M2 B2); lia|apply (fits _ (e + 1) _ M); [lra|lia]].
Qed.

Lemma lo_prod : forall j, (Qabs (lo * C j) <= p2 (e - 2 * d - 1 + (msb + 1 - 2 * d * Z.of_nat j)))%Q /\ inF F (lo * C j) /\ inF F lo.
Proof.
  intros j. destruct hi_facts as (M & _ & B). pose proof lo_exact as E.
  assert (M2 : mult (e - p + (msb - 2 * d * (Z.of_nat j + 1))) (lo * C j)).
  { apply prod_mult; [|apply chunk_m]. eapply mult_comp; [symmetry; apply E|]. apply mult_minus; [apply x_mult|apply (mult_le (e - 2 * d - 1)); auto; lia]. }
  assert (B2 : (Qabs (lo * C j) <= p2 (e - 2 * d - 1 + (msb + 1 - 2 * d * Z.of_nat j)))%Q) by (apply Qabs_prod_le; [rewrite E; lra|apply Qlt_le_weak, chunk_bound]).
  split; auto. split; [apply (fits _ _ _ M2 B2); lia|apply (rnd_inF F rnd Hr)].
Qed.

Definition delta : Q := (3 * p2 (- p - 2))%Q.

Definition st_ok (st : Q * Z) : Prop := (Qabs (fst st) <= 1 # 2)%Q /\ Z.abs (snd st) <= 2 ^ (k + 1) + 1.
Definition st_val (st : Q * Z) : Q := (fst st + inject_Z (snd st))%Q.

Lemma Z_le_inj : forall a b, (inject_Z a <= inject_Z b)%Q -> a <= b.
Proof. intros a b H. apply (proj1 (inj_le_iff a b)). auto. Qed.

Lemma acc_sum : forall acc hr lr, (Qabs acc <= 1 # 2)%Q -> (Qabs hr <= 1 # 2)%Q -> (Qabs lr <= 1 # 2)%Q ->
  let a2 := rnd (rnd (acc + hr) + lr)%Q in (Qabs (a2 - (acc + hr + lr)) <= delta)%Q /\ (Qabs a2 <= p2 1)%Q.
Proof.
  intros acc hr lr A1 A2 A3 a2.
  assert (F1 : inF F 1) by (rewrite <- p2_0; apply p2_F) || (apply (inF_comp F (p2 0)); [apply p2_0|apply p2_F]).
  assert (B1 : (Qabs (acc + hr) <= 1)%Q) by (eapply Qle_trans; [apply Qabs_triangle|lra]).
  pose proof (rnd_abs_le_F F Hp1 rnd Hr (acc + hr) 1 F1 B1) as B2.
  assert (B1' : (Qabs (acc + hr) <= p2 (prec F + - (p + 1)))%Q) by (cbn [prec]; replace (p + 1 + - (p + 1)) with 0 by lia; rewrite p2_0; auto).
  pose proof (rnd_half F Hp1 rnd Hr (- (p + 1)) (acc + hr) I B1') as E1. set (a1 := rnd (acc + hr)%Q) in *.
  assert (B3 : (Qabs (a1 + lr) <= p2 1)%Q) by (eapply Qle_trans; [apply Qabs_triangle|]; change (p2 1) with 2%Q; lra).
  assert (B3' : (Qabs (a1 + lr) <= p2 (prec F + - p))%Q) by (cbn [prec]; replace (p + 1 + - p) with 1 by lia; auto).
  pose proof (rnd_half F Hp1 rnd Hr (- p) (a1 + lr) I B3') as E2.
  assert (B4 : (Qabs a2 <= p2 1)%Q) by (apply (rnd_abs_le_F F Hp1 rnd Hr); auto; apply p2_F). fold a2 in E2. split; auto.
  assert (S : (p2 (- p - 1) == 2 * p2 (- p - 2))%Q) by (rewrite <- p2_succ; replace (- p - 2 + 1) with (- p - 1) by lia; reflexivity).
  replace (- (p + 1) - 1) with (- p - 2) in E1 by lia. rewrite S in E2.
  assert (X : (a2 - (acc + hr + lr) == (a2 - (a1 + lr)) + (a1 - (acc + hr)))%Q) by ring. rewrite X.
  eapply Qle_trans; [apply Qabs_triangle|]. unfold delta. lra.
Qed.

Variable emin : Z.
Notation tab := (tables rnd p emin cst).

Lemma tab_nth : forall j, (j < Z.to_nat (chunk_number p emin cst))%nat ->
  nth_error tab j = Some (rnd (C j / (scale p (Z.of_nat j) * scale p (Z.of_nat j))), rnd (scale p (Z.of_nat j)))%Q.
Proof.
  intros j H. unfold tables. exact (chunk_loop_nth rnd p msb cst (Z.to_nat (chunk_number p emin cst)) 0 j H).
Qed.

Lemma step_ok : forall i st, 0 <= i < chunk_number p emin cst -> msb + e - 2 * d * i <= p + k + 2 * d - 1 -> st_ok st ->
  exists st', ph_step rnd p W tab msb e k hi lo i st = Some st' /\ st_ok st' /\
    eq_mod (k + 1) delta (st_val st') (st_val st + x * C (Z.to_nat i)).
Proof.
  intros i [acc ai] Hi Hs [A1 A2]. cbn [fst snd] in A1, A2. unfold ph_step.
  replace (i <? 0) with false by (symmetry; apply Z.ltb_ge; lia). set (j := Z.to_nat i). assert (Ej : i = Z.of_nat j) by (unfold j; lia).
  rewrite tab_nth by (unfold j; lia).
  destruct (hi_prod j) as (HM & HB & HF & HFh). destruct (lo_prod j) as (LB & LF & LFl).
  set (hm := rnd (rnd (hi * _) * _)%Q). assert (Ehm : (hm == hi * C j)%Q) by (apply mult_exact; auto).
  set (lm := rnd (rnd (lo * _) * _)%Q). assert (Elm : (lm == lo * C j)%Q) by (apply mult_exact; auto).
  assert (Fhm : inF F hm) by (apply (rnd_inF F rnd Hr)). assert (Flm : inF F lm) by (apply (rnd_inF F rnd Hr)).
  pose proof (pow2_pos (k + p - 1) ltac:(lia)) as PP.
  assert (Blm : (Qabs lm <= p2 (k + p - 1))%Q) by (rewrite Elm; eapply Qle_trans; [apply LB|]; apply p2_le; lia).
  destruct (nint_small (k + p - 1) lm ltac:(lia) Blm) as [El Bl]. rewrite El.
  (* the kept part of the high product *)
  set (keep := _ <=? k).
  assert (Hh : exists hr hz z, (if keep then rnd (hm - rnd (inject_Z (nint W hm))) else 0)%Q = hr /\ (if keep then nint W hm else 0) = hz /\
    (Qabs hr <= 1 # 2)%Q /\ Z.abs hz <= 2 ^ (k + p - 1) /\ (hr + inject_Z hz == hi * C j + inject_Z z * p2 (k + 1))%Q).
  { destruct keep eqn:K; unfold keep in K; eexists; eexists.
    - apply Z.leb_le in K. rewrite hs_eq, cs_eq in K.
      assert (Bhm : (Qabs hm <= p2 (k + p - 1))%Q) by (rewrite Ehm; eapply Qle_trans; [apply HB|]; apply p2_le; lia).
      destruct (nint_small (k + p - 1) hm ltac:(lia) Bhm) as [Eh Bh]. exists 0. split; [reflexivity|]. split; [reflexivity|]. rewrite Eh.
      pose proof (red_exact hm Fhm) as E. split; [rewrite E; apply red_half|]. split; [auto|]. rewrite E, <- Ehm. change (inject_Z 0) with 0%Q. ring.
    - apply Z.leb_gt in K. rewrite hs_eq, cs_eq in K.
      assert (M1 : mult (k + 1) (hi * C j)) by (apply (mult_le (e - 2 * d - 1 + (msb - 2 * d * (Z.of_nat j + 1)))); auto; lia).
      destruct M1 as [z Ez]. exists (- z). split; [reflexivity|]. split; [reflexivity|]. split; [discriminate|]. split; [cbn; lia|].
      rewrite Ez, inject_Z_opp. change (inject_Z 0) with 0%Q. ring. }
  destruct Hh as (hr & hz & z & -> & -> & Bhr & Bhz & Eh).
  pose proof (red_exact lm Flm) as Elr. set (lr := rnd (lm - rnd (inject_Z (qrne lm)))%Q) in *.
  assert (Blr : (Qabs lr <= 1 # 2)%Q) by (rewrite Elr; apply red_half).
  destruct (acc_sum acc hr lr A1 Bhr Blr) as [Ea Ba]. set (a2 := rnd (rnd (acc + hr) + lr)%Q) in *.
  assert (Ba' : (Qabs a2 <= p2 1)%Q) by auto.
  destruct (nint_small 1 a2 ltac:(lia) Ba') as [En Bn]. rewrite En. change (2 ^ 1) with 2 in Bn.
  assert (Fa2 : inF F a2) by (apply (rnd_inF F rnd Hr)).
  pose proof (red_exact a2 Fa2) as Er. set (r := rnd (a2 - rnd (inject_Z (qrne a2)))%Q) in *.
  assert (W1 : 2 ^ (W - 1) >= 4 * 2 ^ (k + p - 1)).
  { replace (4 * 2 ^ (k + p - 1)) with (2 ^ (k + p + 1)) by (replace (k + p + 1) with (k + p - 1 + 2) by lia; rewrite Z.pow_add_r by lia; lia).
    apply Z.le_ge, Z.pow_le_mono_r; lia. }
  assert (W2 : 2 ^ (k + 1) + 3 <= 2 ^ (k + p - 1)).
  { assert (4 * 2 ^ (k + 1) <= 2 ^ (k + p - 1)) by (replace (4 * 2 ^ (k + 1)) with (2 ^ (k + 3)) by (replace (k + 3) with (k + 1 + 2) by lia; rewrite Z.pow_add_r by lia; lia); apply Z.pow_le_mono_r; lia).
    pose proof (pow2_pos (k + 1) ltac:(lia)). lia. }
  rewrite (swrap_small W (ai + hz)) by lia. rewrite (swrap_small W (ai + hz + qrne lm)) by lia.
  set (S := ai + hz + qrne lm) in *. pose proof (pow2_pos (k + 1) ltac:(lia)) as PK.
  assert (BR : Z.abs (Z.rem S (2 ^ (k + 1))) < 2 ^ (k + 1)) by (pose proof (Z.rem_bound_abs S (2 ^ (k + 1)) ltac:(lia)); lia).
  rewrite (swrap_small W (Z.rem S (2 ^ (k + 1)) + qrne a2)) by lia.
  eexists. split; [reflexivity|]. split.
  { split; cbn [fst snd]; [rewrite Er; apply red_half|lia]. }
  exists (z - Z.quot S (2 ^ (k + 1))). unfold st_val. cbn [fst snd].
  assert (ES : Z.rem S (2 ^ (k + 1)) = S - Z.quot S (2 ^ (k + 1)) * 2 ^ (k + 1)) by (pose proof (Z.quot_rem' S (2 ^ (k + 1))); lia).
  rewrite inject_Z_plus, ES. unfold Z.sub. rewrite !inject_Z_plus, !inject_Z_opp, inject_Z_mult.
  rewrite <- (p2_Z (k + 1)) by lia. unfold S. rewrite !inject_Z_plus.
  setoid_replace (x * C j)%Q with (hi * C j + lo * C j)%Q by (rewrite lo_exact; ring).
  setoid_replace (r + (inject_Z ai + inject_Z hz + inject_Z (qrne lm) + - (inject_Z (Z.quot (ai + hz + qrne lm) (2 ^ (k + 1))) * p2 (k + 1)) + inject_Z (qrne a2)) -
     (acc + inject_Z ai + (hi * C j + lo * C j)) - (inject_Z z + - inject_Z (Z.quot (ai + hz + qrne lm) (2 ^ (k + 1)))) * p2 (k + 1))%Q
    with (a2 - (acc + hr + lr))%Q; [exact Ea|].
  rewrite Er, Elr, <- Elm.
  setoid_replace (hi * C j)%Q with (hr + inject_Z hz - inject_Z z * p2 (k + 1))%Q by (rewrite Eh; ring). ring.
Qed.

Lemma eq_mod_trans : forall m e1 e2 a b c, eq_mod m e1 a b -> eq_mod m e2 b c -> eq_mod m (e1 + e2) a c.
Proof.
  intros m e1 e2 a b c [z1 H1] [z2 H2]. exists (z1 + z2).
  setoid_replace (a - c - inject_Z (z1 + z2) * p2 m)%Q with ((a - b - inject_Z z1 * p2 m) + (b - c - inject_Z z2 * p2 m))%Q by (rewrite inject_Z_plus; ring).
  eapply Qle_trans; [apply Qabs_triangle|lra].
Qed.
Lemma eq_mod_comp : forall m e1 e2 a b a' b', (a == a')%Q -> (b == b')%Q -> (e1 <= e2)%Q -> eq_mod m e1 a b -> eq_mod m e2 a' b'.
Proof. intros m e1 e2 a b a' b' A B E [z H]. exists z. rewrite <- A, <- B. lra. Qed.
Lemma eq_mod_add : forall m e1 a b c, eq_mod m e1 a b -> eq_mod m e1 (a + c) (b + c).
Proof. intros m e1 a b c [z H]. exists z. setoid_replace (a + c - (b + c))%Q with (a - b)%Q by ring. auto. Qed.
Lemma eq_mod_sym : forall m e1 a b, eq_mod m e1 a b -> eq_mod m e1 b a.
Proof.
  intros m e1 a b [z H]. exists (- z). setoid_replace (b - a - inject_Z (- z) * p2 m)%Q with (- (a - b - inject_Z z * p2 m))%Q by (rewrite inject_Z_opp; ring).
  rewrite Qabs_opp. auto.
Qed.
Lemma eq_mod_le : forall m m' e1 a b, m' <= m -> eq_mod m e1 a b -> eq_mod m' e1 a b.
Proof.
  intros m m' e1 a b L [z H]. exists (z * 2 ^ (m - m')). rewrite inject_Z_mult, <- p2_Z, <- Qmult_assoc, <- p2_plus by lia.
  replace (m - m' + m') with m by lia. auto.
Qed.

Lemma loop_ok : forall f i L st, Z.of_nat f = L - i + 1 -> 0 <= i -> L < chunk_number p emin cst ->
  msb + e - 2 * d * i <= p + k + 2 * d - 1 -> st_ok st ->
  exists st', ph_loop rnd p W f tab msb e k hi lo i L st = Some st' /\ st_ok st' /\
    eq_mod (k + 1) (inject_Z (Z.of_nat f) * delta) (st_val st') (st_val st + x * (R (Z.to_nat i) - R (Z.to_nat i + f)%nat)).
Proof.
  induction f as [|f IH]; intros i L st Hf Hi HL Hs Hst; cbn [ph_loop].
  - replace (i <=? L) with false by (symmetry; apply Z.leb_gt; lia). exists st. split; [reflexivity|]. split; auto.
    exists 0. rewrite Nat.add_0_r. change (inject_Z (Z.of_nat 0)) with 0%Q. change (inject_Z 0) with 0%Q.
    match goal with |- (Qabs ?a <= _)%Q => setoid_replace a with 0%Q by ring end. change (Qabs 0) with 0%Q. lra.
  - replace (i <=? L) with true by (symmetry; apply Z.leb_le; lia).
    destruct (step_ok i st ltac:(lia) Hs Hst) as (st1 & E1 & Hst1 & Q1). rewrite E1.
    destruct (IH (i + 1) L st1) as (st2 & E2 & Hst2 & Q2); auto; try lia. exists st2. split; auto. split; auto.
    replace (Z.to_nat (i + 1)) with (S (Z.to_nat i)) in Q2 by lia.
    apply (eq_mod_add _ _ _ _ (x * (R (S (Z.to_nat i)) - R (S (Z.to_nat i) + f)%nat))%Q) in Q1.
    pose proof (eq_mod_trans _ _ _ _ _ _ Q2 Q1) as Q3. eapply eq_mod_comp; [reflexivity| | |exact Q3].
    + replace (Z.to_nat i + S f)%nat with (S (Z.to_nat i) + f)%nat by lia. rewrite (rest_S p msb cst (Z.to_nat i)). ring.
    + replace (Z.of_nat (S f)) with (Z.of_nat f + 1) by lia. rewrite inject_Z_plus. change (inject_Z 1) with 1%Q. lra.
Qed.

Lemma dropped_mult : forall j, mult (msb - 2 * d * Z.of_nat j) (cst - R j).
Proof.
  induction j as [|j IH]; [apply (mult_comp _ 0); [cbn [rest]; ring|apply mult_0]|].
  apply (mult_comp _ ((cst - R j) + C j)); [rewrite rest_S; ring|]. apply mult_plus.
  - apply (mult_le (msb - 2 * d * Z.of_nat j)); auto. lia.
  - replace (Z.of_nat (S j)) with (Z.of_nat j + 1) by lia. apply chunk_m.
Qed.

(* position, above the weight of the last useful digit, of the first dropped one *)
Definition start (k : Z) : Z := msb + e - p + 1 - k.

Lemma ph_rest : forall n, 0 <= n -> 0 <= msb + e + n + 4 -> lsb_index p msb e n < chunk_number p emin cst ->
  let s := msb_index p msb e k in let turns := lsb_index p msb e n - s + 1 in
  let err := (inject_Z turns * (3 * p2 (- p - 2)) + p2 (- n - 4))%Q in
  exists acc ai, payne_hanek rnd p W emin cst n k x = Some (acc, ai) /\ (Qabs acc <= 1 # 2)%Q /\ Z.abs ai <= 2 ^ (k + 1) + 1 /\
    s = Z.max 0 (start k / (2 * d)) /\ eq_mod (k + 1) err (acc + inject_Z ai) (x * R (Z.to_nat s)).
Proof.
  intros n Hn Hpos HL s turns err. unfold payne_hanek. fold s.
  set (L := lsb_index p msb e n) in *.
  assert (EL : L = (msb + e + n + 4) / (2 * d)).
  { unfold L, lsb_index. rewrite cs_eq. replace (msb - - (e + n + 4)) with (msb + e + n + 4) by lia. apply Z.quot_div_nonneg; lia. }
  assert (Es : s = Z.max 0 (start k / (2 * d))).
  { unfold s, msb_index, start. rewrite cs_eq. destruct (Z.ltb_spec msb (- (e - p + 1 - k))) as [G|G].
    - assert ((msb + e - p + 1 - k) / (2 * d) < 0) by (apply Z.div_lt_upper_bound; lia). lia.
    - rewrite Z.quot_div_nonneg by lia. replace (msb - - (e - p + 1 - k)) with (msb + e - p + 1 - k) by lia.
      pose proof (Z.div_pos (msb + e - p + 1 - k) (2 * d) ltac:(lia) ltac:(lia)). lia. }
  assert (HsL : s <= L) by (rewrite Es, EL; apply Z.max_lub; [apply Z.div_pos; lia|apply Z.div_le_mono; unfold start; lia]).
  assert (HT : 0 <= turns) by (unfold turns; lia).
  assert (Hstart : msb + e - 2 * d * s <= p + k + 2 * d - 1).
  { pose proof (Z.mod_pos_bound (start k) (2 * d) ltac:(lia)). pose proof (Z.div_mod (start k) (2 * d) ltac:(lia)). unfold start in *. nia. }
  destruct (loop_ok (Z.to_nat (L - s + 1)) s L (0%Q, 0)) as ([acc ai] & E & [B1 B2] & Q1); auto; try lia.
  { split; cbn [fst snd]; [discriminate|pose proof (pow2_pos (k + 1) ltac:(lia)); cbn; lia]. }
  exists acc, ai. cbn [fst snd] in *. split; [exact E|]. split; auto. split; auto. split; auto.
  unfold st_val in Q1. cbn [fst snd] in Q1. rewrite Z2Nat.id in Q1 by lia. fold turns in Q1.
  replace (Z.to_nat s + Z.to_nat turns)%nat with (S (Z.to_nat L)) in Q1 by (unfold turns; lia).
  assert (T : (Qabs (x * R (S (Z.to_nat L))) <= p2 (- n - 4))%Q).
  { eapply Qle_trans; [apply Qabs_prod_le; [apply Qlt_le_weak, x_bound|apply Qlt_le_weak, rest_bound]|]. apply p2_le. rewrite cs_eq.
    replace (Z.of_nat (S (Z.to_nat L))) with (L + 1) by lia.
    pose proof (Z.mod_pos_bound (msb + e + n + 4) (2 * d) ltac:(lia)). pose proof (Z.div_mod (msb + e + n + 4) (2 * d) ltac:(lia)). rewrite EL. nia. }
  assert (Q2 : eq_mod (k + 1) (p2 (- n - 4)) (0 + inject_Z 0 + x * (R (Z.to_nat s) - R (S (Z.to_nat L)))) (x * R (Z.to_nat s))).
  { exists 0. change (inject_Z 0) with 0%Q.
    match goal with |- (Qabs ?a <= _)%Q => setoid_replace a with (- (x * R (S (Z.to_nat L))))%Q by ring end. rewrite Qabs_opp. auto. }
  pose proof (eq_mod_trans _ _ _ _ _ _ Q1 Q2) as Q3. eapply eq_mod_comp; [reflexivity|reflexivity| |exact Q3]. unfold err, delta. lra.
Qed.

Theorem ph_correct : forall n, 0 <= n -> 0 <= msb + e + n + 4 -> lsb_index p msb e n < chunk_number p emin cst ->
  let turns := lsb_index p msb e n - msb_index p msb e k + 1 in
  let err := (inject_Z turns * (3 * p2 (- p - 2)) + p2 (- n - 4))%Q in
  exists acc ai, payne_hanek rnd p W emin cst n k x = Some (acc, ai) /\ (Qabs acc <= 1 # 2)%Q /\ Z.abs ai <= 2 ^ (k + 1) + 1 /\
    eq_mod (k - 1) err (acc + inject_Z ai) (x * cst) /\
    (start k < chunk_size p \/ 2 <= start k mod chunk_size p -> eq_mod (k + 1) err (acc + inject_Z ai) (x * cst)).
Proof.
  intros n Hn Hpos HL turns err. destruct (ph_rest n Hn Hpos HL) as (acc & ai & E & B1 & B2 & Es & Q1).
  exists acc, ai. split; auto. split; auto. split; auto. set (s := msb_index p msb e k) in *. fold turns in Q1. fold err in Q1.
  assert (G : forall m, m <= k + 1 -> mult m (x * (cst - R (Z.to_nat s))) -> eq_mod m err (acc + inject_Z ai) (x * cst)).
  { intros m Hm [z Ez]. apply (eq_mod_le _ m) in Q1; auto.
    assert (Q2 : eq_mod m 0 (x * R (Z.to_nat s)) (x * cst)).
    { exists (- z). rewrite inject_Z_opp.
      setoid_replace (x * R (Z.to_nat s) - x * cst - - inject_Z z * p2 m)%Q with 0%Q; [discriminate|].
      setoid_replace (- inject_Z z * p2 m)%Q with (- (x * (cst - R (Z.to_nat s))))%Q by (rewrite Ez; ring). ring. }
    pose proof (eq_mod_trans _ _ _ _ _ _ Q1 Q2) as Q3. eapply eq_mod_comp; [reflexivity|reflexivity| |exact Q3]. lra. }
  assert (D : forall m, m <= e - p + (msb - 2 * d * s) -> mult m (x * (cst - R (Z.to_nat s)))).
  { intros m Hm. apply (mult_le (e - p + (msb - 2 * d * s))); auto. apply prod_mult; [apply x_mult|].
    replace s with (Z.of_nat (Z.to_nat s)) at 1 by lia. apply dropped_mult. }
  assert (D0 : s = 0 -> forall m, mult m (x * (cst - R (Z.to_nat s)))).
  { intros -> m. apply (mult_comp _ 0); [change (R (Z.to_nat 0)) with cst; ring|apply mult_0]. }
  rewrite cs_eq. destruct (Z.eq_dec s 0) as [Z0|N0]; [split; [apply G; auto; lia|intros _; apply G; auto; lia]|].
  pose proof (Z.mod_pos_bound (start k) (2 * d) ltac:(lia)) as MB. pose proof (Z.div_mod (start k) (2 * d) ltac:(lia)) as DM.
  assert (Es2 : s = start k / (2 * d)) by lia. rewrite <- Es2 in DM.
  split; [apply G; [lia|]; apply D; unfold start in *; lia|].
  intros [H|H].
  - exfalso. assert (s < 1); [rewrite Es2; apply Z.div_lt_upper_bound; lia|lia].
  - apply G; [lia|]. apply D. unfold start in *. lia.
Qed.

(* the remaining digits of a positive constant *)
Lemma rest_floor : forall j, (0 < cst)%Q -> (cst - R j == inject_Z (Qfloor (cst / p2 (msb - 2 * d * Z.of_nat j))) * p2 (msb - 2 * d * Z.of_nat j))%Q \/ j = 0%nat.
Proof.
  intros j Hc. destruct j as [|j]; [auto|left].
  assert (P : forall i, (0 <= R i)%Q).
  { induction i as [|i IH]; [cbn [rest]; lra|]. rewrite rest_S. pose proof (chunk_le p msb cst i) as X.
    rewrite (Qabs_pos (R i)) in X by auto. revert X. apply Qabs_case; intros; lra. }
  pose proof (rest_bound p msb cst j) as B. rewrite cs_eq, Qabs_pos in B by auto. pose proof (P (S j)) as P0.
  destruct (dropped_mult (S j)) as [z Ez]. set (u := p2 (msb - 2 * d * Z.of_nat (S j))) in *.
  assert (Pu : (0 < u)%Q) by apply p2_pos.
  rewrite (Qfloor_unique _ z); auto.
  - apply Qle_shift_div_l; auto. lra.
  - apply Qlt_shift_div_r; auto. rewrite inject_Z_plus. change (inject_Z 1) with 1%Q. lra.
Qed.

(* dropping one chunk too many: the result is off by an odd multiple of a quarter of the period *)
Theorem ph_dropped_refuted : forall n s mx, 0 <= n -> lsb_index p msb e n < chunk_number p emin cst -> (0 < cst)%Q ->
  1 <= s -> start k = chunk_size p * s -> (x == inject_Z mx * p2 (e - p))%Q -> Z.odd mx = true ->
  Z.odd (Qfloor (cst / p2 (msb - chunk_size p * s))) = true ->
  let turns := lsb_index p msb e n - msb_index p msb e k + 1 in
  let err := (inject_Z turns * (3 * p2 (- p - 2)) + p2 (- n - 4))%Q in
  exists acc ai, payne_hanek rnd p W emin cst n k x = Some (acc, ai) /\
    (forall err', (err + err' < p2 (k - 1))%Q -> ~ eq_mod (k + 1) err' (acc + inject_Z ai) (x * cst)) /\
    exists z, eq_mod (k + 1) err (acc + inject_Z ai) (x * cst - inject_Z (2 * z + 1) * p2 (k - 1)).
Proof.
  intros n s mx Hn HL Hc Hs Hst Ex Ox Oc turns err. rewrite cs_eq in *.
  assert (Hpos : 0 <= msb + e + n + 4) by (unfold start in Hst; nia).
  destruct (ph_rest n Hn Hpos HL) as (acc & ai & E & _ & _ & Es & Q1). rewrite Hst in Es. rewrite (Z.mul_comm (2 * d) s), Z.div_mul in Es by lia.
  assert (Es2 : msb_index p msb e k = s) by lia. cbv zeta in Q1. fold turns in Q1. fold err in Q1. rewrite Es2 in Q1.
  exists acc, ai. split; auto.
  destruct (rest_floor (Z.to_nat s) Hc) as [ER|]; [|lia]. rewrite Z2Nat.id in ER by lia.
  set (zc := Qfloor _) in *. apply Z.odd_spec in Ox, Oc. destruct Ox as [a Ea]. destruct Oc as [b Eb].
  assert (XD : (x * (cst - R (Z.to_nat s)) == inject_Z (2 * (2 * a * b + a + b) + 1) * p2 (k - 1))%Q).
  { rewrite ER. rewrite Ex at 1. rewrite Ea, Eb. replace (2 * (2 * a * b + a + b) + 1) with ((2 * a + 1) * (2 * b + 1)) by lia. rewrite inject_Z_mult.
    replace (k - 1) with (e - p + (msb - 2 * d * s)) by (unfold start in Hst; lia). rewrite p2_plus. ring. }
  set (z := 2 * a * b + a + b) in *.
  assert (Q2 : eq_mod (k + 1) err (acc + inject_Z ai) (x * cst - inject_Z (2 * z + 1) * p2 (k - 1))).
  { eapply eq_mod_comp; [reflexivity| |apply Qle_refl|exact Q1]. rewrite <- XD. ring. }
  split; [|exists z; exact Q2].
  intros err' Herr Q3. pose proof (eq_mod_trans _ _ _ _ _ _ (eq_mod_sym _ _ _ _ Q3) Q2) as [w Hw].
  assert (P4 : (p2 (k + 1) == 4 * p2 (k - 1))%Q) by (replace (k + 1) with (k - 1 + 1 + 1) by lia; rewrite !p2_succ; ring).
  assert (EQ : (x * cst - (x * cst - inject_Z (2 * z + 1) * p2 (k - 1)) - inject_Z w * p2 (k + 1) == inject_Z (2 * z + 1 - 4 * w) * p2 (k - 1))%Q).
  { rewrite P4. unfold Z.sub. rewrite (inject_Z_plus (2 * z + 1)), inject_Z_opp, (inject_Z_mult 4). change (inject_Z 4) with 4%Q. ring. }
  rewrite EQ, Qabs_mul_pos in Hw by apply p2_pos.
  assert (1 <= Qabs (inject_Z (2 * z + 1 - 4 * w)))%Q by (change (Qabs (inject_Z (2 * z + 1 - 4 * w))) with (inject_Z (Z.abs (2 * z + 1 - 4 * w))); change 1%Q with (inject_Z 1); apply inj_le_iff; lia).
  pose proof (p2_pos (k - 1)).
  assert (1 * p2 (k - 1) <= Qabs (inject_Z (2 * z + 1 - 4 * w)) * p2 (k - 1))%Q by (apply Qmult_le_compat_r; lra). lra.
Qed.
End Ph.

(* ------------------------------------------------------------------ *)
(* reading past the end of the table                                    *)
(* ------------------------------------------------------------------ *)
Lemma loop_out : forall rnd p W tab msb e k hi lo f i L st, i <= L -> Z.of_nat (List.length tab) <= L ->
  ph_loop rnd p W f tab msb e k hi lo i L st = None.
Proof.
  intros rnd p W tab msb e k hi lo f. induction f as [|f IH]; intros i L st Hi HL; cbn [ph_loop];
    replace (i <=? L) with true by (symmetry; apply Z.leb_le; lia); [reflexivity|].
  destruct (ph_step rnd p W tab msb e k hi lo i st) as [st'|] eqn:E; [|reflexivity].
  assert (i < Z.of_nat (List.length tab)).
  { unfold ph_step in E. destruct (Z.ltb_spec i 0); [lia|]. destruct (nth_error tab (Z.to_nat i)) eqn:N; [|discriminate].
    assert (Z.to_nat i < List.length tab)%nat by (apply nth_error_Some; congruence). lia. }
  apply IH; lia.
Qed.

Theorem ph_out_of_range_refuted : forall rnd p d W emin cst n k x, 1 <= d -> p = 4 * d + 4 -> 0 <= n -> 0 <= k ->
  emin <= cst_msb cst -> 2 * chunk_size p - 5 - emin - n <= qlog2 (Qabs x) -> 0 <= cst_msb cst + qlog2 (Qabs x) ->
  Z.of_nat (List.length (tables rnd p emin cst)) <= lsb_index p (cst_msb cst) (qlog2 (Qabs x)) n /\
  payne_hanek rnd p W emin cst n k x = None.
Proof.
  intros rnd p d W emin cst n k x Hd Hp Hn Hk Hm Hx Hpos.
  assert (G : Z.of_nat (List.length (tables rnd p emin cst)) <= lsb_index p (cst_msb cst) (qlog2 (Qabs x)) n).
  { unfold tables. rewrite chunk_loop_length. unfold lsb_index, chunk_number. rewrite (cs_eq p d Hp) in *.
    set (r := cst_msb cst - emin + 1). set (q := (inject_Z (r + 2 * d - 1) / inject_Z (2 * d))%Q).
    assert (P : (0 < inject_Z (2 * d))%Q) by (change 0%Q with (inject_Z 0); apply inj_lt_iff; lia).
    assert (H1 : 2 * d * Qceiling q <= r + 4 * d - 2).
    { assert (X : (inject_Z (Qceiling q - 1) < q)%Q).
      { pose proof (Qceiling_lt q). auto. }
      assert (Y : (inject_Z (Qceiling q - 1) * inject_Z (2 * d) < inject_Z (r + 2 * d - 1))%Q).
      { assert (E : (inject_Z (r + 2 * d - 1) == q * inject_Z (2 * d))%Q) by (unfold q; field; lra).
        rewrite E. apply Qmult_lt_r; auto. }
      rewrite <- inject_Z_mult in Y. apply (proj1 (inj_lt_iff _ _)) in Y. lia. }
    assert (H0 : 0 < Qceiling q).
    { pose proof (Qle_ceiling q) as X. assert (0 < q)%Q; [unfold q; apply Qlt_shift_div_l; auto; rewrite Qmult_0_l; change 0%Q with (inject_Z 0); apply inj_lt_iff; unfold r; lia|].
      apply (proj1 (inj_lt_iff _ _)). change (inject_Z 0) with 0%Q. lra. }
    rewrite Z2Nat.id by lia. rewrite Z.quot_div_nonneg by lia. apply Z.div_le_lower_bound; [lia|]. unfold r in H1. lia. }
  split; auto. unfold payne_hanek. apply loop_out; auto.
  unfold msb_index, lsb_index. rewrite (cs_eq p d Hp). destruct (Z.ltb_spec (cst_msb cst) (- (qlog2 (Qabs x) - p + 1 - k))).
  - apply Z.quot_pos; lia.
  - apply Z.quot_le_mono; lia.
Qed.

(* ------------------------------------------------------------------ *)
(* integer conversion out of range                                      *)
(* ------------------------------------------------------------------ *)
(* with k + p - 2 >= W (k = 14, p = 52, W = 64 in ml_sincos) a product that is kept does not fit an integer *)
Theorem ph_integer_overflow_refuted : forall p d W k n msb, 1 <= d -> p = 4 * d + 4 -> 0 <= k -> 0 <= n -> 1 <= W <= k + p - 2 ->
  let cst := (inject_Z (2 ^ (4 * d) + 2 ^ (2 * d) - 1) * p2 (msb - 4 * d))%Q in
  let e := k + 6 * d + 1 - msb in let x := (inject_Z (2 ^ (2 * d + 2) - 1) * p2 (e - 2 * d - 1))%Q in
  cst_msb cst = msb /\ qlog2 (Qabs x) = e /\ msb_index p msb e k <= 1 <= lsb_index p msb e n /\
  (msb - (1 + 1) * chunk_size p + 1) + (e + (- half_size p + 1)) <= k /\
  (p2 (W - 1) <= vx_hi p e x * chunk p msb cst 1)%Q.
Proof.
  intros p d W k n msb Hd Hp Hk Hn HW cst e x.
  assert (P1 : 4 <= 2 ^ (2 * d)) by (change 4 with (2 ^ 2); apply Z.pow_le_mono_r; lia).
  assert (P2 : 2 ^ (4 * d) = 2 ^ (2 * d) * 2 ^ (2 * d)) by (rewrite <- Z.pow_add_r by lia; f_equal; lia).
  assert (P3 : 2 ^ (2 * d + 2) = 4 * 2 ^ (2 * d)) by (rewrite Z.pow_add_r by lia; lia).
  set (A := 2 ^ (2 * d)) in *.
  assert (Ex : 2 ^ (2 * d + 2) - 1 = 4 * A - 1) by lia.
  assert (U1 : forall b z, (0 <= z) -> (Qabs (inject_Z z * p2 b) == inject_Z z * p2 b)%Q).
  { intros b z Hz. apply Qabs_pos. apply Qmult_le_0_compat; [change 0%Q with (inject_Z 0); apply inj_le_iff; auto|pose proof (p2_pos b); lra]. }
  assert (U2 : forall z a b, 0 <= a -> 2 ^ a <= z -> (p2 (a + b) <= inject_Z z * p2 b)%Q).
  { intros z a b Ha Hz. rewrite p2_plus, (p2_Z a) by auto. apply Qmult_le_compat_r; [apply inj_le_iff; auto|pose proof (p2_pos b); lra]. }
  assert (U3 : forall z a b, 0 <= a -> z < 2 ^ a -> (inject_Z z * p2 b < p2 (a + b))%Q).
  { intros z a b Ha Hz. rewrite p2_plus, (p2_Z a) by auto. apply Qmult_lt_r; [apply p2_pos|apply inj_lt_iff; auto]. }
  assert (Em : cst_msb cst = msb).
  { unfold cst_msb. apply qlog2_unique; unfold cst; rewrite U1 by lia.
    - replace msb with (4 * d + (msb - 4 * d)) at 1 by lia. apply U2; lia.
    - replace (msb + 1) with (4 * d + 1 + (msb - 4 * d)) by lia. apply U3; [lia|]. rewrite Z.pow_add_r by lia. change (2 ^ 1) with 2. nia. }
  assert (Ee : qlog2 (Qabs x) = e).
  { apply qlog2_unique; unfold x; rewrite U1 by lia.
    - replace e with (2 * d + 1 + (e - 2 * d - 1)) at 1 by lia. apply U2; [lia|]. replace (2 ^ (2 * d + 1)) with (2 * A) by (unfold A; rewrite Z.pow_add_r by lia; lia). lia.
    - replace (e + 1) with (2 * d + 2 + (e - 2 * d - 1)) by lia. apply U3; lia. }
  split; auto. split; auto. rewrite (cs_eq p d Hp), (hs_eq p d Hp). split; [|split].
  - unfold msb_index, lsb_index. rewrite (cs_eq p d Hp). split.
    + destruct (Z.ltb_spec msb (- (e - p + 1 - k))); [lia|]. rewrite Z.quot_div_nonneg by (unfold e in *; lia).
      assert ((msb - - (e - p + 1 - k)) / (2 * d) < 2); [apply Z.div_lt_upper_bound; unfold e; lia|lia].
    + rewrite Z.quot_div_nonneg by (unfold e; lia). apply Z.div_le_lower_bound; unfold e; lia.
  - unfold e. lia.
  - assert (Eh : (vx_hi p e x == x)%Q).
    { unfold vx_hi. rewrite (hs_eq p d Hp). replace (e - p + (2 * d + 3)) with (e - 2 * d - 1) by lia.
      rewrite (qtrunc_int _ (2 ^ (2 * d + 2) - 1)); [reflexivity|]. unfold x. field. apply p2_nz. }
    assert (E4 : (p2 msb == inject_Z (A * A) * p2 (msb - 4 * d))%Q).
    { rewrite <- P2, <- p2_Z, <- p2_plus by lia. replace (4 * d + (msb - 4 * d)) with msb by lia. reflexivity. }
    assert (E2 : (p2 (msb - 2 * d) == inject_Z A * p2 (msb - 4 * d))%Q).
    { unfold A. rewrite <- p2_Z, <- p2_plus by lia. replace (2 * d + (msb - 4 * d)) with (msb - 2 * d) by lia. reflexivity. }
    pose proof (p2_pos (msb - 4 * d)) as Pu. set (u := p2 (msb - 4 * d)) in *.
    assert (EC0 : (chunk p msb cst 0 == inject_Z (A * A) * u)%Q).
    { unfold chunk. rewrite local_cst_eq, (cs_eq p d Hp). cbn [rest]. change (Z.of_nat 0 + 1) with 1. rewrite Z.mul_1_r.
      assert (T : qtrunc (cst / p2 (msb - 2 * d)) = A).
      { assert (EQ : (cst / p2 (msb - 2 * d) == inject_Z (A * A + A - 1) / inject_Z A)%Q).
        { rewrite E2. unfold cst. fold u. rewrite P2. field. split; [apply inj_nz; lia|lra]. }
        rewrite (qtrunc_comp _ _ EQ). assert (PA : (0 < inject_Z A)%Q) by (change 0%Q with (inject_Z 0); apply inj_lt_iff; lia).
        unfold qtrunc. replace (Qle_bool 0 (inject_Z (A * A + A - 1) / inject_Z A)) with true.
        - apply Qfloor_unique.
          + apply Qle_shift_div_l; auto. rewrite <- inject_Z_mult. apply inj_le_iff. lia.
          + apply Qlt_shift_div_r; auto. rewrite <- inject_Z_mult. apply inj_lt_iff. lia.
        - symmetry. apply Qle_bool_iff. apply Qle_shift_div_l; auto. rewrite Qmult_0_l. change 0%Q with (inject_Z 0). apply inj_le_iff. nia. }
      rewrite T, E2, inject_Z_mult. ring. }
    assert (ER : (rest p msb cst 1 == inject_Z (A - 1) * u)%Q).
    { rewrite rest_S, EC0. cbn [rest]. unfold cst. fold u. rewrite P2. unfold Z.sub. rewrite !inject_Z_plus. ring. }
    assert (EC1 : (chunk p msb cst 1 == inject_Z (A - 1) * u)%Q).
    { unfold chunk. rewrite local_cst_eq, (cs_eq p d Hp). change (Z.of_nat 1 + 1) with 2. replace (msb - 2 * d * 2) with (msb - 4 * d) by lia. fold u.
      rewrite (qtrunc_int _ (A - 1)); [reflexivity|]. rewrite ER. field. lra. }
    rewrite Eh, EC1. unfold x, u. rewrite Ex.
    setoid_replace (inject_Z (4 * A - 1) * p2 (e - 2 * d - 1) * (inject_Z (A - 1) * p2 (msb - 4 * d)))%Q
      with (inject_Z ((4 * A - 1) * (A - 1)) * p2 (e - 2 * d - 1 + (msb - 4 * d)))%Q by (rewrite inject_Z_mult, p2_plus; ring).
    replace (e - 2 * d - 1 + (msb - 4 * d)) with k by (unfold e; lia).
    apply (Qle_trans _ (p2 (4 * d + 1 + k))); [apply p2_le; lia|]. apply U2; [lia|].
    rewrite Z.pow_add_r by lia. change (2 ^ 1) with 2. rewrite P2. nia.
Qed.

(* ------------------------------------------------------------------ *)
(* odd field sizes (binary32)                                           *)
(* ------------------------------------------------------------------ *)
Lemma sqrt2_irrational : forall n a b : Z, 0 <= n -> Z.abs b <= n -> 2 * (a * a) = b * b -> b = 0.
Proof.
  intros n a b Hn. revert a b. pattern n. apply Z_lt_induction; auto. clear n Hn. intros n IH a b Hb E.
  destruct (Z.eq_dec b 0) as [|N]; auto. exfalso.
  assert (Z.even b = true).
  { assert (X : Z.even (b * b) = true) by (rewrite <- E, Z.even_mul; reflexivity). rewrite Z.even_mul in X. destruct (Z.even b); auto. }
  apply Z.even_spec in H. destruct H as [b' ->].
  assert (E2 : a * a = 2 * (b' * b')) by lia.
  assert (Za : a = 0).
  { assert (L : Z.abs a < n).
    { assert (Z.abs a * Z.abs a = 2 * (Z.abs b' * Z.abs b')) by (rewrite <- !Z.abs_mul; lia). assert (Z.abs (2 * b') = 2 * Z.abs b') by lia. nia. }
    apply (IH (Z.abs a) ltac:(lia) b' a); [lia|]. lia. }
  subst a. lia.
Qed.

(* chunk_size = p / 2 - 2 is then half an odd number: the factor of an even chunk squares to an odd
   power of two and no number of any binary format is the corresponding chunk *)
Theorem ph_odd_field_refuted : forall p msb i n v, Z.odd p = true -> Z.even i = true -> n <> 0 ->
  ~ (v * v * p2 ((p - 4) * (i + 1) - 2 * msb) == inject_Z (n * n))%Q.
Proof.
  intros p msb i n v Op Ei Nn H.
  assert (O : Z.odd ((p - 4) * (i + 1) - 2 * msb) = true).
  { rewrite Z.odd_sub, Z.odd_mul, Z.odd_sub, Z.odd_add, Z.odd_mul, Op. rewrite <- (Z.negb_even i), Ei. reflexivity. }
  apply Z.odd_spec in O. destruct O as [t Et]. rewrite Et in H. rewrite p2_succ in H. replace (2 * t) with (t + t) in H by lia. rewrite p2_plus in H.
  set (w := (v * p2 t)%Q). assert (Hw : (2 * (w * w) == inject_Z (n * n))%Q) by (rewrite <- H; unfold w; ring).
  destruct w as [a b]. unfold Qeq, Qmult, inject_Z in Hw. cbn [Qnum Qden] in Hw. rewrite !Pos2Z.inj_mul in Hw.
  assert (X : 2 * (a * a) = (n * Z.pos b) * (n * Z.pos b)) by lia.
  apply (sqrt2_irrational (Z.abs (n * Z.pos b))) in X; lia.
Qed.

(* ------------------------------------------------------------------ *)
(* get_remainder                                                        *)
(* ------------------------------------------------------------------ *)
Lemma land_lnot_ones : forall z m, 0 <= m -> Z.land z (Z.lnot (2 ^ m - 1)) = z / 2 ^ m * 2 ^ m.
Proof.
  intros z m Hm. replace (2 ^ m - 1) with (Z.ones m) by (rewrite Z.ones_equiv; lia).
  change (Z.land z (Z.lnot (Z.ones m))) with (Z.land z (Z.lnot (Z.ones m))). rewrite <- Z.ldiff_land, Z.ldiff_ones_r by lia.
  rewrite Z.shiftr_div_pow2, Z.shiftl_mul_pow2 by lia. reflexivity.
Qed.
Theorem get_remainder_correct : forall W k x, 0 <= k -> (Qabs x <= p2 (W - 2))%Q -> 2 <= W ->
  get_remainder W k x = qrne x / 2 ^ (k + 1) * 2 ^ (k + 1).
Proof.
  intros W k x Hk B HW. unfold get_remainder. rewrite land_lnot_ones by lia. f_equal. f_equal.
  apply (nint_small W (W - 2) x); auto; lia.
Qed.
(* documented as (int(vx) >> k) << k *)
Theorem get_remainder_doc_refuted : forall W k z, 0 <= k -> k + 4 <= W -> Z.abs z <= 2 ^ (W - k - 4) -> Z.odd z = true ->
  get_remainder W k (inject_Z (z * 2 ^ k)) <> Z.shiftl (Z.shiftr (z * 2 ^ k) k) k.
Proof.
  intros W k z Hk HW Hz Oz. pose proof (pow2_pos k Hk) as P. rewrite get_remainder_correct; [|lia| |lia].
  - rewrite (qrne_int _ (z * 2 ^ k)) by reflexivity.
    rewrite Z.shiftr_div_pow2, Z.shiftl_mul_pow2, Z.div_mul by lia.
    replace (2 ^ (k + 1)) with (2 ^ k * 2) by (rewrite Z.pow_add_r by lia; lia).
    rewrite <- Z.div_div by lia. rewrite Z.div_mul by lia. apply Z.odd_spec in Oz. destruct Oz as [a ->].
    replace ((2 * a + 1) / 2) with a by (rewrite Z.mul_comm, Z.div_add_l by lia; cbn; lia). nia.
  - change (Qabs (inject_Z (z * 2 ^ k))) with (inject_Z (Z.abs (z * 2 ^ k))). rewrite p2_Z by lia. apply inj_le_iff. rewrite Z.abs_mul, (Z.abs_eq (2 ^ k)) by lia.
    assert (2 ^ (W - k - 4) * 2 ^ k = 2 ^ (W - 4)) by (rewrite <- Z.pow_add_r by lia; f_equal; lia).
    assert (2 ^ (W - 4) <= 2 ^ (W - 2)) by (apply Z.pow_le_mono_r; lia). nia.
Qed.

(* ------------------------------------------------------------------ *)
(* instances                                                            *)
(* ------------------------------------------------------------------ *)
(* binary64, sixteen over pi to 240 bits (the test bench calls the generator with k = 4) *)
Definition cst16 : Q := 8998478209500354236063976853730367994054927408172325037259309563693168094 # (2 ^ 240).
Definition F53 := mkF 53 None.
Example ph_dropped_case : let s := 4 in let e := 24 * s - 2 + 51 + 4 in let x := (inject_Z (2 ^ 52 + 1) * p2 (e - 52))%Q in
  cst_msb cst16 = 2 /\ qlog2 (Qabs x) = e /\ start 52 cst16 x 4 = chunk_size 52 * s /\
  lsb_index 52 2 e 100 < chunk_number 52 (-1074) cst16 /\ Z.odd (Qfloor (cst16 / p2 (2 - chunk_size 52 * s))) = true /\
  Z.odd (2 ^ 52 + 1) = true /\ 4 + 52 + 2 <= 64.
Proof. vm_compute. intuition congruence. Qed.
Example ph_out_of_range_case : let x := p2 1017 in
  2 * chunk_size 52 - 5 - -1074 - 100 <= qlog2 (Qabs x) /\ 0 <= cst_msb cst16 + qlog2 (Qabs x) /\ -1074 <= cst_msb cst16.
Proof. vm_compute. intuition congruence. Qed.
(* a small format, several turns, no chunk wrongly dropped *)
Example ph_case : let x := (inject_Z 4437 * p2 8)%Q in exists acc ai,
  payne_hanek (rne (mkF 13 None)) 12 32 (-40) (355 # 113) 6 3 x = Some (acc, ai) /\
  (Qabs (acc + inject_Z ai - x * (355 # 113) - inject_Z (- 223027) * p2 4) <= 1 # 64)%Q /\
  4 <= start 12 (355 # 113) x 3 /\ start 12 (355 # 113) x 3 mod chunk_size 12 = 3 /\
  lsb_index 12 (cst_msb (355 # 113)) (qlog2 (Qabs x)) 6 < chunk_number 12 (-40) (355 # 113).
Proof. eexists. eexists. split; [vm_compute; reflexivity|]. vm_compute. intuition congruence. Qed.
Example ph_overflow_case : 1 <= 64 <= 14 + 52 - 2.
Proof. lia. Qed.
Example ph_odd_field_case : Z.odd 23 = true /\ Z.even 0 = true.
Proof. split; reflexivity. Qed.
Print Assumptions ph_chunks_sum.
Print Assumptions ph_chunks_cover.
Print Assumptions ph_correct.
Print Assumptions ph_dropped_refuted.
Print Assumptions ph_out_of_range_refuted.
Print Assumptions ph_integer_overflow_refuted.
Print Assumptions ph_odd_field_refuted.
Print Assumptions get_remainder_correct.
Print Assumptions get_remainder_doc_refuted.
