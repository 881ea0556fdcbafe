(* Accuracy of the cubic root: seed, eight iterations, last rounding. *)
From Coq Require Import ZArith QArith Qabs Qround Bool List Lia Reals Qreals Lra.
From Verif Require Import QUtil FpFormatModel FpFormatSpec FpFormatProofs RoundSpec RoundProofs RoundRne RealUtil LogCore LogProofs PowModel.
From Verif Require Import ExpModel ExpRecon ExpProofs Exp2Model Exp2Proofs CbrtModel CbrtSpec CbrtReal CbrtProofs.
Open Scope Z_scope.

Lemma mul_in x y a b c d : (0 <= a -> 0 <= c -> a <= x <= b -> c <= y <= d -> a * c <= x * y <= b * d)%R.
Proof. intros. split; apply Rmult_le_compat; lra. Qed.

Lemma iterate_S : forall n f v, iterate (S n) f v = f (iterate n f v).
Proof. induction n as [|n IH]; intros f v; [reflexivity|]. change (iterate (S (S n)) f v) with (iterate (S n) f (f v)). rewrite IH. reflexivity. Qed.

Lemma root_exists : forall v : R, (0 < v)%R -> exists r, cube_root v r.
Proof.
  intros v Hv. exists (exp (ln v / 3)). split; [apply exp_pos|]. rewrite <- !exp_plus.
  replace (ln v / 3 + ln v / 3 + ln v / 3)%R with (ln v) by field. apply exp_ln; auto.
Qed.
Lemma cube_lt : forall a b : R, (0 <= a -> a < b -> a * a * a < b * b * b)%R.
Proof. intros a b Ha Hb. assert (a * a <= b * b)%R by (apply Rmult_le_compat; lra). assert (a * a * a <= b * b * a)%R by (apply Rmult_le_compat_r; lra). assert (0 < b * b)%R by (apply Rmult_lt_0_compat; lra). assert (b * b * a < b * b * b)%R by (apply Rmult_lt_compat_l; lra). lra. Qed.
Lemma cube_le_inv : forall a b : R, (0 <= b -> a * a * a <= b * b * b -> a <= b)%R.
Proof. intros a b Hb H. destruct (Rle_lt_dec a b); auto. exfalso. pose proof (cube_lt b a Hb ltac:(lra)). lra. Qed.

(* the bits of the fraction of the mantissa *)
Lemma index_bits : forall G c s E M, fmt_ok G -> 11 <= fsz G -> has_fields G c s E M -> table_index G c = M / 2 ^ (fsz G - 6) /\ 0 <= table_index G c < 64.
Proof.
  intros G c s E M Hok Hf HF. unfold table_index, index_size. rewrite (FpFormatProofs.land_pow2 _ 6) by lia.
  assert (X : mantissa_extraction G c mod 2 ^ fsz G = M).
  { rewrite <- (c_mod_f G Hok c s E M HF). apply Z.bits_inj'. intros n Hn. destruct (Z_lt_ge_dec n (fsz G)) as [L|L].
    - rewrite !Z.mod_pow2_bits_low by lia. unfold mantissa_extraction, static_raw_exp_insertion.
      rewrite Z.lor_spec, Z.land_spec, Z.lor_spec, (Z.shiftl_spec_low _ (fsz G)) by lia.
      assert (O : Z.testbit (Z.shiftl 1 (fsz G) - 1) n = true).
      { rewrite Z.shiftl_1_l. replace (2 ^ fsz G - 1) with (Z.ones (fsz G)) by (rewrite Z.ones_equiv; lia). apply Z.ones_spec_low. lia. }
      rewrite O. cbn [orb]. rewrite andb_true_r, orb_false_r. reflexivity.
    - rewrite !Z.mod_pow2_bits_high by lia. reflexivity. }
  rewrite Z.shiftr_div_pow2 by lia.
  assert (Y : (mantissa_extraction G c / 2 ^ (fsz G - 6)) mod 2 ^ 6 = M / 2 ^ (fsz G - 6)).
  { assert (P : 2 ^ fsz G = 2 ^ (fsz G - 6) * 2 ^ 6) by (rewrite <- Z.pow_add_r by lia; f_equal; lia).
    rewrite P in X. rewrite Z.rem_mul_r in X by (try apply Z.pow_nonzero; lia).
    rewrite <- X. assert (0 < 2 ^ (fsz G - 6)) by (apply Z.pow_pos_nonneg; lia).
    rewrite Z.mul_comm, Z.div_add by lia. rewrite (Z.div_small (_ mod _)) by (apply Z.mod_pos_bound; lia). reflexivity. }
  rewrite Y. split; auto. rewrite <- Y. change 64 with (2 ^ 6). apply Z.mod_pos_bound. reflexivity.
Qed.

Section Acc.
Variable G : fpfmt.
Hypothesis HG : cbrt_fmt G.
Let F := fmt_of G.
Let p := fsz G + 1.
Let Hok : fmt_ok G. Proof. apply HG. Qed.
Let Hso : sollya_ok G. Proof. apply HG. Qed.
Let Hf : 11 <= fsz G <= 52. Proof. apply HG. Qed.
Let He : emin_normal G <= - 14. Proof. apply HG. Qed.
Let EF : F = mkF p (Some (emin_normal G - fsz G)). Proof. apply EF; auto. Qed.
Let Hp1 : 1 <= prec F. Proof. rewrite EF. cbn [prec]. unfold p. lia. Qed.
Let Hemax : emax G = 1 - emin_normal G. Proof. apply emax_emin; auto. Qed.
Local Notation U := (Q2R (p2 (- p))).
Local Notation small := (Q2R (p2 (emin_normal G))).
Open Scope R_scope.

Let UB : 0 < U <= / 4096. Proof. exact (U_b G HG). Qed.
Let UL : / 10000000000000000 <= U.
Proof. assert (L : Q2R (p2 (- (53))) <= U) by (apply p2R_le; unfold p; lia). rewrite (p2R_neg 53) in L by lia. change (2 ^ 53)%Z with 9007199254740992%Z in L. lra. Qed.

Section Iter.
Variables (third : Q) (A c : R) (vinv : fpv) (iv : R).
Hypothesis Hthird : nearestR F third (1 / 3).
Hypothesis Hc : cube_root A c.
Hypothesis HA : 2 * small <= A <= / small.
Hypothesis Hinv : rep G vinv iv.
Hypothesis Hiv : exists d, Rabs d <= U /\ iv = / A * (1 + d).
Let N := newton G third vinv.

Lemma step : forall a e z z', rep G a (c * (1 + e)) -> 0 <= z <= 1 / 120 -> Rabs e <= z + 2.5 * U -> 2.04 * (z * z) <= z' ->
  exists e', rep G (N a) (c * (1 + e')) /\ Rabs e' <= z' + 2.5 * U.
Proof.
  intros a e z z' Ra Hz Be Hz'.
  destruct (newton_step G HG third A c vinv iv Hthird Hc HA Hinv Hiv a e Ra ltac:(lra)) as (q & w & Rq & _ & _ & e' & E & B).
  fold p in B. exists e'. split; [rewrite <- E; exact Rq|]. eapply Rle_trans; [exact B|].
  assert (Q : e * e <= (z + 2.5 * U) * (z + 2.5 * U)).
  { replace (e * e) with (Rabs e * Rabs e) by (rewrite <- Rabs_mult; apply Rabs_pos_eq; nra). pose proof (Rabs_pos e). apply Rmult_le_compat; lra. }
  assert (UU : U * U <= / 4096 * U) by (apply Rmult_le_compat_r; lra). assert (zU : z * U <= 1 / 120 * U) by (apply Rmult_le_compat_r; lra).
  replace ((z + 2.5 * U) * (z + 2.5 * U)) with (z * z + 5 * (z * U) + 6.25 * (U * U)) in Q by lra. lra.
Qed.

Lemma seven : forall a e, rep G a (c * (1 + e)) -> Rabs e <= 1 / 120 ->
  exists e', rep G (iterate 7 N a) (c * (1 + e')) /\ Rabs e' <= 2.6 * U.
Proof.
  intros a e0 R0 B0.
  destruct (step a e0 (1 / 120) (1 / 7000) R0) as (e1 & R1 & B1); try lra.
  destruct (step _ e1 (1 / 7000) (1 / 20000000) R1) as (e2 & R2 & B2); try lra.
  destruct (step _ e2 (1 / 20000000) (1 / 100000000000000) R2) as (e3 & R3 & B3); try lra.
  destruct (step _ e3 (1 / 100000000000000) (1 / 1000000000000000000) R3) as (e4 & R4 & B4); try lra.
  destruct (step _ e4 (1 / 1000000000000000000) (1 / 1000000000000000000) R4) as (e5 & R5 & B5); try lra.
  destruct (step _ e5 (1 / 1000000000000000000) (1 / 1000000000000000000) R5) as (e6 & R6 & B6); try lra.
  destruct (step _ e6 (1 / 1000000000000000000) (1 / 1000000000000000000) R6) as (e7 & R7 & B7); try lra.
  exists e7. split; [rewrite !iterate_S; cbn [iterate]; exact R7|]. lra.
Qed.

Lemma eight : forall a e, rep G a (c * (1 + e)) -> Rabs e <= 1 / 120 ->
  exists q w, rep G (iterate num_iteration N a) (Q2R q) /\ nearestR F q (c * w) /\ Rabs (w - 1) <= 1.03 * U.
Proof.
  intros a e R0 B0. destruct (seven a e R0 B0) as (e7 & R7 & B7).
  destruct (newton_step G HG third A c vinv iv Hthird Hc HA Hinv Hiv _ e7 R7 ltac:(lra)) as (q & w & Rq & Nq & W & _).
  fold p in W. exists q, w. split; [unfold num_iteration; rewrite iterate_S; exact Rq|]. split; [exact Nq|]. eapply Rle_trans; [exact W|].
  assert (Q : e7 * e7 <= 2.6 * U * (2.6 * U)).
  { replace (e7 * e7) with (Rabs e7 * Rabs e7) by (rewrite <- Rabs_mult; apply Rabs_pos_eq; nra). pose proof (Rabs_pos e7). apply Rmult_le_compat; lra. }
  assert (UU : U * U <= / 4096 * U) by (apply Rmult_le_compat_r; lra).
  assert (U * Rabs e7 <= U * (2.6 * U)) by (apply Rmult_le_compat_l; lra). lra.
Qed.
End Iter.

(* the last rounding *)
Lemma last_round : forall x c w q E, inF F x -> cube_root (Q2R x) c -> Q2R (p2 E) <= c < Q2R (p2 (E + 1)) -> (emin_normal G <= E)%Z ->
  nearestR F q (c * w) -> Rabs (w - 1) <= 1.03 * U -> Rabs (Q2R q - c) <= 1.53 * Q2R (p2 (E + 1 - p)).
Proof.
  intros x c w q E Ix [Pc Ec] [L H] HE N W. apply Rabs_le_inv in W.
  set (T := Q2R (p2 (E + 1))) in *. assert (PT : 0 < T) by apply p2R_pos.
  assert (EU : Q2R (p2 (E + 1 - p)) = T * U) by (unfold Z.sub; rewrite p2R_plus; reflexivity). rewrite EU.
  assert (D : Rabs (c * w - c) <= 1.03 * (T * U)).
  { replace (c * w - c) with (c * (w - 1)) by ring. replace (1.03 * (T * U)) with (T * (1.03 * U)) by ring. apply abs_mul_le; [rewrite Rabs_pos_eq; lra|apply Rabs_le; lra]. }
  destruct (Rle_lt_dec (c * w) T) as [C|C].
  - pose proof (nearestR_half F (E + 1 - p) q _ Hp1 N) as X. rewrite EF in X. cbn [prec exp_ok emin] in X.
    replace (p + (E + 1 - p))%Z with (E + 1)%Z in X by lia. fold T in X.
    assert (0 < c * w) by (apply Rmult_lt_0_compat; lra).
    specialize (X ltac:(unfold p; lia) ltac:(rewrite Rabs_pos_eq; lra)). rewrite p2R_sub in X by lia. rewrite EU in X. change (IZR (2 ^ 1)) with 2 in X.
    replace (Q2R q - c) with ((Q2R q - c * w) + (c * w - c)) by ring. eapply Rle_trans; [apply abs_add_le; [exact X|exact D]|]. lra.
  - (* next binade *)
    destruct N as [Iq N].
    assert (IT : inF F (p2 (E + 1))).
    { rewrite EF. exists 1%Z, (E + 1)%Z. split; [ring|]. cbn [prec exp_ok emin]. split; [|unfold p; lia]. change (Z.abs 1) with (2 ^ 0)%Z. apply Z.pow_le_mono_r; unfold p; lia. }
    pose proof (N _ IT) as NT. fold T in NT. rewrite (Rabs_left (T - c * w)) in NT by lra. apply Rabs_le_inv in NT.
    (* the argument is below 8^(E+1) by a unit *)
    assert (T3 : Q2R (p2 (3 * (E + 1))) = T * T * T).
    { replace (3 * (E + 1))%Z with ((E + 1) + ((E + 1) + (E + 1)))%Z by lia. rewrite (p2R_plus (E + 1) (E + 1 + (E + 1))), (p2R_plus (E + 1) (E + 1)). unfold T. ring. }
    assert (Bx : c * c * c <= T * T * T * (1 - U)).
    { rewrite Ec. destruct (Rle_lt_dec (Q2R x) (T * T * T * (1 - U))) as [|O]; auto. exfalso.
      pose proof (cube_lt c T ltac:(lra) H) as LT. rewrite Ec in LT.
      set (k := (3 * (E + 1))%Z) in *. pose proof (p2R_pos k) as Pk.
      assert (MB : mult (k - p) x).
      { apply (inF_big F Hp1 (k - p) x Ix). rewrite EF. cbn [prec]. replace (p + (k - p) - 1)%Z with (k - 1)%Z by lia.
        apply Rlt_Qlt. rewrite Q2R_abs, p2R_sub by lia. change (IZR (2 ^ 1)) with 2. rewrite T3 in *. rewrite Rabs_pos_eq; nra. }
      assert (LE : (x <= inject_Z (2 ^ p - 1) * p2 (k - p))%Q).
      { apply mult_lt_le; [exact MB|]. replace (2 ^ p - 1 + 1)%Z with (2 ^ p)%Z by lia. rewrite (p2_prec p (k - p)) by (unfold p; lia).
        replace (p + (k - p))%Z with k by lia. apply Rlt_Qlt. rewrite T3. exact LT. }
      apply Qle_Rle in LE. rewrite Q2R_mult, Q2R_Z, minus_IZR, <- (p2R_Z p) in LE by (unfold p; lia).
      assert (K1 : Q2R (p2 (k - p)) = T * T * T * U) by (unfold Z.sub; rewrite p2R_plus, T3; reflexivity).
      assert (K2 : Q2R (p2 p) * U = 1) by (rewrite <- p2R_plus; replace (p + - p)%Z with 0%Z by lia; apply p2R_0).
      rewrite K1 in LE. nra. }
    assert (Bc : c <= T * (1 - U / 3)).
    { apply cube_le_inv; [apply Rmult_le_pos; lra|]. eapply Rle_trans; [exact Bx|].
      replace (T * (1 - U / 3) * (T * (1 - U / 3)) * (T * (1 - U / 3))) with (T * T * T * ((1 - U / 3) * (1 - U / 3) * (1 - U / 3))) by ring.
      apply Rmult_le_compat_l; [assert (0 < T * T) by (apply Rmult_lt_0_compat; lra); nra|]. nra. }
    assert (Bw : c * w < T * (1 + U)).
    { apply Rle_lt_trans with (T * (1 - U / 3) * (1 + 1.03 * U)); [apply Rmult_le_compat; lra|]. rewrite Rmult_assoc. apply Rmult_lt_compat_l; auto. nra. }
    assert (Qq : Q2R q <= T).
    { destruct (Rle_lt_dec (Q2R q) T) as [|O]; auto. exfalso.
      assert (MQ : mult (E + 2 - p) q).
      { apply (inF_big F Hp1 (E + 2 - p) q Iq). rewrite EF. cbn [prec]. replace (p + (E + 2 - p) - 1)%Z with (E + 1)%Z by lia.
        apply Rlt_Qlt. rewrite Q2R_abs, Rabs_pos_eq; fold T; lra. }
      assert (GE : (inject_Z (2 ^ (p - 1) + 1) * p2 (E + 2 - p) <= q)%Q).
      { destruct (Qlt_le_dec q (inject_Z (2 ^ (p - 1) + 1) * p2 (E + 2 - p))) as [X|X]; auto. exfalso.
        apply (mult_lt_le _ _ _ MQ) in X. rewrite (p2_prec (p - 1) (E + 2 - p)) in X by (unfold p; lia). replace (p - 1 + (E + 2 - p))%Z with (E + 1)%Z in X by lia.
        apply Qle_Rle in X. fold T in X. lra. }
      apply Qle_Rle in GE. rewrite Q2R_mult, Q2R_Z, plus_IZR, <- (p2R_Z (p - 1)) in GE by (unfold p; lia).
      rewrite Rmult_plus_distr_r in GE. rewrite <- (p2R_plus (p - 1)) in GE. replace (p - 1 + (E + 2 - p))%Z with (E + 1)%Z in GE by lia. fold T in GE.
      replace (E + 2 - p)%Z with (1 + (E + 1 - p))%Z in GE by lia. rewrite p2R_plus, EU in GE. replace (Q2R (p2 1)) with 2 in GE by (unfold Q2R; cbn; lra). nra. }
    assert (0 <= T * U) by (apply Rmult_le_pos; lra). apply Rabs_le_inv in D. apply Rabs_le. lra.
Qed.

(* the seed: the root of 2^k (1 + i/64) up to three roundings *)
Section Seed.
Variables (tab modt : list Q) (third : Q).
Hypothesis HT : cbrt_tables G tab modt third.

Lemma pert_root : forall q r, nearestR F q r -> 1 / 4 <= r <= 4 -> exists d, Rabs d <= U /\ Q2R q = r * (1 + d).
Proof.
  intros q r N B. apply (nearestR_pert G HG); auto. rewrite Rabs_pos_eq by lra.
  assert (small <= Q2R (p2 (- (2)))) by (apply p2R_le; lia). rewrite (p2R_neg 2) in H by lia. change (IZR (2 ^ 2)) with 4 in H. lra.
Qed.

Lemma small_facts : 0 < small <= / 16384 /\ Q2R (p2 (emax G)) = 2 * / small /\ 16384 <= / small.
Proof.
  assert (SM : small <= / 16384). { assert (L : small <= Q2R (p2 (- (14)))) by (apply p2R_le; lia). rewrite (p2R_neg 14) in L by lia. exact L. }
  assert (PS : 0 < small) by apply p2R_pos.
  split; [lra|]. split; [|replace 16384 with (/ / 16384) by lra; apply Rinv_le_contravar; lra].
  rewrite Hemax. unfold Z.sub. rewrite p2R_plus. replace (Q2R (p2 1)) with 2 by (unfold Q2R; cbn; lra). f_equal.
  assert (X : small * Q2R (p2 (- emin_normal G)) = 1) by (rewrite <- p2R_plus; replace (emin_normal G + - emin_normal G)%Z with 0%Z by lia; apply p2R_0).
  apply Rmult_eq_reg_l with small; [|lra]. rewrite Rinv_r by lra. lra.
Qed.

Definition seed_of (k i : Z) : fpv :=
  f_mul G (f_mul G (Num (nth (Z.to_nat i) tab 0%Q)) (Num (nth (Z.to_nat (Z.rem k 3 + 3)) modt 0%Q))) (exp_ins G (Z.quot k 3)).

Lemma seed_core : forall k i c, (emin_normal G - 1 <= k <= emax G + 1)%Z -> (0 <= i < 64)%Z ->
  cube_root (Q2R (p2 k) * (1 + IZR i / 64)) c -> 8 * small <= c <= / small ->
  exists e, rep G (seed_of k i) (c * (1 + e)) /\ Rabs e <= 0.001.
Proof.
  intros k i c Hk Bi [Pc Ec] Rc. pose proof UB as UBs. unfold seed_of.
  set (n := Z.quot k 3). set (j := Z.rem k 3). pose proof (Z.quot_rem' k 3) as QR. fold n j in QR.
  assert (Bj : (-2 <= j <= 2)%Z).
  { unfold j. destruct (Z_le_gt_dec 0 k) as [P|P]; [pose proof (Z.rem_bound_pos k 3 P ltac:(lia)); lia|].
    pose proof (Z.rem_opp_l' k 3) as O. pose proof (Z.rem_bound_pos (- k) 3 ltac:(lia) ltac:(lia)). lia. }
  assert (Bn : (emin_normal G <= n <= emax G)%Z) by lia.
  (* the two entries *)
  assert (I0 : 0 <= IZR i <= 63) by (split; apply IZR_le; lia).
  destruct (root_exists (1 + IZR i / 64)) as (r1 & C1). { lra. }
  destruct (root_exists (Q2R (p2 (j + 3 - 3)))) as (r2 & C2). { apply p2R_pos. }
  destruct HT as (T1 & T2 & _). pose proof (T1 i r1 ltac:(lia) C1) as N1. pose proof (T2 (j + 3)%Z r2 ltac:(lia) C2) as N2.
  replace (j + 3 - 3)%Z with j in C2 by lia.
  assert (B1 : 1 <= r1 <= 1.26). { destruct C1 as [P1 C1]. split; apply cube_le_inv; lra. }
  assert (J : / 4 <= Q2R (p2 j) <= 4).
  { split; [replace (/ 4) with (Q2R (p2 (-2))) by (unfold Q2R; cbn; lra); apply p2R_le; lia|]. replace 4 with (Q2R (p2 2)) by (unfold Q2R; cbn; lra). apply p2R_le; lia. }
  assert (B2 : 0.62 <= r2 <= 1.6). { destruct C2 as [P2 C2]. split; apply cube_le_inv; lra. }
  destruct (pert_root _ _ N1 ltac:(lra)) as (d1 & D1 & E1). destruct (pert_root _ _ N2 ltac:(lra)) as (d2 & D2 & E2).
  assert (D1' := Rabs_le_inv _ _ D1). assert (D2' := Rabs_le_inv _ _ D2).
  set (P := Q2R (p2 n)). assert (PP : 0 < P) by apply p2R_pos.
  assert (EP : Q2R (p2 k) = P * P * P * Q2R (p2 j)).
  { rewrite QR. replace (3 * n + j)%Z with (n + (n + (n + j)))%Z by lia. rewrite (p2R_plus n (n + (n + j))), (p2R_plus n (n + j)), (p2R_plus n j). unfold P. ring. }
  assert (Erho : r1 * r2 * P = c).
  { assert (Pr : 0 < r1 * r2 * P) by (apply Rmult_lt_0_compat; [apply Rmult_lt_0_compat; lra|exact PP]).
    assert (X : (r1 * r2 * P) * (r1 * r2 * P) * (r1 * r2 * P) = c * c * c).
    { rewrite Ec, EP. destruct C1 as [_ <-]. destruct C2 as [_ <-]. ring. }
    apply Rle_antisym; apply cube_le_inv; lra. }
  (* the products *)
  pose proof (rep_num G _ (proj1 N1)) as R1. pose proof (rep_num G _ (proj1 N2)) as R2. rewrite E1 in R1. rewrite E2 in R2.
  assert (PR : 0.6 <= r1 * (1 + d1) * (r2 * (1 + d2)) <= 2.1).
  { pose proof (mul_in r1 (1 + d1) 1 1.26 0.999 1.001 ltac:(lra) ltac:(lra) ltac:(lra) ltac:(lra)) as W1.
    pose proof (mul_in r2 (1 + d2) 0.62 1.6 0.999 1.001 ltac:(lra) ltac:(lra) ltac:(lra) ltac:(lra)) as W2.
    pose proof (mul_in (r1 * (1 + d1)) (r2 * (1 + d2)) 0.99 1.27 0.61 1.61 ltac:(lra) ltac:(lra) ltac:(lra) ltac:(lra)). lra. }
  destruct small_facts as (SM & BG & IS).
  destruct (mul_rep G HG _ _ _ _ R1 R2) as (q1 & Rq1 & Nq1); [rewrite BG, Rabs_pos_eq; lra|].
  destruct (nearestR_pert G HG _ _ Nq1) as (d3 & D3 & E3); [rewrite Rabs_pos_eq; lra|]. fold p in D3. assert (D3' := Rabs_le_inv _ _ D3).
  assert (R3 : rep G (exp_ins G n) P).
  { exists (p2 n). split; [apply exp_ins_fin; auto; lia|]. split; [|reflexivity]. change (fmt_of G) with F. rewrite EF. exists 1%Z, n. split; [ring|]. cbn [prec exp_ok emin]. split; [|lia].
    change (Z.abs 1) with (2 ^ 0)%Z. apply Z.pow_le_mono_r; unfold p; lia. }
  assert (X4 : Q2R q1 * P = c * ((1 + d1) * (1 + d2) * (1 + d3))).
  { rewrite E3. replace (r1 * (1 + d1) * (r2 * (1 + d2)) * (1 + d3) * P) with (r1 * r2 * P * ((1 + d1) * (1 + d2) * (1 + d3))) by ring. rewrite Erho. ring. }
  pose proof (pert3 U d1 d2 d3 UBs D1 D2 D3) as P3. set (t3 := (1 + d1) * (1 + d2) * (1 + d3)) in *. apply Rabs_le_inv in P3.
  assert (T3b : 1 - 0.00075 <= t3 <= 1 + 0.00075) by lra.
  assert (X5 : 0.99 * c <= Q2R q1 * P <= 1.001 * c) by (rewrite X4, (Rmult_comm c); split; apply Rmult_le_compat_r; lra).
  destruct (mul_rep G HG _ _ _ _ Rq1 R3) as (q2 & Rq2 & Nq2); [rewrite BG, Rabs_pos_eq; lra|].
  destruct (nearestR_pert G HG _ _ Nq2) as (d4 & D4 & E4); [rewrite Rabs_pos_eq; lra|]. fold p in D4. assert (D4' := Rabs_le_inv _ _ D4).
  exists (t3 * (1 + d4) - 1). split.
  - replace (c * (1 + (t3 * (1 + d4) - 1))) with (c * t3 * (1 + d4)) by ring. rewrite <- X4, <- E4. exact Rq2.
  - pose proof (mul_in t3 (1 + d4) 0.99925 1.00075 (1 - U) (1 + U) ltac:(lra) ltac:(lra) ltac:(lra) ltac:(lra)) as W2. apply Rabs_le; split; lra.
Qed.

(* the fields of the argument *)
Variables (code E M : Z) (s : bool).
Hypothesis HF : has_fields G code s E M.
Let k := (E - ieee_bias G)%Z.
Let m := 1 + IZR M * Q2R (p2 (- fsz G)).

Lemma seed_fields : init_approx G tab modt code = seed_of k (table_index G code).
Proof.
  unfold init_approx. assert (Ek : exp_extraction G code = k); [|rewrite Ek; reflexivity].
  unfold exp_extraction. rewrite (view_raw_exp G Hok code s E M HF code).
  - unfold k. rewrite bias_eq by auto. lia.
  - unfold view_of. apply Z.mod_small. apply (fields_range G Hok code s E M HF).
Qed.
Lemma k_range : (emin_normal G - 1 <= k <= emax G + 1)%Z.
Proof. rewrite emax_eq by auto. unfold k, emin_normal, bias, ieee_bias. destruct Hok as [H1 _]. destruct HF as (_ & HE & _). pose proof (pe_half G Hok). lia. Qed.

Lemma seed : forall c, cube_root (Q2R (p2 k) * m) c -> 16 * small <= c <= / small -> exists e, rep G (init_approx G tab modt code) (c * (1 + e)) /\ Rabs e <= 1 / 120.
Proof.
  intros c [Pc Ec] Rc. pose proof k_range as Hk. rewrite seed_fields.
  destruct (index_bits G code s E M Hok ltac:(lia) HF) as [Ei Bi]. set (i := table_index G code) in *. destruct HF as (Ecode & _ & HM).
  assert (I0 : 0 <= IZR i <= 63) by (split; apply IZR_le; lia).
  destruct (root_exists (Q2R (p2 k) * (1 + IZR i / 64))) as (c0 & C0). { apply Rmult_lt_0_compat; [apply p2R_pos|lra]. }
  assert (Hm : 1 + IZR i / 64 <= m /\ m * (64 / 65) <= 1 + IZR i / 64).
  { assert (Pf : (0 < 2 ^ (fsz G - 6))%Z) by (apply Z.pow_pos_nonneg; lia). pose proof (Z.div_mod M (2 ^ (fsz G - 6)) ltac:(lia)) as DM. pose proof (Z.mod_pos_bound M _ Pf) as MB.
    rewrite <- Ei in DM. set (B := (2 ^ (fsz G - 6))%Z) in *.
    assert (Ef : Q2R (p2 (- fsz G)) * IZR B = / 64).
    { unfold B. rewrite <- p2R_Z by lia. rewrite <- p2R_plus. replace (- fsz G + (fsz G - 6))%Z with (- (6))%Z by lia. rewrite (p2R_neg 6) by lia. reflexivity. }
    pose proof (p2R_pos (- fsz G)) as Pp. set (u := Q2R (p2 (- fsz G))) in *.
    assert (L1 : IZR B * IZR i <= IZR M) by (rewrite <- mult_IZR; apply IZR_le; lia). assert (L2 : IZR M <= IZR B * (IZR i + 1)) by (rewrite <- plus_IZR, <- mult_IZR; apply IZR_le; lia).
    assert (M1 : u * (IZR B * IZR i) <= u * IZR M) by (apply Rmult_le_compat_l; lra). assert (M2 : u * IZR M <= u * (IZR B * (IZR i + 1))) by (apply Rmult_le_compat_l; lra).
    rewrite <- Rmult_assoc, Ef in M1, M2. unfold m. fold u. lra. }
  assert (Pm : 0 < m) by lra.
  destruct C0 as [Pc0 Ec0]. pose proof (p2R_pos k) as Pk.
  set (rho := c0 / c). assert (Er : c0 = c * rho) by (unfold rho; field; lra).
  assert (Prho : 0 < rho) by (apply Rdiv_lt_0_compat; lra).
  assert (Crho : rho * rho * rho * m = 1 + IZR i / 64).
  { assert (X : (c * rho) * (c * rho) * (c * rho) = Q2R (p2 k) * (1 + IZR i / 64)) by (rewrite <- Er; exact Ec0).
    replace (c * rho * (c * rho) * (c * rho)) with (c * c * c * (rho * rho * rho)) in X by ring. rewrite Ec in X.
    apply Rmult_eq_reg_l with (Q2R (p2 k)); [lra|]. lra. }
  assert (Rr : 1 - 1 / 190 <= rho <= 1).
  { assert (C3 : 64 / 65 <= rho * rho * rho <= 1) by (split; apply Rmult_le_reg_r with m; lra). split; apply cube_le_inv; lra. }
  destruct small_facts as (SM & _ & _).
  assert (Bc0 : 0.99 * c <= c0 <= c) by (rewrite Er, (Rmult_comm c); split; [|rewrite <- (Rmult_1_l c) at 2]; apply Rmult_le_compat_r; lra).
  destruct (seed_core k i c0 Hk ltac:(lia) (conj Pc0 Ec0) ltac:(lra)) as (e0 & R0 & B0). apply Rabs_le_inv in B0.
  exists (rho * (1 + e0) - 1). split.
  - replace (c * (1 + (rho * (1 + e0) - 1))) with (c0 * (1 + e0)) by (rewrite Er; ring). exact R0.
  - pose proof (mul_in rho (1 + e0) 0.9947 1 0.999 1.001 ltac:(lra) ltac:(lra) ltac:(lra) ltac:(lra)) as W2. apply Rabs_le; split; lra.
Qed.
End Seed.
End Acc.
