(* Properties of the fast 2^i function (C51). *)
From Coq Require Import ZArith QArith Lia Lqa.
From Verif Require Import QUtil FpFormatModel FpFormatSpec FpFormatProofs FpFormatProps IndexModel IndexProps Exp2iModel.
Open Scope Z_scope.

(* 2^x in range, the nearest end of the normal range otherwise *)
Theorem fast_exp2i_correct : forall F w x, fmt_ok F -> esz F + 1 <= w -> - 2 ^ (w - 1) <= x < 2 ^ (w - 1) ->
  exists q, get_value_from_integer_coding F (fast_exp2i F w x) = Num q
  /\ (x < 2 - 2 ^ (esz F - 1) -> (q == p2 (2 - 2 ^ (esz F - 1)))%Q)
  /\ (2 - 2 ^ (esz F - 1) <= x <= 2 ^ (esz F - 1) - 1 -> (q == p2 x)%Q)
  /\ (2 ^ (esz F - 1) - 1 < x -> (q == p2 (2 ^ (esz F - 1) - 1))%Q).
Proof.
  intros F w x Hok Hw Hx. pose proof (pe1_ge F Hok) as P1. pose proof (pe_half F Hok) as Ph. pose proof (pf_ge F Hok).
  pose proof (e_pos F Hok). pose proof (f_pos F Hok).
  set (y := Z.max (Z.min x (emax F)) (emin_normal F)).
  assert (Ey : y = Z.max (Z.min x (2 ^ (esz F - 1) - 1)) (2 - 2 ^ (esz F - 1))).
  { unfold y. rewrite emax_eq by auto. unfold emin_normal, bias. f_equal. lia. }
  assert (By : emin_normal F <= y <= emax F).
  { rewrite emax_eq by auto. unfold emin_normal, bias. lia. }
  destruct (fp_exponent_insertion F y Hok By) as (q & D & Hq).
  assert (E : fast_exp2i F w x = exp_insertion F y).
  { unfold fast_exp2i, exp_insertion, exp_insertion_no_offset. fold y.
    assert (Pw : 2 ^ esz F <= 2 ^ (w - 1)) by (apply Z.pow_le_mono_r; lia).
    rewrite emax_eq in By by auto. unfold emin_normal, bias in By.
    rewrite swrap_small by (unfold bias; lia).
    apply Z.mod_small. rewrite Z.shiftl_mul_pow2 by lia. unfold bit_size.
    assert (Bb : 0 <= y + - bias F < 2 ^ esz F) by (unfold bias; lia).
    split; [nia|]. apply Z.lt_le_trans with (2 ^ esz F * 2 ^ fsz F); [nia|].
    rewrite <- Z.pow_add_r by lia. apply Z.pow_le_mono_r; lia. }
  exists q. rewrite E. split; auto. rewrite Hq, Ey. split; [|split]; intros C.
  - replace (Z.max _ _) with (2 - 2 ^ (esz F - 1)) by lia. reflexivity.
  - replace (Z.max _ _) with x by lia. reflexivity.
  - replace (Z.max _ _) with (2 ^ (esz F - 1) - 1) by lia. reflexivity.
Qed.

(* below the normal range the emulation gives a smaller number *)
Theorem fast_exp2i_emulate_refuted : forall F w x q, fmt_ok F -> esz F + 1 <= w -> - 2 ^ (w - 1) <= x ->
  x < 2 - 2 ^ (esz F - 1) -> get_value_from_integer_coding F (fast_exp2i F w x) = Num q ->
  (exp2i_emulate x < q)%Q.
Proof.
  intros F w x q Hok Hw Hx Lx E. pose proof (pe1_ge F Hok) as P1. pose proof (e_pos F Hok).
  assert (0 < 2 ^ (w - 1)) by (apply Z.pow_pos_nonneg; lia).
  destruct (fast_exp2i_correct F w x Hok Hw) as (q' & E' & C & _); [lia|].
  rewrite E in E'. injection E' as <-. rewrite (C Lx). apply p2_lt. auto.
Qed.

Example fast_exp2i_case :
  fast_exp2i (mkfmt 8 23 24) 32 5 = 0x42000000 /\ fast_exp2i (mkfmt 8 23 24) 32 200 = 0x7f000000
  /\ fast_exp2i (mkfmt 8 23 24) 32 (-2 ^ 31) = 0x00800000 /\ fast_exp2i (mkfmt 11 52 53) 64 (-3) = 0x3fc0000000000000
  /\ fmt_ok (mkfmt 8 23 24) /\ esz (mkfmt 8 23 24) + 1 <= 32.
Proof. repeat split; try reflexivity; cbn; lia. Qed.

Print Assumptions fast_exp2i_correct.
Print Assumptions fast_exp2i_emulate_refuted.
