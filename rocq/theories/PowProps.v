(* pow and rootn: examples beside the theorems, and what they rest on. *)
From Coq Require Import ZArith QArith Qabs Qround Bool Lia.
From Verif Require Import QUtil FpFormatModel SpecialModel RoundSpec RoundProofs RoundRne PowModel PowSpec PowProofs PowExp.
From Coq Require Import Lqa.
Open Scope Z_scope.

Lemma odd_num : forall k, odd_int (Num (inject_Z (2 * k + 1))).
Proof. intro k. exists (inject_Z (2 * k + 1)), k. split; reflexivity. Qed.
Lemma int_format : forall p k, Z.abs k < 2 ^ p -> in_format p (Num (inject_Z k)).
Proof. intros p k H. exists k, 0. split; auto. change (pow2 0) with 1%Q. ring. Qed.

(* pow(-0, 3) = -0: hypotheses and conclusion *)
Example pow_special_cases_ex :
  ieee_pow MZero (Num 3) MZero /\ in_format 24 (Num 3) /\ pow_scheme 24 MZero (Num 3) = Ret MZero.
Proof.
  split; [|split].
  - apply IP_zero_oddpos; [right; reflexivity|apply (odd_num 1)|exists 3%Q; split; [reflexivity|lra]].
  - apply (int_format 24 3). reflexivity.
  - reflexivity.
Qed.
Example pow_minf_even : ieee_pow MInf (Num (-2)) PZero /\ pow_scheme 24 MInf (Num (-2)) = Ret PZero.
Proof.
  split; [|reflexivity]. apply IP_minf_neg; [exists (-2)%Q; split; [reflexivity|lra]|].
  intros (q & k & Hq & Hk). injection Hq as <-. change (-2)%Q with (inject_Z (-2)) in Hk.
  apply inj_inv in Hk. lia.
Qed.
(* large integers are even: 2^30 is not odd although only 2^25 is tested *)
Example y_is_odd_ex : y_is_odd 24 (Num (inject_Z (2 ^ 24 - 1))) = true /\ y_is_odd 24 (Num (inject_Z (2 ^ 30))) = false
  /\ y_is_odd 24 (Num (-3)) = false /\ odd_int (Num (-3)).
Proof. repeat split; try (vm_compute; reflexivity). apply (odd_num (-2)). Qed.

Example pow_numeric_ex : pow_scheme 24 QNaN (Num 2) = Numeric /\ pow_scheme 24 (Num (-2)) (Num (1 # 2)) = Numeric
  /\ ieee_pow QNaN (Num 2) QNaN /\ ieee_pow (Num (-2)) (Num (1 # 2)) QNaN.
Proof.
  split; [reflexivity|]. split; [reflexivity|]. split.
  - apply IP_x_nan; [discriminate|intros [?|?]; discriminate].
  - apply IP_invalid; [exists (-2)%Q; split; [reflexivity|lra]|eauto| |cbn; lra].
    intros (q & k & Hq & Hk). injection Hq as <-.
    assert (1 == inject_Z (2 * k))%Q as H by (rewrite inject_Z_mult, <- Hk; reflexivity).
    change 1%Q with (inject_Z 1) in H. apply inj_inv in H. lia.
Qed.

(* a negative base with an odd exponent is a number with a minus sign; the formula
   gives a plus sign to all of them *)
Theorem pow_negative_base_refuted : forall p q k e L y,
  (q < 0)%Q -> y = inject_Z (2 * k + 1) ->
  pow_is_numeric (Num q) (Num y) True /\ pow_scheme p (Num q) (Num y) = Numeric /\
  fst (pow_numeric e L y) = false.
Proof.
  intros p q k e L y Hq Hy.
  assert (~ (y == 0)%Q) as Hy0.
  { rewrite Hy. intro H. change 0%Q with (inject_Z 0) in H. apply inj_inv in H. lia. }
  assert (odd_int (Num y)) as Ho by (rewrite Hy; apply odd_num).
  split; [|split].
  - exists q, y. split; [reflexivity|]. split; [reflexivity|]. split; [lra|]. split; [auto|]. split; [lra|].
    split; [right; exists y, (2 * k + 1); split; [reflexivity|rewrite Hy; reflexivity]|]. tauto.
  - apply pow_numeric_iff; [cbn [canonical]; lra|auto|].
    split; [discriminate|]. split; [discriminate|]. split; [intros [?|?]; discriminate|]. right. right. right. eauto.
  - apply pow_sign_positive.
Qed.
Example pow_negative_base_ex : fst (pow_numeric 1 0 3) = false /\ (snd (pow_numeric 1 0 3) == 3)%Q.
Proof. split; reflexivity. Qed.

(* 2^(1/2): the exponent of the result is 0, so the result is 1 *)
Theorem pow_half_refuted : forall L e y, 0 <= e -> (inject_Z e * y == 1 # 2)%Q ->
  (snd (pow_numeric e L y) == y * (inject_Z e + L) - (1 # 2))%Q.
Proof.
  intros L e y He Hy. pose proof (pow_exponent_deviation e L y He) as H.
  rewrite (qrne_comp _ _ Hy) in H. change (qrne (1 # 2)) with 0 in H. change (inject_Z 0) with 0%Q in H. lra.
Qed.
Example pow_half_ex : (snd (pow_numeric 1 0 (1 # 2)) == 0)%Q.
Proof. reflexivity. Qed.
Example pow_exponent_ex : (snd (pow_numeric (-3) (5 # 8) (7 # 4)) == (7 # 4) * (inject_Z (-3) + (5 # 8)))%Q /\
  pow_exponents (-3) (5 # 8) (7 # 4) = (-4, ((inject_Z (-3) * (7 # 4) - inject_Z (-5)) + ((5 # 8) * (7 # 4) - inject_Z 1))%Q, 0%Q).
Proof. split; reflexivity. Qed.

Example pow_emulation_ex : pow_emulate MZero (Num (-3)) = EVal MInf /\ pow_emulate MZero MInf = EVal PInf /\
  pow_emulate (Num (1 # 2)) PInf = EVal PZero /\ pow_emulate MInf (Num (-3)) = EVal MZero /\
  pow_emulate QNaN (Num 2) = EExc /\ pow_emulate QNaN PZero = EVal (Num 1) /\ pow_emulate (Num (-2)) (Num 3) = ESollya.
Proof. repeat split; vm_compute; reflexivity. Qed.
(* code and emulation disagree, so the generated self test reports these cases *)
Theorem pow_code_and_emulation_disagree : forall p y, odd_int y -> fneg y ->
  pow_scheme p MZero y = Ret PInf /\ pow_emulate MZero y = EVal MInf.
Proof.
  intros p y Ho Hn. destruct (pow_negative_odd_refuted p y Ho Hn) as (H1 & H2 & _). split; auto.
  assert (canonical y) as Hc by (destruct Hn as (r & -> & Hr); cbn [canonical]; lra).
  destruct (pow_emulation_correct MZero y MInf I Hc H2) as [H|(_ & (q & Hq & _) & _)]; auto; try discriminate.
  intros ->. destruct Hn as (q & Hq & _). discriminate Hq.
Qed.

Example rootn_ex : rootn_scheme MInf (-3) = RRet MZero /\ ocl_rootn MInf (-3) MZero /\
  rootn_scheme (Num (-8)) 3 = RNumeric /\ rootn_sign (Num (-8)) 3 = true /\ rootn_scheme (Num (-8)) 2 = RRet QNaN /\
  rootn_scheme PZero (-1) = RRet PInf /\ rootn_scheme PZero 3 = RNumeric.
Proof.
  repeat split; try reflexivity. apply OR_minf_neg; [exists (-2)|]; reflexivity.
Qed.
Example rootn_emulation_sign_ex : rootn_emulate (Num (-8)) 3 = RMpfr true /\ (Qpower (-2) 3 == -8)%Q /\ rootn_emulate (Num (-8)) 2 = RVal QNaN.
Proof. split; [|split]; reflexivity. Qed.
Example rootn_emulation_ex : rootn_emulate MZero (-3) = RVal MInf /\ rootn_emulate PInf (-3) = RVal PInf /\ rootn_emulate PZero 3 = RVal QNaN.
Proof. repeat split; reflexivity. Qed.

(* binary32: 100/7 *)
Example rootn_exponent_ex :
  fst (rootn_exponent (rne (mkF 24 None)) 100 7) = 14 /\
  (Qabs (14 + snd (rootn_exponent (rne (mkF 24 None)) 100 7) - (100 # 7)) <= p2 (-25) * (1 + p2 (-16)))%Q.
Proof.
  split; [vm_compute; reflexivity|].
  assert (Qle_bool (Qabs (14 + snd (rootn_exponent (rne (mkF 24 None)) 100 7) - (100 # 7))) (p2 (-25) * (1 + p2 (-16))) = true) as H
    by (vm_compute; reflexivity).
  apply Qle_bool_iff. exact H.
Qed.
Example rootn_exponent_hyps : inF (mkF 24 None) (inject_Z 100) /\ inF (mkF 24 None) (inject_Z 7) /\
  (p2 (-24) * Qabs (inject_Z 100 / inject_Z 7) <= 1 # 8)%Q.
Proof.
  split; [|split].
  - exists 100, 0. split; [reflexivity|]. split; [cbn; lia|exact I].
  - exists 7, 0. split; [reflexivity|]. split; [cbn; lia|exact I].
  - apply Qle_bool_iff. vm_compute. reflexivity.
Qed.

Print Assumptions y_is_odd_spec.
Print Assumptions pow_numeric_iff.
Print Assumptions pow_special_cases.
Print Assumptions pow_zero_inf_refuted.
Print Assumptions pow_negative_odd_refuted.
Print Assumptions pow_one_refuted.
Print Assumptions pow_negative_base_refuted.
Print Assumptions pow_exponent_negative.
Print Assumptions pow_exponent_nonnegative_iff.
Print Assumptions pow_exponent_deviation.
Print Assumptions pow_fraction_small.
Print Assumptions pow_half_refuted.
Print Assumptions pow_emulation_correct.
Print Assumptions pow_emulation_raises_iff.
Print Assumptions pow_code_and_emulation_disagree.
Print Assumptions rootn_special_cases.
Print Assumptions rootn_even_negzero_refuted.
Print Assumptions rootn_finite.
Print Assumptions rootn_emulation_correct.
Print Assumptions rootn_emulation_refuted.
Print Assumptions rootn_emulation_sign.
Print Assumptions remainder_exact.
Print Assumptions nearest_diff_exact.
Print Assumptions rootn_exponent_accurate.
