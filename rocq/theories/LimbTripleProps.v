(* Properties C24 and C64, triple-word part: conversion to fewer limbs,
   refutation of the bound declared without a condition on the overlap,
   examples and assumptions. *)
From Coq Require Import ZArith QArith Qround Qabs List Bool Lia Lqa Setoid.
From Verif Require Import QUtil RoundSpec RoundProofs RoundRne LimbModel LimbRound LimbBounds LimbTriple.
Import ListNotations.
Open Scope Z_scope.

(* a conversion from three limbs to two of the same format keeps the value up
   to two units of the last place of the second limb, whatever the overlap *)
Theorem expand_conversion_32 : forall F rnd, 3 <= prec F -> nearest_in F rnd -> forall h m lo,
  inF F h -> inF F m -> inF F lo ->
  exists rh rl, expand_conversion (rounded_ops rnd) 0%Q 2 [h; m; lo] = Some [rh; rl] /\ inF F rh /\ inF F rl
  /\ (Qabs (rh + rl - (h + m + lo)) <= p2 (- prec F) * p2 (- prec F) * (Qabs (h + m + lo) + 3 * Qabs (m + lo)))%Q.
Proof.
  intros F rnd Hp Hr h m lo H1 H2 H3.
  pose proof (normalize_33_exact F Hp rnd Hr h m lo H1 H2 H3) as T.
  pose proof (normalize_33_low F Hp rnd Hr h m lo H1 H2 H3) as T2.
  assert (E : expand_conversion (rounded_ops rnd) 0%Q 2 [h; m; lo]
              = let '(rh, rm, _) := normalize_33 (rounded_ops rnd) h m lo in Some [rh; rm]) by reflexivity.
  rewrite E. clear E. destruct (normalize_33 (rounded_ops rnd) h m lo) as [[rh rm] rl]. destruct T as (A1 & A2 & A3 & A4 & A5).
  exists rh, rm. split; [reflexivity|]. split; [exact A2|]. split; [exact A3|].
  setoid_replace (rh + rm - (h + m + lo))%Q with (- rl)%Q by lra. rewrite Qabs_opp. exact T2.
Qed.

(* two limbs to three: nothing is lost; to one limb: the high limb *)
Theorem expand_conversion_23 : forall (O : ops Q) h l,
  expand_conversion O 0%Q 3 [h; l] = Some [h; l; 0%Q] /\ expand_conversion O 0%Q 1 [h; l] = Some [h].
Proof. intros. split; reflexivity. Qed.

(* MB_Mul321.check_input_descriptors (ml_blocks.py:1208-1210) does not ask for
   limbs without overlap; without it the declared relative error 2^-154 does
   not hold *)
Definition F53 := mkF 53 None.
Theorem mul321_declared_refuted :
  exists xh xl y, inF F53 xh /\ inF F53 xl /\ inF F53 y /\
    let '(rh, rm, rl) := mul321 (rounded_ops (rne F53)) xh xl y in
    (p2 (-101) * Qabs ((xh + xl) * y) < Qabs (rh + rm + rl - (xh + xl) * y))%Q.
Proof.
  exists (inject_Z 8820994331830487), (inject_Z (- (2 * 4503599627843394))), (inject_Z 9007199254731631).
  split; [|split; [|split]].
  - apply (inF_intro F53 ltac:(cbn; lia) 0); [exists 8820994331830487; reflexivity|exact I|vm_compute; discriminate].
  - apply (inF_intro F53 ltac:(cbn; lia) 1); [exists (- 4503599627843394); reflexivity|exact I|vm_compute; discriminate].
  - apply (inF_intro F53 ltac:(cbn; lia) 0); [exists 9007199254731631; reflexivity|exact I|vm_compute; discriminate].
  - vm_compute. reflexivity.
Qed.

(* ------------------------------------------------------------------ *)
(* examples                                                             *)
(* ------------------------------------------------------------------ *)
Definition F4 := mkF 4 None.
Definition r4 := rne F4.
Definition nr4 : nearest_in F4 r4 := rne_nearest F4 ltac:(cbn; lia).

Definition in4 (k : Z) (e : Z) : Q := (inject_Z k * p2 e)%Q.
Lemma in4_in : forall k e, Z.abs k <= 16 -> inF F4 (in4 k e).
Proof.
  intros k e H. apply (inF_intro F4 ltac:(cbn; lia) e); [exists k; reflexivity|exact I|].
  unfold in4. rewrite Qabs_Qmult, (Qabs_pos (p2 e)) by (pose proof (p2_pos e); lra).
  change (prec F4) with 4. rewrite p2_plus. apply Qmult_le_compat_r; [|pose proof (p2_pos e); lra].
  change (p2 4) with (inject_Z 16). unfold Qabs, inject_Z, Qle. cbn. lia.
Qed.

(* three-limb numbers with full limbs: the sum is wrong in the last limb only *)
Example add333_example :
  let '(rh, rm, rl) := add333 (rounded_ops r4) (in4 11 0) (in4 13 (-5)) (in4 9 (-9)) (in4 15 (-3)) (in4 13 (-8)) (in4 11 (-11)) in
  ~ (rh + rm + rl == in4 11 0 + in4 13 (-5) + in4 9 (-9) + (in4 15 (-3) + in4 13 (-8) + in4 11 (-11)))%Q /\
  (Qabs (rh + rm + rl - (in4 11 0 + in4 13 (-5) + in4 9 (-9) + (in4 15 (-3) + in4 13 (-8) + in4 11 (-11)))) <= 1 # 128)%Q.
Proof. vm_compute. split; [|discriminate]. intros H; discriminate H. Qed.

(* cancellation of the two high limbs: the conversion finds the value of the
   third limb *)
Example expand_conversion_example :
  exists a b, expand_conversion (rounded_ops r4) 0%Q 2 [in4 1 0; in4 (-1) 0; in4 13 (-9)] = Some [a; b]
  /\ (a + b == in4 13 (-9))%Q.
Proof. vm_compute. eexists _, _. split; reflexivity. Qed.

Example mul321_example :
  let '(rh, rm, rl) := mul321 (rounded_ops r4) (in4 13 0) (in4 11 (-4)) (in4 15 0) in
  (Qabs (in4 11 (-4)) <= p2 (- 4) * Qabs (in4 13 0))%Q /\
  (rh + rm + rl == (in4 13 0 + in4 11 (-4)) * in4 15 0)%Q.
Proof. vm_compute. split; [discriminate|reflexivity]. Qed.

Example normalize_23_example :
  let '(rh, rl) := normalize_23 (rounded_ops r4) (in4 1 0) (in4 13 (-3)) (in4 11 (-7)) in
  (Qabs (rh + rl - (in4 1 0 + in4 13 (-3) + in4 11 (-7))) <= 1 # 64)%Q.
Proof. vm_compute. discriminate. Qed.

Example declared_hypotheses_met :
  (Qabs (in4 9 (-5)) <= p2 (- 2) * Qabs (in4 13 (-1)))%Q /\ (Qabs (in4 9 (-9)) <= p2 (- 1) * Qabs (in4 9 (-5)))%Q
  /\ (Qabs (in4 13 (-1) + in4 9 (-5) + in4 9 (-9)) <= (1 # 4) * Qabs (in4 15 1))%Q.
Proof. vm_compute. split; [discriminate|]. split; discriminate. Qed.

Example overlap_hypothesis_met :
  (Qabs (in4 11 (-4)) <= p2 (- prec F4) * Qabs (in4 13 0))%Q /\ (Qabs (in4 1 0 + in4 1 (-5)) <= (1 # 4) * Qabs (in4 13 0 + in4 11 (-4)))%Q.
Proof. vm_compute. split; discriminate. Qed.

Print Assumptions expand_conversion_32.
Print Assumptions mul321_declared_refuted.
Print Assumptions add333_error.
Print Assumptions mul322_declared.
Print Assumptions mul323_error.
Print Assumptions mul333_error.
Print Assumptions mul313_declared.
Print Assumptions add322_declared.
Print Assumptions add331_declared.
Print Assumptions normalize_23_error.
