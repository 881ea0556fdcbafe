(** Cases meeting the hypotheses of the theorems on acceptance tests, and
    their assumptions. *)

Require Import ZArith QArith Qabs Qround List Bool Lia Lqa.
From Verif Require Import QUtil FpFormatModel FpFormatSpec FpFormatProofs
  FpFormatProps SpecialModel SpecialSpec CheckModel CheckSpec CheckProofs
  CheckAccept CheckDegraded CheckLoops CheckUlp.
Import ListNotations.
Open Scope Z_scope.

Local Notation b16 := ML_Binary16.

(** 1/3 in binary16: 1365 / 4096 is the result, its neighbour is refused *)
Example correctly_rounded_case :
  accepts b16 CorrectlyRounded (Num (1 # 3)) (DFin (1365 # 4096)) = Some true
  /\ accepts b16 CorrectlyRounded (Num (1 # 3)) (DFin (1366 # 4096)) = Some false.
Proof. vm_compute. split; reflexivity. Qed.

Example correctly_rounded_overflow_case :
  accepts b16 CorrectlyRounded (Num 65520) (DInf false) = Some true
  /\ accepts b16 CorrectlyRounded (Num 65519) (DInf false) = Some false
  /\ accepts b16 CorrectlyRounded (Num 65519) (DFin 65504) = Some true.
Proof. vm_compute. repeat split; reflexivity. Qed.

Example negative_underflow_case :
  accepts b16 CorrectlyRounded (Num (- p2 (-30))%Q) (DZero true) = Some false
  /\ accepts b16 CorrectlyRounded (Num (- p2 (-30))%Q) (DZero false) = Some true.
Proof. vm_compute. split; reflexivity. Qed.

Example special_case :
  accepts b16 CorrectlyRounded MZero (DZero true) = Some true
  /\ accepts b16 CorrectlyRounded MZero (DZero false) = Some false
  /\ accepts b16 Faithful MZero (DZero false) = Some true
  /\ accepts b16 Faithful QNaN DNaN = Some true.
Proof. vm_compute. repeat split; reflexivity. Qed.

(** both neighbours of 1/3, and nothing else *)
Example faithful_case :
  accepts b16 Faithful (Num (1 # 3)) (DFin (1365 # 4096)) = Some true
  /\ accepts b16 Faithful (Num (1 # 3)) (DFin (683 # 2048)) = Some true
  /\ accepts b16 Faithful (Num (1 # 3)) (DFin (1364 # 4096)) = Some false
  /\ accepts b16 Faithful (Num 70000) (DInf false) = Some true
  /\ accepts b16 Faithful (Num 70000) (DFin 65504) = Some true.
Proof. vm_compute. repeat split; reflexivity. Qed.

Example degraded_case :
  accepts b16 (DegradedAbsolute (1 # 1024)) (Num (1 # 3)) (DFin (1369 # 4096)) = Some true
  /\ accepts b16 (DegradedAbsolute (1 # 1024)) (Num (1 # 3)) (DFin (1370 # 4096)) = Some false
  /\ accepts b16 (DegradedRelative (1 # 8)) (Num 60000) (DInf false) = Some true.
Proof. vm_compute. repeat split; reflexivity. Qed.

(** no error allowed: the rounded value passes *)
Example degraded_exceeds_case :
  accepts b16 (DegradedAbsolute 0) (Num (1 # 3)) (DFin (1365 # 4096)) = Some true
  /\ Qle_bool (Qabs ((1365 # 4096) - (1 # 3))) 0 = false.
Proof. vm_compute. split; reflexivity. Qed.

(** 2^-13 is at distance 1 of the exact value -1 + 2^-13 *)
Example degraded_misses_case :
  emin_subnormal b16 <= -13 <= - fsz b16 - 3
  /\ accepts b16 (DegradedAbsolute 1) (Num (- (1) + p2 (-13))%Q) (DFin (p2 (-13)))
     = Some false.
Proof. vm_compute. repeat split; congruence. Qed.

(** ten random tests and three given ones, in vectors of four *)
Example test_rows_case :
  let rows := test_rows Z (fun x => x) Z.of_nat (fun x => Num (inject_Z x)) 10 4 true
                [(100, Some PInf)] [(7, None); (8, None)] in
  fst rows = 16%nat /\ length (snd rows) = 16%nat
  /\ nth_error (snd rows) 0 = Some (100, PInf)
  /\ nth_error (snd rows) 2 = Some (8, Num (inject_Z 8)).
Proof. vm_compute. repeat split; reflexivity. Qed.

Example test_wrapper_case :
  test_wrapper false 4 8 (fun i => Some (i =? 6)) = Some 1
  /\ test_wrapper false 4 8 (fun i => Some (i =? 8)) = Some 0
  /\ test_wrapper false 1 8 (fun i => Some (i =? 6)) = Some 1
  /\ test_wrapper true 1 8 (fun i => Some true) = Some 0.
Proof. vm_compute. repeat split; reflexivity. Qed.

Example test_suite_case :
  let rows := [(1, Num 1%Q); (2, Num (1 # 2)); (3, Num (1 # 3))] in
  exists outputs,
    all_some (stored_rows b16 Faithful rows) = Some outputs
    /\ test_wrapper false 1 3
         (row_fails Faithful (fun x => if x =? 3 then DFin (683 # 2048) else DFin (1 # Z.to_pos x))
            (map fst rows) outputs) = Some 0
    /\ test_wrapper false 1 3
         (row_fails Faithful (fun x => if x =? 3 then DFin (684 # 2048) else DFin (1 # Z.to_pos x))
            (map fst rows) outputs) = Some 1.
Proof. vm_compute. eexists. repeat split; reflexivity. Qed.

Example max_error_case :
  let rows := [mkerr (DFin (1 # 8)) (DFin 1) true; mkerr DNaN DNaN true;
               mkerr (DFin (1 # 2)) (DFin (1 # 4)) true; mkerr (DFin (1 # 2)) (DFin 2) true] in
  exists st, scalar_max_error [10; 11; 12; 13] rows = Some (DFin (1 # 2), Some 12, st)
    /\ m_abs st = DFin 2
    /\ fst (vector_max_error rows) = DFin (1 # 2).
Proof. vm_compute. eexists. repeat split; reflexivity. Qed.

Example max_error_invalid_case :
  exists x st, scalar_max_error [10; 11]
    [mkerr DNaN DNaN false; mkerr (DFin (1 # 2)) (DFin (1 # 4)) true]
  = Some (minus_two, x, st).
Proof. vm_compute. eexists. eexists. reflexivity. Qed.

Example error_valid_case :
  error_valid DNaN DNaN = true /\ error_valid (DFin 1) DNaN = false /\ error_valid (DInf true) (DFin 1) = true.
Proof. repeat split. Qed.

(** every result infinite: -1 is returned, as if there were no error *)
Example max_error_infinite_case :
  let row := mkerr (cr_error (fun q => DFin q) true (DInf false) (DFin 3))
                   (cr_error (fun q => DFin q) false (DInf false) (DFin 3))
                   (error_valid (DInf false) (DFin 3)) in
  exists st, scalar_max_error [10; 11] [row; row] = Some (minus_one, None, st).
Proof. vm_compute. eexists. reflexivity. Qed.

(** a result a thousand times too large: less than one *)
Example relative_error_case :
  cr_error (fun q => DFin q) true (DFin 1000) (DFin 1) = DFin (999 # 1000).
Proof. reflexivity. Qed.

(** 3 = 1536 * 2^-9 is followed by 1537 * 2^-9 *)
Example fp_next_case :
  canonical b16 3 1536 (-9)
  /\ option_map (fun w => Qeq_bool w (1537 # 512)) (fp_next b16 3) = Some true
  /\ option_map (fun w => Qeq_bool w (1535 # 512)) (fp_previous b16 3) = Some true
  /\ option_map (fun w => Qeq_bool w (2047 # 1024)) (fp_previous b16 2) = Some true.
Proof.
  split.
  - split; [reflexivity|]. cbn. repeat split; try lia.
  - vm_compute. repeat split; reflexivity.
Qed.

Example fp_next_power_case :
  option_map (fun w => Qeq_bool w 2) (fp_next b16 2) = Some true
  /\ option_map (fun w => Qeq_bool w (p2 (-24))) (fp_next b16 (p2 (-24))) = Some true.
Proof. vm_compute. split; reflexivity. Qed.

(** one unit in the last place above 1 *)
Example rel_error_to_ulp_case :
  Qeq_bool (rel_error_to_ulp b16 (p2 (-10))) 2 = true.
Proof. reflexivity. Qed.

(** threshold 3: its predecessor is returned; threshold just above 2: the
    search does not end *)
Example search_threshold_case :
  option_map (fun w => Qeq_bool w (1535 # 512))
    (search_threshold 100 b16 (fun x => Qle_bool 3 x) 1 4) = Some true
  /\ search_threshold 100 b16 (fun x => Qle_bool (1025 # 512) x) 1 4 = None.
Proof. vm_compute. split; reflexivity. Qed.

Print Assumptions correctly_rounded_partial.
Print Assumptions negative_underflow_refuted.
Print Assumptions special_correctly_rounded.
Print Assumptions faithful_accepts.
Print Assumptions degraded_complete.
Print Assumptions degraded_sound_partial.
Print Assumptions degraded_infinite.
Print Assumptions degraded_overflow.
Print Assumptions degraded_exceeds_goal_refuted.
Print Assumptions degraded_misses_goal_refuted.
Print Assumptions special_bounds.
Print Assumptions accepts_is_decided.
Print Assumptions test_rows_size.
Print Assumptions test_rows_given.
Print Assumptions test_wrapper_result.
Print Assumptions break_error_refuted.
Print Assumptions test_suite_passes_iff.
Print Assumptions scalar_max_error_correct.
Print Assumptions scalar_max_error_invalid.
Print Assumptions max_error_index_refuted.
Print Assumptions error_valid_iff.
Print Assumptions infinite_result_ignored_refuted.
Print Assumptions relative_error_over_result_refuted.
Print Assumptions vector_max_error_correct.
Print Assumptions vector_max_error_nan_refuted.
Print Assumptions vector_max_error_print_refuted.
Print Assumptions fp_next_partial.
Print Assumptions fp_previous_partial.
Print Assumptions fp_next_power_refuted.
Print Assumptions fp_next_subnormal_refuted.
Print Assumptions rel_error_to_ulp_partial.
Print Assumptions rel_error_to_ulp_refuted.
Print Assumptions search_threshold_result.
Print Assumptions search_threshold_power_refuted.
