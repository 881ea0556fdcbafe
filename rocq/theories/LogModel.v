(* The logarithm.

   Model of metalibm_functions/generic_log.py: generate_reduced_log,
   generate_reduced_log_split, generate_log_table and
   generate_scalar_scheme, for the natural basis (log(basis) == 1.0).

   Simplifications: the arithmetic is done with unbounded exponents (format
   mkF p None), overflow and underflow of intermediate results are left out;
   the constants Sollya computes (rounded log(2), tables of logarithms,
   rounded square root of 2) and the polynomial are parameters, constrained by
   the hypotheses of the theorems; raised exceptions are dropped; the multiplication
   by 1/log(basis) of the other bases and the vector and fixed-point variants
   of the file are not modelled.  The two nodes nobody uses (r, vx_exp) are
   left out. *)
From Coq Require Import ZArith QArith Qabs Qround List Bool.
From Verif Require Import QUtil FpFormatModel SpecialModel LimbModel RoundSpec RoundRne DivModel PowModel.
Import ListNotations.
Open Scope Z_scope.

Record log_cst := mkLogCst {
  c_sqrt2 : Q;               (* Constant(sollya.sqrt(2)) *)
  c_log2_hi : Q;             (* log2_hi, generic_log.py:117 *)
  c_log2_lo : Q;             (* log2_lo, generic_log.py:118 *)
  c_inv : list Q;            (* inv_approx_table *)
  c_log : list (Q * Q);      (* log_table *)
  c_log_tho : list (Q * Q)   (* log_table_tho *)
}.

(* generic_log.py:117, 251: number of digits of the high parts *)
Definition hi_size (field_size exponent_size : Z) : Z := field_size - (exponent_size + 1).

(* BitLogicAnd of the code of a positive normal number with -2: the last of
   the p digits is cleared *)
Definition clear_last (p : Z) (v : Q) : Q :=
  (inject_Z (Qfloor (v * p2 (p - 2 - qlog2 v))) * p2 (qlog2 v + 2 - p))%Q.

(* TableLoad(table, index, _) *)
Definition load (t : list (Q * Q)) (i : Z) : Q * Q := nth (Z.to_nat i) t (0%Q, 0%Q).

Section Log.
Variable p : Z.
Variable rnd : Q -> Q.
Variable conv : Q -> Q.      (* conversion to the format of the seed *)
Variable poly : Q -> Q.      (* evaluation of poly_object, without its first coefficient *)
Variable c : log_cst.

Notation O := (rounded_ops rnd).

(* generic_log.py:129-155 arg_red_index *)
Definition arg_red (vx_mant : Q) : Q :=
  let index := table_index vx_mant in
  let pre_arg_red_index := clear_last p (reciprocal_seed (c_inv c) conv vx_mant) in
  if index =? 0 then 1%Q else pre_arg_red_index.

(* generic_log.py:157 _red_vx = FMA(arg_red_index, _vx_mant, -1.0) *)
Definition red_vx (vx_mant : Q) : Q := rnd (arg_red vx_mant * vx_mant + - (1))%Q.

(* generic_log.py:190-226: from the reduced argument, the two words read in
   the table and the exponent to the result *)
Definition log_tail (red corr_exp log_inv_hi log_inv_lo : Q) : Q :=
  let '(m0h, m0l) := mul211 O red (poly red) in
  let '(m0h, m0l) := add212 O red m0h m0l in
  let l0_h := o_mul O corr_exp (c_log2_hi c) in
  let l0_l := o_mul O corr_exp (c_log2_lo c) in
  let '(rh, rl) := add222 O l0_h l0_l m0h m0l in
  let '(rh, rl) := add222 O (o_neg O log_inv_hi) (o_neg O log_inv_lo) rh rl in
  rh.

(* generic_log.py:110-226 generate_reduced_log_split *)
Definition reduced_log_split (vx_mant corr_exp : Q) (tho_cond : bool) : Q :=
  let index := table_index vx_mant in
  let log_inv_lo := if tho_cond then snd (load (c_log_tho c) index) else snd (load (c_log c) index) in
  let log_inv_hi := if tho_cond then fst (load (c_log_tho c) index) else fst (load (c_log c) index) in
  log_tail (red_vx vx_mant) corr_exp log_inv_hi log_inv_lo.

(* MantissaExtraction and ExponentExtraction of a positive number *)
Definition mant_of (v : Q) : Q := (v * p2 (- qlog2 v))%Q.

(* generic_log.py:88-108 generate_reduced_log; factor is exp_corr_factor, 0
   when it is None *)
Definition reduced_log (factor : Z) (vx : Q) : Q :=
  let vx_mant := mant_of vx in
  let tho_cond := negb (Qle_bool vx_mant (c_sqrt2 c)) in
  let tho := if tho_cond then 1%Q else 0%Q in
  let corr_exp := o_add O (rnd (inject_Z (qlog2 vx + factor))) tho in
  reduced_log_split vx_mant corr_exp tho_cond.

(* Test.IsSubnormal, also true of the zeros (support_lib/ml_special_values.h:
   the biased exponent is zero), and the comparison with zero *)
Definition t_subnormal (emin_normal : Z) (v : fpv) : bool :=
  match v with PZero | MZero => true | Num q => negb (Qle_bool (p2 emin_normal) (Qabs q)) | _ => false end.
Definition t_neg (v : fpv) : bool :=
  match v with MInf => true | Num q => negb (Qle_bool 0 q) | _ => false end.
Definition value (v : fpv) : Q := match v with Num q => q | _ => 0%Q end.
Definition of_value (q : Q) : fpv := if Qeq_bool q 0 then PZero else Num q.

(* generic_log.py:277-395 generate_scalar_scheme *)
Definition log_scheme (emin_normal : Z) (vx : fpv) : fpv :=
  if t_neg vx then QNaN
  else if t_inf vx || t_nan vx then
    (if t_inf vx then PInf else QNaN)
  else if t_subnormal emin_normal vx then
    (if t_zero vx then MInf
     else of_value (reduced_log (-100) (o_mul O (value vx) (p2 100))))
  else of_value (reduced_log 0 (value vx)).
End Log.
