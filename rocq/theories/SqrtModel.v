(* Model of the square root and reciprocal square root schemes of
   /repo/metalibm_functions/ml_sqrt.py and ml_isqrt.py, and of the seed they
   start from.

   The computation is a function of the rounding rnd of the floating-point
   operations, on rationals: the only operations which could overflow are
   left out by the range of the inputs (every intermediate result lies between
   about 1/v and v).  The special cases are modelled on IEEE data (fpv).

   Simplifications: exception flags are left out; the last operation, which is
   done in the current rounding mode (ML_GlobalRoundMode), rounds to nearest
   as all others; propagate_format only sets the formats (all equal here). *)
From Coq Require Import ZArith QArith Qround Qabs List Bool.
From Verif Require Import QUtil FpFormatModel SpecialModel RoundSpec RoundRne DivModel.
Import ListNotations.
Open Scope Z_scope.

Section Computation.
Variable rnd : Q -> Q.

(* ml_isqrt.py:49-71 generate_NR_iteration_recp_sqrt and ml_sqrt.py:65-80
   NR_Iteration: FMSN(a, b, c) is - a * b + c *)
Definition rsqrt_iteration (approx half_value : Q) : Q :=
  let square := rnd (approx * approx)%Q in
  let mult := rnd (- half_value * square + (1 # 2))%Q in
  rnd (approx * mult + approx)%Q.

(* the loops of ml_isqrt.py:81-86 and ml_sqrt.py:101-104 *)
Fixpoint rsqrt_iterations (init_approx half_value : Q) (num_iter : nat) : Q :=
  match num_iter with
  | O => init_approx
  | S n => rsqrt_iterations (rsqrt_iteration init_approx half_value) half_value n
  end.

(* ml_isqrt.py:74-93 compute_isqrt *)
Definition compute_isqrt (vx init_approx : Q) (num_iter : nat) : Q :=
  let h := rnd ((1 # 2) * vx)%Q in
  rsqrt_iterations init_approx h num_iter.

(* ml_sqrt.py:113-131: the correction from the reciprocal square root *)
Definition sqrt_correction (vx h final_approx : Q) : Q :=
  let s := rnd (vx * final_approx)%Q in
  let t5 := rnd (final_approx * h)%Q in
  let hh := rnd ((1 # 2) * final_approx)%Q in
  let d := rnd (- s * s + vx)%Q in
  let t6 := rnd (- t5 * final_approx + (1 # 2))%Q in
  let s1 := rnd (d * hh + s)%Q in
  let h1 := rnd (t6 * hh + hh)%Q in
  let d1 := rnd (- s1 * s1 + vx)%Q in
  let pr := rnd (d1 * h1 + s1)%Q in
  let d_last := rnd (- pr * pr + vx)%Q in
  rnd (d_last * h1 + pr)%Q.

(* ml_sqrt.py:92-146 compute_sqrt *)
Definition compute_sqrt (vx init_approx : Q) (num_iter : nat) : Q :=
  let h := rnd ((1 # 2) * vx)%Q in
  let final_approx := rsqrt_iterations init_approx h num_iter in
  sqrt_correction vx h final_approx.

End Computation.

(* ---- the seed ---- *)

(* core/generic_approximation.py:18-25 invsqrt_approx_table: entry i is
   1/sqrt(1 + i/256) rounded to 9 digits, to nearest.  The value lies in
   (1/2, 1], so its last digit is 2^-9: the nearest integer to
   512/sqrt(1 + i/256), half of the integer square root of 2^28/(256 + i),
   rounded (invsqrt_entry_nearest shows that this is the nearest one) *)
Definition invsqrt_entry (i : Z) : Q :=
  (inject_Z ((Z.sqrt (2 ^ 28 / (256 + i)) + 1) / 2) * (1 # 512))%Q.
Definition invsqrt_approx_table : list Q := map (fun i => invsqrt_entry (Z.of_nat i)) (seq 0 256).

(* core/ml_table.py:245-263 generic_mantissa_msb_index_fct with 8 index bits,
   for a positive normal input *)
Definition invsqrt_index (v : Q) : Z := Qfloor ((v / p2 (qlog2 v) - 1) * 256)%Q.

(* Constant(S2**0.5) in a format of p digits: sqrt 2 rounded to nearest *)
Definition sqrt2_cst (p : Z) : Q := (inject_Z ((Z.sqrt (2 ^ (2 * p + 1)) + 1) / 2) * p2 (1 - p))%Q.

(* core/legalizer.py:790-846 legalize_invsqrt_seed for a positive normal
   input, of exponent e: the C quotient -e/2 and the C remainder e%2 truncate
   towards zero (legalizer.py:807-831); ExponentInsertion gives a power of two
   and S2**-0.5 is half of sqrt 2 *)
Definition invsqrt_seed (rnd : Q -> Q) (p : Z) (v : Q) : Q :=
  let op_exp := qlog2 v in
  let neg_half_exp := Z.quot (- op_exp) 2 in
  let approx_exp := p2 neg_half_exp in
  let op_exp_parity := Z.rem op_exp 2 in
  let approx_exp_correction :=
    if op_exp_parity =? 0 then 1%Q
    else if op_exp_parity =? -1 then sqrt2_cst p
    else ((1 # 2) * sqrt2_cst p)%Q in
  let entry := nth (Z.to_nat (invsqrt_index v)) invsqrt_approx_table 0%Q in
  rnd (entry * rnd (approx_exp_correction * approx_exp))%Q.

(* ---- the schemes ---- *)

Section Scheme.
Variable G : fpfmt.

(* numerical part of the two functions, on a positive number *)
Definition sqrt_num (num_iter : nat) (v : Q) : Q :=
  compute_sqrt (rne (fmt_of G)) v (invsqrt_seed (rne (fmt_of G)) (sprec G) v) num_iter.
Definition isqrt_num (num_iter : nat) (v : Q) : Q :=
  compute_isqrt (rne (fmt_of G)) v (invsqrt_seed (rne (fmt_of G)) (sprec G) v) num_iter.

(* tests on IEEE data: comparisons with the constant 0 are false on NaN, and
   do not distinguish the two zeros *)
Definition test_nan (v : fpv) : bool := match v with QNaN | SNaN => true | _ => false end.
Definition test_inf (v : fpv) : bool := match v with PInf | MInf => true | _ => false end.
Definition test_negative (v : fpv) : bool :=
  match v with MInf => true | Num q => negb (Qle_bool 0 q) | _ => false end.
Definition test_zero (v : fpv) : bool :=
  match v with PZero | MZero => true | Num q => Qeq_bool q 0 | _ => false end.

(* ml_sqrt.py:175-258 generate_scheme *)
Definition sqrt_scheme (num_iter : nat) (vx : fpv) : fpv :=
  let test_std := negb ((test_nan vx || test_inf vx) || (test_negative vx || test_zero vx)) in
  if test_std then match vx with Num v => Num (sqrt_num num_iter v) | _ => vx end
  else if test_nan vx || test_negative vx then QNaN
  else if test_inf vx then PInf
  else if test_zero vx then PZero
  else MZero.

(* ml_isqrt.py:118-175 generate_scheme; the number 0 returned for infinity is
   the constant C0, which is written 0.0 *)
Definition isqrt_scheme (num_iter : nat) (vx : fpv) : fpv :=
  let test_std := negb ((test_nan vx || test_inf vx) || (test_negative vx || test_zero vx)) in
  if test_std then match vx with Num v => Num (isqrt_num num_iter v) | _ => vx end
  else if test_nan vx || test_negative vx then QNaN
  else if test_inf vx then PZero
  else if test_zero vx then PInf
  else MInf.

End Scheme.
