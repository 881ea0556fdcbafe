(* The C support library: encoding macros and integer helpers.

   Model of metalibm_core/support_lib/ml_support_lib.h:62-240 and of the rows of
   metalibm_core/code_generation/generic_processor.py:575-735 which select them,
   together with metalibm_core/core/legalizer.py:699-711.

   A float or a double is represented by its encoding (the union casts
   float_to_32b_encoding, float_from_32b_encoding, ... lines 93-117 are then the
   identity).  uint32_t and uint64_t operations are taken modulo 2^32 and 2^64;
   a C condition is an integer, true when it is not zero.  Macro arguments are
   values (the macros which do not parenthesise k, lines 174-183, would misparse
   an argument such as `a ? b : c`; not modelled). *)
From Coq Require Import ZArith QArith List Bool.
From Verif Require Import QUtil FpFormatModel.
Import ListNotations.
Open Scope Z_scope.

Definition c_true (n : Z) : bool := negb (n =? 0).
Definition c_int (b : bool) : Z := if b then 1 else 0.
Definition u32 (x : Z) : Z := x mod 2 ^ 32.
Definition u64 (x : Z) : Z := x mod 2 ^ 64.
(* conversion of an unsigned value to int32_t / int64_t *)
Definition s32 (x : Z) : Z := let r := x mod 2 ^ 32 in if r <? 2 ^ 31 then r else r - 2 ^ 32.
Definition s64 (x : Z) : Z := let r := x mod 2 ^ 64 in if r <? 2 ^ 63 then r else r - 2 ^ 64.

(* ml_support_lib.h:62-71 and 74-82, in the order of the source *)
Definition fp32_sv : list Z :=
  [0x7f800000; 0xff800000; 0x7f7fffff; 0xff7fffff; 0x00000000; 0x80000000; 0xffffffff; 0xffbfffff].
Definition fp64_sv : list Z :=
  [0x7ff0000000000000; 0xfff0000000000000; 0x7fefffffffffffff; 0xffefffffffffffff;
   0x0000000000000000; 0x8000000000000000; 0xffffffffffffffff; 0xfff7ffffffffffff].

(* ---- class tests ---- *)
(* 196 and 197 *)
Definition ml_is_nan_or_inff (x : Z) : Z := c_int (Z.land x 0x7f800000 =? 0x7f800000).
Definition ml_is_nan_or_inf (x : Z) : Z := c_int (Z.land x 0x7ff0000000000000 =? 0x7ff0000000000000).
(* 199, 200 *)
Definition ml_is_nanf (x : Z) : Z :=
  c_int ((Z.land x 0x7f800000 =? 0x7f800000) && negb (Z.land x 0x007fffff =? 0)).
Definition ml_is_nan (x : Z) : Z :=
  c_int ((Z.land x 0x7ff0000000000000 =? 0x7ff0000000000000) && negb (Z.land x 0x000fffffffffffff =? 0)).
(* 202, 203 *)
Definition ml_is_signaling_nanf (x : Z) : Z := c_int (c_true (ml_is_nanf x) && (Z.land x 0x00400000 =? 0)).
Definition ml_is_signaling_nan (x : Z) : Z := c_int (c_true (ml_is_nan x) && (Z.land x 0x0008000000000000 =? 0)).
(* 205, 206 *)
Definition ml_is_quiet_nanf (x : Z) : Z := c_int (c_true (ml_is_nanf x) && negb (Z.land x 0x00400000 =? 0)).
Definition ml_is_quiet_nan (x : Z) : Z := c_int (c_true (ml_is_nan x) && negb (Z.land x 0x0008000000000000 =? 0)).
(* 208, 209 *)
Definition ml_is_inff (x : Z) : Z := c_int (Z.land x 0x7fffffff =? 0x7f800000).
Definition ml_is_inf (x : Z) : Z := c_int (Z.land x 0x7fffffffffffffff =? 0x7ff0000000000000).
(* 211, 212 *)
Definition ml_is_plus_inff (x : Z) : Z := c_int (x =? 0x7f800000).
Definition ml_is_plus_inf (x : Z) : Z := c_int (x =? 0x7ff0000000000000).
(* 214, 215 *)
Definition ml_is_minus_inff (x : Z) : Z := c_int (x =? 0xff800000).
Definition ml_is_minus_inf (x : Z) : Z := c_int (x =? 0xfff0000000000000).
(* 217, 218 *)
Definition ml_is_zerof (x : Z) : Z := c_int (Z.land x 0x7fffffff =? 0).
Definition ml_is_zero (x : Z) : Z := c_int (Z.land x 0x7fffffffffffffff =? 0).
(* 220, 221 *)
Definition ml_is_positivezerof (x : Z) : Z := c_int (x =? 0).
Definition ml_is_positivezero (x : Z) : Z := c_int (x =? 0).
(* 223, 224 *)
Definition ml_is_negativezerof (x : Z) : Z := c_int (x =? 0x80000000).
Definition ml_is_negativezero (x : Z) : Z := c_int (x =? 0x8000000000000000).
(* 226, 227: the masked exponent itself *)
Definition ml_is_normalf (x : Z) : Z := Z.land x 0x7f800000.
Definition ml_is_normal (x : Z) : Z := Z.land x 0x7ff0000000000000.
(* 229, 230 *)
Definition ml_is_subnormalf (x : Z) : Z := c_int (Z.land x 0x7f800000 =? 0).
Definition ml_is_subnormal (x : Z) : Z := c_int (Z.land x 0x7ff0000000000000 =? 0).
(* 193: (uint64_t)(x >> 52) - 1u < 0x7FEu.  The binary32 version, line 194,
   calls double_to_32b_encoding, which does not exist: no C program using it
   can be built (None). *)
Definition ml_is_normal_positive_fp64 (x : Z) : Z := c_int (u64 (Z.shiftr x 52 - 1) <? 0x7FE).
Definition ml_is_normal_positive_fp32 (x : Z) : option Z := None.
(* 233 and 234 *)
Definition ml_comp_signf (x y : Z) : Z := Z.land (Z.lxor x y) 0x80000000.
Definition ml_comp_sign (x y : Z) : Z := Z.shiftr (Z.lxor x y) 63.
(* 236 and 237 *)
Definition ml_copy_signf (x y : Z) : Z := Z.lor (Z.land x 0x80000000) y.
Definition ml_copy_sign (x y : Z) : Z := Z.lor (Z.land x 0x8000000000000000) y.

(* ---- exponent and mantissa ---- *)
(* 174: the shift is on a signed int; only the exponent bits are kept *)
Definition ml_exp_insertion_fp32 (k : Z) : Z := Z.land (u32 (Z.shiftl (k + 127) 23)) 0x7f800000.
Definition ml_exp_insertion_fp64 (k : Z) : Z :=
  Z.land (u64 (Z.shiftl (u64 (k + 1023)) 52)) 0x7ff0000000000000.
(* 177, 178 *)
Definition ml_exp_insertion_no_offset_fp32 (k : Z) : Z := u32 (Z.shiftl k 23).
Definition ml_exp_insertion_no_offset_fp64 (k : Z) : Z := u64 (Z.shiftl (u64 k) 52).
(* 180 *)
Definition ml_sign_exp_insertion_fp64 (aligned_sign k : Z) : Z :=
  Z.lor (Z.land (u64 (Z.shiftl (u64 (k + 1023)) 52)) 0x7ff0000000000000) aligned_sign.
(* 182 *)
Definition ml_aligned_sign_extraction_fp64 (x : Z) : Z := Z.land x 0x8000000000000000.
(* 184, 185: the subtraction is unsigned *)
Definition ml_exp_extraction_dirty_fp32 (x : Z) : Z := u32 (Z.land (Z.shiftr x 23) 0xff - 127).
Definition ml_exp_extraction_dirty_fp64 (x : Z) : Z := u64 (Z.land (Z.shiftr x 52) 0x7ff - 1023).
(* 187, 188 *)
Definition ml_mantissa_extraction_fp32 (x : Z) : Z := Z.lor (Z.land x 0x807fffff) 0x3f800000.
Definition ml_mantissa_extraction_fp64 (x : Z) : Z := Z.lor (Z.land x 0x800fffffffffffff) 0x3ff0000000000000.
(* 190, 191 *)
Definition ml_raw_mantissa_extraction_fp32 (x : Z) : Z := Z.land x 0x007FFFFF.
Definition ml_raw_mantissa_extraction_fp64 (x : Z) : Z := Z.land x 0x000fffffffffffff.

(* ---- leading zeros ---- *)
(* 133-139 (GNU C): __builtin_clz counts the leading zeros of a non-zero word *)
Definition builtin_clz (w x : Z) : Z := w - 1 - Z.log2 x.
Definition ml_count_leading_zeros_32b (x : Z) : Z := if x =? 0 then 0 else builtin_clz 32 x.
Definition ml_count_leading_zeros_64b (x : Z) : Z := if x =? 0 then 0 else builtin_clz 64 x.
(* 141-158: ml_clz_lkup, 64 minus the number of digits of the index *)
Definition ml_clz_lkup : list Z :=
  [64; 63] ++ repeat 62 2 ++ repeat 61 4 ++ repeat 60 8 ++ repeat 59 16 ++ repeat 58 32
  ++ repeat 57 64 ++ repeat 56 128.
(* 159-169 (other compilers).  The source indexes clz_lkup, an undeclared name,
   so this branch does not build as written; modelled with the declared table
   ml_clz_lkup.  An index out of the table is None. *)
Definition fallback_clz_32b (x : Z) : option Z :=
  let n := c_int (2 ^ 16 <=? x) * 16 in
  let n := n + c_int (2 ^ 8 <=? Z.shiftr x n) * 8 in
  match nth_error ml_clz_lkup (Z.to_nat (Z.shiftr x n)) with Some t => Some (t - n) | None => None end.
Definition fallback_clz_64b (x : Z) : option Z :=
  let n := c_int (2 ^ 32 <=? x) * 32 in
  let n := n + c_int (2 ^ 16 <=? Z.shiftr x n) * 16 in
  let n := n + c_int (2 ^ 8 <=? Z.shiftr x n) * 8 in
  match nth_error ml_clz_lkup (Z.to_nat (Z.shiftr x n)) with Some t => Some (t - n) | None => None end.

(* ---- selection by the C back-end, generic_processor.py:575-655 ---- *)
Inductive c_test := TIEEENormalPositive | TInfOrNaN | TNaN | TSignalingNaN | TQuietNaN | TSubnormal
  | TInfty | TPositiveInfty | TNegativeInfty | TZero | TPositiveZero | TNegativeZero.
Definition c_test32 (t : c_test) (x : Z) : option Z :=
  match t with
  | TIEEENormalPositive => ml_is_normal_positive_fp32 x
  | TInfOrNaN => Some (ml_is_nan_or_inff x)
  | TNaN => Some (ml_is_nanf x)
  | TSignalingNaN => Some (ml_is_signaling_nanf x)
  | TQuietNaN => Some (ml_is_quiet_nanf x)
  | TSubnormal => Some (ml_is_subnormalf x)
  | TInfty => Some (ml_is_inff x)
  | TPositiveInfty => Some (ml_is_plus_inff x)
  | TNegativeInfty => Some (ml_is_minus_inff x)
  | TZero => Some (ml_is_zerof x)
  | TPositiveZero => Some (ml_is_positivezerof x)
  | TNegativeZero => Some (ml_is_negativezerof x)
  end.
Definition c_test64 (t : c_test) (x : Z) : option Z :=
  match t with
  | TIEEENormalPositive => Some (ml_is_normal_positive_fp64 x)
  | TInfOrNaN => Some (ml_is_nan_or_inf x)
  | TNaN => Some (ml_is_nan x)
  | TSignalingNaN => Some (ml_is_signaling_nan x)
  | TQuietNaN => Some (ml_is_quiet_nan x)
  | TSubnormal => Some (ml_is_subnormal x)
  | TInfty => Some (ml_is_inf x)
  | TPositiveInfty => Some (ml_is_plus_inf x)
  | TNegativeInfty => Some (ml_is_minus_inf x)
  | TZero => Some (ml_is_zero x)
  | TPositiveZero => Some (ml_is_positivezero x)
  | TNegativeZero => Some (ml_is_negativezero x)
  end.

(* ---- legalizer.py:699-711 legalize_comp_sign: the expansion of the same
   Test.CompSign node used by the LLVM back-end (llvm_ir.py:674-679), for
   operands with a numerical value ---- *)
Definition legalize_comp_sign (lhs rhs : Q) : bool :=
  (Qle_bool 0 lhs && Qle_bool 0 rhs) || (Qle_bool lhs 0 && Qle_bool rhs 0).
