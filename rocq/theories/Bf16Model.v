(* Brain floating-point format.  Model of metalibm_core/core/ml_formats.py:1078-1102
   and 1146-1150 (rounding and constants of bfloat16) and of
   metalibm_core/code_generation/generic_processor.py:121-138 (conversions from
   and to binary32), on top of FpFormatModel.v.

   Simplifications: rounding to nearest only; the text of constants is the
   integer printed; sollya.round with a number of digits is its mathematical
   definition (no bound on exponents); the exception raised when binary32
   overflows in get_integer_coding is None. *)
From Coq Require Import ZArith QArith Qabs Qround Bool.
From Verif Require Import QUtil FpFormatModel.
Open Scope Z_scope.

(* 1096: 8 bits of exponent, 7 of field, Sollya object 10 *)
Definition BFloat16_Base := mkfmt 8 7 10.

(* sollya.round(value, digits, RN) *)
Definition round_digits (digits : Z) (v : Q) : Q :=
  if Qeq_bool v 0 then 0%Q
  else let e := qlog2 (Qabs v) - (digits - 1) in (inject_Z (qrne (v / p2 e)) * p2 e)%Q.

(* a number, an infinity of Sollya, or a special value with its precision *)
Inductive bval := BNum (q : Q) | BInf (neg : bool) | BSpec (F : fpfmt) (v : fpv).

(* 1078-1089 with flush_sub_to_zero=True, as in 1102 *)
Definition round_to_bfloat16 (v : Q) : bval :=
  let r := round_digits 11 v in
  if negb (Qle_bool (get_min_normal_value ML_Binary32) (Qabs r))
  then BSpec BFloat16_Base (if Qle_bool 0 r then PZero else MZero)
  else match sollya_round ML_Binary32 r with Some q => BNum q | None => BInf (negb (Qle_bool 0 r)) end.

(* ML_Binary32.get_integer_coding, 341-345, 355-386: the coding of a special
   value is the one of its own precision *)
Definition coding32 (v : bval) : option Z :=
  match v with
  | BSpec F s => get_integer_coding F s
  | BInf neg => special_coding ML_Binary32 (if neg then MInf else PInf)
  | BNum q => get_integer_coding ML_Binary32 (Num q)
  end.
(* 1091-1092, as called in 1149 and by core/ml_table.py:85 *)
Definition bfloat16_get_cst (v : bval) : option Z := option_map (fun c => Z.shiftr c 16) (coding32 v).

(* generic_processor.py:121-129, on words *)
Definition bf16_to_f32 (c : Z) : Z := Z.land (Z.shiftl c 16) (2 ^ 32 - 1).
(* 131-138 *)
Definition f32_to_bf16 (c : Z) : Z := Z.land (Z.shiftr c 16) (2 ^ 16 - 1).
