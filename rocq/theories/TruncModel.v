(* Model of the hardware truncation of a floating-point number to an integer,
   /repo/metalibm_hw_blocks/fp_int_conv.py 85-148.  Words are integers in [0, 2^n).
   The sums, differences and comparisons of exponents are exact: their formats are
   those of the datapath sizing (see SizingModel). *)
From Coq Require Import ZArith.
From Verif Require Import FpFormatModel.
Open Scope Z_scope.

(* 118-124 int_norm_shift, the mask shifted in an n-bit format *)
Definition int_norm_shift (F : fpfmt) (x : Z) : Z := Z.max (fsz F - (hw_raw_exp F x + bias F)) 0.
Definition mant_mask (F : fpfmt) (x : Z) : Z :=
  Z.shiftl (2 ^ bit_size F - 1) (int_norm_shift F x) mod 2 ^ bit_size F.
(* 126-147 *)
Definition fp_trunc (F : fpfmt) (x : Z) : Z :=
  if fsz F <? hw_raw_exp F x + bias F then x
  else if hw_raw_exp F x + bias F <? 0 then 0
  else Z.land x (mant_mask F x).
