(* Model of the fast 2^i function, /repo/metalibm_functions/fast_exp2i.py. *)
From Coq Require Import ZArith QArith.
From Verif Require Import QUtil FpFormatModel IndexModel.
Open Scope Z_scope.

(* metalibm_core/support_lib/ml_support_lib.h 177-178
   ml_exp_insertion_no_offset_fp32/64: shift of the integer, whose low bits are
   the encoding of the result *)
Definition exp_insertion_no_offset (F : fpfmt) (k : Z) : Z := Z.shiftl k (fsz F) mod 2 ^ bit_size F.

(* fast_exp2i.py 53-65 generate_scalar_scheme, on an input of the w-bit signed
   integer format; the result is the code of the returned number *)
Definition fast_exp2i (F : fpfmt) (w x : Z) : Z :=
  let b := - bias F in
  let bound_exp := swrap w (Z.max (Z.min x (emax F)) (emin_normal F) + b) in
  exp_insertion_no_offset F bound_exp.

(* fast_exp2i.py 67-68 numeric_emulate *)
Definition exp2i_emulate (x : Z) : Q := p2 x.
