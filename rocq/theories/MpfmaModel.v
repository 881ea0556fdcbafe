(* Model of the mixed precision fused multiply-add,
   /repo/metalibm_hw_blocks/ml_fp_mpfma.py 103-575: x and y in the format F, z and the
   result in the format G.

   Words are integers, signals of n bits are integers modulo 2^n, and so are the constants
   (core/ml_hdl_format.py 73-96).  Operands of different widths are added as numeric_std
   does: the narrower one is extended by zeros on the left.  Pipeline registers and the
   unused reset input are dropped.  The widths of the shift amount and of the leading zero
   count are large enough for the values they hold by construction (lines 241, 380); the
   count is assumed not wider than the exponent signal it is subtracted from (line 546). *)
From Coq Require Import ZArith Bool.
From Verif Require Import FpFormatModel AdderModel.
Open Scope Z_scope.

(* an n-bit signal read as a signed number (SignCast) *)
Definition to_signed (n v : Z) : Z := if v <? 2 ^ (n - 1) then v else v - 2 ^ n.

(* 140-231 sizes: o = r = msz G, p = q = msz F, L_z = 0, L_xy = 1 *)
Definition mp_offset (G : fpfmt) : Z := Z.max (msz G) (msz G) + 2.
Definition mp_prod_size (F G : fpfmt) : Z := Z.max (msz G + 1) (msz F + msz F).
Definition mp_width (F G : fpfmt) : Z := mp_offset G + mp_prod_size F G + 2 + msz G.
Definition mp_max_diff (F G : fpfmt) : Z := mp_width F G - msz G.
Definition mp_esize (F G : fpfmt) : Z := Z.max (esz F) (esz G) + 2.

(* 195-230 the exponent difference, 232-255 the shift amount *)
Definition mp_exp_diff (F G : fpfmt) (x y z : Z) : Z :=
  to_signed (mp_esize F G)
    ((hw_raw_exp F y + hw_raw_exp F x + (mp_offset G + (bias F + bias F) - bias G + 1) - hw_raw_exp G z)
       mod 2 ^ mp_esize F G).
Definition mp_shift (F G : fpfmt) (x y z : Z) : Z :=
  let d := mp_exp_diff F G x y z in
  if d <? 0 then 0 else if mp_max_diff F G <? d then mp_max_diff F G else d.

(* 184-185 *)
Definition mp_sign_xy (F : fpfmt) (x y : Z) : bool := xorb (hw_sign F x) (hw_sign F y).
Definition mp_effective_op (F G : fpfmt) (x y z : Z) : bool := xorb (mp_sign_xy F x y) (hw_sign G z).

(* 257-323 product and addend *)
Definition mp_prod_ext (F G : fpfmt) (x y : Z) : Z := hw_mant F x * hw_mant F y * 2 ^ (msz G + 2).
Definition mp_shifted_z (F G : fpfmt) (x y z : Z) : Z :=
  Z.shiftr (hw_mant G z * 2 ^ mp_max_diff F G) (mp_shift F G x y z).
Definition mp_addend (F G : fpfmt) (x y z : Z) : Z :=
  if mp_effective_op F G x y z then 2 ^ (mp_width F G + 1) - 1 - mp_shifted_z F G x y z
  else mp_shifted_z F G x y z.
(* 325-343 compound addition *)
Definition mp_add_p1 (F G : fpfmt) (x y z : Z) : Z :=
  (mp_addend F G x y z + mp_prod_ext F G x y + 1) mod 2 ^ (mp_width F G + 1).
Definition mp_add_p0 (F G : fpfmt) (x y z : Z) : Z :=
  (mp_addend F G x y z + mp_prod_ext F G x y) mod 2 ^ (mp_width F G + 1).
(* 345-372 *)
Definition mp_negative (F G : fpfmt) (x y z : Z) : bool :=
  Z.testbit (mp_add_p1 F G x y z) (mp_width F G) && mp_effective_op F G x y z.
Definition mp_add_abs (F G : fpfmt) (x y z : Z) : Z :=
  if mp_negative F G x y z then 2 ^ (mp_width F G + 1) - 1 - mp_add_p0 F G x y z
  else mp_add_p1 F G x y z.
Definition mp_sign (F G : fpfmt) (x y z : Z) : bool := xorb (mp_negative F G x y z) (mp_sign_xy F x y).
(* 379-412 leading zero count, normalization *)
Definition mp_lzc (F G : fpfmt) (x y z : Z) : Z := lzc (mp_width F G + 1) (mp_add_abs F G x y z).
Definition mp_normed (F G : fpfmt) (x y z : Z) : Z :=
  (mp_add_abs F G x y z * 2 ^ mp_lzc F G x y z) mod 2 ^ (mp_width F G + 1).
(* 413-490 rounding of a normalized value of W+1 bits to o bits *)
Definition mp_rounded (o W m : Z) : Z :=
  let lsb := W - o + 1 in
  let inc := Z.testbit m (lsb - 1) && (negb (sub_signal m 0 (W - o - 1) =? 0) || Z.testbit m lsb) in
  (sub_signal m lsb (W - 1) + b2z inc) mod 2 ^ o.
Definition mp_overflow (o W m : Z) : bool := Z.testbit (mp_rounded o W m) (o - 1).
Definition mp_field (o W m : Z) : Z :=
  if mp_overflow o W m then sub_signal (mp_rounded o W m) 1 (o - 1)
  else sub_signal (mp_rounded o W m) 0 (o - 2).
(* 492-560 exponent *)
Definition mp_exp_xy (F G : fpfmt) (x y : Z) : Z :=
  (hw_raw_exp F y + bias F) + (hw_raw_exp F x + bias F) + (mp_offset G + 1).
Definition mp_exp_z (G : fpfmt) (z : Z) : Z := hw_raw_exp G z + (bias G + 1).
Definition mp_exp (F G : fpfmt) (x y z : Z) : Z :=
  let base := if mp_exp_diff F G x y z <? 0 then mp_exp_z G z else mp_exp_xy F G x y in
  ((base - bias G - mp_lzc F G x y z
    + b2z (mp_overflow (msz G) (mp_width F G) (mp_normed F G x y z))) mod 2 ^ mp_esize F G) mod 2 ^ esz G.
(* 562-575 *)
Definition mpfma (F G : fpfmt) (x y z : Z) : Z :=
  (if mp_sign F G x y z then 2 ^ (esz G + fsz G) else 0)
  + mp_exp F G x y z * 2 ^ fsz G
  + mp_field (msz G) (mp_width F G) (mp_normed F G x y z).
