(* Model of the hardware floating-point adder,
   /repo/metalibm_hw_blocks/ml_fp_adder.py 84-351.

   Words are integers.  Signals of width n are integers modulo 2^n.  The exponent
   difference and its comparisons are exact: their formats come from the datapath
   sizing (see SizingModel), and the constants p+2 and 2p+4 are assumed to fit the
   signed format of e+2 bits they are given (lines 138-154).  The width of the leading
   zero count is assumed to be at most e+2 (line 328).  The unused reset input is
   dropped. *)
From Coq Require Import ZArith Bool.
From Verif Require Import FpFormatModel.
Open Scope Z_scope.

(* core/hdl_legalizer.py 60-120: implicit digit and field *)
Definition hw_mant (F : fpfmt) (x : Z) : Z :=
  (if hw_raw_exp F x =? 0 then 0 else 2 ^ fsz F) + Z.land x (2 ^ fsz F - 1).
(* 100 p = get_mantissa_size *)
Definition msz (F : fpfmt) : Z := fsz F + 1.
(* leading zero count of an n-bit value *)
Definition lzc (n v : Z) : Z := if v =? 0 then n else n - 1 - Z.log2 v.
(* bits lo..hi of a signal *)
Definition sub_signal (v lo hi : Z) : Z := Z.shiftr v lo mod 2 ^ (hi - lo + 1).
Definition b2z (b : bool) : Z := if b then 1 else 0.

(* 145-172 exp_diff, mant_shift *)
Definition exp_diff (F : fpfmt) (x y : Z) : Z := hw_raw_exp F x + (msz F + 2) - hw_raw_exp F y.
Definition mant_shift (F : fpfmt) (x y : Z) : Z :=
  if exp_diff F x y <? 0 then 0
  else if 2 * msz F + 4 <? exp_diff F x y then 2 * msz F + 4 else exp_diff F x y.
(* 175-205 the aligned operands and their sum; width of the adder 3p+5 *)
Definition add_width (F : fpfmt) : Z := 3 * msz F + 5.
Definition effective_op (F : fpfmt) (x y : Z) : bool := xorb (hw_sign F x) (hw_sign F y).
Definition mant_add (F : fpfmt) (x y : Z) : Z :=
  let sy := Z.shiftr (hw_mant F y * 2 ^ (2 * msz F + 4)) (mant_shift F x y) in
  let mx := hw_mant F x * 2 ^ (msz F + 2) in
  (sy + (if effective_op F x y then (- mx) mod 2 ^ add_width F else mx)) mod 2 ^ add_width F.
(* 207-230 *)
Definition add_is_negative (F : fpfmt) (x y : Z) : bool :=
  Z.testbit (mant_add F x y) (add_width F - 1) && effective_op F x y.
Definition mant_add_abs (F : fpfmt) (x y : Z) : Z :=
  if add_is_negative F x y then (- mant_add F x y) mod 2 ^ add_width F else mant_add F x y.
(* 234-243 *)
Definition add_lzc (F : fpfmt) (x y : Z) : Z := lzc (add_width F) (mant_add_abs F x y).
(* 247 the sum, not its absolute value, is normalized *)
Definition res_normed_mant (F : fpfmt) (x y : Z) : Z :=
  (mant_add F x y * 2 ^ add_lzc F x y) mod 2 ^ add_width F.
(* 248-316 rounding *)
Definition rounded_mant (F : fpfmt) (m : Z) : Z :=
  let p := msz F in
  let inc := Z.testbit m (2 * p + 4) && (negb (sub_signal m 0 (2 * p + 3) =? 0) || Z.testbit m (2 * p + 5)) in
  (sub_signal m (2 * p + 5) (3 * p + 3) + b2z inc) mod 2 ^ p.
Definition rounded_overflow (F : fpfmt) (m : Z) : bool := Z.testbit (rounded_mant F m) (msz F - 1).
Definition res_mant_field (F : fpfmt) (m : Z) : Z :=
  if rounded_overflow F m then sub_signal (rounded_mant F m) 1 (msz F - 1)
  else sub_signal (rounded_mant F m) 0 (msz F - 2).
(* 318-337 exponent, on e+2 bits then truncated *)
Definition res_exp (F : fpfmt) (x y : Z) : Z :=
  ((hw_raw_exp F x + (3 + msz F) - add_lzc F x y + b2z (rounded_overflow F (res_normed_mant F x y)))
     mod 2 ^ (esz F + 2)) mod 2 ^ esz F.
(* 339-349 *)
Definition fp_add (F : fpfmt) (x y : Z) : Z :=
  (if xorb (add_is_negative F x y) (hw_sign F y) then 2 ^ (esz F + fsz F) else 0)
  + res_exp F x y * 2 ^ fsz F + res_mant_field F (res_normed_mant F x y).
