(* Legalization of hardware operations: bit fields, concatenations, selections and mantissas.
   Model of metalibm_core/opt/p_rtl_legalize.py:74-100, 218-301 and core/hdl_legalizer.py:45-126.

   A signal or variable is its bits, as a number in [0, 2^size).  A fixed-point format has integer
   and fraction sizes and a sign; std_logic_vector is as unsigned without fraction, and not
   fixed-point.  Conversions to a format keep what fits and drop high bits. *)
From Coq Require Import ZArith List Bool Arith.
Import ListNotations.

(* ---- formats and conversions ---- *)
Local Open Scope Z_scope.
Record format := mkF { f_fixed : bool; f_int : Z; f_frac : Z; f_signed : bool }.
Definition size (f : format) : Z := f_int f + f_frac f.
Definition number (f : format) (x : Z) : Z := if f_signed f && (2 ^ (size f - 1) <=? x) then x - 2 ^ size f else x.
Definition scale (x k : Z) : Z := if 0 <=? k then x * 2 ^ k else x / 2 ^ (- k).
Definition convert (from to : format) (x : Z) : Z := scale (number from x) (f_frac to - f_frac from) mod 2 ^ size to.

(* generate_bitfield_extraction, 218-249; the logic shift is on the bits of the input *)
Definition bitfield (fi ft : format) (x lo hi : Z) : Z :=
  let mask_size := hi - lo + 1 in
  let shifted := if lo =? 0 then x else Z.shiftr x lo in
  let masked := Z.land shifted (2 ^ mask_size - 1) in
  let cast_format := if f_fixed fi && f_fixed ft then mkF true (size fi - f_frac ft) (f_frac ft) false else mkF true (size fi) 0 false in
  convert cast_format ft masked.
(* sw_legalize_concatenation, 279-291 *)
Definition concatenation (fl fr fp : format) (l r : Z) : Z :=
  Z.lor (Z.shiftl (convert fl fp l) (size fr) mod 2 ^ size fp) (convert fr fp r).
(* sw_legalize_vector_element_selection, 293-301 *)
Definition element (fi ft : format) (x index : Z) : Z := bitfield fi ft x index index.
(* legalize_Select, 74-100: the bits selected *)
Definition branch (fb fo : format) (x : Z) : Z := if size fb =? size fo then x else convert fb fo x.
Definition select (f0 f1 fo : format) (c : bool) (x0 x1 : Z) : Z := if c then branch f0 fo x0 else branch f1 fo x1.

(* ---- hdl_legalizer: mantissa of a floating-point number; es and fs: sizes of exponent and field ---- *)
Definition sub_signal (x lo hi : Z) : Z := (x / 2 ^ lo) mod 2 ^ (hi - lo + 1).
Definition raw_exponent (es fs x : Z) : Z := sub_signal x fs (fs + es - 1).
(* raw_fp_field_extraction, 45-58 *)
Definition field (fs x : Z) : Z := sub_signal x 0 (fs - 1).
(* mantissa_extraction_modifier_from_fields, 61-84 *)
Definition from_fields (fs f : Z) (exp_is_zero : bool) : Z := (if exp_is_zero then 0 else 1) * 2 ^ fs + f.
(* mantissa_extraction_modifier, 86-126 *)
Definition mantissa (es fs x : Z) : Z := from_fields fs (field fs x) (raw_exponent es fs x =? 0).
