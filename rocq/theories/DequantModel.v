(* Model of the dequantizer, /repo/metalibm_hw_blocks/dequantizer.py.

   Every signal is modelled by the integer held on its wires together with
   the number of fractional bits the code gives it; the wires are as wide as
   needed (sizing of the inner signals is the subject of C15-C17), only the
   explicit formats of the code enter.  Inputs are signed integers on a given
   number of bits. *)
From Coq Require Import ZArith QArith Qround Bool.
From Verif Require Import QUtil FpFormatModel.
Open Scope Z_scope.

Section Dequant.
Variable F : fpfmt.                   (* format of scale *)
Variables qsize rsize : Z.            (* bit sizes of quantized_input and result *)

(* rounding modes, 80-84 *)
Definition ROUND_RNE := 0. Definition ROUND_RU := 1. Definition ROUND_RD := 2.
Definition ROUND_RZ := 3. Definition ROUND_RAZ := 4.

(* 69-77 fixed_normalized_mantissa, with the implicit digit of
   hdl_legalizer.py 61-83: integer over 2^fsz *)
Definition normalized_mantissa (E M : Z) : Z := (if E =? 0 then 0 else 2 ^ fsz F) + M.

(* 152-170 *)
Definition mantissa_size := fsz F + 1.
Definition product_size := (2 + (mantissa_size - 1)) + qsize.
Definition max_shift := rsize + 1 + product_size + 1.
Definition shift_amount (E : Z) : Z := Z.max (Z.min (- (E + bias F) + rsize + 1) max_shift) 0.
(* fractional bits of scaled_field, offseted_field, rounded_result: 173 *)
Definition frac := product_size + 1.

Definition scale_mant (s : bool) (E M : Z) : Z :=
  if s then - normalized_mantissa E M else normalized_mantissa E M.
(* 153: fsz fractional bits; 170: the conversion pads up to max_shift *)
Definition extended_field (s : bool) (E M q : Z) : Z :=
  (scale_mant s E M * q) * 2 ^ (max_shift - (mantissa_size - 1)).
(* 173-174 *)
Definition scaled_field (s : bool) (E M q : Z) : Z := Z.shiftr (extended_field s E M q) (shift_amount E).
(* 178 *)
Definition offseted_field (s : bool) (E M q o : Z) : Z := scaled_field s E M q + o * 2 ^ frac.

(* 181-183: positions -1, 0 and -2 from the point *)
Definition round_bit (v : Z) : bool := Z.testbit v (frac + -1).
Definition parity_bit (v : Z) : bool := Z.testbit v (frac + 0).
Definition sticky_bit (v : Z) : bool := negb (v mod 2 ^ (frac + -2 + 1) =? 0).

(* 192-207 *)
Definition round_increment (mode v : Z) : bool :=
  let rs := round_bit v || sticky_bit v in
  let positive := 0 <=? v in
  (((mode =? ROUND_RU) && rs)
   || ((mode =? ROUND_RZ) && (negb positive && rs)))
  || (((mode =? ROUND_RNE) && (round_bit v && (sticky_bit v || negb (negb (parity_bit v)))))
   || ((mode =? ROUND_RAZ) && (rs && positive))).

(* 209 *)
Definition rounded_result (mode v : Z) : Z := v + (if round_increment mode v then 1 else 0) * 2 ^ frac.

Definition max_bound := 2 ^ (rsize - 1) - 1.
Definition min_bound := - 2 ^ (rsize - 1).
(* 214-219: clamp, then conversion to the integer result format, which drops
   the fractional bits *)
Definition dequant (mode : Z) (s : bool) (E M q o : Z) : Z :=
  let r := rounded_result mode (offseted_field s E M q o) in
  Z.shiftr (Z.max (min_bound * 2 ^ frac) (Z.min r (max_bound * 2 ^ frac))) frac.
End Dequant.

(* 232-270 numeric_emulate; a rounding mode out of the dictionary: KeyError *)
Definition emulate_round (mode : Z) (v : Q) : option Z :=
  if mode =? ROUND_RNE then Some (qrne v)
  else if mode =? ROUND_RU then Some (Qceiling v)
  else if mode =? ROUND_RD then Some (Qfloor v)
  else if mode =? ROUND_RZ then Some (if negb (Qle_bool v 0) then Qfloor v else Qceiling v)
  else if mode =? ROUND_RAZ then Some (if negb (Qle_bool v 0) then Qceiling v else Qfloor v)
  else None.
Definition numeric_emulate (rsize mode : Z) (scale : Q) (q o : Z) : option Z :=
  match emulate_round mode (scale * inject_Z q + inject_Z o)%Q with
  | None => None
  | Some u => Some (Z.max (Z.min (max_bound rsize) u) (min_bound rsize))
  end.
