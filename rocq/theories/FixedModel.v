(* Model of the fixed-point formats: codec, rounding, truncation, saturation,
   C constants.
   Source: /repo/metalibm_core/core/ml_formats.py.
   Numbers handled as Sollya objects in the code are exact rationals here. *)
Require Import ZArith QArith Qround Bool List Lia Lqa.
From Verif Require Import QUtil FpFormatModel.
Import ListNotations.
Open Scope Z_scope.

(* ML_Base_FixedPoint_Format.__init__, ml_formats.py 744-752 (support format
   and alignment left out: they do not enter any function below) *)
Record fxfmt := { isz : Z; frsz : Z; sgn : bool }.

(* get_bit_size, ml_formats.py 838-839 *)
Definition fx_bits (F : fxfmt) : Z := isz F + frsz F.

(* get_max_value, ml_formats.py 793-797 *)
Definition fx_max (F : fxfmt) : Q :=
  ((p2 (isz F + frsz F + (if sgn F then -1 else 0)) - 1) * p2 (- frsz F))%Q.

(* get_min_value, ml_formats.py 815-821 *)
Definition fx_min (F : fxfmt) : Q :=
  if negb (sgn F) then 0%Q
  else (- (p2 (isz F + frsz F - 1) * p2 (- frsz F)))%Q.

(* get_integer_coding, ml_formats.py 855-865; None stands for the exception
   raised by Log.report(Log.Error, ...) *)
Definition fx_encode (F : fxfmt) (v : Q) : option Z :=
  if negb (Qle_bool v (fx_max F)) || negb (Qle_bool (fx_min F) v) then None
  else if negb (Qle_bool 0 v) then
    if negb (sgn F) then None
    else Some ((Z.lnot (qtrunc (Qabs.Qabs v * p2 (frsz F))%Q) + 1) mod 2 ^ fx_bits F)
  else Some (qtrunc (v * p2 (frsz F))%Q).

(* binary64, the format of a Python float *)
Definition py_float : fpfmt := mkfmt 11 52 53.

(* get_value_from_integer_coding, ml_formats.py 766-770, for a code given as a
   string (or integer): value is a Python int and 2**-frac_size is a Python
   float as soon as frac_size is positive (an int otherwise), so the product is
   a Python float: the integer is first rounded to binary64.
   The exponent range of binary64 is that of sollya_round. *)
Definition fx_decode (F : fxfmt) (c : Z) : option Q :=
  if 0 <? frsz F
  then match sollya_round py_float (inject_Z c) with
       | Some x => sollya_round py_float (x * p2 (- frsz F))%Q
       | None => None
       end
  else Some (inject_Z c * p2 (- frsz F))%Q.

(* rounding modes, sollya.RN/RD/RU/RZ *)
Inductive fx_rnd := FxRN | FxRD | FxRU | FxRZ.

(* round_sollya_object, ml_formats.py 803-812 *)
Definition fx_rnd_fun (m : fx_rnd) (x : Q) : Z :=
  match m with
  | FxRN => qrne x
  | FxRD => Qfloor x
  | FxRU => Qceiling x
  | FxRZ => if negb (Qle_bool x 0) then Qfloor x else Qceiling x
  end.
Definition fx_round (F : fxfmt) (m : fx_rnd) (v : Q) : Q :=
  (inject_Z (fx_rnd_fun m (p2 (frsz F) * v)%Q) / p2 (frsz F))%Q.

(* truncate, ml_formats.py 824-830 *)
Definition fx_truncate (F : fxfmt) (v : Q) : Q :=
  let masked := Z.land (qtrunc (v * p2 (frsz F))%Q) (2 ^ fx_bits F - 1) in
  let scaled := (inject_Z masked * p2 (- frsz F))%Q in
  if negb (Qle_bool scaled (fx_max F)) then (scaled - p2 (isz F))%Q else scaled.

(* Python's two-argument max and min: the first argument wins ties *)
Definition py_max (a b : Q) : Q := if negb (Qle_bool b a) then b else a.
Definition py_min (a b : Q) : Q := if negb (Qle_bool a b) then b else a.

(* saturate, ml_formats.py 849-852 *)
Definition fx_saturate (F : fxfmt) (v : Q) : Q := py_min (py_max v (fx_min F)) (fx_max F).

(* get_c_cst, ml_formats.py 867-880: the integer printed in the INTn_C() macro *)
Definition fx_c_cst (F : fxfmt) (v : Q) : Z := qtrunc (v * p2 (frsz F))%Q.

(* get_128b_c_cst, ml_formats.py 882-905: the two printed 64-bit halves *)
Definition fx_128b_halves (F : fxfmt) (v : Q) : Z * Z :=
  let e := qtrunc (v * p2 (frsz F))%Q in (Z.shiftr e 64, e mod 2 ^ 64).
(* value of the printed C expression ((hi) << 64) + lo on 128 bits *)
Definition c_int128 (hl : Z * Z) : Z := Z.shiftl (fst hl) 64 + snd hl.

(* c_bit_size selection, ml_formats.py 938-967 *)
Definition fx_c_bit_size (F : fxfmt) : option Z :=
  let b := fx_bits F in
  if (b <? 1) || (128 <? b) then None
  else match filter (fun n => b <=? n) [8; 16; 32; 64; 128] with
       | [] => None
       | n :: l => Some (fold_left Z.min l n)
       end.
