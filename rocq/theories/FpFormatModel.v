(* Floating-point formats: integer coding, decoding, bounds, and the bit-level
   operation graphs generated by the legalizer for class tests and
   exponent/mantissa extraction and insertion.
   Models metalibm_core/core/ml_formats.py:297-480 (ML_Std_FP_Format),
   metalibm_core/core/special_values.py:458-575 (codings of special values) and
   metalibm_core/core/legalizer.py:338-711. *)
From Coq Require Import ZArith QArith Qabs Qround Bool.
From Verif Require Import QUtil.
Open Scope Z_scope.

(* ml_formats.py:300-315 -- the numeric parameters of ML_Std_FP_Format.
   [sprec] is the significand precision (implicit bit included) of the Sollya
   format object given as [sollya_object] (24 for sollya.binary32 etc.).
   Simplification: names, suffixes, display formats are dropped. *)
Record fpfmt := mkfmt { esz : Z; fsz : Z; sprec : Z }.

(* ml_formats.py:1070-1075 *)
Definition ML_Binary32 := mkfmt 8 23 24.
Definition ML_Binary64 := mkfmt 11 52 53.
Definition ML_Binary80 := mkfmt 15 64 64.
Definition ML_Binary16 := mkfmt 5 10 11.

(* ml_formats.py:334-335 get_bias *)
Definition bias (F : fpfmt) : Z := - 2 ^ (esz F - 1) + 1.
(* ml_formats.py:337-338 get_emax *)
Definition emax (F : fpfmt) : Z := 2 ^ esz F - 2 + bias F.
(* ml_formats.py:446-447 get_emin_normal *)
Definition emin_normal (F : fpfmt) : Z := 1 + bias F.
(* ml_formats.py:450-451 get_emin_subnormal *)
Definition emin_subnormal (F : fpfmt) : Z := 1 - fsz F + bias F.
(* ml_formats.py:442-443 get_nanorinf_exp_field *)
Definition nanorinf_exp_field (F : fpfmt) : Z := 2 ^ esz F - 1.
(* ml_formats.py:422-423 get_omega, 426-427 get_max_value *)
Definition get_omega (F : fpfmt) : Q := (p2 (emax F) * (2 - p2 (- fsz F)))%Q.
(* ml_formats.py:429-431 get_min_normal_value *)
Definition get_min_normal_value (F : fpfmt) : Q := p2 (emin_normal F).
(* ml_formats.py:433-435 get_max_subnormal_value *)
Definition get_max_subnormal_value (F : fpfmt) : Q :=
  (p2 (emin_normal F) * (1 + p2 (- fsz F)))%Q.
(* ml_formats.py:437-439 get_min_subnormal_value *)
Definition get_min_subnormal_value (F : fpfmt) : Q := p2 (emin_subnormal F).
(* ml_formats.py:471-474 get_exponent_interval *)
Definition get_exponent_interval (F : fpfmt) : Z * Z := (emin_normal F, emax F).
(* bit size: ml_formats.py:305,460-462; every declared format has
   bit_size = 1 + exponent_size + field_size *)
Definition bit_size (F : fpfmt) : Z := 1 + esz F + fsz F.

(* special_values.py:47, 109, 458-575: numeric or special value.
   The precision attribute of special values is dropped. *)
Inductive fpv : Type :=
| Num (q : Q) | PInf | MInf | PZero | MZero | QNaN | SNaN.

(* special_values.py:460-575: get_integer_coding methods of each class
   (QUIET_BIT_SET_FOR_QNAN = True, special_values.py:187) *)
Definition special_coding (F : fpfmt) (v : fpv) : option Z :=
  let e := nanorinf_exp_field F in
  match v with
  | Num _ => None
  | PInf => Some (Z.shiftl e (fsz F))
  | MInf => Some (Z.shiftl (Z.lor (Z.shiftl 1 (esz F)) e) (fsz F))
  | PZero => Some 0
  | MZero => Some (Z.shiftl 1 (esz F + fsz F))
  | QNaN => Some (Z.lor (Z.lor (2 ^ (fsz F - 1) - 1) (Z.shiftl 1 (fsz F - 1)))
                        (Z.shiftl (Z.lor (Z.shiftl 1 (esz F)) e) (fsz F)))
  | SNaN => Some (Z.lor (Z.lor (2 ^ (fsz F - 1) - 1) 0)
                        (Z.shiftl (Z.lor (Z.shiftl 1 (esz F)) e) (fsz F)))
  end.

(* sollya.round(value, obj, RN): round to nearest, ties to even, with gradual
   underflow; None when the rounded magnitude reaches 2^(emax+1) (infinity).
   Models the mathematical definition of the Sollya primitive. *)
Definition sollya_round (F : fpfmt) (v : Q) : option Q :=
  if Qeq_bool v 0 then Some 0%Q
  else
    let e := Z.max (qlog2 (Qabs v)) (emin_normal F) - (sprec F - 1) in
    let r := (inject_Z (qrne (v / p2 e)) * p2 e)%Q in
    if Qle_bool (p2 (emax F + 1)) (Qabs r) then None else Some r.

(* ml_formats.py:367-386: numeric branch of get_integer_coding.
   None models the exception raised by int(floor(log2(inf))) when rounding
   overflows. *)
Definition num_coding (F : fpfmt) (v : Q) : option Z :=
  match sollya_round F v with
  | None => None
  | Some v =>
    let sign := if Qle_bool 0 v then 0 else 1 in
    let v := Qabs v in
    let '(exp_biased, mant) :=
      if Qeq_bool v 0 then (0, 0)
      else
        let exp := qlog2 v in
        let exp_biased := exp - bias F in
        if exp <? emin_normal F
        then (0, qtrunc (v / p2 (emin_subnormal F)))
        else (exp_biased, qtrunc ((v / p2 exp - 1) * p2 (fsz F)))
    in
    Some (Z.lor (Z.lor mant (Z.shiftl exp_biased (fsz F)))
                (Z.shiftl sign (fsz F + esz F)))
  end.

(* ml_formats.py:355-386 get_integer_coding *)
Definition get_integer_coding (F : fpfmt) (v : fpv) : option Z :=
  match v with
  | Num q => num_coding F q
  | _ => special_coding F v
  end.

(* ml_formats.py:388-419 get_value_from_integer_coding (string parsing of the
   argument dropped: the integer is given) *)
Definition get_value_from_integer_coding (F : fpfmt) (value : Z) : fpv :=
  let exponent_field := Z.land (Z.shiftr value (fsz F)) (2 ^ esz F - 1) in
  let is_subnormal := exponent_field =? 0 in
  let mantissa := Z.land value (2 ^ fsz F - 1) in
  let sign_bit := Z.shiftr value (fsz F + esz F) in
  if exponent_field =? nanorinf_exp_field F then
    if (mantissa =? 0) && negb (sign_bit =? 0) then MInf
    else if (mantissa =? 0) && (sign_bit =? 0) then PInf
    else
      let quiet_bit := Z.shiftr mantissa (fsz F - 1) in
      if negb (quiet_bit =? 0) then QNaN else SNaN
  else if (exponent_field =? 0) && (mantissa =? 0) then
    if negb (sign_bit =? 0) then MZero else PZero
  else
    let exponent := exponent_field + bias F + (if is_subnormal then 1 else 0) in
    let sign := (if negb (sign_bit =? 0) then -1 else 1)%Q in
    let implicit_digit := (if is_subnormal then 0 else 1)%Q in
    Num (sign * p2 exponent * (implicit_digit + inject_Z mantissa * p2 (- fsz F)))%Q.

(* ml_formats.py:347-350 saturate *)
Definition fp_saturate (F : fpfmt) (v : Q) : fpv :=
  if negb (Qle_bool (Qabs v) (get_omega F))
  then (if negb (Qle_bool v 0) then PInf else MInf)
  else Num v.

(* ---- generated bit-level graphs (integers are the two's complement view of
   the code; shifts are on Z, so both logical and arithmetic right shifts are
   covered by stating theorems for every integer congruent to the code) ---- *)

(* legalizer.py:338-358 generate_field_extraction *)
Definition field_extraction (bits lo hi : Z) (x : Z) : Z :=
  let r := if lo =? 0 then x else Z.shiftr x lo in
  if hi - lo + 1 =? bits then r else Z.land r (2 ^ (hi - lo + 1) - 1).

(* legalizer.py:360-384 generate_raw_exp_extraction *)
Definition raw_exp_extraction (F : fpfmt) (x : Z) : Z :=
  field_extraction (bit_size F) (fsz F) (fsz F + esz F - 1) x.
(* legalizer.py:387-411 generate_exp_extraction *)
Definition exp_extraction (F : fpfmt) (x : Z) : Z := raw_exp_extraction F x + bias F.
(* legalizer.py:414-439 generate_raw_mantissa_extraction *)
Definition raw_mantissa_extraction (F : fpfmt) (x : Z) : Z :=
  field_extraction (bit_size F) 0 (fsz F - 1) x.
(* legalizer.py:480-498 generate_static_raw_exp_insertion *)
Definition static_raw_exp_insertion (F : fpfmt) (e : Z) : Z :=
  Z.shiftl (e + - bias F) (fsz F).
(* legalizer.py:442-478 generate_mantissa_extraction (result as a code) *)
Definition mantissa_extraction (F : fpfmt) (x : Z) : Z :=
  let signMask := Z.shiftl 1 (bit_size F - 1) in
  let sigMask := Z.shiftl 1 (fsz F) - 1 in
  Z.lor (Z.land x (Z.lor sigMask signMask)) (static_raw_exp_insertion F 0).
(* legalizer.py:506-547 generate_exp_insertion (result as a code; the integer
   additions are exact because the operands are far from the integer bounds) *)
Definition exp_insertion (F : fpfmt) (e : Z) : Z := Z.shiftl (e + - bias F) (fsz F).

(* legalizer.py:557-694 generate_test_expansion: the predicates *)
Inductive test_pred := IsInfOrNaN | IsNaN | IsSubnormal | IsSignalingNaN
                     | IsQuietNaN | IsInfty | IsZero.
Definition test_expansion (F : fpfmt) (p : test_pred) (x : Z) : bool :=
  let quiet := fsz F - 1 in
  match p with
  | IsInfOrNaN => raw_exp_extraction F x =? nanorinf_exp_field F
  | IsNaN => (raw_exp_extraction F x =? nanorinf_exp_field F)
             && negb (raw_mantissa_extraction F x =? 0)
  | IsSubnormal => raw_exp_extraction F x =? 0
  | IsSignalingNaN => (raw_exp_extraction F x =? nanorinf_exp_field F)
             && (negb (raw_mantissa_extraction F x =? 0)
                 && (field_extraction (bit_size F) quiet quiet x =? 0))
  | IsQuietNaN => (raw_exp_extraction F x =? nanorinf_exp_field F)
             && (negb (raw_mantissa_extraction F x =? 0)
                 && (field_extraction (bit_size F) quiet quiet x =? 1))
  | IsInfty => (raw_exp_extraction F x =? nanorinf_exp_field F)
             && (raw_mantissa_extraction F x =? 0)
  | IsZero => field_extraction (bit_size F) 0 (bit_size F - 2) x =? 0
  end.

(* metalibm_hw_blocks/rtl_blocks.py:86-185: hardware predicates on a code
   (RawExponentExtraction = bits [f, f+e-1], mantissa = bits [0, f-1],
   ExtractSign = top bit) *)
Definition hw_raw_exp (F : fpfmt) (x : Z) : Z := Z.land (Z.shiftr x (fsz F)) (2 ^ esz F - 1).
Definition hw_sign (F : fpfmt) (x : Z) : bool := Z.testbit x (fsz F + esz F).
Definition fp_is_infornan F x : bool := hw_raw_exp F x =? 2 ^ esz F - 1.
Definition fp_is_subnormal F x : bool := hw_raw_exp F x =? 0.
Definition fp_mant_is_zero F x : bool := Z.land x (2 ^ fsz F - 1) =? 0.
Definition fp_is_zero F x : bool := fp_is_subnormal F x && fp_mant_is_zero F x.
Definition fp_is_inf F x : bool := fp_mant_is_zero F x && fp_is_infornan F x.
Definition fp_is_pos_inf F x : bool := fp_is_inf F x && Bool.eqb (hw_sign F x) false.
Definition fp_is_neg_inf F x : bool := fp_is_inf F x && Bool.eqb (hw_sign F x) true.
Definition fp_is_nan F x : bool := negb (fp_mant_is_zero F x) && fp_is_infornan F x.
