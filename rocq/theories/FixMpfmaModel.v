(* Model of the multiply-add with a fixed-point accumulator,
   /repo/metalibm_hw_blocks/ml_fixed_mpfma.py 112-475 (FP_FIXED_MPFMA): x and y in the
   format F, an accumulator of fx_width bits, k extra digits (arg_template.extra_digit).

   Words are integers, signals of n bits are integers modulo 2^n.  Pipeline registers
   (start_new_stage) and the unused reset input are dropped.  The MantissaExtraction nodes
   are declared with p-1 bits (lines 187-191) but become a concatenation of the implicit
   digit and the field, of p bits (core/hdl_legalizer.py 61-83, forward_attributes does
   not copy the format): hw_mant. *)
From Coq Require Import ZArith QArith Bool List.
From Verif Require Import QUtil FpFormatModel AdderModel MpfmaModel.
Import ListNotations.
Open Scope Z_scope.

(* 153-168 weights of the first and last digit of the accumulator, width *)
Definition fx_msb (F : fpfmt) (k : Z) : Z := 2 * emax F + 1 + k.
Definition fx_lsb (F : fpfmt) : Z := 2 * emin_subnormal F.
Definition fx_width (F : fpfmt) (k : Z) : Z := fx_msb F k - fx_lsb F + 1.

(* 231-237 size of the exponent signals *)
Definition fx_esize (F : fpfmt) (k : Z) : Z :=
  Z.max (esz F) (Z.max (Z.log2_up (Z.abs (fx_msb F k)))
    (Z.max (Z.log2_up (Z.abs (fx_lsb F))) (Z.log2_up (Z.abs (bias F + bias F + 1))))) + 2.
(* 249-271 *)
Definition fx_exp_diff (F : fpfmt) (k x y : Z) : Z :=
  (fx_msb F k - (hw_raw_exp F y + hw_raw_exp F x + (bias F + bias F + 1))) mod 2 ^ fx_esize F k.
(* 275 *)
Definition fx_max_diff (F : fpfmt) (k : Z) : Z := fx_width F k - (msz F + msz F).
(* 276-302, on floor(log2(max_exp_diff)) + 1 bits *)
Definition fx_shift (F : fpfmt) (k x y : Z) : Z :=
  let d := to_signed (fx_esize F k) (fx_exp_diff F k x y) in
  if d <? 0 then 0
  else if fx_max_diff F k <? d then fx_max_diff F k
  else fx_exp_diff F k x y mod 2 ^ (Z.log2 (fx_max_diff F k) + 1).
(* 304-320 *)
Definition fx_prod (F : fpfmt) (x y : Z) : Z := (hw_mant F x * hw_mant F y) mod 2 ^ (msz F + msz F).
Definition fx_shifted (F : fpfmt) (k x y : Z) : Z :=
  Z.shiftr (fx_prod F x y * 2 ^ fx_max_diff F k) (fx_shift F k x y).
(* 206-213 *)
Definition fx_sign_xy (F : fpfmt) (x y : Z) : bool := xorb (hw_sign F x) (hw_sign F y).

(* 428-456 accumulator in two's complement: the output vr_acc *)
Definition fx_acc (F : fpfmt) (k x y acc : Z) : Z :=
  let W := fx_width F k in
  let op := if fx_sign_xy F x y then (- fx_shifted F k x y) mod 2 ^ W else fx_shifted F k x y in
  (op + acc) mod 2 ^ W.

(* 326-426 accumulator in sign and magnitude: the outputs vr_sign and vr_acc *)
Definition fx_sm_acc (F : fpfmt) (k x y : Z) (sacc : bool) (acc : Z) : bool * Z :=
  let W := fx_width F k in
  let sxy := fx_sign_xy F x y in
  let same := Bool.eqb sxy sacc in
  let neg := if same then acc else 2 ^ W - 1 - acc in
  let p0_ext := (fx_shifted F k x y + neg) mod 2 ^ (W + 1) in
  let p1_ext := (p0_ext + 1) mod 2 ^ (W + 1) in
  let p0 := sub_signal p0_ext 0 (W - 1) in
  let p1 := sub_signal p1_ext 0 (W - 1) in
  let pre := Z.testbit p1_ext W in
  ((if xorb sxy sacc then xorb sacc pre else sacc),
   (if same then p0 else if pre then p1 else 2 ^ W - 1 - p0)).

(* successive accumulations: the accumulator output is fed back *)
Definition fx_run (F : fpfmt) (k : Z) (l : list (Z * Z)) (acc : Z) : Z :=
  fold_left (fun a xy => fx_acc F k (fst xy) (snd xy) a) l acc.
Definition fx_sm_run (F : fpfmt) (k : Z) (l : list (Z * Z)) (st : bool * Z) : bool * Z :=
  fold_left (fun st xy => fx_sm_acc F k (fst xy) (snd xy) (fst st) (snd st)) l st.

(* 458-475 numeric_emulate; vx and vy are the values of the operands *)
Definition fx_emulate (F : fpfmt) (vx vy : Q) (acc : Z) : Z :=
  qrne ((vx * vy + inject_Z acc * p2 (fx_lsb F)) * p2 (- fx_lsb F)).
Definition fx_sm_emulate (F : fpfmt) (vx vy : Q) (sacc : bool) (acc : Z) : bool * Z :=
  let r := fx_emulate F vx vy (if sacc then - acc else acc) in (r <? 0, Z.abs r).
