(* Model of the hardware reciprocal, /repo/metalibm_hw_blocks/ml_fp_div.py 66-509, on the
   bit vectors of RtlFixedModel.v.  Pipeline registers and the unused reset input are
   dropped; the table is read as a list of constants of its storage format. *)
From Coq Require Import ZArith QArith Bool.
From Verif Require Import QUtil FixedModel FpFormatModel AdderModel RtlFixedModel.
Open Scope Z_scope.

(* RTL_FixedPointFormat(i, f), signed *)
Definition sf (i f : Z) : fxfmt := Build_fxfmt i f true.
Definition fixed_cst (F : fxfmt) (v : Q) : bv := mkbv (fx_bits F) (Z.land (qtrunc (v * p2 (frsz F))%Q) (2 ^ fx_bits F - 1)).

(* 66-133 generate_NR_iteration: X, Y formats of the input and of the approximation, M, E, T,
   N those of the product, of the error, of the correction and of the new approximation *)
Definition nr_iteration (X Y M E T N : fxfmt) (x y : bv) : bv :=
  let it_mult := rtl_mul X Y M x y in
  let it_error := rtl_sub M M E (fixed_cst M 1) it_mult in
  let approx_mult := rtl_mul E Y T it_error y in
  rtl_add Y T N y approx_mult.

Definition aix : Z := 8.
(* 198-203 *)
Definition inv_entry (F : fpfmt) (i : Z) : bv :=
  let v := (1 / (1 + inject_Z i * p2 (- aix)))%Q in
  fixed_cst (sf 2 aix) (match sollya_round F v with Some r => r | None => 0%Q end).

(* 168-297 the approximation of the inverse of the mantissa, m a vector of p bits; the first
   number of digits of the format of the last error is int(-(4 * p)/5) *)
Definition approximation (F : fpfmt) (m : bv) : bv :=
  let p := msz F in
  let tab_index := bval (slice m (p - 2 - aix + 1) (p - 2)) in
  let y0 := inv_entry F tab_index in
  let x0 := zext (slice m (p - 1 - aix) (p - 1)) 1 in
  let x1 := zext (slice m (p - 1 - 2 * aix) (p - 1)) 1 in
  let x := zext m 1 in
  let y1 := nr_iteration (sf 2 aix) (sf 2 aix) (sf 2 (aix * 2)) (sf (-3) (2 * aix)) (sf 2 (aix * 3)) (sf 2 (aix * 2)) x0 y0 in
  let y2 := nr_iteration (sf 2 (2 * aix)) (sf 2 (aix * 2)) (sf 2 (aix * 3)) (sf (-6) (aix * 3)) (sf 2 (aix * 3)) (sf 2 (aix * 3)) x1 y1 in
  let y3 := nr_iteration (sf 2 (p - 1)) (sf 2 (aix * 3)) (sf 2 (2 * p - 1)) (sf (Z.quot (- (3 * aix)) 2) (aix * 2 + p - 1))
              (sf 2 (aix * 2 + p - 1)) (sf 2 p) x y2 in
  nr_iteration (sf 2 (p - 1)) (sf 2 p) (sf 2 (2 * p)) (sf (Z.quot (- (4 * p)) 5) (2 * p)) (sf 2 (2 * p)) (sf 2 (2 * p)) x y3.

(* 304-391 mantissa field, round increment *)
Definition rc_lsb (F : fpfmt) : Z := 2 * msz F - Z.min (fsz F) (2 * msz F).
Definition rc_msb (F : fpfmt) : Z := 2 * msz F - 1.
Definition not_decrement (F : fpfmt) (y : Z) : bool := Z.testbit y (2 * msz F).
Definition rc_field (F : fpfmt) (y : Z) : Z :=
  if not_decrement F y then sub_signal y (rc_lsb F) (rc_msb F) else sub_signal y (rc_lsb F - 1) (rc_msb F - 1).
Definition rc_least (F : fpfmt) (y : Z) : bool :=
  if not_decrement F y then Z.testbit y (rc_lsb F) else Z.testbit y (rc_lsb F - 1).
Definition rc_round (F : fpfmt) (y : Z) : bool :=
  if not_decrement F y then Z.testbit y (rc_lsb F - 1) else Z.testbit y (rc_lsb F - 2).
Definition rc_sticky (F : fpfmt) (y : Z) : bool :=
  negb ((if not_decrement F y then sub_signal y 0 (rc_lsb F - 2) else sub_signal y 0 (rc_lsb F - 3)) =? 0).
Definition rc_incr (F : fpfmt) (y : Z) : Z := b2z (rc_round F y && (rc_sticky F y || rc_least F y)).
(* 395-449 exponent; bias is negative (ml_formats.py 335-336) *)
Definition rc_exp (F : fpfmt) (e y : Z) : Z :=
  let neg_exp := (- 2 * bias F - e) mod 2 ^ (esz F + 2) in
  (neg_exp mod 2 ^ esz F + (if not_decrement F y then 0 else 2 ^ esz F - 1)) mod 2 ^ esz F.
(* 470-503 the word *)
Definition reciprocal (F : fpfmt) (w : Z) : Z :=
  let y := bval (approximation F (mkbv (msz F) (hw_mant F w))) in
  let exp_mant := rc_exp F (hw_raw_exp F w) y * 2 ^ fsz F + rc_field F y in
  (if hw_sign F w then 2 ^ (esz F + fsz F) else 0) + (exp_mant + rc_incr F y) mod 2 ^ (esz F + fsz F).
