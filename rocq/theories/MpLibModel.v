(* The C multi-precision library, metalibm_core/support_lib/ml_multi_prec_lib.c,
   and ml_fmaf of metalibm_core/support_lib/ml_support_lib.h.

   A finite double (float) is the rational it represents; every +, -, * of the
   C source is the exact operation followed by the rounding of the type, rnd64
   (rnd32).  Simplifications: no overflow, infinity or NaN, and no distinction
   between the two zeros, except in ml_subnormalize_d_dd_i which is modelled
   on bit patterns; the compiler does not contract a*b + c into a fused
   multiply-add (see mult_contracted in MpLibProps for the effect of it). *)
From Coq Require Import ZArith QArith List Bool.
From Verif Require Import QUtil SupportModel.
Import ListNotations.
Open Scope Z_scope.

Definition dd : Type := (Q * Q)%type.        (* ml_dd_t {hi, lo} *)

Section D.
Variable rnd64 : Q -> Q.
Notation "x [+] y" := (rnd64 (x + y)%Q) (at level 50, left associativity).
Notation "x [-] y" := (rnd64 (x - y)%Q) (at level 50, left associativity).
Notation "x [*] y" := (rnd64 (x * y)%Q) (at level 40, left associativity).

(* 6-10 *)
Definition ml_conv_dd_d (x : Q) : dd := (x, 0%Q).
(* 12-15 *)
Definition ml_neg_dd (x : dd) : dd := (- fst x, - snd x)%Q.
(* 17-28 and 30-42 (ml_split_dd_d_safe is the same code); the constant
   0x41a0000002000000 is the encoding of 2^27 + 1 (split_constant below) *)
Definition ml_split_dd_d (x : Q) : dd :=
  let C := inject_Z 134217729 in
  let gamma := C [*] x in
  let delta := x [-] gamma in
  let xhi := gamma [+] delta in
  (xhi, x [-] xhi).
(* 57-71; -r1 is exact *)
Definition ml_mult_dd_d2 (x y : Q) : dd :=
  let xs := ml_split_dd_d x in
  let ys := ml_split_dd_d y in
  let r1 := x [*] y in
  let t1 := (- r1)%Q [+] (fst xs [*] fst ys) in
  let t2 := t1 [+] (fst xs [*] snd ys) in
  let t3 := t2 [+] (snd xs [*] fst ys) in
  let r2 := t3 [+] (snd xs [*] snd ys) in
  (r1, r2).
(* the same function when the compiler fuses each product with the addition *)
Definition ml_mult_dd_d2_contracted (x y : Q) : dd :=
  let xs := ml_split_dd_d x in
  let ys := ml_split_dd_d y in
  let r1 := x [*] y in
  let t1 := rnd64 (- r1 + fst xs * fst ys) in
  let t2 := rnd64 (t1 + fst xs * snd ys) in
  let t3 := rnd64 (t2 + snd xs * fst ys) in
  let r2 := rnd64 (t3 + snd xs * snd ys) in
  (r1, r2).
(* 73-84 *)
Definition ml_add_dd_d2 (x y : Q) : dd :=
  let s := x [+] y in
  let xp := s [-] y in
  let yp := s [-] xp in
  let dx := x [-] xp in
  let dy := y [-] yp in
  let t := dx [+] dy in
  (s, t).
(* 86-94 *)
Definition ml_add_dd_d2_fast (x y : Q) : dd :=
  let s := x [+] y in
  let z := s [-] x in
  let t := y [-] z in
  (s, t).
(* 96-105 *)
Definition ml_add_dd_d_dd (x : Q) (y : dd) : dd :=
  let t1 := ml_add_dd_d2 x (fst y) in
  let t3 := snd t1 [+] snd y in
  ml_add_dd_d2 (fst t1) t3.
(* 109-117 *)
Definition ml_add_dd_dd2 (x y : dd) : dd :=
  let t1 := ml_add_dd_d2 (fst x) (fst y) in
  let t2 := ml_add_dd_d_dd (snd x) t1 in
  ml_add_dd_d_dd (snd y) t2.
(* 129-135, 120-126 *)
Definition ml_fma_dd_d3 (x y z : Q) : dd :=
  let mult_result := ml_mult_dd_d2 x y in
  ml_add_dd_d_dd z mult_result.
Definition ml_fma (x y z : Q) : Q := fst (ml_fma_dd_d3 x y z).

(* code_generation/generic_processor.py:460-516: the C function chosen for a
   node with a ML_DoubleDouble result.  None: no matching entry. *)
Inductive operand := OpD (x : Q) | OpDD (x : dd).
Definition c_addition (x y : operand) : option dd :=
  match x, y with
  | OpD x, OpD y => Some (ml_add_dd_d2 x y)
  | OpD x, OpDD y => Some (ml_add_dd_d_dd x y)
  | OpDD x, OpD y => Some (ml_add_dd_d_dd y x)
  | OpDD x, OpDD y => Some (ml_add_dd_dd2 x y)
  end.
Definition c_subtraction (x y : operand) : option dd :=
  match x, y with
  | OpDD x, OpDD y => Some (ml_add_dd_dd2 x (ml_neg_dd y))
  | _, _ => None
  end.
Definition c_multiplication (x y : operand) : option dd :=
  match x, y with OpD x, OpD y => Some (ml_mult_dd_d2 x y) | _, _ => None end.
End D.

(* 44-55 *)
Definition ml_split_ds_s (rnd32 : Q -> Q) (x : Q) : Q * Q :=
  let C := inject_Z 4097 in
  let gamma := rnd32 (C * x)%Q in
  let delta := rnd32 (x - gamma)%Q in
  let xhi := rnd32 (gamma + delta)%Q in
  (xhi, rnd32 (x - xhi)%Q).

(* ml_support_lib.h:121-128; the conversions to double are exact *)
Definition ml_fmaf (rnd32 rnd64 : Q -> Q) (x y z : Q) : Q := rnd32 (rnd64 (rnd64 (x * y) + z))%Q.

(* ------------------------------------------------------------------ *)
(* ml_subnormalize_d_dd_i, lines 138-167, on the 64-bit patterns hi, lo.
   C integers: int shifts (1 << n) are defined for 0 <= n <= 30 only (1 << 31
   overflows int); uint64_t shifts for 0 <= n <= 63.  None: undefined
   behaviour.  A double is zero when all its bits but the sign are. *)
Definition int_shl1 (n : Z) : option Z := if (0 <=? n) && (n <=? 30) then Some (Z.shiftl 1 n) else None.
Definition u64_shl (x n : Z) : option Z := if (0 <=? n) && (n <=? 63) then Some (u64 (Z.shiftl x n)) else None.
Definition u64_shr (x n : Z) : option Z := if (0 <=? n) && (n <=? 63) then Some (Z.shiftr x n) else None.
Definition bind {A B} (x : option A) (f : A -> option B) : option B := match x with Some a => f a | None => None end.
Notation "'do' x <- a ; b" := (bind a (fun x => b)) (at level 60, x name, right associativity).
Definition ml_subnormalize_d_dd_i (hi lo scale_factor : Z) : option Z :=
  let ex := s32 (ml_exp_extraction_dirty_fp64 hi) in
  let scaled_ex := ex + scale_factor in
  let delta := -1022 - scaled_ex in
  do round_cst <- int_shl1 (delta - 1);
  let pre_rounded_value := u64 (hi + round_cst) in
  do sticky <- u64_shl hi (64 - (delta - 1));
  let lo_sign := Z.shiftr (Z.lxor hi lo) 63 in
  do par <- int_shl1 delta;
  let parity_bit := Z.land hi par in
  let lo_zero := Z.land lo 0x7fffffffffffffff =? 0 in
  let rounded_value :=
    if ((sticky =? 0) && (parity_bit =? 0) && lo_zero) || ((sticky =? 0) && negb (lo_sign =? 0))
    then hi else pre_rounded_value in
  do r <- u64_shr rounded_value delta;
  u64_shl r delta.
