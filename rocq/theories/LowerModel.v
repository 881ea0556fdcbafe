(* Lowering of fixed-point operations to C integer operations.  Model of
   metalibm_core/targets/common/fixed_point_backend.py and of the integer part
   of metalibm_core/code_generation/generic_processor.py.

   The value of a fixed-point node is the integer held by its C variable.
   Every node is stored in a variable of its own type, as the generator does
   when it does not inline (generator_utility.py:371-378, 466-474).
   Undef is the undefined behaviour of C: overflow of signed +, - and * (after
   the promotion of narrow types to int), shift by the width or more.  A left
   shift of a signed value wraps, as gcc specifies.  Rejected: no C operator is
   found, or Python raises an exception. *)
From Coq Require Import ZArith Bool List.
From Verif Require Import FpFormatModel FixedModel IndexModel.
Import ListNotations.
Open Scope Z_scope.

Inductive cres (A : Type) := Val (a : A) | Undef | Rejected.
Arguments Val {A}. Arguments Undef {A}. Arguments Rejected {A}.
Definition cbind {A B} (r : cres A) (f : A -> cres B) : cres B :=
  match r with Val a => f a | Undef => Undef | Rejected => Rejected end.

(* standard integer formats, ml_formats.py:1106-1119 *)
Record sint := mkS { sbits : Z; ssgn : bool }.
Definition sint_eqb (S T : sint) : bool := (sbits S =? sbits T) && Bool.eqb (ssgn S) (ssgn T).
(* conversion to a C integer type *)
Definition wrap (T : sint) (z : Z) : Z := if ssgn T then swrap (sbits T) z else z mod 2 ^ sbits T.
Definition s_lo (T : sint) : Z := if ssgn T then - 2 ^ (sbits T - 1) else 0.
Definition s_hi (T : sint) : Z := if ssgn T then 2 ^ (sbits T - 1) - 1 else 2 ^ sbits T - 1.

(* ml_formats.py:1122-1141, 1226-1230 get_std_integer_support_format *)
Definition std_support (F : fxfmt) : option sint :=
  match fx_c_bit_size F with Some n => Some (mkS n (sgn F)) | None => None end.

(* integer promotion *)
Definition promoted (T : sint) : sint := if sbits T <? 32 then mkS 32 true else T.
(* +, -, * (generic_processor.py:463, 481, 490) with exact result z *)
Definition c_arith (T : sint) (z : Z) : cres Z :=
  if ssgn (promoted T) && negb ((s_lo (promoted T) <=? z) && (z <=? s_hi (promoted T))) then Undef
  else Val (wrap T z).
(* generic_processor.py:371-380 *)
Definition c_shl (T : sint) (x n : Z) : cres Z :=
  if n <? sbits (promoted T) then Val (wrap T (x * 2 ^ n)) else Undef.
(* generic_processor.py:381-412: a signed operand is first cast to the
   unsigned type *)
Definition c_lshr (T : sint) (x n : Z) : cres Z :=
  if n <? sbits (promoted T) then Val (wrap T ((x mod 2 ^ sbits T) / 2 ^ n)) else Undef.
(* generic_processor.py:359-361: ML_UInt128 is not in the list *)
Definition c_and (T : sint) (x m : Z) : cres Z :=
  if (sbits T =? 128) && negb (ssgn T) then Rejected else Val (wrap T (Z.land x m)).

(* ML_Custom_FixedPoint_Format.__eq__, ml_formats.py:1036-1038 *)
Definition fx_eqb (F G : fxfmt) : bool :=
  (isz F =? isz G) && (frsz F =? frsz G) && Bool.eqb (sgn F) (sgn G).

(* fixed_point_backend.py:135-141, 159-165 *)
Definition align (T : sint) (x shift : Z) : cres Z :=
  if 0 <? shift then c_shl T x shift
  else if shift <? 0 then c_lshr T x (- shift)
  else Val x.
(* 143-151, 169-174 *)
Definition mask_out (Fo : fxfmt) (T : sint) (x : Z) : cres Z :=
  if negb (sgn Fo) then c_and T x (2 ^ (isz Fo + frsz Fo) - 1) else Val x.

(* conv_modifier, 112-181; a conversion to the same format is dispatched to
   IdentityOperator (407-414) *)
Definition conv (Fi Fo : fxfmt) (k : Z) : cres Z :=
  if fx_eqb Fi Fo then Val k
  else match std_support Fi, std_support Fo with
  | Some Si, Some So =>
      let shift := frsz Fo - frsz Fi in
      if sbits Si <=? sbits So
      then cbind (align So (wrap So k) shift) (fun x => mask_out Fo So x)
      else cbind (align Si k shift) (fun x => mask_out Fo So (wrap So x))
  | _, _ => Rejected
  end.

(* fixed_modifier, 49-71 *)
Definition tmp_fixed (F0 F1 Fo : fxfmt) : fxfmt :=
  Build_fxfmt (isz Fo) (Z.max (Z.min (frsz F0) (frsz F1)) (frsz Fo)) (sgn Fo).
Definition fixed_modifier (op : Z -> Z -> Z) (F0 F1 Fo : fxfmt) (k0 k1 : Z) : cres Z :=
  let tmp := tmp_fixed F0 F1 Fo in
  match std_support tmp with
  | Some T =>
      cbind (conv F0 tmp k0) (fun x =>
      cbind (conv F1 tmp k1) (fun y =>
      cbind (c_arith T (op x y)) (fun z => conv tmp Fo z)))
  | None => Rejected
  end.
Definition add_modifier := fixed_modifier Z.add.
Definition sub_modifier := fixed_modifier Z.sub.

(* Multiplication of standard integers, generic_processor.py:106-114, 161-169,
   488-500: identical formats use *, others full_mul_modifier, which replaces
   the second operand by the first when it already has the result format
   (line 168); the resulting node is lowered in turn *)
Definition c_mul (S0 S1 T : sint) (x y : Z) : cres Z :=
  if sint_eqb T S0 && sint_eqb T S1 then c_arith T (x * y)
  else
    let x' := if sint_eqb T S0 then x else wrap T x in
    let y' := if sint_eqb T S1 then wrap T x else wrap T y in
    c_arith T (x' * y').

(* mul_modifier, 80-106 *)
Definition tmp_mul (F0 F1 Fo : fxfmt) : fxfmt :=
  Build_fxfmt (Z.min (isz Fo) (isz F0 + isz F1)) (frsz F0 + frsz F1) (sgn F0 || sgn F1).
Definition mul_modifier (F0 F1 Fo : fxfmt) (k0 k1 : Z) : cres Z :=
  let tmp := tmp_mul F0 F1 Fo in
  match std_support F0, std_support F1, std_support tmp with
  | Some S0, Some S1, Some T => cbind (c_mul S0 S1 T k0 k1) (fun z => conv tmp Fo z)
  | _, _, _ => Rejected
  end.

(* legalize_fixed_point_comparison, 206-249.  With two formats, line 232 calls
   get_signed on the operand nodes, which do not have it *)
Inductive cmp := Ceq | Cne | Clt | Cle | Cgt | Cge.
Definition c_cmp (p : cmp) (a b : Z) : bool :=
  match p with
  | Ceq => a =? b | Cne => negb (a =? b) | Clt => a <? b
  | Cle => a <=? b | Cgt => b <? a | Cge => b <=? a
  end.
Definition comparison (p : cmp) (F0 F1 : fxfmt) (k0 k1 : Z) : cres bool :=
  if fx_eqb F0 F1
  then match std_support F0 with Some _ => Val (c_cmp p k0 k1) | None => Rejected end
  else Rejected.

(* legalize_fixed_point_clz, 350-378.  The count of the n-bit unsigned type is
   only available for n = 32 (ml_count_leading_zeros_32b, generic_processor.py:732,
   0 for 0, ml_support_lib.h:134-136) and n = 64 (__builtin_clzl, 575-576,
   undefined for 0) *)
Definition c_clz (n x : Z) : cres Z :=
  if n =? 32 then Val (if x =? 0 then 0 else 31 - Z.log2 x)
  else if n =? 64 then (if x =? 0 then Undef else Val (63 - Z.log2 x))
  else Rejected.
Definition fixed_clz (Fi Fo : fxfmt) (k : Z) : cres Z :=
  match std_support Fi, std_support Fo with
  | Some Si, Some So =>
      let U := mkS (sbits Si) false in
      cbind (c_clz (sbits Si) (wrap U k)) (fun c =>
      cbind (c_arith U (wrap U c - (sbits Si - (isz Fi + frsz Fi)))) (fun r => Val (wrap So r)))
  | _, _ => Rejected
  end.
