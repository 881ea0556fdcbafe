(* Model of the lowering of fixed-point operations to VHDL bit vectors, of the
   VHDL constants, and of the slice simplifications.
   Sources: /repo/metalibm_core/code_generation/vhdl_backend.py,
   /repo/metalibm_hw_blocks/rtl_blocks.py, /repo/metalibm_core/core/ml_hdl_format.py,
   /repo/metalibm_core/opt/p_simplify_rtl.py.
   A std_logic_vector is a width and the unsigned integer it spells; the code
   builds expressions, the model directly computes the vector they denote.
   Trusted reading of VHDL: & is concatenation, (h downto l) a slice, signed and
   unsigned + and - work modulo the common width, * is exact on the sum of the
   widths (plus one for a mixed product), comparisons of signed/unsigned vectors
   compare the integers. *)
Require Import ZArith QArith Bool List.
From Verif Require Import QUtil FixedModel SizingModel.
Import ListNotations.
Open Scope Z_scope.

Record bv := mkbv { bw : Z; bval : Z }.

(* integer spelled by a vector read as signed / unsigned *)
Definition bv_num (signed : bool) (a : bv) : Z :=
  if signed && Z.testbit (bval a) (bw a - 1) then bval a - 2 ^ bw a else bval a.

(* rtl_blocks.py 34-46 and zext_modifier, vhdl_backend.py 166-190 *)
Definition zext (a : bv) (s : Z) : bv :=
  if s =? 0 then a else mkbv (bw a + s) (bval a).
(* rtl_blocks.py 60-69 and sext_modifier, vhdl_backend.py 195-224 *)
Definition sext (a : bv) (s : Z) : bv :=
  if s =? 0 then a
  else mkbv (bw a + s) ((if Z.testbit (bval a) (bw a - 1) then 2 ^ s - 1 else 0) * 2 ^ bw a + bval a).
(* rtl_blocks.py 72-81 *)
Definition rzext (a : bv) (s : Z) : bv :=
  if s =? 0 then a else mkbv (bw a + s) (bval a * 2 ^ s).
(* a(hi downto lo), vhdl_backend.py 308-328 *)
Definition slice (a : bv) (lo hi : Z) : bv :=
  mkbv (hi - lo + 1) (Z.shiftr (bval a) lo mod 2 ^ (hi - lo + 1)).

(* adapt_fixed_optree, vhdl_backend.py 528-571: a raw vector with i integer and
   f fraction bits is adapted to the format O *)
Definition adapt_fixed (a : bv) (i f : Z) (O : fxfmt) : bv :=
  let md := isz O - i in
  let a := if 0 <=? md then (if sgn O then sext a md else zext a md)
           else slice a 0 (f + i - 1 + md) in
  let ld := frsz O - f in
  if 0 <=? ld then rzext a ld else slice a (- ld) (bw a - 1).

(* fixed_point_op_modifier, vhdl_backend.py 576-655 (operands already having a
   fixed-point format) *)
Definition rtl_ext (F : fxfmt) (a : bv) (i f : Z) : bv :=
  let a := rzext a (f - frsz F) in
  if sgn F then sext a (i - isz F) else zext a (i - isz F).
Definition rtl_addsub (op : Z -> Z -> Z) (L R O : fxfmt) (a b : bv) : bv :=
  let f := Z.max (frsz L) (frsz R) in
  let i := Z.max (isz L) (isz R) + 1 in
  let s := sgn L || sgn R in
  let la := rtl_ext L a i f in
  let rb := rtl_ext R b i f in
  let raw := mkbv (f + i) (op (bv_num s la) (bv_num s rb) mod 2 ^ (f + i)) in
  adapt_fixed raw i f O.
Definition rtl_add := rtl_addsub Z.add.
Definition rtl_sub := rtl_addsub Z.sub.

(* fixed_point_mul_modifier, vhdl_backend.py 658-721 *)
Definition rtl_mul (L R O : fxfmt) (a b : bv) : bv :=
  let f := frsz L + frsz R in
  let i := isz L + isz R + (if xorb (sgn L) (sgn R) then 1 else 0) in
  let raw := mkbv (f + i) ((bv_num (sgn L) a * bv_num (sgn R) b) mod 2 ^ (f + i)) in
  adapt_fixed raw i f O.

(* fixed_conversion_modifier, vhdl_backend.py 350-405 *)
Definition rtl_conv (A O : fxfmt) (a : bv) : bv :=
  let ie := isz O - isz A in
  let a := if 0 <? ie then (if sgn A then sext a ie else zext a ie)
           else if ie <? 0 then slice a 0 (bw a - 1 + ie) else a in
  let fe := frsz O - frsz A in
  if 0 <? fe then rzext a fe
  else if fe <? 0 then slice a (- fe) (bw a - 1) else a.

(* convert_if_needed 470-477, test_format_equality (rtl_fixed_point_utils.py
   51-60) *)
Definition fx_eqb (A B : fxfmt) : bool :=
  (isz A =? isz B) && (frsz A =? frsz B) && Bool.eqb (sgn A) (sgn B).
Definition convert_if_needed (A O : fxfmt) (a : bv) : bv :=
  if fx_eqb A O then a else rtl_conv A O a.

(* fixed_comparison_modifier, vhdl_backend.py 483-525: both operands are brought
   to the common format, then read with their own signedness; [rel] is the
   VHDL relation applied to the integers *)
Definition rtl_compare (rel : Z -> Z -> bool) (L R : fxfmt) (a b : bv) : bool :=
  let U := largest_fixed L R in
  rel (bv_num (sgn L) (convert_if_needed L U a)) (bv_num (sgn R) (convert_if_needed R U b)).

(* fixed_point_negation_modifier 247-266 over negation_modifer 227-245:
   conversion to the output format, then not(x) + 1 *)
Definition rtl_neg (A O : fxfmt) (a : bv) : bv :=
  let c := rtl_conv A O a in
  mkbv (bw c) ((2 ^ bw c - 1 - bval c + 1) mod 2 ^ bw c).

(* shift_by_cst_legalizer, vhdl_backend.py 110-163 *)
Inductive shkind := ShiftRightLogic | ShiftRightArith | ShiftLeft.
Definition rtl_shift_cst (k : shkind) (a : bv) (s : Z) : bv :=
  if s =? 0 then a
  else match k with
  | ShiftRightLogic =>
      let b := slice a s (bw a - 1) in mkbv (s + bw b) (0 * 2 ^ bw b + bval b)
  | ShiftRightArith =>
      let b := slice a s (bw a - 1) in
      mkbv (s + bw b) ((if Z.testbit (bval a) (bw a - 1) then 2 ^ s - 1 else 0) * 2 ^ bw b + bval b)
  | ShiftLeft =>
      let b := slice a 0 (bw a - 1 - s) in mkbv (bw b + s) (bval b * 2 ^ s + 0)
  end.

(* conversion_legalizer, vhdl_backend.py 833-858 *)
Definition rtl_slv_conv (a : bv) (n : Z) : bv :=
  if bw a =? n then a
  else if n <? bw a then slice a 0 (n - 1)
  else mkbv n (bval a).

(* ---- VHDL constants, ml_hdl_format.py 73-96 ---- *)

(* the literals: '0'/'1', X"..." and "..." ; characters are digit values *)
Inductive vlit := LChar (d : Z) | LHex (l : list Z) | LBin (l : list Z).

(* digits of hex(v)[2:] / bin(v)[2:], most significant first, v >= 0 *)
Fixpoint digits (b : Z) (fuel : nat) (v : Z) (acc : list Z) : list Z :=
  match fuel with
  | O => acc
  | S n => if v <? b then v :: acc else digits b n (v / b) (v mod b :: acc)
  end.
Definition py_digits (b v : Z) : list Z := digits b (S (Z.to_nat (Z.log2 v))) v [].
(* str.zfill *)
Definition zfill (n : Z) (l : list Z) : list Z :=
  repeat 0 (Z.to_nat (n - Z.of_nat (length l))) ++ l.

(* generic_get_vhdl_cst; None for the failing assertions *)
Definition vhdl_cst (v : Z) (n : Z) (is_std_logic : bool) : option vlit :=
  let v := Z.land v (2 ^ n - 1) in
  if n <=? 0 then None
  else if is_std_logic then
    if n =? 1 then match py_digits 2 v with [d] => Some (LChar d) | _ => None end else None
  else if n mod 4 =? 0 then Some (LHex (zfill (n / 4) (py_digits 16 v)))
  else Some (LBin (zfill n (py_digits 2 v))).

(* RTL_FixedPointFormat.get_vhdl_cst, ml_hdl_format.py 141-143 *)
Definition vhdl_fixed_cst (F : fxfmt) (v : Q) (is_std_logic : bool) : option vlit :=
  vhdl_cst (qtrunc (v * p2 (frsz F))%Q) (fx_bits F) is_std_logic.

(* ---- p_simplify_rtl.py ---- *)

(* nodes: a signal, a constant (value, fraction size of its format: 0 for
   std_logic_vector), SubSignalSelection, VectorElementSelection *)
Inductive rnode :=
| RSig (id : Z)
| RCst (v : Z) (frac : Z)
| RSlice (n : rnode) (lo hi : Z)
| RBit (n : rnode) (i : Z).

(* BasicSimplifier.simplify_node, p_simplify_rtl.py 58-99; the memoization map
   only avoids recomputation.  None stands for the ValueError of a negative
   shift count. *)
Fixpoint simplify_rtl (fuel : nat) (n : rnode) : option rnode :=
  match fuel with
  | O => None
  | S k =>
    match n with
    | RSlice m lo hi =>
        match simplify_rtl k m with
        | None => None
        | Some (RSlice p plo phi) =>
            match simplify_rtl k p with
            | None => None
            | Some p' => Some (RSlice p' (plo + lo) (plo + hi))
            end
        | Some _ => Some n
        end
    | RBit m i =>
        match simplify_rtl k m with
        | None => None
        | Some (RSlice p plo phi) => Some (RBit p (plo + i))
        | Some (RCst v f) =>
            if i - f <? 0 then None else Some (RCst (Z.land (Z.shiftr v (i + - f)) 1) 0)
        | Some _ => Some n
        end
    | _ => Some n
    end
  end.

(* a recursion depth that is always sufficient *)
Fixpoint rdepth (n : rnode) : nat :=
  match n with RSlice m _ _ | RBit m _ => S (rdepth m) | _ => O end.
Definition rtl_simplify (n : rnode) : option rnode := simplify_rtl (S (rdepth n)) n.

(* ml_hdl_format.py 68-71 get_2scomplement_neg: None is the failing assert *)
Definition get_2scomplement_neg (value size : Z) : option Z :=
  let v := Z.abs value in
  if v <? 2 ^ (size - 1) - 1 then Some (Z.lnot v + 1) else None.
