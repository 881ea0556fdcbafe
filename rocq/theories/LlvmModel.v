(* Model of the instruction selection for LLVM-IR:
   /repo/metalibm_core/targets/common/llvm_ir.py 84-705 (table of the operators),
   code_generation/llvm_utils.py 45-81 (types), code_generation/generators/
   llvm_ir_code_generator.py 190-245, 400-420 (constants, assignments),
   core/legalizer.py 713-740 (legalize_fma_to_std), 100-125 (minmax_legalizer).

   A generated line is a structured instruction: opcode, predicate, intrinsic names and
   literals stay the strings of the table; %names are positions in the list of the
   previous results, the operands of the operation first.  The tests of the floating-point
   class, the comparison of signs, the seed and the insertion of the exponent are expanded
   by functions modelled elsewhere (SupportModel.v, SpecialModel.v, DivModel.v) and left
   out here, as are pointers and loads. *)
From Coq Require Import ZArith QArith Bool List String.
From Verif Require Import QUtil FpFormatModel PowModel ExpModel Exp2Model CbrtModel LogicModel.
Import ListNotations.
Open Scope string_scope.
Open Scope list_scope.
Open Scope Z_scope.

(* ---- formats of Metalibm and types of LLVM *)
Inductive fmt := FBool | FInt (n : Z) | FB32 | FB64 | FVec (k : nat) (f : fmt).
Inductive ty := TInt (n : Z) | TFloat | TDouble | TVec (k : nat) (t : ty).

(* llvm_utils.py 45-70; None: KeyError *)
Definition scalar_ty (f : fmt) : option ty :=
  match f with
  | FBool => Some (TInt 1)
  | FInt n => if (n =? 32) || (n =? 64) || (n =? 128) || (n =? 256) then Some (TInt n) else None
  | FB32 => Some TFloat
  | FB64 => Some TDouble
  | FVec _ _ => None
  end.
Definition vector_elt (f : fmt) : bool :=
  match f with FBool | FB32 | FB64 => true | FInt n => (n =? 32) || (n =? 64) | FVec _ _ => false end.
Definition vector_len (k : nat) : bool := Nat.eqb k 2 || Nat.eqb k 4 || Nat.eqb k 8.
Definition llvm_ir_format (f : fmt) : option ty :=
  match f with
  | FVec k e => if vector_len k && vector_elt e then option_map (TVec k) (scalar_ty e) else None
  | f => scalar_ty f
  end.
(* ML_FP_Format.is_fp_format: a vector format is not one *)
Definition is_fp_format (f : fmt) : bool := match f with FB32 | FB64 => true | _ => false end.

(* ---- generated instructions *)
Inductive operand := Res (i : nat) | Lit (s : string).
Inductive instr :=
| Bin (op : string) (t : ty) (a b : operand)            (* op t a, b *)
| Icmp (pred : string) (t : ty) (a b : operand)         (* icmp pred t a, b *)
| Fcmp (pred : string) (t : ty) (a b : operand)
| Cast (op : string) (src : ty) (a : operand) (dst : ty)  (* op src a to dst *)
| Call (name : string) (ret : ty) (args : list (ty * operand)).

Inductive cmp := CEq | CNe | CGt | CGe | CLt | CLe.
Inductive fma_kind := FmaStd | FmaSub | FmaNeg | FmaSubNeg.
Inductive oper :=
| OAdd | OSub | OMul | ONeg | OBitAnd | OLAnd | OLOr | OLNot | OShl | OShr
| OComp (c : cmp) | ONearest | OConv | OCastBits | OMaskNotAnyZero | OFma (k : fma_kind).

Definition ibin (op : string) (f : fmt) : option (list instr) :=
  option_map (fun t => [Bin op t (Res 0) (Res 1)]) (llvm_ir_format f).

(* 84-96 llvm_negation_function *)
Definition neg_literal (f : fmt) : string := if is_fp_format f then "0.0" else "0".
Definition neg_instr (f : fmt) (t : ty) (a : operand) : instr :=
  Bin (if is_fp_format f then "fsub" else "sub") t (Lit (neg_literal f)) a.
(* 98-109 llvm_not_function *)
Definition not_instr (t : ty) : instr := Bin "xor" t (Lit "1") (Res 0).

(* 603-628 predicates of the comparisons *)
Definition fpred (c : cmp) : string :=
  match c with CGe => "oge" | CGt => "ogt" | CLt => "olt" | CLe => "ole" | CEq => "oeq" | CNe => "ne" end.
Definition ipred (c : cmp) : string :=
  match c with CGe => "ge" | CGt => "sgt" | CLt => "slt" | CLe => "sle" | CEq => "eq" | CNe => "ne" end.

(* members of the lists of formats of the table *)
Definition int_list (f : fmt) : bool :=
  match f with
  | FInt n => (n =? 32) || (n =? 64)
  | FVec k (FInt n) => vector_len k && ((n =? 32) || (n =? 64))
  | _ => false
  end.
Definition fp_list (f : fmt) : bool :=
  match f with FB32 | FB64 => true | FVec k (FB32 | FB64) => vector_len k | _ => false end.
Definition bool_list (f : fmt) : bool :=
  match f with FBool => true | FVec k FBool => vector_len k | _ => false end.

(* 312-338, 713-740: the operands and the sign around a standard FMA.  The legalized nodes
   are expanded again by the table: a Negation is the subtraction of 84-96 *)
Definition fma_code (f : fmt) (t : ty) (name : string) (k : fma_kind) : list instr :=
  let fma a b c := Call name t [(t, a); (t, b); (t, c)] in
  match k with
  | FmaStd => [fma (Res 0) (Res 1) (Res 2)]
  | FmaNeg => [fma (Res 0) (Res 1) (Res 2); neg_instr f t (Res 3)]
  | FmaSub => [neg_instr f t (Res 2); fma (Res 0) (Res 1) (Res 3)]
  | FmaSubNeg => [neg_instr f t (Res 0); fma (Res 3) (Res 1) (Res 2)]
  end.

(* the table; fo is the format of the result, fi that of the operands; None: no entry *)
Definition select (o : oper) (fo fi : fmt) : option (list instr) :=
  match o with
  | OAdd => if int_list fi then ibin "add" fi else if fp_list fi then ibin "fadd" fi else None
  | OSub => if int_list fi then ibin "sub" fi else if fp_list fi then ibin "fsub" fi else None
  | OMul => if int_list fi then ibin "mul" fi else if fp_list fi then ibin "fmul" fi else None
  | ONeg => if int_list fi || fp_list fi then option_map (fun t => [neg_instr fi t (Res 0)]) (llvm_ir_format fi) else None
  | OBitAnd => if int_list fi then ibin "and" fi else None
  | OLAnd => if bool_list fi then ibin "and" fi else None
  | OLOr => if bool_list fi then ibin "or" fi else None
  | OLNot => if bool_list fi then option_map (fun t => [not_instr t]) (llvm_ir_format fi) else None
  | OShr => if int_list fi then ibin "lshr" fi else None
  | OShl => if int_list fi then ibin "shl" fi else None
  (* 203-228 generate_comp_mapping *)
  | OComp c =>
      match fo, fi with
      | FBool, (FB32 | FB64) | FVec 4 FBool, FVec 4 (FB32 | FB64) =>
          option_map (fun t => [Fcmp (fpred c) t (Res 0) (Res 1)]) (llvm_ir_format fi)
      | FBool, FInt n => option_map (fun t => [Icmp (ipred c) t (Res 0) (Res 1)]) (llvm_ir_format fi)
      | FVec 4 FBool, FVec 4 (FInt 32) => option_map (fun t => [Icmp (ipred c) t (Res 0) (Res 1)]) (llvm_ir_format fi)
      | _, _ => None
      end
  (* 289-311 *)
  | ONearest =>
      match fo, fi with
      | FInt 32, FB32 => Some [Cast "fptosi" TFloat (Res 0) (TInt 32)]
      | FB32, FB32 => Some [Call "llvm.nearbyint.f32" TFloat [(TFloat, Res 0)]]
      | FInt 64, FB64 => Some [Cast "fptosi" TFloat (Res 0) (TInt 64)]
      | FB64, FB64 => Some [Call "llvm.nearbyint.f64" TDouble [(TDouble, Res 0)]]
      | FVec 4 FB32, FVec 4 FB32 => Some [Call "llvm.nearbyint.f32" (TVec 4 TFloat) [(TVec 4 TFloat, Res 0)]]
      | FVec 4 (FInt 32), FVec 4 FB32 => Some [Cast "fptosi" (TVec 4 TFloat) (Res 0) (TVec 4 (TInt 32))]
      | _, _ => None
      end
  (* 275-287 *)
  | OConv =>
      match fo, fi with
      | FInt 64, FInt 32 => Some [Cast "sext" (TInt 32) (Res 0) (TInt 64)]
      | FVec k (FInt 32), FVec j FBool =>
          if vector_len k && Nat.eqb k j then Some [Cast "sext" (TVec k (TInt 1)) (Res 0) (TVec k (TInt 32))] else None
      | _, _ => None
      end
  (* 507-530, the casts from vectors of integers *)
  | OCastBits =>
      match fo, fi with
      | FInt 128, FVec 4 (FInt 32) => Some [Cast "bitcast" (TVec 4 (TInt 32)) (Res 0) (TInt 128)]
      | FInt 256, FVec 8 (FInt 32) => Some [Cast "bitcast" (TVec 8 (TInt 32)) (Res 0) (TInt 256)]
      | _, _ => None
      end
  (* 247-271 legalize_vector_reduction_test, 680-685: Comparison(TypeCast(Conversion), 0, Equal) *)
  | OMaskNotAnyZero =>
      match fo, fi with
      | FBool, FVec 4 FBool =>
          Some [Cast "sext" (TVec 4 (TInt 1)) (Res 0) (TVec 4 (TInt 32));
                Cast "bitcast" (TVec 4 (TInt 32)) (Res 1) (TInt 128);
                Icmp (ipred CEq) (TInt 128) (Res 2) (Lit "0")]
      | _, _ => None
      end
  | OFma k =>
      match fi with
      | FB32 => Some (fma_code fi TFloat "llvm.fma.f32" k)
      | FB64 => Some (fma_code fi TDouble "llvm.fma.f64" k)
      | _ => None
      end
  end.

(* llvm_ir_code_generator.py 403-411: the value assigned for a constant is constant + 0;
   190-213: the literal of a scalar constant denotes the constant *)
Definition assigned_constant (G : fpfmt) (c : fpv) : fpv := f_add G c PZero.

(* core/legalizer.py 100-125: min and max of two data *)
Definition legalized_minmax (before : fpv -> fpv -> bool) (a b : fpv) : fpv := if before a b then a else b.
