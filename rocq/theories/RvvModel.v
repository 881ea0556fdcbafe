(* Model of the operation table of the RISC-V vector target:
   /repo/metalibm_core/targets/riscv/riscv_vector.py 180-283 (modifiers), 296-790 (table).

   An entry of the table is found from the operation, the type of its result and those of
   its operands; it gives the name of an intrinsic, whose suffix is an element type, and the
   order of its operands, or modifies the operation, which is searched again.  All types of
   an operation have the same group size and all operands are followed by the vector length:
   both are left out.  Left out: TypeCast between floating-point and integer elements, loads,
   stores and the seed of the reciprocal. *)
From Coq Require Import ZArith Bool List String.
From Verif Require Import LlvmModel.
Import ListNotations.
Open Scope string_scope.
Open Scope list_scope.
Open Scope Z_scope.

Inductive elt := F32 | F64 | S32 | S64 | U32 | U64.
Definition esize (e : elt) : Z := match e with F32 | S32 | U32 => 32 | _ => 64 end.
Definition is_fp (e : elt) : bool := match e with F32 | F64 => true | _ => false end.
Definition is_signed (e : elt) : bool := match e with S32 | S64 => true | _ => false end.
Definition is_unsigned (e : elt) : bool := match e with U32 | U64 => true | _ => false end.
Definition same (a b : elt) : bool :=
  match a, b with
  | F32, F32 | F64, F64 | S32, S32 | S64, S64 | U32, U32 | U64, U64 => true
  | _, _ => false
  end.
(* SUPPORT_FORMAT_MAP[True] and [False] *)
Definition to_signed_elt (e : elt) : elt := if esize e =? 32 then S32 else S64.
Definition to_unsigned_elt (e : elt) : elt := if esize e =? 32 then U32 else U64.
(* 180-195 getF2IResultType, getI2FResultType *)
Definition f2i (e : elt) : elt := if esize e =? 32 then S32 else S64.
Definition i2f (e : elt) : elt := if esize e =? 32 then F32 else F64.

(* a vector, a scalar, a mask for elements of n bits *)
Inductive kind := KV (e : elt) | KS (e : elt) | KM (n : Z).
Inductive code := Arg (i : nat) | App (name : string) (suffix : elt) (args : list code).

Inductive rop :=
| RAdd | RSub | RMul | RMod | RAnd | ROr | RNeg | RShl | RShr | RSra | RCast | RConv
| RNearest | RFloor | RTrunc | RSelect | RCmp (c : cmp) | RAbs | RMin | RMax | RFma (k : fma_kind).

(* 509-522 Splat *)
Definition splat (e : elt) (x : code) : code := App (if is_fp e then "vfmv_v_f" else "vmv_v_x") e [x].

(* the name of the intrinsic for a vector and a vector (vv), or a vector and a scalar (vf, vx) *)
Definition form (e : elt) (base : string) (scalar : bool) : string :=
  (base ++ (if scalar then (if is_fp e then "_vf" else "_vx") else "_vv"))%string.
Definition fname (e : elt) (fbase ibase : string) : string := if is_fp e then fbase else ibase.

Definition binary (e a b : elt) (name : string) (x y : code) : option code :=
  if same e a && same e b then Some (App name e [x; y]) else None.
Definition int_binary (e a b : elt) (name : string) (x y : code) : option code :=
  if negb (is_fp e) then binary e a b name x y else None.
Definition fp_binary (e a b : elt) (name : string) (x y : code) : option code :=
  if is_fp e then binary e a b name x y else None.

(* None: no entry *)
Fixpoint gen (fuel : nat) (o : rop) (out : kind) (ins : list (kind * code)) : option code :=
  match fuel with
  | O => None
  | S fuel =>
      match o, out, ins with
      (* 314-345 *)
      | RAdd, KV e, [(KV a, x); (KV b, y)] => binary e a b (form e (fname e "vfadd" "vadd") false) x y
      | RAdd, KV e, [(KV a, x); (KS b, y)] => binary e a b (form e (fname e "vfadd" "vadd") true) x y
      | RAdd, KV e, [(KS a, x); (KV b, y)] => if same e a && same e b then gen fuel RAdd out [(KV b, y); (KS a, x)] else None
      (* 346-358 *)
      | RMod, KV e, [(KV a, x); (KS b, y)] => int_binary e a b (form e (if is_signed e then "vrem" else "vremu") true) x y
      (* 360-378 *)
      | RSub, KV e, [(KV a, x); (KV b, y)] => binary e a b (form e (fname e "vfsub" "vsub") false) x y
      | RSub, KV e, [(KV a, x); (KS b, y)] => binary e a b (form e (fname e "vfsub" "vsub") true) x y
      | RSub, KV e, [(KS a, x); (KV b, y)] =>
          if is_fp e && same e a && same e b then gen fuel RSub out [(KV e, splat e x); (KV b, y)] else None
      (* 380-406 *)
      | RAnd, KV e, [(KV a, x); (KV b, y)] => int_binary e a b (form e "vand" false) x y
      | RAnd, KV e, [(KV a, x); (KS b, y)] => int_binary e a b (form e "vand" true) x y
      | ROr, KV e, [(KV a, x); (KV b, y)] => int_binary e a b (form e "vor" false) x y
      | ROr, KV e, [(KV a, x); (KS b, y)] => int_binary e a b (form e "vor" true) x y
      (* 408-433 *)
      | RMul, KV e, [(KV a, x); (KV b, y)] => fp_binary e a b (form e "vfmul" false) x y
      | RMul, KV e, [(KV a, x); (KS b, y)] => binary e a b (form e (fname e "vfmul" "vmul") true) x y
      | RMul, KV e, [(KS a, x); (KV b, y)] => if same e a && same e b then gen fuel RMul out [(KV b, y); (KS a, x)] else None
      (* 434-493: the entries are for all element types *)
      | RFma k, KV e, [(KV a, x); (KV b, y); (KV c, z)] =>
          if same e a && same e b && same e c then
            match k with
            | FmaStd => Some (App "vfmadd_vv" e [x; y; z])
            | FmaSub => Some (App "vfmsub_vv" e [x; y; z])
            | FmaSubNeg => Some (App "vfnmsub_vv" e [x; y; z])
            | FmaNeg => None
            end
          else None
      | RFma k, KV e, [(KV a, x); (KS b, y); (KV c, z)] =>
          if same e a && same e b && same e c then
            match k with
            | FmaStd => Some (App "vfmadd_vf" e [x; y; z])
            | FmaSub => Some (App "vfmsub_vf" e [x; y; z])
            | FmaSubNeg => Some (App "vfnmsub_vf" e [x; y; z])
            | FmaNeg => None
            end
          else None
      | RFma FmaStd, KV e, [(KS a, x); (KV b, y); (KV c, z)] =>
          if same e a && same e b && same e c then gen fuel o out [(KV b, y); (KS a, x); (KV c, z)] else None
      | RFma FmaStd, KV e, [(KV a, x); (KS b, y); (KS c, z)] =>
          if same e a && same e b && same e c then gen fuel o out [(KV a, x); (KS b, y); (KV e, splat e z)] else None
      | RFma FmaStd, KV e, [(KV a, x); (KV b, y); (KS c, z)] =>
          if same e a && same e b && same e c then gen fuel o out [(KV a, x); (KV b, y); (KV e, splat e z)] else None
      (* 494-508: typeCastInput for unsigned operands and a signed result *)
      | RNeg, KV e, [(KV a, x)] =>
          if same e a then Some (App (fname e "vfneg_v" "vneg_v") e [x])
          else if is_unsigned a && same e (to_signed_elt a) then gen fuel RNeg out [(KV e, App "vreinterpret_v" e [x])]
          else None
      (* 523-560: composeModifiers(typeCastOutput, typeCastInput) for signed elements *)
      | RShl, KV e, [(KV a, x); (KS b, y)] => int_binary e a b (form e "vsll" true) x y
      | RShr, KV e, [(KV a, x); (KS b, y)] =>
          if is_unsigned e && same e a && (same e b || same (to_signed_elt e) b) then Some (App (form e "vsrl" true) e [x; y])
          else if is_signed e && same e a && same e b then
            let u := to_unsigned_elt e in
            match gen fuel RShr (KV u) [(KV u, App "vreinterpret_v" u [x]); (KS b, y)] with
            | Some c => Some (App "vreinterpret_v" e [c])
            | None => None
            end
          else None
      | RSra, KV e, [(KV a, x); (KS b, y)] => int_binary e a b (form e "vsra" true) x y
      (* 561-569, the integer types *)
      | RCast, KV e, [(KV a, x)] =>
          if negb (is_fp e) && negb (is_fp a) && (esize e =? esize a) && negb (same e a) then Some (App "vreinterpret_v" e [x]) else None
      (* 570-581 *)
      | RConv, KV e, [(KV a, x)] =>
          if negb (is_fp a) && same e (i2f a) then Some (App "vfcvt_f_x_v" e [x])
          else if is_fp a && same e (f2i a) then Some (App "vfcvt_x_f_v" e [x])
          else None
      (* 582-621, 180-204 RVV_legalizeIntConversion *)
      | (RNearest | RFloor | RTrunc), KV e, [(KV a, x)] =>
          if is_fp a && same e (f2i a) then
            Some (App (match o with RNearest => "vfcvt_x_f_v" | _ => "vfcvt_rtz_x_f_v" end) e [x])
          else if is_fp a && same e a then
            match gen fuel o (KV (f2i a)) [(KV a, x)] with
            | Some c => gen fuel RConv out [(KV (f2i a), c)]
            | None => None
            end
          else None
      (* 652-673: the operands of the merge are the mask, the value when false and the value
         when true *)
      | RSelect, KV e, [(KM n, m); (KV a, x); (KV b, y)] =>
          if (n =? esize e) && same e a && same e b then Some (App "vmerge_vvm" e [m; y; x]) else None
      | RSelect, KV e, [(KM n, m); (KV a, x); (KS b, y)] =>
          if is_fp e && (n =? esize e) && same e a && same e b then gen fuel o out [(KM n, m); (KV a, x); (KV e, splat e y)] else None
      | RSelect, KV e, [(KM n, m); (KS a, x); (KV b, y)] =>
          if is_fp e && (n =? esize e) && same e a && same e b then Some (App "vfmerge_vfm" e [m; y; x]) else None
      | RSelect, KV e, [(KM n, m); (KS a, x); (KS b, y)] =>
          if is_fp e && (n =? esize e) && same e a && same e b then gen fuel o out [(KM n, m); (KV e, splat e x); (KS b, y)] else None
      (* 674-709 *)
      | RCmp c, KM n, [(KV a, x); (KV b, y)] =>
          if is_fp a && same a b && (n =? esize a) then
            match c with
            | CGt => Some (App "vmfgt_vv" a [x; y])
            | CLt => Some (App "vmflt_vv" a [x; y])
            | _ => None
            end
          else None
      | RCmp c, KM n, [(KV a, x); (KS b, y)] =>
          if same a b && (n =? esize a) then
            match c, is_fp a with
            | CGt, true => Some (App "vmfgt_vf" a [x; y])
            | CLt, true => Some (App "vmflt_vf" a [x; y])
            | CEq, false => Some (App "vmseq_vx" a [x; y])
            | _, _ => None
            end
          else None
      (* 717-775 *)
      | RAbs, KV e, [(KV a, x)] => if is_fp e && same e a then Some (App "vfabs_v" e [x]) else None
      | RMin, KV e, [(KV a, x); (KV b, y)] => fp_binary e a b "vfmin_vv" x y
      | RMin, KV e, [(KV a, x); (KS b, y)] => binary e a b (form e (fname e "vfmin" "vmin") true) x y
      | RMin, KV e, [(KS a, x); (KV b, y)] => if same e a && same e b then gen fuel o out [(KV b, y); (KS a, x)] else None
      | RMax, KV e, [(KV a, x); (KV b, y)] => fp_binary e a b "vfmax_vv" x y
      | RMax, KV e, [(KV a, x); (KS b, y)] => binary e a b (form e (fname e "vfmax" "vmax") true) x y
      | RMax, KV e, [(KS a, x); (KV b, y)] => if same e a && same e b then gen fuel o out [(KV b, y); (KS a, x)] else None
      | _, _, _ => None
      end
  end.

Fixpoint number (i : nat) (ks : list kind) : list (kind * code) :=
  match ks with [] => [] | k :: ks => (k, Arg i) :: number (S i) ks end.
(* code of an operation on operands of the given kinds *)
Definition rvv_code (o : rop) (out : kind) (ks : list kind) : option code := gen 4 o out (number 0 ks).
