(* Meaning of the RISC-V vector intrinsics, after the specification of the extension and of
   its C intrinsics, and of the Metalibm operations.  None: no such intrinsic, or an operand
   of another type (the C compiler rejects the call). *)
From Coq Require Import ZArith QArith Qabs Qround Bool List String.
From Verif Require Import QUtil FpFormatModel PowModel ExpModel Exp2Model CbrtModel LlvmModel LlvmSpec RvvModel.
Import ListNotations.
Open Scope string_scope.
Open Scope list_scope.
Open Scope Z_scope.

(* the elements: VI with the unsigned reading of the word, VF *)
Inductive rv := RV (e : elt) (l : list val) | RS (e : elt) (v : val) | RM (n : Z) (l : list bool).

Definition fmt_of_elt (e : elt) : fpfmt := if esize e =? 32 then ML_Binary32 else ML_Binary64.
Definition word (e : elt) (z : Z) : val := VI (z mod 2 ^ esize e).
Definition int_of (v : val) : Z := match v with VI z => z | _ => 0 end.
Definition fp_of (v : val) : fpv := match v with VF x => x | _ => QNaN end.
Definition sread (e : elt) (v : val) : Z := s_read (esize e) (int_of v).
(* value of an integer of type e *)
Definition ivalue (e : elt) (v : val) : Z := if is_signed e then sread e v else int_of v.

Definition map2 {A B C} (f : A -> B -> C) : list A -> list B -> list C :=
  fix go a b := match a, b with x :: a, y :: b => f x y :: go a b | _, _ => [] end.

(* vector minimum and maximum: a NaN is a missing datum, -0 is less than +0 *)
Definition f_before (a b : fpv) : bool :=
  match f_compare a b with
  | Some Lt => true
  | Some Eq => match a, b with PZero, MZero => false | _, _ => true end
  | _ => false
  end.
Definition quiet (v : fpv) : fpv := if t_nan v then QNaN else v.
Definition vfmin (a b : fpv) : fpv := if t_nan a then quiet b else if t_nan b then a else if f_before a b then a else b.
Definition vfmax (a b : fpv) : fpv := if t_nan a then quiet b else if t_nan b then a else if f_before a b then b else a.

(* binary intrinsics on lanes, by name without the form of the second operand *)
Definition lane2 (base : string) (e : elt) : option (val -> val -> val) :=
  let G := fmt_of_elt e in
  let i f := Some (fun x y => word e (f (int_of x) (int_of y))) in
  let s f := if is_signed e then Some (fun x y => word e (f (sread e x) (sread e y))) else None in
  let u f := if is_unsigned e then Some (fun x y => word e (f (int_of x) (int_of y))) else None in
  let fl f := Some (fun x y => VF (f (fp_of x) (fp_of y))) in
  let amount y := y mod esize e in
  if is_fp e then
    if String.eqb base "vfadd" then fl (f_add G)
    else if String.eqb base "vfsub" then fl (fun x y => f_add G x (f_opp y))
    else if String.eqb base "vfmul" then fl (f_mul G)
    else if String.eqb base "vfmin" then fl vfmin
    else if String.eqb base "vfmax" then fl vfmax
    else None
  else
    if String.eqb base "vadd" then i Z.add
    else if String.eqb base "vsub" then i Z.sub
    else if String.eqb base "vmul" then i Z.mul
    else if String.eqb base "vand" then i Z.land
    else if String.eqb base "vor" then i Z.lor
    else if String.eqb base "vsll" then i (fun x y => x * 2 ^ amount y)
    else if String.eqb base "vsrl" then u (fun x y => x / 2 ^ amount y)
    else if String.eqb base "vsra" then
      (if is_signed e then Some (fun x y => word e (sread e x / 2 ^ amount (int_of y))) else None)
    else if String.eqb base "vrem" then s (fun x y => if y =? 0 then x else Z.rem x y)
    else if String.eqb base "vremu" then u (fun x y => if y =? 0 then x else x mod y)
    else if String.eqb base "vmin" then s Z.min
    else if String.eqb base "vmax" then s Z.max
    else if String.eqb base "vminu" then u Z.min
    else if String.eqb base "vmaxu" then u Z.max
    else None.
Definition lane_cmp (base : string) (e : elt) : option (val -> val -> bool) :=
  let fl c := if is_fp e then Some (fun x y => match f_compare (fp_of x) (fp_of y) with Some r => holds c r | None => false end) else None in
  if String.eqb base "vmfgt" then fl CGt
  else if String.eqb base "vmflt" then fl CLt
  else if String.eqb base "vmseq" then (if is_fp e then None else Some (fun x y => int_of x =? int_of y))
  else None.
(* vd * vs1 +- vs2 *)
Definition lane3 (base : string) (e : elt) : option (val -> val -> val -> val) :=
  let G := fmt_of_elt e in
  let f k := if is_fp e then Some (fun x y z => VF (k (fp_of x) (fp_of y) (fp_of z))) else None in
  if String.eqb base "vfmadd" then f (fun x y z => f_fma G x y z)
  else if String.eqb base "vfmsub" then f (fun x y z => f_fma G x y (f_opp z))
  else if String.eqb base "vfnmsub" then f (fun x y z => f_fma G (f_opp x) y z)
  else if String.eqb base "vfnmadd" then f (fun x y z => f_fma G (f_opp x) y (f_opp z))
  else None.
(* conversions to integers saturate *)
Definition clamp (n z : Z) : Z := Z.max (- 2 ^ (n - 1)) (Z.min (2 ^ (n - 1) - 1) z).
Definition fcvt (rnd : Q -> Z) (n : Z) (v : fpv) : Z :=
  match v with
  | Num q => clamp n (rnd q)
  | PZero | MZero => 0
  | MInf => - 2 ^ (n - 1)
  | _ => 2 ^ (n - 1) - 1
  end.
Definition int_to_fp (e : elt) (z : Z) : fpv := datum (sollya_round (fmt_of_elt e) (inject_Z z)) (z <? 0).

(* unary intrinsics: type of the operand, lane *)
Definition lane1 (name : string) (e a : elt) : option (val -> val) :=
  let sized := esize e =? esize a in
  if String.eqb name "vfneg_v" then (if is_fp e && same e a then Some (fun x => VF (f_opp (fp_of x))) else None)
  else if String.eqb name "vfabs_v" then (if is_fp e && same e a then Some (fun x => VF (if f_neg (fp_of x) then f_opp (fp_of x) else fp_of x)) else None)
  else if String.eqb name "vneg_v" then (if is_signed e && same e a then Some (fun x => word e (- int_of x)) else None)
  else if String.eqb name "vreinterpret_v" then (if negb (is_fp e) && negb (is_fp a) && sized then Some (fun x => x) else None)
  else if String.eqb name "vfcvt_f_x_v" then (if is_fp e && is_signed a && sized then Some (fun x => VF (int_to_fp e (sread a x))) else None)
  else if String.eqb name "vfcvt_f_xu_v" then (if is_fp e && is_unsigned a && sized then Some (fun x => VF (int_to_fp e (int_of x))) else None)
  else if String.eqb name "vfcvt_x_f_v" then (if is_signed e && is_fp a && sized then Some (fun x => word e (fcvt qrne (esize e) (fp_of x))) else None)
  else if String.eqb name "vfcvt_rtz_x_f_v" then (if is_signed e && is_fp a && sized then Some (fun x => word e (fcvt qtrunc (esize e) (fp_of x))) else None)
  else None.

Definition suffix_is (s t : string) : option string :=
  let n := (String.length s - String.length t)%nat in
  if String.eqb (substring n (String.length t) s) t then Some (substring 0 n s) else None.

(* the scalar of a shift is a size_t: any integer is accepted there *)
Definition is_shift (base : string) : bool := String.eqb base "vsll" || String.eqb base "vsrl" || String.eqb base "vsra".
Definition scalar_ok (base : string) (e b : elt) : bool := same e b || (is_shift base && negb (is_fp b)).

Definition call2 (name : string) (e : elt) (l : list val) (second : rv) : option rv :=
  match second with
  | RV b l2 =>
      match suffix_is name "_vv" with
      | Some base =>
          if same e b then
            match lane2 base e, lane_cmp base e with
            | Some f, _ => Some (RV e (map2 f l l2))
            | None, Some f => Some (RM (esize e) (map2 f l l2))
            | None, None => None
            end
          else None
      | None => None
      end
  | RS b v =>
      match suffix_is name (if is_fp e then "_vf" else "_vx") with
      | Some base =>
          if scalar_ok base e b then
            match lane2 base e, lane_cmp base e with
            | Some f, _ => Some (RV e (map (fun x => f x v) l))
            | None, Some f => Some (RM (esize e) (map (fun x => f x v) l))
            | None, None => None
            end
          else None
      | None => None
      end
  | RM _ _ => None
  end.

Definition call (vl : nat) (name : string) (e : elt) (args : list rv) : option rv :=
  match args with
  | [RS a v] =>
      if same e a && String.eqb name (if is_fp e then "vfmv_v_f" else "vmv_v_x") then Some (RV e (repeat v vl)) else None
  | [RV a l] => match lane1 name e a with Some f => Some (RV e (map f l)) | None => None end
  | [RV a l; second] => if same e a then call2 name e l second else None
  | [RV a l; RV b l2; RV c l3] =>
      match suffix_is name "_vv" with
      | Some base =>
          if same e a && same e b && same e c then
            option_map (fun f => RV e (map2 (fun x yz => f x (fst yz) (snd yz)) l (map2 pair l2 l3))) (lane3 base e)
          else None
      | None => None
      end
  | [RV a l; RS b v; RV c l3] =>
      match suffix_is name "_vf" with
      | Some base => if same e a && same e b && same e c then option_map (fun f => RV e (map2 (fun x z => f x v z) l l3)) (lane3 base e) else None
      | None => None
      end
  (* op1 where the mask is false, op2 where it is true *)
  | [RM n m; RV a l1; RV b l2] =>
      if String.eqb name "vmerge_vvm" && (n =? esize e) && same e a && same e b
      then Some (RV e (map2 (fun b xy => if b : bool then snd xy else fst xy) m (map2 pair l1 l2))) else None
  | [RM n m; RV a l1; RS b v] =>
      if String.eqb name "vfmerge_vfm" && is_fp e && (n =? esize e) && same e a && same e b
      then Some (RV e (map2 (fun b x => if b : bool then v else x) m l1)) else None
  | _ => None
  end.

Fixpoint run_code (vl : nat) (args : list rv) (c : code) : option rv :=
  match c with
  | Arg i => nth_error args i
  | App name e l =>
      match (fix go (l : list code) : option (list rv) :=
               match l with
               | [] => Some []
               | c :: l => match run_code vl args c, go l with Some v, Some r => Some (v :: r) | _, _ => None end
               end) l with
      | Some vs => call vl name e vs
      | None => None
      end
  end.

(* ---- the operations, on one lane *)
Definition fp_class (e : elt) (v : val) : Prop :=
  match v with VF _ => is_fp e = true | VI z => is_fp e = false /\ 0 <= z < 2 ^ esize e | VV _ => False end.
Definition typed (vl : nat) (k : kind) (v : rv) : Prop :=
  match k, v with
  | KV e, RV a l => a = e /\ List.length l = vl /\ Forall (fp_class e) l
  | KS e, RS a x => a = e /\ fp_class e x
  | KM n, RM m l => m = n /\ List.length l = vl
  | _, _ => False
  end.
(* what a lane reads of an operand *)
Definition at_lane (i : nat) (v : rv) : val :=
  match v with RV _ l => nth i l (VI 0) | RS _ x => x | RM _ l => VI (if nth i l false then 1 else 0) end.

(* rounding to an integer in the format: the sign of a null result is that of the operand *)
Definition f_round (rnd : Q -> Z) (v : fpv) : fpv :=
  match v with
  | Num q => if rnd q =? 0 then f_zero (f_neg v) else Num (inject_Z (rnd q))
  | SNaN => QNaN
  | v => v
  end.
(* the integer of a datum, when it fits *)
Definition to_int (rnd : Q -> Z) (n : Z) (v : fpv) : option Z :=
  match v with
  | Num q => if (- 2 ^ (n - 1) <=? rnd q) && (rnd q <? 2 ^ (n - 1)) then Some (rnd q) else None
  | PZero | MZero => Some 0
  | _ => None
  end.
(* equal as numbers *)
Definition same_datum (a b : fpv) : Prop := match a, b with Num p, Num q => (p == q)%Q | _, _ => a = b end.
Definition lane_rounding (o : rop) : Q -> Z :=
  match o with RNearest => qrne | RFloor => Qfloor | _ => qtrunc end.
(* a minimum: one of the data, before both; a NaN only when both are *)
Definition extremum (le : fpv -> fpv -> bool) (a b r : fpv) : Prop :=
  if t_nan a then (if t_nan b then t_nan r = true else r = b)
  else if t_nan b then r = a
  else (r = a \/ r = b) /\ le r a = true /\ le r b = true.
Definition f_le (a b : fpv) : bool := match f_compare a b with Some (Lt | Eq) => true | _ => false end.

(* out: type of the result (of the operands for a comparison), a: of the first operand;
   undefined cases are left free *)
Definition means (o : rop) (e a : elt) (xs : list val) (r : val) : Prop :=
  let G := fmt_of_elt e in
  match o, xs with
  | RAdd, [VI x; VI y] => r = word e (x + y)
  | RSub, [VI x; VI y] => r = word e (x - y)
  | RMul, [VI x; VI y] => r = word e (x * y)
  | RAdd, [VF x; VF y] => r = VF (f_add G x y)
  | RSub, [VF x; VF y] => r = VF (f_add G x (f_opp y))
  | RMul, [VF x; VF y] => r = VF (f_mul G x y)
  | RMod, [VI x; VI y] => y <> 0 -> r = word e (Z.rem (ivalue e (VI x)) (ivalue e (VI y)))
  | RAnd, [VI x; VI y] => r = VI (Z.land x y)
  | ROr, [VI x; VI y] => r = VI (Z.lor x y)
  | RNeg, [VI x] => r = word e (- x)
  | RNeg, [VF x] => r = VF (f_opp x)
  | RShl, [VI x; VI y] => y < esize e -> r = word e (x * 2 ^ y)
  | RShr, [VI x; VI y] => y < esize e -> r = VI (x / 2 ^ y)
  | RSra, [VI x; VI y] => y < esize e -> r = word e (sread e (VI x) / 2 ^ y)
  | RCast, [VI x] => r = VI x
  | RConv, [VI x] => r = VF (int_to_fp e (ivalue a (VI x)))
  (* C conversion of a floating-point datum *)
  | RConv, [VF x] => forall z, to_int qtrunc (esize e) x = Some z -> r = word e z
  | (RNearest | RFloor | RTrunc), [VF x] =>
      if is_fp e then exists y, r = VF y /\ same_datum y (f_round (lane_rounding o) x)
      else forall z, to_int (lane_rounding o) (esize e) x = Some z -> r = word e z
  | RSelect, [VI c; x; y] => r = if c =? 0 then y else x
  | RCmp c, [VF x; VF y] => r = bit (fp_holds c x y)
  | RCmp c, [VI x; VI y] => r = bit (holds c (Z.compare (ivalue a (VI x)) (ivalue a (VI y))))
  | RAbs, [VF x] => r = VF (if f_neg x then f_opp x else x)
  | RMin, [VI x; VI y] => exists z, r = VI z /\ ivalue e r = Z.min (ivalue e (VI x)) (ivalue e (VI y))
  | RMax, [VI x; VI y] => exists z, r = VI z /\ ivalue e r = Z.max (ivalue e (VI x)) (ivalue e (VI y))
  | RMin, [VF x; VF y] => exists z, r = VF z /\ extremum f_le x y z
  | RMax, [VF x; VF y] => exists z, r = VF z /\ extremum (fun a b => f_le b a) x y z
  | RFma k, [VF x; VF y; VF z] => r = VF (fma_of G k x y z)
  | _, _ => False
  end.
