(* Meaning of the LLVM instructions, after the language reference, and of the Metalibm
   operations.  None: an instruction the LLVM assembler rejects, or a poison value. *)
From Coq Require Import ZArith QArith Qabs Bool List String.
From Verif Require Import QUtil FpFormatModel PowModel ExpModel Exp2Model CbrtModel LlvmModel.
Import ListNotations.
Open Scope string_scope.
Open Scope list_scope.
Open Scope Z_scope.

(* integers are held unsigned *)
Inductive val := VI (z : Z) | VF (v : fpv) | VV (l : list val).

Fixpoint ty_eqb (a b : ty) : bool :=
  match a, b with
  | TInt n, TInt m => n =? m
  | TFloat, TFloat | TDouble, TDouble => true
  | TVec j a, TVec k b => Nat.eqb j k && ty_eqb a b
  | _, _ => false
  end.
Definition s_read (n z : Z) : Z := if 2 ^ (n - 1) <=? z then z - 2 ^ n else z.
Definition bit (b : bool) : val := VI (if b then 1 else 0).

(* comparison of data, None when unordered *)
Definition f_compare (a b : fpv) : option comparison :=
  let rank v := match v with MInf => -1 | PInf => 1 | _ => 0 end in
  if t_nan a || t_nan b then None
  else if (rank a =? 0) && (rank b =? 0) then Some (Qcompare (f_q a) (f_q b))
  else Some (rank a ?= rank b).
Definition holds (c : cmp) (r : comparison) : bool :=
  match c, r with
  | CEq, Eq | CGt, Gt | CLt, Lt | CNe, (Lt | Gt) | CGe, (Gt | Eq) | CLe, (Lt | Eq) => true
  | _, _ => false
  end.

(* literals: a decimal integer for an integer type, a decimal with a point for a
   floating-point type, no scalar literal for a vector type *)
Definition lit_val (t : ty) (s : string) : option val :=
  match t with
  | TInt _ => if String.eqb s "0" then Some (VI 0) else if String.eqb s "1" then Some (VI 1) else None
  | TFloat | TDouble => if String.eqb s "0.0" then Some (VF PZero) else None
  | TVec _ _ => None
  end.

Definition flt (t : ty) : option fpfmt :=
  match t with TFloat => Some ML_Binary32 | TDouble => Some ML_Binary64 | _ => None end.

(* binary instructions on scalars; a shift by the width or more is poison *)
Definition bin_scalar (op : string) (t : ty) (a b : val) : option val :=
  match t, a, b with
  | TInt n, VI x, VI y =>
      if String.eqb op "add" then Some (VI ((x + y) mod 2 ^ n))
      else if String.eqb op "sub" then Some (VI ((x - y) mod 2 ^ n))
      else if String.eqb op "mul" then Some (VI ((x * y) mod 2 ^ n))
      else if String.eqb op "and" then Some (VI (Z.land x y))
      else if String.eqb op "or" then Some (VI (Z.lor x y))
      else if String.eqb op "xor" then Some (VI (Z.lxor x y))
      else if String.eqb op "shl" then (if y <? n then Some (VI ((x * 2 ^ y) mod 2 ^ n)) else None)
      else if String.eqb op "lshr" then (if y <? n then Some (VI (x / 2 ^ y)) else None)
      else None
  | _, VF x, VF y =>
      match flt t with
      | Some G =>
          if String.eqb op "fadd" then Some (VF (f_add G x y))
          else if String.eqb op "fsub" then Some (VF (f_add G x (f_opp y)))
          else if String.eqb op "fmul" then Some (VF (f_mul G x y))
          else None
      | None => None
      end
  | _, _, _ => None
  end.
Definition icmp_scalar (p : string) (n x y : Z) : option bool :=
  let s := Z.compare (s_read n x) (s_read n y) in
  let u := Z.compare x y in
  if String.eqb p "eq" then Some (holds CEq u) else if String.eqb p "ne" then Some (holds CNe u)
  else if String.eqb p "ugt" then Some (holds CGt u) else if String.eqb p "uge" then Some (holds CGe u)
  else if String.eqb p "ult" then Some (holds CLt u) else if String.eqb p "ule" then Some (holds CLe u)
  else if String.eqb p "sgt" then Some (holds CGt s) else if String.eqb p "sge" then Some (holds CGe s)
  else if String.eqb p "slt" then Some (holds CLt s) else if String.eqb p "sle" then Some (holds CLe s)
  else None.
Definition fcmp_scalar (p : string) (x y : fpv) : option bool :=
  let ord c := match f_compare x y with Some r => holds c r | None => false end in
  let uno c := match f_compare x y with Some r => holds c r | None => true end in
  if String.eqb p "oeq" then Some (ord CEq) else if String.eqb p "one" then Some (ord CNe)
  else if String.eqb p "ogt" then Some (ord CGt) else if String.eqb p "oge" then Some (ord CGe)
  else if String.eqb p "olt" then Some (ord CLt) else if String.eqb p "ole" then Some (ord CLe)
  else if String.eqb p "ueq" then Some (uno CEq) else if String.eqb p "une" then Some (uno CNe)
  else if String.eqb p "ugt" then Some (uno CGt) else if String.eqb p "uge" then Some (uno CGe)
  else if String.eqb p "ult" then Some (uno CLt) else if String.eqb p "ule" then Some (uno CLe)
  else if String.eqb p "ord" then Some (negb (t_nan x || t_nan y))
  else if String.eqb p "uno" then Some (t_nan x || t_nan y)
  else if String.eqb p "true" then Some true else if String.eqb p "false" then Some false
  else None.
Definition icmp_val (p : string) (t : ty) (a b : val) : option val :=
  match t, a, b with TInt n, VI x, VI y => option_map bit (icmp_scalar p n x y) | _, _, _ => None end.
Definition fcmp_val (p : string) (t : ty) (a b : val) : option val :=
  match flt t, a, b with Some _, VF x, VF y => option_map bit (fcmp_scalar p x y) | _, _, _ => None end.

(* vectors: lane by lane *)
Fixpoint map2o (f : val -> val -> option val) (a b : list val) : option (list val) :=
  match a, b with
  | [], [] => Some []
  | x :: a, y :: b => match f x y, map2o f a b with Some z, Some l => Some (z :: l) | _, _ => None end
  | _, _ => None
  end.
Fixpoint map1o {A B} (f : A -> option B) (a : list A) : option (list B) :=
  match a with
  | [] => Some []
  | x :: a => match f x, map1o f a with Some z, Some l => Some (z :: l) | _, _ => None end
  end.
Definition lanes2 (f : ty -> val -> val -> option val) (t : ty) (a b : val) : option val :=
  match t, a, b with
  | TVec _ e, VV x, VV y => option_map VV (map2o (f e) x y)
  | _, _, _ => f t a b
  end.

(* conversions: fptosi rounds toward zero, poison when the result does not fit *)
Definition cast_scalar (op : string) (src dst : ty) (a : val) : option val :=
  match src, dst, a with
  | TInt n, TInt m, VI x => if String.eqb op "sext" && (n <? m) then Some (VI ((s_read n x) mod 2 ^ m)) else None
  | _, TInt n, VF v =>
      match flt src with
      | Some _ =>
          if String.eqb op "fptosi" then
            match v with
            | Num q => let z := qtrunc q in if (- 2 ^ (n - 1) <=? z) && (z <? 2 ^ (n - 1)) then Some (VI (z mod 2 ^ n)) else None
            | PZero | MZero => Some (VI 0)
            | _ => None
            end
          else None
      | None => None
      end
  | _, _, _ => None
  end.
(* a vector of integers read as one integer, lane 0 in the low bits *)
Fixpoint pack (n : Z) (l : list val) : option Z :=
  match l with
  | [] => Some 0
  | VI x :: l => option_map (fun r => x + 2 ^ n * r) (pack n l)
  | _ => None
  end.
Definition cast_val (op : string) (src dst : ty) (a : val) : option val :=
  match src, dst, a with
  | TVec k e, TVec j g, VV l => if Nat.eqb k j then option_map VV (map1o (cast_scalar op e g) l) else None
  | TVec k (TInt n), TInt m, VV l => if String.eqb op "bitcast" && (Z.of_nat k * n =? m) then option_map VI (pack n l) else None
  | _, _, _ => cast_scalar op src dst a
  end.
(* nearbyint, rounding to nearest; the sign of a null result is that of the operand *)
Definition nearbyint (v : fpv) : fpv :=
  match v with
  | Num q => if qrne q =? 0 then f_zero (f_neg v) else Num (inject_Z (qrne q))
  | SNaN => QNaN
  | v => v
  end.
(* the name of an intrinsic holds the type of its operands *)
Definition call_val (name : string) (ret : ty) (args : list val) : option val :=
  match ret, args with
  | TFloat, [VF a] => if String.eqb name "llvm.nearbyint.f32" then Some (VF (nearbyint a)) else None
  | TDouble, [VF a] => if String.eqb name "llvm.nearbyint.f64" then Some (VF (nearbyint a)) else None
  | TFloat, [VF a; VF b; VF c] => if String.eqb name "llvm.fma.f32" then Some (VF (f_fma ML_Binary32 a b c)) else None
  | TDouble, [VF a; VF b; VF c] => if String.eqb name "llvm.fma.f64" then Some (VF (f_fma ML_Binary64 a b c)) else None
  | _, _ => None
  end.

(* typed results: an operand must have the type the instruction announces *)
Definition env := list (ty * val).
Definition read (e : env) (t : ty) (o : operand) : option val :=
  match o with
  | Lit s => lit_val t s
  | Res i => match nth_error e i with Some (t', v) => if ty_eqb t t' then Some v else None | None => None end
  end.
Definition bool_ty (t : ty) : ty := match t with TVec k _ => TVec k (TInt 1) | _ => TInt 1 end.
Definition step (e : env) (i : instr) : option (ty * val) :=
  match i with
  | Bin op t a b =>
      match read e t a, read e t b with Some x, Some y => option_map (pair t) (lanes2 (bin_scalar op) t x y) | _, _ => None end
  | Icmp p t a b =>
      match read e t a, read e t b with Some x, Some y => option_map (pair (bool_ty t)) (lanes2 (icmp_val p) t x y) | _, _ => None end
  | Fcmp p t a b =>
      match read e t a, read e t b with Some x, Some y => option_map (pair (bool_ty t)) (lanes2 (fcmp_val p) t x y) | _, _ => None end
  | Cast op src a dst =>
      match read e src a with Some x => option_map (pair dst) (cast_val op src dst x) | None => None end
  | Call name ret args =>
      match map1o (fun ta => read e (fst ta) (snd ta)) args with
      | Some l => option_map (pair ret) (call_val name ret l)
      | None => None
      end
  end.
(* the value of the last instruction *)
Fixpoint run (e : env) (last : option (ty * val)) (code : list instr) : option (ty * val) :=
  match code with
  | [] => last
  | i :: code => match step e i with Some r => run (e ++ [r]) (Some r) code | None => None end
  end.
Definition exec (code : option (list instr)) (args : env) : option (ty * val) :=
  match code with Some c => run args None c | None => None end.

(* ---- the operations *)
(* a nearest integer *)
Definition nearest_integer (q : Q) (z : Z) : Prop := (Qabs (q - inject_Z z) <= 1 # 2)%Q.
(* comparison of data: not equal is the negation of equal, the others are false on a NaN *)
Definition fp_holds (c : cmp) (a b : fpv) : bool :=
  match f_compare a b with Some r => holds c r | None => match c with CNe => true | _ => false end end.
(* a fused multiply and add of the four kinds: +-(a*b) +- c with one rounding *)
Definition fma_of (G : fpfmt) (k : fma_kind) (a b c : fpv) : fpv :=
  match k with
  | FmaStd => f_fma G a b c
  | FmaSub => f_fma G a b (f_opp c)
  | FmaNeg => f_fma G (f_opp a) b (f_opp c)
  | FmaSubNeg => f_fma G (f_opp a) b c
  end.
Definition mask_val (m : list bool) : val := VV (map bit m).
