(* The power function pow(x, y) and the n-th root rootn(x, n): the decision lists
   for the special cases, the decomposition of the exponent used for the others,
   and the emulation functions used to check the results.
   Models metalibm_functions/pow.py:62-281 (generate_scalar_scheme), 285-345
   (numeric_emulate) and metalibm_functions/rootn.py:75-215, 218-262.

   What is left out: the values of the approximations of log2 and 2^x (a parameter
   of the exponent functions); the raised exceptions; the compilation of a Select.
   A datum is [fpv]; a finite nonzero number is [Num q] with q <> 0. *)
From Coq Require Import ZArith QArith Qabs Qround Bool Lia.
From Verif Require Import QUtil FpFormatModel SpecialModel.
Open Scope Z_scope.

(* the outcome of a decision list: an explicit Return, or the generic formula *)
Inductive outcome := Ret (v : fpv) | Numeric.

(* ---- C comparisons of the generated code: false on a NaN ---- *)
(* order of the extended reals, NaN excluded *)
Definition c_lt (a b : fpv) : bool :=
  match a, b with
  | (QNaN | SNaN), _ | _, (QNaN | SNaN) => false
  | MInf, MInf => false
  | MInf, _ => true
  | _, MInf => false
  | PInf, _ => false
  | _, PInf => true
  | (PZero | MZero), (PZero | MZero) => false
  | (PZero | MZero), Num r => negb (Qle_bool r 0)
  | Num q, (PZero | MZero) => negb (Qle_bool 0 q)
  | Num q, Num r => negb (Qle_bool r q)
  end.
Definition c_eq (a b : fpv) : bool :=
  match a, b with
  | MInf, MInf | PInf, PInf => true
  | (PZero | MZero), (PZero | MZero) => true
  | (PZero | MZero), Num r => Qeq_bool r 0
  | Num q, (PZero | MZero) => Qeq_bool q 0
  | Num q, Num r => Qeq_bool q r
  | _, _ => false
  end.
Definition c_abs (a : fpv) : fpv :=
  match a with
  | MInf => PInf | MZero => PZero | Num q => Num (Qabs q) | _ => a
  end.
(* nearbyint, ties to even; the NaNs and the infinities are kept *)
Definition c_nearest (a : fpv) : fpv :=
  match a with Num q => Num (inject_Z (qrne q)) | _ => a end.
(* the conversion to an integer of a datum that is already an integer;
   undefined in C for the others (the code guards it) *)
Definition c_int (a : fpv) : Z :=
  match a with Num q => Qfloor q | _ => 0 end.

(* ml_support_lib tests, exact on these classes (property C69) *)
Definition t_snan v := match v with SNaN => true | _ => false end.
Definition t_zero v := match v with PZero | MZero => true | _ => false end.
Definition t_pzero v := match v with PZero => true | _ => false end.
Definition t_pinf v := match v with PInf => true | _ => false end.
Definition t_minf v := match v with MInf => true | _ => false end.
Definition t_inf v := t_pinf v || t_minf v.
Definition t_nan v := match v with QNaN | SNaN => true | _ => false end.

Definition zero := Num 0.

(* pow.py:142-158; [msize] is get_mantissa_size().  The C operator % truncates. *)
Definition y_is_odd (msize : Z) (y : fpv) : bool :=
  let y_int := c_nearest y in
  (c_lt (c_abs y) (Num (p2 (msize + 1))) && c_eq y_int y) &&
  (Z.rem (c_int y_int) 2 =? 1).

(* pow.py:161-273, in the order of the statement.  [vx == 1] at 198 is the Python
   comparison of a node with 1, since AbstractOperation defines no __eq__
   (ml_operations.py:272-285): the condition is the constant False. *)
Definition pow_scheme (msize : Z) (x y : fpv) : outcome :=
  let odd := y_is_odd msize y in
  if t_snan x || t_snan y then Ret QNaN
  else if t_zero y then Ret (Num 1)
  else if t_zero x && (odd && c_lt y zero) then Ret (if t_pzero x then PInf else MInf)
  else if t_zero x && t_minf y then Ret MInf
  else if t_zero x && t_pinf y then Ret PInf
  else if t_zero x && (odd && c_lt zero y) then Ret x
  else if c_eq x (Num (-1)) && t_inf y then Ret (Num 1)
  else if false then Ret (Num 1)
  else if c_lt (c_abs x) (Num 1) && t_pinf y then Ret PZero
  else if c_lt (Num 1) (c_abs x) && t_pinf y then Ret PInf
  else if c_lt (c_abs x) (Num 1) && t_minf y then Ret PInf
  else if c_lt (Num 1) (c_abs x) && t_minf y then Ret PZero
  else if t_pinf x && c_lt y zero then Ret PZero
  else if t_pinf x && c_lt zero y then Ret PInf
  else if t_minf x && (odd && c_lt y zero) then Ret MZero
  else if t_minf x && (odd && c_lt zero y) then Ret MInf
  else if t_minf x && (negb odd && c_lt y zero) then Ret PZero
  else if t_minf x && (negb odd && c_lt zero y) then Ret PInf
  else if t_zero x && (negb odd && c_lt y zero) then Ret PInf
  else if t_zero x && (negb odd && c_lt zero y) then Ret PZero
  else Numeric.

(* pow.py:117-137: the three exponents whose powers of two are multiplied, in exact
   arithmetic.  [e] the exponent of x, [L] log2 of the absolute value of the
   significand, [y] the second argument.  Returns (t0_int, t0_frac, t1). *)
Definition pow_exponents (e : Z) (L y : Q) : Z * Q * Q :=
  let EY := qrne (inject_Z e * y) in
  let LY := qrne (L * y) in
  let t_cond := e <? 0 in
  let t0_int := if t_cond then EY + LY else EY in
  let t0_frac := if t_cond
                 then ((inject_Z e * y - inject_Z EY) + (L * y - inject_Z LY))%Q
                 else (inject_Z EY - inject_Z t0_int)%Q in
  let t1 := if t_cond then 0%Q else (L * y)%Q in
  (t0_int, t0_frac, t1).
(* pow.py:281: the result is result_sign * 2^(t1) * 2^(t0_int) * 2^(t0_frac), that
   is the sign and the sum of the exponents *)
Definition pow_numeric (e : Z) (L y : Q) : bool * Q :=
  let '(i, f, t) := pow_exponents e L y in
  (false, (t + inject_Z i + f)%Q).

(* ---- pow.py:285-345 numeric_emulate ---- *)
(* the outcome: a returned datum, the power computed by Sollya, or an exception *)
Inductive emu := EVal (v : fpv) | ESollya | EExc.

(* the truth value of a comparison: bool(Unordered) raises (special_values.py) *)
Definition truth (r : res tri) : res bool :=
  match r with Ok T => Ok true | Ok F_ => Ok false | _ => Err end.
(* Python and / or / not on the truth values *)
Definition pand (a b : res bool) : res bool :=
  match a with Ok true => b | Ok false => Ok false | Err => Err end.
Definition por (a b : res bool) : res bool :=
  match a with Ok true => Ok true | Ok false => b | Err => Err end.
Definition pnot (a : res bool) : res bool :=
  match a with Ok b => Ok (negb b) | Err => Err end.
Definition pif (c : res bool) (a b : emu) : emu :=
  match c with Ok true => a | Ok false => b | Err => EExc end.
Notation "'IF' c 'THEN' a 'ELSE' b" := (pif c a b) (at level 200, right associativity).
Notation "a &&& b" := (pand a b) (at level 40, left associativity).

(* int(vy): truncation; an exception on a special value *)
Definition qtrunc (q : Q) : Z := if Qle_bool 0 q then Qfloor q else - Qfloor (- q).
Definition py_int (v : fpv) : res Z :=
  match v with Num q => Ok (qtrunc q) | _ => Err end.
Definition special (v : fpv) : bool := negb (is_number v).
Definition py_snan v := match v with SNaN => true | _ => false end.
(* int(vy) == vy  and  int(vy) % 2 == 1 (Python %: floored) *)
Definition int_eq (v : fpv) : res bool :=
  match py_int v with Ok k => truth (py_eq (Num (inject_Z k)) v) | Err => Err end.
Definition int_odd (v : fpv) : res bool :=
  match py_int v with Ok k => Ok (Z.modulo k 2 =? 1) | Err => Err end.
Definition emu_odd (v : fpv) : res bool := int_eq v &&& int_odd v.

Definition lt_c (v : fpv) (c : Q) : res bool := truth (py_lt v (Num c)).
Definition gt_c (v : fpv) (c : Q) : res bool := truth (py_gt v (Num c)).
Definition small (x : fpv) : res bool := gt_c x (-1) &&& lt_c x 1.
Definition big (x : fpv) : res bool := por (lt_c x (-1)) (gt_c x 1).

Definition pow_emulate (x y : fpv) : emu :=
  IF Ok (py_snan x || py_snan y) THEN EVal QNaN ELSE
  IF Ok (is_zero y) THEN EVal (Num 1) ELSE
  IF Ok (is_plus_zero false x) &&& Ok (negb (special y)) &&& int_eq y &&& int_odd y &&& lt_c y 0
    THEN EVal PInf ELSE
  IF Ok (is_minus_zero x) &&& Ok (negb (special y)) &&& int_eq y &&& int_odd y &&& lt_c y 0
    THEN EVal MInf ELSE
  IF Ok (is_zero x) &&& Ok (is_minus_zero y) THEN EVal MInf ELSE
  IF Ok (is_zero x) &&& Ok (is_plus_zero false y) THEN EVal PZero ELSE
  IF Ok (is_zero x) &&& Ok (negb (special y)) &&& int_eq y &&& int_odd y &&& gt_c y 0
    THEN EVal x ELSE
  IF truth (py_eq x (Num (-1))) &&& Ok (is_infty y) THEN EVal (Num 1) ELSE
  IF truth (py_eq x (Num 1)) THEN EVal (Num 1) ELSE
  IF small x &&& Ok (is_plus_infty y) THEN EVal PZero ELSE
  IF big x &&& Ok (is_plus_infty y) THEN EVal PInf ELSE
  IF small x &&& Ok (is_minus_infty y) THEN EVal PInf ELSE
  IF Ok (is_minus_infty y) &&& big x THEN EVal PZero ELSE
  IF Ok (is_plus_infty x) &&& lt_c y 0 THEN EVal PZero ELSE
  IF Ok (is_plus_infty x) &&& gt_c y 0 THEN EVal PInf ELSE
  IF Ok (is_minus_infty x) &&& lt_c y 0 &&& Ok (negb (special y)) &&& int_eq y &&& int_odd y
    THEN EVal MZero ELSE
  IF Ok (is_minus_infty x) &&& gt_c y 0 &&& Ok (negb (special y)) &&& int_eq y &&& int_odd y
    THEN EVal MInf ELSE
  IF Ok (is_minus_infty x) &&& lt_c y 0 &&& Ok (negb (special y)) &&& pnot (emu_odd y)
    THEN EVal PZero ELSE
  IF Ok (is_minus_infty x) &&& gt_c y 0 &&& Ok (negb (special y)) &&& pnot (emu_odd y)
    THEN EVal PInf ELSE
  IF Ok (is_zero x) &&& lt_c y 0 &&& Ok (negb (special y)) &&& pnot (emu_odd y)
    THEN EVal PInf ELSE
  IF Ok (is_zero x) &&& gt_c y 0 &&& Ok (negb (special y)) &&& pnot (emu_odd y)
    THEN EVal PZero ELSE
  ESollya.

(* ---- rootn.py:146-215 ---- *)
Inductive rout := RRet (v : fpv) | RInv | RNumeric.
(* the quotient 1/x of the n = -1 case: IEEE division on the special data, and
   [RInv] (the rounded quotient) on the others *)
Definition recip (x : fpv) : rout :=
  match x with
  | PZero => RRet PInf | MZero => RRet MInf | PInf => RRet PZero | MInf => RRet MZero
  | QNaN | SNaN => RRet QNaN
  | Num _ => RInv
  end.
Definition n_is_even (n : Z) : bool := Z.rem n 2 =? 0.
Definition rootn_scheme (x : fpv) (n : Z) : rout :=
  let even := n_is_even n in
  let odd := negb even in
  if (t_nan x || (n =? 0)) || (even && c_lt x zero) then RRet QNaN
  else if n =? -1 then recip x
  else if t_inf x then
    if n <? 0 then RRet (if t_pinf x then PZero else MZero) else RRet x
  else if (odd && (n <? 0)) && c_eq x zero then RRet (if t_pzero x then PInf else MInf)
  else if (even && (n <? 0)) && c_eq x zero then RRet PInf
  else if even && c_eq x zero then RRet x
  else if n =? 1 then RRet x
  else RNumeric.
(* rootn.py:148 result_sign: true = negative *)
Definition rootn_sign (x : fpv) (n : Z) : bool :=
  if negb (n_is_even n)
  then match x with Num q => negb (Qle_bool 0 q) | MZero | MInf => true | _ => false end
  else false.

(* rootn.py:117-132: the decomposition of e/n; [rnd] the rounding of the format.
   Returns (e_n_int, e_n_frac). *)
Definition rootn_exponent (rnd : Q -> Q) (e n : Z) : Z * Q :=
  let n_f := inject_Z n in
  let e_f := inject_Z e in
  let inv_n := rnd (1 / n_f)%Q in
  let e_n := rnd (e_f / n_f)%Q in
  let error_e_n := rnd (e_f - e_n * n_f)%Q in
  let e_n_int := qrne e_n in
  let pre_e_n_frac := rnd (e_n - inject_Z e_n_int)%Q in
  (e_n_int, rnd (pre_e_n_frac + rnd (error_e_n * inv_n))%Q).

(* rootn.py:218-262 numeric_emulate; [RMpfr s] the root of |x| computed with
   bigfloat or Sollya, negated when s *)
Inductive remu := RVal (v : fpv) | RMpfr (neg : bool).
Definition rootn_emulate (x : fpv) (n : Z) : remu :=
  match x with
  | QNaN | SNaN => RVal QNaN
  | PInf => RVal PInf
  | MInf => if Z.modulo n 2 =? 1 then RVal MInf else RVal QNaN
  | PZero | MZero =>
    if negb (Z.modulo n 2 =? 0) && (n <? 0)
    then RVal (match x with PZero => PInf | _ => MInf end)
    else if Z.modulo n 2 =? 0 then
      if n <? 0 then RVal PInf
      else if 0 <? n then RVal PZero
      else RVal QNaN
    else RVal QNaN
  | Num q =>
    if negb (Qle_bool 0 q) then
      if negb (Z.modulo n 2 =? 0) then RMpfr true else RVal QNaN
    else RMpfr false
  end.
