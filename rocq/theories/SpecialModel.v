(* Special-value arithmetic and comparisons.
   Models metalibm_core/core/special_values.py:47-96 (NumericValue operators),
   145-173 (FP_SpecialValue operators), 189-211, 213-304 (comparisons),
   309-460 (arithmetic), 577-620 (class predicates).
   The operand type [fpv] is shared with FpFormatModel (Num = NumericValue).
   A Python exception is [Err].  The [precision] attribute is dropped, except
   that reading [.precision] of a NumericValue is an exception. *)
From Coq Require Import ZArith QArith Bool.
From Verif Require Import FpFormatModel.

Inductive res (A : Type) := Ok (a : A) | Err.
Arguments Ok {A} _. Arguments Err {A}.

(* special_values.py:112-119 FP_SpecialValue.rounding_mode: None or a Sollya mode *)
Inductive rmode := RN | RU | RD | RZ.

(* special_values.py:577-606 class predicates *)
Definition is_nan v := match v with QNaN | SNaN => true | _ => false end.
Definition is_plus_infty v := match v with PInf => true | _ => false end.
Definition is_minus_infty v := match v with MInf => true | _ => false end.
Definition is_infty v := is_plus_infty v || is_minus_infty v.
Definition is_number v := match v with Num _ => true | _ => false end.
Definition num_is_zero v := match v with Num q => Qeq_bool q 0 | _ => false end.
Definition is_plus_zero (ext : bool) v :=
  match v with PZero => true | _ => ext && num_is_zero v end.
Definition is_minus_zero v := match v with MZero => true | _ => false end.
Definition is_zero v := is_plus_zero false v || is_minus_zero v || num_is_zero v.
(* numeric comparisons with 0 on a NumericValue (false on specials, never asked) *)
Definition num_gt0 v := match v with Num q => negb (Qle_bool q 0) | _ => false end.
Definition num_lt0 v := match v with Num q => negb (Qle_bool 0 q) | _ => false end.
Definition num_ge0 v := match v with Num q => Qle_bool 0 q | _ => false end.
(* special_values.py:452-457 *)
Definition is_positive v := is_plus_zero false v || is_plus_infty v || num_ge0 v.
Definition is_negative v := is_minus_zero v || is_minus_infty v || num_lt0 v.

(* reading lhs.precision: an exception on a number *)
Definition with_precision (v : fpv) (r : fpv) : res fpv :=
  if is_number v then Err else Ok r.

(* unary minus: special_values.py:465-520 __neg__ methods; NaN classes define
   none (exception); numbers: exact negation *)
Definition sv_neg (v : fpv) : res fpv :=
  match v with
  | PInf => Ok MInf | MInf => Ok PInf | PZero => Ok MZero | MZero => Ok PZero
  | QNaN | SNaN => Err
  | Num q => Ok (Num (- q))
  end.

Section Rounding.
Variable rm : option rmode.  (* current value of FP_SpecialValue.rounding_mode *)

(* special_values.py:309-346 special_value_add *)
Definition special_value_add (l r : fpv) : res fpv :=
  if is_nan l || is_nan r then with_precision l QNaN
  else if (is_plus_infty l && is_minus_infty r) || (is_minus_infty l && is_plus_infty r)
       then with_precision l QNaN
  else if is_infty l && is_infty r then Ok l
  else if is_zero l && is_zero r then
    if is_minus_zero l || is_minus_zero r then
      match rm with
      | None => Ok l
      | Some m =>
        if (is_minus_zero l && is_minus_zero r) || match m with RD => true | _ => false end
        then with_precision l MZero
        else with_precision l PZero
      end
    else with_precision l PZero
  else if is_zero l then Ok r
  else if is_zero r then Ok l
  else if is_infty l && is_number r then Ok l
  else if is_number l && is_infty r then Ok r
  else match l, r with
       | Num a, Num b => Ok (Num (a + b))
       | _, _ => Err
       end.

(* l + r : NumericValue.__add__ 50-54 swaps operands when the right one is special *)
Definition py_add (l r : fpv) : res fpv :=
  match l, r with
  | Num a, Num b => Ok (Num (a + b))
  | Num _, _ => special_value_add r l
  | _, _ => special_value_add l r
  end.

(* special_values.py:348-371 special_value_sub *)
Definition special_value_sub (l r : fpv) : res fpv :=
  if is_nan l then with_precision l QNaN
  else if is_nan r then with_precision r QNaN
  else if (is_plus_infty l && is_plus_infty r) || (is_minus_infty l && is_minus_infty r)
       then with_precision l QNaN
  else if is_plus_infty l && is_minus_infty r then Ok l
  else if is_minus_infty l && is_plus_infty r then Ok l
  else if is_infty l && is_zero r then Ok l
  else if is_infty l then Ok l
  else if is_infty r then sv_neg r
  else match sv_neg r with Ok nr => py_add l nr | Err => Err end.

(* l - r : 60-64, 150-153 *)
Definition py_sub (l r : fpv) : res fpv :=
  match l, r with
  | Num a, Num b => Ok (Num (a - b))
  | _, _ => special_value_sub l r
  end.
End Rounding.

(* special_values.py:373-409 special_value_mul *)
Definition special_value_mul (l r : fpv) : res fpv :=
  if is_nan l || is_nan r then with_precision l QNaN
  else if (is_plus_infty l && is_plus_infty r) || (is_minus_infty l && is_minus_infty r)
       then with_precision l PInf
  else if is_infty l && is_infty r then with_precision l MInf
  else if is_infty l && is_zero r then with_precision l QNaN
  else if is_zero l && is_infty r then with_precision r QNaN
  else if is_number r && is_plus_infty l then with_precision l (if num_gt0 r then PInf else MInf)
  else if is_number r && is_minus_infty l then with_precision l (if num_lt0 r then PInf else MInf)
  else if is_number l && is_plus_infty r then with_precision r (if num_gt0 l then PInf else MInf)
  else if is_number l && is_minus_infty r then with_precision r (if num_lt0 l then PInf else MInf)
  else match l, r with
  | Num a, Num b => Ok (Num (a * b))
  | _, _ =>
    if (is_plus_zero false l && is_plus_zero false r) || (is_minus_zero l && is_minus_zero r)
    then with_precision l PZero
    else if is_zero l && is_zero r then with_precision l MZero
    else if is_zero l && is_positive r then Ok l
    else if is_zero r && is_positive l then Ok r
    else if is_zero l && is_negative r then sv_neg l
    else if is_zero r && is_negative l then sv_neg r
    else Err
  end.

(* l * r : 55-59 swaps operands when the right one is special *)
Definition py_mul (l r : fpv) : res fpv :=
  match l, r with
  | Num a, Num b => Ok (Num (a * b))
  | Num _, _ => special_value_mul r l
  | _, _ => special_value_mul l r
  end.

(* special_values.py:411-450 special_value_div *)
Definition special_value_div (l r : fpv) : res fpv :=
  let prec2 v := if negb (is_number l) then Ok v else if negb (is_number r) then Ok v else Ok v in
  if is_nan l || is_nan r then with_precision l QNaN
  else if is_infty l && is_infty r then with_precision l QNaN
  else if (is_plus_infty l && is_plus_zero true r) || (is_minus_infty l && is_minus_zero r)
       then with_precision l PInf
  else if (is_plus_infty l && is_minus_zero r) || (is_minus_infty l && is_plus_zero true r)
       then with_precision l MInf
  else if is_number r && is_plus_infty l then with_precision l (if num_gt0 r then PInf else MInf)
  else if is_number r && is_minus_infty l then with_precision l (if num_lt0 r then PInf else MInf)
  else if is_number l && is_plus_infty r then with_precision r (if num_gt0 l then PZero else MZero)
  else if is_number l && is_minus_infty r then with_precision r (if num_lt0 l then PZero else MZero)
  else if is_number l && is_number r && negb (is_zero r) then
    match l, r with Num a, Num b => Ok (Num (a / b)) | _, _ => Err end
  else if is_zero l && is_zero r then prec2 QNaN
  else if is_zero l && is_positive r then Ok l
  else if is_zero l && is_negative r then sv_neg l
  else if (is_positive l && is_plus_zero true r) || (is_negative l && is_minus_zero r) then prec2 PInf
  else if (is_positive l && is_minus_zero r) || (is_negative l && is_plus_zero true r) then prec2 MInf
  else Err.

(* l / r : 65-69, 159-162 *)
Definition py_div (l r : fpv) : res fpv := special_value_div l r.

(* ---- comparisons: True / False / Unordered ---- *)
Inductive tri := T | F_ | Unordered.
Definition of_bool (b : bool) : tri := if b then T else F_.
(* special_values.py:190-196 negate_predicate *)
Definition negate (r : res tri) : res tri :=
  match r with
  | Ok Unordered => Ok Unordered | Ok T => Ok F_ | Ok F_ => Ok T | Err => Err
  end.

Definition qlt (a b : Q) : bool := negb (Qle_bool b a).

(* SollyaObject(v): numbers and NaNs (via _sollya_) convert; other special
   values do not (exception).  None encodes Sollya's NaN. *)
Definition to_sollya (v : fpv) : res (option Q) :=
  match v with Num q => Ok (Some q) | QNaN | SNaN => Ok None | _ => Err end.
(* SollyaObject.__lt__: false when one side is Sollya's NaN *)
Definition sollya_lt (a b : option Q) : tri :=
  match a, b with Some x, Some y => of_bool (qlt x y) | _, _ => F_ end.

(* special_values.py:213-225 number_less_than_special_value *)
Definition number_less_than_special_value (l r : fpv) : res tri :=
  if is_nan r then Ok Unordered
  else if is_minus_infty r then Ok T
  else if is_plus_infty r then Ok F_
  else match to_sollya l with
  | Err => Err
  | Ok a =>
    if is_zero r then Ok (sollya_lt a (Some 0%Q))
    else match to_sollya r with Ok b => Ok (sollya_lt a b) | Err => Err end
  end.

(* special_values.py:227-271 special_value_less_than *)
Definition special_value_less_than (l r : fpv) : res tri :=
  if is_nan l || is_nan r then Ok Unordered
  else if is_minus_infty l then if is_minus_infty r then Ok F_ else Ok T
  else if is_zero l then
    if is_zero r then Ok F_
    else if is_plus_infty r then Ok T
    else if is_minus_infty r then Ok F_
    else if is_number r then number_less_than_special_value (Num 0) r (* 0 < rhs, reflected *)
    else Err
  else if is_plus_infty l then Ok F_
  else if is_number l then
    if is_number r then number_less_than_special_value l r
    else if is_minus_infty r then Ok F_
    else if is_plus_infty r then Ok T
    else if is_zero r then number_less_than_special_value l (Num 0)
    else Err
  else Err.

(* special_values.py:273-304 special_value_equal *)
Definition special_value_equal (l r : fpv) : res tri :=
  if is_plus_infty l then Ok (of_bool (is_plus_infty r))
  else if is_minus_infty l then Ok (of_bool (is_minus_infty r))
  else if is_zero l then Ok (of_bool (is_zero r))
  else if is_nan l then Ok F_
  else match l, r with
  | Num a, Num b => Ok (of_bool (Qeq_bool a b))
  | Num _, _ => Ok F_
  | _, _ => Err
  end.

(* operators: NumericValue 71-94, FP_SpecialValue 164-177 *)
Definition py_lt (l r : fpv) : res tri :=
  if is_number l then number_less_than_special_value l r else special_value_less_than l r.
Definition py_gt (l r : fpv) : res tri :=
  if is_number l then number_less_than_special_value r l else special_value_less_than r l.
Definition py_ge (l r : fpv) : res tri :=
  if is_number l then negate (number_less_than_special_value l r)
  else negate (special_value_less_than l r).
Definition py_le (l r : fpv) : res tri := py_ge r l.
Definition py_eq (l r : fpv) : res tri :=
  match l, r with
  | Num a, Num b => Ok (of_bool (Qeq_bool a b))
  | Num _, _ => Ok F_
  | _, _ => special_value_equal l r
  end.
Definition py_ne (l r : fpv) : res tri := negate (py_eq l r).
