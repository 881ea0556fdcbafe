(* Comparison, absolute value and NaN test of multi-limb numbers.  Model of
   metalibm_core/core/multi_precision.py:54-168, the legalizations attached in
   metalibm_core/code_generation/generic_processor.py:322, 562, 568 and 592.

   The functions build graphs over the limbs hi, me and lo; the model evaluates
   the graph with given operations and comparison on limbs (as LimbModel.v
   does), so that it is read with rounded rationals and with IEEE data.

   Simplifications: attributes of nodes dropped; Log.report(Error) is None; the
   selection of an element of a vector of multi-limb numbers (171-197) is not
   modelled. *)
From Coq Require Import ZArith QArith Qabs Bool.
From Verif Require Import QUtil FpFormatModel LimbModel Exp2Model.

(* ml_operations.py:1664-1683; the four signed specifiers in one *)
Inductive cspec := CEq | CNe | CLt | CLe | CGt | CGe | CSigned.

Section Mp.
Variable T : Type.
Variable O : ops T.
Variable cmp : cspec -> T -> T -> bool.

(* 92-97, 139-144 *)
Definition strict_specifier (s : cspec) : cspec :=
  match s with CLt => CLt | CGt => CGt | CLe => CLt | CGe => CGt | x => x end.

(* 70-105 *)
Definition mp2_comparison (s : cspec) (lhs rhs : T * T) : option bool :=
  let '(lh, ll) := lhs in
  let '(rh, rl) := rhs in
  match s with
  | CEq => Some (andb (cmp CEq lh rh) (cmp CEq ll rl))
  | CNe => Some (orb (cmp CNe lh rh) (cmp CNe ll rl))
  | CLt | CGt | CLe | CGe =>
    Some (orb (cmp (strict_specifier s) lh rh) (andb (cmp CEq lh rh) (cmp s ll rl)))
  | CSigned => None
  end.

(* 116-117 and the like: operands which are not constants are renormalized *)
Definition renormalize (is_constant : bool) (x : T * T * T) : T * T * T :=
  let '(h, m, l) := x in
  if is_constant then x else normalize_33 O h m l.

(* 107-168 *)
Definition mp3_comparison (s : cspec) (lhs_cst rhs_cst : bool) (lhs rhs : T * T * T) : option bool :=
  let '(lh, lm, ll) := renormalize lhs_cst lhs in
  let '(rh, rm, rl) := renormalize rhs_cst rhs in
  match s with
  | CEq => Some (andb (cmp CEq lh rh) (andb (cmp CEq lm rm) (cmp CEq ll rl)))
  | CNe => Some (orb (cmp CNe lh rh) (orb (cmp CNe lm rm) (cmp CNe ll rl)))
  | CLt | CGt | CLe | CGe =>
    Some (orb (cmp (strict_specifier s) lh rh)
           (andb (cmp CEq lh rh)
             (orb (cmp (strict_specifier s) lm rm)
               (andb (cmp CEq lm rm) (cmp s ll rl)))))
  | CSigned => None
  end.

(* 54-59 *)
Definition mp2_abs (zero : T) (abs : T -> T) (op : T * T) : T * T :=
  let '(h, l) := op in
  (abs h, if cmp CGe h zero then l else o_neg O l).

(* 62-68 *)
Definition mp2_isnan (isnan : T -> bool) (op : T * T) : bool := orb (isnan (fst op)) (isnan (snd op)).
End Mp.
Arguments mp2_comparison {T}. Arguments mp3_comparison {T}. Arguments renormalize {T}.
Arguments mp2_abs {T}. Arguments mp2_isnan {T}.

(* the operators of C on numbers *)
Definition qcmp (s : cspec) (a b : Q) : bool :=
  match s with
  | CEq => Qeq_bool a b
  | CNe => negb (Qeq_bool a b)
  | CLt => negb (Qle_bool b a)
  | CLe => Qle_bool a b
  | CGt => negb (Qle_bool a b)
  | CGe => Qle_bool b a
  | CSigned => false
  end.

(* the operators of C on IEEE data *)
Definition f_isnan (a : fpv) : bool := match a with QNaN | SNaN => true | _ => false end.
Definition f_opp (a : fpv) : fpv :=
  match a with PInf => MInf | MInf => PInf | PZero => MZero | MZero => PZero | Num q => Num (- q)%Q | x => x end.
Definition f_abs (a : fpv) : fpv :=
  match a with MInf => PInf | MZero => PZero | Num q => Num (Qabs q) | x => x end.
Definition f_mag (a : fpv) : Q := match a with Num q => q | _ => 0%Q end.
Definition fcmp (s : cspec) (a b : fpv) : bool :=
  if orb (f_isnan a) (f_isnan b) then match s with CNe => true | _ => false end
  else match a, b with
  | PInf, PInf | MInf, MInf => qcmp s 0 0
  | PInf, _ | _, MInf => qcmp s 1 0
  | MInf, _ | _, PInf => qcmp s 0 1
  | _, _ => qcmp s (f_mag a) (f_mag b)
  end.
(* additions and subtractions rounded in the format; the other operations are
   not used by the normalization *)
Definition ieee_ops (G : fpfmt) : ops fpv :=
  mkops fpv (f_add G) (fun a b => f_add G a (f_opp b)) (fun _ _ => QNaN) (fun _ _ _ => QNaN) (fun _ _ _ => QNaN) f_opp.
