(* IEEE-754 arithmetic and comparison on data, written independently of the
   code: a datum is a NaN, or a sign and a magnitude class. *)
From Coq Require Import ZArith QArith Bool.
From Verif Require Import FpFormatModel SpecialModel.

Inductive datum := DNaN | DInf (neg : bool) | DZero (neg : bool) | DFin (q : Q).

(* a plain number 0 denotes +0 *)
Definition datum_of (v : fpv) : datum :=
  match v with
  | QNaN | SNaN => DNaN
  | PInf => DInf false | MInf => DInf true
  | PZero => DZero false | MZero => DZero true
  | Num q => if Qeq_bool q 0 then DZero false else DFin q
  end.

Definition datum_eq (a b : datum) : Prop :=
  match a, b with
  | DNaN, DNaN => True
  | DInf s, DInf t => s = t
  | DZero s, DZero t => s = t
  | DFin p, DFin q => (p == q)%Q
  | _, _ => False
  end.

Definition neg_of (d : datum) : bool :=
  match d with
  | DNaN => false | DInf s => s | DZero s => s | DFin q => negb (Qle_bool 0 q)
  end.

(* negation flips the sign of everything but NaN *)
Definition ieee_neg (d : datum) : datum :=
  match d with
  | DNaN => DNaN | DInf s => DInf (negb s) | DZero s => DZero (negb s) | DFin q => DFin (- q)
  end.

(* IEEE-754 6.1, 6.3, 7.2: addition when one operand is not a finite nonzero
   number (the finite case is left to exact arithmetic) *)
Definition ieee_add (m : rmode) (a b : datum) : datum :=
  match a, b with
  | DNaN, _ | _, DNaN => DNaN
  | DInf s, DInf t => if Bool.eqb s t then DInf s else DNaN
  | DInf s, _ => DInf s
  | _, DInf t => DInf t
  | DZero s, DZero t => if Bool.eqb s t then DZero s
                        else DZero (match m with RD => true | _ => false end)
  | DZero _, DFin q => DFin q
  | DFin q, DZero _ => DFin q
  | DFin p, DFin q => DFin (p + q)
  end.
Definition ieee_sub (m : rmode) (a b : datum) : datum := ieee_add m a (ieee_neg b).

Definition ieee_mul (a b : datum) : datum :=
  let s := xorb (neg_of a) (neg_of b) in
  match a, b with
  | DNaN, _ | _, DNaN => DNaN
  | DInf _, DZero _ | DZero _, DInf _ => DNaN
  | DInf _, _ | _, DInf _ => DInf s
  | DZero _, _ | _, DZero _ => DZero s
  | DFin p, DFin q => DFin (p * q)
  end.

Definition ieee_div (a b : datum) : datum :=
  let s := xorb (neg_of a) (neg_of b) in
  match a, b with
  | DNaN, _ | _, DNaN => DNaN
  | DInf _, DInf _ | DZero _, DZero _ => DNaN
  | DInf _, _ | _, DZero _ => DInf s
  | DZero _, _ | _, DInf _ => DZero s
  | DFin p, DFin q => DFin (p / q)
  end.

(* order of the extended reals; None = unordered *)
Definition ieee_cmp (a b : datum) : option comparison :=
  match a, b with
  | DNaN, _ | _, DNaN => None
  | DInf s, DInf t => Some (if Bool.eqb s t then Eq else if s then Lt else Gt)
  | DInf s, _ => Some (if s then Lt else Gt)
  | _, DInf t => Some (if t then Gt else Lt)
  | DZero _, DZero _ => Some Eq
  | DZero _, DFin q => Some (Qcompare 0 q)
  | DFin p, DZero _ => Some (Qcompare p 0)
  | DFin p, DFin q => Some (Qcompare p q)
  end.

(* ordered predicates: unordered operands answer Unordered *)
Definition pred_lt (a b : datum) : tri :=
  match ieee_cmp a b with None => Unordered | Some Lt => T | _ => F_ end.
Definition pred_gt (a b : datum) : tri :=
  match ieee_cmp a b with None => Unordered | Some Gt => T | _ => F_ end.
Definition pred_le (a b : datum) : tri :=
  match ieee_cmp a b with None => Unordered | Some Gt => F_ | _ => T end.
Definition pred_ge (a b : datum) : tri :=
  match ieee_cmp a b with None => Unordered | Some Lt => F_ | _ => T end.
(* equality: false when unordered *)
Definition pred_eq (a b : datum) : tri :=
  match ieee_cmp a b with Some Eq => T | _ => F_ end.

Definition special (v : fpv) : Prop := match v with Num _ => False | _ => True end.
(* a number, if any, is not zero *)
Definition no_num_zero (v : fpv) : Prop := match v with Num q => ~ (q == 0)%Q | _ => True end.
