(* Specification of the square roots, without reals: R is a number of the
   format nearest to the square root of v when the square of the middle of R
   and any smaller number of the format is at most v, and the square of the
   middle of R and any larger one at least v. *)
From Coq Require Import ZArith QArith Qabs.
From Verif Require Import QUtil FpFormatModel SpecialModel RoundSpec.
Open Scope Q_scope.

Definition sqrt_rn (F : fmt) (v R : Q) : Prop :=
  inF F R /\ 0 <= R /\
  forall f, inF F f -> 0 <= f ->
    (f < R -> (f + R) * (f + R) <= 4 * v) /\ (R < f -> 4 * v <= (f + R) * (f + R)).

(* the same for the reciprocal square root *)
Definition rsqrt_rn (F : fmt) (v R : Q) : Prop :=
  inF F R /\ 0 <= R /\
  forall f, inF F f -> 0 <= f ->
    (f < R -> (f + R) * (f + R) * v <= 4) /\ (R < f -> 4 <= (f + R) * (f + R) * v).

(* IEEE-754 results on special data: 5.4.1 squareRoot, 9.2 rSqrt *)
Definition ieee_sqrt_special (v : fpv) : option fpv :=
  match v with
  | QNaN | SNaN | MInf => Some QNaN
  | PInf => Some PInf
  | PZero => Some PZero
  | MZero => Some MZero
  | Num q => if Qlt_le_dec q 0 then Some QNaN else None
  end.
Definition ieee_rsqrt_special (v : fpv) : option fpv :=
  match v with
  | QNaN | SNaN | MInf => Some QNaN
  | PInf => Some PZero
  | PZero => Some PInf
  | MZero => Some MInf
  | Num q => if Qlt_le_dec q 0 then Some QNaN else None
  end.
