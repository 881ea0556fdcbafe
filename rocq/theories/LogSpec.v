(* Specification of the logarithm: IEEE-754 9.2.1 on special data, and what
   the constants and the polynomial have to be, over the real numbers. *)
From Coq Require Import ZArith QArith Qabs Reals Qreals.
From Verif Require Import QUtil FpFormatModel SpecialModel RoundSpec RealUtil.
Open Scope R_scope.

Definition ieee_log_special (v : fpv) : option fpv :=
  match v with
  | QNaN | SNaN | MInf => Some QNaN
  | PInf => Some PInf
  | PZero | MZero => Some MInf
  | Num q => if Qlt_le_dec q 0 then Some QNaN else None
  end.

(* x in two words, the first of hs digits, the second of the format F *)
Definition two_words (hs : Z) (F : fmt) (w : Q * Q) (x : R) : Prop :=
  nearestR (mkF hs None) (fst w) x /\ nearestR F (snd w) (x - Q2R (fst w)).

(* r * (1 + poly r) is the logarithm of 1 + r, up to delta relative to r *)
Definition log_poly (F : fmt) (delta : R) (poly : Q -> Q) : Prop :=
  forall r, inF F r -> Rabs (Q2R r) <= 1 / 64 ->
    inF F (poly r) /\ Rabs (Q2R (poly r)) <= 1 / 32 /\ Rabs (Q2R r * (1 + Q2R (poly r)) - ln (1 + Q2R r)) <= delta * Rabs (Q2R r).

(* half a unit in the last place around x, in a format of p digits without
   bound on the exponent: 2^(e-p) where 2^e is the largest power of two below x *)
Definition within (p : Z) (h eps : R) (q : Q) (x : R) : Prop :=
  exists e : Z, Q2R (p2 e) <= Rabs x /\ Rabs (Q2R q - x) <= h * Q2R (p2 (e + 1 - p)) + eps.

(* the two tables of logarithms of a table of 128 approximate inverses: entry
   0, for the inverse 1, is zero *)
Definition log_tables (hs : Z) (F : fmt) (inv : Z -> Q) (t tho : Z -> Q * Q) : Prop :=
  t 0%Z = (0%Q, 0%Q) /\
  forall i, (1 <= i < 128)%Z ->
    two_words hs F (t i) (ln (Q2R (inv i))) /\ two_words hs F (tho i) (ln (2 * Q2R (inv i))).
