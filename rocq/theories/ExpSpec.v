(* What the constants of the exponential are, and the unit in the last place. *)
From Coq Require Import Reals ZArith QArith Qreals.
From Verif Require Import QUtil FpFormatModel RoundSpec RoundRne RealUtil ExpModel.
Open Scope R_scope.

(* ml_exp.py:148-189: the bounds are the integers around the logarithms of the ends
   of the range of the format; the others are roundings to nearest *)
Definition exp_cst_ok (G : fpfmt) (c : exp_cst) : Prop :=
  IZR (ov_bound c) - 1 < IZR (emax G + 1) * ln 2 <= IZR (ov_bound c)
  /\ IZR (uf_bound c) <= IZR (emin_subnormal G) * ln 2 < IZR (uf_bound c) + 1
  /\ nearestR (fmt_of G) (invlog2 c) (/ ln 2)
  /\ nearestR (mkF (log2_hi_precision G c) None) (log2_hi c) (ln 2)
  /\ nearestR (fmt_of G) (log2_lo c) (ln 2 - Q2R (log2_hi c)).

(* the real y lies in the binade [2^E, 2^(E+1)) *)
Definition binade (y : R) (E : Z) : Prop := Q2R (p2 E) <= y < Q2R (p2 (E + 1)).
(* unit in the last place of a real of that binade, gradual underflow included *)
Definition ulpR (G : fpfmt) (E : Z) : R := Q2R (p2 (Z.max E (emin_normal G) - fsz G)).
