(* What the tables of the cubic root hold. *)
From Coq Require Import ZArith QArith Reals Qreals List.
From Verif Require Import QUtil FpFormatModel RoundSpec RoundRne RealUtil.
Open Scope R_scope.

(* r is the cubic root of v *)
Definition cube_root (v r : R) : Prop := 0 < r /\ r * r * r = v.

(* ml_cbrt.py:119-134, 107: roundings to nearest of the cubic roots of
   1 + i/64, of the powers 2^(i-3), and of 1/3 *)
Definition cbrt_tables (G : fpfmt) (tab modt : list Q) (third : Q) : Prop :=
  (forall i r, (0 <= i < 64)%Z -> cube_root (1 + IZR i / 64) r -> nearestR (fmt_of G) (nth (Z.to_nat i) tab 0%Q) r)
  /\ (forall i r, (0 <= i < 6)%Z -> cube_root (Q2R (p2 (i - 3))) r -> nearestR (fmt_of G) (nth (Z.to_nat i) modt 0%Q) r)
  /\ nearestR (fmt_of G) third (1 / 3).
