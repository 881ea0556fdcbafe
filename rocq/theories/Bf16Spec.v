(* bfloat16: words are the upper halves of those of binary32; values and
   rounding toward zero, said on numbers. *)
From Coq Require Import ZArith QArith Qabs.
From Verif Require Import QUtil FpFormatModel FpFormatSpec.
Open Scope Z_scope.

(* the format with its own significand *)
Definition bf16 : fpfmt := mkfmt 8 7 8.

(* finite value of a datum *)
Definition fin (v : fpv) : option Q :=
  match v with Num q => Some q | PZero | MZero => Some 0%Q | _ => None end.

(* same datum, numbers compared as rationals *)
Definition same_datum (a b : fpv) : Prop :=
  match a, b with
  | Num x, Num y => (x == y)%Q
  | PInf, PInf | MInf, MInf | PZero, PZero | MZero, MZero | QNaN, QNaN | SNaN, SNaN => True
  | _, _ => False
  end.

(* b is a rounded toward zero to the format F *)
Definition toward_zero (F : fpfmt) (a b : Q) : Prop :=
  representable F b /\ (0 <= a * b)%Q /\ (Qabs b <= Qabs a)%Q /\
  forall u, representable F u -> (Qabs u <= Qabs a)%Q -> (Qabs u <= Qabs b)%Q.
