(* Independent specification of fixed-point formats: n-bit integers scaled by
   a power of two, in two's complement when signed. *)
From Coq Require Import ZArith QArith.
From Verif Require Import QUtil FixedModel.
Open Scope Z_scope.

(* at least one bit *)
Definition fx_ok (F : fxfmt) : Prop := 1 <= isz F + frsz F.

(* smallest and largest integer codes *)
Definition fx_lo (F : fxfmt) : Z := if sgn F then - 2 ^ (isz F + frsz F - 1) else 0.
Definition fx_hi (F : fxfmt) : Z :=
  if sgn F then 2 ^ (isz F + frsz F - 1) - 1 else 2 ^ (isz F + frsz F) - 1.

(* v is the number whose scaled integer is k *)
Definition fx_is (F : fxfmt) (v : Q) (k : Z) : Prop :=
  fx_lo F <= k <= fx_hi F /\ (v == inject_Z k * p2 (- frsz F))%Q.

(* v is a number of the format *)
Definition fx_value (F : fxfmt) (v : Q) : Prop := exists k, fx_is F v k.

(* unit in the last place *)
Definition fx_ulp (F : fxfmt) : Q := p2 (- frsz F).

(* x is an integer multiple of the unit in the last place *)
Definition fx_grid (F : fxfmt) (x : Q) : Prop := exists k, (x == inject_Z k * fx_ulp F)%Q.
