(* Specification side of the multi-limb area: binary floating-point numbers
   and round-to-nearest functions, stated without any reference to the code.

   A format is a precision p (number of significant digits, at least 2) and a
   smallest exponent emin (None: unbounded exponent range).  Overflow is left
   out: statements are about values whose operations do not overflow. *)
From Coq Require Import ZArith QArith Qround Qabs Lia Lqa.
From Verif Require Import QUtil.
Open Scope Z_scope.

Record fmt := mkF { prec : Z; emin : option Z }.

Definition exp_ok (F : fmt) (e : Z) : Prop :=
  match emin F with None => True | Some k => k <= e end.

(* x is a number of the format: m * 2^e with at most p digits *)
Definition inF (F : fmt) (x : Q) : Prop :=
  exists m e, (x == inject_Z m * p2 e)%Q /\ Z.abs m <= 2 ^ prec F /\ exp_ok F e.

(* rnd rounds to a nearest number of the format; ties are broken in any
   (deterministic) way *)
Definition nearest_in (F : fmt) (rnd : Q -> Q) : Prop :=
  (forall x y, x == y -> rnd x == rnd y)%Q
  /\ (forall x, inF F (rnd x))
  /\ (forall x f, inF F f -> Qabs (rnd x - x) <= Qabs (f - x))%Q.

(* x is an integer multiple of 2^e *)
Definition mult (e : Z) (x : Q) : Prop := exists k, (x == inject_Z k * p2 e)%Q.
