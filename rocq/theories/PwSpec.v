(* What is expected from a piecewise polynomial approximation, without the
   model: values of polynomials, maximum of the errors. *)
From Coq Require Import ZArith QArith Qabs List Bool Arith.
Import ListNotations.
Open Scope Q_scope.

Fixpoint qpow (x : Q) (n : nat) : Q := match n with O => 1 | S m => x * qpow x m end.

(* value at x of the polynomial whose list of monomials is p *)
Fixpoint mono_sum (p : list (nat * Q)) (x : Q) : Q :=
  match p with [] => 0 | (k, c) :: t => c * qpow x k + mono_sum t x end.

(* value at x of c0 + c1 x + c2 x^2 + ... *)
Fixpoint poly_at (l : list Q) (x : Q) : Q := match l with [] => 0 | c :: t => c + x * poly_at t x end.

(* same with absolute values *)
Definition abs_poly_at (l : list Q) (x : Q) : Q := poly_at (map Qabs l) (Qabs x).

(* m is the largest of the values l, or the start *)
Definition largest (start : Q) (l : list Q) (m : Q) : Prop :=
  (m == start \/ exists e, In e l /\ m == e) /\ start <= m /\ forall e, In e l -> e <= m.

(* a dictionary: each degree once *)
Definition degrees {A} (p : list (nat * A)) : list nat := map fst p.
Definition simple {A} (p : list (nat * A)) : Prop := NoDup (degrees p).

(* rounding with relative error at most u *)
Definition rel_rounding (u : Q) (rnd : Q -> Q) : Prop := forall y, Qabs (rnd y - y) <= u * Qabs y.
