(** What the acceptance tests should accept, written without reference to
    the code. *)

Require Import ZArith QArith Qabs List Bool.
From Verif Require Import QUtil FpFormatModel FpFormatSpec SpecialSpec.
Open Scope Z_scope.

(** value of a finite datum *)
Definition val (d : datum) : Q := match d with DFin q => q | _ => 0%Q end.

Definition finite (d : datum) : Prop :=
  match d with DFin _ | DZero _ => True | _ => False end.

(** data of the format *)
Definition in_format (F : fpfmt) (d : datum) : Prop :=
  match d with
  | DFin q => representable F q /\ ~ (q == 0)%Q
  | _ => True
  end.

(** no number of the format is between the exact value and the result, nor
    is the exact value itself a number of the format other than the result *)
Definition is_faithful (F : fpfmt) (x : Q) (r : datum) : Prop :=
  match r with
  | DNaN => False
  | DInf true => forall u, representable F u -> (x < u)%Q
  | DInf false => forall u, representable F u -> (u < x)%Q
  | _ => forall u, representable F u ->
           ~ (x <= u < val r)%Q /\ ~ (val r < u <= x)%Q
  end.

(** IEEE 754 4.3.1: magnitudes from 2^emax (2 - 2^-fsz / 2) on round to
    infinity *)
Definition overflow_threshold (F : fpfmt) : Q :=
  (p2 (2 ^ (esz F - 1) - 1) * (2 - p2 (- fsz F) * (1 # 2)))%Q.

(** the last digit of the significand is even *)
Definition even_significand (F : fpfmt) (q : Q) : Prop :=
  exists N e, (q == inject_Z N * p2 e)%Q /\ Z.even N = true
    /\ Z.abs N < 2 ^ (fsz F + 1)
    /\ 2 - 2 ^ (esz F - 1) - fsz F <= e <= 2 ^ (esz F - 1) - 1 - fsz F
    /\ (2 ^ fsz F <= Z.abs N \/ e = 2 - 2 ^ (esz F - 1) - fsz F).

Definition ties_even (F : fpfmt) (x q : Q) : Prop :=
  forall u, representable F u -> ~ (u == q)%Q ->
    (Qabs (x - u) == Qabs (x - q))%Q -> even_significand F q.

Definition below_zero (x : Q) : bool := negb (Qle_bool 0 x).

(** round to nearest, ties to even; a zero has the sign of the exact value *)
Definition ieee_rounded (F : fpfmt) (x : Q) (d : datum) : Prop :=
  match d with
  | DNaN => False
  | DInf s => (overflow_threshold F <= Qabs x)%Q /\ s = below_zero x
  | DZero s => nearest F x 0 /\ (Qabs x < overflow_threshold F)%Q
               /\ ties_even F x 0 /\ s = below_zero x
  | DFin q => nearest F x q /\ (Qabs x < overflow_threshold F)%Q
              /\ ties_even F x q
  end.

(** [w] is the next number of the format *)
Definition successor (F : fpfmt) (v w : Q) : Prop :=
  representable F w /\ (v < w)%Q
  /\ forall u, representable F u -> (v < u)%Q -> (w <= u)%Q.
