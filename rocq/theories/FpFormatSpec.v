(* Independent specification: IEEE-754 interchange formats (clause 3.4). *)
From Coq Require Import ZArith QArith Qabs.
From Verif Require Import QUtil FpFormatModel.
Open Scope Z_scope.

(* formats considered: exponent width >= 2, at least one fraction bit *)
Definition fmt_ok (F : fpfmt) : Prop := 2 <= esz F /\ 1 <= fsz F.
(* the Sollya object has the same significand width as the format *)
Definition sollya_ok (F : fpfmt) : Prop := sprec F = fsz F + 1.

(* c is the word made of sign s, exponent field E, trailing significand M *)
Definition has_fields (F : fpfmt) (c : Z) (s : bool) (E M : Z) : Prop :=
  c = (if s then 2 ^ (esz F + fsz F) else 0) + E * 2 ^ fsz F + M
  /\ 0 <= E < 2 ^ esz F /\ 0 <= M < 2 ^ fsz F.

(* any integer whose low bits are the word *)
Definition view_of (F : fpfmt) (x c : Z) : Prop := x mod 2 ^ (1 + esz F + fsz F) = c.

(* IEEE exponent bias *)
Definition ieee_bias (F : fpfmt) : Z := 2 ^ (esz F - 1) - 1.

(* datum represented by (s, E, M), IEEE-754 3.4 a)-e) *)
Inductive ieee_datum (F : fpfmt) : bool -> Z -> Z -> fpv -> Prop :=
| d_qnan : forall s M, 2 ^ (fsz F - 1) <= M -> ieee_datum F s (2 ^ esz F - 1) M QNaN
| d_snan : forall s M, M <> 0 -> M < 2 ^ (fsz F - 1) -> ieee_datum F s (2 ^ esz F - 1) M SNaN
| d_pinf : ieee_datum F false (2 ^ esz F - 1) 0 PInf
| d_minf : ieee_datum F true (2 ^ esz F - 1) 0 MInf
| d_pzero : ieee_datum F false 0 0 PZero
| d_mzero : ieee_datum F true 0 0 MZero
| d_normal : forall (s : bool) E M q, 0 < E < 2 ^ esz F - 1 ->
    (q == (if s then -1 else 1) * p2 (E - ieee_bias F) * (1 + inject_Z M * p2 (- fsz F)))%Q ->
    ieee_datum F s E M (Num q)
| d_subnormal : forall (s : bool) M q, M <> 0 ->
    (q == (if s then -1 else 1) * p2 (1 - ieee_bias F) * (inject_Z M * p2 (- fsz F)))%Q ->
    ieee_datum F s 0 M (Num q).

(* v is a finite number of the format: m * 2^e with a significand of at most
   fsz+1 bits and an exponent in range *)
Definition representable (F : fpfmt) (v : Q) : Prop :=
  exists m e, Z.abs m < 2 ^ (fsz F + 1)
    /\ 2 - 2 ^ (esz F - 1) - fsz F <= e <= 2 ^ (esz F - 1) - 1 - fsz F
    /\ (v == inject_Z m * p2 e)%Q.

(* v is a nearest representable number to w *)
Definition nearest (F : fpfmt) (w v : Q) : Prop :=
  representable F v /\ forall u, representable F u -> (Qabs (w - v) <= Qabs (w - u))%Q.
