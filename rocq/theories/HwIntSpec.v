(** Specification vocabulary for integer hardware blocks. *)
From Coq Require Import ZArith.
Open Scope Z_scope.

(** [n] is the number of leading zeros of [v] written on [w] bits *)
Definition is_clz (w v n : Z) : Prop :=
  0 <= n <= w /\ (v = 0 -> n = w) /\ (v <> 0 -> 2 ^ (w - 1 - n) <= v < 2 ^ (w - n)).
