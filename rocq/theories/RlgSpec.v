(* What legalized operations should give. *)
From Coq Require Import ZArith List.
From Verif Require Import RlgModel.
Import ListNotations.
Local Open Scope Z_scope.
(* bits lo to hi of x, one by one *)
Definition bits_of (x lo hi r : Z) : Prop := 0 <= r < 2 ^ (hi - lo + 1) /\ forall i, 0 <= i <= hi - lo -> Z.testbit r i = Z.testbit x (lo + i).
(* r is l above the k bits of b *)
Definition side_by_side (l b k r : Z) : Prop := r / 2 ^ k = l /\ r mod 2 ^ k = b.
(* magnitude of a finite floating-point number, in units of 2^-(bias + fs) *)
Definition magnitude (es fs x : Z) : Z :=
  let e := (x / 2 ^ fs) mod 2 ^ es in let f := x mod 2 ^ fs in
  if Z.eq_dec e 0 then f * 2 else (2 ^ fs + f) * 2 ^ e.
