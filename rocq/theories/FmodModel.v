(* Model of the iterative floating-point modulo,
   /repo/metalibm_functions/fmod.py 75-120 (generate_scalar_scheme).

   rnd rounds every operation (division, fused multiply-add, product, sum);
   Trunc of a number of the format is a number of the format.  The scheme has no
   bound on the loop: fuel, None = not finished. *)
From Coq Require Import ZArith QArith.
From Verif Require Import QUtil.
Open Scope Z_scope.

Section Fmod.
Variable rnd : Q -> Q.
Variable p : Z.

(* 76-77, 94-98 Trunc(a / y) *)
Definition tdiv (a y : Q) : Z := qtrunc (rnd (a / y)%Q).
(* 81, 99-106 FMA(-q, y, a) *)
Definition fms (q : Z) (y a : Q) : Q := rnd (- inject_Z q * y + a)%Q.

(* 87-108 the loop, entered with rem and qi *)
Fixpoint fmod_loop (fuel : nat) (y rem : Q) (qi : Z) : option Q :=
  if Z.abs qi <=? 2 ^ p then Some rem else
  match fuel with
  | O => None
  | S f => let q := tdiv rem y in fmod_loop f y (fms q y rem) q
  end.

(* 75-120 *)
Definition fmod (fuel : nat) (x y : Q) : option Q :=
  let t := tdiv x y in
  match fmod_loop fuel y (fms t y x) t with
  | None => None
  | Some rem => Some (if Qle_bool 0 (rnd (rem * x)%Q) then rem else rnd (rem + y)%Q)
  end.
End Fmod.
