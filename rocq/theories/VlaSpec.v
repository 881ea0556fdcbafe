(* RISC-V vectors: registers of VLEN bits, groups of g registers; a group of elements of e
   bits holds VLEN * g / e of them.  vsetvl, after the specification of the extension. *)
From Coq Require Import ZArith List Bool.
From Verif Require Import VecModel VecSpec.
Open Scope Z_scope.

Definition capacity (VLEN e g : Z) : Z := VLEN * g / e.
Definition vsetvl (VLEN : Z) (get : Z -> Z -> Z -> Z) : Prop :=
  forall avl e g, 0 <= avl ->
    (avl <= capacity VLEN e g -> get avl e g = avl)
    /\ (capacity VLEN e g < avl < 2 * capacity VLEN e g -> (avl + 1) / 2 <= get avl e g <= capacity VLEN e g)
    /\ (2 * capacity VLEN e g <= avl -> get avl e g = capacity VLEN e g).

(* the array at dst holds the results, and nothing else changes *)
Definition mapped (value : Z -> Z -> Prop) (dst src n : Z) (m m' : mem) : Prop :=
  (forall i, 0 <= i < n -> value (m (src + i)) (m' (dst + i)))
  /\ (forall a, ~ (dst <= a < dst + n) -> m' a = m a).

(* reading forward is not disturbed by writing forward *)
Definition forward_safe (dst src n : Z) : Prop := dst <= src \/ src + n <= dst.

(* bytes of an element of tsize bits at the i-th place of a table *)
Definition element_offset (tsize i : Z) : Z := i * (tsize / 8).

Definition one_input (arg : nat) : nat -> bool := fun v => Nat.eqb v arg.
Definition one_arg (arg : nat) (x : Z) : nat -> option Z := fun i => if Nat.eqb i arg then Some x else None.
Definition all_valid (ops : nat -> list Z -> option Z) (arg : nat) (conds : list expr) (x : Z) : Prop :=
  Forall (fun c => exists y, eval ops (one_arg arg x) c = Some y /\ truth y = true) conds.
