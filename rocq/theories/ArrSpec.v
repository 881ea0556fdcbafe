(* Tests of array functions: what they should establish. *)
From Coq Require Import ZArith List.
From Verif Require Import SpecialSpec.

(* the function under test computes f on each element of its array, whatever it does to the
   rest of the output *)
Definition computes_elements {X} (f : X -> datum) (ins : list X) (fut : nat -> nat -> (nat -> datum) -> nat -> datum) : Prop :=
  forall offset len out j x, (j < len)%nat -> nth_error ins (offset + j) = Some x -> fut offset len out (offset + j)%nat = f x.
(* and leaves the rest of the output unchanged *)
Definition stays_inside (fut : nat -> nat -> (nat -> datum) -> nat -> datum) : Prop :=
  forall offset len out i, (i < offset \/ offset + len <= i)%nat -> fut offset len out i = out i.
(* consecutive arrays from 0 to n *)
Fixpoint consecutive (from : nat) (rows : list (nat * nat)) (n : nat) : Prop :=
  match rows with
  | nil => from = n
  | cons (s, o) rows => o = from /\ consecutive (from + s) rows n
  end.
