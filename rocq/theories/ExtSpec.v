(* What a function made of a part of a graph should be. *)
From Coq Require Import String List Arith.
From Verif Require Import ExtModel.
Import ListNotations.

(* going down from a node without crossing the arguments, an input variable of the caller
   is reached *)
Inductive reaches (g : nat -> shape) (args : list nat) : nat -> nat -> Prop :=
  | r_here n : g n = Input -> ~ In n args -> reaches g args n n
  | r_op n o cs c v : g n = Op o cs -> ~ In n args -> In c cs -> reaches g args c v -> reaches g args n v
  | r_call n f cs c v : g n = Call f cs -> ~ In n args -> In c cs -> reaches g args c v -> reaches g args n v.
(* the arguments are enough *)
Definition covered (g : nat -> shape) (args : list nat) (n : nat) : Prop := forall v, ~ reaches g args n v.
