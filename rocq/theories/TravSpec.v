(* Nodes of a graph, and values of nodes. *)
From Coq Require Import List.
From Verif Require Import TravModel.
Import ListNotations.
Inductive reach (children : nat -> list nat) (n : nat) : nat -> Prop :=
| reach_self : reach children n n
| reach_step : forall m c, reach children n m -> In c (children m) -> reach children n c.
Definition acyclic (children : nat -> list nat) : Prop := forall n c, In c (children n) -> c < n.
(* the value of a node, knowing those of some *)
Inductive value (V : Type) (kind : nat -> ekind V) (known : nat -> option V) : nat -> V -> Prop :=
| value_known : forall n v, known n = Some v -> value V kind known n v
| value_const : forall n v, known n = None -> kind n = KConst V v -> value V kind known n v
| value_cast : forall n f c v, known n = None -> kind n = KCast V f c -> value V kind known c v -> value V kind known n (f v)
| value_op : forall n f cs vs, known n = None -> kind n = KOp V f cs -> Forall2 (value V kind known) cs vs -> value V kind known n (f vs).
