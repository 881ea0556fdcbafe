(* What a pipeline must do, independently of how it is generated. *)
From Coq Require Import List Arith.
From Verif Require Import PipeModel.
Import ListNotations.

Section Spec.
Context {V : Type}.
Variable nodes : nat -> node V.
Variable stage : nat -> nat.

(* operands of an operation, and of any node *)
Definition op_ins (n : nat) : list nat :=
  match nodes n with NPos _ l | NOp _ l => l | _ => [] end.
Definition operands (n : nat) : list nat :=
  match nodes n with NPos _ l | NOp _ l => l | NDelay _ _ x => [x] | _ => [] end.
Definition is_delay (n : nat) : Prop := exists r d x, nodes n = NDelay r d x.
Definition timed (n : nat) : Prop := match nodes n with NIn | NOp _ _ => True | _ => False end.

Inductive reach (r : nat) : nat -> Prop :=
| reach_refl : reach r r
| reach_step n i : reach r n -> In i (operands n) -> reach r i.

(* n is read by c, directly or through a static delay *)
Definition feeds (n c : nat) : Prop :=
  (timed n /\ In n (op_ins c)) \/ (exists i r d, In i (op_ins c) /\ nodes i = NDelay r d n).

(* the value of a node when every input signal i has the value x i *)
Inductive value (x : nat -> V) : nat -> V -> Prop :=
| value_in n : nodes n = NIn -> value x n (x n)
| value_cst n v : nodes n = NCst v -> value x n v
| value_pos n v l : nodes n = NPos v l -> value x n v
| value_op n f l vs : nodes n = NOp f l -> Forall2 (value x) l vs -> value x n (f vs)
| value_delay n r d i v : nodes n = NDelay r d i -> value x i v -> value x n v.

(* every static delay brings its operand exactly to the stage of its reader *)
Definition delays_fit : Prop :=
  forall c i r d n, In i (op_ins c) -> nodes i = NDelay r d n ->
    (if r then stage n + d else d) = stage c /\ stage n <= stage c /\ ~ is_delay n.
(* no operation reads a value of a later stage *)
Definition causal (c : nat) : Prop := forall i, In i (op_ins c) -> timed i -> stage i <= stage c.

(* a behaviour of the circuit: registers fw clocked at each time step, operations
   combinational with the inputs `ins`, input signals given by `xin` *)
Record behaviour (fw : list (nat * (sig * sig))) (ins : nat -> list sig) (procs : list nat)
                 (xin : nat -> nat -> V) (v : nat -> sig -> V) : Prop := {
  b_in : forall t n, nodes n = NIn -> v t (SOrig n) = xin t n;
  b_cst : forall t n c, nodes n = NCst c -> v t (SOrig n) = c;
  b_pos : forall t n c l, nodes n = NPos c l -> v t (SOrig n) = c;
  b_op : forall t n f l, In n procs -> nodes n = NOp f l -> v t (SOrig n) = f (map (v t) (ins n));
  b_reg : forall t s d g, In (s, (d, g)) fw -> v (S t) d = v t g
}.
End Spec.
