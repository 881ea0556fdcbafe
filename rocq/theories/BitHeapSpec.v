(** Specification vocabulary for bit heaps, independent of the reduction code:
    the number denoted by a heap and by a two's complement operand. *)
From Coq Require Import ZArith List Bool.
From Verif Require Import BitHeapModel.
Import ListNotations.
Open Scope Z_scope.

Definition b2z (b : bool) : Z := if b then 1 else 0.

(** sum of the values of a list of bits *)
Fixpoint bits_sum (env : nat -> bool) (l : list bexp) : Z :=
  match l with [] => 0 | b :: t => b2z (beval env b) + bits_sum env t end.

(** number denoted by a heap, in units of 2^base *)
Fixpoint heap_val (env : nat -> bool) (base : Z) (h : heap) : Z :=
  match h with
  | [] => 0
  | (k, l) :: t => bits_sum env l * 2 ^ (k - base) + heap_val env base t
  end.

(** every weight of the heap is at least [base] *)
Definition above (base : Z) (h : heap) : Prop := forall k l, In (k, l) h -> base <= k.

(** number denoted by consecutive bits (little endian) *)
Fixpoint row_val (env : nat -> bool) (l : list bexp) : Z :=
  match l with [] => 0 | b :: t => b2z (beval env b) + 2 * row_val env t end.
Fixpoint rows_val (env : nat -> bool) (base : Z) (l : list (Z * list bexp)) : Z :=
  match l with
  | [] => 0
  | (off, r) :: t => row_val env r * 2 ^ (off - base) + rows_val env base t
  end.

(** unsigned integer made of the [n] low bits of an operand, and the operand's
    integer (two's complement when signed): the fixed-point value of an operand
    is [op_int * 2^(-op_frac)] *)
Fixpoint low_code (env : nat -> bool) (bit : nat -> bexp) (n : nat) : Z :=
  match n with
  | O => 0
  | S n' => low_code env bit n' + b2z (beval env (bit n')) * 2 ^ Z.of_nat n'
  end.
Definition op_int (env : nat -> bool) (a : operand) : Z :=
  low_code env (op_bit a) (op_size a)
  - (if op_signed a && beval env (op_bit a (op_size a - 1)) then 2 ^ Z.of_nat (op_size a) else 0).

(** value of a term of the operation descriptor, in units of 2^base *)
Definition item_val (env : nat -> bool) (base : Z) (it : item) : Z :=
  match it with
  | Prod a b => op_int env a * op_int env b * 2 ^ (- op_frac a - op_frac b - base)
  | Op c => op_int env c * 2 ^ (- op_frac c - base)
  end.
Fixpoint actions_val (env : nat -> bool) (base : Z) (l : list action) : Z :=
  match l with
  | [] => 0
  | AMerge it :: t => item_val env base it + actions_val env base t
  | AReduce _ :: t => actions_val env base t
  end.

(** well-formed BitHeap object: one entry per weight, no empty column *)
Definition wf_heap (h : heap) : Prop :=
  NoDup (map fst h) /\ Forall (fun e => snd e <> []) h.
