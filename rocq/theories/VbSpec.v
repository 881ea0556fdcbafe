(* What the legalization of booleans should do. *)
From Coq Require Import List Arith Bool.
From Verif Require Import VbModel.
Import ListNotations.

(* boolean nodes whose format is to be chosen *)
Definition to_choose (v : flavour) (nd : node) : Prop :=
  match v with
  | Vector => (exists n, fm nd = VirtBool n \/ fm nd = Bool32 n) /\ In (kd nd) [KCmp; KLogic; KNot; KTest; KAsm]
  | Scalar => fm nd = SBool /\ In (kd nd) [KCmp; KLogic; KNot; KTest]
  end.
(* a boolean format of width w for the same number of lanes *)
Definition of_width (v : flavour) (w : nat) (old new : fmt) : Prop :=
  match v with
  | Vector => exists n, (old = VirtBool n \/ old = Bool32 n) /\ (w = 32 /\ new = Bool32 n \/ w = 64 /\ new = Bool64 n)
  | Scalar => In w [8; 16; 32; 64] /\ new = SBoolW w
  end.
(* the width is that of the wider of the (first two) operands *)
Definition width_of_operands (h : heap) (nd : node) (w : nat) : Prop :=
  match ins nd with
  | [] => False
  | a :: t =>
    exists x, nth_error h a = Some x /\
    match kd nd with
    | KNot | KTest => w = lane (fm x)
    | _ => match t with
           | [] => False
           | b :: _ => exists y, nth_error h b = Some y /\ w = Nat.max (lane (fm x)) (lane (fm y))
           end
    end
  end.
Inductive reach (h : heap) : nat -> nat -> Prop :=
| reach_refl : forall i, reach h i i
| reach_step : forall i nd c j, nth_error h i = Some nd -> leaf nd = false -> In c (ins nd) -> reach h c j -> reach h i j.
Definition same_but_format (a b : node) : Prop := kd b = kd a /\ leaf b = leaf a /\ ins b = ins a.
(* operands of the nodes to choose that are not themselves to choose have lanes of width w *)
Definition uniform (v : flavour) (h : heap) (w : nat) : Prop := forall i nd c x, nth_error h i = Some nd -> to_choose v nd -> In c (ins nd) -> nth_error h c = Some x -> ~ to_choose v x -> lane (fm x) = w.
