(* Which implementation should be selected, and in which order classes should be searched. *)
From Coq Require Import List Arith Bool.
From Verif Require Import SelModel.
Import ListNotations.

Section Spec.
Variables node impl lang key : Type.
Variable key_of : node -> key.
Notation entry := (entry node impl lang key).
(* entries of the language for the operation, whose conditions hold *)
Definition applies (l : lang) (nd : node) (e : entry) : Prop := e_lang e = l /\ e_key e = key_of nd /\ e_cond e nd = true /\ e_face e nd <> No.
Definition strong (l : lang) (nd : node) (e : entry) : Prop := applies l nd e /\ e_face e nd <> Match true.
Definition weak (l : lang) (nd : node) (e : entry) : Prop := applies l nd e /\ e_face e nd = Match true.
End Spec.
Definition first_of {A : Type} (P : A -> Prop) (l : list A) (x : A) : Prop := exists l1 l2, l = l1 ++ x :: l2 /\ P x /\ forall y, In y l1 -> ~ P y.
Definition precedes {A : Type} (l : list A) (x y : A) : Prop := exists l1 l2 l3, l = l1 ++ x :: l2 ++ y :: l3.
(* classes above those of p *)
Inductive ancestor (bases : nat -> list nat) (p : list nat) : nat -> Prop :=
| anc_base : forall c, In c p -> ancestor bases p c
| anc_step : forall c b, ancestor bases p c -> In b (bases c) -> ancestor bases p b.
