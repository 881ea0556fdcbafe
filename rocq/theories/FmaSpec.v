(* Values of graphs, and what the fusion should do. *)
From Coq Require Import List Arith Bool.
From Verif Require Import FmaModel.
Import ListNotations.

Section Values.
Variable V : Type.
(* value of an operation from its format and the values of its inputs *)
Variable sem : kind -> option nat -> list V -> list V -> V.

Fixpoint evn (h : heap) (n i : nat) (v : V) : Prop :=
  match n with
  | O => False
  | S m => exists nd vs ws, nth_error h i = Some nd /\ Forall2 (evn h m) (n_inputs nd) vs /\ Forall2 (evn h m) (n_extra nd) ws /\
           v = sem (n_kind nd) (a_fmt (n_attr nd)) vs ws
  end.
(* object i of heap h has value v *)
Definition ev (h : heap) (i : nat) (v : V) : Prop := exists n, evn h n i v.

(* fused operations are what they are made of, and addition commutes *)
Definition fused_exact : Prop :=
  (forall f a b c, sem (KFma Standard) f [a; b; c] [] = sem KAdd f [sem KMul f [a; b] []; c] []) /\
  (forall f a b c, sem (KFma Subtract) f [a; b; c] [] = sem KSub f [sem KMul f [a; b] []; c] []) /\
  (forall f a b c, sem (KFma SubtractNegate) f [a; b; c] [] = sem KSub f [c; sem KMul f [a; b] []] []) /\
  (forall f a b c d, sem (KFma DotProduct) f [a; b; c; d] [] = sem KAdd f [sem KMul f [a; b] []; sem KMul f [c; d] []] []) /\
  (forall f a b c d, sem (KFma DotProductNegate) f [a; b; c; d] [] = sem KSub f [sem KMul f [a; b] []; sem KMul f [c; d] []] []) /\
  (forall f a b, sem KAdd f [a; b] [] = sem KAdd f [b; a] []).
End Values.

Definition children (nd : node) : list nat := n_inputs nd ++ n_extra nd.
(* no cycle, no dangling reference, arities *)
Definition ranked (h : heap) (rk : nat -> nat) : Prop :=
  forall i nd c, nth_error h i = Some nd -> In c (children nd) -> c < length h /\ rk c < rk i.
Definition wf_node (nd : node) : Prop :=
  match n_kind nd with
  | KMul => length (n_inputs nd) = 2 /\ n_extra nd = []
  | KAdd | KSub => n_extra nd = []
  | KLeaf _ => n_inputs nd = []
  | _ => True
  end.
Definition wf_heap (h : heap) : Prop := forall i nd, nth_error h i = Some nd -> wf_node nd.
(* an addition and the multiplications it adds have the same format *)
Definition uniform (h : heap) : Prop := forall i nd j mj,
  nth_error h i = Some nd -> is_addsub (n_kind nd) = true -> In j (n_inputs nd) -> nth_error h j = Some mj -> n_kind mj = KMul ->
  a_fmt (n_attr mj) = a_fmt (n_attr nd).

(* object i is an addition which should be fused *)
Definition fusable (h : heap) (i : nat) : Prop := exists nd a b,
  nth_error h i = Some nd /\ is_addsub (n_kind nd) = true /\ a_unbreakable (n_attr nd) = false /\ n_inputs nd = [a; b] /\
  debug_mul h a = false /\ debug_mul h b = false /\ (fusable_mul h a = true \/ fusable_mul h b = true).
(* nothing to fuse from object i *)
Inductive clean (h : heap) : nat -> Prop :=
  clean_intro : forall i nd, nth_error h i = Some nd -> ~ fusable h i -> (forall c, In c (children nd) -> clean h c) -> clean h i.
