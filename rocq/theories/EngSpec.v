(* What lowering should do. *)
From Coq Require Import List Arith Bool.
From Verif Require Import EngModel.
Import ListNotations.

Section Values.
Variable V : Type.
Variable sem : nat -> list V -> list V -> V.
(* values of the objects, those of operations following from their operands *)
Definition valuation (h : heap) (val : nat -> V) : Prop := forall i nd, nth_error h i = Some nd -> n_leaf nd = false ->
  val i = sem (n_class nd) (map val (n_inputs nd)) (map val (n_extra nd)).
End Values.
(* no dangling reference *)
Definition closed (h : heap) : Prop := forall i nd c, nth_error h i = Some nd -> In c (n_inputs nd ++ n_extra nd) -> c < length h.
(* an action leaves objects as they are, adds some, and gives one *)
Definition extending (act : action) : Prop := forall h i h' r, closed h -> i < length h -> act h i = Some (h', r) ->
  (exists l, h' = h ++ l) /\ r < length h' /\ closed h'.
(* with the same value *)
Definition keeps_value (V : Type) (sem : nat -> list V -> list V -> V) (act : action) : Prop := forall h i h' r val, closed h -> i < length h -> act h i = Some (h', r) ->
  valuation V sem h val -> exists val', (forall k, k < length h -> val' k = val k) /\ valuation V sem h' val' /\ val' r = val i.

Inductive reach (h : heap) : nat -> nat -> Prop :=
| reach_refl : forall i, reach h i i
| reach_step : forall i nd c j, nth_error h i = Some nd -> n_leaf nd = false -> In c (n_inputs nd) -> reach h c j -> reach h i j.
Definition supported (get_action : nat -> option action) (h : heap) (i : nat) : Prop :=
  exists nd, nth_error h i = Some nd /\ get_action (n_class nd) = None.
(* the object given by an action needs no action (those it is made of may need some) *)
Definition one_step (get_action : nat -> option action) : Prop := forall c act h i h' r, get_action c = Some act -> act h i = Some (h', r) -> supported get_action h' r.
