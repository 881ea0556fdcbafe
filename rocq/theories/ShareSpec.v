(* Executions of programs, and what sharing should do. *)
From Coq Require Import List Arith Bool.
From Verif Require Import ShareModel.
Import ListNotations.

Definition children (nd : node) : list nat := n_inputs nd ++ n_cases nd.
Definition ranked (h : heap) (rk : nat -> nat) : Prop := forall i nd c, nth_error h i = Some nd -> In c (children nd) -> rk c < rk i.
Inductive reach (h : heap) : nat -> nat -> Prop :=
| reach_refl : forall i, reach h i i
| reach_step : forall i nd c j, nth_error h i = Some nd -> In c (children nd) -> reach h c j -> reach h i j.

(* operations executed, in order, when choice tells the branch taken by each
   condition and each switch; operands before the operation *)
Section Exec.
Variable h : heap.
Variable choice : nat -> nat.
Fixpoint exec (n : nat) (i : nat) : list nat :=
  match n with
  | O => []
  | S m =>
    match nth_error h i with
    | None => []
    | Some nd =>
      match n_kind nd with
      | KLeaf _ => []
      | KOp _ | KWhile => concat (map (exec m) (n_inputs nd)) ++ [i]
      | KStmt _ | KLoop => concat (map (exec m) (n_inputs nd))
      | KCond => match n_inputs nd with
                 | [] => []
                 | c :: branches => exec m c ++ match nth_error branches (choice i) with Some b => exec m b | None => [] end
                 end
      | KSwitch => match n_inputs nd with
                   | [] => []
                   | v :: _ => exec m v ++ match nth_error (n_cases nd) (choice i) with Some b => exec m b | None => [] end
                   end
      end
    end
  end.
End Exec.

(* l' is l with blocks of B inserted *)
Inductive inserted (B : list nat -> Prop) : list nat -> list nat -> Prop :=
| ins_nil : inserted B [] []
| ins_same : forall x l l', inserted B l l' -> inserted B (x :: l) (x :: l')
| ins_block : forall b l l', B b -> inserted B l l' -> inserted B l (b ++ l').

(* an operation, with no variable but the inputs of the function under it *)
Definition movable (h : heap) (i : nat) : Prop :=
  (exists nd, nth_error h i = Some nd /\ (n_kind nd = KWhile \/ exists c, n_kind nd = KOp c)).
Definition is_block (h : heap) (b : nat) : Prop := exists nd, nth_error h b = Some nd /\ (n_kind nd = KCond \/ n_kind nd = KSwitch).
(* variables which are not inputs, through inputs *)
Inductive uses_variable (h : heap) : nat -> Prop :=
| uv_leaf : forall i nd, nth_error h i = Some nd -> n_kind nd = KLeaf true -> uses_variable h i
| uv_step : forall i nd c, nth_error h i = Some nd -> (forall v, n_kind nd <> KLeaf v) -> In c (n_inputs nd) -> uses_variable h c -> uses_variable h i.
