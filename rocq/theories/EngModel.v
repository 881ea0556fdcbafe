(* The lowering engine.
   Model of metalibm_core/opt/generic_lowering.py:61-87 (LoweringEngine.lower_node)
   and 129-132 (execute_on_graph), with core/ml_operations.py:324-328 (set_input).

   Objects are nodes of a heap, named by their position.  A class stands for all
   get_lowering_action looks at (operation, formats, key): the action found is a
   function of it.  An action is any function building objects and giving one.
   None is a lack of fuel, an unknown object or an action that fails. *)
From Coq Require Import List Arith Bool.
Import ListNotations.

Record node := mkN { n_class : nat; n_leaf : bool; n_inputs : list nat; n_extra : list nat }.
Definition heap := list node.
Record state := mkS { hp : heap; lowered : list (nat * nat) }.
Fixpoint lookup (m : list (nat * nat)) (i : nat) : option nat :=
  match m with [] => None | (k, r) :: t => if Nat.eqb k i then Some r else lookup t i end.
Definition remember (st : state) (i r : nat) : state := mkS (hp st) ((i, r) :: lowered st).

Fixpoint set_at (l : list nat) (k x : nat) : list nat :=
  match l, k with
  | [], _ => []
  | _ :: t, O => x :: t
  | y :: t, S q => y :: set_at t q x
  end.
Fixpoint set_node (h : heap) (i : nat) (nd : node) : heap :=
  match h, i with
  | [], _ => []
  | _ :: t, O => nd :: t
  | x :: t, S k => x :: set_node t k nd
  end.
(* node.set_input(index, op) *)
Definition set_input (st : state) (i k x : nat) : state :=
  match nth_error (hp st) i with
  | Some nd => mkS (set_node (hp st) i (mkN (n_class nd) (n_leaf nd) (set_at (n_inputs nd) k x) (n_extra nd))) (lowered st)
  | None => st
  end.

Definition action := heap -> nat -> option (heap * nat).
Section Engine.
(* target.get_lowering_action *)
Variable get_action : nat -> option action.

(* for index, op in enumerate(node.inputs): node.set_input(index, self.lower_node(op)) *)
Fixpoint lower_inputs (f : state -> nat -> option (state * nat)) (st : state) (i k : nat) (l : list nat) : option state :=
  match l with
  | [] => Some st
  | op :: t => match f st op with
               | None => None
               | Some (st', r) => lower_inputs f (set_input st' i k r) i (S k) t
               end
  end.

Fixpoint lower (n : nat) (st : state) (i : nat) : option (state * nat) :=
  match n with
  | O => None
  | S m =>
    match lookup (lowered st) i with
    | Some r => Some (st, r)
    | None =>
      match nth_error (hp st) i with
      | None => None
      | Some nd =>
        match get_action (n_class nd) with
        | None =>
          let st1 := remember st i i in
          if n_leaf nd then Some (st1, i)
          else match lower_inputs (lower m) st1 i 0 (n_inputs nd) with
               | None => None
               | Some st2 => Some (st2, i)
               end
        | Some act =>
          match act (hp st) i with
          | None => None
          | Some (h', new_node) => lower m (remember (mkS h' (lowered st)) i new_node) new_node
          end
        end
      end
    end
  end.
Definition execute_on_graph (n : nat) (h : heap) (root : nat) : option (heap * nat) :=
  match lower n (mkS h []) root with Some (st, r) => Some (hp st, r) | None => None end.
End Engine.
