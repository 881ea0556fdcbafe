(* Model of the operand-list reductions and of the logical simplification pass.
   Sources (under /repo): metalibm_core/opt/opt_utils.py 157-169,
   metalibm_core/core/ml_operations.py 2100-2107,
   metalibm_hw_blocks/compound_adder.py 60-76,
   metalibm_core/opt/p_logical_simplification.py 43-178. *)
Require Import ZArith Bool List Arith.
Import ListNotations.
Open Scope nat_scope.

(* logical_reduce, AdditionN: while two operands remain, pop the two first ones
   and push their combination at the end.  One operand less per turn, so the
   number of operands is enough fuel.  An empty list raises IndexError: None. *)
Fixpoint reduce_loop {A} (ctor : A -> A -> A) (fuel : nat) (l : list A) : option A :=
  match l with
  | [] => None
  | [a] => Some a
  | a :: b :: t => match fuel with
                   | O => None
                   | S f => reduce_loop ctor f (t ++ [ctor a b])
                   end
  end.
Definition queue_reduce {A} (ctor : A -> A -> A) (l : list A) : option A :=
  reduce_loop ctor (length l) l.

(* vector_concatenation: split in two halves.  Fuel bounds the recursion depth;
   an empty list recurses for ever (None whatever the fuel). *)
Fixpoint halving_reduce {A} (ctor : A -> A -> A) (fuel : nat) (l : list A) : option A :=
  match fuel with
  | O => None
  | S f =>
      match l with
      | [a] => Some a
      | _ => let h := length l / 2 in
             match halving_reduce ctor f (firstn h l), halving_reduce ctor f (skipn h l) with
             | Some x, Some y => Some (ctor x y)
             | _, _ => None
             end
      end
  end.

(* ---- logical expressions; any other node is BIte (its inputs are visited) ---- *)
Inductive bexp :=
| BAtom (i : nat)
| BNot (a : bexp)
| BAnd (a b : bexp)
| BOr (a b : bexp)
| BIte (c a b : bexp).

(* is_logical_and_not, is_logical_or_not 43-62: both lhs and rhs are input 0 *)
Fixpoint is_and_not (e : bexp) : bool :=
  match e with
  | BAnd a _ => match a with BNot _ => true | _ => is_and_not a end
  | _ => false
  end.
Fixpoint is_or_not (e : bexp) : bool :=
  match e with
  | BOr a _ => match a with BNot _ => true | _ => is_or_not a end
  | _ => false
  end.

Definition bind {A B} (o : option A) (f : A -> option B) : option B :=
  match o with Some a => f a | None => None end.
Definition app2 {A} (o p : option (list A)) : option (list A) :=
  bind o (fun x => bind p (fun y => Some (x ++ y))).

(* LogicalSimplification.simplify 147-178 with simplify_logical_tree 65-88,
   simplify_logical_and_not 91-109, simplify_logical_or_not 112-129: the
   or-variant applies leaf_transform to the LogicalNot leaves themselves.
   None: NotImplementedError raised by get_input_list. *)
Fixpoint lsimplify (e : bexp) : option bexp :=
  match e with
  | BAtom _ => Some e
  | BNot a => bind (lsimplify a) (fun a' => Some (BNot a'))
  | BAnd a b =>
      if is_and_not e then
        let leaves := fix leaves (x : bexp) : option (list bexp) :=
          match x with
          | BNot y => bind (lsimplify y) (fun y' => Some [y'])
          | BAnd u v => app2 (leaves u) (leaves v)
          | _ => None
          end in
        bind (app2 (leaves a) (leaves b)) (fun l =>
        bind (queue_reduce BOr l) (fun r => Some (BNot r)))
      else bind (lsimplify a) (fun a' => bind (lsimplify b) (fun b' => Some (BAnd a' b')))
  | BOr a b =>
      if is_or_not e then
        let leaves := fix leaves (x : bexp) : option (list bexp) :=
          match x with
          | BNot y => bind (lsimplify x) (fun x' => Some [x'])
          | BOr u v => app2 (leaves u) (leaves v)
          | _ => None
          end in
        bind (app2 (leaves a) (leaves b)) (fun l =>
        bind (queue_reduce BAnd l) (fun r => Some (BNot r)))
      else bind (lsimplify a) (fun a' => bind (lsimplify b) (fun b' => Some (BOr a' b')))
  | BIte c a b =>
      bind (lsimplify c) (fun c' => bind (lsimplify a) (fun a' => bind (lsimplify b) (fun b' => Some (BIte c' a' b'))))
  end.
