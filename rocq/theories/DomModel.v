(* Model of the control-flow graph analyses of /repo/metalibm_core/opt/p_gen_bb.py:
   edges, predecessors, dominators, immediate dominators, dominance frontiers and
   phi placement.

   A basic block is a number.  Python sets are lists read through membership; where
   the code iterates over a set (cfg_edges, dominator_map[bb], the work list W) the
   order is that of the list, and the theorems hold for every order.  Errors
   reported with Log.Error are None. *)
From Coq Require Import List Arith Bool.
Import ListNotations.

Fixpoint memb (n : nat) (l : list nat) : bool :=
  match l with [] => false | m :: t => (n =? m) || memb n t end.

(* last operation of a block *)
Inductive term := TEmpty | TBr (dst : nat) | TCBr (t f : nat) | TOther.
Definition block := (nat * term)%type.

(* 362-376 build_cfg_edges_set *)
Fixpoint cfg_edges (bl : list block) : option (list (nat * nat)) :=
  match bl with
  | [] => Some []
  | (b, t) :: r =>
    match t, cfg_edges r with
    | TEmpty, _ | _, None => None
    | TBr d, Some e => Some ((b, d) :: e)
    | TCBr d f, Some e => Some ((b, d) :: (b, f) :: e)
    | TOther, Some e => Some e
    end
  end.

(* 378-392 build_predominance_map_list; a dictionary in insertion order *)
Fixpoint pred_add (d s : nat) (m : list (nat * list nat)) : list (nat * list nat) :=
  match m with
  | [] => [(d, [s])]
  | (d', l) :: r => if d =? d' then (d', l ++ [s]) :: r else (d', l) :: pred_add d s r
  end.
Definition pred_map (edges : list (nat * nat)) : list (nat * list nat) :=
  fold_left (fun m e => pred_add (snd e) (fst e) m) edges [].

Definition dmap := nat -> list nat.
Definition upd (D : dmap) (b : nat) (v : list nat) : dmap := fun n => if n =? b then v else D n.
Definition subset (a b : list nat) : bool := forallb (fun x => memb x b) a.
Definition same_set (a b : list nat) : bool := subset a b && subset b a.
(* set.intersection of a non-empty list of sets *)
Fixpoint inter (D : dmap) (l : list nat) : list nat :=
  match l with
  | [] => []
  | [q] => D q
  | q :: r => filter (fun x => memb x (inter D r)) (D q)
  end.

(* 408-423 one pass over the predecessor map *)
Fixpoint dom_pass (bbs : list nat) (pm : list (nat * list nat)) (D : dmap) (change : bool) : option (dmap * bool) :=
  match pm with
  | [] => Some (D, change)
  | (b, preds) :: r =>
    let dom := b :: inter D preds in
    if negb (memb b bbs) then None else
    dom_pass bbs r (upd D b dom) (change || negb (same_set dom (D b)))
  end.
(* 405-424 *)
Fixpoint dom_loop (fuel : nat) (bbs : list nat) (pm : list (nat * list nat)) (D : dmap) : option dmap :=
  match fuel with
  | O => None
  | S f => match dom_pass bbs pm D false with
           | None => None
           | Some (D', true) => dom_loop f bbs pm D'
           | Some (D', false) => Some D'
           end
  end.
(* 394-424 build_dominator_map *)
Definition dominator_map (fuel root : nat) (bbs : list nat) (edges : list (nat * nat)) : option dmap :=
  dom_loop fuel bbs (pred_map edges) (upd (fun _ => bbs) root [root]).

(* 426-447 build_immediate_dominator_map *)
Definition is_imm (D : dmap) (b dom : nat) : bool :=
  negb (dom =? b) && forallb (fun o => (o =? dom) || (o =? b) || negb (memb dom (D o))) (D b).
Definition idom (D : dmap) (b : nat) : option nat := find (is_imm D b) (D b).

(* 450-458 *)
Definition not_strictly_dominates (D : dmap) (x y : nat) : bool := if x =? y then true else negb (memb x (D y)).

(* 461-474 the walk up the immediate dominators from the source of an edge;
   the blocks whose frontier receives the destination *)
Fixpoint df_walk (fuel : nat) (D : dmap) (x d : nat) : option (list nat) :=
  if not_strictly_dominates D x d then
    match fuel with
    | O => None
    | S f => match idom D x with
             | None => None
             | Some x' => match df_walk f D x' d with None => None | Some l => Some (x :: l) end
             end
    end
  else Some [].
(* the frontier map as a list of (block, member) *)
Fixpoint frontiers (fuel : nat) (D : dmap) (edges : list (nat * nat)) : option (list (nat * nat)) :=
  match edges with
  | [] => Some []
  | (s, d) :: r => match df_walk fuel D s d, frontiers fuel D r with
                   | Some l, Some m => Some (map (fun x => (x, d)) l ++ m)
                   | _, _ => None
                   end
  end.
Definition df_of (fr : list (nat * nat)) (x : nat) : list nat := map snd (filter (fun e => fst e =? x) fr).

(* 514-549 phi placement for one variable; result: the blocks that receive a phi, in order.
   pop takes an element out of the work set. *)
Section Phi.
Variable pop : list nat -> option (nat * list nat).
Variable fr : list (nat * nat).
Variable defs : list nat.
Fixpoint phi_ys (ys F W : list nat) : list nat * list nat :=
  match ys with
  | [] => (F, W)
  | y :: r => if memb y F then phi_ys r F W
              else phi_ys r (F ++ [y]) (if memb y defs then W else y :: W)
  end.
Fixpoint phi_loop (fuel : nat) (F W : list nat) : option (list nat) :=
  match pop W with
  | None => Some F
  | Some (x, W') =>
    match fuel with
    | O => None
    | S f => let '(F', W'') := phi_ys (df_of fr x) F W' in phi_loop f F' W''
    end
  end.
End Phi.

(* 943-970 Pass_BBSimplification: blocks accessible from the entry.  succ lists the
   successors (empty for an empty block). *)
Fixpoint acc_loop (fuel : nat) (succ : nat -> list nat) (processed work acc : list nat) : option (list nat) :=
  match work with
  | [] => Some acc
  | b :: w =>
    match fuel with
    | O => None
    | S f => let processed' := processed ++ [b] in
             let new := filter (fun n => negb (memb n processed')) (succ b) in
             acc_loop f succ processed' (w ++ new) (acc ++ new)
    end
  end.
Definition accessible (fuel root : nat) (succ : nat -> list nat) : option (list nat) := acc_loop fuel succ [] [root] [root].
