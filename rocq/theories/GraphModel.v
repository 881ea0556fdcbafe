(* Model of operation graphs as linked objects: copy, breadth-first orders and
   the work-list of linearized passes.
   Sources (under /repo/metalibm_core): core/ml_operations.py 652-660, 722-736,
   816-829, 1935-1943 (copy), opt/opt_utils.py 133-155 (depth_node_ordering),
   opt/p_auto_pipeline.py 385-401 (linearize_graph),
   core/passes.py 332-350 (LinearizedGraphOptimization.execute). *)
Require Import List Arith Bool.
Import ListNotations.

(* ---- orders; leaf: is_leaf_node, ins: node.inputs ---- *)
Section Orders.
  Variable leaf : nat -> bool.
  Variable ins : nat -> list nat.
  Definition mem (n : nat) (l : list nat) : bool := existsb (Nat.eqb n) l.

  (* depth_node_ordering: visited nodes are not listed again but their inputs
     are pushed again.  seen holds ordered_list reversed. *)
  Fixpoint depth_loop (fuel : nat) (ends seen work : list nat) : option (list nat) :=
    match work with
    | [] => Some (rev seen)
    | n :: t =>
        match fuel with
        | O => None
        | S f =>
            let seen' := if mem n seen then seen else n :: seen in
            let work' := if negb (leaf n) && negb (mem n ends) then t ++ ins n else t in
            depth_loop f ends seen' work'
        end
    end.
  Definition depth_node_ordering (fuel : nat) (start : nat) (ends : list nat) : option (list nat) :=
    depth_loop fuel ends [] [start].

  (* linearize_graph *)
  Fixpoint lin_loop (fuel : nat) (seen work : list nat) : option (list nat) :=
    match work with
    | [] => Some (rev seen)
    | n :: t =>
        match fuel with
        | O => None
        | S f =>
            if mem n seen then lin_loop f seen t
            else lin_loop f (n :: seen) (if leaf n then t else t ++ ins n)
        end
    end.
  Definition linearize_graph (fuel : nat) (start : nat) : option (list nat) := lin_loop fuel [] [start].

  (* LinearizedGraphOptimization.execute: memo lists the nodes already applied
     (apply_on_node records its argument), most recent first *)
  Fixpoint push_missing (memo : list nat) (ops work : list nat) : bool * list nat :=
    match ops with
    | [] => (true, work)
    | o :: t =>
        if mem o memo then push_missing memo t work
        else let '(_, w) := push_missing memo t (if mem o work then work else work ++ [o]) in (false, w)
    end.
  Fixpoint work_loop (fuel : nat) (memo work : list nat) : option (list nat) :=
    match work with
    | [] => Some (rev memo)
    | n :: t =>
        match fuel with
        | O => None
        | S f =>
            if leaf n then work_loop f (n :: memo) t
            else let '(ready, w) := push_missing memo (ins n) t in
                 if ready then work_loop f (n :: memo) w
                 else work_loop f memo (if mem n w then w else w ++ [n])
        end
    end.
End Orders.

(* ---- copy ---- *)
Inductive kind := KCst | KInput | KVar | KOp | KCall.
Record gnode := mkgnode { knd : kind; lab : nat; inputs : list nat }.
Definition gheap := list gnode. (* object identity: position *)
Definition gget (h : gheap) (n : nat) : gnode := nth n h (mkgnode KCst 0 []).
Definition cmap := list (nat * nat).
Fixpoint look (n : nat) (m : cmap) : option nat :=
  match m with [] => None | (k, v) :: t => if Nat.eqb k n then Some v else look n t end.

(* copy with an explicit copy_map: constants, variables, operations, calls *)
Section Copy.
  Variable copy1 : gheap -> cmap -> nat -> option (gheap * cmap * nat).
  (* the tuple of copied inputs, left to right *)
  Fixpoint copy_inputs (h : gheap) (m : cmap) (l : list nat) : option (gheap * cmap * list nat) :=
    match l with
    | [] => Some (h, m, [])
    | n :: t =>
        match copy1 h m n with
        | None => None
        | Some (h1, m1, c) =>
            match copy_inputs h1 m1 t with
            | None => None
            | Some (h2, m2, cs) => Some (h2, m2, c :: cs)
            end
        end
    end.
End Copy.
Fixpoint copy (fuel : nat) (h : gheap) (m : cmap) (n : nat) : option (gheap * cmap * nat) :=
  match look n m with
  | Some c => Some (h, m, c)
  | None =>
    match fuel with
    | O => None
    | S f =>
        let nd := gget h n in
        match knd nd with
        | KInput => Some (h, (n, n) :: m, n)
        | KCst | KVar => Some (h ++ [mkgnode (knd nd) (lab nd) []], (n, length h) :: m, length h)
        | KOp | KCall =>
            match copy_inputs (copy f) h m (inputs nd) with
            | None => None
            | Some (h', m', cs) => Some (h' ++ [mkgnode (knd nd) (lab nd) cs], (n, length h') :: m', length h')
            end
        end
    end
  end.

(* node.copy() without argument: operations and variables start from a new map,
   constants and function calls from the dictionaries created once with the
   functions (default arguments) *)
Record world := mkworld { wheap : gheap; cst_map : cmap; call_map : cmap }.
Definition copy_default (fuel : nat) (w : world) (n : nat) : option (world * nat) :=
  match knd (gget (wheap w) n) with
  | KCst => match copy fuel (wheap w) (cst_map w) n with
            | Some (h, m, c) => Some (mkworld h m (call_map w), c) | None => None end
  | KCall => match copy fuel (wheap w) (call_map w) n with
            | Some (h, m, c) => Some (mkworld h (cst_map w) m, c) | None => None end
  | _ => match copy fuel (wheap w) [] n with
         | Some (h, m, c) => Some (mkworld h (cst_map w) (call_map w), c) | None => None end
  end.
