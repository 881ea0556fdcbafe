(* Sharing of sub-expressions between branches.
   Model of metalibm_core/opt/p_function_std.py:234-323 (subexpression_sharing) and
   358-376 (insert_pre_statement).

   Objects are nodes of a heap, named by their position.  Simplifications: an
   object is a leaf, one of the control-flow operations named by the code, or
   an operation (a number stands for its class); the cases of a switch are a
   list; the memoization of contains_non_input_variable, of a pure function,
   is dropped; functions take fuel, and do nothing without; an IndexError on a
   control-flow operation without inputs is a no-operation. *)
From Coq Require Import List Arith Bool.
Import ListNotations.

(* KLeaf true: a Variable which is not an input of the function.  Loop and its
   subclasses are KLoop; WhileLoop is not one of them (core/ml_operations.py:1313) *)
Inductive kind := KLeaf (var : bool) | KOp (c : nat) | KWhile | KCond | KSwitch | KStmt (prevent : bool) | KLoop.
Record node := mkN { n_kind : kind; n_inputs : list nat; n_cases : list nat }.
Definition heap := list node.

(* keys of sharing_map with the list of parents; keys of the dictionary of the
   outermost level; pairs of ancestor_map, in the order of insertion *)
Record state := mkS { sharing : list (nat * list nat); root_level : list nat; ancestors : list (nat * nat) }.
Definition mem (x : nat) (l : list nat) : bool := existsb (Nat.eqb x) l.
Fixpoint assoc {A} (l : list (nat * A)) (i : nat) : option A :=
  match l with [] => None | (k, x) :: t => if Nat.eqb k i then Some x else assoc t i end.

(* 237-241: level_sharing_map is here the variable of subexpression_sharing, the
   list of one dictionary of line 318, and not the parameter of the same name of
   recursive_ancestor_lookup *)
Definition search_level_map (s : state) (i : nat) : bool := mem i (root_level s).

(* 243-249; lists of parents are kept from the innermost outwards *)
Definition common_ancestor (p0 p1 : list nat) : option nat := find (fun b => mem b p1) p0.

(* 251-267 *)
Fixpoint contains_non_input_variable (n : nat) (h : heap) (i : nat) : bool :=
  match n with
  | O => false
  | S m => match nth_error h i with
           | None => false
           | Some nd => match n_kind nd with
                        | KLeaf v => v
                        | _ => existsb (contains_non_input_variable m h) (n_inputs nd)
                        end
           end
  end.

(* 272-313.  at_root: level_sharing_map[0] is the dictionary of the outermost level *)
Fixpoint look (n : nat) (h : heap) (at_root : bool) (parents : list nat) (s : state) (i : nat) : state :=
  match n with
  | O => s
  | S m =>
    match nth_error h i with
    | None => s
    | Some nd =>
      match n_kind nd with
      | KCond => match n_inputs nd with
                 | [] => s
                 | c :: branches => fold_left (look m h false (i :: parents)) branches (look m h at_root (i :: parents) s c)
                 end
      | KSwitch => match n_inputs nd with
                   | [] => s
                   | v :: _ => fold_left (look m h false (i :: parents)) (n_cases nd) (look m h at_root (i :: parents) s v)
                   end
      | KStmt prevent => if prevent then s else fold_left (look m h false parents) (n_inputs nd) s
      | KLoop | KLeaf _ => s
      | KOp _ | KWhile =>
        match assoc (sharing s) i with
        | Some pl =>
          if search_level_map s i then s
          else match common_ancestor pl parents with
               | Some b => mkS (sharing s) (root_level s) (ancestors s ++ [(b, i)])
               | None => s
               end
        | None =>
          if contains_non_input_variable n h i then s
          else fold_left (look m h at_root parents) (n_inputs nd)
                 (mkS ((i, parents) :: sharing s) (if at_root then i :: root_level s else root_level s) (ancestors s))
        end
      end
    end
  end.

Fixpoint set_inputs (h : heap) (i : nat) (l : list nat) : heap :=
  match h, i with
  | [], _ => []
  | x :: t, O => mkN (n_kind x) l (n_cases x) :: t
  | x :: t, S k => x :: set_inputs t k l
  end.
Definition pre_nodes (anc : list (nat * nat)) (b : nat) : list nat := map snd (filter (fun p => Nat.eqb (fst p) b) anc).

(* 358-376 *)
Fixpoint insert_pre (n : nat) (anc : list (nat * nat)) (h : heap) (i : nat) : heap :=
  match n with
  | O => h
  | S m =>
    match nth_error h i with
    | None => h
    | Some nd =>
      match n_kind nd with
      | KStmt _ =>
        let '(h', l) := fold_left (fun a op => (insert_pre m anc (fst a) op, snd a ++ pre_nodes anc op ++ [op])) (n_inputs nd) (h, []) in
        set_inputs h' i l
      | KCond | KSwitch | KLoop | KWhile => fold_left (insert_pre m anc) (n_inputs nd) h
      | KLeaf _ | KOp _ => h
      end
    end
  end.

Definition shared_nodes (n : nat) (h : heap) (root : nat) : list (nat * nat) := ancestors (look n h true [] (mkS [] [] []) root).
Definition subexpression_sharing (n : nat) (h : heap) (root : nat) : heap := insert_pre n (shared_nodes n h root) h root.
