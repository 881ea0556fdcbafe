(* Passes that look at all nodes of a graph.
   Model of metalibm_core/opt/p_check_support.py:37-95, opt/p_check_precision.py:37-90,
   opt/p_tag_node.py:38-115 and opt/runtime_error_eval.py:55-176.

   Nodes are numbered; [children] gives the inputs of a node that is not a leaf, and none for
   a leaf, so that graphs are acyclic when children have smaller numbers.  A memoization
   map is the list of its keys (with values where they matter). Fuel stands for the depth. *)
From Coq Require Import List Arith Bool.
Import ListNotations.
Definition mem (n : nat) (l : list nat) : bool := existsb (Nat.eqb n) l.

(* ---- traversal with an action after the inputs: tag_node, 49-64; enable_debug, 84-106;
   check_target_support, 38-84, whose actions raise (None).
   early: the node is put in the map before its inputs (enable_debug) instead of at the end. *)
Section Traverse.
Variable children : nat -> list nat.
Variable state : Type.
Variable act : nat -> state -> option state.
Variable early : bool.
Fixpoint traverse (fuel n : nat) (memo : list nat) (s : state) : option (list nat * state) :=
  match fuel with
  | O => None
  | S m =>
    if mem n memo then Some (memo, s)
    else
      let memo1 := if early then n :: memo else memo in
      match (fix inputs (cs : list nat) (memo : list nat) (s : state) : option (list nat * state) :=
               match cs with
               | [] => Some (memo, s)
               | c :: t => match traverse m c memo s with Some (memo', s') => inputs t memo' s' | None => None end
               end) (children n) memo1 s with
      | None => None
      | Some (memo2, s2) =>
        match act n s2 with
        | None => None
        | Some s3 => Some (if early then memo2 else n :: memo2, s3)
        end
      end
  end.
End Traverse.

(* ---- Pass_TagNode: tags and counters by class ---- *)
Section Tags.
Variables tag cls : Type.
Variable cls_eqb : cls -> cls -> bool.
Variable class_of : nat -> cls.
Variable format : cls -> nat -> tag.     (* "{}_{}".format(name of the class, number) *)
Record tstate := mkT { t_tag : nat -> option tag; t_id : cls -> nat }.
(* get_new_tag, 44-47, and 58-59 *)
Definition tag_act (n : nat) (s : tstate) : option tstate :=
  match t_tag s n with
  | Some _ => Some s
  | None =>
    let k := S (t_id s (class_of n)) in
    Some (mkT (fun m => if Nat.eqb m n then Some (format (class_of n) k) else t_tag s m) (fun c => if cls_eqb c (class_of n) then k else t_id s c))
  end.
Definition tag_node (children : nat -> list nat) (n : nat) (s : tstate) := traverse children tstate tag_act false (S n) n [] s.
End Tags.
Arguments mkT {tag cls}.
Arguments t_tag {tag cls}.
Arguments t_id {tag cls}.

(* ---- Pass_DebugTaggedNode ---- *)
Section Debug.
Variable tag : Type.
Variable tag_eqb : tag -> tag -> bool.
Variable tag_of : nat -> option tag.
(* the argument debug_tags, 73-77 *)
Inductive debug_tags := DTrue | DFalse | DNone | DList (l : list tag).
Definition tag_list (d : debug_tags) : list tag := match d with DList l => l | _ => [] end.
Definition default_tags (d : debug_tags) : bool := match d with DTrue => true | _ => false end.
Inductive dbg := Mapping | Off | Own (d : nat).     (* debug_mapping, False, or what the node had *)
Definition in_list (t : option tag) (l : list tag) : bool := match t with None => false | Some t => existsb (tag_eqb t) l end.
(* 95-101 *)
Definition debug_act (d : debug_tags) (n : nat) (s : nat -> dbg) : option (nat -> dbg) :=
  Some (fun m => if Nat.eqb m n then (if in_list (tag_of n) (tag_list d) then Mapping else if negb (default_tags d) then Off else s m) else s m).
Definition enable_debug (children : nat -> list nat) (d : debug_tags) (n : nat) (s : nat -> dbg) := traverse children (nat -> dbg) (debug_act d) true (S n) n [] s.
End Debug.
Arguments DTrue {tag}.
Arguments DFalse {tag}.
Arguments DNone {tag}.
Arguments DList {tag}.

(* ---- check_target_support ---- *)
Section Support.
Variable children : nat -> list nat.      (* inputs, then the pre-statement of a ConditionBlock or the cases of a SwitchBlock *)
Variable lang : Type.
Variable c_code : lang.
Variable checked : nat -> bool.           (* neither a leaf nor one of the classes of 62-77 *)
Variable supported : lang -> nat -> bool. (* target.is_supported_operation *)
Definition support_act (l : lang) (n : nat) (s : unit) : option unit := if checked n && negb (supported l n) then None else Some s.
(* the language is not given to recursive calls: they have the default one *)
Fixpoint check_inputs (m : nat) (cs : list nat) (memo : list nat) : option (list nat) :=
  match cs with
  | [] => Some memo
  | c :: t => match traverse children unit (support_act c_code) false m c memo tt with Some (memo', _) => check_inputs m t memo' | None => None end
  end.
(* None: Log.Error raises *)
Definition check_target_support (l : lang) (n : nat) : option bool :=
  match check_inputs n (children n) [] with
  | None => None
  | Some _ => match support_act l n tt with None => None | Some _ => Some true end
  end.
End Support.

(* ---- Pass_CheckGeneric.execute, 58-79 ---- *)
Section Generic.
Variable children : nat -> list nat.
Variable check : nat -> bool.
Definition lookup {V : Type} (n : nat) (l : list (nat * V)) : option V := match find (fun x => Nat.eqb n (fst x)) l with Some (_, v) => Some v | None => None end.
Fixpoint execute (fuel n : nat) (memo : list (nat * bool)) : list (nat * bool) * bool :=
  match fuel with
  | O => (memo, false)
  | S m =>
    match lookup n memo with
    | Some b => (memo, b)
    | None =>
      (fix inputs (cs : list nat) (memo : list (nat * bool)) (r : bool) : list (nat * bool) * bool :=
         match cs with
         | [] => (memo, r)
         | c :: t => let '(memo', b) := execute m c memo in inputs t memo' (r && b)
         end) (children n) ((n, check n) :: memo) (check n)
    end
  end.
(* executions of one pass object on several roots *)
Fixpoint executes (roots : list nat) (memo : list (nat * bool)) : list bool :=
  match roots with [] => [] | r :: t => let '(memo', b) := execute (S r) r memo in b :: executes t memo' end.
End Generic.

(* ---- runtime_error_eval ---- *)
Section Eval.
Variable V : Type.
(* constant; type cast or conversion of input 0; other operation *)
Inductive ekind := KConst (v : V) | KCast (f : V -> V) (c : nat) | KOp (f : list V -> V) (cs : list nat).
Variable kind : nat -> ekind.
Variable input_mapping : list (nat * V).
Definition ins (n : nat) : list nat := match kind n with KConst _ => [] | KCast _ c => [c] | KOp _ cs => cs end.
(* evaluate_graph_value, 69-96 *)
Fixpoint evaluate (fuel n : nat) (memo : list (nat * V)) : option (list (nat * V) * V) :=
  match fuel with
  | O => None
  | S m =>
    match lookup n memo with
    | Some v => Some (memo, v)
    | None =>
      match lookup n input_mapping with
      | Some v => Some ((n, v) :: memo, v)
      | None =>
        match kind n with
        | KConst v => Some ((n, v) :: memo, v)
        | KCast f c => match evaluate m c memo with None => None | Some (memo', v) => Some ((n, f v) :: memo', f v) end
        | KOp f cs =>
          match (fix args (cs : list nat) (memo : list (nat * V)) : option (list (nat * V) * list V) :=
                   match cs with
                   | [] => Some (memo, [])
                   | c :: t => match evaluate m c memo with
                               | None => None
                               | Some (memo', v) => match args t memo' with None => None | Some (memo'', vs) => Some (memo'', v :: vs) end
                               end
                   end) cs memo with
          | None => None
          | Some (memo', vs) => Some ((n, f vs) :: memo', f vs)
          end
        end
      end
    end
  end.
(* generate_node_eval_error, 132-161: the expected value of each node displayed.
   The node is put in the map first, its value replaced at the end; None: KeyError *)
Definition error_act (value_map : list (nat * V)) (n : nat) (s : list (nat * V)) : option (list (nat * V)) :=
  match lookup n value_map with None => None | Some v => Some ((n, v) :: s) end.
(* a node of the input mapping returns at once, that is, is not one of the children *)
Definition unmapped (n : nat) : bool := match lookup n input_mapping with Some _ => false | None => true end.
Definition node_errors (value_map : list (nat * V)) (n : nat) : option (list nat * list (nat * V)) :=
  if unmapped n then traverse (fun m => filter unmapped (ins m)) _ (error_act value_map) true (S n) n [] [] else Some ([], []).
(* generate_error_eval_graph, 163-176 *)
Definition generate_error_eval_graph (n : nat) : option (list (nat * V)) :=
  match evaluate (S n) n [] with
  | None => None
  | Some (value_map, _) => match node_errors value_map n with None => None | Some (_, s) => Some s end
  end.
End Eval.
