(* Selection of the implementation of an operation.
   Model of metalibm_core/code_generation/abstract_backend.py:44-245 (GenericBackend) and
   303-328 (hierarchy of processors), and of the predicates on formats of
   code_generation/generator_utility.py:976-1128.

   The nested dictionaries language / operation / key / condition / interface of a target
   are the list of their entries in the order of iteration; an empty dictionary is as an
   absent one (is_map_supported_operation says False of both).  Conditions and interfaces
   are functions without effect.  Log.report(Log.Error) raises. *)
From Coq Require Import List Arith Bool.
Import ListNotations.

(* ---- predicates on formats: what an interface condition answers ---- *)
Inductive answer :=
| No
| Yes                       (* True *)
| Match (weak : bool)       (* MatchResult *)
| Odd.                      (* another object taken as true *)
Definition truthy (a : answer) : bool := match a with No => false | _ => true end.
Definition of_bool (b : bool) : answer := if b then Yes else No.

Section Predicates.
Variable fmt : Type.
Variable feqb : fmt -> fmt -> bool.
Variable exact : fmt.              (* ML_Exact *)
Variable any_fixed : fmt.          (* the descriptor ML_Fixed_Format *)
Variable is_fixed : fmt -> bool.   (* isinstance(_, ML_Fixed_Format) *)
(* tuples are equal *)
Fixpoint tuple_eqb (a b : list fmt) : bool :=
  match a, b with [], [] => true | x :: a', y :: b' => feqb x y && tuple_eqb a' b' | _, _ => false end.
(* 1038-1050 *)
Definition type_strict_match (ts args : list fmt) : answer := of_bool (tuple_eqb ts args).
(* 1052-1064: zip stops at the end of the shortest *)
Fixpoint type_strict_match_list (ts : list (list fmt)) (args : list fmt) : answer :=
  match ts, args with
  | l :: ts', a :: args' => if existsb (feqb a) l then type_strict_match_list ts' args' else No
  | _, _ => Yes
  end.
(* 1066-1074 *)
Definition type_strict_match_or_list (tl : list (list fmt)) (args : list fmt) : answer := of_bool (existsb (fun ts => tuple_eqb ts args) tl).
(* 1076-1083: reduce without initial value starts from the first pair, a true object *)
Definition fixed_step (acc : bool) (v : fmt * fmt) : bool := acc && (feqb (fst v) (snd v) || feqb (fst v) any_fixed) && is_fixed (snd v).
Inductive fixed_res := Raised | Answer (a : answer).
Definition type_fixed_match (ts args : list fmt) : fixed_res :=
  match combine ts args with
  | [] => Raised                 (* reduce of an empty sequence *)
  | [_] => Answer Odd            (* the pair itself *)
  | _ :: l => Answer (of_bool (fold_left fixed_step l true))
  end.
(* 1085-1106 *)
Definition type_custom_match (weak : bool) (fs : list (fmt -> bool)) (args : list fmt) : answer :=
  if Nat.eqb (length fs) (length args)
  then (if fold_left (fun acc v => acc && fst v (snd v)) (combine fs args) true then Match weak else No)
  else No.
(* 1108-1118 *)
Definition type_relax_match (ts args : list fmt) : answer := of_bool (fold_left (fun acc v => acc && (feqb (fst v) (snd v) || feqb (snd v) exact)) (combine ts args) true).
End Predicates.

(* ---- a target ---- *)
Section Target.
Variables node impl lang key : Type.   (* key: operation class and codegen key *)
Variable lang_eqb : lang -> lang -> bool.
Variable key_eqb : key -> key -> bool.
Variable key_of : node -> key.
Record entry := mkE { e_lang : lang; e_key : key; e_cond : node -> bool; e_face : node -> answer; e_impl : impl }.
Definition table := list entry.
(* table[language][op_class][codegen_key] *)
Definition found (t : table) (l : lang) (nd : node) : list entry := filter (fun e => lang_eqb (e_lang e) l && key_eqb (e_key e) (key_of nd)) t.
(* is_map_supported_operation, 181-223 *)
Definition map_supported (t : table) (l : lang) (nd : node) : bool := existsb (fun e => e_cond e nd && truthy (e_face e nd)) (found t l nd).

Inductive local := Impl (i : impl) | Weaks (l : list impl) | Error.
(* get_implementation, 110-139; acc is possible_impl *)
Fixpoint get_impl (es : list entry) (nd : node) (acc : list impl) : local :=
  match es with
  | [] => Weaks acc
  | e :: t =>
    if e_cond e nd then
      match e_face e nd with
      | No => get_impl t nd acc
      | Yes => Impl (e_impl e)
      | Match true => get_impl t nd (acc ++ [e_impl e])
      | Match false => Impl (e_impl e)
      | Odd => Error
      end
    else get_impl t nd acc
  end.
Definition get_implementation (t : table) (l : lang) (nd : node) : local := get_impl (found t l nd) nd [].
Inductive selected := Sel (i : impl) | NoImpl | Raise.
(* get_recursive_implementation, 141-179; ts: the table of the target, then those of parent_architecture *)
Fixpoint recursive (ts : list table) (l : lang) (nd : node) (impl_list : list impl) : selected :=
  match ts with
  | [] => match impl_list with i :: _ => Sel i | [] => NoImpl end
  | t :: ts' =>
    if map_supported t l nd then
      match get_implementation t l nd with
      | Impl i => Sel i
      | Weaks w => recursive ts' l nd (impl_list ++ w)
      | Error => Raise
      end
    else recursive ts' l nd impl_list
  end.
Definition get_recursive_implementation (ts : list table) (l : lang) (nd : node) : selected := recursive ts l nd [].
(* generate_supported_op_map, 78-108: entries of the parents then of the target itself *)
Definition supported_op_map (ts : list table) (l : lang) : table :=
  match ts with [] => [] | self :: parents => filter (fun e => lang_eqb (e_lang e) l) (concat parents ++ self) end.
(* is_supported_operation, 237-243; languages: those put in simplified_rec_op_map (60: the default language) *)
Definition is_supported_operation (languages : list lang) (ts : list table) (l : lang) (nd : node) : bool :=
  if existsb (lang_eqb l) languages then map_supported (supported_op_map ts l) l nd else false.
End Target.
Arguments mkE {node impl lang key}.
Arguments e_lang {node impl lang key}.
Arguments e_key {node impl lang key}.
Arguments e_cond {node impl lang key}.
Arguments e_face {node impl lang key}.
Arguments e_impl {node impl lang key}.
Arguments Impl {impl}.
Arguments Weaks {impl}.
Arguments Error {impl}.
Arguments Sel {impl}.
Arguments NoImpl {impl}.
Arguments Raise {impl}.

(* ---- the hierarchy of classes ---- *)
Section Hierarchy.
Variable bases : nat -> list nat.   (* get_parent_proc_class_list, 309-312 *)
Definition listed (c : nat) (l : list nat) : bool := existsb (Nat.eqb c) l.
(* one call of create_proc_hierarchy: (proc_class_list, new_process_list) *)
Fixpoint one_level (process acc next : list nat) : list nat * list nat :=
  match process with
  | [] => (acc, next)
  | c :: t => if listed c acc then one_level t acc next else one_level t (acc ++ [c]) (next ++ bases c)
  end.
(* create_proc_hierarchy, 315-328 *)
Fixpoint create_proc_hierarchy (n : nat) (process acc : list nat) : option (list nat) :=
  match n with
  | O => None
  | S m =>
    match process with
    | [] => Some acc
    | _ => let '(acc', next) := one_level process acc [] in create_proc_hierarchy m next acc'
    end
  end.
(* parent_architecture of class c, 54-55 *)
Definition parent_architecture (n : nat) (c : nat) : option (list nat) := create_proc_hierarchy n (bases c) [].
End Hierarchy.

(* get_target_instance, 62-69: the instance, given by its arguments *)
Definition get_target_instance {A : Type} (m : list (nat * A)) (c : nat) (args : A) : list (nat * A) * A :=
  match find (fun x => Nat.eqb (fst x) c) m with
  | Some (_, a) => (m, a)
  | None => ((c, args) :: m, args)
  end.
