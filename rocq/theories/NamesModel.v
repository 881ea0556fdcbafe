(* Model of the symbol tables and of the free-name requests.
   Source: /repo/metalibm_core/code_generation/code_object.py 58-270.
   Tables are shared between blocks, so a state maps table identifiers to
   tables; a MultiSymbolTable lists the identifiers of its nine tables and of
   all the tables of its parents. *)
Require Import ZArith List Arith String DecimalString Decimal DecimalNat Bool.
Import ListNotations.
Open Scope string_scope.

(* "%s%d" % (prefix, index) *)
Definition numbered (prefix : string) (n : nat) : string :=
  prefix ++ NilEmpty.string_of_uint (Nat.to_uint n).

(* SymbolTable 58-64: table, reverse_map, prefix_index *)
Record stab := mkstab { entries : list (string * nat); rev_map : list (nat * string); pidx : list (string * nat) }.
Fixpoint assoc_s {A} (k : string) (l : list (string * A)) : option A :=
  match l with [] => None | (x, a) :: t => if String.eqb x k then Some a else assoc_s k t end.
Fixpoint assoc_n {A} (k : nat) (l : list (nat * A)) : option A :=
  match l with [] => None | (x, a) :: t => if Nat.eqb x k then Some a else assoc_n k t end.
(* d[k] = v on a dictionary: in place when present, else appended (an
   OrderedDict keeps the insertion order) *)
Fixpoint set_s {A} (k : string) (v : A) (l : list (string * A)) : list (string * A) :=
  match l with
  | [] => [(k, v)]
  | (x, a) :: t => if String.eqb x k then (k, v) :: t else (x, a) :: set_s k v t
  end.
Fixpoint set_n {A} (k : nat) (v : A) (l : list (nat * A)) : list (nat * A) :=
  match l with
  | [] => [(k, v)]
  | (x, a) :: t => if Nat.eqb x k then (k, v) :: t else (x, a) :: set_n k v t
  end.

(* is_free_name 66-67 *)
Definition st_free (t : stab) (name : string) : bool :=
  match assoc_s name (entries t) with Some _ => false | None => true end.
(* declare_symbol 104-106 *)
Definition st_declare (t : stab) (name : string) (obj : nat) : stab :=
  mkstab (set_s name obj (entries t)) (set_n obj name (rev_map t)) (pidx t).
(* has_definition 95-102 *)
Definition st_has_definition (t : stab) (obj : nat) : option string := assoc_n obj (rev_map t).

(* while not free("%s%d" % (prefix, index)): index += 1 *)
Fixpoint search (free : string -> bool) (prefix : string) (fuel index : nat) : option nat :=
  match fuel with
  | O => None
  | S f => if free (numbered prefix index) then Some index else search free prefix f (S index)
  end.
Definition start_index (m : list (string * nat)) (prefix : string) : nat :=
  match assoc_s prefix m with Some i => S i | None => 0 end.

(* SymbolTable.get_free_name 75-88 (update_index set).  The search meets a free
   index within one step more than the number of names: see the theorems. *)
Definition st_get_free (uq : string) (t : stab) (prefix : string) : option (string * stab) :=
  let p := uq ++ prefix in
  if st_free t p then Some (p, mkstab (entries t) (rev_map t) (set_s p 0 (pidx t)))
  else match search (st_free t) p (S (List.length (entries t))) (start_index (pidx t) p) with
       | None => None
       | Some i => Some (numbered p i, mkstab (entries t) (rev_map t) (set_s p i (pidx t)))
       end.

(* MultiSymbolTable *)
Record mtab := mkmtab { own : list nat; parents : list nat; mpidx : list (string * nat) }.
Definition heap := nat -> stab.
Definition upd (h : heap) (i : nat) (t : stab) : heap := fun j => if Nat.eqb j i then t else h j.
Definition scope (m : mtab) : list nat := own m ++ parents m.
(* is_free_name 208-213 *)
Definition ms_free (h : heap) (m : mtab) (name : string) : bool :=
  forallb (fun i => st_free (h i) name) (scope m).
Definition ms_size (h : heap) (m : mtab) : nat :=
  fold_right (fun i n => List.length (entries (h i)) + n) 0 (scope m).
(* get_free_name 215-226 *)
Definition ms_get_free (h : heap) (m : mtab) (prefix : string) : option (string * mtab) :=
  if ms_free h m prefix then Some (prefix, mkmtab (own m) (parents m) (set_s prefix 0 (mpidx m)))
  else match search (ms_free h m) prefix (S (ms_size h m)) (start_index (mpidx m) prefix) with
       | None => None
       | Some i => Some (numbered prefix i, mkmtab (own m) (parents m) (set_s prefix i (mpidx m)))
       end.
(* get_free_cst_name 229-233; the constant table is the first one *)
Definition cst_id (m : mtab) : nat := nth 0 (own m) 0.
Fixpoint ms_get_free_cst (fuel : nat) (uq : string) (h : heap) (m : mtab) (prefix : string) : option (string * heap) :=
  match fuel with
  | O => None
  | S f =>
      match st_get_free uq (h (cst_id m)) prefix with
      | None => None
      | Some (name, t) =>
          let h' := upd h (cst_id m) t in
          if ms_free h' m name then Some (name, h') else ms_get_free_cst f uq h' m prefix
      end
  end.
(* declare_symbol_name 236-238: table of index k *)
Definition ms_declare (h : heap) (m : mtab) (k : nat) (name : string) (obj : nat) : heap :=
  let i := nth k (own m) 0 in upd h i (st_declare (h i) name obj).
