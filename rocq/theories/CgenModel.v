(* Model of the C code generator: how a graph of operations and statements is
   turned into C statements, with one variable per operation, memoization of
   the nodes already generated and nested levels of code.
   Source: /repo/metalibm_core/code_generation/generators/c_code_generator.py
   75-366, /repo/metalibm_core/code_generation/generator_utility.py 89-104,
   408-460, 478-512, 680-800, /repo/metalibm_core/code_generation/code_object.py
   340-405, 436-450, 917-1000.

   Simplifications:
   - values are integers and operations are total functions of their operands;
   - the generated text is represented by its syntax tree, a level of code
     by the names it declares and its statements (the declarations of a level
     are written in front of its code, push_into_parent_code);
   - the tags, the memoization dictionaries (keyed by node identity) and the
     names of every level are kept; the choice of a free name is an arbitrary
     function [pick] of the names in use and of the prefix;
   - a Statement with several inputs is a sequence of two, an absent else
     branch an empty one, constants are written as literals;
   - the left-hand side of an assignment is a Variable;
   - SwitchBlock is left out (get_pre_statement raises NotImplementedError for
     it, ml_operations.py 1972, so none can be generated), as are PlaceHolder,
     exceptions, tables and debug messages. *)
Require Import ZArith String List Bool.
Import ListNotations.
Open Scope string_scope.
Open Scope list_scope.

(* A node carries its identity.  [NVar]: Variable, local or input, with its tag.
   [NOp]: any operation whose implementation is a SymbolOperator or a
   FunctionOperator, with the operator's force_folding (None, True, False). *)
Inductive node :=
| NVar (id : nat) (local : bool) (tag : string)
| NCst (id : nat) (v : Z)
| NOp (id : nat) (op : string) (ff : option bool) (tag : string) (args : list node).

Inductive stmt :=
| SSkip
| SSeq (s1 s2 : stmt)
| SExpr (e : node)
| SAssign (v e : node)
| SIf (c : node) (t e : stmt)
| SLoop (init : stmt) (c : node) (body : stmt)
| SReturn (e : node).

Definition nid (n : node) : nat := match n with NVar i _ _ => i | NCst i _ => i | NOp i _ _ _ _ => i end.

(* generated expressions and statements *)
Inductive cexpr := EVar (x : string) | ECst (v : Z) | EOp (op : string) (l : list cexpr).
Inductive cstmt :=
| CAssign (x : string) (e : cexpr)
| CIf (c : cexpr) (d1 : list string) (b1 : list cstmt) (d2 : list string) (b2 : list cstmt)
| CFor (c : cexpr) (d : list string) (b : list cstmt)
| CReturn (e : cexpr).

(* CodeVariable / CodeExpression, code_element.py; get() gives the text *)
Inductive cval := CV (x : string) | CE (e : cexpr).
Definition cget (c : cval) : cexpr := match c with CV x => EVar x | CE e => e end.

(* memoization_map: list of dictionaries, innermost first; scopes: names
   declared by each open level, innermost first *)
Record gst := mkg { memo : list (list (nat * cval)); scopes : list (list string) }.

Fixpoint assoc {A} (k : nat) (l : list (nat * A)) : option A :=
  match l with [] => None | (i, a) :: t => if Nat.eqb i k then Some a else assoc k t end.
(* has_memoization / get_memoization 117-129 *)
Fixpoint mlookup (k : nat) (m : list (list (nat * cval))) : option cval :=
  match m with
  | [] => None
  | l :: t => match assoc k l with Some c => Some c | None => mlookup k t end
  end.
(* add_memoization 131-133: in the innermost dictionary *)
Definition madd (k : nat) (c : cval) (m : list (list (nat * cval))) : list (list (nat * cval)) :=
  match m with [] => [[(k, c)]] | l :: t => ((k, c) :: l) :: t end.
Definition memoize (k : nat) (c : cval) (g : gst) : gst := mkg (madd k c (memo g)) (scopes g).
(* declare_var_name: in the innermost level *)
Definition declare (x : string) (g : gst) : gst :=
  mkg (memo g) (match scopes g with [] => [[x]] | l :: t => (x :: l) :: t end).

(* ordered_generation 89-104: stable sort on the index of the argument *)
Section Sort.
  Variable order : nat -> nat.
  Fixpoint insert (p : nat * node) (l : list (nat * node)) : list (nat * node) :=
    match l with
    | [] => [p]
    | q :: t => if Nat.leb (order (nid (snd p))) (order (nid (snd q))) then p :: l else q :: insert p t
    end.
  Definition sort_args (l : list (nat * node)) : list (nat * node) := fold_right insert [] l.
End Sort.
Definition enumerate (l : list node) : list (nat * node) := combine (seq 0 (length l)) l.

Fixpoint gens (gen1 : gst -> node -> option (list cstmt * cval * gst)) (g : gst) (l : list (nat * node)) :
  option (list cstmt * list (nat * cval) * gst) :=
  match l with
  | [] => Some ([], [], g)
  | (i, a) :: t =>
      match gen1 g a with
      | None => None
      | Some (c1, v, g1) =>
          match gens gen1 g1 t with
          | None => None
          | Some (c2, vs, g2) => Some (c1 ++ c2, (i, v) :: vs, g2)
          end
      end
  end.
Fixpoint collect (rs : list (nat * cval)) (l : list nat) : option (list cval) :=
  match l with
  | [] => Some []
  | i :: t => match assoc i rs, collect rs t with
              | Some c, Some cs => Some (c :: cs)
              | _, _ => None
              end
  end.

(* SymbolOperator.assemble_code 449-460, FunctionOperator.assemble_code 790-800
   without result_var, pre-process, lvalue and force_variable_storing *)
Definition stored (ff : option bool) (inlined : bool) : bool :=
  match ff with Some true => true | Some false => false | None => negb inlined end.

Section Gen.
  Variable pick : list string -> string -> string.
  Variable order : nat -> nat.
  (* get_free_var_name, declared at once *)
  Definition fresh_name (g : gst) (prefix : string) : string := pick (concat (scopes g)) prefix.

  (* CCodeGenerator.generate_expr 136-366 on expressions *)
  Fixpoint gen (fuel : nat) (inlined : bool) (g : gst) (n : node) : option (list cstmt * cval * gst) :=
    match fuel with
    | O => None
    | S f =>
        match mlookup (nid n) (memo g) with
        | Some c => Some ([], c, g)
        | None =>
            match n with
            | NVar i true tag =>
                let x := fresh_name g tag in
                Some ([], CV x, memoize i (CV x) (declare x g))
            | NVar i false tag => Some ([], CV tag, memoize i (CV tag) g)
            | NCst i v => Some ([], CE (ECst v), memoize i (CE (ECst v)) g)
            | NOp i op ff tag args =>
                match gens (gen f inlined) g (sort_args order (enumerate args)) with
                | None => None
                | Some (code, rs, g1) =>
                    match collect rs (seq 0 (length args)) with
                    | None => None
                    | Some cs =>
                        let e := EOp op (map cget cs) in
                        if stored ff inlined
                        then let x := fresh_name g1 tag in
                             Some (code ++ [CAssign x e], CV x, memoize i (CV x) (declare x g1))
                        else Some (code, CE e, memoize i (CE e) g1)
                    end
                end
            end
        end
    end.

  (* open_level / close_level, open_memoization_level / close_memoization_level *)
  Definition open_code (g : gst) : gst := mkg (memo g) ([] :: scopes g).
  Definition open_memo (g : gst) : gst := mkg ([] :: memo g) (scopes g).
  Definition close_code (g : gst) : gst := mkg (memo g) (tl (scopes g)).
  Definition close_memo (g : gst) : gst := mkg (tl (memo g)) (scopes g).
  Definition level_names (g : gst) : list string := rev (hd [] (scopes g)).

  (* CCodeGenerator.generate_expr on statements: ReferenceAssign 217-244,
     Loop 246-257, ConditionBlock 259-298, Return 300-309, Statement 349-354 *)
  Fixpoint gen_stmt (fuel : nat) (g : gst) (s : stmt) : option (list cstmt * gst) :=
    match s with
    | SSkip => Some ([], g)
    | SSeq s1 s2 =>
        match gen_stmt fuel g s1 with
        | None => None
        | Some (c1, g1) =>
            match gen_stmt fuel g1 s2 with
            | None => None
            | Some (c2, g2) => Some (c1 ++ c2, g2)
            end
        end
    | SExpr e =>
        match gen fuel false g e with
        | None => None
        | Some (c, _, g1) => Some (c, g1)
        end
    | SAssign v e =>
        match gen fuel false g v with
        | Some (c1, CV x, g1) =>
            match gen fuel false g1 e with
            | None => None
            | Some (c2, r, g2) => Some (c1 ++ c2 ++ [CAssign x (cget r)], g2)
            end
        | _ => None
        end
    | SIf c t e =>
        match gen fuel false g c with
        | None => None
        | Some (c0, r, g0) =>
            match gen_stmt fuel (open_code (open_memo g0)) t with
            | None => None
            | Some (c1, g1) =>
                let g2 := close_memo (close_code g1) in
                match gen_stmt fuel (open_memo (open_code g2)) e with
                | None => None
                | Some (c2, g3) =>
                    Some (c0 ++ [CIf (cget r) (level_names g1) c1 (level_names g3) c2],
                          close_memo (close_code g3))
                end
            end
        end
    | SLoop init c body =>
        match gen_stmt fuel g init with
        | None => None
        | Some (c0, g0) =>
            match gen fuel true g0 c with
            | None => None
            | Some (c1, r, g1) =>
                match gen_stmt fuel (open_code g1) body with
                | None => None
                | Some (c2, g2) =>
                    Some (c0 ++ c1 ++ [CFor (cget r) (level_names g2) c2], close_code g2)
                end
            end
        end
    | SReturn e =>
        match gen fuel false g e with
        | None => None
        | Some (c, r, g1) => Some (c ++ [CReturn (cget r)], g1)
        end
    end.

  (* a function: its inputs (and any other reserved name) are in the outer
     level, its body is a level of its own *)
  Definition gen_fun (fuel : nat) (inputs : list string) (s : stmt) : option (list string * list cstmt) :=
    match gen_stmt fuel (mkg [[]] [[]; inputs]) s with
    | None => None
    | Some (c, g) => Some (level_names g, c)
    end.
End Gen.
