(* What vector promotion has to do, on graphs without object identities: trees, their values,
   the operations they use, execution of statements. *)
From Coq Require Import ZArith List Bool String Arith.
From Verif Require Import VproModel.
Import ListNotations.
Open Scope string_scope.
Open Scope list_scope.

Inductive tree :=
| TLeaf (f : fmt) (x : string)
| TTable (f : fmt) (t : string)
| TCst (f : fmt) (v : Z)
| TOp (o : string) (fixed : bool) (f : fmt) (args : list tree).
Definition tfmt (t : tree) : fmt := match t with TLeaf f _ => f | TTable f _ => f | TCst f _ => f | TOp _ _ f _ => f end.
Fixpoint erase (n : node) : tree :=
  match n with
  | NLeaf _ f x => TLeaf f x
  | NTable _ f t => TTable f t
  | NCst _ f v => TCst f v
  | NOp _ o f args => TOp (oname o) (never o) f (map erase args)
  end.

Inductive tstmt :=
| XSkip
| XSeq (a b : tstmt)
| XAssign (x : tree) (e : tree)
| XIf (c : tree) (a b : tstmt)
| XLoop (init : tstmt) (c : tree) (body : tstmt)
| XReturn (e : tree).
Fixpoint erase_stmt (p : stmt) : tstmt :=
  match p with
  | SSkip => XSkip
  | SSeq a b => XSeq (erase_stmt a) (erase_stmt b)
  | SAssign x e => XAssign (erase x) (erase e)
  | SIf c a b => XIf (erase c) (erase_stmt a) (erase_stmt b)
  | SLoop i c b => XLoop (erase_stmt i) (erase c) (erase_stmt b)
  | SReturn e => XReturn (erase e)
  end.

Section Promotion.
Variable table : fmt -> option fmt.
Variable supported : string -> fmt -> list fmt -> bool.

(* the promoted format, the same where there is none *)
Definition up (f : fmt) : fmt := match f with FTab _ => f | FNamed _ => match table f with Some f' => f' | None => f end end.
Definition has_up (f : fmt) : bool := match f with FTab _ => true | FNamed _ => match table f with Some _ => true | None => false end end.
Definition conv_to (e : fmt) (t : tree) : tree := if fmt_eqb (tfmt t) e then t else TOp "Conversion" false e [t].
(* an operation moves to the promoted formats when all of them exist and the target has it *)
Definition moves (t : tree) : bool :=
  match t with
  | TCst f _ => has_up f && supported "Constant" (up f) []
  | TOp o fixed f args => has_up f && negb fixed && forallb (fun a => has_up (tfmt a)) args && supported o (up f) (map (fun a => up (tfmt a)) args)
  | _ => false
  end.
Fixpoint promoted (t : tree) (e : fmt) : tree :=
  match t with
  | TLeaf _ _ => conv_to e t
  | TTable _ _ => t
  | TCst f v => conv_to e (if moves t then TCst (up f) v else t)
  | TOp o fixed f args =>
      conv_to e (if moves t then TOp o fixed (up f) (map (fun a => promoted a (up (tfmt a))) args)
                 else TOp o fixed f (map (fun a => promoted a (tfmt a)) args))
  end.
Fixpoint promoted_stmt (p : tstmt) : tstmt :=
  match p with
  | XSkip => XSkip
  | XSeq a b => XSeq (promoted_stmt a) (promoted_stmt b)
  | XAssign x e => XAssign (promoted x (tfmt x)) (promoted e (tfmt e))
  | XIf c a b => XIf (promoted c (tfmt c)) (promoted_stmt a) (promoted_stmt b)
  | XLoop i c b => XLoop (promoted_stmt i) (promoted c (tfmt c)) (promoted_stmt b)
  | XReturn e => XReturn (promoted e (tfmt e))
  end.
End Promotion.

(* every operation of a tree, with its interface *)
Fixpoint ops (t : tree) : list (string * bool * fmt * list fmt) :=
  match t with
  | TOp o x f args => (o, x, f, map tfmt args) :: flat_map ops args
  | TCst f _ => [("Constant", false, f, [])]
  | _ => []
  end.

(* Values.  The meaning of an operation depends on the shape of the formats (element, lanes),
   not on the registers that hold them; a conversion within one shape keeps the value. *)
Section Value.
Context {V S : Type}.
Variable shape : fmt -> S.
Variable opsem : string -> S -> list S -> list V -> V.
Variable cst : S -> Z -> V.
Variable tab : string -> V.
Fixpoint value (env : string -> V) (t : tree) : V :=
  match t with
  | TLeaf _ x => env x
  | TTable _ t => tab t
  | TCst f v => cst (shape f) v
  | TOp o _ f args => opsem o (shape f) (map (fun a => shape (tfmt a)) args) (map (value env) args)
  end.
Definition conversions_neutral : Prop := forall s v, opsem "Conversion" s [s] [v] = v.

Variable truth : V -> bool.
Inductive outcome := Going (env : string -> V) | Returned (v : V).
Definition set_var (x : string) (v : V) (env : string -> V) : string -> V := fun y => if String.eqb y x then v else env y.
(* None: out of fuel, or a target that is not a variable *)
Fixpoint exec (fuel : nat) (p : tstmt) (env : string -> V) : option outcome :=
  match fuel with
  | O => None
  | Datatypes.S k =>
      match p with
      | XSkip => Some (Going env)
      | XSeq a b => match exec k a env with Some (Going env') => exec k b env' | r => r end
      | XAssign (TLeaf _ x) e => Some (Going (set_var x (value env e) env))
      | XAssign _ _ => None
      | XIf c a b => exec k (if truth (value env c) then a else b) env
      | XLoop i c b =>
          match exec k i env with
          | Some (Going env') =>
              if truth (value env' c) then
                match exec k b env' with
                | Some (Going env'') => exec k (XLoop XSkip c b) env''
                | r => r
                end
              else Some (Going env')
          | r => r
          end
      | XReturn e => Some (Returned (value env e))
      end
  end.
End Value.
Arguments outcome : clear implicits.

(* Straight-line programs as the generated code runs them: every operation object is computed
   once, into a variable that is used again. *)
Section Cached.
Context {V S : Type}.
Variable shape : fmt -> S.
Variable opsem : string -> S -> list S -> list V -> V.
Variable cst : S -> Z -> V.
Variable tab : string -> V.
Definition cache := list (ident * V).
Fixpoint cfind (i : ident) (c : cache) : option V :=
  match c with [] => None | (j, v) :: t => if ident_eqb j i then Some v else cfind i t end.
Fixpoint cvalue (env : string -> V) (c : cache) (n : node) : V * cache :=
  match n with
  | NLeaf _ _ x => (env x, c)
  | NTable _ _ t => (tab t, c)
  | NCst _ f v => (cst (shape f) v, c)
  | NOp i o f args =>
      match cfind i c with
      | Some v => (v, c)
      | None =>
          let (vs, c1) := (fix go (c : cache) (l : list node) : list V * cache :=
                             match l with
                             | [] => ([], c)
                             | a :: t => let (v, c1) := cvalue env c a in let (vs, c2) := go c1 t in (v :: vs, c2)
                             end) c args in
          let v := opsem (oname o) (shape f) (map (fun a => shape (nfmt a)) args) vs in (v, (i, v) :: c1)
      end
  end.
Fixpoint crun (l : list (string * node)) (env : string -> V) (c : cache) : string -> V :=
  match l with
  | [] => env
  | (x, e) :: t => let (v, c1) := cvalue env c e in crun t (set_var x v env) c1
  end.
(* the same program, expressions computed where they stand *)
Fixpoint srun (l : list (string * tree)) (env : string -> V) : string -> V :=
  match l with
  | [] => env
  | (x, e) :: t => srun t (set_var x (value shape opsem cst tab env e) env)
  end.
End Cached.
(* targets: identity and format of the variable *)
Definition line := (ident * fmt * string * node)%type.
Definition line_var (l : line) : string := snd (fst l).
Definition line_expr (l : line) : node := snd l.
Fixpoint block (l : list line) : stmt :=
  match l with [] => SSkip | (i, f, x, e) :: t => SSeq (SAssign (NLeaf i f x) e) (block t) end.
Definition named (l : list line) : list (string * node) := map (fun a => (line_var a, line_expr a)) l.
Definition plain (l : list line) : list (string * tree) := map (fun a => (line_var a, erase (line_expr a))) l.
Fixpoint leaves (t : tree) : list string :=
  match t with TLeaf _ x => [x] | TOp _ _ _ args => flat_map leaves args | _ => [] end.

(* the nodes of a program; [coherent]: an identity denotes one object *)
Fixpoint nodes (n : node) : list node := n :: match n with NOp _ _ _ args => flat_map nodes args | _ => [] end.
Fixpoint stmt_nodes (p : stmt) : list node :=
  match p with
  | SSkip => []
  | SSeq a b => stmt_nodes a ++ stmt_nodes b
  | SAssign x e => nodes x ++ nodes e
  | SIf c a b => nodes c ++ stmt_nodes a ++ stmt_nodes b
  | SLoop i c b => stmt_nodes i ++ nodes c ++ stmt_nodes b
  | SReturn e => nodes e
  end.
(* no variable is assigned after it has been read *)
Fixpoint assigned_first (read : list string) (l : list (string * tree)) : Prop :=
  match l with
  | [] => True
  | (x, e) :: t => ~ In x (leaves e ++ read) /\ assigned_first (leaves e ++ read) t
  end.
Definition coherent (l : list node) : Prop := forall a b, In a l -> In b l -> nid a = nid b -> a = b.
