(* Specification for the C code generator: the meaning of a graph of
   statements, the meaning of the generated C code, and the discipline under
   which the two agree. *)
Require Import ZArith String List Bool.
From Verif Require Import CgenModel.
Import ListNotations.
Open Scope string_scope.
Open Scope list_scope.

Inductive outcome (A : Type) := Done (a : A) | Returned (v : Z) | Wrong | NoFuel.
Arguments Done {A} a. Arguments Returned {A} v. Arguments Wrong {A}. Arguments NoFuel {A}.

Fixpoint all_some {A} (l : list (option A)) : option (list A) :=
  match l with
  | [] => Some []
  | Some a :: t => match all_some t with Some r => Some (a :: r) | None => None end
  | None :: _ => None
  end.

Section Sem.
  Variable opsem : string -> list Z -> Z.

  (* --- meaning of the graph: a node is the tree below it, a variable is
     looked up by its identity; an unset variable has no value --- *)
  Definition store := nat -> option Z.
  Definition upd_store (st : store) (i : nat) (v : Z) : store := fun j => if Nat.eqb j i then Some v else st j.
  Fixpoint eval (st : store) (n : node) : option Z :=
    match n with
    | NVar i _ _ => st i
    | NCst _ v => Some v
    | NOp _ op _ _ args => option_map (opsem op) (all_some (map (eval st) args))
    end.
  (* [k] bounds the number of iterations of any one loop execution *)
  Fixpoint sexec (k : nat) (s : stmt) (st : store) : outcome store :=
    match s with
    | SSkip => Done st
    | SSeq s1 s2 => match sexec k s1 st with Done st1 => sexec k s2 st1 | r => r end
    | SExpr e => match eval st e with Some _ => Done st | None => Wrong end
    | SAssign v e => match eval st e with Some x => Done (upd_store st (nid v) x) | None => Wrong end
    | SIf c t e =>
        match eval st c with
        | None => Wrong
        | Some x => if Z.eqb x 0 then sexec k e st else sexec k t st
        end
    | SLoop init c body =>
        match sexec k init st with
        | Done st0 =>
            (fix loop (j : nat) (st : store) : outcome store :=
               match j with
               | O => NoFuel
               | S j' =>
                   match eval st c with
                   | None => Wrong
                   | Some x =>
                       if Z.eqb x 0 then Done st
                       else match sexec k body st with Done st1 => loop j' st1 | r => r end
                   end
               end) k st0
        | r => r
        end
    | SReturn e => match eval st e with Some x => Returned x | None => Wrong end
    end.

  (* --- meaning of C: nested scopes, innermost first; a declared variable
     without value may not be read, an undeclared one may not be used --- *)
  Definition scope := list (string * option Z).
  Definition env := list scope.
  Fixpoint slook (x : string) (s : scope) : option (option Z) :=
    match s with [] => None | (y, v) :: t => if String.eqb y x then Some v else slook x t end.
  Fixpoint sset (x : string) (v : Z) (s : scope) : scope :=
    match s with
    | [] => []
    | (y, w) :: t => if String.eqb y x then (y, Some v) :: t else (y, w) :: sset x v t
    end.
  Fixpoint elook (x : string) (E : env) : option (option Z) :=
    match E with
    | [] => None
    | s :: t => match slook x s with Some r => Some r | None => elook x t end
    end.
  Fixpoint eset (x : string) (v : Z) (E : env) : option env :=
    match E with
    | [] => None
    | s :: t => match slook x s with
                | Some _ => Some (sset x v s :: t)
                | None => option_map (cons s) (eset x v t)
                end
    end.
  Fixpoint ceval (E : env) (e : cexpr) : option Z :=
    match e with
    | EVar x => match elook x E with Some (Some v) => Some v | _ => None end
    | ECst v => Some v
    | EOp op l => option_map (opsem op) (all_some (map (ceval E) l))
    end.
  Definition fresh_scope (d : list string) : scope := map (fun x => (x, None)) d.
  Section Lists.
    Variable exec1 : cstmt -> env -> outcome env.
    Fixpoint execl (l : list cstmt) (E : env) : outcome env :=
      match l with
      | [] => Done E
      | s :: t => match exec1 s E with Done E1 => execl t E1 | r => r end
      end.
  End Lists.
  Definition leave (r : outcome env) : outcome env :=
    match r with Done E => Done (tl E) | _ => r end.
  Section For.
    Variables (c : cexpr) (run_body : env -> outcome env).
    Fixpoint cloop (j : nat) (E : env) : outcome env :=
      match j with
      | O => NoFuel
      | S j' =>
          match ceval E c with
          | None => Wrong
          | Some x =>
              if Z.eqb x 0 then Done E
              else match run_body E with Done E1 => cloop j' E1 | r => r end
          end
      end.
  End For.
  Fixpoint cexec (k : nat) (s : cstmt) (E : env) : outcome env :=
    match s with
    | CAssign x e =>
        match ceval E e with
        | None => Wrong
        | Some v => match eset x v E with None => Wrong | Some E1 => Done E1 end
        end
    | CIf c d1 b1 d2 b2 =>
        match ceval E c with
        | None => Wrong
        | Some x =>
            if Z.eqb x 0 then leave (execl (cexec k) b2 (fresh_scope d2 :: E))
            else leave (execl (cexec k) b1 (fresh_scope d1 :: E))
        end
    | CFor c d b => cloop c (fun E => leave (execl (cexec k) b (fresh_scope d :: E))) k E
    | CReturn e => match ceval E e with Some v => Returned v | None => Wrong end
    end.
  (* a function called with its inputs *)
  Definition crun (k : nat) (inputs : list (string * Z)) (f : list string * list cstmt) : outcome env :=
    execl (cexec k) (snd f) [fresh_scope (fst f); map (fun p => (fst p, Some (snd p))) inputs].
End Sem.

(* --- the discipline --- *)
Fixpoint subs (n : node) : list node :=
  n :: match n with NOp _ _ _ _ args => concat (map subs args) | _ => [] end.
Fixpoint snodes (s : stmt) : list node :=
  match s with
  | SSkip => []
  | SSeq s1 s2 => snodes s1 ++ snodes s2
  | SExpr e => subs e
  | SAssign v e => subs v ++ subs e
  | SIf c t e => subs c ++ snodes t ++ snodes e
  | SLoop i c b => snodes i ++ subs c ++ snodes b
  | SReturn e => subs e
  end.
Definition is_op (n : node) : bool := match n with NOp _ _ _ _ _ => true | _ => false end.
Definition is_var (n : node) : bool := match n with NVar _ _ _ => true | _ => false end.
Definition is_cst (n : node) : bool := match n with NCst _ _ => true | _ => false end.
Definition is_local (n : node) : bool := match n with NVar _ l _ => l | _ => false end.
Definition memb (n : node) (l : list node) : bool := existsb (fun m => Nat.eqb (nid m) (nid n)) l.
(* does [n] depend on one of the variables of identity in [vs]? *)
Definition reads (vs : list nat) (n : node) : bool :=
  existsb (fun m => is_var m && existsb (Nat.eqb (nid m)) vs) (subs n).
Fixpoint assigned (s : stmt) : list nat :=
  match s with
  | SSeq s1 s2 => assigned s1 ++ assigned s2
  | SAssign v _ => [nid v]
  | SIf _ t e => assigned t ++ assigned e
  | SLoop i _ b => assigned i ++ assigned b
  | _ => []
  end.
Definition stale (K : list node) (vs : list nat) : list node :=
  filter (fun n => is_op n && reads vs n) K.

(* An expression may be used when none of its nodes is dead ([D]) and its local
   variables have been assigned in the block or around it ([K], the nodes met so far). *)
Definition usable (K D : list node) (n : node) : bool :=
  forallb (fun m => negb (memb m D) && (negb (is_local m) || memb m K)) (subs n).
(* no operation forced into a variable, other than those met before *)
Definition inlinable (K : list node) (n : node) : bool :=
  forallb (fun m => memb m K || match m with NOp _ _ (Some true) _ _ => false | _ => true end) (subs n).

Fixpoint check (K D : list node) (s : stmt) : option (list node * list node) :=
  match s with
  | SSkip => Some (K, D)
  | SSeq s1 s2 => match check K D s1 with Some (K1, D1) => check K1 D1 s2 | None => None end
  | SExpr e => if usable K D e then Some (subs e ++ K, D) else None
  | SReturn e => if usable K D e then Some (subs e ++ K, D) else None
  | SAssign v e =>
      if is_var v && negb (memb v D) && usable K D e
      then let K' := v :: subs e ++ K in Some (K', D ++ stale K' [nid v]) else None
  | SIf c t e =>
      if usable K D c
      then let K1 := subs c ++ K in
           match check K1 D t, check K1 D e with
           | Some _, Some _ => Some (K1, D ++ stale K1 (assigned t ++ assigned e))
           | _, _ => None
           end
      else None
  | SLoop i c b =>
      match check K D i with
      | None => None
      | Some (K1, D1) =>
          let D2 := D1 ++ stale K1 (assigned b) in
          let K2 := subs c ++ K1 in
          if usable K1 D2 c && inlinable K1 c
          then match check K2 D2 b with
               | Some _ => Some (K2, D2 ++ filter (fun n => negb (is_cst n) && negb (memb n K2)) (snodes b))
               | None => None
               end
          else None
      end
  end.
Definition disciplined (s : stmt) : bool := match check [] [] s with Some _ => true | None => false end.

(* two nodes of the graph with the same identity are the same node *)
Definition well_identified (s : stmt) : Prop :=
  forall n m, In n (snodes s) -> In m (snodes s) -> nid n = nid m -> n = m.
(* every input of the graph is one of the given names, distinct inputs have distinct names *)
Definition inputs_named (names : list string) (s : stmt) : Prop :=
  (forall i t, In (NVar i false t) (snodes s) -> In t names) /\
  (forall i j t, In (NVar i false t) (snodes s) -> In (NVar j false t) (snodes s) -> i = j).
(* the initial store holds the inputs, local variables have no value *)
Definition initial_store (inputs : list (string * Z)) (s : stmt) (st : store) : Prop :=
  forall i t, In (NVar i false t) (snodes s) -> slook t (map (fun p => (fst p, Some (snd p))) inputs) = Some (st i).
