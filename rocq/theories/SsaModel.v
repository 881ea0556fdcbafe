(* Model of the second half of the SSA transformation,
   /repo/metalibm_core/opt/p_gen_bb.py 573-783 (variable_renaming and what it
   calls), after the insertion of phi nodes (514-549, DomModel).

   A variable is a number; a name is a variable with the index given by
   new_var_index (720-728), or without index for the variable of the source.
   An operation of a block is an assignment or an expression evaluated for its
   effect; expressions are trees: nodes shared between operations, which the
   code renames in place, are not modelled.  A block ends with a jump, a test or
   a return.  A phi node has a destination and the operands filled so far, two
   at most (534: PhiNode(v, v, None, v, None)). *)
Require Import ZArith List Arith Bool.
From Verif Require Import DomModel.
Import ListNotations.

Definition name := (nat * option nat)%type.
Definition name_eqb (a b : name) : bool :=
  Nat.eqb (fst a) (fst b) &&
  match snd a, snd b with None, None => true | Some i, Some j => Nat.eqb i j | _, _ => false end.
Inductive expr := XVar (n : name) | XCst (z : Z) | XBin (op : nat) (a b : expr).
Inductive iop := IAssign (n : name) (e : expr) | IExpr (e : expr).
Inductive ending := JBr (d : nat) | JCBr (c : expr) (t f : nat) | JRet (e : expr).
Definition phi := (name * list (nat * name))%type.
Record blk := mkblk { b_phis : list phi; b_ops : list iop; b_end : ending }.
Definition prog := nat -> blk.
(* BasicBlock.successors, bb_operations.py 158-160 *)
Definition succs (e : ending) : list nat :=
  match e with JBr d => [d] | JCBr _ t f => [t; f] | JRet _ => [] end.

(* 573-587 get_var_used_by_non_phi *)
Fixpoint used (e : expr) : list name :=
  match e with XVar n => [n] | XCst _ => [] | XBin _ a b => used a ++ used b end.
(* 589-637 update_used_var *)
Fixpoint update_used (old new : name) (e : expr) : expr :=
  match e with
  | XVar n => if name_eqb n old then XVar new else e
  | XCst _ => e
  | XBin op a b => XBin op (update_used old new a) (update_used old new b)
  end.

(* reaching_def of a source variable, reaching_def of an indexed name, block of
   the definition of an indexed name (bb_map of variable_defs), next index,
   program *)
Record rst := mkr {
  head : nat -> option nat;
  prev : nat -> nat -> option nat;
  dblk : nat -> nat -> nat;
  cnt : nat -> nat;
  code : prog }.
Definition fupd {A} (f : nat -> A) (i : nat) (a : A) : nat -> A := fun j => if Nat.eqb j i then a else f j.
Definition fupd2 {A} (f : nat -> nat -> A) (i k : nat) (a : A) : nat -> nat -> A :=
  fun j l => if Nat.eqb j i && Nat.eqb l k then a else f j l.

(* how the operand of a phi is obtained: as in the code (reaching_def as it is),
   with line 766 uncommented (updated for the phi), or updated for the
   predecessor *)
Inductive mode := AsIs | ForPhi | ForPred.

Section Rename.
  Variable m : mode.
  Variable D : dmap.

  (* 656-658: the loop of updating_reaching_def; every name is older than the
     one it hides, [fuel] bounds the index *)
  Fixpoint climb (fuel : nat) (R : rst) (v b : nat) (cur : option nat) : option nat :=
    match cur, fuel with
    | None, _ | _, O => None
    | Some k, S f => if memb (dblk R v k) (D b) then Some k else climb f R v b (prev R v k)
    end.
  (* 650-665 updating_reaching_def for an operation of block b *)
  Definition upd_reach (R : rst) (v b : nat) : rst :=
    match climb (S (cnt R v)) R v b (head R v) with
    | None => R
    | Some k => mkr (fupd (head R) v (Some k)) (prev R) (dblk R) (cnt R) (code R)
    end.
  (* 752-762 for one used variable *)
  Definition use1 (b : nat) (x : rst * expr) (n : name) : rst * expr :=
    let '(R, e) := x in
    match n with
    | (v, Some _) => (R, e)
    | (v, None) =>
        let R1 := upd_reach R v b in
        (R1, match head R1 v with None => e | Some k => update_used (v, None) (v, Some k) e end)
    end.
  Definition use_expr (b : nat) (R : rst) (e : expr) : rst * expr := fold_left (use1 b) (used e) (R, e).
  (* 763-769 the variable defined by the operation *)
  Definition define (b : nat) (R : rst) (n : name) : rst * name :=
    let v := fst n in
    let R1 := upd_reach R v b in
    let k := cnt R1 v in
    (mkr (fupd (head R1) v (Some k)) (fupd2 (prev R1) v k (head R1 v)) (fupd2 (dblk R1) v k b)
         (fupd (cnt R1) v (S k)) (code R1), (v, Some k)).
  Definition do_op (b : nat) (R : rst) (o : iop) : rst * iop :=
    match o with
    | IExpr e => let '(R1, e1) := use_expr b R e in (R1, IExpr e1)
    | IAssign n e =>
        let '(R1, e1) := use_expr b R e in
        let '(R2, n2) := define b R1 n in (R2, IAssign n2 e1)
    end.
  Fixpoint do_ops (b : nat) (R : rst) (l : list iop) : rst * list iop :=
    match l with
    | [] => (R, [])
    | o :: t => let '(R1, o1) := do_op b R o in let '(R2, t2) := do_ops b R1 t in (R2, o1 :: t2)
    end.
  Fixpoint do_phis (b : nat) (R : rst) (l : list phi) : rst * list phi :=
    match l with
    | [] => (R, [])
    | (n, ops) :: t => let '(R1, n1) := define b R n in let '(R2, t2) := do_phis b R1 t in (R2, (n1, ops) :: t2)
    end.
  Definition do_end (b : nat) (R : rst) (e : ending) : rst * ending :=
    match e with
    | JBr d => (R, JBr d)
    | JCBr c t f => let '(R1, c1) := use_expr b R c in (R1, JCBr c1 t f)
    | JRet x => let '(R1, x1) := use_expr b R x in (R1, JRet x1)
    end.
  (* 770-777: the phi nodes of the successor s of b *)
  Fixpoint fill (b s : nat) (R : rst) (l : list phi) : rst * list phi :=
    match l with
    | [] => (R, [])
    | (n, ops) :: t =>
        let v := fst n in
        let R1 := if Nat.ltb (length ops) 2
                  then match m with AsIs => R | ForPhi => upd_reach R v s | ForPred => upd_reach R v b end else R in
        let ops1 := if Nat.ltb (length ops) 2
                    then match head R1 v with Some k => ops ++ [(b, (v, Some k))] | None => ops end else ops in
        let '(R2, t2) := fill b s R1 t in (R2, (n, ops1) :: t2)
    end.
  Definition set_code (R : rst) (c : prog) : rst := mkr (head R) (prev R) (dblk R) (cnt R) c.
  Definition fill_succ (b : nat) (R : rst) (s : nat) : rst :=
    let '(R1, l) := fill b s R (b_phis (code R s)) in
    set_code R1 (fupd (code R1) s (mkblk l (b_ops (code R1 s)) (b_end (code R1 s)))).
  (* 730-777 rec_bb_processing without the recursion *)
  Definition do_block (R : rst) (b : nat) : rst :=
    let B := code R b in
    let '(R1, ph) := do_phis b R (b_phis B) in
    let '(R2, ops) := do_ops b R1 (b_ops B) in
    let '(R3, en) := do_end b R2 (b_end B) in
    let R4 := set_code R3 (fupd (code R3) b (mkblk ph ops en)) in
    fold_left (fill_succ b) (succs en) R4.
  (* 559-571 build_dominator_tree: children in the order of the list of blocks *)
  Definition children (bbs : list nat) (b : nat) : list nat :=
    filter (fun c => match idom D c with Some d => Nat.eqb d b | None => false end) bbs.
  (* 778-780 the recursion *)
  Fixpoint walk_tree (fuel : nat) (bbs : list nat) (R : rst) (b : nat) : option rst :=
    match fuel with
    | O => None
    | S f =>
        fold_left (fun o c => match o with None => None | Some R1 => walk_tree f bbs R1 c end)
                  (children bbs b) (Some (do_block R b))
    end.
  (* 711-783 variable_renaming *)
  Definition variable_renaming (fuel root : nat) (bbs : list nat) (P : prog) : option prog :=
    match walk_tree fuel bbs (mkr (fun _ => None) (fun _ _ => None) (fun _ _ => 0) (fun _ => 0) P) root with
    | None => None
    | Some R => Some (code R)
    end.
End Rename.

(* 514-549 phi_node_insertion for the variables of the list, after
   build_variable_list_and_defs (486-511): [pop] takes an element of the work set;
   phi nodes are pushed at the head of the block *)
Definition defines (v : nat) (B : blk) : bool :=
  existsb (fun o => match o with IAssign n _ => Nat.eqb (fst n) v | IExpr _ => false end) (b_ops B).
Fixpoint phi_insertion (pop : list nat -> option (nat * list nat)) (fr : list (nat * nat)) (fuel : nat) (bbs vars : list nat) (P : prog) : option prog :=
  match vars with
  | [] => Some P
  | v :: t =>
      let W := filter (fun b => defines v (P b)) bbs in
      match phi_loop pop fr W fuel [] W with
      | None => None
      | Some F =>
          phi_insertion pop fr fuel bbs t
            (fun b => if memb b F then mkblk (((v, None), []) :: b_phis (P b)) (b_ops (P b)) (b_end (P b)) else P b)
      end
  end.
