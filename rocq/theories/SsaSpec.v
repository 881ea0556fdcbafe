(* Specification of the SSA renaming: executions of a control-flow program
   before and after. *)
Require Import ZArith List Arith Bool.
From Verif Require Import DomModel DomProofs SsaModel.
Import ListNotations.

Inductive res := Ret (z : Z) | Stuck | More.
Section Sem.
  Variable opsem : nat -> Z -> Z -> Z.
  (* a name without value is None *)
  Definition env := name -> option Z.
  Definition eset (E : env) (n : name) (z : option Z) : env := fun x => if name_eqb x n then z else E x.
  Fixpoint eval (E : env) (e : expr) : option Z :=
    match e with
    | XVar n => E n
    | XCst z => Some z
    | XBin op a b => match eval E a, eval E b with Some x, Some y => Some (opsem op x y) | _, _ => None end
    end.
  (* effects: the values of the expressions evaluated for their effect, then the
     environment, if no undefined name has been read *)
  Fixpoint exec (l : list iop) (E : env) : list Z * option env :=
    match l with
    | [] => ([], Some E)
    | IExpr e :: t => match eval E e with None => ([], None) | Some z => let '(tr, r) := exec t E in (z :: tr, r) end
    | IAssign n e :: t => match eval E e with None => ([], None) | Some z => exec t (eset E n (Some z)) end
    end.
  (* phi nodes, all at once: the value of the operand coming from the block p *)
  Definition phi_value (p : nat) (ops : list (nat * name)) (E : env) : option Z :=
    match find (fun x => Nat.eqb (fst x) p) ops with None => None | Some (_, n) => E n end.
  Definition enter (p : nat) (l : list phi) (E : env) : env :=
    fun n => match find (fun f => name_eqb (fst f) n) l with None => E n | Some (_, ops) => phi_value p ops E end.

  (* executions of at most [fuel] blocks; without phi nodes, or with *)
  Fixpoint run (ssa : bool) (P : prog) (fuel p b : nat) (E : env) : list Z * res :=
    match fuel with
    | O => ([], More)
    | S f =>
        match exec (b_ops (P b)) (if ssa then enter p (b_phis (P b)) E else E) with
        | (tr, None) => (tr, Stuck)
        | (tr, Some E1) =>
            match b_end (P b) with
            | JBr d => let '(tr2, r) := run ssa P f b d E1 in (tr ++ tr2, r)
            | JCBr c t e =>
                match eval E1 c with
                | None => (tr, Stuck)
                | Some z => let '(tr2, r) := run ssa P f b (if Z.eqb z 0 then e else t) E1 in (tr ++ tr2, r)
                end
            | JRet x => (tr, match eval E1 x with None => Stuck | Some z => Ret z end)
            end
        end
    end.
  Definition start (init : nat -> option Z) : env := fun n => match n with (v, None) => init v | _ => None end.
End Sem.

(* --- source programs: no index yet, phi nodes without operands --- *)
Definition plain (n : name) : Prop := snd n = None.
Definition plain_expr (e : expr) : Prop := forall n, In n (used e) -> plain n.
Definition plain_op (o : iop) : Prop := match o with IAssign n e => plain n /\ plain_expr e | IExpr e => plain_expr e end.
Definition plain_end (e : ending) : Prop := match e with JBr _ => True | JCBr c t f => plain_expr c /\ t <> f | JRet x => plain_expr x end.
Definition plain_blk (B : blk) : Prop :=
  (forall n ops, In (n, ops) (b_phis B) -> plain n /\ ops = []) /\
  (forall o, In o (b_ops B) -> plain_op o) /\ plain_end (b_end B) /\ NoDup (map fst (b_phis B)).
(* the edges are those of the blocks, each block is there once *)
Definition edges_of (P : prog) (bbs : list nat) (edges : list (nat * nat)) : Prop :=
  forall b d, In (b, d) edges <-> In b bbs /\ In d (succs (b_end (P b))).
Definition assigns (v : nat) (B : blk) : Prop := exists e, In (IAssign (v, None) e) (b_ops B).
Definition has_phi (v : nat) (B : blk) : Prop := In (v, None) (map fst (b_phis B)).
(* phi nodes are placed on the iterated frontier of the assignments *)
Definition placed (root : nat) (edges : list (nat * nat)) (P : prog) : Prop :=
  forall x y v, assigns v (P x) \/ has_phi v (P x) -> frontier root edges x y -> has_phi v (P y).
(* phi nodes have two operands *)
Definition two_preds (edges : list (nat * nat)) (P : prog) : Prop :=
  forall b, b_phis (P b) <> [] -> exists l, length l <= 2 /\ forall p, In (p, b) edges -> In p l.
(* the block reads, assigns or merges the variable *)
Definition op_mentions (v : nat) (o : iop) : Prop :=
  match o with IAssign n e => n = (v, None) \/ In (v, None) (used e) | IExpr e => In (v, None) (used e) end.
Definition mentions (v : nat) (B : blk) : Prop :=
  has_phi v B \/ (exists o, In o (b_ops B) /\ op_mentions v o) \/
  match b_end B with JBr _ => False | JCBr c _ _ => In (v, None) (used c) | JRet x => In (v, None) (used x) end.
(* every predecessor of a phi node mentions its variable *)
Definition phis_mentioned (edges : list (nat * nat)) (P : prog) : Prop :=
  forall b s v, In (b, s) edges -> has_phi v (P s) -> mentions v (P b).
(* names defined by a block; each is defined once in the program *)
Definition op_defs (o : iop) : list name := match o with IAssign n _ => [n] | IExpr _ => [] end.
Definition defs (B : blk) : list name := map fst (b_phis B) ++ flat_map op_defs (b_ops B).
Definition single_assignment (bbs : list nat) (P : prog) : Prop := NoDup (flat_map (fun b => defs (P b)) bbs).
