(* Fusion of multiplications and additions into fused multiply-add operations.
   Model of metalibm_core/opt/p_function_std.py:137-247 (fuse_multiply_add), with
   the attributes kept by metalibm_core/core/attributes.py:146-147.

   Objects are nodes of a heap, named by their position, so that sharing,
   in-place changes of the inputs and the memoization are those of the code.

   Simplifications: handles and indices of nodes are dropped; a debug attribute is
   a boolean (None or not), tags, formats and intervals are numbers; IndexError is
   None, as is a lack of fuel; statements and all operations but addition,
   subtraction, multiplication and their fusion are KOp with a number. *)
From Coq Require Import List Arith Bool.
Import ListNotations.

(* core/ml_operations.py:994-1040; Negate is never built by the pass *)
Inductive fspec := Standard | Subtract | SubtractNegate | DotProduct | DotProductNegate.
Inductive kind := KLeaf (n : nat) | KAdd | KSub | KMul | KFma (s : fspec) | KOp (n : nat).

Record attrs := mkA {
  a_fmt : option nat; a_debug : bool; a_tag : option nat; a_prevent : bool;
  a_silent : option bool; a_exact : bool; a_unbreakable : bool; a_interval : option nat }.
Record node := mkN { n_kind : kind; n_attr : attrs; n_inputs : list nat; n_extra : list nat; n_comm : bool }.
Definition heap := list node.
Record state := mkS { hp : heap; memo : list (nat * nat) }.

(* attributes.py:146-147 followed by set_silent (174, 194, 215); exact is set
   afterwards (177-179, 197-199, 220-222) *)
Definition fused_attrs (silence exact : bool) (a : attrs) : attrs :=
  mkA (a_fmt a) (a_debug a) (a_tag a) (a_prevent a) (Some silence) exact false None.

Definition is_addsub (k : kind) : bool := match k with KAdd | KSub => true | _ => false end.
Definition is_mul (k : kind) : bool := match k with KMul => true | _ => false end.

Fixpoint set_nth (h : heap) (i : nat) (nd : node) : heap :=
  match h, i with
  | [], _ => []
  | _ :: t, O => nd :: t
  | x :: t, S k => x :: set_nth t k nd
  end.
Definition with_inputs (nd : node) (l : list nat) : node := mkN (n_kind nd) (n_attr nd) l (n_extra nd) (n_comm nd).
Definition with_extra (nd : node) (l : list nat) : node := mkN (n_kind nd) (n_attr nd) (n_inputs nd) l (n_comm nd).
Definition set_inputs (st : state) (i : nat) (l : list nat) : state :=
  match nth_error (hp st) i with
  | Some nd => mkS (set_nth (hp st) i (with_inputs nd l)) (memo st)
  | None => st
  end.
Definition set_extra (st : state) (i : nat) (l : list nat) : state :=
  match nth_error (hp st) i with
  | Some nd => mkS (set_nth (hp st) i (with_extra nd l)) (memo st)
  | None => st
  end.
Definition remember (st : state) (i r : nat) : state := mkS (hp st) ((i, r) :: memo st).
Definition alloc (st : state) (nd : node) : state * nat := (mkS (hp st ++ [nd]) (memo st), length (hp st)).

Fixpoint lookup (m : list (nat * nat)) (i : nat) : option nat :=
  match m with [] => None | (k, r) :: t => if Nat.eqb k i then Some r else lookup t i end.

Definition bind {A B} (r : option A) (f : A -> option B) : option B := match r with Some x => f x | None => None end.
Notation "'do' x <- r ; s" := (bind r (fun x => s)) (at level 200, x name, right associativity).

(* optree.inputs[k] and optree.inputs[k].inputs[l] *)
Definition operand (st : state) (i k : nat) : option nat :=
  do nd <- nth_error (hp st) i; nth_error (n_inputs nd) k.
Definition operand2 (st : state) (i k l : nat) : option nat :=
  do j <- operand st i k; operand st j l.

(* isinstance(op, Multiplication) and not op.get_prevent_optimization() *)
Definition fusable_mul (h : heap) (j : nat) : bool :=
  match nth_error h j with Some nd => is_mul (n_kind nd) && negb (a_prevent (n_attr nd)) | None => false end.
(* op.get_debug() != None and isinstance(op, Multiplication) *)
Definition debug_mul (h : heap) (j : nat) : bool :=
  match nth_error h j with Some nd => a_debug (n_attr nd) && is_mul (n_kind nd) | None => false end.
Definition exact_of (h : heap) (j : nat) : bool :=
  match nth_error h j with Some nd => a_exact (n_attr nd) | None => false end.

Section Fuse.
Variable silence dot_product_enabled : bool.

Fixpoint map_st (f : state -> nat -> option (state * nat)) (st : state) (l : list nat) : option (state * list nat) :=
  match l with
  | [] => Some (st, [])
  | j :: t => do r <- f st j; do r' <- map_st f (fst r) t; Some (fst r', snd r :: snd r')
  end.

(* optree.inputs = tuple(local_fuse_fma(op) for op in optree.inputs) *)
Definition inplace (f : state -> nat -> option (state * nat)) (st : state) (i : nat) : option state :=
  do nd <- nth_error (hp st) i;
  do r <- map_st f st (n_inputs nd);
  Some (set_inputs (fst r) i (snd r)).

Fixpoint fuse (fuel : nat) (st : state) (i : nat) : option (state * nat) :=
  match fuel with
  | O => None
  | S n =>
    do nd <- nth_error (hp st) i;
    let inplace_memo := do st' <- inplace (fuse n) st i; Some (remember st' i i, i) in
    if is_addsub (n_kind nd) && negb (a_unbreakable (n_attr nd)) then
      match n_inputs nd with
      | [op0; op1] =>
        match lookup (memo st) i with
        | Some r => Some (st, r)
        | None =>
          let sub := match n_kind nd with KSub => true | _ => false end in
          if debug_mul (hp st) op0 || debug_mul (hp st) op1 then inplace_memo
          else if dot_product_enabled && fusable_mul (hp st) op0 && fusable_mul (hp st) op1 then
            do x0 <- operand2 st i 0 0; do r0 <- fuse n st x0;
            do x1 <- operand2 (fst r0) i 0 1; do r1 <- fuse n (fst r0) x1;
            do x2 <- operand2 (fst r1) i 1 0; do r2 <- fuse n (fst r1) x2;
            do x3 <- operand2 (fst r2) i 1 1; do r3 <- fuse n (fst r2) x3;
            let exact := exact_of (hp st) op0 && exact_of (hp st) op1 && a_exact (n_attr nd) in
            let '(st', new_op) := alloc (fst r3)
              (mkN (KFma (if sub then DotProductNegate else DotProduct)) (fused_attrs silence exact (n_attr nd))
                   [snd r0; snd r1; snd r2; snd r3] [] false) in
            Some (remember st' i new_op, new_op)
          else if fusable_mul (hp st) op0 then
            do x0 <- operand2 st i 0 0; do r0 <- fuse n st x0;
            do x1 <- operand2 (fst r0) i 0 1; do r1 <- fuse n (fst r0) x1;
            do x2 <- operand (fst r1) i 1; do r2 <- fuse n (fst r1) x2;
            let exact := exact_of (hp st) op0 && a_exact (n_attr nd) in
            let '(st', new_op) := alloc (fst r2)
              (mkN (KFma (if sub then Subtract else Standard)) (fused_attrs silence exact (n_attr nd))
                   [snd r0; snd r1; snd r2] [] false) in
            Some (remember st' i new_op, new_op)
          else if fusable_mul (hp st) op1 then
            do x0 <- operand2 st i 1 0; do r0 <- fuse n st x0;
            do x1 <- operand2 (fst r0) i 1 1; do r1 <- fuse n (fst r0) x1;
            do x2 <- operand (fst r1) i 0; do r2 <- fuse n (fst r1) x2;
            let exact := exact_of (hp st) op1 && a_exact (n_attr nd) in
            let '(st', new_op) := alloc (fst r2)
              (mkN (KFma (if sub then SubtractNegate else Standard)) (fused_attrs silence exact (n_attr nd))
                   [snd r0; snd r1; snd r2] [] true) in
            Some (remember st' i new_op, new_op)
          else inplace_memo
        end
      | _ => do st' <- inplace (fuse n) st i; Some (st', i)
      end
    else
      do st1 <- (match n_extra nd with
                 | [] => Some st
                 | l => do r <- map_st (fuse n) st l; Some (set_extra (fst r) i (snd r))
                 end);
      match n_kind nd with
      | KLeaf _ => Some (remember st1 i i, i)
      | _ => do st' <- inplace (fuse n) st1 i; Some (remember st' i i, i)
      end
  end.
End Fuse.

(* the pass starts with an empty memoization *)
Definition fuse_multiply_add (silence dot : bool) (fuel : nat) (h : heap) (root : nat) : option (heap * nat) :=
  do r <- fuse silence dot fuel (mkS h []) root; Some (hp (fst r), snd r).
