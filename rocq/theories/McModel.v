(* Passes on machine programs.
   Model of metalibm_core/opt/p_machine_code_gen.py:159-188 (Pass_SimplifyBBFallback) and
   204-262 (Pass_CollapseRegisterCopy); instructions are those made by
   code_generation/machine_program_linearizer.py:125-270.

   A program is the list of its blocks, each one in it once, so that a block is its index
   and an instruction its block and index.  Instructions changed in place are given by
   the list of their new destinations, last change first. *)
From Coq Require Import List Arith Bool.
Import ListNotations.

Definition reg := nat.
Inductive insn :=
| Assign (d : reg) (op : nat) (us : list reg)  (* RegisterAssign of an operation *)
| Copy (d s : reg)                             (* RegisterAssign of a RegisterCopy *)
| Effect (k : nat) (us : list reg)             (* TableStore *)
| CondJump (k : nat) (us : list reg) (b : nat) (* ConditionalBranch, 154 *)
| Goto (b : nat)                               (* UnconditionalBranch *)
| Ret.                                         (* Return: its value is not an operand, 229 *)
Definition block := list insn.
Definition prog := list block.
Definition at_ (p : prog) (b i : nat) : option insn := match nth_error p b with Some l => nth_error l i | None => None end.

(* ---- Pass_SimplifyBBFallback.execute_on_graph, 170-190 ---- *)
(* bb.inputs[-1] *)
Definition goes_to (l : block) : option nat := match rev l with Goto b :: _ => Some b | _ => None end.
Fixpoint simplify_from (n index : nat) (bs : list block) : list block :=
  match bs with
  | [] => []
  | l :: t =>
    (match goes_to l with
     | Some dest => if Nat.ltb (index + 1) n && Nat.eqb dest (index + 1) then removelast l else l
     | None => l
     end) :: simplify_from n (index + 1) t
  end.
Definition simplify_fallback (p : prog) : prog := simplify_from (length p) 0 p.

(* ---- Pass_CollapseRegisterCopy.execute_on_graph, 215-262 ---- *)
Definition pos := (nat * nat)%type.
Definition pos_eqb (a b : pos) : bool := Nat.eqb (fst a) (fst b) && Nat.eqb (snd a) (snd b).
Definition defines (r : reg) (x : insn) : bool := match x with Assign d _ _ => Nat.eqb r d | Copy d _ => Nat.eqb r d | _ => false end.
(* extract_use_list *)
Definition uses_reg (r : reg) (x : insn) : bool :=
  match x with
  | Assign _ _ us | Effect _ us | CondJump _ us _ => existsb (Nat.eqb r) us
  | Copy _ s => Nat.eqb r s
  | Goto _ | Ret => false
  end.
Fixpoint number_block (b k : nat) (l : block) : list (pos * insn) :=
  match l with [] => [] | x :: t => ((b, k), x) :: number_block b (S k) t end.
Fixpoint number (b : nat) (p : prog) : list (pos * insn) :=
  match p with [] => [] | l :: t => number_block b 0 l ++ number (S b) t end.
(* reg_defs, reg_uses, reg_copy_list *)
Definition reg_defs (p : prog) (r : reg) : list pos := map fst (filter (fun x => defines r (snd x)) (number 0 p)).
Definition reg_uses (p : prog) (r : reg) : list pos := map fst (filter (fun x => uses_reg r (snd x)) (number 0 p)).
Fixpoint copies_of (l : list (pos * insn)) : list (pos * (reg * reg)) :=
  match l with
  | [] => []
  | (q, Copy d s) :: t => (q, (d, s)) :: copies_of t
  | _ :: t => copies_of t
  end.

Record cstate := mkC { chg : list (pos * reg); popped : list reg; dead : list pos }.
Fixpoint new_dest (c : list (pos * reg)) (q : pos) : option reg :=
  match c with [] => None | (q', d) :: t => if pos_eqb q' q then Some d else new_dest t q end.
(* the number of definitions is zero once the only one was popped *)
Definition one_def (p : prog) (st : cstate) (r : reg) : option pos :=
  if existsb (Nat.eqb r) (popped st) then None else match reg_defs p r with [q] => Some q | _ => None end.
Definition collapse_one (p : prog) (st : cstate) (c : pos * (reg * reg)) : cstate :=
  let '(q, (d, src)) := c in
  let dst := match new_dest (chg st) q with Some d' => d' | None => d end in
  match one_def p st src, reg_uses p src with
  | Some dq, [_] =>
    if Nat.eqb (fst dq) (fst q) && Nat.ltb (snd dq) (snd q)
    then mkC ((dq, dst) :: chg st) (src :: popped st) (q :: dead st)
    else mkC (chg st) (src :: popped st) (dead st)
  | _, _ => st
  end.
Definition collapse_state (p : prog) : cstate := fold_left (collapse_one p) (copies_of (number 0 p)) (mkC [] [] []).
Definition with_dest (x : insn) (o : option reg) : insn :=
  match o, x with
  | Some d, Assign _ op us => Assign d op us
  | Some d, Copy _ s => Copy d s
  | _, _ => x
  end.
Fixpoint rewrite_block (st : cstate) (b k : nat) (l : block) : block :=
  match l with
  | [] => []
  | x :: t =>
    if existsb (pos_eqb (b, k)) (dead st) then rewrite_block st b (S k) t
    else with_dest x (new_dest (chg st) (b, k)) :: rewrite_block st b (S k) t
  end.
Fixpoint rewrite_prog (st : cstate) (b : nat) (p : prog) : prog :=
  match p with [] => [] | l :: t => rewrite_block st b 0 l :: rewrite_prog st (S b) t end.
Definition collapse_copies (p : prog) : prog := rewrite_prog (collapse_state p) 0 p.
