(* Executions of machine programs, and what a copy must satisfy to be removed. *)
From Coq Require Import List Arith Bool.
From Verif Require Import McModel.
Import ListNotations.

Section Exec.
Variables val mem : Type.
Variable eval : nat -> list val -> mem -> val.
Variable effect : nat -> list val -> mem -> mem.
Variable test : nat -> list val -> mem -> bool.
Definition regs := reg -> val.
Definition upd (s : regs) (d : reg) (x : val) : regs := fun r => if Nat.eqb r d then x else s r.
Inductive outcome := Fall | Jump (b : nat) | Stop.
Fixpoint exec (l : block) (s : regs) (m : mem) : regs * mem * outcome :=
  match l with
  | [] => (s, m, Fall)
  | Assign d op us :: t => exec t (upd s d (eval op (map s us) m)) m
  | Copy d r :: t => exec t (upd s d (s r)) m
  | Effect k us :: t => exec t s (effect k (map s us) m)
  | CondJump k us b :: t => if test k (map s us) m then (s, m, Jump b) else exec t s m
  | Goto b :: _ => (s, m, Jump b)
  | Ret :: _ => (s, m, Stop)
  end.
(* n bounds the number of blocks executed; after the last block the program stops *)
Fixpoint run (n : nat) (p : prog) (b : nat) (s : regs) (m : mem) : option (regs * mem) :=
  match n with
  | O => None
  | S n' =>
    match nth_error p b with
    | None => Some (s, m)
    | Some l =>
      match exec l s m with
      | (s', m', Fall) => run n' p (b + 1) s' m'
      | (s', m', Jump b') => run n' p b' s' m'
      | (s', m', Stop) => Some (s', m')
      end
    end
  end.
End Exec.
Arguments upd {val} s d x _ /.
Arguments exec {val mem} eval effect test l s m.
Arguments run {val mem} eval effect test n p b s m.

Definition is_jump (x : insn) : Prop := match x with CondJump _ _ _ | Goto _ | Ret => True | _ => False end.
(* after a jump there are only jumps *)
Definition basic_blocks (p : prog) : Prop := forall b i k x y, at_ p b i = Some x -> is_jump x -> i <= k -> at_ p b k = Some y -> is_jump y.
Definition writes (x : insn) (r : reg) : Prop := match x with Assign d _ _ => d = r | Copy d _ => d = r | _ => False end.
Definition reads (x : insn) (r : reg) : Prop := match x with Assign _ _ us | Effect _ us | CondJump _ us _ => In r us | Copy _ s => s = r | _ => False end.
(* the copy at (b, j) of src, written only at (b, i) before and read only by the copy, to dst *)
Definition single_copy (p : prog) (b i j : nat) (src dst : reg) : Prop :=
  i < j /\ at_ p b j = Some (Copy dst src) /\
  (exists x, at_ p b i = Some x /\ writes x src) /\
  (forall b' k x, at_ p b' k = Some x -> writes x src -> b' = b /\ k = i) /\
  (forall b' k x, at_ p b' k = Some x -> reads x src -> b' = b /\ k = j).
(* dst is not touched from the definition to the copy; the source is not itself such a copy *)
Definition separate (p : prog) : Prop := forall b i j src dst, single_copy p b i j src dst ->
  (forall k x, i < k < j -> at_ p b k = Some x -> ~ writes x dst /\ ~ reads x dst) /\ (forall i' s', ~ single_copy p b i' i s' src).
Definition collapsed (p : prog) (r : reg) : Prop := exists b i j dst, single_copy p b i j r dst.
