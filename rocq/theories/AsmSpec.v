(* Execution of straight-line code over registers and over physical registers, live registers. *)
From Coq Require Import List Arith Bool.
From Verif Require Import AsmModel.
Import ListNotations.

Section Exec.
Variable W : Type.
Variable cst : nat -> nat -> list W.            (* a constant as that many words *)
Variable sem : nat -> nat -> list (list W) -> list W.   (* an operation with a result of that many words *)
Variable width : nat -> nat.
Definition sized : Prop := (forall n c, length (cst n c) = n) /\ (forall n op l, length (sem n op l) = n).

(* registers hold words; stores are written in a log *)
Definition upd (s : nat -> list W) (r : nat) (w : list W) : nat -> list W := fun k => if Nat.eqb k r then w else s k.
Definition arg (s : nat -> list W) (o : operand nat) : list W := match o with OReg r => s r | OCst c => cst 1 c | OOther => [] end.
Definition step (st : (nat -> list W) * list (list (list W))) (n : node nat) :=
  match n with
  | Assign d (VCst c) => (upd (fst st) d (cst (width d) c), snd st)
  | Assign d (VReg r) => (upd (fst st) d (fst st r), snd st)
  | Assign d (VOp op l) => (upd (fst st) d (sem (width d) op (map (arg (fst st)) l)), snd st)
  | Store l => (fst st, snd st ++ [map (arg (fst st)) l])
  | _ => st
  end.
Definition run st l := fold_left step l st.

(* the same over physical registers of one word *)
Fixpoint pupds (s : nat -> W) (ids : list nat) (w : list W) : nat -> W :=
  match ids, w with
  | i :: q, x :: t => pupds (fun k => if Nat.eqb k i then x else s k) q t
  | _, _ => s
  end.
Definition parg (s : nat -> W) (o : operand (list nat)) : list W := match o with OReg p => map s p | OCst c => cst 1 c | OOther => [] end.
Definition pstep (st : (nat -> W) * list (list (list W))) (n : node (list nat)) :=
  match n with
  | Assign d (VCst c) => (pupds (fst st) d (cst (length d) c), snd st)
  | Assign d (VReg p) => (pupds (fst st) d (map (fst st) p), snd st)
  | Assign d (VOp op l) => (pupds (fst st) d (sem (length d) op (map (parg (fst st)) l)), snd st)
  | Store l => (fst st, snd st ++ [map (parg (fst st)) l])
  | _ => st
  end.
Definition prun st l := fold_left pstep l st.
End Exec.

(* registers read and written by a node *)
Definition reads (n : node nat) : list nat :=
  match n with
  | Assign _ (VOp _ l) | Store l => flat_map (fun o => match o with OReg r => [r] | _ => [] end) l
  | Assign _ (VReg r) => [r]
  | _ => []
  end.
Definition writes (n : node nat) : list nat := match n with Assign d _ => [d] | _ => [] end.
Definition straight (n : node nat) : Prop := match n with Assign _ _ | Store _ => True | _ => False end.

(* r is live before l when it is read before being written, or live at the end *)
Fixpoint live (l : list (node nat)) (out : list nat) (r : nat) : Prop :=
  match l with [] => In r out | n :: q => In r (reads n) \/ (~ In r (writes n) /\ live q out r) end.
(* the same with the lists given to asmde *)
Fixpoint alive (l : list insn) (out : list areg) (x : areg) : Prop :=
  match l with [] => In x out | i :: q => In x (i_use i) \/ (~ In x (i_def i) /\ alive q out x) end.

(* what asmde has to give: a register written has not the color of another one live after *)
Fixpoint valid (color : areg -> option nat) (l : list insn) (out : list areg) : Prop :=
  match l with
  | [] => True
  | i :: q => (forall d x, In d (i_def i) -> In x (i_def i) \/ alive q out x -> x <> d -> color x <> color d) /\ valid color q out
  end.
Definition fixed (color : areg -> option nat) : Prop := forall i c, color (Phys i) = Some c -> c = i.

(* a register written shares nothing with another one live after *)
Fixpoint apart (fm : nat -> list areg) (l : list (node nat)) (out : list nat) : Prop :=
  match l with
  | [] => True
  | n :: q => (forall d r x, In d (writes n) -> r <> d -> live q out r -> In x (fm d) -> ~ In x (fm r)) /\ apart fm q out
  end.
