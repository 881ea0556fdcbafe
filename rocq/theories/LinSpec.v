(* Meaning of block programs before and after linearization. *)
From Coq Require Import List Arith Bool.
From Verif Require Import LinModel.
Import ListNotations.

Section Spec.
Context {V : Type}.
Variable truth : V -> bool.
Variable d0 : V.
Variable nodes : nat -> mnode V.

Definition operands (n : nat) : list nat :=
  match nodes n with
  | MOp _ l => l | MAssign _ k => [k] | MCBr c _ _ => [c] | MRet (Some k) => [k] | _ => []
  end.
Inductive reach (r : nat) : nat -> Prop :=
| reach_refl : reach r r
| reach_step n i : reach r n -> In i (operands n) -> reach r i.
Definition is_op (n : nat) : Prop := match nodes n with MOp _ _ => True | _ => False end.
Definition is_expr_node (n : nat) : Prop := match nodes n with MVar | MCst _ | MOp _ _ => True | _ => False end.
Definition expr (n : nat) : Prop := forall m, reach n m -> is_expr_node m.

(* ---- values and source programs *)
Variable rank : nat -> nat.
Fixpoint ev (fuel : nat) (env : nat -> V) (n : nat) : V :=
  match fuel with
  | O => d0
  | S f => match nodes n with
           | MVar => env n
           | MCst v => v
           | MOp g l => g (map (ev f env) l)
           | _ => d0
           end
  end.
Definition eval (env : nat -> V) (n : nat) : V := ev (S (rank n)) env n.
Definition set (env : nat -> V) (x : nat) (v : V) : nat -> V := fun k => if k =? x then v else env k.

Inductive outcome :=
| Fall (env : nat -> V) | Jump (l : nat) (env : nat -> V) | Ret (n : option nat) (env : nat -> V).
Fixpoint sexec (env : nat -> V) (b : list nat) : outcome :=
  match b with
  | [] => Fall env
  | s :: r =>
    match nodes s with
    | MAssign x n => sexec (set env x (eval env n)) r
    | MCBr c t e => if truth (eval env c) then Jump t env else Jump e env
    | MBr t => Jump t env
    | MRet o => Ret o env
    | _ => sexec env r
    end
  end.

(* ---- register code *)
Definition opval (regs : nat -> V) (o : opnd V) : V := match o with OReg r => regs r | OCst v => v end.
Fixpoint mexec (regs : nat -> V) (c : list (insn V)) : outcome :=
  match c with
  | [] => Fall regs
  | i :: r =>
    match i with
    | IOp k f l => mexec (set regs k (f (map (opval regs) l))) r
    | ICopy k s => mexec (set regs k (regs s)) r
    | IConst k v => mexec (set regs k v) r
    | ICBr o t => if truth (opval regs o) then Jump t regs else mexec regs r
    | IBr t => Jump t regs
    | IRet => Ret None regs
    end
  end.

(* ---- programs: position of a label, and runs of at most k blocks; a block that ends
   without a branch goes on with the next one *)
Fixpoint find_label {A} (l : nat) (p : list (nat * A)) : option nat :=
  match p with
  | [] => None
  | (k, _) :: r => if l =? k then Some 0 else option_map S (find_label l r)
  end.
Inductive result := RFuel | REnd (env : nat -> V) | RStuck (l : nat) (env : nat -> V) | RRet (n : option nat) (env : nat -> V).
Fixpoint run {A} (step : (nat -> V) -> A -> outcome) (p : list (nat * A)) (k i : nat) (env : nat -> V) : result :=
  match k with
  | O => RFuel
  | S k' =>
    match nth_error p i with
    | None => REnd env
    | Some (_, b) =>
      match step env b with
      | Fall env' => run step p k' (S i) env'
      | Jump l env' => match find_label l p with Some j => run step p k' j env' | None => RStuck l env' end
      | Ret n env' => RRet n env'
      end
    end
  end.

(* ---- well-formed programs *)
Definition stmt_ok (s : nat) : Prop :=
  match nodes s with
  | MAssign x n => nodes x = MVar /\ expr n
  | MCBr c _ _ => expr c
  | MBr _ | MRet None => True
  | MRet (Some n) => expr n
  | _ => expr s
  end.
Definition reaches (l : list nat) (m : nat) : Prop := exists s, In s l /\ reach s m.
(* after an assignment to x no operation reading x and met before is met again *)
Fixpoint fresh_use (done b : list nat) : Prop :=
  match b with
  | [] => True
  | s :: r =>
    (forall x n, nodes s = MAssign x n -> forall m, is_op m -> reaches (done ++ [s]) m -> reaches r m -> ~ reach m x) /\
    fresh_use (done ++ [s]) r
  end.
Record well_formed (p : list (nat * list nat)) : Prop := {
  wf_stmt : forall l b s, In (l, b) p -> In s b -> stmt_ok s;
  wf_once : NoDup (filter (fun s => match nodes s with MVar | MCst _ | MOp _ _ => false | _ => true end) (concat (map snd p)));
  wf_local : forall i j l b l' b' m, nth_error p i = Some (l, b) -> nth_error p j = Some (l', b') -> i <> j ->
             is_op m -> reaches b m -> reaches b' m -> False;
  wf_fresh : forall l b, In (l, b) p -> fresh_use [] b
}.
End Spec.

(* ---- copies that can be merged with the definition of their source *)
Section CopySpec.
Context {V : Type}.
Definition insn_at (q : list (nat * list (insn V))) (b k : nat) : option (insn V) :=
  match nth_error q b with Some (_, c) => nth_error c k | None => None end.
Definition writes (i : insn V) (r : nat) : Prop :=
  match i with IOp d _ _ | ICopy d _ | IConst d _ => d = r | _ => False end.
Definition reads (i : insn V) (r : nat) : Prop :=
  match i with IOp _ _ l => In (OReg r) l | ICopy _ s => s = r | ICBr o _ => o = OReg r | _ => False end.
Definition straight (i : insn V) : Prop := match i with ICBr _ _ | IBr _ | IRet => False | _ => True end.
(* s is written once, at (b, k'), and read once, by the copy d := s at (b, k) with k' < k *)
Definition mergeable (q : list (nat * list (insn V))) (b k' k d s : nat) : Prop :=
  insn_at q b k = Some (ICopy d s) /\ k' < k /\
  (exists i, insn_at q b k' = Some i /\ writes i s) /\
  (forall b2 j i, insn_at q b2 j = Some i -> writes i s -> b2 = b /\ j = k') /\
  (forall b2 j i, insn_at q b2 j = Some i -> reads i s -> b2 = b /\ j = k).
Definition merged (q : list (nat * list (insn V))) (s : nat) : Prop := exists b k' k d, mergeable q b k' k d s.
(* the definition is not itself a copy, and between it and the copy there is neither
   a branch nor an instruction that reads or writes d *)
Definition safe_copies (q : list (nat * list (insn V))) : Prop :=
  forall b k' k d s, mergeable q b k' k d s ->
  (forall x, insn_at q b k' <> Some (ICopy s x)) /\
  (forall j i, k' < j < k -> insn_at q b j = Some i -> straight i /\ ~ reads i d /\ ~ writes i d).
Definition same_result (M : nat -> Prop) (a b : @result V) : Prop :=
  match a, b with
  | RFuel, RFuel => True
  | REnd e, REnd e' => forall r, ~ M r -> e' r = e r
  | RStuck l e, RStuck l' e' => l = l' /\ forall r, ~ M r -> e' r = e r
  | RRet n e, RRet n' e' => n = n' /\ forall r, ~ M r -> e' r = e r
  | _, _ => False
  end.
End CopySpec.
