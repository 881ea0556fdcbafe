(* Model of /repo/metalibm_core/opt/p_gen_bb.py, Pass_GenerateBasicBlock: structured
   statements (Statement, ConditionBlock, Loop, Return) to basic blocks.

   A basic block is a number, a program maps it to its list of instructions.
   Assignments, conditions and returned expressions are left abstract (types A, C, R):
   they are evaluated where they stand.  PlaceHolder nodes are not modelled.
   NotImplementedError and the assertion are None. *)
From Coq Require Import List Arith Bool.
From Verif Require Import DomModel.
Import ListNotations.

Section Blocks.
Variables A C R : Type.

(* ml_operations.py Statement, ConditionBlock, Loop, Return; SOp is any other node *)
Inductive stmt :=
| SOp (a : A)
| SRet (r : R)
| SSeq (l : list stmt)
| SIf (c : C) (t : stmt) (e : option stmt)
| SLoop (init : stmt) (c : C) (body : stmt).

(* bb_operations.py: Branch instructions; IEval is an expression whose value is not used *)
Inductive instr :=
| IOp (a : A)
| IEval (c : C)
| IRet (r : R)
| IBr (d : nat)
| ICBr (c : C) (t f : nat).

Record tstate := mkT {
  store : nat -> list instr;   (* contents of the blocks *)
  fin : nat -> bool;           (* BasicBlock.final *)
  nxt : nat;                   (* blocks 0 .. nxt-1 have been created *)
  stk : list nat }.            (* current_bb_stack, top first *)

(* 872-874 *)
Definition cur (s : tstate) : option nat := match stk s with [] => None | b :: _ => Some b end.
(* 835-850 push_new_bb *)
Definition push_bb (s : tstate) : nat * tstate :=
  (nxt s, mkT (fun b => if b =? nxt s then [] else store s b) (fun b => if b =? nxt s then false else fin s b) (S (nxt s)) (nxt s :: stk s)).
(* 853-866 pop_current_bb *)
Definition pop_bb (s : tstate) : option (nat * tstate) :=
  match stk s with [] => None | b :: r => Some (b, mkT (store s) (fin s) (nxt s) r) end.
Definition append (s : tstate) (b : nat) (i : instr) : tstate :=
  mkT (fun n => if n =? b then store s b ++ [i] else store s n) (fin s) (nxt s) (stk s).
Definition is_control (i : instr) : bool := match i with IRet _ | IBr _ | ICBr _ _ _ => true | _ => false end.
(* 785-790 add_to_bb *)
Definition add_to_bb (s : tstate) (b : nat) (i : instr) : option tstate :=
  if negb (fin s b) && match rev (store s b) with [] => true | x :: _ => negb (is_control x) end then Some (append s b i) else None.
(* 818-822 push_to_current_bb *)
Definition emit (s : tstate) (i : instr) : option tstate := match cur s with None => None | Some b => Some (append s b i) end.
Definition set_final (s : tstate) (b : nat) : tstate := mkT (store s) (fun n => if n =? b then true else fin s n) (nxt s) (stk s).

(* 62-138 transform_cb_to_bb; texec executes the branches *)
Definition tr_if (texec : stmt -> tstate -> option (nat * tstate)) (telse : option (tstate -> option (nat * tstate))) (c : C) (t : stmt) (s : tstate) : option (nat * tstate) :=
  match pop_bb s with
  | None => None
  | Some (entry, s1) =>
    let '(if_entry, s2) := push_bb s1 in
    match texec t s2 with
    | None => None
    | Some (if_bb, s3) =>
      if negb (if_bb =? if_entry) then None else
      match pop_bb s3 with
      | None => None
      | Some (if_end, s4) =>
        let '(else_entry, s5) := push_bb s4 in
        match (match telse with
               | None => Some s5
               | Some ex =>
                 match ex s5 with
                 | None => None
                 | Some (_, s6) =>
                   match pop_bb s6 with
                   | None => None
                   | Some (else_end, s7) =>
                     let '(next, s8) := push_bb s7 in
                     if fin s8 else_end then Some s8 else add_to_bb s8 else_end (IBr next)
                   end
                 end
               end) with
        | None => None
        | Some s9 =>
          match cur s9 with
          | None => None
          | Some next =>
            match add_to_bb s9 entry (ICBr c if_entry else_entry) with
            | None => None
            | Some s10 =>
              if fin s10 if_end then Some (entry, s10) else
              match add_to_bb s10 if_end (IBr next) with None => None | Some s11 => Some (entry, s11) end
            end
          end
        end
      end
    end
  end.

(* 141-192 transform_loop_to_bb; the condition is an expression, pushed to the header *)
Definition tr_loop (texec : stmt -> tstate -> option (nat * tstate)) (init : stmt) (c : C) (body : stmt) (s : tstate) : option (nat * tstate) :=
  match texec init s with
  | None => None
  | Some (init_block, s1) =>
    let '(header, s2) := push_bb s1 in
    match emit s2 (IEval c) with
    | None => None
    | Some s3 =>
      match pop_bb s3 with
      | None => None
      | Some (_, s4) =>
        let '(_, s5) := push_bb s4 in
        match texec body s5 with
        | None => None
        | Some (body_bb, s6) =>
          match cur s6 with
          | None => None
          | Some end_body =>
            match add_to_bb s6 end_body (IBr header) with
            | None => None
            | Some s7 =>
              match pop_bb s7 with
              | None => None
              | Some (_, s8) =>
                let '(next, s9) := push_bb s8 in
                match add_to_bb s9 header (ICBr c body_bb next) with
                | None => None
                | Some s10 =>
                  match add_to_bb s10 init_block (IBr header) with
                  | None => None
                  | Some s11 => Some (init_block, s11)
                  end
                end
              end
            end
          end
        end
      end
    end
  end.

(* 880-908 execute_on_optree *)
Fixpoint tr (t : stmt) (s : tstate) : option (nat * tstate) :=
  match cur s with
  | None => None
  | Some entry =>
    match t with
    | SOp a => match emit s (IOp a) with None => None | Some s1 => Some (entry, s1) end
    | SRet r => match emit s (IRet r) with None => None | Some s1 => match cur s1 with None => None | Some b => Some (entry, set_final s1 b) end end
    | SSeq l =>
      match (fix go (l : list stmt) (s : tstate) : option tstate :=
               match l with
               | [] => Some s
               | x :: r => match tr x s with None => None | Some (_, s1) => go r s1 end
               end) l s with
      | None => None
      | Some s1 => Some (entry, s1)
      end
    | SIf c t e => tr_if tr (match e with None => None | Some e => Some (tr e) end) c t s
    | SLoop init c body => tr_loop tr init c body s
    end
  end.

(* 811-815, 910-921 set_top_bb_list, execute_on_graph; the entry block is 0 *)
Definition init_state : tstate := mkT (fun _ => []) (fun _ => false) 1 [0].
Definition generate (t : stmt) : option tstate := match tr t init_state with None => None | Some (_, s) => Some s end.

(* bb_operations.py 159-160 BasicBlock.successors *)
Definition targets (i : instr) : list nat := match i with IBr d => [d] | ICBr _ t f => [t; f] | _ => [] end.
Definition successors (l : list instr) : list nat := flat_map targets l.
(* the last operation of a block, as build_cfg_edges_set sees it *)
Definition term_of (l : list instr) : term :=
  match rev l with [] => TEmpty | IBr d :: _ => TBr d | ICBr _ t f :: _ => TCBr t f | _ => TOther end.
End Blocks.
Arguments SOp {A C R}. Arguments SRet {A C R}. Arguments SSeq {A C R}. Arguments SIf {A C R}. Arguments SLoop {A C R}.
Arguments IOp {A C R}. Arguments IEval {A C R}. Arguments IRet {A C R}. Arguments IBr {A C R}. Arguments ICBr {A C R}.
Arguments store {A C R}. Arguments fin {A C R}. Arguments nxt {A C R}. Arguments stk {A C R}. Arguments mkT {A C R}.
Arguments cur {A C R}. Arguments push_bb {A C R}. Arguments pop_bb {A C R}. Arguments append {A C R}. Arguments is_control {A C R}.
Arguments add_to_bb {A C R}. Arguments emit {A C R}. Arguments set_final {A C R}. Arguments tr_if {A C R}. Arguments tr_loop {A C R}.
Arguments tr {A C R}. Arguments init_state {A C R}. Arguments generate {A C R}. Arguments targets {A C R}. Arguments successors {A C R}. Arguments term_of {A C R}.
