(* Model of the pass dependencies and of the pass scheduler.
   Source: /repo/metalibm_core/core/passes.py 35-210. *)
Require Import List Arith Bool.
Import ListNotations.

(* a pass object: identifier and the classes it is an instance of *)
Record pass := mkpass { pass_id : nat; classes : list nat }.
Inductive dep := DNone | DClass (c : nat) | DId (i : nat) | DAnd (l r : dep) | DOr (l r : dep).

(* is_dep_resolved 35-78 against the list of executed passes *)
Fixpoint resolved (ex : list pass) (d : dep) : bool :=
  match d with
  | DNone => true
  | DClass c => existsb (fun p => existsb (Nat.eqb c) (classes p)) ex
  | DId i => existsb (fun p => Nat.eqb (pass_id p) i) ex
  | DAnd l r => resolved ex l && resolved ex r
  | DOr l r => resolved ex l || resolved ex r
  end.

(* PassWrapper *)
Definition wrapper := (pass * dep)%type.
(* PassScheduler: passes registered and not yet enqueued with their slot (in
   registration order), executed, ready, waiting *)
Record sched := mksched {
  slots : list (nat * wrapper); executed : list pass; ready : list pass; waiting : list wrapper }.

(* register_pass 143-152 *)
Definition register_pass (s : sched) (slot : nat) (w : wrapper) : sched :=
  mksched (slots s ++ [(slot, w)]) (executed s) (ready s) (waiting s).
(* enqueue_slot_to_waiting 168-170 *)
Definition enqueue_slot (s : sched) (slot : nat) : sched :=
  mksched (filter (fun x => negb (Nat.eqb (fst x) slot)) (slots s)) (executed s) (ready s)
    (waiting s ++ map snd (filter (fun x => Nat.eqb (fst x) slot) (slots s))).
(* get_rdy_pass_list, update_rdy_pass_list 157-166 *)
Definition update_rdy (s : sched) : sched :=
  mksched (slots s) (executed s)
    (ready s ++ map fst (filter (fun w => resolved (executed s) (snd w)) (waiting s)))
    (filter (fun w => negb (resolved (executed s) (snd w))) (waiting s)).

Section Exec.
  Variable V : Type.
  (* execution_function(self, pass_object, inputs) *)
  Variable exec : pass -> V -> V.

  (* execute_pass_list 177-182: every pass receives the same inputs *)
  Definition execute_pass_list (l : list pass) (inputs : V) : V :=
    fold_left (fun _ p => exec p inputs) l inputs.

  (* the while loop of get_full_execute_from_slot 200-209; each turn moves at
     least one pass from waiting to executed *)
  Fixpoint exec_loop (fuel : nat) (s : sched) (v : V) : option (sched * V) :=
    match ready s with
    | [] => Some (s, v)
    | _ =>
      match fuel with
      | O => None
      | S f =>
          exec_loop f (update_rdy (mksched (slots s) (executed s ++ ready s) [] (waiting s)))
                      (execute_pass_list (ready s) v)
      end
    end.
  Definition execute_from_slot (s : sched) (slot : nat) (v : V) : option (sched * V) :=
    let s1 := update_rdy (enqueue_slot s slot) in
    exec_loop (S (length (waiting s1))) s1 v.
End Exec.
