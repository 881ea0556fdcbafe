(* Model of pipeline generation, /repo/metalibm_core/opt/p_pipelining.py.

   An operation is a number n; node n is its content and stage n its init_stage
   attribute.  A signal of the pipelined design is the operation itself (SOrig n)
   or the register holding it at stage s (SReg n s, the Signal e{s+1}_tag_q whose
   init_op is n and whose init_stage is s).  get_op_key maps both to n.
   The in-place op.set_input is a map from operations to their new inputs.
   None stands for a raised KeyError, for Log.Error and for a loop without end.
   The output ReferenceAssign nodes are operations without their destination
   operand (it is created at the stage of the assignment and never rewritten). *)
From Coq Require Import List Arith Bool.
From Verif Require Import DomModel.
Import ListNotations.

Inductive sig := SOrig (n : nat) | SReg (n s : nat).

Section Pipe.
Variable V : Type.
(* NIn: an input signal.  NCst: Constant.  NPos: FixedPointPosition, whose value is
   static.  NDelay: StaticDelay (attributes relative and delay, operand x). *)
Inductive node :=
| NIn | NCst (v : V) | NPos (v : V) (ins : list nat)
| NOp (f : list V -> V) (ins : list nat) | NDelay (rel : bool) (d x : nat).

(* core/ml_hdl_operations.py 341-347: the constructor stores relative = True whatever
   its argument *)
Definition static_delay (x d : nat) (relative : bool) : node := NDelay true d x.

Variable nodes : nat -> node.
Variable stage : nat -> nat.
(* 243-246 *)
Definition delay_target (rel : bool) (d x : nat) : nat := if rel then stage x + d else d.

(* 45-62 RetimeMap; register_count is the sum of the widths over fwd *)
Record rmap := RM {
  smap : list ((nat * nat) * sig);
  fwd : list (nat * (sig * sig));          (* stage, (destination, source) *)
  proc : list nat;
  ins_of : nat -> list sig
}.
Definition rm0 : rmap := RM [] [] [] (fun _ => []).

Fixpoint lookup (n s : nat) (m : list ((nat * nat) * sig)) : option sig :=
  match m with
  | [] => None
  | ((n', s'), g) :: r => if (n =? n') && (s =? s') then Some g else lookup n s r
  end.
(* 83-93 contains *)
Definition contains (n s : nat) (m : rmap) : bool :=
  match lookup n s (smap m) with Some _ => true | None => false end.

(* 155-157 the latest stage where the operation is defined *)
Fixpoint latest (fuel n cur : nat) (m : rmap) : option nat :=
  match fuel with
  | O => None
  | S f => if contains n (S cur) m then latest f n (S cur) m else Some cur
  end.
(* 159-171 k registers from stage cur *)
Fixpoint forward (k n cur : nat) (src : sig) (m : rmap) : rmap :=
  match k with
  | O => m
  | S k' => let dst := SReg n (S cur) in
            forward k' n (S cur) dst
              (RM (((n, S cur), dst) :: smap m) (fwd m ++ [(cur, (dst, src))]) (proc m) (ins_of m))
  end.
(* 140-171 propagate_op *)
Definition propagate (n target : nat) (m : rmap) : option rmap :=
  match latest (S (length (smap m))) n (stage n) m with
  | None => None
  | Some cur => match lookup n cur (smap m) with
                | None => None
                | Some src => if target <? cur then None else Some (forward (target - cur) n cur src m)
                end
  end.
(* 252-255, 258-261: make the signal exist at the stage and return it *)
Definition fetch (n s : nat) (m : rmap) : option (rmap * sig) :=
  match (if contains n s m then Some m else propagate n s m) with
  | None => None
  | Some m' => match lookup n s (smap m') with None => None | Some g => Some (m', g) end
  end.
(* 279-280 *)
Definition finish (n os : nat) (ins : list sig) (m : rmap) : rmap :=
  RM (((n, os), SOrig n) :: smap m) (fwd m) (n :: proc m)
     (fun k => if k =? n then ins else ins_of m k).

(* 225-278 the inputs of an operation; os is op_stage, which the StaticDelay case
   overwrites.  visit is the call of retime_op on an operation not yet processed. *)
Fixpoint in_loop (visit : nat -> rmap -> option rmap) (l : list nat) (os : nat) (m : rmap) (acc : list sig)
  : option (rmap * nat * list sig) :=
  match l with
  | [] => Some (m, os, acc)
  | i :: r =>
    match visit i m with
    | None => None
    | Some m1 =>
      match nodes i with
      | NCst _ | NPos _ _ => in_loop visit r os m1 (acc ++ [SOrig i])
      | NDelay rel d x =>
        match visit x m1 with
        | None => None
        | Some m2 => match fetch x (delay_target rel d x) m2 with
                     | None => None
                     | Some (m3, g) => in_loop visit r (delay_target rel d x) m3 (acc ++ [g])
                     end
        end
      | NIn | NOp _ _ =>
        if stage i <? os then
          match fetch i os m1 with
          | None => None
          | Some (m2, g) => in_loop visit r os m2 (acc ++ [g])
          end
        else if os <? stage i then None
        else in_loop visit r os m1 (acc ++ [SOrig i])
      end
    end
  end.
(* 206-280 retime_op *)
Fixpoint retime (fuel n : nat) (m : rmap) : option rmap :=
  match fuel with
  | O => None
  | S f =>
    if memb n (proc m) then Some m
    else match nodes n with
         | NIn | NCst _ | NDelay _ _ _ => Some (finish n (stage n) [] m)
         | NPos _ l | NOp _ l =>
           match in_loop (fun i m => if memb i (proc m) then Some m else retime f i m) l (stage n) m [] with
           | None => None
           | Some (m', os, ins) => Some (finish n os ins m')
           end
         end
  end.
(* 304-313: the output assignments, then the recirculation signals *)
Fixpoint retime_all (fuel : nat) (roots : list nat) (m : rmap) : option rmap :=
  match roots with
  | [] => Some m
  | n :: r => match retime fuel n m with None => None | Some m' => retime_all fuel r m' end
  end.
(* 421: the number of keys of stage_forward *)
Definition stage_num (m : rmap) : nat := length (nodup Nat.eq_dec (map fst (fwd m))).
End Pipe.
Arguments NIn {V}. Arguments NCst {V}. Arguments NPos {V}. Arguments NOp {V}. Arguments NDelay {V}. Arguments static_delay {V}.

(* 315-420: the clocked processes.  A process is a statement run at each change of
   one of the signals of its sensitivity list; assignments take effect when it ends,
   the last one for a signal winning. *)
Inductive cond := CEdge | CReset (level : bool) | CRecirc0 (s : nat).
Inductive stmt := SNop | SSet (dst src : sig) | SZero (dst : sig) | SSeq (a b : stmt) | SIf (c : cond) (a b : stmt).
Definition seq (l : list stmt) : stmt := fold_right SSeq SNop l.

Record options := Opt { o_reset : bool; o_recirculate : bool; o_one_process : bool; o_sync : bool; o_negate : bool }.
Record process := Proc { body : stmt; on_reset : bool (* is the reset in the sensitivity list *) }.

Definition fwd_at (fw : list (nat * (sig * sig))) (s : nat) : list (sig * sig) :=
  map snd (filter (fun e => fst e =? s) fw).
(* 331-337 *)
Definition reset_stmt (l : list (sig * sig)) : stmt := seq (map (fun a => SZero (fst a)) l).
(* 331-371 the content of the block under the clock edge *)
Definition stage_stmt (o : options) (s : nat) (l : list (sig * sig)) : stmt :=
  let st := seq (map (fun a => SSet (fst a) (snd a)) l) in
  if o_reset o then
    let st := if o_recirculate o then SIf (CRecirc0 s) st SNop else st in
    if o_sync o then SIf (CReset (negb (o_negate o))) (reset_stmt l) st else st
  else st.
(* 375-386 *)
Definition clock_block (o : options) (s : nat) (l : list (sig * sig)) : stmt := SIf CEdge (stage_stmt o s l) SNop.
(* 388-401 *)
Definition one_process (o : options) (s : nat) (l : list (sig * sig)) : process :=
  if o_reset o && negb (o_sync o)
  then Proc (SIf (CReset (negb (o_negate o))) (reset_stmt l) (clock_block o s l)) true
  else Proc (clock_block o s l) false.
(* 328-418; stages is sorted(stage_forward.keys()) *)
Definition processes (o : options) (fw : list (nat * (sig * sig))) (stages : list nat) : list process :=
  if o_one_process o then map (fun s => one_process o s (fwd_at fw s)) stages
  else
    let clk := seq (map (fun s => clock_block o s (fwd_at fw s)) stages) in
    if o_sync o then [Proc clk false]
    else [Proc (SSeq clk (if o_reset o then seq (map (fun s => reset_stmt (fwd_at fw s)) stages) else SNop)) true].
