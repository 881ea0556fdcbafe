(* Model of the generation of straight-line register code,
   /repo/metalibm_core/code_generation/machine_program_linearizer.py, and of the passes
   of /repo/metalibm_core/opt/p_machine_code_gen.py that work on its result
   (register allocation, done by an external library, excepted).

   A node is a number.  A basic block is a label with the list of its nodes; the
   block made from it carries the same label (get_post_linearization_bb).
   Virtual registers are their register_id.  None stands for an exception or for a
   recursion without end. *)
From Coq Require Import List Arith Bool.
Import ListNotations.

Section Lin.
Variable V : Type.
(* MLeaf: a leaf node that is neither a Variable nor a Constant (a table).
   MAssign: ReferenceAssign(x, n).  MCBr, MBr: branches.  MRet: Return. *)
Inductive mnode :=
| MVar | MCst (v : V) | MOp (f : list V -> V) (ins : list nat) | MLeaf | MPhi
| MAssign (x n : nat) | MCBr (c t e : nat) | MBr (t : nat) | MRet (n : option nat).
Variable nodes : nat -> mnode.

(* what linearize_graph returns: a register, a constant, something else *)
Inductive res := RReg (r : nat) | RCst (v : V) | RNone.
Inductive opnd := OReg (r : nat) | OCst (v : V).
Inductive insn :=
| IOp (r : nat) (f : list V -> V) (args : list opnd)      (* RegisterAssign(r, op) *)
| ICopy (r s : nat) | IConst (r : nat) (v : V)            (* RegisterCopy, MaterializeConstant *)
| ICBr (c : opnd) (t : nat) | IBr (t : nat) | IRet.

(* 71-86; next is register_id + 1 *)
Record lst := LS { next : nat; memo : list (nat * res); vregs : list (nat * nat) }.
Definition ls0 : lst := LS 0 [] [].
Fixpoint assoc {A} (n : nat) (l : list (nat * A)) : option A :=
  match l with [] => None | (k, a) :: r => if n =? k then Some a else assoc n r end.

(* 109-112 get_var_register *)
Definition get_var (x : nat) (st : lst) : nat * lst :=
  match assoc x (vregs st) with
  | Some r => (r, st)
  | None => (next st, LS (S (next st)) (memo st) ((x, next st) :: vregs st))
  end.
(* 94-97, 281 *)
Definition memoize (n : nat) (r : res) (st : lst) : lst := LS (next st) ((n, r) :: memo st) (vregs st).
Definition to_opnd (r : res) : option opnd :=
  match r with RReg k => Some (OReg k) | RCst v => Some (OCst v) | RNone => None end.

(* 260 the operands, in order *)
Fixpoint lin_args (lin : nat -> lst -> option (res * lst * list insn)) (l : list nat) (st : lst)
  : option (list opnd * lst * list insn) :=
  match l with
  | [] => Some ([], st, [])
  | n :: r =>
    match lin n st with
    | None => None
    | Some (rn, st1, c1) =>
      match to_opnd rn, lin_args lin r st1 with
      | Some o, Some (os, st2, c2) => Some (o :: os, st2, c1 ++ c2)
      | _, _ => None
      end
    end
  end.

(* 129-284 linearize_graph, without the BasicBlock cases *)
Fixpoint lin (fuel n : nat) (st : lst) : option (res * lst * list insn) :=
  match fuel with
  | O => None
  | S f =>
    match assoc n (memo st) with
    | Some r => Some (r, st, [])
    | None =>
      match nodes n with
      | MVar => let '(r, st1) := get_var n st in Some (RReg r, memoize n (RReg r) st1, [])
      | MCst v => Some (RCst v, memoize n (RCst v) st, [])
      | MOp g l =>
        match lin_args (lin f) l st with
        | None => None
        | Some (os, st1, c) =>
          let r := next st1 in
          Some (RReg r, memoize n (RReg r) (LS (S r) (memo st1) (vregs st1)), c ++ [IOp r g os])
        end
      | MLeaf => lin f n st
      | MPhi => None
      | MAssign x k =>
        let '(vr, st1) := get_var x st in
        match lin f k st1 with
        | Some (RReg r, st2, c) => Some (RReg vr, memoize n (RReg vr) st2, c ++ [ICopy vr r])
        | Some (RCst v, st2, c) => Some (RReg vr, memoize n (RReg vr) st2, c ++ [IConst vr v])
        | _ => None
        end
      | MCBr k t e =>
        match lin f k st with
        | Some (rk, st1, c) =>
          match to_opnd rk with
          | Some o => Some (RNone, memoize n RNone st1, c ++ [ICBr o t; IBr e])
          | None => None
          end
        | None => None
        end
      | MBr t => Some (RNone, memoize n RNone st, [IBr t])
      | MRet None => Some (RNone, memoize n RNone st, [IRet])
      | MRet (Some k) =>
        match lin f k st with
        | Some (_, st1, c) => Some (RNone, memoize n RNone st1, c ++ [IRet])
        | None => None
        end
      end
    end
  end.

(* 153-158 *)
Fixpoint lin_block (fuel : nat) (l : list nat) (st : lst) : option (lst * list insn) :=
  match l with
  | [] => Some (st, [])
  | s :: r =>
    match lin fuel s st with
    | None => None
    | Some (_, st1, c1) =>
      match lin_block fuel r st1 with None => None | Some (st2, c2) => Some (st2, c1 ++ c2) end
    end
  end.
(* 178-183; blocks are distinct *)
Fixpoint lin_prog (fuel : nat) (p : list (nat * list nat)) (st : lst) : option (lst * list (nat * list insn)) :=
  match p with
  | [] => Some (st, [])
  | (l, b) :: r =>
    match lin_block fuel b st with
    | None => None
    | Some (st1, c) =>
      match lin_prog fuel r st1 with None => None | Some (st2, q) => Some (st2, (l, c) :: q) end
    end
  end.

(* p_machine_code_gen.py 51-72 locate_return_values: the nodes returned somewhere
   (a set), for a program whose Return nodes are nodes of its blocks *)
Definition return_values (p : list (nat * list nat)) : list nat :=
  nodup Nat.eq_dec (flat_map (fun s => match nodes s with MRet (Some n) => [n] | _ => [] end) (concat (map snd p))).
(* 114-116 get_reg_from_node, KeyError when the node has no register *)
Definition reg_of (st : lst) (n : nat) : option nat :=
  match assoc n (memo st) with Some (RReg r) => Some r | _ => None end.
Fixpoint all_regs (st : lst) (l : list nat) : option (list nat) :=
  match l with
  | [] => Some []
  | n :: r => match reg_of st n, all_regs st r with Some k, Some ks => Some (k :: ks) | _, _ => None end
  end.
(* 96-113 Pass_LinearizeOperationGraph.execute_on_function: code, input and output registers *)
Definition linearize_function (fuel : nat) (args : list nat) (p : list (nat * list nat))
  : option (list (nat * list insn) * list nat * list nat) :=
  match lin_prog fuel p ls0 with
  | None => None
  | Some (st, code) =>
    match all_regs st args, all_regs st (return_values p) with
    | Some i, Some o => Some (code, i, o)
    | _, _ => None
    end
  end.

(* 160-181 Pass_SimplifyBBFallback *)
Definition drop_last_branch (c : list insn) (nxt : nat) : list insn :=
  match rev c with
  | IBr t :: r => if t =? nxt then rev r else c
  | _ => c
  end.
Fixpoint fallback (q : list (nat * list insn)) : list (nat * list insn) :=
  match q with
  | (l, c) :: (((l', _) :: _) as r) => (l, drop_last_branch c l') :: fallback r
  | _ => q
  end.

(* 211-262 Pass_CollapseRegisterCopy.  An instruction is known by its block and index.
   A RegisterAssign can have its destination changed (def_insn.set_input(0, dst)). *)
Definition target (i : insn) : option nat :=
  match i with IOp r _ _ | ICopy r _ | IConst r _ => Some r | _ => None end.
Definition opnd_regs (o : opnd) : list nat := match o with OReg r => [r] | OCst _ => [] end.
Definition uses (i : insn) : list nat :=
  match i with IOp _ _ l => flat_map opnd_regs l | ICopy _ s => [s] | ICBr o _ => opnd_regs o | _ => [] end.
Definition retarget (d : nat) (i : insn) : insn :=
  match i with IOp _ f l => IOp d f l | ICopy _ s => ICopy d s | IConst _ v => IConst d v | _ => i end.
(* position in the program: (block index, instruction index) *)
Definition pos := (nat * nat)%type.
Definition positions (q : list (nat * list insn)) : list (pos * insn) :=
  concat (map (fun bi => map (fun ki => ((fst bi, fst ki), snd ki)) (combine (seq 0 (length (snd (snd bi)))) (snd (snd bi))))
              (combine (seq 0 (length q)) q)).
(* 232-243 *)
Definition defs_of (q : list (nat * list insn)) (r : nat) : list pos :=
  map fst (filter (fun e => match target (snd e) with Some t => t =? r | None => false end) (positions q)).
Definition uses_of (q : list (nat * list insn)) (r : nat) : list pos :=
  map fst (filter (fun e => existsb (Nat.eqb r) (uses (snd e))) (positions q)).
Definition copies (q : list (nat * list insn)) : list (pos * (nat * nat)) :=
  flat_map (fun e => match snd e with ICopy d s => [(fst e, (d, s))] | _ => [] end) (positions q).
(* 245-258: (position of a definition, its new destination) and the positions of the
   copies to delete.  popped: the sources whose reg_defs set was emptied. *)
Fixpoint collapse_plan (q : list (nat * list insn)) (cs : list (pos * (nat * nat))) (popped : list nat)
  : list (pos * nat) * list pos :=
  match cs with
  | [] => ([], [])
  | ((b, k), (d, s)) :: r =>
    if existsb (Nat.eqb s) popped then collapse_plan q r popped
    else match defs_of q s, uses_of q s with
         | [(b', k')], [_] =>
           let '(ren, del) := collapse_plan q r (s :: popped) in
           if (b =? b') && (k' <? k) then (((b', k'), d) :: ren, (b, k) :: del) else (ren, del)
         | _, _ => collapse_plan q r popped
         end
  end.
Definition pos_eqb (a b : pos) : bool := (fst a =? fst b) && (snd a =? snd b).
(* 259-261; a definition renamed twice keeps the last name *)
Definition new_dest (ren : list (pos * nat)) (p : pos) (i : insn) : insn :=
  fold_left (fun i e => if pos_eqb (fst e) p then retarget (snd e) i else i) ren i.
Definition collapse (q : list (nat * list insn)) : list (nat * list insn) :=
  let '(ren, del) := collapse_plan q (copies q) [] in
  map (fun bi => (fst (snd bi),
         flat_map (fun ki => if existsb (pos_eqb (fst bi, fst ki)) del then []
                             else [new_dest ren (fst bi, fst ki) (snd ki)])
                  (combine (seq 0 (length (snd (snd bi)))) (snd (snd bi)))))
      (combine (seq 0 (length q)) q).
End Lin.
Arguments MVar {V}. Arguments MCst {V}. Arguments MOp {V}. Arguments MLeaf {V}. Arguments MPhi {V}.
Arguments MAssign {V}. Arguments MCBr {V}. Arguments MBr {V}. Arguments MRet {V}.
Arguments RReg {V}. Arguments RCst {V}. Arguments RNone {V}. Arguments OReg {V}. Arguments OCst {V}.
Arguments IOp {V}. Arguments ICopy {V}. Arguments IConst {V}. Arguments ICBr {V}. Arguments IBr {V}. Arguments IRet {V}.
