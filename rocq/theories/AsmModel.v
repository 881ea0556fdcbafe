(* Register allocation of machine programs.
   Model of metalibm_core/code_generation/asmde_translator.py:21-25 (extract_src_regs_from_node),
   27-86 (maps of registers, physical registers), 96-146 (instructions, registers of arguments and
   results), 148-231 (translation to a program of asmde), and of
   metalibm_core/targets/common/dummy_asm_target.py:134-174 (registers of the calling convention).

   Simplifications: registers, blocks, constants and operations are numbers, values assigned are not
   shared between instructions; virtual registers given by the architecture are a function of the register
   (asmde is another project); colors are a partial map from registers of asmde to numbers; the map of
   physical registers (line 48), a memoization, is empty when the transformation starts; debug objects,
   bundles and prints are dropped.  Exceptions are values. *)
From Coq Require Import List Arith Bool.
Import ListNotations.

Inductive err := AttributeError | AssertionError | NotImplemented | KeyError | IndexError | LogError.
Inductive res (A : Type) := Ok (a : A) | Err (e : err).
Arguments Ok {A} a. Arguments Err {A} e.
Definition bind {A B} (r : res A) (f : A -> res B) : res B := match r with Ok x => f x | Err e => Err e end.
Notation "'do' x <- r ; s" := (bind r (fun x => s)) (at level 200, x pattern, right associativity).

(* asmde registers: virtual (name and half of a pair) and physical *)
Inductive areg := Virt (name half : nat) | Phys (i : nat).
Definition areg_eqb (x y : areg) : bool :=
  match x, y with
  | Virt a b, Virt c d => Nat.eqb a c && Nat.eqb b d
  | Phys i, Phys j => Nat.eqb i j
  | _, _ => false
  end.

(* nodes of a block, over a type R of registers *)
Inductive operand (R : Type) := OReg (r : R) | OCst (c : nat) | OOther.
Inductive value (R : Type) := VCst (c : nat) | VReg (r : R) | VOp (op : nat) (l : list (operand R)) | VLeaf.
Inductive node (R : Type) :=
  Assign (dst : R) (v : value R) | Store (l : list (operand R)) | Ret (values : nat) |
  Jump (b : nat) | CJump (cond : operand R) (bs : list nat) | Other.
Arguments OReg {R} r. Arguments OCst {R} c. Arguments OOther {R}.
Arguments VCst {R} c. Arguments VReg {R} r. Arguments VOp {R} op l. Arguments VLeaf {R}.
Arguments Assign {R} dst v. Arguments Store {R} l. Arguments Ret {R} values. Arguments Jump {R} b. Arguments CJump {R} cond bs. Arguments Other {R}.

(* ml_to_asmde_reg_map *)
Definition amap := list (nat * list areg).
Fixpoint find (m : amap) (r : nat) : option (list areg) :=
  match m with [] => None | (k, t) :: q => if Nat.eqb k r then Some t else find q r end.

Record insn := mkI { i_def : list areg; i_use : list areg; i_cond : bool; i_nocond : bool }.

Section Arch.
Variable virt : nat -> list areg.

(* 35-46 *)
Definition allocatable (m : amap) (r : nat) : amap * list areg :=
  match find m r with Some t => (m, t) | None => ((r, virt r) :: m, virt r) end.

(* 21-25; a leaf has no inputs *)
Definition src_regs (l : list (operand nat)) : list nat :=
  flat_map (fun o => match o with OReg r => [r] | _ => [] end) l.
Fixpoint allocatables (m : amap) (l : list nat) : amap * list areg :=
  match l with
  | [] => (m, [])
  | r :: q => let '(m1, t) := allocatable m r in let '(m2, u) := allocatables m1 q in (m2, t ++ u)
  end.

(* 96-124; Log.report(Log.Error) raises *)
Definition insn_from_node (m : amap) (n : node nat) : res (amap * insn) :=
  match n with
  | Assign dst v =>
    let '(m1, d) := allocatable m dst in
    match v with
    | VCst _ => Ok (m1, mkI d [] false false)
    | VOp _ l => let '(m2, u) := allocatables m1 (src_regs l) in Ok (m2, mkI d u false false)
    | VReg _ | VLeaf => Err AttributeError
    end
  | Store l => let '(m1, u) := allocatables m (src_regs l) in Ok (m1, mkI [] u false false)
  | _ => Err LogError
  end.

Inductive vertex := Src | Sink | Blk (b : nat).
Record trans := mkT { t_map : amap; t_done : list nat; t_edges : list (vertex * vertex); t_open : list (nat * nat); t_insns : list insn }.
Definition mem (b : nat) (l : list nat) : bool := existsb (Nat.eqb b) l.

(* 194-203: the destinations of a branch of block b *)
Definition link (b : nat) (t : trans) (d : nat) : trans :=
  if mem d (t_done t) then mkT (t_map t) (t_done t) (t_edges t ++ [(Blk b, Blk d)]) (t_open t) (t_insns t)
  else mkT (t_map t) (t_done t) (t_edges t) (t_open t ++ [(d, b)]) (t_insns t).
Definition emit (t : trans) (m : amap) (i : insn) : trans := mkT m (t_done t) (t_edges t) (t_open t) (t_insns t ++ [i]).

(* 179-220 *)
Definition translate_node (b : nat) (t : trans) (n : node nat) : res trans :=
  match n with
  | Ret 0 => Ok (emit (mkT (t_map t) (t_done t) (t_edges t ++ [(Blk b, Sink)]) (t_open t) (t_insns t)) (t_map t) (mkI [] [] false false))
  | Ret _ => Err AssertionError
  | Jump d => let t1 := link b t d in Ok (emit t1 (t_map t1) (mkI [] [] false true))
  | CJump c ds =>
    let t1 := fold_left (link b) ds t in
    match c with
    | OReg r => let '(m, u) := allocatable (t_map t1) r in Ok (emit t1 m (mkI [] u true false))
    | _ => Err AssertionError
    end
  | _ => do (m, i) <- insn_from_node (t_map t) n; Ok (emit t m i)
  end.
Fixpoint translate_nodes (b : nat) (t : trans) (l : list (node nat)) : res trans :=
  match l with [] => Ok t | n :: q => do t1 <- translate_node b t n; translate_nodes b t1 q end.
Fixpoint translate_blocks (t : trans) (l : list (nat * list (node nat))) : res trans :=
  match l with
  | [] => Ok t
  | (b, ns) :: q =>
    do t1 <- translate_nodes b (mkT (t_map t) (b :: t_done t) (t_edges t) (t_open t) (t_insns t)) ns;
    translate_blocks t1 q
  end.
(* 223-234 *)
Fixpoint resolve (done : list nat) (l : list (nat * nat)) : res (list (vertex * vertex)) :=
  match l with
  | [] => Ok []
  | (d, b) :: q => if mem d done then do e <- resolve done q; Ok ((Blk b, Blk d) :: e) else Err LogError
  end.

(* 126-142 and dummy_asm_target.py:134-174: each register of at most 64 bits takes the next physical register *)
Definition abi_map (l : list nat) : amap := combine l (map (fun i => [Phys i]) (seq 0 (length l))).
Fixpoint put_all (m : amap) (l : amap) : amap := match l with [] => m | e :: q => put_all (e :: m) q end.
Definition abi_registers (l : list nat) : list areg := map Phys (seq 0 (length l)).

(* 148-236 *)
Record program := mkP { p_pre : list areg; p_post : list areg; p_edges : list (vertex * vertex); p_insns : list insn; p_map : amap }.
Definition translate (inputs outputs : list nat) (bbs : list (nat * list (node nat))) : res program :=
  let m := put_all (put_all [] (abi_map inputs)) (abi_map outputs) in
  do t <- translate_blocks (mkT m [] [] [] []) bbs;
  do e <- resolve (t_done t) (t_open t);
  match bbs with
  | [] => Err IndexError
  | (b, _) :: _ => Ok (mkP (abi_registers inputs) (abi_registers outputs) (t_edges t ++ e ++ [(Src, Blk b)]) (t_insns t) (t_map t))
  end.
End Arch.

(* 48-57 *)
Section Colors.
Variable color : areg -> option nat.
Variable m : amap.

Fixpoint colors (l : list areg) : res (list nat) :=
  match l with
  | [] => Ok []
  | x :: q => match color x with Some c => do t <- colors q; Ok (c :: t) | None => Err KeyError end
  end.
Definition physical (r : nat) : res (list nat) := match find m r with Some l => colors l | None => Err KeyError end.

(* 59-92 *)
Definition phys_operand (o : operand nat) : res (operand (list nat)) :=
  match o with OReg r => do p <- physical r; Ok (OReg p) | OCst c => Ok (OCst c) | OOther => Err NotImplemented end.
Fixpoint phys_operands (l : list (operand nat)) : res (list (operand (list nat))) :=
  match l with [] => Ok [] | o :: q => do p <- phys_operand o; do t <- phys_operands q; Ok (p :: t) end.
Definition phys_node (n : node nat) : res (node (list nat)) :=
  match n with
  | Assign dst v =>
    do d <- physical dst;
    match v with
    | VOp op l => do l' <- phys_operands l; Ok (Assign d (VOp op l'))
    | VReg r => do p <- physical r; Ok (Assign d (VReg p))
    | VCst c => Ok (Assign d (VCst c))
    | VLeaf => Err NotImplemented
    end
  | Store l => do l' <- phys_operands l; Ok (Store l')
  | CJump c ds => match c with OReg r => do p <- physical r; Ok (CJump (OReg p) ds) | _ => Err NotImplemented end
  | Ret k => Ok (Ret k)
  | Jump d => Ok (Jump d)
  | Other => Ok Other
  end.
Fixpoint phys_nodes (l : list (node nat)) : res (list (node (list nat))) :=
  match l with [] => Ok [] | n :: q => do p <- phys_node n; do t <- phys_nodes q; Ok (p :: t) end.
End Colors.
