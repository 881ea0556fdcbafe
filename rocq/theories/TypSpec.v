(* Independent specification of the typing passes: the values of a format, and the format that
   an expression of untyped operations should have. *)
From Coq Require Import ZArith QArith List Bool.
From Verif Require Import FpFormatModel FpFormatSpec TypModel.
Import ListNotations.
Open Scope Z_scope.

Definition supported (f : fmt) : Prop :=
  match f with
  | FFP n => n = 16 \/ n = 32 \/ n = 64
  | FInt n _ => n = 32 \/ n = 64
  | _ => False
  end.

(* values of the supported formats *)
Definition fits (f : fmt) (v : Q) : Prop :=
  match f with
  | FFP n => representable (if n =? 16 then ML_Binary16 else if n =? 32 then ML_Binary32 else ML_Binary64) v
  | FInt n s => exists z, (v == inject_Z z)%Q /\ (if s then - 2 ^ (n - 1) <= z < 2 ^ (n - 1) else 0 <= z < 2 ^ n)
  | _ => False
  end.
Definition contained (f g : fmt) : Prop := forall v, fits f v -> fits g v.

Definition largest (l : list fmt) : Z := fold_right Z.max 0 (map bits l).
Definition signed (f : fmt) : bool := match f with FInt _ s => s | _ => false end.
(* a number of the largest size, floating-point when asked for, else signed as soon as an
   operand is *)
Definition merged (fl : bool) (l : list fmt) : fmt :=
  if fl then FFP (largest l) else FInt (largest l) (existsb signed l).

Definition is_cst (e : expr) : bool := match e with Cst _ => true | _ => false end.
Inductive sort := SFloat | SInt | SBool.
Definition join (a b : sort) : sort :=
  match a, b with SFloat, _ | _, SFloat => SFloat | SInt, _ | _, SInt => SInt | _, _ => SBool end.
Definition joins (l : list sort) : sort := fold_right join SBool l.
Definition fmt_sort (f : fmt) : sort := match f with FFP _ | FVec _ _ | AFloat => SFloat | FInt _ _ | AInt => SInt | ABool => SBool end.
Definition cst_sort (v : cval) : sort := match v with CInt _ => SInt | CReal _ => SFloat | CSpecial f => fmt_sort f end.
Fixpoint sort_of (cv : nat -> cval) (e : expr) : sort :=
  match e with
  | Var f => fmt_sort f
  | Cst i => cst_sort (cv i)
  | Op k _ _ args =>
      let l := map (sort_of cv) args in
      match k with
      | KArith | KUnary => joins l
      | KSelect => joins (tl l)
      | KInt | KBit => SInt
      | KBool | KCmp => SBool
      | KMant | KExpIns => SFloat
      end
  end.
Definition is_sfloat (s : sort) : bool := match s with SFloat => true | _ => false end.

(* the format of an expression (not a constant) from those of its operands that are not
   constants *)
Fixpoint format_of (cv : nat -> cval) (e : expr) : fmt :=
  match e with
  | Var f => f
  | Cst i => AInt
  | Op k _ itv args =>
      let operands (l : list expr) (m : list fmt) := map snd (filter (fun p => negb (is_cst (fst p))) (combine l m)) in
      match k with
      | KArith | KUnary | KBit | KMant => merged (is_sfloat (sort_of cv e)) (operands args (map (format_of cv) args))
      | KSelect => merged (is_sfloat (sort_of cv e)) (operands (tl args) (tl (map (format_of cv) args)))
      | KInt => integer_format itv
      | KBool | KCmp => FInt 32 true
      | KExpIns => AFloat
      end
  end.

(* expressions whose typing is determined: untyped operations, each with an operand that is
   not a constant; no arithmetic on booleans alone, no bitwise operation on floating-point
   numbers, variables of supported formats, numeric constants *)
Fixpoint determined (cv : nat -> cval) (e : expr) : Prop :=
  match e with
  | Var f => supported f
  | Cst i => match cv i with CSpecial _ => False | _ => True end
  | Op k f _ args =>
      f = None /\ fold_right (fun a P => determined cv a /\ P) True args /\
      match k with
      | KArith | KUnary => existsb (fun a => negb (is_cst a)) args = true /\ sort_of cv e <> SBool
      | KSelect => (exists c a b, args = [c; a; b]) /\ existsb (fun a => negb (is_cst a)) (tl args) = true /\ sort_of cv e <> SBool
      | KBit => existsb (fun a => negb (is_cst a)) args = true /\ joins (map (sort_of cv) args) <> SFloat
      | KMant => existsb (fun a => negb (is_cst a)) args = true
      | KCmp => args <> []
      | KInt | KBool => True
      | KExpIns => False
      end
  end.

(* the constants of an expression *)
Fixpoint csts (e : expr) : list nat :=
  match e with
  | Var _ => []
  | Cst i => [i]
  | Op _ _ _ args => concat (map csts args)
  end.
(* the same expression with its formats *)
Fixpoint with_formats (cv : nat -> cval) (e : expr) : expr :=
  match e with
  | Var _ | Cst _ => e
  | Op k _ itv args => Op k (Some (format_of cv e)) itv (map (with_formats cv) args)
  end.
Inductive part (o : expr) : expr -> Prop :=
| part_self : part o o
| part_arg : forall k f itv args a, In a args -> part o a -> part o (Op k f itv args).

(* the format that an operation gives to a constant among its operands *)
Definition constant_format (cv : nat -> cval) (o : expr) (i : nat) (g : fmt) : Prop :=
  match o with
  | Op k f itv args =>
      match k with
      | KArith | KBit => In (Cst i) args /\ g = format_of cv o
      | KSelect => In (Cst i) (tl args) /\ g = format_of cv o
      | KCmp => In (Cst i) args /\
          let l := map (format_of cv) (filter (fun a => negb (is_cst a)) args) in
          l <> [] /\ largest l <> 16 /\ joins (map (sort_of cv) args) <> SBool /\
          g = merged (is_sfloat (joins (map (sort_of cv) args))) l
      | _ => False
      end
  | _ => False
  end.
