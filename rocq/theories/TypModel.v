(* Model of the typing passes, /repo/metalibm_core/opt/p_function_typing.py 57-579, called by
   every function generation (core/ml_function.py 676-681) with no default precision, and of
   merge_abstract_format, /repo/metalibm_core/core/ml_formats.py 1670-1687.

   Constants have an identity (their node) and their format is kept in a store, so that a
   constant can be shared; operations are trees (the memoization types a shared operation
   once).  Operations typed in the same way are one kind.  Not modelled: statements, blocks,
   table loads, function calls, boolean variables, multi-precision formats.
   None as a result: an exception. *)
From Coq Require Import ZArith QArith List Bool.
Import ListNotations.
Open Scope Z_scope.

(* scalar floating-point of n bits, integer of n bits and signedness, floating-point vector,
   the three abstract formats *)
Inductive fmt := FFP (n : Z) | FInt (n : Z) (s : bool) | FVec (lanes n : Z) | AFloat | AInt | ABool.
Definition is_abstract (f : fmt) : bool := match f with AFloat | AInt | ABool => true | _ => false end.
(* get_bit_size (exception for an abstract format) *)
Definition bits (f : fmt) : Z := match f with FFP n => n | FInt n _ => n | FVec l n => l * n | _ => 0 end.
Definition is_vector (f : fmt) : bool := match f with FVec _ _ => true | _ => false end.
Inductive cval := CInt (z : Z) | CReal (q : Q) | CSpecial (f : fmt).

(* Addition, Subtraction, Multiplication, Min, Max, FusedMultiplyAdd, Division, Modulo;
   Abs, Negation; Select; NearestInteger, ExponentExtraction, CountLeadingZeros;
   Test, LogicalAnd/Or/Not; Comparison; bitwise operations and shifts; MantissaExtraction;
   ExponentInsertion *)
Inductive opk := KArith | KUnary | KSelect | KInt | KBool | KCmp | KBit | KMant | KExpIns.
Inductive expr :=
| Var (f : fmt)
| Cst (i : nat)
| Op (k : opk) (f : option fmt) (itv : option (Q * Q)) (args : list expr).

Definition store := nat -> option fmt.
Definition upd (st : store) (i : nat) (f : option fmt) : store := fun j => if Nat.eqb j i then f else st j.
(* get_precision *)
Definition prec (st : store) (e : expr) : option fmt :=
  match e with Var f => Some f | Cst i => st i | Op _ f _ _ => f end.
Fixpoint all_some {A} (l : list (option A)) : option (list A) :=
  match l with
  | [] => Some []
  | Some a :: l => match all_some l with Some r => Some (a :: r) | None => None end
  | None :: _ => None
  end.

(* ml_formats.py 1670-1687; the methods of None raise *)
Definition is_float (f : fmt) : bool := match f with FFP _ | FVec _ _ | AFloat => true | _ => false end.
Definition is_integer (f : fmt) : bool := match f with FInt _ _ | AInt => true | _ => false end.
Definition is_bool (f : fmt) : bool := match f with ABool => true | _ => false end.
Definition merge_abstract (l : list fmt) : option fmt :=
  if existsb is_float l then Some AFloat
  else if existsb is_integer l then Some AInt
  else if existsb is_bool l then Some ABool else None.
Definition merge_abstract_o (l : list (option fmt)) : option fmt :=
  match all_some l with Some l => merge_abstract l | None => None end.

(* 57-140 abstract_typing_rule *)
Definition abs_rule (k : opk) (l : list (option fmt)) : option fmt :=
  match k with
  | KArith | KUnary => merge_abstract_o l
  | KSelect => merge_abstract_o (tl l)
  | KInt | KBit => Some AInt
  | KBool | KCmp => Some ABool
  | KMant | KExpIns => Some AFloat
  end.
Definition cst_abstract (v : cval) : fmt := match v with CInt _ => AInt | CReal _ => AFloat | CSpecial f => f end.

Section Lists.
Context {A B S : Type} (f : A -> S -> option (B * S)).
Fixpoint go (l : list A) (s : S) : option (list B * S) :=
  match l with
  | [] => Some ([], s)
  | a :: l =>
      match f a s with
      | Some (b, s) => match go l s with Some (r, s) => Some (b :: r, s) | None => None end
      | None => None
      end
  end.
End Lists.

(* 275-383 instantiate_abstract_precision *)
Fixpoint abs_expr (cv : nat -> cval) (e : expr) (st : store) : option (expr * store) :=
  match e with
  | Var _ => Some (e, st)
  | Cst i => match st i with Some _ => Some (e, st) | None => Some (e, upd st i (Some (cst_abstract (cv i)))) end
  | Op k f itv args =>
      match go (abs_expr cv) args st with
      | None => None
      | Some (args, st) =>
          match f with
          | Some _ => Some (Op k f itv args, st)
          | None =>
              match abs_rule k (map (prec st) args) with
              | Some r => Some (Op k (Some r) itv args, st)
              | None => None
              end
          end
      end
  end.

Definition concretes (l : list fmt) : list fmt := filter (fun f => negb (is_abstract f)) l.
Definition max_bits (l : list fmt) : Z := fold_right Z.max 0 (map bits (concretes l)).
(* get_signed: only fixed-point formats have it *)
Definition get_signed (f : fmt) : option bool := match f with FInt _ s => Some s | _ => None end.
(* any(...): stops at the first true value *)
Fixpoint any_signed (l : list fmt) : option bool :=
  match l with
  | [] => Some false
  | f :: l => match get_signed f with None => None | Some true => Some true | Some false => any_signed l end
  end.
(* 385-402 *)
Definition merge_integer (l : list fmt) : option fmt :=
  match any_signed (concretes l) with
  | None => None
  | Some s => let n := max_bits l in if (n =? 32) || (n =? 64) then Some (FInt n s) else None
  end.
(* 405-417 *)
Definition merge_float (l : list fmt) : option fmt :=
  match concretes l with
  | [] => None
  | _ => let n := max_bits l in if (n =? 16) || (n =? 32) || (n =? 64) then Some (FFP n) else None
  end.
(* 420-435 merge_ops_abstract_format *)
Definition merge_ops (f : option fmt) (l : list (option fmt)) : option fmt :=
  match all_some l with
  | None => None
  | Some l => match f with
              | Some AFloat => merge_float l
              | Some AInt => merge_integer l
              | _ => None
              end
  end.
(* 438-454 get_integer_format; default_integer_format = ML_Int32 *)
Definition integer_format (itv : option (Q * Q)) : fmt :=
  match itv with
  | None => FInt 32 true
  | Some (lo, hi) =>
      if negb (Qle_bool 0 lo) then
        if negb (Qle_bool hi (inject_Z (2 ^ 31 - 1))) || negb (Qle_bool (inject_Z (- 2 ^ 31)) lo) then FInt 64 true else FInt 32 true
      else if Qle_bool (inject_Z (2 ^ 32 - 1)) hi then FInt 64 false else FInt 32 false
  end.
(* 470-512 merge_format; Some None: the value None *)
Definition merge_format (l : list (option fmt)) : option (option fmt) :=
  match all_some l with
  | None => None
  | Some l =>
      match merge_abstract l with
      | None => None
      | Some a =>
          let n := max_bits l in
          match a with
          | AInt =>
              match any_signed (filter (fun f => negb (is_vector f)) (concretes l)) with
              | None => None
              | Some s => Some (if (n =? 32) || (n =? 64) then Some (FInt n s) else None)
              end
          | AFloat => Some (if (n =? 32) || (n =? 64) then Some (FFP n) else None)
          | _ => Some None
          end
      end
  end.

(* 142-226 practical_typing_rule; the default precision is None, the boolean format ML_Int32 *)
Definition inst_rule (k : opk) (f : option fmt) (itv : option (Q * Q)) (l : list (option fmt)) : option (option fmt) :=
  match k with
  | KArith | KUnary | KBit | KMant => match merge_ops f l with Some r => Some (Some r) | None => None end
  | KSelect => match merge_ops f (tl l) with Some r => Some (Some r) | None => None end
  | KInt => Some (Some (integer_format itv))
  | KBool | KCmp => Some (Some (FInt 32 true))
  | KExpIns => Some None
  end.
(* 461-467 propagate_format_to_cst *)
Definition set_cst (f : option fmt) (st : store) (e : expr) : store :=
  match e with
  | Cst i => match st i with Some a => if is_abstract a then upd st i f else st | None => st end
  | _ => st
  end.
Definition set_csts (f : option fmt) (args : list expr) (st : store) : store := fold_left (set_cst f) args st.
(* 228-272 post_typing_process_rules *)
Definition post_rule (k : opk) (f : option fmt) (args : list expr) (st : store) : option store :=
  match k with
  | KArith | KBit => Some (set_csts f args st)
  | KSelect => Some (set_csts f (firstn 2 (tl args)) st)
  | KCmp => match merge_format (map (prec st) args) with Some m => Some (set_csts m args st) | None => None end
  | KExpIns => Some (set_csts (Some (FInt 32 true)) args st)
  | KUnary | KInt | KBool | KMant => Some st
  end.

(* 514-547 instantiate_precision *)
Fixpoint inst_expr (e : expr) (st : store) : option (expr * store) :=
  match e with
  | Var _ | Cst _ => Some (e, st)
  | Op k f itv args =>
      match go inst_expr args st with
      | None => None
      | Some (args, st) =>
          let abstract := match f with Some a => is_abstract a | None => false end in
          match (if abstract then inst_rule k f itv (map (prec st) args) else Some f) with
          | None => None
          | Some f => match post_rule k f args st with Some st => Some (Op k f itv args, st) | None => None end
          end
      end
  end.

(* ml_function.py 676-681 *)
Definition typing (cv : nat -> cval) (e : expr) (st : store) : option (expr * store) :=
  match abs_expr cv e st with Some (e, st) => inst_expr e st | None => None end.
