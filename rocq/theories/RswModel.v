(* Hardware formats turned into software ones, and formats of pointers.
   Model of metalibm_core/opt/p_legalize_rtl_to_sw_format.py:52-118, of the names of software fixed-point formats,
   metalibm_core/core/ml_formats.py:912-967, and of metalibm_core/core/ml_complex_formats.py:62-118.

   Simplifications: nodes, tables formats and other formats are numbers; a table format is an object, whose
   storage is changed in place; displays of formats and messages are dropped (a warning, line 950, included).
   The pass looks at inputs only, with the traversal of TravModel.v. *)
From Coq Require Import List Arith Bool ZArith String.
From Verif Require Import TravModel.
Import ListNotations.
Local Open Scope Z_scope.

(* formats; Uneval, Unsigned and Signed are UnevaluatedStdLogicVectorFormat, HDL_UnsignedVectorFormat and
   HDL_SignedVectorFormat (ml_hdl_format.py:253-272) *)
Inductive fmt :=
  StdLogic | Slv (size : Z) | Rtl (int frac : Z) (signed : bool) | Sw (int frac : Z) (signed : bool) |
  Uneval | Unsigned (size : Z) | Signed (size : Z) | Tbl (t : nat) | Plain (n : nat) | NoFormat.

(* 77-93 *)
Definition sw_std_logic : fmt := Sw 1 0 false.
Definition legalize (f : fmt) : fmt :=
  match f with
  | StdLogic => sw_std_logic
  | Rtl i q s => Sw i q s
  | Slv n => Sw n 0 false
  | _ => f
  end.

Record state := mkS { node_fmt : nat -> fmt; storage : nat -> fmt }.
(* 101-118 *)
Definition sw_act (n : nat) (s : state) : option state :=
  match node_fmt s n with
  | StdLogic | Rtl _ _ _ | Slv _ => Some (mkS (fun m => if Nat.eqb m n then legalize (node_fmt s n) else node_fmt s m) (storage s))
  | Tbl t => Some (mkS (node_fmt s) (fun u => if Nat.eqb u t then legalize (storage s t) else storage s u))
  | _ => Some s
  end.
(* 64-73 *)
Definition rtl_to_sw (inputs : nat -> list nat) (n : nat) (s : state) : option (list nat * state) :=
  traverse inputs state sw_act false (S n) n [] s.

(* ml_formats.py:948-963: the size of the C type of a software format, None when there is none *)
Definition c_size (f : fmt) : option Z :=
  match f with
  | Sw i q _ =>
    let b := i + q in
    if (b <? 1) || (128 <? b) then None
    else if b <=? 8 then Some 8 else if b <=? 16 then Some 16 else if b <=? 32 then Some 32 else if b <=? 64 then Some 64 else Some 128
  | _ => None
  end.

(* ---- ml_complex_formats.py ---- *)
Inductive pfmt := Base (n : nat) (name : string) | Tab (id : nat) (stored : pfmt) | Ptr (attributes : list string) (data : pfmt).
(* a == b: 76-83 for a pointer; tables have the equality of objects, which leaves the answer to the other side when it
   is a pointer *)
Fixpoint py_eq (fuel : nat) (a b : pfmt) : bool :=
  match fuel with
  | O => false
  | S n =>
    match a, b with
    | Ptr _ d, Ptr _ e => py_eq n d e
    | Ptr _ d, Tab _ e => py_eq n d e
    | Tab _ d, Ptr _ e => py_eq n e d
    | Tab i _, Tab j _ => Nat.eqb i j
    | Base i _, Base j _ => Nat.eqb i j
    | _, _ => false
    end
  end.
Fixpoint depth (a : pfmt) : nat := match a with Base _ _ => 1%nat | Tab _ d => S (depth d) | Ptr _ d => S (depth d) end.
Definition fmt_eq (a b : pfmt) : bool := py_eq (depth a + depth b) a b.
(* 68-69, 101-103 *)
Fixpoint pname (a : pfmt) : string :=
  match a with
  | Base _ s => s
  | Tab _ d => (pname d ++ "*")%string
  | Ptr l d => (String.concat " " (List.app l [pname d]) ++ "*")%string
  end.
