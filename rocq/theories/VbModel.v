(* Formats of boolean nodes.
   Model of metalibm_core/opt/p_vbool_legalization.py:50-130 and
   opt/p_scalar_vbool_legalization.py:47-122, run by opt/node_transformation.py:88-120
   (transform_graph, execute_on_optree), with core/ml_formats.py:1163-1171, 1430-1436,
   1494-1509 and 1596-1618 (boolean formats).

   Nodes are objects of a heap, changed in place.  Both legalizers give the node itself or
   None, so that set_input puts back the operand that was there; the map of a legalizer
   has the entries of the map of its pass for the nodes it was asked.  Formats are known
   by what these passes read: lanes, width of a lane, being one of the boolean formats. *)
From Coq Require Import List Arith Bool.
Import ListNotations.

Inductive fmt :=
| Data (width : nat) (lanes : option nat)
| VirtBool (lanes : nat)      (* v2vbool ...: lanes are ML_Bool, 32 bits wide *)
| Bool32 (lanes : nat)        (* v2bool ...: lanes are ML_Bool *)
| Bool64 (lanes : nat)        (* v2lbool ...: lanes are ML_Int64 *)
| SBool                       (* ML_Bool *)
| SBoolW (width : nat).       (* ML_Bool8 ... ML_Bool64 *)
(* general_get_scalar_format(f).get_bit_size() *)
Definition lane (f : fmt) : nat :=
  match f with Data w _ => w | VirtBool _ => 32 | Bool32 _ => 32 | Bool64 _ => 64 | SBool => 32 | SBoolW w => w end.

(* KTest: Test with a specifier of EXPANDABLE_TEST_LIST; KBool: other boolean operations *)
Inductive kind := KCmp | KLogic | KNot | KTest | KBool | KAsm | KOther.
Record node := mkN { kd : kind; fm : fmt; leaf : bool; ins : list nat }.
Definition heap := list node.
(* None is false: the node was not transformed *)
Record state := mkS { hp : heap; memo : list (nat * bool) }.
Fixpoint lookup (m : list (nat * bool)) (i : nat) : option bool :=
  match m with [] => None | (k, b) :: t => if Nat.eqb k i then Some b else lookup t i end.
Fixpoint set_node (h : heap) (i : nat) (nd : node) : heap :=
  match h, i with
  | [], _ => []
  | _ :: t, O => nd :: t
  | x :: t, S k => x :: set_node t k nd
  end.
Definition note (st : state) (i : nat) (b : bool) : state := mkS (hp st) ((i, b) :: memo st).
Definition set_format (st : state) (i : nat) (nd : node) (f : fmt) : state :=
  mkS (set_node (hp st) i (mkN (kd nd) f (leaf nd) (ins nd))) (memo st).

(* the two passes *)
Inductive flavour := Vector | Scalar.
Definition is_bool (v : flavour) (k : kind) : bool :=
  match k with KOther => false | KAsm => match v with Vector => true | Scalar => false end | _ => true end.
(* is_virtual_bool_node, is_scalar_virtual_bool_node *)
Definition virtual (v : flavour) (nd : node) : bool :=
  is_bool v (kd nd) &&
  match v, fm nd with
  | Vector, VirtBool _ => true
  | Vector, Bool32 _ => true
  | Scalar, SBool => true
  | _, _ => false
  end.
(* is_legalizable *)
Definition transformable (v : flavour) (nd : node) : bool :=
  match kd nd with KCmp => true | _ => virtual v nd end.
Definition known_lanes (n : nat) : bool := Nat.eqb n 2 || Nat.eqb n 3 || Nat.eqb n 4 || Nat.eqb n 8.
(* VECTOR_TYPE_MAP[ML_Bool][w][n], BOOL_TYPE_MAP[w]; None is KeyError *)
Definition bool_format (v : flavour) (w : nat) (f : fmt) : option fmt :=
  match v with
  | Vector =>
    match f with
    | VirtBool n | Bool32 n =>
      if known_lanes n then (if Nat.eqb w 32 then Some (Bool32 n) else if Nat.eqb w 64 then Some (Bool64 n) else None) else None
    | _ => None
    end
  | Scalar => if Nat.eqb w 8 || Nat.eqb w 16 || Nat.eqb w 32 || Nat.eqb w 64 then Some (SBoolW w) else None
  end.

Inductive res (A : Type) := Ret (a : A) | Raise | NoFuel.
Arguments Ret {A} _.
Arguments Raise {A}.
Arguments NoFuel {A}.

(* general_get_scalar_format(node.get_input(k).get_precision()).get_bit_size() *)
Definition input_lane (h : heap) (nd : node) (k : nat) : option nat :=
  match nth_error (ins nd) k with
  | Some c => match nth_error h c with Some x => Some (lane (fm x)) | None => None end
  | None => None
  end.
Definition scalar_bit_size (h : heap) (nd : node) : option nat :=
  match kd nd with
  | KCmp | KLogic | KAsm =>
    match input_lane h nd 0, input_lane h nd 1 with Some a, Some b => Some (Nat.max a b) | _, _ => None end
  | _ => input_lane h nd 0
  end.
Definition has_rule (k : kind) : bool := match k with KBool | KOther => false | _ => true end.
(* legalize_node *)
Definition legalize (v : flavour) (st : state) (i : nat) : res (state * bool) :=
  match lookup (memo st) i with
  | Some b => Ret (st, b)
  | None =>
    match nth_error (hp st) i with
    | None => Raise
    | Some nd =>
      if negb (virtual v nd) then Ret (note st i false, false)
      else if has_rule (kd nd) then
        match scalar_bit_size (hp st) nd with
        | None => Raise
        | Some w =>
          match bool_format v w (fm nd) with
          | None => Raise
          | Some f => Ret (note (set_format st i nd f) i true, true)
          end
        end
      else Ret (note st i false, false)
    end
  end.

Fixpoint visit (f : state -> nat -> res (state * bool)) (st : state) (l : list nat) : res state :=
  match l with
  | [] => Ret st
  | c :: t => match f st c with Ret (st', _) => visit f st' t | Raise => Raise | NoFuel => NoFuel end
  end.
(* transform_graph, root being False *)
Fixpoint transform (v : flavour) (n : nat) (st : state) (i : nat) : res (state * bool) :=
  match n with
  | O => NoFuel
  | S m =>
    match lookup (memo st) i with
    | Some b => Ret (st, b)
    | None =>
      match nth_error (hp st) i with
      | None => Raise
      | Some nd =>
        if transformable v nd then
          match visit (transform v m) st (ins nd) with
          | Ret st1 => legalize v st1 i
          | Raise => Raise
          | NoFuel => NoFuel
          end
        else
          let st1 := note st i false in
          if leaf nd then Ret (st1, false)
          else match visit (transform v m) st1 (ins nd) with
               | Ret st2 => Ret (st2, false)
               | Raise => Raise
               | NoFuel => NoFuel
               end
      end
    end
  end.
(* execute_on_optree: transform_graph(optree, root=True); the object given, if any *)
Definition execute_on_optree (v : flavour) (n : nat) (st : state) (root : nat) : res (state * option nat) :=
  match nth_error (hp st) root, lookup (memo st) root, transform v n st root with
  | _, Some b, _ => Ret (st, if b then Some root else None)
  | Some nd, None, Ret (st', b) => Ret (st', if transformable v nd then (if b then Some root else None) else Some root)
  | _, _, NoFuel => NoFuel
  | _, _, _ => Raise
  end.
