(* Sizes and values of formats. *)
From Coq Require Import List Arith Bool ZArith.
From Verif Require Import RswModel.
Import ListNotations.
Local Open Scope Z_scope.

(* number of bits, number of bits after the point, sign *)
Definition layout (f : fmt) : option (Z * Z * bool) :=
  match f with
  | StdLogic => Some (1, 0, false)
  | Slv n | Unsigned n => Some (n, 0, false)
  | Signed n => Some (n, 0, true)
  | Rtl i q s | Sw i q s => Some (i + q, q, s)
  | _ => None
  end.
(* the value of a code, as an integer over a power of two *)
Definition decode (f : fmt) (c : Z) : option (Z * Z) :=
  match layout f with
  | Some (n, q, s) => Some (if s && (2 ^ (n - 1) <=? c) then c - 2 ^ n else c, q)
  | None => None
  end.
(* formats of hardware *)
Definition hardware (f : fmt) : bool := match f with StdLogic | Slv _ | Rtl _ _ _ | Uneval | Unsigned _ | Signed _ => true | _ => false end.
Definition resolved (f : fmt) : Prop := match f with Uneval | Unsigned _ | Signed _ => False | _ => True end.
