(* What attributes and copies should be. *)
From Coq Require Import List Arith.
From Verif Require Import AttrModel.
Import ListNotations.

(* two objects say the same *)
Definition same_but_unbreakable (a b : attrs) : Prop :=
  precision a = precision b /\ interval a = interval b /\ debug a = debug b /\ exact a = exact b /\ tag a = tag b /\
  max_abs_error a = max_abs_error b /\ rel_error a = rel_error b /\ silent a = silent b /\ handle a = handle b /\
  clearprevious a = clearprevious b /\ rounding_mode a = rounding_mode b /\ prevent_optimization a = prevent_optimization b.
(* the dynamic attributes a program knows have the same values *)
Definition same_dyn (cs : list ctor) (a b : attrs) : Prop :=
  forall c, In c cs -> getdyn (dyn a) (ct_name c) = getdyn (dyn b) (ct_name c).

(* well bracketed calls: each unset undoes one set *)
Inductive balanced : list call -> Prop :=
  | b_nil : balanced []
  | b_cons v l1 l2 : balanced l1 -> balanced l2 -> balanced (SetDefault v :: l1 ++ UnsetDefault :: l2).

(* each operation gets a constant in the format it asks for *)
Definition formats_right (l : list (nat * nat)) (r : list nat * world) : Prop :=
  Forall2 (fun cf n => fmt (snd r) n = Some (snd cf)) l (fst r).
(* maps of copies that a program can have: copies are nodes made after the constants *)
Definition copies_ok (base : nat) (w : world) : Prop :=
  base <= next w /\
  (forall c n, find_copy (dmap w) c = Some n -> base <= n < next w) /\
  (forall c d n, find_copy (dmap w) c = Some n -> find_copy (dmap w) d = Some n -> c = d).
