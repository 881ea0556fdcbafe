(* What reports, displays and groups of functions should be. *)
From Coq Require Import String Ascii List Arith.
From Verif Require Import RepModel.
Import ListNotations.
Local Open Scope string_scope.

(* a character does not occur in a text *)
Fixpoint free (c : ascii) (s : string) : Prop :=
  match s with EmptyString => True | String d t => d <> c /\ free c t end.
Definition plain (s : string) : Prop := free "{"%char s /\ free "}"%char s.
(* how many times it occurs *)
Fixpoint occurs (c : ascii) (s : string) : nat :=
  match s with EmptyString => 0 | String d t => (if Ascii.eqb d c then 1 else 0) + occurs c t end.
(* conversions of a format without "%%", arguments of a list of expressions that have no
   comma inside *)
Definition conversions (s : string) : nat := occurs "%"%char s.
Definition arguments (s : string) : nat := S (occurs ","%char s).
(* printf gets as many arguments as it reads *)
Definition consistent (d : display) : Prop :=
  forall v, free ","%char v -> arguments (pre_process d v) = conversions (format_string d).

(* a level was asked for: by its name, for all sub-levels or for this one *)
Definition asked (fl : list level) (l : level) : Prop :=
  exists f, In f fl /\ lv_name f = lv_name l /\ (lv_sub f = None \/ (lv_sub f <> None /\ lv_sub f = lv_sub l)).

(* text of a pair of words printed one after the other *)
Definition two_words (hex : nat -> string) (lo hi : nat) : string := hex lo ++ hex hi.
