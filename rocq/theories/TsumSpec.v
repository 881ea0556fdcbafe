(* What a summary says of a test. *)
From Coq Require Import Ascii String List Bool ZArith QArith.
From Verif Require Import TsumModel.
Import ListNotations.

Definition passing (f : list text) : Prop := exists t, f = lit "OK" :: t.
Definition measured (float : text -> option num) (f : list text) (x : num) : Prop := exists s t, f = lit "OK" :: s :: t /\ float s = Some x.
(* as written by summarize: a status, and a measure if it is OK *)
Definition complete (m : test_map) : Prop := forall x f, get m x = Some f -> f <> [] /\ (passing f -> exists s t, f = lit "OK" :: s :: t).
Definition keys_once {A} (m : dict A) : Prop := NoDup (map fst m).
(* can be written on one line *)
Definition word (w : text) : Prop := ~ In sp w /\ ~ In nl w.
Definition writable (m : test_map) : Prop := forall x f, In (x, f) m -> word x /\ (forall t, x <> hash :: t) /\ forall w, In w f -> word w.
