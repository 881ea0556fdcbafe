(* What a comparison of multi-limb numbers should say. *)
From Coq Require Import ZArith QArith Qabs.
From Verif Require Import QUtil RoundSpec MpcModel.

(* the relation asked for *)
Definition holds (s : cspec) (a b : Q) : Prop :=
  match s with
  | CEq => a == b | CNe => ~ a == b | CLt => a < b | CLe => a <= b | CGt => b < a | CGe => b <= a
  | CSigned => False
  end%Q.

Definition sum2 (x : Q * Q) : Q := (fst x + snd x)%Q.
Definition sum3 (x : Q * Q * Q) : Q := (fst (fst x) + snd (fst x) + snd x)%Q.
Definition inF3 (F : fmt) (x : Q * Q * Q) : Prop := inF F (fst (fst x)) /\ inF F (snd (fst x)) /\ inF F (snd x).

(* each limb is the rounding of what remains *)
Definition canonical2 (rnd : Q -> Q) (x : Q * Q) : Prop := (fst x == rnd (fst x + snd x))%Q.
Definition canonical3 (rnd : Q -> Q) (x : Q * Q * Q) : Prop :=
  (fst (fst x) == rnd (sum3 x))%Q /\ (snd (fst x) == rnd (snd (fst x) + snd x))%Q.
(* each limb is its sum with the next one, rounded: weaker *)
Definition pairwise3 (rnd : Q -> Q) (x : Q * Q * Q) : Prop :=
  (fst (fst x) == rnd (fst (fst x) + snd (fst x)))%Q /\ (snd (fst x) == rnd (snd (fst x) + snd x))%Q.

(* a comparison which answers what should hold *)
Definition says (r : option bool) (P : Prop) : Prop := exists b, r = Some b /\ (b = true <-> P).
