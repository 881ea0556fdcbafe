(* Specification of the fixed-point accumulation: values of the operands and of the
   accumulator, independent of the datapath. *)
From Coq Require Import ZArith QArith Bool List.
From Verif Require Import QUtil FpFormatModel FpFormatSpec.
Import ListNotations.
Open Scope Z_scope.

(* the word c is finite and its value is q *)
Definition finite_value (F : fpfmt) (c : Z) (q : Q) : Prop :=
  exists s E M, has_fields F c s E M /\
    (ieee_datum F s E M (Num q) \/ (q == 0 /\ (ieee_datum F s E M PZero \/ ieee_datum F s E M MZero))%Q).

(* the square of the smallest positive datum, the unit of the accumulator *)
Definition unit2 (F : fpfmt) : Q := p2 (2 * (1 - ieee_bias F - fsz F)).

(* the product of the words x and y is N units *)
Definition product_units (F : fpfmt) (x y N : Z) : Prop :=
  exists qx qy, finite_value F x qx /\ finite_value F y qy /\ (inject_Z N * unit2 F == qx * qy)%Q.

(* the word c is a non zero datum below the normal numbers *)
Definition subnormal (F : fpfmt) (c : Z) : Prop := exists s M, has_fields F c s 0 M /\ M <> 0.
(* the magnitude of the word c is at least the second normal binade *)
Definition above_emin (F : fpfmt) (c : Z) : Prop := exists s E M, has_fields F c s E M /\ 2 <= E.
(* the pairs the block is right for *)
Definition well_placed (F : fpfmt) (x y : Z) : Prop :=
  ~ (subnormal F x /\ above_emin F y) /\ ~ (subnormal F y /\ above_emin F x).

(* a W-bit word read in two's complement, the value of a sign and a magnitude *)
Definition two_compl (W v : Z) : Z := if 2 ^ (W - 1) <=? v then v - 2 ^ W else v.
Definition sm_value (st : bool * Z) : Z := if fst st then - snd st else snd st.

(* the exact sum of products, in units *)
Inductive dot (F : fpfmt) : list (Z * Z) -> Z -> Prop :=
| dot_nil : dot F [] 0
| dot_cons : forall x y l N S, product_units F x y N -> dot F l S -> dot F ((x, y) :: l) (N + S).
