(* Meaning of intervals and of operation graphs, independent of the interval
   computations. *)
Require Import ZArith QArith Qround Qabs Bool List.
From Verif Require Import QUtil FpFormatModel IntervalModel.
Import ListNotations.
Open Scope Z_scope.

Definition i_ok (X : itv) : Prop := (fst X <= snd X)%Q.
Definition inI (q : Q) (X : itv) : Prop := (fst X <= q <= snd X)%Q.
Definition inL (q : Q) (l : list itv) : Prop := exists X, In X l /\ inI q X.
Definition inM (q : Q) (v : mval) : Prop :=
  match v with MI None => False | MI (Some X) => inI q X | ML l => inL q l end.
Definition m_ok (v : mval) : Prop :=
  match v with MI None => True | MI (Some X) => i_ok X | ML l => Forall i_ok l /\ l <> [] end.

(* sorted, pairwise disjoint *)
Fixpoint separated (l : list itv) : Prop :=
  match l with
  | X :: ((Y :: _) as t) => (snd X < fst Y)%Q /\ separated t
  | _ => True
  end.

(* real-number meaning of the operations; truth values are 1 and 0 *)
Definition qbool (b : bool) : Q := if b then 1%Q else 0%Q.
Definition cmp_val (c : cmp) (a b : Q) : bool :=
  match c with
  | CEq => Qeq_bool a b | CNe => negb (Qeq_bool a b)
  | CLt => negb (Qle_bool b a) | CLe => Qle_bool a b
  | CGt => negb (Qle_bool a b) | CGe => Qle_bool b a
  end.
(* exponent of a non-zero number (0 for zero) *)
Definition exponent (a : Q) : Z := if Qeq_bool a 0 then 0 else qlog2 (Qabs a).
Definition truth (q : Q) : bool := negb (Qeq_bool q 0).
Definition bitlen (z : Z) : Z := if z =? 0 then 0 else Z.log2 z + 1.
Definition tst_val (t : tst) (a : Q) : bool :=
  match t with
  | TZero => Qeq_bool a 0
  | TSubnormal F => negb (Qle_bool (p2 (emin_normal F)) (Qabs a))
  end.
Definition nval (o : nop) (vs : list Q) : Q :=
  match o, vs with
  | OAdd, [a; b] => (a + b)%Q
  | OSub, [a; b] => (a - b)%Q
  | OMul _, [a; b] => (a * b)%Q
  | ODiv, [a; b] => (a / b)%Q
  | ONeg, [a] => (- a)%Q
  | OAbs, [a] => Qabs a
  | OMin, [a; b] => if Qle_bool a b then a else b
  | OMax, [a; b] => if Qle_bool a b then b else a
  | OFma, [a; b; c] => (a * b + c)%Q
  | OFms, [a; b; c] => (a * b - c)%Q
  | OFmaNeg, [a; b; c] => (- (a * b) - c)%Q
  | OFmsNeg, [a; b; c] => (- (a * b) + c)%Q
  | ODot, [a; b; c; d] => (a * b + c * d)%Q
  | ODotNeg, [a; b; c; d] => (a * b - c * d)%Q
  | OSelect, [c; a; b] | OCondBlock, [c; a; b] => if truth c then a else b
  | OFloor, [a] => inject_Z (Qfloor a)
  | OCeil, [a] => inject_Z (Qceiling a)
  | ONearest, [a] => inject_Z (qrne a)
  | OTrunc, [a] => inject_Z (qtrunc a)
  | OPow2, [a] => p2 (Qfloor a)
  | OExp, [a] => inject_Z (exponent a)
  | ORawExp F, [a] => inject_Z (exponent a - bias F)
  | OMant, [a] => (a * p2 (- exponent a))%Q
  | OMod, [a; b] => (a - b * inject_Z (Qfloor (a / b)))%Q
  | OClz n, [a] => inject_Z (n - bitlen (Qfloor a mod 2 ^ n))
  | OPlaceHolder, a :: _ => a
  | OConversion, [a] => a
  | OCmp c, [a; b] => qbool (cmp_val c a b)
  | OTest t, [a] => qbool (tst_val t a)
  | OAnd, [a; b] => qbool (truth a && truth b)
  | OOr, [a; b] => qbool (truth a || truth b)
  | ONot, [a] => qbool (negb (truth a))
  | _, _ => 0%Q
  end.
Fixpoint neval (env : nat -> Q) (e : nexp) : Q :=
  match e with
  | NLeaf i _ => env i
  | NCst q => q
  | NBool b => qbool b
  | NOp o _ args => nval o (map (neval env) args)
  end.

(* every interval attribute contains the value of its node *)
Fixpoint declared (env : nat -> Q) (e : nexp) : Prop :=
  match e with
  | NLeaf i iv => match iv with Some X => inI (env i) X | None => True end
  | NOp o iv args =>
      match iv with Some X => inI (nval o (map (neval env) args)) X | None => True end /\
      (fix all (l : list nexp) : Prop := match l with [] => True | a :: t => declared env a /\ all t end) args
  | _ => True
  end.

(* every node satisfies P *)
Fixpoint every (P : nop -> list nexp -> Prop) (e : nexp) : Prop :=
  match e with
  | NOp o _ args =>
      P o args /\
      (fix all (l : list nexp) : Prop := match l with [] => True | a :: t => every P a /\ all t end) args
  | _ => True
  end.
(* operators whose range function is not sound are absent; bit counts are of
   non-negative width; a table of arities is not needed (0 outside) *)
Definition sound_op (o : nop) (args : list nexp) : Prop :=
  match o with
  | OMod | ORawExp _ => False
  | OClz n => 0 <= n /\ length args = 1%nat
  | _ => True
  end.
(* operands of the logical operations are truth values, tests are IsZero *)
Definition is_truth (q : Q) : Prop := (q == 0 \/ q == 1)%Q.
Definition logic_op (env : nat -> Q) (o : nop) (args : list nexp) : Prop :=
  match o with
  | OAnd | OOr => Forall (fun a => is_truth (neval env a)) args
  | OTest (TSubnormal _) => False
  | _ => True
  end.
