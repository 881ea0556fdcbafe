(* What the mask tests mean, and the value of a graph. *)
From Coq Require Import ZArith Bool List String.
From Verif Require Import MaskModel.
Import ListNotations.
Open Scope string_scope.
Open Scope list_scope.
Open Scope Z_scope.

(* the four tests, after their names *)
Definition mask_test_spec (t : mask_test) (lanes : list Z) : Prop :=
  match t with
  | IsMaskAllZero => forall z, In z lanes -> z = 0
  | IsMaskNotAllZero => exists z, In z lanes /\ z <> 0
  | IsMaskAnyZero => In 0 lanes
  | IsMaskNotAnyZero => ~ In 0 lanes
  end.

(* values: scalars and vectors; a truth value is a scalar *)
Inductive value := VScalar (z : Z) | VVector (l : list Z).
Definition truth_value (b : bool) : value := VScalar (if b then 1 else 0).
Definition zero_lane (z : Z) : bool := z =? 0.
Definition test_value (t : mask_test) (l : list Z) : bool :=
  match t with
  | IsMaskAllZero => forallb zero_lane l
  | IsMaskNotAllZero => negb (forallb zero_lane l)
  | IsMaskAnyZero => existsb zero_lane l
  | IsMaskNotAnyZero => negb (existsb zero_lane l)
  end.
Definition on_scalar (f : Z -> bool) (v : option value) : option value :=
  match v with Some (VScalar z) => Some (truth_value (f z)) | _ => None end.
Definition on_scalars (f : bool -> bool -> bool) (a b : option value) : option value :=
  match a, b with
  | Some (VScalar x), Some (VScalar y) => Some (truth_value (f (negb (x =? 0)) (negb (y =? 0))))
  | _, _ => None
  end.

Fixpoint value_of (ops : nat -> list value -> option value) (env : nat -> option value) (n : node) : option value :=
  match n with
  | NLeaf i => env i
  | NTest t size b v =>
      match value_of ops env v with
      | Some (VVector l) => if Nat.eqb (List.length l) size then Some (truth_value (test_value t l)) else None
      | _ => None
      end
  | NElt v i => match value_of ops env v with Some (VVector l) => option_map VScalar (nth_error l i) | _ => None end
  | NNot a => on_scalar (fun z => z =? 0) (value_of ops env a)
  | NAnd a b => on_scalars andb (value_of ops env a) (value_of ops env b)
  | NOr a b => on_scalars orb (value_of ops env a) (value_of ops env b)
  | NEq0 a => on_scalar (fun z => z =? 0) (value_of ops env a)
  | NNe0 a => on_scalar (fun z => negb (z =? 0)) (value_of ops env a)
  | NOp f args =>
      match (fix go l := match l with
                         | [] => Some []
                         | a :: l => match value_of ops env a, go l with Some a, Some l => Some (a :: l) | _, _ => None end
                         end) args with
      | Some l => ops f l
      | None => None
      end
  end.
(* no mask test is left *)
Fixpoint no_test (n : node) : Prop :=
  match n with
  | NLeaf _ => True
  | NTest _ _ _ _ => False
  | NElt a _ | NNot a | NEq0 a | NNe0 a => no_test a
  | NAnd a b | NOr a b => no_test a /\ no_test b
  | NOp _ args => (fix go l := match l with [] => True | a :: l => no_test a /\ go l end) args
  end.
(* tests have two lanes or more, and their operand is a vector, hence not a mask test *)
Fixpoint well_formed (n : node) : Prop :=
  match n with
  | NLeaf _ => True
  | NTest _ size _ v => (1 < size)%nat /\ well_formed v /\ (forall t s b w, v <> NTest t s b w)
  | NElt a _ | NNot a | NEq0 a | NNe0 a => well_formed a
  | NAnd a b | NOr a b => well_formed a /\ well_formed b
  | NOp _ args => (fix go l := match l with [] => True | a :: l => well_formed a /\ go l end) args
  end.
(* x86 intrinsics after the Intel guide; None: no such function, or a wrong number of
   arguments *)
Definition xval := list Z.
Definition all_ones (k : nat) : xval := repeat (2 ^ 32 - 1) k.
Fixpoint lanes2 (f : Z -> Z -> Z) (a b : xval) : xval :=
  match a, b with x :: a, y :: b => f x y :: lanes2 f a b | _, _ => [] end.
Definition andnot (x y : Z) : Z := Z.land (Z.lxor x (2 ^ 32 - 1)) y.
Definition intrinsic (k : nat) (f : string) (args : list xval) : option xval :=
  match args with
  | [a] => if String.eqb f "_mm_test_all_ones" then Some [if forallb (fun z => z =? 2 ^ 32 - 1) a then 1 else 0] else None
  | [a; b] =>
      if String.eqb f "_mm_testz_si128" || String.eqb f "_mm256_testz_si256" then
        Some [if forallb zero_lane (lanes2 Z.land a b) then 1 else 0]
      else if String.eqb f "_mm256_andnot_si256" then Some (lanes2 andnot a b)
      else None
  | _ => None
  end.
Fixpoint xeval (k : nat) (m : xval) (e : xexp) : option xval :=
  match e with
  | XArg => Some m
  | XAllOnes => Some (all_ones k)
  | XCall f args =>
      match (fix go l := match l with
                         | [] => Some []
                         | a :: l => match xeval k m a, go l with Some a, Some l => Some (a :: l) | _, _ => None end
                         end) args with
      | Some l => intrinsic k f l
      | None => None
      end
  end.
(* a mask of the processor: every lane is zero or all ones *)
Definition x86_mask (k : nat) (m : xval) : Prop := List.length m = k /\ forall z, In z m -> z = 0 \/ z = 2 ^ 32 - 1.
Definition lane_count (f : x86_format) : nat := match f with SSE_v4bool => 4 | _ => 8 end.
