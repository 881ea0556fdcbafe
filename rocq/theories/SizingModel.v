(* Model of the inference of fixed-point formats for a hardware datapath.
   Sources: /repo/metalibm_core/opt/p_size_datapath.py and
   /repo/metalibm_core/opt/rtl_fixed_point_utils.py.
   A node is seen through its format and its evaluated range (None when
   evaluate_range returns None).  fixed_point() of ml_hdl_format.py 301-309 only
   wraps the sizes in a format object. *)
Require Import ZArith QArith Qround Bool List.
From Verif Require Import QUtil FixedModel.
Import ListNotations.
Open Scope Z_scope.

(* range of a node: (inf, sup) *)
Definition range := option (Q * Q).

(* addsub_signed_predicate, p_size_datapath.py 226-236; the lower bound of the
   interval sum / difference is inf+inf / inf-sup *)
Definition addsub_signed (lower : Q * Q -> Q * Q -> Q) (l r : range) (default : bool) : bool :=
  match l, r with
  | Some a, Some b => negb (Qle_bool 0 (lower a b))
  | _, _ => default
  end.
Definition add_lower (a b : Q * Q) : Q := (fst a + fst b)%Q.
Definition sub_lower (a b : Q * Q) : Q := (fst a - snd b)%Q.

(* solve_format_ArithOperation, 180-224, on two fixed-point operands, with the
   three size functions of each operation *)

(* add_signed_predicate 242-249, solve_format_Addition 253-263 *)
Definition size_add (L R : fxfmt) (l r : range) : fxfmt :=
  {| isz := Z.max (isz L) (isz R) + 1;
     frsz := Z.max (frsz L) (frsz R);
     sgn := addsub_signed add_lower l r (sgn L || sgn R) |}.

(* solve_format_Multiplication 267-284 *)
Definition size_mul (L R : fxfmt) : fxfmt :=
  {| isz := isz L + isz R + (if xorb (sgn R) (sgn L) then 1 else 0);
     frsz := frsz L + frsz R;
     sgn := sgn L || sgn R |}.

(* sub_signed_predicate 237-240, solve_format_Subtraction 287-313 *)
Definition size_sub (L R : fxfmt) (l r : range) : fxfmt :=
  {| isz := Z.max (isz L) (isz R) + (if negb (sgn L) then 1 else 0);
     frsz := Z.max (frsz L) (frsz R);
     sgn := addsub_signed sub_lower l r true |}.

(* solve_format_Negation 355-373 *)
Definition size_neg (A : fxfmt) : fxfmt :=
  {| isz := isz A + (if negb (sgn A) then 1 else 0); frsz := frsz A; sgn := true |}.

(* solve_format_CLZ 141-167 *)
Definition size_clz (A : fxfmt) : fxfmt :=
  {| isz := Z.log2 (fx_bits A) + 1; frsz := 0; sgn := false |}.

(* solve_format_Concatenation 471-477 *)
Definition size_concat (l : list fxfmt) : fxfmt :=
  {| isz := fold_left (fun x y => x + y) (map fx_bits l) 0; frsz := 0; sgn := false |}.

(* solve_format_SubSignalSelection 479-497 on a fixed-point input; None stands
   for the error raised on a non-positive size.  fixed_point defaults to signed. *)
Definition size_slice (A : fxfmt) (lo hi : Z) : option fxfmt :=
  let f := frsz A - lo in
  let i := isz A - (fx_bits A - 1 - hi) in
  if f + i <=? 0 then None else Some {| isz := i; frsz := f; sgn := true |}.

(* smallest n with q <= 2^n, for q > 0: sollya.ceil(sollya.log2(q)) *)
Definition qclog2 (q : Q) : Z :=
  let l := qlog2 q in if Qle_bool q (p2 l) then l else l + 1.

(* the loop of determine_minimal_fixed_format_cst 430-435 *)
Fixpoint first_frac (v : Q) (i : Z) (fuel : nat) : option Z :=
  match fuel with
  | O => None
  | S n => if Qeq_bool (inject_Z (qtrunc (v * p2 i)%Q)) (v * p2 i)%Q then Some i
           else first_frac v (i + 1) n
  end.

(* determine_minimal_fixed_format_cst 426-445; None stands for the error (a
   NameError on optree, in fact) when no fraction size below 100 works *)
Definition size_cst (v : Q) : option fxfmt :=
  match first_frac v 0 100 with
  | None => None
  | Some f =>
    let a := Qabs.Qabs v in
    let s := negb (Qle_bool 0 v) in
    let i := Z.max (qclog2 (a + 1)%Q) 0 + (if s then 1 else 0) in
    let i := if (f =? 0) && (i =? 0) then 1 else i in
    Some {| isz := i; frsz := f; sgn := s |}
  end.

(* format_does_fit 545-557 *)
Definition format_does_fit (v : Q) (N : fxfmt) : option bool :=
  match size_cst v with
  | None => None
  | Some M =>
    let bias := if sgn N && negb (sgn M) then 1 else 0 in
    Some ((isz M <=? isz N - bias) && (frsz M <=? frsz N) && (sgn N || negb (sgn M)))
  end.

(* ---- common format, rtl_fixed_point_utils.py ---- *)

(* a node precision: undefined, ML_Integer, fixed-point, or some other format
   with an identity and a bit size (std_logic_vector, boolean, ...) *)
Inductive prec := PNone | PInt | PFix (F : fxfmt) | POther (id size : Z).

Definition prec_bits (p : prec) : Z :=
  match p with PFix F => fx_bits F | POther _ n => n | _ => 0 end.

(* largest_format, 67-103 *)
Definition largest_fixed (A B : fxfmt) : fxfmt :=
  let u := if sgn B then isz A else isz B in
  let s := if sgn B then isz B else isz A in
  let x := xorb (sgn A) (sgn B) && (s <=? u) in
  {| isz := Z.max (isz A) (isz B) + (if x then 1 else 0);
     frsz := Z.max (frsz A) (frsz B);
     sgn := sgn A || sgn B |}.
Definition largest_format (a b : prec) : prec :=
  match a, b with
  | PFix A, PFix B => PFix (largest_fixed A B)
  | PNone, _ | PInt, _ => b
  | _, PNone | _, PInt => a
  | _, _ => if prec_bits a =? prec_bits b then a else PNone
  end.

(* solve_equal_formats, 105-123, on the non-empty list p :: l *)
Definition solve_equal_formats (p : prec) (l : list prec) : prec :=
  fold_left largest_format (p :: l) p.

(* fixed_point_position_legalizer, core/legalizer.py 185-222 *)
Inductive position := FromLSBToLSB | FromMSBToLSB | FromPointToLSB | FromPointToMSB.
Definition fixed_point_position (A : fxfmt) (al : position) (p : Z) : Z :=
  match al with
  | FromLSBToLSB => p
  | FromMSBToLSB => fx_bits A - 1 - p
  | FromPointToLSB => frsz A + p
  | FromPointToMSB => isz A - p
  end.
