(** Integer hardware blocks: leading-zero counter, leading-zero anticipator,
    compound adder, integer divider, and the software 32-bit leading-zero count. *)
From Coq Require Import ZArith List Bool.
Import ListNotations.
Open Scope Z_scope.

(** bit [i] of a code *)
Definition bit (x : Z) (i : nat) : bool := Z.testbit x (Z.of_nat i).

(** ** ML_LeadingZeroCounter *)

(** generate_scheme: metalibm_hw_blocks/lzc.py:137-178.  A RangeLoop over
    i = 0 .. width-1 overwriting tmp_lzc with width-1-i whenever bit i is set,
    starting from width.  The vector is given by its bits. *)
Definition lzc_loop (w : nat) (x : nat -> bool) : nat :=
  fold_left (fun tmp i => if x i then (w - 1 - i)%nat else tmp) (seq 0 w) w.

(** get_lzc_output_width: lzc.py:106-113, floor(log2(width)) + 1 (exact log2;
    the float log2 agrees for the widths in use) *)
Definition lzc_out_width (w : nat) : Z := Z.log2 (Z.of_nat w) + 1.

(** value on the output port: conversion to lzc_out_width bits (lzc.py:156-164) *)
Definition lzc_port (w : nat) (x : Z) : Z := Z.of_nat (lzc_loop w (bit x)) mod 2 ^ lzc_out_width w.

(** numeric_emulate / count_leading_zero: lzc.py:94-104 and lza.py:212-219:
    scan from the most significant bit *)
Fixpoint clz_emulate_from (w : nat) (v : Z) (i fuel : nat) : nat :=
  match fuel with
  | O => w
  | S f => if bit v (w - 1 - i) then i else clz_emulate_from w v (S i) f
  end.
Definition clz_emulate (w : nat) (v : Z) : nat := clz_emulate_from w v 0 w.

(** ** ML_LeadingZeroAnticipator *)

(** generate_lza: metalibm_hw_blocks/lza.py:81-177 for two operands of [width]
    bits (generate_scheme 200-207 instantiates it that way).  Operands are given
    by their integer values [x], [y]; the conversion to the common format of
    width+1 bits keeps the value, its bits are the two's complement bits. *)
Definition lza_p (x y : Z) (i : nat) := xorb (bit x i) (bit y i).
Definition lza_k (x y : Z) (i : nat) := negb (bit x i) && negb (bit y i).
Definition lza_g (x y : Z) (i : nat) := bit x i && bit y i.
Definition lza_pos (width : nat) (x y : Z) : nat :=
  lzc_loop width (fun i => negb (xorb (lza_p x y (i + 1)) (lza_k x y i))).
Definition lza_neg (width : nat) (x y : Z) : nat :=
  lzc_loop width (fun i => negb (xorb (lza_p x y (i + 1)) (lza_g x y i))).

(** ** CompoundAdder *)

(** value of a little-endian vector / vector of a value *)
Fixpoint vec_val (l : list bool) : Z :=
  match l with [] => 0 | b :: t => (if b then 1 else 0) + 2 * vec_val t end.
Fixpoint vec_of (n : nat) (v : Z) : list bool :=
  match n with O => [] | S n' => Z.odd v :: vec_of n' (v / 2) end.

(** rec_add: metalibm_hw_blocks/compound_adder.py:139-234, for operands of the
    same size (unequal sizes are not handled by the code, see its FIXME at 165
    and the unsized padding constant at 191-192).  Returns (add, add+1, generate,
    propagate).  Recursion depth is bounded by [fuel]; [None] when exhausted.
    The list loops at 212-226 are written out for the two slices produced by
    the single split index (195-196). *)
Fixpoint rec_add (fuel : nat) (lower_limit : nat) (x y : list bool)
    : option (list bool * list bool * bool * bool) :=
  match fuel with
  | O => None
  | S f =>
      let n := length x in
      if Nat.leb n lower_limit then
        if Nat.eqb n 1 then
          let bx := hd false x in
          let by_ := hd false y in
          Some ([xorb bx by_], [negb (xorb bx by_)], bx && by_, xorb bx by_)
        else
          let pre_add := vec_val x + vec_val y in
          let pre_addp1 := pre_add + 1 in
          Some (vec_of n pre_add, vec_of n pre_addp1, Z.testbit pre_add (Z.of_nat n),
                forallb (fun b => b) (map (fun ab => xorb (fst ab) (snd ab)) (combine x y)))
      else
        let half := Nat.div n 2 in
        match rec_add f lower_limit (firstn half x) (firstn half y),
              rec_add f lower_limit (skipn half x) (skipn half y) with
        | Some (add0, addp0, g0, p0), Some (add1, addp1, g1, p1) =>
            let cp := p1 && p0 in
            let cg := g1 || (p1 && g0) in
            let r1 := if g0 then addp1 else add1 in
            let rp1 := if (p0 || g0)%bool then addp1 else add1 in
            Some (add0 ++ r1, addp0 ++ rp1, cg, cp)
        | _, _ => None
        end
  end.

(** outputs add_r / addp1_r: compound_adder.py:236-253 (final carry concatenated
    as most significant bit; the conversion to the output format keeps values
    that fit) *)
Definition compound_adder (lower_limit : nat) (x y : list bool) : option (Z * Z) :=
  match rec_add (S (length x)) lower_limit x y with
  | None => None
  | Some (a, ap1, g, p) => Some (vec_val (a ++ [g]), vec_val (ap1 ++ [g || p]))
  end.

(** ** MetaIntDiv, basic method *)

(** one iteration of the loop: metalibm_hw_blocks/int_div.py:134-144.  State is
    (q, r, normalized_divisor, lzc_delta); q is converted to [rs] bits and r to
    [wd] bits. *)
Definition div_step (rs wd : Z) (s : Z * Z * Z * Z) : Z * Z * Z * Z :=
  let '(q, r, nd, delta) := s in
  let end_of_loop := delta <? 0 in
  let test := (nd <=? r) && negb end_of_loop in
  let digit := if test then 1 else 0 in
  (if end_of_loop then q else (Z.shiftl q 1 + digit) mod 2 ^ rs,
   (r - (if test then nd else 0)) mod 2 ^ wd,
   Z.shiftr nd 1, delta - 1).

Fixpoint iter {A} (n : nat) (f : A -> A) (x : A) : A :=
  match n with O => x | S n' => iter n' f (f x) end.

(** generate_scheme_basic: int_div.py:117-149.  [wd], [wv], [rs]: bit sizes of
    the dividend, divisor and result formats; the left shift at 131 stays in the
    divisor's format.  A negative shift amount (value unused) is a right shift
    here. *)
Definition int_div (wd wv rs : nat) (by_zero : Z) (dividend divisor : Z) : Z :=
  let delta := Z.of_nat (lzc_loop wv (bit divisor)) - Z.of_nat (lzc_loop wd (bit dividend)) in
  let nd := Z.shiftl divisor delta mod 2 ^ Z.of_nat wv in
  let '(q, _, _, _) :=
    iter rs (div_step (Z.of_nat rs) (Z.of_nat wd)) (0, dividend, nd, delta) in
  if divisor =? 0 then by_zero else q.

(** ** generate_count_leading_zeros: metalibm_core/opt/ml_blocks.py:57-91, on
    32-bit registers: results are reduced modulo 2^32, logical right shifts act
    on unsigned codes, the arithmetic one on the signed reading. *)
Definition w32 (x : Z) : Z := x mod 2 ^ 32.
Definition s32 (x : Z) : Z := if x <? 2 ^ 31 then x else x - 2 ^ 32.
Definition clz32_seq (x : Z) : Z :=
  let y := w32 (- Z.shiftr x 16) in
  let m := Z.land (w32 (Z.shiftr (s32 y) 16)) 16 in
  let n := 16 - m in
  let x2 := Z.shiftr x m in
  let y := w32 (x2 - 256) in
  let m := Z.land (Z.shiftr y 16) 8 in
  let n := n + m in
  let x3 := w32 (Z.shiftl x2 m) in
  let y := w32 (x3 - 4096) in
  let m := Z.land (Z.shiftr y 16) 4 in
  let n := n + m in
  let x4 := w32 (Z.shiftl x3 m) in
  let y := w32 (x4 - 16384) in
  let m := Z.land (Z.shiftr y 16) 2 in
  let n := n + m in
  let x5 := w32 (Z.shiftl x4 m) in
  let y := Z.shiftr x5 14 in
  let m := Z.land y (w32 (Z.lnot (Z.shiftr y 1))) in
  n + 2 - m.
