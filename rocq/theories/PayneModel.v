(* Model of the Payne and Hanek reduction,
   /repo/metalibm_core/core/payne_hanek.py.

   p is the field size of the format (52 for binary64); chunk_size, half_size
   and the exponent of scaling_factor are Python true divisions, which are
   integers for p divisible by 4 (binary64, binary128), the only case modelled
   here.  rnd rounds every floating-point operation and every table entry,
   without exponent bounds.  Integers of int_precision have W bits and wrap
   (swrap), which also stands for the out of range float to integer conversion. *)
From Coq Require Import ZArith QArith Qabs Qround List.
From Verif Require Import QUtil IndexModel.
Import ListNotations.
Open Scope Z_scope.

(* 63-77 get_remainder, on the rounded integer *)
Definition get_remainder (W k : Z) (x : Q) : Z := Z.land (swrap W (qrne x)) (Z.lnot (2 ^ (k + 1) - 1)).

(* 112, 184, 114 *)
Definition chunk_size (p : Z) : Z := p / 2 - 2.
Definition half_size (p : Z) : Z := p / 2 + 1.
Definition scale (p i : Z) : Q := p2 (- (chunk_size p / 2) * i).
(* 105-113; the ceiling of a true division *)
Definition cst_msb (cst : Q) : Z := qlog2 (Qabs cst).
Definition chunk_number (p emin_subnormal : Z) (cst : Q) : Z :=
  let r := cst_msb cst - emin_subnormal + 1 in
  Qceiling (inject_Z (r + chunk_size p - 1) / inject_Z (chunk_size p)).

(* 146-147 the digits of tmp_cst of chunk i *)
Definition local_cst (p msb i : Z) (tmp : Q) : Q :=
  let f := p2 (chunk_size p * (i + 1) - msb) in (inject_Z (qtrunc (tmp * f)) / f)%Q.

Section Payne.
Variable rnd : Q -> Q.
Variables p W : Z.

(* 145-153 the two tables *)
Fixpoint chunk_loop (msb : Z) (n : nat) (i : Z) (tmp : Q) : list (Q * Q) :=
  match n with
  | O => []
  | S n' => let l := local_cst p msb i tmp in
            (rnd (l / (scale p i * scale p i)), rnd (scale p i))%Q :: chunk_loop msb n' (i + 1) (tmp - l)%Q
  end.
Definition tables (emin_subnormal : Z) (cst : Q) : list (Q * Q) :=
  chunk_loop (cst_msb cst) (Z.to_nat (chunk_number p emin_subnormal cst)) 0 cst.

(* 163-172 *)
Definition msb_index (msb e k : Z) : Z :=
  let msb_exp := - (e - p + 1 - k) in
  if msb <? msb_exp then 0 else Z.quot (msb - msb_exp) (chunk_size p).
(* 177-182 *)
Definition lsb_index (msb e n : Z) : Z := Z.quot (msb - (- (e + n + 4))) (chunk_size p).

(* 184-191 clearing the half_size low bits of the encoding of a normal number of
   exponent e truncates its magnitude *)
Definition vx_hi (e : Z) (x : Q) : Q :=
  let u := p2 (e - p + half_size p) in (inject_Z (qtrunc (x / u)) * u)%Q.

Definition nint (y : Q) : Z := swrap W (qrne y).

(* 219-271 one turn of the loop *)
Definition ph_step (tab : list (Q * Q)) (msb e k : Z) (hi lo : Q) (i : Z) (st : Q * Z) : option (Q * Z) :=
  if i <? 0 then None else
  match nth_error tab (Z.to_nat i) with
  | None => None
  | Some (cst, sca) =>
    let '(acc, acc_int) := st in
    let hi_mult := rnd (rnd (hi * sca) * rnd (cst * sca))%Q in
    let hi_int := nint hi_mult in
    let hi_red := rnd (hi_mult - rnd (inject_Z hi_int))%Q in
    let pre_exclude := (msb - (i + 1) * chunk_size p + 1) + (e + (- half_size p + 1)) in
    let keep := pre_exclude <=? k in
    let hi_red := if keep then hi_red else 0%Q in
    let hi_int := if keep then hi_int else 0 in
    let lo_mult := rnd (rnd (lo * sca) * rnd (cst * sca))%Q in
    let lo_int := nint lo_mult in
    let lo_red := rnd (lo_mult - rnd (inject_Z lo_int))%Q in
    let acc_expr := rnd (rnd (acc + hi_red) + lo_red)%Q in
    let int_expr := Z.rem (swrap W (swrap W (acc_int + hi_int) + lo_int)) (2 ^ (k + 1)) in
    let ai := nint acc_expr in
    Some (rnd (acc_expr - rnd (inject_Z ai))%Q, swrap W (int_expr + ai))
  end.

(* 261-271; None = table read out of range *)
Fixpoint ph_loop (fuel : nat) (tab : list (Q * Q)) (msb e k : Z) (hi lo : Q) (i L : Z) (st : Q * Z) : option (Q * Z) :=
  if i <=? L then
    match fuel with
    | O => None
    | S f => match ph_step tab msb e k hi lo i st with
             | None => None
             | Some st' => ph_loop f tab msb e k hi lo (i + 1) L st'
             end
    end
  else Some st.

Definition payne_hanek (emin_subnormal : Z) (cst : Q) (n k : Z) (x : Q) : option (Q * Z) :=
  let msb := cst_msb cst in
  let e := qlog2 (Qabs x) in
  let hi := vx_hi e x in
  let lo := rnd (x - hi)%Q in
  let s := msb_index msb e k in
  let L := lsb_index msb e n in
  ph_loop (Z.to_nat (L - s + 1)) (tables emin_subnormal cst) msb e k hi lo s L (0%Q, 0).
End Payne.
