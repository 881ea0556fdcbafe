(* The exponential function exp(x): special data, early overflow and underflow tests,
   argument reduction, and the three ways of multiplying by the power of two.
   Models metalibm_functions/ml_exp.py:100-425 (generate_scalar_scheme).

   What is left out: the polynomial found by Sollya (the value [sub] of the evaluated
   sub-polynomial is a parameter), the raised exceptions, the fusion of a product and
   a sum into an FMA.  All the operations round to nearest, ties to even. *)
From Coq Require Import ZArith QArith Qabs Qround Bool.
From Verif Require Import QUtil FpFormatModel RoundSpec RoundRne PowModel.
Open Scope Z_scope.

(* the constants computed with Sollya at generation time.  They depend on the real
   number log(2): ExpSpec.v says which rationals they are. *)
Record exp_cst := mkcst {
  ov_bound : Z;     (* ml_exp.py:150-152 exp_overflow_bound *)
  uf_bound : Z;     (* ml_exp.py:163-165 exp_underflow_bound *)
  invlog2 : Q;      (* ml_exp.py:178 *)
  log2_hi : Q;      (* ml_exp.py:188 *)
  log2_lo : Q }.    (* ml_exp.py:189 *)

(* ml_exp.py:180-182 interval_k; sup(abs(interval_k)) *)
Definition sup_abs_k (c : exp_cst) : Z :=
  Z.max (- Qfloor (inject_Z (uf_bound c) * invlog2 c)) (Qceiling (inject_Z (ov_bound c) * invlog2 c)).
(* ml_exp.py:185 log2_hi_precision *)
Definition log2_hi_precision (G : fpfmt) (c : exp_cst) : Z :=
  fsz G - (Z.log2_up (sup_abs_k c) + 2).

(* ml_exp.py:193-206 *)
Definition red_k (rnd : Q -> Q) (c : exp_cst) (vx : Q) : Z := qrne (rnd (vx * invlog2 c)%Q).
Definition exact_pre_mul (rnd : Q -> Q) (c : exp_cst) (k : Z) : Q := rnd (inject_Z k * log2_hi c)%Q.
Definition exact_hi_part (rnd : Q -> Q) (c : exp_cst) (vx : Q) : Q :=
  rnd (vx - exact_pre_mul rnd c (red_k rnd c vx))%Q.
Definition exact_lo_part (rnd : Q -> Q) (c : exp_cst) (vx : Q) : Q :=
  rnd (- inject_Z (red_k rnd c vx) * log2_lo c)%Q.
Definition red_r (rnd : Q -> Q) (c : exp_cst) (vx : Q) : Q :=
  rnd (exact_hi_part rnd c vx + exact_lo_part rnd c vx)%Q.
(* ml_exp.py:287; [sub] the value of pre_sub_poly at r *)
Definition exp_poly (rnd : Q -> Q) (c : exp_cst) (sub : Q -> Q) (vx : Q) : Q :=
  rnd (1 + rnd (exact_hi_part rnd c vx + rnd (exact_lo_part rnd c vx + sub (red_r rnd c vx))))%Q.

(* a rounded result as a datum *)
Definition datum (r : option Q) (neg : bool) : fpv :=
  match r with
  | None => if neg then MInf else PInf
  | Some q => if Qeq_bool q 0 then (if neg then MZero else PZero) else Num q
  end.
(* IEEE product of data *)
Definition f_neg (v : fpv) : bool :=
  match v with MInf | MZero => true | Num q => negb (Qle_bool 0 q) | _ => false end.
Definition f_mul (G : fpfmt) (a b : fpv) : fpv :=
  let neg := xorb (f_neg a) (f_neg b) in
  match a, b with
  | (QNaN | SNaN), _ | _, (QNaN | SNaN) => QNaN
  | (PInf | MInf), (PZero | MZero) | (PZero | MZero), (PInf | MInf) => QNaN
  | (PInf | MInf), _ | _, (PInf | MInf) => if neg then MInf else PInf
  | (PZero | MZero), _ | _, (PZero | MZero) => if neg then MZero else PZero
  | Num p, Num q => datum (sollya_round G (p * q)%Q) neg
  end.
(* ExponentInsertion: the code with exponent field k + bias, of the width of the
   format (property C69, C03) *)
Definition exp_ins (G : fpfmt) (k : Z) : fpv :=
  get_value_from_integer_coding G (exp_insertion G k mod 2 ^ bit_size G).

(* ml_exp.py:352-409 result_scheme *)
Definition overflow_exp_offset (G : fpfmt) : Z := (2 * emax G - fsz G) / 2.
Definition underflow_exp_offset (G : fpfmt) : Z := 2 * fsz G.
Definition exp_result (G : fpfmt) (ik : Z) (poly : Q) : fpv :=
  let late_overflow_test := emax G <? ik in
  let late_underflow_test := ik <=? emin_normal G in
  if negb (late_overflow_test || late_underflow_test) then f_mul G (exp_ins G ik) (Num poly)
  else if late_overflow_test then
    let off := overflow_exp_offset G in
    let late_overflow_result := f_mul G (f_mul G (exp_ins G (ik - off)) (Num poly)) (exp_ins G off) in
    if t_inf late_overflow_result then PInf else late_overflow_result
  else
    let off := underflow_exp_offset G in
    f_mul G (f_mul G (exp_ins G (ik + off)) (Num poly)) (exp_ins G (- off)).

(* ml_exp.py:410 std_return *)
Definition exp_std (G : fpfmt) (c : exp_cst) (sub : Q -> Q) (vx : Q) : fpv :=
  let rnd := rne (fmt_of G) in
  if negb (Qle_bool vx (inject_Z (ov_bound c))) then PInf
  else if negb (Qle_bool (inject_Z (uf_bound c)) vx) then PZero
  else exp_result G (red_k rnd c vx) (exp_poly rnd c sub vx).

(* ml_exp.py:108-146, 414-423 *)
Definition exp_scheme (G : fpfmt) (c : exp_cst) (sub : Q -> Q) (vx : fpv) : fpv :=
  if t_nan vx || t_inf vx then
    if t_nan vx then QNaN
    else if c_lt vx zero then PZero else PInf
  else match vx with
       | Num q => exp_std G c sub q
       | _ => exp_std G c sub 0
       end.
