(* The cubic root: seed read in two tables, eight Newton iterations.
   Models metalibm_functions/ml_cbrt.py:80-195 (generate_scheme).

   The argument is the code of a datum.  What is left out: the two tables and
   the constant 1/3.0 are parameters (CbrtSpec.v says which numbers they
   hold); inverse_red_vx and the last iteration in double-double (xn_2, xn_3,
   FourThird), which nothing uses.  The operations round to nearest, ties to
   even. *)
From Coq Require Import ZArith QArith Qabs Qround Bool List.
From Verif Require Import QUtil FpFormatModel RoundSpec RoundRne PowModel ExpModel.
Import ListNotations.
Open Scope Z_scope.

Definition f_opp (v : fpv) : fpv :=
  match v with Num q => Num (- q) | PInf => MInf | MInf => PInf | PZero => MZero | MZero => PZero | v => v end.
Definition f_q (v : fpv) : Q := match v with Num q => q | _ => 0%Q end.
Definition f_inf (neg : bool) : fpv := if neg then MInf else PInf.
Definition f_zero (neg : bool) : fpv := if neg then MZero else PZero.

(* IEEE fused multiply and add: a * b + c rounded once *)
Definition f_fma (G : fpfmt) (a b c : fpv) : fpv :=
  let pn := xorb (f_neg a) (f_neg b) in
  if t_nan a || t_nan b || t_nan c then QNaN
  else if (t_inf a && t_zero b) || (t_zero a && t_inf b) then QNaN
  else if t_inf a || t_inf b then (if t_inf c && xorb pn (f_neg c) then QNaN else f_inf pn)
  else if t_inf c then c
  else
    let s := (f_q a * f_q b + f_q c)%Q in
    if Qeq_bool s 0 then f_zero ((t_zero a || t_zero b) && t_zero c && pn && f_neg c)
    else datum (sollya_round G s) (negb (Qle_bool 0 s)).
(* IEEE division *)
Definition f_div (G : fpfmt) (a b : fpv) : fpv :=
  let neg := xorb (f_neg a) (f_neg b) in
  if t_nan a || t_nan b then QNaN
  else if t_inf a then (if t_inf b then QNaN else f_inf neg)
  else if t_inf b then f_zero neg
  else if t_zero b then (if t_zero a then QNaN else f_inf neg)
  else if t_zero a then f_zero neg
  else datum (sollya_round G (f_q a / f_q b)%Q) neg.

(* ml_cbrt.py:85-86 *)
Definition index_size : Z := 6.
Definition num_iteration : nat := 8.

(* ml_cbrt.py:94-113 cbrt_newton_iteration; FMSN (a, b, c) is - a * b + c *)
Definition newton (G : fpfmt) (third : Q) (input_inverse current_approx : fpv) : fpv :=
  let approx_triple := f_mul G current_approx (f_mul G current_approx current_approx) in
  let diff := f_fma G (f_opp approx_triple) input_inverse (Num 1) in
  f_fma G (f_mul G current_approx (Num third)) diff current_approx.
Fixpoint iterate (n : nat) (f : fpv -> fpv) (v : fpv) : fpv :=
  match n with O => v | S n => iterate n f (f v) end.

(* ml_cbrt.py:137-140: the bits under the exponent of the mantissa *)
Definition table_index (G : fpfmt) (c : Z) : Z :=
  Z.land (Z.shiftr (mantissa_extraction G c) (fsz G - index_size)) (2 ^ index_size - 1).

(* ml_cbrt.py:144-169: the C division and remainder are truncated *)
Definition init_approx (G : fpfmt) (tab modt : list Q) (c : Z) : fpv :=
  let exp_vx := exp_extraction G c in
  let exp_vx_third := Z.quot exp_vx 3 in
  let exp_vx_mod := Z.rem exp_vx 3 + 3 in
  f_mul G (f_mul G (Num (nth (Z.to_nat (table_index G c)) tab 0%Q)) (Num (nth (Z.to_nat exp_vx_mod) modt 0%Q)))
          (exp_ins G exp_vx_third).

(* ml_cbrt.py:171-195 *)
Definition cbrt (G : fpfmt) (tab modt : list Q) (third : Q) (c : Z) : fpv :=
  let vx := get_value_from_integer_coding G c in
  let inverse_vx := f_div G (Num 1) vx in
  let result := iterate num_iteration (newton G third inverse_vx) (init_approx G tab modt c) in
  if t_zero vx then PZero else result.
