(* The function 2^x: reduction by floor, table of the powers of 2^(1/8), polynomial,
   reconstruction in the normal and in the subnormal range.
   Models metalibm_functions/ml_exp2.py:77-211 (generate_scalar_scheme).

   What is left out: the polynomial found by Sollya (the value [pl] of the evaluated
   polynomial is a parameter), the fusion of a product and a sum into an FMA.  All the
   operations round to nearest, ties to even. *)
From Coq Require Import ZArith QArith Qabs Qround Bool List.
From Verif Require Import QUtil FpFormatModel RoundSpec RoundRne PowModel ExpModel.
Open Scope Z_scope.

(* IEEE sum of data *)
Definition f_add (G : fpfmt) (a b : fpv) : fpv :=
  match a, b with
  | (QNaN | SNaN), _ | _, (QNaN | SNaN) => QNaN
  | PInf, MInf | MInf, PInf => QNaN
  | PInf, _ | _, PInf => PInf
  | MInf, _ | _, MInf => MInf
  | MZero, MZero => MZero
  | PZero, (PZero | MZero) | MZero, PZero => PZero
  | Num p, (PZero | MZero) => Num p
  | (PZero | MZero), Num q => Num q
  | Num p, Num q => datum (sollya_round G (p + q)%Q) (negb (Qle_bool 0 (p + q)%Q))
  end.
(* a finite number as a datum *)
Definition num (q : Q) : fpv := if Qeq_bool q 0 then PZero else Num q.

(* ml_exp2.py:85 *)
Definition index_size : Z := 3.
(* ml_exp2.py:99-102; the subtraction of the floor is rounded *)
Definition vx_r (rnd : Q -> Q) (x : Q) : Q := rnd (x - inject_Z (Qfloor x))%Q.
(* ml_exp2.py:103 *)
Definition r_hi (rnd : Q -> Q) (x : Q) : Z := qrne (rnd (vx_r rnd x * inject_Z (2 ^ index_size))%Q).
(* ml_exp2.py:106-111 *)
Definition clamp (i : Z) : Z := Z.max (Z.min i (2 ^ index_size + 1)) 0.
(* ml_exp2.py:112 *)
Definition r_lo (rnd : Q -> Q) (x : Q) : Q :=
  rnd (vx_r rnd x - rnd (inject_Z (r_hi rnd x) * p2 (- index_size)))%Q.
(* ml_exp2.py:137 TableLoad; None when the index is outside of the table *)
Definition load (tab : list Q) (i : Z) : option Q :=
  if i <? 0 then None else nth_error tab (Z.to_nat i).

(* ml_exp2.py:164 *)
Definition exp2_std (G : fpfmt) (hi pl : fpv) (k : Z) : fpv :=
  let h := f_mul G hi (exp_ins G k) in
  f_add G (f_mul G h pl) h.
(* ml_exp2.py:155-159 *)
Definition exp2_sub (G : fpfmt) (hi pl : fpv) (k : Z) : fpv :=
  let subnormal_offset := - (emin_normal G - k) in
  let h := f_mul G (f_mul G hi (exp_ins G subnormal_offset)) (exp_ins G (emin_normal G)) in
  f_add G (f_mul G h pl) h.

(* ml_exp2.py:146-183 on a finite number *)
Definition exp2_num (G : fpfmt) (tab : list Q) (pl : Q -> Q) (x : Q) : option fpv :=
  let rnd := rne (fmt_of G) in
  let test_overflow := Qle_bool (inject_Z (emax G + 1)) x in
  let test_underflow := negb (Qle_bool (inject_Z (emin_normal G)) x) in
  let test_subnormal := negb (Qle_bool x (inject_Z (emin_subnormal G))) in
  let hi := load tab (clamp (r_hi rnd x)) in
  let poly := num (pl (r_lo rnd x)) in
  if test_overflow || test_underflow then
    if test_overflow then Some PInf
    else if test_subnormal then option_map (fun h => exp2_sub G (num h) poly (Qfloor x)) hi
    else Some PZero
  else option_map (fun h => exp2_std G (num h) poly (Qfloor x)) hi.

(* on a datum: the comparisons are false on a NaN, whose conversions to an integer are
   unspecified ([ck], [ci]) *)
Definition exp2_scheme (G : fpfmt) (tab : list Q) (pl : Q -> Q) (ck ci : Z) (v : fpv) : option fpv :=
  match v with
  | Num x => exp2_num G tab pl x
  | PZero | MZero => exp2_num G tab pl 0
  | PInf => Some PInf
  | MInf => Some PZero
  | QNaN | SNaN => option_map (fun h => exp2_std G (num h) QNaN ck) (load tab (clamp ci))
  end.
