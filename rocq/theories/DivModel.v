(* Model of the division scheme of /repo/metalibm_functions/ml_div.py and of
   the reciprocal seed it starts from.

   The reduced computation (Newton-Raphson iterations on the reciprocal, then
   correction of the quotient) is a function of the rounding rnd of the
   floating-point operations, on rationals: its operands are scaled to around
   one, so it is modelled without overflow.  The reconstruction of the result
   and the special cases are modelled on IEEE data (fpv), with overflow,
   signed zeros and NaNs.

   Simplifications: exception flags and RaiseException are left out; the
   subnormal branch (Subnormalize in extended precision, 297-326) is a
   parameter; rounding modes other than to nearest are left out;
   NR_Iteration with force_fma=False is left out; the error
   bounds computed by Gappa (solve_eval_error) only annotate the graph. *)
From Coq Require Import ZArith QArith Qabs List Bool.
From Verif Require Import QUtil FpFormatModel SpecialModel RoundSpec RoundRne.
Import ListNotations.
Open Scope Z_scope.

Section Reduced.
Variable rnd : Q -> Q.

(* ml_div.py:79-94 NR_Iteration, force_fma=True: the error is a
   SubtractNegate FMA, - divisor * approx + 1 *)
Definition nr_error (divisor approx : Q) : Q := rnd (- divisor * approx + 1)%Q.
Definition nr_step (divisor approx : Q) : Q := rnd (nr_error divisor approx * approx + approx)%Q.
(* ml_div.py:215-232 compute_reduced_reciprocal *)
Fixpoint compute_reduced_reciprocal (init_approx vy : Q) (num_iteration : nat) : Q :=
  match num_iteration with
  | O => init_approx
  | S n => compute_reduced_reciprocal (nr_step vy init_approx) vy n
  end.

(* ml_div.py:185-212 dividend_mult: (yerr, new_div) *)
Definition dividend_mult (div_approx inv_approx dividend divisor : Q) : Q * Q :=
  let yerr := rnd (- div_approx * divisor + dividend)%Q in
  (yerr, rnd (yerr * inv_approx + div_approx)%Q).

(* ml_div.py:235-273 compute_reduced_division: (yerr_last, result); one
   correction, then a last iteration of which only yerr is used: the result is
   its div_approx, not its new_div_approx (266) *)
Definition compute_reduced_division (vx vy recp_approx : Q) : Q * Q :=
  let div_approx0 := rnd (vx * recp_approx)%Q in
  let '(_, div_approx1) := dividend_mult div_approx0 recp_approx vx vy in
  let '(yerr_last, _) := dividend_mult div_approx1 recp_approx vx vy in
  (yerr_last, div_approx1).

End Reduced.

Section Scheme.
Variable G : fpfmt.
(* rounding of the reduced computation *)
Definition rn : Q -> Q := rne (fmt_of G).

(* an IEEE operation whose exact result is v, rounded to nearest *)
Definition fp_result (v : Q) : fpv :=
  match sollya_round G v with
  | None => if Qle_bool 0 v then PInf else MInf
  | Some r => if Qeq_bool r 0 then (if Qle_bool 0 v then PZero else MZero) else Num r
  end.

Definition sign_bit (v : fpv) : bool :=
  match v with MInf | MZero => true | Num q => negb (Qle_bool 0 q) | _ => false end.
Definition signed (s : bool) (neg pos : fpv) : fpv := if s then neg else pos.

(* IEEE multiplication *)
Definition fp_mul (a b : fpv) : fpv :=
  let s := xorb (sign_bit a) (sign_bit b) in
  if is_nan a || is_nan b then QNaN
  else if is_infty a then (if is_zero b then QNaN else signed s MInf PInf)
  else if is_infty b then (if is_zero a then QNaN else signed s MInf PInf)
  else if is_zero a || is_zero b then signed s MZero PZero
  else match a, b with
       | Num p, Num q => fp_result (p * q)
       | _, _ => QNaN
       end.

(* Test.IsSubnormal: exponent field equal to zero (SupportModel.ml_is_subnormal:
   true of zeros as well) *)
Definition is_subnormal (v : fpv) : bool :=
  match v with
  | PZero | MZero => true
  | Num q => negb (Qle_bool (p2 (emin_normal G)) (Qabs q))
  | _ => false
  end.

(* ExponentExtraction (exponent field plus bias), for a non-zero number *)
Definition exp_extract (v : Q) : Z :=
  if Qle_bool (p2 (emin_normal G)) (Qabs v) then qlog2 (Qabs v) else bias G.

(* ml_div.py:366-372: clamping to +/- max_exp_mag *)
Definition clamp (e : Z) : Z := Z.max (Z.min e (emax G - 1)) (- (emax G - 1)).

(* ml_div.py:276-294 scaling_div_result *)
Definition scaling_div_result (div_approx : Q) (ex ey : Z) : fpv :=
  fp_mul (Num div_approx) (fp_mul (Num (p2 ex)) (Num (p2 (- ey)))).

(* ml_div.py:381-398, 412-417, 476-501, 558-587: numerical value result.
   seed is ReciprocalSeed; sub recp_approx div_approx yerr_last (ex - ey) is
   subnormalize_result *)
Variable seed : Q -> Q.
Variable sub : Q -> Q -> Q -> Z -> fpv.
Definition numerical (num_iteration : nat) (vx vy : Q) : fpv :=
  let ex := clamp (exp_extract vx) in
  let ey := clamp (exp_extract vy) in
  let scaled_vx := rn (vx * p2 (- ex))%Q in
  let scaled_vy := rn (vy * p2 (- ey))%Q in
  let recp_approx := compute_reduced_reciprocal rn (seed scaled_vy) scaled_vy num_iteration in
  let '(yerr_last, div_approx) := compute_reduced_division rn scaled_vx scaled_vy recp_approx in
  let unscaled_result := scaling_div_result div_approx ex ey in
  if is_subnormal unscaled_result then sub recp_approx div_approx yerr_last (ex - ey)
  else unscaled_result.

(* ml_div.py:512-591 pre_scheme *)
Definition division (num_iteration : nat) (vx vy : fpv) : fpv :=
  let comp_sign := xorb (sign_bit vx) (sign_bit vy) in
  if is_infty vx || is_nan vx then
    if is_infty vx then
      if is_infty vy || is_nan vy then QNaN
      else if comp_sign then MInf else PInf
    else QNaN
  else if is_zero vx then
    if is_zero vy || is_nan vy then QNaN
    else vx
  else if is_infty vy || is_nan vy then
    if is_infty vy then (if comp_sign then MZero else PZero)
    else QNaN
  else if is_zero vy then (if comp_sign then MInf else PInf)
  else match vx, vy with
       | Num x, Num y => numerical num_iteration x y
       | _, _ => QNaN
       end.

End Scheme.

(* ---- seeds ---- *)

(* core/generic_approximation.py:9-16 generic_inv_approx_table: entry i is
   1/(1 + i/128) rounded to 9 digits, to nearest *)
Definition generic_inv_entry (i : Z) : Q := rne (mkF 9 None) (1 / (1 + inject_Z i / 128))%Q.
Definition generic_inv_approx_table : list Q := map (fun i => generic_inv_entry (Z.of_nat i)) (seq 0 128).

(* targets/riscv/rvv_table.py:45-67 vfrec7 table, entry v stands for
   (1 + v/128)/2 *)
Definition rvv_vfrec7_data : list Z :=
  [127; 125; 123; 121; 119; 117; 116; 114; 112; 110; 109; 107; 105; 104; 102; 100;
   99; 97; 96; 94; 93; 91; 90; 88; 87; 85; 84; 83; 81; 80; 79; 77; 76; 75; 74; 72;
   71; 70; 69; 68; 66; 65; 64; 63; 62; 61; 60; 59; 58; 57; 56; 55; 54; 53; 52; 51;
   50; 49; 48; 47; 46; 45; 44; 43; 42; 41; 40; 40; 39; 38; 37; 36; 35; 35; 34; 33;
   32; 31; 31; 30; 29; 28; 28; 27; 26; 25; 25; 24; 23; 23; 22; 21; 21; 20; 19; 19;
   18; 17; 17; 16; 15; 15; 14; 14; 13; 12; 12; 11; 11; 10; 9; 9; 8; 8; 7; 7; 6; 5;
   5; 4; 4; 3; 3; 2; 2; 1; 1; 0].
Definition rvv_vfrec7_table : list Q := map (fun v => ((1 + inject_Z v / 128) / 2)%Q) rvv_vfrec7_data.

(* core/ml_table.py:245-263 generic_mantissa_msb_index_fct with 7 index bits:
   the 7 bits after the leading one *)
Definition table_index (v : Q) : Z :=
  Qround.Qfloor ((Qabs v / p2 (qlog2 (Qabs v)) - 1) * 128)%Q.

(* core/legalizer.py:743-788 legalize_reciprocal_seed, for a normal input: the
   input is converted to the format of the table (conv, identity when it is
   the same format), and the entry multiplied by the opposite exponent and the
   sign *)
Definition reciprocal_seed (table : list Q) (conv : Q -> Q) (v : Q) : Q :=
  let op_input := conv v in
  let entry := nth (Z.to_nat (table_index op_input)) table 0%Q in
  (entry * (p2 (- qlog2 (Qabs op_input)) * (if Qle_bool 0 op_input then 1 else -1)))%Q.

(* ml_div.py:426-446: number of iterations, the least n with
   init_accuracy * 2^n >= bit_accuracy (ceil(log2(bit_accuracy /
   init_accuracy)); the quotient of two integers is a float in Python 3) *)
Definition num_iteration (bit_accuracy init_accuracy : Z) : Z :=
  Z.log2_up ((bit_accuracy + init_accuracy - 1) / init_accuracy).
