(* What pow and rootn must return on the special data, clause by clause.
   pow: IEEE 754-2008 9.2.1 (the clauses quoted in the comments of pow.py).
   rootn: the OpenCL C clauses quoted in the comments of rootn.py.
   Independent of the model: only [fpv] is used. *)
From Coq Require Import ZArith QArith Qabs.
From Verif Require Import FpFormatModel.

(* a datum of a format with [p] bits of significand: nonzero numbers only in Num *)
Definition canonical (v : fpv) : Prop :=
  match v with Num q => ~ (q == 0)%Q | _ => True end.
Definition pow2 (e : Z) : Q := if Z.leb 0 e then inject_Z (2 ^ e) else (/ inject_Z (2 ^ (- e)))%Q.
Definition in_format (p : Z) (v : fpv) : Prop :=
  match v with
  | Num q => exists m e : Z, (Z.abs m < 2 ^ p)%Z /\ (q == inject_Z m * pow2 e)%Q
  | _ => True
  end.

Definition is_zero_datum (v : fpv) : Prop := v = PZero \/ v = MZero.
Definition inf_datum (v : fpv) : Prop := v = PInf \/ v = MInf.
Definition odd_int (v : fpv) : Prop := exists q k, v = Num q /\ (q == inject_Z (2 * k + 1))%Q.
Definition integral (v : fpv) : Prop := exists q k, v = Num q /\ (q == inject_Z k)%Q.
Definition fneg (v : fpv) : Prop := exists q, v = Num q /\ (q < 0)%Q.
Definition fpos (v : fpv) : Prop := exists q, v = Num q /\ (0 < q)%Q.
Definition is_one (v : fpv) : Prop := exists q, v = Num q /\ (q == 1)%Q.
Definition mag_lt1 (v : fpv) : Prop := is_zero_datum v \/ exists q, v = Num q /\ (Qabs q < 1)%Q.
Definition mag_gt1 (v : fpv) : Prop := inf_datum v \/ exists q, v = Num q /\ (1 < Qabs q)%Q.

Inductive ieee_pow : fpv -> fpv -> fpv -> Prop :=
| IP_snan : forall x y, x = SNaN \/ y = SNaN -> ieee_pow x y QNaN
| IP_y_zero : forall x y, x <> SNaN -> is_zero_datum y -> ieee_pow x y (Num 1)
| IP_x_one : forall x y, is_one x -> y <> SNaN -> ieee_pow x y (Num 1)
| IP_x_nan : forall y, y <> SNaN -> ~ is_zero_datum y -> ieee_pow QNaN y QNaN
| IP_y_nan : forall x, x <> SNaN -> ~ is_one x -> ieee_pow x QNaN QNaN
| IP_pzero_oddneg : forall y, odd_int y -> fneg y -> ieee_pow PZero y PInf
| IP_mzero_oddneg : forall y, odd_int y -> fneg y -> ieee_pow MZero y MInf
| IP_zero_minf : forall x, is_zero_datum x -> ieee_pow x MInf PInf
| IP_zero_neg : forall x y, is_zero_datum x -> fneg y -> ~ odd_int y -> ieee_pow x y PInf
| IP_zero_pinf : forall x, is_zero_datum x -> ieee_pow x PInf PZero
| IP_zero_oddpos : forall x y, is_zero_datum x -> odd_int y -> fpos y -> ieee_pow x y x
| IP_zero_pos : forall x y, is_zero_datum x -> fpos y -> ~ odd_int y -> ieee_pow x y PZero
| IP_mone_inf : forall q y, (q == -1)%Q -> inf_datum y -> ieee_pow (Num q) y (Num 1)
| IP_small_pinf : forall x, mag_lt1 x -> ieee_pow x PInf PZero
| IP_big_pinf : forall x, mag_gt1 x -> ieee_pow x PInf PInf
| IP_small_minf : forall x, mag_lt1 x -> ieee_pow x MInf PInf
| IP_big_minf : forall x, mag_gt1 x -> ieee_pow x MInf PZero
| IP_pinf_neg : forall y, fneg y -> ieee_pow PInf y PZero
| IP_pinf_pos : forall y, fpos y -> ieee_pow PInf y PInf
| IP_minf_oddneg : forall y, odd_int y -> fneg y -> ieee_pow MInf y MZero
| IP_minf_oddpos : forall y, odd_int y -> fpos y -> ieee_pow MInf y MInf
| IP_minf_neg : forall y, fneg y -> ~ odd_int y -> ieee_pow MInf y PZero
| IP_minf_pos : forall y, fpos y -> ~ odd_int y -> ieee_pow MInf y PInf
| IP_invalid : forall x y, fneg x -> (exists q, y = Num q) -> ~ integral y -> canonical y ->
    ieee_pow x y QNaN.

(* finite nonzero x, finite nonzero y, x > 0 or y integral: the number
   (-1)^[negative] |x|^y *)
Definition pow_is_numeric (x y : fpv) (negative : Prop) : Prop :=
  exists q r, x = Num q /\ y = Num r /\ (~ q == 0)%Q /\ (~ r == 0)%Q /\ ~ (q == 1)%Q /\
  ((0 < q)%Q \/ integral y) /\ (negative <-> (q < 0)%Q /\ odd_int y).

(* ---- rootn ---- *)
Definition nodd (n : Z) : Prop := exists k, n = (2 * k + 1)%Z.
Definition neven (n : Z) : Prop := exists k, n = (2 * k)%Z.
Inductive ocl_rootn : fpv -> Z -> fpv -> Prop :=
| OR_nan : forall x n, x = QNaN \/ x = SNaN -> ocl_rootn x n QNaN
| OR_n0 : forall x, ocl_rootn x 0%Z QNaN
| OR_neg_even : forall x n, fneg x \/ x = MInf -> neven n -> ocl_rootn x n QNaN
| OR_pinf_pos : forall n, (0 < n)%Z -> ocl_rootn PInf n PInf
| OR_pinf_neg : forall n, (n < 0)%Z -> ocl_rootn PInf n PZero
| OR_minf_pos : forall n, nodd n -> (0 < n)%Z -> ocl_rootn MInf n MInf
| OR_minf_neg : forall n, nodd n -> (n < 0)%Z -> ocl_rootn MInf n MZero
| OR_pzero_oddneg : forall n, nodd n -> (n < 0)%Z -> ocl_rootn PZero n PInf
| OR_mzero_oddneg : forall n, nodd n -> (n < 0)%Z -> ocl_rootn MZero n MInf
| OR_zero_evenneg : forall x n, is_zero_datum x -> neven n -> (n < 0)%Z -> ocl_rootn x n PInf
| OR_zero_evenpos : forall x n, is_zero_datum x -> neven n -> (0 < n)%Z -> ocl_rootn x n PZero
| OR_zero_oddpos : forall x n, is_zero_datum x -> nodd n -> (0 < n)%Z -> ocl_rootn x n x.
