(* Table indexing.  Model of metalibm_core/core/indexing.py and of
   generic_mantissa_msb_index_fct (metalibm_core/core/ml_table.py:245-263).

   The index nodes are evaluated on the integer view of the input (TypeCast).
   Simplifications: bounds are computed with exact arithmetic (the code mixes
   Python floats for 1.0 + i * 2**-k, exact up to 52 bits, and Sollya objects);
   int(i / 2**f) is the integer quotient.  SubMantissaIndexing.get_index_node
   (indexing.py:107-108) names generic_mantissa_msb_index_fct, which
   indexing.py does not import: calling it raises NameError.  The function
   itself, used by ML_ApproxTable, is what is modelled. *)
From Coq Require Import ZArith QArith Qround Qabs.
From Verif Require Import QUtil FpFormatModel.
Open Scope Z_scope.

(* value of an n-bit signed integer variable *)
Definition swrap (n z : Z) : Z := (z + 2 ^ (n - 1)) mod 2 ^ n - 2 ^ (n - 1).

(* BitLogicRightShift on an n-bit signed variable: arithmetic or logical
   according to the back-end *)
Definition rsh (ar : bool) (n z k : Z) : Z := if ar then Z.shiftr z k else Z.shiftr (z mod 2 ^ n) k.

(* ml_table.py:245-263; c is the code of the input.  None: the dictionary of
   integer formats only has 32 and 64 bits *)
Definition mantissa_msb_index (ar : bool) (F : fpfmt) (k c : Z) : option Z :=
  let n := bit_size F in
  if (n =? 32) || (n =? 64)
  then Some (Z.land (rsh ar n (swrap n c) (fsz F - k)) (2 ^ k - 1))
  else None.

(* indexing.py:100-115 SubMantissaIndexing bounds *)
Definition sm_split_num (k : Z) : Z := 2 ^ k.
Definition sm_lo (k i : Z) : Q := (1 + inject_Z i * p2 (- k))%Q.
Definition sm_hi (k i : Z) : Q := (1 + inject_Z (i + 1) * p2 (- k))%Q.

(* indexing.py:118-200 SubFPIndexing(low, mx, f, F) *)
Definition fp_exp_bits (low mx : Z) : Z := Z.log2_up (mx - low + 1).
Definition fp_split_num (low mx f : Z) : Z := (mx - low + 1) * 2 ^ f.
Definition fp_index (ar : bool) (F : fpfmt) (low mx f c : Z) : option Z :=
  match get_integer_coding F (Num (p2 low)) with
  | None => None
  | Some off =>
    let n := bit_size F in
    Some (Z.land (rsh ar n (swrap n (swrap n c - off)) (fsz F - f)) (2 ^ (fp_exp_bits low mx + f) - 1))
  end.
Definition fp_lo (low f i : Z) : Q := ((1 + inject_Z (i mod 2 ^ f) * p2 (- f)) * p2 (i / 2 ^ f + low))%Q.
Definition fp_hi (low f i : Z) : Q := ((1 + inject_Z (i mod 2 ^ f + 1) * p2 (- f)) * p2 (i / 2 ^ f + low))%Q.

(* indexing.py:204-279 SubUniformIntervalIndexing([lo, hi], n); rnd is the
   rounding of the format of the input, ni is NearestInteger *)
Definition uni_size (lo hi : Q) (n : Z) : Q := ((hi - lo) / inject_Z n)%Q.
Definition uni_index (ni : Q -> Z) (rnd : Q -> Q) (lo hi : Q) (n : Z) (x : Q) : Z :=
  let diff := rnd (x - rnd lo)%Q in
  let delta_ratio := rnd (inject_Z n / (hi - lo))%Q in
  Z.max 0 (Z.min (ni (rnd (diff * delta_ratio)%Q)) (n - 1)).
Definition uni_lo (lo hi : Q) (n i : Z) : Q := (lo + inject_Z i * uni_size lo hi n)%Q.
Definition uni_hi (lo hi : Q) (n i : Z) : Q := (lo + inject_Z (i + 1) * uni_size lo hi n)%Q.

(* indexing.py:76-81: (offset, [0; size]); 271-279 for the uniform indexing:
   (offset, [-size; size]) *)
Definition offseted (lo hi : Q) : Q * (Q * Q) := (lo, (0, hi - lo)%Q).
Definition uni_offseted (lo hi : Q) (n i : Z) : Q * (Q * Q) :=
  let s := (uni_hi lo hi n i - uni_lo lo hi n i)%Q in (uni_lo lo hi n i, (- s, s)%Q).
