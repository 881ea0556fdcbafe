(* Model of the random value generators, /repo/metalibm_core/core/random_gen.py.

   A draw (random.random(), random.randrange) is an argument of the model; the
   properties quantify over it.  Python floats used for the weights are exact
   rationals here, so the rounding of the weights is not modelled.  None is a
   Python exception. *)
From Coq Require Import ZArith QArith List Bool.
From Verif Require Import QUtil FpFormatModel FixedModel.
Import ListNotations.
Open Scope Z_scope.

(* 74-90 normalize_map, on the list of the items of the dictionary *)
Definition total_weight {K : Type} (m : list (K * Q)) : Q := fold_left (fun t kw => (t + snd kw)%Q) m 0%Q.
Definition normalize_map {K : Type} (m : list (K * Q)) : option (list (K * Q)) :=
  if forallb (fun kw => Qle_bool 0 (snd kw)) m && negb (Qle_bool (total_weight m) 0)
  then Some (map (fun kw => (fst kw, (snd kw / total_weight m)%Q)) m)
  else None.

(* 99-105 get_category_from_weight_index; the fall-back category_keys[0] is
   applied to dict.keys(), which is not subscriptable: TypeError *)
Fixpoint get_category {K : Type} (m : list (K * Q)) (index : Q) : option K :=
  match m with
  | [] => None
  | (k, w) :: m' => let index := (index - w)%Q in if Qle_bool index 0 then Some k else get_category m' index
  end.

Inductive icat := MaxValue | MinValue | ZeroValue | HighValue | LowValue | NearZero | Standard.

(* 166: 2**(int(self.size / 5)) *)
Definition highlow_range (size : Z) : Z := 2 ^ (size / 5).

(* 114-209 IntRandomGen; lo/hi the attributes min_value and max_value, which
   IntRandomGen itself never sets (AttributeError) *)
Section IntGen.
Variables (size : Z) (signed : bool).
Definition int_max : Z := 2 ^ (size - (if signed then 1 else 0)) - 1.
Definition int_min : Z := if signed then - 2 ^ (size - 1) else 0.
Definition int_attr : option (Z * Z) := None.
Definition int_rectify (v : Z) : option Z :=
  match int_attr with Some (lo, hi) => Some (Z.max lo (Z.min hi v)) | None => None end.
(* draw in [0, bound): the bound given to randrange *)
Definition int_bound (c : icat) : Z :=
  match c with
  | HighValue | LowValue => highlow_range size
  | NearZero => if signed then highlow_range size * 2 else highlow_range size
  | Standard => int_max + 1 - int_min
  | _ => 1
  end.
Definition int_value (c : icat) (d : Z) : option Z :=
  match c with
  | MaxValue => Some int_max
  | MinValue => Some int_min
  | ZeroValue => Some 0
  | HighValue => int_rectify (int_max - d)
  | LowValue => int_rectify (int_min + d)
  | NearZero => if signed then int_rectify (0 - highlow_range size + d) else int_rectify (int_min + d)
  | Standard => Some (int_min + d)
  end.
End IntGen.

(* 212-299 FixedPointRandomGen on the format F; lo, hi the optional bounds *)
Section FixGen.
Variable F : fxfmt.
Variables bound_lo bound_hi : option Q.
Definition fx_scale (v : Q) : Q := (v * p2 (- frsz F))%Q.
Definition fx_unscale (v : Q) : Q := (v * p2 (frsz F))%Q.
Definition raw_max (scale : bool) : Q :=
  let v := (p2 (fx_bits F - (if sgn F then 1 else 0)) - 1)%Q in if scale then fx_scale v else v.
Definition raw_min (scale : bool) : Q :=
  let v := (if sgn F then - p2 (fx_bits F - 1) else 0)%Q in if scale then fx_scale v else v.
Definition max_value : Q := match bound_hi with None => raw_max true | Some v => v end.
Definition min_value : Q := match bound_lo with None => raw_min true | Some v => v end.
Definition rectify (v : Q) : Q := py_max min_value (py_min max_value v).
Definition fix_bound (c : icat) : Z :=
  match c with
  | HighValue | LowValue => highlow_range (fx_bits F)
  | NearZero => if sgn F then highlow_range (fx_bits F) * 2 else highlow_range (fx_bits F)
  | Standard => qtrunc (fx_unscale max_value + 1)%Q - qtrunc (fx_unscale min_value)
  | _ => 1
  end.
Definition fix_value (c : icat) (d : Z) : Q :=
  match c with
  | MaxValue => rectify (raw_max true)
  | MinValue => rectify (raw_min true)
  | ZeroValue => 0%Q
  | HighValue => rectify (max_value - fx_scale (inject_Z d))%Q
  | LowValue => rectify (min_value + fx_scale (inject_Z d))%Q
  | NearZero =>
    if sgn F then rectify (fx_scale (inject_Z (0 - highlow_range (fx_bits F) + d)))
    else fx_scale (rectify (min_value + fx_scale (inject_Z d))%Q)
  | Standard => fx_scale (inject_Z (qtrunc (fx_unscale min_value) + d))
  end.
End FixGen.

(* 312-376 FPRandomGen: subnormal, normal, zero-exponent and interval
   categories; neg the drawn sign *)
Inductive fcat := Subnormal | Normal | ZeroExp.
Definition fp_mant (F : fpfmt) (lead : Q) (field : Z) : Q := (lead + inject_Z field * p2 (- fsz F))%Q.
Definition fsign (neg : bool) : Q := (if neg then -1 else 1)%Q.
Definition fp_value (F : fpfmt) (c : fcat) (neg : bool) (exp field : Z) : Q :=
  match c with
  | Subnormal => (fp_mant F 0 field * fsign neg * p2 (emin_normal F))%Q
  | Normal => (fp_mant F 1 field * fsign neg * p2 exp)%Q
  | ZeroExp => fp_mant F 1 field
  end.
(* 351-376 FPLogInterval *)
Definition fp_log_interval (F : fpfmt) (inf sup : Q) (neg : bool) (exp field : Z) : Q :=
  py_min (py_max inf (fp_mant F 1 field * fsign neg * p2 exp)%Q) sup.
