(* Model of the bipartite table approximation, /repo/metalibm_hw_blocks/bipartite_approx.py
   146-394 (GenericBipartiteApprox, with the fixed-point slices 96-110, 134-143) and 495-512
   (numeric_emulate of the entity).

   The function is a map of rationals (the default one is 1/x); its values and the Sollya
   computations on them are exact.  The interval is [lo, lo + 2^r].  The bit vectors of the
   entity are those of RtlFixedModel; the sum of the two table values is exact (its format is
   sized to hold it) and its conversion to the output format is that of the RTL backend.
   Not modelled: the pipeline, the software variant, intervals of size smaller than 1 (the
   shift amount is then negative), the evaluation of the ranges for the log. *)
From Coq Require Import ZArith QArith Qabs Qround List Bool.
From Verif Require Import QUtil FixedModel RtlFixedModel.
Import ListNotations.
Open Scope Z_scope.

Record bip := mkbip {
  bf : Q -> Q;             (* self.function *)
  blo : Q; br : Z;         (* self.interval = [lo, lo + 2^r] *)
  balpha : Z; bbeta : Z; bgamma : Z; bguard : Z;
  bprec : fxfmt            (* self.precision, input and output *)
}.

Section Bip.
Variable b : bip.
Let alpha := balpha b.
Let beta := bbeta b.
Let gamma := bgamma b.
Let w := alpha + beta + gamma.
Let range_size := p2 (br b).

(* 157-173: the reduced argument, a vector of w fraction bits; [x] is the integer of the
   input on the grid of the precision *)
Definition reduced (x : Z) : bv :=
  let P := frsz (bprec b) in
  let d := x - Qfloor (blo b * p2 P)%Q in
  let s := Z.shiftr d (br b) in
  mkbv w ((if P <=? w then Z.shiftl s (w - P) else Z.shiftr s (P - w)) mod 2 ^ w).

(* 176-200: slices, positions counted from the most or from the least significant bit *)
Definition from_msb (i : Z) : Z := w - 1 - i.
Definition alpha_index (v : bv) : bv := slice v (from_msb (alpha - 1)) (from_msb 0).
Definition gamma_index (v : bv) : bv := slice v 0 (gamma - 1).
Definition beta_index (v : bv) : bv := slice v gamma (from_msb alpha).
Definition concat_bv (u v : bv) : bv := mkbv (bw u + bw v) (bval u * 2 ^ bw v + bval v).
(* 221-231 *)
Definition tiv_index (v : bv) : bv := concat_bv (alpha_index v) (beta_index v).
Definition to_index (v : bv) : bv := concat_bv (alpha_index v) (gamma_index v).

(* 203-217: the format of the initial values; None when the logarithm of zero is converted *)
Definition ceil_log2 (v : Q) : Z := if Qeq_bool (p2 (qlog2 v)) v then qlog2 v else qlog2 v + 1.
Definition storage_format : option fxfmt :=
  let f_hi := bf b (blo b + range_size)%Q in
  let f_lo := bf b (blo b) in
  let absmax := py_max (Qabs f_hi) (Qabs f_lo) in
  let absmin := py_min (Qabs f_hi) (Qabs f_lo) in
  if Qeq_bool absmin 0 then None
  else Some {| isz := ceil_log2 absmax + 1; frsz := - (qlog2 absmin - fx_bits (bprec b) - bguard b); sgn := false |}.

(* 248-261 *)
Definition delta_u : Q := (range_size * p2 (- alpha) * p2 (- 15))%Q.
Definition slope_x (i : Z) : Q := (blo b + (inject_Z i + (1 # 2)) * range_size * p2 (- alpha))%Q.
Definition slope (i : Z) : Q :=
  ((bf b (slope_x i + delta_u / 2) - bf b (slope_x i - delta_u / 2)) / delta_u)%Q.
(* 263-273 *)
Definition iv_x (i : Z) : Q := (blo b + inject_Z i * p2 (- (alpha + beta)) * range_size)%Q.
Definition offset_x : Q := ((1 # 2) * p2 (- (alpha + beta)) * range_size)%Q.
Definition iv_y (i : Z) : Q := (bf b (iv_x i + offset_x) - offset_x * slope (i / 2 ^ beta))%Q.
Definition table_iv (S : fxfmt) (i : Z) : Q := fx_round S FxRN (iv_y i).
(* 286-293 *)
Definition offset_step : Q := (range_size / p2 w)%Q.
Definition offset (t : Z) : Q := (slope (t / 2 ^ gamma) * inject_Z (t mod 2 ^ gamma) * offset_step)%Q.
(* 296-303: bounds of the table *)
Definition offsets : list Q := map (fun t => offset (Z.of_nat t)) (seq 0 (Z.to_nat (2 ^ (alpha + gamma)))).
Definition to_bounds : Q * Q :=
  match offsets with
  | [] => (0, 0)%Q
  | a :: l => (fold_left py_min l a, fold_left py_max l a)
  end.
(* 134-143 get_fixed_type_from_interval *)
Definition fixed_from_interval (lo hi : Q) (precision : Z) : option fxfmt :=
  let m := py_max (Qabs lo) (Qabs hi) in
  if Qeq_bool m 0 then None
  else let signed := negb (Qle_bool 0 lo) in
       let msb := qlog2 m + 1 in
       Some {| isz := msb + (if signed then 1 else 0); frsz := - (msb - precision); sgn := signed |}.
(* 312-322: the entry 0 is not rounded *)
Definition offset_format : option fxfmt := let (lo, hi) := to_bounds in fixed_from_interval lo hi 16.
Definition table_offset (O : fxfmt) (t : Z) : Q := if 1 <=? t then fx_round O FxRN (offset t) else offset t.

(* 337-347: sum of the values read, converted to the output format (integer of the grid) *)
Definition approx (S O : fxfmt) (x : Z) : Q :=
  let v := reduced x in (table_iv S (bval (tiv_index v)) + table_offset O (bval (to_index v)))%Q.
Definition convert_out (q : Q) : Z := Qfloor (q * p2 (frsz (bprec b)))%Q mod 2 ^ fx_bits (bprec b).
Definition bip_result (x : Z) : option Z :=
  match storage_format, offset_format with
  | Some SF, Some OF => Some (convert_out (approx SF OF x))
  | _, _ => None
  end.

(* 349-363: error logged *)
Definition table_x (n : Z) : Q := (blo b + range_size * inject_Z n / p2 w)%Q.
Definition range (n : Z) : list Z := map Z.of_nat (seq 0 (Z.to_nat n)).
Definition local_error (S O : fxfmt) (i j k : Z) : Q :=
  Qabs (bf b (table_x ((i * 2 ^ beta + j) * 2 ^ gamma + k)) - (table_offset O (i * 2 ^ gamma + k) + table_iv S (i * 2 ^ beta + j)))%Q.
Definition logged_error (S O : fxfmt) : Q :=
  fold_left (fun e i => fold_left (fun e j => fold_left (fun e k => py_max e (local_error S O i j k))
    (range (2 ^ gamma)) e) (range (2 ^ beta)) e) (range (2 ^ alpha)) 0%Q.

(* 495-512: sollya.round(f(x), frac_size, mode) rounds to frac_size significant bits *)
Definition emulate (m : fx_rnd) (x : Z) : Q :=
  let P := frsz (bprec b) in
  let v := bf b (inject_Z x * p2 (- P))%Q in
  if Qeq_bool v 0 then 0%Q
  else let u := p2 (qlog2 (Qabs v) - P + 1) in (inject_Z (fx_rnd_fun m (v / u)) * u)%Q.
End Bip.

(* defaults, 419-440 *)
Definition default_bip : bip :=
  mkbip (fun x => 1 / x)%Q 1 0 6 5 5 3 {| isz := 1; frsz := 15; sgn := false |}.
