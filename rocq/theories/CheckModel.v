(** Acceptance tests of generated functions: reference values, failure tests,
    test tables, test loops and maximal error loops.

    Sources (paths under /repo):
    - metalibm_core/core/precisions.py 57-330
    - metalibm_core/core/ml_function.py 94-111, 1288-1374, 1376-1402,
      1445-1569, 1584-1790
    - metalibm_core/core/ml_formats.py 326-350, 497-535

    Simplifications: scalar floating-point formats (no multi-limb format);
    numbers computed by Sollya are exact rationals; tables are lists, an
    access outside a table is [None]; printing is dropped, except for the
    values printed by the maximal error functions. *)

Require Import ZArith QArith Qabs Qround List Bool Lia.
From Verif Require Import QUtil FpFormatModel SpecialModel SpecialSpec.
Import ListNotations.
Open Scope Z_scope.

(** ** Reference values *)

(** sollya.round towards minus or plus infinity, ml_formats.py 326-327
    ([k] is the rounding to an integer) *)
Definition grid_round (F : fpfmt) (k : Q -> Z) (v : Q) : Q :=
  if Qeq_bool v 0 then 0%Q
  else
    let e := Z.max (qlog2 (Qabs v)) (emin_normal F) - (sprec F - 1) in
    (inject_Z (k (v / p2 e)) * p2 e)%Q.

Definition round_obj (F : fpfmt) (m : rmode) (v : Q) : fpv :=
  match m with
  | RD =>
      let r := grid_round F Qfloor v in
      if Qle_bool (p2 (emax F + 1)) (Qabs r)
      then (if Qle_bool r 0 then MInf else Num (get_omega F))
      else Num r
  | RU =>
      let r := grid_round F Qceiling v in
      if Qle_bool (p2 (emax F + 1)) (Qabs r)
      then (if Qle_bool r 0 then Num (- get_omega F)%Q else PInf)
      else Num r
  | RN | RZ =>
      match sollya_round F v with
      | Some r => Num r
      | None => if Qle_bool v 0 then MInf else PInf
      end
  end.

(** get_c_cst, ml_formats.py 497-535: the C constant written in the tables.
    A zero is written 0.0, a number is rounded to nearest; [None]: the text
    of an infinity which is not recognized *)
Definition c_cst (F : fpfmt) (v : fpv) : option datum :=
  match v with
  | Num q =>
      if Qeq_bool q 0 then Some (DZero false)
      else match sollya_round F q with
           | Some r => Some (if Qeq_bool r 0 then DZero false else DFin r)
           | None => None
           end
  | _ => Some (datum_of v)
  end.

Inductive accuracy : Type :=
| CorrectlyRounded
| Faithful
| DegradedAbsolute (goal : Q)
| DegradedRelative (goal : Q).

(** get_value_error_goal, precisions.py 352-353, 365-366 *)
Definition error_goal (a : accuracy) (cr : Q) : Q :=
  match a with
  | DegradedAbsolute g => Qabs g
  | DegradedRelative g => Qabs (g * cr)
  | _ => 0%Q
  end.

(** low and high bounds, precisions.py 305-311, 327-338 *)
Definition degraded_bounds (F : fpfmt) (a : accuracy) (x : Q) : fpv * fpv :=
  match round_obj F RN x with
  | Num cr => (fp_saturate F (cr - error_goal a cr),
               fp_saturate F (cr + error_goal a cr))
  | inf => (inf, inf)
  end.

(** get_output_check_value, precisions.py 111-119, 181-187 *)
Definition check_values (F : fpfmt) (a : accuracy) (v : fpv) : list fpv :=
  match v with
  | Num x =>
      match a with
      | CorrectlyRounded => [round_obj F RN x]
      | Faithful => [round_obj F RD x; round_obj F RU x]
      | _ => let (lo, hi) := degraded_bounds F a x in [lo; hi]
      end
  | s => match a with CorrectlyRounded => [s] | _ => [s; s] end
  end.

(** ** Failure tests *)

(** C comparisons *)
Definition c_eq (a b : datum) : bool :=
  match ieee_cmp a b with Some Eq => true | _ => false end.
Definition c_ne (a b : datum) : bool := negb (c_eq a b).
Definition c_ge (a b : datum) : bool :=
  match ieee_cmp a b with Some Eq | Some Gt => true | _ => false end.
Definition c_le (a b : datum) : bool :=
  match ieee_cmp a b with Some Eq | Some Lt => true | _ => false end.
Definition c_gt (a b : datum) : bool :=
  match ieee_cmp a b with Some Gt => true | _ => false end.

(** equality of the words; used when the second operand is a zero, whose
    two words are those of the two zeros *)
Definition same_zero_word (a b : datum) : bool :=
  match a, b with
  | DZero s, DZero t => Bool.eqb s t
  | _, _ => false
  end.

(** get_output_check_test, precisions.py 233-262 *)
Definition cr_failure (r e : datum) : bool :=
  let nan_expected := c_ne e e in
  let nan_detected := c_ne r r in
  let zero_expected := c_eq e (DZero false) in
  let bitexact := same_zero_word r e in
  ((negb nan_expected && c_ne r e) || (nan_expected && negb nan_detected))
  || (zero_expected && negb bitexact).

(** precisions.py 142-166 *)
Definition bounds_failure (r lo hi : datum) : bool :=
  negb ((c_ge r lo && c_le r hi)
        || ((c_ne lo lo || c_ne hi hi) && c_ne r r)).

(** the generated test of the result [r] against the stored values;
    [None]: a table row without the needed values *)
Definition failure_test (a : accuracy) (r : datum) (stored : list datum)
  : option bool :=
  match a, stored with
  | CorrectlyRounded, [e] => Some (cr_failure r e)
  | CorrectlyRounded, _ => None
  | _, [lo; hi] => Some (bounds_failure r lo hi)
  | _, _ => None
  end.

Fixpoint all_cst (F : fpfmt) (l : list fpv) : option (list datum) :=
  match l with
  | [] => Some []
  | v :: r => match c_cst F v, all_cst F r with
              | Some d, Some ds => Some (d :: ds)
              | _, _ => None
              end
  end.

(** whether a result is taken as right for the exact value [v] *)
Definition accepts (F : fpfmt) (a : accuracy) (v : fpv) (r : datum) : option bool :=
  match all_cst F (check_values F a v) with
  | Some stored =>
      match failure_test a r stored with
      | Some b => Some (negb b)
      | None => None
      end
  | None => None
  end.

(** ** Test tables, ml_function.py 1288-1374 *)

Section Tables.
  Variable X : Type.                 (* tuple of arguments *)
  Variable round_case : X -> X.      (* rounding of given arguments, 1336-1343 *)
  Variable random : nat -> X.        (* [i]-th random arguments *)
  Variable emulate : X -> fpv.       (* numeric_emulate *)

  (** a given test case: arguments and, possibly, a forced result *)
  Definition test_case : Type := X * option fpv.

  (** number of added tests, ml_function.py 1314-1317 *)
  Definition padding (total vs : nat) : nat :=
    Nat.modulo (vs - Nat.modulo total vs) vs.

  Definition test_rows (test_num vs : nat) (auto_std : bool)
    (std value : list test_case) : nat * list (X * fpv) :=
    let given := (if auto_std then std else []) ++ value in
    let total := (test_num + length given)%nat in
    let diff := padding total vs in
    let cases :=
      map (fun c => (round_case (fst c), snd c)) given
      ++ map (fun i => (random i, None)) (seq 0 (test_num + diff)) in
    ((total + diff)%nat,
     map (fun c => (fst c, match snd c with
                           | Some v => v
                           | None => emulate (fst c)
                           end)) cases).
End Tables.

(** ** Test loops *)

(** get_scalar_test_wrapper, ml_function.py 1517-1569; [fails i] is the
    failure test of row [i] *)
Fixpoint scalar_test (fuel : nat) (break_error : bool) (step n : Z)
  (fails : Z -> option bool) (i : Z) : option Z :=
  match fuel with
  | O => None
  | S fuel =>
      if i <? n then
        match fails i with
        | None => None
        | Some true =>
            if break_error
            then scalar_test fuel break_error step n fails (i + step)
            else Some 1
        | Some false => scalar_test fuel break_error step n fails (i + step)
        end
      else Some 0
  end.

(** lanes of get_vector_test_wrapper, ml_function.py 1474-1494: the first
    failing lane returns; [Some true]: no failure *)
Fixpoint lanes_pass (lanes : list nat) (fails : Z -> option bool) (i : Z)
  : option bool :=
  match lanes with
  | [] => Some true
  | k :: r =>
      match fails (i + Z.of_nat k) with
      | None => None
      | Some true => Some false
      | Some false => lanes_pass r fails i
      end
  end.

(** get_vector_test_wrapper, ml_function.py 1445-1510 *)
Fixpoint vector_test (fuel : nat) (vs : nat) (n : Z)
  (fails : Z -> option bool) (i : Z) : option Z :=
  match fuel with
  | O => None
  | S fuel =>
      if i <? n then
        match lanes_pass (seq 0 vs) fails i with
        | None => None
        | Some false => Some 1
        | Some true => vector_test fuel vs n fails (i + Z.of_nat vs)
        end
      else Some 0
  end.

(** generate_test_wrapper, ml_function.py 1376-1402: scalar functions have
    vector size 1 *)
Definition test_wrapper (break_error : bool) (vs n : nat)
  (fails : Z -> option bool) : option Z :=
  if Nat.ltb 1 vs then vector_test (S n) vs (Z.of_nat n) fails 0
  else scalar_test (S n) break_error (Z.of_nat vs) (Z.of_nat n) fails 0.

(** failure test of row [i] of the tables *)
Definition row_fails {X} (a : accuracy) (f : X -> datum)
  (inputs : list X) (outputs : list (list datum)) (i : Z) : option bool :=
  if i <? 0 then None
  else match nth_error inputs (Z.to_nat i), nth_error outputs (Z.to_nat i) with
       | Some x, Some o => failure_test a (f x) o
       | _, _ => None
       end.

(** ** Errors *)

(** floating-point operations: [rnd] rounds an exact finite result *)
Definition fl (rnd : Q -> datum) (d : datum) : datum :=
  match d with DFin q => rnd q | _ => d end.

Definition d_abs (d : datum) : datum :=
  match d with
  | DNaN => DNaN | DInf _ => DInf false | DZero _ => DZero false
  | DFin q => DFin (Qabs q)
  end.

(** an exact difference which is zero is +0 *)
Definition f_sub (rnd : Q -> datum) (a b : datum) : datum :=
  match ieee_sub RN a b with
  | DFin q => if Qeq_bool q 0 then DZero false else rnd q
  | d => d
  end.
Definition f_div (rnd : Q -> datum) (a b : datum) : datum :=
  fl rnd (ieee_div a b).

Definition is_nan_d (d : datum) : bool :=
  match d with DNaN => true | _ => false end.

(** errorValidGraph, precisions.py 84-101 *)
Definition error_valid (r e : datum) : bool :=
  (is_nan_d r && is_nan_d e) || negb (is_nan_d r || is_nan_d e).

(** ML_CorrectlyRounded.compute_error, precisions.py 189-208, for a table of
    the precision of the result *)
Definition cr_error (rnd : Q -> datum) (relative : bool) (r e : datum) : datum :=
  let error := f_sub rnd r e in
  if relative then
    if c_eq error (DZero false) && c_eq r (DZero false) then r
    else d_abs (f_div rnd error r)
  else d_abs error.

(** ML_TwoFactorPrecision.compute_error, precisions.py 122-140 *)
Definition c_min (a b : datum) : datum := if c_gt b a then a else b.
Definition bounds_error (rnd : Q -> datum) (relative : bool) (r lo hi : datum)
  : datum :=
  let error := c_min (d_abs (f_sub rnd r lo)) (d_abs (f_sub rnd r hi)) in
  if relative then
    if c_eq error (DZero false) && c_eq r (DZero false) then r
    else d_abs (f_div rnd error r)
  else error.

(** ** Maximal error *)

Record error_row := mkerr { rel_err : datum; abs_err : datum; valid : bool }.

Record max_state := mkmax {
  m_valid : bool; m_rel : datum; m_abs : datum; m_index : Z }.

Definition minus_one : datum := DFin (-1).
Definition minus_two : datum := DFin (-2).

Definition max_init : max_state := mkmax true minus_one minus_one (-1).

(** body of the loop of generate_scalar_max_error_eval, ml_function.py
    1746-1771 *)
Definition max_step (st : max_state) (i : Z) (r : error_row) : max_state :=
  let v := m_valid st && valid r in
  let upd := (c_gt (rel_err r) (m_rel st) && v) || negb (valid r) in
  mkmax v
        (if upd then rel_err r else m_rel st)
        (if c_gt (abs_err r) (m_abs st) then abs_err r else m_abs st)
        (if upd then i else m_index st).

Fixpoint max_loop (fuel : nat) (n : Z) (rows : list error_row) (i : Z)
  (st : max_state) : option max_state :=
  match fuel with
  | O => None
  | S fuel =>
      if i <? n then
        match nth_error rows (Z.to_nat i) with
        | None => None
        | Some r => max_loop fuel n rows (i + 1) (max_step st i r)
        end
      else Some st
  end.

(** generate_scalar_max_error_eval, ml_function.py 1691-1790: the returned
    value, and the argument printed at the end, read at the index of the
    maximum (1778); [None] as second component: outside the table *)
Definition scalar_max_error {X} (inputs : list X) (rows : list error_row)
  : option (datum * option X * max_state) :=
  let n := length rows in
  match max_loop (S n) (Z.of_nat n) rows 0 max_init with
  | None => None
  | Some st =>
      Some (if m_valid st then m_rel st else minus_two,
            (if m_index st <? 0 then None
             else nth_error inputs (Z.to_nat (m_index st))),
            st)
  end.

(** generate_vector_max_error_eval, ml_function.py 1584-1689: no validity;
    the returned relative error, and the two printed values (the template
    prints its first argument twice, 1596-1598) *)
Definition c_max (a b : datum) : datum := if c_gt a b then a else b.
Definition vmax_step (m : datum) (e : datum) : datum :=
  if is_nan_d e then m else c_max e m.
Definition vector_max_error (rows : list error_row) : datum * (datum * datum) :=
  let rel := fold_left vmax_step (map rel_err rows) minus_one in
  let ab := fold_left vmax_step (map abs_err rows) minus_one in
  (rel, (ab, ab)).

(** ** Units in the last place, metalibm_core/utility/num_utils.py 34-45 *)

(** ceil(log2 v) for v > 0 *)
Definition ceil_log2 (v : Q) : Z :=
  if Qeq_bool v (p2 (qlog2 v)) then qlog2 v else qlog2 v + 1.

(** [format_.get_precision()] is the size of the mantissa field
    (ml_formats.py 537-539) *)
Definition ulp (F : fpfmt) (v : Q) : Q :=
  p2 (ceil_log2 (Qabs v) - (fsz F + 1)).

(** [None]: overflow, or the assertion [v > 0] *)
Definition fp_next (F : fpfmt) (v : Q) : option Q :=
  if Qle_bool v 0 then None else sollya_round F (v + ulp F v)%Q.
Definition fp_previous (F : fpfmt) (v : Q) : option Q :=
  if Qle_bool v 0 then None else sollya_round F (v - ulp F v)%Q.

(** convertRelErrorToUlp, ml_function.py 94-102 *)
Definition rel_error_to_ulp (F : fpfmt) (err : Q) : Q :=
  (Qabs err / ulp F 1)%Q.

(** search_bound_threshold, metalibm_core/core/approximation.py 289-309;
    [ge x] is [round(fct(x), RU) >= limit]; [None]: not finished (or the
    bounds leave the format) *)
Fixpoint search_threshold (fuel : nat) (F : fpfmt) (ge : Q -> bool) (l r : Q)
  : option Q :=
  match fuel with
  | O => None
  | S fuel =>
      if Qeq_bool l r then Some l
      else match fp_next F l with
           | None => None
           | Some w =>
               if Qeq_bool w r then Some l
               else match round_obj F RU ((l + r) / 2) with
                    | Num mid => if ge mid then search_threshold fuel F ge l mid
                                 else search_threshold fuel F ge mid r
                    | _ => None
                    end
           end
  end.
