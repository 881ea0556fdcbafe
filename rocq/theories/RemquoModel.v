(* Model of the remainder/quotient digit recurrence,
   /repo/metalibm_functions/remquo.py 140-405 (generate_scheme).

   Numbers are rationals; rnd is the rounding of every floating-point product
   and difference, es the exponent of the smallest positive number, p the
   precision.  Overflow is left out (RoundSpec).  Comparisons, selections, Abs,
   MantissaExtraction and ExponentInsertion are exact.  The quotient is a W-bit
   integer whose shifts and additions wrap.  The scheme ends on a Return(-1)
   when the 5000-iteration watchdog is exhausted: None. *)
From Coq Require Import ZArith QArith Qabs.
From Verif Require Import QUtil FpFormatModel IndexModel.
Open Scope Z_scope.

Section Remquo.
Variable rnd : Q -> Q.
Variables p es W qs : Z.

Definition rm (a b : Q) : Q := rnd (a * b)%Q.
Definition rsub (a b : Q) : Q := rnd (a - b)%Q.
Definition qlt (a b : Q) : bool := negb (Qle_bool b a).
Definition b2z (b : bool) : Z := if b then 1 else 0.

(* smallest normal exponent *)
Definition enorm : Z := es + p - 1.
(* 153-154 Test.IsSubnormal, for a non-zero number *)
Definition is_sub (v : Q) : bool := qlt (Qabs v) (p2 enorm).
(* 163-164 ExponentExtraction: exponent field minus bias, hence the exponent
   below the smallest normal one for subnormal numbers *)
Definition real_e (v : Q) : Z := Z.max (qlog2 (Qabs v)) (enorm - 1).
(* 169-173, 183-184 halves of an exponent; C division truncates *)
Definition h0 (e : Z) : Z := Z.quot e 2.
Definition h1 (e : Z) : Z := e - h0 e.
(* MantissaExtraction of a normal number *)
Definition mant (v : Q) : Q := (v * p2 (- qlog2 (Qabs v)))%Q.

(* 177-178 mx, pre_my *)
Definition unit_mag (v : Q) : Q :=
  Qabs (rm (rm v (p2 (- h0 (real_e v)))) (p2 (- h1 (real_e v)))).
(* 192 my *)
Definition init_my (vy : Q) : Q :=
  if is_sub vy then Qabs (mant (rm vy (p2 p))) else unit_mag vy.

(* 217-228 first loop: n iterations; watchdog, mx, q *)
Fixpoint loop1 (n : nat) (my : Q) (wd : Z) (mx : Q) (q : Z) : option (Z * Q * Z) :=
  match n with
  | O => Some (wd, mx, q)
  | S n' =>
    let b := Qle_bool my mx in
    let q' := swrap W (2 * q + b2z b) in
    let mx' := rm 2 (rsub mx (if b then my else 0)) in
    if wd - 1 <? 0 then None else loop1 n' my (wd - 1) mx' q'
  end.

(* 232-241 second loop; fuel above the watchdog *)
Fixpoint loop2 (fuel : nat) (ay : Q) (my : Q) (wd : Z) (mx : Q) (q : Z) : option (Z * Q * Z) :=
  match fuel with
  | O => None
  | S f =>
    if qlt ay my then
      let b := Qle_bool (Qabs my) mx in
      let q' := swrap W (2 * q + b2z b) in
      let mx' := rsub mx (if b then Qabs my else 0) in
      let my' := rm my (1 # 2) in
      if wd - 1 <? 0 then None else loop2 f ay my' (wd - 1) mx' q'
    else Some (wd, mx, q)
  end.

(* 243-252 third loop *)
Fixpoint loop3 (fuel : nat) (ay : Q) (wd : Z) (mx : Q) (q : Z) : option (Z * Q * Z) :=
  match fuel with
  | O => None
  | S f =>
    if qlt ay mx then
      let b := qlt ay mx in
      let q' := swrap W (q + b2z b) in
      let mx' := rsub mx (if b then ay else 0) in
      if wd - 1 <? 0 then None else loop3 f ay (wd - 1) mx' q'
    else Some (wd, mx, q)
  end.

(* 202-205 operands of the half test *)
Definition half_y (vy : Q) : Q := Qabs (rm vy (if is_sub vy then 1 else 1 # 2)).
Definition half_x (vy mx : Q) : Q := rm mx (if is_sub vy then 2 else 1).

(* 253-281 from the last subtraction to the results (quotient, remainder,
   sign bit of the remainder) *)
Definition finish (vx vy mx : Q) (q : Z) : Z * Q * bool :=
  let ay := Qabs vy in
  let b := Qle_bool ay mx in
  let q1 := swrap W (q + b2z b) in
  let mx1 := rsub mx (if b then ay else 0) in
  let t := qlt (half_y vy) (half_x vy mx1) in
  let q2 := if t then swrap W (q1 + 1) else q1 in
  let mx2 := if t then rsub mx1 ay else mx1 in
  let t2 := Qeq_bool (half_x vy mx2) (half_y vy) && (Z.rem q2 2 =? 1) in
  let q3 := if t2 then swrap W (q2 + 1) else q2 in
  let mx3 := if t2 then rsub mx2 ay else mx2 in
  let nx := qlt vx 0 in
  let ny := qlt vy 0 in
  let mx4 := rm (if nx then -1 else 1) mx3 in
  let q4 := (q3 mod 2 ^ W) mod 2 ^ qs in
  (swrap W ((if xorb nx ny then -1 else 1) * q4), mx4, xorb nx (qlt mx3 0)).

(* 212-281 the statement named loop *)
Definition digit_loop (vx vy : Q) : option (Z * Q * bool) :=
  let ex := real_e vx in
  let ey := real_e vy in
  let my := init_my vy in
  match loop1 (Z.to_nat (ex - ey)) my 5000 (unit_mag vx) 0 with
  | None => None
  | Some (wd, mx, q) =>
    let u := if ey <? ex then ey else ex in
    let mx1 := rm (rm mx (p2 (h0 u))) (p2 (h1 u)) in
    let my1 := rm (rm my (p2 (h0 u))) (p2 (h1 u)) in
    match loop2 (S (Z.to_nat wd)) (Qabs vy) my1 wd mx1 q with
    | None => None
    | Some (wd2, mx2, q2) =>
      match loop3 (S (Z.to_nat wd2)) (Qabs vy) wd2 mx2 (swrap W (2 * q2)) with
      | None => None
      | Some (_, mx3, q3) => Some (finish vx vy mx3 q3)
      end
    end
  end.

(* 306-366 mod_scheme on finite non-zero operands *)
Definition remquo (vx vy : Q) : option (Z * Q * bool) :=
  if qlt (Qabs vx) (Qabs (rm vy (1 # 2))) then Some (0, vx, qlt vx 0)
  else if Qeq_bool vx vy then Some (1, rsub vx vx, false)
  else if Qeq_bool vx (- vy) then Some (-1, rsub vx vx, false)
  else digit_loop vx vy.

(* 306-340 the whole scheme; the remainder None is a quiet NaN *)
Inductive rq := Watchdog | Res (quo : Z) (rem : fpv).
Definition is_nan (v : fpv) : bool := match v with QNaN | SNaN => true | _ => false end.
Definition is_zero (v : fpv) : bool := match v with PZero | MZero => true | _ => false end.
Definition is_inf (v : fpv) : bool := match v with PInf | MInf => true | _ => false end.
Definition of_signed (r : Q) (neg : bool) : fpv :=
  if Qeq_bool r 0 then (if neg then MZero else PZero) else Num r.
Definition scheme (x y : fpv) : rq :=
  if is_nan x || is_nan y then Res 0 QNaN
  else if is_zero y then Res 0 QNaN
  else if is_zero x then Res 0 x
  else if is_inf x then Res 0 QNaN
  else if is_inf y then Res 0 x
  else match x, y with
       | Num vx, Num vy =>
         match remquo vx vy with
         | None => Watchdog
         | Some (q, r, neg) => Res q (of_signed r neg)
         end
       | _, _ => Res 0 QNaN
       end.
End Remquo.
