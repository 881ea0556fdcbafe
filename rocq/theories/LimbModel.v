(* Multi-limb (double-word / triple-word) building blocks.

   Model of metalibm_core/opt/ml_blocks.py and of
   metalibm_core/opt/p_expand_multi_precision.py.

   The Python functions build operation graphs.  Each block is modelled as a
   function over a record of limb operations: evaluating the built graph with
   those operations.  The same definition is then read with exact operations
   (any commutative ring) and with rounded operations.

   Simplifications: the `precision`, `tag` and `prevent_optimization`
   attributes of the nodes are dropped (so the calls which forget to forward
   `precision`, MP_FMA2121 and MP_Add323, look the same as the others);
   Python exceptions are None. *)
From Coq Require Import ZArith QArith Qabs List Bool.
From Verif Require Import QUtil FpFormatModel.
Import ListNotations.

Record ops (T : Type) := mkops {
  o_add : T -> T -> T;          (* Addition(x, y)           x + y *)
  o_sub : T -> T -> T;          (* Subtraction(x, y)        x - y *)
  o_mul : T -> T -> T;          (* Multiplication(x, y)     x * y *)
  o_fma : T -> T -> T -> T;     (* FMA(x, y, z)             x * y + z *)
  o_fms : T -> T -> T -> T;     (* FMS(x, y, z)             x * y - z *)
  o_neg : T -> T                (* Negation(x) *)
}.
Arguments o_add {T}. Arguments o_sub {T}. Arguments o_mul {T}.
Arguments o_fma {T}. Arguments o_fms {T}. Arguments o_neg {T}.

Section Blocks.
Variable T : Type.
Variable O : ops T.
Notation "x [+] y" := (o_add O x y) (at level 50, left associativity).
Notation "x [-] y" := (o_sub O x y) (at level 50, left associativity).
Notation "x [*] y" := (o_mul O x y) (at level 40, left associativity).

(* ml_blocks.py:99-109 *)
Definition twosum (vx vy : T) : T * T :=
  let s := vx [+] vy in
  let _x := s [-] vy in
  let _y := s [-] _x in
  let dx := vx [-] _x in
  let dy := vy [-] _y in
  let e := dx [+] dy in
  (s, e).

(* ml_blocks.py:112-121 *)
Definition fasttwosum (vx vy : T) : T * T :=
  let s := vx [+] vy in
  let b := s [-] vx in
  let e := vy [-] b in
  (s, e).

(* ml_blocks.py:425-436; cst is the splitting constant found in the
   dictionary (4097 for binary32, 134217729 for binary64) *)
Definition split (cst a : T) : T * T :=
  let c := cst [*] a in
  let tmp := a [-] c in
  let ah := tmp [+] c in
  let al := a [-] ah in
  (ah, al).

(* ml_blocks.py:438-454, fma == True *)
Definition mul211 (x y : T) : T * T :=
  let zh := x [*] y in
  let zl := o_fms O x y zh in
  (zh, zl).

(* ml_blocks.py:438-454, fma == False (Dekker) *)
Definition mul211_nofma (cst x y : T) : T * T :=
  let zh := x [*] y in
  let '(xh, xl) := split cst x in
  let '(yh, yl) := split cst y in
  let r1 := xh [*] yh in
  let r2 := r1 [-] zh in
  let r3 := xh [*] yl in
  let r4 := xl [*] yh in
  let r5 := xl [*] yl in
  let r6 := r2 [+] r3 in
  let r7 := r6 [+] r4 in
  let zl := r7 [+] r5 in
  (zh, zl).

(* ml_blocks.py:466-470 *)
Definition add211 (x y : T) : T * T := twosum x y.

(* ml_blocks.py:472-478 *)
Definition add212 (x yh yl : T) : T * T :=
  let '(t1, t2) := twosum x yh in
  let t3 := t2 [+] yl in
  fasttwosum t1 t3.

(* ml_blocks.py:480-487 *)
Definition add221_fast (xh xl y : T) : T * T :=
  let '(t1, t2) := fasttwosum xh y in
  let t3 := t2 [+] xl in
  fasttwosum t1 t3.

(* ml_blocks.py:489-492 *)
Definition add221 (xh xl y : T) : T * T := add212 y xh xl.

(* ml_blocks.py:494-500 *)
Definition add222 (xh xl yh yl : T) : T * T :=
  let '(v1, v2) := twosum xh yh in
  let v3 := xl [+] yl in
  let v4 := v2 [+] v3 in
  fasttwosum v1 v4.

(* ml_blocks.py:650-666 *)
Definition add122 (xh xl yh yl : T) : T := fst (add222 xh xl yh yl).
Definition add121 (xh xl y : T) : T := fst (add221 xh xl y).
Definition add112 (x yh yl : T) : T := fst (add212 x yh yl).

(* ml_blocks.py:668-676 *)
Definition mul212 (x yh yl : T) : T * T :=
  let '(t1, t2) := mul211 x yh in
  let t3 := x [*] yl in
  let t4 := t2 [+] t3 in
  fasttwosum t1 t4.

(* ml_blocks.py:678-681 *)
Definition mul221 (xh xl y : T) : T * T := mul212 y xh xl.

(* ml_blocks.py:683-705, fma == True *)
Definition mul222 (xh xl yh yl : T) : T * T :=
  let ph := xh [*] yh in
  let pl := o_fms O xh yh ph in
  let pl := o_fma O xh yl pl in
  let pl := o_fma O xl yh pl in
  fasttwosum ph pl.

(* ml_blocks.py:683-705, fma == False: the last call names an undefined
   variable (`precsion`): NameError *)
Definition mul222_nofma (xh xl yh yl : T) : option (T * T) := None.

(* ml_blocks.py:707-722 *)
Definition mul122 (xh xl yh yl : T) : T := fst (mul222 xh xl yh yl).
Definition mul121 (xh xl yh : T) : T := fst (mul221 xh xl yh).
Definition mul112 (xh yh yl : T) : T := mul121 yh yl xh.

(* ml_blocks.py:818-849 *)
Definition fma2111 (x y z : T) : T * T :=
  let '(mh, ml) := mul211 x y in add221 mh ml z.
Definition fma2211 (xh xl y z : T) : T * T :=
  let '(mh, ml) := mul221 xh xl y in add221 mh ml z.
Definition fma2121 (x yh yl z : T) : T * T := fma2211 yh yl x z.
Definition fma2112 (x y zh zl : T) : T * T :=
  let '(mh, ml) := mul211 x y in add222 mh ml zh zl.
Definition fma2122 (x yh yl zh zl : T) : T * T :=
  let '(mh, ml) := mul212 x yh yl in add222 mh ml zh zl.
(* line 841 calls Mul212 (single-word by double-word) on (xh, xl, y) *)
Definition fma2212 (xh xl y zh zl : T) : T * T :=
  let '(mh, ml) := mul212 xh xl y in add222 mh ml zh zl.
Definition fma2222 (xh xl yh yl zh zl : T) : T * T :=
  let '(mh, ml) := mul222 xh xl yh yl in add222 mh ml zh zl.

(* ml_blocks.py:943-951 *)
Definition add333 (xh xm xl yh ym yl : T) : T * T * T :=
  let '(rh, t1) := add211 xh yh in
  let '(t2, t3) := add211 xm ym in
  let '(t7, t4) := add211 t1 t2 in
  let t6 := xl [+] yl in
  let t5 := t3 [+] t4 in
  let t8 := t5 [+] t6 in
  let '(rm, rl) := add211 t7 t8 in
  (rh, rm, rl).

(* ml_blocks.py:953-961 *)
Definition add332 (xh xm xl yh yl : T) : T * T * T :=
  let '(rh, t1) := add211 xh yh in
  let '(t2, t3) := add211 xm yl in
  let '(t7, t4) := add211 t1 t2 in
  let t6 := xl in
  let t5 := t3 [+] t4 in
  let t8 := t5 [+] t6 in
  let '(rm, rl) := add211 t7 t8 in
  (rh, rm, rl).

(* ml_blocks.py:963-964 *)
Definition add323 (xh xl yh ym yl : T) : T * T * T := add332 yh ym yl xh xl.

(* ml_blocks.py:966-970 *)
Definition add321 (xh xl y : T) : T * T * T :=
  let '(rh, t1) := fasttwosum xh y in
  let '(rm, rl) := twosum t1 xl in
  (rh, rm, rl).

(* ml_blocks.py:972-976: returns xl as third limb, not rl *)
Definition add321_v2 (xh xl y : T) : T * T * T :=
  let '(rh, t1) := fasttwosum y xh in
  let '(rm, rl) := fasttwosum t1 xl in
  (rh, rm, xl).

(* ml_blocks.py:978-979: MP_Add321_Fast is not defined: NameError *)
Definition add312_fast (x yh yl : T) : option (T * T * T) := None.

(* ml_blocks.py:1052-1059 *)
Definition add322 (xh xl yh yl : T) : T * T * T :=
  let '(rh, t1) := fasttwosum xh yh in
  let '(t2, t3) := add211 xl yl in
  let '(t4, t5) := add211 t1 t2 in
  let t6 := t3 [+] t5 in
  let '(rm, rl) := add211 t4 t6 in
  (rh, rm, rl).

(* ml_blocks.py:1105-1110 *)
Definition add313 (x yh ym yl : T) : T * T * T :=
  let '(rh, t1) := add211 x yh in
  let '(t2, t3) := add211 t1 ym in
  let t4 := t3 [+] yl in
  let '(rm, rl) := add211 t2 t4 in
  (rh, rm, rl).

(* ml_blocks.py:1159-1167 *)
Definition mul322 (xh xl yh yl : T) : T * T * T :=
  let '(rh, t1) := mul211 xh yh in
  let '(t2, t3) := mul211 xh yl in
  let '(t4, t5) := mul211 xl yh in
  let t6 := xl [*] yl in
  let '(t7, t8) := add222 t2 t3 t4 t5 in
  let '(t9, t10) := add211 t1 t6 in
  let '(rm, rl) := add222 t7 t8 t9 t10 in
  (rh, rm, rl).

(* ml_blocks.py:1198-1202 *)
Definition mul321 (xh xl y : T) : T * T * T :=
  let '(rh, t1) := mul211 xh y in
  let '(t4, t5) := mul211 xl y in
  let '(rm, rl) := add221 t4 t5 t1 in
  (rh, rm, rl).

(* ml_blocks.py:1289-1303 *)
Definition mul323 (xh xl yh ym yl : T) : T * T * T :=
  let '(rh, t1) := mul211 xh yh in
  let '(t2, t3) := mul211 xh ym in
  let '(t4, t5) := mul211 xh yl in
  let '(t6, t7) := mul211 xl yh in
  let '(t8, t9) := mul211 xl ym in
  let t10 := xl [*] yl in
  let '(t11, t12) := add222 t2 t3 t4 t5 in
  let '(t13, t14) := add222 t6 t7 t8 t9 in
  let '(t15, t16) := add222 t11 t12 t13 t14 in
  let '(t17, t18) := add211 t1 t10 in
  let '(rm, rl) := add222 t17 t18 t15 t16 in
  (rh, rm, rl).

(* ml_blocks.py:1306-1309 *)
Definition mul332 (xh xm xl yh yl : T) : T * T * T := mul323 yh yl xh xm xl.

(* ml_blocks.py:1312-1336 *)
Definition mul333 (xh xm xl yh ym yl : T) : T * T * T :=
  let '(rh, t1) := mul211 xh yh in
  let '(t2, t3) := mul211 xh ym in
  let '(t4, t5) := mul211 xm yh in
  let '(t6, t7) := mul211 xm ym in
  let t8 := xh [*] yl in
  let t9 := xl [*] yh in
  let t10 := xm [*] yl in
  let t11 := xl [*] ym in
  let t12 := t8 [+] t9 in
  let t13 := t10 [+] t11 in
  let '(t14, t15) := add211 t1 t6 in
  let t16 := t7 [+] t15 in
  let t17 := t12 [+] t13 in
  let t18 := t16 [+] t17 in
  let '(t19, t20) := add211 t14 t18 in
  let '(t21, t22) := add222 t2 t3 t4 t5 in
  let '(rm, rl) := add222 t21 t22 t19 t20 in
  (rh, rm, rl).

(* ml_blocks.py:1381-1391 *)
Definition mul313 (x yh ym yl : T) : T * T * T :=
  let '(rh, t2) := mul211 x yh in
  let '(t3, t4) := mul211 x ym in
  let t5 := x [*] yl in
  let '(t9, t7) := add211 t2 t3 in
  let t8 := t4 [+] t5 in
  let t10 := t7 [+] t8 in
  let '(rm, rl) := add211 t9 t10 in
  (rh, rm, rl).

(* ml_blocks.py:1453-1459 *)
Definition normalize_33 (xh xm xl : T) : T * T * T :=
  let '(t1h, t1l) := add211 xm xl in
  let '(rh, t2l) := add211 xh t1h in
  let '(rm, rl) := add211 t2l t1l in
  (rh, rm, rl).

(* ml_blocks.py:1556-1560 *)
Definition normalize_23 (xh xm xl : T) : T * T :=
  let '(t1h, t1l) := add211 xm xl in
  let '(rh, t2l) := add211 xh t1h in
  let rl := t2l [+] t1l in
  (rh, rl).

Definition l2 (r : T * T) : list T := [fst r; snd r].
Definition l3 (r : T * T * T) : list T := [fst (fst r); snd (fst r); snd r].

(* p_expand_multi_precision.py:194-220 ADD_EXPANSION_MAP.  The key is the
   number of limbs of the result and of the operands; `dbl` tells whether the
   limbs are binary64 (the triple-word entries only exist for binary64).
   None: no entry (Log.Error) *)
Definition expand_add (dbl : bool) (out : nat) (l r : list T) : option (list T) :=
  match out, l, r with
  | 2%nat, [x], [y] => Some (l2 (add211 x y))
  | 2%nat, [xh; xl], [y] => Some (l2 (add221 xh xl y))
  | 2%nat, [x], [yh; yl] => Some (l2 (add212 x yh yl))
  | 2%nat, [xh; xl], [yh; yl] => Some (l2 (add222 xh xl yh yl))
  | 1%nat, [xh; xl], [y] => Some [add121 xh xl y]
  | 1%nat, [x], [yh; yl] => Some [add112 x yh yl]
  | 1%nat, [xh; xl], [yh; yl] => Some [add122 xh xl yh yl]
  | 3%nat, [xh; xm; xl], [yh; ym; yl] => if dbl then Some (l3 (add333 xh xm xl yh ym yl)) else None
  | 3%nat, [xh; xm; xl], [yh; yl] => if dbl then Some (l3 (add332 xh xm xl yh yl)) else None
  | 3%nat, [xh; xl], [yh; ym; yl] => if dbl then Some (l3 (add323 xh xl yh ym yl)) else None
  | _, _, _ => None
  end.

(* p_expand_multi_precision.py:231-253 MUL_EXPANSION_MAP *)
Definition expand_mul (dbl : bool) (out : nat) (l r : list T) : option (list T) :=
  match out, l, r with
  | 2%nat, [xh; xl], [yh; yl] => Some (l2 (mul222 xh xl yh yl))
  | 2%nat, [x], [yh; yl] => Some (l2 (mul212 x yh yl))
  | 2%nat, [xh; xl], [y] => Some (l2 (mul221 xh xl y))
  | 2%nat, [x], [y] => Some (l2 (mul211 x y))
  | 1%nat, [xh; xl], [yh; yl] => Some [mul122 xh xl yh yl]
  | 1%nat, [xh; xl], [y] => Some [mul121 xh xl y]
  | 1%nat, [x], [yh; yl] => Some [mul112 x yh yl]
  | 3%nat, [xh; xl], [yh; yl] => if dbl then Some (l3 (mul322 xh xl yh yl)) else None
  | 3%nat, [xh; xm; xl], [yh; yl] => if dbl then Some (l3 (mul332 xh xm xl yh yl)) else None
  | 3%nat, [xh; xl], [yh; ym; yl] => if dbl then Some (l3 (mul323 xh xl yh ym yl)) else None
  | _, _, _ => None
  end.

(* FusedMultiplyAdd specifiers (ml_operations.py FusedMultiplyAdd) *)
Inductive fma_spec := FStandard | FSubtract | FNegate | FSubtractNegate.

(* p_expand_multi_precision.py:255-277 expand_fma: the specifier of the node
   is not part of the key and is not looked at *)
Definition expand_fma (sp : fma_spec) (out : nat) (x y z : list T) : option (list T) :=
  match out, x, y, z with
  | 2%nat, [xh; xl], [yh; yl], [zh; zl] => Some (l2 (fma2222 xh xl yh yl zh zl))
  | 2%nat, [xh; xl], [y], [zh; zl] => Some (l2 (fma2212 xh xl y zh zl))
  | 2%nat, [x], [yh; yl], [zh; zl] => Some (l2 (fma2122 x yh yl zh zl))
  | 2%nat, [x], [y], [zh; zl] => Some (l2 (fma2112 x y zh zl))
  | 2%nat, [x], [yh; yl], [z] => Some (l2 (fma2121 x yh yl z))
  | 2%nat, [xh; xl], [y], [z] => Some (l2 (fma2211 xh xl y z))
  | 2%nat, [x], [y], [z] => Some (l2 (fma2111 x y z))
  | _, _, _, _ => None
  end.

(* p_expand_multi_precision.py:280-289 *)
Definition expand_negation (l : list T) : list T := map (o_neg O) l.

(* p_expand_multi_precision.py:399-418: x - y is expanded as x + (-y) *)
Definition expand_sub (dbl : bool) (out : nat) (l r : list T) : option (list T) :=
  expand_add dbl out l (expand_negation r).

(* p_expand_multi_precision.py:365-397 expand_conversion between formats with
   the same limb format: keep the high limb; pad with zeros; or normalize
   (three limbs to two only: assertion otherwise, None) *)
Definition expand_conversion (zero : T) (out : nat) (l : list T) : option (list T) :=
  match out, l with
  | _, [] => None
  | 1%nat, h :: _ => Some [h]
  | _, _ =>
    if Nat.leb (length l) out then Some (l ++ repeat zero (out - length l))
    else match out, l with
         | 2%nat, [h; m; lo] => let '(rh, rm, _) := normalize_33 h m lo in Some [rh; rm]
         | _, _ => None
         end
  end.

(* p_expand_multi_precision.py:426-440 *)
Inductive comp_sel := SelHi | SelMe | SelLo.
Definition expand_component_selection (s : comp_sel) (l : list T) : option T :=
  match s with
  | SelHi => nth_error l 0
  | SelMe => if Nat.ltb (length l) 2 then None else nth_error l (length l - 2)   (* index -2 *)
  | SelLo => if Nat.ltb (length l) 1 then None else nth_error l (length l - 1)   (* index -1 *)
  end.

(* comparisons: p_expand_multi_precision.py:302-315 and 327-340; limbs are
   paired with zip *)
Variables (gt eqb : T -> T -> bool).
Fixpoint pred_gt_loop (pgt peq : bool) (l : list (T * T)) : bool :=
  match l with
  | [] => pgt
  | (a, b) :: l' => pred_gt_loop (pgt || (peq && gt a b)) (peq && eqb a b) l'
  end.
Definition pred_gt (l r : list T) : option bool :=
  match l, r with
  | a :: l', b :: r' => Some (pred_gt_loop (gt a b) (eqb a b) (combine l' r'))
  | _, _ => None
  end.
Definition expand_max (l r : list T) : option (list T) :=
  match pred_gt l r with
  | None => None
  | Some c => Some (map (fun ab => if c then fst ab else snd ab) (combine l r))
  end.
Definition expand_min (l r : list T) : option (list T) :=
  match pred_gt l r with
  | None => None
  | Some c => Some (map (fun ab => if c then snd ab else fst ab) (combine l r))
  end.

(* p_expand_multi_precision.py:221-228 expand_abs; abs is the scalar Abs *)
Variables (abs : T -> T) (ge0 : T -> bool).
Definition expand_abs (l : list T) : list T :=
  match l with
  | [] => []
  | h :: t => abs h :: map (fun x => if ge0 h then x else o_neg O x) t
  end.

(* p_expand_multi_precision.py:111-122 expand_cst; rounders are the
   round_sollya_object of the limb formats, most significant first *)
Fixpoint expand_cst (rounders : list (T -> T)) (value : T) : list T :=
  match rounders with
  | [] => []
  | r :: rs => let sub := r value in sub :: expand_cst rs (value [-] sub)
  end.
End Blocks.

Arguments twosum {T}. Arguments fasttwosum {T}. Arguments split {T}. Arguments mul211 {T}.
Arguments mul211_nofma {T}. Arguments add211 {T}. Arguments add212 {T}. Arguments add221_fast {T}.
Arguments add221 {T}. Arguments add222 {T}. Arguments add122 {T}. Arguments add121 {T}. Arguments add112 {T}.
Arguments mul212 {T}. Arguments mul221 {T}. Arguments mul222 {T}. Arguments mul122 {T}. Arguments mul121 {T}.
Arguments mul112 {T}. Arguments fma2111 {T}. Arguments fma2211 {T}. Arguments fma2121 {T}. Arguments fma2112 {T}.
Arguments fma2122 {T}. Arguments fma2212 {T}. Arguments fma2222 {T}. Arguments add333 {T}. Arguments add332 {T}.
Arguments add323 {T}. Arguments add321 {T}. Arguments add321_v2 {T}. Arguments add322 {T}. Arguments add313 {T}.
Arguments mul322 {T}. Arguments mul321 {T}. Arguments mul323 {T}. Arguments mul332 {T}. Arguments mul333 {T}.
Arguments mul313 {T}. Arguments normalize_33 {T}. Arguments normalize_23 {T}. Arguments expand_add {T}.
Arguments expand_mul {T}. Arguments expand_fma {T}. Arguments expand_negation {T}. Arguments expand_sub {T}.
Arguments expand_conversion {T}. Arguments expand_component_selection {T}. Arguments pred_gt_loop {T}.
Arguments pred_gt {T}. Arguments expand_max {T}. Arguments expand_min {T}. Arguments expand_abs {T}.
Arguments expand_cst {T}. Arguments l2 {T}. Arguments l3 {T}.

(* the limb operations of a target whose scalar operations round with rnd *)
Definition rounded_ops (rnd : Q -> Q) : ops Q :=
  mkops Q (fun x y => rnd (x + y))%Q (fun x y => rnd (x - y))%Q (fun x y => rnd (x * y))%Q
        (fun x y z => rnd (x * y + z))%Q (fun x y z => rnd (x * y - z))%Q Qopp.
