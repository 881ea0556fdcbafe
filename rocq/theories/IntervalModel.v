(* Model of the interval objects, of the range evaluation of operation graphs
   and of the interval-driven simplification.
   Sources (under /repo/metalibm_core): core/meta_interval.py,
   opt/opt_utils.py 62-108, core/ml_operations.py (range functions),
   opt/p_numerical_simplification.py.
   Sollya intervals are pairs of exact rationals; the Sollya operations on them
   are the usual exact hulls (Sollya may enlarge them: it rounds outward).  The
   memoization maps only avoid recomputation: nodes are trees here. *)
Require Import ZArith QArith Qround Qabs Bool List.
From Verif Require Import QUtil FpFormatModel.
Import ListNotations.
Open Scope Z_scope.

(* ---- Sollya intervals ---- *)
Definition itv := (Q * Q)%type.
Definition qmin (a b : Q) : Q := if Qle_bool a b then a else b.
Definition qmax (a b : Q) : Q := if Qle_bool a b then b else a.
Definition i_add (X Y : itv) : itv := (fst X + fst Y, snd X + snd Y)%Q.
Definition i_sub (X Y : itv) : itv := (fst X - snd Y, snd X - fst Y)%Q.
Definition i_neg (X : itv) : itv := (- snd X, - fst X)%Q.
Definition i_mul (X Y : itv) : itv :=
  let a := (fst X * fst Y)%Q in let b := (fst X * snd Y)%Q in
  let c := (snd X * fst Y)%Q in let d := (snd X * snd Y)%Q in
  (qmin (qmin a b) (qmin c d), qmax (qmax a b) (qmax c d)).
Definition i_has0 (Y : itv) : bool := Qle_bool (fst Y) 0 && Qle_bool 0 (snd Y).
(* division by an interval containing 0 gives an unbounded interval: None *)
Definition i_div (X Y : itv) : option itv :=
  if i_has0 Y then None else Some (i_mul X (/ snd Y, / fst Y)%Q).
Definition i_abs (X : itv) : itv :=
  if Qle_bool 0 (fst X) then X
  else if Qle_bool (snd X) 0 then i_neg X
  else (0%Q, qmax (- fst X)%Q (snd X)).

(* ---- meta_interval.py ---- *)

(* MetaInterval: interval or None (empty); MetaIntervalList: its interval_list.
   A None result of an operation stands for a Python exception. *)
Inductive mval := MI (i : option itv) | ML (l : list itv).

(* MetaInterval.__or__ 40-49 on two contiguous intervals; the bounds of an empty
   one raise NotImplementedError *)
Definition mi_or (X Y : itv) : list itv :=
  if negb (Qle_bool (fst Y) (snd X)) then [X; Y]
  else if negb (Qle_bool (fst X) (snd Y)) then [Y; X]
  else [(qmin (fst X) (fst Y), qmax (snd X) (snd Y))].

(* sorted(interval_list, key=inf): stable insertion sort *)
Fixpoint insert_inf (X : itv) (l : list itv) : list itv :=
  match l with
  | [] => [X]
  | Y :: t => if negb (Qle_bool (fst X) (fst Y)) then Y :: insert_inf X t else X :: l
  end.
Definition sort_inf (l : list itv) : list itv := fold_right insert_inf [] l.

(* refine_interval_list 146-157: the loop, with the last refined interval apart
   (refined_list[-1]); merging uses __or__ *)
Fixpoint refine_loop (last : itv) (l : list itv) : list itv :=
  match l with
  | [] => [last]
  | X :: t =>
      if Qle_bool (fst X) (snd last)
      then match mi_or last X with
           | [M] => refine_loop M t
           | _ => [] (* a MetaIntervalList stored in the list: not reachable *)
           end
      else last :: refine_loop X t
  end.
Definition refine_interval_list (l : list itv) : option (list itv) :=
  match sort_inf l with
  | [] => None
  | X :: t => Some (refine_loop X t)
  end.
(* MetaIntervalList.__init__ 163-166 *)
Definition make_list (l : list itv) : option mval := option_map ML (refine_interval_list l).

(* convert_to_MetaIntervalList 16-25: an empty MetaInterval raises *)
Definition to_list (v : mval) : option (list itv) :=
  match v with MI None => None | MI (Some X) => refine_interval_list [X] | ML l => Some l end.

(* MetaIntervalList.__add__ ... 184-203: all pairs *)
Definition pairs (f : itv -> itv -> itv) (l r : list itv) : list itv :=
  flat_map (fun X => map (f X) r) l.

(* MetaInterval.__add__, __sub__, __mul__ 60-95 and MetaIntervalList's *)
Definition meta_op (f : itv -> itv -> itv) (a b : mval) : option mval :=
  match a, b with
  | MI (Some X), MI (Some Y) => Some (MI (Some (f X Y)))
  | MI _, MI _ => Some (MI None)
  | _, _ =>
      match to_list a, to_list b with
      | Some l, Some r => make_list (pairs f l r)
      | _, _ => None
      end
  end.
Definition meta_add := meta_op i_add.
Definition meta_sub := meta_op i_sub.
Definition meta_mul := meta_op i_mul.
(* __truediv__ 97-106, 201-204.  A quotient by an interval containing 0 has an
   infinite bound (DInf).  MetaInterval / MetaIntervalList refers to a method
   __div__ which does not exist (DExc). *)
Inductive dres := DExc | DInf | DVal (v : mval).
Fixpoint div_pairs (ps : list (itv * itv)) : option (list itv) :=
  match ps with
  | [] => Some []
  | (X, Y) :: t =>
      match i_div X Y, div_pairs t with
      | Some q, Some r => Some (q :: r)
      | _, _ => None
      end
  end.
Definition meta_div (a b : mval) : dres :=
  match a, b with
  | MI _, ML _ => DExc
  | MI (Some X), MI (Some Y) => match i_div X Y with Some q => DVal (MI (Some q)) | None => DInf end
  | MI _, MI _ => DVal (MI None)
  | ML l, _ =>
      match to_list b with
      | None => DExc
      | Some r => match div_pairs (flat_map (fun X => map (pair X) r) l) with
                  | None => DInf
                  | Some q => match make_list q with Some v => DVal v | None => DExc end
                  end
      end
  end.
(* __neg__ 107-110, 210-211 *)
Definition meta_neg (a : mval) : option mval :=
  match a with
  | MI i => Some (MI (option_map i_neg i))
  | ML l => make_list (map i_neg l)
  end.
(* __or__, __and__ 40-57 *)
Definition meta_or (a b : mval) : option mval :=
  match a, b with
  | MI (Some X), MI (Some Y) =>
      match mi_or X Y with
      | [M] => Some (MI (Some M))
      | l => make_list l
      end
  | _, _ => None
  end.
Definition meta_and (a b : mval) : option mval :=
  match a, b with
  | MI (Some X), MI (Some Y) =>
      if negb (Qle_bool (fst Y) (snd X)) || negb (Qle_bool (fst X) (snd Y)) then Some (MI None)
      else Some (MI (Some (qmax (fst X) (fst Y), qmin (snd X) (snd Y))))
  | _, _ => None
  end.
(* __contains__ 112-128 and 181-182 (interval_set does not exist); a range
   argument falls off the end of the function: None, read as False *)
Inductive marg := ANum (q : Q) | ARange (X : itv) | AMeta (v : mval).
Definition meta_contains (a : mval) (x : marg) : option bool :=
  match a with
  | ML _ => None
  | MI None => Some false
  | MI (Some X) =>
      match x with
      | ANum q => Some (Qle_bool (fst X) q && Qle_bool q (snd X))
      | ARange _ => Some false
      | AMeta (MI None) => None
      | AMeta (MI (Some _)) => Some false
      | AMeta (ML _) => Some false
      end
  end.
(* inf, sup, is_empty 133-145, 172-179 *)
Definition meta_inf (a : mval) : option Q :=
  match a with MI (Some X) => Some (fst X) | ML (X :: _) => Some (fst X) | _ => None end.
Definition meta_sup (a : mval) : option Q :=
  match a with
  | MI (Some X) => Some (snd X)
  | ML (X :: l) => Some (snd (last l X))
  | _ => None
  end.

(* ---- operation graphs ---- *)

Inductive cmp := CEq | CNe | CLt | CLe | CGt | CGe.
Inductive tst := TZero | TSubnormal (F : fpfmt).
Inductive nop :=
| OAdd | OSub | OMul (fixed_operands : bool) | ODiv | ONeg | OAbs | OMin | OMax
| OFma | OFms | OFmaNeg | OFmsNeg | ODot | ODotNeg
| OSelect | OCondBlock | OFloor | OCeil | ONearest | OTrunc | OPow2
| OExp | ORawExp (F : fpfmt) | OMant | OMod | OClz (bits : Z)
| OPlaceHolder | OCmp (c : cmp) | OTest (t : tst) | OAnd | OOr | ONot | OConversion.

(* a node: leaf variable, numeric or boolean Constant, operation; with the
   interval attribute (Constant sets its own, 600-632) *)
Inductive nexp :=
| NLeaf (id : nat) (iv : option itv)
| NCst (q : Q)
| NBool (b : bool)
| NOp (o : nop) (iv : option itv) (args : list nexp).

(* node.get_interval() *)
Definition get_interval (e : nexp) : option itv :=
  match e with
  | NLeaf _ iv => iv
  | NCst q => Some (q, q)
  | NBool _ => None
  | NOp _ iv _ => iv
  end.

Definition i_map (f : Q -> Q) (X : itv) : itv := (f (fst X), f (snd X)).
Definition is_int (q : Q) : bool := Qeq_bool q (inject_Z (Qfloor q)).

(* floor(log2(inf |X|)), floor(log2(sup |X|)); when |X| reaches 0 the lower
   bound is -infinity: None here *)
Definition exp_range (X : itv) : option itv :=
  let A := i_abs X in
  if Qle_bool (fst A) 0 then None
  else Some (inject_Z (qlog2 (fst A)), inject_Z (qlog2 (snd A))).

(* range functions, ml_operations.py 895-906, 998-1044, 1093-1190, 1252-1289,
   1380, 1411-1483.  Argument intervals already checked by interval_check.
   The outer None is a Python exception. *)
Definition bare_range (o : nop) (args : list itv) : option (option itv) :=
  match o, args with
  | OAdd, [X; Y] => Some (Some (i_add X Y))
  | OSub, [X; Y] => Some (Some (i_sub X Y))
  | OMul _, [X; Y] => Some (Some (i_mul X Y))
  | ODiv, [X; Y] => Some (i_div X Y)
  | ONeg, [X] => Some (Some (i_neg X))
  | OAbs, [X] => Some (Some (i_abs X))
  | OMin, [X; Y] => Some (Some (qmin (fst X) (fst Y), qmin (snd X) (snd Y)))
  | OMax, [X; Y] => Some (Some (qmax (fst X) (fst Y), qmax (snd X) (snd Y)))
  | OFma, [X; Y; T] => Some (Some (i_add (i_mul X Y) T))
  | OFms, [X; Y; T] => Some (Some (i_sub (i_mul X Y) T))
  | OFmaNeg, [X; Y; T] => Some (Some (i_sub (i_mul (i_neg X) Y) T))
  | OFmsNeg, [X; Y; T] => Some (Some (i_add (i_mul (i_neg X) Y) T))
  | ODot, [X; Y; T; U] => Some (Some (i_add (i_mul X Y) (i_mul T U)))
  | ODotNeg, [X; Y; T; U] => None (* parameter is called opts: NameError *)
  | OFloor, [X] => Some (Some (i_map (fun q => inject_Z (Qfloor q)) X))
  | OCeil, [X] => Some (Some (i_map (fun q => inject_Z (Qceiling q)) X))
  | ONearest, [X] => Some (Some (i_map (fun q => inject_Z (qrne q)) X))
  | OPow2, [X] => (* integer bounds only: otherwise irrational *)
      if is_int (fst X) && is_int (snd X)
      then Some (Some (p2 (Qfloor (fst X)), p2 (Qfloor (snd X)))) else Some None
  | OExp, [X] => Some (exp_range X)
  | ORawExp _, [X] => Some (exp_range X)
  | OMant, [X] => Some (Some (-2 # 1, 2 # 1)%Q)
  | OMod, [X; Y] => Some (Some Y)
  | _, _ => Some None
  end.

Fixpoint all_some {A} (l : list (option A)) : option (list A) :=
  match l with
  | [] => Some []
  | None :: _ => None
  | Some a :: t => match all_some t with None => None | Some r => Some (a :: r) end
  end.

(* evaluate_range on a node without interval, given the ranges of its inputs *)
Definition node_range (o : nop) (rs : list (option itv)) : option (option itv) :=
  match o with
  | OCmp _ => Some None
  | OSelect =>
      match rs with
      | [_; Some X; Some Y] => Some (Some (qmin (fst X) (fst Y), qmax (snd X) (snd Y)))
      | _ => Some None
      end
  | OClz n => Some (Some (0%Q, inject_Z n))
  | _ => match all_some rs with
         | None => Some None
         | Some l => bare_range o l
         end
  end.

(* evaluate_range, opt_utils.py 62-108.  Comparisons do not visit their inputs,
   placeholders visit the first one. *)
Fixpoint evaluate_range (e : nexp) : option (option itv) :=
  match get_interval e with
  | Some X => Some (Some X)
  | None =>
    match e with
    | NOp (OCmp _) _ _ => Some None
    | NOp OPlaceHolder _ (a :: _) => evaluate_range a
    | NOp o _ args =>
        match all_some (map evaluate_range args) with
        | None => None
        | Some rs => node_range o rs
        end
    | _ => Some None
    end
  end.

(* update_interval=True: the interval attribute of each visited operation is set *)
Fixpoint update_intervals (e : nexp) : nexp :=
  match e with
  | NOp (OCmp c) iv args => e
  | NOp OPlaceHolder None (a :: t) =>
      NOp OPlaceHolder (match evaluate_range e with Some r => r | None => None end) (update_intervals a :: t)
  | NOp o None args =>
      NOp o (match evaluate_range e with Some r => r | None => None end) (map update_intervals args)
  | _ => e
  end.

(* ---- p_numerical_simplification.py ---- *)

Definition cst_value (e : nexp) : option Q :=
  match e with NCst q => Some q | NBool b => Some (if b then 1 else 0)%Q | _ => None end.
Definition is_constant (e : nexp) : bool := match cst_value e with Some _ => true | None => false end.
Definition is_val (v : Q) (e : nexp) : bool :=
  match cst_value e with Some q => Qeq_bool q v | None => false end.
(* is_true, is_false, opt_utils.py 193-207 *)
Definition is_true := is_val 1.
Definition is_false := is_val 0.

(* is_simplifiable_to_cst 61-71 *)
Definition simplifiable_to_cst (e : nexp) : option Q :=
  if is_constant e then None
  else match get_interval e with
       | Some X => if Qeq_bool (fst X) (snd X) then Some (fst X) else None
       | None => None
       end.

Definition qlt (a b : Q) : bool := negb (Qle_bool b a).

(* is_simplifiable_min, is_simplifiable_max 127-155 *)
Definition simplifiable_min (l r : nexp) : option nexp :=
  match get_interval l, get_interval r with
  | Some X, Some Y => if qlt (snd X) (fst Y) then Some l else if qlt (snd Y) (fst X) then Some r else None
  | _, _ => None
  end.
Definition simplifiable_max (l r : nexp) : option nexp :=
  match get_interval l, get_interval r with
  | Some X, Some Y => if qlt (snd X) (fst Y) then Some r else if qlt (snd Y) (fst X) then Some l else None
  | _, _ => None
  end.

(* is_simplifiable_cmp 181-219: Some b for AlwaysTrue / AlwaysFalse *)
Definition simplifiable_cmp (c : cmp) (l r : nexp) : option bool :=
  match get_interval l, get_interval r with
  | Some X, Some Y =>
      match c with
      | CEq | CNe => None
      | CLt => if qlt (snd X) (fst Y) then Some true
               else if Qle_bool (snd Y) (fst X) then Some false else None
      | CLe => if Qle_bool (snd X) (fst Y) then Some true
               else if qlt (snd Y) (fst X) then Some false else None
      | CGt => if qlt (snd Y) (fst X) then Some true
               else if Qle_bool (snd X) (fst Y) then Some false else None
      | CGe => if Qle_bool (snd Y) (fst X) then Some true
               else if qlt (snd X) (fst Y) then Some false else None
      end
  | _, _ => None
  end.

(* is_simplifiable_test 222-262, on finite intervals *)
Definition simplifiable_test (t : tst) (X : itv) : option bool :=
  match t with
  | TZero => if negb (i_has0 X) then Some false
             else if Qeq_bool (fst X) (snd X) && Qeq_bool (snd X) 0 then Some true else None
  | TSubnormal F =>
      if Qle_bool (get_min_normal_value F) (fst X) then Some false
      else if Qle_bool (snd X) (get_max_subnormal_value F) then Some true else None
  end.

(* simplify_logical_op 80-125 (scalar formats) *)
Definition simplify_logical (o : nop) (args : list nexp) : option nexp :=
  match o, args with
  | OAnd, [l; r] =>
      if is_false l || is_false r then Some (NBool false)
      else if is_true l && is_true r then Some (NBool true)
      else if is_true l then Some r
      else if is_true r then Some l
      else None
  | OOr, [l; r] =>
      if is_false l && is_false r then Some (NBool false)
      else if is_true l || is_true r then Some (NBool true)
      else match cst_value l, cst_value r with
           | Some a, Some b => Some (NCst (if Qeq_bool a 0 then b else a))
           | _, _ => None
           end
  | ONot, [a] =>
      match cst_value a with
      | Some v => Some (NBool (Qeq_bool v 0))
      | None => None
      end
  | _, _ => None
  end.

(* is_simplifiable_multiplication, simplify_multiplication 264-292 *)
Definition simplify_mult (l r : nexp) : option nexp :=
  if is_val 0 l || is_val 1 l || is_val 0 r || is_val 1 r then
    if is_constant l then
      if is_val 0 l then Some (NCst 0) else if is_val 1 l then Some r else None
    else if is_constant r then
      if is_val 0 r then Some (NCst 0) else if is_val 1 r then Some l else None
    else None
  else None.

(* NumericalSimplifier.simplify 340-392: the node after in-place replacement of
   its inputs, or the node replacing it *)
Definition simplify_node (o : nop) (iv : option itv) (args : list nexp) : nexp :=
  let e := NOp o iv args in
  match simplifiable_to_cst e with
  | Some q => NCst q
  | None =>
    let r := match o, args with
      | OMul true, [l; r] => simplify_mult l r
      | OMin, [l; r] => simplifiable_min l r
      | OMax, [l; r] => simplifiable_max l r
      | OCmp c, [l; r] => option_map NBool (simplifiable_cmp c l r)
      | OTest t, [a] =>
          match get_interval a with
          | Some X => option_map NBool (simplifiable_test t X)
          | None => None
          end
      | OCondBlock, [c; a; b] =>
          match cst_value c with
          | Some v => Some (if negb (Qeq_bool v 0) then a else b)
          | None => None
          end
      | _, _ => simplify_logical o args
      end in
    match r with Some n => n | None => e end
  end.
Fixpoint simplify (e : nexp) : nexp :=
  match e with
  | NOp o iv args => simplify_node o iv (map simplify args)
  | NLeaf _ _ => match simplifiable_to_cst e with Some q => NCst q | None => e end
  | _ => e
  end.

(* IsInfty / IsInfOrNaN branch 246-254 on extended bounds *)
Inductive ext := ENegInf | EFin (q : Q) | EPosInf.
Definition simplifiable_infty (lo hi : ext) : option bool :=
  match hi with
  | EPosInf => match lo with EPosInf => Some true | _ => None end
  | _ => Some false
  end.
