(* Piecewise polynomial approximations.  Model of
   metalibm_core/core/approximation.py:76-287 (load_piecewese_poly_params_from_axf,
   generate_parameters_piecewise_poly_approx,
   generate_piecewise_poly_approx_from_params, generate_piecewise_poly_approx)
   and of the error classes of metalibm_core/utility/axf_utils.py:70-127.

   What Sollya answers (degrees, polynomials, norms) is an input of the model:
   a record per sub-interval.  Coefficients and offsets are rationals, tables
   are lists.  Simplification: the values of a table are the values assigned to
   it (the offsets and coefficients which are not numbers of the storage format
   are rounded when the table is printed, elsewhere). *)
From Coq Require Import ZArith QArith Qabs List Bool Arith.
Import ListNotations.

Inductive exn := EAssertion | ELogged | EIndex | EMaxEmpty.
Inductive res (A : Type) := Ok (a : A) | Raise (e : exn).
Arguments Ok {A} a.
Arguments Raise {A} e.
Definition bind {A B} (r : res A) (f : A -> res B) : res B := match r with Ok a => f a | Raise e => Raise e end.
Notation "'do' x <- r ; s" := (bind r (fun z => match z with x => s end)) (at level 200, x pattern, right associativity).

(* ------------------------------------------------------------------ *)
(* approximation errors                                                 *)
(* ------------------------------------------------------------------ *)
Inductive ekind := Absolute | Relative.
Definition ekind_eqb (a b : ekind) : bool :=
  match a, b with Absolute, Absolute | Relative, Relative => true | _, _ => false end.

(* a value is a number or the error object of Sollya (None), which is printed
   "error" in metalibm_functions/axf/erf-fp32.json.axf *)
Record aerr := Err { e_kind : ekind; e_val : option Q }.

(* axf_utils.py:72-73 sup(abs(value)) *)
Definition mk_err (k : ekind) (v : option Q) : aerr := Err k (option_map Qabs v).

(* comparison of two Sollya values; false when one is the error object *)
Definition vgt (a b : option Q) : bool :=
  match a, b with Some x, Some y => negb (Qle_bool x y) | _, _ => false end.

(* Python max(a, b): b when b > a, else a; __gt__ (axf_utils.py:78-80, 105-107)
   asserts that both errors have the same class *)
Definition py_max (a b : aerr) : res aerr :=
  if ekind_eqb (e_kind b) (e_kind a) then Ok (if vgt (e_val b) (e_val a) then b else a) else Raise EAssertion.

(* ------------------------------------------------------------------ *)
(* polynomials: Polynomial.coeff_map                                    *)
(* ------------------------------------------------------------------ *)
Definition cmap := list (nat * Q).
Fixpoint clookup (p : cmap) (k : nat) : option Q :=
  match p with
  | [] => None
  | (i, c) :: t => if Nat.eqb i k then Some c else clookup t k
  end.
(* Polynomial(list): polynomials.py:92-95 *)
Fixpoint enum_map (i : nat) (l : list Q) : cmap :=
  match l with [] => [] | c :: t => (i, c) :: enum_map (S i) t end.

(* ------------------------------------------------------------------ *)
(* generation: 112-241                                                  *)
(* ------------------------------------------------------------------ *)
(* answer of the block 172-212 *)
Inductive answer :=
  (* polynomial and error of build_from_approximation_with_error *)
| ABuilt (p : cmap) (e : option Q)
  (* SollyaError: constant value, distance to it, infinite norm *)
| AFailed (cst : Q) (diff norm : option Q).

Record sub := Sub {
  s_off : Q; s_itv : Q * Q;          (* get_offseted_sub_interval *)
  s_guess : nat;                     (* sup of guessdegree *)
  s_zero : bool;                     (* 0 in approx_interval and f(0) == 0 *)
  s_cst : Q; s_cst_err : option Q;   (* 149, 153-158 *)
  s_ans : answer }.

(* AXF_SimplePolyApprox: what 165-169 and 228-233 append *)
Record spa := Spa { sp_poly : cmap; sp_degs : list nat; sp_itv : Q * Q; sp_err : aerr }.
(* AXF_GenericPolynomialSplit *)
Record gps := Gps { g_maxd : nat; g_err : aerr; g_list : list spa }.

(* quotient of two Sollya values *)
Definition vdiv (a b : option Q) : option Q :=
  match a, b with
  | Some x, Some y => if Qeq_bool y 0 then None else Some (x / y)%Q
  | _, _ => None
  end.

(* 172-212 *)
Definition gen_poly (k : ekind) (eps : Q) (deg : nat) (s : sub) : res (cmap * aerr) :=
  if s_zero s && ekind_eqb k Relative then Raise EAssertion                        (* 177 *)
  else match s_ans s with
       | ABuilt p e => Ok (p, mk_err (if s_zero s then Absolute else k) e)          (* 178-189 *)
       | AFailed c diff norm =>
         if vgt (Some eps) diff
         then Ok (enum_map 0 (c :: repeat 0%Q deg),                                 (* 202 *)
                  mk_err k (match k with Absolute => diff | Relative => vdiv diff norm end))
         else Raise ELogged                                                         (* 212 *)
       end.

(* 214-222 *)
Definition gen_row (maxd deg : nat) (p : cmap) : list Q :=
  map (fun m => if Nat.leb m deg then match clookup p m with Some c => c | None => 0%Q end else 0%Q)
      (seq 0 (S maxd)).

(* one turn of the loop 142-234, without the update of max_error *)
Definition gen_sub (k : ekind) (eps : Q) (maxd deg : nat) (s : sub) : res (list Q * spa) :=
  match deg with
  | O => Ok (s_cst s :: repeat 0%Q maxd,
             Spa [(O, s_cst s)] [O] (s_itv s) (mk_err k (s_cst_err s)))
  | S _ =>
    do (p, e) <- gen_poly k eps deg s;
    Ok (gen_row maxd deg p, Spa p (seq 0 (S deg)) (s_itv s) e)
  end.

Fixpoint gen_loop (k : ekind) (eps : Q) (maxd : nat) (degs : list nat) (subs : list sub) (mx : aerr)
  : res (list Q * list (list Q) * aerr * list spa) :=
  match subs, degs with
  | s :: ss, d :: ds =>
    do (row, a) <- gen_sub k eps maxd d s;
    do mx' <- py_max (sp_err a) mx;                                                (* 234 *)
    do (offs, rows, m, l) <- gen_loop k eps maxd ds ss mx';
    Ok (s_off s :: offs, row :: rows, m, a :: l)
  | _, _ => Ok ([], [], mx, [])
  end.

(* max(list) *)
Definition list_max1 (l : list nat) : res nat :=
  match l with [] => Raise EMaxEmpty | d :: t => Ok (fold_left Nat.max t d) end.

Record tables := Tab { t_off : list Q; t_maxd : nat; t_rows : list (list Q); t_err : aerr }.

Definition generate (k : ekind) (eps : Q) (max_degree : option nat) (subs : list sub) : res (tables * gps) :=
  do maxd <- match max_degree with Some d => Ok d | None => list_max1 (map s_guess subs) end;  (* 117-121 *)
  let degs := match max_degree with Some d => map (fun _ => d) subs | None => map s_guess subs end in
  do (offs, rows, m, l) <- gen_loop k eps maxd degs subs (mk_err k (Some 0%Q));
  Ok (Tab offs maxd rows m, Gps maxd m l).                                          (* 239 *)

(* ------------------------------------------------------------------ *)
(* loading: 76-109                                                      *)
(* ------------------------------------------------------------------ *)
(* 96-107: the error is updated in the branch of the missing coefficients *)
Fixpoint load_row (a : spa) (ms : list nat) (mx : aerr) : list Q * aerr :=
  match ms with
  | [] => ([], mx)
  | m :: t =>
    let '(c, mx') :=
      match clookup (sp_poly a) m with
      | Some c => (c, mx)
      | None => (0%Q, if vgt (e_val (sp_err a)) (e_val mx) then sp_err a else mx)
      end in
    let '(row, mx'') := load_row a t mx' in (c :: row, mx'')
  end.

(* approx_list[sub_index] raises IndexError past the end *)
Fixpoint load_loop (maxd : nat) (offs : list Q) (l : list spa) (mx : aerr) : res (list (list Q) * aerr) :=
  match offs with
  | [] => Ok ([], mx)
  | _ :: os =>
    match l with
    | [] => Raise EIndex
    | a :: l' =>
      let '(row, mx') := load_row a (seq 0 (S maxd)) mx in
      do (rows, m) <- load_loop maxd os l' mx';
      Ok (row :: rows, m)
    end
  end.

(* offs: the offsets of the indexing given by the caller, in order of index *)
Definition load (g : gps) (offs : list Q) : res tables :=
  do (rows, m) <- load_loop (g_maxd g) offs (g_list g) (mk_err Relative (Some 0%Q));
  Ok (Tab offs (g_maxd g) rows m).

(* ------------------------------------------------------------------ *)
(* evaluation: the graph of 244-266 at an input of index i              *)
(* ------------------------------------------------------------------ *)
(* 257-262; ms is range(max_degree, -1, -1) *)
Fixpoint pw_horner (rnd : Q -> Q) (row : list Q) (r : Q) (ms : list nat) (acc : Q) : Q :=
  match ms with
  | [] => acc
  | m :: t => pw_horner rnd row r t (rnd (r * acc + nth m row 0)%Q)
  end.

Definition pw_eval (rnd : Q -> Q) (t : tables) (i : nat) (x : Q) : Q :=
  let row := nth i (t_rows t) [] in
  let red_vx := rnd (x - nth i (t_off t) 0)%Q in                                    (* 256 *)
  pw_horner rnd row red_vx (rev (seq 0 (S (t_maxd t)))) (nth (t_maxd t) row 0%Q).   (* 255-262 *)
