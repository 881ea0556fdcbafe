(* Attributes of nodes, their defaults and copies.
   Model of metalibm_core/core/attributes.py:44-268, core/ml_operations.py:652-660 (copy of
   constants), opt/p_size_datapath.py:560-602 (propagation of a format to constant inputs) and
   opt/p_gen_bb.py:227-256 (constants in blocks).

   Values of attributes (formats, intervals, tags, ...) are numbers, None is None. *)
From Coq Require Import List Arith Bool.
Import ListNotations.

Definition value := option nat.
Inductive res (A : Type) := Ok (a : A) | Raise.
Arguments Ok {A} a.
Arguments Raise {A}.

(* the names of the attributes given to __init__; Dyn: dynamic attributes *)
Inductive name :=
  | Precision | Interval | Debug | Exact | Tag | MaxAbsError | RelError | Silent | Handle | ClearPrevious
  | RoundingMode | PreventOptimization | Unbreakable | Dyn (n : nat).
Definition name_eqb (a b : name) : bool :=
  match a, b with
  | Precision, Precision | Interval, Interval | Debug, Debug | Exact, Exact | Tag, Tag | MaxAbsError, MaxAbsError
  | RelError, RelError | Silent, Silent | Handle, Handle | ClearPrevious, ClearPrevious | RoundingMode, RoundingMode
  | PreventOptimization, PreventOptimization | Unbreakable, Unbreakable => true
  | Dyn x, Dyn y => Nat.eqb x y
  | _, _ => false
  end.
Definition init_map := list (name * value).
Fixpoint assoc (m : init_map) (n : name) : option value :=
  match m with [] => None | (k, v) :: t => if name_eqb n k then Some v else assoc t n end.
(* attr_init, 52-58, without "__copy" in the map *)
Definition attr_init (m : init_map) (n : name) (default : value) (required : bool) : res value :=
  match assoc m n with
  | Some v => Ok v
  | None => if required then Raise else Ok default
  end.

(* AttributeCtor, 74-86, whose build function is the identity *)
Record ctor := { ct_name : nat; ct_default : value; ct_required : bool }.
(* the class attributes, 91-95 *)
Record cls := { d_precision : list value; d_rounding : list value; d_silent : list value; ctors : list ctor; next_handle : nat }.
(* an Attributes object; handle: the Handle object; rounding_mode_dependant is always None
   and is not kept; truth of unbreakable: Some 0 and None are false *)
Record attrs := { precision : value; interval : value; debug : value; exact : value; tag : value; max_abs_error : value;
                  rel_error : value; silent : value; handle : value; clearprevious : value; rounding_mode : value;
                  prevent_optimization : value; unbreakable : value; dyn : list (nat * value) }.

Definition bind {A B} (r : res A) (k : A -> res B) : res B := match r with Ok a => k a | Raise => Raise end.
Notation "'do' x <- r ; k" := (bind r (fun x => k)) (at level 60, x name, k at level 60).
(* default_xxx[0] *)
Definition top (l : list value) : res value := match l with v :: _ => Ok v | [] => Raise end.

Fixpoint dyn_init (cs : list ctor) (m : init_map) : res (list (nat * value)) :=
  match cs with
  | [] => Ok []
  | c :: t => do v <- attr_init m (Dyn (ct_name c)) (ct_default c) (ct_required c);
              do r <- dyn_init t m; Ok ((ct_name c, v) :: r)
  end.
(* Attributes.__init__, 105-127.  A Handle is always built, and used if none is given. *)
Definition init (s : cls) (m : init_map) : res attrs :=
  do dp <- top (d_precision s);
  do ds <- top (d_silent s);
  do dr <- top (d_rounding s);
  do p <- attr_init m Precision dp false;
  do i <- attr_init m Interval None false;
  do d <- attr_init m Debug None false;
  do e <- attr_init m Exact None false;
  do t <- attr_init m Tag None false;
  do a <- attr_init m MaxAbsError None false;
  do r <- attr_init m RelError None false;
  do si <- attr_init m Silent ds false;
  do h <- attr_init m Handle (Some (next_handle s)) false;
  do c <- attr_init m ClearPrevious None false;
  do rm <- attr_init m RoundingMode dr false;
  do po <- attr_init m PreventOptimization None false;
  do u <- attr_init m Unbreakable (Some 0) false;
  do dy <- dyn_init (ctors s) m;
  Ok {| precision := p; interval := i; debug := d; exact := e; tag := t; max_abs_error := a; rel_error := r; silent := si;
        handle := h; clearprevious := c; rounding_mode := rm; prevent_optimization := po; unbreakable := u; dyn := dy |}.

(* getattr of a dynamic attribute *)
Fixpoint getdyn (l : list (nat * value)) (n : nat) : res value :=
  match l with [] => Raise | (k, v) :: t => if Nat.eqb n k then Ok v else getdyn t n end.
Fixpoint copydyn (cs : list ctor) (l : list (nat * value)) : res (list (nat * value)) :=
  match cs with
  | [] => Ok []
  | c :: t => do v <- getdyn l (ct_name c); do r <- copydyn t l; Ok ((ct_name c, v) :: r)
  end.
Definition with_dyn (a : attrs) (d : list (nat * value)) : attrs :=
  {| precision := precision a; interval := interval a; debug := debug a; exact := exact a; tag := tag a;
     max_abs_error := max_abs_error a; rel_error := rel_error a; silent := silent a; handle := handle a;
     clearprevious := clearprevious a; rounding_mode := rounding_mode a; prevent_optimization := prevent_optimization a;
     unbreakable := unbreakable a; dyn := d |}.
(* get_copy, 140-158 *)
Definition get_copy (s : cls) (a : attrs) : res attrs :=
  do c <- init s [(Precision, precision a); (Interval, interval a); (Debug, debug a); (Exact, exact a); (Tag, tag a);
                  (MaxAbsError, max_abs_error a); (RelError, rel_error a); (Silent, silent a); (Handle, handle a);
                  (ClearPrevious, clearprevious a); (RoundingMode, rounding_mode a);
                  (PreventOptimization, prevent_optimization a)];
  do d <- copydyn (ctors s) (dyn a);
  Ok (with_dyn c d).
(* get_light_copy, 160-161 *)
Definition get_light_copy (s : cls) (a : attrs) : res attrs :=
  init s [(Precision, precision a); (Debug, debug a); (Tag, tag a); (Silent, silent a); (Handle, handle a);
          (ClearPrevious, clearprevious a); (RoundingMode, rounding_mode a); (PreventOptimization, prevent_optimization a)].

(* the default precision, 238-243; the two other stacks are alike.  In a program of calls, an
   exception that is caught leaves the class as it is. *)
Inductive call := SetDefault (v : value) | UnsetDefault.
Definition with_precision (s : cls) (l : list value) : cls :=
  {| d_precision := l; d_rounding := d_rounding s; d_silent := d_silent s; ctors := ctors s; next_handle := next_handle s |}.
(* the class after the call, and whether it raises *)
Definition do_call (s : cls) (c : call) : cls * bool :=
  match c with
  | SetDefault v => (with_precision s (v :: d_precision s), false)
  | UnsetDefault =>
    match d_precision s with
    | [] => (s, true)
    | _ :: t => (with_precision s t, Nat.ltb (length t) 1)
    end
  end.
Fixpoint do_calls (s : cls) (cs : list call) : cls :=
  match cs with [] => s | c :: t => do_calls (fst (do_call s c)) t end.

(* ---- fusion of a sum with a product: the test on the sum, opt/p_function_std.py:137.
   is_sum: the node is an addition or a subtraction *)
Definition may_fuse (is_sum : bool) (a : attrs) : bool :=
  is_sum && negb (match unbreakable a with Some (S _) => true | _ => false end).

(* ---- copies of constants.  Constant.copy(self, copy_map = {}): without argument the map is
   the same one at each call.  Nodes are numbered; fmt: their formats *)
Record world := { fmt : nat -> value; dmap : list (nat * nat); next : nat }.
Fixpoint find_copy (m : list (nat * nat)) (c : nat) : option nat :=
  match m with [] => None | (k, n) :: t => if Nat.eqb c k then Some n else find_copy t c end.
Definition upd (f : nat -> value) (n : nat) (v : value) : nat -> value := fun k => if Nat.eqb k n then v else f k.
(* Constant.copy() , 652-660 *)
Definition copy_constant (w : world) (c : nat) : nat * world :=
  match find_copy (dmap w) c with
  | Some n => (n, w)
  | None => (next w, {| fmt := upd (fmt w) (next w) (fmt w c); dmap := (c, next w) :: dmap w; next := S (next w) |})
  end.
Definition set_precision (w : world) (n : nat) (v : value) : world :=
  {| fmt := upd (fmt w) n v; dmap := dmap w; next := next w |}.
(* propagate_format_to_input, 563-602, for an input that is a constant fitting the format:
   the new input *)
Definition propagate (w : world) (c f : nat) : nat * world :=
  match fmt w c with
  | None => (c, set_precision w c (Some f))
  | Some p => if Nat.eqb f p then (c, w)
              else let '(n, w1) := copy_constant w c in (n, set_precision w1 n (Some f))
  end.
(* the inputs of successive operations *)
Fixpoint propagate_all (w : world) (l : list (nat * nat)) : list nat * world :=
  match l with
  | [] => ([], w)
  | (c, f) :: t => let '(n, w1) := propagate w c f in let '(ns, w2) := propagate_all w1 t in (n :: ns, w2)
  end.

(* sort_node_by_bb, 227-256, for one constant met in the given blocks; bb_map as a list,
   last entry of a key first *)
Fixpoint bb_get (m : list (nat * nat)) (k : nat) : option nat :=
  match m with [] => None | (a, b) :: t => if Nat.eqb k a then Some b else bb_get t k end.
Definition bb_put (w : world) (m : list (nat * nat)) (c b : nat) : world * list (nat * nat) :=
  match bb_get m c with
  | Some b' => if Nat.eqb b' b then (w, (c, b) :: m) else let '(n, w1) := copy_constant w c in (w1, (n, b) :: m)
  | None => (w, (c, b) :: m)
  end.
Fixpoint bb_all (w : world) (m : list (nat * nat)) (c : nat) (bs : list nat) : world * list (nat * nat) :=
  match bs with [] => (w, m) | b :: t => let '(w1, m1) := bb_put w m c b in bb_all w1 m1 c t end.
