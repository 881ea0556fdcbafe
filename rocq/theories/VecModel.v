(** Model of the static vectorizer, of the vector wrapper around a
    vectorized scheme, of function inlining and of the loops of the
    element-wise array functions.

    Sources (paths under /repo):
    - metalibm_core/core/static_vectorizer.py 44-61, 64-70, 81-111, 115-130,
      193-310, 323-382, 384-497
    - metalibm_core/core/ml_function.py 266-337 (generate_c_vector_wrapper),
      339-380 (generate_opencl_vector_wrapper), 1212-1236
    - metalibm_core/opt/p_function_inlining.py 35-65
    - metalibm_functions/vectorial_function.py 85-126, 228-286

    Simplifications:
    - a value of any format is an integer (its bit pattern); a boolean is true
      when it is not 0; a vector is the list of its elements and a scalar
      where a vector is possible is a list of one element;
    - the meaning of every arithmetic operation and of every external
      function is a parameter [ops : nat -> list Z -> option Z] ([None] is
      undefined behaviour, for example a table read out of its bounds);
      constant tables are part of the operation symbol;
    - graphs are trees: the memoisation of copies only makes nodes shared;
    - precisions, tags, debug attributes and logging are left out;
    - the vector memory access is by element, addresses count elements. *)

Require Import ZArith List Bool Lia.
Import ListNotations.
Open Scope Z_scope.

(** ** Operation graphs *)

(** Nodes met by the vectorizer: [EVar] a Variable, [ECst] a Constant,
    [EOp] any ML_ArithmeticOperation, [EAnd]/[ENot] the LogicalAnd and
    LogicalNot built by the vectorizer, [ECall] a FunctionCall. *)
Inductive expr : Type :=
| EVar (v : nat)
| ECst (c : Z)
| EOp (o : nat) (l : list expr)
| EAnd (a b : expr)
| ENot (a : expr)
| ECall (f : nat) (l : list expr).

(** [SNode]: any other node in a Statement.  [SIf pre c likely t e]:
    ConditionBlock with its pre-statement, condition, likely attribute of the
    condition, if-branch and optional else-branch. *)
Inductive stmt : Type :=
| SNode (e : expr)
| SAssign (v : nat) (e : expr)
| SReturn (e : expr)
| SSeq (l : list stmt)
| SIf (pre : stmt) (c : expr) (likely : option bool) (t : stmt)
      (e : option stmt)
| SLoop (init : stmt) (c : expr) (body : stmt).

(** Dictionaries: association lists, the first entry found is the current
    one, [dict.update] puts entries in front. *)
Definition mapping := list (nat * expr).

Fixpoint lookup (m : mapping) (v : nat) : option expr :=
  match m with
  | [] => None
  | (w, e) :: r => if Nat.eqb w v then Some e else lookup r v
  end.

(** [node.copy(copy_map)], ml_operations.py 652-660, 722-736, 816-829: the
    mapped variables are replaced by their mapped value. *)
Fixpoint copy (m : mapping) (e : expr) : expr :=
  match e with
  | EVar v => match lookup m v with Some x => x | None => EVar v end
  | ECst c => ECst c
  | EOp o l => EOp o (map (copy m) l)
  | EAnd a b => EAnd (copy m a) (copy m b)
  | ENot a => ENot (copy m a)
  | ECall f l => ECall f (map (copy m) l)
  end.

(** [instanciate_variable], static_vectorizer.py 81-111.  The path has been
    copied before: variables which are not function inputs have been replaced
    by fresh ones (ml_operations.py 729-736) and are not in the mapping. *)
Definition instanciate (is_input : nat -> bool) (m : mapping) (e : expr)
  : expr :=
  copy (filter (fun p => is_input (fst p)) m) e.

(** ** extract_vectorizable_path, static_vectorizer.py 384-497 *)

Record vpath : Type := mkpath {
  lin : option expr;      (* linearized_optree *)
  masks : list expr;      (* validity_mask_list *)
  vmap : mapping;         (* variable_mapping *)
  final : bool
}.

(** default [fallback_policy], static_vectorizer.py 44-47: the if-branch,
    valid under the condition *)
Definition fallback_policy (c : expr) (t : stmt) (e : option stmt)
  : stmt * list expr := (t, [c]).

(** The second component is [local_mapping], which is updated in place. *)
Fixpoint extract (s : stmt) (lm : mapping) {struct s} : vpath * mapping :=
  match s with
  | SIf pre c likely t e =>
      let (pp, lm1) := extract pre lm in
      match lin pp with
      | Some _ => (pp, lm1)
      | None =>
          match likely with
          | Some true =>
              let (p, lm2) := extract t lm1 in
              (mkpath (lin p) (masks p ++ [c]) (vmap p) false, lm2)
          | Some false =>
              match e with
              | Some f =>
                  let (p, lm2) := extract f lm1 in
                  (mkpath (lin p) (masks p ++ [ENot c]) (vmap p) false, lm2)
              | None => (mkpath None [] [] false, lm1)
              end
          | None =>
              let (p, lm2) := extract t lm1 in
              (mkpath (lin p) (snd (fallback_policy c t e) ++ masks p)
                      (vmap p) false, lm2)
          end
      end
  | SSeq l =>
      let fix go (l : list stmt) (res : option expr) (ms : list expr)
              (vm : mapping) (lm : mapping) : vpath * mapping :=
        match l with
        | [] => (mkpath res ms vm false, lm)
        | x :: r =>
            let (p, lm') := extract x lm in
            let vm' := vmap p ++ vm in
            let ms' := ms ++ masks p in
            let res' := match res with Some _ => res | None => lin p end in
            if final p then (mkpath res' ms' vm' false, lm')
            else go r res' ms' vm' lm'
        end in
      go l None [] [] lm
  | SAssign v e =>
      let x := copy lm e in
      (mkpath None [] [(v, x)] false, (v, x) :: lm)
  | SReturn e => (mkpath (Some (copy lm e)) [] [] true, lm)
  | SNode _ | SLoop _ _ _ => (mkpath None [] [] false, lm)
  end.

(** [and_merge_conditions], static_vectorizer.py 50-61 (fuel: the number of
    conditions) *)
Fixpoint and_merge (fuel : nat) (l : list expr) : option expr :=
  match fuel with
  | O => None
  | S fuel =>
      match l with
      | [] => None                          (* assert *)
      | [c] => Some c
      | _ =>
          let h := Nat.div (length l) 2 in
          match and_merge fuel (firstn h l), and_merge fuel (skipn h l) with
          | Some a, Some b => Some (EAnd a b)
          | _, _ => None
          end
      end
  end.

(** ** Vector graphs *)

(** [VVar] a vector argument; [VLoose] a variable without a value in the
    vector function; [VOp k] an operation whose precision has [k] elements;
    [VElt] VectorElementSelection; [VAsm] VectorAssembling; [VCall] a call of
    a scalar function. *)
Inductive vexpr : Type :=
| VVar (v : nat)
| VLoose (v : nat)
| VCst (l : list Z)
| VOp (k : nat) (o : nat) (l : list vexpr)
| VAnd (k : nat) (a b : vexpr)
| VNot (k : nat) (a : vexpr)
| VElt (a : vexpr) (i : nat)
| VAsm (l : list vexpr)
| VCall (f : nat) (l : list vexpr).

(** [assembling_vector], static_vectorizer.py 64-70 *)
Definition assembling_vector (l : list vexpr) : vexpr :=
  match l with
  | [x] => x
  | _ => VAsm l
  end.

(** operand of the [i]-th sub-vector path for the argument [v],
    static_vectorizer.py 236-281 *)
Definition sub_arg (n k i v : nat) : vexpr :=
  if Nat.eqb k n then VVar v
  else if Nat.eqb k 1 then VElt (VVar v) i
  else assembling_vector
         (map (fun j => VElt (VVar v) (i * k + j)) (seq 0 k)).

Definition memb (v : nat) (l : list nat) : bool := existsb (Nat.eqb v) l.

Definition is_call (e : expr) : bool :=
  match e with ECall _ _ => true | _ => false end.

(** [vector_replicate_scheme_in_place], static_vectorizer.py 335-382, after
    the copy which substitutes the arguments.  The result of the recursive
    call on a function operand is dropped (line 359): an operand which is
    itself a call stays a scalar call on operands changed in place. *)
Fixpoint replicate (n k i : nat) (args : list nat) (e : expr) : vexpr :=
  match e with
  | EVar v => if memb v args then sub_arg n k i v else VLoose v
  | ECst c => VCst (repeat c k)
  | EOp o l => VOp k o (map (replicate n k i args) l)
  | EAnd a b => VAnd k (replicate n k i args a) (replicate n k i args b)
  | ENot a => VNot k (replicate n k i args a)
  | ECall f l =>
      let inner := fix inner (a : expr) : vexpr :=
        match a with
        | ECall g m =>
            VCall g (map (fun b => if is_call b then inner b
                                   else replicate n k i args b) m)
        | _ => replicate n k i args a
        end in
      if Nat.ltb 1 k then
        VAsm (map (fun j =>
                VCall f (map (fun a => if is_call a then inner a
                                       else VElt (replicate n k i args a) j)
                             l))
              (seq 0 k))
      else
        VCall f (map inner l)
  end.

(** [vectorize_scheme], static_vectorizer.py 193-310: arguments, vector path
    and vector mask; [None]: no Return found (the code fails on
    [None.copy]). *)
Definition vectorize_scheme (is_input : nat -> bool) (s : stmt)
  (args : list nat) (n k : nat) : option (vexpr * vexpr) :=
  let (p, _) := extract s [] in
  match lin p with
  | None => None
  | Some e0 =>
      let e := instanciate is_input (vmap p) e0 in
      let m := match masks p with
               | [] => Some (ECst 1)
               | l => and_merge (length l) l
               end in
      match m with
      | None => None
      | Some m =>
          let chunks := seq 0 (Nat.div n k) in
          Some (assembling_vector
                  (map (fun i => replicate n k i args e) chunks),
                assembling_vector
                  (map (fun i => replicate n k i args m) chunks))
      end
  end.

(** [no_scalar_fallback_required], static_vectorizer.py 115-130 *)
Fixpoint no_scalar_fallback (m : vexpr) : bool :=
  match m with
  | VAsm l => forallb no_scalar_fallback l
  | VCst l => forallb (fun z => negb (z =? 0)) l
  | _ => false
  end.

(** ** Evaluation of the generated vector code *)

Fixpoint all_some {A} (l : list (option A)) : option (list A) :=
  match l with
  | [] => Some []
  | Some x :: r => match all_some r with Some y => Some (x :: y) | None => None end
  | None :: _ => None
  end.

Definition b2z (b : bool) : Z := if b then 1 else 0.
Definition truth (z : Z) : bool := negb (z =? 0).

(** element [j] of every vector of [l] *)
Definition column (l : list (list Z)) (j : nat) : option (list Z) :=
  all_some (map (fun v => nth_error v j) l).

Definition sized (k : nat) (o : option (list Z)) : option (list Z) :=
  match o with
  | Some l => if Nat.eqb (length l) k then Some l else None
  | None => None
  end.

(** A vector operation works element by element on operands of its own
    vector size; a scalar function takes scalars. *)
Fixpoint evalv (ops : nat -> list Z -> option Z)
  (env : nat -> option (list Z)) (e : vexpr) : option (list Z) :=
  match e with
  | VVar v => env v
  | VLoose _ => None
  | VCst l => Some l
  | VOp k o l =>
      match all_some (map (fun a => sized k (evalv ops env a)) l) with
      | Some vs =>
          all_some (map (fun j => match column vs j with
                                  | Some xs => ops o xs
                                  | None => None
                                  end) (seq 0 k))
      | None => None
      end
  | VAnd k a b =>
      match sized k (evalv ops env a), sized k (evalv ops env b) with
      | Some x, Some y =>
          Some (map (fun p => b2z (truth (fst p) && truth (snd p)))
                    (combine x y))
      | _, _ => None
      end
  | VNot k a =>
      match sized k (evalv ops env a) with
      | Some x => Some (map (fun z => b2z (negb (truth z))) x)
      | None => None
      end
  | VElt a i =>
      match evalv ops env a with
      | Some x => match nth_error x i with Some z => Some [z] | None => None end
      | None => None
      end
  | VAsm l =>
      match all_some (map (evalv ops env) l) with
      | Some vs => Some (concat vs)
      | None => None
      end
  | VCall f l =>
      match all_some (map (fun a => sized 1 (evalv ops env a)) l) with
      | Some vs => match ops f (concat vs) with
                   | Some z => Some [z]
                   | None => None
                   end
      | None => None
      end
  end.

(** ** Wrappers, ml_function.py *)

Fixpoint set_nth (l : list Z) (i : nat) (z : Z) : list Z :=
  match l, i with
  | [], _ => []
  | _ :: r, O => z :: r
  | x :: r, S i => x :: set_nth r i z
  end.

(** loop of generate_c_vector_wrapper, ml_function.py 306-333; [None]: the
    loop has not ended, or an element access or the callback fails *)
Fixpoint c_lanes (fuel : nat) (n : Z) (cb : nat -> option Z)
  (mask res : list Z) (i : Z) : option (list Z) :=
  match fuel with
  | O => None
  | S fuel =>
      if i <? n then
        match nth_error mask (Z.to_nat i) with
        | None => None
        | Some m =>
            if negb (truth m) then
              match cb (Z.to_nat i) with
              | None => None
              | Some z =>
                  c_lanes fuel n cb mask (set_nth res (Z.to_nat i) z) (i + 1)
              end
            else c_lanes fuel n cb mask res (i + 1)
        end
      else Some res
  end.

(** generate_c_vector_wrapper, ml_function.py 266-337 *)
Definition c_wrapper (n : nat) (path mask : option (list Z))
  (cb : nat -> option Z) : option (list Z) :=
  match path, mask with
  | Some r, Some m =>
      if forallb truth m then Some r
      else c_lanes (S n) (Z.of_nat n) cb m r 0
  | _, _ => None
  end.

(** generate_opencl_vector_wrapper, ml_function.py 339-380: the lanes are
    unrolled *)
Fixpoint ocl_lanes (lanes : list nat) (cb : nat -> option Z)
  (mask res : list Z) : option (list Z) :=
  match lanes with
  | [] => Some res
  | i :: r =>
      match nth_error mask i with
      | None => None
      | Some m =>
          if negb (truth m) then
            match cb i with
            | None => None
            | Some z => ocl_lanes r cb mask (set_nth res i z)
            end
          else ocl_lanes r cb mask res
      end
  end.

Definition ocl_wrapper (n : nat) (path mask : option (list Z))
  (cb : nat -> option Z) : option (list Z) :=
  match path, mask with
  | Some r, Some m =>
      if forallb truth m then Some r
      else ocl_lanes (seq 0 n) cb m r
  | _, _ => None
  end.

Inductive language := C_Code | OpenCL_Code.

(** generate_vector_implementation, ml_function.py 1198-1236; [cb i] is the
    result of the scalar callback on the [i]-th elements of the arguments *)
Definition vector_implementation (ops : nat -> list Z -> option Z)
  (lang : language) (is_input : nat -> bool) (s : stmt) (args : list nat)
  (n k : nat) (env : nat -> option (list Z)) (cb : nat -> option Z)
  : option (list Z) :=
  match vectorize_scheme is_input s args n k with
  | None => None
  | Some (path, mask) =>
      if no_scalar_fallback mask then evalv ops env path
      else match lang with
           | OpenCL_Code =>
               ocl_wrapper n (evalv ops env path) (evalv ops env mask) cb
           | C_Code =>
               c_wrapper n (evalv ops env path) (evalv ops env mask) cb
           end
  end.

(** vectorize_function_scheme, vectorial_function.py 85-126: the statement
    chosen when no fallback is required is overwritten (lines 116-123) *)
Definition vectorize_function_scheme (ops : nat -> list Z -> option Z)
  (is_input : nat -> bool) (s : stmt) (args : list nat)
  (n k : nat) (env : nat -> option (list Z)) (cb : nat -> option Z)
  : option (list Z) :=
  match vectorize_scheme is_input s args n k with
  | None => None
  | Some (path, mask) =>
      c_wrapper n (evalv ops env path) (evalv ops env mask) cb
  end.

(** ** inline_function, p_function_inlining.py 35-65 *)

Fixpoint inline (m : mapping) (dst : nat) (s : stmt) : stmt :=
  match s with
  | SNode e => SNode (copy m e)
  | SAssign v e => SAssign v (copy m e)
  | SReturn e =>
      match copy m e with
      | EVar v => if Nat.eqb v dst then SNode (EVar v)
                  else SAssign dst (EVar v)
      | x => SAssign dst x
      end
  | SSeq l => SSeq (map (inline m dst) l)
  | SIf pre c likely t e =>
      SIf pre (copy m c) likely (inline m dst t)
          (match e with Some f => Some (inline m dst f) | None => None end)
  | SLoop init c body =>
      SLoop (inline m dst init) (copy m c) (inline m dst body)
  end.

(** ** Loops of ML_VectorialFunction, vectorial_function.py 228-286 *)

Definition u32 (z : Z) : Z := z mod 2 ^ 32.

(** memory: one value at each address *)
Definition mem := Z -> Z.
Definition store (m : mem) (a v : Z) : mem :=
  fun b => if b =? a then v else m b.
Fixpoint store_list (m : mem) (a : Z) (l : list Z) : mem :=
  match l with
  | [] => m
  | v :: r => store_list (store m a v) (a + 1) r
  end.
Definition load_list (m : mem) (a : Z) (k : nat) : list Z :=
  map (fun j => m (a + Z.of_nat j)) (seq 0 k).

(** main loop: [k] elements by iteration; the final memory and index *)
Fixpoint main_loop (fuel : nat) (vf : list Z -> option (list Z)) (k : nat)
  (dst src : Z) (iter_n : Z) (m : mem) (i : Z) : option (mem * Z) :=
  match fuel with
  | O => None
  | S fuel =>
      if i <? iter_n then
        match vf (load_list m (src + i) k) with
        | None => None
        | Some r =>
            main_loop fuel vf k dst src iter_n
              (store_list m (dst + i) r) (u32 (i + Z.of_nat k))
        end
      else Some (m, i)
  end.

(** epilog loop: one element by iteration, with the scalar function *)
Fixpoint epilog_loop (fuel : nat) (sf : Z -> option Z)
  (dst src : Z) (n : Z) (m : mem) (i : Z) : option mem :=
  match fuel with
  | O => None
  | S fuel =>
      if i <? n then
        match sf (m (src + i)) with
        | None => None
        | Some r =>
            epilog_loop fuel sf dst src n (store m (dst + i) r) (u32 (i + 1))
        end
      else Some m
  end.

(** generate_scheme: [multi_elt_num = 1] has no epilog *)
Definition array_function (fuel : nat) (vf : list Z -> option (list Z))
  (sf : Z -> option Z) (k : nat) (dst src n : Z) (m : mem) : option mem :=
  if Nat.ltb 1 k then
    let remain_n := n mod Z.of_nat k in
    let iter_n := u32 (n - remain_n) in
    match main_loop fuel vf k dst src iter_n m 0 with
    | None => None
    | Some (m', i) => epilog_loop fuel sf dst src n m' i
    end
  else
    match main_loop fuel (fun l => match l with
                                   | [x] => match sf x with
                                            | Some z => Some [z]
                                            | None => None
                                            end
                                   | _ => None
                                   end) 1 dst src n m 0 with
    | None => None
    | Some (m', _) => Some m'
    end.
