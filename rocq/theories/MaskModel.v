(* Tests on vector masks and the pass which expands them.
   Models opt/p_vector_mask_test_legalization.py 54-136, the engine opt/node_transformation.py
   82-115, support_lib/ml_support_lib.h 789-867 with targets/common/vector_backend.py
   1585-1618, and targets/intel/x86_processor.py 1651-1665, 1727-1751, 2255-2268.

   Simplifications: the graph is unfolded into a tree, so the memoization map is not kept (a node
   met again gives the same replacement, and its inputs are already changed); the other
   operations are opaque; a vector is read by VectorElementSelection only. *)
From Coq Require Import ZArith Bool List String.
From Verif Require Import LogicModel VecModel.
Import ListNotations.
Open Scope list_scope.
Open Scope Z_scope.

(* ml_operations.py 1611-1629 *)
Inductive mask_test := IsMaskAllZero | IsMaskNotAllZero | IsMaskAnyZero | IsMaskNotAnyZero.

(* nodes; a test records the size of its vector and whether the lanes are ML_Bool *)
Inductive node :=
| NLeaf (i : nat)
| NTest (t : mask_test) (size : nat) (lanes_bool : bool) (v : node)
| NElt (v : node) (index : nat)
| NNot (a : node)
| NAnd (a b : node)
| NOr (a b : node)
| NEq0 (a : node)
| NNe0 (a : node)
| NOp (f : nat) (args : list node).

(* 90-100 *)
Definition check_true (lanes_bool : bool) (e : node) : node := if lanes_bool then e else NNe0 e.
Definition check_false (lanes_bool : bool) (e : node) : node := if lanes_bool then NNot e else NEq0 e.
Definition elements (v : node) (size : nat) : list node := map (NElt v) (seq 0 size).
(* 82-130 expand_node; None: the reduction of an empty list raises *)
Definition expand_node (t : mask_test) (size : nat) (b : bool) (v : node) : option node :=
  match t with
  | IsMaskAllZero => queue_reduce NAnd (map (check_false b) (elements v size))
  | IsMaskAnyZero => queue_reduce NOr (map (check_false b) (elements v size))
  | IsMaskNotAllZero => queue_reduce NOr (map (check_true b) (elements v size))
  | IsMaskNotAnyZero => queue_reduce NAnd (map (check_true b) (elements v size))
  end.

(* node_transformation.py 82-115.  The first part is the node after the changes made in
   place to its inputs, the second the returned replacement.  The replacements of the
   inputs of a transformable node are not used by this pass (transformed_inputs). *)
Inductive outcome := Raises | Done (in_place : node) (replacement : option node).
Definition settle (o : outcome) : option node :=
  match o with Raises => None | Done n None => Some n | Done _ (Some r) => Some r end.
Definition bind1 (f : node -> node) (o : outcome) : outcome :=
  match settle o with Some a => Done (f a) None | None => Raises end.
Definition bind2 (f : node -> node -> node) (o p : outcome) : outcome :=
  match settle o, settle p with Some a, Some b => Done (f a b) None | _, _ => Raises end.
Fixpoint transform (n : node) : outcome :=
  match n with
  | NLeaf i => Done n None
  | NTest t size b v =>
      match transform v with
      | Raises => Raises
      | Done v' _ =>
          match expand_node t size b v' with
          | Some e => Done (NTest t size b v') (Some e)
          | None => Raises
          end
      end
  | NElt v i => bind1 (fun v => NElt v i) (transform v)
  | NNot a => bind1 NNot (transform a)
  | NAnd a b => bind2 NAnd (transform a) (transform b)
  | NOr a b => bind2 NOr (transform a) (transform b)
  | NEq0 a => bind1 NEq0 (transform a)
  | NNe0 a => bind1 NNe0 (transform a)
  | NOp f args =>
      match (fix go l := match l with
                         | [] => Some []
                         | a :: l => match settle (transform a), go l with Some a, Some l => Some (a :: l) | _, _ => None end
                         end) args with
      | Some args => Done (NOp f args) None
      | None => Raises
      end
  end.
(* execute_on_optree: root=True *)
Definition run_pass (n : node) : option node := settle (transform n).

(* ---- C library, ml_support_lib.h 789-867: None for a size without a function (the header
   has no vmask3 function) *)
Definition c_zero (v : nat -> Z) (i : nat) : bool := v i =? 0.
Definition c_one (v : nat -> Z) (i : nat) : bool := negb (v i =? 0).
Definition ml_is_vmask_zero (size : nat) (v : nat -> Z) : option bool :=
  match size with
  | 2%nat => Some (c_zero v 0 && c_zero v 1)
  | 4%nat => Some (c_zero v 0 && c_zero v 1 && c_zero v 2 && c_zero v 3)
  | 8%nat => Some (c_zero v 0 && c_zero v 1 && c_zero v 2 && c_zero v 3 && c_zero v 4 && c_zero v 5 && c_zero v 6 && c_zero v 7)
  | _ => None
  end.
Definition ml_is_vmask_any_zero (size : nat) (v : nat -> Z) : option bool :=
  match size with
  | 2%nat => Some (c_zero v 0 || c_zero v 1)
  | 4%nat => Some (c_zero v 0 || c_zero v 1 || c_zero v 2 || c_zero v 3)
  | 8%nat => Some (c_zero v 0 || c_zero v 1 || c_zero v 2 || c_zero v 3 || c_zero v 4 || c_zero v 5 || c_zero v 6 || c_zero v 7)
  | _ => None
  end.
Definition ml_is_vmask_not_any_zero (size : nat) (v : nat -> Z) : option bool :=
  match size with
  | 2%nat => Some (c_one v 0 && c_one v 1)
  | 4%nat => Some (c_one v 0 && c_one v 1 && c_one v 2 && c_one v 3)
  | 8%nat => Some (c_one v 0 && c_one v 1 && c_one v 2 && c_one v 3 && c_one v 4 && c_one v 5 && c_one v 6 && c_one v 7)
  | _ => None
  end.
Definition ml_is_vmask_not_all_zero (size : nat) (v : nat -> Z) : option bool :=
  match size with
  | 2%nat => Some (c_one v 0 || c_one v 1)
  | 4%nat => Some (c_one v 0 || c_one v 1 || c_one v 2 || c_one v 3)
  | 8%nat => Some (c_one v 0 || c_one v 1 || c_one v 2 || c_one v 3 || c_one v 4 || c_one v 5 || c_one v 6 || c_one v 7)
  | _ => None
  end.
(* vector_backend.py 1585-1618: an entry for sizes 2, 3, 4 and 8 *)
Definition c_entry (size : nat) : bool := Nat.eqb size 2 || Nat.eqb size 3 || Nat.eqb size 4 || Nat.eqb size 8.
Definition c_mask_test (t : mask_test) (size : nat) (v : nat -> Z) : option bool :=
  if c_entry size then
    match t with
    | IsMaskAllZero => ml_is_vmask_zero size v
    | IsMaskAnyZero => ml_is_vmask_any_zero size v
    | IsMaskNotAnyZero => ml_is_vmask_not_any_zero size v
    | IsMaskNotAllZero => ml_is_vmask_not_all_zero size v
    end
  else None.

(* ---- x86.  A register is the list of its 32-bit lanes (a v4lbool has two lanes for each
   element); arguments of the generated call after generator_utility.py 604-607: the
   length of arg_map, not arity, is the number of arguments *)
Inductive x86_format := SSE_v4bool | AVX_v8bool | AVX_v4lbool.
Inductive xexp := XArg | XAllOnes | XCall (f : string) (args : list xexp).
Definition testz256 (a : xexp) : xexp := XCall "_mm256_testz_si256" [a; a].
(* legalize_test_IsMaskNotAnyZero, 1727-1734, gives IsMaskAllZero (LogicalNot m), expanded with
   the table again: LogicalNot is andnot with ones, 2255-2268 *)
Definition x86_not (m : xexp) : xexp := XCall "_mm256_andnot_si256" [m; XAllOnes].
Definition x86_select (t : mask_test) (f : x86_format) : option xexp :=
  match t, f with
  | IsMaskNotAnyZero, SSE_v4bool => Some (XCall "_mm_test_all_ones" [XArg; XArg])
  | IsMaskAllZero, SSE_v4bool => Some (XCall "_mm_testz_si128" [XArg; XArg])
  | IsMaskNotAnyZero, AVX_v8bool => Some (testz256 (x86_not XArg))
  | IsMaskAllZero, AVX_v8bool => Some (testz256 XArg)
  (* the legalized test has no entry for this format *)
  | IsMaskNotAnyZero, AVX_v4lbool => None
  | _, _ => None
  end.

(* ---- ml_function.py 266-337 with the test of a backend in place of the exact one *)
Definition wrapper_with (test : list Z -> option bool) (n : nat) (path mask : option (list Z))
  (cb : nat -> option Z) : option (list Z) :=
  match path, mask with
  | Some r, Some m =>
      match test m with
      | Some true => Some r
      | Some false => c_lanes (S n) (Z.of_nat n) cb m r 0
      | None => None
      end
  | _, _ => None
  end.
