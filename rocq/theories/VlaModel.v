(* Model of the vector-length agnostic functions:
   /repo/metalibm_functions/vla_function.py 116-235 (generate_scheme, the strip-mining loop),
   core/vla_vectorizer.py 75-135 (vectorize_scheme: the linear path and its validity mask),
   core/vla_common.py 40-80 (types and operations),
   targets/riscv/riscv_vector.py 284-294 (vlaGetLengthOpGen),
   targets/riscv/rvv_legalization.py 66-125 (types and byte indices of the indexed loads).

   A vector operation works lane by lane, so that the vector scheme is the linear path
   evaluated on each lane; the table of the lane operations is in RvvModel.v.  A scalar
   function has one argument, the variable [arg]; memory is as in VecModel.v, one element
   at each address. *)
From Coq Require Import ZArith List Bool.
From Verif Require Import VecModel VecSpec.
Import ListNotations.
Open Scope Z_scope.

(* assignment of a value to a variable of type int32_t *)
Definition int32 (z : Z) : Z := (z + 2 ^ 31) mod 2 ^ 32 - 2 ^ 31.

(* 189-191: the operands of VLAGetLength besides the length, for a function of [psize] bits
   vectorized with groups of [group] registers *)
Definition vl_elt_size (psize group : Z) : Z := psize.
Definition vl_group_size (psize group : Z) : Z := 1.

(* vla_vectorizer.py 85-135: the path and the mask, which generate_scheme receives *)
Record vla_scheme := mkvla { v_path : option expr; v_mask : list expr }.
Definition vectorize (is_input : nat -> bool) (s : stmt) : vla_scheme :=
  let p := fst (extract s []) in
  mkvla (option_map (instanciate is_input (vmap p)) (lin p)) (masks p).

(* what a lane holding x receives: vla_function.py 203 stores vector_scheme *)
Definition lane_result (ops : nat -> list Z -> option Z) (arg : nat) (v : vla_scheme) (x : Z) : option Z :=
  match v_path v with
  | Some e => eval ops (fun i => if Nat.eqb i arg then Some x else None) e
  | None => None
  end.

(* 193-214: the loop; [get] is VLAGetLength.  The result holds the memory and the number
   of iterations. *)
Fixpoint vla_loop (fuel : nat) (get : Z -> Z) (lane : Z -> option Z) (dst src : Z)
  (rem offset : Z) (m : mem) : option (mem * nat) :=
  match fuel with
  | O => None
  | S fuel =>
      if rem >? 0 then
        let l := get rem in
        match all_some (map lane (load_list m (src + offset) (Z.to_nat l))) with
        | None => None
        | Some r =>
            match vla_loop fuel get lane dst src (int32 (rem - int32 l)) (int32 (offset + int32 l))
                    (store_list m (dst + offset) r) with
            | Some (m', k) => Some (m', S k)
            | None => None
            end
        end
      else Some (m, O)
  end.

(* the function: [get len eltsize groupsize] *)
Definition vla_function (fuel : nat) (get : Z -> Z -> Z -> Z) (psize group : Z) (lane : Z -> option Z)
  (dst src n : Z) (m : mem) : option (mem * nat) :=
  vla_loop fuel (fun a => get a (vl_elt_size psize group) (vl_group_size psize group)) lane dst src (int32 n) 0 m.

(* rvv_legalization.py 107-116: byte offset of the lane of an indexed load whose element
   index is w, held on isize bits, in a table of elements of tsize bits *)
Definition byte_index (isize tsize w : Z) : Z := (w * (isize / 8)) mod 2 ^ isize.
