(* Model of the tests of array functions:
   /repo/metalibm_core/core/array_function.py 69-117 (tables), 145-208 (test tables),
   211-256, 292-403 (test wrapper), 575-700 (maximal error).

   The emulation, the rounding of the inputs and the random values are parameters; the
   outputs are a memory of data indexed by rows.  Simplifications: one input table (the code
   supports one), indices of the generated code do not wrap (less than 2^32 rows), printing
   is dropped.  None: a Python exception while the tables are generated, an access outside
   of a table in the generated code. *)
From Coq Require Import ZArith List Bool.
From Verif Require Import SpecialSpec CheckModel.
Import ListNotations.

Fixpoint all_opt {A} (l : list (option A)) : option (list A) :=
  match l with
  | [] => Some []
  | Some a :: l => match all_opt l with Some r => Some (a :: r) | None => None end
  | None :: _ => None
  end.

(* 154, 164: number and sizes of the arrays; [vt]: tuples of the command line, [std]:
   standard test cases, [rand]: the sizes drawn, test_num of them *)
Definition test_total {X} (vt std : list (list X)) (rand : list nat) : nat :=
  (List.length rand + List.length std + (if (0 <? List.length vt)%nat then 1 else 0))%nat.
Definition table_sizes {X} (vt std : list (list X)) (rand : list nat) : list nat :=
  (if (0 <? List.length vt)%nat then [List.length vt] else []) ++ map (@List.length X) std ++ rand.
Definition sum (l : list nat) : nat := fold_right Nat.add 0%nat l.
(* 165-173 *)
Definition size_offset (total : nat) (sizes : list nat) : option (list (nat * nat)) :=
  let offsets := map (fun i => sum (firstn i sizes)) (seq 0 total) in
  all_opt (map (fun row => match nth_error sizes row, nth_error offsets row with
                           | Some s, Some o => Some (s, o)
                           | _, _ => None
                           end) (seq 0 total)).

(* 180-194: the value of an input, by its index in the table of all the elements; rounding a
   list raises *)
Definition input_value {X} (rnd : X -> X) (rng : nat -> X) (vt std : list (list X)) (index : nat) : option X :=
  if (index <? List.length vt)%nat then
    match nth_error vt index with
    | Some (x :: _) => Some (rnd x)
    | _ => None
    end
  else
    let index' := (index - List.length vt)%nat in
    if (index' <? List.length std)%nat then None else Some (rnd (rng index)).
(* 198-206 *)
Definition input_table {X} (rnd : X -> X) (rng : nat -> X) (vt std : list (list X)) (rand : list nat) : option (list X) :=
  all_opt (map (input_value rnd rng vt std) (seq 0 (sum (table_sizes vt std rand)))).

(* 98-117, 292-314: the rows of expected values; [check] gives those of an input *)
Definition table (R : Type) := nat -> option R.
Definition set_row {R} (t : table R) (i : nat) (r : R) : table R := fun k => if Nat.eqb k i then Some r else t k.
Fixpoint fill_array {R} (dim0 : nat) (gen : nat -> option R) (offset : nat) (is : list nat) (t : table R) : option (table R) :=
  match is with
  | [] => Some t
  | i :: is =>
      match gen i with
      | Some r => if (offset + i <? dim0)%nat then fill_array dim0 gen offset is (set_row t (offset + i) r) else None
      | None => None
      end
  end.
Fixpoint fill_table {X R} (dim0 : nat) (check : X -> option R) (ins : list X) (rows : list (nat * nat)) (t : table R) : option (table R) :=
  match rows with
  | [] => Some t
  | (size, offset) :: rows =>
      let gen i := match nth_error ins (offset + i) with Some x => check x | None => None end in
      match fill_array dim0 gen offset (seq 0 size) t with
      | Some t => fill_table dim0 check ins rows t
      | None => None
      end
  end.
Definition expected_table {X R} (check : X -> option R) (ins : list X) (so : list (nat * nat)) : option (table R) :=
  fill_table (sum (map fst so)) check ins so (fun _ => None).

(* 316-357: the loop over the elements of an array; a return value stops the test *)
Fixpoint check_array (break_error : bool) (fails : nat -> option bool) (offset : nat) (js : list nat) : option (option Z) :=
  match js with
  | [] => Some None
  | j :: js =>
      match fails (offset + j)%nat with
      | None => None
      | Some true => if break_error then check_array break_error fails offset js else Some (Some 1%Z)
      | Some false => check_array break_error fails offset js
      end
  end.
(* 386-401: the loop over the arrays; [fut offset len out]: call of the tested function on
   the input and output tables from offset on *)
Fixpoint array_tests {R} (break_error : bool) (failure : datum -> R -> option bool) (fut : nat -> nat -> (nat -> datum) -> nat -> datum)
  (expected : table R) (so : list (nat * nat)) (ids : list nat) (out : nat -> datum) : option Z :=
  match ids with
  | [] => Some 0%Z
  | id :: ids =>
      match nth_error so id with
      | None => None
      | Some (len, offset) =>
          let out := fut offset len out in
          let fails i := match expected i with Some r => failure (out i) r | None => None end in
          match check_array break_error fails offset (seq 0 len) with
          | None => None
          | Some (Some r) => Some r
          | Some None => array_tests break_error failure fut expected so ids out
          end
      end
  end.
(* 211-256: the output table has the offset plus the size of the last array *)
Definition output_size (so : list (nat * nat)) (total : nat) : option nat :=
  match total with
  | O => None
  | S t => match nth_error so t with Some (s, o) => Some (s + o)%nat | None => None end
  end.
Definition array_test {X R} (break_error : bool) (check : X -> option R) (failure : datum -> R -> option bool)
  (ins : list X) (vt std : list (list X)) (rand : list nat) (fut : nat -> nat -> (nat -> datum) -> nat -> datum) : option Z :=
  let total := test_total vt std rand in
  match size_offset total (table_sizes vt std rand) with
  | None => None
  | Some so =>
      match expected_table check ins so, output_size so total with
      | Some expected, Some _ => array_tests break_error failure fut expected so (seq 0 total) (fun _ => DNaN)
      | _, _ => None
      end
  end.

(* 631-698: maximal error of one of the two kinds and its index *)
Definition index_step (st : datum * nat) (row : nat * datum) : datum * nat :=
  let m := vmax_step (fst st) (snd row) in
  (m, if c_eq (fst st) m then snd st else fst row).
Definition max_index (errors : list datum) : datum * nat :=
  fold_left index_step (combine (seq 0 (List.length errors)) errors) (minus_one, 0%nat).
(* 585-605, 628-634: the function is called once, on test_num elements *)
Definition max_error_rows {X} (err : X -> datum) (ins : list X) (test_num : nat) : option (list datum) :=
  all_opt (map (fun i => match nth_error ins i with Some x => Some (err x) | None => None end) (seq 0 test_num)).
(* the value returned, and the index printed for it *)
Definition array_max_error {X} (err : X -> datum) (ins : list X) (vt std : list (list X)) (rand : list nat) : option (datum * nat) :=
  match max_error_rows err ins (test_total vt std rand) with Some e => Some (max_index e) | None => None end.
