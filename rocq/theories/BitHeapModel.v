(** Model of the bit-heap compression of /repo/metalibm_hw_blocks/mult_array.py.
    Bits are symbolic single-bit expressions (the Python code manipulates
    operation nodes, never bit values). *)
From Coq Require Import ZArith List Bool Lia.
Import ListNotations.
Open Scope Z_scope.

(** Single-bit operation nodes: Constant / BitSelection of an input signal /
    BitLogicXor / BitLogicAnd / BitLogicOr / BitLogicNegate / Select
    (mult_array.py:126-135, 482-556).  Input bits are numbered variables. *)
Inductive bexp : Type :=
| BCst (b : bool)
| BVar (v : nat)
| BNot (a : bexp)
| BXor (a b : bexp)
| BAnd (a b : bexp)
| BOr (a b : bexp)
| BSel (c a b : bexp).

(** Value of a bit node for an assignment of the input bits (semantics of the
    VHDL std_logic operators restricted to '0'/'1'). *)
Fixpoint beval (env : nat -> bool) (e : bexp) : bool :=
  match e with
  | BCst b => b
  | BVar v => env v
  | BNot a => negb (beval env a)
  | BXor a b => xorb (beval env a) (beval env b)
  | BAnd a b => andb (beval env a) (beval env b)
  | BOr a b => orb (beval env a) (beval env b)
  | BSel c a b => if beval env c then beval env a else beval env b
  end.

(** comp_3to2: mult_array.py:124-136 (returns carry, sum; code after the
    [return] at 138-145 is dead). *)
Definition comp_3to2 (a b c : bexp) : bexp * bexp :=
  let s := BXor a (BXor b c) in
  let c' := BOr (BAnd a b) (BOr (BAnd a c) (BAnd c b)) in
  (c', s).

(** comp_4to2: mult_array.py:147-155 *)
Definition comp_4to2 (cin : option bexp) (a b c d : bexp) : bexp * bexp * bexp :=
  let '(cout, s0) := comp_3to2 a b c in
  match cin with
  | None => (cout, BAnd d s0, BXor d s0)
  | Some ci => let '(c1, s1) := comp_3to2 ci d s0 in (cout, c1, s1)
  end.

(** BitHeap: mult_array.py:340-396.  The dicts [heap] and [count] share their
    keys and [count[k] = len(heap[k])]; they are modelled by one association
    list weight -> bits (dict insertion order is kept but never observed). *)
Definition heap := list (Z * list bexp).

(** BitHeap.insert_bit: mult_array.py:345-350 *)
Fixpoint insert_bit (w : Z) (b : bexp) (h : heap) : heap :=
  match h with
  | [] => [(w, [b])]
  | (k, l) :: t => if k =? w then (k, l ++ [b]) :: t else (k, l) :: insert_bit w b t
  end.

(** insertion of several bits at one weight: the [for b in bit_list] loops of
    mult_array.py:176-177, 229-230, 233-234, 265-266, 281-282 *)
Definition insert_bits (w : Z) (bl : list bexp) (h : heap) : heap :=
  fold_left (fun h b => insert_bit w b h) bl h.

(** BitHeap.max_count: mult_array.py:352-357 *)
Definition max_count (h : heap) : nat :=
  fold_right (fun e m => Nat.max (length (snd e)) m) O h.

(** BitHeap.bit_count: mult_array.py:376-380 *)
Fixpoint bit_count (w : Z) (h : heap) : nat :=
  match h with
  | [] => O
  | (k, l) :: t => if k =? w then length l else bit_count w t
  end.

(** BitHeap.min_index / max_index: mult_array.py:359-364 ([None] stands for the
    ValueError of [min]/[max] on an empty dict) *)
Fixpoint min_index (h : heap) : option Z :=
  match h with
  | [] => None
  | (k, _) :: t => match min_index t with None => Some k | Some m => Some (Z.min k m) end
  end.
Fixpoint max_index (h : heap) : option Z :=
  match h with
  | [] => None
  | (k, _) :: t => match max_index t with None => Some k | Some m => Some (Z.max k m) end
  end.

(** BitHeap.pop_bits: mult_array.py:382-388 (built on pop_bit(index, 0):
    366-374; the key is dropped when its last bit is popped) *)
Fixpoint pop_bits (w : Z) (n : nat) (h : heap) : list bexp * heap :=
  match h with
  | [] => ([], [])
  | (k, l) :: t =>
      if k =? w then
        (firstn n l, match skipn n l with [] => t | r => (k, r) :: t end)
      else let '(bl, t') := pop_bits w n t in (bl, (k, l) :: t')
  end.

(** BitHeap.pop_bit: mult_array.py:366-374 *)
Definition pop_bit (w : Z) (h : heap) : option bexp * heap :=
  let '(bl, h') := pop_bits w 1 h in (hd_error bl, h').

(** BitHeap.pop_lower_bits: mult_array.py:390-396 ([None]: ValueError on an
    empty heap) *)
Definition pop_lower_bits (n : nat) (h : heap) : option (list bexp * Z * heap) :=
  match min_index h with
  | None => None
  | Some w => let '(bl, h') := pop_bits w n h in Some (bl, w, h')
  end.

(** number of bits in a heap, used only as loop fuel *)
Definition total_bits (h : heap) : nat :=
  fold_right (fun e m => (length (snd e) + m)%nat) O h.

(** wallace_reduction: mult_array.py:258-271.  The [while] loop is fuelled;
    [None] is fuel exhaustion or a Python exception. *)
Fixpoint wallace_loop (fuel : nat) (prev next : heap) : option heap :=
  match fuel with
  | O => None
  | S f =>
      if Nat.eqb (max_count prev) 0 then Some next else
      match pop_lower_bits 3 prev with
      | None => None
      | Some (bl, w, prev') =>
          match bl with
          | [a; b; c] =>
              let '(cy, s) := comp_3to2 a b c in
              wallace_loop f prev' (insert_bit w s (insert_bit (w + 1) cy next))
          | _ => wallace_loop f prev' (insert_bits w bl next)
          end
      end
  end.
Definition wallace_reduction (h : heap) : option heap :=
  wallace_loop (S (total_bits h)) h [].

(** dadda_reduction: mult_array.py:273-287.  [new_count] is
    ceil((max_count / 3.0) * 2): exact integer ceiling here (the float
    computation agrees with it for heights below 2^50). *)
Fixpoint dadda_loop (fuel : nat) (new_count : nat) (prev next : heap) : option heap :=
  match fuel with
  | O => None
  | S f =>
      if Nat.eqb (max_count prev) 0 then Some next else
      match pop_lower_bits 3 prev with
      | None => None
      | Some (bl, w, prev') =>
          if (Nat.leb (length bl) 2
              || Nat.leb (bit_count w prev' + length bl + bit_count w next) new_count)%bool
          then dadda_loop f new_count prev' (insert_bits w bl next)
          else
          match bl with
          | [a; b; c] =>
              let '(cy, s) := comp_3to2 a b c in
              dadda_loop f new_count prev' (insert_bit w s (insert_bit (w + 1) cy next))
          | _ => None
          end
      end
  end.
Definition dadda_reduction (h : heap) : option heap :=
  dadda_loop (S (total_bits h)) (Nat.div (2 * max_count h + 2) 3) h [].

(** popping of the carry-in: mult_array.py:163-166 and 213-216 *)
Definition pop_cin (w : Z) (carry : heap) : option bexp * heap :=
  if Nat.ltb 0 (bit_count w carry) then pop_bit w carry else (None, carry).

(** insertion of an optional carry-in bit ([if cin:]; a node object is always
    truthy) *)
Definition insert_opt (w : Z) (cin : option bexp) (h : heap) : heap :=
  match cin with None => h | Some c => insert_bit w c h end.

(** one 4:2 compression step on the popped bits, common tail of
    mult_array.py:167-194 (also 217-251): returns new next and carry heaps.
    The empty case with a carry-in calls the missing method [insert]:
    AttributeError, i.e. [None]. *)
Definition step_4to2 (bl : list bexp) (w : Z) (cin : option bexp)
    (next carry : heap) : option (heap * heap) :=
  match bl with
  | [] => match cin with None => Some (next, carry) | Some _ => None end
  | [a] => Some (insert_opt w cin (insert_bit w a next), carry)
  | [a; b] =>
      match cin with
      | None => Some (insert_bits w [a; b] next, carry)
      | Some ci =>
          let '(cy, s) := comp_3to2 a b ci in
          Some (insert_bit w s (insert_bit (w + 1) cy next), carry)
      end
  | [a; b; c] =>
      let '(cy, s) := comp_3to2 a b c in
      Some (insert_bit w s (insert_bit (w + 1) cy (insert_opt w cin next)), carry)
  | [a; b; c; d] =>
      let '(cout, cy, s) := comp_4to2 cin a b c d in
      Some (insert_bit w s (insert_bit (w + 1) cy next), insert_bit (w + 1) cout carry)
  | _ => None
  end.

(** flush of the carry heap: mult_array.py:196-198 and 253-255 *)
Fixpoint flush_carry (fuel : nat) (carry next : heap) : option heap :=
  match fuel with
  | O => None
  | S f =>
      if Nat.eqb (max_count carry) 0 then Some next else
      match pop_lower_bits 1 carry with
      | Some (b :: _, w, carry') => flush_carry f carry' (insert_bit w b next)
      | _ => None
      end
  end.

(** wallace_4to2_reduction: mult_array.py:157-199 *)
Fixpoint wallace42_loop (fuel : nat) (prev next carry : heap) : option heap :=
  match fuel with
  | O => None
  | S f =>
      if Nat.eqb (max_count prev) 0
      then flush_carry (S (total_bits carry)) carry next else
      match pop_lower_bits 4 prev with
      | None => None
      | Some (bl, w, prev') =>
          let '(cin, carry') := pop_cin w carry in
          match step_4to2 bl w cin next carry' with
          | None => None
          | Some (next', carry'') => wallace42_loop f prev' next' carry''
          end
      end
  end.
Definition wallace_4to2_reduction (h : heap) : option heap :=
  wallace42_loop (S (total_bits h)) h [] [].

(** dadda_4to2_reduction: mult_array.py:201-256.  The branch at 224-230 that
    forwards bits uncompressed is tried after the 0-bit and 1-bit branches
    (217-223), as in the Python [elif] chain. *)
Definition step_dadda42 (new_count : nat) (bl : list bexp) (w : Z) (cin : option bexp)
    (prev' next carry : heap) : option (heap * heap) :=
  if (Nat.leb 2 (length bl)
      && Nat.leb ((match cin with None => 0 | Some _ => 1 end)
                  + bit_count w prev' + length bl + bit_count w next) new_count)%bool
  then Some (insert_bits w bl (insert_opt w cin next), carry)
  else step_4to2 bl w cin next carry.
Fixpoint dadda42_loop (fuel : nat) (new_count : nat) (prev next carry : heap) : option heap :=
  match fuel with
  | O => None
  | S f =>
      if Nat.eqb (max_count prev) 0
      then flush_carry (S (total_bits carry)) carry next else
      match pop_lower_bits 4 prev with
      | None => None
      | Some (bl, w, prev') =>
          let '(cin, carry') := pop_cin w carry in
          match step_dadda42 new_count bl w cin prev' next carry' with
          | None => None
          | Some (next', carry'') => dadda42_loop f new_count prev' next' carry''
          end
      end
  end.
(** new_count = ceil(max_count / 2.0): mult_array.py:206 *)
Definition dadda_4to2_reduction (h : heap) : option heap :=
  dadda42_loop (S (total_bits h)) (Nat.div (max_count h + 1) 2) h [] [].

(** ReductionMethod / REDUCTION_METHOD_MAP: mult_array.py:289-303 *)
Inductive method := Wallace | Dadda | Wallace42 | Dadda42.
Definition reduction (m : method) : heap -> option heap :=
  match m with
  | Wallace => wallace_reduction
  | Dadda => dadda_reduction
  | Wallace42 => wallace_4to2_reduction
  | Dadda42 => dadda_4to2_reduction
  end.

(** one [while] loop of reduce_heap: mult_array.py:798-803, with an explicit
    number of iterations allowed *)
Fixpoint reduce_heap_loop (fuel : nat) (m : method) (limit : nat) (h : heap) : option heap :=
  match fuel with
  | O => None
  | S f =>
      if Nat.ltb limit (max_count h) then
        match reduction m h with
        | None => None
        | Some h' => reduce_heap_loop f m limit h'
        end
      else Some h
  end.
Definition reduce_heap (m : method) (limit : nat) (h : heap) : option heap :=
  reduce_heap_loop (S (total_bits h)) m limit h.

(** An operand of the multiplier array: a fixed-point signal (bit size,
    fractional size, signedness) with its bit nodes (BitSelection(op, i)).
    Fixed-point formats: mult_array.py:746-752, 771-773. *)
Record operand := mkOp {
  op_size : nat; op_frac : Z; op_signed : bool; op_bit : nat -> bexp }.

(** merge_product_in_heap, non-Booth branch: mult_array.py:745-766.
    [pp = Select(equal_to(bit_a_j, 1), b_i, 0)] is taken bit by bit (the
    format of [pp] is assumed to be the format of [b_i]).  Note that the weight
    uses the fractional size of [a] only (line 757). *)
Definition merge_pp_bit (a b : operand) (j k : nat) (hp : heap * heap) : heap * heap :=
  let a_signed := op_signed a && (Nat.eqb j (op_size a - 1)) in
  let b_signed := op_signed b && (Nat.eqb k (op_size b - 1)) in
  let w := Z.of_nat j - op_frac a + Z.of_nat k in
  let bit := BSel (op_bit a j) (op_bit b k) (BCst false) in
  let '(pos, neg) := hp in
  if xorb a_signed b_signed then (pos, insert_bit w bit neg) else (insert_bit w bit pos, neg).
Definition merge_product_plain (a b : operand) (hp : heap * heap) : heap * heap :=
  fold_left (fun hp j => fold_left (fun hp k => merge_pp_bit a b j k hp) (seq 0 (op_size b)) hp)
    (seq 0 (op_size a)) hp.

(** Booth digits: mult_array.py:418-456.  A digit is its three bits (MSB, middle,
    LSB) and its weight. *)
Definition booth_mid_digit (a : operand) (i : nat) : (bexp * bexp * bexp) * nat :=
  let n := op_size a in
  if Nat.ltb (i + 1) n then ((op_bit a (i + 1), op_bit a i, op_bit a (i - 1)), i)
  else
    let sign_ext := if op_signed a then op_bit a (n - 1) else BCst false in
    ((sign_ext, op_bit a i, op_bit a (i - 1)), i).
(** range(2, n, 2) *)
Definition even_indices (n : nat) : list nat :=
  map (fun t => (2 * S t)%nat) (seq 0 (Nat.div (n - 1) 2)).
Definition booth_digits (a : operand) : list ((bexp * bexp * bexp) * nat) :=
  let n := op_size a in
  [((op_bit a 1, op_bit a 0, BCst false), 0%nat)]
  ++ map (booth_mid_digit a) (even_indices n)
  ++ (if Nat.even n && negb (op_signed a)
      then [((BCst false, BCst false, op_bit a (n - 1)), n)] else []).

(** predicates of a digit: mult_array.py:469-488.  Comparisons of the 3-bit
    digit with constants are expanded on its bits. *)
Definition digit_is (d : bexp * bexp * bexp) (v2 v1 v0 : bool) : bexp :=
  let '(d2, d1, d0) := d in
  let lit (b : bool) x := if b then x else BNot x in
  BAnd (lit v2 d2) (BAnd (lit v1 d1) (lit v0 d0)).
Definition pp_zero d := BOr (digit_is d false false false) (digit_is d true true true).
Definition pp_shifted d := BOr (digit_is d false true true) (digit_is d true false false).
Definition pp_neg (d : bexp * bexp * bexp) := let '(d2, _, _) := d in d2.
Definition pp_neg_cin d :=
  BSel (BAnd (pp_neg d) (BNot (pp_zero d))) (BCst true) (BCst false).

(** conditional complement and zeroing of a partial-product bit:
    mult_array.py:497-509, 522-534, 544-556 *)
Definition local_pp d (x : bexp) : bexp :=
  BSel (pp_zero d) (BCst false) (BSel (pp_neg d) (BNot x) x).

(** bits inserted for one Booth digit: mult_array.py:490-564 *)
Definition booth_insert_digit (b : operand) (dd : (bexp * bexp * bexp) * nat)
    (hp : heap * heap) : heap * heap :=
  let '(d, i) := dd in
  let '(pos, neg) := hp in
  let m := op_size b in
  let I := Z.of_nat i in
  let pos := insert_bit I (local_pp d (BSel (pp_shifted d) (BCst false) (op_bit b 0))) pos in
  let pos := insert_bit I (pp_neg_cin d) pos in
  let pos := fold_left (fun pos k =>
      insert_bit (I + Z.of_nat k)
        (local_pp d (BSel (pp_shifted d) (op_bit b (k - 1)) (op_bit b k))) pos)
      (seq 1 (m - 1)) pos in
  let msb := local_pp d (BSel (pp_shifted d) (op_bit b (m - 1))
                (if op_signed b then op_bit b (m - 1) else BCst false)) in
  if op_signed b then (pos, insert_bit (I + Z.of_nat m) msb neg)
  else (insert_bit (I + Z.of_nat m) msb pos,
        insert_bit (I + Z.of_nat m + 1) (pp_neg_cin d) neg).

(** booth_radix4_multiply: mult_array.py:399-564 (the assertion at 416 requires
    two bits for [lhs]: [None] otherwise) *)
Definition booth_multiply (a b : operand) (hp : heap * heap) : option (heap * heap) :=
  if Nat.ltb (op_size a) 2 then None
  else Some (fold_left (fun hp d => booth_insert_digit b d hp) (booth_digits a) hp).

(** merge_addition_in_heap: mult_array.py:768-781 *)
Definition merge_addition (c : operand) (hp : heap * heap) : heap * heap :=
  let '(pos, neg) := hp in
  let n := op_size c in
  let msb := op_bit c (n - 1) in
  let wm := Z.of_nat n - 1 - op_frac c in
  let '(pos, neg) := if op_signed c then (pos, insert_bit wm msb neg)
                     else (insert_bit wm msb pos, neg) in
  (fold_left (fun pos i => insert_bit (Z.of_nat i - op_frac c) (op_bit c i) pos)
     (seq 0 (n - 1)) pos, neg).

(** convert_bit_heap_to_fixed_point: mult_array.py:306-337.  A generated operand
    is (offset_index, bits from offset up).  One round pops at most one bit of
    each weight from min_index to max_index. *)
Fixpoint pop_row (h : heap) (w : Z) (n : nat) : list bexp * heap :=
  match n with
  | O => ([], h)
  | S n' =>
      let '(ob, h1) := pop_bit w h in
      let '(row, h2) := pop_row h1 (w + 1) n' in
      (match ob with None => BCst false | Some b => b end :: row, h2)
  end.
Fixpoint convert_loop (fuel : nat) (h : heap) : option (list (Z * list bexp)) :=
  match fuel with
  | O => None
  | S f =>
      if Nat.eqb (max_count h) 0 then Some [] else
      match min_index h, max_index h with
      | Some lo, Some hi =>
          let '(row, h') := pop_row h lo (Z.to_nat (hi - lo + 1)) in
          match convert_loop f h' with
          | None => None
          | Some l => Some ((lo, row) :: l)
          end
      | _, _ => None
      end
  end.
Definition convert_heap (h : heap) : option (list (Z * list bexp)) :=
  convert_loop (S (total_bits h)) h.

(** Items of the operation descriptor: MultInput / OpInput
    (mult_array.py:68-118) *)
Inductive item := Prod (a b : operand) | Op (c : operand).

(** merge of one item: mult_array.py:736-781 (booth_mode selects the method) *)
Definition merge_item (booth : bool) (it : item) (hp : heap * heap) : option (heap * heap) :=
  match it with
  | Prod a b => if booth then booth_multiply a b hp else Some (merge_product_plain a b hp)
  | Op c => Some (merge_addition c hp)
  end.

(** generate_advanced_scheme: mult_array.py:726-864.  The stage loop (811-828)
    is given as the list of its actions: merge an item, or reduce both heaps to
    a limit before starting a new stage.  A [None] limit (the command line
    default) makes Python raise TypeError at 798. *)
Inductive action := AMerge (it : item) | AReduce (limit : option nat).
Fixpoint run_actions (m : method) (booth : bool) (l : list action) (hp : heap * heap)
    : option (heap * heap) :=
  match l with
  | [] => Some hp
  | AMerge it :: t =>
      match merge_item booth it hp with
      | None => None | Some hp' => run_actions m booth t hp' end
  | AReduce None :: t => None
  | AReduce (Some lim) :: t =>
      match reduce_heap m lim (fst hp), reduce_heap m lim (snd hp) with
      | Some p, Some n => run_actions m booth t (p, n)
      | _, _ => None
      end
  end.
(** rows handed to the final adders: mult_array.py:832-837 (positive rows, negative rows) *)
Definition advanced_scheme (m : method) (booth : bool) (l : list action)
    : option (list (Z * list bexp) * list (Z * list bexp)) :=
  match run_actions m booth l ([], []) with
  | None => None
  | Some (p, n) =>
      match reduce_heap m 2 p, reduce_heap m 2 n with
      | Some p', Some n' =>
          match convert_heap p', convert_heap n' with
          | Some rp, Some rn => Some (rp, rn)
          | _, _ => None
          end
      | _, _ => None
      end
  end.

(** final accumulation: mult_array.py:842-854.  [FNone]: [acc] is None, and
    [acc.set_attributes] raises AttributeError.  When only negative rows exist
    the accumulator is their sum, without negation (line 852). *)
Inductive facc := FNone | FPos (l : list (Z * list bexp)) | FNegOnly (l : list (Z * list bexp))
| FSub (p n : list (Z * list bexp)).
Definition final_acc (rp rn : list (Z * list bexp)) : facc :=
  match rp, rn with
  | [], [] => FNone
  | _, [] => FPos rp
  | [], _ => FNegOnly rn
  | _, _ => FSub rp rn
  end.
