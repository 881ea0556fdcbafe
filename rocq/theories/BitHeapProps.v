(** Final statements about the multiplier array of
    /repo/metalibm_hw_blocks/mult_array.py (properties C29, C30, C31). *)
From Coq Require Import ZArith List Bool Lia.
From Verif Require Import BitHeapModel BitHeapSpec BitHeapProofs BitHeapProd BitHeapScheme.
Import ListNotations.
Open Scope Z_scope.

(** heaps a caller can build: a fresh BitHeap filled with insert_bit *)
Definition built_heap (l : list (Z * bexp)) : heap :=
  fold_left (fun h wb => insert_bit (fst wb) (snd wb) h) l [].

(** value of a list of weighted bits *)
Fixpoint wbits_val (env : nat -> bool) (base : Z) (l : list (Z * bexp)) : Z :=
  match l with [] => 0 | (w, b) :: t => b2z (beval env b) * 2 ^ (w - base) + wbits_val env base t end.

Lemma built_aux l : forall h, wf_heap h ->
  let h' := fold_left (fun h wb => insert_bit (fst wb) (snd wb) h) l h in
  wf_heap h' /\
  (forall env base, heap_val env base h' = heap_val env base h + wbits_val env base l) /\
  (forall base, (forall w b, In (w, b) l -> base <= w) -> above base h -> above base h').
Proof.
  induction l as [|[w b] t IH]; intros h Wh; cbn zeta; cbn [fold_left fst snd].
  - split; auto. split; intros; cbn; auto; lia.
  - destruct (IH (insert_bit w b h) (insert_wf _ _ _ Wh)) as (A & B & C). cbn zeta in *.
    split; auto. split.
    + intros. rewrite B, insert_val. cbn [wbits_val]. ring.
    + intros base Hb Ha. apply C; [intros; eapply Hb; right; eauto|].
      apply insert_above; auto. eapply Hb; left; eauto.
Qed.

Lemma built_heap_wf l : wf_heap (built_heap l).
Proof. apply built_aux, wf_nil. Qed.

(** C29: every reduction method, on every heap a caller can build, terminates
    normally and returns a heap denoting the same number for every assignment of
    the input bits; the number is the sum of the inserted weighted bits. *)
Theorem heap_reduction_preserves_value : forall m l, exists h',
  reduction m (built_heap l) = Some h' /\
  forall env base, (forall w b, In (w, b) l -> base <= w) ->
    heap_val env base h' = wbits_val env base l.
Proof.
  intros m l. destruct (built_aux l [] wf_nil) as (W & V & A). cbn zeta in *.
  destruct (reduction_ok m (built_heap l) W) as (h' & E & _ & _ & _ & V').
  exists h'; split; auto. intros env base Hb.
  destruct (V' env base) as [_ ->]; [apply A; auto using above_nil|].
  unfold built_heap. rewrite V. reflexivity.
Qed.

Definition ex_bits : list (Z * bexp) :=
  [(0, BVar 0); (0, BVar 1); (0, BVar 2); (0, BVar 3); (0, BVar 4); (1, BVar 5); (-1, BVar 6);
   (1, BVar 7); (1, BVar 8)].
Example heap_reduction_example :
  (exists h', reduction Dadda42 (built_heap ex_bits) = Some h' /\ max_count h' = 3%nat /\
     heap_val (fun _ => true) (-1) h' = 23)
  /\ wbits_val (fun _ => true) (-1) ex_bits = 23.
Proof. split; [eexists; split; [vm_compute; reflexivity|]|]; vm_compute; auto. Qed.

(** C30: the reduction loop with a height limit of at least two terminates and
    reaches that height, keeping the number. *)
Theorem heap_reduce_reaches_limit : forall m limit l, (2 <= limit)%nat -> exists h',
  reduce_heap m limit (built_heap l) = Some h' /\ (max_count h' <= limit)%nat /\
  forall env base, (forall w b, In (w, b) l -> base <= w) ->
    heap_val env base h' = wbits_val env base l.
Proof.
  intros m limit l Hl. destruct (built_aux l [] wf_nil) as (W & V & A). cbn zeta in *.
  destruct (reduce_heap_ok m limit (built_heap l) Hl W) as (h' & E & _ & M & V').
  exists h'; split; auto; split; auto. intros env base Hb.
  destruct (V' env base) as [_ ->]; [apply A; auto using above_nil|].
  unfold built_heap. rewrite V. reflexivity.
Qed.
Example heap_reduce_example : exists h', reduce_heap Wallace 2 (built_heap ex_bits) = Some h' /\
  max_count h' = 2%nat /\ heap_val (fun _ => true) (-1) h' = 23.
Proof. eexists; split; [vm_compute; reflexivity|]. vm_compute; auto. Qed.

(** More precisely each iteration above height two removes at least one bit, so
    the number of iterations is at most the number of bits. *)
Theorem heap_reduction_removes_bits : forall m l h',
  reduction m (built_heap l) = Some h' -> (2 < max_count (built_heap l))%nat ->
  (total_bits h' < total_bits (built_heap l))%nat.
Proof.
  intros m l h' E H. destruct (reduction_ok m _ (built_heap_wf l)) as (h1 & E1 & _ & _ & T & _).
  rewrite E in E1; injection E1 as <-. auto.
Qed.
Example heap_reduction_removes_bits_example :
  (2 < max_count (built_heap ex_bits))%nat /\ total_bits (built_heap ex_bits) = 9%nat /\
  option_map total_bits (reduction Wallace (built_heap ex_bits)) = Some 7%nat.
Proof. vm_compute. split; [repeat constructor|split; reflexivity]. Qed.

(** C30, the claim without a lower bound on the limit is false: for a height
    limit of one the loop of reduce_heap never ends on a two-bit column. *)
Theorem heap_reduce_limit_one_refuted : exists l, forall m fuel,
  reduce_heap_loop fuel m 1 (built_heap l) = None.
Proof. exists [(0, BVar 0); (0, BVar 1)]. intros. apply reduce_limit1_diverges. Qed.

(** The command-line default [stage_height_limit = [None]] makes a pipelined
    scheme fail (TypeError) as soon as a stage boundary is crossed. *)
Theorem heap_default_stage_limit_refuted : forall m booth l1 l2,
  advanced_scheme m booth (l1 ++ AReduce None :: l2) = None.
Proof.
  intros. unfold advanced_scheme.
  enough (forall hp, run_actions m booth (l1 ++ AReduce None :: l2) hp = None) as -> by reflexivity.
  induction l1 as [|[it|[lim|]] t IH]; intros hp; cbn [run_actions app]; auto.
  - destruct (merge_item booth it hp); auto.
  - destruct (reduce_heap m lim (fst hp)); auto. destruct (reduce_heap m lim (snd hp)); auto.
Qed.

(** C31: partial products of one multiplication (school-book method): added to
    any heaps, the difference positive - negative grows by the exact product of
    the two integers, at weight -frac(lhs). *)
Theorem plain_product_exact_partial : forall env base a b pl nl,
  (0 < op_size a)%nat -> (0 < op_size b)%nat -> op_frac b = 0 ->
  base <= - op_frac a -> (forall w x, In (w, x) (pl ++ nl) -> base <= w) ->
  let hp' := merge_product_plain a b (built_heap pl, built_heap nl) in
  heap_val env base (fst hp') - heap_val env base (snd hp')
  = wbits_val env base pl - wbits_val env base nl
    + op_int env a * op_int env b * 2 ^ (- op_frac a - op_frac b - base).
Proof.
  intros env base a b pl nl Ha Hb Hf Hbase Hin hp'.
  destruct (built_aux pl [] wf_nil) as (Wp & Vp & Ap).
  destruct (built_aux nl [] wf_nil) as (Wn & Vn & An). cbn zeta in *.
  destruct (merge_product_plain_ok env base a b (built_heap pl, built_heap nl)) as [_ V]; auto.
  - repeat split; cbn [fst snd]; try apply Wp; try apply Wn; [apply Ap|apply An]; auto using above_nil;
      intros; eapply Hin; apply in_or_app; eauto.
  - unfold hp_val in V. fold hp' in V. cbn [fst snd] in V. rewrite V, Hf, Z.sub_0_r.
    unfold built_heap. rewrite Vp, Vn. cbn [heap_val]. ring.
Qed.

(** the same for radix-4 Booth recoding (integer operands) *)
Theorem booth_product_exact_partial : forall base a b pl nl,
  (2 <= op_size a)%nat -> (0 < op_size b)%nat -> op_frac a = 0 -> op_frac b = 0 ->
  base <= 0 -> (forall w x, In (w, x) (pl ++ nl) -> base <= w) ->
  exists p' n', booth_multiply a b (built_heap pl, built_heap nl) = Some (p', n') /\
  forall env, heap_val env base p' - heap_val env base n'
  = wbits_val env base pl - wbits_val env base nl
    + op_int env a * op_int env b * 2 ^ (- op_frac a - op_frac b - base).
Proof.
  intros base a b pl nl Ha Hb Hfa Hfb Hbase Hin.
  destruct (built_aux pl [] wf_nil) as (Wp & Vp & Ap).
  destruct (built_aux nl [] wf_nil) as (Wn & Vn & An). cbn zeta in *.
  assert (Ok : hp_ok base (built_heap pl, built_heap nl)).
  { repeat split; cbn [fst snd]; try apply Wp; try apply Wn; [apply Ap|apply An]; auto using above_nil;
      intros; eapply Hin; apply in_or_app; eauto. }
  destruct (booth_multiply_ok (fun _ => false) base a b _ Ha Hb Hbase Ok) as ([p' n'] & E & _ & _).
  exists p', n'; split; auto. intros env.
  destruct (booth_multiply_ok env base a b _ Ha Hb Hbase Ok) as (hp'' & E' & _ & V).
  rewrite E in E'; injection E' as <-. unfold hp_val in V; cbn [fst snd] in V.
  rewrite V, Hfa, Hfb. unfold built_heap. rewrite Vp, Vn. cbn [heap_val].
  replace (- 0 - 0 - base) with (- base) by lia. ring.
Qed.

(** concrete operands: bits of the input signal x are variables 0..., of y 16... *)
Definition sig (size : nat) (frac : Z) (signed : bool) (v0 : nat) : operand :=
  mkOp size frac signed (fun i => BVar (v0 + i)).
(** environment assigning code [cx] to x and [cy] to y *)
Definition env2 (cx cy : Z) (v : nat) : bool :=
  if Nat.ltb v 16 then Z.testbit cx (Z.of_nat v) else Z.testbit cy (Z.of_nat v - 16).
Example sig_ints : op_int (env2 13 9) (sig 4 0 true 0) = -3 /\ op_int (env2 13 9) (sig 4 0 false 16) = 9.
Proof. split; reflexivity. Qed.
Example plain_product_example :
  let '(p, n) := merge_product_plain (sig 4 1 true 0) (sig 4 0 false 16) ([], []) in
  heap_val (env2 13 9) (-1) p - heap_val (env2 13 9) (-1) n = -27.
Proof. vm_compute; reflexivity. Qed.
Example booth_product_example :
  match booth_multiply (sig 5 0 true 0) (sig 4 0 false 16) ([], []) with
  | Some (p, n) => heap_val (env2 29 9) 0 p - heap_val (env2 29 9) 0 n = -27
  | None => False
  end.
Proof. vm_compute; reflexivity. Qed.

(** The full statement of C31 (arbitrary fixed-point operands) is false: the
    weight of the partial products ignores the fractional size of the right
    operand; 1.5 * 1.5 with two bits each and one fractional bit yields 4.5. *)
Theorem plain_product_rhs_frac_refuted : exists env a b,
  op_frac a = 1 /\ op_frac b = 1 /\
  let '(p, n) := merge_product_plain a b ([], []) in
  heap_val env (-2) p - heap_val env (-2) n <> op_int env a * op_int env b * 2 ^ (- op_frac a - op_frac b - -2).
Proof.
  exists (env2 3 3), (sig 2 1 false 0), (sig 2 1 false 16). split; auto; split; auto.
  vm_compute; discriminate.
Qed.
(** and Booth recoding ignores both fractional sizes *)
Theorem booth_product_frac_refuted : exists env a b,
  op_frac a = 1 /\ op_frac b = 0 /\
  match booth_multiply a b ([], []) with
  | Some (p, n) => heap_val env (-1) p - heap_val env (-1) n
                   <> op_int env a * op_int env b * 2 ^ (- op_frac a - op_frac b - -1)
  | None => False
  end.
Proof.
  exists (env2 3 3), (sig 2 1 false 0), (sig 2 0 false 16). split; auto; split; auto.
  vm_compute; discriminate.
Qed.

(** C31/C29/C30 together: a full descriptor (products and added operands, in any
    order, with reductions to limits >= 2 in between, as the pipeline stages do)
    always yields at most two positive and two negative rows whose difference is
    the exact value of the expression.  Partial: right operands of products have
    no fractional part, and neither have left operands in Booth mode. *)
Theorem mult_array_exact_partial : forall base m booth l,
  Forall (action_ok booth base) l ->
  exists rp rn, advanced_scheme m booth l = Some (rp, rn) /\
    (length rp <= 2)%nat /\ (length rn <= 2)%nat /\
    forall env, rows_val env base rp - rows_val env base rn = actions_val env base l.
Proof.
  intros base m booth l H.
  destruct (advanced_scheme_ok base m booth l H) as (rp & rn & E & L1 & L2 & _ & V).
  exists rp, rn; auto.
Qed.
Definition ex_actions : list action :=
  [AMerge (Prod (sig 4 0 true 0) (sig 4 0 false 16)); AReduce (Some 3%nat);
   AMerge (Op (sig 3 1 true 16)); AMerge (Prod (sig 3 0 false 16) (sig 4 0 true 0))].
Example mult_array_example : Forall (action_ok true (-1)) ex_actions /\
  actions_val (env2 13 9) (-1) ex_actions = -59.
Proof.
  split; [|vm_compute; reflexivity].
  repeat constructor; cbn; try lia; auto.
Qed.

(** When every bit is negative the accumulator returned by the code is the
    opposite of the expected value: a single one-bit signed operand (value -1 or
    0) gives +1. *)
Theorem mult_array_negative_only_refuted : exists env c rp rn,
  advanced_scheme Wallace false [AMerge (Op c)] = Some (rp, rn) /\
  final_acc rp rn = FNegOnly rn /\
  op_int env c = -1 /\ rows_val env 0 rn = 1.
Proof.
  exists (env2 1 0), (sig 1 0 true 0). do 2 eexists. split; [vm_compute; reflexivity|].
  vm_compute; auto.
Qed.
(** In all other cases the accumulator is the exact difference of the rows. *)
Definition facc_val (env : nat -> bool) (base : Z) (f : facc) : option Z :=
  match f with
  | FNone => None
  | FPos l | FNegOnly l => Some (rows_val env base l)
  | FSub p n => Some (rows_val env base p - rows_val env base n)
  end.
Theorem mult_array_acc_exact_partial : forall base m booth l,
  Forall (action_ok booth base) l ->
  exists rp rn, advanced_scheme m booth l = Some (rp, rn) /\
    (rp <> [] -> forall env, facc_val env base (final_acc rp rn) = Some (actions_val env base l)).
Proof.
  intros base m booth l H.
  destruct (advanced_scheme_ok base m booth l H) as (rp & rn & E & _ & _ & _ & V).
  exists rp, rn; split; auto. intros Hne env. rewrite <- V.
  destruct rp as [|r rp]; [congruence|]. destruct rn; cbn [final_acc facc_val]; auto.
  cbn [rows_val]. f_equal; ring.
Qed.
Example mult_array_acc_example : exists rp rn,
  advanced_scheme Dadda true ex_actions = Some (rp, rn) /\ rp <> [].
Proof. do 2 eexists; split; [vm_compute; reflexivity|discriminate]. Qed.

Print Assumptions heap_reduction_preserves_value.
Print Assumptions heap_reduce_reaches_limit.
Print Assumptions mult_array_exact_partial.
Print Assumptions mult_array_acc_exact_partial.
