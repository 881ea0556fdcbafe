(* C132: removal of gotos and of register copies in machine programs. *)
From Coq Require Import List Arith Bool Lia.
From Verif Require Import McModel McSpec McProofs.
Import ListNotations.

(* removing gotos to the next block keeps executions *)
Theorem fallback_execution : forall (val mem : Type) eval effect test n p b (s : reg -> val) (m : mem), run eval effect test n (simplify_fallback p) b s m = run eval effect test n p b s m.
Proof. intros. apply simplify_run. Qed.
(* and nothing else is removed *)
Theorem fallback_blocks : forall p, length (simplify_fallback p) = length p /\
  (forall b l, nth_error p b = Some (l ++ [Goto (b + 1)]) -> b + 1 < length p -> nth_error (simplify_fallback p) b = Some l) /\
  (forall b l, nth_error p b = Some l -> (b + 1 < length p -> forall l', l <> l' ++ [Goto (b + 1)]) -> nth_error (simplify_fallback p) b = Some l).
Proof.
  intro p. split; [|split].
  - unfold simplify_fallback. generalize (length p) at 1. generalize 0. induction p as [|l p IH]; intros i n; [reflexivity|]. cbn [simplify_from length]. now rewrite IH.
  - intros b l N L. unfold simplify_fallback. rewrite simplify_nth, N. cbn [option_map Nat.add]. unfold goes_to. rewrite rev_app_distr. cbn [rev app]. rewrite Nat.eqb_refl. destruct (Nat.ltb_spec (b + 1) (length p)); [|lia]. cbn [andb]. now rewrite removelast_last.
  - intros b l N H. unfold simplify_fallback. rewrite simplify_nth, N. cbn [option_map Nat.add]. destruct (goes_to l) as [d|] eqn:G; [|reflexivity]. destruct (Nat.ltb_spec (b + 1) (length p)) as [L|L]; [|reflexivity].
    destruct (Nat.eqb_spec d (b + 1)) as [->|NE]; [|reflexivity]. destruct (H L (removelast l)). now apply goes_to_spec.
Qed.
(* removing copies keeps memory, jumps and all registers but the sources removed *)
Theorem collapse_execution : forall (val mem : Type) eval effect test p n b (s : reg -> val) (m : mem), separate p -> basic_blocks p ->
  match run eval effect test n p b s m, run eval effect test n (collapse_copies p) b s m with
  | Some (s1, m1), Some (s2, m2) => m2 = m1 /\ forall r, ~ collapsed p r -> s2 r = s1 r
  | None, None => True
  | _, _ => False
  end.
Proof. intros val mem eval effect test p n b s m SEP BB. apply (run_collapse p SEP val mem eval effect test BB). intros r _. reflexivity. Qed.
(* the registers collapsed have disappeared *)
Theorem collapse_registers : forall p, separate p -> forall r b k x, collapsed p r -> at_ (collapse_copies p) b k = Some x -> ~ writes x r /\ ~ reads x r.
Proof. intros p SEP r b k x C. exact (collapsed_gone p SEP r C b k x). Qed.
Theorem collapse_nothing : forall p, (forall r, ~ collapsed p r) -> collapse_copies p = p.
Proof. intros p NO. apply nothing_collapsed; [|exact NO]. intros b i j src dst S1. destruct (NO src). exists b, i, j, dst. exact S1. Qed.

(* ---- what is wrong ---- *)
Lemma unused : forall r us, ~ In r us -> existsb (Nat.eqb r) us = false.
Proof. intros r us H. apply not_true_iff_false. intro E. apply existsb_exists in E. destruct E as (y & Y1 & Y2). apply Nat.eqb_eq in Y2. subst. contradiction. Qed.
(* a value copied twice: the last register is never written *)
Definition chain (op : nat) (us : list reg) : prog := [[Assign 0 op us; Copy 1 0; Copy 2 1; Ret]].
Theorem chain_refuted : forall (val mem : Type) eval effect test op us n (s : reg -> val) (m : mem), ~ In 0 us -> ~ In 1 us ->
  collapse_copies (chain op us) = [[Assign 1 op us; Ret]] /\
  (exists s1, run eval effect test (S n) (chain op us) 0 s m = Some (s1, m) /\ s1 2 = eval op (map s us) m) /\
  (exists s2, run eval effect test (S n) (collapse_copies (chain op us)) 0 s m = Some (s2, m) /\ s2 2 = s 2).
Proof.
  intros val mem eval effect test op us n s m H0 H1.
  assert (E : collapse_copies (chain op us) = [[Assign 1 op us; Ret]]).
  { apply unused in H0, H1. unfold collapse_copies, collapse_state, chain. cbn [number number_block app copies_of fold_left]. unfold collapse_one, one_def, reg_defs, reg_uses. cbn in H0, H1 |- *. rewrite H0. cbn. rewrite H1. reflexivity. }
  split; [exact E|]. rewrite E. split; eexists; (split; [reflexivity|]); reflexivity.
Qed.
(* the register returned: its only use known to the pass is a copy *)
Definition returned (op : nat) (us : list reg) : prog := [[Assign 0 op us; Copy 1 0; Ret]].
Theorem returned_refuted : forall (val mem : Type) eval effect test op us n (s : reg -> val) (m : mem), ~ In 0 us ->
  separate (returned op us) /\
  (exists s1, run eval effect test (S n) (returned op us) 0 s m = Some (s1, m) /\ s1 0 = eval op (map s us) m) /\
  (exists s2, run eval effect test (S n) (collapse_copies (returned op us)) 0 s m = Some (s2, m) /\ s2 0 = s 0).
Proof.
  intros val mem eval effect test op us n s m H0. split.
  - intros b i j src dst S1. assert (HS := S1). destruct HS as (L & A & (x & B & W) & _). destruct b as [|b]; [|destruct b; discriminate A]. cbn in A, B.
    assert (j = 1) as -> by (destruct j as [|[|[|[|j]]]]; cbn in A; try discriminate A; reflexivity). assert (i = 0) as -> by lia. split; [intros k y K; lia|]. intros i' s' (L' & _). lia.
  - assert (E : collapse_copies (returned op us) = [[Assign 1 op us; Ret]]).
    { apply unused in H0. unfold collapse_copies, collapse_state, returned. cbn [number number_block app copies_of fold_left]. unfold collapse_one, one_def, reg_defs, reg_uses. cbn in H0 |- *. rewrite H0. reflexivity. }
    rewrite E. split; eexists; (split; [reflexivity|]); reflexivity.
Qed.
(* the destination read between the definition and the copy gets its value too early *)
Definition early (op op2 : nat) (us : list reg) : prog := [[Assign 0 op us; Assign 2 op2 [1]; Copy 1 0; Ret]].
Theorem early_refuted : forall (val mem : Type) eval effect test op op2 us n (s : reg -> val) (m : mem), ~ In 0 us ->
  (exists s1, run eval effect test (S n) (early op op2 us) 0 s m = Some (s1, m) /\ s1 2 = eval op2 [s 1] m) /\
  (exists s2, run eval effect test (S n) (collapse_copies (early op op2 us)) 0 s m = Some (s2, m) /\ s2 2 = eval op2 [eval op (map s us) m] m).
Proof.
  intros val mem eval effect test op op2 us n s m H0.
  assert (E : collapse_copies (early op op2 us) = [[Assign 1 op us; Assign 2 op2 [1]; Ret]]).
  { apply unused in H0. unfold collapse_copies, collapse_state, early. cbn [number number_block app copies_of fold_left]. unfold collapse_one, one_def, reg_defs, reg_uses. cbn in H0 |- *. rewrite H0. reflexivity. }
  rewrite E. split; eexists; (split; [reflexivity|]); reflexivity.
Qed.
(* a write of the destination in between is put after the value copied *)
Definition late (op op2 : nat) (us us2 : list reg) : prog := [[Assign 0 op us; Assign 1 op2 us2; Copy 1 0; Ret]].
Theorem late_refuted : forall (val mem : Type) eval effect test op op2 us us2 n (s : reg -> val) (m : mem), ~ In 0 us -> ~ In 0 us2 -> ~ In 1 us2 ->
  (exists s1, run eval effect test (S n) (late op op2 us us2) 0 s m = Some (s1, m) /\ s1 1 = eval op (map s us) m) /\
  (exists s2, run eval effect test (S n) (collapse_copies (late op op2 us us2)) 0 s m = Some (s2, m) /\ s2 1 = eval op2 (map s us2) m).
Proof.
  intros val mem eval effect test op op2 us us2 n s m H0 H2 H3.
  assert (E : collapse_copies (late op op2 us us2) = [[Assign 1 op us; Assign 1 op2 us2; Ret]]).
  { apply unused in H0, H2. unfold collapse_copies, collapse_state, late. cbn [number number_block app copies_of fold_left]. unfold collapse_one, one_def, reg_defs, reg_uses. cbn in H0, H2 |- *. rewrite H0. cbn. rewrite H2. reflexivity. }
  rewrite E. split; eexists; (split; [reflexivity|]); [reflexivity|]. cbn. f_equal. apply map_ext_in. intros r Hr. unfold upd. destruct (Nat.eqb_spec r 1) as [->|_]; [contradiction|reflexivity].
Qed.

(* ---- examples ---- *)
(* x in 10: y := x*x+1 if positive, returned in 11; the loop of block 1 is left to block 2 *)
Definition sample : prog :=
  [[Assign 0 1 [10]; Copy 11 0; Assign 1 2 [11; 10]; Copy 12 1; Goto 1];
   [CondJump 5 [12] 0; Goto 2];
   [Effect 7 [11; 12]; Ret]].
Example sample_fallback : simplify_fallback sample =
  [[Assign 0 1 [10]; Copy 11 0; Assign 1 2 [11; 10]; Copy 12 1]; [CondJump 5 [12] 0]; [Effect 7 [11; 12]; Ret]].
Proof. reflexivity. Qed.
Example sample_collapse : collapse_copies sample =
  [[Assign 11 1 [10]; Assign 12 2 [11; 10]; Goto 1]; [CondJump 5 [12] 0; Goto 2]; [Effect 7 [11; 12]; Ret]].
Proof. vm_compute. reflexivity. Qed.
Lemma sample_singles : forall b i j src dst, single_copy sample b i j src dst -> b = 0 /\ (i = 0 /\ j = 1 /\ src = 0 /\ dst = 11 \/ i = 2 /\ j = 3 /\ src = 1 /\ dst = 12).
Proof.
  intros b i j src dst (L & A & (x & B & W) & U & _). destruct b as [|[|[|b]]]; [|do 3 (destruct j as [|j]; [discriminate A|]); destruct j; discriminate A|do 3 (destruct j as [|j]; [discriminate A|]); destruct j; discriminate A|destruct b; discriminate A].
  split; [reflexivity|].
  assert (J : j = 1 /\ src = 0 /\ dst = 11 \/ j = 3 /\ src = 1 /\ dst = 12) by (do 5 (destruct j as [|j]; [cbn in A; first [discriminate A|injection A as <- <-; auto]|]); destruct j; discriminate A).
  destruct J as [(-> & -> & ->)|(-> & -> & ->)]; [left; destruct (U 0 0 _ eq_refl eq_refl)|right; destruct (U 0 2 _ eq_refl eq_refl)]; auto.
Qed.
Example sample_separate : separate sample.
Proof.
  intros b i j src dst S1. destruct (sample_singles _ _ _ _ _ S1) as (-> & [(-> & -> & -> & ->)|(-> & -> & -> & ->)]); (split; [intros k x K; lia|]); intros i' s' S2; destruct (sample_singles _ _ _ _ _ S2) as (_ & [(_ & Q & _)|(_ & Q & _)]); discriminate Q.
Qed.
Example sample_blocks : basic_blocks sample.
Proof.
  intros b i k x y A J L B. destruct b as [|[|[|b]]]; [| | |destruct b; discriminate A];
    do 6 (destruct i as [|i]; [cbn in A; try discriminate A; injection A as <-; cbn in J; try contradiction; do 6 (destruct k as [|k]; [try lia; cbn in B; try discriminate B; injection B as <-; exact I|]); destruct k; discriminate B|]); destruct i; discriminate A.
Qed.
Example sample_collapsed : collapsed sample 0.
Proof.
  exists 0, 0, 1, 11. split; [lia|]. split; [reflexivity|]. split; [exists (Assign 0 1 [10]); split; reflexivity|].
  split; intros b k x A W; (destruct b as [|[|[|b]]]; [| | |destruct b; discriminate A]); do 6 (destruct k as [|k]; [cbn in A; try discriminate A; injection A as <-; cbn in W; repeat (destruct W as [W|W]); try discriminate W; try contradiction; auto|]); destruct k; discriminate A.
Qed.
Example chain_values : ~ In 0 [10; 11] /\ ~ In 1 [10; 11].
Proof. cbn. lia. Qed.

Print Assumptions fallback_execution.
Print Assumptions fallback_blocks.
Print Assumptions collapse_execution.
Print Assumptions collapse_registers.
Print Assumptions collapse_nothing.
Print Assumptions chain_refuted.
Print Assumptions returned_refuted.
Print Assumptions early_refuted.
Print Assumptions late_refuted.
