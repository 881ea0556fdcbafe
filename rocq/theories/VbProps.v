(* C131: the formats chosen for virtual booleans. *)
From Coq Require Import List Arith Bool Lia.
From Verif Require Import VbModel VbSpec VbProofs.
Import ListNotations.

Lemma execute_transform : forall v n st root st' r, execute_on_optree v n st root = Ret (st', r) -> lookup (memo st) root = None ->
  exists nd b, nth_error (hp st) root = Some nd /\ transform v n st root = Ret (st', b) /\ r = if transformable v nd then (if b then Some root else None) else Some root.
Proof.
  intros v n st root st' r E L. unfold execute_on_optree in E. rewrite L in E. destruct (nth_error (hp st) root) as [nd|]; [|destruct (transform v n st root) as [[? ?]| |]; discriminate E].
  destruct (transform v n st root) as [[s b]| |]; try discriminate E. injection E as <- <-. exists nd, b. auto.
Qed.
Lemma fresh_inv : forall v n h root st' r, execute_on_optree v n (mkS h []) root = Ret (st', r) ->
  exists nd b, nth_error h root = Some nd /\ inv v h [] st' /\ lookup (memo st') root = Some b /\ r = if transformable v nd then (if b then Some root else None) else Some root.
Proof.
  intros v n h root st' r E. destruct (execute_transform _ _ _ _ _ _ E eq_refl) as (nd & b & N & T & R). destruct (transform_inv v h n [] _ _ _ _ (inv_init v h) T) as (IV & L & _). exists nd, b. auto.
Qed.

(* only formats change, and only those of the boolean nodes to choose *)
Theorem vbool_formats_only : forall v n h root st' r, execute_on_optree v n (mkS h []) root = Ret (st', r) ->
  length (hp st') = length h /\
  (forall j nd nd', nth_error h j = Some nd -> nth_error (hp st') j = Some nd' -> same_but_format nd nd') /\
  (forall j nd, nth_error h j = Some nd -> ~ to_choose v nd -> nth_error (hp st') j = Some nd).
Proof.
  intros v n h root st' r E. destruct (fresh_inv _ _ _ _ _ _ E) as (nd & b & _ & IV & _). split; [|split].
  - assert (X : forall k, k < length (hp st') <-> k < length h).
    { intro k. rewrite <- !nth_error_Some. pose proof (i_same _ _ _ _ IV k) as SM. destruct (nth_error h k), (nth_error (hp st') k); try contradiction; (split; congruence). }
    destruct (Nat.lt_trichotomy (length (hp st')) (length h)) as [A|[A|A]]; [apply X in A; lia|exact A|apply X in A; lia].
  - intros j a a' A B. pose proof (i_same _ _ _ _ IV j) as SM. rewrite A, B in SM. exact SM.
  - exact (i_other _ _ _ _ IV).
Qed.
(* every boolean node of the graph gets the format of the width of its operands *)
Theorem vbool_formats_chosen : forall v n h root st' r j nd, execute_on_optree v n (mkS h []) root = Ret (st', r) ->
  reach h root j -> nth_error h j = Some nd -> to_choose v nd ->
  exists nd' w, nth_error (hp st') j = Some nd' /\ width_of_operands (hp st') nd' w /\ of_width v w (fm nd) (fm nd').
Proof.
  intros v n h root st' r j nd E R N C. destruct (fresh_inv _ _ _ _ _ _ E) as (a & b & _ & IV & L & _).
  assert (K : known st' j) by (apply (reach_known v h st' root j IV); [unfold known; rewrite L; discriminate|exact R]).
  unfold known in K. destruct (lookup (memo st') j) as [x|] eqn:X; [|congruence]. destruct (i_done _ _ _ _ IV j x nd X N C) as (_ & _ & D). exact D.
Qed.
(* operands of a single width: every boolean of the graph has this width *)
Theorem vbool_uniform_width : forall v n h root st' r W j nd nd', execute_on_optree v n (mkS h []) root = Ret (st', r) ->
  uniform v h W -> reach h root j -> nth_error h j = Some nd -> to_choose v nd -> nth_error (hp st') j = Some nd' ->
  of_width v W (fm nd) (fm nd').
Proof.
  intros v n h root st' r W j nd nd' E U R N C N'. destruct (vbool_formats_chosen _ _ _ _ _ _ _ _ E R N C) as (x & w & A & _ & D). rewrite N' in A. injection A as <-.
  destruct (fresh_inv _ _ _ _ _ _ E) as (a & b & _ & IV & L & _).
  assert (K : known st' j) by (apply (reach_known v h st' root j IV); [unfold known; rewrite L; discriminate|exact R]).
  unfold known in K. destruct (lookup (memo st') j) as [y|] eqn:X; [|congruence]. pose proof (i_uni _ _ _ _ IV W U j y nd nd' X N C N') as LW.
  enough (w = W) by (subst; exact D). rewrite <- LW. destruct v; cbn [of_width] in D; [destruct D as (q & _ & [[-> ->]|[-> ->]]); reflexivity|destruct D as [_ ->]; reflexivity].
Qed.
(* a second run of the pass, by a new object, changes nothing *)
Theorem vbool_run_twice : forall v n m h root st1 r1 st2 r2, (forall j nd, nth_error h j = Some nd -> leaf nd = true -> ins nd = []) ->
  execute_on_optree v n (mkS h []) root = Ret (st1, r1) -> execute_on_optree v m (mkS (hp st1) []) root = Ret (st2, r2) -> hp st2 = hp st1.
Proof.
  intros v n m h root st1 r1 st2 r2 WF E1 E2. destruct (fresh_inv _ _ _ _ _ _ E1) as (nd & b & N & IV & L & _).
  destruct (execute_transform _ _ _ _ _ _ E2 eq_refl) as (nd2 & b2 & _ & T & _). cbn [hp] in T.
  assert (BACK : forall j x, nth_error (hp st1) j = Some x -> exists y, nth_error h j = Some y /\ same_but_format y x).
  { intros j x Hx. pose proof (i_same _ _ _ _ IV j) as SM. rewrite Hx in SM. destruct (nth_error h j) as [y|]; [|contradiction]. exists y. auto. }
  eapply (stable_run v (hp st1) root); [| | |apply reach_refl|exact T]; [| |reflexivity].
  - intros j x Hx LX. destruct (BACK j x Hx) as (y & Y1 & _ & Y2 & Y3). rewrite Y3. apply (WF j y Y1). congruence.
  - intros j x R Hx CX w f SW BF.
    assert (RH : reach h root j).
    { clear - R BACK. induction R as [i|i z c j NZ LZ HC R IH]; [apply reach_refl|]. destruct (BACK i z NZ) as (y & Y1 & _ & Y2 & Y3). eapply reach_step; [exact Y1|congruence|rewrite <- Y3; exact HC|exact IH]. }
    destruct (BACK j x Hx) as (y & Y1 & YK & YL & YI).
    assert (CY : to_choose v y) by (destruct (choose_dec v y) as [C|C]; [exact C|]; rewrite (i_other _ _ _ _ IV j y Y1 C) in Hx; injection Hx as <-; contradiction).
    destruct (vbool_formats_chosen _ _ _ _ _ _ _ _ E1 RH Y1 CY) as (x' & u & X1 & X2 & X3). rewrite Hx in X1. injection X1 as <-.
    assert (RU : has_rule (kd x) = true) by (apply choose_iff in CX; apply andb_true_iff in CX; apply CX). apply (width_spec _ _ _ RU) in X2. rewrite SW in X2. injection X2 as <-.
    destruct v; cbn [of_width] in X3.
    + destruct X3 as (k & _ & [[-> X3]|[-> X3]]).
      * rewrite X3 in BF |- *. cbn [bool_format] in BF. destruct (known_lanes k); [|discriminate BF]. now injection BF as <-.
      * destruct CX as [(k2 & [CX|CX]) _]; congruence.
    + destruct X3 as [_ X3]. destruct CX as [CX _]. congruence.
Qed.
(* the object given back: the graph, except for a comparison (or a boolean) that needs no format *)
Theorem vbool_result : forall v n h root st' r nd, execute_on_optree v n (mkS h []) root = Ret (st', r) -> nth_error h root = Some nd ->
  (r = Some root <-> to_choose v nd \/ transformable v nd = false) /\ (r = None <-> ~ to_choose v nd /\ transformable v nd = true).
Proof.
  intros v n h root st' r nd E N. destruct (fresh_inv _ _ _ _ _ _ E) as (a & b & A & IV & L & ->). rewrite N in A. injection A as <-.
  destruct (choose_dec v nd) as [C|C].
  - assert (T : transformable v nd = true) by (apply choose_iff in C; apply andb_true_iff in C; destruct C as [C _]; unfold transformable; rewrite C; now destruct (kd nd)).
    destruct (i_done _ _ _ _ IV root b nd L N C) as (-> & _). rewrite T. split; (split; [auto|]); [reflexivity|discriminate|intros [X _]; contradiction].
  - rewrite (i_false _ _ _ _ IV root b nd L N C). destruct (transformable v nd) eqn:T; split; (split; [intro H; try discriminate H; auto|]); try reflexivity; try (intros [X|X]; [contradiction|discriminate X]); intros [_ X]; discriminate X.
Qed.

(* the graph is lost: a comparison as root, with a format already chosen *)
Theorem comparison_root_refuted : forall v n h root st' r nd, execute_on_optree v n (mkS h []) root = Ret (st', r) -> nth_error h root = Some nd -> kd nd = KCmp -> ~ to_choose v nd -> r = None.
Proof. intros v n h root st' r nd E N K C. destruct (vbool_result _ _ _ _ _ _ _ E N) as [_ X]. apply X. split; [exact C|]. unfold transformable. now rewrite K. Qed.
(* the graph is lost: the same object executed twice on a graph *)
Theorem same_object_refuted : forall v n m h root st' nd, execute_on_optree v n (mkS h []) root = Ret (st', Some root) -> nth_error h root = Some nd -> ~ to_choose v nd ->
  execute_on_optree v m st' root = Ret (st', None).
Proof.
  intros v n m h root st' nd E N C. destruct (fresh_inv _ _ _ _ _ _ E) as (a & b & A & IV & L & _). unfold execute_on_optree. rewrite L, (i_false _ _ _ _ IV root b nd L N C).
  destruct (nth_error (hp st') root); reflexivity.
Qed.
(* comparisons of lanes of another width have no format *)
Theorem narrow_lanes_refuted : forall w n m, w <> 32 -> w <> 64 ->
  execute_on_optree Vector (S (S m)) (mkS [mkN KOther (Data w (Some n)) true []; mkN KCmp (VirtBool n) false [0; 0]] []) 1 = Raise.
Proof.
  intros w n m A B. unfold execute_on_optree. cbn. rewrite Nat.max_id. apply Nat.eqb_neq in A, B. rewrite A, B. now destruct (known_lanes n).
Qed.
Theorem other_scalars_refuted : forall w m, ~ In w [8; 16; 32; 64] ->
  execute_on_optree Scalar (S (S m)) (mkS [mkN KOther (Data w None) true []; mkN KCmp SBool false [0; 0]] []) 1 = Raise.
Proof.
  intros w m A. unfold execute_on_optree. cbn. rewrite Nat.max_id. replace (_ || _) with false; [reflexivity|]. symmetry. rewrite !orb_false_iff, !Nat.eqb_neq. cbn [In] in A. lia.
Qed.
(* booleans of two widths are combined without conversion *)
Definition mixed (n : nat) (a b c : fmt) : heap :=
  [mkN KOther (Data 32 (Some n)) true []; mkN KOther (Data 64 (Some n)) true []; mkN KCmp a false [0; 0]; mkN KCmp b false [1; 1]; mkN KLogic c false [2; 3]].
Theorem mixed_widths_refuted : forall n m, known_lanes n = true ->
  exists st', execute_on_optree Vector (S (S (S m))) (mkS (mixed n (VirtBool n) (VirtBool n) (VirtBool n)) []) 4 = Ret (st', Some 4) /\ hp st' = mixed n (Bool32 n) (Bool64 n) (Bool64 n).
Proof.
  intros n m K. unfold execute_on_optree, mixed. cbn. rewrite K. cbn. rewrite K. cbn. rewrite K. cbn. eexists. split; reflexivity.
Qed.
(* only two operands of an assembling are looked at *)
Definition assembled (w n : nat) (f : fmt) : heap := [mkN KOther (Data 32 None) true []; mkN KOther (Data w None) true []; mkN KAsm f false (0 :: 0 :: repeat 1 n)].
Theorem assembling_refuted : forall w m,
  exists st', execute_on_optree Vector (S (S m)) (mkS (assembled w 2 (VirtBool 4)) []) 2 = Ret (st', Some 2) /\ hp st' = assembled w 2 (Bool32 4).
Proof. intros w m. unfold execute_on_optree, assembled. cbn. eexists. split; reflexivity. Qed.
(* other boolean operations keep their virtual format *)
Theorem other_booleans_refuted : forall v n h root st' r j f l, execute_on_optree v n (mkS h []) root = Ret (st', r) ->
  nth_error h j = Some (mkN KBool f false l) -> nth_error (hp st') j = Some (mkN KBool f false l).
Proof.
  intros v n h root st' r j f l E N. destruct (vbool_formats_only _ _ _ _ _ _ E) as (_ & _ & X). apply X; [exact N|]. intro C. apply choose_iff in C. cbn in C. rewrite andb_false_r in C. discriminate C.
Qed.

(* a virtual constant stays virtual, and counts as 32 bits *)
Definition with_constant (n : nat) (f : fmt) : heap := [mkN KOther (VirtBool n) true []; mkN KNot f false [0]].
Theorem virtual_constant_refuted : forall n m, known_lanes n = true ->
  exists st', execute_on_optree Vector (S (S m)) (mkS (with_constant n (VirtBool n)) []) 1 = Ret (st', Some 1) /\ hp st' = with_constant n (Bool32 n).
Proof. intros n m K. unfold execute_on_optree, with_constant. cbn. rewrite K. cbn. eexists. split; reflexivity. Qed.

(* a selection between two vectors by a conjunction of a comparison and of a negated comparison *)
Definition graph (f : fmt) : heap :=
  [mkN KOther (Data 64 (Some 4)) true []; mkN KCmp f false [0; 0]; mkN KNot f false [1]; mkN KLogic f false [1; 2]; mkN KOther (Data 64 (Some 4)) false [3; 0; 0]].
Example graph_legalized : exists st', execute_on_optree Vector 9 (mkS (graph (VirtBool 4)) []) 4 = Ret (st', Some 4) /\ hp st' = graph (Bool64 4).
Proof. eexists. split; vm_compute; reflexivity. Qed.
Example graph_uniform : uniform Vector (graph (VirtBool 4)) 64.
Proof.
  intros i nd c x N C Hc X NC. do 5 (destruct i as [|i]; [injection N as <-; cbn in Hc; (destruct C as [(k & [C|C]) K]; cbn in C; try discriminate C); repeat (destruct Hc as [<-|Hc]; [injection X as <-; first [reflexivity|exfalso; apply NC; cbn; split; [eexists; now left|tauto]]|]); destruct Hc|]). destruct i; discriminate N.
Qed.
Example graph_reach : reach (graph (VirtBool 4)) 4 2.
Proof. apply (reach_step _ 4 (mkN KOther (Data 64 (Some 4)) false [3; 0; 0]) 3 2); [reflexivity|reflexivity|cbn; tauto|]. apply (reach_step _ 3 (mkN KLogic (VirtBool 4) false [1; 2]) 2 2); [reflexivity|reflexivity|cbn; tauto|]. apply reach_refl. Qed.
Example graph_chosen : to_choose Vector (mkN KNot (VirtBool 4) false [1]).
Proof. split; [exists 4; now left|cbn; tauto]. Qed.
Example graph_leaves : forall j nd, nth_error (graph (VirtBool 4)) j = Some nd -> leaf nd = true -> ins nd = [].
Proof. intros j nd N L. do 5 (destruct j as [|j]; [injection N as <-; try discriminate L; reflexivity|]). destruct j; discriminate N. Qed.
Example graph_twice : exists st', execute_on_optree Vector 9 (mkS (graph (Bool64 4)) []) 4 = Ret (st', Some 4) /\ hp st' = graph (Bool64 4).
Proof. eexists. split; vm_compute; reflexivity. Qed.
Example scalar_legalized : exists st', execute_on_optree Scalar 9 (mkS (graph SBool) []) 4 = Ret (st', Some 4) /\ hp st' = graph (SBoolW 64).
Proof. eexists. split; vm_compute; reflexivity. Qed.
(* a comparison of scalars given to the vector pass *)
Example comparison_lost : exists st', execute_on_optree Vector 9 (mkS [mkN KOther (Data 32 None) true []; mkN KCmp SBool false [0; 0]] []) 1 = Ret (st', None).
Proof. eexists. vm_compute. reflexivity. Qed.
Example comparison_lost_hyps : ~ to_choose Vector (mkN KCmp SBool false [0; 0]).
Proof. intros [(n & [H|H]) _]; discriminate H. Qed.
Example same_object : exists st', execute_on_optree Vector 9 (mkS (graph (VirtBool 4)) []) 4 = Ret (st', Some 4) /\ execute_on_optree Vector 9 st' 4 = Ret (st', None).
Proof. eexists. split; vm_compute; reflexivity. Qed.
Example mixed_lanes : known_lanes 4 = true /\ lane (Bool32 4) <> lane (Bool64 4). Proof. split; [reflexivity|discriminate]. Qed.
Example assembled_wide : lane (fm (mkN KOther (Data 64 None) true [])) <> lane (Bool32 4). Proof. discriminate. Qed.
Example boolean_kept : exists st', execute_on_optree Vector 9 (mkS [mkN KOther (Data 32 (Some 4)) true []; mkN KBool (VirtBool 4) false [0; 0]] []) 1 = Ret (st', None) /\ nth_error (hp st') 1 = Some (mkN KBool (VirtBool 4) false [0; 0]).
Proof. eexists. split; vm_compute; reflexivity. Qed.

Print Assumptions vbool_formats_only.
Print Assumptions vbool_formats_chosen.
Print Assumptions vbool_uniform_width.
Print Assumptions vbool_run_twice.
Print Assumptions vbool_result.
Print Assumptions comparison_root_refuted.
Print Assumptions same_object_refuted.
Print Assumptions narrow_lanes_refuted.
Print Assumptions other_scalars_refuted.
Print Assumptions mixed_widths_refuted.
Print Assumptions assembling_refuted.
Print Assumptions other_booleans_refuted.
Print Assumptions virtual_constant_refuted.
