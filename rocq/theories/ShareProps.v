(* Sharing of sub-expressions between branches: what is inserted, and what is wrong.
   Everything is about metalibm_core/opt/p_function_std.py:234-323 and 358-376. *)
From Coq Require Import List Arith Bool Lia.
From Verif Require Import ShareModel ShareSpec ShareProofs.
Import ListNotations.

(* what is taken out of a condition or a switch is an operation found under it, which does not
   depend on variables other than the inputs of the function *)
Theorem shared_sound : forall h rk n root b x, ranked h rk -> rk root < n -> In (b, x) (shared_nodes n h root) ->
  is_block h b /\ reach h b x /\ b <> x /\ movable h x /\ ~ uses_variable h x.
Proof.
  intros h rk n root b x R L H. destruct (shared_ok h rk R n root b x L H) as (A & B & (C & D) & E). split; [exact A|]. split; [exact B|]. split; [intros ->; lia|]. split; assumption.
Qed.

(* whatever the branches taken, the operations executed are the same in the same order, with
   executions of shared operations inserted *)
Theorem sharing_executions : forall h rk n root choice, ranked h rk -> rk root < n ->
  let h' := subexpression_sharing n h root in
  inserted (fun b => exists a x m, In (a, x) (shared_nodes n h root) /\ rk x < m /\ b = exec h' choice m x)
           (exec h choice n root) (exec h' choice n root) /\ ranked h' rk.
Proof.
  intros h rk n root choice R L h'.
  assert (A : forall b x, In (b, x) (shared_nodes n h root) -> rk x < rk b) by (intros b x H; apply (shared_ok h rk R n root b x L H)).
  pose proof (insert_grown (shared_nodes n h root) rk A n h root R) as G. fold (subexpression_sharing n h root) in G. fold h' in G. split.
  - apply exec_grown; assumption.
  - eapply grown_ranked; eassumption.
Qed.

(* objects are kept, but for inputs of statements, which get shared operations inserted *)
Theorem sharing_objects : forall h rk n root k nd, ranked h rk -> rk root < n -> nth_error h k = Some nd ->
  exists nd', nth_error (subexpression_sharing n h root) k = Some nd' /\ n_kind nd' = n_kind nd /\ n_cases nd' = n_cases nd /\
  inserted (fun l => exists b x, l = [x] /\ In (b, x) (shared_nodes n h root)) (n_inputs nd) (n_inputs nd') /\
  ((forall p, n_kind nd <> KStmt p) -> nd' = nd).
Proof.
  intros h rk n root k nd R L N.
  assert (A : forall b x, In (b, x) (shared_nodes n h root) -> rk x < rk b) by (intros b x H; apply (shared_ok h rk R n root b x L H)).
  pose proof (insert_grown (shared_nodes n h root) rk A n h root R) as G. fold (subexpression_sharing n h root) in G. specialize (G k). rewrite N in G.
  destruct (nth_error (subexpression_sharing n h root) k) as [nd'|]; [|contradiction]. destruct G as (G1 & G2 & G3). exists nd'.
  split; [reflexivity|]. split; [exact G1|]. split; [exact G2|]. split.
  - destruct G3 as [[_ G3]|G3]; [|rewrite G3; apply inserted_refl]. clear - G3.
    induction G3 as [|x l l' W IH|b x l l' I X W IH]; [constructor|apply ins_same; exact IH|]. apply (ins_block _ [x]); [exists b, x; split; [reflexivity|exact I]|exact IH].
  - intro K. destruct G3 as [[[p P] _]|G3]; [exfalso; exact (K p P)|]. destruct nd, nd'. cbn in *. congruence.
Qed.

(* a program in which each operation is used once is not changed *)
Theorem unshared_unchanged : forall h n root, NoDup (visits h n root) -> subexpression_sharing n h root = h.
Proof.
  intros h n root ND. unfold subexpression_sharing, shared_nodes.
  destruct (look_once h n true [] (mkS [] [] []) root ND) as [A _]; [intros k _ []|]. rewrite A. apply insert_none.
Qed.

(* ---- what is wrong ---- *)
(* if (v) { op; ... ; op }, op of any class, used k times in the only branch *)
Definition one_branch (c k : nat) : heap :=
  [mkN (KLeaf false) [] []; mkN (KOp c) [0] []; mkN (KStmt false) (repeat 1 k) []; mkN KCond [0; 2] []; mkN (KStmt false) [3] []].
Lemma one_ranked : forall c k, ranked (one_branch c k) (fun i => i).
Proof.
  intros c k i nd x N I. destruct i as [|[|[|[|[|i]]]]]; [..|destruct i; discriminate N]; injection N as <-; cbn in I.
  - destruct I.
  - destruct I as [<-|[]]. lia.
  - rewrite app_nil_r in I. apply repeat_spec in I. lia.
  - destruct I as [<-|[<-|[]]]; lia.
  - destruct I as [<-|[]]. lia.
Qed.
Lemma one_fold : forall c k q j anc, fold_left (look 2 (one_branch c k) false [3]) (repeat 1 q) (mkS [(1, [3])] [] (repeat (3, 1) j ++ anc)) =
  mkS [(1, [3])] [] (repeat (3, 1) j ++ anc ++ repeat (3, 1) q).
Proof.
  intros c k q. induction q as [|q IH]; intros j anc; [cbn; now rewrite app_nil_r|]. cbn [repeat fold_left].
  change (look 2 (one_branch c k) false [3] (mkS [(1, [3])] [] (repeat (3, 1) j ++ anc)) 1) with (mkS [(1, [3])] [] ((repeat (3, 1) j ++ anc) ++ [(3, 1)])).
  rewrite <- app_assoc. rewrite IH. rewrite <- app_assoc. reflexivity.
Qed.
Lemma one_shared : forall c k, shared_nodes 5 (one_branch c (S k)) 4 = repeat (3, 1) k.
Proof.
  intros c k. unfold shared_nodes.
  change (ancestors (fold_left (look 2 (one_branch c (S k)) false [3]) (repeat 1 k) (mkS [(1, [3])] [] (repeat (3, 1) 0 ++ []))) = repeat (3, 1) k).
  rewrite one_fold. reflexivity.
Qed.
Lemma pre_repeat : forall b x k j, pre_nodes (repeat (b, x) k) j = if Nat.eqb b j then repeat x k else [].
Proof.
  intros b x k j. unfold pre_nodes. induction k as [|k IH]; cbn [repeat filter map]; [destruct (Nat.eqb b j); reflexivity|]. cbn [fst]. destruct (Nat.eqb b j); cbn [map snd repeat]; [now rewrite IH|exact IH].
Qed.
Lemma one_result : forall c k, subexpression_sharing 5 (one_branch c (S k)) 4 =
  [mkN (KLeaf false) [] []; mkN (KOp c) [0] []; mkN (KStmt false) (repeat 1 (S k)) []; mkN KCond [0; 2] []; mkN (KStmt false) (repeat 1 k ++ [3]) []].
Proof.
  intros c k. unfold subexpression_sharing. rewrite one_shared.
  assert (S2 : insert_pre 3 (repeat (3, 1) k) (one_branch c (S k)) 2 = one_branch c (S k)).
  { change (insert_pre 3 (repeat (3, 1) k) (one_branch c (S k)) 2) with (let '(h', l) := fold_left (fun a op => (insert_pre 2 (repeat (3, 1) k) (fst a) op, snd a ++ pre_nodes (repeat (3, 1) k) op ++ [op])) (repeat 1 (S k)) (one_branch c (S k), []) in set_inputs h' 2 l).
    assert (F : forall q acc, fold_left (fun a op => (insert_pre 2 (repeat (3, 1) k) (fst a) op, snd a ++ pre_nodes (repeat (3, 1) k) op ++ [op])) (repeat 1 q) (one_branch c (S k), acc) = (one_branch c (S k), acc ++ repeat 1 q)).
    { induction q as [|q IH]; intro acc; [cbn; now rewrite app_nil_r|]. cbn [repeat fold_left fst snd]. rewrite pre_repeat.
      change (insert_pre 2 (repeat (3, 1) k) (one_branch c (S k)) 1) with (one_branch c (S k)). cbn [Nat.eqb app]. rewrite IH, <- app_assoc. reflexivity. }
    rewrite (F (S k) []). reflexivity. }
  assert (S3 : insert_pre 4 (repeat (3, 1) k) (one_branch c (S k)) 3 = one_branch c (S k)).
  { change (insert_pre 4 (repeat (3, 1) k) (one_branch c (S k)) 3) with (insert_pre 3 (repeat (3, 1) k) (insert_pre 3 (repeat (3, 1) k) (one_branch c (S k)) 0) 2).
    change (insert_pre 3 (repeat (3, 1) k) (one_branch c (S k)) 0) with (one_branch c (S k)). exact S2. }
  change (insert_pre 5 (repeat (3, 1) k) (one_branch c (S k)) 4) with
    (set_inputs (insert_pre 4 (repeat (3, 1) k) (one_branch c (S k)) 3) 4 ([] ++ pre_nodes (repeat (3, 1) k) 3 ++ [3])).
  rewrite S3, pre_repeat. reflexivity.
Qed.
(* the docstring says branches; levels are not looked at, so that an operation used k+1 times in a
   single branch is executed k times before the condition, even when the branch is not taken *)
Theorem one_branch_refuted : forall c k,
  exec (one_branch c (S k)) (fun _ => 1) 5 4 = [] /\
  exec (subexpression_sharing 5 (one_branch c (S k)) 4) (fun _ => 1) 5 4 = repeat 1 k.
Proof.
  intros c k. split; [reflexivity|]. rewrite one_result. set (h := [_; _; _; _; _]).
  change (exec h (fun _ => 1) 5 4) with (concat (map (exec h (fun _ => 1) 4) (repeat 1 k ++ [3]))). rewrite map_app, concat_app.
  change (concat (map (exec h (fun _ => 1) 4) [3])) with (@nil nat). rewrite app_nil_r.
  assert (E : exec h (fun _ => 1) 4 1 = [1]) by reflexivity. clearbody h. induction k as [|q IH]; [reflexivity|]. cbn [repeat map concat]. rewrite E. cbn [app]. f_equal. exact IH.
Qed.

(* if (v) { store; load + ...; load + ... }: the load goes before the store *)
Definition load_store : heap :=
  [mkN (KLeaf false) [] []; mkN (KOp 0) [0] []; mkN (KOp 1) [0] []; mkN (KOp 2) [2] []; mkN (KOp 3) [2] [];
   mkN (KStmt false) [1; 3; 4] []; mkN KCond [0; 5] []; mkN (KStmt false) [6] []].
Theorem load_before_store_refuted :
  exec load_store (fun _ => 0) 8 7 = [1; 2; 3; 2; 4] /\ exec (subexpression_sharing 8 load_store 7) (fun _ => 0) 8 7 = [2; 1; 2; 3; 2; 4].
Proof. vm_compute. split; reflexivity. Qed.

(* a condition which is itself a branch: the operation of its two branches is not factorized,
   as insertions are made in statements only *)
Definition nested (c : nat) : heap :=
  [mkN (KLeaf false) [] []; mkN (KOp c) [0] []; mkN KCond [0; 1; 1] []; mkN KCond [0; 2] []; mkN (KStmt false) [3] []].
Theorem nested_block_refuted : forall c, shared_nodes 5 (nested c) 4 = [(2, 1)] /\ subexpression_sharing 5 (nested c) 4 = nested c.
Proof. intro c. split; reflexivity. Qed.
(* conditions inside a switch: the cases are not gone through by the insertion *)
Definition in_switch (c : nat) : heap :=
  [mkN (KLeaf false) [] []; mkN (KOp c) [0] []; mkN KCond [0; 1; 1] []; mkN (KStmt false) [2] []; mkN KSwitch [0] [3]; mkN (KStmt false) [4] []].
Theorem switch_case_refuted : forall c, shared_nodes 6 (in_switch c) 5 = [(2, 1)] /\ subexpression_sharing 6 (in_switch c) 5 = in_switch c.
Proof. intro c. split; reflexivity. Qed.
(* a statement object used twice gets its insertions twice *)
Definition twice (c : nat) : heap :=
  [mkN (KLeaf false) [] []; mkN (KOp c) [0] []; mkN KCond [0; 1; 1] []; mkN (KStmt false) [2] []; mkN KCond [0; 3; 3] []; mkN (KStmt false) [4] []].
Theorem shared_statement_refuted : forall c, option_map n_inputs (nth_error (subexpression_sharing 6 (twice c) 5) 3) = Some [1; 1; 1; 1; 1; 1; 2].
Proof. intro c. reflexivity. Qed.

(* ---- examples ---- *)
(* if (v) { a = op } else { b = op }: the operation is put before the condition, once *)
Definition two_branches : heap :=
  [mkN (KLeaf false) [] []; mkN (KOp 0) [0] []; mkN (KOp 1) [1] []; mkN (KOp 2) [1] []; mkN (KStmt false) [2] []; mkN (KStmt false) [3] []; mkN KCond [0; 4; 5] []; mkN (KStmt false) [6] []].
Example two_branches_run : option_map n_inputs (nth_error (subexpression_sharing 8 two_branches 7) 7) = Some [1; 6] /\ shared_nodes 8 two_branches 7 = [(6, 1)].
Proof. split; reflexivity. Qed.
Example two_branches_ranked : ranked two_branches (fun i => i).
Proof.
  intros i nd c N I. do 8 (destruct i as [|i]; [injection N as <-; cbn in I; repeat (destruct I as [<-|I]; [lia|]); destruct I|]). destruct i; discriminate N.
Qed.
(* the same depending on a local variable is left *)
Example local_variable : forall l, l = mkN (KLeaf true) [] [] :: tl two_branches -> subexpression_sharing 8 l 7 = l /\ uses_variable l 1.
Proof.
  intros l ->. split; [reflexivity|]. eapply (uv_step _ 1 (mkN (KOp 0) [0] []) 0); [reflexivity|intros v; discriminate|now left|]. eapply uv_leaf; reflexivity.
Qed.
Example no_sharing : NoDup (visits (one_branch 0 1) 5 4).
Proof. cbn. constructor; [intros []|constructor]. Qed.

Print Assumptions shared_sound.
Print Assumptions sharing_executions.
Print Assumptions sharing_objects.
Print Assumptions unshared_unchanged.
Print Assumptions one_branch_refuted.
Print Assumptions load_before_store_refuted.
Print Assumptions nested_block_refuted.
Print Assumptions switch_case_refuted.
Print Assumptions shared_statement_refuted.
