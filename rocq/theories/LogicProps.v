(* Operand-list reductions (C50) and logical simplification (C14). *)
Require Import ZArith Bool List Arith Lia Permutation.
From Verif Require Import LogicModel.
Import ListNotations.
Open Scope nat_scope.

(* ---- spec ---- *)
Fixpoint beval (env : nat -> bool) (e : bexp) : bool :=
  match e with
  | BAtom i => env i
  | BNot a => negb (beval env a)
  | BAnd a b => beval env a && beval env b
  | BOr a b => beval env a || beval env b
  | BIte c a b => if beval env c then beval env a else beval env b
  end.
(* binary trees: the operation graphs built by a reduction *)
Inductive tree (A : Type) := Leaf (a : A) | Node (l r : tree A).
Arguments Leaf {A}. Arguments Node {A}.
Fixpoint tree_leaves {A} (t : tree A) : list A :=
  match t with Leaf a => [a] | Node l r => tree_leaves l ++ tree_leaves r end.
Fixpoint tree_fold {A} (f : A -> A -> A) (t : tree A) : A :=
  match t with Leaf a => a | Node l r => f (tree_fold f l) (tree_fold f r) end.
Fixpoint tree_depth {A} (t : tree A) : nat :=
  match t with Leaf _ => 0 | Node l r => S (Nat.max (tree_depth l) (tree_depth r)) end.

(* ---- C50 ---- *)
Lemma reduce_loop_invariant : forall A (ctor : A -> A -> A) (P : list A -> Prop),
  (forall a b t, P (a :: b :: t) -> P (t ++ [ctor a b])) ->
  forall fuel l, length l <= S fuel -> l <> [] -> P l -> exists r, reduce_loop ctor fuel l = Some r /\ P [r].
Proof.
  intros A ctor P HP. induction fuel as [|f IH]; intros l Hl Hn H;
    (destruct l as [|a [|b t]]; [contradiction|exists a; split; auto|]); cbn [length] in Hl; [lia|].
  cbn [reduce_loop]. apply IH; auto.
  - rewrite app_length; cbn; lia.
  - destruct t; discriminate.
Qed.
(* every operand is used exactly once *)
Theorem queue_reduce_uses_all : forall A (l : list A), l <> [] ->
  exists t, queue_reduce Node (map Leaf l) = Some t /\ Permutation (tree_leaves t) l.
Proof.
  intros A l Hn. unfold queue_reduce.
  destruct (reduce_loop_invariant (tree A) Node (fun q => Permutation (flat_map tree_leaves q) l)) with
    (fuel := length (map (@Leaf A) l)) (l := map (@Leaf A) l) as [r [E H]].
  - intros a b t H. rewrite <- H. rewrite flat_map_app. cbn [flat_map tree_leaves]. rewrite app_nil_r.
    rewrite (Permutation_app_comm (flat_map tree_leaves t)), app_assoc. reflexivity.
  - lia.
  - destruct l; [contradiction|discriminate].
  - assert (E : flat_map tree_leaves (map (@Leaf A) l) = l) by (clear; induction l; cbn; congruence).
    rewrite E. reflexivity.
  - exists r. split; auto. cbn in H. rewrite app_nil_r in H. auto.
Qed.
(* the graph does not depend on the operands: combining values or building the
   tree and evaluating it is the same *)
Lemma reduce_loop_hom : forall A B (f : A -> A -> A) (g : B -> B -> B) (h : A -> B),
  (forall a b, h (f a b) = g (h a) (h b)) ->
  forall fuel l, option_map h (reduce_loop f fuel l) = reduce_loop g fuel (map h l).
Proof.
  intros A B f g h H. induction fuel as [|n IH]; intros l; destruct l as [|a [|b t]]; auto.
  cbn [reduce_loop map]. rewrite IH, map_app. cbn [map]. rewrite H. reflexivity.
Qed.
Lemma fold_right_perm : forall A (f : A -> A -> A) (z : A),
  (forall a b c, f a (f b c) = f (f a b) c) -> (forall a b, f a b = f b a) ->
  forall l m, Permutation l m -> fold_right f z l = fold_right f z m.
Proof.
  intros A f z As Co l m P. induction P; cbn; auto.
  - f_equal; auto.
  - rewrite !As, (Co y x). reflexivity.
  - congruence.
Qed.
Lemma tree_fold_fold : forall A (f : A -> A -> A), (forall a b c, f a (f b c) = f (f a b) c) ->
  forall t z, f (tree_fold f t) z = fold_right f z (tree_leaves t).
Proof.
  intros A f As. induction t as [a|l IHl r IHr]; intros z; cbn; auto.
  rewrite fold_right_app, <- IHr, <- IHl, As. reflexivity.
Qed.
Definition fold1 {A} (f : A -> A -> A) (l : list A) : option A :=
  match l with [] => None | h :: t => Some (fold_right f h t) end.
Lemma fold_swap : forall A (f : A -> A -> A),
  (forall a b c, f a (f b c) = f (f a b) c) -> (forall a b, f a b = f b a) ->
  forall t h x, f h (fold_right f x t) = f x (fold_right f h t).
Proof.
  intros A f As Co. induction t as [|c t IH]; intros h x; cbn; [apply Co|].
  rewrite !As, (Co h c), (Co x c), <- !As, IH. reflexivity.
Qed.
Lemma fold_base : forall A (f : A -> A -> A),
  (forall a b c, f a (f b c) = f (f a b) c) -> (forall a b, f a b = f b a) ->
  forall t c h, fold_right f (f c h) t = f c (fold_right f h t).
Proof.
  intros A f As Co. induction t as [|x t IH]; intros c h; cbn; auto.
  rewrite IH, !As, (Co x c). reflexivity.
Qed.
Lemma fold1_perm : forall A (f : A -> A -> A),
  (forall a b c, f a (f b c) = f (f a b) c) -> (forall a b, f a b = f b a) ->
  forall l m, Permutation l m -> fold1 f l = fold1 f m.
Proof.
  intros A f As Co l m P. induction P; auto.
  - cbn. f_equal. apply fold_right_perm; auto.
  - cbn. f_equal. apply fold_swap; auto.
  - congruence.
Qed.
Lemma fold1_tree : forall A (f : A -> A -> A),
  (forall a b c, f a (f b c) = f (f a b) c) -> (forall a b, f a b = f b a) ->
  forall t, fold1 f (tree_leaves t) = Some (tree_fold f t).
Proof.
  intros A f As Co. induction t as [a|u IHu v IHv]; auto. cbn [tree_leaves tree_fold].
  destruct (tree_leaves u) as [|h s]; [discriminate|]. cbn [fold1 app] in *. injection IHu as IHu.
  rewrite fold_right_app, <- tree_fold_fold by auto. rewrite fold_base, IHu by auto. f_equal. apply Co.
Qed.
(* for an associative and commutative operator the reduction is the fold *)
Theorem queue_reduce_fold : forall A (f : A -> A -> A),
  (forall a b c, f a (f b c) = f (f a b) c) -> (forall a b, f a b = f b a) ->
  forall a l, queue_reduce f (a :: l) = Some (fold_right f a l).
Proof.
  intros A f As Co a l.
  destruct (queue_reduce_uses_all A (a :: l)) as [t [E P]]; [discriminate|].
  unfold queue_reduce in *. rewrite map_length in E.
  assert (M : map (tree_fold f) (map Leaf (a :: l)) = a :: l).
  { rewrite map_map. cbn [tree_fold]. apply map_id. }
  rewrite <- M at 2. rewrite <- (reduce_loop_hom (tree A) A Node f (tree_fold f)) by reflexivity.
  rewrite E. cbn [option_map]. rewrite <- (fold1_tree A f As Co t), (fold1_perm A f As Co _ _ P). reflexivity.
Qed.

(* the tree is as shallow as possible: depth = ceil(log2 n) *)
Lemma reduce_depth : forall fuel d i j, i + j <= S fuel -> 1 <= i + j ->
  reduce_loop (fun a b => S (Nat.max a b)) fuel (repeat d i ++ repeat (S d) j) =
  Some (d + Nat.log2_up (i + 2 * j)).
Proof.
  assert (L3 : forall n, 1 <= n -> Nat.log2_up (1 + 2 * n) = S (Nat.log2_up (1 + n))).
  { intros n Hn. rewrite (Nat.add_comm 1), Nat.log2_up_succ_double by lia.
    rewrite (Nat.log2_up_eqn (1 + n)) by lia. cbn. reflexivity. }
  induction fuel as [|f IH]; intros d i j Hf H1.
  - destruct i as [|[|i]], j as [|[|j]]; try lia; cbn; f_equal; lia.
  - assert (G : forall d i j, i + j <= S (S f) -> 1 <= i ->
      reduce_loop (fun a b => S (Nat.max a b)) (S f) (repeat d i ++ repeat (S d) j) = Some (d + Nat.log2_up (i + 2 * j))).
    { clear d i j Hf H1. intros d i j Hf Hi. destruct i as [|[|i]]; [lia| |].
      - destruct j as [|j]; [cbn; f_equal; lia|].
        change (repeat d 1 ++ repeat (S d) (S j)) with (d :: S d :: repeat (S d) j). cbn [reduce_loop].
        rewrite Nat.max_r by lia. change [S (S d)] with (repeat (S (S d)) 1).
        rewrite IH by lia. f_equal. rewrite L3 by lia. rewrite <- plus_n_Sm. cbn [plus]. f_equal. f_equal. f_equal. lia.
      - change (repeat d (S (S i)) ++ repeat (S d) j) with (d :: d :: (repeat d i ++ repeat (S d) j)). cbn [reduce_loop].
        rewrite Nat.max_id, <- app_assoc. change [S d] with (repeat (S d) 1). rewrite <- repeat_app.
        rewrite IH by lia. f_equal. f_equal. f_equal. lia. }
    destruct i as [|i]; [|apply G; lia].
    pose proof (G (S d) j 0) as K. rewrite app_nil_r in K. cbn [repeat app]. rewrite K by lia. f_equal.
    replace (j + 2 * 0) with j by lia. replace (0 + 2 * j) with (2 * j) by lia.
    rewrite Nat.log2_up_double by lia. lia.
Qed.
Theorem queue_reduce_depth : forall A (l : list A) t, queue_reduce Node (map Leaf l) = Some t ->
  tree_depth t = Nat.log2_up (length l).
Proof.
  intros A l t E. unfold queue_reduce in E.
  assert (Hn : l <> []) by (intros ->; discriminate).
  pose proof (reduce_loop_hom (tree A) nat Node (fun a b => S (Nat.max a b)) tree_depth (fun _ _ => eq_refl)
    (length (map Leaf l)) (map Leaf l)) as H.
  rewrite E in H. cbn [option_map] in H.
  assert (R : map tree_depth (map Leaf l) = repeat 0 (length l) ++ repeat 1 0).
  { clear. induction l; cbn in *; congruence. }
  rewrite R, map_length, reduce_depth in H; [|lia|destruct l; [contradiction|cbn; lia]].
  injection H as H. rewrite Nat.add_0_r in H. cbn in H. rewrite H. auto.
Qed.
Theorem queue_reduce_empty_refuted : forall A (f : A -> A -> A), queue_reduce f [] = None.
Proof. reflexivity. Qed.

(* concatenation by halves keeps the order of the operands *)
Lemma halving_reduce_correct : forall A fuel (l : list A), l <> [] -> length l <= fuel ->
  exists t, halving_reduce Node fuel (map Leaf l) = Some t /\ tree_leaves t = l.
Proof.
  induction fuel as [|f IH]; intros l Hn Hl.
  { destruct l; [contradiction|cbn in Hl; lia]. }
  destruct l as [|a [|b l]]; [contradiction|exists (Leaf a); auto|].
  set (m := a :: b :: l) in *.
  assert (E : halving_reduce Node (S f) (map Leaf m) =
     match halving_reduce Node f (firstn (length m / 2) (map Leaf m)), halving_reduce Node f (skipn (length m / 2) (map Leaf m)) with
     | Some x, Some y => Some (Node x y) | _, _ => None end).
  { rewrite <- (map_length (@Leaf A) m). reflexivity. }
  rewrite E. rewrite firstn_map, skipn_map.
  assert (H2 : 1 <= length m / 2 < length m).
  { split; [apply Nat.div_le_lower_bound; cbn; lia|apply Nat.div_lt; cbn; lia]. }
  destruct (IH (firstn (length m / 2) m)) as [t1 [E1 F1]].
  { intros C. apply (f_equal (@length A)) in C. rewrite firstn_length in C. cbn [length] in C. lia. }
  { rewrite firstn_length. lia. }
  destruct (IH (skipn (length m / 2) m)) as [t2 [E2 F2]].
  { intros C. apply (f_equal (@length A)) in C. rewrite skipn_length in C. cbn [length] in C. lia. }
  { rewrite skipn_length. lia. }
  rewrite E1, E2. eexists. split; [reflexivity|]. cbn. rewrite F1, F2. apply firstn_skipn.
Qed.
Lemma halving_reduce_hom : forall A B (f : A -> A -> A) (g : B -> B -> B) (h : A -> B),
  (forall a b, h (f a b) = g (h a) (h b)) ->
  forall fuel l, option_map h (halving_reduce f fuel l) = halving_reduce g fuel (map h l).
Proof.
  intros A B f g h H. induction fuel as [|n IH]; intros l; auto.
  assert (G : forall m : list A, option_map h (match halving_reduce f n (firstn (length m / 2) m), halving_reduce f n (skipn (length m / 2) m) with
       | Some x, Some y => Some (f x y) | _, _ => None end) =
     match halving_reduce g n (firstn (length (map h m) / 2) (map h m)), halving_reduce g n (skipn (length (map h m) / 2) (map h m)) with
     | Some x, Some y => Some (g x y) | _, _ => None end).
  { intros m. rewrite map_length, firstn_map, skipn_map, <- !IH.
    destruct (halving_reduce f n (firstn _ m)); auto. destruct (halving_reduce f n (skipn _ m)); auto.
    cbn. rewrite H. auto. }
  destruct l as [|a [|b t]]; [apply (G [])|reflexivity|apply (G (a :: b :: t))].
Qed.
Theorem vector_concatenation_in_order : forall A (f : A -> A -> A), (forall a b c, f a (f b c) = f (f a b) c) ->
  forall e, (forall a, f a e = a) -> forall l fuel, l <> [] -> length l <= fuel ->
  halving_reduce f fuel l = Some (fold_right f e l).
Proof.
  intros A f As e Id l fuel Hn Hl. destruct (halving_reduce_correct A fuel l Hn Hl) as [t [E F]].
  assert (M : map (tree_fold f) (map Leaf l) = l) by (rewrite map_map; apply map_id).
  rewrite <- M at 1. rewrite <- (halving_reduce_hom (tree A) A Node f (tree_fold f)) by reflexivity.
  rewrite E. cbn [option_map]. f_equal. rewrite <- (Id (tree_fold f t)), tree_fold_fold by auto. congruence.
Qed.
Theorem vector_concatenation_empty_refuted : forall A (f : A -> A -> A) fuel, halving_reduce f fuel [] = None.
Proof. induction fuel as [|n IH]; auto. cbn. rewrite IH. reflexivity. Qed.

(* ---- C14 ---- *)
(* an Or whose leftmost leaf is a Not is never rewritten correctly: excluded *)
Fixpoint no_or_not (e : bexp) : Prop :=
  match e with
  | BAtom _ => True
  | BNot a => no_or_not a
  | BAnd a b => no_or_not a /\ no_or_not b
  | BOr a b => is_or_not e = false /\ no_or_not a /\ no_or_not b
  | BIte c a b => no_or_not c /\ no_or_not a /\ no_or_not b
  end.
Fixpoint bsize (e : bexp) : nat :=
  match e with
  | BAtom _ => 1 | BNot a => S (bsize a) | BAnd a b | BOr a b => S (bsize a + bsize b)
  | BIte c a b => S (bsize c + bsize a + bsize b)
  end.
Fixpoint and_leaves (x : bexp) : option (list bexp) :=
  match x with
  | BNot y => bind (lsimplify y) (fun y' => Some [y'])
  | BAnd u v => app2 (and_leaves u) (and_leaves v)
  | _ => None
  end.
Lemma lsimplify_and : forall a b, lsimplify (BAnd a b) =
  if is_and_not (BAnd a b) then bind (app2 (and_leaves a) (and_leaves b)) (fun l => bind (queue_reduce BOr l) (fun r => Some (BNot r)))
  else bind (lsimplify a) (fun a' => bind (lsimplify b) (fun b' => Some (BAnd a' b'))).
Proof. reflexivity. Qed.
Lemma app2_some : forall A (o p : option (list A)) r, app2 o p = Some r ->
  exists x y, o = Some x /\ p = Some y /\ r = x ++ y.
Proof. intros A [x|] [y|] r H; try discriminate. injection H as <-. eauto. Qed.
Lemma bind_some : forall A B (o : option A) (f : A -> option B) r, bind o f = Some r -> exists a, o = Some a /\ f a = Some r.
Proof. intros A B [a|] f r H; try discriminate. eauto. Qed.
Lemma reduce_or_eval : forall env l r, queue_reduce BOr l = Some r -> beval env r = existsb (beval env) l.
Proof.
  intros env l r H. unfold queue_reduce in H.
  pose proof (reduce_loop_hom bexp bool BOr orb (beval env) (fun _ _ => eq_refl) (length l) l) as E.
  rewrite H in E. cbn in E. destruct l as [|a l]; [discriminate|].
  rewrite <- (map_length (beval env)) in E. cbn [map] in E.
  pose proof (queue_reduce_fold bool orb orb_assoc orb_comm (beval env a) (map (beval env) l)) as F.
  unfold queue_reduce in F. rewrite F in E. injection E as ->. clear.
  revert a. induction l as [|b l IH]; intros a; cbn in *; [rewrite orb_false_r; auto|].
  rewrite IH. rewrite !orb_assoc, (orb_comm (beval env b)). reflexivity.
Qed.

Theorem logical_simplification_partial : forall env e r, no_or_not e -> lsimplify e = Some r -> beval env r = beval env e.
Proof.
  intros env. assert (G : forall n e, bsize e < n ->
    (forall r, no_or_not e -> lsimplify e = Some r -> beval env r = beval env e) /\
    (forall l, no_or_not e -> and_leaves e = Some l -> negb (existsb (beval env) l) = beval env e)).
  { induction n as [|n IH]; intros e Hs; [lia|].
    assert (IH1 : forall e r, bsize e < n -> no_or_not e -> lsimplify e = Some r -> beval env r = beval env e).
    { intros x r Hx. apply (IH x Hx). }
    assert (IH2 : forall e l, bsize e < n -> no_or_not e -> and_leaves e = Some l -> negb (existsb (beval env) l) = beval env e).
    { intros x r Hx. apply (IH x Hx). }
    assert (AP : forall x y, existsb (beval env) (x ++ y) = existsb (beval env) x || existsb (beval env) y) by (intros; apply existsb_app).
    destruct e as [i|a|a b|a b|c a b]; cbn [bsize no_or_not] in *.
    - split; [intros r _ H; injection H as <-; reflexivity|discriminate].
    - split.
      + intros r N H. cbn [lsimplify] in H. apply bind_some in H. destruct H as [a' [Ha H]]. injection H as <-.
        cbn. f_equal. apply IH1; auto; lia.
      + intros l N H. cbn [and_leaves] in H. apply bind_some in H. destruct H as [a' [Ha H]]. injection H as <-.
        cbn. rewrite orb_false_r. f_equal. apply IH1; auto; lia.
    - assert (LV : forall l, no_or_not a /\ no_or_not b -> app2 (and_leaves a) (and_leaves b) = Some l ->
                 negb (existsb (beval env) l) = beval env a && beval env b).
      { intros l [Na Nb] H. apply app2_some in H. destruct H as [x [y [Hx [Hy ->]]]].
        rewrite AP, negb_orb, (IH2 a x), (IH2 b y) by (auto; lia). reflexivity. }
      split.
      + intros r N H. rewrite lsimplify_and in H. destruct (is_and_not (BAnd a b)).
        * apply bind_some in H. destruct H as [l [Hl H]]. apply bind_some in H. destruct H as [q [Hq H]]. injection H as <-.
          cbn [beval]. rewrite (reduce_or_eval env l q Hq). apply LV; auto.
        * apply bind_some in H. destruct H as [a' [Ha H]]. apply bind_some in H. destruct H as [b' [Hb H]]. injection H as <-.
          cbn [beval]. destruct N. rewrite (IH1 a a'), (IH1 b b') by (auto; lia). reflexivity.
      + intros l N H. cbn [and_leaves] in H. apply LV; auto.
    - split; [|discriminate]. intros r [N0 [Na Nb]] H.
      assert (E : lsimplify (BOr a b) = bind (lsimplify a) (fun a' => bind (lsimplify b) (fun b' => Some (BOr a' b')))).
      { cbn [lsimplify]. rewrite N0. reflexivity. }
      rewrite E in H. apply bind_some in H. destruct H as [a' [Ha H]]. apply bind_some in H. destruct H as [b' [Hb H]]. injection H as <-.
      cbn [beval]. rewrite (IH1 a a'), (IH1 b b') by (auto; lia). reflexivity.
    - split; [|discriminate]. intros r [Nc [Na Nb]] H. cbn [lsimplify] in H.
      apply bind_some in H. destruct H as [c' [Hc H]]. apply bind_some in H. destruct H as [a' [Ha H]].
      apply bind_some in H. destruct H as [b' [Hb H]]. injection H as <-.
      cbn [beval]. rewrite (IH1 c c'), (IH1 a a'), (IH1 b b') by (auto; lia). reflexivity. }
  intros e r. apply (G (S (bsize e)) e). lia.
Qed.
(* Or(Not a, Not b) becomes Not(And(Not a, Not b)): the value of Or(a, b) *)
Theorem logical_or_not_refuted : forall env a b a' b', lsimplify a = Some a' -> lsimplify b = Some b' ->
  exists r, lsimplify (BOr (BNot a) (BNot b)) = Some r /\ beval env r = beval env a' || beval env b' /\
  (beval env a' = beval env a -> beval env b' = beval env b -> beval env a = beval env b ->
   beval env r <> beval env (BOr (BNot a) (BNot b))).
Proof.
  intros env a b a' b' Ha Hb. cbn [lsimplify is_or_not]. rewrite Ha, Hb. eexists. split; [reflexivity|].
  cbn [beval]. split; [destruct (beval env a'), (beval env b'); auto|].
  intros -> -> ->. destruct (beval env b); discriminate.
Qed.
(* only the left input is inspected: And(Not a, atom) raises an exception *)
Theorem logical_and_not_raises_refuted : forall a i, lsimplify (BAnd (BNot a) (BAtom i)) = None.
Proof. intros. cbn [lsimplify is_and_not]. destruct (lsimplify a); reflexivity. Qed.
(* the pass does not raise when every tree starting with a Not has only Not leaves *)
Fixpoint pure_and_not (e : bexp) : bool :=
  match e with BNot _ => true | BAnd a b => pure_and_not a && pure_and_not b | _ => false end.
Fixpoint pure_or_not (e : bexp) : bool :=
  match e with BNot _ => true | BOr a b => pure_or_not a && pure_or_not b | _ => false end.
Fixpoint uniform (e : bexp) : Prop :=
  match e with
  | BAtom _ => True
  | BNot a => uniform a
  | BAnd a b => (is_and_not e = true -> pure_and_not e = true) /\ uniform a /\ uniform b
  | BOr a b => is_or_not e = false /\ uniform a /\ uniform b
  | BIte c a b => uniform c /\ uniform a /\ uniform b
  end.
Theorem logical_simplification_total_partial : forall e, uniform e -> exists r, lsimplify e = Some r.
Proof.
  assert (Q : forall l : list bexp, l <> [] -> exists r, queue_reduce BOr l = Some r).
  { intros l Hn. destruct (reduce_loop_invariant bexp BOr (fun _ => True) (fun _ _ _ _ => I) (length l) l) as [r [E _]]; eauto. }
  assert (G : forall n e, bsize e < n -> uniform e ->
     (exists r, lsimplify e = Some r) /\ (pure_and_not e = true -> exists l, and_leaves e = Some l /\ l <> [])).
  { induction n as [|n IH]; intros e Hs U; [lia|].
    destruct e as [i|a|a b|a b|c a b]; cbn [bsize uniform] in *.
    - split; [eexists; reflexivity|discriminate].
    - destruct (IH a ltac:(lia) U) as [[r Hr] _]. cbn [lsimplify and_leaves]. rewrite Hr. cbn. split; eauto.
      intros _. eexists. split; [reflexivity|discriminate].
    - destruct U as [U0 [Ua Ub]]. destruct (IH a ltac:(lia) Ua) as [[ra Ra] La]. destruct (IH b ltac:(lia) Ub) as [[rb Rb] Lb].
      assert (LV : pure_and_not (BAnd a b) = true -> exists l, app2 (and_leaves a) (and_leaves b) = Some l /\ l <> []).
      { intros P. cbn in P. apply andb_true_iff in P. destruct P as [Pa Pb].
        destruct (La Pa) as [x [Hx Nx]]. destruct (Lb Pb) as [y [Hy Ny]]. rewrite Hx, Hy. eexists. split; [reflexivity|].
        destruct x; [contradiction|discriminate]. }
      split; [|exact LV]. rewrite lsimplify_and. destruct (is_and_not (BAnd a b)).
      + destruct (LV (U0 eq_refl)) as [l [-> Nl]]. destruct (Q l Nl) as [r Hr]. cbn. rewrite Hr. cbn. eauto.
      + rewrite Ra, Rb. cbn. eauto.
    - destruct U as [U0 [Ua Ub]]. destruct (IH a ltac:(lia) Ua) as [[ra Ra] _]. destruct (IH b ltac:(lia) Ub) as [[rb Rb] _].
      split; [|discriminate]. cbn [lsimplify]. rewrite U0, Ra, Rb. cbn. eauto.
    - destruct U as [Uc [Ua Ub]]. destruct (IH c ltac:(lia) Uc) as [[rc Rc] _].
      destruct (IH a ltac:(lia) Ua) as [[ra Ra] _]. destruct (IH b ltac:(lia) Ub) as [[rb Rb] _].
      split; [|discriminate]. cbn [lsimplify]. rewrite Rc, Ra, Rb. cbn. eauto. }
  intros e U. apply (G (S (bsize e)) e); auto.
Qed.

Example logic_example :
  let e := BAnd (BAnd (BNot (BAtom 0)) (BNot (BAtom 1))) (BNot (BOr (BAtom 2) (BNot (BAtom 3)))) in
  lsimplify e = Some (BNot (BOr (BOr (BAtom 2) (BNot (BAtom 3))) (BOr (BAtom 0) (BAtom 1)))) /\ no_or_not e /\ uniform e /\
  queue_reduce Nat.add [1; 2; 3; 4; 5] = Some 15 /\
  halving_reduce (@app nat) 3 [[1]; [2]; [3]] = Some [1; 2; 3].
Proof. cbn. repeat split; auto. Qed.

Print Assumptions queue_reduce_uses_all. Print Assumptions queue_reduce_fold. Print Assumptions queue_reduce_depth.
Print Assumptions vector_concatenation_in_order. Print Assumptions logical_simplification_partial.
Print Assumptions logical_or_not_refuted. Print Assumptions logical_simplification_total_partial.
