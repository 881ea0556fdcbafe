(* Pass scheduling (C39). *)
Require Import List Arith Bool Lia Permutation.
From Verif Require Import PassesModel.
Import ListNotations.

(* ---- spec ---- *)
Fixpoint dep_met (ex : list pass) (d : dep) : Prop :=
  match d with
  | DNone => True
  | DClass c => exists p, In p ex /\ In c (classes p)
  | DId i => exists p, In p ex /\ pass_id p = i
  | DAnd l r => dep_met ex l /\ dep_met ex r
  | DOr l r => dep_met ex l \/ dep_met ex r
  end.
(* executing l after ex: every pass finds its dependency among earlier ones *)
Definition in_order (ex : list pass) (l : list wrapper) : Prop :=
  forall l1 w l2, l = l1 ++ w :: l2 -> dep_met (ex ++ map fst l1) (snd w).

Lemma resolved_iff : forall ex d, resolved ex d = true <-> dep_met ex d.
Proof.
  intros ex. induction d as [|c|i|l IHl r IHr|l IHl r IHr]; cbn.
  - tauto.
  - rewrite existsb_exists. split.
    + intros [p [Hp H]]. apply existsb_exists in H. destruct H as [x [Hx E]]. apply Nat.eqb_eq in E. subst. eauto.
    + intros [p [Hp H]]. exists p. split; auto. apply existsb_exists. exists c. split; auto. apply Nat.eqb_refl.
  - rewrite existsb_exists. split; intros [p [Hp H]]; exists p; split; auto; apply Nat.eqb_eq; auto.
  - rewrite andb_true_iff, IHl, IHr. tauto.
  - rewrite orb_true_iff, IHl, IHr. tauto.
Qed.
Lemma dep_met_mono : forall ex ex' d, incl ex ex' -> dep_met ex d -> dep_met ex' d.
Proof.
  intros ex ex' d H. induction d; cbn; auto.
  - intros [p [? ?]]. eauto.
  - intros [p [? ?]]. eauto.
  - tauto.
  - tauto.
Qed.
Lemma filter_partition : forall A (f : A -> bool) l, Permutation l (filter f l ++ filter (fun x => negb (f x)) l).
Proof.
  induction l as [|a l IH]; cbn; auto. destruct (f a); cbn; [constructor; auto|].
  rewrite IH at 1. apply Permutation_middle.
Qed.

Section P.
  Variable V : Type.
  Variable exec : pass -> V -> V.

  (* one turn: rd are the wrappers of the ready passes *)
  Lemma exec_loop_spec : forall fuel s v rd, ready s = map fst rd ->
    Forall (fun w => dep_met (executed s) (snd w)) rd ->
    Forall (fun w => resolved (executed s) (snd w) = false) (waiting s) ->
    length (waiting s) < fuel ->
    exists s' v' l, exec_loop V exec fuel s v = Some (s', v') /\
      executed s' = executed s ++ map fst l /\ in_order (executed s) l /\
      Permutation (rd ++ waiting s) (l ++ waiting s') /\ ready s' = [] /\ slots s' = slots s /\
      (forall w, In w (waiting s') -> ~ dep_met (executed s') (snd w)).
  Proof.
    induction fuel as [|f IH]; intros s v rd Hr Hd Hw Hf; [lia|].
    destruct rd as [|w0 rd'] eqn:Erd.
    - assert (E : exec_loop V exec (S f) s v = Some (s, v)) by (cbn [exec_loop]; rewrite Hr; reflexivity).
      exists s, v, []. split; [exact E|]. rewrite app_nil_r. split; auto. split.
      { intros l1 w l2 H. destruct l1; discriminate. }
      split; [reflexivity|]. split; [exact Hr|]. split; auto.
      intros w Hin. rewrite Forall_forall in Hw. specialize (Hw w Hin). rewrite <- resolved_iff, Hw. discriminate.
    - rewrite <- Erd in *.
      assert (Ne : ready s <> []) by (rewrite Hr, Erd; discriminate).
      set (s0 := mksched (slots s) (executed s ++ ready s) [] (waiting s)).
      assert (E : exec_loop V exec (S f) s v = exec_loop V exec f (update_rdy s0) (execute_pass_list V exec (ready s) v)).
      { cbn [exec_loop]. destruct (ready s); [contradiction|reflexivity]. }
      set (rd2 := filter (fun w => resolved (executed s0) (snd w)) (waiting s)).
      assert (ER : ready (update_rdy s0) = map fst rd2) by reflexivity.
      (* either nothing new is ready, or the waiting list shrinks *)
      assert (ORD : forall l, in_order (executed s ++ map fst rd) l -> in_order (executed s) (rd ++ l)).
      { intros l Hl l1 w l2 H.
        assert (C : (exists r2, rd = l1 ++ w :: r2) \/ (exists x, l1 = rd ++ x /\ l = x ++ w :: l2)).
        { clear - H. revert l1 H. induction rd as [|a rd IHr]; intros l1 H; cbn in H.
          - right. exists l1. auto.
          - destruct l1 as [|b l1]; cbn in H; injection H as -> H.
            + left. exists rd. auto.
            + destruct (IHr l1 H) as [[r2 ->]|[x [-> ->]]]; [left; exists r2; reflexivity|right; exists x; split; reflexivity]. }
        destruct C as [[r2 E2]|[x [-> E2]]].
        - apply dep_met_mono with (executed s); [apply incl_appl, incl_refl|].
          rewrite Forall_forall in Hd. apply Hd. rewrite E2. apply in_or_app. right. left. auto.
        - rewrite map_app, app_assoc. apply (Hl x w l2 E2). }
      assert (D2 : rd2 = [] \/ exists w2 rd2', rd2 = w2 :: rd2') by (generalize rd2; intros [|? ?]; eauto).
      destruct D2 as [E2|[w2 [rd2' E2]]].
      + (* next turn stops *)
        assert (R0 : ready (update_rdy s0) = []) by (rewrite ER, E2; reflexivity).
        exists (update_rdy s0), (execute_pass_list V exec (ready s) v), rd. rewrite E.
        assert (E3 : exec_loop V exec f (update_rdy s0) (execute_pass_list V exec (ready s) v) = Some (update_rdy s0, execute_pass_list V exec (ready s) v)).
        { destruct f; cbn [exec_loop]; rewrite R0; reflexivity. }
        split; [exact E3|]. split; [cbn; rewrite Hr; reflexivity|]. split.
        { rewrite <- (app_nil_r rd). apply ORD. intros l1 w l2 H. destruct l1; discriminate. }
        assert (W : waiting (update_rdy s0) = waiting s).
        { unfold update_rdy; cbn [waiting s0]. clear - E2. unfold rd2 in E2. cbn [executed s0] in *.
          induction (waiting s) as [|a l IHl]; auto. cbn in *. destruct (resolved _ (snd a)); [discriminate|]. cbn. f_equal. auto. }
        rewrite W. split; [reflexivity|]. split; [exact R0|]. split; [reflexivity|].
        intros w Hin. rewrite <- resolved_iff. cbn. intros C.
        assert (In w rd2) by (apply filter_In; auto). rewrite E2 in H. destruct H.
      + assert (LN : length (waiting (update_rdy s0)) < length (waiting s)).
        { pose proof (Permutation_length (filter_partition _ (fun w => resolved (executed s0) (snd w)) (waiting s))) as PL.
          rewrite app_length in PL.
          change (filter (fun w => resolved (executed s0) (snd w)) (waiting s)) with rd2 in PL. rewrite E2 in PL. cbn [length] in PL.
          change (waiting (update_rdy s0)) with (filter (fun w => negb (resolved (executed s0) (snd w))) (waiting s)).
          unfold wrapper in *. lia. }
        destruct (IH (update_rdy s0) (execute_pass_list V exec (ready s) v) rd2) as [s' [v' [l [A [B [C [D [F [G H]]]]]]]]].
        * reflexivity.
        * apply Forall_forall. intros w Hin. apply filter_In in Hin. apply resolved_iff. apply Hin.
        * apply Forall_forall. intros w Hin. cbn [waiting update_rdy s0] in Hin. apply filter_In in Hin.
          destruct Hin as [_ Hin]. apply negb_true_iff in Hin. exact Hin.
        * lia.
        * exists s', v', (rd ++ l). rewrite E. split; [exact A|]. split.
          { rewrite B. cbn [executed update_rdy s0]. rewrite Hr, map_app, app_assoc. reflexivity. }
          split; [apply ORD; cbn [executed update_rdy s0] in C; rewrite Hr in C; exact C|].
          split; [|auto].
          rewrite <- app_assoc, <- D. apply Permutation_app_head. unfold rd2.
          apply (filter_partition _ (fun w => resolved (executed s0) (snd w)) (waiting s)).
  Qed.

  (* executing a slot ends; the passes it executes come from the waiting list
     and the slot, each once, each after what it depends on; passes left waiting
     have an unmet dependency; other slots are untouched *)
  Theorem execute_slot_respects_dependencies : forall s slot v, ready s = [] ->
    exists s' v' l, execute_from_slot V exec s slot v = Some (s', v') /\
      executed s' = executed s ++ map fst l /\ in_order (executed s) l /\
      Permutation (waiting s ++ map snd (filter (fun x => Nat.eqb (fst x) slot) (slots s))) (l ++ waiting s') /\
      ready s' = [] /\
      slots s' = filter (fun x => negb (Nat.eqb (fst x) slot)) (slots s) /\
      (forall w, In w (waiting s') -> ~ dep_met (executed s') (snd w)).
  Proof.
    intros s slot v Hr. unfold execute_from_slot.
    set (s1 := enqueue_slot s slot). set (rd := filter (fun w => resolved (executed s1) (snd w)) (waiting s1)).
    destruct (exec_loop_spec (S (length (waiting (update_rdy s1)))) (update_rdy s1) v rd) as [s' [v' [l [A [B [C [D [F [G H]]]]]]]]].
    - cbn [ready update_rdy s1 enqueue_slot]. rewrite Hr. reflexivity.
    - apply Forall_forall. intros w Hin. apply filter_In in Hin. apply resolved_iff. apply Hin.
    - apply Forall_forall. intros w Hin. cbn [waiting update_rdy] in Hin. apply filter_In in Hin.
      destruct Hin as [_ Hin]. apply negb_true_iff in Hin. exact Hin.
    - lia.
    - exists s', v', l. split; [exact A|]. split; [exact B|]. split; [exact C|]. split; [|auto].
      rewrite <- D. unfold rd. cbn [waiting update_rdy].
      apply (filter_partition _ (fun w => resolved (executed s1) (snd w)) (waiting s1)).
  Qed.

  (* ---- whole compilation: registrations and slot executions in any order ---- *)
  Inductive event := Register (slot : nat) (w : wrapper) | Execute (slot : nat).
  Fixpoint run (s : sched) (v : V) (es : list event) : option (sched * V) :=
    match es with
    | [] => Some (s, v)
    | Register k w :: t => run (register_pass s k w) v t
    | Execute k :: t => match execute_from_slot V exec s k v with
                        | Some (s', v') => run s' v' t | None => None end
    end.
  Fixpoint registered (es : list event) : list wrapper :=
    match es with [] => [] | Register _ w :: t => w :: registered t | Execute _ :: t => registered t end.
  Lemma in_order_app : forall ex l m, in_order ex l -> in_order (ex ++ map fst l) m -> in_order ex (l ++ m).
  Proof.
    intros ex l. induction l as [|a l IH] using rev_ind; intros m H1 H2.
    - cbn in *. rewrite app_nil_r in H2. auto.
    - rewrite <- app_assoc. cbn [app]. apply IH.
      + intros l1 w l2 E. apply (H1 l1 w (l2 ++ [a])). rewrite E, <- app_assoc. reflexivity.
      + intros l1 w l2 E. destruct l1 as [|b l1]; cbn in E; injection E as <- E.
        * cbn. rewrite app_nil_r. apply (H1 l a []). reflexivity.
        * specialize (H2 l1 w l2 E). rewrite map_app in H2. cbn in H2. cbn [map]. rewrite <- app_assoc in *. cbn in H2.
          rewrite <- !app_assoc in H2. cbn in H2. exact H2.
  Qed.
  Theorem schedule_respects_dependencies : forall es s v, ready s = [] ->
    exists s' v' l, run s v es = Some (s', v') /\ ready s' = [] /\
      executed s' = executed s ++ map fst l /\ in_order (executed s) l /\
      Permutation (waiting s ++ map snd (slots s) ++ registered es) (l ++ waiting s' ++ map snd (slots s')).
  Proof.
    induction es as [|e es IH]; intros s v Hr.
    - exists s, v, []. split; [reflexivity|]. split; auto. split; [cbn; rewrite app_nil_r; auto|]. split.
      { intros l1 w l2 H. destruct l1; discriminate. }
      cbn. rewrite app_nil_r. reflexivity.
    - destruct e as [k w|k]; cbn [run registered].
      + destruct (IH (register_pass s k w) v Hr) as [s' [v' [l [A [B [C [D E]]]]]]].
        exists s', v', l. split; [exact A|]. split; [exact B|]. split; [exact C|]. split; [exact D|].
        rewrite <- E. cbn [waiting slots register_pass]. rewrite map_app. cbn [map]. rewrite <- app_assoc. reflexivity.
      + destruct (execute_slot_respects_dependencies s k v Hr) as [s1 [v1 [l1 [A [B [C [D [F [G _]]]]]]]]].
        destruct (IH s1 v1 F) as [s' [v' [l [A' [B' [C' [D' E']]]]]]].
        exists s', v', (l1 ++ l). rewrite A. split; [exact A'|]. split; [exact B'|]. split.
        { rewrite C', B, map_app, app_assoc. reflexivity. }
        split. { apply in_order_app; auto. rewrite <- B. exact D'. }
        rewrite <- app_assoc, <- E'. rewrite G.
        rewrite (app_assoc l1 (waiting s1)), <- D.
        rewrite <- !app_assoc. apply Permutation_app_head. rewrite !app_assoc. apply Permutation_app_tail.
        rewrite <- map_app. apply Permutation_map. apply filter_partition.
  Qed.

  (* ---- values ---- *)
  (* a turn with several ready passes keeps the result of the last one only, on
     the original inputs *)
  Theorem pass_list_value : forall l p v, execute_pass_list V exec (l ++ [p]) v = exec p v.
  Proof. intros. unfold execute_pass_list. rewrite fold_left_app. reflexivity. Qed.
  Theorem pass_chain_refuted : forall p q v, exec q (exec p v) <> exec q v ->
    execute_pass_list V exec [p; q] v <> exec q (exec p v).
  Proof. intros p q v H E. apply H. rewrite <- E. reflexivity. Qed.
  (* two passes without dependency in the same slot: the effect of the first is lost *)
  Theorem slot_chain_refuted : forall p q v, exists s',
    execute_from_slot V exec (mksched [(0, (p, DNone)); (0, (q, DNone))] [] [] []) 0 v = Some (s', exec q v).
  Proof. intros. eexists. reflexivity. Qed.
  (* passes chained by dependencies are composed: p, then q depending on p *)
  Theorem slot_chain_partial : forall p q v, exists s',
    execute_from_slot V exec (mksched [(0, (p, DNone)); (0, (q, DId (pass_id p)))] [] [] []) 0 v
      = Some (s', exec q (exec p v)).
  Proof. intros p q v. unfold execute_from_slot. cbn. rewrite Nat.eqb_refl. cbn. eexists. reflexivity. Qed.
End P.

Example passes_example :
  let a := mkpass 0 [10] in let b := mkpass 1 [11] in let c := mkpass 2 [12] in
  let s := mksched [(0, (b, DAnd (DClass 10) (DId 2))); (0, (a, DNone)); (1, (c, DClass 10))] [] [] [] in
  exists s', run nat (fun p v => v + pass_id p + 1) s 0 [Execute 0; Execute 1] = Some (s', 1 + (2 + 1) + (1 + 1)) /\
  executed s' = [a; c; b] /\ waiting s' = [].
Proof. cbn. eexists. split; [reflexivity|]. split; reflexivity. Qed.

Print Assumptions execute_slot_respects_dependencies. Print Assumptions schedule_respects_dependencies.
Print Assumptions slot_chain_refuted. Print Assumptions slot_chain_partial.
