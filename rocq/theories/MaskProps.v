(* Theorems on the mask tests: properties C113 and C114. *)
From Coq Require Import ZArith Bool List String Lia.
From Verif Require Import LogicModel LogicProps VecModel MaskModel MaskSpec.
Import ListNotations.
Open Scope list_scope.
Open Scope Z_scope.

(* induction over nodes with the arguments of an operation *)
Section NodeInd.
  Variable P : node -> Prop.
  Hypothesis Hl : forall i, P (NLeaf i).
  Hypothesis Ht : forall t s b v, P v -> P (NTest t s b v).
  Hypothesis He : forall v i, P v -> P (NElt v i).
  Hypothesis Hn : forall a, P a -> P (NNot a).
  Hypothesis Ha : forall a b, P a -> P b -> P (NAnd a b).
  Hypothesis Ho : forall a b, P a -> P b -> P (NOr a b).
  Hypothesis H0 : forall a, P a -> P (NEq0 a).
  Hypothesis H1 : forall a, P a -> P (NNe0 a).
  Hypothesis Hop : forall f l, Forall P l -> P (NOp f l).
  Fixpoint node_ind' (n : node) : P n :=
    match n with
    | NLeaf i => Hl i
    | NTest t s b v => Ht t s b v (node_ind' v)
    | NElt v i => He v i (node_ind' v)
    | NNot a => Hn a (node_ind' a)
    | NAnd a b => Ha a b (node_ind' a) (node_ind' b)
    | NOr a b => Ho a b (node_ind' a) (node_ind' b)
    | NEq0 a => H0 a (node_ind' a)
    | NNe0 a => H1 a (node_ind' a)
    | NOp f l => Hop f l ((fix go l : Forall P l :=
        match l with [] => Forall_nil P | a :: l => Forall_cons a (node_ind' a) (go l) end) l)
    end.
End NodeInd.

(* the boolean value of a test is its meaning *)
Lemma test_value_meaning : forall t l, test_value t l = true <-> mask_test_spec t l.
Proof.
  assert (A : forall l, forallb zero_lane l = true <-> forall z, In z l -> z = 0).
  { intros l. rewrite forallb_forall. unfold zero_lane. split; intros H z I; specialize (H z I); apply Z.eqb_eq; auto. }
  assert (B : forall l, existsb zero_lane l = true <-> In 0 l).
  { intros l. rewrite existsb_exists. unfold zero_lane. split.
    - intros [z [I E]]. apply Z.eqb_eq in E. subst; auto.
    - intros I. exists 0. split; auto. }
  intros t l; destruct t; cbn [test_value mask_test_spec].
  - apply A.
  - rewrite negb_true_iff. split.
    + intros H. induction l as [|a l IH]; [discriminate|]. cbn [forallb] in H.
      destruct (zero_lane a) eqn:E; cbn in H.
      * destruct (IH H) as [z [I N]]. exists z. split; [right|]; auto.
      * exists a. split; [left; auto|]. unfold zero_lane in E. apply Z.eqb_neq in E. auto.
    + intros [z [I N]]. destruct (forallb zero_lane l) eqn:E; auto. apply A with (z := z) in E; auto; contradiction.
  - apply B.
  - rewrite negb_true_iff, <- not_true_iff_false, B. reflexivity.
Qed.

(* ---- the reduction of the lanes *)
Section Reduce.
  Variable ops : nat -> list value -> option value.
  Variable env : nat -> option value.
  Local Notation ev := (value_of ops env).
  Definition tv (n : node) (b : bool) : Prop := exists z, ev n = Some (VScalar z) /\ negb (z =? 0) = b.

  Lemma reduce_value : forall (ctor : node -> node -> node) (op : bool -> bool -> bool) (e : bool),
    (forall a b, ev (ctor a b) = on_scalars op (ev a) (ev b)) ->
    (forall a b c, op a (op b c) = op (op a b) c) -> (forall a b, op a b = op b a) -> (forall a, op e a = a) ->
    forall l bs, (2 <= List.length l)%nat -> Forall2 tv l bs ->
    exists r, queue_reduce ctor l = Some r /\ ev r = Some (truth_value (fold_right op e bs)).
  Proof.
    intros ctor op e Hc As Co Un l bs L H.
    assert (Un2 : forall a, op a e = a) by (intros a; rewrite Co; apply Un).
    pose (I := fun q => exists cs, Forall2 tv q cs /\ fold_right op e cs = fold_right op e bs /\
      ((2 <= List.length q)%nat \/ forall n c, In n q -> tv n c -> ev n = Some (truth_value c))).
    destruct (reduce_loop_invariant node ctor I) with (fuel := List.length l) (l := l) as [r [E R]].
    - intros a b t [cs [F [V _]]]. inversion F as [|? x ? cs1 [za [Ea Ta]] F1]; subst.
      inversion F1 as [|? y ? cs2 [zb [Eb Tb]] F2]; subst.
      exists (cs2 ++ [op (negb (za =? 0)) (negb (zb =? 0))]). split; [|split].
      + apply Forall2_app; auto. constructor; auto. unfold tv. rewrite Hc, Ea, Eb. cbn [on_scalars truth_value].
        destruct (op (negb (za =? 0)) (negb (zb =? 0))); [exists 1|exists 0]; auto.
      + rewrite fold_right_app. cbn [fold_right] in *. rewrite <- V. clear - As Co Un Un2.
        rewrite Un2. set (u := negb (za =? 0)). set (v := negb (zb =? 0)). clearbody u v.
        induction cs2 as [|c cs2 IH]; cbn [fold_right].
        * rewrite Un2. reflexivity.
        * rewrite IH, !As. rewrite (Co c u). rewrite <- !As, (As c v), (Co c v), <- As. reflexivity.
      + destruct t as [|c t]; [right|left; rewrite app_length; cbn; lia].
        cbn [app]. intros n c [<-|[]] [z [Ez Tz]]. rewrite Hc, Ea, Eb in *. cbn [on_scalars] in *.
        injection Ez as Ez. subst z. f_equal. f_equal. revert Tz.
        destruct (op (negb (za =? 0)) (negb (zb =? 0))); cbn; auto.
    - lia.
    - destruct l; [cbn in L; lia|discriminate].
    - exists bs. auto.
    - destruct R as [cs [F [V [R|R]]]]; [cbn in R; lia|].
      inversion F as [|? c ? cs1 T F1]; subst. inversion F1; subst. cbn [fold_right] in V. rewrite Un2 in V.
      exists r. split; auto. rewrite <- V. apply R; [left|]; auto.
  Qed.
  (* reading the lanes *)
  Lemma lanes_check : forall (chk : node -> node) (p : Z -> bool) v l, ev v = Some (VVector l) ->
    (forall n z, ev n = Some (VScalar z) -> tv (chk n) (p z)) ->
    Forall2 tv (map chk (elements v (List.length l))) (map p l).
  Proof.
    intros chk p v l E H. unfold elements.
    assert (G : forall k m, l = m ++ skipn k l -> List.length m = k ->
      Forall2 tv (map chk (map (NElt v) (seq k (List.length (skipn k l))))) (map p (skipn k l))).
    { intros k m Em Lm. set (t := skipn k l) in *. clearbody t. subst l. revert k m Lm E.
      induction t as [|z t IH]; intros k m Lm E; cbn [List.length seq map]; constructor.
      - apply H. cbn [value_of]. rewrite E. rewrite nth_error_app2 by lia. rewrite Lm, Nat.sub_diag. reflexivity.
      - apply (IH (S k) (m ++ [z])).
        + rewrite app_length; cbn; lia.
        + rewrite <- app_assoc. exact E. }
    apply (G 0%nat []); reflexivity.
  Qed.
  Lemma fold_and : forall bs, fold_right andb true bs = forallb (fun b => b) bs.
  Proof. induction bs; cbn; auto. Qed.
  Lemma fold_or : forall bs, fold_right orb false bs = existsb (fun b => b) bs.
  Proof. induction bs; cbn; auto. Qed.
  Lemma forallb_map_id : forall (p : Z -> bool) l, forallb (fun b => b) (map p l) = forallb p l.
  Proof. intros p; induction l; cbn; auto. rewrite IHl. auto. Qed.
  Lemma existsb_map_id : forall (p : Z -> bool) l, existsb (fun b => b) (map p l) = existsb p l.
  Proof. intros p; induction l; cbn; auto. rewrite IHl. auto. Qed.
  Lemma negb_forallb : forall l, negb (forallb zero_lane l) = existsb (fun z => negb (zero_lane z)) l.
  Proof. induction l as [|a l IH]; cbn; auto. rewrite <- IH. destruct (zero_lane a); auto. Qed.
  Lemma negb_existsb : forall l, negb (existsb zero_lane l) = forallb (fun z => negb (zero_lane z)) l.
  Proof. induction l as [|a l IH]; cbn; auto. rewrite <- IH. destruct (zero_lane a); auto. Qed.

  (* the expansion has the value of the test *)
  Lemma expand_value : forall t b v l, ev v = Some (VVector l) -> (2 <= List.length l)%nat ->
    exists e, expand_node t (List.length l) b v = Some e /\ ev e = Some (truth_value (test_value t l)).
  Proof.
    intros t b v l E L.
    assert (N : (2 <= List.length (elements v (List.length l)))%nat)
      by (unfold elements; rewrite map_length, seq_length; auto).
    assert (CF : forall n z, ev n = Some (VScalar z) -> tv (check_false b n) (zero_lane z)).
    { intros n z En. unfold tv, check_false, zero_lane. destruct b; cbn [value_of]; rewrite En; cbn [on_scalar truth_value];
        (exists (if z =? 0 then 1 else 0)); split; auto; destruct (z =? 0); auto. }
    assert (CT : forall n z, ev n = Some (VScalar z) -> tv (check_true b n) (negb (zero_lane z))).
    { intros n z En. unfold tv, check_true, zero_lane. destruct b; cbn [value_of]; [exists z; auto|].
      rewrite En. cbn [on_scalar truth_value]. exists (if negb (z =? 0) then 1 else 0). split; auto. destruct (z =? 0); auto. }
    destruct t; cbn [expand_node test_value].
    - destruct (reduce_value NAnd andb true) with (l := map (check_false b) (elements v (List.length l)))
        (bs := map zero_lane l) as [r [Er Vr]]; auto using andb_assoc, andb_comm.
      + rewrite map_length; auto.
      + apply lanes_check; auto.
      + exists r. rewrite fold_and, forallb_map_id in Vr. auto.
    - destruct (reduce_value NOr orb false) with (l := map (check_true b) (elements v (List.length l)))
        (bs := map (fun z => negb (zero_lane z)) l) as [r [Er Vr]]; auto using orb_assoc, orb_comm.
      + rewrite map_length; auto.
      + apply lanes_check with (p := fun z => negb (zero_lane z)); auto.
      + exists r. rewrite fold_or, existsb_map_id in Vr. rewrite negb_forallb. auto.
    - destruct (reduce_value NOr orb false) with (l := map (check_false b) (elements v (List.length l)))
        (bs := map zero_lane l) as [r [Er Vr]]; auto using orb_assoc, orb_comm.
      + rewrite map_length; auto.
      + apply lanes_check; auto.
      + exists r. rewrite fold_or, existsb_map_id in Vr. auto.
    - destruct (reduce_value NAnd andb true) with (l := map (check_true b) (elements v (List.length l)))
        (bs := map (fun z => negb (zero_lane z)) l) as [r [Er Vr]]; auto using andb_assoc, andb_comm.
      + rewrite map_length; auto.
      + apply lanes_check with (p := fun z => negb (zero_lane z)); auto.
      + exists r. rewrite fold_and, forallb_map_id in Vr. rewrite negb_existsb. auto.
  Qed.
End Reduce.

(* the expansion never leaves a test, whatever the size is *)
Lemma expand_some : forall t size b v, (0 < size)%nat -> exists e, expand_node t size b v = Some e /\ (no_test v -> no_test e).
Proof.
  intros t size b v L.
  assert (Q : forall ctor chk, (forall a c, no_test a -> no_test c -> no_test (ctor a c)) ->
    (forall a, no_test a -> no_test (chk a)) ->
    exists e, queue_reduce ctor (map chk (elements v size)) = Some e /\ (no_test v -> no_test e)).
  { intros ctor chk Hc Hk.
    destruct (reduce_loop_invariant node ctor (fun q => no_test v -> Forall no_test q)) with
      (fuel := List.length (map chk (elements v size))) (l := map chk (elements v size)) as [r [E R]].
    - intros a c q H V. specialize (H V). inversion H as [|? ? A H']; subst. inversion H' as [|? ? C H2]; subst.
      apply Forall_app. split; auto.
    - lia.
    - unfold elements. destruct size; [lia|]. discriminate.
    - intros V. apply Forall_forall. intros x I. apply in_map_iff in I. destruct I as [y [<- I]]. apply Hk.
      unfold elements in I. apply in_map_iff in I. destruct I as [k [<- _]]. exact V.
    - exists r. split; auto. intros V. specialize (R V). inversion R; auto. }
  destruct t; cbn [expand_node]; apply Q; try (intros a c; cbn [no_test]; tauto);
    intros a; destruct b; cbn [check_true check_false no_test]; auto.
Qed.

Definition args_of (l : list node) : option (list node) :=
  (fix go l := match l with
               | [] => Some []
               | a :: l => match settle (transform a), go l with Some a, Some l => Some (a :: l) | _, _ => None end
               end) l.
Definition vals_of ops env (l : list node) : option (list value) :=
  (fix go l := match l with
               | [] => Some []
               | a :: l => match value_of ops env a, go l with Some a, Some l => Some (a :: l) | _, _ => None end
               end) l.

(* C113: the pass keeps the value of the graph and of what was changed in place *)
Lemma transform_value : forall ops env n v, well_formed n -> value_of ops env n = Some v ->
  exists m r, transform n = Done m r /\ value_of ops env m = Some v /\
    (forall e, r = Some e -> value_of ops env e = Some v).
Proof.
  intros ops env n. induction n as [i|t s b w IH|w i IH|a IH|a b IHa IHb|a b IHa IHb|a IH|a IH|f l IH] using node_ind';
    intros v W V.
  - exists (NLeaf i), None. repeat split; auto. discriminate.
  - cbn [well_formed] in W. destruct W as [S [W _]]. cbn [value_of] in V.
    destruct (value_of ops env w) as [[z|l]|] eqn:E; try discriminate.
    destruct (Nat.eqb (List.length l) s) eqn:Es; try discriminate. apply Nat.eqb_eq in Es. injection V as V.
    destruct (IH _ W eq_refl) as [m [r [T [M R]]]]. cbn [transform]. rewrite T.
    destruct (expand_value ops env t b m l M) as [e [Ee Ve]]; [lia|]. rewrite Es in Ee. rewrite Ee.
    exists (NTest t s b m), (Some e). split; auto. split.
    + cbn [value_of]. rewrite M. rewrite (proj2 (Nat.eqb_eq _ _) Es). rewrite V. auto.
    + intros e0 [= <-]. rewrite Ve, V. auto.
  - cbn [well_formed value_of transform] in *. destruct (value_of ops env w) as [[z|l]|] eqn:E; try discriminate.
    destruct (IH _ W eq_refl) as [m [r [T [M R]]]]. rewrite T. unfold bind1.
    destruct r as [e|]; cbn [settle]; do 2 eexists; (split; [reflexivity|split; [|discriminate]]); cbn [value_of];
      [rewrite (R e eq_refl)|rewrite M]; auto.
  - cbn [well_formed value_of transform] in *. destruct (value_of ops env a) as [x|] eqn:E; [|discriminate].
    destruct (IH _ W eq_refl) as [m [r [T [M R]]]]. rewrite T. unfold bind1.
    destruct r as [e|]; cbn [settle]; do 2 eexists; (split; [reflexivity|split; [|discriminate]]); cbn [value_of];
      [rewrite (R e eq_refl)|rewrite M]; auto.
  - cbn [well_formed value_of transform] in *. destruct W as [Wa Wb].
    destruct (value_of ops env a) as [x|] eqn:Ea; [|discriminate].
    destruct (value_of ops env b) as [y|] eqn:Eb; [|destruct x; discriminate].
    destruct (IHa _ Wa eq_refl) as [m [r [T [M R]]]]. destruct (IHb _ Wb eq_refl) as [m' [r' [T' [M' R']]]].
    rewrite T, T'. unfold bind2.
    destruct r as [e|], r' as [e'|]; cbn [settle]; do 2 eexists; (split; [reflexivity|split; [|discriminate]]); cbn [value_of];
      rewrite ?M, ?M'; try rewrite (R e eq_refl); try rewrite (R' e' eq_refl); rewrite ?M, ?M'; auto.
  - cbn [well_formed value_of transform] in *. destruct W as [Wa Wb].
    destruct (value_of ops env a) as [x|] eqn:Ea; [|discriminate].
    destruct (value_of ops env b) as [y|] eqn:Eb; [|destruct x; discriminate].
    destruct (IHa _ Wa eq_refl) as [m [r [T [M R]]]]. destruct (IHb _ Wb eq_refl) as [m' [r' [T' [M' R']]]].
    rewrite T, T'. unfold bind2.
    destruct r as [e|], r' as [e'|]; cbn [settle]; do 2 eexists; (split; [reflexivity|split; [|discriminate]]); cbn [value_of];
      rewrite ?M, ?M'; try rewrite (R e eq_refl); try rewrite (R' e' eq_refl); rewrite ?M, ?M'; auto.
  - cbn [well_formed value_of transform] in *. destruct (value_of ops env a) as [x|] eqn:E; [|discriminate].
    destruct (IH _ W eq_refl) as [m [r [T [M R]]]]. rewrite T. unfold bind1.
    destruct r as [e|]; cbn [settle]; do 2 eexists; (split; [reflexivity|split; [|discriminate]]); cbn [value_of];
      [rewrite (R e eq_refl)|rewrite M]; auto.
  - cbn [well_formed value_of transform] in *. destruct (value_of ops env a) as [x|] eqn:E; [|discriminate].
    destruct (IH _ W eq_refl) as [m [r [T [M R]]]]. rewrite T. unfold bind1.
    destruct r as [e|]; cbn [settle]; do 2 eexists; (split; [reflexivity|split; [|discriminate]]); cbn [value_of];
      [rewrite (R e eq_refl)|rewrite M]; auto.
  - cbn [well_formed value_of transform] in *. fold (args_of l). fold (vals_of ops env l) in V.
    destruct (vals_of ops env l) as [vs|] eqn:E; [|discriminate].
    assert (G : exists l', args_of l = Some l' /\ vals_of ops env l' = Some vs).
    { clear V f v. revert vs W E. induction IH as [|a l Ha Hl IHl]; intros vs W E.
      - exists []. auto.
      - cbn [vals_of] in E. destruct W as [Wa Wl]. fold (vals_of ops env l) in E.
        destruct (value_of ops env a) as [x|] eqn:Ea; [|discriminate].
        destruct (vals_of ops env l) as [xs|] eqn:El; [|discriminate]. injection E as E; subst vs.
        destruct (IHl _ Wl eq_refl) as [l' [A B]]. destruct (Ha _ Wa eq_refl) as [m [r [T [M R]]]].
        cbn [args_of]. fold (args_of l). rewrite T, A.
        destruct r as [e|]; cbn [settle]; eexists; (split; [reflexivity|]); cbn [vals_of]; fold (vals_of ops env l');
          rewrite B; [rewrite (R e eq_refl)|rewrite M]; auto. }
    destruct G as [l' [A B]]. rewrite A. do 2 eexists. split; [reflexivity|]. split; [|discriminate].
    cbn [value_of]. fold (vals_of ops env l'). rewrite B. auto.
Qed.
Theorem mask_pass_value : forall ops env n v, well_formed n -> value_of ops env n = Some v ->
  exists m, run_pass n = Some m /\ value_of ops env m = Some v.
Proof.
  intros ops env n v W V. destruct (transform_value ops env n v W V) as [m [r [T [M R]]]].
  unfold run_pass. rewrite T. destruct r as [e|]; cbn [settle]; eexists; split; auto.
Qed.

(* no test is left *)
Lemma transform_no_test : forall n, well_formed n ->
  exists m r, transform n = Done m r /\ (r = None -> no_test m) /\ (forall e, r = Some e -> no_test e) /\
    ((forall t s b w, n <> NTest t s b w) -> r = None).
Proof.
  intros n. induction n as [i|t s b w IH|w i IH|a IH|a b IHa IHb|a b IHa IHb|a IH|a IH|f l IH] using node_ind'; intros W.
  - exists (NLeaf i), None. repeat split; auto. discriminate.
  - cbn [well_formed] in W. destruct W as [S [W NT]]. destruct (IH W) as [m [r [T [N [R D]]]]].
    cbn [transform]. rewrite T. destruct (expand_some t s b m) as [e [E Ne]]; [lia|]. rewrite E.
    do 2 eexists. split; [reflexivity|]. split; [discriminate|]. split.
    + intros e0 [= <-]. apply Ne. apply N. apply D. exact NT.
    + intros H. exfalso. apply (H t s b w). reflexivity.
  - cbn [well_formed transform] in *. destruct (IH W) as [m [r [T [N [R D]]]]]. rewrite T. unfold bind1.
    destruct r as [e|]; cbn [settle]; do 2 eexists; (split; [reflexivity|]); split; [intros _; cbn [no_test]|split; auto; discriminate| |split; auto; discriminate]; auto.
  - cbn [well_formed transform] in *. destruct (IH W) as [m [r [T [N [R D]]]]]. rewrite T. unfold bind1.
    destruct r as [e|]; cbn [settle]; do 2 eexists; (split; [reflexivity|]); split; [intros _; cbn [no_test]|split; auto; discriminate| |split; auto; discriminate]; auto.
  - cbn [well_formed transform] in *. destruct W as [Wa Wb]. destruct (IHa Wa) as [m [r [T [N [R D]]]]].
    destruct (IHb Wb) as [m' [r' [T' [N' [R' D']]]]]. rewrite T, T'. unfold bind2.
    destruct r as [e|], r' as [e'|]; cbn [settle]; do 2 eexists; (split; [reflexivity|]); (split; [|split; [discriminate|auto]]);
      intros _; cbn [no_test]; split; auto.
  - cbn [well_formed transform] in *. destruct W as [Wa Wb]. destruct (IHa Wa) as [m [r [T [N [R D]]]]].
    destruct (IHb Wb) as [m' [r' [T' [N' [R' D']]]]]. rewrite T, T'. unfold bind2.
    destruct r as [e|], r' as [e'|]; cbn [settle]; do 2 eexists; (split; [reflexivity|]); (split; [|split; [discriminate|auto]]);
      intros _; cbn [no_test]; split; auto.
  - cbn [well_formed transform] in *. destruct (IH W) as [m [r [T [N [R D]]]]]. rewrite T. unfold bind1.
    destruct r as [e|]; cbn [settle]; do 2 eexists; (split; [reflexivity|]); split; [intros _; cbn [no_test]|split; auto; discriminate| |split; auto; discriminate]; auto.
  - cbn [well_formed transform] in *. destruct (IH W) as [m [r [T [N [R D]]]]]. rewrite T. unfold bind1.
    destruct r as [e|]; cbn [settle]; do 2 eexists; (split; [reflexivity|]); split; [intros _; cbn [no_test]|split; auto; discriminate| |split; auto; discriminate]; auto.
  - cbn [well_formed transform] in *. fold (args_of l).
    assert (G : exists l', args_of l = Some l' /\ no_test (NOp f l')).
    { clear - IH W. induction IH as [|a l Ha Hl IHl].
      - exists []. split; auto.
      - destruct W as [Wa Wl]. destruct (IHl Wl) as [l' [A B]]. destruct (Ha Wa) as [m [r [T [N [R D]]]]].
        cbn [args_of]. fold (args_of l). rewrite T, A.
        destruct r as [e|]; cbn [settle]; eexists; (split; [reflexivity|]); cbn [no_test] in *; split; auto. }
    destruct G as [l' [A B]]. rewrite A. do 2 eexists. split; [reflexivity|]. split; auto. split; auto. discriminate.
Qed.
Theorem mask_pass_complete : forall n, well_formed n -> exists m, run_pass n = Some m /\ no_test m.
Proof.
  intros n W. destruct (transform_no_test n W) as [m [r [T [N [R _]]]]]. unfold run_pass. rewrite T.
  destruct r as [e|]; cbn [settle]; eexists; split; auto.
Qed.
(* the engine alone does not give it: an expandable node which feeds another one stays *)
Theorem engine_nested_refuted : forall t1 t2 s1 s2 b1 b2 i m,
  run_pass (NTest t1 (S s1) b1 (NTest t2 (S s2) b2 (NLeaf i))) = Some m -> ~ no_test m.
Proof.
  intros t1 t2 s1 s2 b1 b2 i m H. unfold run_pass in H. cbn [transform] in H.
  destruct (expand_node t2 (S s2) b2 (NLeaf i)) as [e2|]; [|discriminate].
  destruct (expand_node t1 (S s1) b1 (NTest t2 (S s2) b2 (NLeaf i))) as [e1|] eqn:E; [|discriminate].
  cbn [settle] in H. injection H as <-.
  assert (Q : forall ctor chk, (forall a c, ~ no_test c -> ~ no_test (ctor a c)) -> (forall a, no_test (chk a) -> no_test a) ->
    queue_reduce ctor (map chk (elements (NTest t2 (S s2) b2 (NLeaf i)) (S s1))) = Some e1 -> ~ no_test e1).
  { intros ctor chk Hc Hk Eq.
    destruct (reduce_loop_invariant node ctor (fun q => Forall (fun n => ~ no_test n) q)) with
      (fuel := List.length (map chk (elements (NTest t2 (S s2) b2 (NLeaf i)) (S s1))))
      (l := map chk (elements (NTest t2 (S s2) b2 (NLeaf i)) (S s1))) as [r [E' R]].
    - intros a c q H. inversion H as [|? ? A H']; subst. inversion H' as [|? ? C H2]; subst.
      apply Forall_app. split; auto.
    - lia.
    - discriminate.
    - apply Forall_forall. intros x I. apply in_map_iff in I. destruct I as [y [<- I]]. intros N. apply Hk in N.
      unfold elements in I. apply in_map_iff in I. destruct I as [k [<- _]]. exact N.
    - unfold queue_reduce in Eq. rewrite E' in Eq. injection Eq as <-. inversion R; auto. }
  destruct t1; cbn [expand_node] in E; revert E; apply Q; try (intros a c; cbn [no_test]; tauto);
    intros a; destruct b1; cbn [check_true check_false no_test]; auto.
Qed.

(* ---- C library *)
Theorem c_mask_test_correct : forall t v size, size = 2%nat \/ size = 4%nat \/ size = 8%nat ->
  exists b, c_mask_test t size v = Some b /\ (b = true <-> mask_test_spec t (map v (seq 0 size))).
Proof.
  intros t v size H.
  assert (E : c_mask_test t size v = Some (test_value t (map v (seq 0 size)))).
  { destruct H as [->|[->| ->]]; destruct t; cbn -[Z.eqb]; unfold c_zero, c_one, zero_lane; rewrite ?andb_true_r, ?orb_false_r;
      rewrite ?negb_andb, ?negb_orb, ?andb_assoc, ?orb_assoc; reflexivity. }
  exists (test_value t (map v (seq 0 size))). split; auto. apply test_value_meaning.
Qed.
Theorem c_mask_test_three_refuted : forall t v, c_entry 3 = true /\ c_mask_test t 3 v = None.
Proof. intros t v. split; auto. destruct t; reflexivity. Qed.

(* ---- x86 *)
Lemma lanes2_same : forall m, (forall z, In z m -> 0 <= z) -> forallb zero_lane (lanes2 Z.land m m) = forallb zero_lane m.
Proof.
  induction m as [|z m IH]; intros H; auto. cbn [lanes2 forallb]. rewrite Z.land_diag, IH; auto.
  intros y I. apply H. right. auto.
Qed.
Lemma x86_mask_pos : forall k m, x86_mask k m -> forall z, In z m -> 0 <= z.
Proof. intros k m [_ H] z I. destruct (H z I) as [->| ->]; lia. Qed.
Lemma andnot_lane : forall z, z = 0 \/ z = 2 ^ 32 - 1 -> zero_lane (andnot z (2 ^ 32 - 1)) = negb (zero_lane z).
Proof. intros z [->| ->]; reflexivity. Qed.
Lemma andnot_lanes : forall m, (forall z, In z m -> z = 0 \/ z = 2 ^ 32 - 1) ->
  (forall z, In z (lanes2 andnot m (all_ones (List.length m))) -> 0 <= z) /\
  forallb zero_lane (lanes2 andnot m (all_ones (List.length m))) = negb (existsb zero_lane m).
Proof.
  induction m as [|z m IH]; intros H; [split; [intros z []|reflexivity]|].
  destruct IH as [A B]; [intros y I; apply H; right; auto|]. cbn [List.length all_ones repeat lanes2 forallb existsb].
  change (repeat (2 ^ 32 - 1) (List.length m)) with (all_ones (List.length m)). rewrite B. split.
  - intros y [<-|I]; auto. unfold andnot. apply Z.land_nonneg. right. lia.
  - rewrite andnot_lane by (apply H; left; auto). rewrite negb_orb. auto.
Qed.
Theorem x86_mask_test_correct : forall t f e m, x86_select t f = Some e -> x86_mask (lane_count f) m ->
  ~ (t = IsMaskNotAnyZero /\ f = SSE_v4bool) ->
  exists b : bool, xeval (lane_count f) m e = Some [if b then 1 else 0] /\ (b = true <-> mask_test_spec t m).
Proof.
  intros t f e m E M N. exists (test_value t m). split; [|apply test_value_meaning].
  assert (P := x86_mask_pos _ _ M). destruct M as [L M].
  destruct t, f; cbn [x86_select] in E; try discriminate; injection E as <-.
  - cbn [xeval]. cbn [intrinsic]. cbn [String.eqb Ascii.eqb Bool.eqb orb test_value]. rewrite lanes2_same by auto. reflexivity.
  - unfold testz256. cbn [xeval intrinsic String.eqb Ascii.eqb Bool.eqb orb test_value]. rewrite lanes2_same by auto. reflexivity.
  - exfalso. apply N. auto.
  - unfold testz256, x86_not. cbn [xeval intrinsic String.eqb Ascii.eqb Bool.eqb orb test_value].
    rewrite <- L. destruct (andnot_lanes m M) as [A B]. rewrite lanes2_same by auto. rewrite B. reflexivity.
Qed.
(* the call generated for SSE has two arguments and is rejected; the legalized AVX test on four
   64-bit lanes has no entry *)
Theorem x86_mask_test_refuted : forall m,
  (exists e, x86_select IsMaskNotAnyZero SSE_v4bool = Some e /\ xeval 4 m e = None) /\
  x86_select IsMaskNotAnyZero AVX_v4lbool = None /\ x86_select IsMaskAllZero AVX_v4lbool = None.
Proof. intros m. split; [|split; reflexivity]. eexists. split; [reflexivity|]. reflexivity. Qed.

(* ---- examples and assumptions *)
Example mask_pass_ex :
  let g := NOp 7 [NTest IsMaskNotAnyZero 4 true (NOp 3 [NLeaf 0]); NAnd (NTest IsMaskAnyZero 2 false (NLeaf 1)) (NLeaf 2)] in
  well_formed g /\
  run_pass g = Some (NOp 7 [NAnd (NAnd (NElt (NOp 3 [NLeaf 0]) 0) (NElt (NOp 3 [NLeaf 0]) 1))
                                 (NAnd (NElt (NOp 3 [NLeaf 0]) 2) (NElt (NOp 3 [NLeaf 0]) 3));
                            NAnd (NOr (NEq0 (NElt (NLeaf 1) 0)) (NEq0 (NElt (NLeaf 1) 1))) (NLeaf 2)]).
Proof.
  split; [|reflexivity]. cbn [well_formed].
  repeat match goal with |- _ /\ _ => split | |- True => exact I | |- (_ < _)%nat => lia | |- forall _, _ => discriminate end.
Qed.
Example mask_value_ex :
  value_of (fun _ l => nth_error l 0) (fun _ => Some (VVector [5; 0; 5; 5])) (NTest IsMaskAnyZero 4 false (NLeaf 0)) = Some (VScalar 1).
Proof. reflexivity. Qed.
Example c_mask_ex : c_mask_test IsMaskNotAllZero 4 (fun i => nth i [0; 0; -1; 0] 0) = Some true.
Proof. reflexivity. Qed.
Example x86_mask_ex :
  let m := [2 ^ 32 - 1; 2 ^ 32 - 1; 2 ^ 32 - 1; 2 ^ 32 - 1; 2 ^ 32 - 1; 0; 2 ^ 32 - 1; 2 ^ 32 - 1] in
  x86_mask 8 m /\ option_map (xeval 8 m) (x86_select IsMaskNotAnyZero AVX_v8bool) = Some (Some [0]).
Proof. cbv zeta. split; [|reflexivity]. split; [reflexivity|]. cbn [In]. intros z H. lia. Qed.
Print Assumptions mask_pass_value. Print Assumptions mask_pass_complete. Print Assumptions engine_nested_refuted.
Print Assumptions c_mask_test_correct. Print Assumptions c_mask_test_three_refuted.
Print Assumptions x86_mask_test_correct. Print Assumptions x86_mask_test_refuted.
