(* Interval objects, range evaluation, numerical simplification (C10-C13). *)
Require Import ZArith QArith Qround Qabs Bool List Lia Lqa Permutation.
From Verif Require Import QUtil FpFormatModel FixedProps IntervalModel IntervalSpec.
Import ListNotations.
Open Scope Z_scope.

(* ---- helpers ---- *)
Ltac qb := repeat match goal with
  | H : Qle_bool _ _ = true |- _ => apply Qle_bool_iff in H
  | H : Qle_bool _ _ = false |- _ => apply Qle_bool_false in H
  | H : Qeq_bool _ _ = true |- _ => apply Qeq_bool_iff in H
  | H : Qeq_bool _ _ = false |- _ => apply Qeq_bool_neq in H
  | H : negb _ = true |- _ => apply negb_true_iff in H
  | H : negb _ = false |- _ => apply negb_false_iff in H
  | H : (_ && _) = true |- _ => apply andb_true_iff in H; destruct H
  | H : (_ || _) = false |- _ => apply orb_false_iff in H; destruct H
  end.
Lemma qmin_spec : forall a b, (qmin a b <= a)%Q /\ (qmin a b <= b)%Q /\ (qmin a b == a \/ qmin a b == b)%Q.
Proof. intros. unfold qmin. destruct (Qle_bool a b) eqn:E; qb; repeat split; try lra. Qed.
Lemma qmax_spec : forall a b, (a <= qmax a b)%Q /\ (b <= qmax a b)%Q /\ (qmax a b == a \/ qmax a b == b)%Q.
Proof. intros. unfold qmax. destruct (Qle_bool a b) eqn:E; qb; repeat split; try lra. Qed.
Ltac mm := repeat match goal with
  | |- context [qmin ?a ?b] => let H := fresh in pose proof (qmin_spec a b) as H; revert H; generalize (qmin a b); intros ? [? [? ?]]
  | |- context [qmax ?a ?b] => let H := fresh in pose proof (qmax_spec a b) as H; revert H; generalize (qmax a b); intros ? [? [? ?]]
  end.

Lemma mul_between : forall a b x y, (a <= x <= b)%Q ->
  (a * y <= x * y <= b * y)%Q \/ (b * y <= x * y <= a * y)%Q.
Proof.
  intros a b x y [H1 H2]. destruct (Qlt_le_dec y 0).
  - right.
    pose proof (Qmult_le_compat_r a x (- y) H1 ltac:(lra)) as A.
    pose proof (Qmult_le_compat_r x b (- y) H2 ltac:(lra)) as B.
    setoid_replace (a * - y)%Q with (- (a * y))%Q using relation Qeq in A by ring.
    setoid_replace (x * - y)%Q with (- (x * y))%Q using relation Qeq in A by ring.
    setoid_replace (x * - y)%Q with (- (x * y))%Q using relation Qeq in B by ring.
    setoid_replace (b * - y)%Q with (- (b * y))%Q using relation Qeq in B by ring.
    lra.
  - left. split; apply Qmult_le_compat_r; auto.
Qed.
Lemma i_mul_in : forall X Y x y, inI x X -> inI y Y -> inI (x * y)%Q (i_mul X Y).
Proof.
  intros [a b] [c d] x y HX HY. unfold inI, i_mul in *; cbn [fst snd] in *.
  pose proof (mul_between a b x y HX) as H1.
  pose proof (mul_between c d y a HY) as H2. pose proof (mul_between c d y b HY) as H3.
  assert (E1 : (y * a == a * y)%Q) by ring. assert (E2 : (y * b == b * y)%Q) by ring.
  assert (E3 : (c * a == a * c)%Q) by ring. assert (E4 : (d * a == a * d)%Q) by ring.
  assert (E5 : (c * b == b * c)%Q) by ring. assert (E6 : (d * b == b * d)%Q) by ring.
  rewrite E1, E3, E4 in H2. rewrite E2, E5, E6 in H3.
  revert H1 H2 H3. clear. generalize (x * y)%Q (a * y)%Q (b * y)%Q (a * c)%Q (a * d)%Q (b * c)%Q (b * d)%Q.
  clear. intros xy ya yb ac ad bc bd H1 H2 H3.
  unfold qmin, qmax.
  destruct (Qle_bool ac ad) eqn:A, (Qle_bool bc bd) eqn:B; qb;
  match goal with |- context [Qle_bool ?u ?v] => destruct (Qle_bool u v) eqn:? end;
  match goal with |- context [if Qle_bool ?u ?v then _ else _] => destruct (Qle_bool u v) eqn:? end; qb; lra.
Qed.
Lemma i_add_in : forall X Y x y, inI x X -> inI y Y -> inI (x + y)%Q (i_add X Y).
Proof. intros [a b] [c d] x y [? ?] [? ?]. unfold inI; cbn [fst snd i_add] in *. lra. Qed.
Lemma i_sub_in : forall X Y x y, inI x X -> inI y Y -> inI (x - y)%Q (i_sub X Y).
Proof. intros [a b] [c d] x y [? ?] [? ?]. unfold inI; cbn [fst snd i_sub] in *. lra. Qed.
Lemma i_neg_in : forall X x, inI x X -> inI (- x)%Q (i_neg X).
Proof. intros [a b] x [? ?]. unfold inI; cbn [fst snd i_neg] in *. lra. Qed.

Lemma inI_comp : forall x y X, (x == y)%Q -> inI x X -> inI y X.
Proof. intros x y X E [? ?]. unfold inI. lra. Qed.

(* ---- C11: refinement ---- *)
Lemma insert_inf_perm : forall X l, Permutation (X :: l) (insert_inf X l).
Proof.
  induction l as [|Y t IH]; cbn [insert_inf]; [constructor; constructor|].
  destruct (negb (Qle_bool (fst X) (fst Y))); [|reflexivity].
  rewrite perm_swap. apply perm_skip. auto.
Qed.
Lemma sort_inf_perm : forall l, Permutation l (sort_inf l).
Proof.
  induction l as [|X t IH]; [constructor|]. cbn [sort_inf fold_right].
  rewrite <- insert_inf_perm. apply perm_skip. auto.
Qed.
Fixpoint inf_sorted (l : list itv) : Prop :=
  match l with X :: t => Forall (fun Y => (fst X <= fst Y)%Q) t /\ inf_sorted t | [] => True end.
Lemma insert_inf_sorted : forall X l, inf_sorted l -> inf_sorted (insert_inf X l).
Proof.
  induction l as [|Y t IH]; intros H; cbn [insert_inf].
  - split; constructor.
  - destruct (negb (Qle_bool (fst X) (fst Y))) eqn:E; qb; cbn [inf_sorted] in *.
    + destruct H as [H1 H2]. split; auto.
      apply (Permutation_Forall (insert_inf_perm X t)). constructor; auto. lra.
    + destruct H as [H1 H2]. split; [constructor; auto|split; auto].
      eapply Forall_impl; [|exact H1]. cbn. intros. lra.
Qed.
Lemma sort_inf_sorted : forall l, inf_sorted (sort_inf l).
Proof. induction l; cbn [sort_inf fold_right]; [exact I|]. apply insert_inf_sorted; auto. Qed.

Lemma inL_cons : forall q X l, inL q (X :: l) <-> inI q X \/ inL q l.
Proof.
  intros. unfold inL. split.
  - intros [Y [[<-|H] HI]]; [left; auto|right; eauto].
  - intros [H|[Y [H HI]]]; [exists X; split; [left; auto|auto]|exists Y; split; [right; auto|auto]].
Qed.
Lemma mi_or_merge : forall X Y, i_ok X -> i_ok Y -> (fst Y <= snd X)%Q -> (fst X <= snd Y)%Q ->
  exists M, mi_or X Y = [M] /\ i_ok M /\ (fst M == qmin (fst X) (fst Y))%Q /\ (snd M == qmax (snd X) (snd Y))%Q /\
  (forall q, inI q M <-> inI q X \/ inI q Y).
Proof.
  intros [a b] [c d] OX OY H1 H2. unfold i_ok, mi_or in *; cbn [fst snd] in *.
  rewrite (proj2 (Qle_bool_iff c b) H1), (proj2 (Qle_bool_iff a d) H2). cbn [negb].
  eexists. split; [reflexivity|]. cbn [fst snd]. split; [|split; [reflexivity|split; [reflexivity|]]].
  - mm. lra.
  - intros q. unfold inI; cbn [fst snd].
    destruct (Qlt_le_dec b q), (Qlt_le_dec q a), (Qlt_le_dec d q), (Qlt_le_dec q c); mm; split; intros; try lra;
    destruct H8; try lra.
Qed.

Lemma refine_loop_spec : forall l last, i_ok last -> Forall i_ok l -> inf_sorted l ->
  Forall (fun Y => (fst last <= fst Y)%Q) l ->
  (forall q, inL q (refine_loop last l) <-> inI q last \/ inL q l) /\
  separated (refine_loop last l) /\ Forall i_ok (refine_loop last l) /\
  (exists M t, refine_loop last l = M :: t /\ (fst M == fst last)%Q).
Proof.
  induction l as [|X t IH]; intros last Hl Ho Hs Hb; cbn [refine_loop].
  - split; [|split; [exact I|split; [constructor; auto|]]].
    + intros. rewrite inL_cons. reflexivity.
    + eexists _, _. split; [reflexivity|reflexivity].
  - inversion Ho as [|? ? OX Ot]; subst. inversion Hb as [|? ? BX Bt]; subst. destruct Hs as [S1 S2].
    destruct (Qle_bool (fst X) (snd last)) eqn:E; qb.
    + destruct (mi_or_merge last X) as [M [-> [OM [M1 [M2 M3]]]]]; auto.
      { unfold i_ok in *. lra. }
      assert (FM : (fst M == fst last)%Q).
      { rewrite M1. unfold qmin. destruct (Qle_bool (fst last) (fst X)) eqn:F; qb; lra. }
      destruct (IH M OM Ot S2) as [A [B [C D]]].
      { eapply Forall_impl; [|exact Bt]. cbn. intros. rewrite FM. auto. }
      split; [|split; [auto|split; [auto|]]].
      * intros q. rewrite A, M3, inL_cons. tauto.
      * destruct D as [N [u [-> D]]]. eexists _, _. split; [reflexivity|]. rewrite D. auto.
    + destruct (IH X OX Ot S2 S1) as [A [B [C D]]].
      split; [|split; [|split; [constructor; auto|]]].
      * intros q. rewrite inL_cons, A, inL_cons. reflexivity.
      * destruct D as [N [u [D0 D]]]. rewrite D0 in *. split; [rewrite D; auto|exact B].
      * eexists _, _. split; reflexivity.
Qed.

(* canonising a non-empty list of intervals keeps exactly its points and
   yields sorted, pairwise disjoint, valid intervals *)
Theorem refine_interval_list_correct : forall l, l <> [] -> Forall i_ok l ->
  exists r, refine_interval_list l = Some r /\ (forall q, inL q r <-> inL q l) /\
            separated r /\ Forall i_ok r /\ r <> [].
Proof.
  intros l Hn Ho. unfold refine_interval_list.
  pose proof (sort_inf_perm l) as P. pose proof (sort_inf_sorted l) as S.
  pose proof (Permutation_Forall P Ho) as Os.
  destruct (sort_inf l) as [|X t].
  - apply Permutation_sym, Permutation_nil in P. contradiction.
  - inversion Os; subst. destruct S as [S1 S2].
    destruct (refine_loop_spec t X) as [A [B [C [M [u [D _]]]]]]; auto.
    eexists. split; [reflexivity|]. split; [|split; [auto|split; [auto|]]].
    + intros q. rewrite A, <- inL_cons. unfold inL. split; intros [Y [HY HI]]; exists Y; split; auto.
      * apply Permutation_in with (X :: t); auto. apply Permutation_sym; auto.
      * apply Permutation_in with l; auto.
    + rewrite D. discriminate.
Qed.
Theorem refine_empty_refuted : refine_interval_list [] = None.
Proof. reflexivity. Qed.

(* the bounds of a canonised list bound its points *)
Lemma separated_sup : forall l X, separated (X :: l) -> Forall i_ok (X :: l) -> forall q, inL q (X :: l) ->
  (fst X <= q <= snd (last l X))%Q.
Proof.
  induction l as [|Y t IH]; intros X S O q H.
  - rewrite inL_cons in H. destruct H as [H|[? [[] _]]]. exact H.
  - destruct S as [S1 S2]. inversion O as [|? ? OX OT]; subst.
    assert (L : last (Y :: t) X = last t Y).
    { clear. revert X Y. induction t as [|W t IH]; intros; auto. cbn [last] in *. destruct t; auto. }
    rewrite L. unfold i_ok in OX.
    assert (B : forall q, inL q (Y :: t) -> (fst Y <= q <= snd (last t Y))%Q) by (intros; apply IH; auto).
    rewrite inL_cons in H. destruct H as [[H1 H2]|H].
    + assert (HY : inL (fst Y) (Y :: t)).
      { apply inL_cons. left. inversion OT; subst. unfold i_ok in *. unfold inI. lra. }
      specialize (B _ HY). lra.
    + specialize (B _ H). lra.
Qed.
Theorem meta_list_bounds : forall l v q, l <> [] -> Forall i_ok l -> make_list l = Some v -> inM q v ->
  exists lo hi, meta_inf v = Some lo /\ meta_sup v = Some hi /\ (lo <= q <= hi)%Q.
Proof.
  intros l v q Hn Ho H Hq. destruct (refine_interval_list_correct l Hn Ho) as [r [E [A [B [C D]]]]].
  unfold make_list in H. rewrite E in H. injection H as <-. destruct r as [|X t]; [contradiction|].
  cbn [meta_inf meta_sup]. eexists _, _. split; [reflexivity|]. split; [reflexivity|].
  apply separated_sup; auto.
Qed.

(* membership of a number in a contiguous interval is exact ... *)
Theorem meta_contains_number : forall X q, meta_contains (MI (Some X)) (ANum q) = Some true <-> inI q X.
Proof.
  intros X q. cbn [meta_contains]. unfold inI. split.
  - intros H. injection H as H. qb. auto.
  - intros [H1 H2]. rewrite (proj2 (Qle_bool_iff _ _) H1), (proj2 (Qle_bool_iff _ _) H2). reflexivity.
Qed.
(* ... but is always refused for a range, and fails on interval lists *)
Theorem meta_contains_range_refuted : forall X, meta_contains (MI (Some X)) (ARange X) = Some false /\
  meta_contains (MI (Some X)) (AMeta (MI (Some X))) = Some false.
Proof. intros. split; reflexivity. Qed.
Theorem meta_list_contains_refuted : forall l x, meta_contains (ML l) x = None.
Proof. reflexivity. Qed.

(* ---- C10: enclosure ---- *)
Lemma pairs_in : forall f (op : Q -> Q -> Q), (forall X Y x y, inI x X -> inI y Y -> inI (op x y) (f X Y)) ->
  forall l r x y, inL x l -> inL y r -> inL (op x y) (pairs f l r).
Proof.
  intros f op Hf l r x y [X [HX IX]] [Y [HY IY]]. exists (f X Y). split; auto.
  unfold pairs. apply in_flat_map. exists X. split; auto. apply in_map. auto.
Qed.
Lemma pairs_ok : forall f, (forall X Y, i_ok X -> i_ok Y -> i_ok (f X Y)) ->
  forall l r, Forall i_ok l -> Forall i_ok r -> Forall i_ok (pairs f l r).
Proof.
  intros f Hf l r Hl Hr. apply Forall_forall. intros Z HZ. unfold pairs in HZ.
  apply in_flat_map in HZ. destruct HZ as [X [HX HZ]]. apply in_map_iff in HZ. destruct HZ as [Y [<- HY]].
  rewrite Forall_forall in Hl, Hr. auto.
Qed.
Lemma i_ok_in : forall X, i_ok X -> inI (fst X) X.
Proof. intros X H. unfold i_ok, inI in *. lra. Qed.
Lemma ok_of_in : forall X x, inI x X -> i_ok X.
Proof. intros X x [? ?]. unfold i_ok. lra. Qed.
Lemma to_list_spec : forall v, m_ok v -> v <> MI None ->
  exists l, to_list v = Some l /\ Forall i_ok l /\ l <> [] /\ (forall q, inL q l <-> inM q v).
Proof.
  intros [[X|]|l] H Hn; cbn [to_list m_ok inM] in *.
  - destruct (refine_interval_list_correct [X]) as [r [E [A [B [C D]]]]]; [discriminate|constructor; auto|].
    exists r. split; auto. split; auto. split; auto. intros q. rewrite A, inL_cons. split; [|auto].
    intros [K|[? [[] _]]]; auto.
  - contradiction.
  - exists l. split; auto. destruct H. split; auto. split; auto. reflexivity.
Qed.
Lemma meta_op_sound : forall f op,
  (forall X Y x y, inI x X -> inI y Y -> inI (op x y) (f X Y)) ->
  forall a b, m_ok a -> m_ok b -> (a = MI None -> forall l, b <> ML l) -> (b = MI None -> forall l, a <> ML l) ->
  exists c, meta_op f a b = Some c /\ m_ok c /\ (forall x y, inM x a -> inM y b -> inM (op x y) c).
Proof.
  intros f op Hf a b Ha Hb Na Nb.
  assert (Of : forall X Y, i_ok X -> i_ok Y -> i_ok (f X Y)).
  { intros X Y OX OY. eapply ok_of_in. apply Hf; apply i_ok_in; auto. }
  assert (G : a <> MI None -> b <> MI None ->
    exists c, match to_list a, to_list b with Some l, Some r => make_list (pairs f l r) | _, _ => None end = Some c /\
      m_ok c /\ (forall x y, inM x a -> inM y b -> inM (op x y) c)).
  { intros Ha' Hb'. destruct (to_list_spec a Ha Ha') as [l [El [Ol [Nl Il]]]].
    destruct (to_list_spec b Hb Hb') as [r [Er [Or [Nr Ir]]]]. rewrite El, Er.
    assert (Np : pairs f l r <> []).
    { destruct l as [|X l]; [contradiction|]. destruct r as [|Y r]; [contradiction|]. discriminate. }
    destruct (refine_interval_list_correct (pairs f l r) Np (pairs_ok f Of l r Ol Or)) as [s [E [A [B [C D]]]]].
    unfold make_list. rewrite E. eexists. split; [reflexivity|]. split; [cbn; auto|].
    intros x y Hx Hy. cbn [inM]. apply A. apply pairs_in with (op := op); auto; [apply Il|apply Ir]; auto. }
  destruct a as [[X|]|l]; destruct b as [[Y|]|r]; cbn [meta_op].
  - eexists. split; [reflexivity|]. split; [apply Of; auto|]. intros. cbn [inM] in *. auto.
  - eexists. split; [reflexivity|]. split; [exact I|]. intros. contradiction.
  - apply G; discriminate.
  - eexists. split; [reflexivity|]. split; [exact I|]. intros. contradiction.
  - eexists. split; [reflexivity|]. split; [exact I|]. intros. contradiction.
  - exfalso. eapply Na; reflexivity.
  - apply G; discriminate.
  - exfalso. eapply Nb; reflexivity.
  - apply G; discriminate.
Qed.

(* operands: valid values; an empty interval against a list raises *)
Definition compatible (a b : mval) : Prop :=
  (a = MI None -> forall l, b <> ML l) /\ (b = MI None -> forall l, a <> ML l).
Theorem meta_add_encloses : forall a b, m_ok a -> m_ok b -> compatible a b ->
  exists c, meta_add a b = Some c /\ (forall x y, inM x a -> inM y b -> inM (x + y)%Q c).
Proof.
  intros a b Ha Hb [C1 C2]. destruct (meta_op_sound i_add Qplus i_add_in a b Ha Hb C1 C2) as [c [E [_ H]]]. eauto.
Qed.
Theorem meta_sub_encloses : forall a b, m_ok a -> m_ok b -> compatible a b ->
  exists c, meta_sub a b = Some c /\ (forall x y, inM x a -> inM y b -> inM (x - y)%Q c).
Proof.
  intros a b Ha Hb [C1 C2]. destruct (meta_op_sound i_sub Qminus i_sub_in a b Ha Hb C1 C2) as [c [E [_ H]]]. eauto.
Qed.
Theorem meta_mul_encloses : forall a b, m_ok a -> m_ok b -> compatible a b ->
  exists c, meta_mul a b = Some c /\ (forall x y, inM x a -> inM y b -> inM (x * y)%Q c).
Proof.
  intros a b Ha Hb [C1 C2]. destruct (meta_op_sound i_mul Qmult i_mul_in a b Ha Hb C1 C2) as [c [E [_ H]]]. eauto.
Qed.
Theorem meta_neg_encloses : forall a, m_ok a ->
  exists c, meta_neg a = Some c /\ (forall x, inM x a <-> inM (- x)%Q c).
Proof.
  assert (N : forall X x, inI x X <-> inI (- x)%Q (i_neg X)).
  { intros [u v] x. unfold inI, i_neg; cbn [fst snd]. split; intros; lra. }
  intros [[X|]|l] H; cbn [meta_neg option_map].
  - eexists. split; [reflexivity|]. intros x. cbn [inM]. apply N.
  - eexists. split; [reflexivity|]. cbn. tauto.
  - destruct H as [O Hn].
    destruct (refine_interval_list_correct (map i_neg l)) as [s [E [A [B [C D]]]]].
    { destruct l; [contradiction|discriminate]. }
    { apply Forall_forall. intros Z HZ. apply in_map_iff in HZ. destruct HZ as [Y [<- HY]].
      rewrite Forall_forall in O. specialize (O _ HY). unfold i_ok, i_neg in *; cbn [fst snd]. lra. }
    unfold make_list. rewrite E. eexists. split; [reflexivity|]. intros x. cbn [inM]. rewrite A. unfold inL. split.
    + intros [X [HX HI]]. exists (i_neg X). split; [apply in_map; auto|]. apply (proj1 (N X x)); auto.
    + intros [X [HX HI]]. apply in_map_iff in HX. destruct HX as [Y [<- HY]]. exists Y. split; auto. apply (proj2 (N Y x)); auto.
Qed.
(* union and intersection of two non-empty intervals are exact *)
Theorem meta_or_exact : forall X Y, i_ok X -> i_ok Y ->
  exists c, meta_or (MI (Some X)) (MI (Some Y)) = Some c /\
  (forall q, inM q c <-> inI q X \/ inI q Y).
Proof.
  intros X Y OX OY. cbn [meta_or]. destruct (Qlt_le_dec (snd X) (fst Y)) as [L|L].
  - unfold mi_or. rewrite (proj2 (Qle_bool_false (fst Y) (snd X)) L). cbn [negb].
    destruct (refine_interval_list_correct [X; Y]) as [s [E [A _]]]; [discriminate|repeat constructor; auto|].
    unfold make_list. rewrite E. eexists; split; [reflexivity|]. intros q. cbn [inM]. rewrite A, !inL_cons.
    split; [|tauto]. intros [?|[?|[? [[] _]]]]; tauto.
  - destruct (Qlt_le_dec (snd Y) (fst X)) as [L'|L'].
    + unfold mi_or. rewrite (proj2 (Qle_bool_iff (fst Y) (snd X)) L), (proj2 (Qle_bool_false (fst X) (snd Y)) L'). cbn [negb].
      destruct (refine_interval_list_correct [Y; X]) as [s [E [A _]]]; [discriminate|repeat constructor; auto|].
      unfold make_list. rewrite E. eexists; split; [reflexivity|]. intros q. cbn [inM]. rewrite A, !inL_cons.
      split; [|tauto]. intros [?|[?|[? [[] _]]]]; tauto.
    + destruct (mi_or_merge X Y OX OY L L') as [M [-> [_ [_ [_ H]]]]]. eexists; split; [reflexivity|]. exact H.
Qed.
Theorem meta_and_exact : forall X Y, i_ok X -> i_ok Y ->
  exists c, meta_and (MI (Some X)) (MI (Some Y)) = Some c /\
  (forall q, inM q c <-> inI q X /\ inI q Y).
Proof.
  intros X Y OX OY. cbn [meta_and]. unfold i_ok in *.
  destruct (negb (Qle_bool (fst Y) (snd X)) || negb (Qle_bool (fst X) (snd Y))) eqn:E.
  - eexists; split; [reflexivity|]. intros q. cbn [inM]. unfold inI. apply orb_true_iff in E. split; [tauto|].
    intros [[? ?] [? ?]]. destruct E as [E|E]; qb; lra.
  - qb. eexists; split; [reflexivity|]. intros q. cbn [inM]. unfold inI; cbn [fst snd].
    unfold qmin, qmax. destruct (Qle_bool (fst X) (fst Y)) eqn:A, (Qle_bool (snd X) (snd Y)) eqn:B; qb; split; intros; lra.
Qed.
(* union or intersection with an empty interval raises an exception *)
Theorem meta_or_empty_refuted : forall X, meta_or (MI None) (MI (Some X)) = None /\ meta_and (MI None) (MI (Some X)) = None.
Proof. intros. split; reflexivity. Qed.

Lemma i_div_in : forall X Y R x y, inI x X -> inI y Y -> i_div X Y = Some R -> inI (x / y)%Q R.
Proof.
  intros X [c d] R x y HX [HY1 HY2] E. unfold i_div in E. cbn [fst snd] in *.
  destruct (i_has0 (c, d)) eqn:Z; [discriminate|]. injection E as <-.
  apply i_mul_in; auto. unfold inI; cbn [fst snd].
  unfold i_has0 in Z; cbn [fst snd] in Z. apply andb_false_iff in Z. destruct Z as [Z|Z]; qb.
  - assert (K : forall u v, (0 < u)%Q -> (u <= v)%Q -> (/ v <= / u)%Q).
    { intros u v Hu Hv. destruct (Qle_lt_or_eq _ _ Hv) as [L|L].
      - apply Qlt_le_weak. apply Qinv_lt_contravar in L; auto. lra.
      - rewrite L. apply Qle_refl. }
    split; apply K; lra.
  - assert (K : forall u v, (v < 0)%Q -> (u <= v)%Q -> (/ v <= / u)%Q).
    { intros u v Hv Hu.
      assert (EN : forall w, (w < 0)%Q -> (/ w == - / - w)%Q). { intros w Hw. field. lra. }
      rewrite (EN v), (EN u) by lra. apply Qopp_le_compat.
      assert (Hle : (- v <= - u)%Q) by lra.
      destruct (Qle_lt_or_eq _ _ Hle) as [L|L].
      - apply Qlt_le_weak. apply Qinv_lt_contravar in L; auto; lra.
      - rewrite L. apply Qle_refl. }
    split; apply K; lra.
Qed.

Lemma i_div_ok : forall X Y Z, i_ok X -> i_ok Y -> i_div X Y = Some Z -> i_ok Z.
Proof. intros X Y Z HX HY H. eapply ok_of_in. eapply i_div_in; [apply i_ok_in, HX|apply i_ok_in, HY|exact H]. Qed.
Lemma div_pairs_in : forall ps r, div_pairs ps = Some r ->
  (forall X Y x y, In (X, Y) ps -> inI x X -> inI y Y -> inL (x / y)%Q r) /\
  (Forall (fun p => i_ok (fst p) /\ i_ok (snd p)) ps -> Forall i_ok r) /\ length r = length ps.
Proof.
  induction ps as [|[X Y] t IH]; intros r H; cbn [div_pairs] in H.
  - injection H as <-. split; [intros ? ? ? ? []|split; constructor].
  - destruct (i_div X Y) as [Z|] eqn:EZ; [|discriminate]. destruct (div_pairs t) as [u|]; [|discriminate].
    injection H as <-. destruct (IH u eq_refl) as [A [B C]]. split; [|split; [|cbn; lia]].
    + intros X' Y' x y [E|E] HX HY.
      * injection E as -> ->. apply inL_cons. left. eapply i_div_in; eauto.
      * apply inL_cons. right. eapply A; eauto.
    + intros H. inversion H as [|? ? [OX OY] OT]; subst. constructor; auto. eapply i_div_ok; [exact OX|exact OY|exact EZ].
Qed.
(* a quotient is enclosed by every finite result; a contiguous interval can
   never be divided by a list *)
Theorem meta_div_encloses : forall a b c, m_ok a -> m_ok b -> meta_div a b = DVal c ->
  forall x y, inM x a -> inM y b -> inM (x / y)%Q c.
Proof.
  intros a b c Ha Hb H x y Hx Hy. destruct a as [[X|]|l]; [| contradiction |].
  - destruct b as [[Y|]|r]; [|contradiction|discriminate]. cbn [meta_div] in H.
    destruct (i_div X Y) as [q|] eqn:E; [|discriminate]. injection H as <-. cbn [inM] in *. eapply i_div_in; eauto.
  - assert (Nb : b <> MI None) by (intros ->; exact Hy).
    destruct (to_list_spec b Hb Nb) as [r [Er [Or [Nr Ir]]]].
    assert (H' : match div_pairs (flat_map (fun X => map (pair X) r) l) with
                  | None => DInf
                  | Some q => match make_list q with Some v => DVal v | None => DExc end
                  end = DVal c) by (cbn [meta_div] in H; rewrite Er in H; exact H). clear H.
    destruct (div_pairs (flat_map (fun X => map (pair X) r) l)) as [q|] eqn:E; [|discriminate].
    destruct (div_pairs_in _ _ E) as [A [B C]]. destruct Ha as [Ol Nl].
    assert (Oq : Forall i_ok q).
    { apply B. apply Forall_forall. intros [X Y] HP. apply in_flat_map in HP. destruct HP as [X' [HX HP]].
      apply in_map_iff in HP. destruct HP as [Y' [E' HY]]. injection E' as -> ->. rewrite Forall_forall in Ol, Or. auto. }
    assert (Nq : q <> []).
    { destruct l as [|? ?]; [contradiction|]. destruct r; [contradiction|]. destruct q; [discriminate|discriminate]. }
    destruct (refine_interval_list_correct q Nq Oq) as [s [E2 [F _]]].
    unfold make_list in H'. rewrite E2 in H'. injection H' as <-. cbn [inM]. apply F.
    apply Ir in Hy. destruct Hx as [X [HX HIX]]. destruct Hy as [Y [HY HIY]].
    apply A with X Y; auto. apply in_flat_map. exists X. split; auto. apply in_map. auto.
Qed.
Theorem meta_div_interval_by_list_refuted : forall i l, meta_div (MI i) (ML l) = DExc.
Proof. intros [] ?; reflexivity. Qed.

Example meta_interval_example :
  meta_mul (MI (Some (-1, 2)%Q)) (MI (Some (-3, 1)%Q)) = Some (MI (Some (-6, 3)%Q)) /\
  meta_add (ML [(0, 1); (4, 5)]%Q) (MI (Some (0, 1)%Q)) = Some (ML [(0 + 0, 1 + 1); (4 + 0, 5 + 1)]%Q) /\
  refine_interval_list [(5, 6); (0, 2); (1, 3)]%Q = Some [(0, 3); (5, 6)]%Q /\
  m_ok (ML [(0, 1); (4, 5)]%Q).
Proof.
  split; [reflexivity|]. split; [reflexivity|]. split; [reflexivity|].
  cbn. split; [|discriminate]. repeat constructor; unfold i_ok; cbn; lra.
Qed.

(* ---- C12: range evaluation ---- *)
Section NexpInd.
  Variable P : nexp -> Prop.
  Hypothesis HL : forall i iv, P (NLeaf i iv).
  Hypothesis HC : forall q, P (NCst q).
  Hypothesis HB : forall b, P (NBool b).
  Hypothesis HO : forall o iv args, Forall P args -> P (NOp o iv args).
  Fixpoint nexp_all (e : nexp) : P e :=
    match e with
    | NLeaf i iv => HL i iv
    | NCst q => HC q
    | NBool b => HB b
    | NOp o iv args => HO o iv args
        ((fix go (l : list nexp) : Forall P l :=
            match l with [] => Forall_nil P | a :: t => Forall_cons a (nexp_all a) (go t) end) args)
    end.
End NexpInd.

Lemma declared_op : forall env o iv args, declared env (NOp o iv args) <->
  match iv with Some X => inI (nval o (map (neval env) args)) X | None => True end /\ Forall (declared env) args.
Proof.
  intros. cbn [declared]. apply and_iff_compat_l.
  induction args as [|a t IH]; [split; auto|]. rewrite Forall_cons_iff, IH. reflexivity.
Qed.
Lemma every_op : forall P o iv args, every P (NOp o iv args) <-> P o args /\ Forall (every P) args.
Proof.
  intros. cbn [every]. apply and_iff_compat_l.
  induction args as [|a t IH]; [split; auto|]. rewrite Forall_cons_iff, IH. reflexivity.
Qed.

Lemma Qabs_in : forall X x, inI x X -> inI (Qabs x) (i_abs X).
Proof.
  intros [a b] x [H1 H2]; unfold inI, i_abs in *; cbn [fst snd] in *.
  destruct (Qle_bool 0 a) eqn:A; qb.
  - rewrite Qabs_pos by lra. cbn [fst snd]. lra.
  - destruct (Qle_bool b 0) eqn:B; qb.
    + rewrite Qabs_neg by lra. cbn [i_neg fst snd]. lra.
    + cbn [fst snd]. split; [apply Qabs_nonneg|]. apply Qabs_case; intros; mm; lra.
Qed.
Lemma exponent_mono : forall a b, (0 < a)%Q -> (a <= b)%Q -> qlog2 a <= qlog2 b.
Proof.
  intros a b Ha Hb. destruct (qlog2_spec a Ha) as [A1 A2]. destruct (qlog2_spec b ltac:(lra)) as [B1 B2].
  assert (qlog2 a < qlog2 b + 1) by (apply p2_lt_inv; lra). lia.
Qed.
Lemma exp_range_in : forall X x R, inI x X -> exp_range X = Some R -> inI (inject_Z (exponent x)) R.
Proof.
  intros X x R H E. unfold exp_range in E. pose proof (Qabs_in X x H) as [A1 A2].
  destruct (Qle_bool (fst (i_abs X)) 0) eqn:Z; [discriminate|]. qb. injection E as <-.
  unfold inI; cbn [fst snd]. unfold exponent.
  assert (P : (0 < Qabs x)%Q) by lra.
  destruct (Qeq_bool x 0) eqn:X0.
  { qb. assert (Qabs x == 0)%Q by (rewrite X0; reflexivity). lra. }
  split; apply inj_le_iff; apply exponent_mono; lra.
Qed.
Lemma Qfloor_mono : forall a b, (a <= b)%Q -> (inject_Z (Qfloor a) <= inject_Z (Qfloor b))%Q.
Proof. intros. apply inj_le_iff. apply Qfloor_resp_le; auto. Qed.
Lemma Qceiling_mono : forall a b, (a <= b)%Q -> (inject_Z (Qceiling a) <= inject_Z (Qceiling b))%Q.
Proof. intros. apply inj_le_iff. apply Qceiling_resp_le; auto. Qed.

Lemma mant_in : forall x, inI (x * p2 (- exponent x))%Q (-2 # 1, 2 # 1)%Q.
Proof.
  intros x. unfold exponent. destruct (Qeq_bool x 0) eqn:X0; qb.
  - unfold inI; cbn [fst snd]. rewrite X0. lra.
  - assert (P : (0 < Qabs x)%Q).
    { apply Qabs_case; intros; lra. }
    destruct (qlog2_spec _ P) as [_ H]. rewrite p2_succ in H.
    assert (B : (Qabs (x * p2 (- qlog2 (Qabs x))) <= 2)%Q).
    { rewrite Qabs_Qmult, (Qabs_pos (p2 _)) by (apply Qlt_le_weak, p2_pos).
      apply Qle_trans with (2 * p2 (qlog2 (Qabs x)) * p2 (- qlog2 (Qabs x)))%Q.
      - apply Qmult_le_compat_r; [lra|apply Qlt_le_weak, p2_pos].
      - rewrite <- Qmult_assoc, p2_opp_r. lra. }
    revert B. apply Qabs_case; intros; unfold inI; cbn [fst snd]; lra.
Qed.

Lemma bare_range_sound : forall o vs Xs R, (o <> OMod) -> (forall F, o <> ORawExp F) ->
  (forall n, o <> OClz n) -> (forall c, o <> OCmp c) -> o <> OSelect -> o <> OPlaceHolder ->
  Forall2 inI vs Xs -> bare_range o Xs = Some (Some R) -> inI (nval o vs) R.
Proof.
  intros o vs Xs R N1 N2 N3 N4 N5 N6 H E.
  inversion H as [|x X vs1 Xs1 HX H1]; subst; [destruct o; discriminate|].
  inversion H1 as [|y Y vs2 Xs2 HY H2]; subst.
  - destruct o; cbn [bare_range] in E; try discriminate; cbn [nval].
    + injection E as <-. apply i_neg_in; auto.
    + injection E as <-. apply Qabs_in; auto.
    + injection E as <-. destruct HX. split; cbn [i_map fst snd]; apply Qfloor_mono; auto.
    + injection E as <-. destruct HX. split; cbn [i_map fst snd]; apply Qceiling_mono; auto.
    + injection E as <-. destruct HX. split; cbn [i_map fst snd]; apply inj_le_iff; apply qrne_mono; auto.
    + destruct (is_int (fst X) && is_int (snd X)) eqn:I; [|discriminate]. injection E as <-.
      destruct HX. split; cbn [fst snd]; apply p2_le; apply Qfloor_resp_le; auto.
    + injection E as E. eapply exp_range_in; eauto.
    + exfalso; eapply N2; reflexivity.
    + injection E as <-. apply mant_in.
  - inversion H2 as [|z Z vs3 Xs3 HZ H3]; subst.
    + destruct o; cbn [bare_range] in E; try discriminate; cbn [nval].
      * injection E as <-. apply i_add_in; auto.
      * injection E as <-. apply i_sub_in; auto.
      * injection E as <-. apply i_mul_in; auto.
      * injection E as E. eapply i_div_in; eauto.
      * injection E as <-. destruct X, Y, HX, HY; unfold inI; cbn [fst snd] in *.
        destruct (Qle_bool x y) eqn:L; qb; mm; lra.
      * injection E as <-. destruct X, Y, HX, HY; unfold inI; cbn [fst snd] in *.
        destruct (Qle_bool x y) eqn:L; qb; mm; lra.
      * contradiction.
    + inversion H3 as [|w W vs4 Xs4 HW H4]; subst.
      * destruct o; cbn [bare_range] in E; try discriminate; cbn [nval].
        -- injection E as <-. apply i_add_in; auto. apply i_mul_in; auto.
        -- injection E as <-. apply i_sub_in; auto. apply i_mul_in; auto.
        -- injection E as <-. apply i_sub_in; auto.
           apply inI_comp with ((- x) * y)%Q; [ring|]. apply i_mul_in; auto. apply i_neg_in; auto.
        -- injection E as <-. apply i_add_in; auto.
           apply inI_comp with ((- x) * y)%Q; [ring|]. apply i_mul_in; auto. apply i_neg_in; auto.
      * inversion H4; subst; destruct o; cbn [bare_range] in E; try discriminate; cbn [nval].
        injection E as <-. apply i_add_in; apply i_mul_in; auto.
Qed.

Lemma all_some_map : forall A (l : list (option A)) r, all_some l = Some r -> l = map Some r.
Proof.
  induction l as [|[a|] t IH]; intros r H; cbn [all_some] in H; try discriminate.
  - injection H as <-. reflexivity.
  - destruct (all_some t) eqn:E; [|discriminate]. injection H as <-. cbn. f_equal. auto.
Qed.

Definition range_holds (q : Q) (r : option itv) : Prop := match r with Some X => inI q X | None => True end.

Lemma clz_in : forall n z, 0 <= n -> inI (inject_Z (n - bitlen (z mod 2 ^ n))) (0%Q, inject_Z n).
Proof.
  intros n z Hn. pose proof (Z.mod_pos_bound z (2 ^ n) (pow2_pos n Hn)) as M.
  assert (B : 0 <= bitlen (z mod 2 ^ n) <= n).
  { unfold bitlen. destruct (Z.eqb_spec (z mod 2 ^ n) 0); [lia|].
    pose proof (Z.log2_nonneg (z mod 2 ^ n)).
    assert (Z.log2 (z mod 2 ^ n) < n) by (apply Z.log2_lt_pow2; lia). lia. }
  unfold inI; cbn [fst snd]. change 0%Q with (inject_Z 0). split; apply inj_le_iff; lia.
Qed.

(* when the declared intervals hold, the value of a graph is in its evaluated range *)
Theorem evaluate_range_sound_partial : forall env e R,
  every sound_op e -> declared env e -> evaluate_range e = Some (Some R) -> inI (neval env e) R.
Proof.
  intros env e. induction e as [i iv|q|b|o iv args IH] using nexp_all; intros R S D E.
  - cbn [evaluate_range get_interval] in E. destruct iv as [X|]; [|discriminate]. injection E as <-. exact D.
  - injection E as <-. unfold inI; cbn [neval fst snd]. lra.
  - discriminate.
  - rewrite declared_op in D. destruct D as [D1 D2]. rewrite every_op in S. destruct S as [S1 S2].
    destruct iv as [X|]; [cbn in E; injection E as <-; exact D1|]. clear D1.
    assert (G : forall rs, all_some (map evaluate_range args) = Some rs ->
       Forall2 range_holds (map (neval env) args) rs).
    { intros rs H. apply all_some_map in H. revert rs H.
      clear E S1. induction args as [|a t IHt]; intros rs H.
      - destruct rs; [constructor|discriminate].
      - destruct rs as [|r rs]; [discriminate|]. cbn [map] in *. injection H as H1 H2.
        inversion IH; subst. inversion D2; subst. inversion S2; subst.
        constructor; [|apply IHt; auto].
        destruct r as [X|]; [|exact I]. cbn [range_holds]. auto. }
    assert (Ev : neval env (NOp o None args) = nval o (map (neval env) args)) by reflexivity.
    rewrite Ev. clear Ev.
    assert (K : forall rs, all_some (map evaluate_range args) = Some rs -> o <> OPlaceHolder ->
        (forall c, o <> OCmp c) -> node_range o rs = Some (Some R) -> inI (nval o (map (neval env) args)) R).
    { intros rs Hrs NP NC Hn. specialize (G rs Hrs).
      assert (Gen : (forall n, o <> OClz n) -> o <> OSelect ->
        match all_some rs with None => Some None | Some l => bare_range o l end = Some (Some R) ->
        inI (nval o (map (neval env) args)) R).
      { intros NZ NS Hb. destruct (all_some rs) as [Xs|] eqn:EX; [|discriminate].
        apply all_some_map in EX. subst rs. apply bare_range_sound with Xs; auto.
        - intros ->. exact S1.
        - intros F ->. exact S1.
        - clear - G. revert Xs G. generalize (map (neval env) args). intros vs. induction vs; intros Xs G.
          + inversion G; subst. destruct Xs; [constructor|discriminate].
          + destruct Xs; cbn [map] in G; inversion G; subst. constructor; auto. }
      destruct o; try (apply Gen; [discriminate|discriminate|exact Hn]).
      - (* Select *)
        cbn [node_range] in Hn.
        destruct rs as [|r0 [|[X|] [|[Y|] [|? ?]]]]; try discriminate. injection Hn as <-.
        inversion G as [|? ? ? ? _ G1]; subst. inversion G1 as [|? ? ? ? HX G2]; subst.
        inversion G2 as [|? ? ? ? HY G3]; subst. inversion G3; subst. cbn [range_holds] in *.
        cbn [nval]. destruct X, Y, HX, HY; unfold inI; cbn [fst snd] in *. destruct (truth x); mm; lra.
      - (* Clz *)
        cbn [node_range] in Hn. injection Hn as <-. cbn [sound_op] in S1. destruct S1 as [Hb Hlen].
        destruct args as [|a [|? ?]]; try discriminate. cbn [map nval]. apply clz_in; auto.
      - exfalso; eapply NC; reflexivity. }
    cbn [evaluate_range get_interval] in E.
    destruct o; try discriminate;
      try (destruct (all_some (map evaluate_range args)) as [rs|] eqn:Ers; [|discriminate];
           apply (K rs eq_refl); [discriminate|discriminate|exact E]).
    (* PlaceHolder *)
    destruct args as [|a t]; cbn [map all_some] in E.
    + discriminate.
    + inversion IH; subst. inversion D2; subst. inversion S2; subst. cbn [map nval]. auto.
Qed.

(* the ranges given to Modulo and RawExponentExtraction are wrong *)
Theorem modulo_range_refuted : exists env e R, declared env e /\ evaluate_range e = Some (Some R) /\
  ~ inI (neval env e) R.
Proof.
  exists (fun _ => 0%Q), (NOp OMod None [NCst 7; NCst 4]%Q), (4, 4)%Q.
  split; [cbn; auto|]. split; [reflexivity|]. vm_compute. intros [H _]. apply H; reflexivity.
Qed.
(* off by the bias, for every format with a non-zero bias and every non-zero constant *)
Theorem raw_exponent_range_refuted : forall F q, bias F <> 0 -> ~ (q == 0)%Q -> exists R,
  evaluate_range (NOp (ORawExp F) None [NCst q]) = Some (Some R) /\
  ~ inI (neval (fun _ => 0%Q) (NOp (ORawExp F) None [NCst q])) R.
Proof.
  intros F q HF Hq.
  assert (P : (0 < Qabs q)%Q).
  { apply Qabs_case; intros; lra. }
  assert (B : exists k, (fst (i_abs (q, q)) == k)%Q /\ (snd (i_abs (q, q)) == k)%Q /\ (k == Qabs q)%Q).
  { exists (Qabs q). unfold i_abs; cbn [fst snd]. destruct (Qle_bool 0 q) eqn:A; qb.
    - cbn [fst snd]. rewrite Qabs_pos by auto. repeat split; reflexivity.
    - destruct (Qle_bool q 0) eqn:C; qb; [|lra]. cbn [i_neg fst snd]. rewrite Qabs_neg by lra. repeat split; reflexivity. }
  destruct B as [k [B1 [B2 B3]]].
  cbn [evaluate_range get_interval map all_some node_range bare_range].
  unfold exp_range.
  destruct (Qle_bool (fst (i_abs (q, q))) 0) eqn:Z; qb; [rewrite B1, B3 in Z; lra|].
  eexists. split; [reflexivity|]. unfold inI; cbn [fst snd neval map nval].
  assert (L : forall v, (v == Qabs q)%Q -> qlog2 v = qlog2 (Qabs q)).
  { intros v Hv. apply qlog2_unique; rewrite Hv; apply qlog2_spec; auto. }
  rewrite (L (fst (i_abs (q, q)))), (L (snd (i_abs (q, q)))) by (rewrite ?B1, ?B2; auto).
  unfold exponent. destruct (Qeq_bool q 0) eqn:Q0; qb; [contradiction|].
  rewrite !inj_le_iff. lia.
Qed.
(* the range of a negated dot product cannot be evaluated at all *)
Theorem dot_product_negate_range_refuted : forall a b c d X Y U V,
  get_interval a = Some X -> get_interval b = Some Y -> get_interval c = Some U -> get_interval d = Some V ->
  evaluate_range (NOp ODotNeg None [a; b; c; d]) = None.
Proof.
  intros a b c d X Y U V A B C D.
  assert (E : forall n W, get_interval n = Some W -> evaluate_range n = Some (Some W)).
  { intros n W H. destruct n; cbn [evaluate_range]; rewrite H; reflexivity. }
  cbn [evaluate_range get_interval map]. rewrite (E _ _ A), (E _ _ B), (E _ _ C), (E _ _ D). reflexivity.
Qed.

(* setting the intervals during the evaluation changes neither later
   evaluations nor the values *)
Lemma evaluate_update : forall e r, evaluate_range e = Some r -> evaluate_range (update_intervals e) = Some r.
Proof.
  intros e. induction e as [i iv|q|b|o iv args IH] using nexp_all; intros r E; auto.
  destruct iv as [X|]; [destruct o; exact E|].
  assert (M : forall rs, all_some (map evaluate_range args) = Some rs ->
              all_some (map evaluate_range (map update_intervals args)) = Some rs).
  { clear E. induction args as [|a t IHt]; intros rs H; auto. cbn [map all_some] in *.
    inversion IH as [|? ? Ha Ht]; subst.
    destruct (evaluate_range a) as [ra|] eqn:Ea; [|discriminate].
    destruct (all_some (map evaluate_range t)) as [rt|] eqn:Et; [|discriminate]. injection H as <-.
    rewrite (Ha _ eq_refl), (IHt Ht _ eq_refl). reflexivity. }
  assert (GEN : forall o', o = o' -> (forall c, o' <> OCmp c) -> o' <> OPlaceHolder ->
     (match all_some (map evaluate_range args) with Some rs => node_range o' rs | None => None end = Some r) ->
     match match r with Some X => Some X | None => None end with
     | Some X => Some (Some X)
     | None => match all_some (map evaluate_range (map update_intervals args)) with Some rs => node_range o' rs | None => None end
     end = Some r).
  { intros o' _ _ _ H. destruct r as [X|]; auto.
    destruct (all_some (map evaluate_range args)) as [rs|] eqn:Ers; [|discriminate].
    rewrite (M rs eq_refl). exact H. }
  destruct o; try exact E;
   try (cbn [update_intervals]; rewrite E; cbn [evaluate_range get_interval] in *;
        destruct r as [X|]; [reflexivity|];
        apply (GEN _ eq_refl); [discriminate|discriminate|exact E]).
  destruct args as [|a t].
  - cbn in E. injection E as <-. reflexivity.
  - cbn [update_intervals]. rewrite E. cbn [evaluate_range get_interval] in *. destruct r as [X|]; auto.
    inversion IH; subst. auto.
Qed.
Lemma neval_update : forall env e, neval env (update_intervals e) = neval env e.
Proof.
  intros env e. induction e as [i iv|q|b|o iv args IH] using nexp_all; auto.
  assert (M : map (neval env) (map update_intervals args) = map (neval env) args).
  { rewrite map_map. apply map_ext_in. intros a Ha. rewrite Forall_forall in IH. auto. }
  destruct iv as [X|]; [destruct o; reflexivity|].
  destruct o; try reflexivity; try (cbn [update_intervals neval]; rewrite M; reflexivity).
  destruct args as [|a t]; [reflexivity|]. cbn [update_intervals neval map].
  inversion IH as [|? ? Ha _]; subst. rewrite Ha. reflexivity.
Qed.
Theorem update_interval_stable : forall env e r, evaluate_range e = Some r ->
  evaluate_range (update_intervals e) = Some r /\ neval env (update_intervals e) = neval env e.
Proof. intros. split; [apply evaluate_update; auto|apply neval_update]. Qed.

Example evaluate_range_example :
  let e := NOp OSub None [NOp (OMul false) None [NLeaf 0 (Some (-1, 2)%Q); NLeaf 1 (Some (3, 4)%Q)]; NCst 1] in
  evaluate_range e = Some (Some (-4 - 1, 8 - 1)%Q) /\ every sound_op e /\
  declared (fun i => match i with O => 2%Q | _ => 4%Q end) e.
Proof. cbn. unfold inI; cbn. repeat split; try lra; try reflexivity. Qed.

(* ---- C13: interval-driven simplification ---- *)
Lemma Qle_bool_comp : forall a b c d, (a == b)%Q -> (c == d)%Q -> Qle_bool a c = Qle_bool b d.
Proof.
  intros. destruct (Qle_bool a c) eqn:E, (Qle_bool b d) eqn:F; auto; qb; lra.
Qed.
Lemma Qeq_bool_comp : forall a b c d, (a == b)%Q -> (c == d)%Q -> Qeq_bool a c = Qeq_bool b d.
Proof.
  intros a b c d H1 H2. destruct (Qeq_bool a c) eqn:E, (Qeq_bool b d) eqn:F; auto; qb; exfalso.
  - apply F. rewrite <- H1, <- H2. auto.
  - apply E. rewrite H1, H2. auto.
Qed.
Lemma exponent_comp : forall a b, (a == b)%Q -> exponent a = exponent b.
Proof.
  intros a b H. unfold exponent. rewrite (Qeq_bool_comp a b 0 0 H (Qeq_refl 0)).
  destruct (Qeq_bool b 0) eqn:E; auto. qb.
  assert (P : (0 < Qabs b)%Q) by (apply Qabs_case; intros; lra).
  assert (EA : (Qabs a == Qabs b)%Q) by (rewrite H; reflexivity).
  apply qlog2_unique; rewrite EA; apply qlog2_spec; auto.
Qed.
Lemma truth_comp : forall a b, (a == b)%Q -> truth a = truth b.
Proof. intros. unfold truth. f_equal. apply Qeq_bool_comp; [auto|reflexivity]. Qed.
Lemma cmp_val_comp : forall c a b x y, (a == x)%Q -> (b == y)%Q -> cmp_val c a b = cmp_val c x y.
Proof. intros [] *; intros; cbn [cmp_val]; rewrite ?(Qle_bool_comp a x b y), ?(Qle_bool_comp b y a x), ?(Qeq_bool_comp a x b y); auto. Qed.
Lemma tst_val_comp : forall t a b, (a == b)%Q -> tst_val t a = tst_val t b.
Proof.
  intros [|F] a b H; cbn [tst_val].
  - apply Qeq_bool_comp; [auto|reflexivity].
  - f_equal. apply Qle_bool_comp; [reflexivity|]. rewrite H. reflexivity.
Qed.
Lemma nval_comp : forall o vs ws, Forall2 Qeq vs ws -> (nval o vs == nval o ws)%Q.
Proof.
  intros o vs ws H.
  inversion H as [|a x ? ? Ha H1]; subst; [reflexivity|].
  inversion H1 as [|b y ? ? Hb H2]; subst.
  { destruct o; cbn [nval]; try reflexivity; try (rewrite Ha; reflexivity);
    rewrite ?(Qfloor_comp _ _ Ha), ?(exponent_comp _ _ Ha), ?(qrne_comp _ _ Ha), ?(qtrunc_comp _ _ Ha), ?(truth_comp _ _ Ha),
      ?(tst_val_comp _ _ _ Ha), ?Ha; reflexivity. }
  inversion H2 as [|c z ? ? Hc H3]; subst.
  { destruct o; cbn [nval]; try reflexivity; try (rewrite ?Ha, ?Hb; reflexivity).
    - rewrite (Qle_bool_comp _ _ _ _ Ha Hb). destruct (Qle_bool x y); auto.
    - rewrite (Qle_bool_comp _ _ _ _ Ha Hb). destruct (Qle_bool x y); auto.
    - assert (E : (a / b == x / y)%Q) by (rewrite Ha, Hb; reflexivity). rewrite (Qfloor_comp _ _ E), Ha, Hb. reflexivity.
    - rewrite (cmp_val_comp _ _ _ _ _ Ha Hb). reflexivity.
    - rewrite (truth_comp _ _ Ha), (truth_comp _ _ Hb). reflexivity.
    - rewrite (truth_comp _ _ Ha), (truth_comp _ _ Hb). reflexivity. }
  inversion H3 as [|d w ? ? Hd H4]; subst.
  { destruct o; cbn [nval]; try reflexivity; try (rewrite ?Ha, ?Hb, ?Hc; reflexivity);
    rewrite (truth_comp _ _ Ha); destruct (truth x); auto. }
  inversion H4 as [|e u ? ? He H5]; subst;
    destruct o; cbn [nval]; try reflexivity; rewrite ?Ha, ?Hb, ?Hc, ?Hd; reflexivity.
Qed.

Lemma get_interval_in : forall env e X, declared env e -> get_interval e = Some X -> inI (neval env e) X.
Proof.
  intros env [i iv|q|b|o iv args] X D H; cbn [get_interval] in H.
  - subst iv. exact D.
  - injection H as <-. unfold inI; cbn. lra.
  - discriminate.
  - subst iv. rewrite declared_op in D. apply D.
Qed.
Lemma cst_value_eval : forall env e q, cst_value e = Some q -> neval env e = q.
Proof. intros env [i iv|r|b|o iv args] q H; cbn in H; try discriminate; injection H as <-; reflexivity. Qed.
Lemma is_val_eval : forall env v e, is_val v e = true -> (neval env e == v)%Q.
Proof.
  intros env v e H. unfold is_val in H. destruct (cst_value e) eqn:E; [|discriminate]. qb.
  rewrite (cst_value_eval env e q E). auto.
Qed.

(* value, declared intervals and the side conditions survive *)
Definition keeps (env : nat -> Q) (e n : nexp) : Prop :=
  (neval env n == neval env e)%Q /\ declared env n /\ every (logic_op env) n.
Lemma keeps_cst : forall env e q, (q == neval env e)%Q -> keeps env e (NCst q).
Proof. intros. unfold keeps. cbn. auto. Qed.
Lemma keeps_bool : forall env e b, (qbool b == neval env e)%Q -> keeps env e (NBool b).
Proof. intros. unfold keeps. cbn. auto. Qed.
Lemma truth_qbool : forall q, is_truth q -> (qbool (truth q) == q)%Q.
Proof.
  intros q [H|H]; unfold truth.
  - rewrite (proj2 (Qeq_bool_iff q 0) H). cbn. rewrite H. reflexivity.
  - destruct (Qeq_bool q 0) eqn:E; qb; [lra|]. cbn. rewrite H. reflexivity.
Qed.
Lemma truth_1 : forall q, (q == 1)%Q -> truth q = true.
Proof. intros q H. unfold truth. destruct (Qeq_bool q 0) eqn:E; auto. qb. lra. Qed.
Lemma truth_0 : forall q, (q == 0)%Q -> truth q = false.
Proof. intros q H. unfold truth. rewrite (proj2 (Qeq_bool_iff q 0) H). auto. Qed.

Lemma simplify_node_keeps : forall env o iv args,
  declared env (NOp o iv args) -> every (logic_op env) (NOp o iv args) ->
  keeps env (NOp o iv args) (simplify_node o iv args).
Proof.
  intros env o iv args D L. unfold simplify_node.
  destruct (simplifiable_to_cst (NOp o iv args)) as [q|] eqn:SC.
  { unfold simplifiable_to_cst in SC. cbn [is_constant cst_value get_interval] in SC.
    destruct iv as [X|]; [|discriminate]. cbn in SC.
    destruct (Qeq_bool (fst X) (snd X)) eqn:E; [|discriminate]. injection SC as <-. qb.
    apply keeps_cst. pose proof (get_interval_in env _ X D eq_refl) as [A B]. lra. }
  clear SC.
  match goal with |- keeps _ _ (match ?r with _ => _ end) => destruct r as [n|] eqn:R end;
    [|unfold keeps; split; [reflexivity|auto]].
  pose proof D as D'. rewrite declared_op in D'. destruct D' as [_ DA].
  pose proof L as L'. rewrite every_op in L'. destruct L' as [LO LA].
  assert (ARG : forall a, In a args -> (neval env a == neval env (NOp o iv args))%Q -> keeps env (NOp o iv args) a).
  { intros a Ha Hq. rewrite Forall_forall in DA, LA. split; auto. }
  assert (LOG : simplify_logical o args = Some n -> keeps env (NOp o iv args) n).
  { clear R. intros R. destruct o; try discriminate R.
    - destruct args as [|l [|r [|? ?]]]; try discriminate R. cbn [simplify_logical] in R.
      cbn [logic_op] in LO. inversion LO as [|? ? Tl LO1]; subst. inversion LO1 as [|? ? Tr _]; subst.
      cbn [neval map nval] in ARG.
      destruct (is_false l || is_false r) eqn:E1.
      { injection R as <-. apply keeps_bool. cbn [neval map nval]. apply orb_true_iff in E1.
        destruct E1 as [E1|E1]; apply (is_val_eval env) in E1; rewrite (truth_0 _ E1), ?andb_false_r; reflexivity. }
      destruct (is_true l && is_true r) eqn:E2.
      { injection R as <-. apply keeps_bool. cbn [neval map nval]. qb.
        rewrite (truth_1 _ (is_val_eval env _ _ H)), (truth_1 _ (is_val_eval env _ _ H0)). reflexivity. }
      destruct (is_true l) eqn:E3.
      { injection R as <-. apply ARG; [right; left; auto|].
        rewrite (truth_1 _ (is_val_eval env _ _ E3)). cbn [andb]. symmetry. apply truth_qbool; auto. }
      destruct (is_true r) eqn:E4; [|discriminate].
      { injection R as <-. apply ARG; [left; auto|].
        rewrite (truth_1 _ (is_val_eval env _ _ E4)), andb_true_r. symmetry. apply truth_qbool; auto. }
    - destruct args as [|l [|r [|? ?]]]; try discriminate R. cbn [simplify_logical] in R.
      cbn [logic_op] in LO. inversion LO as [|? ? Tl LO1]; subst. inversion LO1 as [|? ? Tr _]; subst.
      destruct (is_false l && is_false r) eqn:E1.
      { injection R as <-. apply keeps_bool. cbn [neval map nval]. qb.
        rewrite (truth_0 _ (is_val_eval env _ _ H)), (truth_0 _ (is_val_eval env _ _ H0)). reflexivity. }
      destruct (is_true l || is_true r) eqn:E2.
      { injection R as <-. apply keeps_bool. cbn [neval map nval]. apply orb_true_iff in E2.
        destruct E2 as [E2|E2]; apply (is_val_eval env) in E2; rewrite (truth_1 _ E2), ?orb_true_r; reflexivity. }
      destruct (cst_value l) as [a|] eqn:Ca; [|discriminate]. destruct (cst_value r) as [b|] eqn:Cb; [|discriminate].
      exfalso. unfold is_false, is_true, is_val in E1, E2. rewrite Ca, Cb in E1, E2.
      rewrite (cst_value_eval env l a Ca) in Tl. rewrite (cst_value_eval env r b Cb) in Tr.
      qb. destruct Tl as [T|T]; [|apply H; auto]. destruct Tr as [T'|T']; [|apply H0; auto].
      rewrite (proj2 (Qeq_bool_iff a 0) T), (proj2 (Qeq_bool_iff b 0) T') in E1. discriminate.
    - destruct args as [|a [|? ?]]; try discriminate R. cbn [simplify_logical] in R.
      destruct (cst_value a) as [v|] eqn:Ca; [|discriminate]. injection R as <-.
      apply keeps_bool. cbn [neval map nval]. rewrite (cst_value_eval env a v Ca). unfold truth.
      rewrite negb_involutive. reflexivity. }
  destruct o; try (apply LOG; exact R); clear LOG.
  - (* Multiplication *)
    destruct fixed_operands; [|discriminate R].
    destruct args as [|l [|r [|? ?]]]; try discriminate R. unfold simplify_mult in R.
    destruct (is_val 0 l || is_val 1 l || is_val 0 r || is_val 1 r); [|discriminate].
    cbn [neval map nval] in ARG.
    destruct (is_constant l); [|destruct (is_constant r); [|discriminate]].
    + destruct (is_val 0 l) eqn:E0; [injection R as <-; apply keeps_cst; cbn [neval map nval];
        rewrite (is_val_eval env _ _ E0); ring|].
      destruct (is_val 1 l) eqn:E1; [|discriminate]. injection R as <-. apply ARG; [right; left; auto|].
      rewrite (is_val_eval env _ _ E1). ring.
    + destruct (is_val 0 r) eqn:E0; [injection R as <-; apply keeps_cst; cbn [neval map nval];
        rewrite (is_val_eval env _ _ E0); ring|].
      destruct (is_val 1 r) eqn:E1; [|discriminate]. injection R as <-. apply ARG; [left; auto|].
      rewrite (is_val_eval env _ _ E1). ring.
  - (* Min *)
    destruct args as [|l [|r [|? ?]]]; try discriminate R. unfold simplifiable_min, qlt in R.
    inversion DA as [|? ? Dl DA1]; subst. inversion DA1 as [|? ? Dr _]; subst.
    destruct (get_interval l) as [X|] eqn:GX; [|discriminate]. destruct (get_interval r) as [Y|] eqn:GY; [|discriminate].
    pose proof (get_interval_in env _ _ Dl GX) as [A B]. pose proof (get_interval_in env _ _ Dr GY) as [A' B'].
    cbn [neval map nval] in ARG.
    destruct (negb (Qle_bool (fst Y) (snd X))) eqn:E1; [|destruct (negb (Qle_bool (fst X) (snd Y))) eqn:E2; [|discriminate]];
      injection R as <-; qb; apply ARG; try (left; reflexivity); try (right; left; reflexivity);
      destruct (Qle_bool (neval env l) (neval env r)) eqn:E; qb; lra.
  - (* Max *)
    destruct args as [|l [|r [|? ?]]]; try discriminate R. unfold simplifiable_max, qlt in R.
    inversion DA as [|? ? Dl DA1]; subst. inversion DA1 as [|? ? Dr _]; subst.
    destruct (get_interval l) as [X|] eqn:GX; [|discriminate]. destruct (get_interval r) as [Y|] eqn:GY; [|discriminate].
    pose proof (get_interval_in env _ _ Dl GX) as [A B]. pose proof (get_interval_in env _ _ Dr GY) as [A' B'].
    cbn [neval map nval] in ARG.
    destruct (negb (Qle_bool (fst Y) (snd X))) eqn:E1; [|destruct (negb (Qle_bool (fst X) (snd Y))) eqn:E2; [|discriminate]];
      injection R as <-; qb; apply ARG; try (left; reflexivity); try (right; left; reflexivity);
      destruct (Qle_bool (neval env l) (neval env r)) eqn:E; qb; lra.
  - (* ConditionBlock *)
    destruct args as [|c [|a [|b [|? ?]]]]; try discriminate R. cbn [neval map nval] in ARG.
    destruct (cst_value c) as [v|] eqn:Cv; [|discriminate]. injection R as <-.
    rewrite (cst_value_eval env c v Cv) in ARG. unfold truth in ARG.
    destruct (Qeq_bool v 0); cbn [negb] in *; apply ARG; try reflexivity; cbn; auto.
  - (* Comparison *)
    destruct args as [|l [|r [|? ?]]]; try discriminate R. unfold simplifiable_cmp, qlt in R.
    inversion DA as [|? ? Dl DA1]; subst. inversion DA1 as [|? ? Dr _]; subst.
    destruct (get_interval l) as [X|] eqn:GX; [|discriminate]. destruct (get_interval r) as [Y|] eqn:GY; [|discriminate].
    pose proof (get_interval_in env _ _ Dl GX) as [A B]. pose proof (get_interval_in env _ _ Dr GY) as [A' B'].
    destruct c; cbn [option_map] in R; try discriminate R;
    match type of R with option_map _ (if ?u then _ else _) = _ => destruct u eqn:E1 end; cbn [option_map] in R;
    try (match type of R with option_map _ (if ?u then _ else _) = _ => destruct u eqn:E2 end; cbn [option_map] in R; [|discriminate R]);
    injection R as <-; apply keeps_bool; cbn [neval map nval cmp_val]; qb;
    match goal with |- context [Qle_bool ?u ?v] => destruct (Qle_bool u v) eqn:E end; qb; try reflexivity; lra.
  - (* Test *)
    destruct t; [|destruct LO].
    destruct args as [|a [|? ?]]; try discriminate R.
    inversion DA as [|? ? Da _]; subst.
    destruct (get_interval a) as [X|] eqn:GX; [|discriminate].
    pose proof (get_interval_in env _ _ Da GX) as [A B]. cbn [simplifiable_test] in R.
    destruct (i_has0 X) eqn:E0; cbn [negb] in R.
    + destruct (Qeq_bool (fst X) (snd X) && Qeq_bool (snd X) 0) eqn:E; [|discriminate]. injection R as <-.
      qb. apply keeps_bool. cbn [neval map nval tst_val].
      destruct (Qeq_bool (neval env a) 0) eqn:Z; qb; [reflexivity|lra].
    + injection R as <-. apply keeps_bool. cbn [neval map nval tst_val].
      unfold i_has0 in E0. apply andb_false_iff in E0.
      destruct (Qeq_bool (neval env a) 0) eqn:Z; [|reflexivity]. qb. destruct E0; qb; lra.
Qed.

(* the simplified graph has the value of the original one whenever the
   declared intervals hold *)
Theorem simplify_preserves_value_partial : forall env e, declared env e -> every (logic_op env) e ->
  (neval env (simplify e) == neval env e)%Q.
Proof.
  assert (G : forall env e, declared env e -> every (logic_op env) e -> keeps env e (simplify e)).
  { intros env e. induction e as [i iv|q|b|o iv args IH] using nexp_all; intros D L.
    - cbn [simplify]. destruct (simplifiable_to_cst (NLeaf i iv)) as [q|] eqn:SC.
      + unfold simplifiable_to_cst in SC. cbn in SC. destruct iv as [X|]; [|discriminate].
        destruct (Qeq_bool (fst X) (snd X)) eqn:E; [|discriminate]. injection SC as <-. qb.
        apply keeps_cst. destruct D. cbn [neval]. lra.
      + split; [reflexivity|auto].
    - split; [reflexivity|auto].
    - split; [reflexivity|auto].
    - cbn [simplify]. rewrite declared_op in D. destruct D as [D1 D2]. rewrite every_op in L. destruct L as [L1 L2].
      assert (K : Forall2 (fun a b => keeps env a b) args (map simplify args)).
      { clear D1 L1. induction args as [|a t IHt]; [constructor|]. inversion IH; subst. inversion D2; subst. inversion L2; subst.
        constructor; auto. }
      assert (V : Forall2 Qeq (map (neval env) (map simplify args)) (map (neval env) args)).
      { clear - K. induction K as [|a b l m Hk K IHK]; cbn [map]; constructor; auto. apply Hk. }
      assert (D' : declared env (NOp o iv (map simplify args))).
      { rewrite declared_op. split.
        - destruct iv as [X|]; auto. apply inI_comp with (nval o (map (neval env) args)); auto.
          symmetry. apply nval_comp. auto.
        - clear - K. induction K; constructor; auto. apply H. }
      assert (L' : every (logic_op env) (NOp o iv (map simplify args))).
      { rewrite every_op. split.
        - assert (TR : Forall (fun a => is_truth (neval env a)) args ->
                       Forall (fun a => is_truth (neval env a)) (map simplify args)).
          { clear - K. induction K as [|a b l m Hk K IHK]; intros H; auto. inversion H as [|? ? Ha Hl]; subst.
            constructor; auto. destruct Hk as [Hk _]. unfold is_truth in *. rewrite Hk. auto. }
          destruct o; cbn [logic_op] in *; auto.
        - clear - K. induction K; constructor; auto. apply H. }
      destruct (simplify_node_keeps env o iv (map simplify args) D' L') as [A [B C]].
      split; [|auto]. rewrite A. cbn [neval]. apply nval_comp. auto. }
  intros. apply G; auto.
Qed.

(* IsSubnormal is decided wrongly: every negative normal number, and the
   smallest positive normal one as upper bound, are said to be subnormal *)
Theorem simplify_subnormal_refuted : forall F q, (q <= - p2 (emin_normal F))%Q -> forall env,
  simplify (NOp (OTest (TSubnormal F)) None [NCst q]) = NBool true /\
  (neval env (NOp (OTest (TSubnormal F)) None [NCst q]) == 0)%Q.
Proof.
  intros F q H env. pose proof (p2_pos (emin_normal F)) as P. pose proof (p2_pos (- fsz F)) as P'.
  assert (M : (0 < get_max_subnormal_value F)%Q).
  { unfold get_max_subnormal_value. apply Qmult_lt_0_compat; lra. }
  split.
  - cbn [simplify map]. unfold simplify_node, simplifiable_to_cst, is_constant.
    cbn [cst_value get_interval simplifiable_test fst snd]. unfold get_min_normal_value.
    rewrite (proj2 (Qle_bool_false (p2 (emin_normal F)) q)) by lra.
    rewrite (proj2 (Qle_bool_iff q (get_max_subnormal_value F))) by lra. reflexivity.
  - cbn [neval map nval tst_val]. rewrite (proj2 (Qle_bool_iff _ _)); [reflexivity|].
    rewrite Qabs_neg by lra. lra.
Qed.
Theorem simplify_subnormal_bound_refuted : forall F, let env := fun _ => p2 (emin_normal F) in
  let e := NOp (OTest (TSubnormal F)) None [NLeaf 0 (Some (0%Q, p2 (emin_normal F)))] in
  declared env e /\ simplify e = NBool true /\ (neval env e == 0)%Q.
Proof.
  intros F env e. subst env e. pose proof (p2_pos (emin_normal F)) as P. pose proof (p2_pos (- fsz F)) as P'.
  assert (M : (p2 (emin_normal F) < get_max_subnormal_value F)%Q).
  { unfold get_max_subnormal_value. pose proof (Qmult_lt_0_compat _ _ P P').
    setoid_replace (p2 (emin_normal F) * (1 + p2 (- fsz F)))%Q
      with (p2 (emin_normal F) + p2 (emin_normal F) * p2 (- fsz F))%Q using relation Qeq by ring. lra. }
  split; [|split].
  - cbn [declared]. unfold inI; cbn [fst snd]. repeat split; lra.
  - assert (E : Qeq_bool 0 (p2 (emin_normal F)) = false).
    { destruct (Qeq_bool 0 (p2 (emin_normal F))) eqn:E; auto. qb. lra. }
    cbn [simplify map]. unfold simplify_node, simplifiable_to_cst, is_constant.
    cbn [cst_value get_interval fst snd]. rewrite E. cbn [get_interval simplifiable_test fst snd].
    unfold get_min_normal_value.
    rewrite (proj2 (Qle_bool_false (p2 (emin_normal F)) 0)) by lra.
    rewrite (proj2 (Qle_bool_iff (p2 (emin_normal F)) (get_max_subnormal_value F))) by lra. reflexivity.
  - cbn [neval map nval tst_val]. rewrite (proj2 (Qle_bool_iff _ _)); [reflexivity|].
    rewrite Qabs_pos by lra. lra.
Qed.
(* IsInfty is answered "never" on every interval with a finite upper bound,
   even when it contains minus infinity *)
Theorem simplify_infty_refuted : forall q, simplifiable_infty ENegInf (EFin q) = Some false.
Proof. reflexivity. Qed.

Example simplify_example :
  let x := NLeaf 0 (Some (2, 3)%Q) in let y := NLeaf 1 (Some (5, 7)%Q) in
  let e := NOp OCondBlock None [NOp OAnd None [NOp (OCmp CLt) None [x; y]; NOp (OTest TZero) None [NLeaf 2 None]];
             NOp OMin None [x; y]; y] in
  let env := fun i => match i with O => 3%Q | 1%nat => 5%Q | _ => 0%Q end in
  simplify e = NOp OCondBlock None [NOp (OTest TZero) None [NLeaf 2 None]; x; y] /\
  declared env e /\ every (logic_op env) e /\ (neval env e == 3)%Q.
Proof.
  cbn. unfold inI, is_truth; cbn. repeat split; auto; try lra.
  repeat constructor; cbn; lra.
Qed.

Print Assumptions meta_add_encloses. Print Assumptions meta_sub_encloses. Print Assumptions meta_mul_encloses.
Print Assumptions meta_neg_encloses. Print Assumptions meta_div_encloses. Print Assumptions meta_or_exact. Print Assumptions meta_and_exact.
Print Assumptions refine_interval_list_correct. Print Assumptions meta_list_bounds.
Print Assumptions evaluate_range_sound_partial. Print Assumptions update_interval_stable.
Print Assumptions raw_exponent_range_refuted. Print Assumptions simplify_preserves_value_partial.
Print Assumptions simplify_subnormal_refuted.
