(* Proofs about dominators, immediate dominators and dominance frontiers. *)
From Coq Require Import List Arith Bool Lia Permutation.
From Verif Require Import DomModel.
Import ListNotations.

Lemma memb_in : forall n l, memb n l = true <-> In n l.
Proof.
  intros n l. induction l as [|m t IH]; cbn [memb]; [split; [discriminate|intros []]|].
  rewrite orb_true_iff, Nat.eqb_eq, IH. cbn [In]. split; intros [H|H]; auto.
Qed.
Lemma memb_out : forall n l, memb n l = false <-> ~ In n l.
Proof. intros n l. rewrite <- memb_in. destruct (memb n l); split; intros; try discriminate; auto. exfalso; auto. Qed.
Lemma subset_spec : forall a b, subset a b = true <-> (forall x, In x a -> In x b).
Proof. intros a b. unfold subset. rewrite forallb_forall. split; intros H x Hx; specialize (H x Hx); rewrite memb_in in *; auto. Qed.
Lemma same_set_spec : forall a b, same_set a b = true <-> (forall x, In x a <-> In x b).
Proof. intros a b. unfold same_set. rewrite andb_true_iff, !subset_spec. split; [intros [H1 H2] x; split; auto|intros H; split; intros x; apply H]. Qed.
Lemma inter_spec : forall D l x, l <> [] -> (In x (inter D l) <-> forall q, In q l -> In x (D q)).
Proof.
  intros D l x. induction l as [|q r IH]; intros N; [congruence|]. destruct r as [|q' r].
  - cbn [inter In]. split; [intros H p [<-|[]]; auto|intros H; apply H; auto].
  - change (inter D (q :: q' :: r)) with (filter (fun x => memb x (inter D (q' :: r))) (D q)). rewrite filter_In, memb_in, IH by discriminate.
    split; [intros [H1 H2] p [<-|Hp]; auto|intros H; split; [apply H; left; auto|intros p Hp; apply H; right; auto]].
Qed.

(* ---- the predecessor map ---- *)
Lemma pred_add_keys : forall d s m, NoDup (map fst m) -> NoDup (map fst (pred_add d s m)) /\ (forall k, In k (map fst (pred_add d s m)) <-> k = d \/ In k (map fst m)).
Proof.
  intros d s m. induction m as [|[d' l] r IH]; intros N; cbn [pred_add map fst].
  - split; [constructor; auto|]. intros k. cbn [In]. intuition.
  - cbn [map fst] in N. inversion N as [|? ? N1 N2]; subst. destruct (Nat.eqb_spec d d') as [->|Nd]; cbn [map fst].
    + split; auto. intros k. cbn [In]. intuition.
    + destruct (IH N2) as [A B]. split.
      * constructor; auto. rewrite B. intros [->|H]; auto.
      * intros k. cbn [In]. rewrite B. intuition.
Qed.
Lemma pred_add_in : forall d s m b l, NoDup (map fst m) -> In (b, l) (pred_add d s m) ->
  l <> [] \/ In (b, l) m.
Proof.
  intros d s m b l N. induction m as [|[d' l'] r IH]; cbn [pred_add].
  - intros [H|[]]. injection H as <- <-. left. discriminate.
  - cbn [map fst] in N. inversion N as [|? ? N1 N2]; subst. destruct (Nat.eqb_spec d d') as [->|Nd]; cbn [In].
    + intros [H|H]; auto. injection H as <- <-. left. destruct l'; discriminate.
    + intros [H|H]; auto. destruct (IH N2 H); auto.
Qed.
Lemma pred_add_mem : forall d s m b, NoDup (map fst m) -> forall x,
  (exists l, In (b, l) (pred_add d s m) /\ In x l) <-> (exists l, In (b, l) m /\ In x l) \/ b = d /\ x = s.
Proof.
  intros d s m b N x. induction m as [|[d' l'] r IH]; cbn [pred_add].
  - split.
    + intros (l & [H|[]] & Hx). injection H as <- <-. destruct Hx as [<-|[]]. auto.
    + intros [(l & [] & _)|[-> ->]]. exists [s]. split; left; auto.
  - cbn [map fst] in N. inversion N as [|? ? N1 N2]; subst. specialize (IH N2). destruct (Nat.eqb_spec d d') as [->|Nd].
    + split.
      * intros (l & [H|H] & Hx).
        -- injection H as <- <-. apply in_app_or in Hx. destruct Hx as [Hx|[<-|[]]]; [left; exists l'; split; [left; auto|auto]|auto].
        -- left. exists l. split; [right; auto|auto].
      * intros [(l & [H|H] & Hx)|[-> ->]].
        -- injection H as <- <-. exists (l' ++ [s]). split; [left; auto|apply in_or_app; auto].
        -- exists l. split; [right; auto|auto].
        -- exists (l' ++ [s]). split; [left; auto|apply in_or_app; right; left; auto].
    + split.
      * intros (l & [H|H] & Hx).
        -- injection H as <- <-. left. exists l'. split; [left; auto|auto].
        -- destruct (proj1 IH (ex_intro _ l (conj H Hx))) as [(l2 & H2 & Hx2)|G]; auto. left. exists l2. split; [right; auto|auto].
      * intros [(l & [H|H] & Hx)|G].
        -- injection H as <- <-. exists l'. split; [left; auto|auto].
        -- destruct (proj2 IH (or_introl (ex_intro _ l (conj H Hx)))) as (l2 & H2 & Hx2). exists l2. split; [right; auto|auto].
        -- destruct (proj2 IH (or_intror G)) as (l2 & H2 & Hx2). exists l2. split; [right; auto|auto].
Qed.

Lemma pred_map_spec : forall edges,
  NoDup (map fst (pred_map edges)) /\ (forall b l, In (b, l) (pred_map edges) -> l <> []) /\
  (forall b x, (exists l, In (b, l) (pred_map edges) /\ In x l) <-> In (x, b) edges).
Proof.
  intros edges. unfold pred_map.
  assert (G : forall m, NoDup (map fst m) -> (forall b l, In (b, l) m -> l <> []) ->
    let m' := fold_left (fun m e => pred_add (snd e) (fst e) m) edges m in
    NoDup (map fst m') /\ (forall b l, In (b, l) m' -> l <> []) /\
    (forall b x, (exists l, In (b, l) m' /\ In x l) <-> (exists l, In (b, l) m /\ In x l) \/ In (x, b) edges)).
  { induction edges as [|[s d] r IH]; intros m N E; cbn [fold_left fst snd].
    - split; auto. split; auto. intros b x. cbn [In]. intuition.
    - destruct (IH (pred_add d s m)) as (A & B & C).
      + apply pred_add_keys; auto.
      + intros b l H. destruct (pred_add_in d s m b l N H); eauto.
      + split; auto. split; auto. intros b x. rewrite C, pred_add_mem by auto. cbn [In].
        split; [intros [[H|[-> ->]]|H]; auto|intros [H|[H|H]]; auto]. injection H as <- <-. auto. }
  destruct (G []) as (A & B & C); [constructor|intros b l []|]. split; auto. split; auto.
  intros b x. rewrite C. split; [intros [(l & [] & _)|H]; auto|auto].
Qed.

(* ---- counting ---- *)
Lemma filter_len_le : forall (A : Type) (f g : A -> bool) l, (forall x, In x l -> f x = true -> g x = true) -> length (filter f l) <= length (filter g l).
Proof.
  intros A f g l. induction l as [|a t IH]; intros H; cbn [filter]; auto.
  assert (length (filter f t) <= length (filter g t)) by (apply IH; intros; apply H; auto; right; auto).
  destruct (f a) eqn:E; [rewrite (H a) by (auto; left; auto); cbn [length]; lia|]. destruct (g a); cbn [length]; lia.
Qed.
Lemma filter_len_lt : forall (A : Type) (f g : A -> bool) l a, (forall x, In x l -> f x = true -> g x = true) -> In a l -> f a = false -> g a = true ->
  length (filter f l) < length (filter g l).
Proof.
  intros A f g l a. induction l as [|b t IH]; intros H Ha F G; [destruct Ha|]. cbn [filter].
  assert (L : length (filter f t) <= length (filter g t)) by (apply filter_len_le; intros; apply H; auto; right; auto).
  destruct Ha as [->|Ha].
  - rewrite F, G. cbn [length]. lia.
  - assert (length (filter f t) < length (filter g t)) by (apply IH; auto; intros; apply H; auto; right; auto).
    destruct (f b) eqn:E; [rewrite (H b) by (auto; left; auto); cbn [length]; lia|]. destruct (g b); cbn [length]; lia.
Qed.

(* ------------------------------------------------------------------ *)
(* specification: paths and dominance                                   *)
(* ------------------------------------------------------------------ *)
Section Dom.
Variable root : nat.
Variable edges : list (nat * nat).

(* the nodes of a path from the entry to its head, last first *)
Inductive path : list nat -> nat -> Prop :=
| path_root : path [root] root
| path_step : forall l n m, path l n -> In (n, m) edges -> path (m :: l) m.

Definition reachable (b : nat) : Prop := exists l, path l b.
Definition dominates (a b : nat) : Prop := forall l, path l b -> In a l.
Definition strictly_dominates (a b : nat) : Prop := dominates a b /\ a <> b.

Lemma path_hd : forall l b, path l b -> exists t, l = b :: t.
Proof. intros l b H. destruct H; eauto. Qed.
Lemma dom_refl : forall b, dominates b b.
Proof. intros b l H. destruct (path_hd l b H) as [t ->]. left; auto. Qed.
Lemma dom_root : forall b, dominates root b.
Proof. intros b l H. induction H; [left; auto|right; auto]. Qed.

Lemma path_suffix : forall l1 a l2 b, path (l1 ++ a :: l2) b -> path (a :: l2) a.
Proof.
  induction l1 as [|c l1 IH]; intros a l2 b H; cbn [app] in H.
  - destruct (path_hd _ _ H) as [t E]. injection E as <- <-. auto.
  - inversion H as [E|l n m H1 H2 E]; subst; [destruct l1; discriminate|]. apply (IH a l2 n); auto.
Qed.
Lemma path_replace : forall l1 a l2 b s, path (l1 ++ a :: l2) b -> path s a -> path (l1 ++ s) b.
Proof.
  induction l1 as [|c l1 IH]; intros a l2 b s H Hs; cbn [app] in *.
  - destruct (path_hd _ _ H) as [t E]. injection E as <- <-. auto.
  - inversion H as [E|l n m H1 H2 E]; subst; [destruct l1; discriminate|]. apply (path_step (l1 ++ s) n b); auto. apply (IH a l2); auto.
Qed.
Lemma dom_trans : forall a b c, dominates a b -> dominates b c -> dominates a c.
Proof.
  intros a b c H1 H2 l Hl. specialize (H2 l Hl). apply in_split in H2. destruct H2 as (l1 & l2 & ->).
  apply path_suffix in Hl. specialize (H1 _ Hl). apply in_or_app. right. auto.
Qed.

Lemma dom_antisym : forall a b, reachable b -> dominates a b -> dominates b a -> a = b.
Proof.
  intros a b [l Hl] Hab Hba. remember (length l) as n eqn:En. revert l Hl En. induction n as [n IH] using lt_wf_ind. intros l Hl ->.
  destruct (Nat.eq_dec a b) as [|N]; auto. exfalso.
  pose proof (Hab l Hl) as Ha. apply in_split in Ha. destruct Ha as (l1 & l2 & ->). pose proof (path_suffix _ _ _ _ Hl) as Hp.
  pose proof (Hba _ Hp) as Hb. destruct Hb as [E|Hb]; [auto|]. apply in_split in Hb. destruct Hb as (l3 & l4 & ->).
  pose proof (path_suffix (a :: l3) b l4 a Hp) as Hq.
  apply N. apply (IH (length (b :: l4))) with (l := b :: l4); auto.
  rewrite !app_length. cbn [length]. rewrite app_length. cbn [length]. lia.
Qed.

Lemma first_split : forall (P : nat -> Prop) (dec : forall x, {P x} + {~ P x}) l, (exists x, In x l /\ P x) ->
  exists l1 a l2, l = l1 ++ a :: l2 /\ P a /\ (forall x, In x l1 -> ~ P x).
Proof.
  intros P dec l. induction l as [|c t IH]; intros (x & Hx & Px); [destruct Hx|]. destruct (dec c) as [Pc|Nc].
  - exists [], c, t. split; [reflexivity|]. split; [exact Pc|]. intros y [].
  - destruct IH as (l1 & a & l2 & -> & Pa & N); [destruct Hx as [->|Hx]; [contradiction|eauto]|].
    exists (c :: l1), a, l2. split; auto. split; auto. intros y [<-|Hy]; auto.
Qed.

(* the dominators of a reachable block form a chain *)
Lemma dom_chain_aux : forall a c b l1 l2, path (l1 ++ a :: l2) b -> ~ In c l1 -> dominates c b -> dominates c a.
Proof.
  intros a c b l1 l2 Hp Nc Hc s Hs. specialize (Hc _ (path_replace _ _ _ _ _ Hp Hs)). apply in_app_or in Hc. destruct Hc; [contradiction|auto].
Qed.
Lemma dom_chain : forall a c b, reachable b -> dominates a b -> dominates c b -> dominates a c \/ dominates c a.
Proof.
  intros a c b [l Hl] Ha Hc.
  assert (dec : forall x, {x = a \/ x = c} + {~ (x = a \/ x = c)}) by (intros x; destruct (Nat.eq_dec x a); destruct (Nat.eq_dec x c); intuition).
  destruct (first_split (fun x => x = a \/ x = c) dec l) as (l1 & z & l2 & -> & Hz & N); [exists a; split; auto; apply Ha; auto|].
  destruct Hz as [->| ->].
  - right. apply (dom_chain_aux a c b l1 l2); auto. intros H. apply (N c); auto.
  - left. apply (dom_chain_aux c a b l1 l2); auto. intros H. apply (N a); auto.
Qed.

Lemma dom_pred : forall a b, a <> b -> dominates a b -> forall q, In (q, b) edges -> dominates a q.
Proof. intros a b N H q E l Hl. specialize (H _ (path_step _ _ _ Hl E)). destruct H as [->|]; [congruence|auto]. Qed.

(* ------------------------------------------------------------------ *)
(* the fixpoint                                                         *)
(* ------------------------------------------------------------------ *)
Variable bbs : list nat.
Hypothesis root_in : In root bbs.
Hypothesis src_in : forall s d, In (s, d) edges -> In s bbs.
Hypothesis dst_in : forall s d, In (s, d) edges -> In d bbs.
Hypothesis root_no_pred : forall s, ~ In (s, root) edges.

Lemma dom_root_inv : forall a, dominates a root -> a = root.
Proof. intros a H. destruct (H [root] path_root) as [<-|[]]. auto. Qed.

Notation pm := (pred_map edges).
Record inv (D : dmap) : Prop := mkInv {
  inv_up : forall a b, In a bbs -> In b bbs -> dominates a b -> In a (D b);
  inv_sub : forall b, In b bbs -> forall a, In a (D b) -> In a bbs;
  inv_dec : forall b l, In (b, l) pm -> forall a, In a (b :: inter D l) -> In a (D b);
  inv_root : forall a, In a (D root) -> a = root }.

Lemma pm_keys : NoDup (map fst pm). Proof. apply pred_map_spec. Qed.
Lemma pm_ne : forall b l, In (b, l) pm -> l <> []. Proof. apply pred_map_spec. Qed.
Lemma pm_pred : forall b l, In (b, l) pm -> forall q, In q l <-> In (q, b) edges.
Proof.
  intros b l H q. destruct (pred_map_spec edges) as (N & _ & E). rewrite <- E. split; [intros Hq; eauto|]. intros (l' & H' & Hq).
  assert (l' = l); [|subst; auto].
  clear -N H H'. induction (pred_map edges) as [|[b0 l0] r IH]; [destruct H|]. cbn [map fst] in N. inversion N as [|? ? N1 N2]; subst.
  destruct H as [H|H]; destruct H' as [H'|H'].
  - congruence.
  - injection H as -> ->. exfalso. apply N1. apply (in_map fst) in H'. auto.
  - injection H' as -> ->. exfalso. apply N1. apply (in_map fst) in H. auto.
  - auto.
Qed.
Lemma pm_has : forall q b, In (q, b) edges -> exists l, In (b, l) pm.
Proof. intros q b H. destruct (pred_map_spec edges) as (_ & _ & E). apply E in H. destruct H as (l & H & _). eauto. Qed.
Lemma pm_bbs : forall b l, In (b, l) pm -> In b bbs /\ b <> root.
Proof.
  intros b l H. pose proof (pm_ne b l H). destruct l as [|q l]; [congruence|]. assert (E : In (q, b) edges) by (apply (pm_pred b (q :: l) H); left; auto).
  split; [eapply dst_in; eauto|]. intros ->. eapply root_no_pred; eauto.
Qed.

Lemma inv_init : inv (upd (fun _ => bbs) root [root]).
Proof.
  constructor; unfold upd.
  - intros a b Ha Hb H. destruct (Nat.eqb_spec b root) as [->|]; auto. rewrite (dom_root_inv a H). left; auto.
  - intros b Hb a. destruct (Nat.eqb_spec b root) as [->|]; auto. intros [<-|[]]. auto.
  - intros b l H a Ha. destruct (pm_bbs b l H) as [B N]. destruct (Nat.eqb_spec b root) as [->|]; [congruence|].
    destruct Ha as [<-|Ha]; auto. destruct l as [|q l]; [exfalso; eapply pm_ne; eauto|].
    rewrite inter_spec in Ha by discriminate. specialize (Ha q (or_introl eq_refl)). cbn beta in Ha.
    destruct (Nat.eqb_spec q root) as [->|]; auto. destruct Ha as [<-|[]]. auto.
  - intros a. rewrite Nat.eqb_refl. intros [<-|[]]. auto.
Qed.

Lemma inv_upd : forall D b l, inv D -> In (b, l) pm -> inv (upd D b (b :: inter D l)).
Proof.
  intros D b l I H. destruct (pm_bbs b l H) as [Hb Nb]. pose proof (pm_ne b l H) as Nl.
  assert (S : forall n a, In a (upd D b (b :: inter D l) n) -> In a (D n)).
  { intros n a. unfold upd. destruct (Nat.eqb_spec n b) as [->|]; auto. apply (inv_dec D I b l H). }
  constructor.
  - intros a n Ha Hn Hd. unfold upd. destruct (Nat.eqb_spec n b) as [->|]; [|apply (inv_up D I); auto].
    destruct (Nat.eq_dec a b) as [->|N]; [left; auto|]. right. rewrite inter_spec by auto. intros q Hq.
    apply (pm_pred b l H) in Hq. apply (inv_up D I); auto; [eapply src_in; eauto|]. apply (dom_pred a b); auto.
  - intros n Hn a Ha. apply (inv_sub D I n Hn). auto.
  - intros n ln Hln a Ha. pose proof (pm_ne n ln Hln) as Nln.
    assert (Ha' : In a (n :: inter D ln)).
    { destruct Ha as [<-|Ha]; [left; auto|right]. rewrite inter_spec in * by auto. intros q Hq. apply S; auto. }
    unfold upd. destruct (Nat.eqb_spec n b) as [->|]; [|apply (inv_dec D I n ln); auto].
    assert (ln = l \/ ln <> l) by (destruct (list_eq_dec Nat.eq_dec ln l); auto). destruct H0 as [->|G]; auto.
    destruct Ha' as [<-|Ha']; [left; auto|right]. rewrite inter_spec in * by auto. intros q Hq. apply Ha'.
    apply (pm_pred b ln Hln). apply (pm_pred b l H). auto.
  - intros a Ha. apply (inv_root D I). auto.
Qed.

Definition measure (D : dmap) : nat := length (filter (fun x => memb (fst x) (D (snd x))) (list_prod bbs bbs)).
Definition shrinks (D D' : dmap) : Prop := forall b a, In a (D' b) -> In a (D b).

Lemma measure_le : forall D D', shrinks D D' -> measure D' <= measure D.
Proof. intros D D' S. apply filter_len_le. intros [a b] _ H. cbn [fst snd] in *. rewrite memb_in in *. apply S; auto. Qed.

Lemma pass_ok : forall pm' D ch, incl pm' pm -> inv D ->
  exists D' ch', dom_pass bbs pm' D ch = Some (D', ch') /\ inv D' /\ shrinks D D' /\
    (ch' = false -> ch = false /\ (forall b a, In a (D' b) <-> In a (D b)) /\ (forall b l, In (b, l) pm' -> forall a, In a (D' b) <-> In a (b :: inter D' l))) /\
    (ch' = true -> ch = true \/ measure D' < measure D).
Proof.
  induction pm' as [|[b l] r IH]; intros D ch Hin I; cbn [dom_pass].
  - exists D, ch. split; auto. split; auto. split; [intros ? ? H; auto|]. split; [|auto]. intros ->. split; auto. split; [tauto|]. intros b l [].
  - assert (H : In (b, l) pm) by (apply Hin; left; auto). destruct (pm_bbs b l H) as [Hb Nb].
    replace (memb b bbs) with true by (symmetry; apply memb_in; auto). cbn [negb].
    set (D1 := upd D b (b :: inter D l)). assert (I1 : inv D1) by (apply inv_upd; auto).
    assert (S1 : shrinks D D1).
    { intros n a. unfold D1, upd. destruct (Nat.eqb_spec n b) as [->|]; auto. apply (inv_dec D I b l H). }
    destruct (IH D1 (ch || negb (same_set (b :: inter D l) (D b)))) as (D2 & ch2 & E & I2 & S2 & F2 & T2); auto; [intros x Hx; apply Hin; right; auto|].
    exists D2, ch2. split; auto. split; auto. split; [intros n a Ha; apply S1, S2; auto|]. split.
    + intros C. destruct (F2 C) as (C1 & C2 & C3). apply orb_false_iff in C1. destruct C1 as [C1 C4]. apply negb_false_iff in C4.
      rewrite same_set_spec in C4. split; auto.
      assert (E1 : forall n a, In a (D1 n) <-> In a (D n)).
      { intros n a. unfold D1, upd. destruct (Nat.eqb_spec n b) as [->|]; [apply C4|tauto]. }
      split; [intros n a; rewrite C2; apply E1|]. intros b' l' [Hl|Hl] a; [|apply C3; auto]. injection Hl as <- <-.
      rewrite C2, E1, <- C4. pose proof (pm_ne b l H) as Nl. cbn [In]. rewrite !inter_spec by auto.
      assert (X : forall q, In a (D2 q) <-> In a (D q)) by (intros q; rewrite C2; apply E1).
      split; (intros [G|G]; [auto|right; intros q Hq; apply X; auto]).
    + intros C. destruct (T2 C) as [G|G]; [|right; pose proof (measure_le D D1 S1); lia].
      apply orb_true_iff in G. destruct G as [G|G]; auto. right. apply negb_true_iff in G.
      apply (Nat.le_lt_trans _ (measure D1)); [apply measure_le; auto|].
      assert (X : exists a, In a (D b) /\ ~ In a (b :: inter D l)).
      { destruct (forallb (fun a => memb a (b :: inter D l)) (D b)) eqn:F.
        - exfalso. assert (same_set (b :: inter D l) (D b) = true); [|congruence]. apply same_set_spec. intros x. split; [apply (inv_dec D I b l H)|].
          intros Hx. rewrite forallb_forall in F. apply memb_in. auto.
        - clear -F. induction (D b) as [|c t IH]; [discriminate|]. cbn [forallb] in F. apply andb_false_iff in F. destruct F as [F|F].
          + exists c. split; [left; auto|]. apply memb_out. auto.
          + destruct (IH F) as (a & Ha & Na). exists a. split; [right; auto|auto]. }
      destruct X as (a & Ha & Na). unfold measure. apply (filter_len_lt _ _ _ _ (a, b)).
      * intros [a' b'] _ G'. cbn [fst snd] in *. rewrite memb_in in *. apply S1; auto.
      * apply in_prod; auto. apply (inv_sub D I b); auto.
      * cbn [fst snd]. apply memb_out. unfold D1, upd. rewrite Nat.eqb_refl. auto.
      * cbn [fst snd]. apply memb_in. auto.
Qed.

Definition fixed (D : dmap) : Prop := forall b l, In (b, l) pm -> forall a, In a (D b) <-> In a (b :: inter D l).

Lemma loop_fix : forall fuel D, inv D -> measure D < fuel -> exists D', dom_loop fuel bbs pm D = Some D' /\ inv D' /\ fixed D'.
Proof.
  induction fuel as [|f IH]; intros D I M; [lia|]. cbn [dom_loop].
  destruct (pass_ok pm D false (incl_refl _) I) as (D' & ch & E & I' & S & F & T). rewrite E. destruct ch.
  - destruct (T eq_refl) as [|L]; [discriminate|]. apply IH; auto. lia.
  - exists D'. split; auto. split; auto. intros b l H a. destruct (F eq_refl) as (_ & _ & G). apply G; auto.
Qed.

Lemma fixed_sound : forall D, inv D -> fixed D -> forall l b, path l b -> forall a, In a (D b) -> In a l.
Proof.
  intros D I Fx l b H. induction H as [|l n m H IH E]; intros a Ha.
  - rewrite (inv_root D I a Ha). left; auto.
  - destruct (pm_has n m E) as [ln Hln]. apply (Fx m ln Hln) in Ha. destruct Ha as [<-|Ha]; [left; auto|right].
    apply IH. rewrite inter_spec in Ha by (eapply pm_ne; eauto). apply Ha. apply (pm_pred m ln Hln). auto.
Qed.

Lemma dominator_map_ok : forall fuel, length bbs * length bbs < fuel ->
  exists D, dominator_map fuel root bbs edges = Some D /\ (forall b a, In b bbs -> (In a (D b) <-> In a bbs /\ dominates a b)).
Proof.
  intros fuel Hf. unfold dominator_map. destruct (loop_fix fuel (upd (fun _ => bbs) root [root]) inv_init) as (D & E & I & Fx).
  - unfold measure. eapply Nat.le_lt_trans; [|apply Hf]. rewrite <- prod_length.
    eapply Nat.le_trans; [apply (filter_len_le _ _ (fun _ => true)); auto|]. 
    assert (forall (A : Type) (l : list A), length (filter (fun _ => true) l) = length l) as -> by (intros A l; induction l; cbn [filter length]; auto). auto.
  - exists D. split; auto. intros b a Hb. split.
    + intros Ha. split; [apply (inv_sub D I b); auto|]. intros l Hl. apply (fixed_sound D I Fx l b); auto.
    + intros [Ha Hd]. apply (inv_up D I); auto.
Qed.

(* ------------------------------------------------------------------ *)
(* immediate dominators                                                 *)
(* ------------------------------------------------------------------ *)
Definition closest (d b : nat) : Prop := strictly_dominates d b /\ forall c, strictly_dominates c b -> dominates c d.

Lemma closest_unique : forall d d' b, reachable b -> closest d b -> closest d' b -> d = d'.
Proof.
  intros d d' b [l Hl] [[A N] B] [[A' N'] B']. apply dom_antisym.
  - pose proof (A' l Hl) as H. apply in_split in H. destruct H as (l1 & l2 & ->). apply path_suffix in Hl. eexists; eauto.
  - apply B'. split; auto.
  - apply B. split; auto.
Qed.
Lemma dom_reachable : forall a b, reachable b -> dominates a b -> reachable a.
Proof. intros a b [l Hl] H. specialize (H l Hl). apply in_split in H. destruct H as (l1 & l2 & ->). apply path_suffix in Hl. eexists; eauto. Qed.
Lemma dom_in : forall a b, reachable b -> dominates a b -> In a bbs.
Proof.
  intros a b R H. destruct (dom_reachable a b R H) as [l Hl]. inversion Hl; subst; auto. eapply dst_in; eauto.
Qed.
Lemma reach_in : forall b, reachable b -> In b bbs.
Proof. intros b R. apply (dom_in b b R), dom_refl. Qed.

Section Exact.
Variable D : dmap.
Hypothesis HD : forall b a, In b bbs -> (In a (D b) <-> In a bbs /\ dominates a b).

Lemma HD' : forall b a, reachable b -> (In a (D b) <-> dominates a b).
Proof. intros b a R. rewrite HD by (apply reach_in; auto). split; [tauto|]. intros H. split; auto. eapply dom_in; eauto. Qed.

Lemma closest_exists : forall b, reachable b -> b <> root -> exists d, closest d b.
Proof.
  intros b R Nb.
  assert (dec : forall x, {In x (D b) /\ x <> b} + {~ (In x (D b) /\ x <> b)}).
  { intros x. destruct (Nat.eq_dec x b); [right; tauto|]. destruct (in_dec Nat.eq_dec x (D b)); [left|right]; tauto. }
  destruct R as [l Hl]. destruct (first_split _ dec l) as (l1 & d & l2 & -> & [Hd Nd] & N).
  - exists root. split; [apply (dom_root b); auto|]. split; auto. apply HD'; [exists l; auto|apply dom_root].
  - exists d. assert (R : reachable b) by (eexists; eauto). apply HD' in Hd; auto. split; [split; auto|].
    intros c [Hc Nc]. apply (dom_chain_aux d c b l1 l2); auto. intros G. apply (N c G). split; auto. apply HD'; auto.
Qed.

Lemma is_imm_spec : forall b d, reachable b -> In d (D b) -> (is_imm D b d = true <-> closest d b).
Proof.
  intros b d R Hd. pose proof (proj1 (HD' b d R) Hd) as Hdom. unfold is_imm. rewrite andb_true_iff, negb_true_iff, Nat.eqb_neq, forallb_forall. split.
  - intros [N A]. split; [split; auto|]. intros c [Hc Nc]. destruct (dom_chain d c b R Hdom Hc) as [G|G]; auto.
    assert (Hc' : In c (D b)) by (apply HD'; auto). specialize (A c Hc'). apply orb_true_iff in A. destruct A as [A|A].
    + apply orb_true_iff in A. rewrite !Nat.eqb_eq in A. destruct A as [->|]; [apply dom_refl|congruence].
    + apply negb_true_iff, memb_out in A. exfalso. apply A. apply HD'; auto. eapply dom_reachable; eauto.
  - intros [[_ N] B]. split; auto. intros o Ho. pose proof (proj1 (HD' b o R) Ho) as Hod.
    destruct (Nat.eqb_spec o d); auto. destruct (Nat.eqb_spec o b); auto. cbn [orb]. apply negb_true_iff, memb_out. intros G.
    assert (Ro : reachable o) by (eapply dom_reachable; eauto). apply HD' in G; auto. apply n. symmetry. apply dom_antisym; auto. apply B. split; auto.
Qed.

Lemma idom_ok : forall b, reachable b ->
  (b = root -> idom D b = None) /\ (b <> root -> exists d, idom D b = Some d /\ closest d b).
Proof.
  intros b R. unfold idom. split.
  - intros ->. destruct (find (is_imm D root) (D root)) as [d|] eqn:E; auto. exfalso. apply find_some in E. destruct E as [H1 H2].
    apply (is_imm_spec root d R) in H2; auto. destruct H2 as [[A N] _]. apply N. apply dom_root_inv. auto.
  - intros N. destruct (closest_exists b R N) as [d Hd]. assert (In d (D b)) by (apply HD'; auto; apply Hd).
    destruct (find (is_imm D b) (D b)) as [d'|] eqn:E.
    + exists d'. split; auto. apply find_some in E. destruct E as [H1 H2]. apply (is_imm_spec b d' R H1). auto.
    + exfalso. apply (find_none _ _ E) in H. assert (is_imm D b d = true) by (apply is_imm_spec; auto; apply HD'; auto; apply Hd). congruence.
Qed.

(* ------------------------------------------------------------------ *)
(* dominance frontiers                                                  *)
(* ------------------------------------------------------------------ *)
Lemma nsd_spec : forall x y, reachable y -> (not_strictly_dominates D x y = true <-> ~ strictly_dominates x y).
Proof.
  intros x y R. unfold not_strictly_dominates, strictly_dominates. destruct (Nat.eqb_spec x y) as [->|N].
  - split; [intros _ [_ H]; auto|auto].
  - rewrite negb_true_iff, memb_out, HD' by auto. tauto.
Qed.

(* number of dominators: decreases along the walk *)
Definition ndom (x : nat) : nat := length (filter (fun a => memb a (D x)) bbs).
Lemma ndom_lt : forall d x, reachable x -> closest d x -> ndom d < ndom x.
Proof.
  intros d x R [[A N] B]. assert (Rd : reachable d) by (eapply dom_reachable; eauto).
  apply (filter_len_lt _ _ _ _ x).
  - intros a _ H. rewrite memb_in in *. apply HD'; auto. apply HD' in H; auto. eapply dom_trans; eauto.
  - apply reach_in; auto.
  - apply memb_out. intros H. apply HD' in H; auto. apply N. apply dom_antisym; auto.
  - apply memb_in, HD'; auto. apply dom_refl.
Qed.

Lemma df_walk_ok : forall fuel x d, reachable x -> reachable d -> d <> root -> ndom x <= fuel ->
  exists l, df_walk fuel D x d = Some l /\ forall y, In y l <-> dominates y x /\ ~ strictly_dominates y d.
Proof.
  induction fuel as [|f IH]; intros x d Rx Rd Nd Hf.
  - exfalso. assert (0 < ndom x); [|lia]. unfold ndom.
    destruct (filter (fun a => memb a (D x)) bbs) as [|a t] eqn:E; [|cbn; lia]. exfalso.
    assert (In x (filter (fun a => memb a (D x)) bbs)) by (apply filter_In; split; [apply reach_in; auto|apply memb_in, HD'; auto; apply dom_refl]). rewrite E in H. auto.
  - cbn [df_walk]. destruct (not_strictly_dominates D x d) eqn:T.
    + apply nsd_spec in T; auto.
      assert (Nx : x <> root) by (intros ->; apply T; split; [apply dom_root|auto]).
      destruct (idom_ok x Rx) as [_ G]. destruct (G Nx) as (x' & E & C). rewrite E.
      assert (Rx' : reachable x') by (eapply dom_reachable; [apply Rx|apply C]).
      destruct (IH x' d Rx' Rd Nd) as (l & El & Hl); [pose proof (ndom_lt x' x Rx C); lia|]. rewrite El.
      exists (x :: l). split; auto. intros y. cbn [In]. rewrite Hl. split.
      * intros [<-|[H1 H2]]; [split; auto; apply dom_refl|]. split; auto. eapply dom_trans; [apply H1|apply C].
      * intros [H1 H2]. destruct (Nat.eq_dec x y) as [|N]; auto. right. split; auto. destruct C as [_ C]. apply C. split; auto.
    + exists []. split; auto. intros y. split; [intros []|]. intros [H1 H2]. exfalso.
      assert (S : strictly_dominates x d).
      { destruct (not_strictly_dominates D x d) eqn:T2; [discriminate|]. unfold not_strictly_dominates in T2. destruct (Nat.eqb_spec x d); [discriminate|].
        apply negb_false_iff, memb_in, HD' in T2; auto. split; auto. }
      apply H2. destruct S as [S1 S2]. split; [eapply dom_trans; eauto|]. intros ->. apply S2. apply dom_antisym; auto.
Qed.

(* the frontier of x: it dominates a predecessor of y but not strictly y *)
Definition frontier (x y : nat) : Prop := exists q, In (q, y) edges /\ dominates x q /\ ~ strictly_dominates x y.

Lemma frontiers_ok : (forall b, In b bbs -> reachable b) -> forall fuel, length bbs <= fuel ->
  exists fr, frontiers fuel D edges = Some fr /\ forall x y, In (x, y) fr <-> frontier x y.
Proof.
  intros AR fuel Hf.
  assert (G : forall es, incl es edges -> exists fr, frontiers fuel D es = Some fr /\
    forall x y, In (x, y) fr <-> exists q, In (q, y) es /\ dominates x q /\ ~ strictly_dominates x y).
  { induction es as [|[s d] r IH]; intros Hin; cbn [frontiers].
    - exists []. split; auto. intros x y. split; [intros []|intros (q & [] & _)].
    - destruct IH as (fr & E & Hfr); [intros x Hx; apply Hin; right; auto|].
      assert (Hsd : In (s, d) edges) by (apply Hin; left; auto).
      assert (Nd : d <> root) by (intros ->; eapply root_no_pred; eauto).
      assert (Hnd : ndom s <= fuel).
      { eapply Nat.le_trans; [|apply Hf]. unfold ndom. clear. induction bbs as [|a t IHt]; cbn [filter length]; auto. destruct (memb a (D s)); cbn [length]; lia. }
      destruct (df_walk_ok fuel s d) as (l & El & Hl); [apply AR; eapply src_in; eauto|apply AR; eapply dst_in; eauto|auto|auto|].
      rewrite El, E. eexists. split; [reflexivity|]. intros x y. rewrite in_app_iff, Hfr, in_map_iff. split.
      + intros [(z & H1 & H2)|(q & Hq & H)].
        * injection H1 as <- <-. apply Hl in H2. exists s. split; [left; auto|auto].
        * exists q. split; [right; auto|auto].
      + intros (q & [Hq|Hq] & H).
        * injection Hq as <- <-. left. exists x. split; auto. apply Hl. auto.
        * right. exists q. auto. }
  destruct (G edges (incl_refl _)) as (fr & E & H). exists fr. split; auto.
Qed.
End Exact.
End Dom.

(* ------------------------------------------------------------------ *)
(* phi placement                                                        *)
(* ------------------------------------------------------------------ *)
(* the iterated frontier: least set containing the frontiers of the definitions and of its members *)
Inductive iterated (R : nat -> nat -> Prop) (defs : list nat) : nat -> Prop :=
| it_def : forall x y, In x defs -> R x y -> iterated R defs y
| it_step : forall x y, iterated R defs x -> R x y -> iterated R defs y.

Section PhiP.
Variable pop : list nat -> option (nat * list nat).
Hypothesis pop_nil : pop [] = None.
Hypothesis pop_some : forall W, W <> [] -> exists x W', pop W = Some (x, W') /\ Permutation W (x :: W').
Variable fr : list (nat * nat).
Variable defs : list nat.
Notation R := (fun x y => In (x, y) fr).

Lemma df_of_in : forall x y, In y (df_of fr x) <-> In (x, y) fr.
Proof.
  intros x y. unfold df_of. rewrite in_map_iff. split.
  - intros ([a b] & <- & H). apply filter_In in H. cbn [fst snd] in *. destruct H as [H E]. apply Nat.eqb_eq in E. subst. auto.
  - intros H. exists (x, y). split; auto. apply filter_In. split; auto. cbn [fst]. apply Nat.eqb_refl.
Qed.

Lemma phi_ys_spec : forall ys F W, NoDup F -> let '(F', W') := phi_ys defs ys F W in
  NoDup F' /\ (forall y, In y F' <-> In y F \/ In y ys) /\ (forall y, In y W -> In y W') /\
  (forall y, In y W' -> In y W \/ In y ys) /\ (forall y, In y F' -> ~ In y F -> In y defs \/ In y W') /\
  length W' + length F <= length W + length F' /\ (forall y, In y W' -> In y W \/ In y F').
Proof.
  induction ys as [|y r IH]; intros F W N; cbn [phi_ys].
  - split; auto. split; [cbn [In]; tauto|]. split; auto. split; auto. split; [tauto|]. split; auto.
  - destruct (memb y F) eqn:M.
    + specialize (IH F W N). destruct (phi_ys defs r F W) as [F' W']. destruct IH as (A & B & C & D & E & L & X). apply memb_in in M.
      split; auto. split; [intros z; rewrite B; cbn [In]; split; [tauto|intros [H|[<-|H]]; auto]|]. split; auto. split; [intros z Hz; destruct (D z Hz); auto; right; right; auto|]. split; auto.
    + apply memb_out in M.
      assert (N2 : NoDup (F ++ [y])) by (apply (Permutation_NoDup (l := y :: F)); [apply Permutation_cons_append|constructor; auto]).
      specialize (IH (F ++ [y]) (if memb y defs then W else y :: W) N2). destruct (phi_ys defs r (F ++ [y]) (if memb y defs then W else y :: W)) as [F' W'].
      destruct IH as (A & B & C & D & E & L & X). split; auto.
      assert (BF : forall z, In z (F ++ [y]) <-> In z F \/ z = y) by (intros z; rewrite in_app_iff; cbn [In]; intuition).
      split; [intros z; rewrite B, BF; cbn [In]; intuition|].
      split; [intros z Hz; apply C; destruct (memb y defs); [auto|right; auto]|].
      split; [intros z Hz; destruct (D z Hz) as [G|G]; [destruct (memb y defs); [auto|destruct G as [<-|G]; auto; right; left; auto]|right; right; auto]|].
      split; [|split].
      * intros z Hz Nz. destruct (Nat.eq_dec z y) as [->|Ny].
        -- destruct (memb y defs) eqn:Md; [left; apply memb_in; auto|right; apply C; left; auto].
        -- apply E; auto. rewrite BF. tauto.
      * rewrite app_length in L. cbn [length] in L. destruct (memb y defs); cbn [length] in L; lia.
      * intros z Hz. destruct (X z Hz) as [G|G]; auto. destruct (memb y defs); auto. destruct G as [<-|G]; auto. right. apply B. left. apply BF. auto.
Qed.

Lemma phi_loop_ok : forall B : list nat, (forall x y, In (x, y) fr -> In y B) -> forall fuel F W,
  NoDup F -> (forall y, In y F -> iterated R defs y) -> (forall x, In x W -> In x defs \/ In x F) ->
  (forall x y, (In x defs \/ In x F) -> ~ In x W -> In (x, y) fr -> In y F) -> length W + length (nodup Nat.eq_dec B) <= fuel + length F ->
  exists F', phi_loop pop fr defs fuel F W = Some F' /\ NoDup F' /\ (forall y, In y F' <-> iterated R defs y).
Proof.
  intros B HB. induction fuel as [|f IH]; intros F W N Hit HW Hcl Hf.
  - assert (FB : incl F (nodup Nat.eq_dec B)).
    { intros y Hy. apply nodup_In. specialize (Hit y Hy). destruct Hit; eapply HB; eauto. }
    pose proof (NoDup_incl_length N FB) as LB. destruct W as [|w W]; [|cbn [length] in Hf; lia].
    cbn [phi_loop]. rewrite pop_nil. exists F. split; auto. split; auto. intros y. split; [auto|].
    intros H. induction H as [x y Hx Hxy|x y Hx IHx Hxy]; apply (Hcl x y); auto.
  - destruct W as [|w W0] eqn:EW.
    + cbn [phi_loop]. rewrite pop_nil. exists F. split; auto. split; auto. intros y. split; [auto|].
      intros H. induction H as [x y Hx Hxy|x y Hx IHx Hxy]; apply (Hcl x y); auto.
    + cbn [phi_loop]. rewrite <- EW in *. clear EW w W0. destruct (list_eq_dec Nat.eq_dec W []) as [->|NW]; [|].
      { rewrite pop_nil. exists F. split; auto. split; auto. intros y. split; [auto|].
        intros H. induction H as [x y Hx Hxy|x y Hx IHx Hxy]; apply (Hcl x y); auto. }
      destruct (pop_some W NW) as (x & W' & E & P). rewrite E.
      pose proof (phi_ys_spec (df_of fr x) F W' N) as S. destruct (phi_ys defs (df_of fr x) F W') as [F1 W1].
      destruct S as (A & B1 & C & D & E1 & L & X).
      assert (Hx : In x defs \/ In x F) by (apply HW; apply (Permutation_in x (Permutation_sym P)); left; auto).
      apply IH; auto.
      * intros y Hy. apply B1 in Hy. destruct Hy as [Hy|Hy]; auto. apply df_of_in in Hy. destruct Hx as [Hx|Hx]; [eapply it_def; eauto|eapply it_step; eauto].
      * intros z Hz. destruct (X z Hz) as [G|G]; auto. destruct (HW z); auto; [apply (Permutation_in z (Permutation_sym P)); right; auto|]. right. apply B1. auto.
      * intros a y Ha Na Hay. destruct (Nat.eq_dec a x) as [->|Nax]; [apply B1; right; apply df_of_in; auto|].
        assert (NW' : ~ In a W') by (intros G; apply Na, C; auto).
        assert (NW2 : ~ In a W) by (intros G; apply (Permutation_in a P) in G; destruct G as [G|G]; auto).
        destruct Ha as [Ha|Ha]; [apply B1; left; apply (Hcl a y); auto|].
        destruct (in_dec Nat.eq_dec a F) as [G|G]; [apply B1; left; apply (Hcl a y); auto|].
        destruct (E1 a Ha G) as [G2|G2]; [apply B1; left; apply (Hcl a y); auto|contradiction].
      * pose proof (Permutation_length P) as PL. cbn [length] in PL. lia.
Qed.
End PhiP.

(* ------------------------------------------------------------------ *)
(* accessible blocks                                                    *)
(* ------------------------------------------------------------------ *)
Inductive reach (succ : nat -> list nat) (root : nat) : nat -> Prop :=
| reach_root : reach succ root root
| reach_next : forall b n, reach succ root b -> In n (succ b) -> reach succ root n.

Section Acc.
Variable succ : nat -> list nat.
Variable root : nat.
Variable bbs : list nat.
Hypothesis closed : forall b n, In b bbs -> In n (succ b) -> In n bbs.
Variable deg : nat.
Hypothesis deg_ok : forall b, length (succ b) <= deg.

(* unprocessed blocks other than c *)
Definition rest (processed : list nat) (c : nat) : nat := length (filter (fun b => negb (memb b processed) && negb (b =? c)) (nodup Nat.eq_dec bbs)).
Definition weight (processed : list nat) (c : nat) : nat := S deg ^ S (rest processed c).
Definition total (processed work : list nat) : nat := fold_right (fun c t => weight processed c + t) 0 work.

Lemma rest_mono : forall p q c, (forall b, In b p -> In b q) -> rest q c <= rest p c.
Proof.
  intros p q c H. apply filter_len_le. intros x _ Hx. apply andb_true_iff in Hx. destruct Hx as [H1 H2]. rewrite H2.
  apply negb_true_iff, memb_out in H1. assert (memb x p = false) as ->; auto. apply memb_out. auto.
Qed.
Lemma total_app : forall p a b, total p (a ++ b) = total p a + total p b.
Proof. intros p a b. induction a as [|c t IH]; cbn [app total fold_right]; auto. fold (total p (t ++ b)). rewrite IH. fold (total p t). lia. Qed.
Lemma total_mono : forall p q w, (forall b, In b p -> In b q) -> total q w <= total p w.
Proof.
  intros p q w H. induction w as [|c t IH]; cbn [total fold_right]; auto. fold (total q t). fold (total p t).
  assert (weight q c <= weight p c); [|lia]. unfold weight. apply Nat.pow_le_mono_r; [lia|]. pose proof (rest_mono p q c H). lia.
Qed.
Lemma rest_child : forall p b c, In c bbs -> ~ In c (p ++ [b]) -> S (rest (p ++ [b]) c) <= rest p b.
Proof.
  intros p b c Hc Nc. unfold rest. apply (filter_len_lt _ _ _ _ c).
  - intros x _ Hx. apply andb_true_iff in Hx. destruct Hx as [H1 _]. apply negb_true_iff, memb_out in H1. rewrite in_app_iff in H1. cbn [In] in H1.
    assert (memb x p = false) as -> by (apply memb_out; tauto). destruct (Nat.eqb_spec x b) as [->|]; auto; exfalso; apply H1; auto.
  - apply nodup_In. auto.
  - rewrite Nat.eqb_refl, andb_false_r. auto.
  - rewrite in_app_iff in Nc. cbn [In] in Nc. assert (memb c p = false) as -> by (apply memb_out; tauto). destruct (Nat.eqb_spec c b) as [->|]; auto; exfalso; auto.
Qed.

Lemma total_pop : forall p b w, In b bbs ->
  total (p ++ [b]) (w ++ filter (fun n => negb (memb n (p ++ [b]))) (succ b)) < total p (b :: w).
Proof.
  intros p b w Hb. rewrite total_app. cbn [total fold_right]. fold (total p w).
  assert (M : total (p ++ [b]) w <= total p w) by (apply total_mono; intros; apply in_or_app; auto).
  assert (C : total (p ++ [b]) (filter (fun n => negb (memb n (p ++ [b]))) (succ b)) <= deg * S deg ^ rest p b).
  { eapply Nat.le_trans; [|apply Nat.mul_le_mono_r; apply (deg_ok b)].
    assert (Hs : forall n, In n (succ b) -> In n bbs) by (intros; eapply closed; eauto). revert Hs.
    induction (succ b) as [|c t IH]; intros Hs; cbn [filter]; [cbn; lia|].
    assert (IH' := IH (fun n Hn => Hs n (or_intror Hn))). destruct (memb c (p ++ [b])) eqn:Mc; cbn [negb]; [cbn [length]; lia|].
    cbn [total fold_right length]. fold (total (p ++ [b]) (filter (fun n => negb (memb n (p ++ [b]))) t)).
    assert (weight (p ++ [b]) c <= S deg ^ rest p b); [|lia]. unfold weight. apply Nat.pow_le_mono_r; [lia|]. apply rest_child; [apply Hs; left; auto|apply memb_out; auto]. }
  assert (W : weight p b = S deg * S deg ^ rest p b) by (unfold weight; apply Nat.pow_succ_r'). 
  assert (0 < S deg ^ rest p b) by (apply Nat.neq_0_lt_0, Nat.pow_nonzero; lia). rewrite W. lia.
Qed.

Lemma acc_loop_ok : forall fuel p w acc, (forall b, In b w -> In b bbs) -> total p w < fuel ->
  (forall b, In b acc <-> In b p \/ In b w) -> (forall b, In b acc -> reach succ root b) -> (forall b n, In b p -> In n (succ b) -> In n acc) ->
  exists r, acc_loop fuel succ p w acc = Some r /\ (forall b, In b acc -> In b r) /\ (forall b, In b r -> reach succ root b) /\ (forall b n, In b r -> In n (succ b) -> In n r).
Proof.
  induction fuel as [|f IH]; intros p w acc Hw Hf Ha Hr Hc; [lia|]. destruct w as [|b w]; cbn [acc_loop].
  - exists acc. split; auto. split; auto. split; auto. intros b n Hb. apply Hc. apply Ha in Hb. destruct Hb as [|[]]; auto.
  - set (new := filter (fun n => negb (memb n (p ++ [b]))) (succ b)).
    assert (Hb : In b bbs) by (apply Hw; left; auto).
    assert (Nin : forall n, In n new <-> In n (succ b) /\ ~ In n (p ++ [b])).
    { intros n. unfold new. rewrite filter_In, negb_true_iff, memb_out. tauto. }
    assert (Hba : In b acc) by (apply Ha; right; left; auto).
    destruct (IH (p ++ [b]) (w ++ new) (acc ++ new)) as (r & E & R1 & R2 & R3).
    + intros n Hn. apply in_app_or in Hn. destruct Hn as [Hn|Hn]; [apply Hw; right; auto|]. apply Nin in Hn. eapply closed; [apply Hb|apply Hn].
    + pose proof (total_pop p b w Hb) as T. unfold new. lia.
    + intros n. rewrite !in_app_iff, Ha. cbn [In]. intuition.
    + intros n Hn. apply in_app_or in Hn. destruct Hn as [Hn|Hn]; auto. apply Nin in Hn. eapply reach_next; [apply (Hr b Hba)|apply Hn].
    + intros c n Hcp Hn. apply in_or_app. apply in_app_or in Hcp. destruct Hcp as [Hcp|[<-|[]]]; [left; eapply Hc; eauto|].
      destruct (in_dec Nat.eq_dec n (p ++ [b])) as [G|G]; [left|right; apply Nin; auto]. apply Ha. apply in_app_or in G. destruct G as [G|[<-|[]]]; auto. right; left; auto.
    + exists r. split; auto. split; auto. intros n Hn. apply R1. apply in_or_app; auto.
Qed.

Lemma accessible_ok : In root bbs -> exists fuel0, forall fuel, fuel0 <= fuel ->
  exists r, accessible fuel root succ = Some r /\ forall b, In b r <-> reach succ root b.
Proof.
  intros Hr. exists (S (total [] [root])). intros fuel Hf. unfold accessible.
  destruct (acc_loop_ok fuel [] [root] [root]) as (r & E & R1 & R2 & R3).
  - intros b [<-|[]]; auto.
  - lia.
  - intros b. cbn [In]. tauto.
  - intros b [<-|[]]. constructor.
  - intros b n [].
  - exists r. split; auto. intros b. split; auto. intros H. induction H; [apply R1; left; auto|eauto].
Qed.

Lemma reach_dec : In root bbs -> forall b, reach succ root b \/ ~ reach succ root b.
Proof.
  intros Hr b. destruct (accessible_ok Hr) as (f0 & H). destruct (H f0 (le_n _)) as (r & _ & Hin).
  destruct (in_dec Nat.eq_dec b r) as [G|G]; [left|right]; rewrite <- Hin; auto.
Qed.
End Acc.
