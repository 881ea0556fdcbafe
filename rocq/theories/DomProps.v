(* C40 and C41: dominators, immediate dominators, dominance frontiers, phi placement;
   removal of the blocks that are not accessible. *)
From Coq Require Import List Arith Bool Lia Permutation.
From Verif Require Import DomModel DomProofs.
Import ListNotations.

(* a control-flow graph: the entry and both ends of every edge are listed blocks,
   and no branch goes back to the entry *)
Record graph_ok (root : nat) (bbs : list nat) (edges : list (nat * nat)) : Prop := mkGraph {
  g_root : In root bbs;
  g_src : forall s d, In (s, d) edges -> In s bbs;
  g_dst : forall s d, In (s, d) edges -> In d bbs;
  g_entry : forall s, ~ In (s, root) edges }.

(* ------------------------------------------------------------------ *)
(* C40                                                                  *)
(* ------------------------------------------------------------------ *)
(* the fixpoint iteration terminates and computes dominance, whatever the order in
   which the set of edges is enumerated *)
Theorem dominator_map_partial : forall root bbs edges fuel, graph_ok root bbs edges -> length bbs * length bbs < fuel ->
  exists D, dominator_map fuel root bbs edges = Some D /\
    (forall b a, In b bbs -> (In a (D b) <-> In a bbs /\ dominates root edges a b)).
Proof. intros root bbs edges fuel [A B C E] Hf. apply dominator_map_ok; auto. Qed.

(* an immediate dominator is found for every reachable block but the entry; it is the
   closest strict dominator, hence does not depend on the order of the set *)
Theorem immediate_dominator_partial : forall root bbs edges fuel D, graph_ok root bbs edges -> length bbs * length bbs < fuel ->
  dominator_map fuel root bbs edges = Some D ->
  forall b, reachable root edges b ->
    (b = root -> idom D b = None) /\
    (b <> root -> exists d, idom D b = Some d /\ closest root edges d b /\ forall d', closest root edges d' b -> d' = d).
Proof.
  intros root bbs edges fuel D [A B C E] Hf HD b R.
  destruct (dominator_map_ok root edges bbs A B C E fuel Hf) as (D' & H1 & H2). assert (D' = D) by congruence. subst D'.
  destruct (idom_ok root edges bbs A C D H2 b R) as [I1 I2]. split; auto. intros N. destruct (I2 N) as (d & J1 & J2). exists d. split; auto. split; auto.
  intros d' J'. eapply closest_unique; eauto.
Qed.

(* with a back edge to the entry the computed set is wrong: as soon as the entry has
   a single predecessor p, p is said to dominate the entry *)
Lemma dom_pass_key : forall bbs pm D ch D' ch' b q, dom_pass bbs pm D ch = Some (D', ch') -> ch' = false -> In (b, [q]) pm ->
  forall a, In a (D' q) -> In a (D' b).
Proof.
  intros bbs.
  assert (Mono : forall pm D ch D' ch', dom_pass bbs pm D ch = Some (D', ch') -> ch' = false ->
    ch = false /\ (forall n a, In a (D' n) <-> In a (D n))).
  { induction pm as [|[b l] r IH]; intros D ch D' ch' H F; cbn [dom_pass] in H.
    - injection H as <- <-. split; auto. tauto.
    - destruct (negb (memb b bbs)); [discriminate|]. destruct (IH _ _ _ _ H F) as [G1 G2]. apply orb_false_iff in G1. destruct G1 as [G1 G3].
      apply negb_false_iff in G3. rewrite same_set_spec in G3. split; auto. intros n a. rewrite G2. unfold upd. destruct (Nat.eqb_spec n b) as [->|]; [apply G3|tauto]. }
  induction pm as [|[b0 l] r IH]; intros D ch D' ch' b q H F Hin a Ha; [destruct Hin|]. cbn [dom_pass] in H.
  destruct (negb (memb b0 bbs)); [discriminate|]. destruct Hin as [E|Hin].
  - injection E as -> ->. destruct (Mono _ _ _ _ _ H F) as [G1 G2]. apply orb_false_iff in G1. destruct G1 as [G1 G3]. apply negb_false_iff in G3.
    rewrite same_set_spec in G3. apply G2. unfold upd at 1. rewrite Nat.eqb_refl. right. cbn [inter]. apply G2 in Ha. unfold upd in Ha.
    destruct (Nat.eqb_spec q b) as [->|]; auto. apply G3. auto.
  - eapply IH; eauto.
Qed.

Lemma dom_loop_last : forall fuel bbs pm D D', dom_loop fuel bbs pm D = Some D' -> exists D0, dom_pass bbs pm D0 false = Some (D', false).
Proof.
  induction fuel as [|f IH]; intros bbs pm D D' H; [discriminate|]. cbn [dom_loop] in H.
  destruct (dom_pass bbs pm D false) as [[D1 ch]|] eqn:E; [|discriminate]. destruct ch; [eapply IH; eauto|]. injection H as <-. eauto.
Qed.

Lemma dom_pass_self : forall bbs pm D ch D' ch', dom_pass bbs pm D ch = Some (D', ch') -> (forall b, In b bbs -> In b (D b)) -> forall b, In b bbs -> In b (D' b).
Proof.
  intros bbs. induction pm as [|[b l] r IH]; intros D ch D' ch' H I; cbn [dom_pass] in H; [injection H as <- <-; auto|].
  destruct (negb (memb b bbs)); [discriminate|]. eapply IH; eauto. intros n Hn. unfold upd. destruct (Nat.eqb_spec n b) as [->|]; [left; auto|auto].
Qed.
Lemma dom_loop_self : forall fuel bbs pm D D', dom_loop fuel bbs pm D = Some D' -> (forall b, In b bbs -> In b (D b)) -> forall b, In b bbs -> In b (D' b).
Proof.
  induction fuel as [|f IH]; intros bbs pm D D' H I; [discriminate|]. cbn [dom_loop] in H.
  destruct (dom_pass bbs pm D false) as [[D1 ch]|] eqn:E; [|discriminate]. pose proof (dom_pass_self _ _ _ _ _ _ E I). destruct ch; [eapply IH; eauto|]. injection H as <-. auto.
Qed.

Theorem dominator_map_entry_refuted : forall root bbs edges fuel D p, In root bbs -> In p bbs -> p <> root ->
  In (p, root) edges -> (forall s, In (s, root) edges -> s = p) -> NoDup edges ->
  dominator_map fuel root bbs edges = Some D -> In p (D root) /\ ~ dominates root edges p root.
Proof.
  intros root bbs edges fuel D p Hr Hp N He Hu Nd H. split.
  - assert (I : forall b, In b bbs -> In b (D b)).
    { unfold dominator_map in H. eapply dom_loop_self; eauto. intros b Hb. unfold upd. destruct (Nat.eqb_spec b root) as [->|]; [left; auto|auto]. }
    unfold dominator_map in H. apply dom_loop_last in H. destruct H as (D0 & H).
    assert (Hpm : In (root, [p]) (pred_map edges)).
    { clear -He Hu Nd N.
      assert (G : forall es m, (forall s, In (s, root) es -> s = p) ->
        (NoDup es -> In (p, root) es -> ~ In root (map fst m) -> In (root, [p]) (fold_left (fun m e => pred_add (snd e) (fst e) m) es m)) /\
        ((forall s, ~ In (s, root) es) -> In (root, [p]) m -> In (root, [p]) (fold_left (fun m e => pred_add (snd e) (fst e) m) es m))).
      { induction es as [|[s d] r IH]; intros m Hu'; cbn [fold_left fst snd].
        - split; [intros _ []|auto].
        - destruct (IH (pred_add d s m)) as [G1 G2]; [intros s' Hs'; apply Hu'; right; auto|]. split.
          + intros ND Hin Nm. inversion ND as [|? ? ND1 ND2]; subst. destruct (Nat.eq_dec d root) as [->|Nd'].
            * assert (s = p) by (apply Hu'; left; auto). subst s. apply G2.
              -- intros s Hs. assert (s = p) by (apply Hu'; right; auto). subst s. auto.
              -- clear -Nm. induction m as [|[d' l'] r IH]; cbn [pred_add]; [left; auto|]. cbn [map fst In] in Nm.
                 destruct (Nat.eqb_spec root d') as [->|]; [exfalso; apply Nm; auto|right; apply IH; auto].
            * destruct Hin as [Hin|Hin]; [congruence|]. apply G1; auto.
              clear -Nm Nd'. intros G. apply Nm. clear Nm. induction m as [|[d' l'] r IH]; cbn [pred_add map fst In] in *; [destruct G as [G|[]]; congruence|].
              destruct (Nat.eqb_spec d d') as [->|]; cbn [map fst In] in G; [auto|]. destruct G as [G|G]; auto.
          + intros NI Hm. apply G2; [intros s' Hs'; apply (NI s'); right; auto|].
            assert (Nd' : d <> root) by (intros ->; apply (NI s); left; auto).
            clear -Hm Nd'. induction m as [|[d' l'] r IH]; cbn [pred_add]; [destruct Hm|].
            destruct (Nat.eqb_spec d d') as [->|].
            * destruct Hm as [Hm|Hm]; [injection Hm as -> _; congruence|right; auto].
            * destruct Hm as [Hm|Hm]; [left; auto|right; auto]. }
      destruct (G edges [] Hu) as [G1 _]. apply G1; auto. }
    eapply dom_pass_key; eauto.
  - intros G. specialize (G [root] (path_root root edges)). destruct G as [G|[]]. congruence.
Qed.

(* ------------------------------------------------------------------ *)
(* C41                                                                  *)
(* ------------------------------------------------------------------ *)
Theorem dominance_frontier_partial : forall root bbs edges fuel D, graph_ok root bbs edges -> length bbs * length bbs < fuel ->
  dominator_map fuel root bbs edges = Some D -> (forall b, In b bbs -> reachable root edges b) ->
  exists fr, frontiers fuel D edges = Some fr /\
    forall x y, In (x, y) fr <-> exists q, In (q, y) edges /\ dominates root edges x q /\ ~ strictly_dominates root edges x y.
Proof.
  intros root bbs edges fuel D [A B C E] Hf HD AR.
  destruct (dominator_map_ok root edges bbs A B C E fuel Hf) as (D' & H1 & H2). assert (D' = D) by congruence. subst D'.
  destruct (frontiers_ok root edges bbs A B C E D H2 AR fuel) as (fr & F1 & F2); [nia|]. exists fr. split; auto.
Qed.

(* ---- join points ---- *)
(* a path from x to z of at least one edge; P lists the blocks before the final z *)
Inductive walk (edges : list (nat * nat)) : nat -> list nat -> nat -> Prop :=
| walk_one : forall x z, In (x, z) edges -> walk edges x [x] z
| walk_cons : forall x n P z, In (x, n) edges -> walk edges n P z -> walk edges x (x :: P) z.
(* two paths from x and y that meet at z and not before *)
Definition converge (edges : list (nat * nat)) (x y z : nat) : Prop :=
  exists P Q, walk edges x P z /\ walk edges y Q z /\ forall n, In n P -> ~ In n Q.
(* blocks reached by two values: definitions, or values already merged *)
Inductive joins (edges : list (nat * nat)) (S : nat -> Prop) : nat -> Prop :=
| joins_c : forall x y z, (S x \/ joins edges S x) -> (S y \/ joins edges S y) -> converge edges x y z -> joins edges S z.

Section Join.
Variables (root : nat) (edges : list (nat * nat)).
Notation path := (path root edges).
Notation dominates := (dominates root edges).
Notation strictly_dominates := (strictly_dominates root edges).
Notation reachable := (reachable root edges).
Notation frontier := (frontier root edges).
Hypothesis sdom_dec : forall x y, reachable y -> strictly_dominates x y \/ ~ strictly_dominates x y.
Hypothesis all_reach : forall s d, In (s, d) edges -> reachable s.
Hypothesis entry : forall s, ~ In (s, root) edges.

Lemma walk_hd : forall x P z, walk edges x P z -> exists P', P = x :: P'.
Proof. intros x P z H. destruct H; eauto. Qed.
Lemma walk_first : forall x P z, walk edges x P z -> exists d, In (x, d) edges.
Proof. intros x P z H. destruct H; eauto. Qed.
Lemma reach_step : forall s d, In (s, d) edges -> reachable d.
Proof. intros s d H. destruct (all_reach s d H) as [l Hl]. exists (d :: l). eapply path_step; eauto. Qed.
(* a path to x followed by a walk *)
Lemma walk_path : forall x P z l, walk edges x P z -> path l x -> exists l', path (z :: l') z /\ (forall n, In n l' <-> In n l \/ In n P).
Proof.
  intros x P z l H. revert l. induction H as [x z E|x n P z E H IH]; intros l Hl.
  - exists l. split; [eapply path_step; eauto|]. intros n. cbn [In]. split; [auto|]. intros [G|[<-|[]]]; auto.
    destruct (path_hd _ _ _ _ Hl) as [t ->]. left; auto.
  - destruct (IH (n :: l)) as (l' & H1 & H2); [eapply path_step; eauto|]. exists l'. split; auto. intros m. rewrite H2. cbn [In].
    destruct (walk_hd _ _ _ H) as [P' ->]. cbn [In]. split.
    + intros [[<-|G]|G]; auto.
    + intros [G|[<-|G]]; auto. left. right. destruct (path_hd _ _ _ _ Hl) as [t ->]. left; auto.
Qed.
Lemma walk_split : forall x P z w, walk edges x P z -> In w P -> exists P', walk edges w P' z /\ incl P' P.
Proof.
  intros x P z w H. induction H as [x z E|x n P z E H IH]; intros Hw.
  - destruct Hw as [<-|[]]. exists [x]. split; [constructor; auto|apply incl_refl].
  - destruct Hw as [<-|Hw]; [exists (x :: P); split; [econstructor; eauto|apply incl_refl]|].
    destruct (IH Hw) as (P' & A & B). exists P'. split; auto. intros a Ha. right. auto.
Qed.

Lemma frontier_walk : forall (T : nat -> Prop), (forall x y, T x -> frontier x y -> T y) ->
  forall n P z, walk edges n P z -> forall x, T x -> dominates x n ->
  (exists w, T w /\ frontier w z) \/ exists w, (w = x \/ In w P) /\ strictly_dominates w z.
Proof.
  intros T HT n P z H. induction H as [n z E|n m P z E H IH]; intros x Tx Dx.
  - destruct (sdom_dec x z (reach_step _ _ E)) as [G|G]; [right; eauto|]. left. exists x. split; auto. exists n. auto.
  - destruct (sdom_dec x m (reach_step _ _ E)) as [G|G].
    + destruct (IH x Tx (proj1 G)) as [L|(w & Hw & S)]; auto. right. exists w. split; auto. destruct Hw; auto. right; right; auto.
    + assert (F : frontier x m) by (exists n; auto). destruct (IH m (HT x m Tx F) (dom_refl _ _ m)) as [L|(w & Hw & S)]; auto.
      right. exists w. split; auto. right. right. destruct Hw as [->|]; auto. destruct (walk_hd _ _ _ H) as [P' ->]. left; auto.
Qed.

Lemma converge_frontier : forall (T : nat -> Prop), (forall x y, T x -> frontier x y -> T y) ->
  forall x y z, T x -> T y -> converge edges x y z -> exists w, T w /\ frontier w z.
Proof.
  intros T HT x y z Tx Ty (P & Q & HP & HQ & Dj).
  destruct (frontier_walk T HT x P z HP x Tx (dom_refl _ _ x)) as [G|(u & Hu & Su)]; auto.
  destruct (frontier_walk T HT y Q z HQ y Ty (dom_refl _ _ y)) as [G|(v & Hv & Sv)]; auto. exfalso.
  assert (Pu : In u P) by (destruct Hu as [->|]; auto; destruct (walk_hd _ _ _ HP) as [P' ->]; left; auto).
  assert (Qv : In v Q) by (destruct Hv as [->|]; auto; destruct (walk_hd _ _ _ HQ) as [P' ->]; left; auto).
  assert (X : forall a b A B, In a A -> In b B -> walk edges b B z -> (forall n, In n A -> ~ In n B) -> strictly_dominates a z -> dominates a b).
  { intros a b A B Ha Hb HB Dj' [S1 S2] l Hl. destruct (walk_path b B z l HB Hl) as (l' & L1 & L2). specialize (S1 _ L1).
    destruct S1 as [S1|S1]; [congruence|]. apply L2 in S1. destruct S1 as [S1|S1]; auto. exfalso. apply (Dj' a); auto. }
  destruct (walk_split x P z u HP Pu) as (P' & HP' & IP). destruct (walk_split y Q z v HQ Qv) as (Q' & HQ' & IQ).
  assert (Qv' : In v Q') by (destruct (walk_hd _ _ _ HQ') as [t ->]; left; auto).
  assert (Pu' : In u P') by (destruct (walk_hd _ _ _ HP') as [t ->]; left; auto).
  assert (E : u = v).
  { apply (dom_antisym root edges).
    - destruct (walk_first _ _ _ HQ') as [d Hd]. eapply all_reach; eauto.
    - apply (X u v P' Q'); auto. intros n H1 H2. apply (Dj n); auto.
    - apply (X v u Q' P'); auto. intros n H1 H2. apply (Dj n); auto. }
  subst v. apply (Dj u); auto.
Qed.

(* conversely a frontier block is a join of the block and of the entry *)
Lemma path_to_walk : forall l1 a l2 b, path (l1 ++ a :: l2) b -> forall z, In (b, z) edges -> exists P, walk edges a P z /\ (forall n, In n P <-> In n l1 \/ n = a).
Proof.
  intros l1. induction l1 as [|c l1 IH]; intros a l2 b H z E; cbn [app] in H.
  - destruct (path_hd _ _ _ _ H) as [t Et]. injection Et as <- <-. exists [a]. split; [constructor; auto|]. intros n. cbn [In]. intuition.
  - inversion H as [X|l n m H1 H2 X]; subst; [destruct l1; discriminate|].
    destruct (IH a l2 n H1 b H2) as (P & HP & HPin).
    assert (App : forall x P z, walk edges x P z -> forall z', In (z, z') edges -> walk edges x (P ++ [z]) z').
    { clear. intros x P z H. induction H as [x z E|x n P z E H IH]; intros z' E'; cbn [app].
      - econstructor; eauto. constructor; auto.
      - econstructor; eauto. }
    exists (P ++ [b]). split; [apply App; auto|]. intros k. rewrite in_app_iff, HPin. cbn [In]. intuition.
Qed.

Lemma not_dom_path : forall x y, reachable y -> (dominates x y \/ ~ dominates x y) ->
  ~ dominates x y -> ~ forall l, path l y -> In x l.
Proof. intros x y _ _ N H. apply N. exact H. Qed.

Lemma last_split : forall x (l : list nat), In x l -> exists l1 l2, l = l1 ++ x :: l2 /\ ~ In x l1.
Proof.
  intros x l H. destruct (first_split (fun a => a = x) (fun a => Nat.eq_dec a x) l) as (l1 & a & l2 & -> & -> & N); [eauto|].
  exists l1, l2. split; auto. intros G. apply (N x G). auto.
Qed.

Lemma path_root_end : forall l b, path l b -> exists l', l = l' ++ [root].
Proof. intros l b H. induction H as [|l n m H [l' ->] E]; [exists []; auto|exists (m :: l'); auto]. Qed.

(* exists a path to y avoiding x before y *)
Hypothesis avoid : forall x y, reachable y -> ~ dominates x y -> exists l, path l y /\ ~ In x l.

Lemma frontier_converge : forall x y, x <> root -> frontier x y -> converge edges x root y.
Proof.
  intros x y Nx (q & E & Dq & NS).
  assert (Rq : reachable q) by (eapply all_reach; eauto). assert (Ry : reachable y) by (eapply reach_step; eauto).
  assert (Ny : y <> root) by (intros ->; eapply entry; eauto).
  (* the walk dominated by x *)
  destruct Rq as [lq Hq]. destruct (last_split x lq (Dq lq Hq)) as (l1 & l2 & -> & N1).
  destruct (path_to_walk l1 x l2 q Hq y E) as (P & HP & HPin).
  assert (Dom : forall w, In w P -> dominates x w).
  { intros w Hw. apply HPin in Hw. destruct Hw as [Hw| ->]; [|apply dom_refl]. apply in_split in Hw. destruct Hw as (a & b & ->).
    rewrite <- app_assoc in Hq. cbn [app] in Hq. intros l Hl. pose proof (path_replace root edges a w _ q l Hq Hl) as Hr. specialize (Dq _ Hr).
    apply in_app_or in Dq. destruct Dq as [G|G]; auto. exfalso. apply N1. apply in_or_app. auto. }
  (* a walk from the entry to y that avoids x *)
  assert (W : exists Q, walk edges root Q y /\ ~ In x Q).
  { assert (Avl : exists t, path (y :: t) y /\ ~ In x t).
    { destruct (Nat.eq_dec x y) as [->|Nxy].
      - destruct Ry as [l Hl]. destruct (path_hd _ _ _ _ Hl) as [t ->].
        assert (G : exists l0 t0, y :: t = l0 ++ y :: t0 /\ ~ In y t0).
        { clear. assert (Hin : In y (rev (y :: t))) by (apply -> in_rev; left; auto). destruct (last_split y _ Hin) as (a & b & E & N).
          exists (rev b), (rev a). split; [|rewrite <- in_rev; auto]. rewrite <- (rev_involutive (y :: t)), E, rev_app_distr. cbn [rev]. rewrite <- app_assoc. reflexivity. }
        destruct G as (l0 & t0 & E0 & N0). exists t0. split; auto. rewrite E0 in Hl. eapply path_suffix; eauto.
      - assert (ND : ~ dominates x y) by (intros G; apply NS; split; auto).
        destruct (avoid x y Ry ND) as (l & Hl & Nl). destruct (path_hd _ _ _ _ Hl) as [t ->]. exists t. split; auto. intros G. apply Nl. right; auto. }
    destruct Avl as (t & Ht & Nt). inversion Ht as [X|l n m H1 H2 X]; subst; [congruence|].
    destruct (path_root_end _ _ H1) as [t' ->]. destruct (path_to_walk t' root [] n H1 y H2) as (Q & HQ & HQin).
    exists Q. split; auto. intros G. apply HQin in G. apply Nt. apply in_or_app. destruct G as [G| ->]; [auto|right; left; auto]. }
  destruct W as (Q & HQ & NQ). exists P, Q. split; auto. split; auto. intros w Hw HwQ. apply NQ.
  specialize (Dom w Hw).
  (* the part of the walk before w is a path from the entry to w *)
  assert (G : forall a A z, walk edges a A z -> In w A -> forall l, path l a -> exists l', path l' w /\ forall n, In n l' -> In n l \/ In n A).
  { clear. intros a A z H. induction H as [a z E|a n A z E H IH]; intros Hw l Hl.
    - destruct Hw as [<-|[]]. exists l. split; auto.
    - destruct Hw as [<-|Hw]; [exists l; split; auto|]. destruct (IH Hw (n :: l)) as (l' & H1 & H2); [eapply path_step; eauto|].
      exists l'. split; auto. intros k Hk. destruct (H2 k Hk) as [[<-|G]|G]; [|auto|right; right; auto].
      right. right. destruct (walk_hd _ _ _ H) as [t ->]. left; auto. }
  destruct (G root Q y HQ HwQ [root] (path_root _ _)) as (l' & H1 & H2). specialize (Dom _ H1). destruct (H2 _ Dom) as [[Gx|[]]|]; auto. congruence.
Qed.

Lemma frontier_root : forall y, ~ frontier root y.
Proof.
  intros y (q & E & _ & N). apply N. split; [apply dom_root|]. intros <-. eapply entry; eauto.
Qed.

Theorem iterated_joins : forall defs z,
  iterated frontier defs z <-> joins edges (fun x => In x defs \/ x = root) z.
Proof.
  intros defs z. split.
  - intros H. induction H as [x y Hx F|x y Hx IH F].
    + destruct (Nat.eq_dec x root) as [->|N]; [exfalso; eapply frontier_root; eauto|]. eapply joins_c; [left; left; eauto|left; right; reflexivity|]. apply frontier_converge; auto.
    + destruct (Nat.eq_dec x root) as [->|N]; [exfalso; eapply frontier_root; eauto|]. eapply joins_c; [right; eauto|left; right; reflexivity|]. apply frontier_converge; auto.
  - set (T := fun x => (In x defs \/ x = root) \/ iterated frontier defs x).
    assert (HT : forall x y, T x -> frontier x y -> T y).
    { intros x y [[Hx| ->]|Hx] F; [right; eapply it_def; eauto|exfalso; eapply frontier_root; eauto|right; eapply it_step; eauto]. }
    assert (HF : forall w z, T w -> frontier w z -> iterated frontier defs z).
    { intros w y [[Hx| ->]|Hx] F; [eapply it_def; eauto|exfalso; eapply frontier_root; eauto|eapply it_step; eauto]. }
    revert z. fix IH 2. intros z H. destruct H as [x y z Hx Hy C].
    assert (Tx : T x) by (destruct Hx as [Hx|Hx]; [left; exact Hx|right; apply IH; exact Hx]).
    assert (Ty : T y) by (destruct Hy as [Hy|Hy]; [left; exact Hy|right; apply IH; exact Hy]).
    destruct (converge_frontier T HT x y z Tx Ty C) as (w & Tw & F). apply (HF w z); auto.
Qed.
End Join.

(* existence of an avoiding path, by search in the graph without x *)
Lemma avoid_path : forall root bbs edges, graph_ok root bbs edges -> forall x y, reachable root edges y ->
  ~ dominates root edges x y -> exists l, path root edges l y /\ ~ In x l.
Proof.
  intros root bbs edges [A B C E] x y R N. destruct (Nat.eq_dec x root) as [->|Nx]; [exfalso; apply N; apply dom_root|].
  set (succ := fun b => if b =? x then [] else filter (fun n => negb (n =? x)) (map snd (filter (fun e => fst e =? b) edges))).
  assert (Hs : forall b n, In n (succ b) <-> b <> x /\ n <> x /\ In (b, n) edges).
  { intros b n. unfold succ. destruct (Nat.eqb_spec b x) as [->|Nb]; [split; [intros []|tauto]|].
    rewrite filter_In, negb_true_iff, Nat.eqb_neq, in_map_iff. split.
    - intros [([s d] & <- & H) Hn]. apply filter_In in H. cbn [fst snd] in *. destruct H as [H H']. apply Nat.eqb_eq in H'. subst. auto.
    - intros (_ & Hn & H). split; auto. exists (b, n). split; auto. apply filter_In. split; auto. cbn [fst]. apply Nat.eqb_refl. }
  assert (Hp : forall b, reach succ root b <-> exists l, path root edges l b /\ ~ In x l).
  { intros b. split.
    - intros H. induction H as [|b n H (l & Hl & Nl) Hn]; [exists [root]; split; [constructor|intros [G|[]]; auto]|].
      apply Hs in Hn. destruct Hn as (H1 & H2 & H3). exists (n :: l). split; [eapply path_step; eauto|]. intros [G|G]; auto.
    - intros (l & Hl & Nl). induction Hl as [|l n m Hl IH He]; [constructor|]. eapply reach_next.
      + apply IH. intros G. apply Nl. right; auto.
      + apply Hs. split; [|split; auto].
        * intros ->. apply Nl. right. destruct (path_hd _ _ _ _ Hl) as [t ->]. left; auto.
        * intros ->. apply Nl. left; auto. }
  destruct (reach_dec succ root bbs) with (deg := length edges) (b := y) as [G|G]; auto.
  - intros b n Hb Hn. apply Hs in Hn. destruct Hn as (_ & _ & Hn). eapply C; eauto.
  - intros b. unfold succ. destruct (b =? x); [cbn; lia|].
    assert (Fl : forall (T : Type) (f : T -> bool) l, length (filter f l) <= length l).
    { intros T f l. induction l as [|a t IH]; cbn [filter length]; auto. destruct (f a); cbn [length]; lia. }
    eapply Nat.le_trans; [apply Fl|]. rewrite map_length. apply Fl.
  - apply Hp. auto.
  - exfalso. apply N. intros l Hl. destruct (in_dec Nat.eq_dec x l) as [|Nl]; auto. exfalso. apply G. apply Hp. eauto.
Qed.

(* a phi is placed, once, in exactly the blocks reached by two different values of
   the variable: two definitions, a definition and the initial value, or values
   merged by another phi *)
Theorem phi_placement_partial : forall root bbs edges fuel D fr pop defs fuel',
  graph_ok root bbs edges -> length bbs * length bbs < fuel -> dominator_map fuel root bbs edges = Some D ->
  (forall b, In b bbs -> reachable root edges b) -> frontiers fuel D edges = Some fr ->
  pop [] = None -> (forall W, W <> [] -> exists x W', pop W = Some (x, W') /\ Permutation W (x :: W')) ->
  length defs + length bbs <= fuel' ->
  exists F, phi_loop pop fr defs fuel' [] defs = Some F /\ NoDup F /\
    forall z, In z F <-> joins edges (fun x => In x defs \/ x = root) z.
Proof.
  intros root bbs edges fuel D fr pop defs fuel' Hg Hf HD AR Hfr P0 P1 Hf'.
  destruct (dominance_frontier_partial root bbs edges fuel D Hg Hf HD AR) as (fr' & F1 & F2). assert (fr' = fr) by congruence. subst fr'.
  pose proof Hg as [A B C E].
  destruct (phi_loop_ok pop P0 P1 fr defs bbs) with (fuel := fuel') (F := @nil nat) (W := defs) as (F & L1 & L2 & L3).
  - intros x y H. apply F2 in H. destruct H as (q & H & _). eapply C; eauto.
  - constructor.
  - intros y [].
  - auto.
  - intros x y [H|[]] N; contradiction.
  - assert (length (nodup Nat.eq_dec bbs) <= length bbs); [|cbn [length]; lia].
    clear. induction bbs as [|a t IH]; cbn [nodup length]; auto. destruct (in_dec Nat.eq_dec a t); cbn [length]; lia.
  - exists F. split; auto. split; auto. intros z. rewrite L3.
    assert (I : iterated (fun x y => In (x, y) fr) defs z <-> iterated (frontier root edges) defs z).
    { split; intros H; induction H as [x y Hx Hxy|x y Hx IH Hxy].
      - eapply it_def; [apply Hx|]. apply F2. auto.
      - eapply it_step; [apply IH|]. apply F2. auto.
      - eapply it_def; [apply Hx|]. apply F2. auto.
      - eapply it_step; [apply IH|]. apply F2. auto. }
    rewrite I. destruct (dominator_map_ok root edges bbs A B C E fuel Hf) as (D' & H1 & H2). assert (D' = D) by congruence. subst D'.
    apply iterated_joins; auto.
    + intros x y R. pose proof (HD' root edges bbs A C D H2 y x R) as G. unfold strictly_dominates. rewrite <- G.
      destruct (in_dec Nat.eq_dec x (D y)); destruct (Nat.eq_dec x y); tauto.
    + intros s d H. apply AR. eapply B; eauto.
    + intros x y R N. eapply avoid_path; eauto.
Qed.

(* ------------------------------------------------------------------ *)
(* removal of inaccessible blocks                                       *)
(* ------------------------------------------------------------------ *)
(* the kept blocks are those reachable from the entry *)
Theorem simplification_accessible_partial : forall root bbs succ, In root bbs ->
  (forall b n, In b bbs -> In n (succ b) -> In n bbs) -> (exists deg, forall b, length (succ b) <= deg) ->
  exists fuel0, forall fuel, fuel0 <= fuel ->
    exists r, accessible fuel root succ = Some r /\ forall b, In b r <-> reach succ root b.
Proof. intros root bbs succ Hr Hc [deg Hd]. eapply accessible_ok; eauto. Qed.

(* but a block may be listed many times: n successive if/else constructs give 2^n
   copies of the last block *)
Definition diamonds (n b : nat) : list nat :=
  match b mod 3 with
  | 0 => if b =? 3 * n then [] else [b + 1; b + 2]
  | 1 => [b + 2]
  | _ => [b + 1]
  end.

Inductive asteps (succ : nat -> list nat) : list nat * list nat * list nat -> list nat * list nat * list nat -> Prop :=
| as_refl : forall s, asteps succ s s
| as_step : forall p b w acc s,
    asteps succ (p ++ [b], w ++ filter (fun n => negb (memb n (p ++ [b]))) (succ b), acc ++ filter (fun n => negb (memb n (p ++ [b]))) (succ b)) s ->
    asteps succ (p, b :: w, acc) s.
Lemma asteps_trans : forall succ a b c, asteps succ a b -> asteps succ b c -> asteps succ a c.
Proof. intros succ a b c H. induction H; auto. intros G. apply as_step. auto. Qed.
Lemma asteps_run : forall succ s s', asteps succ s s' -> forall f r, acc_loop f succ (fst (fst s)) (snd (fst s)) (snd s) = Some r ->
  exists f', acc_loop f' succ (fst (fst s')) (snd (fst s')) (snd s') = Some r.
Proof.
  intros succ s s' H. induction H as [s|p b w acc s H IH]; intros f r E; [eauto|]. cbn [fst snd] in E.
  destruct f as [|f]; [discriminate|]. cbn [acc_loop] in E. apply (IH f r). exact E.
Qed.
Lemma acc_count : forall f succ p w acc r c, acc_loop f succ p w acc = Some r -> count_occ Nat.eq_dec acc c <= count_occ Nat.eq_dec r c.
Proof.
  induction f as [|f IH]; intros succ p w acc r c H; destruct w as [|b w]; cbn [acc_loop] in H; try discriminate; try (injection H as <-; auto).
  apply (IH _ _ _ _ _ c) in H. rewrite count_occ_app in H. lia.
Qed.
Lemma asteps_count : forall succ s s', asteps succ s s' ->
  (forall c, count_occ Nat.eq_dec (snd (fst s)) c <= count_occ Nat.eq_dec (snd s) c) -> forall c, count_occ Nat.eq_dec (snd (fst s')) c <= count_occ Nat.eq_dec (snd s') c.
Proof.
  intros succ s s' H. induction H as [s|p b w acc s H IH]; intros Hc c; auto. apply IH. clear -Hc. cbn [fst snd] in *. intros c.
  rewrite !count_occ_app. specialize (Hc c). cbn [count_occ] in Hc. destruct (Nat.eq_dec b c); lia.
Qed.

(* popping copies of the same block *)
Lemma pop_copies : forall succ b new j w p acc, ~ In b new -> (forall n, In n new -> ~ In n p) -> succ b = new ->
  exists p' acc', asteps succ (p, repeat b (S j) ++ w, acc) (p', w ++ concat (repeat new (S j)), acc') /\ (forall n, In n p' -> In n p \/ n = b).
Proof.
  intros succ b new j. induction j as [|j IH]; intros w p acc Nb Np Es.
  - exists (p ++ [b]), (acc ++ new). cbn [repeat app concat]. rewrite app_nil_r. split.
    + apply as_step. rewrite Es. replace (filter _ new) with new; [constructor|].
      clear -Nb Np. assert (G : forall l, (forall n, In n l -> In n new) -> l = filter (fun n => negb (memb n (p ++ [b]))) l); [|apply G; auto].
      induction l as [|a t IH]; intros H; cbn [filter]; auto. assert (memb a (p ++ [b]) = false) as ->.
      { apply memb_out. rewrite in_app_iff. intros [G|[<-|[]]]; [apply (Np a); auto; apply H; left; auto|apply Nb, H; left; auto]. }
      cbn [negb]. rewrite <- IH; auto. intros n Hn. apply H. right; auto.
    + intros n Hn. apply in_app_or in Hn. destruct Hn as [|[<-|[]]]; auto.
  - destruct (IH (w ++ new) (p ++ [b]) (acc ++ new)) as (p' & acc' & H1 & H2); auto.
    + intros n Hn G. apply in_app_or in G. destruct G as [G|[<-|[]]]; [apply (Np n); auto|auto].
    + exists p', acc'. split.
      * change (repeat b (S (S j)) ++ w) with (b :: (repeat b (S j) ++ w)). apply as_step. rewrite Es.
        replace (filter _ new) with new.
        -- rewrite <- !app_assoc in *. change (concat (repeat new (S (S j)))) with (new ++ concat (repeat new (S j))). exact H1.
        -- clear -Nb Np. assert (G : forall l, (forall n, In n l -> In n new) -> l = filter (fun n => negb (memb n (p ++ [b]))) l); [|apply G; auto].
           induction l as [|a t IH]; intros H; cbn [filter]; auto. assert (memb a (p ++ [b]) = false) as ->.
           { apply memb_out. rewrite in_app_iff. intros [G|[<-|[]]]; [apply (Np a); auto; apply H; left; auto|apply Nb, H; left; auto]. }
           cbn [negb]. rewrite <- IH; auto. intros n Hn. apply H. right; auto.
      * intros n Hn. destruct (H2 n Hn) as [G|G]; auto. apply in_app_or in G. destruct G as [|[<-|[]]]; auto.
Qed.

(* popping copies of the two branches *)
Lemma pop_branches : forall succ a b c j w p acc, c <> a -> c <> b -> ~ In c p -> succ a = [c] -> succ b = [c] ->
  exists p' acc', asteps succ (p, concat (repeat [a; b] j) ++ w, acc) (p', w ++ repeat c (2 * j), acc') /\ (forall n, In n p' -> In n p \/ n = a \/ n = b).
Proof.
  intros succ a b c j. induction j as [|j IH]; intros w p acc Na Nb Np Ea Eb.
  - exists p, acc. cbn [repeat concat app Nat.mul]. rewrite app_nil_r. split; [constructor|auto].
  - assert (F1 : filter (fun n => negb (memb n (p ++ [a]))) [c] = [c]).
    { cbn [filter]. assert (memb c (p ++ [a]) = false) as ->; auto. apply memb_out. rewrite in_app_iff. intros [G|[<-|[]]]; auto. }
    assert (F2 : filter (fun n => negb (memb n ((p ++ [a]) ++ [b]))) [c] = [c]).
    { cbn [filter]. assert (memb c ((p ++ [a]) ++ [b]) = false) as ->; auto. apply memb_out. rewrite !in_app_iff. intros [[G|[<-|[]]]|[<-|[]]]; auto. }
    destruct (IH ((w ++ [c]) ++ [c]) ((p ++ [a]) ++ [b]) ((acc ++ [c]) ++ [c])) as (p' & acc' & H1 & H2); auto.
    + rewrite !in_app_iff. intros [[G|[<-|[]]]|[<-|[]]]; auto.
    + exists p', acc'. split.
      * change (concat (repeat [a; b] (S j)) ++ w) with (a :: b :: (concat (repeat [a; b] j) ++ w)). apply as_step. rewrite Ea, F1. cbn [app]. apply as_step. rewrite Eb, F2.
        rewrite <- !app_assoc in *. cbn [app] in *. replace (2 * S j) with (S (S (2 * j))) by lia. exact H1.
      * intros n Hn. destruct (H2 n Hn) as [G|G]; auto. rewrite !in_app_iff in G. cbn [In] in G. intuition.
Qed.

Lemma diamonds_state : forall n k, k <= n -> exists p acc, asteps (diamonds n) ([], [0], [0]) (p, repeat (3 * k) (2 ^ k), acc) /\ (forall b, In b p -> b < 3 * k).
Proof.
  intros n. induction k as [|k IH]; intros Hk.
  - exists [], [0]. split; [constructor|intros b []].
  - destruct IH as (p & acc & H1 & H2); [lia|].
    destruct (2 ^ k) as [|j] eqn:E2; [exfalso; apply (Nat.pow_nonzero 2 k); auto|].
    assert (M0 : (3 * k) mod 3 = 0) by (rewrite Nat.mul_comm; apply Nat.mod_mul; lia).
    assert (M1 : (3 * k + 1) mod 3 = 1) by (rewrite Nat.add_comm, (Nat.mul_comm 3 k), Nat.mod_add by lia; reflexivity).
    assert (M2 : (3 * k + 2) mod 3 = 2) by (rewrite Nat.add_comm, (Nat.mul_comm 3 k), Nat.mod_add by lia; reflexivity).
    destruct (pop_copies (diamonds n) (3 * k) [3 * k + 1; 3 * k + 2] j [] p acc) as (p1 & acc1 & S1 & S2).
    + cbn [In]. lia.
    + intros m [<-|[<-|[]]] G; apply H2 in G; lia.
    + unfold diamonds. rewrite M0. destruct (Nat.eqb_spec (3 * k) (3 * n)); [lia|reflexivity].
    + destruct (pop_branches (diamonds n) (3 * k + 1) (3 * k + 2) (3 * S k) (S j) [] p1 acc1) as (p2 & acc2 & T1 & T2).
      * lia.
      * lia.
      * intros G. apply S2 in G. destruct G as [G|G]; [apply H2 in G|]; lia.
      * unfold diamonds. rewrite M1. f_equal. lia.
      * unfold diamonds. rewrite M2. f_equal. lia.
      * exists p2, acc2. split.
        -- eapply asteps_trans; [apply H1|]. rewrite app_nil_r in S1. cbn [app] in S1. eapply asteps_trans; [apply S1|].
           rewrite app_nil_r in T1. cbn [app] in T1. rewrite Nat.pow_succ_r', E2. exact T1.
        -- intros b Hb. apply T2 in Hb. destruct Hb as [Hb|[-> | ->]]; [|lia|lia]. apply S2 in Hb. destruct Hb as [Hb| ->]; [apply H2 in Hb; lia|lia].
Qed.

Theorem simplification_duplicates_refuted : forall n fuel r, accessible fuel 0 (diamonds n) = Some r ->
  2 ^ n <= count_occ Nat.eq_dec r (3 * n).
Proof.
  intros n fuel r H. destruct (diamonds_state n n (le_n _)) as (p & acc & S1 & _). unfold accessible in H.
  destruct (asteps_run _ _ _ S1 fuel r H) as (f' & R). cbn [fst snd] in R. apply (acc_count _ _ _ _ _ _ (3 * n)) in R.
  assert (C : forall c, count_occ Nat.eq_dec (repeat (3 * n) (2 ^ n)) c <= count_occ Nat.eq_dec acc c).
  { apply (asteps_count _ _ _ S1). intros c. cbn [fst snd]. auto. }
  specialize (C (3 * n)). rewrite count_occ_repeat_eq in C by reflexivity. lia.
Qed.

(* ------------------------------------------------------------------ *)
(* examples                                                             *)
(* ------------------------------------------------------------------ *)
(* if/else followed by a loop: 0 -> 1,2 -> 3 (header) -> 4 (body) -> 3, 3 -> 5 *)
Definition g1 : list (nat * nat) := [(0, 1); (0, 2); (1, 3); (2, 3); (3, 4); (4, 3); (3, 5)].
Definition g1_bbs : list nat := [0; 1; 2; 3; 4; 5].
Example g1_ok : graph_ok 0 g1_bbs g1 /\ forall b, In b g1_bbs -> reachable 0 g1 b.
Proof.
  assert (P : forall l b, path 0 g1 l b -> forall m, In (b, m) g1 -> path 0 g1 (m :: l) m) by (intros; eapply path_step; eauto).
  assert (P0 := path_root 0 g1). assert (P1 := P _ _ P0 1 ltac:(cbn; auto)). assert (P2 := P _ _ P0 2 ltac:(cbn; auto)).
  assert (P3 := P _ _ P1 3 ltac:(cbn; auto)). assert (P4 := P _ _ P3 4 ltac:(cbn; auto 10)). assert (P5 := P _ _ P3 5 ltac:(cbn; auto 10)).
  split; [constructor|].
  - cbn; auto.
  - intros s d H. cbn in H. repeat (destruct H as [H|H]; [injection H as <- <-; cbn; auto 10|]). destruct H.
  - intros s d H. cbn in H. repeat (destruct H as [H|H]; [injection H as <- <-; cbn; auto 10|]). destruct H.
  - intros s H. cbn in H. repeat (destruct H as [H|H]; [discriminate|]). destruct H.
  - intros b H. cbn in H. repeat (destruct H as [<-|H]; [eexists; eassumption|]). destruct H.
Qed.
Example g1_dom : match dominator_map 37 0 g1_bbs g1 with
  | Some D => same_set (D 5) [0; 3; 5] && same_set (D 4) [0; 3; 4] && same_set (D 3) [0; 3] && same_set (D 0) [0]
  | None => false end = true.
Proof. reflexivity. Qed.
Example g1_idom : match dominator_map 37 0 g1_bbs g1 with Some D => map (idom D) g1_bbs | None => [] end =
  [None; Some 0; Some 0; Some 0; Some 3; Some 3].
Proof. reflexivity. Qed.
Definition take_first (W : list nat) : option (nat * list nat) := match W with [] => None | x :: t => Some (x, t) end.
(* a variable assigned in block 1 and in the loop body needs one phi, in block 3 *)
Example g1_phi : match dominator_map 37 0 g1_bbs g1 with
  | Some D => match frontiers 37 D g1 with Some fr => phi_loop take_first fr [1; 4] 8 [] [1; 4] | None => None end
  | None => None end = Some [3].
Proof. reflexivity. Qed.
Example take_first_pops : take_first [] = None /\ forall W, W <> [] -> exists x W', take_first W = Some (x, W') /\ Permutation W (x :: W').
Proof. split; auto. intros [|x t] H; [congruence|]. exists x, t. split; auto. Qed.
(* a loop whose header is the entry *)
Example entry_loop : match dominator_map 5 0 [0; 1] [(0, 1); (1, 0)] with Some D => memb 1 (D 0) | None => false end = true.
Proof. reflexivity. Qed.
Example g1_accessible : accessible 100 0 (fun b => map snd (filter (fun e => fst e =? b) g1)) = Some [0; 1; 2; 3; 3; 4; 5; 4; 5].
Proof. reflexivity. Qed.
Example diamonds_two : accessible 100 0 (diamonds 2) = Some [0; 1; 2; 3; 3; 4; 5; 4; 5; 6; 6; 6; 6].
Proof. reflexivity. Qed.

Print Assumptions dominator_map_partial.
Print Assumptions immediate_dominator_partial.
Print Assumptions dominator_map_entry_refuted.
Print Assumptions dominance_frontier_partial.
Print Assumptions phi_placement_partial.
Print Assumptions simplification_accessible_partial.
Print Assumptions simplification_duplicates_refuted.
