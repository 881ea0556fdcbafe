(* Orders of operation graphs (C55), work-list of linearized passes (C63) and
   graph copy (C54). *)
Require Import List Arith Bool Lia Permutation.
From Verif Require Import GraphModel.
Import ListNotations.

Lemma mem_in : forall n l, mem n l = true <-> In n l.
Proof.
  intros n l. unfold mem. rewrite existsb_exists. split.
  - intros [x [H E]]. apply Nat.eqb_eq in E. subst. auto.
  - intros H. exists n. split; auto. apply Nat.eqb_refl.
Qed.
Lemma mem_out : forall n l, mem n l = false <-> ~ In n l.
Proof. intros n l. rewrite <- mem_in. destruct (mem n l); split; congruence. Qed.

(* ================= orders ================= *)
Section Orders.
  Variable leaf : nat -> bool.
  Variable ins : nat -> list nat.

  (* spec: paths below a node, stopping at leaves and at the end nodes *)
  Inductive path (ends : list nat) : nat -> nat -> nat -> Prop :=
  | path_0 : forall n, path ends n n 0
  | path_S : forall n m k d, leaf n = false -> ~ In n ends -> In m (ins n) -> path ends m k d ->
      path ends n k (S d).
  Definition acyclic (rk : nat -> nat) : Prop := forall n m, leaf n = false -> In m (ins n) -> rk m < rk n.
  Definition reaches (ends : list nat) (n k : nat) : Prop := exists d, path ends n k d.

  Lemma path_snoc : forall ends n k d, path ends n k d -> forall m, leaf k = false -> ~ In k ends -> In m (ins k) ->
    path ends n m (S d).
  Proof.
    induction 1; intros; econstructor; eauto. constructor.
  Qed.

  (* ---- depth_node_ordering: what a finished run returns ---- *)
  (* dseen: visited nodes with the depth of the visit, latest first;
     dwork: pending nodes with the depth of the pending visit *)
  Record dinv (ends : list nat) (s : nat) (dseen dwork : list (nat * nat)) : Prop := {
    di_nodup : NoDup (map fst dseen);
    di_seen : forall x d, In (x, d) dseen -> path ends s x d;
    di_work : forall x d, In (x, d) dwork -> path ends s x d;
    di_all : forall x d, path ends s x d ->
      (exists e, In (x, e) dseen /\ e <= d) \/
      (exists w e k, In (w, e) dwork /\ path ends w x k /\ e + k = d);
    di_sorted : forall l1 x d l2 y e, dseen = l1 ++ (x, d) :: l2 -> In (y, e) l2 -> e <= d;
    di_front : forall x d y e, In (x, d) dseen -> In (y, e) dwork -> d <= e;
    di_wsorted : forall l1 x d l2 y e, dwork = l1 ++ (x, d) :: l2 -> In (y, e) l2 -> d <= e <= S d
  }.

  Lemma depth_loop_inv : forall ends s fuel dseen dwork l, dinv ends s dseen dwork ->
    depth_loop leaf ins fuel ends (map fst dseen) (map fst dwork) = Some l ->
    exists dl, dinv ends s dl [] /\ l = rev (map fst dl).
  Proof.
    intros ends s. induction fuel as [|f IH]; intros dseen dwork l I H.
    - destruct dwork as [|[n d] t]; cbn in H; [|discriminate]. inversion H. exists dseen. auto.
    - destruct dwork as [|[n d] t]; [cbn in H; inversion H; exists dseen; auto|].
      cbn [depth_loop map fst] in H.
      set (dseen' := if mem n (map fst dseen) then dseen else (n, d) :: dseen) in *.
      set (ch := if negb (leaf n) && negb (mem n ends) then map (fun m => (m, S d)) (ins n) else []) in *.
      assert (E1 : (if mem n (map fst dseen) then map fst dseen else n :: map fst dseen) = map fst dseen')
        by (unfold dseen'; destruct (mem n (map fst dseen)); reflexivity).
      assert (E2 : (if negb (leaf n) && negb (mem n ends) then map fst t ++ ins n else map fst t) = map fst (t ++ ch)).
      { unfold ch. rewrite map_app. destruct (negb (leaf n) && negb (mem n ends)).
        - rewrite map_map. cbn. rewrite map_id. reflexivity.
        - cbn. rewrite app_nil_r. reflexivity. }
      rewrite E1, E2 in H. eapply IH; [|exact H]. clear IH H E1 E2.
      assert (Hn : path ends s n d) by (apply (di_work _ _ _ _ I); left; reflexivity).
      assert (Hch : forall x e, In (x, e) ch <-> leaf n = false /\ ~ In n ends /\ In x (ins n) /\ e = S d).
      { intros x e. unfold ch. destruct (negb (leaf n) && negb (mem n ends)) eqn:E.
        - apply andb_true_iff in E. destruct E as [A B]. apply negb_true_iff in A, B. apply mem_out in B.
          rewrite in_map_iff. split.
          + intros [m [Em Hm]]. inversion Em; subst. auto.
          + intros [_ [_ [Hx ->]]]. exists x. auto.
        - split; [intros []|]. intros [A [B _]]. apply mem_out in B. rewrite A, B in E. discriminate. }
      assert (Hs' : forall x e, In (x, e) dseen' -> In (x, e) dseen \/ (x = n /\ e = d)).
      { intros x e Hx. unfold dseen' in Hx. destruct (mem n (map fst dseen)); auto. destruct Hx as [Hx|Hx]; auto.
        inversion Hx; auto. }
      assert (Hs'' : forall x e, In (x, e) dseen -> In (x, e) dseen').
      { intros x e Hx. unfold dseen'. destruct (mem n (map fst dseen)); auto. right; auto. }
      assert (Ht : forall y e, In (y, e) t -> d <= e <= S d).
      { intros y e Hy. apply (di_wsorted _ _ _ _ I [] n d t y e eq_refl Hy). }
      assert (Hin : exists e, In (n, e) dseen' /\ e <= d).
      { unfold dseen'. destruct (mem n (map fst dseen)) eqn:Em.
        - apply mem_in in Em. apply in_map_iff in Em. destruct Em as [[n' e] [En Hi]]. cbn in En. subst.
          exists e. split; auto. apply (di_front _ _ _ _ I n e n d Hi). left; auto.
        - exists d. split; auto. left; auto. }
      constructor.
      + unfold dseen'. destruct (mem n (map fst dseen)) eqn:Em; [apply (di_nodup _ _ _ _ I)|].
        cbn. constructor; [apply mem_out; auto|apply (di_nodup _ _ _ _ I)].
      + intros x e Hx. destruct (Hs' _ _ Hx) as [Hx'|[-> ->]]; auto. apply (di_seen _ _ _ _ I); auto.
      + intros x e Hx. apply in_app_or in Hx. destruct Hx as [Hx|Hx].
        * apply (di_work _ _ _ _ I). right; auto.
        * apply Hch in Hx. destruct Hx as [A [B [C ->]]]. eapply path_snoc; eauto.
      + intros x dx Hx. destruct (di_all _ _ _ _ I x dx Hx) as [[e [He Hle]]|[w [e [k [Hw [Hp Hek]]]]]].
        * left. exists e. auto.
        * destruct Hw as [Hw|Hw].
          -- inversion Hw; subst w e; clear Hw. inversion Hp; subst.
             ++ left. destruct Hin as [e [? ?]]. exists e. split; auto. lia.
             ++ right. eexists _, (S d), _. split; [apply in_or_app; right; apply Hch; eauto|]. split; [eassumption|lia].
          -- right. exists w, e, k. split; [apply in_or_app; auto|auto].
      + intros l1 x dx l2 y e El Hy. unfold dseen' in El. destruct (mem n (map fst dseen)).
        * eapply (di_sorted _ _ _ _ I); eauto.
        * destruct l1 as [|p l1]; cbn in El; inversion El; subst.
          -- apply (di_front _ _ _ _ I y e x dx); auto. left; auto.
          -- eapply (di_sorted _ _ _ _ I); eauto.
      + intros x dx y e Hx Hy. assert (dx <= d).
        { destruct (Hs' _ _ Hx) as [Hx'|[-> ->]]; auto. apply (di_front _ _ _ _ I x dx n d); auto. left; auto. }
        apply in_app_or in Hy. destruct Hy as [Hy|Hy]; [apply Ht in Hy; lia|]. apply Hch in Hy. destruct Hy as [_ [_ [_ ->]]]. lia.
      + intros l1 x dx l2 y e El Hy.
        assert (Hx : In (x, dx) (t ++ ch)) by (rewrite El; apply in_or_app; right; left; auto).
        apply app_eq_app in El. destruct El as [lm [[El1 El2]|[El1 El2]]].
        * destruct lm as [|p lm].
          -- cbn in El2. assert (Hy' : In (y, e) ch) by (rewrite <- El2; right; auto).
             assert (Hx' : In (x, dx) ch) by (rewrite <- El2; left; auto).
             apply Hch in Hy', Hx'. lia.
          -- cbn in El2. inversion El2; subst p l2. apply in_app_or in Hy. destruct Hy as [Hy|Hy].
             ++ eapply (di_wsorted _ _ _ _ I ((n, d) :: l1) x dx lm); [|exact Hy]. rewrite El1. reflexivity.
             ++ apply Hch in Hy. assert (d <= dx <= S d) by (apply (Ht x dx); rewrite El1; apply in_or_app; right; left; auto). lia.
        * assert (Hx' : In (x, dx) ch) by (rewrite El2; apply in_or_app; right; left; auto).
          assert (Hy' : In (y, e) ch) by (rewrite El2; apply in_or_app; right; right; auto).
          apply Hch in Hy', Hx'. lia.
  Qed.

  Lemma dinv_init : forall ends s, dinv ends s [] [(s, 0)].
  Proof.
    intros. constructor; cbn; try (intros; contradiction).
    - constructor.
    - intros x d [E|[]]. inversion E; subst. constructor.
    - intros x d H. right. exists s, 0, d. auto.
    - intros l1 x d l2 y e E. destruct l1; discriminate.
    - intros l1 x d l2 y e E Hy. destruct l1 as [|p l1]; inversion E; subst; [contradiction|].
      destruct l1; discriminate.
  Qed.

  (* a list of distinct nodes, root first, holding exactly the reachable nodes,
     by non-decreasing distance to the root *)
  Definition by_depth (ends : list nat) (s : nat) (l : list nat) : Prop :=
    NoDup l /\ (forall x, In x l <-> reaches ends s x) /\
    (forall l1 x l2 y d, l = l1 ++ x :: l2 -> In y l2 -> path ends s y d -> exists e, e <= d /\ path ends s x e).

  Theorem depth_node_ordering_correct : forall fuel s ends l,
    depth_node_ordering leaf ins fuel s ends = Some l -> by_depth ends s l.
  Proof.
    intros fuel s ends l H. destruct (depth_loop_inv ends s fuel [] [(s, 0)] l (dinv_init ends s) H) as [dl [I ->]].
    split; [|split].
    - apply NoDup_rev. apply (di_nodup _ _ _ _ I).
    - intros x. rewrite <- in_rev, in_map_iff. split.
      + intros [[x' d] [E Hx]]. cbn in E. subst. exists d. apply (di_seen _ _ _ _ I); auto.
      + intros [d Hd]. destruct (di_all _ _ _ _ I x d Hd) as [[e [He _]]|[w [e [k [[] _]]]]].
        exists (x, e). auto.
    - intros l1 x l2 y d E Hy Hd.
      assert (E' : map fst dl = rev l2 ++ x :: rev l1).
      { rewrite <- (rev_involutive (map fst dl)), E, rev_app_distr. cbn. rewrite <- app_assoc. reflexivity. }
      apply map_eq_app in E'. destruct E' as [a [b [Edl [Ea Eb]]]]. destruct b as [|[x' ex] b]; [discriminate|].
      cbn in Eb. inversion Eb; subst x'; clear Eb.
      assert (Hya : In y (map fst a)) by (rewrite Ea; apply in_rev in Hy; auto).
      apply in_map_iff in Hya. destruct Hya as [[y' ey] [Ey Hya]]. cbn in Ey. subst y'.
      destruct (di_all _ _ _ _ I y d Hd) as [[e [He Hle]]|[w [e [k [[] _]]]]].
      assert (e = ey).
      { pose proof (di_nodup _ _ _ _ I) as ND. rewrite Edl in He, ND.
        assert (G : forall L : list (nat * nat), NoDup (map fst L) -> forall u v v', In (u, v) L -> In (u, v') L -> v = v').
        { clear. induction L as [|[p q] L IH]; cbn; intros ND u v v' A B; [contradiction|]. inversion ND; subst.
          destruct A as [A|A], B as [B|B].
          - congruence.
          - inversion A; subst. exfalso. apply H1. apply in_map_iff. exists (u, v'). auto.
          - inversion B; subst. exfalso. apply H1. apply in_map_iff. exists (u, v). auto.
          - eapply IH; eauto. }
        eapply G; eauto. apply in_or_app. left; auto. }
      subst ey. apply in_split in Hya. destruct Hya as [a1 [a2 ->]].
      exists ex. split.
      + assert (ex <= e); [|lia]. eapply (di_sorted _ _ _ _ I a1 y e (a2 ++ (x, ex) :: b)).
        * rewrite Edl, <- app_assoc. reflexivity.
        * apply in_or_app. right; left; auto.
      + apply (di_seen _ _ _ _ I). rewrite Edl. apply in_or_app. right; left; auto.
  Qed.

  (* ---- it ends on acyclic graphs: the pops are the paths below the queue ---- *)
  Fixpoint npaths (k n : nat) : nat :=
    match k with O => 1 | S k' => 1 + if leaf n then 0 else list_sum (map (npaths k') (ins n)) end.
  Lemma npaths_stable : forall rk, acyclic rk -> forall k n, rk n <= k -> npaths k n = npaths (rk n) n.
  Proof.
    intros rk A. assert (G : forall k k' n, rk n <= k -> rk n <= k' -> npaths k n = npaths k' n).
    { induction k as [|k IH]; intros k' n H H'.
      - destruct k'; cbn; auto. destruct (leaf n) eqn:El; auto. destruct (ins n) as [|m t] eqn:Ei; auto.
        exfalso. assert (rk m < rk n) by (apply A; auto; rewrite Ei; left; auto). lia.
      - destruct k' as [|k'].
        + cbn. destruct (leaf n) eqn:El; auto. destruct (ins n) as [|m t] eqn:Ei; auto.
          exfalso. assert (rk m < rk n) by (apply A; auto; rewrite Ei; left; auto). lia.
        + cbn. destruct (leaf n) eqn:El; auto. f_equal. f_equal. apply map_ext_in. intros m Hm.
          assert (rk m < rk n) by (apply A; auto). apply IH; lia. }
    intros. apply G; lia.
  Qed.
  Lemma depth_loop_ends : forall rk, acyclic rk -> forall ends fuel seen work,
    list_sum (map (fun n => npaths (rk n) n) work) <= fuel ->
    exists l, depth_loop leaf ins fuel ends seen work = Some l.
  Proof.
    intros rk A ends. assert (P1 : forall k n, 1 <= npaths k n) by (intros [|k] n; cbn; lia).
    induction fuel as [|f IH]; intros seen work H.
    - destruct work as [|n t]; cbn; eauto. cbn in H. specialize (P1 (rk n) n). lia.
    - destruct work as [|n t]; cbn [depth_loop]; eauto. apply IH. cbn [map list_sum fold_right] in H.
      change (fold_right Nat.add 0) with list_sum in H.
      assert (C : npaths (rk n) n = 1 + if leaf n then 0 else list_sum (map (fun m => npaths (rk m) m) (ins n))).
      { destruct (rk n) as [|k] eqn:Ek.
        - cbn. destruct (leaf n) eqn:El; auto. destruct (ins n) as [|m u] eqn:Ei; auto.
          exfalso. assert (rk m < rk n) by (apply A; auto; rewrite Ei; left; auto). lia.
        - cbn. destruct (leaf n) eqn:El; auto. f_equal. f_equal. apply map_ext_in. intros m Hm.
          assert (rk m < rk n) by (apply A; auto). apply (npaths_stable rk A). lia. }
      destruct (negb (leaf n) && negb (mem n ends)) eqn:E.
      + apply andb_true_iff in E. destruct E as [E _]. apply negb_true_iff in E. rewrite E in C.
        rewrite map_app, list_sum_app. lia.
      + lia.
  Qed.
  Theorem depth_node_ordering_ends : forall rk s ends, acyclic rk ->
    exists fuel l, forall fuel', fuel <= fuel' -> depth_node_ordering leaf ins fuel' s ends = Some l.
  Proof.
    intros rk s ends A. set (F := npaths (rk s) s).
    assert (M : forall f seen work l, depth_loop leaf ins f ends seen work = Some l ->
      forall f', f <= f' -> depth_loop leaf ins f' ends seen work = Some l).
    { induction f as [|f IH]; intros seen work l H f' Hf.
      - destruct work; cbn in H; [|discriminate]. destruct f'; cbn; auto.
      - destruct work as [|n t]; [destruct f'; cbn in *; auto|]. destruct f' as [|f']; [lia|].
        cbn [depth_loop] in *. eapply IH; eauto. lia. }
    destruct (depth_loop_ends rk A ends F [] [s]) as [l Hl]; [cbn; fold F; lia|].
    exists F, l. intros f' Hf. eapply M; eauto.
  Qed.
  (* ... and only there: an infinite descent is never finished *)
  Theorem depth_node_ordering_cyclic : forall (inf : nat -> Prop) ends,
    (forall n, inf n -> leaf n = false /\ ~ In n ends /\ exists m, In m (ins n) /\ inf m) ->
    forall fuel s, inf s -> depth_node_ordering leaf ins fuel s ends = None.
  Proof.
    intros inf ends Hi. assert (G : forall fuel seen work, (exists n, In n work /\ inf n) ->
      depth_loop leaf ins fuel ends seen work = None).
    { induction fuel as [|f IH]; intros seen work [n [Hn In']].
      - destruct work; [contradiction|reflexivity].
      - destruct work as [|w t]; [contradiction|]. cbn [depth_loop]. apply IH. destruct Hn as [->|Hn].
        + destruct (Hi n In') as [A [B [m [Hm Im]]]]. apply mem_out in B. rewrite A, B. cbn. exists m. split; auto.
          apply in_or_app; auto.
        + exists n. split; auto. destruct (negb (leaf w) && negb (mem w ends)); auto. apply in_or_app; auto. }
    intros fuel s Hs. apply G. exists s. split; auto. left; auto.
  Qed.

  (* ---- linearize_graph gives the same list ---- *)
  Inductive cov (P : list nat) : list nat -> list nat -> list nat -> Prop :=
  | cov_nil : forall pre, cov P pre [] []
  | cov_keep : forall pre x Q q, cov P (x :: pre) Q q -> cov P pre (x :: Q) (x :: q)
  | cov_skip : forall pre x Q q, In x P \/ In x pre -> cov P pre Q q -> cov P pre (x :: Q) q.
  Lemma cov_weaken : forall P pre Q q, cov P pre Q q -> forall P' pre',
    (forall x, In x P \/ In x pre -> In x P' \/ In x pre') -> cov P' pre' Q q.
  Proof.
    induction 1; intros P' pre' W.
    - constructor.
    - constructor. apply IHcov. cbn. intros y Hy. specialize (W y). tauto.
    - apply cov_skip; auto.
  Qed.
  Lemma cov_app_skip : forall P pre Q q X, cov P pre Q q ->
    (forall x, In x X -> In x P \/ In x pre \/ In x q) -> cov P pre (Q ++ X) q.
  Proof.
    intros P pre Q q X H. induction H; intros HX; cbn.
    - induction X as [|x X IH]; [constructor|]. apply cov_skip.
      + destruct (HX x (or_introl eq_refl)) as [?|[?|[]]]; auto.
      + apply IH. intros; apply HX; right; auto.
    - constructor. apply IHcov. intros y Hy. cbn. specialize (HX y Hy). cbn in HX. tauto.
    - apply cov_skip; auto.
  Qed.
  Lemma cov_app : forall P pre Q q X, cov P pre Q q -> cov P pre (Q ++ X) (q ++ X).
  Proof.
    intros P pre Q q X H. induction H; cbn.
    - revert pre. induction X; intros; constructor; auto.
    - constructor; auto.
    - apply cov_skip; auto.
  Qed.
  Lemma lin_loop_depth : forall F P Q q l,
    (forall x m, In x P -> leaf x = false -> In m (ins x) -> In m P \/ In m q) ->
    cov P [] Q q -> depth_loop leaf ins F [] P Q = Some l ->
    forall f, F <= f -> lin_loop leaf ins f P q = Some l.
  Proof.
    induction F as [|F IH]; intros P Q q l Cl C H f Hf.
    - destruct Q; cbn in H; [|discriminate]. inversion C; subst. destruct f; cbn; auto.
    - inversion C; subst.
      + cbn in H. destruct f; cbn; auto.
      + destruct f as [|f]; [lia|]. cbn [depth_loop lin_loop] in *.
        destruct (mem x P) eqn:Em.
        * apply mem_in in Em. refine (IH P _ q0 l _ _ H f _); [| |lia].
          -- intros y m Hy Ly Hm. destruct (Cl y m Hy Ly Hm) as [?|[->|?]]; auto.
          -- assert (C' : cov P [] Q0 q0). { eapply cov_weaken; eauto. intros y [?|[->|[]]]; auto. }
             destruct (negb (leaf x) && negb (mem x [])) eqn:E; auto. apply cov_app_skip; auto.
             intros m Hm. apply andb_true_iff in E. destruct E as [E _]. apply negb_true_iff in E.
             destruct (Cl x m Em E Hm) as [?|[->|?]]; auto.
        * refine (IH (x :: P) _ _ l _ _ H f _); [| |lia].
          -- intros y m [->|Hy] Ly Hm.
             ++ rewrite Ly. right. apply in_or_app; auto.
             ++ destruct (Cl y m Hy Ly Hm) as [?|[->|?]]; cbn; auto. right. destruct (leaf x); auto. apply in_or_app; auto.
          -- assert (C' : cov (x :: P) [] Q0 q0).
             { eapply cov_weaken; eauto. cbn. intros y [?|[->|[]]]; auto. }
             change (mem x []) with false. destruct (leaf x); cbn; auto. apply cov_app; auto.
      + destruct H0 as [Hx|[]]. cbn [depth_loop] in H.
        assert (Em : mem x P = true) by (apply mem_in; auto). rewrite Em in H.
        refine (IH P _ q l Cl _ H f _); [|lia].
        destruct (negb (leaf x) && negb (mem x [])) eqn:E; auto. apply cov_app_skip; auto.
        intros m Hm. apply andb_true_iff in E. destruct E as [E _]. apply negb_true_iff in E.
        destruct (Cl x m Hx E Hm) as [?|?]; auto.
  Qed.
  Theorem linearize_graph_correct : forall rk s, acyclic rk ->
    exists fuel l, (forall fuel', fuel <= fuel' -> linearize_graph leaf ins fuel' s = Some l) /\
      depth_node_ordering leaf ins fuel s [] = Some l /\ by_depth [] s l.
  Proof.
    intros rk s A. destruct (depth_node_ordering_ends rk s [] A) as [F [l Hl]].
    exists F, l. split; [|split; [apply Hl; auto|eapply depth_node_ordering_correct; apply Hl; eauto]].
    intros f Hf. unfold linearize_graph. refine (lin_loop_depth F [] [s] [s] l _ _ (Hl F (le_n F)) f Hf).
    - intros x m [].
    - constructor. constructor.
  Qed.

  (* parents first: true when every path to a node has the same length *)
  Definition before (l : list nat) (x y : nat) : Prop := exists l1 l2 l3, l = l1 ++ x :: l2 ++ y :: l3.
  Theorem parents_first_graded_partial : forall s l lv ends, by_depth ends s l ->
    (forall x y, leaf x = false -> In y (ins x) -> lv y = S (lv x)) ->
    forall x y, In x l -> leaf x = false -> ~ In x ends -> In y (ins x) -> before l x y.
  Proof.
    intros s l lv ends [ND [All Srt]] G x y Hx Lx Ex Hy.
    assert (LV : forall n k d, path ends n k d -> lv k = lv n + d).
    { induction 1; [lia|]. rewrite IHpath, (G n m); auto. lia. }
    apply All in Hx. destruct Hx as [d Hd].
    assert (Hyr : path ends s y (S d)) by (eapply path_snoc; eauto).
    assert (Hxl : In x l) by (apply All; exists d; auto).
    assert (Hyl : In y l) by (apply All; exists (S d); auto).
    apply in_split in Hxl. destruct Hxl as [l1 [l2 ->]].
    apply in_app_or in Hyl. destruct Hyl as [Hyl|[->|Hyl]].
    - apply in_split in Hyl. destruct Hyl as [a [b ->]].
      destruct (Srt a y (b ++ x :: l2) x d) as [e [He Hp]]; auto.
      + rewrite <- app_assoc. reflexivity.
      + apply in_or_app. right; left; auto.
      + apply LV in Hp. apply LV in Hyr. lia.
    - apply LV in Hyr. apply LV in Hd. lia.
    - apply in_split in Hyl. destruct Hyl as [a [b ->]]. exists l1, a, b. reflexivity.
  Qed.

  (* ---- the work-list of linearized passes ---- *)
  Lemma push_missing_spec : forall memo ops work r w, push_missing memo ops work = (r, w) ->
    (r = true <-> incl ops memo) /\ (forall o, In o ops -> In o memo \/ In o w) /\
    exists new, w = work ++ new /\ (NoDup work -> NoDup w) /\
      (forall o, In o new -> In o ops /\ ~ In o memo /\ ~ In o work).
  Proof.
    intros memo. induction ops as [|o t IH]; intros work r w H; cbn [push_missing] in H.
    - inversion H; subst. split; [split; auto; intros _ x []|]. split; [intros ? []|].
      exists []. rewrite app_nil_r. repeat split; auto; contradiction.
    - destruct (mem o memo) eqn:Em.
      + apply mem_in in Em. destruct (IH _ _ _ H) as [A [B [new [C [D E]]]]]. split; [|split].
        * rewrite A. split; intros I x; [intros [->|Hx]; auto|intros Hx; apply I; right; auto].
        * intros x [->|Hx]; auto.
        * exists new. split; auto. split; auto. intros x Hx. destruct (E x Hx) as [? ?]. split; auto. right; auto.
      + destruct (push_missing memo t (if mem o work then work else work ++ [o])) as [r' w'] eqn:Ep. inversion H; subst; clear H.
        apply mem_out in Em. destruct (IH _ _ _ Ep) as [A [B [new [C [D E]]]]].
        split; [split; [discriminate|intros I; exfalso; apply Em; apply I; left; auto]|].
        destruct (mem o work) eqn:Ew.
        * apply mem_in in Ew. split.
          -- intros x [->|Hx]; auto. right. rewrite C. apply in_or_app; auto.
          -- exists new. split; auto. split; auto. intros x Hx. destruct (E x Hx). split; auto. right; auto.
        * apply mem_out in Ew. split.
          -- intros x [->|Hx]; auto. right. rewrite C. apply in_or_app. left. apply in_or_app. right; left; auto.
          -- exists (o :: new). split; [rewrite C, <- app_assoc; reflexivity|]. split.
             ++ intros ND. apply D. apply (Permutation_NoDup (l := o :: work)); [apply Permutation_cons_append|].
                constructor; auto.
             ++ intros x [<-|Hx]; [split; [left; auto|auto]|]. destruct (E x Hx) as [F [G I]]. split; [right; auto|].
                split; auto. intros J. apply I. apply in_or_app; auto.
  Qed.

  Record winv (s : nat) (memo work : list nat) : Prop := {
    wi_nodup : NoDup (memo ++ work);
    wi_reach : forall x, In x memo \/ In x work -> reaches [] s x;
    wi_start : In s memo \/ In s work;
    wi_closed : forall l1 x l2, memo = l1 ++ x :: l2 -> leaf x = false -> incl (ins x) l2 }.
  Definition actionable (memo work : list nat) (x : nat) : Prop :=
    leaf x = true \/ incl (ins x) memo \/ exists o, In o (ins x) /\ ~ In o memo /\ ~ In o work.
  Lemma actionable_exists : forall rk memo work, acyclic rk -> work <> [] ->
    exists w1 x w2, work = w1 ++ x :: w2 /\ actionable memo work x.
  Proof.
    intros rk memo work A Hw.
    assert (Hmin : exists x, In x work /\ forall y, In y work -> rk x <= rk y).
    { clear -Hw. induction work as [|a t IH]; [congruence|]. destruct t as [|b t].
      - exists a. split; [left; auto|]. intros y [->|[]]; auto.
      - destruct IH as [x [Hx Hm]]; [congruence|]. destruct (le_lt_dec (rk a) (rk x)) as [L|L].
        + exists a. split; [left; auto|]. intros y [->|Hy]; auto. specialize (Hm y Hy). lia.
        + exists x. split; [right; auto|]. intros y [->|Hy]; auto. lia. }
    destruct Hmin as [x [Hx Hm]]. apply in_split in Hx. destruct Hx as [w1 [w2 E]]. exists w1, x, w2. split; auto.
    unfold actionable. destruct (leaf x) eqn:Lx; auto. right.
    destruct (forallb (fun o => mem o memo) (ins x)) eqn:Ef.
    - left. rewrite forallb_forall in Ef. intros o Ho. apply mem_in. auto.
    - right. assert (exists o, In o (ins x) /\ ~ In o memo).
      { clear -Ef. induction (ins x) as [|o t IH]; [discriminate|]. cbn in Ef. destruct (mem o memo) eqn:Em.
        - destruct IH as [p [? ?]]; auto. exists p. split; auto. right; auto.
        - exists o. split; [left; auto|]. apply mem_out; auto. }
      destruct H as [o [Ho Hn]]. exists o. split; auto. split; auto. intros Hi. specialize (Hm o Hi).
      specialize (A x o Lx Ho). lia.
  Qed.
  Definition todo (U memo : list nat) : nat := length (filter (fun x => negb (mem x memo)) U).
  Definition unseen (U memo work : list nat) : nat := length (filter (fun x => negb (mem x (memo ++ work))) U).
  Lemma filter_less : forall U l l' x, In x U -> ~ In x l -> incl l l' -> In x l' ->
    length (filter (fun y => negb (mem y l')) U) < length (filter (fun y => negb (mem y l)) U).
  Proof.
    assert (LE : forall U l l', incl l l' ->
      length (filter (fun y => negb (mem y l')) U) <= length (filter (fun y => negb (mem y l)) U)).
    { induction U as [|u U IH]; intros l l' I; cbn; auto. specialize (IH l l' I).
      destruct (mem u l') eqn:E', (mem u l) eqn:E; cbn; try lia.
      apply mem_in in E. apply I in E. apply mem_in in E. congruence. }
    induction U as [|u U IH]; intros l l' x Hx Hn I Hx'; [contradiction|].
    destruct Hx as [->|Hx].
    - cbn. apply mem_out in Hn. apply mem_in in Hx'. rewrite Hn, Hx'. cbn. specialize (LE U l l' I). lia.
    - specialize (IH l l' x Hx Hn I Hx'). cbn. destruct (mem u l') eqn:E', (mem u l) eqn:E; cbn; try lia.
      apply mem_in in E. apply I in E. apply mem_in in E. congruence.
  Qed.
  Lemma filter_same : forall U l l', (forall x, In x l <-> In x l') ->
    length (filter (fun y => negb (mem y l')) U) = length (filter (fun y => negb (mem y l)) U).
  Proof.
    intros U l l' H. f_equal. apply filter_ext. intros a. f_equal. destruct (mem a l) eqn:E.
    - apply mem_in, H, mem_in in E. auto.
    - destruct (mem a l') eqn:E'; auto. apply mem_in, H, mem_in in E'. congruence.
  Qed.

  Lemma reaches_snoc : forall ends s x m, reaches ends s x -> leaf x = false -> ~ In x ends -> In m (ins x) -> reaches ends s m.
  Proof. intros ends s x m [d H] L E Hm. exists (S d). eapply path_snoc; eauto. Qed.

  Lemma work_loop_ok : forall rk s U, acyclic rk -> (forall x, reaches [] s x -> In x U) ->
    forall A B C memo work, todo U memo <= A -> unseen U memo work <= B -> winv s memo work ->
    (work <> [] -> exists w1 x w2, work = w1 ++ x :: w2 /\ actionable memo work x /\ length w1 <= C) ->
    exists F memo', (forall f, F <= f -> work_loop leaf ins f memo work = Some (rev memo')) /\ winv s memo' [].
  Proof.
    intros rk s U Ac HU.
    induction A as [A IHA] using lt_wf_ind. induction B as [B IHB] using lt_wf_ind. induction C as [C IHC] using lt_wf_ind.
    intros memo work HA HB I Hact.
    destruct work as [|n t].
    - exists 0, memo. split; auto. intros f _. destruct f; reflexivity.
    - assert (Hn : In n U) by (apply HU, (wi_reach _ _ _ I); right; left; auto).
      assert (Hnm : ~ In n memo).
      { intros Hm. pose proof (wi_nodup _ _ _ I) as ND. apply NoDup_remove_2 in ND. apply ND. apply in_or_app; auto. }
      assert (ND' : NoDup (memo ++ t) /\ ~ In n (memo ++ t)).
      { pose proof (wi_nodup _ _ _ I) as ND. split; [eapply NoDup_remove_1; eauto|eapply NoDup_remove_2; eauto]. }
      (* memoization of n with the rest w of the list *)
      assert (STEP : (leaf n = false -> incl (ins n) memo) ->
        exists F memo', (forall f, F <= f -> work_loop leaf ins f (n :: memo) t = Some (rev memo')) /\ winv s memo' []).
      { intros Hin.
        assert (HA' : todo U (n :: memo) < A).
        { eapply Nat.lt_le_trans; [|exact HA]. apply (filter_less U memo (n :: memo) n); auto; [right; auto|left; auto]. }
        apply (IHA _ HA' (unseen U (n :: memo) t) (length t)); auto.
        - constructor.
          + cbn. destruct ND' as [N1 N2]. constructor; auto.
          + intros x [[->|H]|H]; apply (wi_reach _ _ _ I); cbn; auto.
          + destruct (wi_start _ _ _ I) as [H|[H|H]]; cbn; auto.
          + intros l1 x l2 E Lx. destruct l1 as [|a l1]; cbn in E; inversion E; subst; auto.
            eapply (wi_closed _ _ _ I); eauto.
        - intros Hw. destruct (actionable_exists rk (n :: memo) t Ac Hw) as [w1 [x [w2 [E Hx]]]].
          exists w1, x, w2. split; auto. split; auto. rewrite E, app_length. lia. }
      destruct (leaf n) eqn:Ln.
      + destruct STEP as [F [memo' [H1 H2]]]; [discriminate|].
        exists (S F), memo'. split; auto. intros f Hf. destruct f; [lia|]. cbn [work_loop]. rewrite Ln. apply H1. lia.
      + destruct (push_missing memo (ins n) t) as [r w] eqn:Ep.
        destruct (push_missing_spec _ _ _ _ _ Ep) as [Hr [Hall [new [Ew [NDw Hnew]]]]].
        assert (Nt : NoDup t) by (destruct ND' as [N1 _]; clear -N1; induction memo; auto; inversion N1; auto).
        destruct r.
        * assert (Hi : incl (ins n) memo) by (apply Hr; auto).
          assert (new = []). { destruct new as [|o new]; auto. destruct (Hnew o) as [X [Y _]]; [left; auto|]. exfalso; auto. }
          subst new. rewrite app_nil_r in Ew. subst w.
          destruct STEP as [F [memo' [H1 H2]]]; auto.
          exists (S F), memo'. split; auto. intros f Hf. destruct f; [lia|]. cbn [work_loop]. rewrite Ln, Ep. apply H1. lia.
        * assert (Hnw : ~ In n w).
          { rewrite Ew. intros H. apply in_app_or in H. destruct H as [H|H].
            - apply (proj2 ND'). apply in_or_app; auto.
            - destruct (Hnew n H) as [X _]. specialize (Ac n n Ln X). lia. }
          assert (Hmw : mem n w = false) by (apply mem_out; auto).
          assert (I' : winv s memo (w ++ [n])).
          { constructor.
            - rewrite app_assoc. apply (Permutation_NoDup (l := n :: (memo ++ w))); [apply Permutation_cons_append|].
              constructor.
              + intros H. apply in_app_or in H. tauto.
              + rewrite Ew, app_assoc. destruct ND' as [N1 N2].
                assert (D : NoDup new /\ forall x, In x new -> ~ In x (memo ++ t)).
                { split.
                  - specialize (NDw Nt). rewrite Ew in NDw. clear -NDw. induction t; auto. inversion NDw; auto.
                  - intros x Hx H. destruct (Hnew x Hx) as [_ [X Y]]. apply in_app_or in H. tauto. }
                destruct D as [D1 D2]. revert D1 D2 N1. clear. generalize (memo ++ t) as L. induction L as [|a L IH]; cbn; intros; auto.
                inversion N1; subst. constructor.
                * intros H. apply in_app_or in H. destruct H as [H|H]; auto. apply (D2 a H). left; auto.
                * apply IH; auto. intros x Hx H. apply (D2 x Hx). right; auto.
            - intros x [H|H]; [apply (wi_reach _ _ _ I); auto|]. apply in_app_or in H. destruct H as [H|[<-|[]]].
              + rewrite Ew in H. apply in_app_or in H. destruct H as [H|H]; [apply (wi_reach _ _ _ I); right; right; auto|].
                destruct (Hnew x H) as [X _]. eapply reaches_snoc; eauto. apply (wi_reach _ _ _ I). right; left; auto.
              + apply (wi_reach _ _ _ I). right; left; auto.
            - destruct (wi_start _ _ _ I) as [H|[->|H]]; auto; right; apply in_or_app; cbn; auto.
              left. rewrite Ew. apply in_or_app; auto.
            - apply (wi_closed _ _ _ I). }
          assert (G : exists F memo', (forall f, F <= f -> work_loop leaf ins f memo (w ++ [n]) = Some (rev memo')) /\ winv s memo' []).
          { destruct new as [|o new].
            - (* rotation *)
              rewrite app_nil_r in Ew. subst w.
              destruct Hact as [w1 [x [w2 [E [Hx Hc]]]]]; [congruence|].
              destruct w1 as [|a w1]; cbn in E; inversion E; subst.
              + exfalso. destruct Hx as [Hx|[Hx|[o [X [Y Z]]]]].
                * congruence.
                * assert (false = true) by (apply Hr; auto). discriminate.
                * destruct (Hall o X) as [H|H]; auto. apply Z. right; auto.
              + cbn in Hc. apply (IHC (length w1)); auto.
                * eapply Nat.le_trans; [|exact HB]. unfold unseen. rewrite (filter_same U (memo ++ a :: w1 ++ x :: w2)); auto.
                  intros y. rewrite !in_app_iff. cbn. rewrite !in_app_iff. cbn. tauto.
                * intros _. exists w1, x, (w2 ++ [a]). split; [rewrite <- app_assoc; reflexivity|]. split; auto.
                  destruct Hx as [Hx|[Hx|[o [X [Y Z]]]]]; [left; auto|right; left; auto|].
                  right; right. exists o. split; auto. split; auto. intros H. apply Z. rewrite !in_app_iff in H. cbn in *. rewrite in_app_iff in *. cbn in *. tauto.
            - (* a new node *)
              destruct (Hnew o (or_introl eq_refl)) as [X [Y Z]].
              assert (HB' : unseen U memo (w ++ [n]) < B).
              { eapply Nat.lt_le_trans; [|exact HB]. apply (filter_less U (memo ++ n :: t) (memo ++ (w ++ [n])) o).
                - apply HU. eapply reaches_snoc; eauto. apply (wi_reach _ _ _ I). right; left; auto.
                - intros H. apply in_app_or in H. destruct H as [H|[->|H]]; auto. specialize (Ac o o Ln X). lia.
                - intros y. rewrite Ew, !in_app_iff. cbn. rewrite ?in_app_iff. cbn. tauto.
                - rewrite Ew, !in_app_iff. cbn. tauto. }
              apply (IHB _ HB' (length (w ++ [n]))); auto.
              intros Hw. destruct (actionable_exists rk memo (w ++ [n]) Ac Hw) as [w1 [x [w2 [E Hx]]]].
              exists w1, x, w2. split; auto. split; auto. rewrite E, app_length. lia. }
          destruct G as [F [memo' [H1 H2]]]. exists (S F), memo'. split; auto.
          intros f Hf. destruct f; [lia|]. cbn [work_loop]. rewrite Ln, Ep, Hmw. apply H1. lia.
  Qed.

  (* every reachable node is handled exactly once, after its operands *)
  Theorem worklist_operands_first : forall rk s U, acyclic rk -> (forall x, reaches [] s x -> In x U) ->
    exists F l, (forall f, F <= f -> work_loop leaf ins f [] [s] = Some l) /\ NoDup l /\
      (forall x, In x l <-> reaches [] s x) /\
      (forall l1 x l2, l = l1 ++ x :: l2 -> leaf x = false -> incl (ins x) l1).
  Proof.
    intros rk s U A HU.
    assert (I0 : winv s [] [s]).
    { constructor.
      - cbn. constructor; auto. constructor.
      - intros x [[]|[<-|[]]]. exists 0. constructor.
      - right; left; auto.
      - intros l1 x l2 E. destruct l1; discriminate. }
    destruct (work_loop_ok rk s U A HU (todo U []) (unseen U [] [s]) 1 [] [s]) as [F [memo [H1 H2]]]; auto.
    - intros _. destruct (actionable_exists rk [] [s] A) as [w1 [x [w2 [E Hx]]]]; [congruence|].
      exists w1, x, w2. split; auto. split; auto. destruct w1 as [|a w1]; cbn; [lia|]. inversion E. destruct w1; discriminate.
    - exists F, (rev memo). split; auto.
      assert (CL : forall l1 x l2, rev memo = l1 ++ x :: l2 -> leaf x = false -> incl (ins x) l1).
      { intros l1 x l2 E Lx. assert (E' : memo = rev l2 ++ x :: rev l1).
        { rewrite <- (rev_involutive memo), E, rev_app_distr. cbn. rewrite <- app_assoc. reflexivity. }
        intros y Hy. apply in_rev. eapply (wi_closed _ _ _ H2); eauto. }
      split; [|split; auto].
      + apply NoDup_rev. pose proof (wi_nodup _ _ _ H2) as N. rewrite app_nil_r in N. auto.
      + intros x. rewrite <- in_rev. split; [intros H; apply (wi_reach _ _ _ H2); auto|].
        intros [d Hd]. assert (Hs : In s memo) by (destruct (wi_start _ _ _ H2) as [?|[]]; auto).
        pose proof (wi_closed _ _ _ H2) as WC. clear -Hs Hd WC. induction Hd; auto. apply IHHd.
        apply in_split in Hs. destruct Hs as [l1 [l2 E]].
        assert (In m l2) by (eapply WC; eauto). rewrite E. apply in_or_app. right; right; auto.
  Qed.
End Orders.

(* ---- examples and refutations for the orders ---- *)
(* 0 = op(1, 2), 1 = op(3), 2 = op(1, 3): a shared operand is listed before one of its parents *)
Definition ex_ins (n : nat) : list nat := match n with 0 => [1; 2] | 1 => [3] | 2 => [1; 3] | _ => [] end.
Definition ex_leaf (n : nat) : bool := Nat.leb 3 n.
Example depth_node_ordering_example :
  depth_node_ordering ex_leaf ex_ins 20 0 [] = Some [0; 1; 2; 3] /\
  depth_node_ordering ex_leaf ex_ins 20 0 [1] = Some [0; 1; 2; 3] /\
  depth_node_ordering ex_leaf ex_ins 20 0 [1; 2] = Some [0; 1; 2] /\
  acyclic ex_leaf ex_ins (fun n => match n with 0 => 3 | 2 => 2 | 1 => 1 | _ => 0 end).
Proof.
  split; [reflexivity|]. split; [reflexivity|]. split; [reflexivity|].
  intros n m H Hm. destruct n as [|[|[|n]]]; cbn in Hm.
  - destruct Hm as [<-|[<-|[]]]; lia.
  - destruct Hm as [<-|[]]; lia.
  - destruct Hm as [<-|[<-|[]]]; lia.
  - contradiction.
Qed.
(* "leafs appear after their parent": not with shared operands.  For every
   graph in which the root r has operands x then y, and y has operand x. *)
Theorem parents_first_refuted : forall leaf ins r x y fuel l, r <> x -> r <> y -> x <> y ->
  leaf r = false -> ins r = [x; y] -> linearize_graph leaf ins (S (S (S fuel))) r = Some l ->
  exists l', l = r :: x :: y :: l'.
Proof.
  intros leaf ins r x y fuel l Hx Hy Hxy Hr Hi H.
  assert (E1 : mem x [r] = false) by (apply mem_out; cbn; intuition congruence).
  assert (E2 : mem y [x; r] = false) by (apply mem_out; cbn; intuition congruence).
  unfold linearize_graph in H. cbn [lin_loop] in H. change (mem r []) with false in H. cbn iota in H.
  rewrite Hr, Hi in H. cbn [app] in H. rewrite E1 in H.
  assert (G : forall f seen work l0, lin_loop leaf ins f seen work = Some l0 -> exists t, l0 = rev seen ++ t).
  { clear. induction f as [|f IH]; intros seen work l0 H0; destruct work as [|n t]; cbn in H0; try discriminate.
    - inversion H0. exists []. rewrite app_nil_r; auto.
    - inversion H0. exists []. rewrite app_nil_r; auto.
    - destruct (mem n seen); [eapply IH; eauto|]. apply IH in H0. destruct H0 as [u ->]. cbn. rewrite <- app_assoc. eauto. }
  assert (H' : exists w, lin_loop leaf ins fuel [y; x; r] w = Some l).
  { destruct (leaf x); cbn [app lin_loop] in H; rewrite E2 in H; eauto. }
  destruct H' as [w H']. apply G in H'. destruct H' as [t ->]. exists t. reflexivity.
Qed.
Example parents_first_refuted_example : exists l, linearize_graph ex_leaf ex_ins 20 0 = Some l /\
  In 1 (ex_ins 2) /\ before l 1 2 /\ ~ before l 2 1.
Proof.
  exists [0; 1; 2; 3]. split; [reflexivity|]. split; [cbn; auto|]. split.
  - exists [0], [], [3]. reflexivity.
  - intros [l1 [l2 [l3 E]]].
    destruct l1 as [|a [|b [|c [|d l1]]]]; inversion E; subst.
    destruct l2 as [|? [|]]; discriminate.
    destruct l1; discriminate.
Qed.
Example parents_first_example : by_depth ex_leaf (fun n => match n with 0 => [1; 2] | 1 => [3] | 2 => [3] | _ => [] end) [] 0 [0; 1; 2; 3].
Proof. apply (depth_node_ordering_correct _ _ 20). reflexivity. Qed.
Example depth_cyclic_example : forall fuel, depth_node_ordering (fun _ => false) (fun n => [1 - n]) fuel 0 [] = None.
Proof.
  intros fuel. apply (depth_node_ordering_cyclic _ _ (fun n => True)); auto.
  intros n _. split; auto. split; [intros []|]. exists (1 - n). cbn; auto.
Qed.
Example worklist_example : work_loop ex_leaf ex_ins 30 [] [0] = Some [3; 1; 2; 0].
Proof. reflexivity. Qed.

(* ================= copy ================= *)
(* spec: reachability and evaluation of an object graph *)
Inductive greach (h : gheap) : nat -> nat -> Prop :=
| gr_refl : forall n, greach h n n
| gr_step : forall n i k, In i (inputs (gget h n)) -> greach h i k -> greach h n k.
Definition is_leaf_kind (k : kind) : bool := match k with KOp | KCall => false | _ => true end.
(* the graph below n: allocated, leaves without inputs, no cycle *)
Definition gwf (h : gheap) (rk : nat -> nat) (n : nat) : Prop :=
  forall x, greach h n x -> x < length h /\ (is_leaf_kind (knd (gget h x)) = true -> inputs (gget h x) = []) /\
    forall i, In i (inputs (gget h x)) -> rk i < rk x.
Section Eval.
  Variable V : Type.
  Variable env : nat -> V.                       (* values of the input variables *)
  Variable sem : kind -> nat -> list V -> V.
  Inductive geval (h : gheap) : nat -> V -> Prop :=
  | ge_input : forall n, knd (gget h n) = KInput -> geval h n (env n)
  | ge_node : forall n vs, knd (gget h n) <> KInput -> geval_list h (inputs (gget h n)) vs ->
      geval h n (sem (knd (gget h n)) (lab (gget h n)) vs)
  with geval_list (h : gheap) : list nat -> list V -> Prop :=
  | gel_nil : geval_list h [] []
  | gel_cons : forall n l v vs, geval h n v -> geval_list h l vs -> geval_list h (n :: l) (v :: vs).
End Eval.

Lemma greach_trans : forall h a b c, greach h a b -> greach h b c -> greach h a c.
Proof. induction 1; intros; auto. econstructor; eauto. Qed.
Lemma gget_app : forall h e n, n < length h -> gget (h ++ e) n = gget h n.
Proof. intros. unfold gget. apply app_nth1. auto. Qed.
Lemma gget_last : forall h x, gget (h ++ [x]) (length h) = x.
Proof. intros. unfold gget. rewrite app_nth2, Nat.sub_diag; auto. Qed.
Lemma look_cons : forall n k v m, look n ((k, v) :: m) = if Nat.eqb k n then Some v else look n m.
Proof. reflexivity. Qed.

Lemma Forall2_impl' : forall (A B : Type) (P Q : A -> B -> Prop) l l', (forall a b, P a b -> Q a b) ->
  Forall2 P l l' -> Forall2 Q l l'.
Proof. intros A B P Q l l' H F. induction F; constructor; auto. Qed.
(* what a copy map records, with respect to the original heap h0 *)
Definition copied (h0 h : gheap) (m : cmap) (n c : nat) : Prop :=
  n < length h0 /\
  ((knd (gget h0 n) = KInput /\ c = n) \/
   (knd (gget h0 n) <> KInput /\ length h0 <= c < length h /\
    exists cs, gget h c = mkgnode (knd (gget h0 n)) (lab (gget h0 n)) cs /\
      Forall2 (fun i j => look i m = Some j) (inputs (gget h0 n)) cs)).
Record cinv (h0 h : gheap) (m : cmap) : Prop := {
  ci_ext : exists e, h = h0 ++ e;
  ci_map : forall n c, look n m = Some c -> copied h0 h m n c;
  ci_inj : forall n n' c, look n m = Some c -> look n' m = Some c -> n = n';
  ci_onto : forall c, length h0 <= c < length h -> exists n, look n m = Some c }.
(* outcome of a copy *)
Definition extends (h : gheap) (m : cmap) (h' : gheap) (m' : cmap) (D : nat -> Prop) : Prop :=
  (exists e, h' = h ++ e) /\ (forall n c, look n m = Some c -> look n m' = Some c) /\
  (forall n c, look n m' = Some c -> look n m = Some c \/ D n).

Lemma copied_mono : forall h0 h m h' m' n c, copied h0 h m n c -> (exists e, h' = h ++ e) ->
  (forall n c, look n m = Some c -> look n m' = Some c) -> copied h0 h' m' n c.
Proof.
  intros h0 h m h' m' n c [A [B|[B [C [cs [D E]]]]]] [e ->] M; split; auto. right. split; auto.
  rewrite app_length. split; [lia|]. exists cs. rewrite gget_app by lia. split; auto.
  eapply Forall2_impl'; [|exact E]. auto.
Qed.
Lemma extends_refl : forall h m D, extends h m h m D.
Proof. intros. split; [exists []; rewrite app_nil_r; auto|]. split; auto. Qed.
Lemma extends_trans : forall h m h1 m1 h2 m2 (D : nat -> Prop), extends h m h1 m1 D -> extends h1 m1 h2 m2 D -> extends h m h2 m2 D.
Proof.
  intros h m h1 m1 h2 m2 D [[e ->] [B C]] [[e' ->] [B' C']]. split; [exists (e ++ e'); rewrite app_assoc; auto|]. split; auto.
  intros n c H. destruct (C' n c H) as [H'|]; auto.
Qed.
Lemma extends_weaken : forall h m h' m' (D D' : nat -> Prop), extends h m h' m' D -> (forall x, D x -> D' x) -> extends h m h' m' D'.
Proof. intros h m h' m' D D' [A [B C]] W. split; auto. split; auto. intros n c H. destruct (C n c H); auto. Qed.

(* adding one freshly allocated copy *)
Lemma cinv_alloc : forall h0 h m n cs, cinv h0 h m -> n < length h0 -> look n m = None -> knd (gget h0 n) <> KInput ->
  Forall2 (fun i j => look i m = Some j) (inputs (gget h0 n)) cs ->
  let h' := h ++ [mkgnode (knd (gget h0 n)) (lab (gget h0 n)) cs] in
  let m' := (n, length h) :: m in
  cinv h0 h' m' /\ extends h m h' m' (eq n).
Proof.
  intros h0 h m n cs I Hn Hl Hk Hcs h' m'.
  assert (Mono : forall x c, look x m = Some c -> look x m' = Some c).
  { intros x c H. unfold m'. rewrite look_cons. destruct (Nat.eqb n x) eqn:E; auto. apply Nat.eqb_eq in E. subst. congruence. }
  assert (Ext : exists e, h' = h ++ e) by (unfold h'; eauto).
  assert (L0 : length h0 <= length h). { destruct (ci_ext _ _ _ I) as [e ->]. rewrite app_length. lia. }
  assert (Old : forall x c, look x m = Some c -> c < length h).
  { intros x c H. destruct (ci_map _ _ _ I x c H) as [A [[_ ->]|[_ [C _]]]]; lia. }
  assert (New : copied h0 h' m' n (length h)).
  { split; auto. right. split; auto. unfold h'. rewrite app_length. cbn. split; [lia|]. exists cs.
    rewrite gget_last. split; auto. eapply Forall2_impl'; [|exact Hcs]. exact Mono. }
  split.
  - constructor.
    + destruct (ci_ext _ _ _ I) as [e E]. unfold h'. exists (e ++ [mkgnode (knd (gget h0 n)) (lab (gget h0 n)) cs]).
      rewrite E at 1. rewrite app_assoc. auto.
    + intros x c H. unfold m' in H. rewrite look_cons in H. destruct (Nat.eqb n x) eqn:E.
      * apply Nat.eqb_eq in E. subst x. inversion H; subst. auto.
      * eapply copied_mono; eauto. apply (ci_map _ _ _ I); auto.
    + intros x x' c H H'. unfold m' in H, H'. rewrite look_cons in H, H'.
      destruct (Nat.eqb n x) eqn:E, (Nat.eqb n x') eqn:E'; try apply Nat.eqb_eq in E; try apply Nat.eqb_eq in E'; subst; auto.
      * inversion H; subst. apply Old in H'. lia.
      * inversion H'; subst. apply Old in H. lia.
      * eapply (ci_inj _ _ _ I); eauto.
    + intros c Hc. unfold h' in Hc. rewrite app_length in Hc. cbn in Hc. destruct (Nat.eq_dec c (length h)) as [->|Ne].
      * exists n. unfold m'. rewrite look_cons, Nat.eqb_refl. auto.
      * destruct (ci_onto _ _ _ I c) as [x Hx]; [lia|]. exists x. auto.
  - split; auto. split; auto. intros x c H. unfold m' in H. rewrite look_cons in H.
    destruct (Nat.eqb n x) eqn:E; auto. apply Nat.eqb_eq in E. auto.
Qed.

Lemma copy_ok : forall h0 rk fuel h m n, cinv h0 h m -> gwf h0 rk n -> rk n < fuel ->
  exists h' m' c, copy fuel h m n = Some (h', m', c) /\ cinv h0 h' m' /\ extends h m h' m' (greach h0 n) /\ look n m' = Some c.
Proof.
  intros h0 rk. induction fuel as [|f IH]; intros h m n I W Hf; [lia|].
  cbn [copy]. destruct (look n m) as [c|] eqn:El.
  { exists h, m, c. split; auto. split; auto. split; auto. apply extends_refl. }
  destruct (W n (gr_refl _ n)) as [Hn [Hleaf Hrk]].
  assert (G : gget h n = gget h0 n) by (destruct (ci_ext _ _ _ I) as [e ->]; apply gget_app; auto).
  assert (L0 : length h0 <= length h). { destruct (ci_ext _ _ _ I) as [e ->]. rewrite app_length. lia. }
  assert (LEAF : forall k, knd (gget h0 n) = k -> is_leaf_kind k = true -> k <> KInput ->
    exists h' m' c, Some (h ++ [mkgnode (knd (gget h0 n)) (lab (gget h0 n)) []], (n, length h) :: m, length h) = Some (h', m', c) /\
      cinv h0 h' m' /\ extends h m h' m' (greach h0 n) /\ look n m' = Some c).
  { intros k Ek Lk Nk. destruct (cinv_alloc h0 h m n [] I Hn El) as [A B].
    - congruence.
    - rewrite Hleaf by congruence. constructor.
    - eexists _, _, _. split; [reflexivity|]. split; [exact A|]. split; [|rewrite look_cons, Nat.eqb_refl; auto].
      eapply extends_weaken; [exact B|]. intros x <-. constructor. }
  assert (INPUTS : forall l, incl l (inputs (gget h0 n)) -> forall h1 m1, cinv h0 h1 m1 ->
    exists h' m' cs, copy_inputs (copy f) h1 m1 l = Some (h', m', cs) /\ cinv h0 h' m' /\
      extends h1 m1 h' m' (fun x => greach h0 n x /\ x <> n) /\ Forall2 (fun i j => look i m' = Some j) l cs).
  { induction l as [|i l IHl]; intros Hl h1 m1 I1; cbn [copy_inputs].
    - exists h1, m1, []. split; auto. split; auto. split; [apply extends_refl|constructor].
    - assert (Hi : In i (inputs (gget h0 n))) by (apply Hl; left; auto).
      assert (Wi : gwf h0 rk i). { intros x Hx. apply W. econstructor; eauto. }
      assert (RK : forall x, greach h0 i x -> rk x <= rk i).
      { clear -Wi. intros x Hx. assert (G : forall a b, greach h0 a b -> greach h0 i a -> rk b <= rk a).
        { induction 1; intros; auto. destruct (Wi n H1) as [_ [_ Z]]. specialize (Z i0 H).
          assert (rk k <= rk i0). { apply IHgreach. eapply greach_trans; eauto. econstructor; eauto. constructor. } lia. }
        apply G; auto. constructor. }
      destruct (IH h1 m1 i I1 Wi) as [h2 [m2 [c [Ec [I2 [X2 L2]]]]]]; [specialize (Hrk i Hi); lia|].
      rewrite Ec. destruct (IHl (fun x Hx => Hl x (or_intror Hx)) h2 m2 I2) as [h3 [m3 [cs [Ecs [I3 [X3 F3]]]]]].
      rewrite Ecs. exists h3, m3, (c :: cs). split; auto. split; auto. split.
      + eapply extends_trans; [|exact X3]. eapply extends_weaken; [exact X2|].
        intros x Hx. split; [econstructor; eauto|]. intros ->. specialize (RK n Hx). specialize (Hrk i Hi). lia.
      + constructor; auto. apply X3. auto. }
  rewrite G. destruct (knd (gget h0 n)) eqn:Ek.
  - apply (LEAF KCst); auto; congruence.
  - exists h, ((n, n) :: m), n. split; auto. split; [|split; [|rewrite look_cons, Nat.eqb_refl; auto]].
    + assert (Mono : forall x c, look x m = Some c -> look x ((n, n) :: m) = Some c).
      { intros x c H. rewrite look_cons. destruct (Nat.eqb n x) eqn:E; auto. apply Nat.eqb_eq in E. subst. congruence. }
      constructor.
      * apply (ci_ext _ _ _ I).
      * intros x c H. rewrite look_cons in H. destruct (Nat.eqb n x) eqn:E.
        -- apply Nat.eqb_eq in E. subst x. inversion H; subst. split; auto.
        -- eapply copied_mono; [apply (ci_map _ _ _ I); eauto|exists []; rewrite app_nil_r; auto|auto].
      * intros x x' c H H'. rewrite look_cons in H, H'.
        destruct (Nat.eqb n x) eqn:E, (Nat.eqb n x') eqn:E'; try apply Nat.eqb_eq in E; try apply Nat.eqb_eq in E'; subst; auto.
        -- inversion H; subst. destruct (ci_map _ _ _ I x' c H') as [A [[B C]|[B [C D]]]]; [auto|lia].
        -- inversion H'; subst. destruct (ci_map _ _ _ I x c H) as [A [[B C]|[B [C D]]]]; [auto|lia].
        -- eapply (ci_inj _ _ _ I); eauto.
      * intros c Hc. destruct (ci_onto _ _ _ I c Hc) as [x Hx]. exists x. auto.
    + split; [exists []; rewrite app_nil_r; auto|]. split.
      * intros x c H. rewrite look_cons. destruct (Nat.eqb n x) eqn:E; auto. apply Nat.eqb_eq in E. subst. congruence.
      * intros x c H. rewrite look_cons in H. destruct (Nat.eqb n x) eqn:E; auto. apply Nat.eqb_eq in E. subst. right. constructor.
  - apply (LEAF KVar); auto; congruence.
  - destruct (INPUTS (inputs (gget h0 n)) (fun x H => H) h m I) as [h1 [m1 [cs [Ecs [I1 [X1 F1]]]]]]. rewrite Ecs.
    assert (El1 : look n m1 = None).
    { destruct (look n m1) as [c|] eqn:E; auto. destruct X1 as [_ [_ X]]. destruct (X n c E) as [?|[_ ?]]; congruence. }
    destruct (cinv_alloc h0 h1 m1 n cs I1 Hn El1) as [A B]; [congruence|auto|]. rewrite Ek in A, B.
    eexists _, _, _. split; [reflexivity|]. split; [exact A|]. split; [|rewrite look_cons, Nat.eqb_refl; auto].
    eapply extends_trans; [eapply extends_weaken; [exact X1|cbn; intros ? [? _]; auto]|]. eapply extends_weaken; [exact B|]. intros x <-. constructor.
  - destruct (INPUTS (inputs (gget h0 n)) (fun x H => H) h m I) as [h1 [m1 [cs [Ecs [I1 [X1 F1]]]]]]. rewrite Ecs.
    assert (El1 : look n m1 = None).
    { destruct (look n m1) as [c|] eqn:E; auto. destruct X1 as [_ [_ X]]. destruct (X n c E) as [?|[_ ?]]; congruence. }
    destruct (cinv_alloc h0 h1 m1 n cs I1 Hn El1) as [A B]; [congruence|auto|]. rewrite Ek in A, B.
    eexists _, _, _. split; [reflexivity|]. split; [exact A|]. split; [|rewrite look_cons, Nat.eqb_refl; auto].
    eapply extends_trans; [eapply extends_weaken; [exact X1|cbn; intros ? [? _]; auto]|]. eapply extends_weaken; [exact B|]. intros x <-. constructor.
Qed.
Lemma cinv_init : forall h, cinv h h [].
Proof.
  intros h. constructor; cbn; try discriminate.
  - exists []. rewrite app_nil_r. auto.
  - intros c Hc. lia.
Qed.

(* Copying with a new map: the original objects are untouched; there is an
   injective correspondence phi (sharing is the same) from the nodes of the
   original onto the nodes of the copy, keeping kinds, labels and operands;
   the only original objects in the copy are the input variables; exactly one
   object is allocated per other node. *)
Theorem copy_isomorphic : forall h rk n fuel, gwf h rk n -> rk n < fuel ->
  exists h' m c phi, copy fuel h [] n = Some (h', m, c) /\ (exists e, h' = h ++ e) /\ c = phi n /\
    (forall x, greach h n x -> knd (gget h x) = KInput -> phi x = x) /\
    (forall x, greach h n x -> knd (gget h x) <> KInput -> length h <= phi x < length h' /\
       gget h' (phi x) = mkgnode (knd (gget h x)) (lab (gget h x)) (map phi (inputs (gget h x)))) /\
    (forall x y, greach h n x -> greach h n y -> phi x = phi y -> x = y) /\
    (forall y, greach h' c y <-> exists x, greach h n x /\ y = phi x) /\
    (forall y, length h <= y < length h' -> exists x, greach h n x /\ y = phi x).
Proof.
  intros h rk n fuel W Hf. destruct (copy_ok h rk fuel h [] n (cinv_init h) W Hf) as [h' [m [c [Ec [I [X L]]]]]].
  set (phi := fun x => match look x m with Some y => y | None => x end).
  exists h', m, c, phi.
  assert (IN : forall x, look x m <> None -> forall i, In i (inputs (gget h x)) -> is_leaf_kind (knd (gget h x)) = false -> look i m <> None).
  { intros x Hx i Hi Hk. destruct (look x m) as [y|] eqn:E; [|congruence].
    destruct (ci_map _ _ _ I x y E) as [A [[B C]|[B [C [cs [D F]]]]]]; [rewrite B in Hk; discriminate|].
    clear -F Hi. induction F; [contradiction|]. destruct Hi as [->|Hi]; auto. congruence. }
  assert (ALL : forall x, greach h n x -> look x m <> None).
  { assert (G : forall a x, greach h a x -> greach h n a -> look a m <> None -> look x m <> None).
    { induction 1; intros Ha Hl; auto. apply IHgreach.
      - eapply greach_trans; eauto. econstructor; eauto. constructor.
      - apply (IN n0 Hl i H). destruct (W n0 Ha) as [_ [Z _]]. destruct (is_leaf_kind (knd (gget h n0))); auto.
        rewrite Z in H by auto. contradiction. }
    intros x Hx. eapply G; eauto; [constructor|congruence]. }
  assert (PH : forall x, greach h n x -> look x m = Some (phi x)).
  { intros x Hx. unfold phi. specialize (ALL x Hx). destruct (look x m); congruence. }
  assert (NODE : forall x, greach h n x -> knd (gget h x) <> KInput -> length h <= phi x < length h' /\
       gget h' (phi x) = mkgnode (knd (gget h x)) (lab (gget h x)) (map phi (inputs (gget h x)))).
  { intros x Hx Hk. destruct (ci_map _ _ _ I x _ (PH x Hx)) as [A [[B C]|[B [C [cs [D F]]]]]]; [congruence|].
    split; auto. rewrite D. f_equal. clear -F. unfold phi. induction F; auto. cbn. rewrite H. f_equal; auto. }
  assert (INP : forall x, greach h n x -> knd (gget h x) = KInput -> phi x = x).
  { intros x Hx Hk. destruct (ci_map _ _ _ I x _ (PH x Hx)) as [A [[B C]|[B [C [cs [D F]]]]]]; congruence. }
  assert (EXT : exists e, h' = h ++ e) by apply X.
  assert (STEP : forall x i, greach h n x -> (In i (inputs (gget h' (phi x))) <-> exists j, In j (inputs (gget h x)) /\ i = phi j)).
  { intros x i Hx. destruct (W x Hx) as [Lx [Z _]].
    assert (D : knd (gget h x) = KInput \/ knd (gget h x) <> KInput) by (destruct (knd (gget h x)); (left; congruence) || (right; congruence)).
    destruct D as [D|D].
    - rewrite (INP x Hx D). destruct EXT as [e ->]. rewrite gget_app by auto. rewrite Z by (rewrite D; auto).
      split; [intros []|intros [j [[] _]]].
    - destruct (NODE x Hx D) as [_ ->]. cbn. rewrite in_map_iff. split; intros [j [A B]]; exists j; auto. }
  split; auto. split; auto. split; [specialize (PH n (gr_refl _ n)); congruence|]. split; auto. split; auto. split; [|split].
  - intros x y Hx Hy E. eapply (ci_inj _ _ _ I); [apply PH; eauto|]. rewrite E. apply PH; auto.
  - assert (Ec' : c = phi n) by (specialize (PH n (gr_refl _ n)); congruence). subst c. split.
    + intros H. assert (G : forall a y, greach h' a y -> forall x, greach h n x -> a = phi x -> exists x', greach h n x' /\ y = phi x').
      { induction 1; intros x Hx ->; eauto. apply STEP in H0; auto. destruct H0 as [j [Hj ->]].
        apply (IHgreach j); auto. eapply greach_trans; eauto. econstructor; eauto. constructor. }
      eapply G; eauto. constructor.
    + intros [x [Hx ->]]. assert (G : forall a x, greach h a x -> greach h n a -> greach h' (phi a) (phi x)).
      { induction 1; intros Ha; [constructor|]. econstructor; [apply STEP; eauto|]. apply IHgreach.
        eapply greach_trans; eauto. econstructor; eauto. constructor. }
      apply G; auto. constructor.
  - intros y Hy. destruct (ci_onto _ _ _ I y Hy) as [x Hx]. exists x.
    destruct X as [_ [_ X]]. destruct (X x y Hx) as [H|H]; [discriminate|]. split; auto. unfold phi. rewrite Hx. auto.
Qed.

Scheme geval_ind2 := Induction for geval Sort Prop
  with geval_list_ind2 := Induction for geval_list Sort Prop.

(* the copy computes the same values *)
Theorem copy_same_value : forall V env sem h rk n fuel h' m c v, gwf h rk n -> rk n < fuel ->
  copy fuel h [] n = Some (h', m, c) -> geval V env sem h n v -> geval V env sem h' c v.
Proof.
  intros V env sem h rk n fuel h' m c v W Hf Hc Hv.
  destruct (copy_isomorphic h rk n fuel W Hf) as [h1 [m1 [c1 [phi [E [EXT [-> [INP [NODE _]]]]]]]]].
  rewrite Hc in E. inversion E; subst h1 m1 c; clear E. destruct EXT as [e Ee].
  assert (G : forall x u, geval V env sem h x u -> greach h n x -> geval V env sem h' (phi x) u).
  { apply (geval_ind2 V env sem h
      (fun x u _ => greach h n x -> geval V env sem h' (phi x) u)
      (fun l us _ => (forall x, In x l -> greach h n x) -> geval_list V env sem h' (map phi l) us)).
    - intros x Hk Hx. rewrite INP by auto. apply ge_input. rewrite Ee, gget_app; auto. apply W; auto.
    - intros x vs Hk Hl IH Hx. destruct (NODE x Hx Hk) as [_ N].
      pose proof (ge_node V env sem h' (phi x) vs) as GN. rewrite N in GN. cbn in GN. apply GN; auto.
      apply IH. intros y Hy. eapply greach_trans; eauto. econstructor; eauto. constructor.
    - constructor.
    - intros x l u us Hu IHu Hl IHl HH. cbn. constructor; [apply IHu, HH; left; auto|apply IHl; intros; apply HH; right; auto]. }
  apply G; auto. constructor.
Qed.

(* two successive copies (possibly with other allocations in between) share
   nothing but input variables *)
Theorem copies_disjoint : forall h rk n fuel h1 m1 c1 e fuel2 h2 m2 c2, gwf h rk n -> rk n < fuel -> rk n < fuel2 ->
  copy fuel h [] n = Some (h1, m1, c1) -> copy fuel2 (h1 ++ e) [] n = Some (h2, m2, c2) ->
  forall y, greach h2 c1 y -> greach h2 c2 y -> y < length h /\ knd (gget h y) = KInput /\ greach h n y.
Proof.
  intros h rk n fuel h1 m1 c1 e fuel2 h2 m2 c2 W Hf Hf2 H1 H2 y Y1 Y2.
  destruct (copy_isomorphic h rk n fuel W Hf) as [h1' [m1' [c1' [phi1 [E1 [[e1 X1] [C1 [INP1 [NODE1 [INJ1 [R1 _]]]]]]]]]]].
  rewrite H1 in E1. injection E1 as Eh1 Em1 Ec1. rewrite <- Eh1 in X1, NODE1, R1. rewrite <- Ec1 in R1. clear Eh1 Em1 Ec1.
  assert (PRE : forall x, greach h n x -> forall ex, greach (h ++ ex) n x).
  { intros x Hx ex. assert (G : forall a b, greach h a b -> greach h n a -> greach (h ++ ex) a b).
    { induction 1; intros Ha; [constructor|]. econstructor; [rewrite gget_app; eauto; apply W; auto|]. apply IHgreach.
      eapply greach_trans; eauto. econstructor; eauto. constructor. }
    apply G; auto. constructor. }
  assert (PRE' : forall ex x, greach (h ++ ex) n x -> greach h n x).
  { intros ex x Hx. assert (G : forall a b, greach (h ++ ex) a b -> greach h n a -> greach h n b).
    { induction 1; intros Ha; auto. apply IHgreach. rewrite gget_app in H by (apply W; auto).
      eapply greach_trans; eauto. econstructor; eauto. constructor. }
    eapply G; eauto. constructor. }
  assert (W2 : gwf (h1 ++ e) rk n).
  { rewrite X1, <- app_assoc. intros x Hx. apply PRE' in Hx. destruct (W x Hx) as [A [B C]]. rewrite gget_app by auto.
    rewrite app_length. split; [lia|]. auto. }
  destruct (copy_isomorphic (h1 ++ e) rk n fuel2 W2 Hf2) as [h2' [m2' [c2' [phi2 [E2 [[e2 X2] [C2 [INP2 [NODE2 [INJ2 [R2 _]]]]]]]]]]].
  rewrite H2 in E2. injection E2 as Eh2 Em2 Ec2. rewrite <- Eh2 in X2, NODE2, R2. rewrite <- Ec2 in R2. clear Eh2 Em2 Ec2.
  apply R2 in Y2. destruct Y2 as [x [Hx ->]].
  (* y is reachable from c1 in h1 as well *)
  assert (Y1' : greach h1 c1 (phi2 x)).
  { assert (LT : forall a, greach h1 c1 a -> a < length h1).
    { intros a Ha. apply R1 in Ha. destruct Ha as [z [Hz ->]].
      assert (D : knd (gget h z) = KInput \/ knd (gget h z) <> KInput) by (destruct (knd (gget h z)); (left; congruence) || (right; congruence)).
      destruct D as [D|D]; [rewrite (INP1 z Hz D), X1, app_length; destruct (W z Hz); lia|apply NODE1; auto]. }
    assert (G : forall a b, greach h2 a b -> greach h1 c1 a -> greach h1 c1 b).
    { induction 1; intros Ha; auto. apply IHgreach. rewrite X2, <- app_assoc, gget_app in H by (apply LT; auto).
      eapply greach_trans; eauto. econstructor; eauto. constructor. }
    eapply G; eauto. constructor. }
  assert (Hx0 : greach h n x) by (rewrite X1, <- app_assoc in Hx; eapply PRE'; eauto).
  destruct (W x Hx0) as [Lx _].
  assert (Gx : gget (h1 ++ e) x = gget h x) by (rewrite X1, <- app_assoc; apply gget_app; auto).
  assert (D : knd (gget h x) = KInput \/ knd (gget h x) <> KInput) by (destruct (knd (gget h x)); (left; congruence) || (right; congruence)).
  destruct D as [D|D].
  - rewrite INP2 by (auto; rewrite Gx; auto). auto.
  - exfalso. destruct (NODE2 x Hx) as [A _]; [rewrite Gx; auto|]. rewrite app_length in A.
    apply R1 in Y1'. destruct Y1' as [z [Hz E]].
    assert (phi1 z < length h1); [|lia].
    assert (D' : knd (gget h z) = KInput \/ knd (gget h z) <> KInput) by (destruct (knd (gget h z)); (left; congruence) || (right; congruence)).
    destruct D' as [D'|D']; [rewrite (INP1 z Hz D'), X1, app_length; destruct (W z Hz); lia|apply NODE1; auto].
Qed.

(* "no node of the original is reachable from the copy": refuted by input variables (on purpose in the code) *)
Theorem copy_keeps_inputs_refuted : forall h rk n fuel x h' m c, gwf h rk n -> rk n < fuel ->
  greach h n x -> knd (gget h x) = KInput -> copy fuel h [] n = Some (h', m, c) -> greach h' c x.
Proof.
  intros h rk n fuel x h' m c W Hf Hx Hk Hc.
  destruct (copy_isomorphic h rk n fuel W Hf) as [h1 [m1 [c1 [phi [E [_ [_ [INP [_ [_ [R _]]]]]]]]]]].
  rewrite Hc in E. inversion E; subst. apply R. exists x. split; auto. rewrite INP; auto.
Qed.
(* node.copy() without a map, twice: constants and function calls come back as
   the same object *)
Lemma copy_looked : forall fuel h m n h' m' c, copy fuel h m n = Some (h', m', c) -> look n m' = Some c.
Proof.
  intros [|f] h m n h' m' c H; cbn [copy] in H; destruct (look n m) eqn:E; try discriminate; try (inversion H; subst; auto; fail).
  destruct (knd (gget h n)).
  - inversion H; subst. rewrite look_cons, Nat.eqb_refl. auto.
  - inversion H; subst. rewrite look_cons, Nat.eqb_refl. auto.
  - inversion H; subst. rewrite look_cons, Nat.eqb_refl. auto.
  - destruct (copy_inputs (copy f) h m (inputs (gget h n))) as [[[h1 m1] cs]|]; [|discriminate]. inversion H; subst. rewrite look_cons, Nat.eqb_refl. auto.
  - destruct (copy_inputs (copy f) h m (inputs (gget h n))) as [[[h1 m1] cs]|]; [|discriminate]. inversion H; subst. rewrite look_cons, Nat.eqb_refl. auto.
Qed.
Theorem default_copies_shared_refuted : forall fuel w n w1 c1, n < length (wheap w) ->
  (exists e, wheap w1 = wheap w ++ e) ->
  knd (gget (wheap w) n) = KCst \/ knd (gget (wheap w) n) = KCall ->
  copy_default fuel w n = Some (w1, c1) -> forall fuel2, copy_default fuel2 w1 n = Some (w1, c1).
Proof.
  intros fuel w n w1 c1 Hn [e He] Hk H fuel2. unfold copy_default in *.
  assert (G : gget (wheap w1) n = gget (wheap w) n) by (rewrite He; apply gget_app; auto). rewrite G.
  destruct Hk as [Hk|Hk]; rewrite Hk in *.
  - destruct (copy fuel (wheap w) (cst_map w) n) as [[[h m] c]|] eqn:E; [|discriminate]. inversion H; subst. cbn in *.
    apply copy_looked in E. destruct fuel2; cbn [copy]; rewrite E; auto.
  - destruct (copy fuel (wheap w) (call_map w) n) as [[[h m] c]|] eqn:E; [|discriminate]. inversion H; subst. cbn in *.
    apply copy_looked in E. destruct fuel2; cbn [copy]; rewrite E; auto.
Qed.

(* 0: constant; 1: input variable; 2: op(0, 1); 3: op(2, 2); 4: call(3, 0) *)
Definition ex_heap : gheap :=
  [mkgnode KCst 7 []; mkgnode KInput 1 []; mkgnode KOp 2 [0; 1]; mkgnode KOp 3 [2; 2]; mkgnode KCall 4 [3; 0]].
Example copy_example : copy 5 ex_heap [] 3 =
  Some (ex_heap ++ [mkgnode KCst 7 []; mkgnode KOp 2 [5; 1]; mkgnode KOp 3 [6; 6]], [(3, 7); (2, 6); (1, 1); (0, 5)], 7).
Proof. reflexivity. Qed.
Lemma ex_heap_le : forall n k, greach ex_heap n k -> k <= n \/ 5 <= n.
Proof.
  induction 1; auto. destruct n as [|[|[|[|[|n]]]]]; cbn in H; intuition; subst; try lia.
Qed.
Example copy_example_wf : gwf ex_heap (fun n => n) 4.
Proof.
  intros x Hx. apply ex_heap_le in Hx. destruct Hx as [Hx|Hx]; [|lia].
  destruct x as [|[|[|[|[|x]]]]]; [| | | | |lia]; cbn; (split; [lia|]); split; try discriminate; auto; intuition; subst; lia.
Qed.
Example default_copies_example : exists w1 w2 c3 c4, copy_default 5 (mkworld ex_heap [] []) 0 = Some (w1, 5) /\
  copy_default 5 w1 0 = Some (w1, 5) /\
  (* whereas operations get a new copy each time *)
  copy_default 5 w1 3 = Some (w2, c3) /\ c3 = 8 /\ (exists w3, copy_default 5 w2 3 = Some (w3, c4)) /\ c4 = 11.
Proof. eexists _, _, _, _. split; [reflexivity|]. split; [reflexivity|]. split; [reflexivity|]. split; [reflexivity|]. split; [eexists; reflexivity|reflexivity]. Qed.

Print Assumptions depth_node_ordering_correct.
Print Assumptions depth_node_ordering_ends.
Print Assumptions depth_node_ordering_cyclic.
Print Assumptions linearize_graph_correct.
Print Assumptions parents_first_graded_partial.
Print Assumptions parents_first_refuted.
Print Assumptions worklist_operands_first.
Print Assumptions copy_isomorphic.
Print Assumptions copy_same_value.
Print Assumptions copies_disjoint.
Print Assumptions copy_keeps_inputs_refuted.
Print Assumptions default_copies_shared_refuted.
