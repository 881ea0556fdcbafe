(* C83, C84: the SSA renaming. *)
Require Import ZArith List Arith Bool Lia Permutation.
From Verif Require Import DomModel DomProofs DomProps SsaModel SsaSpec SsaProofs SsaBlock SsaMain SsaInv SsaSim SsaOnce.
Import ListNotations.

(* a variable that is neither assigned nor merged *)
Definition never_assigned (bbs : list nat) (P : prog) (v : nat) : Prop :=
  forall b, In b bbs -> ~ assigns v (P b) /\ ~ has_phi v (P b).

Lemma dominator_sets root bbs edges fuel D : graph_ok root bbs edges -> length bbs * length bbs < fuel ->
  dominator_map fuel root bbs edges = Some D -> forall b a, In b bbs -> (In a (D b) <-> In a bbs /\ dominates root edges a b).
Proof.
  intros [A B C E] Hf HD. destruct (dominator_map_ok root edges bbs A B C E fuel Hf) as (D' & H1 & H2). assert (D' = D) by congruence. subst D'. exact H2.
Qed.
Lemma root_ordered root edges bbs D fuel l (A : In root bbs) (C : forall s d, In (s, d) edges -> In d bbs)
  (AR : forall b, In b bbs -> reachable root edges b) (NB : NoDup bbs)
  (HD : forall b a, In b bbs -> (In a (D b) <-> In a bbs /\ dominates root edges a b)) :
  preorder D fuel bbs root = Some l ->
  NoDup l /\ (forall x, In x l <-> In x bbs) /\
  (forall x, In x l -> (idom D x = None /\ exists t, [] ++ l = x :: t) \/ ordered root edges D ([] ++ l) x).
Proof.
  intros E. destruct (preorder_spec root edges bbs A C AR NB D HD fuel root l A E) as ((t & Et) & I & ND & O).
  split; [exact ND|]. split; [intros x; rewrite I; split; [tauto|intros H; split; [exact H|apply dom_root]]|].
  intros x Hx. destruct (Nat.eq_dec x root) as [->|Q]; [|right; apply O; assumption].
  left. split; [apply (idom_ok root edges bbs A C D HD root (AR root A)); reflexivity|exists t; exact Et].
Qed.

(* ------------------------------------------------------------------ *)
(* C83: the renamed program has the executions of the original one      *)
(* ------------------------------------------------------------------ *)
Theorem renaming_correct_partial : forall root bbs edges fuel D P m fuel2 Q,
  graph_ok root bbs edges -> NoDup bbs -> (forall b, In b bbs -> reachable root edges b) ->
  length bbs * length bbs < fuel -> dominator_map fuel root bbs edges = Some D ->
  edges_of P bbs edges -> (forall b, In b bbs -> plain_blk (P b)) ->
  placed root edges P -> two_preds edges P ->
  (m = ForPred \/ m = AsIs /\ phis_mentioned edges P) ->
  variable_renaming m D fuel2 root bbs P = Some Q ->
  forall opsem init, (forall v, init v <> None -> never_assigned bbs P v) ->
  forall n p, snd (run opsem false P n p root (start init)) <> Stuck ->
    run opsem true Q n p root (start init) = run opsem false P n p root (start init).
Proof.
  intros root bbs edges fuel D P m fuel2 Q Hg NB AR Hf HD HE HP HF H2 Hm HQ opsem init HI n p NS.
  pose proof (dominator_sets _ _ _ _ _ Hg Hf HD) as HS. pose proof Hg as [A B C E0].
  unfold variable_renaming in HQ. rewrite walk_preorder in HQ. destruct (preorder D fuel2 bbs root) as [l|] eqn:El; [|discriminate].
  cbn [option_map] in HQ. injection HQ as <-.
  destruct (root_ordered _ _ _ _ _ _ A C AR NB HS El) as (ND & IL & OL).
  set (N := never_assigned bbs P).
  assert (HN : forall b v, In b bbs -> assigns v (P b) \/ has_phi v (P b) -> ~ N v).
  { intros b v Hb X Y. destruct (Y b Hb) as [Y1 Y2]. destruct X as [X|X]; [exact (Y1 X)|exact (Y2 X)]. }
  destruct (inv_fold root edges bbs A C AR D HS P HE HP N HN H2 m Hm l [] _ _ _ (inv_init root edges bbs D P HP N)) as (Vin & Vout & I).
  { exact ND. } { intros a Ha. apply IL. exact Ha. } { exact OL. }
  cbn [app] in I.
  apply (run_ok root edges bbs A B C E0 AR D HS P HE HP N HN HF l IL _ Vin Vout I opsem n p root (start init) (start init) A); [|exact NS].
  apply (start_ok root edges bbs A C AR D HS P HP N HN l IL _ Vin Vout I init p HI).
Qed.

(* the recursion over the dominator tree ends *)
Theorem renaming_total : forall root bbs edges fuel D P m fuel2,
  graph_ok root bbs edges -> (forall b, In b bbs -> reachable root edges b) ->
  length bbs * length bbs < fuel -> dominator_map fuel root bbs edges = Some D -> length bbs < fuel2 ->
  exists Q, variable_renaming m D fuel2 root bbs P = Some Q.
Proof.
  intros root bbs edges fuel D P m fuel2 Hg AR Hf HD L.
  pose proof (dominator_sets _ _ _ _ _ Hg Hf HD) as HS. destruct Hg as [A B C E0].
  unfold variable_renaming. rewrite walk_preorder.
  destruct (preorder_total root edges bbs A C AR D HS fuel2 root A) as (l & ->); [lia|]. cbn [option_map]. eauto.
Qed.

(* every name of the renamed program is defined once, in any mode *)
Theorem renaming_single_assignment : forall root bbs edges fuel D P m fuel2 Q,
  graph_ok root bbs edges -> NoDup bbs -> (forall b, In b bbs -> reachable root edges b) ->
  length bbs * length bbs < fuel -> dominator_map fuel root bbs edges = Some D ->
  variable_renaming m D fuel2 root bbs P = Some Q -> single_assignment bbs Q.
Proof.
  intros root bbs edges fuel D P m fuel2 Q Hg NB AR Hf HD HQ.
  pose proof (dominator_sets _ _ _ _ _ Hg Hf HD) as HS. destruct Hg as [A B C E0].
  unfold variable_renaming in HQ. rewrite walk_preorder in HQ. destruct (preorder D fuel2 bbs root) as [l|] eqn:El; [|discriminate].
  cbn [option_map] in HQ. injection HQ as <-.
  destruct (root_ordered _ _ _ _ _ _ A C AR NB HS El) as (ND & IL & OL).
  pose proof (fold_within D m l [] (mkr (fun _ => None) (fun _ _ => None) (fun _ _ => 0) (fun _ => 0) P) ND (NoDup_nil _) ltac:(intros n [])) as W.
  cbv zeta in W. cbn [app] in W. unfold single_assignment. eapply Permutation_NoDup; [|exact W]. apply Permutation_flat_map.
  apply NoDup_Permutation; assumption.
Qed.

(* ------------------------------------------------------------------ *)
(* C84: insertion of the phi nodes followed by the renaming             *)
(* ------------------------------------------------------------------ *)
Definition no_phi (P : prog) : Prop := forall b, b_phis (P b) = [].
Definition few_preds (edges : list (nat * nat)) : Prop :=
  forall b, exists l, length l <= 2 /\ forall p, In (p, b) edges -> In p l.

Lemma defines_assigns v B : (forall o, In o (b_ops B) -> plain_op o) -> (defines v B = true <-> assigns v B).
Proof.
  intros HP. unfold defines, assigns. rewrite existsb_exists. split.
  - intros (o & Ho & E). destruct o as [[w i] e|e]; [|discriminate]. cbn [fst] in E. apply Nat.eqb_eq in E. subst w.
    destruct (HP _ Ho) as [X _]. unfold plain in X. cbn [snd] in X. subst i. exists e. exact Ho.
  - intros (e & He). exists (IAssign (v, None) e). split; [exact He|]. apply Nat.eqb_refl.
Qed.
Lemma insertion_spec root edges bbs pop fr fuel
  (FR : forall x y, In (x, y) fr <-> frontier root edges x y) (C : forall s d, In (s, d) edges -> In d bbs)
  (P0 : pop [] = None) (P1 : forall W, W <> [] -> exists x W', pop W = Some (x, W') /\ Permutation W (x :: W')) :
  length bbs + length bbs <= fuel -> forall vars P, NoDup vars -> (forall b, In b bbs -> forall o, In o (b_ops (P b)) -> plain_op o) ->
  (forall x y, frontier root edges x y -> In x bbs) ->
  exists P', phi_insertion pop fr fuel bbs vars P = Some P' /\
    (forall b, b_ops (P' b) = b_ops (P b) /\ b_end (P' b) = b_end (P b)) /\
    (forall b, exists l, b_phis (P' b) = l ++ b_phis (P b) /\ NoDup (map fst l) /\ forall n ops, In (n, ops) l -> ops = [] /\ snd n = None /\ In (fst n) vars /\ exists x, In x bbs /\ assigns (fst n) (P x)) /\
    (forall x y v, In v vars -> (assigns v (P x) \/ In ((v, None), []) (b_phis (P' x)) /\ ~ In ((v, None), []) (b_phis (P x))) -> frontier root edges x y -> has_phi v (P' y)).
Proof.
  intros Hf. induction vars as [|v vars IH]; intros P ND HP HX; cbn [phi_insertion].
  - exists P. split; [reflexivity|]. split; [auto|]. split; [intros b; exists []; split; [reflexivity|split; [constructor|intros n ops []]]|]. intros x y v [].
  - set (W := filter (fun b => defines v (P b)) bbs).
    assert (LW : length W <= length bbs).
    { unfold W. clear. induction bbs as [|a t IH]; cbn [filter length]; [lia|]. destruct (defines v (P a)); cbn [length]; lia. }
    destruct (phi_loop_ok pop P0 P1 fr W bbs) with (fuel := fuel) (F := @nil nat) (W := W) as (F & L1 & L2 & L3).
    { intros x y H. apply FR in H. destruct H as (q & H & _). eapply C; eauto. }
    { constructor. } { intros y []. } { auto. } { intros x y [H|[]] Nx; contradiction. }
    { assert (length (nodup Nat.eq_dec bbs) <= length bbs); [|cbn [length]; lia].
      clear. induction bbs as [|a t IH]; cbn [nodup length]; auto. destruct (in_dec Nat.eq_dec a t); cbn [length]; lia. }
    rewrite L1. set (P2 := fun b => if memb b F then _ else P b).
    apply NoDup_cons_iff in ND. destruct ND as [Nv ND].
    assert (EO : forall b, b_ops (P2 b) = b_ops (P b) /\ b_end (P2 b) = b_end (P b)) by (intros b; unfold P2; destruct (memb b F); split; reflexivity).
    destruct (IH P2 ND) as (P' & E & A1 & A2 & A3).
    { intros b Hb o Ho. rewrite (proj1 (EO b)) in Ho. apply (HP b Hb o Ho). } { exact HX. }
    assert (PH : forall b, exists l, b_phis (P' b) = l ++ (if memb b F then [((v, None), [])] else []) ++ b_phis (P b) /\
       NoDup (map fst l) /\ forall n ops, In (n, ops) l -> ops = [] /\ snd n = None /\ In (fst n) vars /\ exists x, In x bbs /\ assigns (fst n) (P x)).
    { intros b. destruct (A2 b) as (l & B1 & B2). exists l. split; [rewrite B1; unfold P2; destruct (memb b F); reflexivity|]. destruct B2 as [B2 B3]. split; [exact B2|].
      intros n ops Hn. destruct (B3 n ops Hn) as (X1 & X2 & X3 & x & X4 & e & X5). split; [exact X1|]. split; [exact X2|]. split; [exact X3|].
      exists x. split; [exact X4|]. exists e. rewrite <- (proj1 (EO x)). exact X5. }
    assert (FD : forall b, In b F -> exists x, In x bbs /\ assigns v (P x)).
    { intros b Hb. apply L3 in Hb. assert (G : exists x, In x W) by (induction Hb; eauto). destruct G as (x & Hx). unfold W in Hx. apply filter_In in Hx.
      destruct Hx as [Hx1 Hx2]. exists x. split; [exact Hx1|]. apply defines_assigns; [apply HP, Hx1|exact Hx2]. }
    exists P'. split; [exact E|]. split; [|split].
    + intros b. destruct (A1 b) as [X1 X2]. destruct (EO b) as [Y1 Y2]. split; congruence.
    + intros b. destruct (PH b) as (l & B1 & B2 & B3). destruct (memb b F) eqn:MB.
      * exists (l ++ [((v, None), [])]). split; [rewrite B1, app_assoc; reflexivity|]. split.
        -- rewrite map_app. cbn [map fst]. assert (NI : ~ In (v, None) (map fst l)).
           { intros Q. apply in_map_iff in Q. destruct Q as ([n ops] & Qe & Q). cbn [fst] in Qe. subst n. destruct (B3 _ _ Q) as (_ & _ & Z & _). contradiction. }
           eapply Permutation_NoDup; [apply Permutation_cons_append|]. constructor; assumption.
        -- intros n ops Hn. apply in_app_or in Hn. destruct Hn as [Hn|[Hn|[]]]; [destruct (B3 n ops Hn) as (X & Y & Z & Z2); split; [exact X|split; [exact Y|split; [right; exact Z|exact Z2]]]|].
           injection Hn as <- <-. split; [reflexivity|]. split; [reflexivity|]. split; [left; reflexivity|]. cbn [fst]. apply (FD b). apply memb_in, MB.
      * exists l. split; [rewrite B1; reflexivity|]. split; [exact B2|]. intros n ops Hn. destruct (B3 n ops Hn) as (X & Y & Z & Z2). split; [exact X|split; [exact Y|split; [right; exact Z|exact Z2]]].
    + intros x y w Hw Hd Hfr. destruct (Nat.eq_dec w v) as [->|Qw].
      * assert (Fy : In y F).
        { apply L3. assert (Hx : In x bbs) by (apply (HX x y Hfr)). destruct Hd as [Hd|[Hd Hd2]].
          - apply (it_def _ _ x y); [|apply FR, Hfr]. unfold W. apply filter_In. split; [exact Hx|]. apply defines_assigns; [apply HP, Hx|exact Hd].
          - apply (it_step _ _ x y); [|apply FR, Hfr]. apply L3. destruct (memb x F) eqn:M; [apply memb_in; exact M|exfalso].
            destruct (PH x) as (l & B1 & _ & B3). rewrite B1, M in Hd. cbn [app] in Hd. apply in_app_or in Hd. destruct Hd as [Hd|Hd]; [|contradiction].
            destruct (B3 _ _ Hd) as (_ & _ & Z & _). contradiction. }
        unfold has_phi. destruct (PH y) as (l & B1 & _). rewrite B1. rewrite (proj2 (memb_in y F) Fy). rewrite map_app. apply in_or_app. right. left. reflexivity.
      * destruct Hw as [Hw|Hw]; [congruence|]. apply (A3 x y w Hw); [|exact Hfr]. destruct Hd as [(e & Hd)|[Hd Hd2]].
        -- left. exists e. rewrite (proj1 (EO x)). exact Hd.
        -- right. split; [exact Hd|]. intros Z. apply Hd2. unfold P2 in Z. destruct (memb x F); [|exact Z]. destruct Z as [Z|Z]; [congruence|exact Z].
Qed.

Lemma run_same_code opsem P P' : (forall b, b_ops (P' b) = b_ops (P b) /\ b_end (P' b) = b_end (P b)) ->
  forall n p b E, run opsem false P' n p b E = run opsem false P n p b E.
Proof.
  intros H n. induction n as [|n IH]; intros p b E; [reflexivity|]. cbn [run]. destruct (H b) as [-> ->].
  destruct (exec opsem (b_ops (P b)) E) as [tr [E1|]]; [|reflexivity]. destruct (b_end (P b)) as [d|c t f|x]; [rewrite IH; reflexivity| |reflexivity].
  destruct (eval opsem E1 c); [rewrite IH; reflexivity|reflexivity].
Qed.

(* placement and renaming of a program without phi nodes, variables in any order,
   every work set emptied in any order *)
Theorem ssa_correct_partial : forall root bbs edges fuel D fr pop fuel1 fuel2 vars P m,
  graph_ok root bbs edges -> NoDup bbs -> (forall b, In b bbs -> reachable root edges b) -> few_preds edges ->
  length bbs * length bbs < fuel -> dominator_map fuel root bbs edges = Some D -> frontiers fuel D edges = Some fr ->
  pop [] = None -> (forall W, W <> [] -> exists x W', pop W = Some (x, W') /\ Permutation W (x :: W')) ->
  length bbs + length bbs <= fuel1 -> length bbs < fuel2 ->
  edges_of P bbs edges -> no_phi P -> (forall b, In b bbs -> plain_blk (P b)) ->
  NoDup vars -> (forall v b, In b bbs -> assigns v (P b) -> In v vars) ->
  exists P' Q, phi_insertion pop fr fuel1 bbs vars P = Some P' /\ variable_renaming m D fuel2 root bbs P' = Some Q /\
    single_assignment bbs Q /\
    ((m = ForPred \/ m = AsIs /\ phis_mentioned edges P') ->
     forall opsem init, (forall v, init v <> None -> never_assigned bbs P v) ->
     forall n p, snd (run opsem false P n p root (start init)) <> Stuck ->
       run opsem true Q n p root (start init) = run opsem false P n p root (start init)).
Proof.
  intros root bbs edges fuel D fr pop fuel1 fuel2 vars P m Hg NB AR FP Hf HD Hfr P0 P1 L1 L2 HE HNP HP NV HV.
  destruct (dominance_frontier_partial root bbs edges fuel D Hg Hf HD AR) as (fr' & F1 & F2). assert (fr' = fr) by congruence. subst fr'.
  pose proof Hg as [A B C E0].
  assert (HX : forall x y, frontier root edges x y -> In x bbs).
  { intros x y (q & Hq & Hd & _). apply (dom_in root edges bbs A C x q); [apply AR, (B q y Hq)|exact Hd]. }
  destruct (insertion_spec root edges bbs pop fr fuel1 F2 C P0 P1 L1 vars P NV) as (P' & EP & S1 & S2 & S3).
  { intros b Hb. apply (HP b Hb). } { exact HX. }
  assert (S2' : forall b, NoDup (map fst (b_phis (P' b))) /\ forall n ops, In (n, ops) (b_phis (P' b)) -> ops = [] /\ snd n = None /\ In (fst n) vars /\ exists x, In x bbs /\ assigns (fst n) (P x)).
  { intros b. destruct (S2 b) as (l & X1 & X2). rewrite X1, (HNP b), app_nil_r. exact X2. }
  destruct (renaming_total root bbs edges fuel D P' m fuel2 Hg AR Hf HD L2) as (Q & EQ).
  exists P', Q. split; [exact EP|]. split; [exact EQ|].
  split; [eapply renaming_single_assignment; eauto|].
  intros Hm opsem init HI n p NS. rewrite <- (run_same_code opsem P P' S1 n p root (start init)) in NS |- *.
  apply (renaming_correct_partial root bbs edges fuel D P' m fuel2 Q); try assumption.
  - intros b d. rewrite (proj2 (S1 b)). apply HE.
  - intros b Hb. destruct (HP b Hb) as (_ & X2 & X3 & _). destruct (S1 b) as [Y1 Y2]. destruct (S2' b) as [Z1 Z2].
    split; [|split; [rewrite Y1; exact X2|split; [rewrite Y2; exact X3|exact Z1]]].
    intros n0 ops Hn. destruct (Z2 n0 ops Hn) as (W1 & W2 & _). split; [exact W2|exact W1].
  - intros x y v Hd Hxy. pose proof (HX x y Hxy) as Hx. destruct Hd as [(e & Hd)|Hd].
    + rewrite (proj1 (S1 x)) in Hd. apply (S3 x y v); [apply (HV v x Hx); exists e; exact Hd|left; exists e; exact Hd|exact Hxy].
    + unfold has_phi in Hd. apply in_map_iff in Hd. destruct Hd as ([n0 ops] & E1 & Hd). cbn [fst] in E1. subst n0.
      destruct (proj2 (S2' x) _ _ Hd) as (-> & _ & Hv & _). cbn [fst] in Hv. apply (S3 x y v Hv); [|exact Hxy]. right. split; [exact Hd|].
      rewrite (HNP x). intros [].
  - intros b _. destruct (FP b) as (l & X1 & X2). exists l. auto.
  - intros v Hv b Hb. destruct (HI v Hv b Hb) as [X1 X2]. split.
    + intros (e & He). apply X1. exists e. rewrite <- (proj1 (S1 b)). exact He.
    + intros Hph. unfold has_phi in Hph. apply in_map_iff in Hph. destruct Hph as ([n0 ops] & E1 & Hph). cbn [fst] in E1. subst n0.
      destruct (proj2 (S2' b) _ _ Hph) as (_ & _ & _ & x & Hx & Hax). cbn [fst] in Hax.
      destruct (HI v Hv x Hx) as [Y1 _]. exact (Y1 Hax).
Qed.

(* ---- programs ---- *)
Definition pop_first (W : list nat) : option (nat * list nat) := match W with [] => None | x :: t => Some (x, t) end.
(* the whole transformation *)
Definition to_ssa (m : mode) (root : nat) (bbs vars : list nat) (edges : list (nat * nat)) (P : prog) : option prog :=
  match dominator_map (S (length bbs * length bbs)) root bbs edges with
  | None => None
  | Some D =>
      match frontiers (S (length bbs * length bbs)) D edges with
      | None => None
      | Some fr =>
          match phi_insertion pop_first fr (length bbs + length bbs) bbs vars P with
          | None => None
          | Some P' => variable_renaming m D (S (length bbs)) root bbs P'
          end
      end
  end.
(* what the theorem asks of a program, for a given mode but for the operands *)
Definition source_ok (root : nat) (bbs vars : list nat) (edges : list (nat * nat)) (P : prog) : Prop :=
  graph_ok root bbs edges /\ NoDup bbs /\ (forall b, In b bbs -> reachable root edges b) /\ few_preds edges /\
  edges_of P bbs edges /\ no_phi P /\ (forall b, In b bbs -> plain_blk (P b)) /\
  NoDup vars /\ (forall v b, In b bbs -> assigns v (P b) -> In v vars).
Lemma pop_first_ok : forall W, W <> [] -> exists x W', pop_first W = Some (x, W') /\ Permutation W (x :: W').
Proof. intros [|x W] H; [congruence|]. exists x, W. split; [reflexivity|apply Permutation_refl]. Qed.
(* with the operand taken for the predecessor, the transformation is right *)
Corollary to_ssa_correct : forall root bbs vars edges P, source_ok root bbs vars edges P ->
  exists Q, to_ssa ForPred root bbs vars edges P = Some Q /\ single_assignment bbs Q /\
    forall opsem init, (forall v, init v <> None -> never_assigned bbs P v) ->
    forall n p, snd (run opsem false P n p root (start init)) <> Stuck ->
      run opsem true Q n p root (start init) = run opsem false P n p root (start init).
Proof.
  intros root bbs vars edges P (Hg & NB & AR & FP & HE & HNP & HP & NV & HV). unfold to_ssa.
  pose proof Hg as [A B C E].
  destruct (dominator_map_ok root edges bbs A B C E (S (length bbs * length bbs)) (Nat.lt_succ_diag_r _)) as (D & ED & _).
  destruct (dominance_frontier_partial root bbs edges _ D Hg (Nat.lt_succ_diag_r _) ED AR) as (fr & EF & _).
  destruct (ssa_correct_partial root bbs edges (S (length bbs * length bbs)) D fr pop_first (length bbs + length bbs) (S (length bbs)) vars P ForPred)
    as (P' & Q & E1 & E2 & S & R); try assumption; try lia; try reflexivity; [exact pop_first_ok|].
  exists Q. rewrite ED, EF, E1. split; [exact E2|]. split; [exact S|]. apply R. left; reflexivity.
Qed.

Lemma some_match (A : Type) (o : option A) (C : A -> Prop) : match o with Some q => C q | None => False end -> exists q, o = Some q /\ C q.
Proof. destruct o as [q|]; [intros H; exists q; auto|intros []]. Qed.

Definition blk0 (ops : list iop) (e : ending) : blk := mkblk [] ops e.
Notation x0 := (0%nat, @None nat).
Notation x1 := (1%nat, @None nat).

(* x = c0; if (z) x = c1; return x, the else branch does not mention x *)
Definition half (c0 c1 z : Z) : prog := fun b =>
  match b with
  | 0 => blk0 [IAssign x0 (XCst c0)] (JCBr (XCst z) 1 2)
  | 1 => blk0 [IAssign x0 (XCst c1)] (JBr 3)
  | 2 => blk0 [] (JBr 3)
  | 3 => blk0 [] (JRet (XVar x0))
  | _ => blk0 [] (JRet (XCst 0%Z))
  end.
Definition diamond : list (nat * nat) := [(0, 1); (0, 2); (1, 3); (2, 3)].
Lemma diamond_graph : graph_ok 0 [0; 1; 2; 3] diamond /\ (forall b, In b [0; 1; 2; 3] -> reachable 0 diamond b) /\ few_preds diamond.
Proof.
  split; [|split].
  - constructor; unfold diamond; cbn [In]; intros; intuition (try congruence);
      repeat match goal with H : (_, _) = (_, _) |- _ => injection H; clear H; intros; subst end; intuition congruence.
  - intros b Hb. assert (R1 : path 0 diamond [1; 0] 1) by (eapply path_step; [apply path_root|cbn; auto]).
    cbn [In] in Hb. destruct Hb as [<-|[<-|[<-|[<-|[]]]]].
    + exists [0]. apply path_root.
    + eexists; exact R1.
    + exists [2; 0]. eapply path_step; [apply path_root|cbn; auto].
    + exists [3; 1; 0]. eapply path_step; [exact R1|cbn; auto].
  - intros b. exists (if Nat.eqb b 3 then [1; 2] else [0]). split; [destruct (Nat.eqb b 3); cbn [length]; lia|].
    intros p Hp. unfold diamond in Hp. cbn [In] in Hp. destruct Hp as [H|[H|[H|[H|[]]]]]; injection H as <- <-; cbn; auto.
Qed.
Lemma half_source c0 c1 z : source_ok 0 [0; 1; 2; 3] [0] diamond (half c0 c1 z).
Proof.
  destruct diamond_graph as (G1 & G2 & G3). split; [exact G1|]. split; [repeat constructor; cbn [In]; intuition congruence|].
  split; [exact G2|]. split; [exact G3|]. split; [|split; [|split; [|split]]].
  - intros b d. unfold diamond. cbn [In]. split.
    + intros [H|[H|[H|[H|[]]]]]; injection H as <- <-; cbn; auto.
    + intros [[<-|[<-|[<-|[<-|[]]]]] H]; cbn in H; intuition (subst; auto).
  - intros [|[|[|[|b]]]]; reflexivity.
  - intros b Hb. assert (E : In b [0; 1; 2; 3]) by exact Hb. clear Hb. cbn [In] in E.
    destruct E as [<-|[<-|[<-|[<-|[]]]]]; (split; [intros n ops []|split; [|split; [|constructor]]]); cbn [half blk0 b_ops b_end In plain_end].
    + intros o [<-|[]]. split; [reflexivity|intros n []].
    + split; [intros n []|congruence].
    + intros o [<-|[]]. split; [reflexivity|intros n []].
    + exact Logic.I.
    + intros o [].
    + exact Logic.I.
    + intros o [].
    + intros n [<-|[]]. reflexivity.
  - constructor; [intros []|constructor].
  - intros v b Hb (e & He). cbn [In] in Hb. destruct Hb as [<-|[<-|[<-|[<-|[]]]]]; cbn [half blk0 b_ops In] in He.
    + destruct He as [He|[]]. injection He as <- _. left; reflexivity.
    + destruct He as [He|[]]. injection He as <- _. left; reflexivity.
    + destruct He.
    + destruct He.
Qed.
(* as the code is, the phi node takes for the else branch the definition of the
   then branch, the reaching definition not being updated (line 766 commented):
   the value returned is not c0 *)
Theorem stale_operand_refuted : forall opsem c0 c1,
  source_ok 0 [0; 1; 2; 3] [0] diamond (half c0 c1 0) /\
  exists Q, to_ssa AsIs 0 [0; 1; 2; 3] [0] diamond (half c0 c1 0) = Some Q /\
    run opsem false (half c0 c1 0) 3 0 0 (start (fun _ => None)) = ([], Ret c0) /\
    run opsem true Q 3 0 0 (start (fun _ => None)) = ([], Stuck).
Proof. intros opsem c0 c1. split; [apply half_source|]. apply some_match. vm_compute. split; reflexivity. Qed.
(* with line 766 as it is written, the operand of the then branch is lost *)
Theorem updated_for_the_phi_refuted : forall opsem c0 c1,
  exists Q, to_ssa ForPhi 0 [0; 1; 2; 3] [0] diamond (half c0 c1 1) = Some Q /\
    run opsem false (half c0 c1 1) 3 0 0 (start (fun _ => None)) = ([], Ret c1) /\
    run opsem true Q 3 0 0 (start (fun _ => None)) = ([], Ret c0).
Proof. intros opsem c0 c1. apply some_match. vm_compute. split; reflexivity. Qed.

(* an input of the program, assigned in one branch only: if (z) x = c1; return x *)
Definition input_half (c1 z : Z) : prog := fun b =>
  match b with
  | 0 => blk0 [] (JCBr (XCst z) 1 2)
  | 1 => blk0 [IAssign x0 (XCst c1)] (JBr 3)
  | 2 => blk0 [] (JBr 3)
  | 3 => blk0 [] (JRet (XVar x0))
  | _ => blk0 [] (JRet (XCst 0%Z))
  end.
Theorem assigned_input_refuted : forall m opsem c1 a,
  exists Q, to_ssa m 0 [0; 1; 2; 3] [0] diamond (input_half c1 0) = Some Q /\
    run opsem false (input_half c1 0) 3 0 0 (start (fun _ => Some a)) = ([], Ret a) /\
    run opsem true Q 3 0 0 (start (fun _ => Some a)) = ([], Stuck).
Proof. intros [| |] opsem c1 a; apply some_match; vm_compute; split; reflexivity. Qed.
(* even without any phi node: if (z) { x = c1; return x } else return x *)
Definition input_read (c1 z : Z) : prog := fun b =>
  match b with
  | 0 => blk0 [] (JCBr (XCst z) 1 2)
  | 1 => blk0 [IAssign x0 (XCst c1)] (JRet (XVar x0))
  | 2 => blk0 [] (JRet (XVar x0))
  | _ => blk0 [] (JRet (XCst 0%Z))
  end.
Theorem input_read_refuted : forall m opsem c1 a,
  exists Q, to_ssa m 0 [0; 1; 2] [0] [(0, 1); (0, 2)] (input_read c1 0) = Some Q /\
    run opsem false (input_read c1 0) 2 0 0 (start (fun _ => Some a)) = ([], Ret a) /\
    run opsem true Q 2 0 0 (start (fun _ => Some a)) = ([], Stuck) /\
    b_end (Q 2) = JRet (XVar (0, Some 0)).
Proof. intros [| |] opsem c1 a; apply some_match; vm_compute; repeat split. Qed.

(* three predecessors: the third operand has no room *)
Definition three (c0 c1 c2 c3 : Z) : prog := fun b =>
  match b with
  | 0 => blk0 [IAssign x0 (XCst c0)] (JCBr (XCst 0) 1 2)
  | 1 => blk0 [IAssign x0 (XCst c1)] (JBr 4)
  | 2 => blk0 [IAssign x0 (XCst c2)] (JCBr (XCst 1) 3 4)
  | 3 => blk0 [IAssign x0 (XCst c3)] (JBr 4)
  | 4 => blk0 [] (JRet (XVar x0))
  | _ => blk0 [] (JRet (XCst 0%Z))
  end.
Theorem three_predecessors_refuted : forall m opsem c0 c1 c2 c3, m <> ForPhi ->
  exists Q, to_ssa m 0 [0; 1; 2; 3; 4] [0] [(0, 1); (0, 2); (1, 4); (2, 3); (2, 4); (3, 4)] (three c0 c1 c2 c3) = Some Q /\
    run opsem false (three c0 c1 c2 c3) 4 0 0 (start (fun _ => None)) = ([], Ret c3) /\
    run opsem true Q 4 0 0 (start (fun _ => None)) = ([], Stuck).
Proof. intros [| |] opsem c0 c1 c2 c3 H; try congruence; apply some_match; vm_compute; split; reflexivity. Qed.

(* ---- examples ---- *)
(* a loop exchanging two variables: x = 7; y = 3; while (x > y, here op 1) { t = x; x = y; y = t }; effect x *)
Definition x2 := (2%nat, @None nat).
Definition swap : prog := fun b =>
  match b with
  | 0 => blk0 [IAssign x0 (XCst 7); IAssign x1 (XCst 3)] (JBr 1)
  | 1 => blk0 [IExpr (XVar x0)] (JCBr (XBin 1 (XVar x0) (XVar x1)) 2 3)
  | 2 => blk0 [IAssign x2 (XVar x0); IAssign x0 (XVar x1); IAssign x1 (XVar x2)] (JBr 1)
  | 3 => blk0 [] (JRet (XBin 0 (XVar x0) (XVar x1)))
  | _ => blk0 [] (JRet (XCst 0%Z))
  end.
Definition ops2 (op : nat) (a b : Z) : Z := if Nat.eqb op 0 then (10 * a + b)%Z else if Z.ltb b a then 1%Z else 0%Z.
Definition loop_edges : list (nat * nat) := [(0, 1); (1, 2); (1, 3); (2, 1)].
Example swap_source : run ops2 false swap 10 9 0 (start (fun _ => None)) = ([7; 3]%Z, Ret 37%Z).
Proof. reflexivity. Qed.
Example swap_ssa : match to_ssa ForPred 0 [0; 1; 2; 3] [0; 1; 2] loop_edges swap with
  | Some Q => run ops2 true Q 10 9 0 (start (fun _ => None)) = ([7; 3]%Z, Ret 37%Z) /\
      b_phis (Q 1) = [((2, Some 0), [(2, (2, Some 1))]);
                      ((1, Some 1), [(0, (1, Some 0)); (2, (1, Some 2))]);
                      ((0, Some 1), [(0, (0, Some 0)); (2, (0, Some 2))])] /\
      b_ops (Q 2) = [IAssign (2, Some 1) (XVar (0, Some 1)); IAssign (0, Some 2) (XVar (1, Some 1)); IAssign (1, Some 2) (XVar (2, Some 1))]
  | None => False
  end.
Proof. vm_compute. split; [reflexivity|]. split; reflexivity. Qed.
Example swap_meets : source_ok 0 [0; 1; 2; 3] [0; 1; 2] loop_edges swap.
Proof.
  split; [|split; [repeat constructor; cbn [In]; intuition congruence|split; [|split; [|split; [|split; [|split; [|split]]]]]]].
  - constructor; unfold loop_edges; cbn [In]; intros; intuition (try congruence);
      repeat match goal with H : (_, _) = (_, _) |- _ => injection H; clear H; intros; subst end; intuition congruence.
  - assert (R1 : path 0 loop_edges [1; 0] 1) by (eapply path_step; [apply path_root|cbn; auto]).
    intros b Hb. cbn [In] in Hb. destruct Hb as [<-|[<-|[<-|[<-|[]]]]].
    + exists [0]. apply path_root.
    + eexists; exact R1.
    + exists [2; 1; 0]. eapply path_step; [exact R1|cbn; auto].
    + exists [3; 1; 0]. eapply path_step; [exact R1|cbn; auto].
  - intros b. exists (if Nat.eqb b 1 then [0; 2] else [1]). split; [destruct (Nat.eqb b 1); cbn [length]; lia|].
    intros p Hp. unfold loop_edges in Hp. cbn [In] in Hp. destruct Hp as [H|[H|[H|[H|[]]]]]; injection H as <- <-; cbn; auto.
  - intros b d. unfold loop_edges. cbn [In]. split.
    + intros [H|[H|[H|[H|[]]]]]; injection H as <- <-; cbn; auto.
    + intros [[<-|[<-|[<-|[<-|[]]]]] H]; cbn in H; intuition (subst; auto).
  - intros [|[|[|[|b]]]]; reflexivity.
  - intros b Hb. assert (E : In b [0; 1; 2; 3]) by exact Hb. clear Hb. cbn [In] in E.
    destruct E as [<-|[<-|[<-|[<-|[]]]]]; (split; [intros n ops []|split; [|split; [|constructor]]]); cbn [swap blk0 b_ops b_end In plain_end].
    + intros o [<-|[<-|[]]]; (split; [reflexivity|intros n []]).
    + exact Logic.I.
    + intros o [<-|[]]. intros n [<-|[]]. reflexivity.
    + split; [intros n [<-|[<-|[]]]; reflexivity|congruence].
    + intros o [<-|[<-|[<-|[]]]]; (split; [reflexivity|intros n [<-|[]]; reflexivity]).
    + exact Logic.I.
    + intros o [].
    + intros n [<-|[<-|[]]]; reflexivity.
  - repeat constructor; cbn [In]; intuition congruence.
  - intros v b Hb (e & He). cbn [In] in Hb. destruct Hb as [<-|[<-|[<-|[<-|[]]]]]; cbn [swap blk0 b_ops In] in He; cbn [In];
      repeat match goal with H : _ \/ _ |- _ => destruct H as [H|H] | H : IAssign _ _ = IAssign _ _ |- _ => injection H as <- _ | H : False |- _ => destruct H | H : IExpr _ = _ |- _ => discriminate end; auto.
Qed.
(* the code as it is, both branches assigning: the hypothesis on mentions holds *)
Definition both : prog := fun b =>
  match b with
  | 0 => blk0 [IExpr (XCst 1)] (JCBr (XVar x1) 1 2)
  | 1 => blk0 [IAssign x0 (XVar x1)] (JBr 3)
  | 2 => blk0 [IAssign x0 (XCst 5)] (JBr 3)
  | 3 => blk0 [] (JRet (XVar x0))
  | _ => blk0 [] (JRet (XCst 0%Z))
  end.
Example both_ssa : match to_ssa AsIs 0 [0; 1; 2; 3] [0; 1] diamond both with
  | Some Q => b_phis (Q 3) = [((0, Some 2), [(1, (0, Some 0)); (2, (0, Some 1))])] /\ b_end (Q 3) = JRet (XVar (0, Some 2)) /\
     (forall a, run ops2 true Q 5 9 0 (start (fun v => if Nat.eqb v 1 then Some a else None)) = run ops2 false both 5 9 0 (start (fun v => if Nat.eqb v 1 then Some a else None)))
  | None => False
  end.
Proof. vm_compute. split; [reflexivity|]. split; [reflexivity|]. intros [|a|a]; reflexivity. Qed.
Example both_mentioned : match phi_insertion pop_first [(1, 3); (2, 3)] 8 [0; 1; 2; 3] [0; 1] both with
  | Some P' => b_phis (P' 3) = [(x0, [])] /\ mentions 0 (P' 1) /\ mentions 0 (P' 2)
  | None => False
  end.
Proof. split; [reflexivity|]. split; right; left; eexists; (split; [left; reflexivity|left; reflexivity]). Qed.

Print Assumptions renaming_correct_partial.
Print Assumptions renaming_total.
Print Assumptions renaming_single_assignment.
Print Assumptions ssa_correct_partial.
Print Assumptions to_ssa_correct.
Print Assumptions stale_operand_refuted.
Print Assumptions updated_for_the_phi_refuted.
Print Assumptions assigned_input_refuted.
Print Assumptions input_read_refuted.
Print Assumptions three_predecessors_refuted.
