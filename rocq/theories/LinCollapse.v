From Coq Require Import List Arith Bool Lia.
From Verif Require Import LinModel LinSpec LinProofs LinProofs2.
Import ListNotations.

Lemma in_enum : forall {A} (l : list A) s k x, In (k, x) (combine (seq s (length l)) l) <-> s <= k /\ nth_error l (k - s) = Some x.
Proof.
  intros A. induction l as [|a l IH]; intros s k x; cbn [length seq combine].
  - split; [intros []|]. intros [_ H]. destruct (k - s); discriminate.
  - cbn [In]. rewrite IH. split.
    + intros [H|[H1 H2]].
      * injection H as -> ->. split; auto. now rewrite Nat.sub_diag.
      * split; [lia|]. replace (k - s) with (S (k - S s)) by lia. auto.
    + intros [H1 H2]. destruct (Nat.eq_dec k s) as [->|Hne].
      * left. rewrite Nat.sub_diag in H2. cbn in H2. congruence.
      * right. split; [lia|]. replace (k - s) with (S (k - S s)) in H2 by lia. auto.
Qed.

Section C.
Context {V : Type}.
Variable truth : V -> bool.
Notation mexec := (mexec truth).
Notation insn := (insn V).
Notation target := (target V).
Notation uses := (uses V).
Variable q : list (nat * list insn).

Lemma positions_in : forall b k i, In ((b, k), i) (positions V q) <-> insn_at q b k = Some i.
Proof.
  intros b k i. unfold positions. rewrite in_concat. unfold insn_at. split.
  - intros [l [H1 H2]]. apply in_map_iff in H1. destruct H1 as [[b' [lb c]] [<- H1]]. cbn [fst snd] in H2.
    apply in_map_iff in H2. destruct H2 as [[k' i'] [H3 H2]]. cbn [fst snd] in H3. injection H3 as <- <- <-.
    apply in_enum in H1. apply in_enum in H2. rewrite Nat.sub_0_r in H1, H2. destruct H1 as [_ ->]. apply H2.
  - destruct (nth_error q b) as [[lb c]|] eqn:E; [|discriminate]. intros H.
    exists (map (fun ki => ((b, fst ki), snd ki)) (combine (seq 0 (length c)) c)). split.
    + apply in_map_iff. exists (b, (lb, c)). split; auto. apply in_enum. split; [lia|]. now rewrite Nat.sub_0_r.
    + apply in_map_iff. exists (k, i). split; auto. apply in_enum. split; [lia|]. now rewrite Nat.sub_0_r.
Qed.
Lemma writes_target : forall i r, writes i r <-> target i = Some r.
Proof. intros i r; destruct i; cbn; split; intros H; try congruence; try contradiction. Qed.
Lemma reads_uses : forall i r, reads i r <-> In r (uses i).
Proof.
  intros [d f l|d s|d v|o t|t|] r; cbn [reads LinModel.uses].
  - rewrite in_flat_map. split.
    + intros H. exists (OReg r). split; auto. now left.
    + intros [[x|v] [H1 H2]]; cbn in H2; [destruct H2 as [->|[]]; auto|destruct H2].
  - split; [intros ->; now left|intros [H|[]]; auto].
  - split; auto.
  - destruct o; cbn [opnd_regs]; split; intros H; try discriminate.
    + injection H as ->. now left.
    + destruct H as [->|[]]; auto.
    + destruct H.
  - split; auto.
  - split; auto.
Qed.
Lemma defs_in : forall s b k, In (b, k) (defs_of V q s) <-> exists i, insn_at q b k = Some i /\ writes i s.
Proof.
  intros s b k. unfold defs_of. rewrite in_map_iff. split.
  - intros [[[b' k'] i] [H1 H2]]. cbn in H1. injection H1 as -> ->. apply filter_In in H2. destruct H2 as [H2 H3].
    exists i. split; [now apply positions_in|]. apply writes_target. cbn [snd] in H3. destruct (target i); [|discriminate].
    apply Nat.eqb_eq in H3. congruence.
  - intros [i [H1 H2]]. exists ((b, k), i). split; auto. apply filter_In. split; [now apply positions_in|].
    cbn [snd]. apply writes_target in H2. rewrite H2. apply Nat.eqb_refl.
Qed.
Lemma uses_in : forall s b k, In (b, k) (uses_of V q s) <-> exists i, insn_at q b k = Some i /\ reads i s.
Proof.
  intros s b k. unfold uses_of. rewrite in_map_iff. split.
  - intros [[[b' k'] i] [H1 H2]]. cbn in H1. injection H1 as -> ->. apply filter_In in H2. destruct H2 as [H2 H3].
    exists i. split; [now apply positions_in|]. apply reads_uses. apply existsb_exists in H3. destruct H3 as [x [X1 X2]].
    apply Nat.eqb_eq in X2. now subst.
  - intros [i [H1 H2]]. exists ((b, k), i). split; auto. apply filter_In. split; [now apply positions_in|].
    apply existsb_exists. exists s. split; [now apply reads_uses|apply Nat.eqb_refl].
Qed.
Lemma copies_in : forall b k d s, In ((b, k), (d, s)) (copies V q) <-> insn_at q b k = Some (ICopy d s).
Proof.
  intros b k d s. unfold copies. rewrite in_flat_map. split.
  - intros [[p i] [H1 H2]]. cbn [fst snd] in H2. destruct i; cbn in H2; try contradiction. destruct H2 as [H2|[]].
    injection H2 as -> -> ->. now apply positions_in.
  - intros H. exists ((b, k), ICopy d s). split; [now apply positions_in|]. now left.
Qed.

Definition ren := fst (collapse_plan V q (copies V q) []).
Definition del := snd (collapse_plan V q (copies V q) []).
Definition cl (b k' k d s : nat) : Prop := mergeable q b k' k d s /\ In ((b, k'), d) ren /\ In (b, k) del.

Lemma plan_gen : forall cs popped, incl cs (copies V q) ->
  (forall p d, In (p, d) (fst (collapse_plan V q cs popped)) -> exists b k' k s, p = (b, k') /\ mergeable q b k' k d s /\ In (b, k) (snd (collapse_plan V q cs popped))) /\
  (forall b k, In (b, k) (snd (collapse_plan V q cs popped)) -> exists k' d s, mergeable q b k' k d s /\ In ((b, k'), d) (fst (collapse_plan V q cs popped))).
Proof.
  induction cs as [|[[b k] [d s]] cs IH]; intros popped Hc; cbn [collapse_plan].
  { split; [intros p d []|intros b k []]. }
  assert (Hcs : incl cs (copies V q)) by (intros x Hx; apply Hc; now right).
  destruct (existsb (Nat.eqb s) popped); [now apply IH|].
  destruct (defs_of V q s) as [|[b' k'] [|]] eqn:Ed; try now apply IH.
  destruct (uses_of V q s) as [|u [|]] eqn:Eu; try now apply IH.
  specialize (IH (s :: popped) Hcs). destruct (collapse_plan V q cs (s :: popped)) as [rn dl]. cbn [fst snd] in IH.
  destruct IH as [IH1 IH2].
  destruct (Nat.eqb_spec b b') as [<-|]; cbn [andb]; [|now split].
  destruct (Nat.ltb_spec k' k) as [Hlt|]; [|now split]. cbn [fst snd].
  assert (Hat : insn_at q b k = Some (ICopy d s)) by (apply copies_in; apply Hc; now left).
  assert (Hm : mergeable q b k' k d s).
  { split; auto. split; auto. split; [apply defs_in; rewrite Ed; now left|]. split.
    - intros b2 j i H1 H2. assert (H : In (b2, j) (defs_of V q s)) by (apply defs_in; eauto). rewrite Ed in H.
      destruct H as [H|[]]. injection H as -> ->. auto.
    - intros b2 j i H1 H2. assert (H : In (b2, j) (uses_of V q s)) by (apply uses_in; eauto).
      assert (H' : In (b, k) (uses_of V q s)) by (apply uses_in; exists (ICopy d s); split; auto; reflexivity).
      rewrite Eu in H, H'. destruct H as [H|[]], H' as [H'|[]]. rewrite H in H'. injection H' as -> ->. auto. }
  split.
  - intros p d0 [H|H].
    + injection H as <- <-. exists b, k', k, s. split; auto. split; auto. now left.
    + destruct (IH1 p d0 H) as [b1 [k1' [k1 [s1 [-> [H1 H2]]]]]]. exists b1, k1', k1, s1. split; auto. split; auto. now right.
  - intros b0 k0 [H|H].
    + injection H as <- <-. exists k', d, s. split; auto. now left.
    + destruct (IH2 b0 k0 H) as [k1' [d1 [s1 [H1 H2]]]]. exists k1', d1, s1. split; auto. now right.
Qed.
Lemma copy_fun : forall b k' k d s k1' d1 s1, mergeable q b k' k d s -> mergeable q b k1' k d1 s1 -> d1 = d /\ s1 = s /\ k1' = k'.
Proof.
  intros b k' k d s k1' d1 s1 [A1 [A2 [[i [A3 A3']] [A4 A5]]]] [B1 [B2 [B3 [B4 B5]]]].
  assert (E : ICopy d1 s1 = ICopy d s :> insn) by congruence. injection E as -> ->. split; auto. split; auto.
  destruct (B4 b k' i A3 A3') as [_ ->]. auto.
Qed.
Lemma src_fun : forall b k' k d s b1 k1' k1 d1, mergeable q b k' k d s -> mergeable q b1 k1' k1 d1 s -> b1 = b /\ k1 = k /\ d1 = d /\ k1' = k'.
Proof.
  intros b k' k d s b1 k1' k1 d1 A B. pose proof A as [A1 [A2 [[i [A3 A3']] [A4 A5]]]]. pose proof B as [B1 [B2 [B3 [B4 B5]]]].
  destruct (A5 b1 k1 _ B1) as [-> ->]; [reflexivity|]. destruct (copy_fun _ _ _ _ _ _ _ _ A B) as [-> [_ ->]]. auto.
Qed.
Lemma ren_cl : forall b k' d, In ((b, k'), d) ren -> exists k s, cl b k' k d s.
Proof.
  intros b k' d H. destruct (plan_gen (copies V q) [] (incl_refl _)) as [P1 _]. destruct (P1 _ _ H) as [b1 [k1' [k [s [E [H1 H2]]]]]].
  injection E as <- <-. exists k, s. split; auto.
Qed.
Lemma del_cl : forall b k, In (b, k) del -> exists k' d s, cl b k' k d s.
Proof.
  intros b k H. destruct (plan_gen (copies V q) [] (incl_refl _)) as [_ P2]. destruct (P2 _ _ H) as [k' [d [s [H1 H2]]]].
  exists k', d, s. split; auto.
Qed.
Lemma pos_eqb_spec : forall a b, pos_eqb a b = true <-> a = b.
Proof.
  intros [a1 a2] [b1 b2]. unfold pos_eqb. cbn [fst snd]. rewrite andb_true_iff, !Nat.eqb_eq. split; [intros [-> ->]; auto|intros H; injection H; auto].
Qed.
Lemma new_dest_none : forall r p (i : insn), (forall d, ~ In (p, d) r) -> new_dest V r p i = i.
Proof.
  unfold new_dest. induction r as [|[p0 d0] r IH]; intros p i H; cbn [fold_left]; auto. cbn [fst snd].
  destruct (pos_eqb p0 p) eqn:E.
  - apply pos_eqb_spec in E. subst p0. exfalso. apply (H d0). now left.
  - apply IH. intros d Hd. apply (H d). now right.
Qed.
Lemma retarget2 : forall d (i : insn), retarget V d (retarget V d i) = retarget V d i.
Proof. intros d []; auto. Qed.
Lemma new_dest_some : forall r p d (i : insn), In (p, d) r -> (forall d', In (p, d') r -> d' = d) -> new_dest V r p i = retarget V d i.
Proof.
  assert (K : forall r p d (i : insn), (forall d', In (p, d') r -> d' = d) -> new_dest V r p (retarget V d i) = retarget V d i).
  { unfold new_dest. induction r as [|[p0 d0] r IH]; intros p d i U; cbn [fold_left]; auto. cbn [fst snd].
    destruct (pos_eqb p0 p) eqn:E.
    - apply pos_eqb_spec in E. subst p0. rewrite (U d0 (or_introl eq_refl)), retarget2. apply IH. intros d' Hd. apply U. now right.
    - apply IH. intros d' Hd. apply U. now right. }
  unfold new_dest. induction r as [|[p0 d0] r IH]; intros p d i H U; [destruct H|]. cbn [fold_left fst snd].
  destruct (pos_eqb p0 p) eqn:E.
  - apply pos_eqb_spec in E. subst p0. rewrite (U d0 (or_introl eq_refl)). apply K. intros d' Hd. apply U. now right.
  - apply IH; [|intros d' Hd; apply U; now right]. destruct H as [H|H]; auto. injection H as -> ->.
    assert (X : pos_eqb p p = true) by now apply pos_eqb_spec. congruence.
Qed.

Definition tr (b j : nat) (c : list insn) : list insn :=
  flat_map (fun ki => if existsb (pos_eqb (b, fst ki)) del then [] else [new_dest V ren (b, fst ki) (snd ki)])
           (combine (seq j (length c)) c).
Lemma tr_cons : forall b j i c, tr b j (i :: c) = (if existsb (pos_eqb (b, j)) del then [] else [new_dest V ren (b, j) i]) ++ tr b (S j) c.
Proof. reflexivity. Qed.
Lemma collapse_nth : forall b, nth_error (collapse V q) b = option_map (fun lc => (fst lc, tr b 0 (snd lc))) (nth_error q b).
Proof.
  intros b. unfold collapse. assert (E : collapse_plan V q (copies V q) [] = (ren, del)) by (unfold ren, del; apply surjective_pairing).
  rewrite E. change (fun bi : nat * (nat * list insn) => _) with (fun bi : nat * (nat * list insn) => (fst (snd bi), tr (fst bi) 0 (snd (snd bi)))).
  assert (G : forall (l : list (nat * list insn)) s n, nth_error (map (fun bi => (fst (snd bi), tr (fst bi) 0 (snd (snd bi)))) (combine (seq s (length l)) l)) n
    = option_map (fun lc => (fst lc, tr (s + n) 0 (snd lc))) (nth_error l n)).
  { induction l as [|a l IH]; intros s n; [destruct n; auto|]. cbn [length seq combine map]. destruct n as [|n]; cbn [nth_error option_map fst snd].
    - now rewrite Nat.add_0_r.
    - rewrite IH. now rewrite Nat.add_succ_r. }
  apply (G q 0 b).
Qed.
Lemma nth_eq : forall {A} (a b : list A), (forall n, nth_error a n = nth_error b n) -> a = b.
Proof.
  intros A. induction a as [|x a IH]; intros [|y b] H; auto; try (specialize (H 0); discriminate).
  pose proof (H 0) as H0. cbn in H0. injection H0 as ->. f_equal. apply IH. intros n. apply (H (S n)).
Qed.
Lemma collapse_fst : map fst (collapse V q) = map fst q.
Proof.
  apply nth_eq. intros b. rewrite !nth_error_map, collapse_nth. destruct (nth_error q b); auto.
Qed.

Hypothesis Safe : safe_copies q.
Definition src (r : nat) : Prop := exists b k' k d, cl b k' k d r.
Definition pend (b j r : nat) : Prop := exists k' k s, cl b k' k r s /\ k' < j <= k.
Definition R (b j : nat) (regs regs' : nat -> V) : Prop :=
  (forall r, ~ src r -> ~ pend b j r -> regs' r = regs r) /\
  (forall k' k d s, cl b k' k d s -> k' < j <= k -> regs' d = regs s).
Definition Rend (regs regs' : nat -> V) : Prop := forall r, ~ src r -> regs' r = regs r.
Definition Rout (a b : @outcome V) : Prop :=
  match a, b with
  | Fall e, Fall e' => Rend e e'
  | Jump l e, Jump l' e' => l = l' /\ Rend e e'
  | Ret n e, Ret n' e' => n = n' /\ Rend e e'
  | _, _ => False
  end.
Lemma existsb_pos : forall p l, existsb (pos_eqb p) l = true <-> In p l.
Proof.
  intros p l. rewrite existsb_exists. split.
  - intros [x [H1 H2]]. apply pos_eqb_spec in H2. now subst.
  - intros H. exists p. split; auto. now apply pos_eqb_spec.
Qed.

Section Step.
Variable b j : nat.
Variable i : insn.
Variable regs regs' : nat -> V.
Hypothesis At : insn_at q b j = Some i.
Hypothesis HR : R b j regs regs'.

Lemma use_ok : ~ In (b, j) del -> forall u, reads i u -> regs' u = regs u.
Proof.
  intros Hd u Hu. apply HR.
  - intros [b1 [k' [k [d C]]]]. apply Hd. destruct C as [[C1 [C2 [C3 [C4 C5]]]] [_ C6]]. destruct (C5 b j i At Hu) as [-> ->]. auto.
  - intros [k' [k [s [C Hk]]]]. destruct (Nat.eq_dec j k) as [->|Hne]; [apply Hd; apply C|].
    destruct C as [C _]. destruct (Safe _ _ _ _ _ C) as [_ S2]. destruct (S2 j i) as [_ [S3 _]]; auto. lia.
Qed.
Lemma vals_ok : ~ In (b, j) del -> forall d f l, i = IOp d f l -> map (opval regs') l = map (opval regs) l.
Proof.
  intros Hd d f l Ei. apply map_ext_in. intros [r|v] Ho; cbn [opval]; auto. apply use_ok; auto. rewrite Ei. exact Ho.
Qed.
Lemma pend_back : ~ In (b, j) del -> forall r, ~ pend b (S j) r -> ~ pend b j r.
Proof.
  intros Hd r Hp [k' [k [s [C Hk]]]]. destruct (Nat.eq_dec j k) as [->|Hne]; [apply Hd; apply C|].
  apply Hp. exists k', k, s. split; auto. lia.
Qed.
Lemma jump_ok : ~ In (b, j) del -> ~ straight i -> Rend regs regs'.
Proof.
  intros Hd Hs r Hr. apply HR; auto. intros [k' [k [s [C Hk]]]]. destruct (Nat.eq_dec j k) as [->|Hne]; [apply Hd; apply C|].
  destruct C as [C _]. destruct (Safe _ _ _ _ _ C) as [_ S2]. destruct (S2 j i) as [S3 _]; auto. lia.
Qed.
Lemma keep_ok : ~ In (b, j) del -> (forall d, ~ In ((b, j), d) ren) -> forall x v, writes i x -> R b (S j) (set regs x v) (set regs' x v).
Proof.
  intros Hd Hn x v Hw. split.
  - intros r Hr Hp. unfold set. destruct (r =? x); auto. apply HR; auto. now apply pend_back.
  - intros k' k d s C Hk. assert (Hne : k' <> j) by (intros ->; apply (Hn d); apply C).
    pose proof C as [C0 _]. pose proof C0 as [_ [_ [_ [C4 _]]]].
    assert (s <> x) by (intros ->; destruct (C4 b j i At Hw); lia).
    destruct (Safe _ _ _ _ _ C0) as [_ S2]. destruct (S2 j i) as [_ [_ S3]]; auto; [lia|].
    assert (d <> x) by (intros ->; auto).
    unfold set. destruct (Nat.eqb_spec s x); [contradiction|]. destruct (Nat.eqb_spec d x); [contradiction|].
    apply HR with (k' := k') (k := k); auto. lia.
Qed.
Lemma rename_ok : ~ In (b, j) del -> forall k d s v, cl b j k d s -> writes i s -> R b (S j) (set regs s v) (set regs' d v).
Proof.
  intros Hd k d s v C Hw. pose proof C as [C0 _]. pose proof C0 as [D1 [D2 [D3 [D4 D5]]]]. split.
  - intros r Hr Hp. unfold set.
    destruct (Nat.eqb_spec r s) as [->|]; [exfalso; apply Hr; exists b, j, k, d; auto|].
    destruct (Nat.eqb_spec r d) as [->|]; [exfalso; apply Hp; exists j, k, s; split; auto; lia|].
    apply HR; auto. now apply pend_back.
  - intros k1' k1 d1 s1 C1 Hk. pose proof C1 as [C10 _]. pose proof C10 as [B1 [B2 [B3 [B4 B5]]]].
    destruct (Nat.eq_dec k1' j) as [->|Hne].
    + assert (s1 = s).
      { destruct B3 as [i1 [X1 X2]]. rewrite At in X1. injection X1 as <-. apply writes_target in X2. apply writes_target in Hw. congruence. }
      subst s1. destruct (src_fun _ _ _ _ _ _ _ _ _ C0 C10) as [_ [-> [-> _]]]. unfold set. now rewrite !Nat.eqb_refl.
    + assert (s1 <> s) by (intros ->; destruct (B4 b j i At Hw); lia).
      assert (d1 <> d).
      { intros ->. destruct (Nat.lt_trichotomy k k1) as [Hlt|[->|Hlt]].
        - destruct (Safe _ _ _ _ _ C10) as [_ S2]. destruct (S2 k (ICopy d s)) as [_ [_ S3]]; auto; [lia|]. apply S3. reflexivity.
        - destruct (copy_fun _ _ _ _ _ _ _ _ C0 C10) as [_ [Hs _]]. contradiction.
        - destruct (Safe _ _ _ _ _ C0) as [_ S2]. destruct (S2 k1 (ICopy d s1)) as [_ [_ S3]]; auto; [lia|]. apply S3. reflexivity. }
      unfold set. destruct (Nat.eqb_spec s1 s); [contradiction|]. destruct (Nat.eqb_spec d1 d); [contradiction|].
      apply HR with (k' := k1') (k := k1); auto. lia.
Qed.
Lemma drop_ok : forall k' d s, cl b k' j d s -> R b (S j) (set regs d (regs s)) regs'.
Proof.
  intros k' d s C. pose proof C as [C0 _]. pose proof C0 as [D1 [D2 [D3 [D4 D5]]]]. split.
  - intros r Hr Hp. unfold set. destruct (Nat.eqb_spec r d) as [->|Hne].
    + apply HR with (k' := k') (k := j); auto.
    + apply HR; auto. intros [k1' [k1 [s1 [C1 Hk]]]]. destruct (Nat.eq_dec j k1) as [->|Hj].
      * destruct C1 as [C1 _]. destruct (copy_fun _ _ _ _ _ _ _ _ C0 C1) as [-> _]. auto.
      * apply Hp. exists k1', k1, s1. split; auto. lia.
  - intros k1' k1 d1 s1 C1 Hk. pose proof C1 as [C10 _]. pose proof C10 as [B1 [B2 [B3 [B4 B5]]]].
    destruct (Safe _ _ _ _ _ C10) as [S1 _].
    assert (Hne : k1' <> j).
    { intros ->. apply (S1 s). destruct B3 as [i1 [X1 X2]]. rewrite D1 in X1. injection X1 as <-. cbn in X2. congruence. }
    assert (s1 <> d).
    { intros ->. destruct (B4 b j (ICopy d s) D1) as [_ H]; [reflexivity|]. lia. }
    unfold set. destruct (Nat.eqb_spec s1 d); [contradiction|]. apply HR with (k' := k1') (k := k1); auto. lia.
Qed.
End Step.

Lemma block_sim : forall b l c, nth_error q b = Some (l, c) -> forall c2 j regs regs',
  (forall n, nth_error c2 n = insn_at q b (j + n)) -> R b j regs regs' -> Rout (mexec regs c2) (mexec regs' (tr b j c2)).
Proof.
  intros b l c Hb. induction c2 as [|i c2 IH]; intros j regs regs' Hc HR.
  - cbn. intros r Hr. apply HR; auto. intros [k' [k [s [[[C _] _] Hk]]]].
    assert (E : insn_at q b (j + (k - j)) = None) by (rewrite <- Hc; destruct (k - j); auto).
    replace (j + (k - j)) with k in E by lia. congruence.
  - assert (At : insn_at q b j = Some i) by (rewrite <- (Nat.add_0_r j), <- Hc; auto).
    assert (Hc2 : forall n, nth_error c2 n = insn_at q b (S j + n)).
    { intros n. rewrite Nat.add_succ_comm, <- Hc. auto. }
    rewrite tr_cons. destruct (existsb (pos_eqb (b, j)) del) eqn:Ed.
    + apply existsb_pos in Ed. destruct (del_cl _ _ Ed) as [k' [d [s C]]]. cbn [app].
      assert (Ei : i = ICopy d s) by (destruct C as [[C1 _] _]; congruence). subst i. cbn [LinSpec.mexec].
      apply IH; auto. eapply drop_ok; eauto.
    + assert (Hd : ~ In (b, j) del) by (intros H; apply existsb_pos in H; congruence). cbn [app].
      destruct (in_dec (fun x y => Bool.reflect_dec _ _ (Bool.iff_reflect _ _ (iff_sym (pos_eqb_spec x y)))) (b, j) (map fst ren)) as [Hr|Hr].
      * apply in_map_iff in Hr. destruct Hr as [[p d] [E Hr]]. cbn in E. subst p. destruct (ren_cl _ _ _ Hr) as [k [s C]].
        pose proof C as [C0 _]. pose proof C0 as [D1 [D2 [[i' [D3 D3']] [D4 D5]]]]. rewrite At in D3. injection D3 as <-.
        rewrite (new_dest_some ren (b, j) d); auto.
        2:{ intros d' Hd'. destruct (ren_cl _ _ _ Hd') as [k2 [s2 [C2 _]]]. pose proof C2 as [_ [_ [[i2 [X1 X2]] _]]].
            rewrite At in X1. injection X1 as <-. assert (s2 = s) by (apply writes_target in X2; apply writes_target in D3'; congruence). subst s2.
            apply (src_fun _ _ _ _ _ _ _ _ _ C0 C2). }
        destruct (Safe _ _ _ _ _ C0) as [S1 _].
        destruct i as [x f a|x y|x v|o t|t|]; cbn in D3'; try contradiction; subst x; cbn [retarget LinSpec.mexec].
        -- rewrite (vals_ok b j _ regs regs' At HR Hd s f a eq_refl). apply IH; auto. eapply rename_ok; eauto. reflexivity.
        -- exfalso. apply (S1 y). auto.
        -- apply IH; auto. eapply rename_ok; eauto. reflexivity.
      * assert (Hn : forall d, ~ In ((b, j), d) ren) by (intros d H; apply Hr; apply in_map_iff; exists ((b, j), d); auto).
        rewrite new_dest_none by auto.
        destruct i as [x f a|x y|x v|o t|t|]; cbn [LinSpec.mexec].
        -- rewrite (vals_ok b j _ regs regs' At HR Hd x f a eq_refl). apply IH; auto. eapply keep_ok; eauto. reflexivity.
        -- rewrite (use_ok b j _ regs regs' At HR Hd y eq_refl). apply IH; auto. eapply keep_ok; eauto. reflexivity.
        -- apply IH; auto. eapply keep_ok; eauto. reflexivity.
        -- pose proof (jump_ok b j _ regs regs' At HR Hd (fun x => x)) as J.
           assert (Eo : opval regs' o = opval regs o).
           { destruct o; auto. cbn [opval]. apply (use_ok b j _ regs regs' At HR Hd). reflexivity. }
           rewrite Eo. destruct (truth (opval regs o)); [cbn; auto|]. apply IH; auto. split.
           ++ intros r H1 H2. apply J; auto.
           ++ intros k' k d s C Hk. assert (k' <> j) by (intros ->; apply (Hn d); apply C).
              apply HR with (k' := k') (k := k); auto. lia.
        -- pose proof (jump_ok b j _ regs regs' At HR Hd (fun x => x)) as J. cbn. auto.
        -- pose proof (jump_ok b j _ regs regs' At HR Hd (fun x => x)) as J. cbn. auto.
Qed.

Lemma collapse_sim : forall k b regs regs', Rend regs regs' ->
  same_result (merged q) (run mexec q k b regs) (run mexec (collapse V q) k b regs').
Proof.
  assert (Hsrc : forall e e', Rend e e' -> forall r, ~ merged q r -> e' r = e r).
  { intros e e' H r Hr. apply H. intros [b [k' [k [d [C _]]]]]. apply Hr. exists b, k', k, d. auto. }
  induction k as [|k IH]; intros b regs regs' HR; cbn [run]; [exact I|].
  rewrite collapse_nth. destruct (nth_error q b) as [[l c]|] eqn:Eb; cbn [option_map fst snd].
  - assert (S0 : R b 0 regs regs').
    { split; [intros r H _; apply HR; auto|]. intros k' k0 d s C Hk. lia. }
    assert (Hc : forall n, nth_error c n = insn_at q b (0 + n)) by (intros n; unfold insn_at; now rewrite Eb).
    pose proof (block_sim b l c Eb c 0 regs regs' Hc S0) as H.
    destruct (mexec regs c) as [e|t e|n e], (mexec regs' (tr b 0 c)) as [e'|t' e'|n' e']; cbn [Rout] in H; try contradiction.
    + apply IH; auto.
    + destruct H as [<- H]. rewrite (find_label_fst (collapse V q) q t collapse_fst).
      destruct (find_label t q); [apply IH; auto|]. cbn. split; auto.
    + destruct H as [<- H]. cbn. split; auto.
  - cbn. auto.
Qed.
End C.
