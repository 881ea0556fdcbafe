(* The renamed program, and its executions. *)
Require Import ZArith List Arith Bool Lia.
From Verif Require Import DomModel DomProofs SsaModel SsaSpec SsaProofs SsaBlock.
Import ListNotations.

Lemma fold_concat (f : nat -> option (list nat)) cs : forall l0 r,
  fold_left (fun o c => match o, f c with Some l, Some l' => Some (l ++ l') | _, _ => None end) cs (Some l0) = Some r ->
  exists ls, Forall2 (fun c l => f c = Some l) cs ls /\ r = l0 ++ concat ls.
Proof.
  induction cs as [|c cs IH]; intros l0 r E; cbn [fold_left] in E.
  - injection E as <-. exists []. split; [constructor|]. cbn [concat]. rewrite app_nil_r. reflexivity.
  - destruct (f c) as [l'|] eqn:Ef; [|rewrite fold_none in E by reflexivity; discriminate].
    destruct (IH _ _ E) as (ls & A & B). exists (l' :: ls). split; [constructor; assumption|]. rewrite B. cbn [concat]. rewrite app_assoc. reflexivity.
Qed.
Lemma Forall2_split (A B : Type) (P : A -> B -> Prop) l l' : Forall2 P l l' -> forall y, In y l' ->
  exists l1 x l2 l1' l2', l = l1 ++ x :: l2 /\ l' = l1' ++ y :: l2' /\ P x y /\ Forall2 P l1 l1' /\ Forall2 P l2 l2'.
Proof.
  induction 1 as [|x y l l' Hp H IH]; intros z Hz; [destruct Hz|]. destruct Hz as [->|Hz].
  - exists [], x, l, [], l'. repeat split; auto.
  - destruct (IH z Hz) as (l1 & x' & l2 & l1' & l2' & -> & -> & Q1 & Q2 & Q3).
    exists (x :: l1), x', l2, (y :: l1'), l2'. repeat split; auto.
Qed.
Lemma Forall2_in_l (A B : Type) (P : A -> B -> Prop) l l' : Forall2 P l l' -> forall x, In x l -> exists y, In y l' /\ P x y.
Proof.
  induction 1 as [|x y l l' Hp H IH]; intros z Hz; [destruct Hz|]. destruct Hz as [<-|Hz]; [exists y; split; [left|]; auto|].
  destruct (IH z Hz) as (y' & A1 & A2). exists y'. split; [right; exact A1|exact A2].
Qed.
Lemma Forall2_in_r (A B : Type) (P : A -> B -> Prop) l l' : Forall2 P l l' -> forall y, In y l' -> exists x, In x l /\ P x y.
Proof.
  induction 1 as [|x y l l' Hp H IH]; intros z Hz; [destruct Hz|]. destruct Hz as [<-|Hz]; [exists x; split; [left|]; auto|].
  destruct (IH z Hz) as (y' & A1 & A2). exists y'. split; [right; exact A1|exact A2].
Qed.

Section Order.
  Variable root : nat.
  Variable edges : list (nat * nat).
  Variable bbs : list nat.
  Hypothesis root_in : In root bbs.
  Hypothesis dst_in : forall s d, In (s, d) edges -> In d bbs.
  Hypothesis root_no_pred : forall s, ~ In (s, root) edges.
  Hypothesis AR : forall b, In b bbs -> reachable root edges b.
  Hypothesis NB : NoDup bbs.
  Variable D : dmap.
  Hypothesis HD : forall b a, In b bbs -> (In a (D b) <-> In a bbs /\ dominates root edges a b).
  Notation dominates := (dominates root edges).
  Notation closest := (closest root edges).
  Notation sdom := (strictly_dominates root edges).

  Lemma idom_closest b d : In b bbs -> idom D b = Some d -> closest d b /\ In d bbs.
  Proof.
    intros Hb E. destruct (idom_ok root edges bbs root_in dst_in D HD b (AR b Hb)) as [I1 I2].
    destruct (Nat.eq_dec b root) as [Q|Q]; [rewrite (I1 Q) in E; discriminate|]. destruct (I2 Q) as (d' & J1 & J2).
    rewrite E in J1. injection J1 as <-. split; [exact J2|]. apply (dom_in root edges bbs root_in dst_in d b (AR b Hb)). apply J2.
  Qed.
  Lemma idom_none b : In b bbs -> idom D b = None -> b = root.
  Proof.
    intros Hb E. destruct (idom_ok root edges bbs root_in dst_in D HD b (AR b Hb)) as [I1 I2].
    destruct (Nat.eq_dec b root) as [Q|Q]; [exact Q|]. destruct (I2 Q) as (d' & J1 & J2). congruence.
  Qed.
  Lemma idom_some b : In b bbs -> b <> root -> exists d, idom D b = Some d.
  Proof. intros Hb Q. destruct (idom D b) eqn:E; [eauto|]. apply idom_none in E; [contradiction|exact Hb]. Qed.
  Lemma child_spec c x : In x (children D bbs c) <-> In x bbs /\ idom D x = Some c.
  Proof.
    unfold children. rewrite filter_In. destruct (idom D x) as [d|]; [|intuition discriminate].
    destruct (Nat.eqb_spec d c) as [->|Q]; [tauto|]. split; intros [A B]; [discriminate|congruence].
  Qed.
  Lemma child_dom c x : In x (children D bbs c) -> In x bbs /\ sdom c x /\ In c bbs.
  Proof.
    intros H. apply child_spec in H. destruct H as [H1 H2]. destruct (idom_closest x c H1 H2) as [[A _] B]. auto.
  Qed.
  Lemma child_cover c : In c bbs -> forall n x, ndom bbs D x < n -> In x bbs -> dominates c x -> x <> c -> exists ch, In ch (children D bbs c) /\ dominates ch x.
  Proof.
    intros Hc. induction n as [|n IH]; intros x Hn Hx Hd Q; [lia|].
    assert (x <> root).
    { intros ->. apply Q. symmetry. eapply dom_root_inv; eauto. }
    destruct (idom_some x Hx H) as (d & E). destruct (idom_closest x d Hx E) as [Hcl Hdb].
    destruct (Nat.eq_dec d c) as [->|Qd].
    - exists x. split; [apply child_spec; auto|apply dom_refl].
    - pose proof (ndom_lt root edges bbs root_in dst_in D HD d x (AR x Hx) Hcl) as L.
      assert (Hcd : dominates c d) by (apply Hcl; split; auto).
      destruct (IH d ltac:(lia) Hdb Hcd Qd) as (ch & A & B). exists ch. split; [exact A|]. eapply dom_trans; [exact B|]. apply Hcl.
  Qed.
  Lemma sdom_irrefl a b : In b bbs -> sdom a b -> ~ dominates b a.
  Proof. intros Hb [H1 H2] H3. apply H2. eapply dom_antisym; eauto. Qed.
  Lemma siblings c a b x : In a (children D bbs c) -> In b (children D bbs c) -> In x bbs -> dominates a x -> dominates b x -> a = b.
  Proof.
    intros Ha Hb Hx H1 H2.
    assert (G : forall a b, In a (children D bbs c) -> In b (children D bbs c) -> dominates a b -> a = b).
    { clear a b Ha Hb H1 H2. intros a b Ha Hb Hab. destruct (Nat.eq_dec a b) as [Q|Q]; [exact Q|exfalso].
      apply child_spec in Hb. destruct Hb as [Hb Eb]. destruct (idom_closest b c Hb Eb) as [Hcl _].
      apply child_dom in Ha. destruct Ha as (Ha & Hs & _). apply (sdom_irrefl c a Ha Hs). apply Hcl. split; auto. }
    destruct (dom_chain root edges a b x (AR x Hx) H1 H2) as [H|H]; [apply G; auto|symmetry; apply G; auto].
  Qed.

  Definition ordered (l : list nat) (x : nat) : Prop :=
    exists l1 d l2 l3, l = l1 ++ d :: l2 ++ x :: l3 /\ idom D x = Some d /\ forall y, In y l2 -> sdom d y.
  Lemma preorder_spec fuel : forall c l, In c bbs -> preorder D fuel bbs c = Some l ->
    (exists t, l = c :: t) /\ (forall x, In x l <-> In x bbs /\ dominates c x) /\ NoDup l /\ (forall x, In x l -> x <> c -> ordered l x).
  Proof.
    induction fuel as [|f IH]; intros c l Hc E; [discriminate|]. cbn [preorder] in E.
    destruct (fold_left _ (children D bbs c) (Some [])) as [r|] eqn:Er; [|discriminate]. cbn [option_map] in E. injection E as <-.
    apply fold_concat in Er. destruct Er as (ls & F & ->). cbn [app].
    assert (HC : forall ch, In ch (children D bbs c) -> In ch bbs /\ sdom c ch) by (intros ch Hch; apply child_dom in Hch; tauto).
    assert (IN : forall x, In x (concat ls) -> In x bbs /\ exists ch, In ch (children D bbs c) /\ dominates ch x).
    { intros x Hx. apply in_concat in Hx. destruct Hx as (l & Hl & Hx). destruct (Forall2_in_r _ _ _ _ _ F l Hl) as (ch & Hch & E).
      destruct (HC ch Hch) as [Hb _]. destruct (IH ch l Hb E) as (_ & I & _). apply I in Hx. split; [apply Hx|]. exists ch. split; [exact Hch|apply Hx]. }
    assert (SD : forall x, In x (concat ls) -> sdom c x).
    { intros x Hx. destruct (IN x Hx) as (Hxb & ch & Hch & Hd). destruct (HC ch Hch) as [Hb [H1 H2]]. split; [eapply dom_trans; eauto|].
      intros ->. apply H2. eapply dom_antisym; eauto. }
    split; [eauto|]. split; [|split].
    - intros x. split.
      + intros [<-|Hx]; [split; [exact Hc|apply dom_refl]|]. split; [apply IN, Hx|apply SD, Hx].
      + intros [Hx Hd]. destruct (Nat.eq_dec c x) as [Q|Q]; [left; exact Q|right].
        destruct (child_cover c Hc (S (ndom bbs D x)) x ltac:(lia) Hx Hd ltac:(congruence)) as (ch & Hch & Hcd).
        destruct (Forall2_in_l _ _ _ _ _ F ch Hch) as (l & Hl & E). apply in_concat. exists l. split; [exact Hl|].
        destruct (HC ch Hch) as [Hb _]. destruct (IH ch l Hb E) as (_ & I & _). apply I. auto.
    - constructor.
      + intros Hx. apply (SD c Hx). reflexivity.
      + assert (NC : NoDup (children D bbs c)) by (apply NoDup_filter, NB).
        assert (SUB : incl (children D bbs c) (children D bbs c)) by apply incl_refl. revert SUB NC F. clear IN SD. generalize (children D bbs c) at 1 3 4 as cs.
        intros cs SUB NC F. induction F as [|ch l cs ls E F IHF]; [constructor|]. cbn [concat]. apply NoDup_cons_iff in NC. destruct NC as [NC1 NC2].
        assert (Hch : In ch (children D bbs c)) by (apply SUB; left; reflexivity).
        destruct (HC ch Hch) as [Hb _]. destruct (IH ch l Hb E) as (_ & I & ND & _).
        assert (DJ : forall x, In x l -> ~ In x (concat ls)).
        { intros x Hx Hx2. apply in_concat in Hx2. destruct Hx2 as (l2 & Hl2 & Hx2). destruct (Forall2_in_r _ _ _ _ _ F l2 Hl2) as (ch2 & Hch2 & E2).
          assert (Hch2' : In ch2 (children D bbs c)) by (apply SUB; right; exact Hch2).
          destruct (HC ch2 Hch2') as [Hb2 _]. destruct (IH ch2 l2 Hb2 E2) as (_ & I2 & _). apply I in Hx. apply I2 in Hx2.
          assert (ch = ch2) by (eapply (siblings c ch ch2 x); tauto). subst ch2. contradiction. }
        assert (ND2 : NoDup (concat ls)) by (apply IHF; [intros z Hz; apply SUB; right; exact Hz|exact NC2]).
        clear - ND DJ ND2. induction l as [|a l IHl]; [exact ND2|]. cbn [app]. apply NoDup_cons_iff in ND. destruct ND as [N1 N2]. constructor.
        * intros H. apply in_app_or in H. destruct H as [H|H]; [contradiction|]. apply (DJ a); [left; reflexivity|exact H].
        * apply IHl; [exact N2|]. intros x Hx. apply DJ. right; exact Hx.
    - intros x [Hx|Hx] Q; [congruence|]. apply in_concat in Hx. destruct Hx as (l & Hl & Hx).
      destruct (Forall2_split _ _ _ _ _ F l Hl) as (cs1 & ch & cs2 & ls1 & ls2 & E1 & -> & E & F1 & F2).
      assert (Hch : In ch (children D bbs c)) by (rewrite E1; apply in_or_app; right; left; reflexivity).
      destruct (HC ch Hch) as [Hb _]. destruct (IH ch l Hb E) as ((t & Et) & I & _ & O).
      rewrite concat_app. cbn [concat].
      destruct (Nat.eq_dec x ch) as [->|Qx].
      + exists [], c, (concat ls1), (t ++ concat ls2). split; [rewrite Et; cbn [app]; reflexivity|].
        apply child_spec in Hch. split; [apply Hch|]. intros y Hy. apply SD. rewrite concat_app. apply in_or_app; left; exact Hy.
      + destruct (O x Hx Qx) as (l1 & d & l2 & l3 & El & Ed & S). exists (c :: concat ls1 ++ l1), d, l2, (l3 ++ concat ls2).
        split; [|split; [exact Ed|exact S]]. rewrite El. cbn [app]. rewrite <- !app_assoc. cbn [app]. rewrite <- !app_assoc. reflexivity.
  Qed.
  Lemma preorder_total fuel : forall c, In c bbs -> length bbs < fuel + ndom bbs D c -> exists l, preorder D fuel bbs c = Some l.
  Proof.
    induction fuel as [|f IH]; intros c Hc L.
    - exfalso. assert (ndom bbs D c <= length bbs); [|lia]. unfold ndom. clear. induction bbs as [|a t IH]; cbn [filter length]; [lia|].
      destruct (memb a (D c)); cbn [length]; lia.
    - cbn [preorder]. assert (G : forall cs, (forall ch, In ch cs -> exists l, preorder D f bbs ch = Some l) -> forall l0,
        exists r, fold_left (fun o c => match o, preorder D f bbs c with Some l, Some l' => Some (l ++ l') | _, _ => None end) cs (Some l0) = Some r).
      { induction cs as [|ch cs IHc]; intros HC l0; cbn [fold_left]; [eauto|]. destruct (HC ch (or_introl eq_refl)) as (l & ->).
        apply IHc. intros x Hx. apply HC. right; exact Hx. }
      destruct (G (children D bbs c)) with (l0 := @nil nat) as (r & ->); [|cbn [option_map]; eauto].
      intros ch Hch. apply child_spec in Hch. destruct Hch as [Hb E]. destruct (idom_closest ch c Hb E) as [Hcl _].
      apply IH; [exact Hb|]. pose proof (ndom_lt root edges bbs root_in dst_in D HD c ch (AR ch Hb) Hcl). lia.
  Qed.
End Order.
