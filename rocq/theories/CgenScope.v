(* Declarations of the generated C code: no block declares a name twice, and no
   local declaration hides an input of the function. *)
Require Import ZArith String List Bool Arith Lia.
From Verif Require Import CgenModel CgenSpec.
Import ListNotations.
Open Scope string_scope.
Open Scope list_scope.

Definition decl_ok (names d : list string) : Prop := NoDup d /\ forall x, In x d -> ~ In x names.
Inductive scoped (names : list string) : cstmt -> Prop :=
| sc_assign x e : scoped names (CAssign x e)
| sc_if c d1 b1 d2 b2 : decl_ok names d1 -> decl_ok names d2 -> Forall (scoped names) b1 -> Forall (scoped names) b2 ->
    scoped names (CIf c d1 b1 d2 b2)
| sc_for c d b : decl_ok names d -> Forall (scoped names) b -> scoped names (CFor c d b)
| sc_ret e : scoped names (CReturn e).

Section Scope.
  Variable pick : list string -> string -> string.
  Variable order : nat -> nat.
  Hypothesis pick_fresh : forall l p, ~ In (pick l p) l.
  Variable names : list string.

  (* the inputs are at the bottom, the open levels above *)
  Definition level (n : nat) (g : gst) : Prop :=
    NoDup (concat (scopes g)) /\ exists pre, length pre = n /\ scopes g = pre ++ [names].
  Lemma level_memo n m g : level n g -> level n (mkg m (scopes g)).
  Proof. intros [H1 (pre & H2 & H3)]. split; [exact H1|]. exists pre; auto. Qed.
  Lemma level_declare n g t : 0 < n -> level n g -> level n (declare (fresh_name pick g t) g).
  Proof.
    intros Hn [H1 (pre & H2 & H3)]. unfold declare. rewrite H3 in *. destruct pre as [|l pre]; [cbn [length] in H2; lia|].
    cbn [app]. split; cbn [scopes].
    - cbn [concat app]. constructor; [|exact H1]. unfold fresh_name. rewrite H3. apply pick_fresh.
    - exists ((fresh_name pick g t :: l) :: pre). split; [exact H2|reflexivity].
  Qed.
  Lemma gens_level n gen1 : 0 < n -> (forall g a code c g', gen1 g a = Some (code, c, g') -> level n g -> level n g' /\ Forall (scoped names) code) ->
    forall l g code rs g', gens gen1 g l = Some (code, rs, g') -> level n g -> level n g' /\ Forall (scoped names) code.
  Proof.
    intros Hn HG. induction l as [|[i a] l IH]; intros g code rs g' H HL; cbn [gens] in H.
    - injection H as <- <- <-. split; [exact HL|constructor].
    - destruct (gen1 g a) as [[[c1 v] g1]|] eqn:E1; [|discriminate].
      destruct (gens gen1 g1 l) as [[[c2 vs] g2]|] eqn:E2; [|discriminate]. injection H as <- <- <-.
      destruct (HG _ _ _ _ _ E1 HL) as [L1 F1]. destruct (IH _ _ _ _ E2 L1) as [L2 F2]. split; [exact L2|]. apply Forall_app; auto.
  Qed.
  Lemma gen_level n fuel : 0 < n -> forall inl g a code c g', gen pick order fuel inl g a = Some (code, c, g') -> level n g ->
    level n g' /\ Forall (scoped names) code.
  Proof.
    intros Hn. induction fuel as [|f IH]; intros inl g a code c g' H HL; [discriminate|]. cbn [gen] in H.
    destruct (mlookup (nid a) (memo g)); [injection H as <- <- <-; split; [exact HL|constructor]|].
    destruct a as [i [|] tag|i v|i op ff tag args].
    - injection H as <- <- <-. split; [|constructor]. apply level_memo, level_declare; assumption.
    - injection H as <- <- <-. split; [|constructor]. apply level_memo; assumption.
    - injection H as <- <- <-. split; [|constructor]. apply level_memo; assumption.
    - destruct (gens _ g _) as [[[code1 rs] g1]|] eqn:EG; [|discriminate].
      destruct (collect rs _) as [cs|]; [|discriminate].
      destruct (gens_level n _ Hn (IH inl) _ _ _ _ _ EG HL) as [L1 F1].
      destruct (stored ff inl); injection H as <- <- <-.
      + split; [apply level_memo, level_declare; assumption|]. apply Forall_app. split; [exact F1|]. constructor; [apply sc_assign|constructor].
      + split; [apply level_memo; assumption|exact F1].
  Qed.
  Lemma level_open n g : level n g -> level (S n) (open_code g).
  Proof. intros [H1 (pre & H2 & H3)]. split; [exact H1|]. exists ([] :: pre). cbn [length open_code scopes app]. rewrite H3. auto. Qed.
  Lemma nodup_r {A} (l m : list A) : NoDup (l ++ m) -> NoDup m.
  Proof. induction l as [|a l IH]; cbn [app]; [auto|]. intros H. inversion H; auto. Qed.
  Lemma level_close n g : level (S n) g -> level n (close_code g) /\ decl_ok names (level_names g).
  Proof.
    intros [H1 (pre & H2 & H3)]. destruct pre as [|l pre]; [discriminate|]. injection H2 as H2.
    unfold close_code, level_names. rewrite H3 in *. cbn [app tl hd concat] in *. split.
    - split; cbn [scopes]; [eapply nodup_r; exact H1|]. exists pre; auto.
    - split.
      + apply NoDup_rev. clear - H1. induction l as [|a l IH]; [constructor|]. cbn [app] in H1. inversion H1; subst. constructor; [|auto].
        intros Hin. match goal with X : ~ In _ _ |- _ => apply X end. apply in_or_app; left; exact Hin.
      + intros x Hx Hn. apply in_rev in Hx. apply in_split in Hx as (l1 & l2 & ->). rewrite <- app_assoc in H1. cbn [app] in H1.
        apply NoDup_remove_2 in H1. apply H1. rewrite app_assoc, concat_app. cbn [concat]. rewrite app_nil_r. apply in_or_app; right; apply in_or_app; right; exact Hn.
  Qed.
  Lemma gen_stmt_level fuel s : forall n g code g', 0 < n -> gen_stmt pick order fuel g s = Some (code, g') -> level n g ->
    level n g' /\ Forall (scoped names) code.
  Proof.
    induction s as [|s1 IH1 s2 IH2|e|v e|c t IHt e IHe|i IHi c b IHb|e]; intros n g code g' Hn H HL; cbn [gen_stmt] in H.
    - injection H as <- <-. split; [exact HL|constructor].
    - destruct (gen_stmt _ _ _ g s1) as [[c1 g1]|] eqn:E1; [|discriminate].
      destruct (gen_stmt _ _ _ g1 s2) as [[c2 g2]|] eqn:E2; [|discriminate]. injection H as <- <-.
      destruct (IH1 _ _ _ _ Hn E1 HL) as [L1 F1]. destruct (IH2 _ _ _ _ Hn E2 L1) as [L2 F2]. split; [exact L2|]. apply Forall_app; auto.
    - destruct (gen _ _ _ _ g e) as [[[c r] g1]|] eqn:E0; [|discriminate]. injection H as <- <-. eapply gen_level; eauto.
    - destruct (gen _ _ _ _ g v) as [[[c1 [x|?]] g1]|] eqn:E1; try discriminate.
      destruct (gen _ _ _ _ g1 e) as [[[c2 r] g2]|] eqn:E2; [|discriminate]. injection H as <- <-.
      destruct (gen_level _ _ Hn _ _ _ _ _ _ E1 HL) as [L1 F1]. destruct (gen_level _ _ Hn _ _ _ _ _ _ E2 L1) as [L2 F2].
      split; [exact L2|]. apply Forall_app. split; [exact F1|]. apply Forall_app. split; [exact F2|]. constructor; [apply sc_assign|constructor].
    - destruct (gen _ _ _ _ g c) as [[[c0 r] g0]|] eqn:E0; [|discriminate].
      destruct (gen_level _ _ Hn _ _ _ _ _ _ E0 HL) as [L0 F0].
      destruct (gen_stmt _ _ _ _ t) as [[c1 g1]|] eqn:E1; [|discriminate].
      destruct (gen_stmt _ _ _ _ e) as [[c2 g3]|] eqn:E2; [|discriminate]. injection H as <- <-.
      destruct (IHt (S n) _ _ _ ltac:(lia) E1 (level_open _ _ (level_memo _ _ _ L0))) as [L1 F1].
      destruct (level_close _ _ L1) as [L1' D1].
      destruct (IHe (S n) _ _ _ ltac:(lia) E2 (level_memo _ _ _ (level_open _ _ (level_memo _ _ _ L1')))) as [L2 F2].
      destruct (level_close _ _ L2) as [L2' D2].
      split; [apply (level_memo _ _ _ L2')|]. apply Forall_app. split; [exact F0|]. constructor; [|constructor]. apply sc_if; assumption.
    - destruct (gen_stmt _ _ _ g i) as [[c0 g0]|] eqn:E0; [|discriminate].
      destruct (IHi _ _ _ _ Hn E0 HL) as [L0 F0].
      destruct (gen _ _ _ _ g0 c) as [[[c1 r] g1]|] eqn:E1; [|discriminate].
      destruct (gen_level _ _ Hn _ _ _ _ _ _ E1 L0) as [L1 F1].
      destruct (gen_stmt _ _ _ _ b) as [[c2 g2]|] eqn:E2; [|discriminate]. injection H as <- <-.
      destruct (IHb (S n) _ _ _ ltac:(lia) E2 (level_open _ _ L1)) as [L2 F2]. destruct (level_close _ _ L2) as [L2' D2].
      split; [exact L2'|]. apply Forall_app. split; [exact F0|]. apply Forall_app. split; [exact F1|].
      constructor; [|constructor]. apply sc_for; assumption.
    - destruct (gen _ _ _ _ g e) as [[[c r] g1]|] eqn:E0; [|discriminate]. injection H as <- <-.
      destruct (gen_level _ _ Hn _ _ _ _ _ _ E0 HL) as [L1 F1]. split; [exact L1|]. apply Forall_app. split; [exact F1|].
      constructor; [apply sc_ret|constructor].
  Qed.
  Lemma gen_fun_scoped fuel s d code : NoDup names -> gen_fun pick order fuel names s = Some (d, code) ->
    decl_ok names d /\ Forall (scoped names) code.
  Proof.
    intros HN H. unfold gen_fun in H. destruct (gen_stmt _ _ _ _ s) as [[c g]|] eqn:E; [|discriminate]. injection H as <- <-.
    destruct (gen_stmt_level fuel s 1 _ _ _ ltac:(lia) E) as [L F].
    - split; [cbn; rewrite app_nil_r; exact HN|]. exists [[]]. auto.
    - split; [|exact F]. destruct (level_close _ _ L) as [_ D]. exact D.
  Qed.
End Scope.
