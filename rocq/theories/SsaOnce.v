(* Every name is defined at most once in the renamed program. *)
Require Import ZArith List Arith Bool Lia Permutation.
From Verif Require Import DomModel DomProofs SsaModel SsaSpec SsaProofs SsaBlock SsaMain.
Import ListNotations.

Section Once.
  Variable D : dmap.
  Variable m : mode.
  (* the names of l have their indices between the counters of R and R' *)
  Definition within (R R' : rst) (l : list name) : Prop :=
    NoDup l /\ (forall v, cnt R v <= cnt R' v) /\ forall n, In n l -> exists k, snd n = Some k /\ cnt R (fst n) <= k < cnt R' (fst n).
  Lemma within_app R1 R2 R3 l l' : within R1 R2 l -> within R2 R3 l' -> within R1 R3 (l ++ l').
  Proof.
    intros (A1 & A2 & A3) (B1 & B2 & B3). split; [|split].
    - clear B2. induction l as [|n l IH]; [exact B1|]. cbn [app]. apply NoDup_cons_iff in A1. destruct A1 as [N1 N2]. constructor.
      + intros H. apply in_app_or in H. destruct H as [H|H]; [contradiction|]. destruct (A3 n (or_introl eq_refl)) as (k & K1 & K2).
        destruct (B3 n H) as (j & J1 & J2). rewrite K1 in J1. injection J1 as <-. lia.
      + apply IH; [exact N2|]. intros x Hx. apply A3. right; exact Hx.
    - intros v. specialize (A2 v). specialize (B2 v). lia.
    - intros n H. apply in_app_or in H. destruct H as [H|H].
      + destruct (A3 n H) as (k & K1 & K2). exists k. split; [exact K1|]. specialize (B2 (fst n)). lia.
      + destruct (B3 n H) as (k & K1 & K2). exists k. split; [exact K1|]. specialize (A2 (fst n)). lia.
  Qed.
  Lemma within_nil R R' : cnt R' = cnt R -> within R R' [].
  Proof. intros E. split; [constructor|]. split; [intros v; rewrite E; lia|intros n []]. Qed.
  Lemma upd_cnt R v b : cnt (upd_reach D R v b) = cnt R /\ code (upd_reach D R v b) = code R.
  Proof. unfold upd_reach. destruct (climb _ _ _ _ _ _); split; reflexivity. Qed.
  Lemma use_cnt b l : forall R e R' e', fold_left (use1 D b) l (R, e) = (R', e') -> cnt R' = cnt R /\ code R' = code R.
  Proof.
    induction l as [|[v [i|]] l IH]; intros R e R' e' E; cbn [fold_left use1] in E.
    - injection E as <- _. auto.
    - eapply IH; eauto.
    - destruct (IH _ _ _ _ E) as [A B]. destruct (upd_cnt R v b) as [A1 B1]. split; congruence.
  Qed.
  Lemma define_within b R n R' n' : define D b R n = (R', n') -> within R R' [n'] /\ code R' = code R.
  Proof.
    intros E. unfold define in E. destruct (upd_cnt R (fst n) b) as [A1 B1]. injection E as <- <-. cbn [code]. split; [|exact B1].
    split; [constructor; [intros []|constructor]|]. cbn [cnt]. rewrite A1. split.
    - intros v. unfold fupd. destruct (Nat.eqb_spec v (fst n)) as [->|Q]; lia.
    - intros x [<-|[]]. exists (cnt R (fst n)). split; [reflexivity|]. cbn [fst]. unfold fupd. rewrite Nat.eqb_refl. lia.
  Qed.
  Lemma do_phis_within b l : forall R R' l', do_phis D b R l = (R', l') -> within R R' (map fst l') /\ code R' = code R.
  Proof.
    induction l as [|[n ops] l IH]; intros R R' l' E; cbn [do_phis] in E.
    - injection E as <- <-. split; [apply within_nil|]; reflexivity.
    - destruct (define D b R n) as [R1 n1] eqn:E1. destruct (do_phis D b R1 l) as [R2 t2] eqn:E2. injection E as <- <-.
      destruct (define_within _ _ _ _ _ E1) as [A B]. destruct (IH _ _ _ E2) as [A2 B2]. split; [|congruence].
      cbn [map fst]. apply (within_app R R1 R2 [n1] (map fst t2) A A2).
  Qed.
  Lemma do_ops_within b l : forall R R' l', do_ops D b R l = (R', l') -> within R R' (flat_map op_defs l') /\ code R' = code R.
  Proof.
    induction l as [|o l IH]; intros R R' l' E; cbn [do_ops] in E.
    - injection E as <- <-. split; [apply within_nil|]; reflexivity.
    - destruct (do_op D b R o) as [R1 o1] eqn:E1. destruct (do_ops D b R1 l) as [R2 t2] eqn:E2. injection E as <- <-.
      assert (X : within R R1 (op_defs o1) /\ code R1 = code R).
      { destruct o as [n e|e]; cbn [do_op] in E1; unfold use_expr in E1.
        - destruct (fold_left (use1 D b) (used e) (R, e)) as [R0 e0] eqn:E0. destruct (use_cnt _ _ _ _ _ _ E0) as [A B].
          destruct (define D b R0 n) as [R3 n3] eqn:E3. injection E1 as <- <-. destruct (define_within _ _ _ _ _ E3) as [A3 B3].
          split; [|congruence]. cbn [op_defs]. apply (within_app R R0 R3 [] [n3] (within_nil R R0 A) A3).
        - destruct (fold_left (use1 D b) (used e) (R, e)) as [R0 e0] eqn:E0. destruct (use_cnt _ _ _ _ _ _ E0) as [A B]. injection E1 as <- <-.
          split; [apply within_nil; exact A|exact B]. }
      destruct X as [A B]. destruct (IH _ _ _ E2) as [A2 B2]. split; [|congruence]. cbn [flat_map]. eapply within_app; eauto.
  Qed.
  Lemma do_end_cnt b e R R' e' : do_end D b R e = (R', e') -> cnt R' = cnt R /\ code R' = code R.
  Proof.
    intros E. destruct e as [d|c t f|x]; cbn [do_end] in E; unfold use_expr in E.
    - injection E as <- _. auto.
    - destruct (fold_left _ _ _) as [R0 e0] eqn:E0. injection E as <- _. eapply use_cnt; eauto.
    - destruct (fold_left _ _ _) as [R0 e0] eqn:E0. injection E as <- _. eapply use_cnt; eauto.
  Qed.
  Lemma fill_cnt b s l : forall R R' l', fill m D b s R l = (R', l') -> cnt R' = cnt R /\ code R' = code R /\ map fst l' = map fst l.
  Proof.
    induction l as [|[n ops] l IH]; intros R R' l' E; cbn [fill] in E.
    - injection E as <- <-. auto.
    - set (R1 := if Nat.ltb (length ops) 2 then _ else R) in E. destruct (fill m D b s R1 l) as [R2 t2] eqn:E2. injection E as <- <-.
      assert (X : cnt R1 = cnt R /\ code R1 = code R).
      { unfold R1. destruct (Nat.ltb _ _), m; try (split; reflexivity); apply upd_cnt. }
      destruct X as [X1 X2]. destruct (IH _ _ _ E2) as (A & B & C). split; [congruence|]. split; [congruence|]. cbn [map fst]. rewrite C. reflexivity.
  Qed.
  Lemma fill_succs_cnt b l : forall R, let R' := fold_left (fill_succ m D b) l R in cnt R' = cnt R /\ forall c, defs (code R' c) = defs (code R c).
  Proof.
    induction l as [|s l IH]; intros R; cbn [fold_left]; [split; reflexivity|].
    destruct (IH (fill_succ m D b R s)) as [A B]. cbv zeta in *. rewrite A.
    assert (X : cnt (fill_succ m D b R s) = cnt R /\ forall c, defs (code (fill_succ m D b R s) c) = defs (code R c)).
    { unfold fill_succ. destruct (fill m D b s R (b_phis (code R s))) as [R1 l1] eqn:E1. destruct (fill_cnt _ _ _ _ _ _ E1) as (A1 & B1 & C1).
      unfold set_code. cbn [cnt code]. split; [exact A1|]. intros c. unfold fupd. destruct (Nat.eqb_spec c s) as [->|Q]; [|rewrite B1; reflexivity].
      unfold defs. cbn [b_phis b_ops]. rewrite C1, B1. reflexivity. }
    destruct X as [X1 X2]. split; [exact X1|]. intros c. rewrite B. apply X2.
  Qed.
  Lemma do_block_within b R : let R' := do_block m D R b in
    within R R' (defs (code R' b)) /\ forall c, c <> b -> defs (code R' c) = defs (code R c).
  Proof.
    unfold do_block.
    destruct (do_phis D b R (b_phis (code R b))) as [R1 ph] eqn:E1. destruct (do_phis_within _ _ _ _ _ E1) as [A1 B1].
    destruct (do_ops D b R1 (b_ops (code R b))) as [R2 ops] eqn:E2. destruct (do_ops_within _ _ _ _ _ E2) as [A2 B2].
    destruct (do_end D b R2 (b_end (code R b))) as [R3 en] eqn:E3. destruct (do_end_cnt _ _ _ _ _ E3) as [A3 B3].
    set (R4 := set_code R3 (fupd (code R3) b (mkblk ph ops en))).
    destruct (fill_succs_cnt b (succs en) R4) as [A5 B5]. set (R5 := fold_left (fill_succ m D b) (succs en) R4) in *. cbv zeta. split.
    - rewrite B5. assert (X : defs (code R4 b) = (map fst ph ++ flat_map op_defs ops) ++ []).
      { unfold R4, set_code, fupd. cbn [code]. rewrite Nat.eqb_refl, app_nil_r. reflexivity. }
      rewrite X. eapply within_app; [eapply within_app; eauto|]. apply within_nil. rewrite A5. exact A3.
    - intros c Q. rewrite B5. unfold R4, set_code, fupd. cbn [code]. destruct (Nat.eqb_spec c b); [contradiction|]. rewrite B3, B2, B1. reflexivity.
  Qed.
  Lemma fold_within l : forall dn R, NoDup (dn ++ l) -> NoDup (flat_map (fun b => defs (code R b)) dn) ->
    (forall n, In n (flat_map (fun b => defs (code R b)) dn) -> exists k, snd n = Some k /\ k < cnt R (fst n)) ->
    let R' := fold_left (do_block m D) l R in NoDup (flat_map (fun b => defs (code R' b)) (dn ++ l)).
  Proof.
    induction l as [|b l IH]; intros dn R ND H1 H2; cbn [fold_left]; [rewrite app_nil_r; exact H1|].
    replace (dn ++ b :: l) with ((dn ++ [b]) ++ l) in * by (rewrite <- app_assoc; reflexivity).
    destruct (do_block_within b R) as [(W1 & W2 & W3) S]. set (R1 := do_block m D R b) in *.
    assert (Nb : ~ In b dn).
    { rewrite <- app_assoc in ND. cbn [app] in ND. apply NoDup_remove_2 in ND. intros Q. apply ND. apply in_or_app; left; exact Q. }
    assert (E : flat_map (fun b => defs (code R1 b)) (dn ++ [b]) = flat_map (fun b => defs (code R b)) dn ++ defs (code R1 b)).
    { rewrite flat_map_app. cbn [flat_map]. rewrite app_nil_r. f_equal. clear - S Nb. induction dn as [|a dn IHd]; [reflexivity|]. cbn [flat_map].
      rewrite IHd by (intros Q; apply Nb; right; exact Q). rewrite (S a) by (intros ->; apply Nb; left; reflexivity). reflexivity. }
    apply IH; [exact ND| |]; rewrite E.
    - clear E. induction (flat_map (fun b0 => defs (code R b0)) dn) as [|n t IHt]; [exact W1|]. cbn [app]. apply NoDup_cons_iff in H1. destruct H1 as [N1 N2].
      constructor; [|apply IHt; [exact N2|intros x Hx; apply H2; right; exact Hx]]. intros Q. apply in_app_or in Q. destruct Q as [Q|Q]; [contradiction|].
      destruct (H2 n (or_introl eq_refl)) as (k & K1 & K2). destruct (W3 n Q) as (j & J1 & J2). rewrite K1 in J1. injection J1 as <-. lia.
    - intros n Hn. apply in_app_or in Hn. destruct Hn as [Hn|Hn].
      + destruct (H2 n Hn) as (k & K1 & K2). exists k. split; [exact K1|]. specialize (W2 (fst n)). lia.
      + destruct (W3 n Hn) as (k & K1 & K2). exists k. split; [exact K1|lia].
  Qed.
End Once.
