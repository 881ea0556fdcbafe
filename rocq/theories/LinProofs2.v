(* Which nodes end up in the memo table; removal of branches to the next block. *)
From Coq Require Import List Arith Bool Lia.
From Verif Require Import LinModel LinSpec LinProofs.
Import ListNotations.

Section P.
Context {V : Type}.
Variable nodes : nat -> mnode V.
Notation operands := (operands nodes).
Notation reach := (reach nodes).
Notation reaches := (reaches nodes).
Notation lin := (lin V nodes).
Notation memo := (memo V).
Notation lst := (lst V).

Definition inmemo (st : lst) (n : nat) : Prop := assoc n (memo st) <> None.
Definition closed (st : lst) : Prop := forall n i, inmemo st n -> In i (operands n) -> inmemo st i.
Definition more (st st' : lst) : Prop := forall n, inmemo st n -> inmemo st' n.
Definition good (n : nat) (st st' : lst) : Prop := closed st' /\ more st st' /\ inmemo st' n.

Lemma inmemo_memoize : forall n r st m, inmemo (memoize V n r st) m <-> m = n \/ inmemo st m.
Proof.
  intros n r st m. unfold inmemo, LinModel.memoize. cbn [LinModel.memo assoc].
  destruct (Nat.eqb_spec m n) as [->|H]; split; auto.
  - intros _. discriminate.
  - intros [H'|H']; [contradiction|auto].
Qed.
Lemma good_memoize : forall n r st st1, closed st1 -> more st st1 -> (forall i, In i (operands n) -> inmemo st1 i) ->
  good n st (memoize V n r st1).
Proof.
  intros n r st st1 C M H. split; [|split].
  - intros m i Hm Hi. apply inmemo_memoize. apply inmemo_memoize in Hm. destruct Hm as [->|Hm]; auto. right. eapply C; eauto.
  - intros m Hm. apply inmemo_memoize. auto.
  - apply inmemo_memoize. auto.
Qed.
Lemma get_var_memo : forall x st r st', get_var V x st = (r, st') -> memo st' = memo st.
Proof. intros x st r st'. unfold LinModel.get_var. destruct (assoc x (vregs V st)); intros H; injection H as <- <-; auto. Qed.
Lemma same_memo : forall st st', memo st' = memo st -> closed st -> closed st' /\ more st st'.
Proof.
  intros st st' E C. unfold closed, more, inmemo in *. rewrite E. auto.
Qed.
Lemma lin_good : forall f n st r st' c, closed st -> lin f n st = Some (r, st', c) -> good n st st'.
Proof.
  induction f as [|f IH]; intros n st r st' c C H; [discriminate|]. cbn [LinModel.lin] in H.
  destruct (assoc n (memo st)) as [r0|] eqn:En.
  { injection H as <- <- <-. split; auto. split; [intros m Hm; auto|]. unfold inmemo. rewrite En. discriminate. }
  assert (Ops : forall k, (forall i, In i (operands n) -> i = k) -> forall st1 st2, good k st1 st2 -> forall i, In i (operands n) -> inmemo st2 i).
  { intros k Hk st1 st2 G i Hi. rewrite (Hk i Hi). apply G. }
  destruct (nodes n) as [|v|g l| | |x k|k t e|t|[k|]] eqn:Nn.
  - destruct (get_var V n st) as [q st1] eqn:Eg. injection H as <- <- <-.
    destruct (same_memo st st1 (get_var_memo _ _ _ _ Eg) C) as [C1 M1].
    apply good_memoize; auto. intros i. unfold LinSpec.operands. rewrite Nn. intros [].
  - injection H as <- <- <-. apply good_memoize; auto; [intros m; auto|]. intros i. unfold LinSpec.operands. rewrite Nn. intros [].
  - assert (Args : forall l' st0 os st1 c0, closed st0 -> lin_args V (lin f) l' st0 = Some (os, st1, c0) ->
       closed st1 /\ more st0 st1 /\ forall i, In i l' -> inmemo st1 i).
    { induction l' as [|i l' IHl]; intros st0 os st1 c0 C0 H0; cbn [lin_args] in H0.
      - injection H0 as <- <- <-. split; auto. split; [intros m; auto|intros i []].
      - destruct (lin f i st0) as [[[ri sti] ci]|] eqn:Ei; [|discriminate].
        destruct (IH _ _ _ _ _ C0 Ei) as [Ci [Mi Ii]].
        destruct (to_opnd V ri); [|discriminate].
        destruct (lin_args V (lin f) l' sti) as [[[os' st2] c2]|] eqn:Ea; [|discriminate]. injection H0 as <- <- <-.
        destruct (IHl _ _ _ _ Ci Ea) as [C2 [M2 I2]]. split; auto. split; [intros m Hm; auto|].
        intros j [<-|Hj]; auto. }
    destruct (lin_args V (lin f) l st) as [[[os st1] c1]|] eqn:Ea; [|discriminate]. injection H as <- <- <-.
    destruct (Args _ _ _ _ _ C Ea) as [C1 [M1 I1]].
    apply (good_memoize n _ st (LS V (S (next V st1)) (memo st1) (vregs V st1))); auto.
    intros i. unfold LinSpec.operands. rewrite Nn. apply I1.
  - eapply IH; eauto.
  - discriminate.
  - destruct (get_var V x st) as [vr st1] eqn:Eg. destruct (same_memo st st1 (get_var_memo _ _ _ _ Eg) C) as [C1 M1].
    destruct (lin f k st1) as [[[rk st2] c2]|] eqn:Ek; [|discriminate].
    pose proof (IH _ _ _ _ _ C1 Ek) as G. destruct rk; try discriminate; injection H as <- <- <-;
      (apply good_memoize; [apply G|intros m Hm; apply G; apply M1; auto|];
       apply (Ops k) with (st1 := st1); auto; intros i; unfold LinSpec.operands; rewrite Nn; intros [<-|[]]; auto).
  - destruct (lin f k st) as [[[rk st2] c2]|] eqn:Ek; [|discriminate]. pose proof (IH _ _ _ _ _ C Ek) as G.
    destruct (to_opnd V rk); [|discriminate]. injection H as <- <- <-.
    apply good_memoize; try apply G. apply (Ops k) with (st1 := st); auto. intros i; unfold LinSpec.operands; rewrite Nn; intros [<-|[]]; auto.
  - injection H as <- <- <-. apply good_memoize; auto; [intros m; auto|]. intros i. unfold LinSpec.operands. rewrite Nn. intros [].
  - destruct (lin f k st) as [[[rk st2] c2]|] eqn:Ek; [|discriminate]. pose proof (IH _ _ _ _ _ C Ek) as G.
    injection H as <- <- <-.
    apply good_memoize; try apply G. apply (Ops k) with (st1 := st); auto. intros i; unfold LinSpec.operands; rewrite Nn; intros [<-|[]]; auto.
  - injection H as <- <- <-. apply good_memoize; auto; [intros m; auto|]. intros i. unfold LinSpec.operands. rewrite Nn. intros [].
Qed.
Lemma closed_reach : forall st n m, closed st -> inmemo st n -> reach n m -> inmemo st m.
Proof. intros st n m C H R. induction R; auto. eapply C; eauto. Qed.
Lemma block_memo : forall f b st st' c, closed st -> lin_block V nodes f b st = Some (st', c) ->
  closed st' /\ more st st' /\ forall s, In s b -> inmemo st' s.
Proof.
  induction b as [|s b IH]; intros st st' c C H; cbn [lin_block] in H.
  - injection H as <- <-. split; auto. split; [intros m; auto|intros s []].
  - destruct (lin f s st) as [[[r st1] c1]|] eqn:E1; [|discriminate].
    destruct (lin_good _ _ _ _ _ _ C E1) as [C1 [M1 I1]].
    destruct (lin_block V nodes f b st1) as [[st2 c2]|] eqn:E2; [|discriminate]. injection H as <- <-.
    destruct (IH _ _ _ C1 E2) as [C2 [M2 I2]]. split; auto. split; [intros m Hm; auto|].
    intros s' [<-|Hs]; auto.
Qed.
Lemma prog_memo : forall f p st st' q, closed st -> lin_prog V nodes f p st = Some (st', q) ->
  closed st' /\ more st st' /\ forall s, In s (concat (map snd p)) -> inmemo st' s.
Proof.
  induction p as [|[l b] p IH]; intros st st' q C H; cbn [lin_prog] in H.
  - injection H as <- <-. split; auto. split; [intros m; auto|intros s []].
  - destruct (lin_block V nodes f b st) as [[st1 c1]|] eqn:E1; [|discriminate].
    destruct (block_memo _ _ _ _ _ C E1) as [C1 [M1 I1]].
    destruct (lin_prog V nodes f p st1) as [[st2 q2]|] eqn:E2; [|discriminate]. injection H as <- <-.
    destruct (IH _ _ _ C1 E2) as [C2 [M2 I2]]. split; auto. split; [intros m Hm; auto|].
    intros s Hs. cbn [map snd concat] in Hs. apply in_app_iff in Hs. destruct Hs; auto.
Qed.
Lemma prog_reach : forall f p st' q, lin_prog V nodes f p (ls0 V) = Some (st', q) ->
  forall m, reaches (concat (map snd p)) m -> inmemo st' m.
Proof.
  intros f p st' q H m [s [H1 H2]].
  assert (C0 : closed (ls0 V)) by (intros n i Hn; exfalso; apply Hn; reflexivity).
  destruct (prog_memo _ _ _ _ _ C0 H) as [C [_ I]]. eapply closed_reach; eauto.
Qed.

Lemma all_regs_spec : forall st l ks, all_regs V st l = Some ks <-> Forall2 (fun n k => assoc n (memo st) = Some (RReg k)) l ks.
Proof.
  intros st. induction l as [|n l IH]; intros ks; cbn [all_regs]; split; intros H.
  - injection H as <-. constructor.
  - now inversion H.
  - unfold reg_of in H. destruct (assoc n (memo st)) as [[k|v|]|] eqn:E; try discriminate.
    destruct (all_regs V st l) as [ks'|] eqn:El; [|discriminate]. injection H as <-. constructor; auto. now apply IH.
  - inversion H as [|? k ? ks' H1 H2]. unfold reg_of. rewrite H1. apply IH in H2. now rewrite H2.
Qed.
Lemma all_regs_some : forall st l, (forall n, In n l -> exists k, assoc n (memo st) = Some (RReg k)) -> exists ks, all_regs V st l = Some ks.
Proof.
  intros st. induction l as [|n l IH]; intros H; cbn [all_regs]; [eauto|].
  destruct (H n (or_introl eq_refl)) as [k Hk]. unfold reg_of. rewrite Hk. destruct IH as [ks ->]; eauto.
  intros m Hm. apply H. now right.
Qed.
Lemma all_regs_inv : forall st l ks, all_regs V st l = Some ks -> forall n, In n l -> exists k, In k ks /\ assoc n (memo st) = Some (RReg k).
Proof.
  intros st l ks H n Hn. apply all_regs_spec in H. induction H as [|m k l ks H1 H2 IH]; [destruct Hn|].
  destruct Hn as [->|Hn]; [exists k; split; auto; now left|]. destruct (IH Hn) as [k' [A B]]. exists k'. split; auto. now right.
Qed.

(* ---- the fallback pass *)
Variable truth : V -> bool.
Notation mexec := (mexec truth).
Lemma find_label_nth : forall {A} (p : list (nat * A)) i l b, NoDup (map fst p) -> nth_error p i = Some (l, b) -> find_label l p = Some i.
Proof.
  intros A. induction p as [|[l0 b0] p IH]; intros i l b N H; [destruct i; discriminate|].
  cbn [map fst] in N. inversion N as [|? ? N1 N2]. destruct i as [|i]; cbn [nth_error] in H; cbn [find_label].
  - injection H as -> ->. now rewrite Nat.eqb_refl.
  - destruct (Nat.eqb_spec l l0) as [->|].
    + exfalso. apply N1. apply nth_error_In in H. apply in_map_iff. exists (l0, b). auto.
    + rewrite (IH i l b); auto.
Qed.
Lemma find_label_fst : forall {A B} (p : list (nat * A)) (q : list (nat * B)) l, map fst p = map fst q -> find_label l p = find_label l q.
Proof.
  intros A B. induction p as [|[l0 b0] p IH]; intros [|[l1 b1] q] l H; try discriminate; auto.
  cbn [map fst] in H. injection H as -> H. cbn [find_label]. destruct (l =? l1); auto. f_equal. auto.
Qed.
Lemma mexec_last_branch : forall c t regs,
  (mexec regs (c ++ [IBr t]) = mexec regs c /\ forall e, mexec regs c <> Fall e) \/
  exists e, mexec regs c = Fall e /\ mexec regs (c ++ [IBr t]) = Jump t e.
Proof.
  induction c as [|i c IH]; intros t regs; cbn [app LinSpec.mexec]; [eauto|].
  destruct i; auto.
  - destruct (truth (opval regs c0)); auto. left. split; auto. intros e. discriminate.
  - left. split; auto. discriminate.
  - left. split; auto. discriminate.
Qed.
Lemma drop_cases : forall c l, drop_last_branch V c l = c \/ exists c0, c = c0 ++ [IBr l] /\ drop_last_branch V c l = c0.
Proof.
  intros c l. unfold drop_last_branch. destruct (rev c) as [|i r] eqn:E; auto. destruct i; auto.
  destruct (Nat.eqb_spec t l) as [->|]; auto. right. exists (rev r). split; auto.
  rewrite <- (rev_involutive c), E. reflexivity.
Qed.
Lemma fallback_fst : forall q, map fst (fallback V q) = map fst q.
Proof.
  induction q as [|[l c] q IH]; auto. destruct q as [|[l' c'] q]; auto.
  cbn [fallback map fst]. f_equal. apply IH.
Qed.
Lemma fallback_nth : forall q i l c, nth_error q i = Some (l, c) -> exists c', nth_error (fallback V q) i = Some (l, c') /\
  (c' = c \/ exists l' b', nth_error q (S i) = Some (l', b') /\ c = c' ++ [IBr l']).
Proof.
  induction q as [|[l0 c0] q IH]; intros i l c H; [destruct i; discriminate|].
  destruct q as [|[l1 c1] q].
  - exists c. split; auto.
  - destruct i as [|i].
    + cbn in H. injection H as <- <-. cbn [fallback nth_error]. exists (drop_last_branch V c0 l1). split; auto.
      destruct (drop_cases c0 l1) as [->|[c2 [E ->]]]; auto. right. exists l1, c1. auto.
    + cbn [nth_error] in H. destruct (IH i l c H) as [c' [H1 H2]]. exists c'. split; auto.
Qed.
Lemma fallback_none : forall q i, nth_error q i = None -> nth_error (fallback V q) i = None.
Proof.
  intros q i H. apply nth_error_None in H. apply nth_error_None. rewrite <- (map_length fst), fallback_fst, map_length. auto.
Qed.
Lemma fallback_run : forall q, NoDup (map fst q) -> forall k i regs,
  run mexec (fallback V q) k i regs = run mexec q k i regs.
Proof.
  intros q N. induction k as [|k IH]; intros i regs; auto. cbn [run].
  destruct (nth_error q i) as [[l c]|] eqn:E.
  - destruct (fallback_nth q i l c E) as [c' [H1 H2]]. rewrite H1.
    assert (FL : forall t, find_label t (fallback V q) = find_label t q) by (intros t; apply find_label_fst, fallback_fst).
    assert (Same : match mexec regs c with
      | Fall env' => run mexec (fallback V q) k (S i) env'
      | Jump l0 env' => match find_label l0 (fallback V q) with Some j => run mexec (fallback V q) k j env' | None => RStuck l0 env' end
      | Ret n env' => RRet n env' end =
      match mexec regs c with
      | Fall env' => run mexec q k (S i) env'
      | Jump l0 env' => match find_label l0 q with Some j => run mexec q k j env' | None => RStuck l0 env' end
      | Ret n env' => RRet n env' end).
    { destruct (mexec regs c); auto. rewrite FL. destruct (find_label l0 q); auto. }
    destruct H2 as [->|[l' [b' [H2 ->]]]]; auto.
    destruct (mexec_last_branch c' l' regs) as [[H3 H4]|[e [H3 H4]]].
    + rewrite <- Same, H3. auto.
    + rewrite H3, H4. rewrite (find_label_nth q (S i) l' b' N H2). apply IH.
  - rewrite (fallback_none q i E). auto.
Qed.
End P.
