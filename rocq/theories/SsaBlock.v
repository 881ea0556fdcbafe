(* One block of the renaming, and the order in which blocks are renamed. *)
Require Import ZArith List Arith Bool Lia.
From Verif Require Import DomModel DomProofs SsaModel SsaSpec SsaProofs.
Import ListNotations.

Lemma renx_ext N V V' a a' : (forall w, V' w = V w) -> renx N V a a' -> renx N V' a a'.
Proof.
  intros HE Hr. induction Hr as [v i [X Y]|z|op a1 a2 a3 a4 Ha IHa Hb IHb]; constructor; auto.
  split; [|exact Y]. intros k Hk. apply X. rewrite <- HE. exact Hk.
Qed.
Lemma ops_ren_ext N V l l' V1 : ops_ren N V l l' V1 -> forall V2, (forall w, V2 w = V1 w) -> ops_ren N V l l' V2.
Proof.
  induction 1; intros V2 HE; constructor; auto. intros w. rewrite HE. apply H.
Qed.
Lemma ops_ren_ext_l N V l l' V1 : ops_ren N V l l' V1 -> forall V2, (forall w, V2 w = V w) -> ops_ren N V2 l l' V1.
Proof.
  induction 1 as [V V' H|V e e' t t' V' H1 H2 IH|V v k e e' t t' V' H0 H1 H2 IH]; intros V2 HE.
  - constructor. intros w. rewrite HE. apply H.
  - constructor; [eapply renx_ext; eauto|auto].
  - constructor; [exact H0|eapply renx_ext; eauto|]. apply IH. intros w. unfold fupd. rewrite HE. reflexivity.
Qed.
Lemma end_ren_ext N V V' e e' : (forall w, V' w = V w) -> end_ren N V e e' -> end_ren N V' e e'.
Proof. intros HE H. destruct H; constructor; eapply renx_ext; eauto. Qed.
Lemma Forall2_filled_fst b V l l' : Forall2 (filled b V) l l' -> map fst l' = map fst l.
Proof. induction 1 as [|x y l l' [H _] H2 IH]; [reflexivity|]. cbn [map]. rewrite H, IH. reflexivity. Qed.
Lemma end_ren_succs N V e e' : end_ren N V e e' -> succs e' = succs e.
Proof. intros H. destruct H; reflexivity. Qed.

Lemma Forall2_impl (A B : Type) (P Q : A -> B -> Prop) l l' : (forall x y, P x y -> Q x y) -> Forall2 P l l' -> Forall2 Q l l'.
Proof. intros H. induction 1; constructor; auto. Qed.

Section Block.
  Variable D : dmap.
  Variable N : nat -> Prop.
  Variable m : mode.

  Lemma set_code_rel R C c : rel R C <-> rel (set_code R c) C.
  Proof. reflexivity. Qed.
  Lemma reach_set_code R c b w : reach D (set_code R c) b w = reach D R b w.
  Proof. unfold reach. apply climb_frame; reflexivity. Qed.
  Lemma fresh_set_code R c b w : fresh D R b w -> fresh D (set_code R c) b w.
  Proof. intros H k. rewrite reach_set_code. apply H. Qed.
  Lemma set_code_keeps b R c : keeps D b R (set_code R c).
  Proof. split; [intros; apply reach_set_code|]. split; [reflexivity|]. intros dn C _ H1 H2. exists C. split; assumption. Qed.
  Lemma filled_ext b V V' x y : (forall w, V' w = V w) -> filled b V x y -> filled b V' x y.
  Proof.
    intros HE [H1 H2]. split; [exact H1|]. intros L. destruct (H2 L) as (h & A & B). exists h. split; [|exact B].
    intros k Hk. apply A. rewrite <- HE. exact Hk.
  Qed.

  Lemma fill_succs_spec b V l : NoDup l -> forall R C, rel R C -> untouched N R -> (forall w, reach D R b w = V w) ->
    (forall s, In s l -> allowed D m R b (b_phis (code R s))) ->
    let R' := fold_left (fill_succ m D b) l R in
    (forall w, reach D R' b w = V w) /\ keeps D b R R' /\ untouched N R' /\ (exists C', rel R' C') /\
    forall c, b_ops (code R' c) = b_ops (code R c) /\ b_end (code R' c) = b_end (code R c) /\
      (In c l -> Forall2 (filled b V) (b_phis (code R c)) (b_phis (code R' c))) /\
      (~ In c l -> b_phis (code R' c) = b_phis (code R c)).
  Proof.
    induction l as [|s l IH]; intros ND R C H HU HV HA; cbn [fold_left].
    - split; [exact HV|]. split; [apply keeps_refl|]. split; [exact HU|]. split; [exists C; exact H|].
      intros c. split; [reflexivity|]. split; [reflexivity|]. split; [intros []|reflexivity].
    - apply NoDup_cons_iff in ND. destruct ND as [Ns ND].
      cbv zeta. assert (EFS : fill_succ m D b R s = let '(R1, l1) := fill m D b s R (b_phis (code R s)) in set_code R1 (fupd (code R1) s (mkblk l1 (b_ops (code R1 s)) (b_end (code R1 s))))) by reflexivity.
      rewrite EFS. clear EFS. destruct (fill m D b s R (b_phis (code R s))) as [R1 l1] eqn:E1.
      destruct (fill_spec D N m b s V _ R C H HU HV (HA s (or_introl eq_refl)) R1 l1 E1) as (F1 & F2 & U1 & EC & K1 & FR & C1 & H1).
      set (R2 := set_code R1 _).
      assert (EB : forall c, c <> s -> code R2 c = code R c).
      { intros c Nc. unfold R2, set_code, fupd. cbn [code]. destruct (Nat.eqb_spec c s); [contradiction|]. rewrite EC. reflexivity. }
      assert (ES : code R2 s = mkblk l1 (b_ops (code R s)) (b_end (code R s))).
      { unfold R2, set_code, fupd. cbn [code]. rewrite Nat.eqb_refl, EC. reflexivity. }
      assert (HA2 : forall t, In t l -> allowed D m R2 b (b_phis (code R2 t))).
      { intros t Ht. rewrite (EB t) by (intros ->; contradiction). destruct (HA t (or_intror Ht)) as [E|[E Q]]; [left; exact E|].
        right. split; [exact E|]. intros x Hx. apply fresh_set_code. apply FR. apply Q, Hx. }
      assert (F3 : forall w, reach D R2 b w = V w) by (intros w; unfold R2; rewrite reach_set_code; apply F2).
      destruct (IH ND R2 C1 H1 U1 F3 HA2) as (I1 & I2 & I3 & I4 & I5).
      split; [exact I1|]. split.
      { eapply keeps_trans; [exact K1|]. eapply keeps_trans; [apply set_code_keeps|exact I2]. }
      split; [exact I3|]. split; [exact I4|].
      intros c. destruct (I5 c) as (J1 & J2 & J3 & J4). destruct (Nat.eq_dec c s) as [->|Nc].
      + rewrite J1, J2, (J4 Ns), ES. cbn [b_ops b_end b_phis]. split; [reflexivity|]. split; [reflexivity|]. split; [intros _; exact F1|].
        intros Q. exfalso; apply Q; left; reflexivity.
      + rewrite J1, J2, (EB c Nc). split; [reflexivity|]. split; [reflexivity|]. rewrite (EB c Nc) in J3, J4. split.
        * intros [Q|Q]; [congruence|apply J3, Q].
        * intros Q. apply J4. intros Q2; apply Q; right; exact Q2.
  Qed.

  Definition good_blk (B : blk) : Prop :=
    (forall n ops, In (n, ops) (b_phis B) -> def_ok N n) /\ (forall o, In o (b_ops B) -> plain_op o) /\
    (forall n e, In (IAssign n e) (b_ops B) -> ~ N (fst n)) /\ plain_end (b_end B).
  Definition usable (R : rst) (b : nat) : Prop :=
    m = ForPred \/ m = AsIs /\ forall s x, In s (succs (b_end (code R b))) -> In x (b_phis (code R s)) -> mentions (fst (fst x)) (code R b).

  Lemma do_block_spec b R C : In b (D b) -> rel R C -> untouched N R -> good_blk (code R b) -> usable R b ->
    let R' := do_block m D R b in
    block_ren N (reach D R b) (code R b) (code R' b) (reach D R' b) /\ keeps D b R R' /\ untouched N R' /\ (exists C', rel R' C') /\
    exists ph, map snd ph = map snd (b_phis (code R b)) /\ map (fun x : phi => fst (fst x)) ph = map (fun x : phi => fst (fst x)) (b_phis (code R b)) /\
    forall c, let old := if Nat.eqb c b then ph else b_phis (code R c) in
      (c <> b -> b_ops (code R' c) = b_ops (code R c) /\ b_end (code R' c) = b_end (code R c)) /\
      (In c (succs (b_end (code R b))) -> Forall2 (filled b (reach D R' b)) old (b_phis (code R' c))) /\
      (~ In c (succs (b_end (code R b))) -> b_phis (code R' c) = old).
  Proof.
    intros Hb H HU (G1 & G2 & G3 & G4) HM. unfold do_block.
    destruct (do_phis D b R (b_phis (code R b))) as [R1 ph] eqn:E1.
    destruct (do_ops D b R1 (b_ops (code R b))) as [R2 ops] eqn:E2.
    destruct (do_end D b R2 (b_end (code R b))) as [R3 en] eqn:E3.
    destruct (do_phis_spec D N b Hb _ G1 _ R C H HU (fun w => eq_refl) R1 ph E1) as (P1 & P2 & PP & P3).
    pose proof PP as (U1 & X1 & K1 & F1 & C1 & H1).
    destruct (do_ops_spec D N b Hb _ G2 G3 _ R1 C1 H1 U1 (fun w => eq_refl) R2 ops E2) as (Q1 & QP & Q3).
    pose proof QP as (U2 & X2 & K2 & F2 & C2 & H2).
    destruct (do_end_spec D N b _ R2 C2 _ G4 H2 U2 (fun w => eq_refl) R3 en E3) as (S1 & S2 & SP & S3).
    pose proof SP as (U3 & X3 & K3 & F3 & C3 & H3).
    assert (ESU : succs en = succs (b_end (code R b))) by (eapply end_ren_succs; exact S1).
    set (R4 := set_code R3 (fupd (code R3) b (mkblk ph ops en))).
    assert (EC : forall c, code R4 c = if Nat.eqb c b then mkblk ph ops en else code R c).
    { intros c. unfold R4, set_code, fupd. cbn [code]. destruct (Nat.eqb c b); [reflexivity|]. rewrite X3, X2, X1. reflexivity. }
    assert (EF : map (fun x : phi => fst (fst x)) ph = map (fun x : phi => fst (fst x)) (b_phis (code R b))).
    { assert (Z : forall V V' l l', phis_ren N V l l' V' -> map fst l' = map fst l).
      { intros V V' l l' HH. induction HH; [reflexivity|]. cbn [map fst]. f_equal. assumption. }
      specialize (Z _ _ _ _ P1). rewrite !map_map in Z. exact Z. }
    assert (ND : NoDup (succs en)).
    { rewrite ESU. destruct (b_end (code R b)) as [d|c t f|x]; cbn [succs]; [constructor; [intros []|constructor]| |constructor].
      destruct G4 as [_ G4]. constructor; [intros [Q|[]]; congruence|]. constructor; [intros []|constructor]. }
    assert (HA : forall s, In s (succs en) -> allowed D m R4 b (b_phis (code R4 s))).
    { intros s Hs. destruct HM as [E|[E HM]]; [left; exact E|]. right. split; [exact E|]. intros x Hx. rewrite ESU in Hs.
      assert (MM : mentions (fst (fst x)) (code R b)).
      { rewrite EC in Hx. destruct (Nat.eqb_spec s b) as [->|Q].
        - cbn [b_phis] in Hx. assert (I : In (fst (fst x)) (map (fun x : phi => fst (fst x)) (b_phis (code R b)))).
          { rewrite <- EF. apply (in_map (fun x : phi => fst (fst x))). exact Hx. }
          apply in_map_iff in I. destruct I as (y & <- & Hy). apply (HM b y Hs Hy).
        - apply (HM s x Hs Hx). }
      apply fresh_set_code. destruct MM as [MM|[(o & Ho & MM)|MM]].
      - apply F3, F2. apply (P3 (fst (fst x), None)). exact MM.
      - apply F3. apply (Q3 o); assumption.
      - apply S3. exact MM. }
    destruct (fill_succs_spec b (reach D R3 b) (succs en) ND R4 C3 H3 U3 (fun w => reach_set_code R3 _ b w) HA) as (W1 & W2 & W3 & W4 & W5).
    set (R5 := fold_left (fill_succ m D b) (succs en) R4) in *. cbv zeta.
    split; [|split; [|split; [exact W3|split; [exact W4|]]]].
    - exists (reach D R1 b). destruct (W5 b) as (Y1 & Y2 & Y3 & Y4). rewrite (EC b), Nat.eqb_refl in Y1, Y2, Y3, Y4. cbn [b_phis b_ops b_end] in *.
      split; [|split].
      + assert (M : map fst (b_phis (code R5 b)) = map fst ph).
        { destruct (in_dec Nat.eq_dec b (succs en)) as [I|I]; [eapply Forall2_filled_fst; apply (Y3 I)|rewrite (Y4 I); reflexivity]. }
        rewrite M. exact P1.
      + rewrite Y1. eapply ops_ren_ext; [exact Q1|]. intros w. rewrite W1, S2. reflexivity.
      + rewrite Y2. eapply end_ren_ext; [exact W1|exact S1].
    - eapply keeps_trans; [exact K1|]. eapply keeps_trans; [exact K2|]. eapply keeps_trans; [exact K3|]. eapply keeps_trans; [apply set_code_keeps|exact W2].
    - exists ph. split; [exact P2|]. split; [exact EF|]. intros c. destruct (W5 c) as (Y1 & Y2 & Y3 & Y4). rewrite <- ESU.
      rewrite (EC c) in Y1, Y2, Y3, Y4. destruct (Nat.eqb_spec c b) as [Q|Q]; [subst c|]; cbn [b_phis b_ops b_end] in *.
      + split; [congruence|]. split; [|exact Y4]. intros I. eapply Forall2_impl; [|exact (Y3 I)]. intros x y. apply filled_ext. exact W1.
      + split; [auto|]. split; [|exact Y4]. intros I. eapply Forall2_impl; [|exact (Y3 I)]. intros x y. apply filled_ext. exact W1.
  Qed.

  (* ---------- the order of the blocks ---------- *)
  Fixpoint preorder (fuel : nat) (bbs : list nat) (b : nat) : option (list nat) :=
    match fuel with
    | O => None
    | S f => option_map (cons b)
               (fold_left (fun o c => match o, preorder f bbs c with Some l, Some l' => Some (l ++ l') | _, _ => None end)
                          (children D bbs b) (Some []))
    end.
  Lemma fold_none (A B : Type) (f : option A -> B -> option A) l : (forall b, f None b = None) -> fold_left f l None = None.
  Proof. intros H. induction l as [|x l IH]; [reflexivity|]. cbn [fold_left]. rewrite H. exact IH. Qed.
  Lemma walk_preorder fuel bbs : forall R b,
    walk_tree m D fuel bbs R b = option_map (fun l => fold_left (do_block m D) l R) (preorder fuel bbs b).
  Proof.
    induction fuel as [|f IH]; intros R b; [reflexivity|]. cbn [walk_tree preorder].
    set (R0 := do_block m D R b). generalize (children D bbs b) as cs.
    assert (G : forall cs l0, fold_left (fun o c => match o with None => None | Some R1 => walk_tree m D f bbs R1 c end) cs (Some (fold_left (do_block m D) l0 R0)) =
      option_map (fun l => fold_left (do_block m D) l R0)
        (fold_left (fun o c => match o, preorder f bbs c with Some l, Some l' => Some (l ++ l') | _, _ => None end) cs (Some l0))).
    { induction cs as [|c cs IHc]; intros l0; [reflexivity|]. cbn [fold_left]. rewrite IH. destruct (preorder f bbs c) as [l'|]; cbn [option_map].
      - rewrite <- fold_left_app. apply IHc.
      - rewrite !fold_none by reflexivity. reflexivity. }
    intros cs. specialize (G cs []). cbn [fold_left] in G. rewrite G. unfold option_map. destruct (fold_left _ cs (Some [])); reflexivity.
  Qed.
End Block.
