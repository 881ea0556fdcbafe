(* The reaching definitions kept by the renaming. *)
Require Import ZArith List Arith Bool Lia.
From Verif Require Import DomModel DomProofs SsaModel SsaSpec.
Import ListNotations.

(* ---------- chains ---------- *)
Inductive chained (pv : nat -> option nat) : option nat -> list nat -> Prop :=
| ch_nil : chained pv None []
| ch_cons k l : chained pv (pv k) l -> chained pv (Some k) (k :: l).
Inductive desc : nat -> list nat -> Prop :=
| de_nil n : desc n []
| de_cons n k l : k < n -> desc k l -> desc n (k :: l).
Lemma desc_le n m l : desc n l -> n <= m -> desc m l.
Proof. intros H L. destruct H; constructor; [lia|assumption]. Qed.
Lemma desc_in n l : desc n l -> forall k, In k l -> k < n.
Proof.
  induction 1 as [|n k l Hk H IH]; intros j Hj; [destruct Hj|]. destruct Hj as [<-|Hj]; [lia|]. specialize (IH j Hj). lia.
Qed.
Lemma desc_len n l : desc n l -> length l <= n.
Proof. induction 1; cbn [length]; lia. Qed.
Lemma chained_ext pv pv' c l : chained pv c l -> (forall k, In k l -> pv' k = pv k) -> chained pv' c l.
Proof.
  induction 1 as [|k l H IH]; intros E; constructor. rewrite (E k (or_introl eq_refl)). apply IH. intros j Hj. apply E; right; exact Hj.
Qed.
Lemma chained_fun pv c l : chained pv c l -> forall l', chained pv c l' -> l = l'.
Proof. induction 1 as [|k l H IH]; intros l' H'; inversion H'; subst; [reflexivity|]. f_equal. apply IH. assumption. Qed.

Section Reach.
  Variable D : dmap.
  Notation climb := (climb D). Notation upd_reach := (upd_reach D). Notation define := (define D). Notation use_expr := (use_expr D).
  Definition rel (R : rst) (C : nat -> list nat) : Prop :=
    forall v, chained (prev R v) (head R v) (C v) /\ desc (cnt R v) (C v).
  (* the definition of v visible in block b *)
  Definition dom (R : rst) (b v k : nat) : bool := memb (dblk R v k) (D b).
  Definition reach (R : rst) (b v : nat) : option nat := climb (S (cnt R v)) R v b (head R v).

  Lemma climb_find R v b l : forall f c, chained (prev R v) c l -> length l <= f -> climb f R v b c = find (dom R b v) l.
  Proof.
    induction l as [|k l IH]; intros f c H L; inversion H; subst.
    - destruct f; reflexivity.
    - destruct f as [|f]; [cbn [length] in L; lia|]. cbn [SsaModel.climb find]. unfold dom at 1. destruct (memb _ _); [reflexivity|].
      apply IH; [assumption|cbn [length] in L; lia].
  Qed.
  Lemma reach_find R C b v : rel R C -> reach R b v = find (dom R b v) (C v).
  Proof. intros H. destruct (H v) as [H1 H2]. apply climb_find; [exact H1|]. apply desc_len in H2. lia. Qed.

  (* a chain cut at a given element *)
  Lemma cut R v (l : list nat) (f : nat -> bool) k : forall c n, chained (prev R v) c l -> desc n l -> find f l = Some k ->
    exists l', chained (prev R v) (Some k) l' /\ desc n l' /\ (forall g, (forall j, g j = true -> f j = true) -> find g l' = find g l) /\
      (forall j, In j l' -> In j l) /\ hd_error l' = Some k.
  Proof.
    induction l as [|j l IH]; intros c n H Hd Hf; [discriminate|]. cbn [find] in Hf. destruct (f j) eqn:E.
    - injection Hf as ->. exists (k :: l). inversion H; subst. split; [exact H|]. split; [exact Hd|]. split; [reflexivity|]. split; [auto|reflexivity].
    - inversion H as [|? ? Hc]; subst. inversion Hd as [|? ? ? Hlt Hde]; subst. destruct (IH _ _ Hc Hde Hf) as (l' & A & B & F & I & Hh).
      exists l'. split; [exact A|]. split; [eapply desc_le; [exact B|lia]|]. split; [|split; [intros i Hi; right; auto|exact Hh]].
      intros g Hg. rewrite (F g Hg). cbn [find]. destruct (g j) eqn:G; [|reflexivity]. rewrite (Hg j G) in E. discriminate.
  Qed.

  (* effect of a computation in block b on the reaching definitions *)
  Definition owned (R : rst) (C : nat -> list nat) (dn : list nat) : Prop := forall v k, In k (C v) -> In (dblk R v k) dn.
  Definition keeps (b : nat) (R R' : rst) : Prop :=
    (forall a w, incl (D a) (D b) -> ~ In b (D a) -> reach R' a w = reach R a w) /\
    (forall w, cnt R w <= cnt R' w) /\
    (forall dn C, In b dn -> rel R C -> owned R C dn -> exists C', rel R' C' /\ owned R' C' dn).
  Lemma keeps_refl b R : keeps b R R.
  Proof. split; [auto|split; [auto|]]. intros dn C _ H1 H2. exists C. auto. Qed.
  Lemma keeps_trans b R1 R2 R3 : keeps b R1 R2 -> keeps b R2 R3 -> keeps b R1 R3.
  Proof.
    intros (A1 & B1 & C1) (A2 & B2 & C2). split; [|split].
    - intros a w H1 H2. rewrite A2, A1 by assumption. reflexivity.
    - intros w. specialize (B1 w). specialize (B2 w). lia.
    - intros dn C Hb H1 H2. destruct (C1 dn C Hb H1 H2) as (C' & H3 & H4). exact (C2 dn C' Hb H3 H4).
  Qed.
  Definition fresh (R : rst) (b v : nat) : Prop := forall k, reach R b v = Some k -> head R v = Some k.

  Lemma climb_frame R R' v b : (forall k, dblk R' v k = dblk R v k) -> (forall k, prev R' v k = prev R v k) ->
    forall f c, climb f R' v b c = climb f R v b c.
  Proof.
    intros H1 H2. induction f as [|f IH]; intros [k|]; try reflexivity. cbn [SsaModel.climb]. rewrite H1, H2, IH. reflexivity.
  Qed.

  Lemma upd_reach_spec R C v b : rel R C ->
    let R' := upd_reach R v b in
    (exists C', rel R' C' /\ (forall w k, In k (C' w) -> In k (C w))) /\
    prev R' = prev R /\ dblk R' = dblk R /\ cnt R' = cnt R /\ code R' = code R /\
    (forall a w, incl (D a) (D b) -> reach R' a w = reach R a w) /\
    (forall w, fresh R b w -> fresh R' b w) /\ fresh R' b v.
  Proof.
    intros H R'. unfold R', SsaModel.upd_reach. fold (reach R b v). pose proof (reach_find R C b v H) as E.
    destruct (reach R b v) as [k|] eqn:Ek.
    2:{ split; [exists C; auto|]. do 4 (split; [reflexivity|]). split; [reflexivity|]. split; [auto|]. intros k Hk. congruence. }
    set (R1 := mkr _ _ _ _ _).
    destruct (H v) as [H1 H2]. symmetry in E. destruct (cut R v (C v) _ k _ _ H1 H2 E) as (l' & A & B & F & I & Hh).
    set (C' := fupd C v l').
    assert (HR : rel R1 C').
    { intros w. unfold R1, C', fupd. cbn [prev head cnt]. destruct (Nat.eqb_spec w v) as [->|N]; [split; assumption|apply H]. }
    assert (HF : forall a w, incl (D a) (D b) -> reach R1 a w = reach R a w).
    { intros a w Ha. rewrite (reach_find R1 C' a w HR), (reach_find R C a w H). unfold C', fupd.
      destruct (Nat.eqb_spec w v) as [->|N]; [|reflexivity]. apply (F (dom R a v)). intros j Hj. unfold dom in *.
      apply memb_in in Hj. apply memb_in. apply Ha, Hj. }
    split; [exists C'; split; [exact HR|]|].
    { intros w j. unfold C', fupd. destruct (Nat.eqb_spec w v) as [->|N]; [apply I|auto]. }
    do 4 (split; [reflexivity|]). split; [exact HF|].
    assert (HV : fresh R1 b v).
    { intros j Hj. rewrite (HF b v (incl_refl _)), Ek in Hj. injection Hj as <-. unfold R1, fupd. cbn [head]. rewrite Nat.eqb_refl. reflexivity. }
    split; [|exact HV]. intros w Hw j Hj. destruct (Nat.eq_dec w v) as [->|N]; [apply HV, Hj|].
    rewrite (HF b w (incl_refl _)) in Hj. unfold R1, fupd. cbn [head]. destruct (Nat.eqb_spec w v); [contradiction|]. apply Hw, Hj.
  Qed.
  Lemma upd_reach_keeps R C v b : rel R C -> keeps b R (upd_reach R v b).
  Proof.
    intros H. destruct (upd_reach_spec R C v b H) as (_ & E1 & E2 & E3 & E4 & F & _).
    split; [|split].
    - intros a w Ha _. apply F, Ha.
    - intros w. rewrite E3. lia.
    - intros dn C0 Hb H0 HO. destruct (upd_reach_spec R C0 v b H0) as ((C' & A & B) & _). exists C'. split; [exact A|].
      intros w k Hk. rewrite E2. apply HO. apply B, Hk.
  Qed.

  Lemma define_spec R C b n : rel R C -> In b (D b) ->
    forall R' n', define b R n = (R', n') ->
    let v := fst n in
    exists k, n' = (v, Some k) /\ k = cnt R v /\ cnt R' = fupd (cnt R) v (S k) /\ code R' = code R /\ keeps b R R' /\
      (forall w, reach R' b w = if Nat.eqb w v then Some k else reach R b w) /\
      (forall w, fresh R b w -> fresh R' b w) /\ fresh R' b v /\ exists C', rel R' C'.
  Proof.
    intros H Hb R' n' E v. unfold SsaModel.define in E. fold v in E.
    destruct (upd_reach_spec R C v b H) as ((C1 & A1 & B1) & E1 & E2 & E3 & E4 & F & G1 & G2).
    set (R1 := upd_reach R v b) in *. injection E as <- <-. set (k := cnt R1 v).
    exists k. split; [reflexivity|]. split; [unfold k; rewrite E3; reflexivity|]. cbn [cnt code]. split; [rewrite E3; reflexivity|]. split; [exact E4|].
    set (R2 := mkr _ _ _ _ _).
    assert (HC : forall C0, rel R1 C0 -> rel R2 (fupd C0 v (k :: C0 v))).
    { intros C0 H0 w. destruct (H0 w) as [P1 P2]. unfold R2, fupd. cbn [prev head cnt]. destruct (Nat.eqb_spec w v) as [->|N].
      - split.
        + constructor. unfold fupd2 at 2. rewrite !Nat.eqb_refl. cbn [andb]. eapply chained_ext; [exact P1|].
          intros j Hj. apply (desc_in _ _ P2) in Hj. unfold fupd2. rewrite Nat.eqb_refl. destruct (Nat.eqb_spec j k); [unfold k in *; lia|reflexivity].
        + constructor; [lia|exact P2].
      - split; [|exact P2]. eapply chained_ext; [exact P1|]. intros j _. unfold fupd2. destruct (Nat.eqb_spec w v); [contradiction|reflexivity]. }
    pose proof (HC C1 A1) as H2.
    assert (HD : forall w j, In j (C1 w) -> dblk R2 w j = dblk R1 w j).
    { intros w j Hj. unfold R2, fupd2. cbn [dblk]. destruct (Nat.eqb_spec w v) as [->|N]; [|reflexivity].
      destruct (A1 v) as [_ P2]. apply (desc_in _ _ P2) in Hj. destruct (Nat.eqb_spec j k); [unfold k in *; lia|reflexivity]. }
    assert (HD2 : dblk R2 v k = b) by (unfold R2, fupd2; cbn [dblk]; rewrite !Nat.eqb_refl; reflexivity).
    assert (HFE : forall a w, find (dom R2 a w) (C1 w) = find (dom R1 a w) (C1 w)).
    { intros a w. specialize (HD w). revert HD. induction (C1 w) as [|j l IH]; intros HD; [reflexivity|]. cbn [find]. unfold dom at 1 3.
      rewrite (HD j (or_introl eq_refl)). rewrite IH by (intros i Hi; apply HD; right; exact Hi). reflexivity. }
    assert (HR : forall a w, reach R2 a w = if Nat.eqb w v then if memb b (D a) then Some k else reach R1 a w else reach R1 a w).
    { intros a w. rewrite (reach_find R2 _ a w H2), (reach_find R1 _ a w A1). unfold fupd. destruct (Nat.eqb_spec w v) as [->|N]; [|apply HFE].
      cbn [find]. unfold dom at 1. rewrite HD2. destruct (memb b (D a)); [reflexivity|apply HFE]. }
    assert (HRb : forall w, reach R2 b w = if Nat.eqb w v then Some k else reach R b w).
    { intros w. rewrite HR. rewrite (proj2 (memb_in b (D b)) Hb). rewrite (F b w (incl_refl _)). reflexivity. }
    split; [|split; [exact HRb|split; [|split]]].
    - split; [|split].
      + intros a w Ha Hnb. rewrite HR. apply memb_out in Hnb. rewrite Hnb. rewrite (F a w Ha). destruct (Nat.eqb w v); reflexivity.
      + intros w. unfold R2, fupd. cbn [cnt]. destruct (Nat.eqb_spec w v) as [->|N]; [unfold k; rewrite E3; lia|rewrite E3; lia].
      + intros dn C0 Hd H0 HO. destruct (proj2 (proj2 (upd_reach_keeps R C0 v b H0)) dn C0 Hd H0 HO) as (C3 & P1 & P2).
        fold R1 in P1, P2. exists (fupd C3 v (k :: C3 v)). split; [apply HC; exact P1|].
        intros w j Hj. unfold fupd in Hj. destruct (Nat.eqb_spec w v) as [->|N].
        * destruct Hj as [<-|Hj]; [rewrite HD2; exact Hd|]. destruct (P1 v) as [_ P3]. pose proof (desc_in _ _ P3 _ Hj) as L.
          unfold R2, fupd2. cbn [dblk]. rewrite Nat.eqb_refl. destruct (Nat.eqb_spec j k); [unfold k in *; lia|]. apply P2, Hj.
        * unfold R2, fupd2. cbn [dblk]. destruct (Nat.eqb_spec w v); [contradiction|]. apply P2, Hj.
    - intros w Hw j Hj. rewrite HRb in Hj. unfold R2, fupd. cbn [head]. destruct (Nat.eqb_spec w v) as [->|N]; [exact Hj|].
      apply (G1 w Hw). rewrite (F b w (incl_refl _)). exact Hj.
    - intros j Hj. rewrite HRb, Nat.eqb_refl in Hj. unfold R2, fupd. cbn [head]. rewrite Nat.eqb_refl. exact Hj.
    - eexists. exact H2.
  Qed.

  (* ---------- renaming of an expression ---------- *)
  (* variables that are never assigned *)
  Variable N : nat -> Prop.
  Definition untouched (R : rst) : Prop := forall v, N v -> head R v = None.
  Definition visible (V : nat -> option nat) (v : nat) (i : option nat) : Prop :=
    (forall k, V v = Some k -> i = Some k) /\ (N v -> i = None).
  Inductive renx (V : nat -> option nat) : expr -> expr -> Prop :=
  | rx_var v i : visible V v i -> renx V (XVar (v, None)) (XVar (v, i))
  | rx_cst z : renx V (XCst z) (XCst z)
  | rx_bin op a b a' b' : renx V a a' -> renx V b b' -> renx V (XBin op a b) (XBin op a' b').
  Inductive part (V : nat -> option nat) (dn : nat -> Prop) : expr -> expr -> Prop :=
  | pt_var v i : (dn v -> visible V v i) -> (i = None \/ visible V v i) -> part V dn (XVar (v, None)) (XVar (v, i))
  | pt_cst z : part V dn (XCst z) (XCst z)
  | pt_bin op a b a' b' : part V dn a a' -> part V dn b b' -> part V dn (XBin op a b) (XBin op a' b').
  Lemma name_eqb_spec a b : reflect (a = b) (name_eqb a b).
  Proof.
    unfold name_eqb. destruct a as [v i], b as [w j]. cbn [fst snd]. destruct (Nat.eqb_spec v w) as [->|Q]; cbn [andb]; [|constructor; congruence].
    destruct i as [i|], j as [j|]; try (constructor; congruence). destruct (Nat.eqb_spec i j) as [->|Q]; constructor; congruence.
  Qed.
  Lemma name_eqb_refl a : name_eqb a a = true.
  Proof. destruct (name_eqb_spec a a); [reflexivity|congruence]. Qed.
  Lemma part_start V e : plain_expr e -> part V (fun _ => False) e e.
  Proof.
    induction e as [[v i]|z|op a IHa b IHb]; intros HP.
    - specialize (HP _ (or_introl eq_refl)). unfold plain in HP. cbn [snd] in HP. subst i. constructor; [intros []|left; reflexivity].
    - constructor.
    - constructor; [apply IHa|apply IHb]; intros n Hn; apply HP; cbn [used]; apply in_or_app; auto.
  Qed.
  Lemma part_end V dn e e' : part V dn e e' -> (forall v, In (v, None) (used e) -> dn v) -> renx V e e'.
  Proof.
    induction 1 as [v i H1 H2|z|op a b a' b' Ha IHa Hb IHb]; intros HD; constructor.
    - apply H1, HD. left; reflexivity.
    - apply IHa. intros v Hv. apply HD. cbn [used]. apply in_or_app; auto.
    - apply IHb. intros v Hv. apply HD. cbn [used]. apply in_or_app; auto.
  Qed.
  Lemma part_skip V dn v e e' : part V dn e e' -> visible V v None -> part V (fun w => w = v \/ dn w) e e'.
  Proof.
    intros H HV. induction H as [w i H1 H2|z|op a b a' b' Ha IHa Hb IHb]; constructor; auto.
    intros [->|Hw]; [destruct H2 as [->|H2]; assumption|apply H1, Hw].
  Qed.
  Lemma part_subst V dn v k e e' : part V dn e e' -> visible V v (Some k) ->
    part V (fun w => w = v \/ dn w) e (update_used (v, None) (v, Some k) e').
  Proof.
    intros H HV. induction H as [w i H1 H2|z|op a b a' b' Ha IHa Hb IHb]; cbn [update_used]; try (constructor; assumption).
    destruct (name_eqb_spec (w, i) (v, None)) as [Q|Q].
    - injection Q as -> ->. constructor; auto.
    - constructor; [|exact H2]. intros [->|Hw]; [|apply H1, Hw]. destruct H2 as [->|H2]; [congruence|exact H2].
  Qed.
  Lemma part_iff V dn (dn' : nat -> Prop) e e' : part V dn e e' -> (forall w, dn' w -> dn w) -> part V dn' e e'.
  Proof. intros H HI. induction H; constructor; auto. Qed.

  Lemma upd_untouched R v b : untouched R -> untouched (upd_reach R v b).
  Proof.
    intros H w Hw. unfold SsaModel.upd_reach. destruct (SsaModel.climb _ _ _ _ _ _) as [k|] eqn:E; [|apply H, Hw].
    cbn [head]. unfold fupd. destruct (Nat.eqb_spec w v) as [->|Q]; [|apply H, Hw].
    rewrite (H v Hw) in E. discriminate.
  Qed.
  Lemma define_untouched R b n R' n' : untouched R -> ~ N (fst n) -> define b R n = (R', n') -> untouched R'.
  Proof.
    intros H Hn E. unfold SsaModel.define in E. pose proof (upd_untouched R (fst n) b H) as H1. injection E as <- _.
    intros w Hw. cbn [head]. unfold fupd. destruct (Nat.eqb_spec w (fst n)) as [->|Q]; [contradiction|apply H1, Hw].
  Qed.

  Lemma use_fold V b e0 l : (forall n, In n l -> plain n) -> forall dn R C e, rel R C -> untouched R -> (forall w, reach R b w = V w) ->
    part V dn e0 e ->
    forall R' e', fold_left (use1 D b) l (R, e) = (R', e') ->
    part V (fun w => dn w \/ In (w, None) l) e0 e' /\ (forall w, reach R' b w = V w) /\ untouched R' /\ code R' = code R /\ cnt R' = cnt R /\ keeps b R R' /\
    (forall w, fresh R b w \/ In (w, None) l -> fresh R' b w) /\ exists C', rel R' C'.
  Proof.
    induction l as [|[v i] l IH]; intros HP dn R C e H HU HV Hp R' e' E; cbn [fold_left] in E.
    - injection E as <- <-. split; [eapply part_iff; [exact Hp|intros w [Hw|[]]; exact Hw]|]. split; [exact HV|]. split; [exact HU|]. split; [reflexivity|].
      split; [reflexivity|]. split; [apply keeps_refl|]. split; [intros w [Hw|[]]; exact Hw|]. exists C; exact H.
    - assert (i = None) by (specialize (HP _ (or_introl eq_refl)); exact HP). subst i. cbn [use1] in E.
      destruct (upd_reach_spec R C v b H) as ((C1 & A1 & B1) & E1 & E2 & E3 & E4 & F & G1 & G2).
      pose proof (upd_reach_keeps R C v b H) as K1. pose proof (upd_untouched R v b HU) as U1.
      set (R1 := upd_reach R v b) in *.
      assert (HV1 : forall w, reach R1 b w = V w) by (intros w; rewrite (F b w (incl_refl _)); apply HV).
      assert (HX : visible V v (head R1 v)).
      { split; [|apply U1]. intros k Hk. apply G2. rewrite HV1. exact Hk. }
      assert (Hp1 : part V (fun w => w = v \/ dn w) e0 (match head R1 v with None => e | Some k => update_used (v, None) (v, Some k) e end)).
      { destruct (head R1 v); [apply part_subst|apply part_skip]; assumption. }
      destruct (IH (fun n Hn => HP n (or_intror Hn)) _ R1 C1 _ A1 U1 HV1 Hp1 R' e' E) as (I1 & I2 & I3 & I4 & I5 & I6 & I7 & I8).
      split; [eapply part_iff; [exact I1|]|].
      { intros w [Hw|[Hw|Hw]]; [auto| |auto]. injection Hw as <-. auto. }
      split; [exact I2|]. split; [exact I3|]. split; [congruence|]. split; [congruence|].
      split; [eapply keeps_trans; eauto|]. split; [|exact I8].
      intros w [Hw|[Hw|Hw]]; apply I7; [left; apply G1, Hw|injection Hw as <-; left; exact G2|right; exact Hw].
  Qed.
  Lemma use_expr_spec V b R C e : rel R C -> untouched R -> (forall w, reach R b w = V w) -> plain_expr e ->
    forall R' e', use_expr b R e = (R', e') ->
    renx V e e' /\ (forall w, reach R' b w = V w) /\ untouched R' /\ code R' = code R /\ cnt R' = cnt R /\ keeps b R R' /\
    (forall w, fresh R b w \/ In (w, None) (used e) -> fresh R' b w) /\ exists C', rel R' C'.
  Proof.
    intros H HU HV HP R' e' E.
    destruct (use_fold V b e (used e) HP _ R C e H HU HV (part_start V e HP) R' e' E) as (I1 & I2).
    split; [|exact I2]. eapply part_end; [exact I1|]. intros v Hv. right; exact Hv.
  Qed.

  (* ---------- blocks ---------- *)
  Inductive phis_ren : (nat -> option nat) -> list name -> list name -> (nat -> option nat) -> Prop :=
  | pr_nil V V' : (forall w, V' w = V w) -> phis_ren V [] [] V'
  | pr_cons V v k t t' V' : ~ N v -> phis_ren (fupd V v (Some k)) t t' V' -> phis_ren V ((v, None) :: t) ((v, Some k) :: t') V'.
  Inductive ops_ren : (nat -> option nat) -> list iop -> list iop -> (nat -> option nat) -> Prop :=
  | or_nil V V' : (forall w, V' w = V w) -> ops_ren V [] [] V'
  | or_expr V e e' t t' V' : renx V e e' -> ops_ren V t t' V' -> ops_ren V (IExpr e :: t) (IExpr e' :: t') V'
  | or_assign V v k e e' t t' V' : ~ N v -> renx V e e' -> ops_ren (fupd V v (Some k)) t t' V' ->
      ops_ren V (IAssign (v, None) e :: t) (IAssign (v, Some k) e' :: t') V'.
  Inductive end_ren (V : nat -> option nat) : ending -> ending -> Prop :=
  | er_br d : end_ren V (JBr d) (JBr d)
  | er_cbr c c' t f : renx V c c' -> end_ren V (JCBr c t f) (JCBr c' t f)
  | er_ret x x' : renx V x x' -> end_ren V (JRet x) (JRet x').
  Definition block_ren (V : nat -> option nat) (A B : blk) (V' : nat -> option nat) : Prop :=
    exists V1, phis_ren V (map fst (b_phis A)) (map fst (b_phis B)) V1 /\ ops_ren V1 (b_ops A) (b_ops B) V' /\ end_ren V' (b_end A) (b_end B).

  Definition post (b : nat) (R R' : rst) : Prop :=
    untouched R' /\ code R' = code R /\ keeps b R R' /\ (forall w, fresh R b w -> fresh R' b w) /\ exists C', rel R' C'.
  Lemma post_refl b R C : untouched R -> rel R C -> post b R R.
  Proof. intros H1 H2. split; [exact H1|]. split; [reflexivity|]. split; [apply keeps_refl|]. split; [auto|]. exists C; exact H2. Qed.
  Lemma post_trans b R1 R2 R3 : post b R1 R2 -> post b R2 R3 -> post b R1 R3.
  Proof.
    intros (A1 & B1 & C1 & D1 & E1) (A2 & B2 & C2 & D2 & E2). split; [exact A2|]. split; [congruence|].
    split; [eapply keeps_trans; eauto|]. split; [auto|exact E2].
  Qed.
  Definition def_ok (n : name) : Prop := plain n /\ ~ N (fst n).

  Lemma do_phis_spec b (Hb : In b (D b)) l : (forall n ops, In (n, ops) l -> def_ok n) -> forall V R C, rel R C -> untouched R ->
    (forall w, reach R b w = V w) -> forall R' l', do_phis D b R l = (R', l') ->
    phis_ren V (map fst l) (map fst l') (reach R' b) /\ map snd l' = map snd l /\ post b R R' /\
    (forall n, In n (map fst l) -> fresh R' b (fst n)).
  Proof.
    induction l as [|[n ops] l IH]; intros HP V R C H HU HV R' l' E; cbn [do_phis] in E.
    - injection E as <- <-. split; [constructor; exact HV|]. split; [reflexivity|]. split; [eapply post_refl; eauto|]. intros n [].
    - destruct (define b R n) as [R1 n1] eqn:E1. destruct (do_phis D b R1 l) as [R2 t2] eqn:E2. injection E as <- <-.
      destruct (HP n ops (or_introl eq_refl)) as [P1 P2].
      destruct (define_spec R C b n H Hb R1 n1 E1) as (k & -> & K1 & K2 & K3 & K4 & K5 & K6 & K7 & C1 & K8).
      pose proof (define_untouched _ _ _ _ _ HU P2 E1) as U1.
      assert (HV1 : forall w, reach R1 b w = fupd V (fst n) (Some k) w).
      { intros w. rewrite K5. unfold fupd. destruct (Nat.eqb w (fst n)); [reflexivity|apply HV]. }
      destruct (IH (fun n' o' Hn => HP n' o' (or_intror Hn)) _ R1 C1 K8 U1 HV1 R2 t2 E2) as (I1 & I2 & I3 & I4).
      assert (PO : post b R R1) by (split; [exact U1|split; [exact K3|split; [exact K4|split; [exact K6|exists C1; exact K8]]]]).
      split; [|split; [|split]].
      + cbn [map fst]. destruct n as [v i]. unfold plain in P1. cbn [snd fst] in P1, P2, I1 |- *. subst i. constructor; assumption.
      + cbn [map snd]. rewrite I2. reflexivity.
      + eapply post_trans; eassumption.
      + intros n' [<-|Hn']; [|apply I4, Hn']. apply I3. exact K7.
  Qed.
  Lemma do_ops_spec b (Hb : In b (D b)) l : (forall o, In o l -> plain_op o) ->
    (forall n e, In (IAssign n e) l -> ~ N (fst n)) -> forall V R C, rel R C -> untouched R ->
    (forall w, reach R b w = V w) -> forall R' l', do_ops D b R l = (R', l') ->
    ops_ren V l l' (reach R' b) /\ post b R R' /\
    (forall o v, In o l -> op_mentions v o -> fresh R' b v).
  Proof.
    induction l as [|o l IH]; intros HP HN V R C H HU HV R' l' E; cbn [do_ops] in E.
    - injection E as <- <-. split; [constructor; exact HV|]. split; [eapply post_refl; eauto|]. intros o v [].
    - destruct (do_op D b R o) as [R1 o1] eqn:E1. destruct (do_ops D b R1 l) as [R2 t2] eqn:E2. injection E as <- <-.
      pose proof (HP o (or_introl eq_refl)) as P1.
      destruct o as [n e|e]; cbn [do_op] in E1.
      + destruct (use_expr b R e) as [R0 e1] eqn:E0. destruct (define b R0 n) as [R3 n1] eqn:E3. injection E1 as <- <-.
        destruct P1 as [P1 P2].
        destruct (use_expr_spec V b R C e H HU HV P2 R0 e1 E0) as (J1 & J2 & J3 & J4 & _ & J5 & J6 & C0 & J7).
        destruct (define_spec R0 C0 b n J7 Hb R3 n1 E3) as (k & -> & K1 & K2 & K3 & K4 & K5 & K6 & K7 & C1 & K8).
        pose proof (HN n e (or_introl eq_refl)) as P3.
        pose proof (define_untouched _ _ _ _ _ J3 P3 E3) as U1.
        assert (HV1 : forall w, reach R3 b w = fupd V (fst n) (Some k) w).
        { intros w. rewrite K5. unfold fupd. destruct (Nat.eqb w (fst n)); [reflexivity|apply J2]. }
        destruct (IH (fun o Ho => HP o (or_intror Ho)) (fun n' e' Hn => HN n' e' (or_intror Hn)) _ R3 C1 K8 U1 HV1 R2 t2 E2) as (I1 & I3 & I4).
        assert (PO : post b R R3).
        { eapply (post_trans b R R0); [split; [exact J3|split; [exact J4|split; [exact J5|split; [auto|exists C0; exact J7]]]]|].
          split; [exact U1|split; [exact K3|split; [exact K4|split; [exact K6|exists C1; exact K8]]]]. }
        split; [|split].
        * destruct n as [v i]. unfold plain in P1. cbn [snd fst] in P1, P3, I1 |- *. subst i. constructor; assumption.
        * eapply post_trans; eassumption.
        * intros o v [<-|Ho] Hm; [|eapply I4; eauto]. apply I3. destruct Hm as [->|Hm]; [exact K7|]. apply K6, J6. right; exact Hm.
      + destruct (use_expr b R e) as [R0 e1] eqn:E0. injection E1 as <- <-.
        destruct (use_expr_spec V b R C e H HU HV P1 R0 e1 E0) as (J1 & J2 & J3 & J4 & _ & J5 & J6 & C0 & J7).
        destruct (IH (fun o Ho => HP o (or_intror Ho)) (fun n' e' Hn => HN n' e' (or_intror Hn)) _ R0 C0 J7 J3 J2 R2 t2 E2) as (I1 & I3 & I4).
        split; [constructor; assumption|]. split.
        * eapply (post_trans b R R0); [split; [exact J3|split; [exact J4|split; [exact J5|split; [auto|exists C0; exact J7]]]]|exact I3].
        * intros o v [<-|Ho] Hm; [|eapply I4; eauto]. apply I3. apply J6. right; exact Hm.
  Qed.
  Lemma do_end_spec b V R C e : plain_end e -> rel R C -> untouched R -> (forall w, reach R b w = V w) ->
    forall R' e', do_end D b R e = (R', e') ->
    end_ren (reach R' b) e e' /\ (forall w, reach R' b w = V w) /\ post b R R' /\
    (forall v, match e with JBr _ => False | JCBr c _ _ => In (v, None) (used c) | JRet x => In (v, None) (used x) end -> fresh R' b v).
  Proof.
    intros HP H HU HV R' e' E.
    assert (EXT : forall V1 V2 a a', (forall w, V2 w = V1 w) -> renx V1 a a' -> renx V2 a a').
    { intros V1 V2 a a' HE Hr. induction Hr as [v i [X Y]|z|op a1 a2 a3 a4 Ha IHa Hb IHb]; constructor; auto.
      split; [|exact Y]. intros k Hk. apply X. rewrite <- HE. exact Hk. }
    destruct e as [d|c t f|x]; cbn [do_end] in E.
    - injection E as <- <-. split; [constructor|]. split; [exact HV|]. split; [eapply post_refl; eauto|intros v []].
    - destruct HP as [HP _]. destruct (use_expr b R c) as [R0 c1] eqn:E0. injection E as <- <-.
      destruct (use_expr_spec V b R C c H HU HV HP R0 c1 E0) as (J1 & J2 & J3 & J4 & _ & J5 & J6 & C0 & J7).
      split; [constructor; eapply EXT; eauto|]. split; [exact J2|].
      split; [split; [exact J3|split; [exact J4|split; [exact J5|split; [auto|exists C0; exact J7]]]]|]. auto.
    - destruct (use_expr b R x) as [R0 c1] eqn:E0. injection E as <- <-.
      destruct (use_expr_spec V b R C x H HU HV HP R0 c1 E0) as (J1 & J2 & J3 & J4 & _ & J5 & J6 & C0 & J7).
      split; [constructor; eapply EXT; eauto|]. split; [exact J2|].
      split; [split; [exact J3|split; [exact J4|split; [exact J5|split; [auto|exists C0; exact J7]]]]|]. auto.
  Qed.

  (* ---------- operands of the phi nodes of the successors ---------- *)
  Variable m : mode.
  Definition filled (b : nat) (V : nat -> option nat) (x y : phi) : Prop :=
    fst y = fst x /\
    (length (snd x) < 2 -> exists h, (forall k, V (fst (fst x)) = Some k -> h = Some k) /\
       snd y = match h with Some k => snd x ++ [(b, (fst (fst x), Some k))] | None => snd x end).
  Definition allowed (R : rst) (b : nat) (l : list phi) : Prop :=
    m = ForPred \/ m = AsIs /\ forall x, In x l -> fresh R b (fst (fst x)).
  Lemma fill_spec b s V l : forall R C, rel R C -> untouched R -> (forall w, reach R b w = V w) -> allowed R b l ->
    forall R' l', fill m D b s R l = (R', l') ->
    Forall2 (filled b V) l l' /\ (forall w, reach R' b w = V w) /\ post b R R'.
  Proof.
    induction l as [|[n ops] l IH]; intros R C H HU HV HA R' l' E; cbn [fill] in E.
    - injection E as <- <-. split; [constructor|]. split; [exact HV|eapply post_refl; eauto].
    - set (R1 := if Nat.ltb (length ops) 2 then _ else R) in E.
      destruct (fill m D b s R1 l) as [R2 t2] eqn:E2. injection E as <- <-.
      assert (HX : (forall w, reach R1 b w = V w) /\ post b R R1 /\ (length ops < 2 -> fresh R1 b (fst n))).
      { unfold R1. destruct (Nat.ltb_spec (length ops) 2) as [L|L].
        - destruct HA as [->|[-> HA]].
          + destruct (upd_reach_spec R C (fst n) b H) as ((C1 & A1 & B1) & E1 & E2' & E3 & E4 & F & G1 & G2).
            split; [intros w; rewrite (F b w (incl_refl _)); apply HV|]. split; [|auto].
            split; [apply upd_untouched, HU|]. split; [exact E4|]. split; [eapply upd_reach_keeps; eauto|]. split; [exact G1|]. exists C1; exact A1.
          + split; [exact HV|]. split; [eapply post_refl; eauto|]. intros _. apply (HA (n, ops)). left; reflexivity.
        - split; [exact HV|]. split; [eapply post_refl; eauto|]. intros; lia. }
      destruct HX as (X1 & X2 & X3). pose proof X2 as (U1 & EC & _ & FR & C1 & H1).
      assert (HA1 : allowed R1 b l).
      { destruct HA as [E|[E HA]]; [left; exact E|]. right. split; [exact E|]. intros x Hx. apply FR. apply HA. right; exact Hx. }
      destruct (IH R1 C1 H1 U1 X1 HA1 R2 t2 E2) as (I1 & I2 & I3).
      split; [|split; [exact I2|eapply post_trans; eauto]]. constructor; [|exact I1].
      split; [reflexivity|]. cbn [fst snd]. intros L. specialize (X3 L). destruct (Nat.ltb_spec (length ops) 2) as [_|L2]; [|lia].
      exists (head R1 (fst n)). split; [|reflexivity]. intros k Hk. apply X3. rewrite X1. exact Hk.
  Qed.
End Reach.
