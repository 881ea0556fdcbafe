(* C42: structured code to basic blocks. *)
From Coq Require Import List Arith Bool Lia.
From Verif Require Import DomModel DomProofs DomProps BlocksModel BlocksProofs.
Import ListNotations.

(* ------------------------------------------------------------------ *)
(* same executions                                                      *)
(* ------------------------------------------------------------------ *)
(* whatever the meaning of assignments, conditions and returned expressions: the
   blocks terminate exactly when the structured program does, with the same returned
   value or the same final state *)
Theorem blocks_same_execution : forall (A C R S V : Type) (doA : A -> S -> S) (evC : C -> S -> bool) (evR : R -> S -> V) (t : stmt A C R) p,
  generate t = Some p ->
  forall s o, ev A C R S V doA evC evR t s o <-> exists n, run A C R S V doA evC evR n (store p) (0, 0, s) = Some o.
Proof.
  intros A C R S V doA evC evR t p H s o. unfold generate in H. destruct (tr t init_state) as [[e s']|] eqn:E; [|discriminate]. injection H as <-.
  destruct (good_all A C R S V doA evC evR t init_state e s' 0) as (_ & I & c & Hc & D & F & _ & _ & Hcor); auto.
  { intros b [<-|[]]. cbn. lia. }
  destruct (Hcor (store s')) as (A1 & A2 & A3); [intros b Hb; apply prefix_refl|]. cbn [init_state store length] in *.
  assert (L : forall x, run A C R S V doA evC evR 1 (store s') (c, length (store s' c), x) = Some (Normal S V x)).
  { intros x. cbn [run]. unfold step. replace (nth_error (store s' c) (length (store s' c))) with (@None (instr A C R)); auto. symmetry. apply nth_error_None. auto. }
  split.
  - destruct o as [s1|v]; intros He; [eapply A1; [apply He|apply L]|apply A2; auto].
  - intros [n Hn]. destruct (A3 s n o Hn) as [(v & -> & He)|(s1 & n' & _ & He & Hr)]; auto.
    destruct n' as [|n']; [discriminate|]. cbn [run] in Hr. specialize (L s1). cbn [run] in L. destruct (step A C R S V doA evC evR (store s') (c, length (store s' c), s1)); [|discriminate]. congruence.
Qed.

(* ------------------------------------------------------------------ *)
(* which programs are accepted                                          *)
(* ------------------------------------------------------------------ *)
Section Shape.
Variables A C R : Type.
Notation stmt := (stmt A C R).
Notation tstate := (tstate A C R).

(* no condition and no loop at any depth *)
Fixpoint plain (t : stmt) : bool :=
  match t with
  | SOp _ | SRet _ => true
  | SSeq l => forallb plain l
  | SIf _ _ _ | SLoop _ _ _ => false
  end.
(* None: rejected.  Otherwise, whether the statement has just returned.  dead: the
   statement itself follows a return in the same block. *)
Fixpoint shape (t : stmt) (dead : bool) : option bool :=
  match t with
  | SOp _ => Some dead
  | SRet _ => Some true
  | SSeq l => (fix go (l : list stmt) (dead : bool) : option bool :=
                 match l with [] => Some dead | x :: r => match shape x dead with None => None | Some d => go r d end end) l dead
  | SIf _ t e =>
    match shape t false, match e with None => Some false | Some e => shape e false end with
    | Some _, Some _ => if dead then None else Some false
    | _, _ => None
    end
  | SLoop i _ b =>
    match shape i dead, shape b false with
    | Some false, Some false => if plain i then Some false else None
    | _, _ => None
    end
  end.
Definition shapel := (fix go (l : list stmt) (dead : bool) : option bool :=
  match l with [] => Some dead | x :: r => match shape x dead with None => None | Some d => go r d end end).

Definition open_top (s : tstate) (c : nat) : Prop := fin s c = false -> ~ closed_block A C R s c.
Lemma add_to_bb_open : forall (s : tstate) b i, fin s b = false -> ~ closed_block A C R s b -> add_to_bb s b i = Some (append s b i).
Proof.
  intros s b i F N. unfold add_to_bb. rewrite F. cbn [negb andb]. destruct (rev (store s b)) as [|x r] eqn:E; auto.
  destruct (is_control x) eqn:K; auto. exfalso. apply N. right. exists (rev r), x. split; auto. rewrite <- (rev_involutive (store s b)), E. reflexivity.
Qed.
Lemma add_to_bb_closed : forall (s : tstate) b i, closed_block A C R s b -> add_to_bb s b i = None.
Proof. intros s b i H. destruct (add_to_bb s b i) eqn:E; auto. exfalso. apply add_to_bb_some in E. destruct E as [_ N]. auto. Qed.

(* the structural facts of the simulation, without the semantics *)
Lemma tr_struct : forall (t : stmt) (s : tstate) e s' c, inv A C R s -> cur s = Some c -> tr t s = Some (e, s') ->
  e = c /\ inv A C R s' /\ exists c', cur s' = Some c' /\ (c' = c \/ nxt s <= c') /\ frame A C R c s s' /\ (c' <> c -> closed_block A C R s' c).
Proof.
  intros t s e s' c I Hc H.
  destruct (good_all A C R unit unit (fun _ x => x) (fun _ _ => true) (fun _ x => x) t s e s' c I Hc H) as (X & I' & c' & C' & D & F & K & _ & _). eauto 10.
Qed.
Lemma trl_struct : forall (l : list stmt) (s : tstate) s' c, inv A C R s -> cur s = Some c -> trl A C R l s = Some s' ->
  inv A C R s' /\ exists c', cur s' = Some c' /\ (c' = c \/ nxt s <= c') /\ frame A C R c s s' /\ (c' <> c -> closed_block A C R s' c).
Proof.
  intros l s s' c I Hc H.
  assert (E : tr (SSeq l) s = Some (c, s')) by (cbn [tr]; rewrite Hc; fold (trl A C R); rewrite H; reflexivity).
  apply tr_struct with (c := c) in E; auto. tauto.
Qed.

Definition tr_shape (t : stmt) : Prop := forall (s : tstate) c, inv A C R s -> cur s = Some c -> open_top s c ->
  match shape t (fin s c) with
  | None => tr t s = None
  | Some f => exists s' c', tr t s = Some (c, s') /\ cur s' = Some c' /\ fin s' c' = f /\ open_top s' c' /\ (if plain t then c' = c else nxt s <= c')
  end.

Lemma shape_list : forall l, Forall tr_shape l -> forall (s : tstate) c, inv A C R s -> cur s = Some c -> open_top s c ->
  match shapel l (fin s c) with
  | None => trl A C R l s = None
  | Some f => exists s' c', trl A C R l s = Some s' /\ cur s' = Some c' /\ fin s' c' = f /\ open_top s' c' /\ (if forallb plain l then c' = c else nxt s <= c')
  end.
Proof.
  induction l as [|x r IH]; intros HF s c I Hc O.
  - cbn. exists s, c. auto 10.
  - inversion HF as [|? ? Hx Hr]; subst. cbn [shapel trl forallb]. fold shapel. fold (trl A C R). specialize (Hx s c I Hc O).
    destruct (shape x (fin s c)) as [d|]; [|rewrite Hx; auto]. destruct Hx as (s1 & c1 & E1 & C1 & F1 & O1 & P1). rewrite E1.
    destruct (tr_struct x s c s1 c I Hc E1) as (_ & I1 & c1' & C1' & D1 & Fr1 & _). assert (c1' = c1) by congruence. subst c1'.
    specialize (IH Hr s1 c1 I1 C1 O1). rewrite F1 in IH. destruct (shapel r d) as [f|]; [|auto].
    destruct IH as (s2 & c2 & E2 & C2 & F2 & O2 & P2). exists s2, c2. split; auto. split; auto. split; auto. split; auto.
    destruct Fr1 as (L1 & _). pose proof (cur_in A C R s c I Hc) as Lc.
    destruct (plain x); destruct (forallb plain r); cbn [andb]; subst; auto; lia.
Qed.

Lemma fresh_open : forall (s : tstate) b, store s b = [] -> open_top s b.
Proof. intros s b H F [G|(l & i & G & _)]; [congruence|]. rewrite H in G. destruct l; discriminate. Qed.

Lemma shape_if : forall c t e, tr_shape t -> match e with None => True | Some x => tr_shape x end -> tr_shape (SIf c t e).
Proof.
  intros cd t e Ht He s c I Hc O. cbn [shape plain tr]. rewrite Hc. unfold tr_if.
  pose proof (cur_in A C R s c I Hc) as Lc.
  destruct (pop_spec A C R s c Hc I) as (s1 & E1 & St1 & Fi1 & Nx1 & I1). rewrite E1.
  destruct (push_bb s1) as [ie s2] eqn:E2. destruct (push_frame A C R s1 c ie s2 E2) as (-> & Nx2 & _ & C2 & Se2 & Fe2 & Sf2 & Fr2 & I2). specialize (I2 I1).
  specialize (Ht s2 (nxt s1) I2 C2 (fresh_open s2 (nxt s1) Se2)). rewrite Fe2 in Ht.
  destruct (shape t false) as [ft|]; [|rewrite Ht; auto]. destruct Ht as (s3 & ce & E3 & C3 & F3 & O3 & _). rewrite E3.
  destruct (tr_struct t s2 _ s3 _ I2 C2 E3) as (_ & I3 & ce' & C3' & D3 & (F3a & _ & F3c) & _). assert (ce' = ce) by congruence. subst ce'. rewrite Nat.eqb_refl. cbn [negb].
  pose proof (cur_in A C R s3 ce I3 C3) as Lce.
  destruct (pop_spec A C R s3 ce C3 I3) as (s4 & E4 & St4 & Fi4 & Nx4 & I4). rewrite E4.
  destruct (push_bb s4) as [ee s5] eqn:E5. destruct (push_frame A C R s4 c ee s5 E5) as (-> & Nx5 & _ & C5 & Se5 & Fe5 & Sf5 & Fr5 & I5). specialize (I5 I4).
  rewrite Nx1, Nx4 in *.
  (* from the state after the else branch *)
  assert (G : forall s9 nx, cur s9 = Some nx -> nxt s3 <= nx -> nxt s5 <= nxt s9 -> store s9 nx = [] -> fin s9 nx = false ->
     (forall b, b < nxt s3 -> store s9 b = store s3 b /\ fin s9 b = fin s3 b) ->
     let k := match add_to_bb s9 c (ICBr cd (nxt s) (nxt s3)) with
       | None => None
       | Some s10 => if fin s10 ce then Some (c, s10) else match add_to_bb s10 ce (IBr nx) with None => None | Some s11 => Some (c, s11) end
       end in
     if fin s c then k = None else exists s' c', k = Some (c, s') /\ cur s' = Some c' /\ fin s' c' = false /\ open_top s' c' /\ nxt s <= c').
  { intros s9 nx C9 Lnx L9 Se9 Fe9 Old k.
    assert (Hsc : store s9 c = store s c /\ fin s9 c = fin s c).
    { destruct (Old c ltac:(lia)) as [-> ->]. destruct (F3c c ltac:(lia) ltac:(lia)) as [-> ->]. destruct (Sf2 c ltac:(lia)) as [-> ->]. rewrite St1, Fi1. auto. }
    destruct (fin s c) eqn:Fc.
    - unfold k. rewrite add_to_bb_closed; auto. left. destruct Hsc as [_ ->]. auto.
    - unfold k. rewrite add_to_bb_open; [|destruct Hsc as [_ ->]; auto|].
      2:{ specialize (O Fc). intros [X|(l & i & X & Y)]; apply O; [destruct Hsc; congruence|right; exists l, i; destruct Hsc as [<- _]; auto]. }
      change (fin (append s9 c (ICBr cd (nxt s) (nxt s3))) ce) with (fin s9 ce). destruct (Old ce Lce) as [So Fo]. rewrite Fo, F3. destruct ft.
      + eexists _, nx. split; [reflexivity|]. split; [exact C9|]. split; [exact Fe9|]. split; [|lia]. apply fresh_open. rewrite store_len1 by lia. auto.
      + rewrite add_to_bb_open.
        * eexists _, nx. split; [reflexivity|]. split; [exact C9|]. split; [exact Fe9|]. split; [|lia]. apply fresh_open. rewrite store_len1, store_len1 by lia. auto.
        * cbn [append fin]. congruence.
        * assert (X : ~ closed_block A C R s3 ce) by (apply O3; auto). intros [Y|(l & i & Y & Z)]; apply X; [left; cbn [append fin] in Y; congruence|].
          rewrite store_len1 in Y by lia. right. exists l, i. split; auto. congruence. }
  destruct e as [e|].
  - specialize (He s5 (nxt s3) I5 C5 (fresh_open s5 _ Se5)). rewrite Fe5 in He. destruct (shape e false) as [fe|]; [|rewrite He; auto].
    destruct He as (s6 & ce' & E6 & C6 & F6 & O6 & _). rewrite E6.
    destruct (tr_struct e s5 _ s6 _ I5 C5 E6) as (_ & I6 & ce2 & C6' & D6 & (F6a & _ & F6c) & _). assert (ce2 = ce') by congruence. subst ce2.
    pose proof (cur_in A C R s6 ce' I6 C6) as Lce'.
    destruct (pop_spec A C R s6 ce' C6 I6) as (s7 & E7 & St7 & Fi7 & Nx7 & I7). rewrite E7.
    destruct (push_bb s7) as [nx s8] eqn:E8. destruct (push_frame A C R s7 c nx s8 E8) as (-> & Nx8 & _ & C8 & Se8 & Fe8 & Sf8 & Fr8 & I8). specialize (I8 I7). rewrite Nx7 in *.
    assert (Old8 : forall b, b < nxt s3 -> store s8 b = store s3 b /\ fin s8 b = fin s3 b).
    { intros b Hb. destruct (Sf8 b ltac:(lia)) as [-> ->]. rewrite St7, Fi7. destruct (F6c b ltac:(lia) ltac:(lia)) as [-> ->]. destruct (Sf5 b ltac:(lia)) as [-> ->]. rewrite St4, Fi4. auto. }
    assert (X8 : fin s8 ce' = fe /\ store s8 ce' = store s6 ce') by (destruct (Sf8 ce' ltac:(lia)) as [-> ->]; rewrite St7, Fi7; auto). destruct X8 as [X8 Y8]. rewrite X8.
    destruct fe.
    + rewrite C8. specialize (G s8 (nxt s6) C8 ltac:(lia) ltac:(lia) Se8 Fe8 Old8). cbv zeta in G. destruct (fin s c); auto.
    + rewrite add_to_bb_open; auto.
      * change (cur (append s8 ce' (IBr (nxt s6)))) with (cur s8). rewrite C8.
        specialize (G (append s8 ce' (IBr (nxt s6))) (nxt s6) C8 ltac:(lia) ltac:(cbn [append nxt]; lia)). cbv zeta in G.
        assert (G1 : store (append s8 ce' (IBr (nxt s6))) (nxt s6) = []) by (rewrite store_len1 by lia; auto).
        specialize (G G1 Fe8). assert (G2 : forall b, b < nxt s3 -> store (append s8 ce' (IBr (nxt s6))) b = store s3 b /\ fin (append s8 ce' (IBr (nxt s6))) b = fin s3 b).
        { intros b Hb. rewrite store_len1 by lia. apply Old8. auto. }
        specialize (G G2). destruct (fin s c); auto.
      * assert (X : ~ closed_block A C R s6 ce') by (apply O6; auto). intros [Y|(l & i & Y & Z)]; [congruence|]. apply X. right. exists l, i. split; auto. congruence.
  - rewrite C5. assert (Old5 : forall b, b < nxt s3 -> store s5 b = store s3 b /\ fin s5 b = fin s3 b).
    { intros b Hb. destruct (Sf5 b ltac:(lia)) as [-> ->]. rewrite St4, Fi4. auto. }
    specialize (G s5 (nxt s3) C5 (le_n _) (le_n _) Se5 Fe5 Old5). cbv zeta in G. destruct (fin s c); auto.
Qed.

Lemma shape_loop : forall i c b, tr_shape i -> tr_shape b -> tr_shape (SLoop i c b).
Proof.
  intros i cd b Hi Hb s c I Hc O. cbn [shape plain tr]. rewrite Hc. unfold tr_loop.
  pose proof (cur_in A C R s c I Hc) as Lc. specialize (Hi s c I Hc O).
  destruct (shape i (fin s c)) as [fi|]; [|rewrite Hi; auto]. destruct Hi as (s1 & c1 & E1 & C1 & F1 & O1 & P1). rewrite E1.
  destruct (tr_struct i s _ s1 _ I Hc E1) as (_ & I1 & c1' & C1' & D1 & Fr1 & K1). assert (c1' = c1) by congruence. subst c1'.
  pose proof (cur_in A C R s1 c1 I1 C1) as Lc1. pose proof Fr1 as (F1a & _ & _).
  destruct (push_bb s1) as [h s2] eqn:E2. destruct (push_frame A C R s1 c h s2 E2) as (-> & Nx2 & _ & C2 & Se2 & Fe2 & Sf2 & _ & I2). specialize (I2 I1).
  unfold emit. rewrite C2. set (s3 := append s2 (nxt s1) (IEval cd)) in *.
  assert (I3 : inv A C R s3) by (apply inv_append; auto).
  destruct (pop_spec A C R s3 (nxt s1) C2 I3) as (s4 & E4 & St4 & Fi4 & Nx4 & I4). rewrite E4.
  destruct (push_bb s4) as [b0 s5] eqn:E5. destruct (push_frame A C R s4 c b0 s5 E5) as (-> & Nx5 & _ & C5 & Se5 & Fe5 & Sf5 & _ & I5). specialize (I5 I4).
  assert (Nx3 : nxt s3 = S (nxt s1)) by exact Nx2. rewrite Nx4, Nx3 in *.
  specialize (Hb s5 (S (nxt s1)) I5 C5 (fresh_open s5 _ Se5)). rewrite Fe5 in Hb.
  destruct (shape b false) as [fb|]; [|rewrite Hb; destruct fi; auto]. destruct Hb as (s6 & ce & E6 & C6 & F6 & O6 & _). rewrite E6, C6.
  destruct (tr_struct b s5 _ s6 _ I5 C5 E6) as (_ & I6 & ce' & C6' & D6 & (F6a & _ & F6c) & _). assert (ce' = ce) by congruence. subst ce'.
  pose proof (cur_in A C R s6 ce I6 C6) as Lce.
  destruct fb; [rewrite add_to_bb_closed by (left; auto); destruct fi; auto|].
  rewrite add_to_bb_open by (auto; apply O6; auto).
  destruct (pop_spec A C R (append s6 ce (IBr (nxt s1))) ce C6 (inv_append _ _ _ _ _ _ I6)) as (s8 & E8 & St8 & Fi8 & Nx8 & I8). rewrite E8. change (nxt (append s6 ce (IBr (nxt s1)))) with (nxt s6) in Nx8.
  destruct (push_bb s8) as [nx s9] eqn:E9. destruct (push_frame A C R s8 c nx s9 E9) as (-> & Nx9 & _ & C9 & Se9 & Fe9 & Sf9 & _ & I9). specialize (I9 I8). rewrite Nx8 in *.
  assert (Old : forall n, n < nxt s1 -> store s9 n = store s1 n /\ fin s9 n = fin s1 n).
  { intros n Hn. destruct (Sf9 n ltac:(lia)) as [-> ->]. rewrite St8, Fi8. rewrite store_len1 by lia. change (fin (append s6 ce (IBr (nxt s1))) n) with (fin s6 n).
    destruct (F6c n ltac:(lia) ltac:(lia)) as [-> ->]. destruct (Sf5 n ltac:(lia)) as [-> ->]. rewrite St4, Fi4. unfold s3. rewrite store_len1 by lia. apply Sf2. lia. }
  assert (Hh : store s9 (nxt s1) = [IEval cd] /\ fin s9 (nxt s1) = false).
  { destruct (Sf9 (nxt s1) ltac:(lia)) as [-> ->]. rewrite St8, Fi8. rewrite store_len1 by lia. change (fin (append s6 ce (IBr (nxt s1))) (nxt s1)) with (fin s6 (nxt s1)).
    destruct (F6c (nxt s1) ltac:(lia) ltac:(lia)) as [-> ->]. destruct (Sf5 (nxt s1) ltac:(lia)) as [-> ->]. rewrite St4, Fi4. unfold s3. rewrite store_len2, Se2. split; [reflexivity|exact Fe2]. }
  destruct Hh as [Hh1 Hh2].
  rewrite (add_to_bb_open s9 (nxt s1)); auto.
  2:{ intros [X|(l & j & X & Y)]; [congruence|]. rewrite Hh1 in X. destruct l as [|? [|? ?]]; inversion X; subst. discriminate. }
  assert (Cl : forall st, closed_block A C R s1 c -> (forall n, n < nxt s1 -> store st n = store s9 n /\ fin st n = fin s9 n) -> closed_block A C R st c).
  { intros st H Hst. unfold closed_block in *. destruct (Hst c ltac:(lia)) as [-> ->]. destruct (Old c ltac:(lia)) as [-> ->]. auto. }
  assert (Ap : forall n, n < nxt s1 -> store (append s9 (nxt s1) (ICBr cd (S (nxt s1)) (nxt s6))) n = store s9 n /\ fin (append s9 (nxt s1) (ICBr cd (S (nxt s1)) (nxt s6))) n = fin s9 n).
  { intros n Hn. rewrite store_len1 by lia. auto. }
  destruct (plain i).
  - subst c1. destruct fi.
    + rewrite add_to_bb_closed; auto. apply Cl; auto. left. auto.
    + rewrite add_to_bb_open.
      * eexists _, (nxt s6). split; [reflexivity|]. split; [exact C9|]. split; [exact Fe9|]. split; [|lia]. apply fresh_open. rewrite store_len1, store_len1 by lia. auto.
      * destruct (Ap c Lc1) as [_ ->]. destruct (Old c Lc1) as [_ ->]. auto.
      * specialize (O1 F1). intros H. apply O1. unfold closed_block in *. destruct (Ap c Lc1) as [X Y]. rewrite X, Y in H. destruct (Old c Lc1) as [X2 Y2]. rewrite X2, Y2 in H. auto.
  - assert (K : closed_block A C R s1 c) by (apply K1; lia). rewrite add_to_bb_closed by (apply Cl; auto). destruct fi; auto.
Qed.

Lemma shape_all : forall t, tr_shape t.
Proof.
  apply stmt_ind2.
  - intros a s c I Hc O. cbn [shape plain tr]. rewrite Hc. unfold emit. rewrite Hc. eexists _, c. split; [reflexivity|]. split; auto. split; auto. split; auto.
    intros F [G|(l & i & G & K)]; [cbn [append fin] in *; congruence|]. rewrite store_len2 in G. apply app_inj_tail in G. destruct G as [_ <-]. discriminate.
  - intros r s c I Hc O. cbn [shape plain tr]. rewrite Hc. unfold emit. rewrite Hc. change (cur (append s c (IRet r))) with (cur s). rewrite Hc. eexists _, c. split; [reflexivity|]. split; auto.
    cbn [set_final fin]. rewrite Nat.eqb_refl. split; auto. split; auto. intros F. cbn [set_final fin] in F. rewrite Nat.eqb_refl in F. discriminate.
  - intros l HF s c I Hc O. cbn [shape plain tr]. rewrite Hc. fold shapel. fold (trl A C R). pose proof (shape_list l HF s c I Hc O) as G.
    destruct (shapel l (fin s c)) as [f|]; [|rewrite G; auto]. destruct G as (s' & c' & E & G). rewrite E. exists s', c'. split; auto.
  - apply shape_if.
  - apply shape_loop.
Qed.

(* a program is translated if and only if: no condition or loop follows a return in the
   same block, no loop body ends with a return, loop initialisations are plain and do
   not return *)
Theorem blocks_accepted : forall t : stmt, (exists p, generate t = Some p) <-> shape t false <> None.
Proof.
  intros t. assert (H := shape_all t init_state 0). cbn [init_state fin] in H. unfold generate.
  assert (H' : match shape t false with
    | None => tr t (@init_state A C R) = None
    | Some f => exists s' c', tr t (@init_state A C R) = Some (0, s') /\ cur s' = Some c' /\ fin s' c' = f /\ open_top s' c' /\ (if plain t then c' = 0 else nxt (@init_state A C R) <= c')
    end).
  { apply H; [intros b [<-|[]]; cbn; lia|reflexivity|apply fresh_open; reflexivity]. }
  destruct (shape t false) as [f|].
  - destruct H' as (s' & c' & E & _). rewrite E. split; [discriminate|eauto].
  - rewrite H'. split; [intros [p X]; discriminate|congruence].
Qed.

(* ------------------------------------------------------------------ *)
(* loops that are rejected                                              *)
(* ------------------------------------------------------------------ *)
Theorem loop_return_refuted : forall i c l r, @generate A C R (SLoop i c (SSeq (l ++ [SRet r]))) = None.
Proof.
  intros i c l r. destruct (generate (SLoop i c (SSeq (l ++ [SRet r])))) eqn:E; auto. exfalso.
  apply (proj1 (blocks_accepted (SLoop i c (SSeq (l ++ [SRet r]))))); [eauto|]. cbn [shape]. fold shapel. destruct (shape i false) as [[|]|]; auto.
  assert (G : forall l d, shapel (l ++ [SRet r]) d = Some true \/ shapel (l ++ [SRet r]) d = None).
  { clear. induction l as [|x t IH]; intros d; cbn [app shapel]; [left; reflexivity|]. destruct (shape x d); [apply IH|auto]. }
  destruct (G l false) as [-> | ->]; auto.
Qed.
Theorem loop_init_condition_refuted : forall cd t e c b, @generate A C R (SLoop (SIf cd t e) c b) = None.
Proof.
  intros cd t e c b. destruct (generate (SLoop (SIf cd t e) c b)) eqn:E; auto. exfalso.
  apply (proj1 (blocks_accepted (SLoop (SIf cd t e) c b))); [eauto|]. cbn [shape plain].
  destruct (match shape t false with Some _ => match e with None => Some false | Some e0 => shape e0 false end | None => None end) as [|] eqn:X;
  destruct (shape t false) as [|]; destruct e as [e|]; try destruct (shape e false); destruct (shape b false) as [[|]|]; auto.
Qed.
End Shape.

(* ------------------------------------------------------------------ *)
(* removal of the inaccessible blocks                                   *)
(* ------------------------------------------------------------------ *)
Lemma acc_loop_closed : forall fuel succ p w acc r, acc_loop fuel succ p w acc = Some r ->
  (forall b, In b acc <-> In b p \/ In b w) -> (forall b n, In b p -> In n (succ b) -> In n acc) ->
  (forall b, In b acc -> In b r) /\ (forall b n, In b r -> In n (succ b) -> In n r) /\ (forall b, In b r -> In b acc \/ exists q, In q r /\ In b (succ q)).
Proof.
  induction fuel as [|f IH]; intros succ p w acc r H Ha Hc; destruct w as [|b w]; cbn [acc_loop] in H; try discriminate.
  - injection H as <-. split; auto. split; auto. intros b n Hb. apply Hc. apply Ha in Hb. destruct Hb as [|[]]; auto.
  - injection H as <-. split; auto. split; auto. intros b n Hb. apply Hc. apply Ha in Hb. destruct Hb as [|[]]; auto.
  - set (new := filter (fun n => negb (memb n (p ++ [b]))) (succ b)) in *.
    assert (Nin : forall n, In n new <-> In n (succ b) /\ ~ In n (p ++ [b])).
    { intros n. unfold new. rewrite filter_In, negb_true_iff, memb_out. tauto. }
    apply IH in H.
    + destruct H as (R1 & R2 & R3). split; [intros n Hn; apply R1; apply in_or_app; auto|]. split; auto. intros n Hn. destruct (R3 n Hn) as [G|G]; auto.
      apply in_app_or in G. destruct G as [G|G]; auto. right. exists b. split; [|apply Nin; auto]. apply R1. apply in_or_app. left. apply Ha. right. left. auto.
    + intros n. rewrite !in_app_iff, Ha. cbn [In]. intuition.
    + intros c n Hcp Hn. apply in_or_app. apply in_app_or in Hcp. destruct Hcp as [Hcp|[<-|[]]]; [left; eapply Hc; eauto|].
      destruct (in_dec Nat.eq_dec n (p ++ [b])) as [G|G]; [left|right; apply Nin; auto]. apply Ha. apply in_app_or in G. destruct G as [G|[<-|[]]]; auto. right; left; auto.
Qed.

Lemma acc_loop_reach : forall fuel succ root p w acc r, acc_loop fuel succ p w acc = Some r ->
  (forall b, In b w -> reach succ root b) -> (forall b, In b acc -> reach succ root b) -> forall b, In b r -> reach succ root b.
Proof.
  induction fuel as [|f IH]; intros succ root p w acc r H Hw Ha; destruct w as [|b w]; cbn [acc_loop] in H; try discriminate; try (injection H as <-; exact Ha).
  assert (N : forall n, In n (filter (fun n => negb (memb n (p ++ [b]))) (succ b)) -> reach succ root n).
  { intros n Hn. apply filter_In in Hn. eapply reach_next; [apply (Hw b); left; auto|apply Hn]. }
  eapply IH; [exact H| |]; intros n Hn; apply in_app_or in Hn; destruct Hn as [Hn|Hn]; auto. apply Hw. right; auto.
Qed.

Definition keep {A C R : Type} (r : list nat) (P : nat -> list (instr A C R)) : nat -> list (instr A C R) := fun b => if memb b r then P b else [].

Theorem simplification_same_execution : forall (A C R S V : Type) (doA : A -> S -> S) (evC : C -> S -> bool) (evR : R -> S -> V) P fuel root r,
  accessible fuel root (fun b => successors (P b)) = Some r ->
  forall n s, run A C R S V doA evC evR n (keep r P) (root, 0, s) = run A C R S V doA evC evR n P (root, 0, s).
Proof.
  intros A C R S V doA evC evR P fuel root r H n s. unfold accessible in H.
  destruct (acc_loop_closed _ _ _ _ _ _ H) as (R1 & R2 & _); [intros b; cbn [In]; tauto|intros b m []|].
  assert (G : forall n b k s, In b r -> run A C R S V doA evC evR n (keep r P) (b, k, s) = run A C R S V doA evC evR n P (b, k, s)).
  { clear n s. induction n as [|n IH]; intros b k s Hb; auto. cbn [run]. unfold step. unfold keep at 1. replace (memb b r) with true by (symmetry; apply memb_in; auto).
    destruct (nth_error (P b) k) as [i|] eqn:E; auto.
    assert (Ht : forall d, In d (targets i) -> In d r) by (intros d Hd; apply (R2 b); auto; apply in_flat_map; exists i; split; auto; eapply nth_error_In; eauto).
    destruct i as [a|c|x|d|c t f]; auto; apply IH; auto; [apply Ht; left; auto|]. destruct (evC c s); apply Ht; cbn; auto. }
  apply G. apply R1. left; auto.
Qed.

(* ------------------------------------------------------------------ *)
(* the generated graph                                                  *)
(* ------------------------------------------------------------------ *)
Section Graph.
Variables A C R : Type.
Notation stmt := (stmt A C R).
Notation instr := (instr A C R).
Notation tstate := (tstate A C R).

Definition nobranch (l : list instr) : Prop := forall i, In i l -> targets i = [].
(* only the last instruction branches *)
Definition brlast (l : list instr) : Prop := forall l1 i l2, l = l1 ++ i :: l2 -> targets i <> [] -> l2 = [].
Definition winv (s : tstate) : Prop :=
  0 < nxt s /\ (forall b i d, In i (store s b) -> In d (targets i) -> 0 < d < nxt s) /\ (forall b, brlast (store s b)).

Lemma nobranch_brlast : forall l, nobranch l -> brlast l.
Proof. intros l H l1 i l2 -> N. exfalso. apply N, H. apply in_or_app. right. left. auto. Qed.
Lemma nobranch_app : forall l i, nobranch l -> targets i = [] -> nobranch (l ++ [i]).
Proof. intros l i H T j Hj. apply in_app_or in Hj. destruct Hj as [Hj|[<-|[]]]; auto. Qed.
Lemma nobranch_brlast_app : forall l i, nobranch l -> brlast (l ++ [i]).
Proof.
  intros l i H l1 j l2 E N. destruct (exists_last (l := j :: l2)) as (q & x & Q); [discriminate|]. rewrite Q, app_assoc in E. apply app_inj_tail in E. destruct E as [-> ->].
  destruct q as [|y q]; [injection Q as <- ->; auto|]. cbn [app] in Q. injection Q as <- ->. exfalso. apply N, H. apply in_or_app. right. left. auto.
Qed.
Lemma open_nobranch : forall (s : tstate) b, brlast (store s b) -> ~ closed_block A C R s b -> nobranch (store s b).
Proof.
  intros s b H N i Hi. apply in_split in Hi. destruct Hi as (l1 & l2 & E). destruct (targets i) as [|d t] eqn:T; auto. exfalso. apply N. right.
  exists l1, i. rewrite (H l1 i l2 E) in E by (rewrite T; discriminate). split; auto. destruct i; try discriminate; auto.
Qed.
Lemma winv_push : forall (s : tstate) b s', push_bb s = (b, s') -> winv s -> winv s' /\ nobranch (store s' b) /\ 0 < b < nxt s' /\ nxt s' = S (nxt s).
Proof.
  intros s b s' H (W0 & W1 & W2). unfold push_bb in H. injection H as <- <-. split; [|split; [|split]]; cbn [nxt store].
  - split; cbn [nxt store]; [lia|]. split.
    + intros b i d Hi Hd. destruct (Nat.eqb_spec b (nxt s)); [destruct Hi|]. specialize (W1 b i d Hi Hd). lia.
    + intros b. destruct (Nat.eqb_spec b (nxt s)); [intros l1 i l2 E; destruct l1; discriminate|auto].
  - rewrite Nat.eqb_refl. intros i [].
  - lia.
  - auto.
Qed.
Lemma winv_append : forall (s : tstate) b i, winv s -> nobranch (store s b) -> (forall d, In d (targets i) -> 0 < d < nxt s) -> winv (append s b i).
Proof.
  intros s b i (W0 & W1 & W2) N T. split; [exact W0|]. split.
  - intros n j d Hj Hd. rewrite append_store in Hj. cbn [append nxt]. destruct (Nat.eqb_spec n b) as [->|]; [|eapply W1; eauto].
    apply in_app_or in Hj. destruct Hj as [Hj|[<-|[]]]; [eapply W1; eauto|auto].
  - intros n. rewrite append_store. destruct (Nat.eqb_spec n b) as [->|]; auto. apply nobranch_brlast_app; auto.
Qed.
Lemma winv_add : forall (s : tstate) b i s', add_to_bb s b i = Some s' -> winv s -> (forall d, In d (targets i) -> 0 < d < nxt s) -> winv s' /\ nxt s' = nxt s /\ cur s' = cur s /\
  forall n, n <> b -> store s' n = store s n.
Proof.
  intros s b i s' H W T. apply add_to_bb_some in H. destruct H as [-> N]. split; [|split; [auto|split; [auto|intros n Hn; apply store_len1; auto]]].
  apply winv_append; auto. apply open_nobranch; auto. apply W.
Qed.
Lemma winv_pop : forall (s : tstate) b s', pop_bb s = Some (b, s') -> winv s -> winv s' /\ nxt s' = nxt s /\ cur s = Some b.
Proof. intros s b s' H W. unfold pop_bb in H. unfold cur. destruct (stk s) as [|x r]; [discriminate|]. injection H as <- <-. split; [exact W|]. split; reflexivity. Qed.

Definition wtr (t : stmt) : Prop := forall (s s' : tstate) e c, inv A C R s -> winv s -> cur s = Some c -> nobranch (store s c) -> (c = 0 \/ 0 < c) -> tr t s = Some (e, s') ->
  winv s' /\ nxt s <= nxt s' /\ exists c', cur s' = Some c' /\ nobranch (store s' c').

Lemma wtr_list : forall l, Forall wtr l -> forall (s s' : tstate) c, inv A C R s -> winv s -> cur s = Some c -> nobranch (store s c) -> trl A C R l s = Some s' ->
  winv s' /\ nxt s <= nxt s' /\ exists c', cur s' = Some c' /\ nobranch (store s' c').
Proof.
  induction l as [|x r IH]; intros HF s s' c I W Hc N H; cbn in H; [injection H as <-; split; auto; split; [auto|exists c; auto]|].
  inversion HF as [|? ? Hx Hr]; subst. destruct (tr x s) as [[e s1]|] eqn:E; [|discriminate]. fold (trl A C R) in H.
  destruct (tr_struct A C R x s e s1 c I Hc E) as (_ & I1 & _). destruct (Hx s s1 e c I W Hc N ltac:(lia) E) as (W1 & L1 & c1 & C1 & N1).
  destruct (IH Hr s1 s' c1 I1 W1 C1 N1 H) as (W2 & L2 & c2 & C2 & N2). split; auto. split; [lia|eauto].
Qed.

Lemma wtr_all : forall t, wtr t.
Proof.
  apply stmt_ind2.
  - intros a s s' e c I W Hc N _ H. cbn [tr] in H. rewrite Hc in H. unfold emit in H. rewrite Hc in H. injection H as <- <-.
    split; [apply winv_append; auto; intros d []|]. split; auto. exists c. split; auto. rewrite store_len2. apply nobranch_app; auto.
  - intros r s s' e c I W Hc N _ H. cbn [tr] in H. rewrite Hc in H. unfold emit in H. rewrite Hc in H. change (cur (append s c (IRet r))) with (cur s) in H. rewrite Hc in H. injection H as <- <-.
    assert (W2 : winv (append s c (IRet r))) by (apply winv_append; auto; intros d []).
    split; [exact W2|]. split; auto. exists c. split; auto. change (store (set_final (append s c (IRet r)) c) c) with (store (append s c (IRet r)) c). rewrite store_len2. apply nobranch_app; auto.
  - intros l HF s s' e c I W Hc N _ H. cbn [tr] in H. rewrite Hc in H. fold (trl A C R) in H. destruct (trl A C R l s) as [s1|] eqn:E; [|discriminate]. injection H as <- <-. eapply wtr_list; eauto.
  - intros cd t e Ht He s s' en c I W Hc N _ H. cbn [tr] in H. rewrite Hc in H. unfold tr_if in H.
    destruct (pop_spec A C R s c Hc I) as (s1 & E1 & _ & _ & _ & I1). rewrite E1 in H. destruct (winv_pop _ _ _ E1 W) as (W1 & L1 & _).
    destruct (push_bb s1) as [ie s2] eqn:E2. destruct (push_frame A C R s1 c ie s2 E2) as (_ & _ & _ & C2 & _ & _ & _ & _ & I2). specialize (I2 I1). destruct (winv_push _ _ _ E2 W1) as (W2 & N2 & B2 & L2).
    destruct (tr t s2) as [[ib s3]|] eqn:E3; [|discriminate]. destruct (negb (ib =? ie)); [discriminate|].
    destruct (Ht s2 s3 ib ie I2 W2 C2 N2 ltac:(lia) E3) as (W3 & L3 & ce & C3 & N3). destruct (tr_struct A C R t s2 ib s3 ie I2 C2 E3) as (_ & I3 & _).
    destruct (pop_spec A C R s3 ce C3 I3) as (s4 & E4 & _ & _ & _ & I4). rewrite E4 in H. destruct (winv_pop _ _ _ E4 W3) as (W4 & L4 & _).
    destruct (push_bb s4) as [ee s5] eqn:E5. destruct (push_frame A C R s4 c ee s5 E5) as (_ & _ & _ & C5 & _ & _ & _ & _ & I5). specialize (I5 I4). destruct (winv_push _ _ _ E5 W4) as (W5 & N5 & B5 & L5).
    assert (G : forall s9 nx, winv s9 -> cur s9 = Some nx -> nobranch (store s9 nx) -> 0 < nx < nxt s9 -> nxt s5 <= nxt s9 -> nx <> c -> nx <> ce ->
      match add_to_bb s9 c (ICBr cd ie ee) with
      | None => None
      | Some s10 => if fin s10 ce then Some (c, s10) else match add_to_bb s10 ce (IBr nx) with None => None | Some s11 => Some (c, s11) end
      end = Some (en, s') -> winv s' /\ nxt s <= nxt s' /\ exists c', cur s' = Some c' /\ nobranch (store s' c')).
    { intros s9 nx W9 C9 N9 B9 L9 Nc Nce H9. destruct (add_to_bb s9 c (ICBr cd ie ee)) as [s10|] eqn:E10; [|discriminate].
      destruct (winv_add _ _ _ _ E10 W9) as (W10 & L10 & C10 & S10); [intros d [<-|[<-|[]]]; lia|]. rewrite C9 in C10.
      assert (N10 : nobranch (store s10 nx)) by (rewrite S10; auto).
      destruct (fin s10 ce); [injection H9 as <- <-; split; auto; split; [lia|eauto]|].
      destruct (add_to_bb s10 ce (IBr nx)) as [s11|] eqn:E11; [|discriminate]. destruct (winv_add _ _ _ _ E11 W10) as (W11 & L11 & C11 & S11); [intros d [<-|[]]; lia|].
      injection H9 as <- <-. split; auto. split; [lia|]. exists nx. split; [congruence|]. rewrite S11; auto. }
    assert (Lc : c < nxt s) by (eapply cur_in; eauto). assert (Lce : ce < nxt s3) by (eapply cur_in; eauto).
    assert (Bee : ee = nxt s4) by (unfold push_bb in E5; injection E5; auto).
    destruct e as [e|].
    + destruct (tr e s5) as [[eb s6]|] eqn:E6; [|discriminate].
      destruct (He s5 s6 eb ee I5 W5 C5 N5 ltac:(lia) E6) as (W6 & L6 & ce' & C6 & N6). destruct (tr_struct A C R e s5 eb s6 ee I5 C5 E6) as (_ & I6 & _).
      destruct (pop_spec A C R s6 ce' C6 I6) as (s7 & E7 & _ & _ & _ & I7). rewrite E7 in H. destruct (winv_pop _ _ _ E7 W6) as (W7 & L7 & _).
      destruct (push_bb s7) as [nx s8] eqn:E8. destruct (push_frame A C R s7 c nx s8 E8) as (X8 & _ & _ & C8 & _). destruct (winv_push _ _ _ E8 W7) as (W8 & N8 & B8 & L8).
      assert (Lce' : ce' < nxt s6) by (eapply cur_in; eauto).
      destruct (fin s8 ce').
      * rewrite C8 in H. apply (G s8 nx); auto; lia.
      * destruct (add_to_bb s8 ce' (IBr nx)) as [s9|] eqn:E9; [|discriminate]. destruct (winv_add _ _ _ _ E9 W8) as (W9 & L9 & C9 & S9); [intros d [<-|[]]; lia|].
        rewrite C9, C8 in H. apply (G s9 nx); auto; try lia; [congruence|]. rewrite S9; auto. lia.
    + rewrite C5 in H. apply (G s5 ee); auto; lia.
  - intros i cd b Hi Hb s s' en c I W Hc N _ H. cbn [tr] in H. rewrite Hc in H. unfold tr_loop in H.
    destruct (tr i s) as [[ib s1]|] eqn:E1; [|discriminate]. destruct (Hi s s1 ib c I W Hc N ltac:(lia) E1) as (W1 & L1 & c1 & C1 & N1). destruct (tr_struct A C R i s ib s1 c I Hc E1) as (-> & I1 & _).
    assert (Lc : c < nxt s) by (eapply cur_in; eauto).
    destruct (push_bb s1) as [h s2] eqn:E2. destruct (push_frame A C R s1 c h s2 E2) as (X2 & _ & _ & C2 & _ & _ & _ & _ & I2). specialize (I2 I1). destruct (winv_push _ _ _ E2 W1) as (W2 & N2 & B2 & L2).
    unfold emit in H. rewrite C2 in H. set (s3 := append s2 h (IEval cd)) in *.
    assert (I3 : inv A C R s3) by (apply inv_append; auto). assert (W3 : winv s3) by (apply winv_append; auto; intros d []).
    destruct (pop_spec A C R s3 h C2 I3) as (s4 & E4 & _ & _ & _ & I4). rewrite E4 in H. destruct (winv_pop _ _ _ E4 W3) as (W4 & L4 & _). change (nxt s3) with (nxt s2) in L4.
    destruct (push_bb s4) as [b0 s5] eqn:E5. destruct (push_frame A C R s4 c b0 s5 E5) as (X5 & _ & _ & C5 & _ & _ & _ & _ & I5). specialize (I5 I4). destruct (winv_push _ _ _ E5 W4) as (W5 & N5 & B5 & L5).
    destruct (tr b s5) as [[bb s6]|] eqn:E6; [|discriminate]. destruct (Hb s5 s6 bb b0 I5 W5 C5 N5 ltac:(lia) E6) as (W6 & L6 & ce & C6 & N6).
    destruct (tr_struct A C R b s5 bb s6 b0 I5 C5 E6) as (Xb & I6 & _). subst bb. rewrite C6 in H.
    destruct (add_to_bb s6 ce (IBr h)) as [s7|] eqn:E7; [|discriminate]. destruct (winv_add _ _ _ _ E7 W6) as (W7 & L7 & C7 & S7); [intros d [<-|[]]; lia|].
    assert (I7 : inv A C R s7) by (apply add_to_bb_some in E7; destruct E7 as [-> _]; apply inv_append; auto).
    rewrite C6 in C7. destruct (pop_spec A C R s7 ce C7 I7) as (s8 & E8 & _ & _ & _ & I8). rewrite E8 in H. destruct (winv_pop _ _ _ E8 W7) as (W8 & L8 & _).
    destruct (push_bb s8) as [nx s9] eqn:E9. destruct (push_frame A C R s8 c nx s9 E9) as (X9 & _ & _ & C9 & _). destruct (winv_push _ _ _ E9 W8) as (W9 & N9 & B9 & L9).
    destruct (add_to_bb s9 h (ICBr cd b0 nx)) as [s10|] eqn:E10; [|discriminate]. destruct (winv_add _ _ _ _ E10 W9) as (W10 & L10 & C10 & S10); [intros d [<-|[<-|[]]]; lia|].
    destruct (add_to_bb s10 c (IBr h)) as [s11|] eqn:E11; [|discriminate]. destruct (winv_add _ _ _ _ E11 W10) as (W11 & L11 & C11 & S11); [intros d [<-|[]]; lia|].
    injection H as <- <-. split; auto. split; [lia|]. exists nx. split; [congruence|]. rewrite S11, S10 by lia. auto.
Qed.

(* every branch of a generated program ends its block and goes to a generated block
   other than the entry *)
Theorem generated_branches : forall (t : stmt) p, generate t = Some p ->
  (forall b i d, In i (store p b) -> In d (targets i) -> 0 < d < nxt p) /\ (forall b, brlast (store p b)).
Proof.
  intros t p H. unfold generate in H. destruct (tr t init_state) as [[e s]|] eqn:E; [|discriminate]. injection H as <-.
  destruct (wtr_all t init_state s e 0) as ((_ & W1 & W2) & _); auto.
  - intros b [<-|[]]. cbn. lia.
  - split; [cbn; lia|]. split; [intros b i d []|intros b l1 i l2 X; destruct l1; discriminate].
  - intros i [].
Qed.

Lemma cfg_edges_in : forall (P : nat -> list instr) r edges, (forall b, brlast (P b)) -> cfg_edges (map (fun b => (b, term_of (P b))) r) = Some edges ->
  forall s d, In (s, d) edges <-> In s r /\ In d (successors (P s)).
Proof.
  intros P r edges Hb. revert edges.
  assert (T : forall b, match term_of (P b) with TEmpty | TOther => successors (P b) = [] | TBr d => successors (P b) = [d] | TCBr x y => successors (P b) = [x; y] end).
  { intros b. unfold term_of. destruct (rev (P b)) as [|i q] eqn:E.
    - rewrite <- (rev_involutive (P b)), E. reflexivity.
    - assert (X : P b = rev q ++ [i]) by (rewrite <- (rev_involutive (P b)), E; reflexivity).
      assert (Q : flat_map targets (rev q) = []).
      { specialize (Hb b). rewrite X in Hb. clear -Hb. revert Hb. generalize (rev q). intros l Hb.
        assert (N : nobranch l). { intros j Hj. destruct (targets j) as [|d t] eqn:Tj; auto. exfalso. apply in_split in Hj. destruct Hj as (l1 & l2 & ->).
          specialize (Hb l1 j (l2 ++ [i])). rewrite <- app_assoc in Hb. specialize (Hb eq_refl). rewrite Tj in Hb. destruct l2; cbn in Hb; discriminate Hb; discriminate. }
        clear Hb. induction l as [|j l IH]; auto. cbn [flat_map]. rewrite (N j) by (left; auto). apply IH. intros k Hk. apply N. right; auto. }
      unfold successors. rewrite X, flat_map_app, Q. destruct i; reflexivity. }
  induction r as [|b r IH]; intros edges H s d; cbn [map cfg_edges] in H.
  - injection H as <-. cbn [In]. tauto.
  - specialize (T b). destruct (term_of (P b)) as [|x|x y|]; [discriminate| | |]; destruct (cfg_edges (map (fun b => (b, term_of (P b))) r)) as [e|]; try discriminate; injection H as <-; specialize (IH e eq_refl s d); cbn [In].
    + rewrite IH. split; [intros [G|[G1 G2]]; [injection G as <- <-; rewrite T; cbn; auto|auto]|intros [[<-|G1] G2]; auto]. rewrite T in G2. destruct G2 as [<-|[]]. auto.
    + rewrite IH. split; [intros [G|[G|[G1 G2]]]; [injection G as <- <-; rewrite T; cbn; auto|injection G as <- <-; rewrite T; cbn; auto|auto]|intros [[<-|G1] G2]; auto]. rewrite T in G2. destruct G2 as [<-|[<-|[]]]; auto.
    + rewrite IH. split; [tauto|intros [[<-|G1] G2]; auto]. rewrite T in G2. destruct G2.
Qed.

(* the simplified graph of every translated program meets the hypotheses of the
   dominator and phi theorems *)
Theorem generated_graph_ok : forall (t : stmt) p fuel r edges, generate t = Some p ->
  accessible fuel 0 (fun b => successors (store p b)) = Some r ->
  cfg_edges (map (fun b => (b, term_of (store p b))) r) = Some edges ->
  graph_ok 0 r edges /\ forall b, In b r -> reachable 0 edges b.
Proof.
  intros t p fuel r edges Hg Ha He. destruct (generated_branches t p Hg) as [B1 B2].
  pose proof (cfg_edges_in (store p) r edges B2 He) as Hin. unfold accessible in Ha.
  destruct (acc_loop_closed _ _ _ _ _ _ Ha) as (R1 & R2 & R3); [intros b; cbn [In]; tauto|intros b m []|].
  assert (Hs : forall s d, In d (successors (store p s)) -> 0 < d < nxt p).
  { intros s d Hd. unfold successors in Hd. apply in_flat_map in Hd. destruct Hd as (i & Hi & Hd). eapply B1; eauto. }
  split.
  - constructor.
    + apply R1. left; auto.
    + intros s d H. apply Hin in H. tauto.
    + intros s d H. apply Hin in H. destruct H as [H1 H2]. eapply R2; eauto.
    + intros s H. apply Hin in H. destruct H as [_ H]. apply Hs in H. lia.
  - intros b Hb. apply (acc_loop_reach _ _ 0 _ _ _ _ Ha) in Hb; [|intros n [<-|[]]; constructor|intros n [<-|[]]; constructor].
    assert (G : In b r /\ reachable 0 edges b); [|tauto].
    induction Hb as [|b n Hb [IH1 [l Hl]] Hn]; [split; [apply R1; left; auto|exists [0]; constructor]|].
    split; [eapply R2; eauto|]. exists (n :: l). eapply path_step; [apply Hl|]. apply Hin. auto.
Qed.

(* together: dominators of the generated code *)
Corollary generated_dominators : forall (t : stmt) p fuel r edges, generate t = Some p ->
  accessible fuel 0 (fun b => successors (store p b)) = Some r ->
  cfg_edges (map (fun b => (b, term_of (store p b))) r) = Some edges ->
  forall f, length r * length r < f -> exists D, dominator_map f 0 r edges = Some D /\
    (forall b a, In b r -> (In a (D b) <-> dominates 0 edges a b)) /\
    (forall b, In b r -> b <> 0 -> exists d, idom D b = Some d /\ closest 0 edges d b).
Proof.
  intros t p fuel r edges Hg Ha He f Hf. destruct (generated_graph_ok t p fuel r edges Hg Ha He) as [G AR].
  destruct (dominator_map_partial 0 r edges f G Hf) as (D & HD & HDin). exists D. split; auto. split.
  - intros b a Hb. rewrite HDin by auto. split; [tauto|]. intros H. split; auto.
    pose proof G as [G1 G2 G3 G4]. exact (dom_in 0 edges r G1 G3 a b (AR b Hb) H).
  - intros b Hb Nb. destruct (immediate_dominator_partial 0 r edges f D G Hf HD b (AR b Hb)) as [_ H]. destruct (H Nb) as (d & H1 & H2 & _). eauto.
Qed.
End Graph.

(* a function that ends with a condition and has no final return leaves an accessible
   empty block, which the simplification keeps and the graph construction rejects *)
Theorem empty_block_refuted : forall (A C R : Type) (a : A) (c : C),
  exists p, @generate A C R (SIf c (SOp a) None) = Some p /\
  exists r, accessible 10 0 (fun b => successors (store p b)) = Some r /\ cfg_edges (map (fun b => (b, term_of (store p b))) r) = None.
Proof. intros A C R a c. eexists. split; [reflexivity|]. eexists. split; reflexivity. Qed.

(* ------------------------------------------------------------------ *)
(* examples                                                             *)
(* ------------------------------------------------------------------ *)
(* the state is a pair of counters; SOp (x, y) adds x and y to them; a condition n holds
   while the first counter is below n *)
Definition ex_do (a : nat * nat) (s : nat * nat) : nat * nat := (fst a + fst s, snd a + snd s).
Definition ex_if (n : nat) (s : nat * nat) : bool := fst s <? n.
Definition ex_ret (_ : unit) (s : nat * nat) : nat := snd s.
(* for (; i < 5; ) { if (i < 2) j += 10; else { j += 1 }; i += 1 }  return j *)
Definition ex_prog : stmt (nat * nat) nat unit :=
  SSeq [SOp (0, 0); SLoop (SOp (0, 7)) 5 (SSeq [SIf 2 (SOp (0, 10)) (Some (SOp (0, 1))); SOp (1, 0)]); SRet tt].
Example ex_generate : match generate ex_prog with Some p => map (store p) (seq 0 (nxt p)) | None => [] end =
  [ [IOp (0, 0); IOp (0, 7); IBr 1]; [IEval 5; ICBr 5 2 6]; [ICBr 2 3 4]; [IOp (0, 10); IBr 5]; [IOp (0, 1); IBr 5]; [IOp (1, 0); IBr 1]; [IRet tt] ].
Proof. reflexivity. Qed.
Example ex_run : match generate ex_prog with Some p => run _ _ _ _ _ ex_do ex_if ex_ret 100 (store p) (0, 0, (0, 0)) | None => None end = Some (Ret _ _ 30).
Proof. reflexivity. Qed.
Example ex_simplified : match generate ex_prog with
  | Some p => match accessible 100 0 (fun b => successors (store p b)) with
              | Some r => match cfg_edges (map (fun b => (b, term_of (store p b))) r) with
                          | Some e => match dominator_map 200 0 r e with Some D => map (idom D) (seq 0 7) | None => [] end
                          | None => [] end
              | None => [] end
  | None => [] end = [None; Some 0; Some 1; Some 2; Some 2; Some 2; Some 1].
Proof. reflexivity. Qed.
Example ex_shape : shape _ _ _ ex_prog false = Some true. Proof. reflexivity. Qed.
Example ex_rejected : @generate nat nat nat (SSeq [SRet 1; SIf 0 (SOp 1) None]) = None. Proof. reflexivity. Qed.

Print Assumptions blocks_same_execution.
Print Assumptions blocks_accepted.
Print Assumptions loop_return_refuted.
Print Assumptions loop_init_condition_refuted.
Print Assumptions simplification_same_execution.
Print Assumptions generated_branches.
Print Assumptions generated_graph_ok.
Print Assumptions generated_dominators.
Print Assumptions empty_block_refuted.
