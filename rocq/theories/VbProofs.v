(* Proofs about the legalization of booleans. *)
From Coq Require Import List Arith Bool Lia.
From Verif Require Import VbModel VbSpec.
Import ListNotations.

Lemma nth_set_node : forall h i nd k, nth_error (set_node h i nd) k = if Nat.eqb k i then option_map (fun _ => nd) (nth_error h k) else nth_error h k.
Proof. induction h as [|x h IH]; intros [|i] nd [|k]; cbn; try reflexivity; try apply IH. destruct (Nat.eqb k i); reflexivity. Qed.
Lemma set_node_same : forall h i nd, nth_error h i = Some nd -> set_node h i nd = h.
Proof. induction h as [|y l IH]; intros [|k] c H; cbn in *; try reflexivity; [congruence|now rewrite IH]. Qed.

Lemma choose_iff : forall v nd, virtual v nd && has_rule (kd nd) = true <-> to_choose v nd.
Proof.
  intros v [k f lf l]. unfold virtual, to_choose. cbn [kd fm].
  destruct v, k, f; cbn; split; intro H; try discriminate H; try reflexivity;
    first [ split; [eexists; eauto|tauto] | split; [reflexivity|tauto] | (destruct H as [(n & [H|H]) I]; first [discriminate H|exfalso; repeat (destruct I as [I|I]; [discriminate I|]); exact I]) | (destruct H as [H I]; first [discriminate H|exfalso; repeat (destruct I as [I|I]; [discriminate I|]); exact I]) ].
Qed.
Lemma choose_dec : forall v nd, to_choose v nd \/ ~ to_choose v nd.
Proof. intros v nd. destruct (virtual v nd && has_rule (kd nd)) eqn:E; [left; now apply choose_iff|right; intro H; apply choose_iff in H; congruence]. Qed.
Lemma format_of_width : forall v w old new, bool_format v w old = Some new -> of_width v w old new.
Proof.
  intros [|] w old new H; cbn [bool_format] in H.
  - assert (X : forall n, (if known_lanes n then if Nat.eqb w 32 then Some (Bool32 n) else if Nat.eqb w 64 then Some (Bool64 n) else None else None) = Some new -> w = 32 /\ new = Bool32 n \/ w = 64 /\ new = Bool64 n).
    { intros n. destruct (known_lanes n); [|discriminate]. destruct (Nat.eqb_spec w 32) as [->|_]; [intro E; injection E as <-; now left|]. destruct (Nat.eqb_spec w 64) as [->|_]; [intro E; injection E as <-; now right|discriminate]. }
    destruct old; try discriminate H; eexists; (split; [eauto|apply X; exact H]).
  - destruct (Nat.eqb_spec w 8), (Nat.eqb_spec w 16), (Nat.eqb_spec w 32), (Nat.eqb_spec w 64); try discriminate H; injection H as <-; (split; [cbn; lia|reflexivity]).
Qed.
Lemma width_spec : forall h nd w, has_rule (kd nd) = true -> (scalar_bit_size h nd = Some w <-> width_of_operands h nd w).
Proof.
  intros h nd w R. unfold scalar_bit_size, width_of_operands, input_lane. destruct (ins nd) as [|a t].
  { destruct (kd nd); cbn [nth_error]; (split; [discriminate|intros []]). }
  cbn [nth_error]. destruct (nth_error h a) as [x|] eqn:A.
  2:{ destruct (kd nd); (split; [discriminate|intros (z & Z1 & _); discriminate Z1]). }
  assert (TWO : match (match nth_error t 0 with Some c => match nth_error h c with Some y => Some (lane (fm y)) | None => None end | None => None end) with Some b => Some (Nat.max (lane (fm x)) b) | None => None end = Some w <->
    exists z, Some x = Some z /\ match t with [] => False | b :: _ => exists y, nth_error h b = Some y /\ w = Nat.max (lane (fm z)) (lane (fm y)) end).
  { destruct t as [|b t]; cbn [nth_error]; [split; [discriminate|intros (z & _ & [])]|]. destruct (nth_error h b) as [y|].
    - split; [intro E; injection E as <-; exists x; split; [reflexivity|]; exists y; split; reflexivity|]. intros (z & Z1 & y' & Y1 & ->). injection Z1 as <-. injection Y1 as <-. reflexivity.
    - split; [discriminate|]. intros (z & _ & y' & Y1 & _). discriminate Y1. }
  destruct (kd nd); try discriminate R; try exact TWO; (split; [intro E; injection E as <-; exists x; split; reflexivity|intros (z & Z1 & ->); now injection Z1 as <-]).
Qed.
Lemma width_ext : forall h h' nd w, (forall c, In c (ins nd) -> nth_error h' c = nth_error h c) -> width_of_operands h nd w -> width_of_operands h' nd w.
Proof.
  intros h h' nd w H. unfold width_of_operands. destruct (ins nd) as [|a t]; [auto|]. intros (x & A & B). exists x. split; [rewrite H by (now left); exact A|].
  destruct (kd nd); try exact B; (destruct t as [|b t]; [exact B|]; destruct B as (y & Y1 & Y2); exists y; split; [rewrite H by (right; now left); exact Y1|exact Y2]).
Qed.
Lemma width_same : forall h a b w, kd b = kd a -> ins b = ins a -> width_of_operands h a w -> width_of_operands h b w.
Proof. intros h a b w K I. unfold width_of_operands. now rewrite K, I. Qed.

Section Run.
Variable v : flavour.
Variable h0 : heap.
Record inv (P : list nat) (st : state) : Prop := mkI {
  i_same : forall j, match nth_error h0 j, nth_error (hp st) j with Some a, Some b => same_but_format a b | None, None => True | _, _ => False end;
  i_not : forall j, lookup (memo st) j = None -> nth_error (hp st) j = nth_error h0 j;
  i_other : forall j nd, nth_error h0 j = Some nd -> ~ to_choose v nd -> nth_error (hp st) j = Some nd;
  i_done : forall j b nd, lookup (memo st) j = Some b -> nth_error h0 j = Some nd -> to_choose v nd ->
    b = true /\ (forall c, In c (ins nd) -> lookup (memo st) c <> None) /\ exists nd' w, nth_error (hp st) j = Some nd' /\ width_of_operands (hp st) nd' w /\ of_width v w (fm nd) (fm nd');
  i_clo : forall j nd, lookup (memo st) j <> None -> nth_error h0 j = Some nd -> leaf nd = true \/ In j P \/ forall c, In c (ins nd) -> lookup (memo st) c <> None;
  i_uni : forall W, uniform v h0 W -> forall j b nd nd', lookup (memo st) j = Some b -> nth_error h0 j = Some nd -> to_choose v nd -> nth_error (hp st) j = Some nd' -> lane (fm nd') = W;
  i_false : forall j b nd, lookup (memo st) j = Some b -> nth_error h0 j = Some nd -> ~ to_choose v nd -> b = false }.
Definition mono (a b : state) : Prop := forall k x, lookup (memo a) k = Some x -> lookup (memo b) k = Some x.
Definition known (st : state) (c : nat) : Prop := lookup (memo st) c <> None.
Lemma mono_known : forall a b c, mono a b -> known a c -> known b c.
Proof. intros a b c M K. unfold known in *. destruct (lookup (memo a) c) as [x|] eqn:E; [rewrite (M c x E); discriminate|congruence]. Qed.
Lemma look_note : forall st i b j, lookup (memo (note st i b)) j = if Nat.eqb i j then Some b else lookup (memo st) j. Proof. reflexivity. Qed.
Lemma note_mono : forall st i b, lookup (memo st) i = None -> mono st (note st i b).
Proof. intros st i b H k x E. rewrite look_note. destruct (Nat.eqb_spec i k) as [->|N]; [congruence|exact E]. Qed.

(* a node that is not to choose enters the map *)
Lemma note_inv : forall P Q st i nd, inv P st -> lookup (memo st) i = None -> nth_error h0 i = Some nd -> ~ to_choose v nd ->
  (forall k, In k P -> In k Q) -> (leaf nd = true \/ In i Q \/ forall c, In c (ins nd) -> known st c) -> inv Q (note st i false).
Proof.
  intros P Q st i nd [I1 I2 I3 I4 I5 I6 I7] L N NC PQ CL. constructor; cbn [hp].
  - exact I1.
  - intros j H. rewrite look_note in H. destruct (Nat.eqb i j); [discriminate H|]. apply I2. exact H.
  - exact I3.
  - intros j x y H NJ C. rewrite look_note in H. destruct (Nat.eqb_spec i j) as [->|NE]; [congruence|]. destruct (I4 j x y H NJ C) as (A & B & D). split; [exact A|]. split; [|exact D].
    intros c Hc. rewrite look_note. destruct (Nat.eqb i c); [discriminate|]. apply B. exact Hc.
  - intros j y H NJ. destruct (Nat.eqb_spec i j) as [->|NE].
    + rewrite N in NJ. injection NJ as <-. destruct CL as [C|[C|C]]; auto. right. right. intros c Hc. rewrite look_note. destruct (Nat.eqb j c); [discriminate|]. apply C. exact Hc.
    + rewrite look_note in H. destruct (Nat.eqb_spec i j); [contradiction|]. destruct (I5 j y H NJ) as [C|[C|C]]; auto. right. right. intros c Hc. rewrite look_note. destruct (Nat.eqb i c); [discriminate|]. apply C. exact Hc.
  - intros W U j x y y' H NJ C. rewrite look_note in H. destruct (Nat.eqb_spec i j) as [->|NE]; [congruence|]. exact (I6 W U j x y y' H NJ C).
  - intros j x y H NJ C. rewrite look_note in H. destruct (Nat.eqb_spec i j) as [->|NE]; [congruence|]. exact (I7 j x y H NJ C).
Qed.

Lemma legalize_inv : forall P st i nd st' b, inv P st -> nth_error h0 i = Some nd -> (forall c, In c (ins nd) -> known st c) ->
  legalize v st i = Ret (st', b) -> inv P st' /\ lookup (memo st') i = Some b /\ mono st st'.
Proof.
  intros P st i nd st' b IV N KN E. unfold legalize in E. destruct (lookup (memo st) i) as [x|] eqn:L.
  { injection E as <- <-. split; [exact IV|]. split; [exact L|]. intros k y H. exact H. }
  pose proof (i_not _ _ IV i L) as NI. rewrite N in NI. rewrite NI in E.
  assert (SKIP : ~ to_choose v nd -> Ret (note st i false, false) = Ret (st', b) -> inv P st' /\ lookup (memo st') i = Some b /\ mono st st').
  { intros NC X. injection X as <- <-. split; [eapply note_inv; [exact IV|exact L|exact N|exact NC|auto|right; right; exact KN]|]. split; [rewrite look_note, Nat.eqb_refl; reflexivity|apply note_mono; exact L]. }
  destruct (virtual v nd) eqn:VI; cbn [negb] in E; [|apply SKIP; [intro C; apply choose_iff in C; rewrite VI in C; discriminate C|exact E]].
  destruct (has_rule (kd nd)) eqn:RU; [|apply SKIP; [intro C; apply choose_iff in C; rewrite VI, RU in C; discriminate C|exact E]].
  assert (CH : to_choose v nd) by (apply choose_iff; rewrite VI, RU; reflexivity).
  destruct (scalar_bit_size (hp st) nd) as [w|] eqn:SB; [|discriminate E]. destruct (bool_format v w (fm nd)) as [f|] eqn:BF; [|discriminate E]. injection E as <- <-.
  apply (width_spec _ _ _ RU) in SB. pose proof (format_of_width _ _ _ _ BF) as OW.
  set (nd' := mkN (kd nd) f (leaf nd) (ins nd)). set (h1 := set_node (hp st) i nd').
  assert (NX : forall j, nth_error h1 j = if Nat.eqb j i then Some nd' else nth_error (hp st) j) by (intro j; unfold h1; rewrite nth_set_node; destruct (Nat.eqb_spec j i) as [->|NE]; [now rewrite NI|reflexivity]).
  assert (KX : forall c, known st c -> nth_error h1 c = nth_error (hp st) c) by (intros c K; rewrite NX; destruct (Nat.eqb_spec c i) as [->|NE]; [unfold known in K; congruence|reflexivity]).
  assert (SB1 : width_of_operands h1 nd' w) by (apply (width_same _ nd); [reflexivity|reflexivity|]; eapply width_ext; [|exact SB]; intros c Hc; apply KX; apply KN; exact Hc).
  destruct IV as [I1 I2 I3 I4 I5 I6 I7]. split; [|split; [rewrite look_note, Nat.eqb_refl; reflexivity|intros k y H; rewrite look_note; destruct (Nat.eqb_spec i k) as [->|NE]; [congruence|exact H]]].
  constructor; change (hp (note (set_format st i nd f) i true)) with h1.
  - intro j. rewrite NX. destruct (Nat.eqb_spec j i) as [->|NE]; [rewrite N; repeat split|apply I1].
  - intros j H. rewrite look_note in H. rewrite NX. destruct (Nat.eqb_spec i j) as [->|NE]; [discriminate H|]. destruct (Nat.eqb_spec j i); [congruence|]. apply I2. exact H.
  - intros j y NJ NC. rewrite NX. destruct (Nat.eqb_spec j i) as [->|NE]; [congruence|]. apply I3; assumption.
  - intros j x y H NJ C. rewrite look_note in H. destruct (Nat.eqb_spec i j) as [<-|NE].
    + injection H as <-. rewrite N in NJ. injection NJ as <-. split; [reflexivity|]. split; [intros c Hc; rewrite look_note; destruct (Nat.eqb i c); [discriminate|]; apply KN; exact Hc|].
      exists nd', w. split; [rewrite NX, Nat.eqb_refl; reflexivity|]. split; [exact SB1|exact OW].
    + destruct (I4 j x y H NJ C) as (A & B & z & u & Z1 & Z2 & Z3). split; [exact A|]. split; [intros c Hc; rewrite look_note; destruct (Nat.eqb i c); [discriminate|]; apply B; exact Hc|].
      exists z, u. split; [rewrite NX; destruct (Nat.eqb_spec j i); [congruence|exact Z1]|]. split; [|exact Z3].
      eapply width_ext; [|exact Z2]. intros c Hc. apply KX. apply B. pose proof (I1 j) as SM. rewrite NJ, Z1 in SM. destruct SM as (_ & _ & SI). rewrite <- SI. exact Hc.
  - intros j y H NJ. destruct (Nat.eqb_spec i j) as [<-|NE].
    + rewrite N in NJ. injection NJ as <-. right. right. intros c Hc. rewrite look_note. destruct (Nat.eqb i c); [discriminate|]. apply KN. exact Hc.
    + rewrite look_note in H. destruct (Nat.eqb_spec i j); [contradiction|]. destruct (I5 j y H NJ) as [C|[C|C]]; auto. right. right. intros c Hc. rewrite look_note. destruct (Nat.eqb i c); [discriminate|]. apply C. exact Hc.
  - intros W U j x y y' H NJ C NY. rewrite look_note in H. rewrite NX in NY. destruct (Nat.eqb_spec i j) as [<-|NE].
    + rewrite Nat.eqb_refl in NY. injection NY as <-. rewrite N in NJ. injection NJ as <-.
      assert (OP : forall c z, In c (ins nd) -> nth_error (hp st) c = Some z -> lane (fm z) = W).
      { intros c z Hc Hz. pose proof (I1 c) as SM. rewrite Hz in SM. destruct (nth_error h0 c) as [z0|] eqn:Z0; [|contradiction]. destruct (choose_dec v z0) as [C0|C0].
        - pose proof (KN c Hc) as K. unfold known in K. destruct (lookup (memo st) c) as [b0|] eqn:B0; [|congruence]. exact (I6 W U c b0 z0 z B0 Z0 C0 Hz).
        - rewrite (I3 c z0 Z0 C0) in Hz. injection Hz as <-. exact (U i nd c z0 N C Hc Z0 C0). }
      assert (WW : w = W).
      { unfold width_of_operands in SB. destruct (ins nd) as [|a t]; [destruct SB|]. destruct SB as (z & Z1 & Z2). assert (LZ : lane (fm z) = W) by (apply (OP a); [now left|exact Z1]).
        destruct (kd nd); try (rewrite Z2; exact LZ); (destruct t as [|a2 t]; [destruct Z2|]; destruct Z2 as (z2 & Y1 & ->); rewrite LZ, (OP a2 z2); [apply Nat.max_id|right; now left|exact Y1]). }
      subst w. cbn [fm nd']. destruct v; cbn [of_width] in OW; [destruct OW as (n & _ & [[-> ->]|[-> ->]]); reflexivity|destruct OW as [_ ->]; reflexivity].
    + destruct (Nat.eqb_spec j i); [congruence|]. exact (I6 W U j x y y' H NJ C NY).
  - intros j x y H NJ C. rewrite look_note in H. destruct (Nat.eqb_spec i j) as [<-|NE]; [exfalso; rewrite N in NJ; injection NJ as <-; exact (C CH)|]. exact (I7 j x y H NJ C).
Qed.

Lemma visit_inv : forall f P, (forall st c st' b, inv P st -> f st c = Ret (st', b) -> inv P st' /\ lookup (memo st') c = Some b /\ mono st st') ->
  forall l st st', inv P st -> visit f st l = Ret st' -> inv P st' /\ (forall c, In c l -> known st' c) /\ mono st st'.
Proof.
  intros f P F. induction l as [|c l IH]; intros st st' IV E; [injection E as <-; split; [exact IV|]; split; [intros c []|intros k x H; exact H]|].
  cbn [visit] in E. destruct (f st c) as [[st1 b]| |] eqn:E1; try discriminate E. destruct (F st c st1 b IV E1) as (IV1 & L1 & M1). destruct (IH st1 st' IV1 E) as (IV2 & K2 & M2).
  split; [exact IV2|]. split; [intros d [<-|Hd]; [|apply K2; exact Hd]; unfold known; rewrite (M2 c b L1); discriminate|intros k x H; apply M2; apply M1; exact H].
Qed.
Lemma transform_inv : forall n P st i st' b, inv P st -> transform v n st i = Ret (st', b) -> inv P st' /\ lookup (memo st') i = Some b /\ mono st st'.
Proof.
  induction n as [|n IH]; intros P st i st' b IV E; [discriminate E|]. cbn [transform] in E. destruct (lookup (memo st) i) as [x|] eqn:L.
  { injection E as <- <-. split; [exact IV|]. split; [exact L|]. intros k y H. exact H. }
  destruct (nth_error (hp st) i) as [nd|] eqn:NI; [|discriminate E]. pose proof (i_not _ _ IV i L) as N. rewrite NI in N. symmetry in N.
  destruct (transformable v nd) eqn:T.
  - destruct (visit (transform v n) st (ins nd)) as [st1| |] eqn:VI; try discriminate E. destruct (visit_inv (transform v n) P (IH P) _ _ _ IV VI) as (IV1 & K1 & M1).
    destruct (legalize_inv P st1 i nd st' b IV1 N K1 E) as (A & B & C). split; [exact A|]. split; [exact B|]. intros k x H. apply C. apply M1. exact H.
  - assert (NC : ~ to_choose v nd) by (intro C; apply choose_iff in C; apply andb_true_iff in C; destruct C as [C _]; unfold transformable in T; destruct (kd nd); congruence).
    destruct (leaf nd) eqn:LF.
    + injection E as <- <-. split; [eapply note_inv; [exact IV|exact L|exact N|exact NC|auto|now left]|]. split; [rewrite look_note, Nat.eqb_refl; reflexivity|apply note_mono; exact L].
    + destruct (visit (transform v n) (note st i false) (ins nd)) as [st1| |] eqn:VI; try discriminate E. injection E as <- <-.
      assert (IV0 : inv (i :: P) (note st i false)) by (eapply note_inv; [exact IV|exact L|exact N|exact NC|intros k Hk; now right|right; left; now left]).
      destruct (visit_inv (transform v n) (i :: P) (IH (i :: P)) _ _ _ IV0 VI) as (IV1 & K1 & M1).
      split; [|split; [apply M1; rewrite look_note, Nat.eqb_refl; reflexivity|intros k x H; apply M1; apply note_mono; assumption]].
      destruct IV1 as [I1 I2 I3 I4 I5 I6 I7]. constructor; auto. intros j y H NJ. destruct (I5 j y H NJ) as [C|[[<-|C]|C]]; auto. rewrite N in NJ. injection NJ as <-. auto.
Qed.
Lemma inv_init : inv [] (mkS h0 []).
Proof.
  constructor; cbn [hp memo]; try discriminate; auto.
  intro j. destruct (nth_error h0 j); [repeat split|exact I].
Qed.
(* reachable nodes are in the map at the end *)
Lemma reach_known : forall st i j, inv [] st -> known st i -> reach h0 i j -> known st j.
Proof.
  intros st i j IV K R. induction R as [i|i nd c j N LF Hc R IH]; [exact K|]. apply IH. destruct (i_clo _ _ IV i nd K N) as [C|[[]|C]]; [congruence|apply C; exact Hc].
Qed.
End Run.

(* ---- a graph with nothing to change ---- *)
Definition stable (v : flavour) (h : heap) (nd : node) : Prop := to_choose v nd -> forall w f, scalar_bit_size h nd = Some w -> bool_format v w (fm nd) = Some f -> f = fm nd.
Lemma reach_snoc : forall h i j nd c, reach h i j -> nth_error h j = Some nd -> leaf nd = false -> In c (ins nd) -> reach h i c.
Proof. intros h i j nd c R N L Hc. induction R; eapply reach_step; try eassumption; [apply reach_refl|apply IHR; assumption]. Qed.
Lemma stable_run : forall v h root, (forall j nd, nth_error h j = Some nd -> leaf nd = true -> ins nd = []) -> (forall j nd, reach h root j -> nth_error h j = Some nd -> stable v h nd) ->
  forall n st i st' b, hp st = h -> reach h root i -> transform v n st i = Ret (st', b) -> hp st' = h.
Proof.
  intros v h root WF SB. induction n as [|n IH]; intros st i st' b H RI E; [discriminate E|]. cbn [transform] in E. destruct (lookup (memo st) i) as [x|]; [now injection E as <- <-|].
  destruct (nth_error (hp st) i) as [nd|] eqn:N; [|discriminate E].
  assert (VS : forall l s s', (forall c, In c l -> reach h root c) -> hp s = h -> visit (transform v n) s l = Ret s' -> hp s' = h).
  { induction l as [|c l IHl]; intros s s' RL HS EV; [now injection EV as <-|]. cbn [visit] in EV. destruct (transform v n s c) as [[s1 b1]| |] eqn:E1; try discriminate EV.
    eapply IHl; [intros d Hd; apply RL; now right| |exact EV]. eapply IH; [exact HS|apply RL; now left|exact E1]. }
  assert (RC : forall c, In c (ins nd) -> reach h root c).
  { intros c Hc. destruct (leaf nd) eqn:LF; [rewrite H in N; rewrite (WF i nd N LF) in Hc; destruct Hc|]. eapply reach_snoc; [exact RI|rewrite <- H; exact N|exact LF|exact Hc]. }
  destruct (transformable v nd).
  - destruct (visit (transform v n) st (ins nd)) as [st1| |] eqn:VI; try discriminate E. pose proof (VS _ _ _ RC H VI) as H1. unfold legalize in E. destruct (lookup (memo st1) i); [now injection E as <- <-|].
    rewrite H1, <- H, N in E. destruct (virtual v nd) eqn:VT; cbn [negb] in E; [|now injection E as <- <-]. destruct (has_rule (kd nd)) eqn:RU; [|now injection E as <- <-].
    destruct (scalar_bit_size (hp st) nd) as [w|] eqn:SW; [|discriminate E]. destruct (bool_format v w (fm nd)) as [f|] eqn:BF; [|discriminate E]. injection E as <- <-.
    unfold set_format. cbn [hp note]. rewrite H1. rewrite H in N, SW. rewrite (SB i nd RI N) with (w := w) (f := f); [|apply choose_iff; rewrite VT, RU; reflexivity|exact SW|exact BF].
    apply set_node_same. rewrite N. now destruct nd.
  - destruct (leaf nd); [injection E as <- <-; exact H|]. destruct (visit (transform v n) (note st i false) (ins nd)) as [st1| |] eqn:VI; try discriminate E. injection E as <- <-. eapply VS; [exact RC| |exact VI]. exact H.
Qed.
