(* Proofs about the lowering engine. *)
From Coq Require Import List Arith Bool Lia.
From Verif Require Import EngModel EngSpec.
Import ListNotations.

Lemma nth_set_node : forall h i nd k, nth_error (set_node h i nd) k = if Nat.eqb k i then option_map (fun _ => nd) (nth_error h k) else nth_error h k.
Proof. induction h as [|x h IH]; intros [|i] nd [|k]; cbn; try reflexivity; try apply IH. destruct (Nat.eqb k i); reflexivity. Qed.
Lemma length_set_node : forall h i nd, length (set_node h i nd) = length h.
Proof. induction h as [|x h IH]; intros [|i] nd; cbn; congruence. Qed.
Lemma length_set_at : forall l k x, length (set_at l k x) = length l.
Proof. induction l as [|y l IH]; intros [|k] x; cbn; congruence. Qed.
Lemma set_at_in : forall l k x c, In c (set_at l k x) -> c = x \/ In c l.
Proof. induction l as [|y l IH]; intros [|k] x c H; cbn in *; [tauto|tauto|destruct H; auto|destruct H as [H|H]; [auto|destruct (IH k x c H); auto]]. Qed.
Lemma set_at_app : forall l y t x, set_at (l ++ y :: t) (length l) x = l ++ x :: t.
Proof. induction l as [|z l IH]; intros y t x; cbn; [reflexivity|now rewrite IH]. Qed.
Lemma nth_len : forall A (l : list A) i x, nth_error l i = Some x -> i < length l.
Proof. intros A l i x H. apply nth_error_Some. congruence. Qed.

Section E.
Variable get_action : nat -> option action.
Hypothesis EXT : forall c act, get_action c = Some act -> extending act.
Notation lower := (lower get_action).

Definition same (nd nd' : node) : Prop := n_class nd' = n_class nd /\ n_leaf nd' = n_leaf nd /\ n_extra nd' = n_extra nd /\ length (n_inputs nd') = length (n_inputs nd).
Definition ok (st : state) : Prop := closed (hp st) /\ forall k q, lookup (lowered st) k = Some q -> k < length (hp st) /\ q < length (hp st).
(* what running the engine keeps *)
Record frame (st st' : state) : Prop := mkF {
  f_len : length (hp st) <= length (hp st');
  f_memo : forall k q, lookup (lowered st) k = Some q -> lookup (lowered st') k = Some q;
  f_done : forall k, lookup (lowered st) k <> None -> k < length (hp st) -> nth_error (hp st') k = nth_error (hp st) k;
  f_same : forall k nd, nth_error (hp st) k = Some nd -> exists nd', nth_error (hp st') k = Some nd' /\ same nd nd' }.
Lemma frame_refl : forall st, frame st st.
Proof. intro st. constructor; auto. intros k nd H. exists nd. split; [exact H|repeat split]. Qed.
Lemma frame_trans : forall a b c, frame a b -> frame b c -> frame a c.
Proof.
  intros a b c [F1 F2 F3 F4] [G1 G2 G3 G4]. constructor.
  - lia.
  - auto.
  - intros k H L. rewrite G3; [apply F3; assumption| |lia]. destruct (lookup (lowered a) k) as [q|] eqn:E; [rewrite (F2 k q E); discriminate|congruence].
  - intros k nd H. destruct (F4 k nd H) as (n1 & A & B1 & B2 & B3 & B4). destruct (G4 k n1 A) as (n2 & C & D1 & D2 & D3 & D4). exists n2. split; [exact C|]. repeat split; congruence.
Qed.
Lemma remember_frame : forall st i r, lookup (lowered st) i = None -> frame st (remember st i r).
Proof.
  intros st i r H. constructor; cbn [hp remember]; [lia| |reflexivity|].
  - intros k q E. cbn [remember lowered lookup]. destruct (Nat.eqb_spec i k) as [->|N]; [congruence|exact E].
  - intros k nd E. exists nd. split; [exact E|repeat split].
Qed.

(* inputs of node i, which is being lowered *)
Lemma inputs_frame : forall f st0 i, 
  (forall st op st' r, ok st -> f st op = Some (st', r) -> ok st' /\ frame st st' /\ r < length (hp st')) ->
  forall l st k st', ok st -> frame st0 st -> lookup (lowered st0) i = None -> lookup (lowered st) i <> None ->
  lower_inputs f st i k l = Some st' -> ok st' /\ frame st0 st' /\ lookup (lowered st') i <> None.
Proof.
  intros f st0 i F. induction l as [|op l IH]; intros st k st' OK FR NI SI E; [injection E as <-; split; [exact OK|split; [exact FR|exact SI]]|].
  cbn [lower_inputs] in E. destruct (f st op) as [[st1 r]|] eqn:E1; [|discriminate E]. destruct (F st op st1 r OK E1) as (OK1 & FR1 & LR).
  assert (SI1 : lookup (lowered st1) i <> None) by (destruct (lookup (lowered st) i) as [q|] eqn:Q; [rewrite (f_memo _ _ FR1 i q Q); discriminate|congruence]).
  apply IH in E; [exact E| | |exact NI|].
  - unfold set_input. destruct (nth_error (hp st1) i) as [nd|] eqn:N; [|exact OK1]. split.
    + intros j x c Hx Hc. cbn [hp] in *. rewrite length_set_node. rewrite nth_set_node in Hx. destruct (Nat.eqb_spec j i) as [->|NJ]; [|exact (proj1 OK1 j x c Hx Hc)].
      rewrite N in Hx. injection Hx as <-. cbn [n_inputs n_extra] in Hc. apply in_app_or in Hc. destruct Hc as [Hc|Hc].
      * destruct (set_at_in _ _ _ _ Hc) as [->|Hc']; [exact LR|apply (proj1 OK1 i nd c N); apply in_or_app; now left].
      * apply (proj1 OK1 i nd c N). apply in_or_app. now right.
    + cbn [hp lowered]. rewrite length_set_node. exact (proj2 OK1).
  - assert (G : frame st0 st1) by (eapply frame_trans; eassumption). unfold set_input. destruct (nth_error (hp st1) i) as [nd|] eqn:N; [|exact G].
    destruct G as [G1 G2 G3 G4]. constructor; cbn [hp lowered].
    + rewrite length_set_node. exact G1.
    + exact G2.
    + intros j Hj Lj. rewrite nth_set_node. destruct (Nat.eqb_spec j i) as [->|NJ]; [congruence|apply G3; assumption].
    + intros j x Hx. destruct (G4 j x Hx) as (y & Hy & B1 & B2 & B3 & B4). rewrite nth_set_node. destruct (Nat.eqb_spec j i) as [->|NJ]; [|exists y; split; [exact Hy|repeat split; assumption]].
      rewrite N. cbn [option_map]. eexists. split; [reflexivity|]. rewrite N in Hy. injection Hy as <-. repeat split; cbn [n_class n_leaf n_extra n_inputs]; try assumption. rewrite length_set_at. exact B4.
  - unfold set_input. destruct (nth_error (hp st1) i); exact SI1.
Qed.

Lemma lower_frame : forall n st i st' r, ok st -> lower n st i = Some (st', r) -> ok st' /\ frame st st' /\ r < length (hp st') /\ lookup (lowered st') i <> None.
Proof.
  induction n as [|n IH]; intros st i st' r OK E; [discriminate E|]. cbn [EngModel.lower] in E.
  destruct (lookup (lowered st) i) as [q|] eqn:LK.
  { injection E as <- <-. split; [exact OK|]. split; [apply frame_refl|]. split; [apply (proj2 OK i q LK)|congruence]. }
  destruct (nth_error (hp st) i) as [nd|] eqn:N; [|discriminate E]. pose proof (nth_len _ _ _ _ N) as Li.
  destruct (get_action (n_class nd)) as [act|] eqn:GA.
  - destruct (act (hp st) i) as [[h' new]|] eqn:AC; [|discriminate E]. destruct (EXT _ _ GA (hp st) i h' new (proj1 OK) Li AC) as ((l & ->) & LN & CL).
    destruct (IH (remember (mkS (hp st ++ l) (lowered st)) i new) new st' r) as (OK' & FR & LR & NN); [|exact E|].
    + split; [exact CL|]. cbn [hp remember lowered lookup]. intros k q. destruct (Nat.eqb_spec i k) as [->|NK]; [intro X; injection X as <-; rewrite app_length in *; lia|].
      intro X. destruct (proj2 OK k q X). rewrite app_length. lia.
    + assert (FR0 : frame st (remember (mkS (hp st ++ l) (lowered st)) i new)).
      { constructor; cbn [hp remember lowered].
        - rewrite app_length. lia.
        - intros k q X. cbn [lookup]. destruct (Nat.eqb_spec i k) as [->|NK]; [congruence|exact X].
        - intros k _ Lk. now rewrite nth_error_app1.
        - intros k x Hx. exists x. split; [rewrite nth_error_app1 by (eapply nth_len; exact Hx); exact Hx|repeat split]. }
      split; [exact OK'|]. split; [eapply frame_trans; eassumption|]. split; [exact LR|].
      rewrite (f_memo _ _ FR i new); [discriminate|]. cbn [remember lowered lookup]. now rewrite Nat.eqb_refl.
  - destruct (n_leaf nd).
    + injection E as <- <-. split; [split; [exact (proj1 OK)|]|split; [apply remember_frame; exact LK|split; [exact Li|cbn [remember lowered lookup]; rewrite Nat.eqb_refl; discriminate]]].
      cbn [hp remember lowered lookup]. intros k q. destruct (Nat.eqb_spec i k) as [->|NK]; [intro X; injection X as <-; lia|apply (proj2 OK)].
    + destruct (lower_inputs (lower n) (remember st i i) i 0 (n_inputs nd)) as [st2|] eqn:LI; [|discriminate E]. injection E as <- <-.
      destruct (inputs_frame (lower n) st i) with (l := n_inputs nd) (st := remember st i i) (k := 0) (st' := st2) as (OK2 & FR2 & SI2).
      * intros s op s' q O1 E1. destruct (IH s op s' q O1 E1) as (A & B & C & _). split; [exact A|split; [exact B|exact C]].
      * split; [exact (proj1 OK)|]. cbn [hp remember lowered lookup]. intros k q. destruct (Nat.eqb_spec i k) as [->|NK]; [intro X; injection X as <-; lia|apply (proj2 OK)].
      * apply remember_frame. exact LK.
      * exact LK.
      * cbn [remember lowered lookup]. rewrite Nat.eqb_refl. discriminate.
      * exact LI.
      * split; [exact OK2|]. split; [exact FR2|]. split; [pose proof (f_len _ _ FR2); lia|exact SI2].
Qed.

(* ---- values ---- *)
Section Values.
Variable V : Type.
Variable sem : nat -> list V -> list V -> V.
Hypothesis KEEP : forall c act, get_action c = Some act -> keeps_value V sem act.
Notation valuation := (valuation V sem).
Definition memo_val (st : state) (val : nat -> V) : Prop := forall k q, lookup (lowered st) k = Some q -> val q = val k.
Definition agree (n : nat) (v v' : nat -> V) : Prop := forall k, k < n -> v' k = v k.
Lemma agree_map : forall n v v' l, agree n v v' -> (forall c, In c l -> c < n) -> map v' l = map v l.
Proof. intros n v v' l A H. apply map_ext_in. intros c Hc. apply A. apply H. exact Hc. Qed.

Lemma inputs_val : forall n, (forall st op st' r val, ok st -> op < length (hp st) -> lower n st op = Some (st', r) -> valuation (hp st) val -> memo_val st val ->
    exists val', agree (length (hp st)) val val' /\ valuation (hp st') val' /\ memo_val st' val' /\ val' r = val op) ->
  forall l st i nd done st' val, ok st -> lookup (lowered st) i <> None -> nth_error (hp st) i = Some nd -> n_inputs nd = done ++ l ->
  lower_inputs (lower n) st i (length done) l = Some st' -> valuation (hp st) val -> memo_val st val ->
  exists val', agree (length (hp st)) val val' /\ valuation (hp st') val' /\ memo_val st' val'.
Proof.
  intros n IH. induction l as [|op l IHl]; intros st i nd done st' val OK SI N I E HV MV; [injection E as <-; exists val; split; [intros k _; reflexivity|split; assumption]|].
  cbn [lower_inputs] in E. destruct (lower n st op) as [[st1 r]|] eqn:E1; [|discriminate E]. pose proof (nth_len _ _ _ _ N) as Li.
  assert (Lop : op < length (hp st)) by (apply (proj1 OK i nd op N); apply in_or_app; left; rewrite I; apply in_or_app; right; now left).
  destruct (lower_frame n st op st1 r OK E1) as (OK1 & FR1 & LR & _). destruct (IH st op st1 r val OK Lop E1 HV MV) as (val1 & A1 & V1 & M1 & R1).
  assert (N1 : nth_error (hp st1) i = Some nd) by (rewrite (f_done _ _ FR1 i SI Li); exact N).
  assert (SI1 : lookup (lowered st1) i <> None) by (destruct (lookup (lowered st) i) as [q|] eqn:Q; [rewrite (f_memo _ _ FR1 i q Q); discriminate|congruence]).
  unfold set_input in E. rewrite N1 in E. rewrite I, set_at_app in E.
  set (nd1 := mkN (n_class nd) (n_leaf nd) (done ++ r :: l) (n_extra nd)) in *. set (st2 := mkS (set_node (hp st1) i nd1) (lowered st1)) in *.
  assert (N2 : nth_error (hp st2) i = Some nd1) by (cbn [hp st2]; rewrite nth_set_node, Nat.eqb_refl, N1; reflexivity).
  destruct (IHl st2 i nd1 (done ++ [r]) st' val1) as (val2 & A2 & V2 & M2).
  - split.
    + intros j x c Hx Hc. cbn [hp st2] in *. rewrite length_set_node. rewrite nth_set_node in Hx. destruct (Nat.eqb_spec j i) as [->|NJ]; [|exact (proj1 OK1 j x c Hx Hc)].
      rewrite N1 in Hx. injection Hx as <-. cbn [nd1 n_inputs n_extra] in Hc. rewrite <- app_assoc in Hc.
      assert (X : In c (n_inputs nd ++ n_extra nd) \/ c = r).
      { rewrite I. apply in_app_or in Hc. destruct Hc as [Hc|[Hc|Hc]]; [left; apply in_or_app; left; apply in_or_app; now left|right; now symmetry|left].
        change (In c (l ++ n_extra nd)) in Hc. apply in_app_or in Hc. destruct Hc as [Hc|Hc]; apply in_or_app; [left; apply in_or_app; right; now right|now right]. }
      destruct X as [X| ->]; [exact (proj1 OK1 i nd c N1 X)|exact LR].
    + cbn [hp lowered st2]. rewrite length_set_node. exact (proj2 OK1).
  - exact SI1.
  - exact N2.
  - cbn [nd1 n_inputs]. rewrite <- app_assoc. reflexivity.
  - rewrite app_length, Nat.add_1_r. exact E.
  - intros j x Hx NL. cbn [hp st2] in Hx. rewrite nth_set_node in Hx. destruct (Nat.eqb_spec j i) as [->|NJ]; [|exact (V1 j x Hx NL)].
    rewrite N1 in Hx. injection Hx as <-. cbn [nd1 n_class n_inputs n_extra n_leaf] in *. rewrite (V1 i nd N1 NL). f_equal. rewrite I, !map_app. cbn [map]. f_equal. f_equal.
    rewrite R1. apply A1. exact Lop.
  - exact M1.
  - exists val2. split; [|split; assumption]. intros k Hk. rewrite A2; [apply A1; exact Hk|]. cbn [hp st2]. rewrite length_set_node. pose proof (f_len _ _ FR1). lia.
Qed.

Lemma lower_val : forall n st i st' r val, ok st -> i < length (hp st) -> lower n st i = Some (st', r) -> valuation (hp st) val -> memo_val st val ->
  exists val', agree (length (hp st)) val val' /\ valuation (hp st') val' /\ memo_val st' val' /\ val' r = val i.
Proof.
  induction n as [|n IH]; intros st i st' r val OK Li E HV MV; [discriminate E|]. cbn [EngModel.lower] in E.
  destruct (lookup (lowered st) i) as [q|] eqn:LK.
  { injection E as <- <-. exists val. split; [intros k _; reflexivity|]. split; [exact HV|]. split; [exact MV|]. apply MV. exact LK. }
  destruct (nth_error (hp st) i) as [nd|] eqn:N; [|discriminate E].
  destruct (get_action (n_class nd)) as [act|] eqn:GA.
  - destruct (act (hp st) i) as [[h' new]|] eqn:AC; [|discriminate E]. destruct (EXT _ _ GA (hp st) i h' new (proj1 OK) Li AC) as ((l & ->) & LN & CL).
    destruct (KEEP _ _ GA (hp st) i _ new val (proj1 OK) Li AC HV) as (val1 & A1 & V1 & R1).
    destruct (IH (remember (mkS (hp st ++ l) (lowered st)) i new) new st' r val1) as (val2 & A2 & V2 & M2 & R2); [|exact LN|exact E|exact V1| |].
    + split; [exact CL|]. cbn [hp remember lowered lookup]. intros k q. destruct (Nat.eqb_spec i k) as [->|NK]; [intro X; injection X as <-; rewrite app_length in *; lia|].
      intro X. destruct (proj2 OK k q X). rewrite app_length. lia.
    + intros k q. cbn [remember lowered lookup]. destruct (Nat.eqb_spec i k) as [->|NK]; [intro X; injection X as <-; rewrite R1; symmetry; apply A1; exact Li|].
      intro X. destruct (proj2 OK k q X). rewrite (A1 q), (A1 k) by assumption. apply MV. exact X.
    + exists val2. split; [intros k Hk; rewrite A2; [apply A1; exact Hk|cbn [hp remember]; rewrite app_length; lia]|]. split; [exact V2|]. split; [exact M2|]. rewrite R2. exact R1.
  - assert (MV1 : memo_val (remember st i i) val) by (intros k q; cbn [remember lowered lookup]; destruct (Nat.eqb_spec i k) as [->|NK]; [intro X; injection X as <-; reflexivity|apply MV]).
    destruct (n_leaf nd).
    + injection E as <- <-. exists val. split; [intros k _; reflexivity|]. split; [exact HV|]. split; [exact MV1|reflexivity].
    + destruct (lower_inputs (lower n) (remember st i i) i 0 (n_inputs nd)) as [st2|] eqn:LI; [|discriminate E]. injection E as <- <-.
      destruct (inputs_val n IH (n_inputs nd) (remember st i i) i nd [] st2 val) as (val' & A' & V' & M').
      * split; [exact (proj1 OK)|]. cbn [hp remember lowered lookup]. intros k q. destruct (Nat.eqb_spec i k) as [->|NK]; [intro X; injection X as <-; lia|apply (proj2 OK)].
      * cbn [remember lowered lookup]. rewrite Nat.eqb_refl. discriminate.
      * exact N.
      * reflexivity.
      * exact LI.
      * exact HV.
      * exact MV1.
      * exists val'. split; [exact A'|]. split; [exact V'|]. split; [exact M'|apply A'; exact Li].
Qed.
End Values.

(* ---- everything is lowered ---- *)
Section Full.
Hypothesis ONE : one_step get_action.
Notation supported := (supported get_action).
Definition D (st : state) (q : nat) : Prop := lookup (lowered st) q = Some q.
Record inv (P : list nat) (pend : option nat) (st : state) : Prop := mkI {
  i_memo : forall k q, lookup (lowered st) k = Some q -> D st q \/ pend = Some q;
  i_sup : forall q, D st q -> supported (hp st) q;
  i_id : forall k q, lookup (lowered st) k = Some q -> supported (hp st) k -> q = k;
  i_clo : forall q nd, D st q -> nth_error (hp st) q = Some nd -> n_leaf nd = true \/ In q P \/ forall c, In c (n_inputs nd) -> D st c }.

Lemma inputs_full : forall n, (forall P st op st' r, ok st -> inv P None st -> op < length (hp st) -> lower n st op = Some (st', r) -> inv P None st' /\ D st' r) ->
  forall P l st i nd done st', ok st -> inv (i :: P) None st -> D st i -> nth_error (hp st) i = Some nd -> n_inputs nd = done ++ l -> (forall c, In c done -> D st c) ->
  lower_inputs (lower n) st i (length done) l = Some st' -> inv P None st' /\ D st' i.
Proof.
  intros n IH P. induction l as [|op l IHl]; intros st i nd done st' OK IV DI N I HD E.
  { injection E as <-. split; [|exact DI]. destruct IV as [J1 J2 J3 J4]. constructor; auto. intros q x Dq Nq. destruct (J4 q x Dq Nq) as [X|[[<-|X]|X]]; auto.
    right. right. rewrite N in Nq. injection Nq as <-. rewrite I, app_nil_r. exact HD. }
  cbn [lower_inputs] in E. destruct (lower n st op) as [[st1 r]|] eqn:E1; [|discriminate E]. pose proof (nth_len _ _ _ _ N) as Li.
  assert (Lop : op < length (hp st)) by (apply (proj1 OK i nd op N); apply in_or_app; left; rewrite I; apply in_or_app; right; now left).
  destruct (lower_frame n st op st1 r OK E1) as (OK1 & FR1 & LR & _). destruct (IH (i :: P) st op st1 r OK IV Lop E1) as [IV1 DR].
  assert (N1 : nth_error (hp st1) i = Some nd) by (rewrite (f_done _ _ FR1 i); [exact N|rewrite DI; discriminate|exact Li]).
  unfold set_input in E. rewrite N1 in E. rewrite I, set_at_app in E.
  set (nd1 := mkN (n_class nd) (n_leaf nd) (done ++ r :: l) (n_extra nd)) in *. set (st2 := mkS (set_node (hp st1) i nd1) (lowered st1)) in *.
  assert (N2 : nth_error (hp st2) i = Some nd1) by (cbn [hp st2]; rewrite nth_set_node, Nat.eqb_refl, N1; reflexivity).
  assert (SUP : forall q, supported (hp st2) q <-> supported (hp st1) q).
  { intro q. unfold EngSpec.supported. cbn [hp st2]. rewrite nth_set_node. destruct (Nat.eqb_spec q i) as [->|NQ]; [|reflexivity]. rewrite N1. cbn [option_map].
    split; intros (x & X & Y); injection X as <-; eexists; (split; [reflexivity|exact Y]). }
  apply (IHl st2 i nd1 (done ++ [r]) st').
  - split.
    + intros j x c Hx Hc. cbn [hp st2] in *. rewrite length_set_node. rewrite nth_set_node in Hx. destruct (Nat.eqb_spec j i) as [->|NJ]; [|exact (proj1 OK1 j x c Hx Hc)].
      rewrite N1 in Hx. injection Hx as <-. cbn [nd1 n_inputs n_extra] in Hc. rewrite <- app_assoc in Hc.
      assert (X : In c (n_inputs nd ++ n_extra nd) \/ c = r).
      { rewrite I. apply in_app_or in Hc. destruct Hc as [Hc|[Hc|Hc]]; [left; apply in_or_app; left; apply in_or_app; now left|right; now symmetry|left].
        change (In c (l ++ n_extra nd)) in Hc. apply in_app_or in Hc. destruct Hc as [Hc|Hc]; apply in_or_app; [left; apply in_or_app; right; now right|now right]. }
      destruct X as [X| ->]; [exact (proj1 OK1 i nd c N1 X)|exact LR].
    + cbn [hp lowered st2]. rewrite length_set_node. exact (proj2 OK1).
  - destruct IV1 as [J1 J2 J3 J4]. constructor.
    + exact J1.
    + intros q Dq. apply SUP. apply J2. exact Dq.
    + intros k q X Y. apply (J3 k q X). apply SUP. exact Y.
    + intros q x Dq Nq. cbn [hp st2] in Nq. rewrite nth_set_node in Nq. destruct (Nat.eqb_spec q i) as [->|NQ]; [right; left; now left|exact (J4 q x Dq Nq)].
  - exact (f_memo _ _ FR1 i i DI).
  - exact N2.
  - cbn [nd1 n_inputs]. rewrite <- app_assoc. reflexivity.
  - intros c Hc. apply in_app_or in Hc. destruct Hc as [Hc|[<-|[]]]; [exact (f_memo _ _ FR1 c c (HD c Hc))|exact DR].
  - rewrite app_length, Nat.add_1_r. exact E.
Qed.

Lemma lower_full : forall n P st i st' r pend, ok st -> inv P pend st -> (pend = None \/ pend = Some i /\ supported (hp st) i) -> i < length (hp st) ->
  lower n st i = Some (st', r) -> inv P None st' /\ D st' r.
Proof.
  induction n as [|n IH]; intros P st i st' r pend OK IV PE Li E; [discriminate E|]. pose proof E as E0. cbn [EngModel.lower] in E.
  destruct (lookup (lowered st) i) as [q|] eqn:LK.
  { injection E as <- <-. destruct IV as [J1 J2 J3 J4]. destruct PE as [->|[-> SU]].
    - split; [constructor; assumption|]. destruct (J1 i q LK) as [X|X]; [exact X|discriminate X].
    - assert (q = i) by (apply (J3 i q LK); exact SU). subst q. split; [|exact LK]. constructor; auto.
      intros k q X. destruct (J1 k q X) as [Y|Y]; [now left|injection Y as <-; left; exact LK]. }
  destruct (nth_error (hp st) i) as [nd|] eqn:N; [|discriminate E].
  destruct (get_action (n_class nd)) as [act|] eqn:GA.
  - assert (PN : pend = None) by (destruct PE as [X|[_ (x & X & Y)]]; [exact X|rewrite N in X; injection X as <-; congruence]). subst pend. clear PE.
    destruct (act (hp st) i) as [[h' new]|] eqn:AC; [|discriminate E]. pose proof (ONE _ _ _ _ _ _ GA AC) as SN. destruct (EXT _ _ GA (hp st) i h' new (proj1 OK) Li AC) as ((l & ->) & LN & CL).
    assert (SUP : forall q, q < length (hp st) -> supported (hp st ++ l) q <-> supported (hp st) q) by (intros q Lq; unfold EngSpec.supported; rewrite nth_error_app1 by exact Lq; reflexivity).
    assert (NSI : ~ supported (hp st) i) by (intros (x & X & Y); rewrite N in X; injection X as <-; congruence).
    assert (NI : new <> i) by (intros ->; apply NSI; apply SUP; [exact Li|exact SN]).
    assert (DD : forall q, D (remember (mkS (hp st ++ l) (lowered st)) i new) q <-> D st q).
    { intro q. unfold D. cbn [remember lowered lookup]. destruct (Nat.eqb_spec i q) as [->|NQ]; [|reflexivity]. rewrite LK. split; [intro X; injection X as X; congruence|discriminate]. }
    eapply (IH P (remember (mkS (hp st ++ l) (lowered st)) i new) new st' r (Some new)); [| |right; split; [reflexivity|exact SN]|exact LN|exact E].
    + split; [exact CL|]. cbn [hp remember lowered lookup]. intros k q. destruct (Nat.eqb_spec i k) as [->|NK]; [intro X; injection X as <-; rewrite app_length in *; lia|].
      intro X. destruct (proj2 OK k q X). rewrite app_length. lia.
    + destruct IV as [J1 J2 J3 J4]. constructor; cbn [hp remember].
      * intros k q X. cbn [remember lowered lookup] in X. destruct (Nat.eqb_spec i k) as [->|NK]; [injection X as <-; now right|]. destruct (J1 k q X) as [Y|Y]; [left; apply DD; exact Y|discriminate Y].
      * intros q Dq. apply DD in Dq. apply SUP; [apply (proj2 OK q q Dq)|apply J2; exact Dq].
      * intros k q X Y. cbn [remember lowered lookup] in X. destruct (Nat.eqb_spec i k) as [->|NK]; [exfalso; apply NSI; apply SUP; [exact Li|exact Y]|]. apply (J3 k q X). apply SUP; [apply (proj2 OK k q X)|exact Y].
      * intros q x Dq Nq. apply DD in Dq. pose proof (proj2 (proj2 OK q q Dq)) as Lq. rewrite nth_error_app1 in Nq by exact Lq. destruct (J4 q x Dq Nq) as [X|[X|X]]; auto. right. right. intros c Hc. apply DD. apply X. exact Hc.
  - assert (SI : supported (hp st) i) by (exists nd; split; assumption).
    assert (IV1 : inv (i :: P) None (remember st i i)).
    { assert (DD : forall q, D (remember st i i) q <-> D st q \/ q = i).
      { intro q. unfold D. cbn [remember lowered lookup]. destruct (Nat.eqb_spec i q) as [->|NQ]; [tauto|]. split; [now left|intros [X| ->]; [exact X|congruence]]. }
      destruct IV as [J1 J2 J3 J4]. constructor; cbn [hp remember].
      - intros k q X. cbn [remember lowered lookup] in X. left. apply DD. destruct (Nat.eqb_spec i k) as [->|NK]; [injection X as <-; now right|]. destruct (J1 k q X) as [Y|Y]; [now left|].
        destruct PE as [->|[-> _]]; [discriminate Y|]. injection Y as <-. now right.
      - intros q Dq. apply DD in Dq. destruct Dq as [Dq| ->]; [apply J2; exact Dq|exact SI].
      - intros k q X Y. cbn [remember lowered lookup] in X. destruct (Nat.eqb_spec i k) as [->|NK]; [now injection X as <-|]. apply (J3 k q X Y).
      - intros q x Dq Nq. apply DD in Dq. destruct Dq as [Dq| ->]; [|right; left; now left]. destruct (J4 q x Dq Nq) as [X|[X|X]]; [now left|right; left; now right|]. right. right. intros c Hc. apply DD. left. apply X. exact Hc. }
    assert (OK1 : ok (remember st i i)).
    { split; [exact (proj1 OK)|]. cbn [hp remember lowered lookup]. intros k q. destruct (Nat.eqb_spec i k) as [->|NK]; [intro X; injection X as <-; lia|apply (proj2 OK)]. }
    assert (DI : D (remember st i i) i) by (unfold D; cbn [remember lowered lookup]; now rewrite Nat.eqb_refl).
    destruct (n_leaf nd) eqn:LF.
    + injection E as <- <-. split; [|exact DI]. destruct IV1 as [J1 J2 J3 J4]. constructor; auto. intros q x Dq Nq. destruct (J4 q x Dq Nq) as [X|[[<-|X]|X]]; auto.
      cbn [hp remember] in Nq. rewrite N in Nq. injection Nq as <-. now left.
    + destruct (lower_inputs (lower n) (remember st i i) i 0 (n_inputs nd)) as [st2|] eqn:LI; [|discriminate E]. injection E as <- <-.
      eapply (inputs_full n) with (l := n_inputs nd) (done := []); [|exact OK1|exact IV1|exact DI|exact N|reflexivity|intros c []|exact LI].
      intros P' s op s' q O1 I1 L1 E1. eapply (IH P' s op s' q None); [exact O1|exact I1|now left|exact L1|exact E1].
Qed.
End Full.
End E.

(* ---- nothing to lower ---- *)
Lemma set_at_same : forall l k c, nth_error l k = Some c -> set_at l k c = l.
Proof. induction l as [|y l IH]; intros [|k] c H; cbn in *; try reflexivity; [congruence|now rewrite IH]. Qed.
Lemma set_node_same : forall h i nd, nth_error h i = Some nd -> set_node h i nd = h.
Proof. induction h as [|y l IH]; intros [|k] c H; cbn in *; try reflexivity; [congruence|now rewrite IH]. Qed.
Section Settled.
Variable get_action : nat -> option action.
Definition identity (st : state) : Prop := forall k q, lookup (lowered st) k = Some q -> q = k.
Lemma remember_identity : forall st i, identity st -> identity (remember st i i).
Proof. intros st i H k q. cbn [remember lowered lookup]. destruct (Nat.eqb_spec i k) as [->|N]; [congruence|apply H]. Qed.
Lemma settled_inputs : forall n,
  (forall st i st' r, identity st -> (forall j, reach (hp st) i j -> supported get_action (hp st) j) -> lower get_action n st i = Some (st', r) -> hp st' = hp st /\ r = i /\ identity st') ->
  forall l st i nd done st', identity st -> nth_error (hp st) i = Some nd -> n_inputs nd = done ++ l -> (forall c j, In c l -> reach (hp st) c j -> supported get_action (hp st) j) ->
  lower_inputs (lower get_action n) st i (length done) l = Some st' -> hp st' = hp st /\ identity st'.
Proof.
  intros n IH. induction l as [|op l IHl]; intros st i nd done st' ID N I SU E; [injection E as <-; split; [reflexivity|exact ID]|].
  cbn [lower_inputs] in E. destruct (lower get_action n st op) as [[st1 r]|] eqn:E1; [|discriminate E].
  destruct (IH st op st1 r ID (fun j => SU op j (or_introl eq_refl)) E1) as (H1 & -> & ID1).
  assert (S1 : set_input st1 i (length done) op = st1).
  { unfold set_input. rewrite H1, N, I, set_at_app, <- I. rewrite set_node_same; [destruct st1 as [h1 l1]; cbn [hp] in *; now rewrite H1|]. rewrite N. now destruct nd. }
  rewrite S1 in E. rewrite <- H1. apply (IHl st1 i nd (done ++ [op]) st'); [exact ID1|now rewrite H1|now rewrite <- app_assoc|rewrite H1; intros c j Hc; apply SU; now right|now rewrite app_length, Nat.add_1_r].
Qed.
Lemma settled : forall n st i st' r, identity st -> (forall j, reach (hp st) i j -> supported get_action (hp st) j) -> lower get_action n st i = Some (st', r) -> hp st' = hp st /\ r = i /\ identity st'.
Proof.
  induction n as [|n IH]; intros st i st' r ID SU E; [discriminate E|]. cbn [lower] in E. destruct (lookup (lowered st) i) as [q|] eqn:LK.
  { injection E as <- <-. split; [reflexivity|]. split; [apply ID; exact LK|exact ID]. }
  destruct (nth_error (hp st) i) as [nd|] eqn:N; [|discriminate E].
  destruct (SU i (reach_refl _ i)) as (x & X & GA). rewrite N in X. injection X as <-. rewrite GA in E. destruct (n_leaf nd) eqn:LF.
  - injection E as <- <-. split; [reflexivity|]. split; [reflexivity|apply remember_identity; exact ID].
  - destruct (lower_inputs (lower get_action n) (remember st i i) i 0 (n_inputs nd)) as [st2|] eqn:LI; [|discriminate E]. injection E as <- <-.
    destruct (settled_inputs n IH (n_inputs nd) (remember st i i) i nd [] st2) as [H2 I2].
    + apply remember_identity. exact ID.
    + exact N.
    + reflexivity.
    + intros c j Hc R. apply SU. eapply reach_step; [exact N|exact LF|exact Hc|exact R].
    + exact LI.
    + split; [exact H2|]. split; [reflexivity|exact I2].
Qed.
End Settled.

