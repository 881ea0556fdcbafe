(* Proofs about the fusion pass. *)
From Coq Require Import List Arith Bool Lia.
From Verif Require Import FmaModel FmaSpec.
Import ListNotations.

(* ---- heaps ---- *)
Lemma nth_set_same : forall h i nd x, nth_error h i = Some x -> nth_error (set_nth h i nd) i = Some nd.
Proof. induction h as [|a h IH]; intros [|i] nd x H; cbn in *; try discriminate; [reflexivity|eapply IH; exact H]. Qed.
Lemma nth_set_other : forall h i k nd, k <> i -> nth_error (set_nth h i nd) k = nth_error h k.
Proof. induction h as [|a h IH]; intros [|i] [|k] nd H; cbn; try reflexivity; try congruence. apply IH. congruence. Qed.
Lemma length_set : forall h i nd, length (set_nth h i nd) = length h.
Proof. induction h as [|a h IH]; intros [|i] nd; cbn; congruence. Qed.
Lemma nth_some : forall A (l : list A) i x, nth_error l i = Some x -> i < length l.
Proof. intros A l i x H. apply nth_error_Some. congruence. Qed.
Lemma nth_get : forall A (l : list A) i, i < length l -> exists x, nth_error l i = Some x.
Proof. intros A l i H. destruct (nth_error l i) eqn:E; [eauto|]. apply nth_error_None in E. lia. Qed.

Section P.
Variable V : Type.
Variable sem : kind -> option nat -> list V -> list V -> V.
Notation evn := (evn V sem).
Notation ev := (ev V sem).

Lemma F2_impl : forall A B (P Q : A -> B -> Prop) l m, (forall a b, In a l -> P a b -> Q a b) -> Forall2 P l m -> Forall2 Q l m.
Proof. intros A B P Q l m H F. induction F; constructor; [apply H; [now left|assumption]|apply IHF; intros; apply H; [now right|assumption]]. Qed.

Lemma evn_mono : forall h n m i v, n <= m -> evn h n i v -> evn h m i v.
Proof.
  intros h n. induction n as [|n IH]; intros m i v L H; [destruct H|]. destruct m as [|m]; [lia|].
  cbn [FmaSpec.evn] in *. destruct H as (nd & vs & ws & E & F1 & F2 & Ev). exists nd, vs, ws.
  split; [exact E|]. split; [eapply F2_impl; [|exact F1]; intros; eapply IH; [lia|assumption]|].
  split; [eapply F2_impl; [|exact F2]; intros; eapply IH; [lia|assumption]|exact Ev].
Qed.
Lemma ev_list : forall h l vs, Forall2 (ev h) l vs -> exists n, Forall2 (evn h n) l vs.
Proof.
  intros h l vs F. induction F as [|a v l vs [n H] F [m IH]]; [exists 0; constructor|]. exists (max n m). constructor.
  - eapply evn_mono; [|exact H]. lia.
  - eapply F2_impl; [|exact IH]. intros. eapply evn_mono; [|eassumption]. lia.
Qed.
Lemma ev_intro : forall h i nd vs ws, nth_error h i = Some nd -> Forall2 (ev h) (n_inputs nd) vs -> Forall2 (ev h) (n_extra nd) ws ->
  ev h i (sem (n_kind nd) (a_fmt (n_attr nd)) vs ws).
Proof.
  intros h i nd vs ws E F1 F2. destruct (ev_list _ _ _ F1) as [n A]. destruct (ev_list _ _ _ F2) as [m B]. exists (S (max n m)).
  exists nd, vs, ws. split; [exact E|]. split; [eapply F2_impl; [|exact A]; intros; eapply evn_mono; [|eassumption]; lia|].
  split; [eapply F2_impl; [|exact B]; intros; eapply evn_mono; [|eassumption]; lia|reflexivity].
Qed.
Lemma ev_inv : forall h i v, ev h i v -> exists nd vs ws, nth_error h i = Some nd /\ Forall2 (ev h) (n_inputs nd) vs /\ Forall2 (ev h) (n_extra nd) ws /\
  v = sem (n_kind nd) (a_fmt (n_attr nd)) vs ws.
Proof.
  intros h i v [[|n] H]; [destruct H|]. destruct H as (nd & vs & ws & E & F1 & F2 & Ev). exists nd, vs, ws.
  split; [exact E|]. split; [eapply F2_impl; [|exact F1]; intros; exists n; assumption|].
  split; [eapply F2_impl; [|exact F2]; intros; exists n; assumption|exact Ev].
Qed.
Lemma F2_len : forall A B (P : A -> B -> Prop) l m, Forall2 P l m -> length l = length m.
Proof. intros A B P l m F. induction F; cbn; congruence. Qed.
Lemma F2_det : forall A B (P : A -> B -> Prop) l m m', (forall a b b', In a l -> P a b -> P a b' -> b = b') -> Forall2 P l m -> Forall2 P l m' -> m = m'.
Proof.
  intros A B P l m m' H F. revert m' H. induction F as [|a b l m Hab F IH]; intros m' H F'; inversion F'; subst; [reflexivity|].
  f_equal; [eapply H; [now left|assumption|assumption]|apply IH; [intros; eapply H; [right; eassumption|eassumption|eassumption]|assumption]].
Qed.
Lemma ev_det : forall h i v w, ev h i v -> ev h i w -> v = w.
Proof.
  intros h. assert (K : forall n i v w, evn h n i v -> ev h i w -> v = w).
  { induction n as [|n IH]; intros i v w H G; [destruct H|]. destruct H as (nd & vs & ws & E & F1 & F2 & Ev).
    destruct (ev_inv _ _ _ G) as (nd' & vs' & ws' & E' & F1' & F2' & Ev'). rewrite E in E'. injection E' as <-.
    assert (Q1 : vs = vs').
    { clear - IH F1 F1'. revert vs' F1'. induction F1 as [|a b l m Hab F IHF]; intros m' G; inversion G; subst; [reflexivity|]. f_equal; [eapply IH; eassumption|apply IHF; assumption]. }
    assert (Q2 : ws = ws').
    { clear - IH F2 F2'. revert ws' F2'. induction F2 as [|a b l m Hab F IHF]; intros m' G; inversion G; subst; [reflexivity|]. f_equal; [eapply IH; eassumption|apply IHF; assumption]. }
    subst. reflexivity. }
  intros i v w [n H] G. eapply K; eassumption.
Qed.
Lemma ev_list_total : forall (h : heap) l, (forall j, In j l -> exists v, ev h j v) -> exists vs, Forall2 (ev h) l vs.
Proof.
  intros h l. induction l as [|j l IH]; intros H; [exists []; constructor|]. destruct (H j (or_introl eq_refl)) as [v Hv].
  destruct IH as [vs Hvs]; [intros; apply H; now right|]. exists (v :: vs). constructor; assumption.
Qed.
Lemma ev_total : forall h rk, ranked h rk -> forall i, i < length h -> exists v, ev h i v.
Proof.
  intros h rk R. assert (K : forall n i, rk i < n -> i < length h -> exists v, ev h i v).
  { induction n as [|n IH]; intros i Hn Hi; [lia|]. destruct (nth_get _ h i Hi) as [nd E].
    destruct (ev_list_total h (n_inputs nd)) as [vs F1].
    { intros j Hj. destruct (R i nd j E) as [A B]; [apply in_or_app; now left|]. apply IH; lia. }
    destruct (ev_list_total h (n_extra nd)) as [ws F2].
    { intros j Hj. destruct (R i nd j E) as [A B]; [apply in_or_app; now right|]. apply IH; lia. }
    eexists. eapply ev_intro; eassumption. }
  intros i Hi. eapply K; [|exact Hi]. apply Nat.lt_succ_diag_r.
Qed.

(* ---- evolution of heaps ---- *)
Definition kind_of (h : heap) (i : nat) : option kind := option_map n_kind (nth_error h i).
Definition repl (h : heap) (j r : nat) : Prop :=
  r = j \/ (exists k, kind_of h j = Some k /\ is_addsub k = true) /\ exists s, kind_of h r = Some (KFma s).
Definition same_node (nd nd' : node) : Prop := n_kind nd' = n_kind nd /\ n_attr nd' = n_attr nd /\ n_comm nd' = n_comm nd /\ length (n_inputs nd') = length (n_inputs nd).
Definition val_eq (h : heap) (i r : nat) : Prop := forall v, ev h i v -> ev h r v.

Record ext (h : heap) (rk : nat -> nat) (h' : heap) (rk' : nat -> nat) (b : nat) : Prop := mkext {
  ext_len : length h <= length h';
  ext_rk : forall k, k < length h -> rk' k = rk k;
  ext_node : forall k nd, nth_error h k = Some nd -> exists nd', nth_error h' k = Some nd' /\ same_node nd nd';
  ext_same : forall k, k < length h -> b < rk k -> nth_error h' k = nth_error h k;
  ext_ev : forall k v, ev h k v -> ev h' k v;
  ext_clean : forall k, clean h k -> clean h' k }.

Lemma ext_refl : forall h rk b, ext h rk h rk b.
Proof. intros. constructor; auto. intros k nd H. exists nd. split; [exact H|repeat split]. Qed.
Lemma ext_trans : forall h rk h1 rk1 h2 rk2 b b1 b2, ext h rk h1 rk1 b1 -> ext h1 rk1 h2 rk2 b2 -> b1 <= b -> b2 <= b -> ext h rk h2 rk2 b.
Proof.
  intros h rk h1 rk1 h2 rk2 b b1 b2 E F L1 L2. destruct E as [e1 e2 e3 e4 e5 e6]. destruct F as [f1 f2 f3 f4 f5 f6]. constructor.
  - lia.
  - intros k Hk. rewrite f2 by lia. apply e2. exact Hk.
  - intros k nd H. destruct (e3 k nd H) as (nd1 & A & B & C & D & D0). destruct (f3 k nd1 A) as (nd2 & A' & B' & C' & D' & D0'). exists nd2. split; [exact A'|]. repeat split; congruence.
  - intros k Hk Hb. rewrite f4; [apply e4; lia|lia|]. rewrite e2 by exact Hk. lia.
  - auto.
  - auto.
Qed.
Lemma ext_weak : forall h rk h' rk' b b', ext h rk h' rk' b -> b <= b' -> ext h rk h' rk' b'.
Proof. intros h rk h' rk' b b' E L. eapply ext_trans; [exact E|apply (ext_refl h' rk' b')|exact L|lia]. Qed.

Lemma kind_ext : forall h rk h' rk' b i k, ext h rk h' rk' b -> kind_of h i = Some k -> kind_of h' i = Some k.
Proof.
  intros h rk h' rk' b i k E H. unfold kind_of in *. destruct (nth_error h i) as [nd|] eqn:N; [|discriminate]. injection H as <-.
  destruct (ext_node _ _ _ _ _ E i nd N) as (nd' & A & B & _). rewrite A. cbn. congruence.
Qed.
Lemma repl_ext : forall h rk h' rk' b i r, ext h rk h' rk' b -> repl h i r -> repl h' i r.
Proof. intros h rk h' rk' b i r E [H|[[k [A B]] [s C]]]; [left; exact H|right]. split; [exists k; split; [eapply kind_ext; eassumption|exact B]|exists s; eapply kind_ext; eassumption]. Qed.
Lemma val_eq_ext : forall h rk h' rk' b i r, ranked h rk -> i < length h -> ext h rk h' rk' b -> val_eq h i r -> val_eq h' i r.
Proof.
  intros h rk h' rk' b i r R Hi E H v Hv. destruct (ev_total h rk R i Hi) as [v0 H0].
  assert (v = v0) by (eapply ev_det; [exact Hv|apply (ext_ev _ _ _ _ _ E); exact H0]). subst v0. apply (ext_ev _ _ _ _ _ E). apply H. exact H0.
Qed.

Lemma mul_node : forall h h' j, (forall nd, nth_error h j = Some nd -> exists nd', nth_error h' j = Some nd' /\ same_node nd nd') -> j < length h ->
  fusable_mul h' j = fusable_mul h j /\ debug_mul h' j = debug_mul h j.
Proof.
  intros h h' j H L. destruct (nth_get _ h j L) as [nd E]. destruct (H nd E) as (nd' & E' & A & B & _). unfold fusable_mul, debug_mul. rewrite E, E', A, B. split; reflexivity.
Qed.

(* formats of fused multiplications do not matter *)
Definition formats_ok (h : heap) : Prop := uniform h \/ (forall f g l w, sem KMul f l w = sem KMul g l w).
Definition heap_ok (h : heap) (rk : nat -> nat) : Prop := ranked h rk /\ wf_heap h /\ formats_ok h.
Lemma formats_mul : forall h i nd j mj l w, formats_ok h ->
  nth_error h i = Some nd -> is_addsub (n_kind nd) = true -> In j (n_inputs nd) -> nth_error h j = Some mj -> n_kind mj = KMul ->
  sem KMul (a_fmt (n_attr mj)) l w = sem KMul (a_fmt (n_attr nd)) l w.
Proof. intros h i nd j mj l w [U|U] A B C D E; [now rewrite (U i nd j mj A B C D E)|apply U]. Qed.

(* replacing the inputs (or the extra inputs) of a node by equivalent ones *)
Lemma update_ok : forall h rk i nd nd', heap_ok h rk -> nth_error h i = Some nd -> same_node nd nd' ->
  Forall2 (fun j r => r < length h /\ rk r <= rk j /\ repl h j r /\ val_eq h j r /\ clean h r) (n_inputs nd) (n_inputs nd') \/ n_inputs nd = n_inputs nd' ->
  Forall2 (fun j r => r < length h /\ rk r <= rk j /\ repl h j r /\ val_eq h j r /\ clean h r) (n_extra nd) (n_extra nd') \/ n_extra nd = n_extra nd' ->
  let h' := set_nth h i nd' in heap_ok h' rk /\ ext h rk h' rk (rk i) /\
  ((forall c, In c (children nd') -> clean h c) -> ~ fusable h i -> clean h' i).
Proof.
  intros h rk i nd nd' (R & W & U) E SN HI HE h'. pose proof SN as (SK & SA & SC & SL).
  assert (HI' : Forall2 (fun j r => r < length h /\ rk r <= rk j /\ repl h j r /\ val_eq h j r /\ (clean h j -> clean h r)) (n_inputs nd) (n_inputs nd')).
  { destruct HI as [HI|HI]; [eapply F2_impl; [|exact HI]; intros j r _ (A & B & C & D & F); repeat split; auto|]. rewrite <- HI.
    assert (X : forall c, In c (n_inputs nd) -> c < length h) by (intros c Hc; apply (R i nd c E); apply in_or_app; now left).
    clear - X. induction (n_inputs nd) as [|c l IH]; constructor; [|apply IH; intros; apply X; now right].
    split; [apply X; now left|]. split; [lia|]. split; [now left|]. split; [intros v Hv; exact Hv|auto]. }
  assert (HE' : Forall2 (fun j r => r < length h /\ rk r <= rk j /\ repl h j r /\ val_eq h j r /\ (clean h j -> clean h r)) (n_extra nd) (n_extra nd')).
  { destruct HE as [HE|HE]; [eapply F2_impl; [|exact HE]; intros j r _ (A & B & C & D & F); repeat split; auto|]. rewrite <- HE.
    assert (X : forall c, In c (n_extra nd) -> c < length h) by (intros c Hc; apply (R i nd c E); apply in_or_app; now right).
    clear - X. induction (n_extra nd) as [|c l IH]; constructor; [|apply IH; intros; apply X; now right].
    split; [apply X; now left|]. split; [lia|]. split; [now left|]. split; [intros v Hv; exact Hv|auto]. }
  clear HI HE.
  assert (N1 : nth_error h' i = Some nd') by (eapply nth_set_same; exact E).
  assert (N2 : forall k, k <> i -> nth_error h' k = nth_error h k) by (intros; now apply nth_set_other).
  assert (LH : length h' = length h) by apply length_set.
  assert (Q : forall (r : nat) (l m : list nat) (P : nat -> nat -> Prop), Forall2 P l m -> In r m -> (forall j r, P j r -> r < length h /\ rk r <= rk j) -> (forall c, In c l -> rk c < rk i) -> r < length h /\ rk r < rk i).
  { intros r l m P F. induction F as [|a b l m Pab F IH]; intros Hr HP HL; [destruct Hr|]. destruct Hr as [<-|Hr].
    - destruct (HP _ _ Pab). specialize (HL a (or_introl eq_refl)). lia.
    - apply IH; auto. intros; apply HL; now right. }
  assert (R' : ranked h' rk).
  { intros k x c Hk Hc. rewrite LH. destruct (Nat.eq_dec k i) as [->|Nk].
    - rewrite N1 in Hk. injection Hk as <-. apply in_app_or in Hc. destruct Hc as [Hc|Hc].
      + eapply Q; [exact HI'|exact Hc| |]; [intros j r (A & B & _); split; assumption|]. intros d Hd. apply (R i nd d E). apply in_or_app. now left.
      + eapply Q; [exact HE'|exact Hc| |]; [intros j r (A & B & _); split; assumption|]. intros d Hd. apply (R i nd d E). apply in_or_app. now right.
    - rewrite N2 in Hk by exact Nk. apply (R k x c Hk Hc). }
  assert (NODE : forall k x, nth_error h k = Some x -> exists x', nth_error h' k = Some x' /\ same_node x x').
  { intros k x Hk. destruct (Nat.eq_dec k i) as [->|Nk]; [rewrite E in Hk; injection Hk as <-; exists nd'; split; assumption|].
    exists x. rewrite N2 by exact Nk. split; [exact Hk|repeat split]. }
  assert (KO : forall k, kind_of h' k = kind_of h k).
  { intro k. unfold kind_of. destruct (Nat.eq_dec k i) as [->|Nk]; [rewrite N1, E; cbn; now rewrite SK|now rewrite N2]. }
  assert (MUL : forall j r, repl h j r -> kind_of h r = Some KMul -> r = j).
  { intros j r [H|[_ [s H]]] G; [exact H|congruence]. }
  assert (U' : formats_ok h').
  { destruct U as [U|U]; [left|right; exact U]. intros k x j mj Hk Ha Hj Hm Km.
    assert (G : exists mj0, nth_error h j = Some mj0 /\ n_kind mj0 = KMul /\ a_fmt (n_attr mj0) = a_fmt (n_attr mj)).
    { destruct (Nat.eq_dec j i) as [->|Nj]; [rewrite N1 in Hm; injection Hm as <-; exists nd; repeat split; [exact E|congruence|now rewrite SA]|].
      rewrite N2 in Hm by exact Nj. exists mj. repeat split; assumption. }
    destruct G as (mj0 & G1 & G2 & G3). rewrite <- G3. clear Hm Km G3.
    destruct (Nat.eq_dec k i) as [->|Nk]; [|rewrite N2 in Hk by exact Nk; exact (U k x j mj0 Hk Ha Hj G1 G2)].
    rewrite N1 in Hk. injection Hk as <-. rewrite SA. apply (U i nd j mj0 E); [rewrite <- SK; exact Ha| |exact G1|exact G2].
    clear - HI' Hj MUL G1 G2. induction HI' as [|a b l m (_ & _ & X & _) F IH]; [destruct Hj|]. destruct Hj as [->|Hj]; [left|right; apply IH; exact Hj].
    symmetry. apply MUL; [exact X|]. unfold kind_of. rewrite G1. cbn. now rewrite G2. }
  assert (W' : wf_heap h').
  { intros k x Hk. destruct (Nat.eq_dec k i) as [->|Nk]; [|rewrite N2 in Hk by exact Nk; exact (W k x Hk)].
    rewrite N1 in Hk. injection Hk as <-. pose proof (W i nd E) as Wi. unfold wf_node in *. rewrite SK.
    pose proof (F2_len _ _ _ _ _ HI') as L1. pose proof (F2_len _ _ _ _ _ HE') as L2.
    assert (Z : forall l m : list nat, length l = length m -> l = [] -> m = []) by (intros l m L ->; destruct m; [reflexivity|discriminate L]).
    destruct (n_kind nd); auto; try (eapply Z; [|exact Wi]; assumption). destruct Wi as [A B]. split; [congruence|eapply Z; [exact L2|exact B]]. }
  assert (EV : forall n k v, rk k < n -> ev h k v -> ev h' k v).
  { induction n as [|n IH]; intros k v Hn Hv; [lia|]. destruct (ev_inv _ _ _ Hv) as (x & vs & ws & Hx & F1 & F2 & ->).
    destruct (Nat.eq_dec k i) as [->|Nk].
    - rewrite E in Hx. injection Hx as <-.
      assert (T : forall l m us, Forall2 (fun j r => r < length h /\ rk r <= rk j /\ repl h j r /\ val_eq h j r /\ (clean h j -> clean h r)) l m ->
                  (forall c, In c l -> rk c < rk i) -> Forall2 (ev h) l us -> Forall2 (ev h') m us).
      { intros l m us F. revert us. induction F as [|a b l m (A & B & C & D & _) F IHF]; intros us HL G; inversion G; subst; constructor.
        - apply IH; [specialize (HL a (or_introl eq_refl)); lia|]. apply D. assumption.
        - apply IHF; [intros; apply HL; now right|assumption]. }
      rewrite <- SK, <- SA. eapply ev_intro; [exact N1| |].
      + eapply T; [exact HI'| |exact F1]. intros c Hc. apply (R i nd c E). apply in_or_app. now left.
      + eapply T; [exact HE'| |exact F2]. intros c Hc. apply (R i nd c E). apply in_or_app. now right.
    - eapply ev_intro; [rewrite N2 by exact Nk; exact Hx| |].
      + eapply F2_impl; [|exact F1]. intros c w Hc Hw. apply IH; [|exact Hw]. destruct (R k x c Hx); [apply in_or_app; now left|lia].
      + eapply F2_impl; [|exact F2]. intros c w Hc Hw. apply IH; [|exact Hw]. destruct (R k x c Hx); [apply in_or_app; now right|lia]. }
  assert (FMU : forall j, j < length h -> fusable_mul h' j = fusable_mul h j /\ debug_mul h' j = debug_mul h j).
  { intros j Hj. apply mul_node; [|exact Hj]. intros x Hx. apply NODE. exact Hx. }
  assert (NF : forall k, ~ fusable h k -> ~ fusable h' k).
  { intros k NFk (x & a & b & Hx & A1 & A2 & A3 & A4 & A5 & A6).
    assert (IN : forall c, In c (n_inputs x) -> c < length h) by (intros c Hc; rewrite <- LH; apply (R' k x c Hx); apply in_or_app; now left).
    assert (La : a < length h) by (apply IN; rewrite A3; now left). assert (Lb : b < length h) by (apply IN; rewrite A3; right; now left).
    rewrite (proj1 (FMU a La)), (proj1 (FMU b Lb)) in A6. rewrite (proj2 (FMU a La)) in A4. rewrite (proj2 (FMU b Lb)) in A5.
    destruct (Nat.eq_dec k i) as [->|Nk].
    - rewrite N1 in Hx. injection Hx as <-. apply NFk. rewrite A3 in HI'. inversion HI' as [|a0 ? l0 ? Pa Ft]; subst. inversion Ft as [|b0 ? l1 ? Pb Ft']; subst. inversion Ft'; subst.
      destruct Pa as (_ & _ & Ra & _). destruct Pb as (_ & _ & Rb & _).
      assert (FM : forall j r, repl h j r -> fusable_mul h r = true -> fusable_mul h j = true).
      { intros j r Rj G. assert (r = j); [|congruence]. apply MUL; [exact Rj|]. unfold fusable_mul in G. unfold kind_of. destruct (nth_error h r) as [y|]; [|discriminate G]. cbn. destruct (n_kind y); try discriminate G. reflexivity. }
      assert (DM : forall j r, repl h j r -> debug_mul h r = false -> debug_mul h j = false).
      { intros j r Rj G. destruct Rj as [->|[[q [Kj Aj]] _]]; [exact G|]. unfold debug_mul. unfold kind_of in Kj. destruct (nth_error h j) as [y|]; [|reflexivity]. injection Kj as Kj. rewrite Kj. destruct q; try discriminate Aj; apply andb_false_r. }
      exists nd, a0, b0. split; [exact E|]. split; [rewrite <- SK; exact A1|]. split; [rewrite <- SA; exact A2|]. split; [symmetry; assumption|].
      split; [eapply DM; eassumption|]. split; [eapply DM; eassumption|]. destruct A6 as [G|G]; [left|right]; eapply FM; eassumption.
    - rewrite N2 in Hx by exact Nk. apply NFk. exists x, a, b. repeat split; assumption. }
  assert (CL : forall n k, rk k < n -> clean h k -> clean h' k).
  { induction n as [|n IH]; intros k Hn Hc; [lia|]. inversion Hc as [k' x Hx NFx CC]; subst k'.
    destruct (Nat.eq_dec k i) as [->|Nk].
    - rewrite E in Hx. injection Hx as <-. eapply clean_intro; [exact N1|apply NF; exact NFx|].
      intros c Hc'. apply IH; [destruct (R' i nd' c N1 Hc'); lia|]. apply in_app_or in Hc'. destruct Hc' as [Hc'|Hc'].
      + assert (CCi : forall d, In d (n_inputs nd) -> clean h d) by (intros d Hd; apply CC; apply in_or_app; now left).
        clear - HI' Hc' CCi. induction HI' as [|a b l m (_ & _ & _ & _ & X) F IHF]; [destruct Hc'|]. destruct Hc' as [<-|Hc']; [apply X; apply CCi; now left|apply IHF; [exact Hc'|intros; apply CCi; now right]].
      + assert (CCi : forall d, In d (n_extra nd) -> clean h d) by (intros d Hd; apply CC; apply in_or_app; now right).
        clear - HE' Hc' CCi. induction HE' as [|a b l m (_ & _ & _ & _ & X) F IHF]; [destruct Hc'|]. destruct Hc' as [<-|Hc']; [apply X; apply CCi; now left|apply IHF; [exact Hc'|intros; apply CCi; now right]].
    - eapply clean_intro; [rewrite N2 by exact Nk; exact Hx|apply NF; exact NFx|]. intros c Hc'. apply IH; [destruct (R k x c Hx Hc'); lia|apply CC; exact Hc']. }
  split; [split; [exact R'|split; [exact W'|exact U']]|]. split.
  - constructor.
    + lia.
    + reflexivity.
    + exact NODE.
    + intros k _ Hb. apply N2. intro; subst k. lia.
    + intros k v Hv. eapply EV; [apply Nat.lt_succ_diag_r|exact Hv].
    + intros k Hk. eapply CL; [apply Nat.lt_succ_diag_r|exact Hk].
  - intros CC NFi. eapply clean_intro; [exact N1|apply NF; exact NFi|]. intros c Hc. eapply CL; [apply Nat.lt_succ_diag_r|apply CC; exact Hc].
Qed.

(* adding a fused node *)
Lemma alloc_ok : forall h rk nd b x, heap_ok h rk -> (exists s, n_kind nd = KFma s) -> n_extra nd = [] ->
  (forall c, In c (n_inputs nd) -> c < length h /\ rk c < x /\ clean h c) ->
  let h' := h ++ [nd] in let rk' := fun k => if Nat.eqb k (length h) then x else rk k in
  heap_ok h' rk' /\ ext h rk h' rk' b /\ clean h' (length h) /\ nth_error h' (length h) = Some nd.
Proof.
  intros h rk nd b x (R & W & U) [s K] X C h' rk'.
  assert (N1 : nth_error h' (length h) = Some nd) by (unfold h'; rewrite nth_error_app2, Nat.sub_diag by lia; reflexivity).
  assert (N2 : forall k, k < length h -> nth_error h' k = nth_error h k) by (intros; unfold h'; now rewrite nth_error_app1).
  assert (RK : forall k, k < length h -> rk' k = rk k) by (intros k Hk; unfold rk'; destruct (Nat.eqb_spec k (length h)); [lia|reflexivity]).
  assert (SPL : forall k y, nth_error h' k = Some y -> (k < length h /\ nth_error h k = Some y) \/ (k = length h /\ y = nd)).
  { intros k y H. pose proof (nth_some _ _ _ _ H) as L. unfold h' in L. rewrite app_length in L. cbn in L.
    destruct (Nat.eq_dec k (length h)) as [->|Nk]; [right; split; [reflexivity|congruence]|left]. split; [lia|]. rewrite <- N2 by lia. exact H. }
  assert (LH : length h' = S (length h)) by (unfold h'; rewrite app_length; cbn; lia).
  assert (EV : forall k v, ev h k v -> ev h' k v).
  { assert (G : forall n k v, evn h n k v -> evn h' n k v); [|intros k v [n H]; exists n; apply G; exact H].
    induction n as [|n IH]; intros k v H; [destruct H|]. destruct H as (y & vs & ws & Hy & F1 & F2 & Ev). exists y, vs, ws.
    split; [rewrite N2 by (eapply nth_some; exact Hy); exact Hy|]. split; [eapply F2_impl; [|exact F1]; auto|]. split; [eapply F2_impl; [|exact F2]; auto|exact Ev]. }
  assert (FM : forall j, j < length h -> fusable_mul h' j = fusable_mul h j /\ debug_mul h' j = debug_mul h j).
  { intros j Hj. unfold fusable_mul, debug_mul. rewrite N2 by exact Hj. split; reflexivity. }
  assert (NF : forall k, k < length h -> ~ fusable h k -> ~ fusable h' k).
  { intros k Hk NFk (y & a & b' & Hy & A1 & A2 & A3 & A4 & A5 & A6). rewrite N2 in Hy by exact Hk. apply NFk.
    assert (La : a < length h) by (apply (R k y a Hy); apply in_or_app; left; rewrite A3; now left).
    assert (Lb : b' < length h) by (apply (R k y b' Hy); apply in_or_app; left; rewrite A3; right; now left).
    rewrite (proj1 (FM a La)), (proj1 (FM b' Lb)) in A6. rewrite (proj2 (FM a La)) in A4. rewrite (proj2 (FM b' Lb)) in A5.
    exists y, a, b'. repeat split; assumption. }
  assert (CL : forall k, clean h k -> clean h' k).
  { intros k H. induction H as [k y Hy NFy CC IH]. pose proof (nth_some _ _ _ _ Hy). eapply clean_intro; [rewrite N2 by assumption; exact Hy|apply NF; assumption|exact IH]. }
  split; [split; [|split]|].
  - intros k y c Hk Hc. rewrite LH. destruct (SPL _ _ Hk) as [[L Hy]|[-> ->]].
    + destruct (R k y c Hy Hc). rewrite !RK by lia. lia.
    + unfold children in Hc. rewrite X, app_nil_r in Hc. destruct (C c Hc) as (A & B & _). rewrite RK by exact A. unfold rk'. rewrite Nat.eqb_refl. lia.
  - intros k y Hk. destruct (SPL _ _ Hk) as [[L Hy]|[-> ->]]; [exact (W k y Hy)|]. unfold wf_node. rewrite K. exact I.
  - destruct U as [U|U]; [left|right; exact U]. intros k y j mj Hk Ha Hj Hm Km. destruct (SPL _ _ Hk) as [[L Hy]|[-> ->]]; [|rewrite K in Ha; discriminate Ha].
    destruct (SPL _ _ Hm) as [[L' Hy']|[-> ->]]; [exact (U k y j mj Hy Ha Hj Hy' Km)|congruence].
  - split; [|split; [|exact N1]].
    + constructor; auto; try lia.
      * intros k y Hk. exists y. rewrite N2 by (eapply nth_some; exact Hk). split; [exact Hk|repeat split].
    + eapply clean_intro; [exact N1| |].
      * intros (y & a & b' & Hy & A1 & _). rewrite N1 in Hy. injection Hy as <-. rewrite K in A1. discriminate A1.
      * intros c Hc. unfold children in Hc. rewrite X, app_nil_r in Hc. apply CL. apply (C c Hc).
Qed.

(* ---- states ---- *)
Definition memo_ok (st : state) (rk : nat -> nat) : Prop := forall i r, lookup (memo st) i = Some r ->
  i < length (hp st) /\ r < length (hp st) /\ rk r <= rk i /\ repl (hp st) i r /\ val_eq (hp st) i r /\ clean (hp st) r.
Definition good (st : state) (rk : nat -> nat) : Prop := heap_ok (hp st) rk /\ memo_ok st rk.
Definition result_ok (h : heap) (rk : nat -> nat) (i r : nat) : Prop :=
  r < length h /\ rk r <= rk i /\ repl h i r /\ val_eq h i r /\ clean h r.
Definition post (st : state) (rk : nat -> nat) (i b : nat) (st' : state) (r : nat) (rk' : nat -> nat) : Prop :=
  good st' rk' /\ ext (hp st) rk (hp st') rk' b /\ result_ok (hp st') rk' i r.

Lemma result_ext : forall h rk h' rk' b i r, ranked h rk -> i < length h -> ext h rk h' rk' b -> result_ok h rk i r -> result_ok h' rk' i r.
Proof.
  intros h rk h' rk' b i r R Hi E (A & B & C & D & F). split; [pose proof (ext_len _ _ _ _ _ E); lia|].
  split; [rewrite !(ext_rk _ _ _ _ _ E) by assumption; exact B|]. split; [eapply repl_ext; eassumption|].
  split; [eapply val_eq_ext; eassumption|apply (ext_clean _ _ _ _ _ E); exact F].
Qed.
Lemma memo_ext : forall h m rk h' rk' b, ranked h rk -> ext h rk h' rk' b -> memo_ok (mkS h m) rk -> memo_ok (mkS h' m) rk'.
Proof.
  intros h m rk h' rk' b R E M i r H. destruct (M i r H) as (A & B & C). cbn [hp] in *. split; [pose proof (ext_len _ _ _ _ _ E); lia|].
  exact (result_ext h rk h' rk' b i r R A E (conj B C)).
Qed.
Lemma remember_good : forall st rk i r, good st rk -> i < length (hp st) -> result_ok (hp st) rk i r -> good (remember st i r) rk.
Proof.
  intros st rk i r [H M] L Rk. split; [exact H|]. intros k q. cbn [memo remember lookup hp]. destruct (Nat.eqb_spec i k) as [->|N].
  - intro X. injection X as <-. split; [exact L|exact Rk].
  - intro X. exact (M k q X).
Qed.

Variable silence dot : bool.
Hypothesis SEM : fused_exact V sem.
Notation fuse := (fuse silence dot).

Definition fuse_spec (n : nat) : Prop := forall st rk i, good st rk -> i < length (hp st) -> rk i < n ->
  exists st' r rk', fuse n st i = Some (st', r) /\ post st rk i (rk i) st' r rk'.

Lemma map_ok : forall n, fuse_spec n -> forall l st rk b, good st rk -> (forall j, In j l -> j < length (hp st) /\ rk j < n /\ rk j <= b) ->
  exists st' rs rk', map_st (fuse n) st l = Some (st', rs) /\ good st' rk' /\ ext (hp st) rk (hp st') rk' b /\ Forall2 (result_ok (hp st') rk') l rs.
Proof.
  intros n IH l. induction l as [|j l IHl]; intros st rk b G HL.
  - exists st, [], rk. split; [reflexivity|]. split; [exact G|]. split; [apply ext_refl|constructor].
  - destruct (HL j (or_introl eq_refl)) as (L1 & L2 & L3). destruct (IH st rk j G L1 L2) as (st1 & r & rk1 & E1 & G1 & X1 & R1).
    destruct (IHl st1 rk1 b G1) as (st2 & rs & rk2 & E2 & G2 & X2 & R2).
    { intros k Hk. destruct (HL k (or_intror Hk)) as (A & B & C). rewrite (ext_rk _ _ _ _ _ X1) by exact A. pose proof (ext_len _ _ _ _ _ X1). lia. }
    exists st2, (r :: rs), rk2. split; [cbn [map_st]; rewrite E1; cbn [bind fst snd]; rewrite E2; reflexivity|]. split; [exact G2|].
    split; [eapply ext_trans; [exact X1|exact X2|exact L3|lia]|]. constructor; [|exact R2].
    eapply result_ext; [apply (proj1 (proj1 G1))| |exact X2|exact R1]. pose proof (ext_len _ _ _ _ _ X1). lia.
Qed.

Lemma same_kind_mul : forall h rk h' rk' b j, ext h rk h' rk' b -> j < length h -> fusable_mul h' j = fusable_mul h j /\ debug_mul h' j = debug_mul h j.
Proof. intros h rk h' rk' b j E L. apply mul_node; [|exact L]. intros nd Hn. exact (ext_node _ _ _ _ _ E j nd Hn). Qed.

(* changing the inputs in place *)
Lemma inplace_ok : forall n, fuse_spec n -> forall st rk i nd, good st rk -> nth_error (hp st) i = Some nd -> rk i <= n ->
  ~ fusable (hp st) i -> (forall c, In c (n_extra nd) -> clean (hp st) c) ->
  exists st' rk', inplace (fuse n) st i = Some st' /\ good st' rk' /\ ext (hp st) rk (hp st') rk' (rk i) /\ result_ok (hp st') rk' i i.
Proof.
  intros n IH st rk i nd G N L NF CE. pose proof G as [[R [W U]] M].
  assert (BD : 0 < rk i \/ n_inputs nd = []).
  { destruct (n_inputs nd) as [|c l] eqn:Q; [now right|left]. destruct (R i nd c N); [apply in_or_app; left; rewrite Q; now left|lia]. }
  destruct (map_ok n IH (n_inputs nd) st rk (rk i - 1) G) as (st1 & rs & rk1 & E1 & G1 & X1 & F1).
  { intros j Hj. destruct (R i nd j N); [apply in_or_app; now left|]. lia. }
  pose proof (nth_some _ _ _ _ N) as Li.
  assert (N1 : nth_error (hp st1) i = Some nd).
  { destruct BD as [BD|BD]; [rewrite (ext_same _ _ _ _ _ X1) by lia; exact N|]. rewrite BD in E1. cbn in E1. injection E1 as <- _. exact N. }
  assert (RKi : rk1 i = rk i) by (apply (ext_rk _ _ _ _ _ X1); exact Li).
  destruct (update_ok (hp st1) rk1 i nd (with_inputs nd rs) (proj1 G1) N1) as (H2 & X2 & C2).
  - repeat split. cbn [with_inputs n_inputs]. symmetry. eapply F2_len. exact F1.
  - left. cbn [with_inputs n_inputs]. eapply F2_impl; [|exact F1]. intros j r _ Q. exact Q.
  - right. reflexivity.
  - exists (mkS (set_nth (hp st1) i (with_inputs nd rs)) (memo st1)), rk1.
    split; [unfold inplace; rewrite N; cbn [bind]; rewrite E1; cbn [bind fst snd]; unfold set_inputs; rewrite N1; reflexivity|].
    split; [split; [exact H2|]; cbn [hp]; eapply memo_ext; [apply (proj1 (proj1 G1))|exact X2|]; destruct st1; exact (proj2 G1)|].
    split; [cbn [hp]; eapply ext_trans; [exact X1|exact X2|lia|lia]|]. cbn [hp].
    split; [rewrite length_set; pose proof (ext_len _ _ _ _ _ X1); lia|]. split; [lia|]. split; [now left|]. split; [intros v Hv; exact Hv|].
    apply C2.
    + intros c Hc. apply in_app_or in Hc. destruct Hc as [Hc|Hc]; cbn [with_inputs n_inputs n_extra] in Hc.
      * clear - F1 Hc. induction F1 as [|a b l m (_ & _ & _ & _ & Q) F IHF]; [destruct Hc|]. destruct Hc as [<-|Hc]; [exact Q|apply IHF; exact Hc].
      * apply (ext_clean _ _ _ _ _ X1). apply CE. exact Hc.
    + intros (x & a & b & Hx & A1 & A2 & A3 & A4 & A5 & A6). rewrite N1 in Hx. injection Hx as <-. apply NF.
      assert (La : a < length (hp st)) by (apply (R i nd a N); apply in_or_app; left; rewrite A3; now left).
      assert (Lb : b < length (hp st)) by (apply (R i nd b N); apply in_or_app; left; rewrite A3; right; now left).
      rewrite (proj1 (same_kind_mul _ _ _ _ _ _ X1 La)), (proj1 (same_kind_mul _ _ _ _ _ _ X1 Lb)) in A6.
      rewrite (proj2 (same_kind_mul _ _ _ _ _ _ X1 La)) in A4. rewrite (proj2 (same_kind_mul _ _ _ _ _ _ X1 Lb)) in A5.
      exists nd, a, b. repeat split; assumption.
Qed.

(* fusing the two operands of a multiplication *)
Lemma mul_ok : forall n, fuse_spec n -> forall st rk i nd k j mj, good st rk -> nth_error (hp st) i = Some nd -> nth_error (n_inputs nd) k = Some j ->
  nth_error (hp st) j = Some mj -> n_kind mj = KMul -> rk i <= n ->
  exists x0 st1 r0 x1 st2 r1 rk2, operand2 st i k 0 = Some x0 /\ fuse n st x0 = Some (st1, r0) /\ operand2 st1 i k 1 = Some x1 /\ fuse n st1 x1 = Some (st2, r1) /\
  good st2 rk2 /\ ext (hp st) rk (hp st2) rk2 (rk j - 1) /\ 0 < rk j /\ rk j < rk i /\
  (r0 < length (hp st2) /\ rk2 r0 < rk j /\ clean (hp st2) r0) /\ (r1 < length (hp st2) /\ rk2 r1 < rk j /\ clean (hp st2) r1) /\
  (forall v, ev (hp st2) j v -> exists v0 v1, ev (hp st2) r0 v0 /\ ev (hp st2) r1 v1 /\ v = sem KMul (a_fmt (n_attr mj)) [v0; v1] []).
Proof.
  intros n IH st rk i nd k j mj G N Nk Nj Kj L. pose proof G as [[R [W U]] M].
  pose proof (W j mj Nj) as Wj. unfold wf_node in Wj. rewrite Kj in Wj. destruct Wj as [W1 W2].
  destruct (n_inputs mj) as [|x0 [|x1 [|? ?]]] eqn:I; try discriminate W1. clear W1.
  assert (Lj : j < length (hp st) /\ rk j < rk i) by (apply (R i nd j N); apply in_or_app; left; eapply nth_error_In; exact Nk).
  assert (L0 : x0 < length (hp st) /\ rk x0 < rk j) by (apply (R j mj x0 Nj); apply in_or_app; left; rewrite I; now left).
  assert (L1 : x1 < length (hp st) /\ rk x1 < rk j) by (apply (R j mj x1 Nj); apply in_or_app; left; rewrite I; right; now left).
  pose proof (nth_some _ _ _ _ N) as Li.
  destruct (IH st rk x0 G) as (st1 & r0 & rk1 & E1 & G1 & X1 & R1); [lia|lia|].
  pose proof (ext_len _ _ _ _ _ X1) as LL1. pose proof (ext_rk _ _ _ _ _ X1) as RR1.
  destruct (IH st1 rk1 x1 G1) as (st2 & r1 & rk2 & E2 & G2 & X2 & R2); [lia|rewrite RR1; lia|].
  pose proof (ext_len _ _ _ _ _ X2) as LL2. pose proof (ext_rk _ _ _ _ _ X2) as RR2.
  assert (Ni1 : nth_error (hp st1) i = Some nd) by (rewrite (ext_same _ _ _ _ _ X1) by lia; exact N).
  assert (Nj1 : nth_error (hp st1) j = Some mj) by (rewrite (ext_same _ _ _ _ _ X1) by lia; exact Nj).
  assert (Nj2 : nth_error (hp st2) j = Some mj) by (rewrite (ext_same _ _ _ _ _ X2); [exact Nj1|lia|rewrite !RR1 by lia; lia]).
  assert (R1' : result_ok (hp st2) rk2 x0 r0) by (eapply result_ext; [apply (proj1 (proj1 G1))| |exact X2|exact R1]; lia).
  exists x0, st1, r0, x1, st2, r1, rk2.
  split; [unfold operand2, operand; rewrite N; cbn [bind]; rewrite Nk; cbn [bind]; rewrite Nj; cbn [bind]; rewrite I; reflexivity|].
  split; [exact E1|].
  split; [unfold operand2, operand; rewrite Ni1; cbn [bind]; rewrite Nk; cbn [bind]; rewrite Nj1; cbn [bind]; rewrite I; reflexivity|].
  split; [exact E2|]. split; [exact G2|].
  split; [eapply ext_trans; [exact X1|exact X2|lia|rewrite RR1; lia]|]. split; [lia|]. split; [lia|].
  destruct R1' as (A1 & A2 & A3 & A4 & A5). destruct R2 as (B1 & B2 & B3 & B4 & B5).
  rewrite (RR2 x0), (RR1 x0) in A2 by lia. rewrite (RR2 x1), (RR1 x1) in B2 by lia.
  split; [repeat split; [exact A1|lia|exact A5]|]. split; [repeat split; [exact B1|lia|exact B5]|].
  intros v Hv. destruct (ev_inv _ _ _ Hv) as (y & vs & ws & Hy & F1 & F2 & Ev). rewrite Nj2 in Hy. injection Hy as <-.
  rewrite I in F1. rewrite W2 in F2. inversion F2; subst ws. inversion F1 as [|? v0 ? ? P0 F1']; subst. inversion F1' as [|? v1 ? ? P1 F1'']; subst. inversion F1''; subst.
  exists v0, v1. split; [apply A4; exact P0|]. split; [apply B4; exact P1|]. rewrite Kj. reflexivity.
Qed.

(* adding the fused operation *)
Lemma finish_ok : forall st rk i nd st' rk' b s a l cm, good st rk -> nth_error (hp st) i = Some nd -> is_addsub (n_kind nd) = true ->
  good st' rk' -> ext (hp st) rk (hp st') rk' b -> b <= rk i -> a_fmt a = a_fmt (n_attr nd) ->
  (forall c, In c l -> c < length (hp st') /\ rk' c < rk i /\ clean (hp st') c) ->
  (forall v, ev (hp st') i v -> exists vs, Forall2 (ev (hp st')) l vs /\ v = sem (KFma s) (a_fmt (n_attr nd)) vs []) ->
  let nn := mkN (KFma s) a l [] cm in let r := length (hp st') in
  exists rk'', post st rk i (rk i) (remember (mkS (hp st' ++ [nn]) (memo st')) i r) r rk''.
Proof.
  intros st rk i nd st' rk' b s a l cm G N Ka G' X Lb Fa Hl Hv nn r. pose proof (nth_some _ _ _ _ N) as Li. pose proof (ext_len _ _ _ _ _ X) as LL.
  destruct (alloc_ok (hp st') rk' nn 0 (rk i) (proj1 G')) as (H2 & X2 & C2 & N2); [exists s; reflexivity|reflexivity|exact Hl|].
  set (rk'' := fun k => if Nat.eqb k (length (hp st')) then rk i else rk' k) in *. exists rk''.
  assert (G2 : good (mkS (hp st' ++ [nn]) (memo st')) rk'').
  { split; [exact H2|]. cbn [hp]. eapply memo_ext; [apply (proj1 (proj1 G'))|exact X2|]. destruct st'; exact (proj2 G'). }
  assert (RES : result_ok (hp st' ++ [nn]) rk'' i r).
  { split; [rewrite app_length; cbn; unfold r; lia|]. split; [unfold rk'', r; rewrite Nat.eqb_refl; destruct (Nat.eqb_spec i (length (hp st'))); [lia|]; rewrite (ext_rk _ _ _ _ _ X) by exact Li; lia|].
    split; [right; split|].
    - exists (n_kind nd). split; [|exact Ka]. eapply kind_ext; [exact X2|]. eapply kind_ext; [exact X|]. unfold kind_of. rewrite N. reflexivity.
    - exists s. unfold kind_of, r. rewrite N2. reflexivity.
    - split; [|exact C2]. intros v Hev. destruct (ev_total (hp st') rk' (proj1 (proj1 G')) i) as [w Hw]; [lia|].
      assert (v = w) by (eapply ev_det; [exact Hev|apply (ext_ev _ _ _ _ _ X2); exact Hw]). subst w.
      destruct (Hv v Hw) as (vs & F & ->). rewrite <- Fa. change (KFma s) with (n_kind nn). change a with (n_attr nn).
      eapply ev_intro; [exact N2| |constructor]. eapply F2_impl; [|exact F]. intros c u _ Hu. apply (ext_ev _ _ _ _ _ X2). exact Hu. }
  split; [apply remember_good; [exact G2|cbn [hp]; rewrite app_length; lia|exact RES]|].
  split; [cbn [hp remember]; eapply ext_trans; [exact X|exact X2|exact Lb|lia]|exact RES].
Qed.

Lemma fusable_mul_inv : forall h j, fusable_mul h j = true -> exists mj, nth_error h j = Some mj /\ n_kind mj = KMul.
Proof.
  intros h j H. unfold fusable_mul in H. destruct (nth_error h j) as [y|]; [|discriminate H]. exists y. split; [reflexivity|]. destruct (n_kind y); try discriminate H. reflexivity.
Qed.

Lemma fuse_ok : forall n, fuse_spec n.
Proof.
  induction n as [|n IH]; intros st rk i G Li Ln; [lia|]. destruct (nth_get _ _ _ Li) as [nd N]. pose proof G as [[R [W U]] M].
  destruct SEM as (S1 & S2 & S3 & S4 & S5 & S6).
  assert (INP : (forall c, In c (n_extra nd) -> clean (hp st) c) -> ~ fusable (hp st) i ->
          exists st' rk', inplace (fuse n) st i = Some st' /\ post st rk i (rk i) (remember st' i i) i rk' /\ post st rk i (rk i) st' i rk').
  { intros CE NF. destruct (inplace_ok n IH st rk i nd G N) as (st' & rk' & E & G' & X & RS); [lia|exact NF|exact CE|]. exists st', rk'. split; [exact E|].
    split; [|split; [exact G'|split; [exact X|exact RS]]]. split; [apply remember_good; [exact G'|pose proof (ext_len _ _ _ _ _ X); lia|exact RS]|]. split; [exact X|exact RS]. }
  cbn [FmaModel.fuse]. rewrite N. cbn [bind].
  destruct (is_addsub (n_kind nd) && negb (a_unbreakable (n_attr nd))) eqn:AS.
  - apply andb_prop in AS. destruct AS as [Ka Ub]. apply negb_true_iff in Ub.
    assert (EX : n_extra nd = []) by (pose proof (W i nd N) as Wi; unfold wf_node in Wi; destruct (n_kind nd); try discriminate Ka; exact Wi).
    assert (CE : forall c, In c (n_extra nd) -> clean (hp st) c) by (rewrite EX; intros c []).
    specialize (INP CE).
    destruct (n_inputs nd) as [|op0 [|op1 [|op2 ops]]] eqn:I;
      try (destruct INP as (st' & rk' & E & _ & P2); [intros (x & a & b & Hx & _ & _ & A3 & _); rewrite N in Hx; injection Hx as <-; rewrite I in A3; discriminate A3|];
           rewrite E; cbn [bind]; exists st', i, rk'; split; [reflexivity|exact P2]).
    destruct (lookup (memo st) i) as [r|] eqn:LK.
    { destruct (M i r LK) as (_ & RS). exists st, r, rk. split; [reflexivity|]. split; [exact G|]. split; [apply ext_refl|exact RS]. }
    assert (L0 : op0 < length (hp st) /\ rk op0 < rk i) by (apply (R i nd op0 N); apply in_or_app; left; rewrite I; now left).
    assert (L1 : op1 < length (hp st) /\ rk op1 < rk i) by (apply (R i nd op1 N); apply in_or_app; left; rewrite I; right; now left).
    destruct (debug_mul (hp st) op0 || debug_mul (hp st) op1) eqn:DB.
    { destruct INP as (st' & rk' & E & P1 & _).
      { intros (x & a & b & Hx & _ & _ & A3 & A4 & A5 & _). rewrite N in Hx. injection Hx as <-. rewrite I in A3. injection A3 as <- <-. rewrite A4, A5 in DB. discriminate DB. }
      rewrite E. cbn [bind]. exists (remember st' i i), i, rk'. split; [reflexivity|exact P1]. }
    set (s0 := match n_kind nd with KSub => true | _ => false end).
    assert (INV : forall st', nth_error (hp st') i = Some nd -> forall v, ev (hp st') i v -> exists v0 v1, ev (hp st') op0 v0 /\ ev (hp st') op1 v1 /\
              v = sem (if s0 then KSub else KAdd) (a_fmt (n_attr nd)) [v0; v1] []).
    { intros st' N' v Hv. destruct (ev_inv _ _ _ Hv) as (y & vs & ws & Hy & F1 & F2 & Ev). rewrite N' in Hy. injection Hy as <-.
      rewrite I in F1. rewrite EX in F2. inversion F2; subst ws. inversion F1 as [|? v0 ? ? P0 F1']; subst. inversion F1' as [|? v1 ? ? P1 F1'']; subst. inversion F1''; subst.
      exists v0, v1. split; [exact P0|]. split; [exact P1|]. unfold s0. destruct (n_kind nd); try discriminate Ka; reflexivity. }
    destruct (dot && fusable_mul (hp st) op0 && fusable_mul (hp st) op1) eqn:DT; [|destruct (fusable_mul (hp st) op0) eqn:F0; [|destruct (fusable_mul (hp st) op1) eqn:F1]].
    + apply andb_prop in DT. destruct DT as [DT F1]. apply andb_prop in DT. destruct DT as [_ F0].
      destruct (fusable_mul_inv _ _ F0) as (m0 & Nm0 & Km0). destruct (fusable_mul_inv _ _ F1) as (m1 & Nm1 & Km1).
      destruct (mul_ok n IH st rk i nd 0 op0 m0 G N) as (x0 & st1 & r0 & x1 & st2 & r1 & rk2 & O1 & E1 & O2 & E2 & G2 & X2 & P0 & P1 & Q0 & Q1 & VM0); [rewrite I; reflexivity|exact Nm0|exact Km0|lia|].
      pose proof (ext_len _ _ _ _ _ X2) as LL2. pose proof (ext_rk _ _ _ _ _ X2) as RR2.
      assert (N2 : nth_error (hp st2) i = Some nd) by (rewrite (ext_same _ _ _ _ _ X2) by lia; exact N).
      destruct (ext_node _ _ _ _ _ X2 op1 m1 Nm1) as (m1' & Nm1' & SK & SA & _).
      destruct (mul_ok n IH st2 rk2 i nd 1 op1 m1' G2 N2) as (x2 & st3 & r2 & x3 & st4 & r3 & rk4 & O3 & E3 & O4 & E4 & G4 & X4 & P2 & P3 & Q2 & Q3 & VM1); [rewrite I; reflexivity|exact Nm1'|congruence|rewrite RR2; lia|].
      pose proof (ext_len _ _ _ _ _ X4) as LL4. pose proof (ext_rk _ _ _ _ _ X4) as RR4. rewrite (RR2 op1), (RR2 i) in * by lia.
      assert (N4 : nth_error (hp st4) i = Some nd) by (rewrite (ext_same _ _ _ _ _ X4); [exact N2|lia|rewrite RR2; lia]).
      rewrite O1. cbn [bind]. rewrite E1. cbn [bind fst snd]. rewrite O2. cbn [bind]. rewrite E2. cbn [bind fst snd].
      rewrite O3. cbn [bind]. rewrite E3. cbn [bind fst snd]. rewrite O4. cbn [bind]. rewrite E4. cbn [bind fst snd alloc].
      set (at' := fused_attrs silence _ _).
      destruct (finish_ok st rk i nd st4 rk4 (rk i) (if s0 then DotProductNegate else DotProduct) at' [r0; r1; r2; r3] false G N Ka G4) as (rk5 & PO).
      * eapply ext_trans; [exact X2|exact X4|lia|lia].
      * lia.
      * reflexivity.
      * destruct Q0 as (a0 & a1 & a2). destruct Q1 as (b0 & b1 & b2). destruct Q2 as (c0 & c1 & c2). destruct Q3 as (d0 & d1 & d2).
        intros c [<-|[<-|[<-|[<-|[]]]]]; (split; [lia|]); (split; [try (rewrite RR4 by lia); lia|]); first [assumption|apply (ext_clean _ _ _ _ _ X4); assumption].
      * intros v Hv. destruct (INV st4 N4 v Hv) as (w0 & w1 & W0 & W1 & ->).
        destruct (ev_total (hp st2) rk2 (proj1 (proj1 G2)) op0) as [w0' W0']; [lia|].
        assert (w0 = w0') by (eapply ev_det; [exact W0|apply (ext_ev _ _ _ _ _ X4); exact W0']). subst w0'.
        destruct (VM0 w0 W0') as (va & vb & Va & Vb & ->). destruct (VM1 w1 W1) as (vc & vd & Vc & Vd & ->).
        exists [va; vb; vc; vd]. split; [constructor; [apply (ext_ev _ _ _ _ _ X4); exact Va|constructor; [apply (ext_ev _ _ _ _ _ X4); exact Vb|constructor; [exact Vc|constructor; [exact Vd|constructor]]]]|].
        rewrite SA. rewrite (formats_mul (hp st) i nd op0 m0 _ _ U N Ka) by (try (rewrite I; now left); assumption).
        rewrite (formats_mul (hp st) i nd op1 m1 _ _ U N Ka) by (try (rewrite I; right; now left); assumption). destruct s0; [now rewrite S5|now rewrite S4].
      * eexists. eexists. exists rk5. split; [reflexivity|exact PO].
    + clear DT. destruct (fusable_mul_inv _ _ F0) as (m0 & Nm0 & Km0).
      destruct (mul_ok n IH st rk i nd 0 op0 m0 G N) as (x0 & st1 & r0 & x1 & st2 & r1 & rk2 & O1 & E1 & O2 & E2 & G2 & X2 & P0 & P1 & Q0 & Q1 & VM0); [rewrite I; reflexivity|exact Nm0|exact Km0|lia|].
      pose proof (ext_len _ _ _ _ _ X2) as LL2. pose proof (ext_rk _ _ _ _ _ X2) as RR2.
      assert (N2 : nth_error (hp st2) i = Some nd) by (rewrite (ext_same _ _ _ _ _ X2) by lia; exact N).
      destruct (IH st2 rk2 op1 G2) as (st3 & r2 & rk3 & E3 & G3 & X3 & RS3); [lia|rewrite RR2; lia|].
      pose proof (ext_len _ _ _ _ _ X3) as LL3. pose proof (ext_rk _ _ _ _ _ X3) as RR3. destruct RS3 as (q1 & q2 & q3 & q4 & q5).
      rewrite (RR3 op1), (RR2 op1) in q2 by lia.
      assert (N3 : nth_error (hp st3) i = Some nd) by (rewrite (ext_same _ _ _ _ _ X3); [exact N2|lia|rewrite !RR2; lia]).
      rewrite O1. cbn [bind]. rewrite E1. cbn [bind fst snd]. rewrite O2. cbn [bind]. rewrite E2. cbn [bind fst snd].
      assert (O3 : operand st2 i 1 = Some op1) by (unfold operand; rewrite N2; cbn [bind]; rewrite I; reflexivity).
      rewrite O3. cbn [bind]. rewrite E3. cbn [bind fst snd alloc].
      set (at' := fused_attrs silence _ _).
      destruct (finish_ok st rk i nd st3 rk3 (rk i) (if s0 then Subtract else Standard) at' [r0; r1; r2] false G N Ka G3) as (rk5 & PO).
      * eapply ext_trans; [exact X2|exact X3|lia|rewrite RR2; lia].
      * lia.
      * reflexivity.
      * destruct Q0 as (a0 & a1 & a2). destruct Q1 as (b0 & b1 & b2).
        intros c [<-|[<-|[<-|[]]]]; (split; [lia|]); (split; [try (rewrite RR3 by lia); lia|]); first [assumption|apply (ext_clean _ _ _ _ _ X3); assumption].
      * intros v Hv. destruct (INV st3 N3 v Hv) as (w0 & w1 & W0 & W1 & ->).
        destruct (ev_total (hp st2) rk2 (proj1 (proj1 G2)) op0) as [w0' W0']; [lia|].
        assert (w0 = w0') by (eapply ev_det; [exact W0|apply (ext_ev _ _ _ _ _ X3); exact W0']). subst w0'.
        destruct (VM0 w0 W0') as (va & vb & Va & Vb & ->).
        exists [va; vb; w1]. split; [constructor; [apply (ext_ev _ _ _ _ _ X3); exact Va|constructor; [apply (ext_ev _ _ _ _ _ X3); exact Vb|constructor; [apply q4; exact W1|constructor]]]|].
        rewrite (formats_mul (hp st) i nd op0 m0 _ _ U N Ka) by (try (rewrite I; now left); assumption). destruct s0; [now rewrite S2|now rewrite S1].
      * eexists. eexists. exists rk5. split; [reflexivity|exact PO].
    + clear DT. destruct (fusable_mul_inv _ _ F1) as (m1 & Nm1 & Km1).
      destruct (mul_ok n IH st rk i nd 1 op1 m1 G N) as (x0 & st1 & r0 & x1 & st2 & r1 & rk2 & O1 & E1 & O2 & E2 & G2 & X2 & P0 & P1 & Q0 & Q1 & VM0); [rewrite I; reflexivity|exact Nm1|exact Km1|lia|].
      pose proof (ext_len _ _ _ _ _ X2) as LL2. pose proof (ext_rk _ _ _ _ _ X2) as RR2.
      assert (N2 : nth_error (hp st2) i = Some nd) by (rewrite (ext_same _ _ _ _ _ X2) by lia; exact N).
      destruct (IH st2 rk2 op0 G2) as (st3 & r2 & rk3 & E3 & G3 & X3 & RS3); [lia|rewrite RR2; lia|].
      pose proof (ext_len _ _ _ _ _ X3) as LL3. pose proof (ext_rk _ _ _ _ _ X3) as RR3. destruct RS3 as (q1 & q2 & q3 & q4 & q5).
      rewrite (RR3 op0), (RR2 op0) in q2 by lia.
      assert (N3 : nth_error (hp st3) i = Some nd) by (rewrite (ext_same _ _ _ _ _ X3); [exact N2|lia|rewrite !RR2; lia]).
      rewrite O1. cbn [bind]. rewrite E1. cbn [bind fst snd]. rewrite O2. cbn [bind]. rewrite E2. cbn [bind fst snd].
      assert (O3 : operand st2 i 0 = Some op0) by (unfold operand; rewrite N2; cbn [bind]; rewrite I; reflexivity).
      rewrite O3. cbn [bind]. rewrite E3. cbn [bind fst snd alloc].
      set (at' := fused_attrs silence _ _).
      destruct (finish_ok st rk i nd st3 rk3 (rk i) (if s0 then SubtractNegate else Standard) at' [r0; r1; r2] true G N Ka G3) as (rk5 & PO).
      * eapply ext_trans; [exact X2|exact X3|lia|rewrite RR2; lia].
      * lia.
      * reflexivity.
      * destruct Q0 as (a0 & a1 & a2). destruct Q1 as (b0 & b1 & b2).
        intros c [<-|[<-|[<-|[]]]]; (split; [lia|]); (split; [try (rewrite RR3 by lia); lia|]); first [assumption|apply (ext_clean _ _ _ _ _ X3); assumption].
      * intros v Hv. destruct (INV st3 N3 v Hv) as (w0 & w1 & W0 & W1 & ->).
        destruct (ev_total (hp st2) rk2 (proj1 (proj1 G2)) op1) as [w1' W1']; [lia|].
        assert (w1 = w1') by (eapply ev_det; [exact W1|apply (ext_ev _ _ _ _ _ X3); exact W1']). subst w1'.
        destruct (VM0 w1 W1') as (va & vb & Va & Vb & ->).
        exists [va; vb; w0]. split; [constructor; [apply (ext_ev _ _ _ _ _ X3); exact Va|constructor; [apply (ext_ev _ _ _ _ _ X3); exact Vb|constructor; [apply q4; exact W0|constructor]]]|].
        rewrite (formats_mul (hp st) i nd op1 m1 _ _ U N Ka) by (try (rewrite I; right; now left); assumption). destruct s0; [now rewrite S3|rewrite S1; now rewrite S6].
      * eexists. eexists. exists rk5. split; [reflexivity|exact PO].
    + destruct INP as (st' & rk' & E & PP & _).
      { intros (x & a & b & Hx & _ & _ & A3 & _ & _ & A6). rewrite N in Hx. injection Hx as <-. rewrite I in A3. injection A3 as <- <-. destruct A6; congruence. }
      rewrite E. cbn [bind]. exists (remember st' i i), i, rk'. split; [reflexivity|exact PP].
  - assert (NF : forall h, nth_error h i = Some nd \/ (exists nd', nth_error h i = Some nd' /\ same_node nd nd') -> ~ fusable h i).
    { intros h HN (x & a & b & Hx & A1 & A2 & _).
      assert (T : n_kind x = n_kind nd /\ n_attr x = n_attr nd) by (destruct HN as [HN|(nd' & HN & q1 & q2 & _)]; rewrite HN in Hx; injection Hx as <-; auto).
      destruct T as [T1 T2]. rewrite T1 in A1. rewrite T2 in A2. rewrite A1, A2 in AS. discriminate AS. }
    assert (ST1 : exists st1 rk1 nd1, (match n_extra nd with [] => Some st | l => do r <- map_st (fuse n) st l; Some (set_extra (fst r) i (snd r)) end) = Some st1 /\
              good st1 rk1 /\ ext (hp st) rk (hp st1) rk1 (rk i) /\ nth_error (hp st1) i = Some nd1 /\ same_node nd nd1 /\ n_inputs nd1 = n_inputs nd /\
              (forall c, In c (n_extra nd1) -> clean (hp st1) c)).
    { destruct (n_extra nd) as [|e l] eqn:EX.
      - exists st, rk, nd. split; [reflexivity|]. split; [exact G|]. split; [apply ext_refl|]. split; [exact N|]. split; [repeat split|]. split; [reflexivity|rewrite EX; intros c []].
      - assert (P0 : 0 < rk i) by (destruct (R i nd e N); [apply in_or_app; right; rewrite EX; now left|lia]).
        destruct (map_ok n IH (e :: l) st rk (rk i - 1) G) as (st1 & rs & rk1 & E1 & G1 & X1 & F1).
        { intros j Hj. destruct (R i nd j N); [apply in_or_app; right; rewrite EX; exact Hj|]. lia. }
        assert (N1 : nth_error (hp st1) i = Some nd) by (rewrite (ext_same _ _ _ _ _ X1) by lia; exact N).
        assert (RKi : rk1 i = rk i) by (apply (ext_rk _ _ _ _ _ X1); exact Li).
        destruct (update_ok (hp st1) rk1 i nd (with_extra nd rs) (proj1 G1) N1) as (H2 & X2 & C2).
        + repeat split.
        + right. reflexivity.
        + left. cbn [with_extra n_extra]. rewrite EX. eapply F2_impl; [|exact F1]. intros j r _ Q. exact Q.
        + exists (mkS (set_nth (hp st1) i (with_extra nd rs)) (memo st1)), rk1, (with_extra nd rs).
          rewrite E1. cbn [bind fst snd]. split; [unfold set_extra; rewrite N1; reflexivity|].
          split; [split; [exact H2|]; cbn [hp]; eapply memo_ext; [apply (proj1 (proj1 G1))|exact X2|]; destruct st1; exact (proj2 G1)|]. cbn [hp].
          split; [eapply ext_trans; [exact X1|exact X2|lia|lia]|]. split; [eapply nth_set_same; exact N1|]. split; [repeat split|]. split; [reflexivity|].
          cbn [with_extra n_extra]. intros c Hc. apply (ext_clean _ _ _ _ _ X2).
          clear - F1 Hc. induction F1 as [|a b l' m (_ & _ & _ & _ & Q) F IHF]; [destruct Hc|]. destruct Hc as [<-|Hc]; [exact Q|apply IHF; exact Hc]. }
    destruct ST1 as (st1 & rk1 & nd1 & E1 & G1 & X1 & N1 & SN & I1 & C1). rewrite E1. cbn [bind]. pose proof (ext_len _ _ _ _ _ X1) as LL1.
    assert (NF1 : ~ fusable (hp st1) i) by (apply NF; right; exists nd1; split; assumption).
    assert (RKi : rk1 i = rk i) by (apply (ext_rk _ _ _ _ _ X1); exact Li).
    destruct (inplace_ok n IH st1 rk1 i nd1 G1 N1) as (st' & rk' & E & G' & X & RS); [lia|exact NF1|exact C1|]. pose proof (ext_len _ _ _ _ _ X) as LL'.
    assert (PB : post st rk i (rk i) (remember st' i i) i rk').
    { split; [apply remember_good; [exact G'|lia|exact RS]|]. split; [cbn [hp remember]; eapply ext_trans; [exact X1|exact X|lia|lia]|exact RS]. }
    destruct (n_kind nd) as [q| | | |s|q] eqn:K; try (rewrite E; cbn [bind]; exists (remember st' i i), i, rk'; split; [reflexivity|exact PB]).
    exists (remember st1 i i), i, rk1. split; [reflexivity|].
    assert (RL : result_ok (hp st1) rk1 i i).
    { split; [lia|]. split; [lia|]. split; [now left|]. split; [intros v Hv; exact Hv|]. eapply clean_intro; [exact N1|exact NF1|].
      intros c Hc. apply in_app_or in Hc. destruct Hc as [Hc|Hc]; [|apply C1; exact Hc]. exfalso. rewrite I1 in Hc. pose proof (W i nd N) as Wi. unfold wf_node in Wi. rewrite K in Wi. rewrite Wi in Hc. destruct Hc. }
    split; [apply remember_good; [exact G1|lia|exact RL]|]. split; [exact X1|exact RL].
Qed.
End P.

(* ---- what the fused node is; the memoization ---- *)
Section Shape.
Variable silence dot : bool.

Definition expected (sub fa fb : bool) : fspec :=
  if dot && fa && fb then if sub then DotProductNegate else DotProduct
  else if fa then if sub then Subtract else Standard
  else if sub then SubtractNegate else Standard.
Definition expected_exact (h : heap) (a b : nat) (e : bool) : bool :=
  if dot && fusable_mul h a && fusable_mul h b then exact_of h a && exact_of h b && e
  else if fusable_mul h a then exact_of h a && e else exact_of h b && e.
Definition is_sub (k : kind) : bool := match k with KSub => true | _ => false end.

Ltac unbind H := repeat match type of H with
  | bind ?x _ = Some _ => let E := fresh "E" in destruct x eqn:E; cbn [bind] in H; [|discriminate H]
  end.

Lemma fuse_shape : forall n st i nd a b st' r, nth_error (hp st) i = Some nd -> is_addsub (n_kind nd) = true -> a_unbreakable (n_attr nd) = false -> n_inputs nd = [a; b] ->
  lookup (memo st) i = None -> debug_mul (hp st) a = false -> debug_mul (hp st) b = false -> fusable_mul (hp st) a = true \/ fusable_mul (hp st) b = true ->
  fuse silence dot (S n) st i = Some (st', r) ->
  exists l c, length l = (if dot && fusable_mul (hp st) a && fusable_mul (hp st) b then 4 else 3) /\ nth_error (hp st') r =
    Some (mkN (KFma (expected (is_sub (n_kind nd)) (fusable_mul (hp st) a) (fusable_mul (hp st) b)))
              (fused_attrs silence (expected_exact (hp st) a b (a_exact (n_attr nd))) (n_attr nd)) l [] c).
Proof.
  intros n st i nd a b st' r N Ka Ub I LK D0 D1 FM H. cbn [fuse] in H. rewrite N in H. cbn [bind] in H. rewrite Ka, Ub, I, LK, D0, D1 in H. cbn [negb andb orb] in H.
  unfold expected, expected_exact. fold (is_sub (n_kind nd)) in H.
  assert (K : forall (h : heap) x, nth_error (h ++ [x]) (length h) = Some x) by (intros h x; rewrite nth_error_app2, Nat.sub_diag by lia; reflexivity).
  destruct (dot && fusable_mul (hp st) a && fusable_mul (hp st) b) eqn:DT; [|destruct (fusable_mul (hp st) a) eqn:F0; [|destruct (fusable_mul (hp st) b) eqn:F1]].
  - unbind H. cbn [alloc] in H. injection H as <- <-. eexists. eexists. split; [|cbn [hp remember]; apply K]. reflexivity.
  - unbind H. cbn [alloc] in H. injection H as <- <-. eexists. eexists. split; [|cbn [hp remember]; apply K]. reflexivity.
  - unbind H. cbn [alloc] in H. injection H as <- <-. eexists. eexists. split; [|cbn [hp remember]; apply K]. reflexivity.
  - destruct FM; congruence.
Qed.

Lemma fuse_memo : forall n st i nd a b st' r, nth_error (hp st) i = Some nd -> is_addsub (n_kind nd) = true -> a_unbreakable (n_attr nd) = false -> n_inputs nd = [a; b] ->
  fuse silence dot (S n) st i = Some (st', r) -> lookup (memo st') i = Some r.
Proof.
  intros n st i nd a b st' r N Ka Ub I H. cbn [fuse] in H. rewrite N in H. cbn [bind] in H. rewrite Ka, Ub, I in H. cbn [negb andb] in H.
  destruct (lookup (memo st) i) as [q|] eqn:LK; [injection H as <- <-; exact LK|].
  destruct (debug_mul (hp st) a || debug_mul (hp st) b).
  { unbind H. injection H as <- <-. cbn [memo remember lookup]. now rewrite Nat.eqb_refl. }
  destruct (dot && fusable_mul (hp st) a && fusable_mul (hp st) b); [|destruct (fusable_mul (hp st) a); [|destruct (fusable_mul (hp st) b)]];
    unbind H; cbn [alloc] in H; injection H as <- <-; cbn [memo remember lookup]; now rewrite Nat.eqb_refl.
Qed.
Lemma fuse_hit : forall n st i nd a b r, nth_error (hp st) i = Some nd -> is_addsub (n_kind nd) = true -> a_unbreakable (n_attr nd) = false -> n_inputs nd = [a; b] ->
  lookup (memo st) i = Some r -> fuse silence dot (S n) st i = Some (st, r).
Proof. intros n st i nd a b r N Ka Ub I LK. cbn [fuse]. rewrite N. cbn [bind]. rewrite Ka, Ub, I, LK. reflexivity. Qed.

(* nothing is done on a graph with nothing to fuse *)
Definition memo_id (st : state) : Prop := forall k r, lookup (memo st) k = Some r -> r = k.
Lemma set_nth_id : forall h i nd, nth_error h i = Some nd -> set_nth h i nd = h.
Proof. induction h as [|x h IH]; intros [|i] nd H; cbn in *; try discriminate; [now injection H as ->|now rewrite IH]. Qed.
Lemma remember_id : forall st i, memo_id st -> memo_id (remember st i i).
Proof. intros st i M k r. cbn [memo remember lookup]. destruct (Nat.eqb_spec i k); [intro H; injection H as <-; congruence|apply M]. Qed.

Lemma map_clean : forall n, (forall st i rk, ranked (hp st) rk -> clean (hp st) i -> memo_id st -> rk i < n -> exists st', fuse silence dot n st i = Some (st', i) /\ hp st' = hp st /\ memo_id st') ->
  forall l st rk, ranked (hp st) rk -> (forall c, In c l -> clean (hp st) c /\ rk c < n) -> memo_id st ->
  exists st', map_st (fuse silence dot n) st l = Some (st', l) /\ hp st' = hp st /\ memo_id st'.
Proof.
  intros n IH l. induction l as [|c l IHl]; intros st rk R HL M; [exists st; repeat split; assumption|].
  destruct (HL c (or_introl eq_refl)) as [Cc Lc]. destruct (IH st c rk R Cc M Lc) as (st1 & E1 & H1 & M1).
  destruct (IHl st1 rk) as (st2 & E2 & H2 & M2); [rewrite H1; exact R|rewrite H1; intros; apply HL; now right|exact M1|].
  exists st2. split; [cbn [map_st]; rewrite E1; cbn [bind fst snd]; rewrite E2; reflexivity|]. split; [congruence|exact M2].
Qed.

Lemma fuse_clean : forall n st i rk, ranked (hp st) rk -> clean (hp st) i -> memo_id st -> rk i < n ->
  exists st', fuse silence dot n st i = Some (st', i) /\ hp st' = hp st /\ memo_id st'.
Proof.
  induction n as [|n IH]; intros st i rk R C M L; [lia|]. inversion C as [i' nd N NF CC]; subst i'.
  assert (INP : forall st0, hp st0 = hp st -> memo_id st0 -> exists st', inplace (fuse silence dot n) st0 i = Some st' /\ hp st' = hp st /\ memo_id st').
  { intros st0 H0 M0. destruct (map_clean n IH (n_inputs nd) st0 rk) as (st' & E & H & M').
    - rewrite H0. exact R.
    - rewrite H0. intros c Hc. assert (Hc' : In c (children nd)) by (apply in_or_app; now left). split; [apply CC; exact Hc'|]. destruct (R i nd c N Hc'). lia.
    - exact M0.
    - exists (mkS (hp st) (memo st')). rewrite <- H0 in N. split; [unfold inplace; rewrite N; cbn [bind]; rewrite E; cbn [bind fst snd]; unfold set_inputs; rewrite H, N|split; [reflexivity|exact M']].
      replace (with_inputs nd (n_inputs nd)) with nd by (destruct nd; reflexivity). rewrite set_nth_id by exact N. now rewrite H0. }
  cbn [fuse]. rewrite N. cbn [bind].
  destruct (is_addsub (n_kind nd) && negb (a_unbreakable (n_attr nd))) eqn:AS.
  - apply andb_prop in AS. destruct AS as [Ka Ub]. apply negb_true_iff in Ub.
    assert (DONE : exists st', (do st'' <- inplace (fuse silence dot n) st i; Some (remember st'' i i, i)) = Some (st', i) /\ hp st' = hp st /\ memo_id st').
    { destruct (INP st eq_refl M) as (st' & E & H & M'). exists (remember st' i i). rewrite E. cbn [bind]. split; [reflexivity|]. split; [exact H|apply remember_id; exact M']. }
    destruct (n_inputs nd) as [|a [|b [|? ?]]] eqn:I;
      try (destruct (INP st eq_refl M) as (st' & E & H & M'); exists st'; rewrite E; cbn [bind]; repeat split; assumption).
    destruct (lookup (memo st) i) as [r|] eqn:LK; [exists st; rewrite (M i r LK); repeat split; assumption|].
    destruct (debug_mul (hp st) a || debug_mul (hp st) b) eqn:DB; [exact DONE|]. apply orb_false_iff in DB. destruct DB as [D0 D1].
    assert (F0 : fusable_mul (hp st) a = false) by (destruct (fusable_mul (hp st) a) eqn:F; [|reflexivity]; exfalso; apply NF; exists nd, a, b; repeat split; auto).
    assert (F1 : fusable_mul (hp st) b = false) by (destruct (fusable_mul (hp st) b) eqn:F; [|reflexivity]; exfalso; apply NF; exists nd, a, b; repeat split; auto).
    rewrite F0, F1, andb_false_r. exact DONE.
  - assert (EX : exists st1, (match n_extra nd with [] => Some st | l => do r <- map_st (fuse silence dot n) st l; Some (set_extra (fst r) i (snd r)) end) = Some st1 /\ hp st1 = hp st /\ memo_id st1).
    { destruct (n_extra nd) as [|e l] eqn:X; [exists st; repeat split; assumption|]. rewrite <- X.
      destruct (map_clean n IH (n_extra nd) st rk R) as (st' & E & H & M').
      - intros c Hc. assert (Hc' : In c (children nd)) by (apply in_or_app; now right). split; [apply CC; exact Hc'|]. destruct (R i nd c N Hc'). lia.
      - exact M.
      - exists (mkS (hp st) (memo st')). rewrite E. cbn [bind fst snd]. split; [unfold set_extra; rewrite H, N|split; [reflexivity|exact M']].
        replace (with_extra nd (n_extra nd)) with nd by (destruct nd; reflexivity). now rewrite set_nth_id. }
    destruct EX as (st1 & E1 & H1 & M1). rewrite E1. cbn [bind]. destruct (INP st1 H1 M1) as (st' & E & H & M').
    destruct (n_kind nd); try (rewrite E; cbn [bind]; exists (remember st' i i); split; [reflexivity|]; split; [exact H|apply remember_id; exact M']).
    exists (remember st1 i i). split; [reflexivity|]. split; [exact H1|apply remember_id; exact M1].
Qed.
End Shape.
