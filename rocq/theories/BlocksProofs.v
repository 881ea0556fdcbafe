(* Structured programs and their basic blocks: semantics and simulation. *)
From Coq Require Import List Arith Bool Lia.
From Verif Require Import DomModel BlocksModel.
Import ListNotations.

Section Sem.
Variables A C R : Type.
Variables S V : Type.
Variable doA : A -> S -> S.
Variable evC : C -> S -> bool.
Variable evR : R -> S -> V.
Notation stmt := (stmt A C R).
Notation instr := (instr A C R).
Notation tstate := (tstate A C R).

(* ---- specification: execution of structured programs ---- *)
Inductive outcome := Normal (s : S) | Ret (v : V).
Inductive ev : stmt -> S -> outcome -> Prop :=
| ev_op : forall a s, ev (SOp a) s (Normal (doA a s))
| ev_ret : forall r s, ev (SRet r) s (Ret (evR r s))
| ev_seq : forall l s o, evl l s o -> ev (SSeq l) s o
| ev_if_t : forall c t e s o, evC c s = true -> ev t s o -> ev (SIf c t e) s o
| ev_if_e : forall c t e s o, evC c s = false -> ev e s o -> ev (SIf c t (Some e)) s o
| ev_if_n : forall c t s, evC c s = false -> ev (SIf c t None) s (Normal s)
| ev_loop : forall i c b s s1 o, ev i s (Normal s1) -> evw c b s1 o -> ev (SLoop i c b) s o
| ev_loop_ret : forall i c b s v, ev i s (Ret v) -> ev (SLoop i c b) s (Ret v)
with evl : list stmt -> S -> outcome -> Prop :=
| evl_nil : forall s, evl [] s (Normal s)
| evl_cons : forall x r s s1 o, ev x s (Normal s1) -> evl r s1 o -> evl (x :: r) s o
| evl_stop : forall x r s v, ev x s (Ret v) -> evl (x :: r) s (Ret v)
with evw : C -> stmt -> S -> outcome -> Prop :=
| evw_exit : forall c b s, evC c s = false -> evw c b s (Normal s)
| evw_turn : forall c b s s1 o, evC c s = true -> ev b s (Normal s1) -> evw c b s1 o -> evw c b s o
| evw_stop : forall c b s v, evC c s = true -> ev b s (Ret v) -> evw c b s (Ret v).

(* ---- specification: execution of basic blocks ---- *)
(* the end of a block without branch is the end of the program *)
Definition step (P : nat -> list instr) (cfg : nat * nat * S) : outcome + (nat * nat * S) :=
  let '(b, k, s) := cfg in
  match nth_error (P b) k with
  | None => inl (Normal s)
  | Some (IOp a) => inr (b, k + 1, doA a s)
  | Some (IEval _) => inr (b, k + 1, s)
  | Some (IRet r) => inl (Ret (evR r s))
  | Some (IBr d) => inr (d, 0, s)
  | Some (ICBr c t f) => inr (if evC c s then t else f, 0, s)
  end.
Fixpoint run (n : nat) (P : nat -> list instr) (cfg : nat * nat * S) : option outcome :=
  match n with
  | O => None
  | Datatypes.S m => match step P cfg with inl o => Some o | inr cfg' => run m P cfg' end
  end.

(* ---- induction on statements ---- *)
Section Ind.
Variable Q : stmt -> Prop.
Hypothesis Hop : forall a, Q (SOp a).
Hypothesis Hret : forall r, Q (SRet r).
Hypothesis Hseq : forall l, Forall Q l -> Q (SSeq l).
Hypothesis Hif : forall c t e, Q t -> match e with None => True | Some x => Q x end -> Q (SIf c t e).
Hypothesis Hloop : forall i c b, Q i -> Q b -> Q (SLoop i c b).
Fixpoint stmt_ind2 (t : stmt) : Q t :=
  match t with
  | SOp a => Hop a
  | SRet r => Hret r
  | SSeq l => Hseq l ((fix go (l : list stmt) : Forall Q l := match l with [] => Forall_nil Q | x :: r => Forall_cons x (stmt_ind2 x) (go r) end) l)
  | SIf c t e => Hif c t e (stmt_ind2 t) (match e with None => I | Some x => stmt_ind2 x end)
  | SLoop i c b => Hloop i c b (stmt_ind2 i) (stmt_ind2 b)
  end.
End Ind.

(* ---- translator states ---- *)
Definition prefix (a b : list instr) : Prop := exists r, b = a ++ r.
Lemma prefix_refl : forall a, prefix a a. Proof. intros a. exists []. rewrite app_nil_r. auto. Qed.
Lemma prefix_trans : forall a b c, prefix a b -> prefix b c -> prefix a c.
Proof. intros a b c [r ->] [q ->]. exists (r ++ q). rewrite app_assoc. auto. Qed.
Lemma prefix_app : forall a b, prefix a (a ++ b). Proof. intros a b. exists b. auto. Qed.
Lemma prefix_nth : forall a i (b : list instr), prefix (a ++ [i]) b -> nth_error b (length a) = Some i.
Proof. intros a i b [r ->]. rewrite <- app_assoc. rewrite nth_error_app2 by lia. rewrite Nat.sub_diag. reflexivity. Qed.

Definition inv (s : tstate) : Prop := forall b, In b (stk s) -> b < nxt s.
Definition frame (c : nat) (s s' : tstate) : Prop :=
  nxt s <= nxt s' /\ prefix (store s c) (store s' c) /\ forall b, b < nxt s -> b <> c -> store s' b = store s b /\ fin s' b = fin s b.
Definition ext (s : tstate) (P : nat -> list instr) : Prop := forall b, b < nxt s -> prefix (store s b) (P b).
Definition closed_block (s : tstate) (c : nat) : Prop := fin s c = true \/ exists l i, store s c = l ++ [i] /\ is_control i = true.

Definition correct (P : nat -> list instr) (c k c' k' : nat) (E : S -> outcome -> Prop) : Prop :=
  (forall s s' n o, E s (Normal s') -> run n P (c', k', s') = Some o -> exists m, run m P (c, k, s) = Some o) /\
  (forall s v, E s (Ret v) -> exists m, run m P (c, k, s) = Some (Ret v)) /\
  (forall s n o, run n P (c, k, s) = Some o ->
     (exists v, o = Ret v /\ E s (Ret v)) \/ (exists s' n', n' <= n /\ E s (Normal s') /\ run n' P (c', k', s') = Some o)).

Lemma correct_id : forall P c k (E : S -> outcome -> Prop), (forall s o, E s o <-> o = Normal s) -> correct P c k c k E.
Proof.
  intros P c k E H. split; [|split].
  - intros s s' n o He Hr. apply H in He. injection He as ->. eauto.
  - intros s v He. apply H in He. discriminate.
  - intros s n o Hr. right. exists s, n. split; auto. split; auto. apply H. auto.
Qed.

Lemma correct_seq : forall P c k c1 k1 c2 k2 (E1 E2 E : S -> outcome -> Prop),
  correct P c k c1 k1 E1 -> correct P c1 k1 c2 k2 E2 ->
  (forall s o, E s o <-> (exists v, o = Ret v /\ E1 s (Ret v)) \/ exists s1, E1 s (Normal s1) /\ E2 s1 o) -> correct P c k c2 k2 E.
Proof.
  intros P c k c1 k1 c2 k2 E1 E2 E (A1 & A2 & A3) (B1 & B2 & B3) H. split; [|split].
  - intros s s' n o He Hr. apply H in He. destruct He as [(v & X & _)|(s1 & He1 & He2)]; [discriminate|].
    destruct (B1 s1 s' n o He2 Hr) as [m Hm]. eapply A1; eauto.
  - intros s v He. apply H in He. destruct He as [(v' & X & He)|(s1 & He1 & He2)].
    + apply A2. congruence.
    + destruct (B2 s1 v He2) as [m Hm]. eapply A1; eauto.
  - intros s n o Hr. destruct (A3 s n o Hr) as [(v & -> & He)|(s1 & n1 & L1 & He & Hr1)].
    + left. exists v. split; auto. apply H. left. eauto.
    + destruct (B3 s1 n1 o Hr1) as [(v & -> & He2)|(s2 & n2 & L2 & He2 & Hr2)].
      * left. exists v. split; auto. apply H. right. eauto.
      * right. exists s2, n2. split; [lia|]. split; auto. apply H. right. eauto.
Qed.

(* one instruction *)
Lemma run_next : forall P cfg cfg', step P cfg = inr cfg' -> forall n o, run n P cfg' = Some o -> run (Datatypes.S n) P cfg = Some o.
Proof. intros P cfg cfg' H n o Hr. cbn [run]. rewrite H. auto. Qed.
Lemma run_next_inv : forall P cfg cfg', step P cfg = inr cfg' -> forall n o, run n P cfg = Some o -> exists m, n = Datatypes.S m /\ run m P cfg' = Some o.
Proof. intros P cfg cfg' H [|n] o Hr; [discriminate|]. cbn [run] in Hr. rewrite H in Hr. eauto. Qed.

Lemma step_br : forall P b k d s, nth_error (P b) k = Some (IBr d) -> step P (b, k, s) = inr (d, 0, s).
Proof. intros P b k d s H. unfold step. rewrite H. auto. Qed.
Lemma step_cbr : forall P b k c t f s, nth_error (P b) k = Some (ICBr c t f) -> step P (b, k, s) = inr (if evC c s then t else f, 0, s).
Proof. intros P b k c t f s H. unfold step. rewrite H. auto. Qed.

Lemma correct_jump : forall P c k c' k' d E, correct P c k c' k' E -> nth_error (P c') k' = Some (IBr d) -> correct P c k d 0 E.
Proof.
  intros P c k c' k' d E (A1 & A2 & A3) H. split; [|split]; auto.
  - intros s s' n o He Hr. eapply A1; [apply He|]. eapply run_next; [apply step_br; eauto|]. eauto.
  - intros s n o Hr. destruct (A3 s n o Hr) as [G|(s' & n' & L & He & Hr')]; auto. right.
    destruct (run_next_inv _ _ _ (step_br _ _ _ _ _ H) _ _ Hr') as (m & -> & Hm). exists s', m. split; [lia|auto].
Qed.
Lemma correct_never : forall P c k c' k' d j E, correct P c k c' k' E -> (forall s s', ~ E s (Normal s')) -> correct P c k d j E.
Proof.
  intros P c k c' k' d j E (A1 & A2 & A3) N. split; [|split]; auto.
  - intros s s' n o He. exfalso. eapply N; eauto.
  - intros s n o Hr. destruct (A3 s n o Hr) as [G|(s' & n' & L & He & Hr')]; auto. exfalso. eapply N; eauto.
Qed.

(* a conditional *)
Lemma correct_if : forall P c k cd t f d Et Ef (E : S -> outcome -> Prop),
  nth_error (P c) k = Some (ICBr cd t f) -> correct P t 0 d 0 Et -> correct P f 0 d 0 Ef ->
  (forall s o, E s o <-> (evC cd s = true /\ Et s o) \/ (evC cd s = false /\ Ef s o)) -> correct P c k d 0 E.
Proof.
  intros P c k cd t f d Et Ef E Hn (A1 & A2 & A3) (B1 & B2 & B3) H.
  assert (St := step_cbr P c k cd t f). split; [|split].
  - intros s s' n o He Hr. specialize (St s Hn). apply H in He. destruct He as [[Hc He]|[Hc He]]; rewrite Hc in St.
    + destruct (A1 s s' n o He Hr) as [m Hm]. eexists. eapply run_next; eauto.
    + destruct (B1 s s' n o He Hr) as [m Hm]. eexists. eapply run_next; eauto.
  - intros s v He. specialize (St s Hn). apply H in He. destruct He as [[Hc He]|[Hc He]]; rewrite Hc in St.
    + destruct (A2 s v He) as [m Hm]. eexists. eapply run_next; eauto.
    + destruct (B2 s v He) as [m Hm]. eexists. eapply run_next; eauto.
  - intros s n o Hr. specialize (St s Hn). destruct (run_next_inv _ _ _ St _ _ Hr) as (m & -> & Hm). destruct (evC cd s) eqn:Hc.
    + destruct (A3 s m o Hm) as [(v & -> & He)|(s' & n' & L & He & Hr')].
      * left. exists v. split; auto. apply H. auto.
      * right. exists s', n'. split; [lia|]. split; auto. apply H. auto.
    + destruct (B3 s m o Hm) as [(v & -> & He)|(s' & n' & L & He & Hr')].
      * left. exists v. split; auto. apply H. auto.
      * right. exists s', n'. split; [lia|]. split; auto. apply H. auto.
Qed.

(* a loop: header h = [eval c; branch c body next] *)
Lemma correct_loop : forall P h cd b body nx,
  nth_error (P h) 0 = Some (IEval cd) -> nth_error (P h) 1 = Some (ICBr cd b nx) -> correct P b 0 h 0 (ev body) ->
  correct P h 0 nx 0 (evw cd body).
Proof.
  intros P h cd b body nx H0 H1 (A1 & A2 & A3).
  assert (S0 : forall s, step P (h, 0, s) = inr (h, 1, s)) by (intros s; unfold step; rewrite H0; reflexivity).
  assert (S1 : forall s, step P (h, 1, s) = inr (if evC cd s then b else nx, 0, s)) by (intros s; apply step_cbr; auto).
  split; [|split].
  - intros s s' n o He Hr. remember (Normal s') as r eqn:Er. revert Er Hr. 
    induction He as [c0 b0 s Hc|c0 b0 s s1 o1 Hc Hb He IH|c0 b0 s v Hc Hb]; intros Er Hr; [| |discriminate].
    + injection Er as ->. specialize (S1 s'). rewrite Hc in S1. eexists. eapply run_next; [apply S0|]. eapply run_next; eauto.
    + destruct (IH H0 H1 A1 A2 A3 S1 Er Hr) as [m Hm]. destruct (A1 s s1 m o Hb Hm) as [m' Hm']. specialize (S1 s). rewrite Hc in S1. eexists. eapply run_next; [apply S0|]. eapply run_next; eauto.
  - intros s v He. remember (Ret v) as r eqn:Er. revert Er.
    induction He as [c0 b0 s Hc|c0 b0 s s1 o1 Hc Hb He IH|c0 b0 s v' Hc Hb]; intros Er; [discriminate| |].
    + destruct (IH H0 H1 A1 A2 A3 S1 Er) as [m Hm]. destruct (A1 s s1 m o1 Hb Hm) as [m' Hm']. specialize (S1 s). rewrite Hc in S1. eexists. eapply run_next; [apply S0|]. eapply run_next; eauto.
    + destruct (A2 s v' Hb) as [m Hm]. specialize (S1 s). rewrite Hc in S1. eexists. eapply run_next; [apply S0|]. eapply run_next; eauto.
  - intros s n. revert s. induction n as [n IH] using lt_wf_ind. intros s o Hr.
    destruct (run_next_inv _ _ _ (S0 s) _ _ Hr) as (n1 & -> & Hr1). destruct (run_next_inv _ _ _ (S1 s) _ _ Hr1) as (n2 & -> & Hr2).
    destruct (evC cd s) eqn:Hc.
    + destruct (A3 s n2 o Hr2) as [(v & -> & He)|(s' & n' & L & He & Hr')].
      * left. exists v. split; auto. apply evw_stop; auto.
      * destruct (IH n' ltac:(lia) s' o Hr') as [(v & -> & He2)|(s2 & n3 & L2 & He2 & Hr3)].
        -- left. exists v. split; auto. eapply evw_turn; eauto.
        -- right. exists s2, n3. split; [lia|]. split; auto. eapply evw_turn; eauto.
    + right. exists s, n2. split; [lia|]. split; auto. apply evw_exit; auto.
Qed.

(* ---- elementary operations on states ---- *)
Lemma frame_refl : forall c s, frame c s s.
Proof. intros c s. split; [auto|]. split; [apply prefix_refl|auto]. Qed.
Lemma frame_trans : forall c c1 s s1 s2, frame c s s1 -> frame c1 s1 s2 -> (c1 = c \/ nxt s <= c1) -> c < nxt s -> frame c s s2.
Proof.
  intros c c1 s s1 s2 (A1 & A2 & A3) (B1 & B2 & B3) H Hc. split; [lia|]. split.
  - destruct (Nat.eq_dec c1 c) as [->|N]; [eapply prefix_trans; eauto|]. destruct (B3 c) as [-> _]; auto; lia.
  - intros b Hb Nb. destruct (A3 b Hb Nb) as [<- <-]. apply B3; lia.
Qed.
Lemma frame_ext : forall c s s' P, c < nxt s -> frame c s s' -> ext s' P -> ext s P.
Proof.
  intros c s s' P Hc (A1 & A2 & A3) H b Hb. destruct (Nat.eq_dec b c) as [->|N].
  - eapply prefix_trans; [apply A2|]. apply H. lia.
  - destruct (A3 b Hb N) as [<- _]. apply H. lia.
Qed.
Lemma cur_in : forall s c, inv s -> cur s = Some c -> c < nxt s.
Proof. intros s c I H. unfold cur in H. destruct (stk s) eqn:E; [discriminate|]. injection H as ->. apply I. rewrite E. left; auto. Qed.

Lemma append_store : forall (s : tstate) b i n, store (append s b i) n = if n =? b then store s b ++ [i] else store s n.
Proof. reflexivity. Qed.
Lemma append_prefix : forall (s : tstate) b i n, prefix (store s n) (store (append s b i) n).
Proof. intros s b i n. rewrite append_store. destruct (Nat.eqb_spec n b) as [->|]; [apply prefix_app|apply prefix_refl]. Qed.
Lemma add_to_bb_some : forall (s : tstate) b i s', add_to_bb s b i = Some s' -> s' = append s b i /\ ~ closed_block s b.
Proof.
  intros s b i s' H. unfold add_to_bb in H. destruct (fin s b) eqn:F; cbn [negb andb] in H; [discriminate|].
  destruct (rev (store s b)) as [|x r] eqn:E.
  - injection H as <-. split; auto. intros [G|(l & j & G & _)]; [congruence|]. rewrite G, rev_app_distr in E. discriminate.
  - destruct (negb (is_control x)) eqn:K; [|discriminate]. injection H as <-. split; auto.
    intros [G|(l & j & G & G2)]; [congruence|]. rewrite G, rev_app_distr in E. cbn [rev app] in E. injection E as -> _. rewrite G2 in K. discriminate.
Qed.

(* ---- the main induction ---- *)
Definition tr_ok (E : S -> outcome -> Prop) (s s' : tstate) (c : nat) : Prop :=
  inv s' /\ exists c', cur s' = Some c' /\ (c' = c \/ nxt s <= c') /\ frame c s s' /\
    (c' <> c -> closed_block s' c) /\
    (fin s c = false -> fin s' c' = true -> forall a b, ~ E a (Normal b)) /\
    (forall P, ext s' P -> correct P c (length (store s c)) c' (length (store s' c')) E).
Definition good (t : stmt) : Prop := forall s e s' c, inv s -> cur s = Some c -> tr t s = Some (e, s') -> e = c /\ tr_ok (ev t) s s' c.

Definition trl := (fix go (l : list stmt) (s : tstate) : option tstate :=
   match l with [] => Some s | x :: r => match tr x s with None => None | Some (_, s1) => go r s1 end end).

Lemma closed_frame : forall (s s' : tstate) b c, b < nxt s -> b <> c -> frame c s s' -> closed_block s b -> closed_block s' b.
Proof. intros s s' b c Hb N (_ & _ & F) H. destruct (F b Hb N) as [F1 F2]. unfold closed_block in *. rewrite F1, F2. auto. Qed.

Lemma good_list : forall l, Forall good l -> forall s s' c, inv s -> cur s = Some c -> trl l s = Some s' -> tr_ok (evl l) s s' c.
Proof.
  induction l as [|x r IH]; intros HF s s' c I Hc H; cbn in H.
  - injection H as <-. split; auto. exists c. split; auto. split; auto. split; [apply frame_refl|]. split; [congruence|]. split; [congruence|].
    intros P HP. apply correct_id. intros a o. split; [intros G; inversion G; auto|intros ->; constructor].
  - inversion HF as [|? ? Hx Hr]; subst. destruct (tr x s) as [[e s1]|] eqn:E; [|discriminate]. fold trl in H.
    destruct (Hx s e s1 c I Hc E) as (-> & I1 & c1 & C1 & D1 & F1 & K1 & N1 & S1).
    destruct (IH Hr s1 s' c1 I1 C1 H) as (I2 & c2 & C2 & D2 & F2 & K2 & N2 & S2).
    pose proof (cur_in s c I Hc) as Lc. pose proof (cur_in s1 c1 I1 C1) as Lc1. pose proof F1 as (F1a & F1b & F1c).
    split; auto. exists c2. split; auto. split; [lia|]. split; [eapply frame_trans; eauto|]. split; [|split].
    + intros N. destruct (Nat.eq_dec c1 c) as [->|Nc]; [auto|]. eapply (closed_frame s1 s' c c1); eauto; lia.
    + intros f0 f2 a b G. inversion G as [|x0 r0 a0 a1 o0 G1 G2|]; subst. destruct (fin s1 c1) eqn:Fm.
      * eapply N1; eauto.
      * eapply N2; eauto.
    + intros P HP. assert (HP1 : ext s1 P) by (eapply frame_ext; eauto). eapply correct_seq; [apply S1; auto|apply S2; auto|].
      intros a o. split.
      * intros G. inversion G; subst; [right; eauto|left; eauto].
      * intros [(v & -> & G)|(a1 & G1 & G2)]; [apply evl_stop; auto|eapply evl_cons; eauto].
Qed.

Lemma push_frame : forall (s : tstate) c b s', push_bb s = (b, s') -> b = nxt s /\ nxt s' = Datatypes.S (nxt s) /\ stk s' = b :: stk s /\ cur s' = Some b /\ store s' b = [] /\ fin s' b = false /\
  (forall n, n <> nxt s -> store s' n = store s n /\ fin s' n = fin s n) /\ (c < nxt s -> frame c s s') /\ (inv s -> inv s').
Proof.
  intros s c b s' H. unfold push_bb in H. injection H as <- <-. cbn [nxt stk cur store fin]. rewrite Nat.eqb_refl.
  split; auto. split; auto. split; auto. split; auto. split; auto. split; auto.
  assert (G : forall n, n <> nxt s -> (if n =? nxt s then [] else store s n) = store s n /\ (if n =? nxt s then false else fin s n) = fin s n).
  { intros n N. destruct (Nat.eqb_spec n (nxt s)); [contradiction|auto]. }
  split; auto. split.
  - intros Hc. split; cbn [nxt store fin]; [lia|]. split; [destruct (G c) as [-> _]; [lia|apply prefix_refl]|]. intros b Hb _. apply G. lia.
  - intros I n. cbn [stk nxt In]. intros [<-|Hn]; [lia|]. specialize (I n Hn). lia.
Qed.
Lemma pop_spec : forall (s : tstate) c, cur s = Some c -> inv s -> exists s', pop_bb s = Some (c, s') /\ store s' = store s /\ fin s' = fin s /\ nxt s' = nxt s /\ inv s'.
Proof.
  intros s c H I. unfold cur in H. unfold pop_bb. destruct (stk s) as [|b r] eqn:E; [discriminate|]. injection H as ->.
  eexists. split; [reflexivity|]. cbn [store fin nxt]. split; auto. split; auto. split; auto. intros n Hn. cbn [stk nxt] in *. apply I. rewrite E. right; auto.
Qed.

Lemma append_frame : forall (s : tstate) b i c, frame c s (append s b i) \/ (b < nxt s /\ b <> c).
Proof.
  intros s b i c. destruct (Nat.eq_dec b c) as [->|N].
  - left. split; [auto|]. split; [apply append_prefix|]. intros n Hn Nn. rewrite append_store. destruct (Nat.eqb_spec n c); [contradiction|auto].
  - destruct (le_lt_dec (nxt s) b) as [L|L]; [left|right; auto]. split; [auto|]. split; [apply append_prefix|]. intros n Hn Nn. rewrite append_store. destruct (Nat.eqb_spec n b); [lia|auto].
Qed.

Lemma store_len1 : forall (s : tstate) b i n, n <> b -> store (append s b i) n = store s n.
Proof. intros s b i n N. rewrite append_store. destruct (Nat.eqb_spec n b); [contradiction|auto]. Qed.
Lemma store_len2 : forall (s : tstate) b i, store (append s b i) b = store s b ++ [i].
Proof. intros s b i. rewrite append_store, Nat.eqb_refl. auto. Qed.
Lemma inv_append : forall (s : tstate) b i, inv s -> inv (append s b i). Proof. intros s b i I n Hn. apply I. auto. Qed.

Lemma good_if : forall c t e, good t -> match e with None => True | Some x => good x end -> good (SIf c t e).
Proof.
  intros cd t e Ht He s en s' c I Hc H. cbn [tr] in H. rewrite Hc in H. unfold tr_if in H.
  pose proof (cur_in s c I Hc) as Lc.
  destruct (pop_spec s c Hc I) as (s1 & E1 & St1 & Fi1 & Nx1 & I1). rewrite E1 in H.
  destruct (push_bb s1) as [ie s2] eqn:E2. destruct (push_frame s1 c ie s2 E2) as (-> & Nx2 & _ & C2 & Se2 & Fe2 & Sf2 & Fr2 & I2). specialize (I2 I1).
  destruct (tr t s2) as [[ib s3]|] eqn:E3; [|discriminate].
  destruct (Ht s2 ib s3 (nxt s1) I2 C2 E3) as (-> & I3 & ce & C3 & D3 & F3 & _ & N3 & S3). rewrite Nat.eqb_refl in H. cbn [negb] in H.
  pose proof (cur_in s3 ce I3 C3) as Lce.
  destruct (pop_spec s3 ce C3 I3) as (s4 & E4 & St4 & Fi4 & Nx4 & I4). rewrite E4 in H.
  destruct (push_bb s4) as [ee s5] eqn:E5. destruct (push_frame s4 c ee s5 E5) as (-> & Nx5 & _ & C5 & Se5 & Fe5 & Sf5 & Fr5 & I5). specialize (I5 I4).
  rewrite Se2 in S3. cbn [length] in S3. specialize (N3 Fe2).
  pose proof F3 as (F3a & F3b & F3c). rewrite Nx1 in *. rewrite Nx4 in *.
  (* after the else branch: state s9, current block nx, and what is known of it *)
  assert (G : forall s9 nx (Ef : S -> outcome -> Prop), cur s9 = Some nx -> inv s9 -> nxt s3 <= nx -> nxt s5 <= nxt s9 -> store s9 nx = [] -> fin s9 nx = false ->
     (forall b, b < nxt s3 -> store s9 b = store s3 b /\ fin s9 b = fin s3 b) ->
     (forall P, ext s9 P -> correct P (nxt s3) 0 nx 0 Ef) ->
     (forall a o, ev (SIf cd t e) a o <-> (evC cd a = true /\ ev t a o) \/ (evC cd a = false /\ Ef a o)) ->
     match add_to_bb s9 c (ICBr cd (nxt s) (nxt s3)) with
     | None => None
     | Some s10 => if fin s10 ce then Some (c, s10) else match add_to_bb s10 ce (IBr nx) with None => None | Some s11 => Some (c, s11) end
     end = Some (en, s') -> en = c /\ tr_ok (ev (SIf cd t e)) s s' c).
  { intros s9 nx Ef C9 I9 Lnx L59 Se9 Fe9 Old9 Cor9 Hev H9.
    destruct (add_to_bb s9 c (ICBr cd (nxt s) (nxt s3))) as [s10|] eqn:E10; [|discriminate]. apply add_to_bb_some in E10. destruct E10 as [-> _].
    assert (Ncce : ce <> c) by lia.
    assert (Hs : forall b, b < nxt s -> b <> c -> store s9 b = store s b /\ fin s9 b = fin s b).
    { intros b Hb Nb. destruct (Old9 b ltac:(lia)) as [-> ->]. destruct (F3c b ltac:(lia) ltac:(lia)) as [-> ->]. destruct (Sf2 b ltac:(lia)) as [-> ->]. rewrite St1, Fi1. auto. }
    assert (Hsc : store s9 c = store s c /\ fin s9 c = fin s c).
    { destruct (Old9 c ltac:(lia)) as [-> ->]. destruct (F3c c ltac:(lia) ltac:(lia)) as [-> ->]. destruct (Sf2 c ltac:(lia)) as [-> ->]. rewrite St1, Fi1. auto. }
    assert (Hce : store s9 ce = store s3 ce /\ fin s9 ce = fin s3 ce) by (apply Old9; lia).
    assert (Nnx : nx <> c /\ nx <> ce) by (split; lia).
    change (fin (append s9 c (ICBr cd (nxt s) (nxt s3))) ce) with (fin s9 ce) in H9.
    (* the final state *)
    assert (Fin : exists sf, Some (c, sf) = Some (en, s') /\ inv sf /\ cur sf = Some nx /\ nxt sf = nxt s9 /\ store sf nx = [] /\ fin sf nx = false /\
       (forall b, b <> c -> b <> ce -> store sf b = store s9 b) /\ (forall b, fin sf b = fin s9 b) /\ store sf c = store s9 c ++ [ICBr cd (nxt s) (nxt s3)] /\
       (fin s9 ce = true /\ store sf ce = store s9 ce \/ store sf ce = store s9 ce ++ [IBr nx])).
    { destruct (fin s9 ce) eqn:Fce.
      - exists (append s9 c (ICBr cd (nxt s) (nxt s3))). split; auto. split; [apply inv_append; auto|]. split; [exact C9|]. split; auto.
        rewrite (store_len1 s9 c _ nx) by lia. split; auto. split; auto. split; [intros b Nb _; apply store_len1; auto|]. split; auto. split; [apply store_len2|].
        left. split; auto. apply store_len1. auto.
      - destruct (add_to_bb (append s9 c (ICBr cd (nxt s) (nxt s3))) ce (IBr nx)) as [s11|] eqn:E11; [|discriminate]. apply add_to_bb_some in E11. destruct E11 as [-> _].
        eexists. split; [exact H9|]. split; [apply inv_append, inv_append; auto|]. split; [exact C9|]. split; auto.
        rewrite (store_len1 _ ce _ nx), (store_len1 s9 c _ nx) by lia. split; auto. split; auto.
        split; [intros b Nb Nb2; rewrite (store_len1 _ ce _ b), (store_len1 s9 c _ b); auto|]. split; auto.
        split; [rewrite (store_len1 _ ce _ c) by auto; apply store_len2|]. right. rewrite store_len2. f_equal. apply store_len1. auto. }
    destruct Fin as (sf & Ef1 & If & Cf & Nf & Snf & Fnf & Sof & Fof & Scf & Scef). injection Ef1 as <- <-. split; auto.
    assert (Ext9 : forall P, ext sf P -> ext s9 P).
    { intros P HP b Hb. specialize (HP b ltac:(lia)). eapply prefix_trans; [|exact HP]. destruct (Nat.eq_dec b c) as [->|N1]; [rewrite Scf; apply prefix_app|].
      destruct (Nat.eq_dec b ce) as [->|N2]; [destruct Scef as [[_ ->]| ->]; [apply prefix_refl|apply prefix_app]|]. rewrite Sof by auto. apply prefix_refl. }
    split; auto. exists nx. split; auto. split; [right; lia|]. split; [|split; [|split]].
    - split; [lia|]. split; [rewrite Scf; destruct Hsc as [-> _]; apply prefix_app|]. intros b Hb Nb. rewrite Sof by (auto; lia). rewrite Fof. apply Hs; auto.
    - intros _. right. exists (store s9 c), (ICBr cd (nxt s) (nxt s3)). split; auto.
    - rewrite Fnf. discriminate.
    - intros P HP. rewrite Snf. cbn [length].
      assert (HP3 : ext s3 P) by (intros b Hb; destruct (Old9 b Hb) as [<- _]; apply (Ext9 P HP); lia).
      eapply correct_if; [| |apply (Cor9 P)|exact Hev].
      + apply prefix_nth. destruct Hsc as [<- _]. rewrite <- Scf. apply HP. lia.
      + destruct Scef as [[Fce _]|Scef].
        * eapply correct_never; [apply (S3 P HP3)|]. apply N3. destruct Hce as [_ <-]. auto.
        * eapply correct_jump; [apply (S3 P HP3)|]. apply prefix_nth. destruct Hce as [<- _]. rewrite <- Scef. apply HP. lia.
      + apply Ext9; auto. }
  destruct e as [e|].
  - destruct (tr e s5) as [[eb s6]|] eqn:E6; [|discriminate].
    destruct (He s5 eb s6 (nxt s3) I5 C5 E6) as (-> & I6 & ce' & C6 & D6 & F6 & _ & N6 & S6). rewrite Se5 in S6. cbn [length] in S6. specialize (N6 Fe5).
    pose proof (cur_in s6 ce' I6 C6) as Lce'.
    destruct (pop_spec s6 ce' C6 I6) as (s7 & E7 & St7 & Fi7 & Nx7 & I7). rewrite E7 in H.
    destruct (push_bb s7) as [nx s8] eqn:E8. destruct (push_frame s7 c nx s8 E8) as (-> & Nx8 & _ & C8 & Se8 & Fe8 & Sf8 & Fr8 & I8). specialize (I8 I7). rewrite Nx7 in *.
    pose proof F6 as (F6a & F6b & F6c).
    assert (Old8 : forall b, b < nxt s3 -> store s8 b = store s3 b /\ fin s8 b = fin s3 b).
    { intros b Hb. destruct (Sf8 b ltac:(lia)) as [-> ->]. rewrite St7, Fi7. destruct (F6c b ltac:(lia) ltac:(lia)) as [-> ->]. destruct (Sf5 b ltac:(lia)) as [-> ->]. rewrite St4, Fi4. auto. }
    assert (Fce' : fin s8 ce' = fin s6 ce') by (destruct (Sf8 ce' ltac:(lia)) as [_ ->]; rewrite Fi7; auto).
    assert (Sce' : store s8 ce' = store s6 ce') by (destruct (Sf8 ce' ltac:(lia)) as [-> _]; rewrite St7; auto).
    assert (Ext68 : forall P, ext s8 P -> ext s6 P).
    { intros P HP b Hb. specialize (HP b ltac:(lia)). destruct (Sf8 b ltac:(lia)) as [X _]. rewrite X, St7 in HP. auto. }
    assert (Hev : forall a o, ev (SIf cd t (Some e)) a o <-> (evC cd a = true /\ ev t a o) \/ (evC cd a = false /\ ev e a o)).
    { intros a o. split; [intros X; inversion X; subst; auto|intros [[X1 X2]|[X1 X2]]; [apply ev_if_t; auto|apply ev_if_e; auto]]. }
    destruct (fin s8 ce') eqn:Fc.
    + rewrite C8 in H. apply (G s8 (nxt s6) (ev e)); auto; try lia.
      intros P HP. eapply correct_never; [apply (S6 P); auto|]. intros a b. apply N6. congruence.
    + destruct (add_to_bb s8 ce' (IBr (nxt s6))) as [s9|] eqn:E9; [|discriminate]. apply add_to_bb_some in E9. destruct E9 as [-> _].
      change (cur (append s8 ce' (IBr (nxt s6)))) with (cur s8) in H. rewrite C8 in H.
      apply (G (append s8 ce' (IBr (nxt s6))) (nxt s6) (ev e)); auto.
      * lia.
      * cbn [append nxt]. lia.
      * rewrite store_len1 by lia. auto.
      * intros b Hb. rewrite store_len1 by lia. apply Old8; auto.
      * intros P HP.
        assert (HP8 : ext s8 P) by (intros b Hb; eapply prefix_trans; [apply append_prefix|apply HP; auto]).
        eapply correct_jump; [apply (S6 P); auto|]. apply prefix_nth. rewrite <- Sce', <- store_len2. apply HP. cbn [append nxt]. lia.
  - rewrite C5 in H. apply (G s5 (nxt s3) (fun a o => o = Normal a)); auto.
    + intros b Hb. destruct (Sf5 b ltac:(lia)) as [-> ->]. rewrite St4, Fi4. auto.
    + intros P HP. apply correct_id. tauto.
    + intros a o. split; [intros X; inversion X; subst; auto|intros [[X1 X2]|[X1 ->]]; [apply ev_if_t; auto|apply ev_if_n; auto]].
Qed.

Lemma good_loop : forall i c b, good i -> good b -> good (SLoop i c b).
Proof.
  intros i cd b Hi Hb s en s' c I Hc H. cbn [tr] in H. rewrite Hc in H. unfold tr_loop in H.
  pose proof (cur_in s c I Hc) as Lc.
  destruct (tr i s) as [[ib s1]|] eqn:E1; [|discriminate]. destruct (Hi s ib s1 c I Hc E1) as (-> & I1 & c1 & C1 & D1 & F1 & K1 & N1 & S1).
  pose proof (cur_in s1 c1 I1 C1) as Lc1. pose proof F1 as (F1a & F1b & F1c).
  destruct (push_bb s1) as [h s2] eqn:E2. destruct (push_frame s1 c h s2 E2) as (-> & Nx2 & Stk2 & C2 & Se2 & Fe2 & Sf2 & Fr2 & I2). specialize (I2 I1).
  unfold emit in H. rewrite C2 in H. set (s3 := append s2 (nxt s1) (IEval cd)) in *.
  assert (I3 : inv s3) by (apply inv_append; auto).
  destruct (pop_spec s3 (nxt s1) C2 I3) as (s4 & E4 & St4 & Fi4 & Nx4 & I4). rewrite E4 in H.
  destruct (push_bb s4) as [b0 s5] eqn:E5. destruct (push_frame s4 c b0 s5 E5) as (-> & Nx5 & _ & C5 & Se5 & Fe5 & Sf5 & Fr5 & I5). specialize (I5 I4).
  assert (Nx3 : nxt s3 = Datatypes.S (nxt s1)) by exact Nx2. rewrite Nx4, Nx3 in *.
  destruct (tr b s5) as [[bb s6]|] eqn:E6; [|discriminate].
  destruct (Hb s5 bb s6 (Datatypes.S (nxt s1)) I5 C5 E6) as (-> & I6 & ce & C6 & D6 & F6 & _ & N6 & S6). rewrite C6 in H. rewrite Se5 in S6. cbn [length] in S6.
  pose proof (cur_in s6 ce I6 C6) as Lce. pose proof F6 as (F6a & F6b & F6c).
  destruct (add_to_bb s6 ce (IBr (nxt s1))) as [s7|] eqn:E7; [|discriminate]. apply add_to_bb_some in E7. destruct E7 as [-> _].
  destruct (pop_spec (append s6 ce (IBr (nxt s1))) ce C6 (inv_append _ _ _ I6)) as (s8 & E8 & St8 & Fi8 & Nx8 & I8). rewrite E8 in H. change (nxt (append s6 ce (IBr (nxt s1)))) with (nxt s6) in Nx8.
  destruct (push_bb s8) as [nx s9] eqn:E9. destruct (push_frame s8 c nx s9 E9) as (-> & Nx9 & _ & C9 & Se9 & Fe9 & Sf9 & Fr9 & I9). specialize (I9 I8). rewrite Nx8 in *.
  destruct (add_to_bb s9 (nxt s1) (ICBr cd (Datatypes.S (nxt s1)) (nxt s6))) as [s10|] eqn:E10; [|discriminate]. apply add_to_bb_some in E10. destruct E10 as [-> _].
  destruct (add_to_bb (append s9 (nxt s1) (ICBr cd (Datatypes.S (nxt s1)) (nxt s6))) c (IBr (nxt s1))) as [s11|] eqn:E11; [|discriminate]. apply add_to_bb_some in E11. destruct E11 as [-> K11].
  injection H as <- <-. split; auto.
  (* blocks older than the header *)
  assert (Old : forall n, n < nxt s1 -> store s9 n = store s1 n /\ fin s9 n = fin s1 n).
  { intros n Hn. destruct (Sf9 n ltac:(lia)) as [-> ->]. rewrite St8, Fi8. rewrite store_len1 by lia. change (fin (append s6 ce (IBr (nxt s1))) n) with (fin s6 n).
    destruct (F6c n ltac:(lia) ltac:(lia)) as [-> ->]. destruct (Sf5 n ltac:(lia)) as [-> ->]. rewrite St4, Fi4. unfold s3. rewrite store_len1 by lia. apply Sf2. lia. }
  assert (Hh : store s9 (nxt s1) = [IEval cd]).
  { destruct (Sf9 (nxt s1) ltac:(lia)) as [-> _]. rewrite St8. rewrite store_len1 by lia. destruct (F6c (nxt s1) ltac:(lia) ltac:(lia)) as [-> _].
    destruct (Sf5 (nxt s1) ltac:(lia)) as [-> _]. rewrite St4. unfold s3. rewrite store_len2, Se2. reflexivity. }
  assert (Ec : c1 = c).
  { destruct (Nat.eq_dec c1 c) as [|Nc]; auto. exfalso. apply K11. specialize (K1 Nc). unfold closed_block in *.
    change (fin (append s9 (nxt s1) (ICBr cd (Datatypes.S (nxt s1)) (nxt s6))) c) with (fin s9 c). rewrite store_len1 by lia. destruct (Old c ltac:(lia)) as [-> ->]. auto. }
  subst c1.
  set (sf := append (append s9 (nxt s1) (ICBr cd (Datatypes.S (nxt s1)) (nxt s6))) c (IBr (nxt s1))).
  assert (Nsf : nxt sf = Datatypes.S (nxt s6)) by exact Nx9.
  assert (Sc : store sf c = store s1 c ++ [IBr (nxt s1)]).
  { unfold sf. rewrite store_len2. f_equal. rewrite store_len1 by lia. apply Old. auto. }
  assert (Sh : store sf (nxt s1) = [IEval cd; ICBr cd (Datatypes.S (nxt s1)) (nxt s6)]).
  { unfold sf. rewrite store_len1 by lia. rewrite store_len2, Hh. reflexivity. }
  assert (So : forall n, n <> c -> n <> nxt s1 -> store sf n = store s9 n) by (intros n X Y; unfold sf; rewrite store_len1, store_len1; auto).
  assert (Sce : store sf ce = store s6 ce ++ [IBr (nxt s1)]).
  { rewrite So by lia. destruct (Sf9 ce ltac:(lia)) as [-> _]. rewrite St8. apply store_len2. }
  split; [apply inv_append, inv_append; auto|]. exists (nxt s6). split; [exact C9|]. split; [right; lia|]. split; [|split; [|split]].
  - split; [lia|]. split; [rewrite Sc; eapply prefix_trans; [exact F1b|apply prefix_app]|]. intros n Hn Nn.
    rewrite So by lia. change (fin sf n) with (fin s9 n). destruct (Old n ltac:(lia)) as [-> ->]. apply F1c; auto.
  - intros _. right. exists (store s1 c), (IBr (nxt s1)). split; auto.
  - change (fin sf (nxt s6)) with (fin s9 (nxt s6)). rewrite Fe9. discriminate.
  - intros P HP. replace (length (store sf (nxt s6))) with 0 by (rewrite So by lia; rewrite Se9; reflexivity).
    assert (HP1 : ext s1 P).
    { intros n Hn. eapply prefix_trans; [|apply HP; lia]. destruct (Nat.eq_dec n c) as [->|Nn]; [rewrite Sc; apply prefix_app|]. rewrite So by lia. destruct (Old n Hn) as [-> _]. apply prefix_refl. }
    assert (HP6 : ext s6 P).
    { intros n Hn. eapply prefix_trans; [|apply HP; lia]. destruct (Nat.eq_dec n c) as [->|Nn].
      - destruct (F6c c ltac:(lia) ltac:(lia)) as [-> _]. destruct (Sf5 c ltac:(lia)) as [-> _]. rewrite St4. unfold s3. rewrite store_len1 by lia. destruct (Sf2 c ltac:(lia)) as [-> _]. rewrite Sc. apply prefix_app.
      - destruct (Nat.eq_dec n (nxt s1)) as [->|Nh].
        + destruct (F6c (nxt s1) ltac:(lia) ltac:(lia)) as [-> _]. destruct (Sf5 (nxt s1) ltac:(lia)) as [-> _]. rewrite St4. unfold s3. rewrite store_len2, Se2, Sh. exists [ICBr cd (Datatypes.S (nxt s1)) (nxt s6)]. reflexivity.
        + rewrite So by auto. destruct (Sf9 n ltac:(lia)) as [-> _]. rewrite St8. apply append_prefix. }
    assert (Ph : prefix [IEval cd; ICBr cd (Datatypes.S (nxt s1)) (nxt s6)] (P (nxt s1))) by (rewrite <- Sh; apply HP; lia).
    eapply correct_seq with (c1 := nxt s1) (k1 := 0) (E1 := ev i) (E2 := evw cd b).
    + eapply correct_jump; [apply (S1 P HP1)|]. apply prefix_nth. rewrite <- Sc. apply HP. lia.
    + eapply correct_loop with (b := Datatypes.S (nxt s1)).
      * destruct Ph as [r ->]. reflexivity.
      * destruct Ph as [r ->]. reflexivity.
      * eapply correct_jump; [apply (S6 P HP6)|]. apply prefix_nth. rewrite <- Sce. apply HP. lia.
    + intros a o. split.
      * intros X. inversion X; subst; [right; eauto|left; eauto].
      * intros [(v & -> & X)|(a1 & X & Y)]; [apply ev_loop_ret; auto|eapply ev_loop; eauto].
Qed.

Lemma good_all : forall t, good t.
Proof.
  apply stmt_ind2.
  - intros a s e s' c I Hc H. cbn [tr] in H. rewrite Hc in H. unfold emit in H. rewrite Hc in H. injection H as <- <-. split; auto.
    pose proof (cur_in s c I Hc) as Lc.
    split; [apply inv_append; auto|]. exists c. split; auto. split; auto. split; [destruct (append_frame s c (IOp a) c) as [F|[_ F]]; [auto|congruence]|].
    split; [congruence|]. split; [cbn [append fin]; congruence|]. intros P HP. rewrite store_len2, app_length. cbn [length].
    assert (N : nth_error (P c) (length (store s c)) = Some (IOp a)) by (apply prefix_nth; rewrite <- store_len2; apply HP; auto).
    assert (St : forall x, step P (c, length (store s c), x) = inr (c, length (store s c) + 1, doA a x)) by (intros x; unfold step; rewrite N; reflexivity).
    split; [|split].
    + intros x x' n o He Hr. inversion He; subst. eexists. eapply run_next; eauto.
    + intros x v He. inversion He.
    + intros x n o Hr. destruct (run_next_inv _ _ _ (St x) _ _ Hr) as (m & -> & Hm). right. exists (doA a x), m. split; [lia|]. split; [constructor|auto].
  - intros r s e s' c I Hc H. cbn [tr] in H. rewrite Hc in H. unfold emit in H. rewrite Hc in H. change (cur (append s c (IRet r))) with (cur s) in H. rewrite Hc in H. injection H as <- <-. split; auto.
    pose proof (cur_in s c I Hc) as Lc.
    split; [intros n Hn; apply I; auto|]. exists c. split; auto. split; auto. split.
    { split; [auto|]. split; [apply append_prefix|]. intros n Hn Nn. cbn [set_final store fin]. rewrite store_len1 by auto. destruct (Nat.eqb_spec n c); [contradiction|auto]. }
    split; [congruence|]. split; [intros _ _ a b X; inversion X|]. intros P HP.
    assert (N : nth_error (P c) (length (store s c)) = Some (IRet r)) by (apply prefix_nth; rewrite <- store_len2; apply HP; auto).
    assert (St : forall x, step P (c, length (store s c), x) = inl (Ret (evR r x))) by (intros x; unfold step; rewrite N; reflexivity).
    split; [|split].
    + intros x x' n o He. inversion He.
    + intros x v He. inversion He; subst. exists 1. cbn [run]. rewrite St. reflexivity.
    + intros x n o Hr. destruct n as [|n]; [discriminate|]. cbn [run] in Hr. rewrite St in Hr. injection Hr as <-. left. eexists. split; auto. constructor.
  - intros l HF s e s' c I Hc H. cbn [tr] in H. rewrite Hc in H. fold trl in H. destruct (trl l s) as [s1|] eqn:E; [|discriminate]. injection H as <- <-. split; auto.
    destruct (good_list l HF s s1 c I Hc E) as (I2 & c2 & C2 & D2 & F2 & K2 & N2 & S2).
    split; auto. exists c2. split; auto. split; auto. split; auto. split; auto. split.
    + intros X Y a b Z. inversion Z; subst. eapply N2; eauto.
    + intros P HP. destruct (S2 P HP) as (A1 & A2 & A3). split; [|split].
      * intros x x' n o He. inversion He; subst. eauto.
      * intros x v He. inversion He; subst. eauto.
      * intros x n o Hr. destruct (A3 x n o Hr) as [(v & -> & He)|(x' & n' & L & He & Hr')].
        -- left. exists v. split; auto. constructor; auto.
        -- right. exists x', n'. split; auto. split; auto. constructor; auto.
  - apply good_if.
  - apply good_loop.
Qed.
End Sem.
