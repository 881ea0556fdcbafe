From Coq Require Import List Arith Bool Lia.
From Verif Require Import LinModel LinSpec.
Import ListNotations.

Section P.
Context {V : Type}.
Variable truth : V -> bool.
Variable d0 : V.
Variable nodes : nat -> mnode V.
Variable rank : nat -> nat.
Hypothesis Hrank : forall n i, In i (operands nodes n) -> rank i < rank n.
Notation operands := (operands nodes).
Notation reach := (reach nodes).
Notation is_op := (is_op nodes).
Notation is_expr_node := (is_expr_node nodes).
Notation expr := (expr nodes).
Notation reaches := (reaches nodes).
Notation ev := (ev d0 nodes).
Notation eval := (eval d0 nodes rank).
Notation lin := (lin V nodes).
Notation lst := (lst V).
Notation insn := (insn V).
Notation res := (res V).
Notation next := (next V).
Notation memo := (memo V).
Notation vregs := (vregs V).
Notation memoize := (memoize V).
Notation get_var := (get_var V).
Notation to_opnd := (to_opnd V).
Notation target := (target V).

(* ---- evaluation *)
Lemma ev_fuel : forall f g env n, rank n < f -> rank n < g -> ev f env n = ev g env n.
Proof.
  induction f as [|f IH]; intros g env n Hf Hg; [lia|]. destruct g as [|g]; [lia|]. cbn [LinSpec.ev].
  destruct (nodes n) as [|v|h l| | |x k|c t e|t|o] eqn:En; auto. f_equal. apply map_ext_in. intros i Hi.
  assert (rank i < rank n) by (apply Hrank; unfold LinSpec.operands; now rewrite En). apply IH; lia.
Qed.
Lemma eval_op : forall env n g l, nodes n = MOp g l -> eval env n = g (map (eval env) l).
Proof.
  intros env n g l En. unfold LinSpec.eval at 1. cbn [LinSpec.ev]. rewrite En. f_equal. apply map_ext_in. intros i Hi.
  assert (rank i < rank n) by (apply Hrank; unfold LinSpec.operands; now rewrite En). apply ev_fuel; lia.
Qed.
Lemma reach_trans : forall a b c, reach a b -> reach b c -> reach a c.
Proof. intros a b c H1 H2. induction H2; auto. eapply reach_step; eauto. Qed.
Lemma reach_in : forall a b c, In b (operands a) -> reach b c -> reach a c.
Proof. intros a b c H1 H2. eapply reach_trans; [|exact H2]. eapply reach_step; [constructor|auto]. Qed.
Lemma reach_inv : forall a b, reach a b -> a = b \/ exists i, In i (operands a) /\ reach i b.
Proof.
  intros a b H. induction H as [|n i H IH Hi]; auto. right. destruct IH as [<-|[j [J1 J2]]].
  - exists i. split; auto. constructor.
  - exists j. split; auto. eapply reach_step; eauto.
Qed.
Lemma eval_indep : forall env x v n, ~ reach n x -> eval (set env x v) n = eval env n.
Proof.
  intros env x v. assert (H : forall f n, ~ reach n x -> ev f (set env x v) n = ev f env n).
  { induction f as [|f IH]; intros n Hn; auto. cbn [LinSpec.ev].
    destruct (nodes n) as [|c|h l| | |y k|c t e|t|o] eqn:En; auto.
    - unfold set. destruct (Nat.eqb_spec n x) as [->|]; auto. exfalso. apply Hn. constructor.
    - f_equal. apply map_ext_in. intros i Hi. apply IH. intros Hr. apply Hn. apply (reach_in n i); auto.
      unfold LinSpec.operands. now rewrite En. }
  intros n. apply H.
Qed.
Lemma expr_in : forall n i, expr n -> In i (operands n) -> expr i.
Proof. intros n i H Hi m Hm. apply H. eapply reach_in; eauto. Qed.
Lemma expr_node : forall n, expr n -> is_expr_node n.
Proof. intros n H. apply H. constructor. Qed.

(* ---- states *)
Record wfs (st : lst) : Prop := {
  W1 : forall x k, assoc x (vregs st) = Some k -> k < next st;
  W2 : forall x y k, assoc x (vregs st) = Some k -> assoc y (vregs st) = Some k -> x = y;
  W3 : forall n r, assoc n (memo st) = Some r ->
       match nodes n with
       | MVar => exists k, r = RReg k /\ assoc n (vregs st) = Some k
       | MCst v => r = RCst v
       | MOp _ _ => exists k, r = RReg k /\ k < next st /\ forall x, assoc x (vregs st) <> Some k
       | _ => True
       end;
  W4 : forall n n' k, is_op n -> is_op n' -> assoc n (memo st) = Some (RReg k) -> assoc n' (memo st) = Some (RReg k) -> n = n'
}.
Record ext (st st' : lst) : Prop := {
  E1 : next st <= next st';
  E2 : forall n r, assoc n (memo st) = Some r -> assoc n (memo st') = Some r;
  E3 : forall x k, assoc x (vregs st) = Some k -> assoc x (vregs st') = Some k;
  E4 : forall x k, assoc x (vregs st') = Some k -> assoc x (vregs st) = Some k \/ next st <= k
}.
Lemma ext_refl : forall st, ext st st. Proof. constructor; auto. Qed.
Lemma ext_trans : forall a b c, ext a b -> ext b c -> ext a c.
Proof.
  intros a b c A B. constructor.
  - pose proof (E1 _ _ A). pose proof (E1 _ _ B). lia.
  - intros. apply (E2 _ _ B), (E2 _ _ A). auto.
  - intros. apply (E3 _ _ B), (E3 _ _ A). auto.
  - intros x k H. destruct (E4 _ _ B _ _ H) as [H1|H1]; [apply (E4 _ _ A); auto|]. right. pose proof (E1 _ _ A). lia.
Qed.
Definition agree (st : lst) (regs env : nat -> V) : Prop := forall x k, assoc x (vregs st) = Some k -> regs k = env x.
Definition valid (Q : nat -> Prop) (st : lst) (regs env : nat -> V) : Prop :=
  forall m k, Q m -> is_op m -> assoc m (memo st) = Some (RReg k) -> regs k = eval env m.

Lemma agree_ext : forall st st' regs env, ext st st' -> agree st' regs env -> agree st regs env.
Proof. intros st st' regs env E A x k H. apply A. apply (E3 _ _ E). auto. Qed.

Lemma memo_val : forall (Q : nat -> Prop) st regs env n r, wfs st -> assoc n (memo st) = Some r -> is_expr_node n ->
  Q n -> valid Q st regs env -> agree st regs env ->
  exists o, to_opnd r = Some o /\ opval regs o = eval env n.
Proof.
  intros Q st regs env n r W M X HQ Hv Ha. pose proof (W3 _ W n r M) as H. unfold LinSpec.is_expr_node in X.
  destruct (nodes n) as [|v|g l| | |x k|c t e|t|o] eqn:En; try contradiction.
  - destruct H as [k [-> H]]. exists (OReg k). split; auto. cbn [opval]. rewrite (Ha _ _ H).
    unfold LinSpec.eval. cbn [LinSpec.ev]. now rewrite En.
  - subst r. exists (OCst v). split; auto. cbn [opval]. unfold LinSpec.eval. cbn [LinSpec.ev]. now rewrite En.
  - destruct H as [k [-> H]]. exists (OReg k). split; auto. cbn [opval]. apply Hv; auto.
    unfold LinSpec.is_op. now rewrite En.
Qed.

(* ---- code *)
Definition op_target (i : insn) : list nat := match i with IOp k _ _ => [k] | _ => [] end.
Definition op_targets (c : list insn) : list nat := flat_map op_target c.
Definition pure (c : list insn) : Prop := forall i, In i c -> exists k f l, i = IOp k f l.
Fixpoint runc (regs : nat -> V) (c : list insn) : nat -> V :=
  match c with
  | [] => regs
  | IOp k f l :: r => runc (set regs k (f (map (opval regs) l))) r
  | _ :: r => runc regs r
  end.
Lemma mexec_pure : forall c regs c', pure c -> mexec truth regs (c ++ c') = mexec truth (runc regs c) c'.
Proof.
  induction c as [|i c IH]; intros regs c' H; auto.
  destruct (H i (or_introl eq_refl)) as [k [f [l ->]]]. cbn [app mexec runc]. apply IH. intros j Hj. apply H. now right.
Qed.
Lemma runc_app : forall c c' regs, runc regs (c ++ c') = runc (runc regs c) c'.
Proof. induction c as [|[]]; intros c' regs; cbn [app runc]; auto. Qed.
Lemma runc_frame : forall c regs k, ~ In k (op_targets c) -> runc regs c k = regs k.
Proof.
  induction c as [|i c IH]; intros regs k H; auto. unfold op_targets in H. cbn [flat_map] in H. rewrite in_app_iff in H.
  destruct i; cbn [runc op_target] in *; rewrite IH; auto.
  unfold set. destruct (Nat.eqb_spec k r) as [->|]; auto. exfalso. apply H. left. now left.
Qed.
Lemma op_targets_app : forall c c', op_targets (c ++ c') = op_targets c ++ op_targets c'.
Proof. intros. unfold op_targets. apply flat_map_app. Qed.
Lemma pure_app : forall c c', pure c -> pure c' -> pure (c ++ c').
Proof. intros c c' H H' i Hi. apply in_app_iff in Hi. destruct Hi; auto. Qed.

(* what a call achieves, statically: N is the set of nodes it may newly memoize *)
Record grows (st st' : lst) (code : list insn) (N : nat -> Prop) : Prop := {
  G_wf : wfs st';
  G_ext : ext st st';
  G_new : forall m, assoc m (memo st') <> None -> assoc m (memo st) <> None \/ N m;
  G_tgt : forall k, In k (op_targets code) -> next st <= k < next st' /\
          (forall x, assoc x (vregs st') <> Some k) /\ exists m, N m /\ is_op m /\ assoc m (memo st') = Some (RReg k);
  G_nodup : NoDup (op_targets code);
  G_all : forall m k, is_op m -> assoc m (memo st') = Some (RReg k) -> assoc m (memo st) = Some (RReg k) \/ In k (op_targets code)
}.
Lemma grows_refl : forall st N, wfs st -> grows st st [] N.
Proof. intros st N W. constructor; auto. apply ext_refl. intros k []. constructor. Qed.
Lemma grows_trans : forall a b c c1 c2 N, grows a b c1 N -> grows b c c2 N -> grows a c (c1 ++ c2) N.
Proof.
  intros a b c c1 c2 N A B. pose proof (G_ext _ _ _ _ A) as EA. pose proof (G_ext _ _ _ _ B) as EB. constructor.
  - apply (G_wf _ _ _ _ B).
  - eapply ext_trans; eauto.
  - intros m H. destruct (G_new _ _ _ _ B m H) as [H1|H1]; auto. apply (G_new _ _ _ _ A); auto.
  - intros k. rewrite op_targets_app, in_app_iff. intros [H|H].
    + destruct (G_tgt _ _ _ _ A k H) as [H1 [H2 [m [M1 [M2 M3]]]]]. pose proof (E1 _ _ EB). split; [lia|]. split.
      * intros x Hx. destruct (E4 _ _ EB x k Hx) as [Hy|Hy]; [eapply H2; eauto|lia].
      * exists m. split; auto. split; auto. apply (E2 _ _ EB). auto.
    + destruct (G_tgt _ _ _ _ B k H) as [H1 [H2 H3]]. pose proof (E1 _ _ EA). split; [lia|]. auto.
  - rewrite op_targets_app. pose proof (G_nodup _ _ _ _ A) as NA. pose proof (G_nodup _ _ _ _ B) as NB.
    assert (HA : forall k, In k (op_targets c1) -> k < next b) by (intros k Hk; apply (G_tgt _ _ _ _ A k Hk)).
    assert (HB : forall k, In k (op_targets c2) -> next b <= k) by (intros k Hk; apply (G_tgt _ _ _ _ B k Hk)).
    clear -NA HA NB HB. revert NA HA. induction (op_targets c1) as [|k l IH]; intros NA HA; cbn [app]; auto.
    inversion NA as [|? ? N1 N2]. constructor.
    + rewrite in_app_iff. intros [Hk|Hk]; auto. specialize (HA k (or_introl eq_refl)). specialize (HB k Hk). lia.
    + apply IH; auto. intros k' Hk'. apply HA. now right.
  - intros m k H1 H2. rewrite op_targets_app, in_app_iff. destruct (G_all _ _ _ _ B m k H1 H2) as [H|H]; auto.
    destruct (G_all _ _ _ _ A m k H1 H); auto.
Qed.
Lemma grows_weaken : forall st st' c (N N' : nat -> Prop), grows st st' c N -> (forall m, N m -> N' m) -> grows st st' c N'.
Proof.
  intros st st' c N N' G H. destruct G as [G1 G2 G3 G4 G5 G6]. constructor; auto.
  - intros m Hm. destruct (G3 m Hm); auto.
  - intros k Hk. destruct (G4 k Hk) as [A [B [m [C D]]]]. split; auto. split; auto. exists m. auto.
Qed.

Lemma get_var_ok : forall x st r st', get_var x st = (r, st') -> wfs st ->
  assoc x (vregs st') = Some r /\ memo st' = memo st /\ grows st st' [] (fun _ => False).
Proof.
  intros x st r st' H W. unfold LinModel.get_var in H. destruct (assoc x (vregs st)) as [k|] eqn:E.
  - injection H as <- <-. split; auto. split; auto. now apply grows_refl.
  - injection H as <- <-. cbn [vregs assoc]. rewrite Nat.eqb_refl. split; auto. split; auto.
    assert (Ex : ext st (LS V (Datatypes.S (next st)) (memo st) ((x, next st) :: vregs st))).
    { constructor; cbn [LinModel.next LinModel.memo LinModel.vregs]; auto.
      - intros y k Hy. cbn [assoc]. destruct (Nat.eqb_spec y x) as [->|]; auto. congruence.
      - intros y k. cbn [assoc]. destruct (Nat.eqb_spec y x) as [->|]; auto. intros Hk. injection Hk as <-. auto. }
    constructor; auto.
    + constructor; cbn [LinModel.next LinModel.memo LinModel.vregs].
      * intros y k. cbn [assoc]. destruct (y =? x); [intros Hk; injection Hk as <-; lia|].
        intros Hk. pose proof (W1 _ W _ _ Hk). lia.
      * intros y z k. cbn [assoc]. destruct (Nat.eqb_spec y x) as [->|], (Nat.eqb_spec z x) as [->|]; auto.
        -- intros Hk Hz. injection Hk as <-. pose proof (W1 _ W _ _ Hz). lia.
        -- intros Hz Hk. injection Hk as <-. pose proof (W1 _ W _ _ Hz). lia.
        -- apply (W2 _ W).
      * intros n r Hn. pose proof (W3 _ W n r Hn) as H. destruct (nodes n); auto.
        -- destruct H as [k [-> H]]. exists k. split; auto. cbn [assoc]. destruct (Nat.eqb_spec n x) as [->|]; auto. congruence.
        -- destruct H as [k [-> [H1 H2]]]. exists k. split; auto. split; [lia|]. intros y. cbn [assoc].
           destruct (y =? x); auto. intros Hk. injection Hk as Hk. lia.
      * apply (W4 _ W).
    + intros k [].
    + constructor.
Qed.

Lemma memoize_stmt : forall n r st (N : nat -> Prop), wfs st -> ~ is_expr_node n -> assoc n (memo st) = None ->
  N n -> grows st (memoize n r st) [] N.
Proof.
  intros n r st N W X M HN. unfold LinModel.memoize.
  assert (Hop : ~ is_op n).
  { intros H. apply X. unfold LinSpec.is_op in H. unfold LinSpec.is_expr_node. destruct (nodes n); auto. }
  constructor; cbn [LinModel.next LinModel.memo LinModel.vregs].
  - constructor; cbn [LinModel.next LinModel.memo LinModel.vregs].
    + apply (W1 _ W).
    + apply (W2 _ W).
    + intros k r'. cbn [assoc]. destruct (Nat.eqb_spec k n) as [->|]; [|apply (W3 _ W)].
      intros _. unfold LinSpec.is_expr_node in X. destruct (nodes n); auto; exfalso; apply X; exact I.
    + intros k k' q H1 H2. cbn [assoc]. destruct (Nat.eqb_spec k n) as [->|]; [contradiction|].
      destruct (Nat.eqb_spec k' n) as [->|]; [contradiction|]. apply (W4 _ W); auto.
  - constructor; cbn [LinModel.next LinModel.memo LinModel.vregs]; auto.
    intros k r' Hk. cbn [assoc]. destruct (Nat.eqb_spec k n) as [->|]; auto. congruence.
  - intros m. cbn [assoc]. destruct (Nat.eqb_spec m n) as [->|]; auto.
  - intros k [].
  - constructor.
  - intros m k Hm. cbn [assoc]. destruct (Nat.eqb_spec m n) as [->|]; auto. contradiction.
Qed.

Lemma memoize_leaf : forall n r st (N : nat -> Prop), wfs st -> ~ is_op n -> assoc n (memo st) = None ->
  match nodes n with MVar => exists k, r = RReg k /\ assoc n (vregs st) = Some k | MCst v => r = RCst v | _ => True end ->
  N n -> grows st (memoize n r st) [] N.
Proof.
  intros n r st N W Hop M Hr HN. unfold LinModel.memoize.
  constructor; cbn [LinModel.next LinModel.memo LinModel.vregs].
  - constructor; cbn [LinModel.next LinModel.memo LinModel.vregs].
    + apply (W1 _ W).
    + apply (W2 _ W).
    + intros k r'. cbn [assoc]. destruct (Nat.eqb_spec k n) as [->|]; [|apply (W3 _ W)].
      intros H. injection H as <-. unfold LinSpec.is_op in Hop. destruct (nodes n); auto. exfalso. auto.
    + intros k k' q H1 H2. cbn [assoc]. destruct (Nat.eqb_spec k n) as [->|]; [contradiction|].
      destruct (Nat.eqb_spec k' n) as [->|]; [contradiction|]. apply (W4 _ W); auto.
  - constructor; cbn [LinModel.next LinModel.memo LinModel.vregs]; auto.
    intros k r' Hk. cbn [assoc]. destruct (Nat.eqb_spec k n) as [->|]; auto. congruence.
  - intros m. cbn [assoc]. destruct (Nat.eqb_spec m n) as [->|]; auto.
  - intros k [].
  - constructor.
  - intros m k Hm. cbn [assoc]. destruct (Nat.eqb_spec m n) as [->|]; auto. contradiction.
Qed.

Lemma memoize_op : forall n f os st (N : nat -> Prop), wfs st -> is_op n -> assoc n (memo st) = None -> N n ->
  grows st (memoize n (RReg (next st)) (LS V (Datatypes.S (next st)) (memo st) (vregs st))) [IOp (next st) f os] N.
Proof.
  intros n f os st N W Hop M HN. unfold LinModel.memoize. cbn [LinModel.next LinModel.memo LinModel.vregs].
  assert (Hfr : forall x, assoc x (vregs st) <> Some (next st)) by (intros x Hx; pose proof (W1 _ W _ _ Hx); lia).
  constructor; cbn [LinModel.next LinModel.memo LinModel.vregs].
  - constructor; cbn [LinModel.next LinModel.memo LinModel.vregs].
    + intros x k Hk. pose proof (W1 _ W _ _ Hk). lia.
    + apply (W2 _ W).
    + intros k r'. cbn [assoc]. destruct (Nat.eqb_spec k n) as [->|].
      * intros H. injection H as <-. unfold LinSpec.is_op in Hop. destruct (nodes n); try contradiction.
        exists (next st). auto.
      * intros H. pose proof (W3 _ W k r' H) as H1. destruct (nodes k); auto.
        destruct H1 as [q [-> [H1 H2]]]. exists q. auto.
    + assert (Hno : forall k, is_op k -> assoc k (memo st) <> Some (RReg (next st))).
      { intros k Hk Hm. pose proof (W3 _ W k _ Hm) as H1. unfold LinSpec.is_op in Hk. destruct (nodes k); try contradiction.
        destruct H1 as [q [Hq [H1 _]]]. injection Hq as <-. lia. }
      intros k k' q H1 H2. cbn [assoc]. destruct (Nat.eqb_spec k n) as [->|], (Nat.eqb_spec k' n) as [->|]; auto.
      * intros Hq Hm. injection Hq as <-. exfalso. eapply Hno; [exact H2|exact Hm].
      * intros Hm Hq. injection Hq as <-. exfalso. eapply Hno; [exact H1|exact Hm].
      * apply (W4 _ W); auto.
  - constructor; cbn [LinModel.next LinModel.memo LinModel.vregs]; auto.
    intros k r' Hk. cbn [assoc]. destruct (Nat.eqb_spec k n) as [->|]; auto. congruence.
  - intros m. cbn [assoc]. destruct (Nat.eqb_spec m n) as [->|]; auto.
  - intros k [<-|[]]. split; [lia|]. split; auto. exists n. split; auto. split; auto. cbn [assoc]. now rewrite Nat.eqb_refl.
  - cbn. constructor; [intros []|constructor].
  - intros m k Hm. cbn [assoc]. destruct (Nat.eqb_spec m n) as [->|]; auto. intros H. injection H as <-. right. now left.
Qed.

(* ---- expressions *)
Definition sem (st st' : lst) (code : list insn) (N : nat -> Prop) : Prop :=
  forall (Q : nat -> Prop) regs env, (forall m, N m -> Q m) -> agree st' regs env -> valid Q st regs env ->
  valid Q st' (runc regs code) env.

Lemma agree_run : forall st st' code N regs env, grows st st' code N -> agree st' regs env -> agree st' (runc regs code) env.
Proof.
  intros st st' code N regs env G A x k H. rewrite runc_frame; [apply A; auto|].
  intros Hk. destruct (G_tgt _ _ _ _ G k Hk) as [_ [H1 _]]. eapply H1; eauto.
Qed.
Lemma sem_trans : forall a b c c1 c2 N, grows a b c1 N -> grows b c c2 N -> sem a b c1 N -> sem b c c2 N -> sem a c (c1 ++ c2) N.
Proof.
  intros a b c c1 c2 N GA GB SA SB Q regs env HQ A Hv. rewrite runc_app. apply SB; auto.
  - intros x k H. rewrite runc_frame; [apply A; auto|]. intros Hk.
    destruct (G_tgt _ _ _ _ GA k Hk) as [H1 [H2 _]].
    destruct (E4 _ _ (G_ext _ _ _ _ GB) x k H) as [Hx|Hx]; [eapply H2; eauto|lia].
  - apply SA; auto. eapply agree_ext; [apply (G_ext _ _ _ _ GB)|auto].
Qed.
Lemma sem_nocode : forall st st' N, grows st st' [] N -> sem st st' [] N.
Proof.
  intros st st' N G Q regs env HQ A Hv m k Qm Hm H. cbn [runc].
  destruct (G_all _ _ _ _ G m k Hm H) as [H1|[]]. apply Hv; auto.
Qed.

Lemma lin_expr : forall f n st, wfs st -> expr n -> rank n < f ->
  exists r st' code, lin f n st = Some (r, st', code) /\ assoc n (memo st') = Some r /\
    grows st st' code (reach n) /\ pure code /\ sem st st' code (reach n).
Proof.
  induction f as [|f IH]; intros n st W X Hf; [lia|]. cbn [LinModel.lin].
  destruct (assoc n (memo st)) as [r|] eqn:M.
  { exists r, st, []. split; auto. split; auto. split; [now apply grows_refl|]. split; [intros i []|].
    apply sem_nocode. now apply grows_refl. }
  pose proof (expr_node n X) as Xn. unfold LinSpec.is_expr_node in Xn.
  destruct (nodes n) as [|v|g l| | |x k|c t e|t|o] eqn:En; try contradiction.
  - destruct (get_var n st) as [r st1] eqn:Eg. destruct (get_var_ok _ _ _ _ Eg W) as [H1 [H2 H3]].
    exists (RReg r). eexists. exists []. split; [reflexivity|].
    split; [cbn [LinModel.memoize LinModel.memo assoc]; now rewrite Nat.eqb_refl|].
    assert (G : grows st (memoize n (RReg r) st1) ([] ++ []) (reach n)).
    { eapply grows_trans; [eapply grows_weaken; [exact H3|intros m []]|].
      apply memoize_leaf.
      - apply (G_wf _ _ _ _ H3).
      - unfold LinSpec.is_op. rewrite En. auto.
      - rewrite H2. auto.
      - rewrite En. exists r. auto.
      - constructor. }
    split; [exact G|]. split; [intros i []|]. now apply sem_nocode.
  - exists (RCst v). eexists. exists []. split; [reflexivity|].
    split; [cbn [LinModel.memoize LinModel.memo assoc]; now rewrite Nat.eqb_refl|].
    assert (G : grows st (memoize n (RCst v) st) [] (reach n)).
    { apply memoize_leaf; auto.
      - unfold LinSpec.is_op. rewrite En. auto.
      - now rewrite En.
      - constructor. }
    split; [exact G|]. split; [intros i []|]. now apply sem_nocode.
  - assert (Hl : forall i, In i l -> In i (operands n)) by (intros i Hi; unfold LinSpec.operands; now rewrite En).
    assert (Args : forall l' st0, wfs st0 -> (forall i, In i l' -> In i l) ->
      exists os st1 code, lin_args V (lin f) l' st0 = Some (os, st1, code) /\
        grows st0 st1 code (fun m => exists i, In i l' /\ reach i m) /\ pure code /\ sem st0 st1 code (fun m => exists i, In i l' /\ reach i m) /\
        Forall2 (fun i o => exists r, assoc i (memo st1) = Some r /\ to_opnd r = Some o) l' os).
    { induction l' as [|i l' IHl]; intros st0 W0 Hin.
      - exists [], st0, []. split; auto. split; [now apply grows_refl|]. split; [intros i []|]. split; [|constructor].
        apply sem_nocode. now apply grows_refl.
      - assert (Hi : In i l) by (apply Hin; now left).
        destruct (IH i st0 W0) as [r [st1 [c1 [L1 [M1 [G1 [P1 S1]]]]]]].
        { eapply expr_in; eauto. }
        { assert (rank i < rank n) by (apply Hrank; auto). lia. }
        destruct (IHl st1 (G_wf _ _ _ _ G1)) as [os [st2 [c2 [L2 [G2 [P2 [S2 F2]]]]]]].
        { intros j Hj. apply Hin. now right. }
        cbn [lin_args]. rewrite L1.
        assert (Ho : exists o, to_opnd r = Some o).
        { pose proof (W3 _ (G_wf _ _ _ _ G1) i r M1) as H. assert (Xi : is_expr_node i) by (apply expr_node; eapply expr_in; eauto).
          unfold LinSpec.is_expr_node in Xi. destruct (nodes i); try contradiction.
          - destruct H as [k [-> _]]. cbn. eauto.
          - subst r. cbn. eauto.
          - destruct H as [k [-> _]]. cbn. eauto. }
        destruct Ho as [o Ho]. rewrite Ho, L2. exists (o :: os), st2, (c1 ++ c2).
        split; auto.
        assert (G1' : grows st0 st1 c1 (fun m => exists j, In j (i :: l') /\ reach j m)).
        { eapply grows_weaken; [exact G1|]. intros m Hm. exists i. split; auto. now left. }
        assert (G2' : grows st1 st2 c2 (fun m => exists j, In j (i :: l') /\ reach j m)).
        { eapply grows_weaken; [exact G2|]. intros m [j [J1 J2]]. exists j. split; auto. now right. }
        split; [eapply grows_trans; eauto|]. split; [now apply pure_app|]. split.
        + eapply sem_trans; eauto.
          * intros Q regs env HQ. apply S1. intros m Hm. apply HQ. exists i. split; auto. now left.
          * intros Q regs env HQ. apply S2. intros m [j [J1 J2]]. apply HQ. exists j. split; auto. now right.
        + constructor; auto. exists r. split; auto. apply (E2 _ _ (G_ext _ _ _ _ G2)). auto. }
    destruct (Args l st W) as [os [st1 [c [L [G [P [S F]]]]]]]; auto.
    rewrite L. exists (RReg (next st1)). eexists. eexists. split; [reflexivity|].
    split; [cbn [LinModel.memoize LinModel.memo assoc]; now rewrite Nat.eqb_refl|].
    assert (Hop : is_op n) by (unfold LinSpec.is_op; now rewrite En).
    assert (Mn : assoc n (memo st1) = None).
    { destruct (assoc n (memo st1)) eqn:E; auto. exfalso.
      destruct (G_new _ _ _ _ G n) as [H|[i [I1 I2]]]; [congruence|congruence|].
      assert (K : forall a b, reach a b -> rank b <= rank a).
      { intros a b Hab. induction Hab as [|a' b' Hab IHab Hb]; auto. pose proof (Hrank _ _ Hb). lia. }
      pose proof (K i n I2). pose proof (Hrank n i (Hl i I1)). lia. }
    assert (G' : grows st st1 c (reach n)).
    { eapply grows_weaken; [exact G|]. intros m [i [I1 I2]]. eapply reach_in; eauto. }
    pose proof (memoize_op n g os st1 (reach n) (G_wf _ _ _ _ G) Hop Mn (reach_refl _ n)) as G2.
    split; [eapply grows_trans; [exact G'|exact G2]|].
    split; [apply pure_app; auto; intros i [<-|[]]; eauto|].
    intros Q regs env HQ A Hv. rewrite runc_app. cbn [runc].
    set (regs1 := runc regs c).
    assert (A1 : agree st1 regs env) by (eapply agree_ext; [apply (G_ext _ _ _ _ G2)|auto]).
    assert (V1 : valid Q st1 regs1 env).
    { apply S; auto. intros m [i [I1 I2]]. apply HQ. eapply reach_in; eauto. }
    assert (A1' : agree st1 regs1 env) by (eapply agree_run; eauto).
    assert (Hargs : map (opval regs1) os = map (eval env) l).
    { assert (Hlq : forall i, In i l -> Q i /\ is_expr_node i).
      { intros i Hi. split; [apply HQ; eapply reach_in; [eauto|constructor]|apply expr_node; eapply expr_in; eauto]. }
      pose proof (G_wf _ _ _ _ G) as Wst1. clear - F Hlq V1 A1' Wst1.
      induction F as [|i o l os [r [F1 F2]] FF IHF]; cbn [map]; auto. f_equal.
      - destruct (Hlq i (or_introl eq_refl)) as [Q1 X1].
        destruct (memo_val Q st1 regs1 env i r Wst1 F1 X1 Q1 V1 A1') as [o' [O1 O2]]. congruence.
      - apply IHF. intros j Hj. apply Hlq. now right. }
    intros m k Qm Hm. cbn [LinModel.memoize LinModel.memo assoc]. destruct (Nat.eqb_spec m n) as [->|Hne].
    + intros H. injection H as <-. unfold set. rewrite Nat.eqb_refl. rewrite Hargs. symmetry. now apply eval_op.
    + intros H. pose proof (W3 _ (G_wf _ _ _ _ G) m _ H) as H3. unfold LinSpec.is_op in Hm. destruct (nodes m) eqn:Em; try contradiction.
      destruct H3 as [k' [Hk [Hlt _]]]. injection Hk as <-. unfold set. destruct (Nat.eqb_spec k (next st1)); [lia|].
      apply V1; auto. unfold LinSpec.is_op. now rewrite Em.
Qed.

(* ---- blocks *)
Definition match_out (stF : lst) (a b : @outcome V) : Prop :=
  match a, b with
  | Fall env, Fall regs => agree stF regs env
  | Jump l env, Jump l' regs => l = l' /\ agree stF regs env
  | Ret None env, Ret _ regs => agree stF regs env
  | Ret (Some n) env, Ret _ regs => agree stF regs env /\
      exists r o, assoc n (memo stF) = Some r /\ to_opnd r = Some o /\ opval regs o = eval env n
  | _, _ => False
  end.
Notation sexec := (sexec truth d0 nodes rank).
Notation mexec := (mexec truth).
Notation stmt_ok := (stmt_ok nodes).
Notation fresh_use := (fresh_use nodes).

Definition jump_stmt (s : nat) : Prop := match nodes s with MCBr _ _ _ | MBr _ | MRet _ => True | _ => False end.

(* one statement *)
Definition sem_stmt (s : nat) (st st' : lst) (code : list insn) : Prop :=
  forall stF regs env (Q : nat -> Prop), ext st' stF -> wfs stF -> agree stF regs env ->
  (forall m, reach s m -> Q m) -> valid Q st regs env ->
  (jump_stmt s -> forall rest c', match_out stF (sexec env (s :: rest)) (mexec regs (code ++ c'))) /\
  (~ jump_stmt s -> forall (Q' : nat -> Prop), (forall m, Q' m -> Q m) ->
     (forall x n, nodes s = MAssign x n -> forall m, is_op m -> assoc m (memo st') <> None -> Q' m -> ~ reach m x) ->
     forall rest c', exists regs' env', mexec regs (code ++ c') = mexec regs' c' /\
        sexec env (s :: rest) = sexec env' rest /\ agree stF regs' env' /\ valid Q' st' regs' env').

Definition tgt_ok (st' : lst) (code : list insn) : Prop :=
  forall i k, In i code -> target i = Some k -> (exists f l, i = IOp k f l) \/ exists x, nodes x = MVar /\ assoc x (vregs st') = Some k.
Lemma tgt_pure : forall st' c, pure c -> tgt_ok st' c.
Proof.
  intros st' c P i k Hi Ht. destruct (P i Hi) as [k' [f [l ->]]]. cbn in Ht. injection Ht as ->. left. eauto.
Qed.

Lemma not_expr_ne : forall s n, ~ is_expr_node s -> expr n -> ~ reach n s.
Proof. intros s n H X R. apply H. apply X. auto. Qed.

Lemma lin_stmt : forall f s st, wfs st -> stmt_ok s -> rank s < f ->
  (~ is_expr_node s -> assoc s (memo st) = None) ->
  exists r st' code, lin f s st = Some (r, st', code) /\ grows st st' code (reach s) /\ tgt_ok st' code /\ sem_stmt s st st' code.
Proof.
  intros f s st W OK Hf M.
  assert (Expr : expr s -> exists r st' code, lin f s st = Some (r, st', code) /\ grows st st' code (reach s) /\ tgt_ok st' code /\ sem_stmt s st st' code).
  { intros X. destruct (lin_expr f s st W X Hf) as [r [st' [code [L [M' [G [P S]]]]]]].
    exists r, st', code. split; auto. split; auto. split; [now apply tgt_pure|].
    intros stF regs env Q E WF A HQ Hv. pose proof (expr_node s X) as Xn. unfold LinSpec.is_expr_node in Xn. split.
    - unfold jump_stmt. intros J. destruct (nodes s); contradiction.
    - intros _ Q' HQ' _ rest c'. exists (runc regs code), env. split; [now apply mexec_pure|]. split.
      + cbn [LinSpec.sexec]. destruct (nodes s); auto; contradiction.
      + assert (A' : agree st' regs env) by (eapply agree_ext; eauto). split.
        * intros x k H. rewrite runc_frame; [apply A; auto|]. intros Hk.
          destruct (G_tgt _ _ _ _ G k Hk) as [H1 [H2 _]]. destruct (E4 _ _ E x k H) as [Hx|Hx]; [eapply H2; eauto|lia].
        * intros m k Qm. apply (S Q regs env HQ A' Hv). auto. }
  unfold LinSpec.stmt_ok in OK. destruct f as [|f]; [lia|].
  destruct (nodes s) as [|v|g l| | |x n|c t e|t|[n|]] eqn:En; auto.
  - (* assignment *)
    destruct OK as [Hx X].
    assert (Ns : ~ is_expr_node s) by (unfold LinSpec.is_expr_node; now rewrite En).
    specialize (M Ns). cbn [LinModel.lin]. rewrite M, En.
    destruct (get_var x st) as [vr st1] eqn:Eg. destruct (get_var_ok _ _ _ _ Eg W) as [V1 [V2 V3]].
    assert (Hon : In n (operands s)) by (unfold LinSpec.operands; rewrite En; now left).
    destruct (lin_expr f n st1 (G_wf _ _ _ _ V3) X) as [r [st2 [c [L [M2 [G [P S]]]]]]].
    { pose proof (Hrank s n Hon). lia. }
    rewrite L.
    assert (Ms : assoc s (memo st2) = None).
    { destruct (assoc s (memo st2)) eqn:E; auto. exfalso.
      destruct (G_new _ _ _ _ G s) as [H|H]; [congruence|rewrite V2 in H; congruence|].
      eapply not_expr_ne; eauto. }
    assert (Gm : grows st (memoize s (RReg vr) st2) c (reach s)).
    { replace c with ([] ++ (c ++ [])) by (cbn; apply app_nil_r).
      eapply grows_trans; [eapply grows_weaken; [exact V3|intros m []]|].
      eapply grows_trans; [eapply grows_weaken; [exact G|intros m Hm; eapply reach_in; eauto]|].
      apply memoize_stmt; auto; [apply (G_wf _ _ _ _ G)|constructor]. }
    assert (Ho : exists o, to_opnd r = Some o).
    { pose proof (W3 _ (G_wf _ _ _ _ G) n r M2) as H. pose proof (expr_node n X) as Xn. unfold LinSpec.is_expr_node in Xn.
      destruct (nodes n); try contradiction.
      - destruct H as [k [-> _]]. cbn. eauto.
      - subst r. cbn. eauto.
      - destruct H as [k [-> _]]. cbn. eauto. }
    destruct Ho as [o Ho].
    set (last := match r with RReg k => ICopy vr k | RCst v => IConst vr v | RNone => IRet end).
    assert (Vs : assoc x (vregs st2) = Some vr) by (apply (E3 _ _ (G_ext _ _ _ _ G)); auto).
    assert (Main : grows st (memoize s (RReg vr) st2) (c ++ [last]) (reach s) /\ tgt_ok (memoize s (RReg vr) st2) (c ++ [last]) /\ sem_stmt s st (memoize s (RReg vr) st2) (c ++ [last])).
    { assert (Ht : op_targets (c ++ [last]) = op_targets c).
      { rewrite op_targets_app. subst last. destruct r; cbn; apply app_nil_r. }
      split; [|split].
      - destruct Gm as [g1 g2 g3 g4 g5 g6]. constructor; auto; rewrite Ht; auto.
      - intros i k Hi Hk. apply in_app_iff in Hi. destruct Hi as [Hi|[<-|[]]].
        + apply (tgt_pure (memoize s (RReg vr) st2) c P i k Hi Hk).
        + right. exists x. split; auto. cbn [LinModel.memoize LinModel.vregs]. rewrite Vs. subst last.
          destruct r; cbn in Hk; congruence.
      - intros stF regs env Q E WF A HQ Hv. split; [unfold jump_stmt; rewrite En; intros []|]. intros _ Q' HQ' Hst rest c'.
        assert (E' : ext st2 stF).
        { eapply ext_trans; [|exact E]. apply (G_ext _ _ [] (fun _ => True)). apply memoize_stmt; auto. apply (G_wf _ _ _ _ G). }
        assert (A2 : agree st2 regs env) by (eapply agree_ext; eauto).
        assert (HQn : forall m, reach n m -> Q m) by (intros m Hm; apply HQ; eapply reach_in; eauto).
        assert (Hv1 : valid Q st1 regs env).
        { intros m k Qm Hm. rewrite V2. apply Hv; auto. }
        pose proof (S Q regs env HQn A2 Hv1) as Hv2.
        pose proof (agree_run _ _ _ _ _ _ G A2) as A2'.
        set (regs1 := runc regs c) in *.
        destruct (memo_val Q st2 regs1 env n r (G_wf _ _ _ _ G) M2 (expr_node n X) (HQn n (reach_refl _ n)) Hv2 A2') as [o' [O1 O2]].
        exists (set regs1 vr (eval env n)), (set env x (eval env n)).
        assert (Vx : assoc x (vregs stF) = Some vr) by (apply (E3 _ _ E'); auto).
        assert (AF : agree stF regs1 env).
        { intros y k H. unfold regs1. rewrite runc_frame; [apply A; auto|]. intros Hk.
          destruct (G_tgt _ _ _ _ G k Hk) as [H1 [H2 _]]. destruct (E4 _ _ E' y k H) as [Hy|Hy]; [eapply H2; eauto|lia]. }
        split; [|split; [|split]].
        + rewrite <- app_assoc, mexec_pure by auto. fold regs1. subst last.
          destruct r as [k|v|]; cbn [app LinSpec.mexec]; cbn in O1; try discriminate; injection O1 as <-; cbn [opval] in O2.
          * now rewrite O2.
          * now rewrite O2.
        + cbn [LinSpec.sexec]. now rewrite En.
        + intros y k H. unfold set. destruct (Nat.eqb_spec k vr) as [->|Hk].
          * rewrite (W2 _ WF y x vr H Vx). now rewrite Nat.eqb_refl.
          * destruct (Nat.eqb_spec y x) as [->|]; [congruence|]. apply AF; auto.
        + intros m k Qm Hm. cbn [LinModel.memoize LinModel.memo assoc]. destruct (Nat.eqb_spec m s) as [->|Hms].
          { exfalso. unfold LinSpec.is_op in Hm. rewrite En in Hm. auto. }
          intros H. pose proof (W3 _ (G_wf _ _ _ _ G) m _ H) as H3. pose proof Hm as Hm'. unfold LinSpec.is_op in Hm. destruct (nodes m) eqn:Em; try contradiction.
          destruct H3 as [k' [Hk [_ Hnv]]]. injection Hk as <-. unfold set at 1. destruct (Nat.eqb_spec k vr) as [->|]; [exfalso; eapply Hnv; eauto|].
          rewrite (Hv2 m k (HQ' m Qm) Hm' H). symmetry. apply eval_indep. apply (Hst x n En m Hm'); auto.
          cbn [LinModel.memoize LinModel.memo assoc]. destruct (m =? s); [discriminate|]. congruence. }
    destruct r as [k|v|]; cbn in Ho; try discriminate; subst last; (eexists; eexists; eexists; split; [reflexivity|]; exact Main).
  - (* conditional branch *)
    assert (Ns : ~ is_expr_node s) by (unfold LinSpec.is_expr_node; now rewrite En).
    specialize (M Ns). cbn [LinModel.lin]. rewrite M, En.
    assert (Hon : In c (operands s)) by (unfold LinSpec.operands; rewrite En; now left).
    destruct (lin_expr f c st W OK) as [r [st2 [c0 [L [M2 [G [P S]]]]]]].
    { pose proof (Hrank s c Hon). lia. }
    rewrite L.
    assert (Ms : assoc s (memo st2) = None).
    { destruct (assoc s (memo st2)) eqn:E; auto. exfalso.
      destruct (G_new _ _ _ _ G s) as [H|H]; [congruence|congruence|]. eapply not_expr_ne; eauto. }
    assert (Ho : exists o, to_opnd r = Some o).
    { pose proof (W3 _ (G_wf _ _ _ _ G) c r M2) as H. pose proof (expr_node c OK) as Xn. unfold LinSpec.is_expr_node in Xn.
      destruct (nodes c); try contradiction.
      - destruct H as [k [-> _]]. cbn. eauto.
      - subst r. cbn. eauto.
      - destruct H as [k [-> _]]. cbn. eauto. }
    destruct Ho as [o Ho]. rewrite Ho. eexists. eexists. eexists. split; [reflexivity|].
    assert (Ht : op_targets (c0 ++ [ICBr o t; IBr e]) = op_targets c0) by (rewrite op_targets_app; cbn; apply app_nil_r).
    split; [|split].
    + assert (Gm : grows st (memoize s RNone st2) c0 (reach s)).
      { replace c0 with (c0 ++ []) by apply app_nil_r.
        eapply grows_trans; [eapply grows_weaken; [exact G|intros m Hm; eapply reach_in; eauto]|].
        apply memoize_stmt; auto; [apply (G_wf _ _ _ _ G)|constructor]. }
      destruct Gm as [g1 g2 g3 g4 g5 g6]. constructor; auto; rewrite Ht; auto.
    + intros i k Hi Hk. apply in_app_iff in Hi. destruct Hi as [Hi|[<-|[<-|[]]]]; try discriminate.
      apply (tgt_pure (memoize s RNone st2) c0 P i k Hi Hk).
    + intros stF regs env Q E WF A HQ Hv. split; [|unfold jump_stmt; rewrite En; intros H; exfalso; apply H; exact I].
      intros _ rest c'.
      assert (E' : ext st2 stF).
      { eapply ext_trans; [|exact E]. apply (G_ext _ _ [] (fun _ => True)). apply memoize_stmt; auto. apply (G_wf _ _ _ _ G). }
      assert (A2 : agree st2 regs env) by (eapply agree_ext; eauto).
      assert (HQn : forall m, reach c m -> Q m) by (intros m Hm; apply HQ; eapply reach_in; eauto).
      pose proof (S Q regs env HQn A2 Hv) as Hv2. pose proof (agree_run _ _ _ _ _ _ G A2) as A2'.
      destruct (memo_val Q st2 _ env c r (G_wf _ _ _ _ G) M2 (expr_node c OK) (HQn c (reach_refl _ c)) Hv2 A2') as [o' [O1 O2]].
      assert (o' = o) by congruence. subst o'.
      assert (AF : agree stF (runc regs c0) env).
      { intros y k H. rewrite runc_frame; [apply A; auto|]. intros Hk.
        destruct (G_tgt _ _ _ _ G k Hk) as [H1 [H2 _]]. destruct (E4 _ _ E' y k H) as [Hy|Hy]; [eapply H2; eauto|lia]. }
      rewrite <- app_assoc, mexec_pure by auto. cbn [app LinSpec.mexec LinSpec.sexec]. rewrite En, O2.
      destruct (truth (eval env c)); cbn [match_out]; auto.
  - (* branch *)
    assert (Ns : ~ is_expr_node s) by (unfold LinSpec.is_expr_node; now rewrite En).
    specialize (M Ns). cbn [LinModel.lin]. rewrite M, En. eexists. eexists. eexists. split; [reflexivity|].
    split; [|split].
    + assert (Gm : grows st (memoize s RNone st) [] (reach s)) by (apply memoize_stmt; auto; constructor).
      destruct Gm as [g1 g2 g3 g4 g5 g6]. constructor; auto.
    + intros i k [<-|[]]. discriminate.
    + intros stF regs env Q E WF A HQ Hv. split; [|unfold jump_stmt; rewrite En; intros H; exfalso; apply H; exact I].
      intros _ rest c'. cbn [app LinSpec.mexec LinSpec.sexec]. rewrite En. cbn [match_out]. auto.
  - (* return a value *)
    assert (Ns : ~ is_expr_node s) by (unfold LinSpec.is_expr_node; now rewrite En).
    specialize (M Ns). cbn [LinModel.lin]. rewrite M, En.
    assert (Hon : In n (operands s)) by (unfold LinSpec.operands; rewrite En; now left).
    destruct (lin_expr f n st W OK) as [r [st2 [c0 [L [M2 [G [P S]]]]]]].
    { pose proof (Hrank s n Hon). lia. }
    rewrite L.
    assert (Ms : assoc s (memo st2) = None).
    { destruct (assoc s (memo st2)) eqn:E; auto. exfalso.
      destruct (G_new _ _ _ _ G s) as [H|H]; [congruence|congruence|]. eapply not_expr_ne; eauto. }
    eexists. eexists. eexists. split; [reflexivity|].
    assert (Ht : op_targets (c0 ++ [IRet]) = op_targets c0) by (rewrite op_targets_app; cbn; apply app_nil_r).
    split; [|split].
    + assert (Gm : grows st (memoize s RNone st2) c0 (reach s)).
      { replace c0 with (c0 ++ []) by apply app_nil_r.
        eapply grows_trans; [eapply grows_weaken; [exact G|intros m Hm; eapply reach_in; eauto]|].
        apply memoize_stmt; auto; [apply (G_wf _ _ _ _ G)|constructor]. }
      destruct Gm as [g1 g2 g3 g4 g5 g6]. constructor; auto; rewrite Ht; auto.
    + intros i k Hi Hk. apply in_app_iff in Hi. destruct Hi as [Hi|[<-|[]]]; try discriminate.
      apply (tgt_pure (memoize s RNone st2) c0 P i k Hi Hk).
    + intros stF regs env Q E WF A HQ Hv. split; [|unfold jump_stmt; rewrite En; intros H; exfalso; apply H; exact I].
      intros _ rest c'.
      assert (E' : ext st2 stF).
      { eapply ext_trans; [|exact E]. apply (G_ext _ _ [] (fun _ => True)). apply memoize_stmt; auto. apply (G_wf _ _ _ _ G). }
      assert (A2 : agree st2 regs env) by (eapply agree_ext; eauto).
      assert (HQn : forall m, reach n m -> Q m) by (intros m Hm; apply HQ; eapply reach_in; eauto).
      pose proof (S Q regs env HQn A2 Hv) as Hv2. pose proof (agree_run _ _ _ _ _ _ G A2) as A2'.
      destruct (memo_val Q st2 _ env n r (G_wf _ _ _ _ G) M2 (expr_node n OK) (HQn n (reach_refl _ n)) Hv2 A2') as [o' [O1 O2]].
      rewrite <- app_assoc, mexec_pure by auto. cbn [app LinSpec.mexec LinSpec.sexec]. rewrite En. cbn [match_out]. split.
      * intros y k H. rewrite runc_frame; [apply A; auto|]. intros Hk.
        destruct (G_tgt _ _ _ _ G k Hk) as [H1 [H2 _]]. destruct (E4 _ _ E' y k H) as [Hy|Hy]; [eapply H2; eauto|lia].
      * exists r, o'. split; auto. apply (E2 _ _ E'). auto.
  - (* return *)
    assert (Ns : ~ is_expr_node s) by (unfold LinSpec.is_expr_node; now rewrite En).
    specialize (M Ns). cbn [LinModel.lin]. rewrite M, En. eexists. eexists. eexists. split; [reflexivity|].
    split; [|split].
    + assert (Gm : grows st (memoize s RNone st) [] (reach s)) by (apply memoize_stmt; auto; constructor).
      destruct Gm as [g1 g2 g3 g4 g5 g6]. constructor; auto.
    + intros i k [<-|[]]. discriminate.
    + intros stF regs env Q E WF A HQ Hv. split; [|unfold jump_stmt; rewrite En; intros H; exfalso; apply H; exact I].
      intros _ rest c'. cbn [app LinSpec.mexec LinSpec.sexec]. rewrite En. cbn [match_out]. auto.
Qed.

Lemma jump_dec : forall s, jump_stmt s \/ ~ jump_stmt s.
Proof. intros s. unfold jump_stmt. destruct (nodes s); auto. Qed.
Lemma stmt_reach : forall s m, stmt_ok s -> reach s m -> m = s \/ is_expr_node m.
Proof.
  intros s m OK R. destruct (reach_inv _ _ R) as [->|[i [I1 I2]]]; auto. right.
  unfold LinSpec.stmt_ok in OK. unfold LinSpec.operands in I1.
  destruct (nodes s) as [|v|g l| | |x n|c t e|t|[n|]] eqn:En; try contradiction.
  - apply OK. auto.
  - destruct I1 as [<-|[]]. destruct OK as [_ OK]. apply OK. auto.
  - destruct I1 as [<-|[]]. apply OK. auto.
  - destruct I1 as [<-|[]]. apply OK. auto.
Qed.
Definition nonexpr (l : list nat) : list nat :=
  filter (fun s => match nodes s with MVar | MCst _ | MOp _ _ => false | _ => true end) l.
Lemma nonexpr_in : forall l s, In s (nonexpr l) <-> In s l /\ ~ is_expr_node s.
Proof.
  intros l s. unfold nonexpr. rewrite filter_In. unfold LinSpec.is_expr_node. split; intros [H1 H2]; split; auto; destruct (nodes s); auto; try discriminate; exfalso; auto.
Qed.

Lemma block_ok : forall f b done st, wfs st ->
  (forall s, In s b -> stmt_ok s /\ rank s < f) ->
  NoDup (nonexpr b) -> (forall s, In s (nonexpr b) -> assoc s (memo st) = None) ->
  exists st' code, lin_block V nodes f b st = Some (st', code) /\
   grows st st' code (reaches b) /\ tgt_ok st' code /\
   (fresh_use done b -> (forall m, is_op m -> reaches b m -> assoc m (memo st) <> None -> reaches done m) ->
    forall stF regs env, ext st' stF -> wfs stF -> agree stF regs env -> valid (reaches b) st regs env ->
    match_out stF (sexec env b) (mexec regs code)).
Proof.
  intros f b. induction b as [|s b IH]; intros done st W OK N M.
  - exists st, []. split; auto. split; [now apply grows_refl|]. split; [intros i k []|].
    intros _ _ stF regs env E WF A _. cbn. auto.
  - destruct (OK s (or_introl eq_refl)) as [OKs Rs].
    assert (Hs : ~ is_expr_node s -> assoc s (memo st) = None).
    { intros Ns. apply M. apply nonexpr_in. split; auto. now left. }
    destruct (lin_stmt f s st W OKs Rs Hs) as [r [st1 [c1 [L1 [G1 [T1 S1]]]]]].
    destruct (IH (done ++ [s]) st1 (G_wf _ _ _ _ G1)) as [st2 [c2 [L2 [G2 [T2 S2]]]]].
    { intros s' Hs'. apply OK. now right. }
    { unfold nonexpr in *. cbn [filter] in N. destruct (match nodes s with MVar | MCst _ | MOp _ _ => false | _ => true end); auto.
      now inversion N. }
    { intros s' Hs'. destruct (assoc s' (memo st1)) eqn:E; auto. exfalso.
      assert (Hin : In s' (nonexpr b)) by auto. apply nonexpr_in in Hin. destruct Hin as [Hin1 Hin2].
      destruct (G_new _ _ _ _ G1 s') as [H|H]; [congruence| |].
      - apply H. apply M. apply nonexpr_in. split; auto. now right.
      - destruct (stmt_reach s s' OKs H) as [->|]; [|contradiction].
        unfold nonexpr in N. cbn [filter] in N.
        assert (X : match nodes s with MVar | MCst _ | MOp _ _ => false | _ => true end = true).
        { unfold LinSpec.is_expr_node in Hin2. destruct (nodes s); auto; exfalso; auto. }
        rewrite X in N. inversion N as [|? ? N1 N2]. auto. }
    cbn [lin_block]. rewrite L1, L2. exists st2, (c1 ++ c2). split; auto.
    assert (G1' : grows st st1 c1 (reaches (s :: b))).
    { eapply grows_weaken; [exact G1|]. intros m Hm. exists s. split; auto. now left. }
    assert (G2' : grows st1 st2 c2 (reaches (s :: b))).
    { eapply grows_weaken; [exact G2|]. intros m [s' [H1 H2]]. exists s'. split; auto. now right. }
    split; [eapply grows_trans; eauto|]. split.
    { intros i k Hi Hk. apply in_app_iff in Hi. destruct Hi as [Hi|Hi].
      - destruct (T1 i k Hi Hk) as [H|[x [X1 X2]]]; auto. right. exists x. split; auto. apply (E3 _ _ (G_ext _ _ _ _ G2)). auto.
      - destruct (T2 i k Hi Hk) as [H|H]; auto. }
    intros FU Hdone stF regs env E WF A Hv. cbn [LinSpec.fresh_use] in FU. destruct FU as [FU1 FU2].
    assert (E1' : ext st1 stF) by (eapply ext_trans; [apply (G_ext _ _ _ _ G2)|auto]).
    assert (HQ : forall m, reach s m -> reaches (s :: b) m) by (intros m Hm; exists s; split; auto; now left).
    destruct (S1 stF regs env (reaches (s :: b)) E1' WF A HQ Hv) as [SJ SN].
    destruct (jump_dec s) as [J|J]; [apply SJ; auto|].
    assert (Hdone' : forall m, is_op m -> reaches b m -> assoc m (memo st1) <> None -> reaches (done ++ [s]) m).
    { intros m Hm Hr Hme. destruct (G_new _ _ _ _ G1 m Hme) as [H|H].
      - destruct (Hdone m Hm) as [s' [H1 H2]]; auto.
        + destruct Hr as [s' [H1 H2]]. exists s'. split; auto. now right.
        + exists s'. split; auto. apply in_app_iff. auto.
      - exists s. split; auto. apply in_app_iff. right. now left. }
    destruct (SN J (reaches b)) with (rest := b) (c' := c2) as [regs' [env' [R1 [R2 [R3 R4]]]]].
    + intros m [s' [H1 H2]]. exists s'. split; auto. now right.
    + intros x n Hn m Hm Hme Hr. apply (FU1 x n Hn m Hm); auto.
    + rewrite R1, R2. apply S2; auto.
Qed.

(* ---- programs *)
Notation well_formed := (well_formed nodes).
Lemma reach_concat : forall (p : list (nat * list nat)) l b m, In (l, b) p -> reaches b m -> reaches (concat (map snd p)) m.
Proof.
  intros p l b m H [s [H1 H2]]. exists s. split; auto. apply in_concat. exists b. split; auto.
  apply in_map_iff. exists (l, b). auto.
Qed.
Lemma nonexpr_app : forall a b, nonexpr (a ++ b) = nonexpr a ++ nonexpr b.
Proof. intros. apply filter_app. Qed.
Lemma nodup_app : forall (a b : list nat), NoDup (a ++ b) -> NoDup a /\ NoDup b /\ forall x, In x a -> ~ In x b.
Proof.
  induction a as [|x a IH]; intros b H; cbn [app] in H; [split; [constructor|split; auto]|].
  inversion H as [|? ? H1 H2]. destruct (IH b H2) as [A [B C]]. split; [|split; auto].
  - constructor; auto. intros Hx. apply H1. apply in_app_iff. auto.
  - intros y [<-|Hy]; auto. intros Hy. apply H1. apply in_app_iff. auto.
Qed.

Lemma prog_ok : forall f p st, wfs st ->
  (forall l b s, In (l, b) p -> In s b -> stmt_ok s /\ rank s < f) ->
  NoDup (nonexpr (concat (map snd p))) -> (forall s, In s (nonexpr (concat (map snd p))) -> assoc s (memo st) = None) ->
  exists st' q, lin_prog V nodes f p st = Some (st', q) /\
    grows st st' (concat (map snd q)) (reaches (concat (map snd p))) /\
    tgt_ok st' (concat (map snd q)) /\
    map fst q = map fst p /\
    ((forall l b, In (l, b) p -> fresh_use [] b) ->
     (forall i j l b l' b' m, nth_error p i = Some (l, b) -> nth_error p j = Some (l', b') -> i <> j ->
             is_op m -> reaches b m -> reaches b' m -> False) ->
     (forall l b m, In (l, b) p -> is_op m -> reaches b m -> assoc m (memo st) = None) ->
     forall stF, ext st' stF -> wfs stF ->
     forall i l b, nth_error p i = Some (l, b) -> exists code, nth_error q i = Some (l, code) /\
       forall regs env, agree stF regs env -> match_out stF (sexec env b) (mexec regs code)).
Proof.
  intros f p. induction p as [|[l b] p IH]; intros st W OK N M.
  - exists st, []. split; auto. split; [now apply grows_refl|]. split; [intros i k []|]. split; auto.
    intros _ _ _ stF E WF i l b H. destruct i; discriminate.
  - cbn [map snd concat] in N, M. rewrite nonexpr_app in N, M. destruct (nodup_app _ _ N) as [N1 [N2 N3]].
    destruct (block_ok f b [] st W) as [st1 [c1 [L1 [G1 [T1 S1]]]]].
    { intros s Hs. apply (OK l b); auto. now left. }
    { auto. }
    { intros s Hs. apply M. apply in_app_iff. auto. }
    destruct (IH st1 (G_wf _ _ _ _ G1)) as [st2 [q [L2 [G2 [T2 [F2 S2]]]]]].
    { intros l' b' s Hb Hs. apply (OK l' b'); auto. now right. }
    { auto. }
    { intros s Hs. destruct (assoc s (memo st1)) eqn:E; auto. exfalso.
      destruct (G_new _ _ _ _ G1 s) as [H|[s' [H1 H2]]]; [congruence| |].
      - apply H. apply M. apply in_app_iff. auto.
      - pose proof Hs as Hs'. apply nonexpr_in in Hs'. destruct Hs' as [Hs1 Hs2].
        assert (OKs : stmt_ok s') by (apply (OK l b); auto; now left).
        destruct (stmt_reach s' s OKs H2) as [->|]; [|contradiction].
        apply (N3 s'); auto. apply nonexpr_in. auto. }
    cbn [lin_prog]. rewrite L1, L2. exists st2, ((l, c1) :: q). split; auto. cbn [map snd concat fst].
    assert (G1' : grows st st1 c1 (reaches (b ++ concat (map snd p)))).
    { eapply grows_weaken; [exact G1|]. intros m [s [H1 H2]]. exists s. split; auto. apply in_app_iff. auto. }
    assert (G2' : grows st1 st2 (concat (map snd q)) (reaches (b ++ concat (map snd p)))).
    { eapply grows_weaken; [exact G2|]. intros m [s [H1 H2]]. exists s. split; auto. apply in_app_iff. auto. }
    split; [eapply grows_trans; eauto|]. split.
    { intros i k Hi Hk. apply in_app_iff in Hi. destruct Hi as [Hi|Hi].
      - destruct (T1 i k Hi Hk) as [H|[x [X1 X2]]]; auto. right. exists x. split; auto. apply (E3 _ _ (G_ext _ _ _ _ G2)). auto.
      - destruct (T2 i k Hi Hk) as [H|H]; auto. }
    split; [now rewrite F2|].
    intros FU LOC NEW stF E WF i l' b' Hi. destruct i as [|i].
    + cbn in Hi. injection Hi as <- <-. exists c1. split; auto. intros regs env A.
      apply S1; auto.
      * apply (FU l b). now left.
      * intros m Hm Hr Hme. exfalso. apply Hme. apply (NEW l b); auto. now left.
      * eapply ext_trans; [apply (G_ext _ _ _ _ G2)|auto].
      * intros m k Qm Hm H. exfalso. rewrite (NEW l b m) in H; auto; [discriminate|now left].
    + cbn [nth_error] in Hi |- *. apply (S2) with (stF := stF) in Hi; auto.
      * intros l0 b0 H0. apply (FU l0 b0). now right.
      * intros i' j' l0 b0 l1 b1 m H0 H1 Hne. apply (LOC (Datatypes.S i') (Datatypes.S j') l0 b0 l1 b1 m); auto.
      * intros l0 b0 m H0 Hm Hr. destruct (assoc m (memo st1)) eqn:Em; auto. exfalso.
        destruct (G_new _ _ _ _ G1 m) as [H|H]; [congruence| |].
        -- apply H. apply (NEW l0 b0); auto. now right.
        -- destruct (In_nth_error _ _ H0) as [j Hj]. apply (LOC 0 (Datatypes.S j) l b l0 b0 m); auto.
Qed.

Lemma wfs0 : wfs (ls0 V).
Proof. constructor; intros; discriminate. Qed.
End P.
