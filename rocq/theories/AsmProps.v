(* Register allocation: what it keeps, and what is wrong. *)
From Coq Require Import List Arith Bool Lia.
From Verif Require Import AsmModel AsmSpec AsmProofs.
Import ListNotations.

Lemma translate_one : forall virt inputs outputs b l p, Forall straight l -> translate virt inputs outputs [(b, l ++ [Ret 0])] = Ok p ->
  exists is, p_insns p = is ++ [mkI [] [] false false] /\ ext (put_all (put_all [] (abi_map inputs)) (abi_map outputs)) (p_map p) /\ p_post p = abi_registers outputs /\
  Forall noreg l /\ Forall2 (same_insn (p_map p)) l is.
Proof.
  intros virt inputs outputs b l p S H. unfold translate in H. cbn [translate_blocks] in H. set (m := put_all _ _) in *.
  assert (A : forall l1 l2 t, translate_nodes virt b t (l1 ++ l2) = bind (translate_nodes virt b t l1) (fun t1 => translate_nodes virt b t1 l2)).
  { induction l1 as [|n q IH]; intros l2 t; [reflexivity|]. cbn [app translate_nodes]. destruct (translate_node virt b t n); [|reflexivity]. cbn [bind]. apply IH. }
  rewrite A in H. cbn [t_map t_done t_edges t_open t_insns] in H.
  destruct (translate_nodes virt b (mkT m [b] [] [] []) l) as [t1|] eqn:T; [|discriminate H]. cbn [bind translate_nodes translate_node] in H.
  destruct (nodes_ok virt b l _ _ S T) as (is & I & E & _ & _ & NR & F). cbn [emit t_done t_open t_edges t_insns t_map] in *.
  destruct (resolve (t_done t1) (t_open t1)) as [es|]; [|discriminate H]. cbn [bind] in H. injection H as <-. cbn [p_insns p_map p_post].
  exists is. rewrite I. split; [reflexivity|]. split; [exact E|]. split; [reflexivity|]. split; [exact NR|]. apply F, ext_refl.
Qed.

Lemma places : forall inputs outputs M, ext (put_all (put_all [] (abi_map inputs)) (abi_map outputs)) M -> NoDup inputs -> NoDup outputs ->
  (forall j r, nth_error outputs j = Some r -> find M r = Some [Phys j]) /\
  (forall k r, nth_error inputs k = Some r -> ~ In r outputs -> find M r = Some [Phys k]).
Proof.
  intros inputs outputs M E NI NO. split.
  - intros j r H. apply E. apply put_all_in; [rewrite abi_keys; exact NO|]. now apply abi_nth.
  - intros k r H N. apply E. rewrite put_all_notin by (rewrite abi_keys; exact N). apply put_all_in; [rewrite abi_keys; exact NI|]. now apply abi_nth.
Qed.

(* Code with no branch, of any operations and registers of any number of words, keeps its stores and its results
   once its registers are replaced by the physical ones, when asmde gives a valid coloring, when the registers
   read before being written are arguments which are not results, and when a register never shares a physical
   register with another one which is live when it is written.
   Argument k is in register k at the beginning, result k in register k at the end. *)
Theorem allocation_kept : forall virt W cst sem width color inputs outputs b l p pl rs ps log,
  sized W cst sem -> Forall straight l -> NoDup inputs -> NoDup outputs ->
  translate virt inputs outputs [(b, l ++ [Ret 0])] = Ok p ->
  valid color (p_insns p) (p_post p) -> fixed color -> (forall i, In (Phys i) (p_pre p) -> color (Phys i) = Some i) ->
  phys_nodes color (p_map p) l = Ok pl ->
  let fm := fun r => match find (p_map p) r with Some t => t | None => [] end in
  (forall r, NoDup (fm r)) -> (forall r, width r = length (fm r)) -> (forall r x, In r outputs -> In x (fm r) -> color x <> None) ->
  apart fm l outputs -> (forall r, live l outputs r -> In r inputs /\ ~ In r outputs) ->
  (forall k r, nth_error inputs k = Some r -> rs r = [ps k]) ->
  snd (run W cst sem width (rs, log) l) = snd (prun W cst sem (ps, log) pl) /\
  forall k r, nth_error outputs k = Some r -> fst (run W cst sem width (rs, log) l) r = [fst (prun W cst sem (ps, log) pl) k].
Proof.
  intros virt W cst sem width color inputs outputs b l p pl rs ps log SZ S NI NO T V FX PRE P fm ND WD CO AP LV IN.
  assert (PP : p_pre p = abi_registers inputs).
  { unfold translate in T. destruct (translate_blocks _ _ _) as [t|]; [|discriminate T]. cbn [bind] in T. destruct (resolve _ _) as [e|]; [|discriminate T]. cbn [bind] in T. injection T as <-. reflexivity. }
  destruct (translate_one virt inputs outputs b l p S T) as (is & I & E & PO & NR & F). destruct (places inputs outputs (p_map p) E NI NO) as [PL1 PL2].
  change fm with (get (p_map p)) in *. rewrite I in V. apply valid_ret in V; [|reflexivity|reflexivity]. rewrite PO in V.
  destruct (run_ok W cst sem width color (p_map p) SZ outputs (abi_registers outputs)) with (l := l) (is := is) (pl := pl) (rs := rs) (ps := ps) (lg := log) as [A B]; try assumption.
  - intros r x J X. destruct (In_nth_error _ _ J) as [k K]. unfold get in X. rewrite (PL1 k r K) in X. destruct X as [<-|[]]. unfold abi_registers. apply in_map, in_seq. split; [lia|]. cbn. apply nth_error_Some. congruence.
  - intros r L. destruct (LV r L) as [J N]. destruct (In_nth_error _ _ J) as [k K]. exists [k]. unfold get. rewrite (PL2 k r K N). cbn [colors].
    rewrite PRE; [|rewrite PP; unfold abi_registers; apply in_map, in_seq; split; [lia|]; cbn; apply nth_error_Some; congruence]. split; [reflexivity|]. cbn [map]. symmetry. now apply IN.
  - split; [exact A|]. intros k r K. destruct (B r (nth_error_In _ _ K)) as (ids & C & Q). unfold get in C. rewrite (PL1 k r K) in C. cbn [colors] in C.
    destruct (color (Phys k)) as [c|] eqn:CK; [|discriminate C]. cbn [bind] in C. injection C as <-. rewrite <- Q. cbn [map]. now rewrite (FX k c CK).
Qed.

(* ---- the graph of blocks ---- *)
Definition edge_of (b : nat) (n : node nat) (e : vertex * vertex) : Prop :=
  match n with
  | Ret _ => e = (Blk b, Sink)
  | Jump d => e = (Blk b, Blk d)
  | CJump _ ds => exists d, In d ds /\ e = (Blk b, Blk d)
  | _ => False
  end.
Definition edges (t : trans) (e : vertex * vertex) : Prop := In e (t_edges t) \/ exists d b, In (d, b) (t_open t) /\ e = (Blk b, Blk d).
Definition inside (t : trans) : Prop := forall x d, In (x, Blk d) (t_edges t) -> In d (t_done t).

Lemma mem_in : forall d l, mem d l = true <-> In d l.
Proof. intros d l. unfold mem. rewrite existsb_exists. split; [intros (x & I & E); apply Nat.eqb_eq in E; now subst|]. intro I. exists d. split; [exact I|apply Nat.eqb_refl]. Qed.
Lemma link_ok : forall b t d, inside t -> inside (link b t d) /\ t_done (link b t d) = t_done t /\ forall e, edges (link b t d) e <-> edges t e \/ e = (Blk b, Blk d).
Proof.
  intros b t d IN. unfold link. destruct (mem d (t_done t)) eqn:M; cbn [t_done t_edges t_open].
  - split; [|split; [reflexivity|]].
    + intros x d' I. cbn [t_edges t_done] in *. apply in_app_or in I. destruct I as [I|[I|[]]]; [now apply (IN x)|]. injection I as <- <-. now apply mem_in.
    + intro e. unfold edges. cbn [t_edges t_open]. rewrite in_app_iff. cbn [In]. intuition.
  - split; [exact IN|]. split; [reflexivity|]. intro e. unfold edges. cbn [t_edges t_open]. split.
    + intros [H|(d' & b' & I & E)]; [tauto|]. apply in_app_or in I. destruct I as [I|[I|[]]]; [left; right; eauto|]. injection I as <- <-. now right.
    + intros [[H|(d' & b' & I & E)]|E]; [tauto| |]; right; [exists d', b'; split; [apply in_or_app; now left|exact E]|exists d, b; split; [apply in_or_app; right; now left|exact E]].
Qed.
Lemma links_ok : forall b ds t, inside t -> inside (fold_left (link b) ds t) /\ t_done (fold_left (link b) ds t) = t_done t /\
  forall e, edges (fold_left (link b) ds t) e <-> edges t e \/ exists d, In d ds /\ e = (Blk b, Blk d).
Proof.
  induction ds as [|d q IH]; intros t IN; cbn [fold_left].
  - split; [exact IN|]. split; [reflexivity|]. intro e. split; [now left|]. intros [H|(d & [] & _)]; exact H.
  - destruct (link_ok b t d IN) as (I1 & D1 & E1). destruct (IH (link b t d) I1) as (I2 & D2 & E2). split; [exact I2|]. split; [congruence|].
    intro e. rewrite E2, E1. split.
    + intros [[H|H]|(d' & J & H)]; [now left|right; exists d; split; [now left|exact H]|right; exists d'; split; [now right|exact H]].
    + intros [H|(d' & [<-|J] & H)]; [tauto|left; now right|right; eauto].
Qed.
Lemma node_edges : forall virt b t n t', inside t -> translate_node virt b t n = Ok t' -> inside t' /\ t_done t' = t_done t /\ forall e, edges t' e <-> edges t e \/ edge_of b n e.
Proof.
  intros virt b t n t' IN H. assert (SAME : forall m i, inside (emit t m i) /\ t_done (emit t m i) = t_done t /\ forall e, edges (emit t m i) e <-> edges t e \/ False).
  { intros m i. split; [exact IN|]. split; [reflexivity|]. intro e. unfold edges. cbn [emit t_edges t_open]. tauto. }
  destruct n as [d v|l|k|d|c ds|]; cbn [translate_node] in H.
  - destruct (insn_from_node virt (t_map t) (Assign d v)) as [[m i]|]; [|discriminate H]. cbn [bind] in H. injection H as <-. apply SAME.
  - destruct (insn_from_node virt (t_map t) (Store l)) as [[m i]|]; [|discriminate H]. cbn [bind] in H. injection H as <-. apply SAME.
  - destruct k; [|discriminate H]. injection H as <-. split; [|split; [reflexivity|]].
    + intros x d I. cbn [emit t_edges t_done] in *. apply in_app_or in I. destruct I as [I|[I|[]]]; [now apply (IN x)|discriminate I].
    + intro e. unfold edges, edge_of. cbn [emit t_edges t_open]. rewrite in_app_iff. cbn [In]. intuition.
  - injection H as <-. destruct (link_ok b t d IN) as (I1 & D1 & E1). split; [exact I1|]. split; [exact D1|]. intro e. exact (E1 e).
  - destruct (links_ok b ds t IN) as (I1 & D1 & E1). destruct c as [r|c|]; try discriminate H. destruct (allocatable virt (t_map (fold_left (link b) ds t)) r) as [m u]. injection H as <-.
    split; [exact I1|]. split; [exact D1|]. intro e. exact (E1 e).
  - discriminate H.
Qed.
Lemma nodes_edges : forall virt b l t t', inside t -> translate_nodes virt b t l = Ok t' -> inside t' /\ t_done t' = t_done t /\ forall e, edges t' e <-> edges t e \/ exists n, In n l /\ edge_of b n e.
Proof.
  intros virt b. induction l as [|n q IH]; intros t t' IN H; cbn [translate_nodes] in H.
  - injection H as <-. split; [exact IN|]. split; [reflexivity|]. intro e. split; [now left|]. intros [H|(n & [] & _)]; exact H.
  - destruct (translate_node virt b t n) as [t1|] eqn:T; [|discriminate H]. cbn [bind] in H. destruct (node_edges _ _ _ _ _ IN T) as (I1 & D1 & E1). destruct (IH _ _ I1 H) as (I2 & D2 & E2).
    split; [exact I2|]. split; [congruence|]. intro e. rewrite E2, E1. split.
    + intros [[X|X]|(m & J & X)]; [now left|right; exists n; split; [now left|exact X]|right; exists m; split; [now right|exact X]].
    + intros [X|(m & [<-|J] & X)]; [tauto|tauto|right; eauto].
Qed.
Lemma blocks_edges : forall virt l t t', inside t -> translate_blocks virt t l = Ok t' -> inside t' /\ (forall b, In b (t_done t') <-> In b (t_done t) \/ In b (map fst l)) /\
  forall e, edges t' e <-> edges t e \/ exists b ns n, In (b, ns) l /\ In n ns /\ edge_of b n e.
Proof.
  intros virt. induction l as [|[b ns] q IH]; intros t t' IN H; cbn [translate_blocks] in H.
  - injection H as <-. split; [exact IN|]. split; [intro b; cbn; tauto|]. intro e. split; [now left|]. intros [H|(b & ns & n & [] & _)]; exact H.
  - destruct (translate_nodes virt b _ ns) as [t1|] eqn:T; [|discriminate H]. cbn [bind] in H.
    assert (I0 : inside (mkT (t_map t) (b :: t_done t) (t_edges t) (t_open t) (t_insns t))) by (intros x d J; right; exact (IN x d J)).
    destruct (nodes_edges _ _ _ _ _ I0 T) as (I1 & D1 & E1). cbn [t_done] in D1. destruct (IH _ _ I1 H) as (I2 & D2 & E2). split; [exact I2|]. split.
    + intro k. rewrite D2, D1. cbn [In map fst]. tauto.
    + intro e. rewrite E2, E1. unfold edges at 1. cbn [t_edges t_open]. fold (edges t e). split.
      * intros [[X|(n & J & X)]|(b' & ns' & n & J & K & X)]; [now left|right; exists b, ns, n; split; [now left|split; assumption]|right; exists b', ns', n; split; [now right|split; assumption]].
      * intros [X|(b' & ns' & n & [J|J] & K & X)]; [tauto| |right; exists b', ns', n; repeat split; assumption]. injection J as <- <-. left. right. eauto.
Qed.
Lemma resolve_ok : forall done l es, resolve done l = Ok es -> (forall d b, In (d, b) l -> In d done) /\ forall e, In e es <-> exists d b, In (d, b) l /\ e = (Blk b, Blk d).
Proof.
  intros done. induction l as [|[d b] q IH]; intros es H; cbn [resolve] in H.
  - injection H as <-. split; [intros d b []|]. intro e. split; [intros []|intros (d & b & [] & _)].
  - destruct (mem d done) eqn:M; [|discriminate H]. destruct (resolve done q) as [es'|] eqn:R; [|discriminate H]. cbn [bind] in H. injection H as <-. destruct (IH _ eq_refl) as [A B]. split.
    + intros d' b' [I|I]; [injection I as <- <-; now apply mem_in|now apply (A d' b')].
    + intro e. cbn [In]. rewrite B. split.
      * intros [X|(d' & b' & I & X)]; [exists d, b; split; [now left|now symmetry]|exists d', b'; split; [now right|exact X]].
      * intros (d' & b' & [I|I] & X); [injection I as <- <-; left; now symmetry|right; eauto].
Qed.

(* the edges given to asmde are those of the branches and returns, and one to the first block;
   a branch goes to a block of the program *)
Theorem edges_exact : forall virt inputs outputs bbs p, translate virt inputs outputs bbs = Ok p ->
  (forall e, In e (p_edges p) <-> (exists b ns q, bbs = (b, ns) :: q /\ e = (Src, Blk b)) \/ exists b ns n, In (b, ns) bbs /\ In n ns /\ edge_of b n e) /\
  forall x d, In (x, Blk d) (p_edges p) -> In d (map fst bbs).
Proof.
  intros virt inputs outputs bbs p H. unfold translate in H. destruct (translate_blocks virt _ bbs) as [t|] eqn:T; [|discriminate H]. cbn [bind] in H.
  destruct (resolve (t_done t) (t_open t)) as [es|] eqn:R; [|discriminate H]. cbn [bind] in H.
  assert (I0 : inside (mkT (put_all (put_all [] (abi_map inputs)) (abi_map outputs)) [] [] [] [])) by (intros x d []).
  destruct (blocks_edges virt bbs _ _ I0 T) as (IN & D & E). destruct (resolve_ok _ _ _ R) as [A B].
  destruct bbs as [|[b ns] q]; [discriminate H|]. injection H as <-. cbn [p_edges]. split.
  - intro e. rewrite !in_app_iff, B. cbn [In]. assert (Q : In e (t_edges t) \/ (exists d b, In (d, b) (t_open t) /\ e = (Blk b, Blk d)) <-> exists b' ns' n, In (b', ns') ((b, ns) :: q) /\ In n ns' /\ edge_of b' n e).
    { fold (edges t e). rewrite E. unfold edges. cbn [t_edges t_open In]. split; [|now right]. intros [[[]|(? & ? & [] & _)]|X]. exact X. }
    cbn [In] in Q. split.
    + intros [X|[X|[X|[]]]]; [right; apply Q; now left|right; apply Q; now right|left; exists b, ns, q; split; [reflexivity|now symmetry]].
    + intros [(b' & ns' & q' & X & Y)|X]; [injection X as <- <- <-; right; right; left; now symmetry|]. apply Q in X. tauto.
  - intros x d I. apply in_app_or in I. assert (DD : In d (t_done t) -> In d (map fst ((b, ns) :: q))) by (intro J; apply D in J; cbn [t_done In] in J; tauto).
    destruct I as [I|I]; [apply DD; now apply (IN x)|]. apply in_app_or in I. destruct I as [I|[I|[]]].
    + apply B in I. destruct I as (d' & b' & J & X). injection X as -> <-. apply DD. now apply (A d b').
    + injection I as _ <-. now left.
Qed.

(* ---- what is wrong ---- *)
(* a register assigned to another one has no inputs to be looked at: the translation stops, on any program with
   such a copy, while the transformation to physical registers has a case for it *)
Theorem register_copy_refuted : forall virt inputs outputs bbs b ns d r, In (b, ns) bbs -> In (Assign d (VReg r)) ns -> forall p, translate virt inputs outputs bbs <> Ok p.
Proof.
  intros virt inputs outputs bbs b ns d r I J p H. unfold translate in H. destruct (translate_blocks virt _ bbs) as [t|] eqn:T; [|discriminate H]. clear H.
  revert T. match goal with |- translate_blocks _ ?t0 _ = _ -> _ => generalize t0 end. revert t. induction bbs as [|[b' ns'] q IH]; intros t t0 T; [destruct I|]. cbn [translate_blocks] in T.
  destruct (translate_nodes virt b' _ ns') as [t1|] eqn:N; [|discriminate T]. cbn [bind] in T. destruct I as [I|I]; [|exact (IH I _ _ T)]. injection I as -> ->. clear -J N.
  revert N. match goal with |- translate_nodes _ _ ?t0 _ = _ -> _ => generalize t0 end. revert t1. induction ns as [|n q IH]; intros t1 t9 N; [destruct J|]. cbn [translate_nodes] in N.
  destruct J as [->|J].
  - cbn [translate_node insn_from_node] in N. destruct (allocatable virt (t_map t9) d). discriminate N.
  - destruct (translate_node virt b t9 n) as [t2|]; [|discriminate N]. exact (IH J _ _ N).
Qed.

Lemma blocks_ext : forall virt l t t', translate_blocks virt t l = Ok t' -> ext (t_map t) (t_map t').
Proof.
  intro virt. assert (N1 : forall b t n t', translate_node virt b t n = Ok t' -> ext (t_map t) (t_map t')).
    { intros b t n t' H. assert (LM : forall ds t, t_map (fold_left (link b) ds t) = t_map t) by (induction ds as [|d q IH]; intro t1; [reflexivity|]; cbn [fold_left]; rewrite IH; unfold link; destruct (mem d (t_done t1)); reflexivity).
      destruct n as [d v|l|i|d|c ds|]; cbn [translate_node] in H.
      - destruct (insn_from_node virt (t_map t) (Assign d v)) as [[m i]|] eqn:E; [|discriminate H]. injection H as <-. apply (insn_ok virt _ _ _ _ E).
      - destruct (insn_from_node virt (t_map t) (Store l)) as [[m i]|] eqn:E; [|discriminate H]. injection H as <-. apply (insn_ok virt _ _ _ _ E).
      - destruct i; [|discriminate H]. injection H as <-. apply ext_refl.
      - injection H as <-. cbn [emit t_map]. pose proof (LM [d] t) as X. cbn [fold_left] in X. rewrite X. apply ext_refl.
      - destruct c as [r|c|]; try discriminate H. destruct (allocatable virt (t_map (fold_left (link b) ds t)) r) as [m u] eqn:A. injection H as <-. cbn [emit t_map]. rewrite LM in A. apply (allocatable_ok virt _ _ _ _ A).
      - discriminate H. }
    induction l as [|[b ns] q IH]; intros t t' H; cbn [translate_blocks] in H; [injection H as <-; apply ext_refl|].
    destruct (translate_nodes virt b _ ns) as [t1|] eqn:N; [|discriminate H]. cbn [bind] in H. eapply ext_trans; [|exact (IH _ _ H)]. clear -N N1.
    change (t_map t) with (t_map (mkT (t_map t) (b :: t_done t) (t_edges t) (t_open t) (t_insns t))). revert N. match goal with |- translate_nodes _ _ ?t0 _ = _ -> _ => generalize t0 end. revert t1.
    induction ns as [|n q IH]; intros t1 t0 N; cbn [translate_nodes] in N; [injection N as <-; apply ext_refl|]. destruct (translate_node virt b t0 n) as [t2|] eqn:E; [|discriminate N]. cbn [bind] in N.
    eapply ext_trans; [exact (N1 _ _ _ _ E)|exact (IH _ _ N)].
Qed.

(* the map of results is written over the one of arguments: an argument which is result j is taken from register j,
   though argument k is in register k *)
Theorem argument_returned_refuted : forall virt inputs outputs bbs p k j r, NoDup outputs -> translate virt inputs outputs bbs = Ok p ->
  nth_error inputs k = Some r -> nth_error outputs j = Some r -> k <> j ->
  nth_error (p_pre p) k = Some (Phys k) /\ forall color, (forall i, color (Phys i) = Some i) -> physical color (p_map p) r = Ok [j].
Proof.
  intros virt inputs outputs bbs p k j r NO H K J _. unfold translate in H. destruct (translate_blocks virt _ bbs) as [t|] eqn:T; [|discriminate H]. cbn [bind] in H.
  pose proof (blocks_ext virt) as EX.
  specialize (EX _ _ _ T). cbn [t_map] in EX. destruct (resolve _ _) as [es|]; [|discriminate H]. cbn [bind] in H. destruct bbs as [|[b ns] q]; [discriminate H|]. injection H as <-. cbn [p_pre p_map]. split.
  - unfold abi_registers. rewrite nth_error_map. assert (L : k < length inputs) by (apply nth_error_Some; congruence). rewrite (nth_error_nth' _ 0) by (rewrite seq_length; exact L). cbn [option_map]. now rewrite seq_nth by exact L.
  - intros color C. unfold physical. rewrite (EX r [Phys j]); [cbn [colors]; now rewrite C|]. apply put_all_in; [rewrite abi_keys; exact NO|now apply abi_nth].
Qed.

(* the first argument and the first result are one register for asmde, which sees no conflict between them: after
   y = f(a), result of the function, g(y, a) is computed as g(f(a), f(a)).  Any coloring, valid or not, does so *)
Definition clash (f g : nat) : list (node nat) := [Assign 1 (VOp f [OReg 0]); Assign 2 (VOp g [OReg 1; OReg 0]); Store [OReg 2]].
Theorem argument_overwritten_refuted : forall W cst sem f g virt color rs ps, virt 2 = [Virt 2 0] -> (forall i, color (Phys i) = Some i) -> color (Virt 2 0) <> None ->
  sized W cst sem -> rs 0 = [ps 0] ->
  exists p pl, translate virt [0] [1] [(0, clash f g ++ [Ret 0])] = Ok p /\ phys_nodes color (p_map p) (clash f g) = Ok pl /\
  snd (run W cst sem (fun _ => 1) (rs, []) (clash f g)) = [[sem 1 g [sem 1 f [[ps 0]]; [ps 0]]]] /\
  snd (prun W cst sem (ps, []) pl) = [[sem 1 g [sem 1 f [[ps 0]]; sem 1 f [[ps 0]]]]].
Proof.
  intros W cst sem f g virt color rs ps V C CV [_ SZ] R. destruct (color (Virt 2 0)) as [c|] eqn:CC; [|congruence].
  eexists. eexists. split; [|split; [|split]].
  - unfold clash, translate. cbn -[Nat.eqb]. cbn. unfold allocatable. cbn. rewrite V. cbn. reflexivity.
  - cbn. unfold physical. cbn. rewrite !C, CC. cbn. reflexivity.
  - cbn. unfold upd. cbn. rewrite R. reflexivity.
  - cbn. pose proof (SZ 1 f [[ps 0]]) as L1. destruct (sem 1 f [[ps 0]]) as [|x [|y z]] eqn:S1; try discriminate L1. cbn.
    pose proof (SZ 1 g [[x]; [x]]) as L2. destruct (sem 1 g [[x]; [x]]) as [|u [|w z]] eqn:S2; try discriminate L2. cbn. now rewrite Nat.eqb_refl.
Qed.

(* each returned value is a result with a register of its own (p_machine_code_gen.py:52-72 gives one output for each):
   of two values returned by two branches of a function, the second one is not in register 0 *)
Theorem two_returns_refuted : forall virt inputs outputs bbs p j r, NoDup outputs -> translate virt inputs outputs bbs = Ok p -> nth_error outputs (S j) = Some r ->
  forall color, (forall i, color (Phys i) = Some i) -> physical color (p_map p) r = Ok [S j].
Proof.
  intros virt inputs outputs bbs p j r NO H J color C. unfold translate in H. destruct (translate_blocks virt _ bbs) as [t|] eqn:T; [|discriminate H]. cbn [bind] in H.
  pose proof (blocks_ext virt _ _ _ T) as EX. cbn [t_map] in EX. destruct (resolve _ _) as [es|]; [|discriminate H]. cbn [bind] in H. destruct bbs as [|[b ns] q]; [discriminate H|]. injection H as <-. cbn [p_map].
  unfold physical. rewrite (EX r [Phys (S j)]); [cbn [colors]; now rewrite C|]. apply put_all_in; [rewrite abi_keys; exact NO|now apply abi_nth].
Qed.

(* ---- examples ---- *)
Definition v1 (r : nat) : list areg := [Virt r 0].
(* t = f(a, b); u = g(t, 7); y = f(u, a); store u *)
Definition code : list (node nat) :=
  [Assign 2 (VOp 0 [OReg 0; OReg 1]); Assign 3 (VOp 1 [OReg 2; OCst 7]); Store [OReg 3; OReg 0]; Assign 4 (VOp 0 [OReg 3; OReg 0])].
Definition c1 (x : areg) : option nat := match x with Phys i => Some i | Virt _ _ => Some 1 end.
Definition cst0 (n c : nat) : list nat := repeat c n.
Definition sem0 (n op : nat) (l : list (list nat)) : list nat := repeat (op + fold_right plus 0 (concat l)) n.
Definition p0 : program := match translate v1 [0; 1] [4] [(0, code ++ [Ret 0])] with Ok p => p | Err _ => mkP [] [] [] [] [] end.
Definition pl0 := match phys_nodes c1 (p_map p0) code with Ok l => l | Err _ => [] end.
Example code_kept : forall rs ps log, rs 0 = [ps 0] -> rs 1 = [ps 1] ->
  snd (run nat cst0 sem0 (fun r => length (match find (p_map p0) r with Some t => t | None => [] end)) (rs, log) code) = snd (prun nat cst0 sem0 (ps, log) pl0) /\
  forall k r, nth_error [4] k = Some r -> fst (run nat cst0 sem0 (fun r => length (match find (p_map p0) r with Some t => t | None => [] end)) (rs, log) code) r = [fst (prun nat cst0 sem0 (ps, log) pl0) k].
Proof.
  intros rs ps log R0 R1. apply (allocation_kept v1 nat cst0 sem0 _ c1 [0; 1] [4] 0 code p0 pl0).
  - split; intros; apply repeat_length.
  - repeat constructor.
  - repeat constructor; cbn; intuition discriminate.
  - repeat constructor; cbn; intuition discriminate.
  - reflexivity.
  - cbn. repeat match goal with |- _ /\ _ => split end; intros; try exact I; intuition (subst; try discriminate; try congruence).
  - intros i c H. cbn in H. congruence.
  - intros i _. reflexivity.
  - reflexivity.
  - intro r. do 5 (destruct r as [|r]; [cbn; repeat constructor; cbn; intuition discriminate|]). cbn. constructor.
  - intro r. reflexivity.
  - intros r x [<-|[]] [<-|[]]. discriminate.
  - cbn. repeat match goal with |- _ /\ _ => split end; try exact I.
    + intros d r x [<-|[]] N L [<-|[]] X. destruct r as [|[|[|[|[|r]]]]]; cbn in X; try tauto; destruct X as [X|[]]; discriminate X.
    + intros d r x [<-|[]] N L [<-|[]] X. destruct r as [|[|[|[|[|r]]]]]; cbn in X; try tauto; destruct X as [X|[]]; discriminate X.
    + intros d r x [].
    + intros d r x [<-|[]] N [L|[]] X. congruence.
  - intros r H. cbn in H. cbn. intuition (subst; try lia; try congruence).
  - intros k r H. destruct k as [|[|k]]; cbn in H; try (injection H as <-; assumption). destruct k; discriminate H.
Qed.
Example code_run : forall ps log, snd (prun nat cst0 sem0 (ps, log) pl0) = log ++ [[[1 + (ps 0 + (ps 1 + 0) + (7 + 0))]; [ps 0]]].
Proof. intros ps log. cbn. do 4 f_equal. Qed.
(* asmde finds nothing wrong with the clash of the first argument and the first result *)
Example clash_valid : exists p, translate v1 [0] [1] [(0, clash 0 1 ++ [Ret 0])] = Ok p /\ valid c1 (p_insns p) (p_post p).
Proof. eexists. split; [reflexivity|]. cbn. intuition (subst; try discriminate; try congruence). Qed.
(* a loop, and a block used before it comes *)
Example loop_edges : exists p, translate v1 [0] [] [(5, [CJump (OReg 0) [6; 5]]); (6, [Ret 0])] = Ok p /\
  p_edges p = [(Blk 5, Blk 5); (Blk 6, Sink); (Blk 5, Blk 6); (Src, Blk 5)].
Proof. eexists. split; reflexivity. Qed.
Example missing_block : translate v1 [0] [] [(5, [Jump 6])] = Err LogError.
Proof. reflexivity. Qed.
(* (a, b) => b gives a *)
Example second_argument : exists p, translate v1 [0; 1] [1] [(0, [Ret 0])] = Ok p /\ physical c1 (p_map p) 1 = Ok [0].
Proof. eexists. split; reflexivity. Qed.
Example two_values : exists p, translate v1 [0] [1; 2] [(0, [CJump (OReg 0) [1; 2]]); (1, [Assign 1 (VOp 0 [OReg 0]); Ret 0]); (2, [Assign 2 (VOp 1 [OReg 0]); Ret 0])] = Ok p /\
  physical c1 (p_map p) 1 = Ok [0] /\ physical c1 (p_map p) 2 = Ok [1].
Proof. eexists. split; [vm_compute; reflexivity|]. split; vm_compute; reflexivity. Qed.

Print Assumptions allocation_kept.
Print Assumptions edges_exact.
Print Assumptions register_copy_refuted.
Print Assumptions argument_returned_refuted.
Print Assumptions argument_overwritten_refuted.
Print Assumptions two_returns_refuted.
