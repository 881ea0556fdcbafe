(* Fusion of multiplications and additions: what it keeps, what it does, and what is wrong.
   Everything is about metalibm_core/opt/p_function_std.py:137-247. *)
From Coq Require Import List Arith Bool ZArith QArith Lia.
From Verif Require Import QUtil RoundSpec RoundRne FmaModel FmaSpec FmaProofs.
Import ListNotations.
Open Scope nat_scope.

Lemma start_good : forall V sem h rk, ranked h rk -> wf_heap h -> formats_ok V sem h -> good V sem (mkS h []) rk.
Proof. intros V sem h rk R W U. split; [split; [exact R|split; [exact W|exact U]]|]. intros i r H. discriminate H. Qed.

(* the pass ends on any graph without cycles, and nothing is left to fuse;
   the objects which were there are kept, and their attributes *)
Theorem fusion_ends : forall silence dot h rk root fuel, ranked h rk -> wf_heap h -> root < length h -> rk root < fuel ->
  exists h' r, fuse_multiply_add silence dot fuel h root = Some (h', r) /\ clean h' r /\ (exists rk', ranked h' rk') /\
  (forall k nd, nth_error h k = Some nd -> exists nd', nth_error h' k = Some nd' /\ n_kind nd' = n_kind nd /\ n_attr nd' = n_attr nd /\ length (n_inputs nd') = length (n_inputs nd)).
Proof.
  intros silence dot h rk root fuel R W L F. set (sem := fun (_ : kind) (_ : option nat) (_ _ : list unit) => tt).
  assert (SEM : fused_exact unit sem) by (unfold fused_exact; repeat split).
  assert (U : formats_ok unit sem h) by (right; reflexivity).
  destruct (fuse_ok unit sem silence dot SEM fuel (mkS h []) rk root (start_good _ _ _ _ R W U) L F) as (st' & r & rk' & E & G & X & RS).
  exists (hp st'), r. split; [unfold fuse_multiply_add; rewrite E; reflexivity|]. destruct RS as (_ & _ & _ & _ & C). split; [exact C|].
  split; [exists rk'; apply (proj1 (proj1 G))|]. intros k nd N. destruct (ext_node _ _ _ _ _ _ _ X k nd N) as (nd' & A & B & D & _ & E'). exists nd'. repeat split; assumption.
Qed.

(* when a fused operation is its multiplication followed by its addition, the result has
   the value of the graph, and so has every other object *)
Theorem fusion_keeps_values : forall V sem silence dot h rk root fuel h' r, fused_exact V sem -> ranked h rk -> wf_heap h ->
  uniform h \/ (forall f g l w, sem KMul f l w = sem KMul g l w) -> root < length h -> rk root < fuel ->
  fuse_multiply_add silence dot fuel h root = Some (h', r) ->
  (forall v, ev V sem h root v <-> ev V sem h' r v) /\ (forall k v, ev V sem h k v -> ev V sem h' k v) /\ (exists v, ev V sem h root v).
Proof.
  intros V sem silence dot h rk root fuel h' r SEM R W U L F H.
  destruct (fuse_ok V sem silence dot SEM fuel (mkS h []) rk root (start_good _ _ _ _ R W U) L F) as (st' & r' & rk' & E & G & X & RS).
  unfold fuse_multiply_add in H. rewrite E in H. injection H as <- <-. destruct RS as (_ & _ & _ & VE & _).
  destruct (ev_total V sem h rk R root L) as [w Hw]. pose proof (ext_ev _ _ _ _ _ _ _ X) as EV. cbn [hp] in EV.
  split; [|split; [exact EV|exists w; exact Hw]]. intro v. split; intro Hv; [apply VE; apply EV; exact Hv|].
  replace v with w; [exact Hw|]. eapply ev_det; [|exact Hv]. apply VE. apply EV. exact Hw.
Qed.

(* an addition of multiplications becomes one fused operation, with the format, the tag and the
   debug of the addition, exact when all are; the interval is lost *)
Theorem fused_operation : forall silence dot fuel h root nd a b h' r,
  nth_error h root = Some nd -> is_addsub (n_kind nd) = true -> a_unbreakable (n_attr nd) = false -> n_inputs nd = [a; b] ->
  debug_mul h a = false -> debug_mul h b = false -> fusable_mul h a = true \/ fusable_mul h b = true ->
  fuse_multiply_add silence dot fuel h root = Some (h', r) ->
  exists new, nth_error h' r = Some new /\
    n_kind new = KFma (match n_kind nd, dot && fusable_mul h a && fusable_mul h b, fusable_mul h a with
                       | KSub, true, _ => DotProductNegate | _, true, _ => DotProduct
                       | KSub, false, true => Subtract | KSub, false, false => SubtractNegate
                       | _, false, _ => Standard end) /\
    length (n_inputs new) = (if dot && fusable_mul h a && fusable_mul h b then 4 else 3) /\
    a_fmt (n_attr new) = a_fmt (n_attr nd) /\ a_tag (n_attr new) = a_tag (n_attr nd) /\ a_debug (n_attr new) = a_debug (n_attr nd) /\
    a_prevent (n_attr new) = a_prevent (n_attr nd) /\ a_silent (n_attr new) = Some silence /\ a_interval (n_attr new) = None /\
    (a_exact (n_attr new) = true <-> a_exact (n_attr nd) = true /\
       (if dot && fusable_mul h a && fusable_mul h b then exact_of h a = true /\ exact_of h b = true
        else if fusable_mul h a then exact_of h a = true else exact_of h b = true)).
Proof.
  intros silence dot [|n] h root nd a b h' r N Ka Ub I D0 D1 FM H; [discriminate H|]. unfold fuse_multiply_add in H.
  destruct (fuse silence dot (S n) (mkS h []) root) as [[st' q]|] eqn:E; [|discriminate H]. injection H as <- <-.
  destruct (fuse_shape silence dot n (mkS h []) root nd a b st' q N Ka Ub I eq_refl D0 D1 FM E) as (l & c & LL & NN). cbn [hp] in *.
  eexists. split; [exact NN|]. cbn [n_kind n_inputs n_attr fused_attrs a_fmt a_tag a_debug a_prevent a_silent a_interval a_exact].
  split; [|split; [exact LL|]].
  - f_equal. unfold expected. destruct (n_kind nd); try discriminate Ka; cbn [is_sub]; destruct (dot && fusable_mul h a && fusable_mul h b); try reflexivity; destruct (fusable_mul h a); reflexivity.
  - do 6 (split; [reflexivity|]). unfold expected_exact. destruct (dot && fusable_mul h a && fusable_mul h b); [|destruct (fusable_mul h a)]; rewrite ?andb_true_iff; tauto.
Qed.

Ltac unbind H := repeat match type of H with
  | bind ?x _ = Some _ => let E := fresh "E" in destruct x eqn:E; cbn [bind] in H; [|discriminate H]
  end.

(* an addition of two operands is kept when it is unbreakable, when a multiplication it adds has a debug,
   or when its operands are not multiplications or multiplications marked prevent_optimization;
   it is replaced by another object otherwise *)
Theorem addition_kept : forall silence dot fuel h rk root nd a b na nb h' r, ranked h rk -> wf_heap h -> rk root < fuel ->
  nth_error h root = Some nd -> n_kind nd = KAdd \/ n_kind nd = KSub -> n_inputs nd = [a; b] -> nth_error h a = Some na -> nth_error h b = Some nb ->
  fuse_multiply_add silence dot fuel h root = Some (h', r) ->
  (r = root <-> a_unbreakable (n_attr nd) = true \/
     (n_kind na = KMul /\ a_debug (n_attr na) = true) \/ (n_kind nb = KMul /\ a_debug (n_attr nb) = true) \/
     ((n_kind na = KMul -> a_prevent (n_attr na) = true) /\ (n_kind nb = KMul -> a_prevent (n_attr nb) = true))).
Proof.
  intros silence dot fuel h rk root nd a b na nb h' r R W F N K I NA NB H.
  assert (L : root < length h) by (eapply nth_some; exact N).
  assert (Ka : is_addsub (n_kind nd) = true) by (destruct K as [K|K]; rewrite K; reflexivity).
  assert (DM : forall j x, nth_error h j = Some x -> (debug_mul h j = true <-> n_kind x = KMul /\ a_debug (n_attr x) = true)).
  { intros j x J. unfold debug_mul. rewrite J, andb_true_iff. destruct (n_kind x); cbn [is_mul]; intuition discriminate. }
  assert (FM : forall j x, nth_error h j = Some x -> (fusable_mul h j = false <-> (n_kind x = KMul -> a_prevent (n_attr x) = true))).
  { intros j x J. unfold fusable_mul. rewrite J, andb_false_iff, negb_false_iff. destruct (n_kind x); cbn [is_mul]; intuition discriminate. }
  rewrite <- (DM a na NA), <- (DM b nb NB), <- (FM a na NA), <- (FM b nb NB). clear DM FM NA NB.
  destruct (a_unbreakable (n_attr nd)) eqn:Ub; [|destruct (debug_mul h a) eqn:D0; [|destruct (debug_mul h b) eqn:D1]].
  - split; [now left|intros _]. unfold fuse_multiply_add in H. destruct fuel as [|n]; [discriminate H|]. cbn [fuse hp] in H. rewrite N in H. cbn [bind] in H.
    rewrite Ka, Ub in H. cbn [andb negb] in H. destruct K as [K|K]; rewrite K in H; unbind H;
    injection H as _ <-; repeat match goal with E : bind _ _ = Some _ |- _ => unbind E end;
    repeat match goal with E : Some _ = Some _ |- _ => injection E as <- end; reflexivity.
  - split; [now (right; left)|intros _]. unfold fuse_multiply_add in H. destruct fuel as [|n]; [discriminate H|]. cbn [fuse hp memo] in H. rewrite N in H. cbn [bind] in H.
    rewrite Ka, Ub, I, D0 in H. cbn [andb negb orb lookup] in H. unbind H. injection H as _ <-.
    repeat match goal with E : bind _ _ = Some _ |- _ => unbind E end;
    repeat match goal with E : Some _ = Some _ |- _ => injection E as <- end; reflexivity.
  - split; [now (right; right; left)|intros _]. unfold fuse_multiply_add in H. destruct fuel as [|n]; [discriminate H|]. cbn [fuse hp memo] in H. rewrite N in H. cbn [bind] in H.
    rewrite Ka, Ub, I, D0, D1 in H. cbn [andb negb orb lookup] in H. unbind H. injection H as _ <-.
    repeat match goal with E : bind _ _ = Some _ |- _ => unbind E end;
    repeat match goal with E : Some _ = Some _ |- _ => injection E as <- end; reflexivity.
  - destruct (fusable_mul h a || fusable_mul h b) eqn:FF.
    + apply orb_true_iff in FF. split; intro Q.
      * exfalso. subst r. destruct (fused_operation silence dot fuel h root nd a b h' root N Ka Ub I D0 D1 FF H) as (new & NW & KW & _).
        destruct (fusion_ends silence dot h rk root fuel R W L F) as (h1 & r1 & H1 & _ & _ & KP). rewrite H in H1. injection H1 as <- <-.
        destruct (KP root nd N) as (nd' & N' & K' & _). rewrite NW in N'. injection N' as <-. rewrite KW in K'. destruct K as [K|K]; rewrite K in K'; discriminate K'.
      * exfalso. destruct Q as [Q|[Q|[Q|[Q Q']]]]; try discriminate Q. destruct FF; congruence.
    + apply orb_false_iff in FF. split; [now (right; right; right)|intros _]. destruct FF as [F0 F1].
      unfold fuse_multiply_add in H. destruct fuel as [|n]; [discriminate H|]. cbn [fuse hp memo] in H. rewrite N in H. cbn [bind] in H.
      rewrite Ka, Ub, I, D0, D1, F0, F1 in H. rewrite andb_false_r in H. cbn [andb negb orb lookup] in H. unbind H. injection H as _ <-.
      repeat match goal with E : bind _ _ = Some _ |- _ => unbind E end;
      repeat match goal with E : Some _ = Some _ |- _ => injection E as <- end; reflexivity.
Qed.

(* an addition met again gives the object it gave, and nothing else is changed *)
Theorem addition_fused_once : forall silence dot n m h mem rk i nd a b st' r,
  ranked h rk -> wf_heap h -> (forall k q, lookup mem k <> Some q) -> i < length h -> rk i < S n ->
  nth_error h i = Some nd -> is_addsub (n_kind nd) = true -> a_unbreakable (n_attr nd) = false -> n_inputs nd = [a; b] ->
  fuse silence dot (S n) (mkS h mem) i = Some (st', r) -> fuse silence dot (S m) st' i = Some (st', r).
Proof.
  intros silence dot n m h mem rk i nd a b st' r R W M L F N Ka Ub I E.
  set (sem := fun (_ : kind) (_ : option nat) (_ _ : list unit) => tt).
  assert (SEM : fused_exact unit sem) by (unfold fused_exact; repeat split).
  assert (G : good unit sem (mkS h mem) rk).
  { split; [split; [exact R|split; [exact W|right; reflexivity]]|]. intros k q Hk. exfalso. exact (M k q Hk). }
  destruct (fuse_ok unit sem silence dot SEM (S n) (mkS h mem) rk i G L F) as (st1 & r1 & rk' & E1 & _ & X & _).
  rewrite E in E1. injection E1 as <- <-. destruct (ext_node _ _ _ _ _ _ _ X i nd N) as (nd' & N' & B & D & _ & LL).
  rewrite I in LL. destruct (n_inputs nd') as [|a' [|b' [|? ?]]] eqn:I'; try discriminate LL.
  eapply fuse_hit; [exact N'|rewrite B; exact Ka|rewrite D; exact Ub|exact I'|].
  eapply fuse_memo; [| | | |exact E]; eassumption.
Qed.

(* a second run of the pass does nothing *)
Theorem second_run : forall silence dot silence' dot' h rk root fuel h' r, ranked h rk -> wf_heap h -> root < length h -> rk root < fuel ->
  fuse_multiply_add silence dot fuel h root = Some (h', r) ->
  exists fuel', forall n, fuel' <= n -> fuse_multiply_add silence' dot' n h' r = Some (h', r).
Proof.
  intros silence dot silence' dot' h rk root fuel h' r R W L F H.
  destruct (fusion_ends silence dot h rk root fuel R W L F) as (h1 & r1 & H1 & C & [rk' R'] & _). rewrite H in H1. injection H1 as <- <-.
  exists (S (rk' r)). intros n Hn. unfold fuse_multiply_add.
  destruct (fuse_clean silence' dot' n (mkS h' []) r rk' R' C) as (st' & E & HH & _); [intros k q Hk; discriminate Hk|lia|]. rewrite E. cbn [bind fst snd]. now rewrite HH.
Qed.

(* ---- what is wrong ---- *)
Definition at0 (f : option nat) : attrs := mkA f false None false None false false None.
Definition leaf (k : nat) (f : option nat) : node := mkN (KLeaf k) (at0 f) [] [] false.
(* a * b + c, the product in format g, the sum in format f *)
Definition mad (f g : option nat) : heap :=
  [leaf 0 g; leaf 1 g; leaf 2 f; mkN KMul (at0 g) [0; 1] [] false; mkN KAdd (at0 f) [3; 2] [] false].

Lemma mad_ev : forall V sem f g, ev V sem (mad f g) 4
  (sem KAdd f [sem KMul g [sem (KLeaf 0) g [] []; sem (KLeaf 1) g [] []] []; sem (KLeaf 2) f [] []] []).
Proof.
  intros V sem f g. eapply (ev_intro V sem (mad f g) 4 (mkN KAdd (at0 f) [3; 2] [] false)); [reflexivity| |constructor].
  constructor; [|constructor; [|constructor]].
  - eapply (ev_intro V sem (mad f g) 3 (mkN KMul (at0 g) [0; 1] [] false)); [reflexivity| |constructor].
    constructor; [|constructor; [|constructor]]; [eapply (ev_intro V sem (mad f g) 0 (leaf 0 g))|eapply (ev_intro V sem (mad f g) 1 (leaf 1 g))]; try reflexivity; constructor.
  - eapply (ev_intro V sem (mad f g) 2 (leaf 2 f)); try reflexivity; constructor.
Qed.
Definition mad_fused (silence : bool) (f g : option nat) : heap :=
  mad f g ++ [mkN (KFma Standard) (fused_attrs silence false (at0 f)) [0; 1; 2] [] false].
Lemma mad_run : forall silence dot f g, fuse_multiply_add silence dot 4 (mad f g) 4 = Some (mad_fused silence f g, 5).
Proof. intros [] [] f g; reflexivity. Qed.
Lemma mad_fused_ev : forall V sem silence f g, ev V sem (mad_fused silence f g) 5
  (sem (KFma Standard) f [sem (KLeaf 0) g [] []; sem (KLeaf 1) g [] []; sem (KLeaf 2) f [] []] []).
Proof.
  intros V sem silence f g. eapply (ev_intro V sem (mad_fused silence f g) 5 (mkN (KFma Standard) (fused_attrs silence false (at0 f)) [0; 1; 2] [] false)); [reflexivity| |constructor].
  constructor; [|constructor; [|constructor; [|constructor]]];
    [eapply (ev_intro V sem (mad_fused silence f g) 0 (leaf 0 g))|eapply (ev_intro V sem (mad_fused silence f g) 1 (leaf 1 g))|eapply (ev_intro V sem (mad_fused silence f g) 2 (leaf 2 f))];
    try reflexivity; constructor.
Qed.

(* the format of the multiplication is not looked at: the product is computed in that of the
   addition, even when fused operations are made of the operations they replace *)
Theorem product_format_refuted : forall V sem silence dot f g, fused_exact V sem ->
  exists h' r, fuse_multiply_add silence dot 4 (mad f g) 4 = Some (h', r) /\
  (forall v, ev V sem (mad f g) 4 v <-> v = sem KAdd f [sem KMul g [sem (KLeaf 0) g [] []; sem (KLeaf 1) g [] []] []; sem (KLeaf 2) f [] []] []) /\
  (forall v, ev V sem h' r v <-> v = sem KAdd f [sem KMul f [sem (KLeaf 0) g [] []; sem (KLeaf 1) g [] []] []; sem (KLeaf 2) f [] []] []).
Proof.
  intros V sem silence dot f g SEM. exists (mad_fused silence f g), 5. split; [apply mad_run|]. split.
  - intro v. split; [intro H; eapply ev_det; [exact H|apply mad_ev]|intros ->; apply mad_ev].
  - destruct SEM as (S1 & _). intro v. rewrite <- S1. split; [intro H; eapply ev_det; [exact H|apply mad_fused_ev]|intros ->; apply mad_fused_ev].
Qed.
(* unsigned integers of 32 and 64 bits: 2^16 * 2^16 + 1 *)
Definition int_sem (k : kind) (f : option nat) (l _ : list Z) : Z :=
  (let w x := x mod 2 ^ Z.of_nat (match f with Some n => n | None => 0%nat end) in
  match k, l with
  | KLeaf 2, _ => 1
  | KLeaf _, _ => 65536
  | KMul, [a; b] => w (a * b)
  | KAdd, [a; b] => w (a + b)
  | KSub, [a; b] => w (a - b)
  | KFma Standard, [a; b; c] => w (w (a * b) + c)
  | KFma Subtract, [a; b; c] => w (w (a * b) - c)
  | KFma SubtractNegate, [a; b; c] => w (c - w (a * b))
  | KFma DotProduct, [a; b; c; d] => w (w (a * b) + w (c * d))
  | KFma DotProductNegate, [a; b; c; d] => w (w (a * b) - w (c * d))
  | _, _ => 0
  end)%Z.
Lemma int_sem_fused : fused_exact Z int_sem.
Proof. unfold fused_exact. repeat split. intros f a b. cbn [int_sem]. now rewrite Z.add_comm. Qed.
Theorem integer_product_refuted : exists h' r, fuse_multiply_add false true 4 (mad (Some 64) (Some 32)) 4 = Some (h', r) /\
  ev Z int_sem (mad (Some 64) (Some 32)) 4 1%Z /\ ev Z int_sem h' r 4294967297%Z.
Proof.
  destruct (product_format_refuted Z int_sem false true (Some 64) (Some 32) int_sem_fused) as (h' & r & E & A & B).
  exists h', r. split; [exact E|]. split; [apply A; vm_compute; reflexivity|apply B; vm_compute; reflexivity].
Qed.

(* fused operations rounding once: the value is another one, though nothing is said of it to the
   user of the pass.  binary32, a = b = 1 + 2^-12, c = -(1 + 2^-11) *)
Definition f32 : RoundSpec.fmt := {| prec := 24; emin := Some (-149)%Z |}.
Definition once_sem (k : kind) (f : option nat) (l _ : list Q) : Q :=
  (match k, l with
  | KLeaf 2, _ => - (2049 # 2048)
  | KLeaf _, _ => 4097 # 4096
  | KMul, [a; b] => rne f32 (a * b)
  | KAdd, [a; b] => rne f32 (a + b)
  | KFma Standard, [a; b; c] => rne f32 (a * b + c)
  | _, _ => 0
  end)%Q.
Theorem rounding_once_refuted : exists h' r v v', fuse_multiply_add false true 4 (mad (Some 32) (Some 32)) 4 = Some (h', r) /\
  ev Q once_sem (mad (Some 32) (Some 32)) 4 v /\ ev Q once_sem h' r v' /\ (v == 0)%Q /\ (v' == 1 # 16777216)%Q.
Proof.
  eexists. eexists. eexists. eexists. split; [apply mad_run|]. split; [apply mad_ev|]. split; [apply mad_fused_ev|]. split; vm_compute; reflexivity.
Qed.

(* prevent_optimization is asked to the multiplications only: an addition marked so is fused *)
Theorem prevented_addition_refuted : forall silence dot f, exists h' r new,
  fuse_multiply_add silence dot 4 [leaf 0 f; leaf 1 f; leaf 2 f; mkN KMul (at0 f) [0; 1] [] false;
    mkN KAdd (mkA f false None true None false false None) [3; 2] [] false] 4 = Some (h', r) /\
  nth_error h' r = Some new /\ n_kind new = KFma Standard.
Proof. intros [] [] f; eexists; eexists; eexists; (split; [reflexivity|]); split; reflexivity. Qed.

(* only the memoization of additions of two operands is looked at: each use of another operation is
   gone through again.  A chain of n operations of two equal operands takes 2^n visits of its leaf *)
Fixpoint chain (n : nat) : heap :=
  match n with O => [leaf 0 None] | S k => chain k ++ [mkN (KOp 0) (at0 None) [k; k] [] false] end.
Lemma chain_len : forall n, length (chain n) = S n.
Proof. induction n as [|n IH]; [reflexivity|]. cbn [chain]. rewrite app_length, IH. cbn. lia. Qed.
Lemma chain_nth : forall n k, k < n -> nth_error (chain n) (S k) = Some (mkN (KOp 0) (at0 None) [k; k] [] false).
Proof.
  induction n as [|n IH]; intros k H; [lia|]. cbn [chain]. destruct (Nat.eq_dec k n) as [->|N].
  - rewrite nth_error_app2 by (rewrite chain_len; lia). rewrite chain_len, Nat.sub_diag. reflexivity.
  - rewrite nth_error_app1 by (rewrite chain_len; lia). apply IH. lia.
Qed.
Lemma chain_0 : forall n, nth_error (chain n) 0 = Some (leaf 0 None).
Proof. induction n as [|n IH]; [reflexivity|]. cbn [chain]. rewrite nth_error_app1 by (rewrite chain_len; lia). exact IH. Qed.
(* each visit of a leaf adds an entry for it to the memoization *)
Fixpoint visits (i : nat) (m : list (nat * nat)) : nat :=
  match m with [] => 0 | (k, _) :: t => (if Nat.eqb k i then 1 else 0) + visits i t end.
Lemma chain_visits : forall silence dot n k st, hp st = chain n -> k <= n -> exists st',
  fuse silence dot (S k) st k = Some (st', k) /\ hp st' = chain n /\ visits 0 (memo st') = 2 ^ k + visits 0 (memo st).
Proof.
  intros silence dot n. induction k as [|k IH]; intros st H L.
  - exists (remember st 0 0). cbn [fuse]. rewrite H, chain_0. split; [reflexivity|]. split; [exact H|reflexivity].
  - destruct (IH st H) as (st1 & E1 & H1 & V1); [lia|]. destruct (IH st1 H1) as (st2 & E2 & H2 & V2); [lia|].
    pose proof (chain_nth n k) as N. specialize (N ltac:(lia)).
    exists (remember (mkS (chain n) (memo st2)) (S k) (S k)). split.
    + remember (S k) as f eqn:Q. rewrite Q at 2. cbn [fuse]. subst f. rewrite H, N. cbn [bind n_kind n_attr n_inputs n_extra is_addsub andb]. unfold inplace. rewrite H, N. cbn [bind n_inputs map_st].
      rewrite E1. cbn [bind fst snd]. rewrite E2. cbn [bind fst snd]. unfold set_inputs. rewrite H2, N.
      replace (with_inputs _ [k; k]) with (mkN (KOp 0) (at0 None) [k; k] [] false) by reflexivity. rewrite set_nth_id by exact N. reflexivity.
    + split; [reflexivity|]. cbn [memo remember visits Nat.eqb]. rewrite V2, V1. cbn [Nat.pow]. lia.
Qed.
Theorem linear_visits_refuted : forall silence dot n, exists st', fuse silence dot (S n) (mkS (chain n) []) n = Some (st', n) /\
  length (hp st') = S n /\ visits 0 (memo st') = 2 ^ n.
Proof.
  intros silence dot n. destruct (chain_visits silence dot n n (mkS (chain n) []) eq_refl (Nat.le_refl n)) as (st' & E & H & V).
  exists st'. split; [exact E|]. split; [rewrite H; apply chain_len|rewrite V; cbn [memo visits]; lia].
Qed.

(* ---- examples ---- *)
(* d = a*b; (d + c) - d*(d + c), with d and d + c shared *)
Definition shared : heap :=
  [leaf 0 None; leaf 1 None; leaf 2 None; mkN KMul (at0 None) [0; 1] [] false; mkN KAdd (at0 None) [3; 2] [] false;
   mkN KMul (at0 None) [3; 4] [] false; mkN KSub (at0 None) [4; 5] [] false].
Example shared_ranked : ranked shared (fun i => i) /\ wf_heap shared /\ uniform shared.
Proof.
  split; [|split].
  - intros i nd c N I. do 7 (destruct i as [|i]; [injection N as <-; cbn in I; repeat (destruct I as [<-|I]; [cbn; lia|]); destruct I|]). destruct i; discriminate N.
  - intros i nd N. do 7 (destruct i as [|i]; [injection N as <-; cbn; auto|]). destruct i; discriminate N.
  - intros i nd j mj N K I M KM.
    assert (A : forall i nd, nth_error shared i = Some nd -> a_fmt (n_attr nd) = None) by (clear; intros i nd N; do 7 (destruct i as [|i]; [injection N as <-; reflexivity|]); destruct i; discriminate N).
    rewrite (A _ _ N), (A _ _ M). reflexivity.
Qed.
Example shared_run : match fuse_multiply_add false true 7 shared 6 with
  | Some (h', r) => r = 8 /\ option_map n_inputs (nth_error h' 8) = Some [3; 7; 7] /\ option_map n_inputs (nth_error h' 7) = Some [0; 1; 2] /\
                    option_map n_kind (nth_error h' 8) = Some (KFma SubtractNegate)
  | None => False end.
Proof. vm_compute. repeat split. Qed.
(* a*b - c*d, with and without dot products *)
Definition twop : heap := [leaf 0 None; leaf 1 None; mkN KMul (at0 None) [0; 1] [] false; mkN KMul (at0 None) [1; 1] [] false; mkN KSub (at0 None) [2; 3] [] false].
Example dot_run : option_map (fun p => option_map (fun nd => (n_kind nd, n_inputs nd)) (nth_error (fst p) (snd p))) (fuse_multiply_add false true 5 twop 4) = Some (Some (KFma DotProductNegate, [0; 1; 1; 1])) /\
  option_map (fun p => option_map (fun nd => (n_kind nd, n_inputs nd)) (nth_error (fst p) (snd p))) (fuse_multiply_add false false 5 twop 4) = Some (Some (KFma Subtract, [0; 1; 3])).
Proof. vm_compute. split; reflexivity. Qed.
Example int_values : exists h' r, fuse_multiply_add false true 7 shared 6 = Some (h', r) /\ forall v, ev Z int_sem shared 6 v <-> ev Z int_sem h' r v.
Proof.
  destruct shared_ranked as (R & W & U). destruct (fusion_ends false true shared (fun i => i) 6 7 R W) as (h' & r & E & _); [cbn; lia|lia|]. exists h', r. split; [exact E|].
  apply (fusion_keeps_values Z int_sem false true shared (fun i => i) 6 7 h' r int_sem_fused R W); [left; exact U|cbn; lia|lia|exact E].
Qed.
(* a multiplication with a debug attribute is not fused *)
Example debug_kept : exists h', fuse_multiply_add false true 5
  [leaf 0 None; leaf 1 None; leaf 2 None; mkN KMul (mkA None true None false None false false None) [0; 1] [] false; mkN KAdd (at0 None) [3; 2] [] false] 4 = Some (h', 4) /\
  ~ fusable h' 4.
Proof.
  eexists. split; [vm_compute; reflexivity|]. intros (nd & a & b & N & _ & _ & I & D & _). injection N as <-. injection I as <- <-. discriminate D.
Qed.

(* a multiplication marked prevent_optimization is kept, and so is its addition *)
Example prevented_kept : forall f, exists h', fuse_multiply_add false true 5
  [leaf 0 f; leaf 1 f; leaf 2 f; mkN KMul (mkA f false None true None false false None) [0; 1] [] false; mkN KAdd (at0 f) [3; 2] [] false] 4 = Some (h', 4).
Proof. intro f. eexists. reflexivity. Qed.

Print Assumptions fusion_ends.
Print Assumptions fusion_keeps_values.
Print Assumptions fused_operation.
Print Assumptions addition_kept.
Print Assumptions addition_fused_once.
Print Assumptions second_run.
Print Assumptions product_format_refuted.
Print Assumptions integer_product_refuted.
Print Assumptions rounding_once_refuted.
Print Assumptions prevented_addition_refuted.
Print Assumptions linear_visits_refuted.
