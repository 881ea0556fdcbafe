(* Properties of the generated pipelines (C43). *)
From Coq Require Import List Arith Bool Lia.
From Verif Require Import DomModel DomProofs PipeModel PipeSpec PipeProofs.
Import ListNotations.

Definition reach_any {V} (nodes : nat -> node V) (roots : list nat) (n : nat) : Prop :=
  exists r, In r roots /\ reach nodes r n.
Definition acyclic_by {V} (nodes : nat -> node V) (rank : nat -> nat) : Prop :=
  forall n i, In i (operands nodes n) -> rank i < rank n.
(* a design: no cycle, delays that fit, outputs that are not themselves delays *)
Record design {V} (nodes : nat -> node V) (stage rank : nat -> nat) (roots : list nat) (fuel : nat) : Prop := {
  d_rank : acyclic_by nodes rank;
  d_delay : delays_fit nodes stage;
  d_roots : forall r, In r roots -> ~ is_delay nodes r;
  d_fuel : forall r, In r roots -> rank r < fuel
}.

Section Facts.
Context {V : Type}.
Variable nodes : nat -> node V.
Variable stage rank : nat -> nat.
Variable roots : list nat.
Variable fuel : nat.
Hypothesis D : design nodes stage rank roots fuel.
Notation R := (reach_any nodes roots).
Notation inv := (inv nodes stage R).

Lemma R_closed : forall n i, R n -> In i (operands nodes n) -> R i.
Proof. intros n i [r [H1 H2]] Hi. exists r. split; auto. eapply reach_step; eauto. Qed.

Lemma run_ok :
  (exists mx m, retime_all V nodes stage fuel roots rm0 = Some m /\ inv mx m /\ forall r, In r roots -> In r (proc m)) \/
  (retime_all V nodes stage fuel roots rm0 = None /\ exists c, R c /\ ~ causal nodes stage c).
Proof.
  destruct (retime_all_ok nodes stage R R_closed rank (d_rank _ _ _ _ _ D) (d_delay _ _ _ _ _ D) fuel roots stage rm0)
    as [[mx [m [E [Hi [_ P]]]]]|H].
  - intros n Hn. split; [|apply (d_fuel _ _ _ _ _ D); auto]. exists n. split; auto. constructor.
  - apply inv0.
  - left. exists mx, m. auto.
  - right. auto.
Qed.

Lemma proc_reach : forall mx m, inv mx m -> (forall r, In r roots -> In r (proc m)) ->
  forall n, R n -> In n (proc m).
Proof.
  intros mx m Hi Hr n [r [Hin Hn]].
  assert (H : In n (proc m) /\ (is_delay nodes n -> exists c, In c (proc m) /\ In n (op_ins nodes c))).
  { induction Hn as [|n i Hn [IH1 IH2] Hop].
    - split; auto. intros Hd. exfalso. apply (d_roots _ _ _ _ _ D r); auto.
    - unfold operands in Hop. destruct (nodes n) as [|c|c l|f l|rl d x] eqn:En; try contradiction.
      + assert (Ho : In i (op_ins nodes n)) by (unfold op_ins; now rewrite En).
        split; [apply (I6 _ _ _ _ _ Hi n); auto|]. intros _. exists n. auto.
      + assert (Ho : In i (op_ins nodes n)) by (unfold op_ins; now rewrite En).
        split; [apply (I6 _ _ _ _ _ Hi n); auto|]. intros _. exists n. auto.
      + destruct Hop as [<-|[]]. destruct IH2 as [c [C1 C2]]; [exists rl, d, x; auto|].
        destruct (d_delay _ _ _ _ _ D c n rl d x C2 En) as [_ [_ Hx]].
        split; [|intros Hd; contradiction].
        apply (I4 _ _ _ _ _ Hi c x C1). right. exists n, rl, d. auto. }
  apply H.
Qed.
End Facts.

Section Pipeline.
Context {V : Type}.

(* A pipeline is generated exactly for the graphs where no operation reads a value
   of a later stage; the recursion always ends. *)
Theorem pipeline_accepted : forall (nodes : nat -> node V) stage rank roots fuel,
  design nodes stage rank roots fuel ->
  (exists m, retime_all V nodes stage fuel roots rm0 = Some m) <->
  (forall c, reach_any nodes roots c -> causal nodes stage c).
Proof.
  intros nodes stage rank roots fuel D. destruct (run_ok nodes stage rank roots fuel D) as [[mx [m [E [Hi P]]]]|[E [c [C1 C2]]]].
  - split; [|eauto]. intros _ c Hc. apply (I3' _ _ _ _ _ Hi). eapply proc_reach; eauto.
  - split; [intros [m Em]; congruence|]. intros H. exfalso. auto.
Qed.

(* What an operation reads: the source itself or its register, delayed by exactly the
   difference of the stages. *)
Definition source (nodes : nat -> node V) (i : nat) : nat := match nodes i with NDelay _ _ x => x | _ => i end.
Definition static (nodes : nat -> node V) (i : nat) : Prop := match nodes i with NCst _ | NPos _ _ => True | _ => False end.
Theorem operands_delayed : forall (nodes : nat -> node V) stage rank roots fuel m,
  design nodes stage rank roots fuel -> retime_all V nodes stage fuel roots rm0 = Some m ->
  forall xin v, behaviour nodes (fwd m) (ins_of m) (proc m) xin v ->
  forall c, reach_any nodes roots c ->
  Forall2 (fun i g => if match nodes i with NCst _ | NPos _ _ => true | _ => false end then g = SOrig i
                      else stage (source nodes i) <= stage c /\
                           forall t, v (t + (stage c - stage (source nodes i))) g = v t (SOrig (source nodes i)))
    (op_ins nodes c) (ins_of m c).
Proof.
  intros nodes stage rank roots fuel m D E xin v Hb c Hc.
  destruct (run_ok nodes stage rank roots fuel D) as [[mx [m' [E' [Hi P]]]]|[E' _]]; [|congruence].
  rewrite E in E'. injection E' as <-.
  assert (Hcp : In c (proc m)) by (eapply proc_reach; eauto).
  rewrite (I3 _ _ _ _ _ Hi c Hcp).
  assert (Hall : forall i, In i (op_ins nodes c) ->
    if match nodes i with NCst _ | NPos _ _ => true | _ => false end then want nodes stage (stage c) i = SOrig i
    else stage (source nodes i) <= stage c /\
         forall t, v (t + (stage c - stage (source nodes i))) (want nodes stage (stage c) i) = v t (SOrig (source nodes i))).
  { intros i Hin. assert (Hip : In i (proc m)) by (apply (I6 _ _ _ _ _ Hi c); auto).
    unfold source, want. destruct (nodes i) as [|k|k l|f l|rl d x] eqn:Ei; auto.
    - assert (Ht : timed nodes i) by (unfold timed; rewrite Ei; exact I).
      assert (Hs : stage i <= stage c) by (apply (I3' _ _ _ _ _ Hi c Hcp i); auto).
      split; auto. intros t. destruct (I4 _ _ _ _ _ Hi c i Hcp) as [_ Hm]; [left; auto|].
      rewrite <- (reg_delay nodes stage _ mx m xin v Hi Hb i (stage c - stage i) t) by (auto; lia).
      do 2 f_equal. lia.
    - assert (Ht : timed nodes i) by (unfold timed; rewrite Ei; exact I).
      assert (Hs : stage i <= stage c) by (apply (I3' _ _ _ _ _ Hi c Hcp i); auto).
      split; auto. intros t. destruct (I4 _ _ _ _ _ Hi c i Hcp) as [_ Hm]; [left; auto|].
      rewrite <- (reg_delay nodes stage _ mx m xin v Hi Hb i (stage c - stage i) t) by (auto; lia).
      do 2 f_equal. lia.
    - destruct (d_delay _ _ _ _ _ D c i rl d x Hin Ei) as [_ [Hs _]].
      split; auto. intros t. destruct (I4 _ _ _ _ _ Hi c x Hcp) as [Hx Hm]; [right; exists i, rl, d; auto|].
      rewrite <- (reg_delay nodes stage _ mx m xin v Hi Hb x (stage c - stage x) t) by (auto; lia).
      do 2 f_equal. lia. }
  induction (op_ins nodes c) as [|i l IHl]; cbn [map]; constructor.
  - apply Hall. now left.
  - apply IHl. intros j Hj. apply Hall. now right.
Qed.

(* The pipelined circuit computes, for each transaction tau (input i presented at time
   tau + stage i), the combinational function; the result of n is there at time
   tau + stage n.  Registers may hold anything at first. *)
Theorem pipeline_correct : forall (nodes : nat -> node V) stage rank roots fuel m,
  design nodes stage rank roots fuel -> retime_all V nodes stage fuel roots rm0 = Some m ->
  forall xin v, behaviour nodes (fwd m) (ins_of m) (proc m) xin v ->
  forall tau n, reach_any nodes roots n -> ~ is_delay nodes n ->
  value nodes (fun i => xin (tau + stage i) i) n (v (tau + stage n) (SOrig n)).
Proof.
  intros nodes stage rank roots fuel m D E xin v Hb tau n Hn Hnd.
  destruct (run_ok nodes stage rank roots fuel D) as [[mx [m' [E' [Hi P]]]]|[E' _]]; [|congruence].
  rewrite E in E'. injection E' as <-.
  eapply main_value; eauto.
  - apply (d_rank _ _ _ _ _ D).
  - apply (d_delay _ _ _ _ _ D).
  - eapply proc_reach; eauto.
Qed.

Theorem value_unique : forall (nodes : nat -> node V) rank x, acyclic_by nodes rank ->
  forall n a b, value nodes x n a -> value nodes x n b -> a = b.
Proof.
  intros nodes rank x Hr.
  assert (H : forall k n a b, rank n < k -> value nodes x n a -> value nodes x n b -> a = b).
  { induction k as [|k IH]; intros n a b Hk Ha Hb; [lia|].
    inversion Ha as [n1 E1|n1 v1 E1|n1 v1 l1 E1|n1 f1 l1 vs1 E1 F1|n1 r1 d1 i1 v1 E1 F1]; subst;
    inversion Hb as [n2 E2|n2 v2 E2|n2 v2 l2 E2|n2 f2 l2 vs2 E2 F2|n2 r2 d2 i2 v2 E2 F2]; subst; try congruence.
    - rewrite E1 in E2. injection E2 as <- <-. f_equal.
      assert (Hl : forall i, In i l1 -> rank i < rank n).
      { intros i Hi. apply Hr. unfold operands. now rewrite E1. }
      clear E1 Ha Hb. revert vs2 F2. induction F1 as [|i v l vs F FF IHF]; intros vs2 F2; inversion F2; subst; auto.
      f_equal.
      + apply (IH i); auto. assert (rank i < rank n) by (apply Hl; now left). lia.
      + apply IHF; auto. intros j Hj. apply Hl. now right.
    - rewrite E1 in E2. injection E2 as <- <- <-. apply (IH i1); auto.
      assert (rank i1 < rank n) by (apply Hr; unfold operands; rewrite E1; now left). lia. }
  intros n a b. apply (H (S (rank n)) n a b). lia.
Qed.

(* Such behaviours exist, for every input stream. *)
Theorem pipeline_behaves : forall (nodes : nat -> node V) stage rank roots fuel m,
  design nodes stage rank roots fuel -> retime_all V nodes stage fuel roots rm0 = Some m ->
  forall xin (d0 : V), exists v, behaviour nodes (fwd m) (ins_of m) (proc m) xin v.
Proof.
  intros nodes stage rank roots fuel m D E xin d0.
  destruct (run_ok nodes stage rank roots fuel D) as [[mx [m' [E' [Hi P]]]]|[E' _]]; [|congruence].
  rewrite E in E'. injection E' as <-.
  destruct (behaviour_ex nodes stage _ rank (d_rank _ _ _ _ _ D) mx m xin d0 Hi) as [v [Hv _]]. eauto.
Qed.

(* Exactly the registers that some reader needs, each of them once. *)
Theorem registers_exact : forall (nodes : nat -> node V) stage rank roots fuel m,
  design nodes stage rank roots fuel -> retime_all V nodes stage fuel roots rm0 = Some m ->
  NoDup (fwd m) /\
  forall s d g, In (s, (d, g)) (fwd m) <->
    exists n c, reach_any nodes roots c /\ feeds nodes n c /\ stage n <= s < stage c /\
                d = SReg n (S s) /\ g = (if s =? stage n then SOrig n else SReg n s).
Proof.
  intros nodes stage rank roots fuel m D E.
  destruct (run_ok nodes stage rank roots fuel D) as [[mx [m' [E' [Hi P]]]]|[E' _]]; [|congruence].
  rewrite E in E'. injection E' as <-.
  split; [apply (I2' _ _ _ _ _ Hi)|]. intros s d g. rewrite (I2 _ _ _ _ _ Hi). split.
  - intros [n [H1 [H2 [H3 H4]]]]. destruct (I5 _ _ _ _ _ Hi n) as [_ [c [C1 [C2 C3]]]]; [lia|].
    exists n, c. repeat split; auto; lia.
  - intros [n [c [C1 [C2 [C3 [C4 C5]]]]]].
    assert (Hc : In c (proc m)) by (eapply proc_reach; eauto).
    destruct (I4 _ _ _ _ _ Hi c n Hc C2) as [Hn Hm]. exists n. repeat split; auto; lia.
Qed.

(* Each register has one driver. *)
Theorem registers_one_driver : forall (nodes : nat -> node V) stage rank roots fuel m,
  design nodes stage rank roots fuel -> retime_all V nodes stage fuel roots rm0 = Some m ->
  NoDup (map (fun e => fst (snd e)) (fwd m)).
Proof.
  intros nodes stage rank roots fuel m D E.
  destruct (registers_exact _ _ _ _ _ _ D E) as [N H].
  assert (Hf : forall e1 e2, In e1 (fwd m) -> In e2 (fwd m) -> fst (snd e1) = fst (snd e2) -> e1 = e2).
  { intros [s1 [d1 g1]] [s2 [d2 g2]] H1 H2. cbn [fst snd]. intros ->.
    apply H in H1, H2. destruct H1 as [n1 [c1 [_ [_ [_ [A1 A2]]]]]]. destruct H2 as [n2 [c2 [_ [_ [_ [B1 B2]]]]]].
    rewrite A1 in B1. injection B1 as -> ->. subst. reflexivity. }
  revert N Hf. generalize (fwd m). clear. intros l. induction l as [|e l IH]; intros N Hf; cbn [map]; constructor.
  - intros Hin. apply in_map_iff in Hin. destruct Hin as [e' [E1 E2]].
    inversion N as [|? ? N1 N2]. apply N1. rewrite <- (Hf e' e); auto; [now right|now left].
  - inversion N. apply IH; auto. intros; apply Hf; auto; now right.
Qed.

(* The reported number of stages is the latency, when some input of stage 0 reaches an
   output of stage L and nothing is later. *)
Inductive feeds_star (nodes : nat -> node V) : nat -> nat -> Prop :=
| fs_refl n : feeds_star nodes n n
| fs_step n c r : feeds nodes n c -> feeds_star nodes c r -> feeds_star nodes n r.

Theorem stage_num_latency : forall (nodes : nat -> node V) stage rank roots fuel m x r L,
  design nodes stage rank roots fuel -> retime_all V nodes stage fuel roots rm0 = Some m ->
  In r roots -> feeds_star nodes x r -> stage x = 0 -> stage r = L ->
  (forall n, reach_any nodes roots n -> stage n <= L) ->
  stage_num m = L.
Proof.
  intros nodes stage rank roots fuel m x r L D E Hr Hs Hx HL Hmax.
  destruct (registers_exact _ _ _ _ _ _ D E) as [_ H].
  assert (Hcaus : forall c, reach_any nodes roots c -> causal nodes stage c).
  { apply (proj1 (pipeline_accepted nodes stage rank roots fuel D)). eauto. }
  assert (Hreach : reach_any nodes roots r) by (exists r; split; auto; constructor).
  assert (Hkey : forall s, stage x <= s < L -> exists d g, In (s, (d, g)) (fwd m)).
  { intros s Hsl. rewrite <- HL in Hsl. clear Hx HL Hmax L.
    assert (G : reach_any nodes roots x /\ (stage x <= s < stage r -> exists d g, In (s, (d, g)) (fwd m))).
    { clear Hsl. induction Hs as [n|n c r Hf Hs IH].
      - split; auto. lia.
      - destruct (IH Hr Hreach) as [IH1 IH2].
        assert (Rn : reach_any nodes roots n).
        { destruct Hf as [[_ F]|[i [rl [d [F1 F2]]]]].
          - destruct IH1 as [r0 [Z1 Z2]]. exists r0. split; auto. eapply reach_step; eauto. now apply op_ins_operands.
          - destruct IH1 as [r0 [Z1 Z2]]. exists r0. split; auto. eapply reach_step; [eapply reach_step; [exact Z2|apply op_ins_operands; exact F1]|].
            unfold operands. rewrite F2. now left. }
        split; auto. intros Hsl. destruct (Nat.lt_ge_cases s (stage c)).
        + exists (SReg n (S s)), (if s =? stage n then SOrig n else SReg n s). apply H. exists n, c. repeat split; auto; lia.
        + apply IH2. lia. }
    apply G. auto. }
  unfold stage_num. rewrite <- (seq_length L 0).
  assert (P1 : incl (nodup Nat.eq_dec (map fst (fwd m))) (List.seq 0 L)).
  { intros s Hin. apply nodup_In in Hin. apply in_map_iff in Hin. destruct Hin as [[s' [d g]] [<- Hin]]. cbn [fst].
    apply H in Hin. destruct Hin as [n [c [C1 [C2 [C3 _]]]]]. apply in_seq. specialize (Hmax c C1). lia. }
  assert (P2 : incl (List.seq 0 L) (nodup Nat.eq_dec (map fst (fwd m)))).
  { intros s Hin. apply in_seq in Hin. apply nodup_In. destruct (Hkey s) as [d [g Hg]]; [lia|].
    apply in_map_iff. exists (s, (d, g)). auto. }
  apply Nat.le_antisymm.
  - apply NoDup_incl_length; auto. apply NoDup_nodup.
  - apply NoDup_incl_length; auto. apply seq_NoDup.
Qed.
End Pipeline.

(* ---- an example: r = (x + y) * z over three stages, with a constant and a delay *)
Definition ex_sum (l : list nat) : nat := fold_right plus 0 l.
Definition ex_nodes (n : nat) : node nat :=
  match n with
  | 0 => NIn | 1 => NIn | 2 => NCst 7
  | 3 => NOp ex_sum [0; 1; 2]
  | 4 => NDelay true 3 0
  | 5 => NOp ex_sum [3; 4; 1]
  | _ => NIn
  end.
Definition ex_stage (n : nat) : nat := match n with 3 => 1 | 4 => 3 | 5 => 3 | _ => 0 end.
Lemma ex_design : design ex_nodes ex_stage (fun n => n) [5] 6.
Proof.
  constructor.
  - intros n i H. do 6 (destruct n as [|n]; cbn in H; [lia|]); contradiction.
  - intros c i r d n H E.
    assert (G : In i [0; 1; 2; 3; 4] /\ (i = 4 -> c = 5)).
    { do 6 (destruct c as [|c]; [cbn in H |- *; repeat destruct H as [<-|H]; try contradiction; split; auto 8; discriminate|]). contradiction. }
    destruct G as [G1 G2]. cbn in G1. repeat destruct G1 as [<-|G1]; try contradiction; cbn in E; try discriminate.
    injection E as <- <- <-. rewrite (G2 eq_refl). cbn. split; [reflexivity|]. split; [lia|]. intros [? [? [? F]]]. discriminate.
  - intros r [<-|[]] [? [? [? F]]]. discriminate.
  - intros r [<-|[]]. lia.
Qed.
Example pipeline_example :
  exists m, retime_all nat ex_nodes ex_stage 6 [5] rm0 = Some m /\
    length (fwd m) = 8 /\ stage_num m = 3 /\
    ins_of m 5 = [SReg 3 3; SReg 0 3; SReg 1 3] /\ ins_of m 3 = [SReg 0 1; SReg 1 1; SOrig 2].
Proof. eexists. split; [reflexivity|]. repeat split. Qed.
Example pipeline_rejects_example : (* operation 3 moved after its reader *)
  retime_all nat ex_nodes (fun n => if n =? 3 then 4 else ex_stage n) 6 [5] rm0 = None.
Proof. reflexivity. Qed.
Example stage_num_example : feeds_star ex_nodes 0 5 /\ stage_num (match retime_all nat ex_nodes ex_stage 6 [5] rm0 with Some m => m | None => rm0 end) = 3.
Proof.
  split; [|reflexivity]. apply (fs_step _ 0 3); [left; split; cbn; auto|]. apply (fs_step _ 3 5); [left; split; cbn; auto|]. constructor.
Qed.

(* ---- a static delay whose stage is not the one of its reader *)

(* The reader c (stage 0) of a delayed x is recorded at stage 1; an operation e of stage
   1 then reads c without any register, for all functions f and g. *)
Definition bad_nodes {V} (f g : list V -> V) (n : nat) : node V :=
  match n with 0 => NIn | 1 => NDelay true 1 0 | 2 => NOp f [1] | 3 => NOp g [2] | _ => NIn end.
Definition bad_stage (n : nat) : nat := match n with 3 => 1 | _ => 0 end.
Theorem static_delay_reader_refuted : forall V (f g : list V -> V),
  exists m, retime_all V (bad_nodes f g) bad_stage 4 [3] rm0 = Some m /\
    ins_of m 3 = [SOrig 2] /\ bad_stage 2 < bad_stage 3 /\
    forall xin v, behaviour (bad_nodes f g) (fwd m) (ins_of m) (proc m) xin v ->
    forall t, v t (SOrig 3) = g [v t (SOrig 2)].
Proof.
  intros V f g. eexists. split; [reflexivity|]. split; [reflexivity|]. split; [cbn; lia|].
  intros xin v Hb t. rewrite (b_op _ _ _ _ _ _ Hb t 3 g [2]); [reflexivity|cbn; auto|reflexivity].
Qed.
(* The operands after the delayed one are taken at its stage instead of the reader's:
   here y (stage 0) is read by c (stage 0) one cycle late. *)
Definition bad2_nodes {V} (f : list V -> V) (n : nat) : node V :=
  match n with 0 => NIn | 1 => NDelay true 1 0 | 2 => NIn | 3 => NOp f [1; 2] | 4 => NOp f [2; 1] | _ => NIn end.
Theorem static_delay_operands_refuted : forall V (f : list V -> V),
  exists m, retime_all V (bad2_nodes f) (fun _ => 0) 4 [3; 4] rm0 = Some m /\
    ins_of m 3 = [SReg 0 1; SReg 2 1] /\ ins_of m 4 = [SOrig 2; SReg 0 1].
Proof. intros. eexists. split; [reflexivity|]. split; reflexivity. Qed.
(* And the generation stops with a KeyError on a graph without any late operand. *)
Definition bad3_nodes {V} (f g : list V -> V) (n : nat) : node V :=
  match n with 0 => NIn | 1 => NDelay true 0 0 | 2 => NOp f [1] | 3 => NOp g [2] | _ => NIn end.
Definition bad3_stage (n : nat) : nat := match n with 2 => 2 | 3 => 3 | _ => 0 end.
Theorem static_delay_keyerror_refuted : forall V (f g : list V -> V),
  retime_all V (bad3_nodes f g) bad3_stage 4 [3] rm0 = None /\
  (forall c, causal (bad3_nodes f g) bad3_stage c).
Proof.
  intros V f g. split; [reflexivity|]. intros c i Hi Ht.
  do 4 (destruct c as [|c]; [cbn in Hi; try contradiction; destruct Hi as [<-|[]]; cbn in *; lia|]). contradiction.
Qed.
(* An absolute delay is treated as a relative one: asked for stage 2, x (stage 1) is
   delivered from stage 3; with the attribute as given it would come from stage 2. *)
Theorem absolute_delay_refuted : forall V (f : list V -> V),
  let nodes dl n := match n with 1 => dl | 2 => NOp f [1] | _ => NIn end in
  let stage n := match n with 0 => 1 | _ => 2 end in
  (exists m, retime_all V (nodes (static_delay 0 2 false)) stage 3 [2] rm0 = Some m /\ ins_of m 2 = [SReg 0 3]) /\
  (exists m, retime_all V (nodes (NDelay false 2 0)) stage 3 [2] rm0 = Some m /\ ins_of m 2 = [SReg 0 2]).
Proof. intros V f nodes stage. split; eexists; (split; [reflexivity|reflexivity]). Qed.

(* The reported number of stages is not always the latency: an input that enters later. *)
Theorem stage_num_refuted : forall V (f : list V -> V),
  let nodes n := match n with 2 => NOp f [0] | 3 => NOp f [1] | _ => @NIn V end in
  let stage n := match n with 1 => 2 | 2 => 1 | 3 => 3 | _ => 0 end in
  exists m, retime_all V nodes stage 4 [2; 3] rm0 = Some m /\ stage_num m = 2 /\ stage 3 = 3.
Proof. intros. eexists. split; [reflexivity|]. split; reflexivity. Qed.

(* ==== the clocked processes ==== *)
Definition sig_eqb (a b : sig) : bool :=
  match a, b with
  | SOrig n, SOrig k => n =? k
  | SReg n s, SReg k t => (n =? k) && (s =? t)
  | _, _ => false
  end.
Lemma sig_eqb_eq : forall a b, sig_eqb a b = true <-> a = b.
Proof.
  intros [n|n s] [k|k t]; cbn [sig_eqb]; split; intros H; try discriminate.
  - apply Nat.eqb_eq in H. now subst.
  - injection H as ->. apply Nat.eqb_refl.
  - apply andb_true_iff in H. rewrite !Nat.eqb_eq in H. destruct H. now subst.
  - injection H as -> ->. now rewrite !Nat.eqb_refl.
Qed.
Definition sig_dec (a b : sig) : {a = b} + {a <> b}.
Proof. decide equality; apply Nat.eq_dec. Defined.
Lemma sig_eqb_refl : forall a, sig_eqb a a = true. Proof. intros. now apply sig_eqb_eq. Qed.

(* what happened: a change of the clock (rising or not), a change of the reset, and the
   values of the reset and of the recirculation signals *)
Record event := Ev { e_clk : bool; e_rise : bool; e_rst : bool; rst : bool; recirc : nat -> bool }.
Definition holds (e : event) (c : cond) : bool :=
  match c with CEdge => e_clk e && e_rise e | CReset l => eqb (rst e) l | CRecirc0 s => negb (recirc e s) end.
Section Exec.
Context {V : Type}.
Variable zero : V.
Definition set_sig (st : sig -> V) (d : sig) (x : V) : sig -> V := fun s => if sig_eqb s d then x else st s.
Fixpoint exec (e : event) (old new : sig -> V) (p : stmt) : sig -> V :=
  match p with
  | SNop => new
  | SSet d s => set_sig new d (old s)
  | SZero d => set_sig new d zero
  | SSeq a b => exec e old (exec e old new a) b
  | SIf c a b => if holds e c then exec e old new a else exec e old new b
  end.
Definition active (e : event) (p : process) : bool := e_clk e || (on_reset p && e_rst e).
Definition step (e : event) (ps : list process) (old : sig -> V) : sig -> V :=
  fold_left (fun new p => if active e p then exec e old new (body p) else new) ps old.

Fixpoint writes (p : stmt) : list sig :=
  match p with
  | SNop => [] | SSet d _ | SZero d => [d]
  | SSeq a b | SIf _ a b => writes a ++ writes b
  end.
Lemma exec_frame : forall e old p new d, ~ In d (writes p) -> exec e old new p d = new d.
Proof.
  intros e old p. induction p as [|d' s|d'|a IHa b IHb|c a IHa b IHb]; intros new d H; cbn [exec writes] in *; auto.
  - unfold set_sig. destruct (sig_eqb d d') eqn:E; auto. apply sig_eqb_eq in E. subst. exfalso. apply H. now left.
  - unfold set_sig. destruct (sig_eqb d d') eqn:E; auto. apply sig_eqb_eq in E. subst. exfalso. apply H. now left.
  - rewrite in_app_iff in H. rewrite IHb, IHa; auto.
  - rewrite in_app_iff in H. destruct (holds e c); auto.
Qed.
Lemma writes_seq : forall l, writes (seq l) = concat (map writes l).
Proof. induction l as [|a l IH]; cbn; auto. now rewrite <- IH. Qed.
(* a sequence of assignments to distinct signals *)
Lemma exec_sets : forall e old l new d g, NoDup (map fst l) -> In (d, g) l ->
  exec e old new (seq (map (fun a => SSet (fst a) (snd a)) l)) d = old g.
Proof.
  intros e old l. induction l as [|[d' g'] l IH]; intros new d g N H; [contradiction|].
  inversion N as [|? ? N1 N2]. change (exec e old (set_sig new d' (old g')) (seq (map (fun a => SSet (fst a) (snd a)) l)) d = old g).
  destruct H as [H|H].
  - injection H as -> ->. rewrite exec_frame.
    + unfold set_sig. now rewrite sig_eqb_refl.
    + rewrite writes_seq, map_map. cbn [writes]. intros Hin. apply N1. clear - Hin.
      induction l as [|a l IH]; cbn in *; [contradiction|]. destruct Hin; auto.
  - apply IH; auto.
Qed.
Lemma exec_zeros : forall e old l new d g, In (d, g) l -> exec e old new (reset_stmt l) d = zero.
Proof.
  intros e old l. induction l as [|[d' g'] l IH]; intros new d g H; [contradiction|].
  change (exec e old (set_sig new d' zero) (reset_stmt l) d = zero).
  destruct (existsb (fun a => sig_eqb d (fst a)) l) eqn:Ex.
  - apply existsb_exists in Ex. destruct Ex as [[d2 g2] [E1 E2]]. apply sig_eqb_eq in E2. cbn [fst] in E2. subst.
    eapply IH; eauto.
  - rewrite exec_frame.
    + destruct H as [H|H]; [injection H as -> ->; unfold set_sig; now rewrite sig_eqb_refl|].
      exfalso. assert (X : existsb (fun a => sig_eqb d (fst a)) l = true).
      { apply existsb_exists. exists (d, g). split; auto. apply sig_eqb_refl. }
      congruence.
    + unfold reset_stmt. rewrite writes_seq, map_map. cbn [writes]. intros Hin.
      assert (X : existsb (fun a => sig_eqb d (fst a)) l = true).
      { clear - Hin. induction l as [|a l IH]; cbn in *; [contradiction|]. destruct Hin as [<-|Hin]; [now rewrite sig_eqb_refl|].
        rewrite IH; auto. apply orb_true_r. }
      congruence.
Qed.

(* what a register bank must do *)
Definition reset_on (o : options) (e : event) : bool := o_reset o && eqb (rst e) (negb (o_negate o)).
Definition expected (o : options) (e : event) (s : nat) (old_d old_g : V) : V :=
  let clocked := if e_clk e && e_rise e
                 then if o_recirculate o && recirc e s then old_d else old_g
                 else old_d in
  if o_sync o then if e_clk e && e_rise e && reset_on o e then zero else clocked
  else if (e_clk e || e_rst e) && reset_on o e then zero else clocked.
(* the options that give it *)
Definition sound (o : options) : Prop :=
  (o_recirculate o = true -> o_reset o = true) /\
  (o_one_process o = false -> o_reset o = true -> o_sync o = true).

Lemma stage_exec : forall o e old new s l d g, (o_recirculate o = true -> o_reset o = true) ->
  NoDup (map fst l) -> In (d, g) l -> new d = old d ->
  exec e old new (clock_block o s l) d =
  if e_clk e && e_rise e then
    if o_sync o && reset_on o e then zero else if o_recirculate o && recirc e s then old d else old g
  else old d.
Proof.
  intros o e old new s l d g Hr N H Hd. unfold clock_block. cbn [exec holds].
  destruct (e_clk e && e_rise e); [|exact Hd].
  unfold stage_stmt, reset_on. destruct (o_reset o) eqn:Er.
  - cbn [andb]. destruct (o_sync o); cbn [andb exec holds].
    + destruct (eqb (rst e) (negb (o_negate o))); [eapply exec_zeros; eauto|].
      destruct (o_recirculate o); cbn [exec holds andb]; [|eapply exec_sets; eauto].
      destruct (recirc e s); cbn [negb]; [exact Hd|eapply exec_sets; eauto].
    + destruct (o_recirculate o); cbn [exec holds andb]; [|eapply exec_sets; eauto].
      destruct (recirc e s); cbn [negb]; [exact Hd|eapply exec_sets; eauto].
  - destruct (o_recirculate o) eqn:Ec; [specialize (Hr eq_refl); discriminate|]. cbn [andb]. rewrite andb_false_r.
    eapply exec_sets; eauto.
Qed.

Lemma writes_clock : forall o s l d, In d (writes (clock_block o s l)) -> In d (map fst l).
Proof.
  intros o s l d.
  assert (A : forall d, In d (writes (seq (map (fun a => SSet (fst a) (snd a)) l))) -> In d (map fst l)).
  { intros d0. rewrite writes_seq, map_map. cbn [writes]. induction l as [|a l IH]; cbn; [auto|]. intros [H|H]; auto. }
  assert (B : forall d, In d (writes (reset_stmt l)) -> In d (map fst l)).
  { intros d0. unfold reset_stmt. rewrite writes_seq, map_map. cbn [writes]. clear A. induction l as [|a l IH]; cbn; [auto|]. intros [H|H]; auto. }
  unfold clock_block, stage_stmt. cbn [writes]. rewrite app_nil_r.
  destruct (o_reset o), (o_sync o), (o_recirculate o); cbn [writes]; rewrite ?in_app_iff; cbn [In]; intuition.
Qed.

Lemma fwd_at_in : forall fw s d g, In (s, (d, g)) fw <-> In (d, g) (fwd_at fw s).
Proof.
  intros fw s d g. unfold fwd_at. rewrite in_map_iff. split.
  - intros H. exists (s, (d, g)). split; auto. apply filter_In. cbn [fst]. now rewrite Nat.eqb_refl.
  - intros [[s' p] [E H]]. apply filter_In in H. cbn [fst snd] in *. destruct H as [H H2]. apply Nat.eqb_eq in H2. now subst.
Qed.
Lemma fwd_at_nodup : forall fw s, NoDup (map (fun e : nat * (sig * sig) => fst (snd e)) fw) -> NoDup (map fst (fwd_at fw s)).
Proof.
  intros fw s N. unfold fwd_at. rewrite map_map. induction fw as [|[s' [d g]] fw IH]; cbn [filter map]; [constructor|].
  inversion N as [|? ? N1 N2]. cbn [fst]. destruct (s' =? s); [|auto]. cbn [map fst snd]. constructor; auto.
  intros Hx. apply N1. apply in_map_iff in Hx. destruct Hx as [e [E1 E2]]. apply filter_In in E2. apply in_map_iff. exists e. tauto.
Qed.
Lemma driver_unique : forall fw s s' d g g', NoDup (map (fun e : nat * (sig * sig) => fst (snd e)) fw) ->
  In (s, (d, g)) fw -> In (s', (d, g')) fw -> s = s'.
Proof.
  induction fw as [|e fw IH]; intros s s' d g g' N H1 H2; [contradiction|].
  inversion N as [|? ? N1 N2]. destruct H1 as [H1|H1], H2 as [H2|H2].
  - congruence.
  - exfalso. apply N1. subst e. apply in_map_iff. exists (s', (d, g')). auto.
  - exfalso. apply N1. subst e. apply in_map_iff. exists (s, (d, g)). auto.
  - eapply IH; eauto.
Qed.

(* running a list of statements each writing its own signals *)
Lemma fold_one : forall A (F : A -> (sig -> V) -> sig -> V) (d : sig) (val : V) (l : list A) (a : A) old,
  NoDup l -> In a l ->
  (forall b new, b <> a -> In b l -> F b new d = new d) ->
  (forall new, new d = old d -> F a new d = val) ->
  fold_left (fun new b => F b new) l old d = val.
Proof.
  intros A F d val l. 
  assert (Stay : forall l (new : sig -> V), (forall b new, In b l -> F b new d = new d) -> fold_left (fun new b => F b new) l new d = new d).
  { induction l0 as [|b l0 IH]; intros new H; cbn [fold_left]; auto. rewrite IH; [apply H; now left|]. intros; apply H; now right. }
  intros a old N Hin Ho Ha.
  assert (G : forall l (new : sig -> V), NoDup l -> In a l -> (forall b new, b <> a -> In b l -> F b new d = new d) -> new d = old d ->
     fold_left (fun new b => F b new) l new d = val).
  { clear N Hin Ho. induction l0 as [|b l0 IH]; intros new N Hin Ho Hd; [contradiction|]. cbn [fold_left].
    inversion N as [|? ? N1 N2]. destruct Hin as [->|Hin].
    - rewrite Stay; [apply Ha; auto|]. intros b new' Hb. apply Ho; [intros ->; contradiction|now right].
    - apply IH; auto.
      + intros b' new' Hb' Hi'. apply Ho; auto. now right.
      + rewrite Ho; auto; [|now left]. intros ->. contradiction. }
  apply G; auto.
Qed.

(* Every register bank behaves as expected: it loads at the clock edge, keeps its value
   under recirculation, and is cleared by the reset. *)
Theorem registers_step : forall o fw stages e old s d g,
  sound o -> NoDup (map (fun x => fst (snd x)) fw) -> NoDup stages -> (forall x, In x fw -> In (fst x) stages) ->
  In (s, (d, g)) fw ->
  step e (processes o fw stages) old d = expected o e s (old d) (old g).
Proof.
  intros o fw stages e old s d g [Hr Ho] N NS HS Hin.
  assert (Hl : In (d, g) (fwd_at fw s)) by now apply fwd_at_in.
  pose proof (fwd_at_nodup fw s N) as NF.
  assert (Hst : In s stages) by apply (HS _ Hin).
  assert (Hother : forall s', s' <> s -> ~ In d (map fst (fwd_at fw s'))).
  { intros s' Hne Hx. apply in_map_iff in Hx. destruct Hx as [[d' g'] [E1 E2]]. cbn [fst] in E1. subst d'.
    apply fwd_at_in in E2. apply Hne. symmetry. eapply driver_unique; eauto. }
  assert (Ifd : forall (b : bool) (f h : sig -> V), (if b then f else h) d = if b then f d else h d) by (intros [|]; auto).
  unfold processes, step. destruct (o_one_process o) eqn:E1.
  - rewrite <- fold_left_rev_right. rewrite <- map_rev. 
    assert (G : forall l new, fold_left (fun new p => if active e p then exec e old new (body p) else new) (map (fun s => one_process o s (fwd_at fw s)) l) new
       = fold_left (fun new s => if active e (one_process o s (fwd_at fw s)) then exec e old new (body (one_process o s (fwd_at fw s))) else new) l new).
    { induction l as [|a l IH]; intros new; cbn [map fold_left]; auto. }
    rewrite map_rev, fold_left_rev_right, G.
    apply (fold_one nat (fun s new => if active e (one_process o s (fwd_at fw s)) then exec e old new (body (one_process o s (fwd_at fw s))) else new) d _ stages s old); auto.
    + intros s' new Hne _. specialize (Hother s' Hne). destruct (active e (one_process o s' (fwd_at fw s'))); auto.
      apply exec_frame. intros Hw. apply Hother. unfold one_process in Hw.
      destruct (o_reset o && negb (o_sync o)); cbn [body writes] in Hw.
      * apply in_app_iff in Hw. destruct Hw as [Hw|Hw]; [|eapply writes_clock; eauto].
        unfold reset_stmt in Hw. rewrite writes_seq, map_map in Hw. cbn [writes] in Hw. clear - Hw.
        induction (fwd_at fw s') as [|a l IH]; cbn in *; [contradiction|]. destruct Hw; auto.
      * eapply writes_clock; eauto.
    + intros new Hd. pose proof (stage_exec o e old new s _ d g Hr NF Hl Hd) as SE. clear Hr Ho.
      unfold one_process, active. destruct (o_reset o) eqn:Er; destruct (o_sync o) eqn:Es; cbn [andb negb body on_reset].
      * rewrite orb_false_r, Ifd, SE, ?Hd. unfold expected. rewrite Es. cbn [andb].
        destruct (e_clk e), (e_rise e), (reset_on o e), (o_recirculate o && recirc e s); cbn; auto.
      * unfold expected, reset_on. rewrite Es, Er. cbn [andb exec holds].
        destruct (eqb (rst e) (negb (o_negate o))) eqn:Eq.
        -- rewrite andb_true_r, Ifd. destruct (e_clk e || e_rst e) eqn:Ev.
           ++ eapply exec_zeros; eauto.
           ++ apply orb_false_iff in Ev. destruct Ev as [-> _]. cbn [andb]. exact Hd.
        -- rewrite andb_false_r, Ifd, SE, ?Hd. cbn [andb].
           destruct (e_clk e), (e_rst e); cbn [orb andb]; auto.
      * rewrite orb_false_r, Ifd, SE, ?Hd. unfold expected, reset_on. rewrite Es, Er. cbn [andb].
        rewrite andb_false_r. destruct (e_clk e), (e_rise e); cbn; auto.
      * rewrite orb_false_r, Ifd, SE, ?Hd. unfold expected, reset_on. rewrite Es, Er. cbn [andb].
        rewrite andb_false_r. destruct (e_clk e), (e_rise e); cbn; auto.
  - assert (G : exec e old old (seq (map (fun s => clock_block o s (fwd_at fw s)) stages)) d =
        if e_clk e && e_rise e then
          if o_sync o && reset_on o e then zero else if o_recirculate o && recirc e s then old d else old g
        else old d).
    { assert (GG : forall l new, exec e old new (seq (map (fun s => clock_block o s (fwd_at fw s)) l)) =
         fold_left (fun new s => exec e old new (clock_block o s (fwd_at fw s))) l new).
      { induction l as [|a l IH]; intros new; auto.
        change (exec e old (exec e old new (clock_block o a (fwd_at fw a))) (seq (map (fun s => clock_block o s (fwd_at fw s)) l)) = fold_left (fun new s => exec e old new (clock_block o s (fwd_at fw s))) l (exec e old new (clock_block o a (fwd_at fw a)))).
        apply IH. }
      rewrite GG.
      apply (fold_one nat (fun s new => exec e old new (clock_block o s (fwd_at fw s))) d _ stages s old); auto.
      - intros s' new Hne _. apply exec_frame. intros Hw. apply (Hother s' Hne). eapply writes_clock; eauto.
      - intros new Hd. apply stage_exec; auto. }
    destruct (o_sync o) eqn:Es.
    + cbn [fold_left]. unfold active. cbn [on_reset body andb]. rewrite orb_false_r, Ifd, G. unfold expected. rewrite Es. cbn [andb].
      destruct (e_clk e), (e_rise e), (reset_on o e), (o_recirculate o && recirc e s); cbn; auto.
    + destruct (o_reset o) eqn:Er; [specialize (Ho eq_refl eq_refl); congruence|].
      cbn [fold_left]. unfold active. cbn [on_reset body andb exec]. rewrite Ifd, G. unfold expected, reset_on. rewrite Es, Er. cbn [andb].
      rewrite andb_false_r. destruct (e_clk e), (e_rise e), (e_rst e); cbn; auto.
Qed.

(* At a rising edge, without reset nor recirculation, every register loads its source:
   the clause b_reg of a behaviour. *)
Theorem registers_load : forall o fw stages e old s d g,
  sound o -> NoDup (map (fun x => fst (snd x)) fw) -> NoDup stages -> (forall x, In x fw -> In (fst x) stages) ->
  In (s, (d, g)) fw -> e_clk e = true -> e_rise e = true -> reset_on o e = false -> o_recirculate o && recirc e s = false ->
  step e (processes o fw stages) old d = old g.
Proof.
  intros o fw stages e old s d g H1 H2 H3 H4 H5 C1 C2 C3 C4. rewrite (registers_step o fw stages e old s d g); auto.
  unfold expected. rewrite C1, C2, C3, C4. cbn. destruct (o_sync o); auto.
Qed.

(* ---- the other options *)

(* Recirculation without reset: the recirculation signal is ignored. *)
Theorem recirculate_no_reset_refuted : forall o fw stages e old s d g,
  o_recirculate o = true -> o_reset o = false ->
  NoDup (map (fun x => fst (snd x)) fw) -> NoDup stages -> (forall x, In x fw -> In (fst x) stages) ->
  In (s, (d, g)) fw -> e_clk e = true -> e_rise e = true ->
  step e (processes o fw stages) old d = old g.
Proof.
  intros o fw stages e old s d g H1 H2 N NS HS Hin C1 C2.
  set (o' := Opt false false (o_one_process o) (o_sync o) (o_negate o)).
  assert (E : processes o fw stages = processes o' fw stages).
  { assert (Ec : forall s l, clock_block o s l = clock_block o' s l) by (intros; unfold clock_block, stage_stmt; subst o'; cbn; now rewrite H2).
    assert (Eo : forall s l, one_process o s l = one_process o' s l).
    { intros. unfold one_process. rewrite Ec. subst o'. cbn. now rewrite H2. }
    unfold processes. change (o_one_process o') with (o_one_process o). change (o_sync o') with (o_sync o).
    rewrite H2. change (o_reset o') with false.
    rewrite (map_ext _ (fun s => one_process o' s (fwd_at fw s)) (fun s => Eo s (fwd_at fw s))).
    rewrite (map_ext _ (fun s => clock_block o' s (fwd_at fw s)) (fun s => Ec s (fwd_at fw s))). reflexivity. }
  rewrite E. apply (registers_load o' fw stages e old s d g); auto.
  split; cbn; intros; discriminate.
Qed.

(* One process for all stages with an asynchronous reset: the clearing assignments come
   last and are not guarded, so that every register is zero after every clock event,
   whatever the reset. *)
Theorem async_one_process_refuted : forall o fw stages e old s d g,
  o_reset o = true -> o_sync o = false -> o_one_process o = false ->
  (forall x, In x fw -> In (fst x) stages) -> In (s, (d, g)) fw -> e_clk e = true ->
  step e (processes o fw stages) old d = zero.
Proof.
  intros o fw stages e old s d g H1 H2 H3 HS Hin C1.
  unfold processes, step. rewrite H1, H2, H3. cbn [fold_left]. unfold active. rewrite C1. cbn [orb body exec].
  generalize (exec e old old (seq (map (fun s => clock_block o s (fwd_at fw s)) stages))) as new.
  assert (Hst : In s stages) by apply (HS _ Hin). apply fwd_at_in in Hin. clear HS.
  induction stages as [|a l IH]; intros new; [contradiction|].
  change (exec e old (exec e old new (reset_stmt (fwd_at fw a))) (seq (map (fun s => reset_stmt (fwd_at fw s)) l)) d = zero).
  destruct (in_dec Nat.eq_dec s l) as [Hs|Hs].
  - apply IH; auto.
  - destruct Hst as [->|Hst]; [|contradiction].
    assert (Z : forall l (new : sig -> V), new d = zero -> exec e old new (seq (map (fun s => reset_stmt (fwd_at fw s)) l)) d = zero).
    { clear. induction l as [|a l IH]; intros new Hn; [exact Hn|].
      change (exec e old (exec e old new (reset_stmt (fwd_at fw a))) (seq (map (fun s => reset_stmt (fwd_at fw s)) l)) d = zero).
      apply IH. destruct (in_dec sig_dec d (map fst (fwd_at fw a))) as [Hi|Hi].
      - apply in_map_iff in Hi. destruct Hi as [[d' g'] [E1 E2]]. cbn [fst] in E1. subst d'. eapply exec_zeros; eauto.
      - rewrite exec_frame; auto. intros Hw. apply Hi. unfold reset_stmt in Hw. rewrite writes_seq, map_map in Hw. cbn [writes] in Hw. clear - Hw.
        induction (fwd_at fw a) as [|b l IH]; cbn in *; [contradiction|]. destruct Hw; auto. }
    apply Z. eapply exec_zeros; eauto.
Qed.
End Exec.

(* a two-register chain, synchronous reset, recirculation *)
Example registers_example :
  let fw := [(0, (SReg 0 1, SOrig 0)); (1, (SReg 0 2, SReg 0 1))] in
  let o := Opt true true true true false in
  let old s := match s with SOrig _ => 5 | SReg _ 1 => 6 | SReg _ _ => 7 end in
  let run e := (step 0 e (processes o fw [0; 1]) old (SReg 0 1), step 0 e (processes o fw [0; 1]) old (SReg 0 2)) in
  run (Ev true true false false (fun _ => false)) = (5, 6) /\
  run (Ev true true false false (fun s => s =? 1)) = (5, 7) /\
  run (Ev true true false true (fun s => s =? 1)) = (0, 0) /\
  run (Ev true false false true (fun _ => false)) = (6, 7).
Proof. repeat split. Qed.
Example async_example :
  let fw := [(0, (SReg 0 1, SOrig 0)); (1, (SReg 0 2, SReg 0 1))] in
  let old s := match s with SOrig _ => 5 | SReg _ 1 => 6 | SReg _ _ => 7 end in
  let run o e := (step 0 e (processes o fw [0; 1]) old (SReg 0 1), step 0 e (processes o fw [0; 1]) old (SReg 0 2)) in
  run (Opt true false true false true) (Ev true true false true (fun _ => false)) = (5, 6) /\
  run (Opt true false false false true) (Ev true true false true (fun _ => false)) = (0, 0) /\
  run (Opt false true true true false) (Ev true true false true (fun _ => true)) = (5, 6).
Proof. repeat split. Qed.

Print Assumptions pipeline_accepted.
Print Assumptions operands_delayed.
Print Assumptions pipeline_correct.
Print Assumptions value_unique.
Print Assumptions pipeline_behaves.
Print Assumptions registers_exact.
Print Assumptions registers_one_driver.
Print Assumptions stage_num_latency.
Print Assumptions static_delay_reader_refuted.
Print Assumptions static_delay_operands_refuted.
Print Assumptions static_delay_keyerror_refuted.
Print Assumptions absolute_delay_refuted.
Print Assumptions stage_num_refuted.
Print Assumptions registers_step.
Print Assumptions registers_load.
Print Assumptions recirculate_no_reset_refuted.
Print Assumptions async_one_process_refuted.
