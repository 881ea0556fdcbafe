(* Proofs about the passes on machine programs. *)
From Coq Require Import List Arith Bool Lia.
From Verif Require Import McModel McSpec.
Import ListNotations.

(* ---- removal of gotos ---- *)
Section Fallback.
Variables val mem : Type.
Variable eval : nat -> list val -> mem -> val.
Variable effect : nat -> list val -> mem -> mem.
Variable test : nat -> list val -> mem -> bool.
Notation exec := (exec eval effect test).
Notation run := (run eval effect test).
Lemma exec_goto : forall l d s m, exec (l ++ [Goto d]) s m = match exec l s m with (s', m', Fall) => (s', m', Jump d) | o => o end.
Proof.
  induction l as [|x l IH]; intros d s m; [reflexivity|]. cbn [app]. destruct x; cbn [McSpec.exec]; try apply IH; try reflexivity.
  destruct (test k (map s us) m); [reflexivity|apply IH].
Qed.
Lemma goes_to_spec : forall l d, goes_to l = Some d -> l = removelast l ++ [Goto d].
Proof.
  intros l d H. unfold goes_to in H. destruct (rev l) as [|x t] eqn:E; [discriminate H|]. assert (L : l = rev t ++ [x]) by (rewrite <- (rev_involutive l), E; reflexivity).
  destruct x; try discriminate H. injection H as ->. rewrite L, removelast_last. reflexivity.
Qed.
Lemma simplify_nth : forall bs n index k, nth_error (simplify_from n index bs) k =
  option_map (fun l => match goes_to l with Some dest => if Nat.ltb (index + k + 1) n && Nat.eqb dest (index + k + 1) then removelast l else l | None => l end) (nth_error bs k).
Proof.
  induction bs as [|l bs IH]; intros n index [|k]; cbn [simplify_from nth_error option_map]; try reflexivity.
  - replace (index + 0 + 1) with (index + 1) by lia. reflexivity.
  - rewrite IH. replace (index + 1 + k + 1) with (index + S k + 1) by lia. reflexivity.
Qed.
Lemma simplify_run : forall n p b s m, run n (simplify_fallback p) b s m = run n p b s m.
Proof.
  induction n as [|n IH]; intros p b s m; [reflexivity|]. cbn [McSpec.run]. unfold simplify_fallback at 1. rewrite simplify_nth. destruct (nth_error p b) as [l|]; [|reflexivity]. cbn [option_map].
  assert (KEEP : match exec l s m with (s', m', Fall) => run n (simplify_fallback p) (b + 1) s' m' | (s', m', Jump b') => run n (simplify_fallback p) b' s' m' | (s', m', Stop) => Some (s', m') end
    = match exec l s m with (s', m', Fall) => run n p (b + 1) s' m' | (s', m', Jump b') => run n p b' s' m' | (s', m', Stop) => Some (s', m') end)
    by (destruct (exec l s m) as [[s' m'] [|b'|]]; first [apply IH|reflexivity]).
  destruct (goes_to l) as [d|] eqn:G; [|exact KEEP]. destruct (Nat.ltb (0 + b + 1) (length p) && Nat.eqb d (0 + b + 1)) eqn:C; [|exact KEEP].
  apply andb_true_iff in C. destruct C as [_ C]. apply Nat.eqb_eq in C. rewrite (goes_to_spec l d G) at 2. rewrite exec_goto, C.
  destruct (exec (removelast l) s m) as [[s' m'] [|b'|]]; first [apply IH|reflexivity].
Qed.
End Fallback.

(* ---- numbering of instructions ---- *)
Lemma in_number_block : forall l b k b' i x, In ((b', i), x) (number_block b k l) <-> b' = b /\ k <= i /\ nth_error l (i - k) = Some x.
Proof.
  induction l as [|y l IH]; intros b k b' i x; cbn [number_block In].
  - split; [intros []|intros (_ & _ & H)]. destruct (i - k); discriminate H.
  - rewrite IH. split.
    + intros [E|(-> & L & N)]; [injection E as <- <- <-; rewrite Nat.sub_diag; auto|]. replace (i - k) with (S (i - S k)) by lia. split; [reflexivity|]. split; [lia|exact N].
    + intros (-> & L & N). destruct (Nat.eq_dec i k) as [->|NE]; [left; rewrite Nat.sub_diag in N; now injection N as ->|]. right. replace (i - k) with (S (i - S k)) in N by lia. split; [reflexivity|]. split; [lia|exact N].
Qed.
Lemma in_number : forall p b b' i x, In ((b', i), x) (number b p) <-> b <= b' /\ at_ p (b' - b) i = Some x.
Proof.
  induction p as [|l p IH]; intros b b' i x; cbn [number].
  - split; [intros []|intros (_ & H)]. unfold at_ in H. destruct (b' - b); discriminate H.
  - rewrite in_app_iff, in_number_block, IH, Nat.sub_0_r. split.
    + intros [(-> & _ & N)|(L & N)]; [rewrite Nat.sub_diag; auto|]. replace (b' - b) with (S (b' - S b)) by lia. split; [lia|exact N].
    + intros (L & N). destruct (Nat.eq_dec b' b) as [->|NE]; [left; rewrite Nat.sub_diag in N; repeat split; [lia|exact N]|]. right. replace (b' - b) with (S (b' - S b)) in N by lia. split; [lia|exact N].
Qed.
Lemma in_number0 : forall p b i x, In ((b, i), x) (number 0 p) <-> at_ p b i = Some x.
Proof. intros p b i x. rewrite in_number, Nat.sub_0_r. split; [tauto|split; [lia|assumption]]. Qed.
Lemma nodup_block : forall l b k, NoDup (map fst (number_block b k l)).
Proof.
  induction l as [|x l IH]; intros b k; cbn [number_block map fst]; constructor; [|apply IH]. intro H. apply in_map_iff in H. destruct H as ([[b' i] y] & E & H). cbn in E. injection E as -> ->. apply in_number_block in H. lia.
Qed.
Lemma nodup_app_disjoint : forall (A : Type) (l1 l2 : list A), NoDup l1 -> NoDup l2 -> (forall x, In x l1 -> ~ In x l2) -> NoDup (l1 ++ l2).
Proof.
  intros A. induction l1 as [|x l1 IH]; intros l2 N1 N2 D; [exact N2|]. inversion_clear N1 as [|? ? X N]. cbn [app]. constructor.
  - rewrite in_app_iff. intros [H|H]; [contradiction|]. exact (D x (or_introl eq_refl) H).
  - apply IH; auto. intros y Hy. apply D. now right.
Qed.
Lemma nodup_number : forall p b, NoDup (map fst (number b p)).
Proof.
  induction p as [|l p IH]; intro b; cbn [number]; [constructor|]. rewrite map_app. apply nodup_app_disjoint; [apply nodup_block|apply IH|].
  intros q H1 H2. apply in_map_iff in H1. apply in_map_iff in H2. destruct H1 as ([[b1 i1] x1] & E1 & H1), H2 as ([[b2 i2] x2] & E2 & H2). cbn in E1, E2. subst q. injection E2 as -> ->. apply in_number_block in H1. apply in_number in H2. lia.
Qed.
Lemma defines_writes : forall r x, defines r x = true <-> writes x r.
Proof. intros r [d op us|d s|k us|k us b|b|]; cbn; try (split; [discriminate|tauto]); rewrite Nat.eqb_eq; (split; intro H; now symmetry). Qed.
Lemma uses_reads : forall r x, uses_reg r x = true <-> reads x r.
Proof.
  intros r x. assert (E : forall us, existsb (Nat.eqb r) us = true <-> In r us).
  { intro us. rewrite existsb_exists. split; [intros (y & H & Y); apply Nat.eqb_eq in Y; now subst|intro H; exists r; split; [exact H|apply Nat.eqb_refl]]. }
  destruct x; cbn; try apply E; try (split; [discriminate|tauto]). rewrite Nat.eqb_eq. split; intro H; now symmetry.
Qed.
Lemma nodup_filter_fst : forall (f : pos * insn -> bool) l, NoDup (map fst l) -> NoDup (map fst (filter f l)).
Proof.
  intros f. induction l as [|x l IH]; intro N; [constructor|]. cbn [map] in N. inversion_clear N as [|? ? X N']. cbn [filter]. destruct (f x); [|apply IH; exact N']. cbn [map]. constructor; [|apply IH; exact N'].
  intro H. apply X. apply in_map_iff in H. destruct H as (y & E & H). apply filter_In in H. apply in_map_iff. exists y. tauto.
Qed.
Lemma in_filter_fst : forall (f : insn -> bool) p b i, In (b, i) (map fst (filter (fun x => f (snd x)) (number 0 p))) <-> exists x, at_ p b i = Some x /\ f x = true.
Proof.
  intros f p b i. rewrite in_map_iff. split.
  - intros ([q x] & E & H). cbn in E. subst q. apply filter_In in H. destruct H as [H F]. apply in_number0 in H. eauto.
  - intros (x & H & F). exists ((b, i), x). split; [reflexivity|]. apply filter_In. split; [now apply in_number0|exact F].
Qed.
Lemma one_spec : forall (f : insn -> bool) p b i, map fst (filter (fun x => f (snd x)) (number 0 p)) = [(b, i)] <->
  (exists x, at_ p b i = Some x /\ f x = true) /\ (forall b' k x, at_ p b' k = Some x -> f x = true -> b' = b /\ k = i).
Proof.
  intros f p b i. set (L := map fst (filter (fun x => f (snd x)) (number 0 p))). pose proof (in_filter_fst f p) as IN. fold L in IN. assert (ND : NoDup L) by (apply nodup_filter_fst; apply nodup_number). split.
  - intro E. split; [apply IN; rewrite E; now left|]. intros b' k x A F. assert (H : In (b', k) L) by (apply IN; eauto). rewrite E in H. destruct H as [H|[]]. now injection H as <- <-.
  - intros [X U]. assert (H : In (b, i) L) by (apply IN; exact X). assert (A : forall q, In q L -> q = (b, i)) by (intros [b' k] Hq; apply IN in Hq; destruct Hq as (x & A & F); destruct (U b' k x A F) as [-> ->]; reflexivity).
    destruct L as [|q [|q' t]]; [destruct H|rewrite (A q) by (now left); reflexivity|]. exfalso. inversion_clear ND as [|? ? N _]. apply N. rewrite (A q) by (now left). rewrite (A q') by (right; now left). now left.
Qed.
Lemma single_copy_lists : forall p b i j src dst, single_copy p b i j src dst <-> i < j /\ at_ p b j = Some (Copy dst src) /\ reg_defs p src = [(b, i)] /\ reg_uses p src = [(b, j)].
Proof.
  intros p b i j src dst. unfold single_copy, reg_defs, reg_uses. rewrite !one_spec. setoid_rewrite defines_writes. setoid_rewrite uses_reads. split.
  - intros (A & B & C & D & E). repeat split; auto; try (eapply D; eassumption); try (eapply E; eassumption). exists (Copy dst src). split; [exact B|reflexivity].
  - intros (A & B & [C D] & [_ E]). auto.
Qed.

Lemma pos_eqb_spec : forall a b, pos_eqb a b = true <-> a = b.
Proof. intros [a1 a2] [b1 b2]. unfold pos_eqb. cbn. rewrite andb_true_iff, !Nat.eqb_eq. split; [intros [-> ->]; reflexivity|intro H; injection H; auto]. Qed.
Lemma in_copies : forall l q d s, In (q, (d, s)) (copies_of l) <-> In (q, Copy d s) l.
Proof.
  induction l as [|[q' x] l IH]; intros q d s; [reflexivity|]. cbn [copies_of In]. destruct x; cbn [In]; rewrite IH; split; intro H; try (right; exact H); try (destruct H as [H|H]; [congruence|exact H]); destruct H as [H|H]; try (now right); left; congruence.
Qed.
Lemma nodup_copies : forall l, NoDup (map fst l) -> NoDup (map fst (copies_of l)).
Proof.
  assert (SUB : forall l q, In q (map fst (copies_of l)) -> In q (map fst l)).
  { intros l q H. apply in_map_iff in H. destruct H as ([q' [d s]] & E & H). cbn in E. subst q'. apply in_copies in H. apply in_map_iff. exists (q, Copy d s). auto. }
  induction l as [|[q x] l IH]; intro N; [constructor|]. cbn [map fst] in N. inversion_clear N as [|? ? X N']. cbn [copies_of]. destruct x; try (apply IH; exact N'). cbn [map fst]. constructor; [intro H; apply X; apply SUB; exact H|apply IH; exact N'].
Qed.

(* ---- the copies removed ---- *)
Section Collapse.
Variable p : prog.
Hypothesis SEP : separate p.
Lemma single_unique : forall b i j src dst b' i' j' dst', single_copy p b i j src dst -> single_copy p b' i' j' src dst' -> b' = b /\ i' = i /\ j' = j /\ dst' = dst.
Proof.
  intros b i j src dst b' i' j' dst' H H'. apply single_copy_lists in H, H'. destruct H as (_ & A & D & U), H' as (_ & A' & D' & U'). rewrite D in D'. rewrite U in U'. injection D' as <- <-. injection U' as <-. rewrite A in A'. injection A' as <-. auto.
Qed.
Record cinv (done : list (pos * (reg * reg))) (st : cstate) : Prop := mkCI {
  c_dead : forall b j, In (b, j) (dead st) <-> exists i src dst, single_copy p b i j src dst /\ In ((b, j), (dst, src)) done;
  c_chg : forall b i d, new_dest (chg st) (b, i) = Some d <-> exists j src, single_copy p b i j src d /\ In ((b, j), (d, src)) done;
  c_pop : forall src, In src (popped st) -> exists q d, In (q, (d, src)) done }.
Lemma collapse_step : forall done st q d src, cinv done st -> (forall q' d' s', In (q', (d', s')) done -> at_ p (fst q') (snd q') = Some (Copy d' s')) ->
  at_ p (fst q) (snd q) = Some (Copy d src) -> ~ In q (map fst done) -> cinv (done ++ [(q, (d, src))]) (collapse_one p st (q, (d, src))).
Proof.
  intros done st [b j] d src [C1 C2 C3] DN AT FR. cbn [fst snd] in AT.
  assert (SAME : (forall i dst, ~ single_copy p b i j src dst) -> forall pp, (forall s, In s pp -> s = src \/ In s (popped st)) -> cinv (done ++ [((b, j), (d, src))]) (mkC (chg st) pp (dead st))).
  { intros NS pp PP. constructor; cbn [dead chg popped].
    - intros b' j'. rewrite C1. split; intros (i & s & e & S1 & I1); exists i, s, e; (split; [exact S1|]); [apply in_app_iff; now left|]. apply in_app_iff in I1. destruct I1 as [I1|[I1|[]]]; [exact I1|]. injection I1 as <- <- <- <-. exfalso. exact (NS _ _ S1).
    - intros b' i' e. rewrite C2. split; intros (j' & s & S1 & I1); exists j', s; (split; [exact S1|]); [apply in_app_iff; now left|]. apply in_app_iff in I1. destruct I1 as [I1|[I1|[]]]; [exact I1|]. injection I1 as <- <- <- <-. exfalso. exact (NS _ _ S1).
    - intros s Hs. destruct (PP s Hs) as [->|Hs']; [exists (b, j), d; apply in_app_iff; right; now left|]. destruct (C3 s Hs') as (q & e & H). exists q, e. apply in_app_iff. now left. }
  assert (SKIP : (forall i dst, ~ single_copy p b i j src dst) -> cinv (done ++ [((b, j), (d, src))]) st).
  { intro NS. specialize (SAME NS (popped st) (fun s H => or_intror H)). destruct st; exact SAME. }
  unfold collapse_one, one_def.
  destruct (existsb (Nat.eqb src) (popped st)) eqn:PO.
  { apply SKIP. intros i dst S1. apply existsb_exists in PO. destruct PO as (s & Hs & E). apply Nat.eqb_eq in E. subst s. destruct (C3 src Hs) as ([b' j'] & e & H). pose proof (DN _ _ _ H) as A'. cbn [fst snd] in A'.
    destruct S1 as (_ & _ & _ & _ & UN). destruct (UN b' j' _ A' eq_refl) as [-> ->]. apply FR. apply in_map_iff. exists ((b, j), (e, src)). auto. }
  destruct (reg_defs p src) as [|[db di] [|q2 t2]] eqn:DE; try (apply SKIP; intros i dst S1; apply single_copy_lists in S1; destruct S1 as (_ & _ & D1 & _); congruence).
  destruct (reg_uses p src) as [|[ub uj] [|q3 t3]] eqn:US; try (apply SKIP; intros i dst S1; apply single_copy_lists in S1; destruct S1 as (_ & _ & _ & U1); congruence).
  assert (UU : (ub, uj) = (b, j)).
  { unfold reg_uses in US. apply one_spec in US. destruct US as [_ US]. destruct (US b j (Copy d src) AT) as [-> ->]; [cbn; apply Nat.eqb_refl|reflexivity]. }
  injection UU as -> ->. cbn [fst snd].
  destruct (Nat.eqb_spec db b) as [->|NB]; [destruct (Nat.ltb_spec di j) as [LT|GE]|]; cbn [andb];
    [|apply SAME; [intros i dst S1; apply single_copy_lists in S1; destruct S1 as (L1 & _ & D1 & _); rewrite DE in D1; injection D1 as ->; lia|intros s [<-|Hs]; auto]
     |apply SAME; [intros i dst S1; apply single_copy_lists in S1; destruct S1 as (_ & _ & D1 & _); rewrite DE in D1; injection D1 as -> ->; congruence|intros s [<-|Hs]; auto]].
  assert (SC : single_copy p b di j src d) by (apply single_copy_lists; auto).
  assert (ND : new_dest (chg st) (b, j) = None).
  { destruct (new_dest (chg st) (b, j)) as [e|] eqn:X; [|reflexivity]. exfalso. apply C2 in X. destruct X as (j' & s' & S1 & _). destruct (SEP _ _ _ _ _ S1) as [_ NS].
    assert (W : d = s') by (destruct S1 as (_ & _ & (x & A & WX) & _); rewrite AT in A; injection A as <-; exact WX). subst s'. exact (NS di src SC). }
  rewrite ND. constructor; cbn [dead chg popped].
  - intros b' j'. cbn [In]. rewrite C1. split.
    + intros [E|(i & s & e & S1 & I1)]; [injection E as <- <-; exists di, src, d; split; [exact SC|apply in_app_iff; right; now left]|]. exists i, s, e. split; [exact S1|apply in_app_iff; now left].
    + intros (i & s & e & S1 & I1). apply in_app_iff in I1. destruct I1 as [I1|[I1|[]]]; [right; eauto|]. injection I1 as <- <- <- <-. now left.
  - intros b' i' e. cbn [new_dest]. destruct (pos_eqb (b, di) (b', i')) eqn:PE.
    + apply pos_eqb_spec in PE. injection PE as <- <-. split.
      * intro E. injection E as <-. exists j, src. split; [exact SC|apply in_app_iff; right; now left].
      * intros (j' & s & S1 & I1).
        assert (s = src) as ->.
        { destruct S1 as (_ & _ & (x & A & W) & _), SC as (_ & _ & (x' & A' & W') & _). rewrite A in A'. injection A' as <-. destruct x; cbn in W, W'; try contradiction; congruence. }
        destruct (single_unique _ _ _ _ _ _ _ _ _ SC S1) as (_ & _ & _ & ->). reflexivity.
    + rewrite C2. split; intros (j' & s & S1 & I1); exists j', s; (split; [exact S1|]); [apply in_app_iff; now left|]. apply in_app_iff in I1. destruct I1 as [I1|[I1|[]]]; [exact I1|]. exfalso. injection I1 as <- <- <- <-.
      destruct (single_unique _ _ _ _ _ _ _ _ _ SC S1) as (_ & -> & _). rewrite (proj2 (pos_eqb_spec _ _) eq_refl) in PE. discriminate PE.
  - intros s [<-|Hs]; [exists (b, j), d; apply in_app_iff; right; now left|]. destruct (C3 s Hs) as (q & e & H). exists q, e. apply in_app_iff. now left.
Qed.
Lemma collapse_fold : forall todo done st, cinv done st -> (forall q d s, In (q, (d, s)) (done ++ todo) -> at_ p (fst q) (snd q) = Some (Copy d s)) -> NoDup (map fst (done ++ todo)) ->
  cinv (done ++ todo) (fold_left (collapse_one p) todo st).
Proof.
  induction todo as [|[q [d s]] todo IH]; intros done st CI AT ND; [rewrite app_nil_r; exact CI|]. cbn [fold_left].
  replace (done ++ (q, (d, s)) :: todo) with ((done ++ [(q, (d, s))]) ++ todo) in * by (rewrite <- app_assoc; reflexivity). apply IH; [|exact AT|exact ND].
  apply collapse_step; [exact CI|intros; apply AT; apply in_app_iff; left; apply in_app_iff; now left|apply AT; apply in_app_iff; left; apply in_app_iff; right; now left|].
  intro H. rewrite <- app_assoc, map_app in ND. cbn [app map fst] in ND. apply NoDup_remove_2 in ND. apply ND. apply in_app_iff. now left.
Qed.
Lemma collapse_final : (forall b j, In (b, j) (dead (collapse_state p)) <-> exists i src dst, single_copy p b i j src dst) /\
  (forall b i d, new_dest (chg (collapse_state p)) (b, i) = Some d <-> exists j src, single_copy p b i j src d).
Proof.
  assert (IN : forall q d s, In (q, (d, s)) (copies_of (number 0 p)) <-> at_ p (fst q) (snd q) = Some (Copy d s)) by (intros [b j] d s; rewrite in_copies; apply in_number0).
  assert (CI : cinv ([] ++ copies_of (number 0 p)) (collapse_state p)).
  { apply collapse_fold; [constructor; cbn|intros q d s H; apply IN; exact H|apply nodup_copies; apply nodup_number].
    - intros b j. split; [intros []|intros (? & ? & ? & _ & [])].
    - intros b i d. split; [discriminate|intros (? & ? & _ & [])].
    - intros s []. }
  destruct CI as [C1 C2 _]. cbn [app] in C1, C2. split.
  - intros b j. rewrite C1. split; intros (i & s & e & H); exists i, s, e; [tauto|]. split; [exact H|]. apply IN. apply H.
  - intros b i d. rewrite C2. split; intros (j & s & H); exists j, s; [tauto|]. split; [exact H|]. apply IN. apply H.
Qed.

(* ---- simulation ---- *)
Variables val mem : Type.
Variable eval : nat -> list val -> mem -> val.
Variable effect : nat -> list val -> mem -> mem.
Variable test : nat -> list val -> mem -> bool.
Notation exec := (exec eval effect test).
Notation run := (run eval effect test).
Notation regs := (reg -> val).
Hypothesis BB : basic_blocks p.
Definition agree (s t : regs) : Prop := forall r, ~ collapsed p r -> t r = s r.
Definition pending (b k i j : nat) (src dst : reg) : Prop := single_copy p b i j src dst /\ i < k <= j.
Definition related (b k : nat) (s t : regs) : Prop := forall r, ~ collapsed p r ->
  (exists i j src, pending b k i j src r /\ t r = s src) \/ ((forall i j src, ~ pending b k i j src r) /\ t r = s r).
Lemma related_no : forall b k s t r, related b k s t -> ~ collapsed p r -> (forall i j src, ~ pending b k i j src r) -> t r = s r.
Proof. intros b k s t r R N H. destruct (R r N) as [(i & j & src & P & _)|[_ E]]; [destruct (H _ _ _ P)|exact E]. Qed.
(* registers read by an instruction that is not a removed copy *)
Lemma reads_same : forall b k s t x r, related b k s t -> at_ p b k = Some x -> (forall i src dst, ~ single_copy p b i k src dst) -> reads x r -> t r = s r.
Proof.
  intros b k s t x r R A NC RD. apply (related_no b k s t r R).
  - intros (b' & i & j & dst & S1). destruct S1 as (L & C & D & W & U). destruct (U b k x A RD) as [<- <-]. apply (NC i r dst). repeat split; auto; try (eapply W; eassumption); eapply U; eassumption.
  - intros i j src [S1 [L1 L2]]. destruct (Nat.eq_dec k j) as [->|NE]; [exact (NC i src r S1)|]. destruct (SEP _ _ _ _ _ S1) as [M _]. destruct (M k x) as [_ Q]; [lia|exact A|]. exact (Q RD).
Qed.
(* an instruction that is neither a removed copy nor the definition of its source *)
Lemma related_other : forall b k s t x, related b k s t -> at_ p b k = Some x -> (forall i src dst, ~ single_copy p b i k src dst) -> (forall j src dst, ~ single_copy p b k j src dst) ->
  forall s' t', (forall r, ~ writes x r -> s' r = s r) -> (forall r, ~ writes x r -> t' r = t r) -> (forall r, writes x r -> t' r = s' r) -> related b (S k) s' t'.
Proof.
  intros b k s t x R A NC ND s' t' HS HT HW r N.
  assert (PN : forall i j src, pending b (S k) i j src r <-> pending b k i j src r).
  { intros i j src. unfold pending. split; intros [S1 L]; (split; [exact S1|]).
    - destruct (Nat.eq_dec i k) as [->|NE]; [destruct (ND j src r S1)|lia].
    - destruct (Nat.eq_dec j k) as [->|NE]; [destruct (NC i src r S1)|lia]. }
  assert (DEC : writes x r \/ ~ writes x r) by (destruct x; cbn; try tauto; apply Nat.eq_decidable).
  destruct (R r N) as [(i & j & src & P & E)|[P E]].
  - left. exists i, j, src. split; [apply PN; exact P|]. destruct P as [S1 [L1 L2]]. destruct (Nat.eq_dec k j) as [->|NE]; [destruct (NC i src r S1)|]. destruct (SEP _ _ _ _ _ S1) as [M _].
    destruct (M k x) as [Q _]; [lia|exact A|]. rewrite HT by exact Q. rewrite HS; [exact E|]. intro W. destruct S1 as (_ & _ & _ & WU & _). destruct (WU b k x A W) as [_ ->]. lia.
  - right. split; [intros i j src X; apply PN in X; exact (P i j src X)|]. destruct DEC as [W|W]; [apply HW; exact W|]. rewrite HT, HS by exact W. exact E.
Qed.
Lemma related_copy : forall b k i src dst s t, related b k s t -> single_copy p b i k src dst -> related b (S k) (upd s dst (s src)) t.
Proof.
  intros b k i src dst s t R S1 r N. unfold upd. destruct (R r N) as [(i' & j' & src' & [S2 L2] & E)|[P E]].
  - destruct (Nat.eq_dec j' k) as [->|NE].
    + assert (src' = src /\ r = dst) as [-> ->] by (destruct S1 as (_ & A1 & _), S2 as (_ & A2 & _); rewrite A1 in A2; injection A2 as -> ->; auto).
      right. split; [|rewrite Nat.eqb_refl; exact E]. intros i2 j2 src2 [S3 L3]. assert (HA := S1). destruct HA as (_ & A1 & _). destruct (SEP _ _ _ _ _ S3) as [M M2]. destruct (Nat.eq_dec i2 k) as [->|N2]; [apply (M2 i src); replace src2 with dst; [exact S1|]; destruct S3 as (_ & _ & (x & A3 & W3) & _); rewrite A1 in A3; injection A3 as <-; exact W3|].
      destruct (M k (Copy dst src)) as [Q _]; [lia|exact A1|]. apply Q. reflexivity.
    + left. exists i', j', src'. split; [split; [exact S2|lia]|]. destruct (Nat.eqb_spec src' dst) as [->|_]; [|exact E].
      exfalso. assert (HA := S1). destruct HA as (_ & A1 & _). assert (HB := S2). destruct HB as (_ & _ & _ & WU & _). destruct (WU b k _ A1 eq_refl) as [_ <-]. lia.
  - assert (ND : r <> dst).
    { intros ->. apply (P i k src). split; [exact S1|]. destruct S1 as (L & _). lia. }
    right. split.
    + intros i2 j2 src2 [S3 L3]. destruct (Nat.eq_dec i2 k) as [->|N2]; [|apply (P i2 j2 src2); split; [exact S3|lia]].
      destruct (SEP _ _ _ _ _ S3) as [_ M]. apply (M i src). replace src2 with dst; [exact S1|]. destruct S3 as (_ & _ & (x & A3 & W3) & _), S1 as (_ & A1 & _). rewrite A1 in A3. injection A3 as <-. exact W3.
    + destruct (Nat.eqb_spec r dst); [contradiction|exact E].
Qed.
Lemma related_def : forall b k j src dst s t v, related b k s t -> single_copy p b k j src dst -> related b (S k) (upd s src v) (upd t dst v).
Proof.
  intros b k j src dst s t v R S1 r N. unfold upd. destruct (Nat.eqb_spec r dst) as [->|NE].
  - left. exists k, j, src. split; [split; [exact S1|destruct S1 as (L & _); lia]|]. rewrite Nat.eqb_refl. reflexivity.
  - assert (NS : r <> src) by (intros ->; apply N; exists b, k, j, dst; exact S1).
    destruct (R r N) as [(i' & j' & src' & [S2 L2] & E)|[P E]].
    + left. exists i', j', src'. destruct (Nat.eq_dec j' k) as [->|NK].
      { exfalso. destruct (SEP _ _ _ _ _ S1) as [_ M]. apply (M i' src'). assert (HA := S2). destruct HA as (_ & A2 & _). assert (HB := S1). destruct HB as (_ & _ & (x & A1 & W1) & _). rewrite A2 in A1. injection A1 as <-. cbn in W1. subst r. exact S2. }
      split; [split; [exact S2|lia]|]. destruct (Nat.eqb_spec src' src) as [->|_]; [|exact E]. destruct (single_unique _ _ _ _ _ _ _ _ _ S1 S2) as (_ & -> & _). lia.
    + right. split; [|destruct (Nat.eqb_spec r src); [contradiction|exact E]]. intros i2 j2 src2 [S3 L3]. destruct (Nat.eq_dec i2 k) as [->|N2]; [|apply (P i2 j2 src2); split; [exact S3|lia]].
      apply NE. assert (src2 = src) as ->.
      { destruct S3 as (_ & _ & (x & A & W) & _), S1 as (_ & _ & (x' & A' & W') & _). rewrite A in A'. injection A' as <-. destruct x; cbn in W, W'; try contradiction; congruence. }
      destruct (single_unique _ _ _ _ _ _ _ _ _ S1 S3) as (_ & _ & _ & ->). reflexivity.
Qed.
Lemma related_done : forall b k s t, related b k s t -> (forall j x, k <= j -> at_ p b j = Some x -> is_jump x) -> agree s t.
Proof.
  intros b k s t R J r N. apply (related_no b k s t r R N). intros i j src [(_ & A & _) [_ L]]. exact (J j _ L A).
Qed.
Lemma exec_collapse : forall l b k s t m, (forall i, nth_error l i = at_ p b (k + i)) -> related b k s t ->
  let '(s', m1, o1) := exec l s m in let '(t', m2, o2) := exec (rewrite_block (collapse_state p) b k l) t m in m2 = m1 /\ o2 = o1 /\ agree s' t'.
Proof.
  destruct collapse_final as [CD CH].
  induction l as [|x l IH]; intros b k s t m NT R.
  { cbn. split; [reflexivity|]. split; [reflexivity|]. apply (related_done b k s t R). intros j y L A. specialize (NT (j - k)). replace (k + (j - k)) with j in NT by lia. rewrite A in NT. destruct (j - k); discriminate NT. }
  assert (A : at_ p b k = Some x) by (specialize (NT 0); rewrite Nat.add_0_r in NT; symmetry; exact NT).
  assert (NT' : forall i, nth_error l i = at_ p b (S k + i)) by (intro i; specialize (NT (S i)); cbn [nth_error] in NT; rewrite NT; f_equal; lia).
  cbn [rewrite_block]. destruct (existsb (pos_eqb (b, k)) (dead (collapse_state p))) eqn:DD.
  { apply existsb_exists in DD. destruct DD as (q & Hq & E). apply pos_eqb_spec in E. subst q. apply CD in Hq. destruct Hq as (i & src & dst & S1). assert (HA := S1). destruct HA as (_ & A1 & _). rewrite A in A1. injection A1 as ->.
    cbn [McSpec.exec]. apply IH; [exact NT'|]. eapply related_copy; eassumption. }
  assert (NC : forall i src dst, ~ single_copy p b i k src dst).
  { intros i src dst S1. assert (H : In (b, k) (dead (collapse_state p))) by (apply CD; eauto). rewrite <- not_true_iff_false in DD. apply DD. apply existsb_exists. exists (b, k). split; [exact H|now apply pos_eqb_spec]. }
  assert (RS : forall us, (forall r, In r us -> reads x r) -> map t us = map s us) by (intros us H; apply map_ext_in; intros r Hr; eapply reads_same; [exact R|exact A|exact NC|apply H; exact Hr]).
  destruct (new_dest (chg (collapse_state p)) (b, k)) as [d|] eqn:ND.
  { apply CH in ND. destruct ND as (j & src & S1). assert (HA := S1). destruct HA as (_ & _ & (x' & A1 & W) & _). rewrite A in A1. injection A1 as <-. destruct x as [d0 op us|d0 s0| | | |]; cbn in W; try contradiction; subst d0; cbn [with_dest McSpec.exec].
    - rewrite RS by auto. apply IH; [exact NT'|]. eapply related_def; eassumption.
    - replace (t s0) with (s s0) by (symmetry; eapply reads_same; [exact R|exact A|exact NC|reflexivity]). apply IH; [exact NT'|]. eapply related_def; eassumption. }
  assert (NDF : forall j src dst, ~ single_copy p b k j src dst) by (intros j src dst S1; assert (H : new_dest (chg (collapse_state p)) (b, k) = Some dst) by (apply CH; eauto); congruence).
  assert (AG : is_jump x -> agree s t) by (intro J; apply (related_done b k s t R); intros j y L AY; exact (BB b k j x y A J L AY)).
  destruct x as [d op us|d s0|e us|e us b'|b'|]; cbn [with_dest McSpec.exec].
  - rewrite RS by auto. apply IH; [exact NT'|]. apply (related_other b k s t _ R A NC NDF); cbn; intros r W; try (destruct (Nat.eqb_spec r d); congruence).
  - replace (t s0) with (s s0) by (symmetry; eapply reads_same; [exact R|exact A|exact NC|reflexivity]). apply IH; [exact NT'|]. apply (related_other b k s t _ R A NC NDF); cbn; intros r W; try (destruct (Nat.eqb_spec r d); congruence).
  - rewrite RS by auto. apply IH; [exact NT'|]. apply (related_other b k s t _ R A NC NDF); cbn; intros r W; try reflexivity; contradiction.
  - rewrite RS by auto. destruct (test e (map s us) m); [split; [reflexivity|]; split; [reflexivity|apply AG; exact I]|]. apply IH; [exact NT'|]. apply (related_other b k s t _ R A NC NDF); cbn; intros r W; try reflexivity; contradiction.
  - split; [reflexivity|]. split; [reflexivity|apply AG; exact I].
  - split; [reflexivity|]. split; [reflexivity|apply AG; exact I].
Qed.
Lemma rewrite_nth : forall st q b k, nth_error (rewrite_prog st b q) k = option_map (rewrite_block st (b + k) 0) (nth_error q k).
Proof. intros st. induction q as [|l q IH]; intros b [|k]; cbn [rewrite_prog nth_error option_map]; try reflexivity; [now rewrite Nat.add_0_r|]. rewrite IH. now replace (S b + k) with (b + S k) by lia. Qed.
Lemma agree_related : forall b s t, agree s t -> related b 0 s t.
Proof. intros b s t H r N. right. split; [intros i j src [_ L]; lia|exact (H r N)]. Qed.
Lemma run_collapse : forall n b s t m, agree s t ->
  match run n p b s m, run n (collapse_copies p) b t m with
  | Some (s', m1), Some (t', m2) => m2 = m1 /\ agree s' t'
  | None, None => True
  | _, _ => False
  end.
Proof.
  induction n as [|n IH]; intros b s t m AG; [exact I|]. cbn [McSpec.run]. assert (NX : nth_error (collapse_copies p) b = option_map (rewrite_block (collapse_state p) b 0) (nth_error p b)) by (unfold collapse_copies; rewrite rewrite_nth; reflexivity). rewrite NX. destruct (nth_error p b) as [l|] eqn:L; [|split; [reflexivity|exact AG]]. cbn [option_map Nat.add].
  pose proof (exec_collapse l b 0 s t m) as X. destruct (exec l s m) as [[s' m1] o1]. destruct (exec (rewrite_block (collapse_state p) b 0 l) t m) as [[t' m2] o2].
  destruct X as (-> & -> & AG'); [intro i; unfold at_; rewrite L; reflexivity|apply agree_related; exact AG|]. destruct o1 as [|b'|]; [apply IH; exact AG'|apply IH; exact AG'|split; [reflexivity|exact AG']].
Qed.

Lemma rewrite_in : forall st l b k x', In x' (rewrite_block st b k l) -> exists i x, nth_error l i = Some x /\ ~ In (b, k + i) (dead st) /\ x' = with_dest x (new_dest (chg st) (b, k + i)).
Proof.
  intros st. induction l as [|x l IH]; intros b k x' H; [destruct H|]. cbn [rewrite_block] in H.
  assert (T : In x' (rewrite_block st b (S k) l) -> exists i y, nth_error (x :: l) i = Some y /\ ~ In (b, k + i) (dead st) /\ x' = with_dest y (new_dest (chg st) (b, k + i))).
  { intro H'. destruct (IH b (S k) x' H') as (i & y & A & B & C). exists (S i), y. replace (k + S i) with (S k + i) by lia. auto. }
  destruct (existsb (pos_eqb (b, k)) (dead st)) eqn:D; [exact (T H)|]. destruct H as [H|H]; [|exact (T H)]. exists 0, x. rewrite Nat.add_0_r. split; [reflexivity|]. split; [|now symmetry].
  intro X. rewrite <- not_true_iff_false in D. apply D. apply existsb_exists. exists (b, k). split; [exact X|now apply pos_eqb_spec].
Qed.
Lemma collapsed_gone : forall r, collapsed p r -> forall b k x, at_ (collapse_copies p) b k = Some x -> ~ writes x r /\ ~ reads x r.
Proof.
  destruct collapse_final as [CD CH]. intros r (b0 & i0 & j0 & dst & S0) b k x' A. unfold at_, collapse_copies in A. rewrite rewrite_nth in A. destruct (nth_error p b) as [l|] eqn:L; [|discriminate A]. cbn [option_map] in A. apply nth_error_In in A. apply rewrite_in in A. destruct A as (i & x & N & ND & ->). cbn [Nat.add] in ND |- *.
  assert (AX : at_ p b i = Some x) by (unfold at_; rewrite L; exact N). assert (HS := S0). destruct HS as (_ & _ & _ & W & U).
  assert (RD : reads x r -> False) by (intro R; destruct (U b i x AX R) as [-> ->]; apply ND; apply CD; eauto).
  destruct (new_dest (chg (collapse_state p)) (b, i)) as [d|] eqn:NW.
  - assert (HW := NW). apply CH in HW. destruct HW as (j & src & S1). split.
    + intro WX. assert (d = r) as -> by (destruct x; cbn in WX; auto; contradiction). assert (HC := S1). destruct HC as (_ & AC & _). destruct (W b j _ AC eq_refl) as [-> ->]. destruct (SEP _ _ _ _ _ S0) as [_ M]. exact (M i src S1).
    + intro R. apply RD. destruct x; exact R.
  - replace (with_dest x None) with x by (destruct x; reflexivity). split; [|exact RD]. intro WX. destruct (W b i x AX WX) as [-> ->]. assert (X : new_dest (chg (collapse_state p)) (b0, i0) = Some dst) by (apply CH; eauto). congruence.
Qed.
Lemma nothing_collapsed : (forall r, ~ collapsed p r) -> collapse_copies p = p.
Proof.
  intro NO. destruct collapse_final as [CD CH].
  assert (D : forall q, In q (dead (collapse_state p)) -> False) by (intros [b j] H; apply CD in H; destruct H as (i & src & dst & S1); apply (NO src); exists b, i, j, dst; exact S1).
  assert (C : forall q, new_dest (chg (collapse_state p)) q = None) by (intros [b i]; destruct (new_dest (chg (collapse_state p)) (b, i)) as [d|] eqn:E; [|reflexivity]; apply CH in E; destruct E as (j & src & S1); destruct (NO src); exists b, i, j, d; exact S1).
  assert (BL : forall b l k, rewrite_block (collapse_state p) b k l = l).
  { intro b. induction l as [|x l IH]; intro k; [reflexivity|]. cbn [rewrite_block]. destruct (existsb (pos_eqb (b, k)) (dead (collapse_state p))) eqn:E; [apply existsb_exists in E; destruct E as (z & Hz & _); destruct (D z Hz)|]. rewrite C, IH. destruct x; reflexivity. }
  assert (PR : forall q b, rewrite_prog (collapse_state p) b q = q) by (induction q as [|l q IH]; intro b; [reflexivity|]; cbn [rewrite_prog]; rewrite BL, IH; reflexivity).
  apply PR.
Qed.
End Collapse.
