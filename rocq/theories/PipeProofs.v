From Coq Require Import List Arith Bool Lia.
From Verif Require Import DomModel DomProofs PipeModel PipeSpec.
Import ListNotations.

Section P.
Context {V : Type}.
Variable nodes : nat -> node V.
Variable stage : nat -> nat.
Notation op_ins := (op_ins nodes).
Notation operands := (operands nodes).
Notation feeds := (feeds nodes).
Notation timed := (timed nodes).
Notation causal := (causal nodes stage).
Notation retime := (retime V nodes stage).
Notation in_loop := (in_loop V nodes stage).
Notation fetch := (fetch stage).
Notation propagate := (propagate stage).

Definition sg (n s : nat) : sig := if s =? stage n then SOrig n else SReg n s.
Definition want (t i : nat) : sig :=
  match nodes i with
  | NCst _ | NPos _ _ => SOrig i
  | NDelay _ _ x => sg x t
  | NIn | NOp _ _ => sg i t
  end.

Variable R : nat -> Prop.
Hypothesis HR : forall n i, R n -> In i (operands n) -> R i.
Variable rank : nat -> nat.
Hypothesis Hrank : forall n i, In i (operands n) -> rank i < rank n.
Hypothesis Hdelay : delays_fit nodes stage.

Record inv (mx : nat -> nat) (m : rmap) : Prop := {
  I1 : forall n s, lookup n s (smap m) =
       if memb n (proc m) && (stage n <=? s) && (s <=? mx n) then Some (sg n s) else None;
  I1' : forall n, stage n <= mx n;
  I2 : forall s d g, In (s, (d, g)) (fwd m) <->
       exists n, In n (proc m) /\ stage n <= s < mx n /\ d = SReg n (S s) /\ g = sg n s;
  I2' : NoDup (fwd m);
  I3 : forall n, In n (proc m) -> ins_of m n = map (want (stage n)) (op_ins n);
  I3' : forall n, In n (proc m) -> causal n;
  I4 : forall c n, In c (proc m) -> feeds n c -> In n (proc m) /\ stage c <= mx n;
  I5 : forall n, stage n < mx n -> In n (proc m) /\ exists c, R c /\ feeds n c /\ stage c = mx n;
  I6 : forall n i, In n (proc m) -> In i (op_ins n) -> In i (proc m);
  I7 : forall n, In n (proc m) -> R n
}.

Lemma lookup_len : forall n a k mp, (forall j, j < k -> lookup n (a + j) mp <> None) -> k <= length mp.
Proof.
  intros n a k mp H.
  assert (Hin : forall s, lookup n s mp <> None -> In (n, s) (map fst mp)).
  { clear H. intros s. induction mp as [|((n', s'), g) r IH]; cbn [lookup map In fst]; [congruence|].
    destruct (n =? n') eqn:E1; cbn [andb]; [|auto].
    destruct (s =? s') eqn:E2; [|auto]. apply Nat.eqb_eq in E1, E2. subst. auto. }
  rewrite <- (map_length fst mp). rewrite <- (seq_length k a), <- (map_length (fun s => (n, s)) (List.seq a k)).
  apply NoDup_incl_length.
  - apply FinFun.Injective_map_NoDup; [|apply seq_NoDup]. intros x y E. congruence.
  - intros p Hp. apply in_map_iff in Hp. destruct Hp as [s [<- Hs]]. apply in_seq in Hs.
    apply Hin. replace s with (a + (s - a)) by lia. apply H. lia.
Qed.

Lemma latest_ok : forall mx m n, inv mx m -> In n (proc m) ->
  forall f cur, stage n <= cur <= mx n -> mx n - cur < f -> latest f n cur m = Some (mx n).
Proof.
  intros mx m n Hi Hn f. induction f as [|f IH]; intros cur Hc Hf; [lia|].
  cbn [latest]. unfold contains. rewrite (I1 _ _ Hi).
  apply memb_in in Hn. rewrite Hn. cbn [andb].
  replace (stage n <=? S cur) with true by (symmetry; apply Nat.leb_le; lia). cbn [andb].
  destruct (Nat.leb_spec (S cur) (mx n)).
  - apply IH; lia.
  - f_equal. lia.
Qed.

Definition ext (m m' : rmap) : Prop := proc m' = proc m /\ ins_of m' = ins_of m.

Lemma sg_orig : forall n, sg n (stage n) = SOrig n.
Proof. intros. unfold sg. now rewrite Nat.eqb_refl. Qed.
Lemma sg_reg : forall n s, stage n < s -> sg n s = SReg n s.
Proof. intros. unfold sg. destruct (Nat.eqb_spec s (stage n)); [lia|auto]. Qed.

(* what forward adds *)
Lemma forward_spec : forall k n cur m,
  stage n <= cur ->
  let m' := forward k n cur (sg n cur) m in
  proc m' = proc m /\ ins_of m' = ins_of m /\
  fwd m' = fwd m ++ map (fun s => (s, (SReg n (S s), sg n s))) (List.seq cur k) /\
  (forall n' s, lookup n' s (smap m') =
     if (n' =? n) && (S cur <=? s) && (s <=? cur + k) then Some (sg n s) else lookup n' s (smap m)).
Proof.
  induction k as [|k IH]; intros n cur m Hc m'.
  - subst m'. cbn [forward List.seq map]. rewrite app_nil_r. repeat split; auto. intros n' s.
    destruct (n' =? n); cbn [andb]; auto.
    destruct (Nat.leb_spec (S cur) s); cbn [andb]; auto. destruct (Nat.leb_spec s (cur + 0)); [lia|auto].
  - subst m'. cbn [forward List.seq map].
    rewrite <- (sg_reg n (S cur)) by lia.
    set (m1 := RM _ _ _ _).
    destruct (IH n (S cur) m1) as [A [B [C D]]]; [lia|].
    split; [exact A|]. split; [exact B|]. split.
    + rewrite C. subst m1. cbn [fwd]. rewrite <- app_assoc. reflexivity.
    + intros n' s. rewrite D. subst m1. cbn [smap lookup].
      destruct (Nat.eqb_spec n' n) as [->|]; cbn [andb]; auto.
      destruct (Nat.eqb_spec s (S cur)) as [->|].
      * destruct (Nat.leb_spec (S (S cur)) (S cur)); [lia|]. cbn [andb].
        destruct (Nat.leb_spec (S cur) (S cur)); [|lia].
        destruct (Nat.leb_spec (S cur) (cur + S k)); [|lia]. reflexivity.
      * destruct (Nat.leb_spec (S (S cur)) s); cbn [andb].
        -- destruct (Nat.leb_spec (S cur) s); [|lia]. cbn [andb].
           destruct (Nat.leb_spec s (S cur + k)); destruct (Nat.leb_spec s (cur + S k)); try lia; auto.
        -- destruct (Nat.leb_spec (S cur) s); [lia|]. reflexivity.
Qed.

Definition raise (mx : nat -> nat) (n s : nat) : nat -> nat := fun k => if k =? n then Nat.max (mx n) s else mx k.

Lemma inv_mx : forall mx mx' m, inv mx m -> (forall k, mx' k = mx k) -> inv mx' m.
Proof.
  intros mx mx' m Hi E. constructor.
  - intros n s. rewrite E. apply (I1 _ _ Hi).
  - intros n. rewrite E. apply (I1' _ _ Hi).
  - intros s d g. rewrite (I2 _ _ Hi). split; intros [k Hk]; exists k; rewrite E in *; auto.
  - apply (I2' _ _ Hi).
  - apply (I3 _ _ Hi).
  - apply (I3' _ _ Hi).
  - intros c n. rewrite E. apply (I4 _ _ Hi).
  - intros n. rewrite E. apply (I5 _ _ Hi).
  - apply (I6 _ _ Hi).
  - apply (I7 _ _ Hi).
Qed.

Lemma fetch_ok : forall mx m n s, inv mx m -> In n (proc m) -> stage n <= s ->
  (exists c, R c /\ feeds n c /\ stage c = s) ->
  exists m', fetch n s m = Some (m', sg n s) /\ inv (raise mx n s) m' /\ ext m m'.
Proof.
  intros mx m n s Hi Hn Hs Hc. unfold PipeModel.fetch, contains.
  rewrite (I1 _ _ Hi). pose proof Hn as Hnb. apply memb_in in Hnb. rewrite Hnb. cbn [andb].
  replace (stage n <=? s) with true by (symmetry; apply Nat.leb_le; lia). cbn [andb].
  destruct (Nat.leb_spec s (mx n)).
  - exists m. rewrite (I1 _ _ Hi), Hnb.
    replace (stage n <=? s) with true by (symmetry; apply Nat.leb_le; lia).
    replace (s <=? mx n) with true by (symmetry; apply Nat.leb_le; lia). cbn [andb].
    split; [reflexivity|]. split; [|split; reflexivity].
    assert (E : forall k, raise mx n s k = mx k).
    { intros k. unfold raise. destruct (Nat.eqb_spec k n) as [->|]; lia. }
    apply (inv_mx mx); auto.
  - unfold PipeModel.propagate.
    assert (Hl : mx n - stage n < length (smap m)).
    { apply (lookup_len n (stage n)). intros j Hj. rewrite (I1 _ _ Hi), Hnb.
      replace (stage n <=? stage n + j) with true by (symmetry; apply Nat.leb_le; lia).
      pose proof (I1' _ _ Hi n).
      replace (stage n + j <=? mx n) with true by (symmetry; apply Nat.leb_le; lia). discriminate. }
    pose proof (I1' _ _ Hi n) as Hmn.
    rewrite (latest_ok mx m n Hi Hn) by lia.
    rewrite (I1 _ _ Hi), Hnb.
    replace (stage n <=? mx n) with true by (symmetry; apply Nat.leb_le; lia).
    rewrite Nat.leb_refl. cbn [andb].
    destruct (Nat.ltb_spec s (mx n)); [lia|].
    destruct (forward_spec (s - mx n) n (mx n) m Hmn) as [A [B [C D]]].
    set (m' := forward _ _ _ _ _) in *.
    exists m'. rewrite D, Nat.eqb_refl.
    replace (S (mx n) <=? s) with true by (symmetry; apply Nat.leb_le; lia).
    replace (s <=? mx n + (s - mx n)) with true by (symmetry; apply Nat.leb_le; lia). cbn [andb].
    split; [reflexivity|]. split; [|split; auto].
    assert (Ern : raise mx n s n = s) by (unfold raise; rewrite Nat.eqb_refl; lia).
    assert (Ero : forall k, k <> n -> raise mx n s k = mx k).
    { intros k Hk. unfold raise. destruct (Nat.eqb_spec k n); [easy|auto]. }
    assert (Hge : forall k, mx k <= raise mx n s k).
    { intros k. destruct (Nat.eq_dec k n) as [->|Hk]; [lia|]. rewrite Ero; auto. }
    constructor.
    + intros n' s'. rewrite D, A, (I1 _ _ Hi).
      destruct (Nat.eqb_spec n' n) as [->|Hne]; cbn [andb]; [|rewrite Ero; auto].
      rewrite Ern, Hnb. cbn [andb].
      destruct (Nat.leb_spec (S (mx n)) s'); cbn [andb];
      destruct (Nat.leb_spec (stage n) s'); cbn [andb]; try lia.
      * destruct (Nat.leb_spec s' (mx n + (s - mx n))); destruct (Nat.leb_spec s' s); try lia; auto.
        destruct (Nat.leb_spec s' (mx n)); auto; lia.
      * destruct (Nat.leb_spec s' (mx n)); destruct (Nat.leb_spec s' s); try lia; auto.
      * auto.
    + intros k. pose proof (I1' _ _ Hi k). pose proof (Hge k). lia.
    + intros s' d g. rewrite C, A, in_app_iff, (I2 _ _ Hi), in_map_iff. split.
      * intros [[k [K1 [K2 [K3 K4]]]]|[k [K1 K2]]].
        -- exists k. pose proof (Hge k). repeat split; auto; lia.
        -- apply in_seq in K2. injection K1 as -> <- <-. exists n. rewrite Ern. repeat split; auto; lia.
      * intros [k [K1 [K2 [K3 K4]]]]. destruct (Nat.eq_dec k n) as [->|Hk].
        -- rewrite Ern in K2. destruct (Nat.lt_ge_cases s' (mx n)).
           ++ left. exists n. repeat split; auto; lia.
           ++ right. exists s'. subst. split; auto. apply in_seq. lia.
        -- rewrite Ero in K2 by auto. left. exists k. auto.
    + rewrite C. assert (Hnd : NoDup (map (fun s0 => (s0, (SReg n (S s0), sg n s0))) (List.seq (mx n) (s - mx n)))).
      { apply FinFun.Injective_map_NoDup; [|apply seq_NoDup]. intros x y E. congruence. }
      pose proof (I2' _ _ Hi) as N1. revert Hnd.
      assert (Hdis : forall e, In e (fwd m) -> ~ In e (map (fun s0 => (s0, (SReg n (S s0), sg n s0))) (List.seq (mx n) (s - mx n)))).
      { intros [s' [d g]] He Hx. apply (I2 _ _ Hi) in He. destruct He as [k [K1 [K2 [K3 K4]]]].
        apply in_map_iff in Hx. destruct Hx as [s0 [E0 E1]]. apply in_seq in E1.
        injection E0 as E2 E3 E4. subst. injection E3 as E5. subst. lia. }
      revert N1 Hdis. generalize (fwd m). clear. intros l.
      induction l as [|a l IH]; intros N1 Hdis N2; cbn [app]; auto.
      inversion N1 as [|? ? M1 M2]. constructor.
      * rewrite in_app_iff. intros [Hx|Hx]; [auto|]. apply (Hdis a); [now left|auto].
      * apply IH; auto. intros e He. apply Hdis. now right.
    + intros k Hk. rewrite A in Hk. rewrite B. apply (I3 _ _ Hi); auto.
    + intros k Hk. rewrite A in Hk. apply (I3' _ _ Hi); auto.
    + intros c k Hk Hf. rewrite A in *. destruct (I4 _ _ Hi c k Hk Hf) as [X Y]. split; auto. pose proof (Hge k). lia.
    + intros k Hk. rewrite A. destruct (Nat.eq_dec k n) as [->|Hne].
      * split; auto. rewrite Ern. auto.
      * rewrite Ero in * by auto. apply (I5 _ _ Hi). auto.
    + intros k i Hk Hin. rewrite A in *. apply (I6 _ _ Hi k); auto.
    + intros k Hk. rewrite A in *. apply (I7 _ _ Hi); auto.
Qed.

Definition le_st (mx : nat -> nat) (m : rmap) (mx' : nat -> nat) (m' : rmap) : Prop :=
  (forall k, mx k <= mx' k) /\ incl (proc m) (proc m').
Lemma le_st_refl : forall mx m, le_st mx m mx m.
Proof. split; auto. apply incl_refl. Qed.
Lemma le_st_trans : forall a b c d e f, le_st a b c d -> le_st c d e f -> le_st a b e f.
Proof.
  intros a b c d e f [A1 A2] [B1 B2]. split; [intros k; specialize (A1 k); specialize (B1 k); lia|].
  eapply incl_tran; eauto.
Qed.
Lemma le_st_raise : forall mx m n s m', ext m m' -> le_st mx m (raise mx n s) m'.
Proof.
  intros mx m n s m' [E _]. split; [|rewrite E; apply incl_refl].
  intros k. unfold raise. destruct (Nat.eqb_spec k n) as [->|]; lia.
Qed.

(* what a call on n achieves *)
Definition achieves (res : option rmap) (n : nat) (mx : nat -> nat) (m : rmap) : Prop :=
  (exists mx' m', res = Some m' /\ inv mx' m' /\ le_st mx m mx' m' /\ In n (proc m')) \/
  (res = None /\ exists c, R c /\ ~ causal c).

Lemma op_ins_operands : forall n i, In i (op_ins n) -> In i (operands n).
Proof. intros n i. unfold PipeSpec.op_ins, PipeSpec.operands. destruct (nodes n); auto. intros []. Qed.

Lemma loop_ok : forall n visit, R n ->
  (forall i mx m, R i -> rank i < rank n -> inv mx m -> achieves (visit i m) i mx m) ->
  forall l acc mx m, inv mx m -> (forall i, In i l -> In i (op_ins n)) ->
  (exists mx' m', in_loop visit l (stage n) m acc = Some (m', stage n, acc ++ map (want (stage n)) l) /\
     inv mx' m' /\ le_st mx m mx' m' /\
     (forall i, In i l -> In i (proc m') /\ (timed i -> stage i <= stage n /\ stage n <= mx' i) /\
        (forall rl d x, nodes i = NDelay rl d x -> In x (proc m') /\ stage n <= mx' x))) \/
  (in_loop visit l (stage n) m acc = None /\ exists c, R c /\ ~ causal c).
Proof.
  intros n visit Rn HV l. induction l as [|i r IH]; intros acc mx m Hi Hl.
  - left. exists mx, m. cbn [PipeModel.in_loop map]. rewrite app_nil_r.
    split; [reflexivity|]. split; [auto|]. split; [apply le_st_refl|]. intros i [].
  - assert (Hin : In i (op_ins n)) by (apply Hl; now left).
    assert (Ri : R i) by (eapply HR; [exact Rn|now apply op_ins_operands]).
    assert (Ki : rank i < rank n) by (apply Hrank; now apply op_ins_operands).
    assert (Hr : forall j, In j r -> In j (op_ins n)) by (intros; apply Hl; now right).
    cbn [PipeModel.in_loop].
    destruct (HV i mx m Ri Ki Hi) as [[mx1 [m1 [E1 [Hi1 [L1 P1]]]]]|[E1 Hbad]]; rewrite E1; [|right; auto].
    (* continue after input i was dealt with *)
    assert (Cont : forall mx2 m2, inv mx2 m2 -> le_st mx1 m1 mx2 m2 ->
      (timed i -> stage i <= stage n /\ stage n <= mx2 i) ->
      (forall rl d x, nodes i = NDelay rl d x -> In x (proc m2) /\ stage n <= mx2 x) ->
      (exists mx' m', in_loop visit r (stage n) m2 (acc ++ [want (stage n) i]) = Some (m', stage n, acc ++ map (want (stage n)) (i :: r)) /\
         inv mx' m' /\ le_st mx m mx' m' /\
         (forall j, In j (i :: r) -> In j (proc m') /\ (timed j -> stage j <= stage n /\ stage n <= mx' j) /\
            (forall rl d x, nodes j = NDelay rl d x -> In x (proc m') /\ stage n <= mx' x))) \/
      (in_loop visit r (stage n) m2 (acc ++ [want (stage n) i]) = None /\ exists c, R c /\ ~ causal c)).
    { intros mx2 m2 Hi2 L2 T D.
      destruct (IH (acc ++ [want (stage n) i]) mx2 m2 Hi2 Hr) as [[mx3 [m3 [E3 [Hi3 [L3 Q3]]]]]|[E3 Hb]]; [left|right; auto].
      exists mx3, m3. rewrite E3. cbn [map]. rewrite <- app_assoc. cbn [app].
      split; [reflexivity|]. split; [auto|]. split.
      { eapply le_st_trans; [exact L1|]. eapply le_st_trans; eauto. }
      intros j [<-|Hj]; [|auto].
      destruct L2 as [L2a L2b]. destruct L3 as [L3a L3b]. split; [auto|]. split.
      - intros Ht. destruct (T Ht). specialize (L3a i). split; lia.
      - intros rl d x Ex. destruct (D rl d x Ex) as [D1 D2]. specialize (L3a x). split; [auto|lia]. }
    destruct (nodes i) as [|c|c li|f li|rl d x] eqn:Ni.
    + (* input signal *)
      assert (Ht : timed i) by (unfold PipeSpec.timed; rewrite Ni; exact I).
      assert (Hw : want (stage n) i = sg i (stage n)) by (unfold want; rewrite Ni; auto).
      destruct (Nat.ltb_spec (stage i) (stage n)).
      * destruct (fetch_ok mx1 m1 i (stage n) Hi1 P1) as [m2 [E2 [Hi2 X2]]]; [lia| |].
        { exists n. split; [auto|]. split; [|auto]. left. auto. }
        rewrite E2, <- Hw. apply (Cont (raise mx1 i (stage n)) m2); auto.
        -- now apply le_st_raise.
        -- intros _. split; [lia|]. unfold raise. rewrite Nat.eqb_refl. lia.
        -- intros; congruence.
      * destruct (Nat.ltb_spec (stage n) (stage i)).
        -- right. split; auto. exists n. split; auto. intros Hc. specialize (Hc i Hin Ht). lia.
        -- assert (Es : stage i = stage n) by lia.
           replace (SOrig i) with (want (stage n) i) by (unfold want; rewrite Ni, <- Es; apply sg_orig).
           apply (Cont mx1 m1); auto; [apply le_st_refl| |intros; congruence].
           intros _. pose proof (I1' _ _ Hi1 i). lia.
    + replace (SOrig i) with (want (stage n) i) by (unfold want; now rewrite Ni).
      apply (Cont mx1 m1); auto; [apply le_st_refl| |intros; congruence].
      unfold PipeSpec.timed. rewrite Ni. intros [].
    + replace (SOrig i) with (want (stage n) i) by (unfold want; now rewrite Ni).
      apply (Cont mx1 m1); auto; [apply le_st_refl| |intros; congruence].
      unfold PipeSpec.timed. rewrite Ni. intros [].
    + assert (Ht : timed i) by (unfold PipeSpec.timed; rewrite Ni; exact I).
      assert (Hw : want (stage n) i = sg i (stage n)) by (unfold want; rewrite Ni; auto).
      destruct (Nat.ltb_spec (stage i) (stage n)).
      * destruct (fetch_ok mx1 m1 i (stage n) Hi1 P1) as [m2 [E2 [Hi2 X2]]]; [lia| |].
        { exists n. split; [auto|]. split; [|auto]. left. auto. }
        rewrite E2, <- Hw. apply (Cont (raise mx1 i (stage n)) m2); auto.
        -- now apply le_st_raise.
        -- intros _. split; [lia|]. unfold raise. rewrite Nat.eqb_refl. lia.
        -- intros; congruence.
      * destruct (Nat.ltb_spec (stage n) (stage i)).
        -- right. split; auto. exists n. split; auto. intros Hc. specialize (Hc i Hin Ht). lia.
        -- assert (Es : stage i = stage n) by lia.
           replace (SOrig i) with (want (stage n) i) by (unfold want; rewrite Ni, <- Es; apply sg_orig).
           apply (Cont mx1 m1); auto; [apply le_st_refl| |intros; congruence].
           intros _. pose proof (I1' _ _ Hi1 i). lia.
    + (* static delay *)
      destruct (Hdelay n i rl d x Hin Ni) as [Hs [Hle Hnd]]. unfold delay_target. rewrite Hs.
      assert (Hxi : In x (operands i)) by (unfold PipeSpec.operands; rewrite Ni; now left).
      assert (Rx : R x) by (eapply HR; eauto).
      assert (Kx : rank x < rank n) by (pose proof (Hrank i x Hxi); lia).
      destruct (HV x mx1 m1 Rx Kx Hi1) as [[mx2 [m2 [E2 [Hi2 [L2 P2]]]]]|[E2 Hbad]]; rewrite E2; [|right; auto].
      destruct (fetch_ok mx2 m2 x (stage n) Hi2 P2) as [m3 [E3 [Hi3 X3]]]; [lia| |].
      { exists n. split; auto. split; auto. right. exists i, rl, d. auto. }
      rewrite E3.
      replace (sg x (stage n)) with (want (stage n) i) by (unfold want; now rewrite Ni).
      apply (Cont (raise mx2 x (stage n)) m3); auto.
      * eapply le_st_trans; [exact L2|]. now apply le_st_raise.
      * unfold PipeSpec.timed. rewrite Ni. intros [].
      * intros rl' d' x' E'. injection E' as <- <- <-. destruct X3 as [X3 _]. rewrite X3. split; auto.
        unfold raise. rewrite Nat.eqb_refl. lia.
Qed.

Lemma finish_ok : forall mx m n ins, inv mx m -> R n ->
  ins = map (want (stage n)) (op_ins n) ->
  (forall i, In i (op_ins n) -> In i (proc m) /\ (timed i -> stage i <= stage n /\ stage n <= mx i) /\
        (forall rl d x, nodes i = NDelay rl d x -> In x (proc m) /\ stage n <= mx x)) ->
  inv mx (finish n (stage n) ins m).
Proof.
  intros mx m n ins Hi Rn Ei H. unfold finish.
  assert (Hmx : ~ In n (proc m) -> mx n = stage n).
  { intros Hn. pose proof (I1' _ _ Hi n). destruct (Nat.eq_dec (mx n) (stage n)); auto.
    destruct (I5 _ _ Hi n); [lia|]. contradiction. }
  constructor; cbn [smap fwd proc ins_of].
  - intros n' s. cbn [lookup memb]. rewrite (I1 _ _ Hi).
    destruct (Nat.eqb_spec n' n) as [->|]; cbn [andb orb]; auto.
    pose proof (I1' _ _ Hi n) as Hm.
    destruct (Nat.eqb_spec s (stage n)) as [->|Hs].
    + rewrite Nat.leb_refl. replace (stage n <=? mx n) with true by (symmetry; apply Nat.leb_le; lia).
      now rewrite sg_orig.
    + destruct (memb n (proc m)) eqn:Em; auto. cbn [andb].
      apply memb_out in Em. rewrite (Hmx Em).
      destruct (Nat.leb_spec (stage n) s); destruct (Nat.leb_spec s (stage n)); auto. lia.
  - apply (I1' _ _ Hi).
  - intros s d g. rewrite (I2 _ _ Hi). split; intros [k [K1 K2]]; exists k; (split; [|auto]).
    + now right.
    + destruct K1 as [<-|K1]; auto. destruct (in_dec Nat.eq_dec n (proc m)); auto. rewrite Hmx in K2 by auto. lia.
  - apply (I2' _ _ Hi).
  - intros k [<-|Hk]; [rewrite Nat.eqb_refl; auto|]. destruct (Nat.eqb_spec k n) as [->|]; auto. apply (I3 _ _ Hi); auto.
  - intros k [<-|Hk]; [|apply (I3' _ _ Hi); auto]. intros i Hin Ht. destruct (H i Hin) as [_ [H1 _]]. now apply H1.
  - intros c k [<-|Hc] Hf.
    + destruct Hf as [[F1 F2]|[i [rl [d [F1 F2]]]]].
      * destruct (H k F2) as [H0 [H1 _]]. split; [now right|]. now apply H1.
      * destruct (H i F1) as [_ [_ H2]]. destruct (H2 rl d k F2). split; [now right|auto].
    + destruct (I4 _ _ Hi c k Hc Hf). split; [now right|auto].
  - intros k Hk. destruct (I5 _ _ Hi k Hk). split; [now right|auto].
  - intros k i [<-|Hk] Hin; right; [now apply H|apply (I6 _ _ Hi k); auto].
  - intros k [<-|Hk]; auto. apply (I7 _ _ Hi); auto.
Qed.

Lemma retime_ok : forall f n mx m, R n -> rank n < f -> inv mx m -> achieves (retime f n m) n mx m.
Proof.
  induction f as [|f IH]; intros n mx m Rn Hf Hi; [lia|]. cbn [PipeModel.retime].
  destruct (memb n (proc m)) eqn:Em.
  - apply memb_in in Em. left. exists mx, m. split; [auto|]. split; [auto|]. split; [apply le_st_refl|auto].
  - assert (Fin : op_ins n = [] -> achieves (Some (finish n (stage n) [] m)) n mx m).
    { intros E. left. exists mx, (finish n (stage n) [] m). split; auto. split.
      - apply finish_ok; auto; rewrite E; auto. intros i [].
      - split; [|now left]. split; auto. intros x Hx. now right. }
    assert (HV : forall i mx0 m0, R i -> rank i < rank n -> inv mx0 m0 ->
      achieves ((fun i m => if memb i (proc m) then Some m else retime f i m) i m0) i mx0 m0).
    { intros i mx0 m0 Ri Hri Hi0. cbv beta. destruct (memb i (proc m0)) eqn:Ei.
      - apply memb_in in Ei. left. exists mx0, m0. split; [auto|]. split; [auto|]. split; [apply le_st_refl|auto].
      - apply IH; auto. lia. }
    assert (Loop : forall l, op_ins n = l -> achieves
      (match in_loop (fun i m => if memb i (proc m) then Some m else retime f i m) l (stage n) m [] with
       | None => None | Some (m', os, ins) => Some (finish n os ins m') end) n mx m).
    { intros l El.
      destruct (loop_ok n _ Rn HV l [] mx m Hi) as [[mx' [m' [E [Hi' [L' Q]]]]]|[E Hb]].
      - rewrite El. auto.
      - rewrite E. left. exists mx'. eexists. split; [reflexivity|]. cbn [app]. split.
        + apply finish_ok; auto; rewrite El; auto.
        + split; [|now left]. destruct L' as [La Lb]. split; auto. intros x Hx. right. auto.
      - rewrite E. right. auto. }
    unfold PipeSpec.op_ins in *. destruct (nodes n); auto.
Qed.

Lemma retime_all_ok : forall f roots mx m, (forall n, In n roots -> R n /\ rank n < f) -> inv mx m ->
  (exists mx' m', retime_all V nodes stage f roots m = Some m' /\ inv mx' m' /\ le_st mx m mx' m' /\
     (forall n, In n roots -> In n (proc m'))) \/
  (retime_all V nodes stage f roots m = None /\ exists c, R c /\ ~ causal c).
Proof.
  intros f roots. induction roots as [|n r IH]; intros mx m H Hi; cbn [retime_all].
  - left. exists mx, m. split; [auto|]. split; [auto|]. split; [apply le_st_refl|]. intros n [].
  - destruct (H n (or_introl eq_refl)) as [Rn Hn].
    destruct (retime_ok f n mx m Rn Hn Hi) as [[mx1 [m1 [E1 [Hi1 [L1 P1]]]]]|[E1 Hb]]; rewrite E1; [|right; auto].
    destruct (IH mx1 m1) as [[mx2 [m2 [E2 [Hi2 [L2 P2]]]]]|[E2 Hb]]; auto.
    + intros k Hk. apply H. now right.
    + left. exists mx2, m2. rewrite E2. split; auto. split; auto. split; [eapply le_st_trans; eauto|].
      intros k [<-|Hk]; auto. destruct L2 as [_ L2]. auto.
Qed.

Lemma inv0 : inv stage rm0.
Proof.
  constructor; cbn [smap fwd proc ins_of rm0]; try (intros; contradiction); auto.
  - intros s d g. split; [intros []|]. intros [n [[] _]].
  - constructor.
  - intros n Hn. lia.
Qed.

(* value of a register *)
Lemma reg_delay : forall mx m xin v, inv mx m -> behaviour nodes (fwd m) (ins_of m) (proc m) xin v ->
  forall n k t, In n (proc m) -> stage n + k <= mx n -> v (t + k) (sg n (stage n + k)) = v t (SOrig n).
Proof.
  intros mx m xin v Hi Hb n k. induction k as [|k IH]; intros t Hn Hk.
  - rewrite !Nat.add_0_r. now rewrite sg_orig.
  - rewrite (sg_reg n (stage n + S k)) by lia.
    replace (t + S k) with (S (t + k)) by lia. replace (stage n + S k) with (S (stage n + k)) by lia.
    rewrite (b_reg _ _ _ _ _ _ Hb (t + k) (stage n + k) _ (sg n (stage n + k))).
    + apply IH; auto. lia.
    + apply (I2 _ _ Hi). exists n. repeat split; auto; lia.
Qed.

Lemma main_value : forall mx m xin v, inv mx m -> behaviour nodes (fwd m) (ins_of m) (proc m) xin v ->
  forall tau n, In n (proc m) -> ~ is_delay nodes n -> 
  value nodes (fun i => xin (tau + stage i) i) n (v (tau + stage n) (SOrig n)).
Proof.
  intros mx m xin v Hi Hb tau.
  assert (HK : forall k n, rank n < k -> In n (proc m) -> ~ is_delay nodes n ->
     value nodes (fun i => xin (tau + stage i) i) n (v (tau + stage n) (SOrig n))).
  { induction k as [|k IH]; intros n Hk Hn Hnd; [lia|].
    destruct (nodes n) as [|c|c l|f l|rl d x] eqn:En.
    - rewrite (b_in _ _ _ _ _ _ Hb) by auto. now apply (value_in nodes (fun i => xin (tau + stage i) i)).
    - rewrite (b_cst _ _ _ _ _ _ Hb _ _ _ En). now constructor.
    - rewrite (b_pos _ _ _ _ _ _ Hb _ _ _ _ En). now apply (value_pos _ _ _ _ l).
    - rewrite (b_op _ _ _ _ _ _ Hb _ _ _ _ Hn En). apply (value_op _ _ _ _ l); auto.
      rewrite (I3 _ _ Hi n Hn). assert (El : op_ins n = l) by (unfold PipeSpec.op_ins; now rewrite En).
      rewrite El, map_map.
      assert (Hall : forall i, In i l -> value nodes (fun i => xin (tau + stage i) i) i (v (tau + stage n) (want (stage n) i))).
      { intros i Hil. assert (Hio : In i (op_ins n)) by now rewrite El.
        assert (Hri : rank i < rank n) by (apply Hrank, op_ins_operands; auto).
        assert (Hip : In i (proc m)) by (apply (I6 _ _ Hi n); auto).
        unfold want. destruct (nodes i) as [|c|c li|g li|rl d x] eqn:Ei.
        - assert (Ht : timed i) by (unfold PipeSpec.timed; rewrite Ei; exact I).
          destruct (I4 _ _ Hi n i Hn) as [_ Hm]; [left; auto|].
          assert (Hc : stage i <= stage n) by (apply (I3' _ _ Hi n Hn i); auto).
          replace (tau + stage n) with ((tau + stage i) + (stage n - stage i)) by lia.
          replace (stage n) with (stage i + (stage n - stage i)) at 2 by lia.
          rewrite (reg_delay mx m xin v Hi Hb) by (auto; lia).
          apply IH; auto; [lia|]. intros [rl [d [x E]]]. congruence.
        - rewrite (b_cst _ _ _ _ _ _ Hb _ _ _ Ei). now constructor.
        - rewrite (b_pos _ _ _ _ _ _ Hb _ _ _ _ Ei). now apply (value_pos _ _ _ _ li).
        - assert (Ht : timed i) by (unfold PipeSpec.timed; rewrite Ei; exact I).
          destruct (I4 _ _ Hi n i Hn) as [_ Hm]; [left; auto|].
          assert (Hc : stage i <= stage n) by (apply (I3' _ _ Hi n Hn i); auto).
          replace (tau + stage n) with ((tau + stage i) + (stage n - stage i)) by lia.
          replace (stage n) with (stage i + (stage n - stage i)) at 2 by lia.
          rewrite (reg_delay mx m xin v Hi Hb) by (auto; lia).
          apply IH; auto; [lia|]. intros [rl [d [x E]]]. congruence.
        - destruct (Hdelay n i rl d x Hio Ei) as [Hs [Hle Hx]].
          destruct (I4 _ _ Hi n x Hn) as [Hxp Hm]; [right; exists i, rl, d; auto|].
          apply (value_delay _ _ _ rl d x); auto.
          replace (tau + stage n) with ((tau + stage x) + (stage n - stage x)) by lia.
          replace (stage n) with (stage x + (stage n - stage x)) at 2 by lia.
          rewrite (reg_delay mx m xin v Hi Hb) by (auto; lia).
          apply IH; auto. assert (Hri2 : rank x < rank i) by (apply Hrank; unfold PipeSpec.operands; rewrite Ei; now left). lia. }
      clear El. induction l as [|i l IHl] in Hall |- *; cbn [map]; constructor.
      + apply Hall. now left.
      + apply IHl. intros j Hj. apply Hall. now right.
    - exfalso. apply Hnd. exists rl, d, x. auto. }
  intros n. apply (HK (Datatypes.S (rank n))). lia.
Qed.

(* a behaviour exists for every input stream and every initial content *)
Section Exists.
Variable xin : nat -> nat -> V.
Variable init : sig -> V.
Variable ins : nat -> list sig.
Fixpoint cv (fuel t n : nat) : V :=
  match fuel with
  | O => init (SOrig n)
  | S f => match nodes n with
           | NIn => xin t n
           | NCst c | NPos c _ => c
           | NOp g _ => g (map (fun s => match s with
                                         | SOrig k => cv f t k
                                         | SReg k s => if s - stage k <=? t then cv f (t - (s - stage k)) k else init (SReg k s)
                                         end) (ins n))
           | NDelay _ _ _ => init (SOrig n)
           end
  end.
End Exists.

Lemma behaviour_ex : forall mx m xin d0, inv mx m ->
  exists v, behaviour nodes (fwd m) (ins_of m) (proc m) xin v /\ forall g, (exists n s, g = SReg n s /\ stage n < s) -> v 0 g = d0.
Proof.
  intros mx m xin d0 Hi.
  set (C := fun n t => cv xin (fun _ => d0) (ins_of m) (Datatypes.S (rank n)) t n).
  set (v := fun t s => match s with SOrig n => C n t | SReg n s => if s - stage n <=? t then C n (t - (s - stage n)) else d0 end).
  assert (Hfuel : forall f n t, In n (proc m) -> rank n < f -> cv xin (fun _ => d0) (ins_of m) f t n = C n t).
  { induction f as [f IH] using lt_wf_ind. intros n t Hn Hf. unfold C. destruct f as [|f]; [lia|]. cbn [cv].
    destruct (nodes n) as [|c|c l|g l|rl d x] eqn:En; auto. f_equal. apply map_ext_in. intros s Hs.
    rewrite (I3 _ _ Hi n Hn) in Hs. apply in_map_iff in Hs. destruct Hs as [i [Es Hin]].
    assert (Hri : rank i < rank n) by (apply Hrank, op_ins_operands; auto).
    assert (Hip : In i (proc m)) by (apply (I6 _ _ Hi n); auto).
    assert (G : forall k t', In k (proc m) -> rank k < rank n ->
      cv xin (fun _ => d0) (ins_of m) f t' k = cv xin (fun _ => d0) (ins_of m) (rank n) t' k).
    { intros k t' Hk Hrk. rewrite (IH f) by (auto; lia). destruct (Nat.eq_dec (rank n) f) as [->|Hne].
      - rewrite IH by (auto; lia). reflexivity.
      - rewrite IH by (auto; lia). reflexivity. }
    assert (Hsg : forall k t', sg k t' = s -> In k (proc m) -> rank k < rank n ->
      match s with
      | SOrig k => cv xin (fun _ => d0) (ins_of m) f t k
      | SReg k s => if s - stage k <=? t then cv xin (fun _ => d0) (ins_of m) f (t - (s - stage k)) k else d0 end =
      match s with
      | SOrig k => cv xin (fun _ => d0) (ins_of m) (rank n) t k
      | SReg k s => if s - stage k <=? t then cv xin (fun _ => d0) (ins_of m) (rank n) (t - (s - stage k)) k else d0 end).
    { intros k t' Ek Hk Hrk. unfold sg in Ek. destruct (t' =? stage k); rewrite <- Ek; [apply G; auto|].
      destruct (t' - stage k <=? t); auto. }
    unfold want in Es. destruct (nodes i) as [|c|c li|g' li|rl d x] eqn:Ei.
    - apply (Hsg i (stage n)); auto.
    - subst s. apply G; auto.
    - subst s. apply G; auto.
    - apply (Hsg i (stage n)); auto.
    - assert (Hri2 : rank x < rank i) by (apply Hrank; unfold PipeSpec.operands; rewrite Ei; now left).
      apply (Hsg x (stage n)); auto; [|lia].
      destruct (I4 _ _ Hi n x Hn) as [Hxp _]; [right; exists i, rl, d; auto|auto]. }
  exists v. split.
  - constructor.
    + intros t n En. subst v. cbv beta iota. unfold C. cbn [cv]. now rewrite En.
    + intros t n c En. subst v. cbv beta iota. unfold C. cbn [cv]. now rewrite En.
    + intros t n c l En. subst v. cbv beta iota. unfold C. cbn [cv]. now rewrite En.
    + intros t n f l Hn En. assert (E : v t (SOrig n) = C n t) by reflexivity. rewrite E. unfold C. cbn [cv]. rewrite En.
      f_equal. apply map_ext_in. intros s Hs.
      rewrite (I3 _ _ Hi n Hn) in Hs. apply in_map_iff in Hs. destruct Hs as [i [Es Hin]].
      assert (Hri : rank i < rank n) by (apply Hrank, op_ins_operands; auto).
      assert (Hip : In i (proc m)) by (apply (I6 _ _ Hi n); auto).
      assert (Hsg : forall k t', sg k t' = s -> In k (proc m) -> rank k < rank n ->
        match s with
        | SOrig k => cv xin (fun _ => d0) (ins_of m) (rank n) t k
        | SReg k s => if s - stage k <=? t then cv xin (fun _ => d0) (ins_of m) (rank n) (t - (s - stage k)) k else d0 end = v t s).
      { intros k t' Ek Hk Hrk. unfold sg in Ek. subst v. cbv beta. destruct (t' =? stage k); rewrite <- Ek; [apply Hfuel; auto|].
        destruct (t' - stage k <=? t); auto. }
      unfold want in Es. destruct (nodes i) as [|c|c li|g' li|rl d x] eqn:Ei.
      * apply (Hsg i (stage n)); auto.
      * subst s. apply Hfuel; auto.
      * subst s. apply Hfuel; auto.
      * apply (Hsg i (stage n)); auto.
      * assert (Hri2 : rank x < rank i) by (apply Hrank; unfold PipeSpec.operands; rewrite Ei; now left).
        apply (Hsg x (stage n)); auto; [|lia].
        destruct (I4 _ _ Hi n x Hn) as [Hxp _]; [right; exists i, rl, d; auto|auto].
    + intros t s d g Hf. apply (I2 _ _ Hi) in Hf. destruct Hf as [n [K1 [K2 [-> ->]]]].
      subst v. cbv beta. unfold sg. destruct (Nat.eqb_spec s (stage n)) as [->|].
      * replace (Datatypes.S (stage n) - stage n) with 1 by lia.
        destruct (Nat.leb_spec 1 (Datatypes.S t)); [|lia]. f_equal. lia.
      * destruct (Nat.leb_spec (Datatypes.S s - stage n) (Datatypes.S t)); destruct (Nat.leb_spec (s - stage n) t); try lia; auto.
        f_equal. lia.
  - intros g [n [s [-> Hs]]]. subst v. cbv beta iota.
    destruct (Nat.leb_spec (s - stage n) 0); [lia|auto].
Qed.
End P.
