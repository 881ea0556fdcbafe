(** Function inlining and the loops of the element-wise array functions. *)

Require Import ZArith List Bool Lia.
From Verif Require Import VecModel VecSpec VecProofs VecLanes VecProps.
Import ListNotations.
Open Scope Z_scope.

(** ** The reference meaning is deterministic *)

Lemma run_det : forall ops r s o, run ops r s o ->
  forall o', run ops r s o' -> o' = o.
Proof.
  induction 1; intros o' Ho'; inversion Ho'; subst;
    repeat match goal with
    | IH : forall o', run ?ops ?r ?s o' -> o' = _, H : run ?ops ?r ?s _ |- _ =>
        apply IH in H; try discriminate H;
        try (injection H as H; subst)
    end; try congruence; auto.
Qed.

Lemma no_return_go : forall ops r s o, run ops r s o ->
  no_return s = true -> exists r', o = Go r'.
Proof.
  induction 1; cbn [no_return forallb]; intros Hn;
    repeat match goal with
    | H : _ && _ = true |- _ => apply andb_true_iff in H as [? ?]
    end; eauto; try discriminate;
    try (destruct IHrun as [? E]; [assumption | discriminate E]).
Qed.

(** ** inline_function *)

(** the values given to the inputs do not read what the scheme assigns, and
    the inputs are not assigned *)
Definition separate (m : mapping) (s : stmt) : Prop :=
  forall v, In v (assigned s) ->
    lookup m v = None
    /\ forall w x, lookup m w = Some x -> ~ In v (vars x).

Lemma eval_upd_other : forall ops r e v z,
  ~ In v (vars e) -> eval ops (upd r v z) e = eval ops r e.
Proof.
  intros ops r e v z.
  assert (L : forall l,
    Forall (fun e => ~ In v (vars e) -> eval ops (upd r v z) e = eval ops r e) l ->
    ~ In v (concat (map vars l)) ->
    map (eval ops (upd r v z)) l = map (eval ops r) l).
  { intros l H Hn. apply map_ext_in. intros a Ha. rewrite Forall_forall in H.
    apply (H a Ha). intros Hi. apply Hn. apply in_concat.
    exists (vars a). split; [apply in_map|]; assumption. }
  induction e as [w|c|o l IH|a b IHa IHb|a IHa|f l IH] using expr_ind2;
    cbn [vars eval]; intros Hn.
  - unfold upd. destruct (Nat.eqb_spec w v); [|reflexivity].
    exfalso. apply Hn. left; assumption.
  - reflexivity.
  - rewrite (L l IH Hn). reflexivity.
  - rewrite IHa, IHb by (intros H; apply Hn; apply in_or_app; auto). reflexivity.
  - rewrite (IHa Hn). reflexivity.
  - rewrite (L l IH Hn). reflexivity.
Qed.

Lemma binds_both : forall ops m rout rin v z,
  binds ops m rout rin -> lookup m v = None ->
  (forall w x, lookup m w = Some x -> ~ In v (vars x)) ->
  binds ops m (upd rout v z) (upd rin v z).
Proof.
  intros ops m rout rin v z Hb Hv Hx w. specialize (Hb w).
  destruct (lookup m w) as [x|] eqn:E.
  - rewrite (eval_upd_other ops rout x v z (Hx w x E)).
    unfold upd. destruct (Nat.eqb_spec w v); [congruence|]. exact Hb.
  - unfold upd. destruct (Nat.eqb w v); [reflexivity | exact Hb].
Qed.

Lemma separate_sub : forall m s s',
  (forall v, In v (assigned s') -> In v (assigned s)) ->
  separate m s -> separate m s'.
Proof. intros m s s' H Hs v Hv. apply Hs. apply H. assumption. Qed.

Lemma inline_run : forall ops r s o, run ops r s o ->
  forall m dst rout,
  no_pre s = true -> separate m s -> binds ops m rout r ->
  match o with
  | Go r' => exists rout', run ops rout (inline m dst s) (Go rout')
                           /\ binds ops m rout' r'
  | Ret z => tail_return s = true ->
             exists rout', run ops rout (inline m dst s) (Go rout')
                           /\ rout' dst = Some z
  end.
Proof.
  induction 1 as
    [r e | r v e z He | r e z He | r | r r' s l o Hs IHs Hl IHl
    | r s l z Hs IHs | r pre c lk t e z Hp IHp
    | r r' pre c lk t e z o Hp IHp Hc Ht Hb IHb
    | r r' pre c lk t f z o Hp IHp Hc Ht Hb IHb
    | r r' pre c lk t z Hp IHp Hc Ht
    | r init c b z Hi IHi | r r' init c b z Hi IHi Hc Ht
    | r r' init c b z y Hi IHi Hc Ht Hb IHb
    | r r' r'' init c b z o Hi IHi Hc Ht Hb IHb Hn IHn ];
    intros m dst rout Hnp Hsep Hbd.
  - exists rout. split; [apply run_node | assumption].
  - exists (upd rout v z). split.
    + apply run_assign. rewrite (eval_copy ops m rout r e Hbd). assumption.
    + destruct (Hsep v) as [H1 H2]; [left; reflexivity|].
      apply binds_both; assumption.
  - intros _. cbn [inline].
    pose proof (eval_copy ops m rout r e Hbd) as E. rewrite He in E.
    assert (A : forall x, eval ops rout x = Some z ->
      exists rout', run ops rout (SAssign dst x) (Go rout')
                    /\ rout' dst = Some z).
    { intros x Hx. exists (upd rout dst z). split.
      - apply run_assign. assumption.
      - unfold upd. rewrite Nat.eqb_refl. reflexivity. }
    destruct (copy m e) as [w|c|o l|a b|a|f l]; try (apply A; exact E).
    destruct (Nat.eqb_spec w dst) as [->|Hne].
    + exists rout. split; [apply run_node | exact E].
    + apply A; exact E.
  - exists rout. split; [apply run_nil | assumption].
  - cbn [no_pre forallb] in Hnp. apply andb_true_iff in Hnp as [N1 N2].
    assert (S1 : separate m s)
      by (eapply separate_sub; [|exact Hsep]; intros v Hv; cbn [assigned map concat];
          apply in_or_app; auto).
    assert (S2 : separate m (SSeq l))
      by (eapply separate_sub; [|exact Hsep]; intros v Hv; cbn [assigned map concat];
          apply in_or_app; auto).
    destruct (IHs m dst rout N1 S1 Hbd) as (r1 & R1 & B1).
    specialize (IHl m dst r1 N2 S2 B1).
    destruct o as [r2|z].
    + destruct IHl as (r3 & R3 & B3). exists r3. split; [|assumption].
      cbn [inline map]. eapply run_cons; eauto.
    + intros Ht. destruct l as [|y l]; [inversion Hl|].
      change (no_return s && tail_return (SSeq (y :: l)) = true) in Ht.
      apply andb_true_iff in Ht as [_ Ht].
      destruct (IHl Ht) as (r3 & R3 & V3). exists r3. split; [|assumption].
      cbn [inline map]. eapply run_cons; eauto.
  - intros Ht. cbn [no_pre forallb] in Hnp. apply andb_true_iff in Hnp as [N1 N2].
    assert (S1 : separate m s)
      by (eapply separate_sub; [|exact Hsep]; intros v Hv; cbn [assigned map concat];
          apply in_or_app; auto).
    destruct l as [|y l].
    + destruct (IHs m dst rout N1 S1 Hbd Ht) as (r1 & R1 & V1).
      exists r1. split; [|assumption]. cbn [inline map].
      eapply run_cons; [exact R1 | apply run_nil].
    + change (no_return s && tail_return (SSeq (y :: l)) = true) in Ht.
      apply andb_true_iff in Ht as [Hn _].
      destruct (no_return_go ops r s _ Hs Hn) as [r' E]. discriminate E.
  - intros _. cbn [no_pre] in Hnp. destruct pre as [| | |[|]| |]; try discriminate.
    inversion Hp.
  - cbn [no_pre] in Hnp. destruct pre as [| | |[|]| |]; try discriminate.
    cbn [andb] in Hnp. apply andb_true_iff in Hnp as [N1 N2].
    inversion Hp; subst r'.
    assert (S1 : separate m t)
      by (eapply separate_sub; [|exact Hsep]; intros v Hv; cbn [assigned map concat app];
          apply in_or_app; auto).
    specialize (IHb m dst rout N1 S1 Hbd).
    pose proof (eval_copy ops m rout r c Hbd) as Ec. rewrite Hc in Ec.
    destruct o as [r2|y].
    + destruct IHb as (r3 & R3 & B3). exists r3. split; [|assumption].
      cbn [inline]. eapply run_then; [apply run_nil | exact Ec | exact Ht | exact R3].
    + intros Htl. cbn [tail_return] in Htl. destruct e as [f|]; [|discriminate].
      apply andb_true_iff in Htl as [Htl _]. apply andb_true_iff in Htl as [_ Htl].
      destruct (IHb Htl) as (r3 & R3 & V3). exists r3. split; [|assumption].
      cbn [inline]. eapply run_then; [apply run_nil | exact Ec | exact Ht | exact R3].
  - cbn [no_pre] in Hnp. destruct pre as [| | |[|]| |]; try discriminate.
    cbn [andb] in Hnp. apply andb_true_iff in Hnp as [N1 N2].
    inversion Hp; subst r'.
    assert (S1 : separate m f)
      by (eapply separate_sub; [|exact Hsep]; intros v Hv; cbn [assigned map concat app];
          apply in_or_app; auto).
    specialize (IHb m dst rout N2 S1 Hbd).
    pose proof (eval_copy ops m rout r c Hbd) as Ec. rewrite Hc in Ec.
    destruct o as [r2|y].
    + destruct IHb as (r3 & R3 & B3). exists r3. split; [|assumption].
      cbn [inline]. eapply run_else; [apply run_nil | exact Ec | exact Ht | exact R3].
    + intros Htl. cbn [tail_return] in Htl.
      apply andb_true_iff in Htl as [_ Htl].
      destruct (IHb Htl) as (r3 & R3 & V3). exists r3. split; [|assumption].
      cbn [inline]. eapply run_else; [apply run_nil | exact Ec | exact Ht | exact R3].
  - cbn [no_pre] in Hnp. destruct pre as [| | |[|]| |]; try discriminate.
    inversion Hp; subst r'.
    pose proof (eval_copy ops m rout r c Hbd) as Ec. rewrite Hc in Ec.
    exists rout. split; [|assumption].
    cbn [inline]. eapply run_no_else; [apply run_nil | exact Ec | exact Ht].
  - intros Htl. discriminate Htl.
  - cbn [no_pre] in Hnp. apply andb_true_iff in Hnp as [N1 N2].
    assert (S1 : separate m init)
      by (eapply separate_sub; [|exact Hsep]; intros v Hv; cbn [assigned];
          apply in_or_app; auto).
    destruct (IHi m dst rout N1 S1 Hbd) as (r1 & R1 & B1).
    pose proof (eval_copy ops m r1 r' c B1) as Ec. rewrite Hc in Ec.
    exists r1. split; [|assumption]. cbn [inline].
    eapply run_loop_end; eauto.
  - intros Htl. discriminate Htl.
  - cbn [no_pre] in Hnp. apply andb_true_iff in Hnp as [N1 N2].
    assert (S1 : separate m init)
      by (eapply separate_sub; [|exact Hsep]; intros v Hv; cbn [assigned];
          apply in_or_app; auto).
    assert (S2 : separate m b)
      by (eapply separate_sub; [|exact Hsep]; intros v Hv; cbn [assigned];
          apply in_or_app; auto).
    assert (S3 : separate m (SLoop (SSeq []) c b))
      by (eapply separate_sub; [|exact Hsep]; intros v Hv;
          cbn [assigned map concat app] in Hv |- *; apply in_or_app; auto).
    destruct (IHi m dst rout N1 S1 Hbd) as (r1 & R1 & B1).
    pose proof (eval_copy ops m r1 r' c B1) as Ec. rewrite Hc in Ec.
    destruct (IHb m dst r1 N2 S2 B1) as (r2 & R2 & B2).
    assert (N3 : no_pre (SLoop (SSeq []) c b) = true)
      by (cbn [no_pre forallb]; exact N2).
    specialize (IHn m dst r2 N3 S3 B2).
    destruct o as [r3|w]; [|intros Htl; discriminate Htl].
    destruct IHn as (r4 & R4 & B4). exists r4. split; [|assumption].
    cbn [inline] in *. eapply run_loop_next; eauto.
Qed.

(** Inlining a scheme whose Returns are at the end of every path leaves in
    the destination the value which the function returns; there is no other
    outcome. *)
Theorem inline_result_partial : forall ops m dst s rout r z,
  tail_return s = true -> no_pre s = true -> separate m s ->
  (forall v, r v = match lookup m v with
                   | Some x => eval ops rout x
                   | None => rout v
                   end) ->
  computes ops s r z ->
  exists rout', run ops rout (inline m dst s) (Go rout')
    /\ rout' dst = Some z
    /\ forall o, run ops rout (inline m dst s) o -> o = Go rout'.
Proof.
  intros ops m dst s rout r z Ht Hn Hs Hb Hc.
  assert (B : binds ops m rout r).
  { intros v. specialize (Hb v). destruct (lookup m v); assumption. }
  destruct (inline_run ops r s (Ret z) Hc m dst rout Hn Hs B Ht)
    as (r' & R & V).
  exists r'. split; [assumption|]. split; [assumption|].
  intros o Ho. exact (run_det _ _ _ _ R _ Ho).
Qed.

(** A Return followed by other statements is not an exit any more (scheme
    [early_exit] of VecProps.v). *)
Theorem inline_early_return_refuted : forall ops dst u w r x,
  r 0%nat = Some x -> truth x = true -> dst <> 0%nat ->
  computes ops (early_exit u w) r u
  /\ exists r', run ops r (inline [] dst (early_exit u w)) (Go r')
       /\ r' dst = Some w
       /\ forall o, run ops r (inline [] dst (early_exit u w)) o -> o = Go r'.
Proof.
  intros ops dst u w r x Hx Ht Hd. split.
  - apply run_cons_ret. eapply run_then;
      [apply run_nil | exact Hx | exact Ht | apply run_return; reflexivity].
  - assert (R : run ops r (inline [] dst (early_exit u w))
                  (Go (upd (upd r dst u) dst w))).
    { eapply run_cons.
      - eapply run_then; [apply run_nil | exact Hx | exact Ht
                         | apply run_assign; reflexivity].
      - eapply run_cons; [apply run_assign; reflexivity | apply run_nil]. }
    exists (upd (upd r dst u) dst w). split; [exact R|]. split.
    + unfold upd. rewrite Nat.eqb_refl. reflexivity.
    + intros o Ho. exact (run_det _ _ _ _ R _ Ho).
Qed.

(** ** Array functions *)

Section Array.
  Variable f : Z -> Z.
  Variables dst src : Z.
  Variable m0 : mem.

  (** the first [i] elements are done *)
  Definition done (i : Z) : mem :=
    fun a => if (dst <=? a) && (a <? dst + i) then f (m0 (src + (a - dst)))
             else m0 a.

  Lemma store_list_spec : forall l m a b,
    store_list m a l b =
      if (a <=? b) && (b <? a + Z.of_nat (length l))
      then nth (Z.to_nat (b - a)) l 0 else m b.
  Proof.
    induction l as [|x l IH]; intros m a b; cbn [store_list length].
    - destruct (Z.leb_spec a b), (Z.ltb_spec b (a + Z.of_nat 0)); cbn;
        reflexivity || lia.
    - rewrite IH. unfold store.
      destruct (Z.eqb_spec b a) as [->|Hne].
      + destruct (Z.leb_spec (a + 1) a); [lia|]. cbn [andb].
        destruct (Z.leb_spec a a); [|lia].
        destruct (Z.ltb_spec a (a + Z.of_nat (S (length l)))); [|lia].
        cbn [andb]. rewrite Z.sub_diag. reflexivity.
      + destruct (Z.leb_spec (a + 1) b), (Z.leb_spec a b); try lia; cbn [andb].
        * replace (a + 1 + Z.of_nat (length l))
            with (a + Z.of_nat (S (length l))) by lia.
          destruct (b <? a + Z.of_nat (S (length l))); [|reflexivity].
          replace (Z.to_nat (b - a)) with (S (Z.to_nat (b - (a + 1)))) by lia.
          reflexivity.
        * reflexivity.
  Qed.

  Variable n : Z.
  (** [dst] and [src] are the same array or do not meet *)
  Hypothesis Hsep : dst = src \/ dst + n <= src \/ src + n <= dst.

  Lemma done_src : forall i j, 0 <= i -> i <= j -> j < n ->
    done i (src + j) = m0 (src + j).
  Proof.
    intros i j Hi Hij Hj. unfold done.
    destruct (Z.leb_spec dst (src + j)); cbn [andb]; [|reflexivity].
    destruct (Z.ltb_spec (src + j) (dst + i)); [|reflexivity]. lia.
  Qed.

  Lemma load_done : forall (m : mem) i k,
    (forall a, m a = done i a) -> 0 <= i -> i + Z.of_nat k <= n ->
    load_list m (src + i) k = map (fun j => m0 (src + i + Z.of_nat j)) (seq 0 k).
  Proof.
    intros m i k Hm Hi Hk. unfold load_list. apply map_ext_in.
    intros j Hj. apply in_seq in Hj. rewrite Hm.
    rewrite <- !Z.add_assoc. apply done_src; lia.
  Qed.

  Lemma store_done : forall (m : mem) i k,
    (forall a, m a = done i a) -> 0 <= i ->
    forall a, store_list m (dst + i)
                (map f (map (fun j => m0 (src + i + Z.of_nat j)) (seq 0 k))) a
              = done (i + Z.of_nat k) a.
  Proof.
    intros m i k Hm Hi a. rewrite store_list_spec, !map_length, seq_length.
    destruct (Z.leb_spec (dst + i) a); cbn [andb].
    - destruct (Z.ltb_spec a (dst + i + Z.of_nat k)); unfold done.
      + destruct (Z.leb_spec dst a); [|lia].
        destruct (Z.ltb_spec a (dst + (i + Z.of_nat k))); [|lia]. cbn [andb].
        rewrite map_map.
        rewrite (nth_indep _ 0 (f (m0 (src + i + Z.of_nat 0))))
          by (rewrite map_length, seq_length; lia).
        rewrite (map_nth (fun j => f (m0 (src + i + Z.of_nat j)))).
        rewrite seq_nth by lia. f_equal. f_equal. lia.
      + rewrite Hm. unfold done.
        destruct (Z.ltb_spec a (dst + i)); [lia|].
        destruct (Z.ltb_spec a (dst + (i + Z.of_nat k))); [lia|].
        rewrite !andb_false_r. reflexivity.
    - rewrite Hm. unfold done.
      destruct (Z.leb_spec dst a); cbn [andb]; [|reflexivity].
      destruct (Z.ltb_spec a (dst + i)), (Z.ltb_spec a (dst + (i + Z.of_nat k)));
        try lia; reflexivity.
  Qed.

  Lemma main_loop_spec : forall vf k,
    (1 <= k)%nat -> (forall l, length l = k -> vf l = Some (map f l)) ->
    forall q fuel i (m : mem),
    (forall a, m a = done i a) -> 0 <= i ->
    i + Z.of_nat (q * k) <= n -> n < 2 ^ 32 -> (q < fuel)%nat ->
    exists m', main_loop fuel vf k dst src (i + Z.of_nat (q * k)) m i
               = Some (m', i + Z.of_nat (q * k))
      /\ forall a, m' a = done (i + Z.of_nat (q * k)) a.
  Proof.
    intros vf k Hk Hvf. induction q as [|q IH]; intros fuel i m Hm Hi Hq Hn Hf.
    - destruct fuel as [|fuel]; [lia|]. cbn [main_loop Nat.mul Z.of_nat].
      rewrite Z.add_0_r, Z.ltb_irrefl. eauto.
    - destruct fuel as [|fuel]; [lia|]. cbn [main_loop].
      assert (E : Z.of_nat (S q * k) = Z.of_nat k + Z.of_nat (q * k)) by lia.
      destruct (Z.ltb_spec i (i + Z.of_nat (S q * k))); [|nia].
      rewrite (load_done m i k Hm Hi) by lia.
      rewrite Hvf by (rewrite map_length, seq_length; reflexivity).
      assert (U : u32 (i + Z.of_nat k) = i + Z.of_nat k).
      { unfold u32. apply Z.mod_small. lia. }
      rewrite U.
      replace (i + Z.of_nat (S q * k))
        with ((i + Z.of_nat k) + Z.of_nat (q * k)) by lia.
      apply IH; try lia.
      intros a. apply store_done; assumption.
  Qed.

  Lemma epilog_spec : forall sf,
    (forall x, sf x = Some (f x)) ->
    forall q fuel i (m : mem),
    (forall a, m a = done i a) -> 0 <= i -> i + Z.of_nat q = n ->
    n < 2 ^ 32 -> (q < fuel)%nat ->
    exists m', epilog_loop fuel sf dst src n m i = Some m'
      /\ forall a, m' a = done n a.
  Proof.
    intros sf Hsf. induction q as [|q IH]; intros fuel i m Hm Hi Hq Hn Hf.
    - destruct fuel as [|fuel]; [lia|]. cbn [epilog_loop].
      assert (i = n) by lia. subst i. rewrite Z.ltb_irrefl. eauto.
    - destruct fuel as [|fuel]; [lia|]. cbn [epilog_loop].
      destruct (Z.ltb_spec i n); [|lia]. rewrite Hsf.
      assert (U : u32 (i + 1) = i + 1).
      { unfold u32. apply Z.mod_small. lia. }
      rewrite U. apply IH; try lia.
      intros a.
      pose proof (store_done m i 1 Hm Hi a) as S. cbn in S.
      rewrite <- S. rewrite Hm, Z.add_0_r.
      rewrite (done_src i i) by lia. reflexivity.
  Qed.
End Array.

(** The generated array function ends, gives [f (src[i])] in [dst[i]] for
    every [i < n] and touches nothing else, in place or with separate
    arrays, for every vector size. *)
Theorem array_function_elements : forall f vf sf k dst src n m fuel,
  (1 <= k)%nat -> 0 <= n < 2 ^ 32 ->
  (forall l, length l = k -> vf l = Some (map f l)) ->
  (forall x, sf x = Some (f x)) ->
  (dst = src \/ dst + n <= src \/ src + n <= dst) ->
  (Z.to_nat n < fuel)%nat ->
  exists m', array_function fuel vf sf k dst src n m = Some m'
    /\ (forall i, 0 <= i < n -> m' (dst + i) = f (m (src + i)))
    /\ (forall a, ~ (dst <= a < dst + n) -> m' a = m a).
Proof.
  intros f vf sf k dst src n m fuel Hk Hn Hvf Hsf Hsep Hf.
  assert (D0 : forall a, m a = done f dst src m 0 a).
  { intros a. unfold done. destruct (Z.leb_spec dst a); [|reflexivity].
    destruct (Z.ltb_spec a (dst + 0)); [lia|reflexivity]. }
  assert (Fin : forall m', (forall a, m' a = done f dst src m n a) ->
    (forall i, 0 <= i < n -> m' (dst + i) = f (m (src + i)))
    /\ (forall a, ~ (dst <= a < dst + n) -> m' a = m a)).
  { intros m' Hm'. split.
    - intros i Hi. rewrite Hm'. unfold done.
      destruct (Z.leb_spec dst (dst + i)); [|lia].
      destruct (Z.ltb_spec (dst + i) (dst + n)); [|lia]. cbn [andb].
      f_equal. f_equal. lia.
    - intros a Ha. rewrite Hm'. unfold done.
      destruct (Z.leb_spec dst a), (Z.ltb_spec a (dst + n)); cbn [andb];
        reflexivity || lia. }
  unfold array_function. destruct (Nat.ltb_spec 1 k) as [Hk1|Hk1].
  - set (r := n mod Z.of_nat k).
    assert (Hr : 0 <= r < Z.of_nat k) by (apply Z.mod_pos_bound; lia).
    assert (Hdm : n = Z.of_nat k * (n / Z.of_nat k) + r)
      by (apply Z.div_mod; lia).
    set (q := n / Z.of_nat k) in *.
    assert (Hq : 0 <= q) by (apply Z.div_pos; lia).
    assert (U : u32 (n - r) = n - r).
    { unfold u32. apply Z.mod_small. nia. }
    rewrite U.
    assert (E : n - r = 0 + Z.of_nat (Z.to_nat q * k)).
    { rewrite Nat2Z.inj_mul, Z2Nat.id by assumption. nia. }
    assert (Hql : q <= n) by nia.
    destruct (main_loop_spec f dst src m n Hsep vf k Hk Hvf
                (Z.to_nat q) fuel 0 m D0) as (m1 & E1 & D1); try lia.
    rewrite E, E1. rewrite <- E in D1 |- *.
    destruct (epilog_spec f dst src m n Hsep sf Hsf
                (Z.to_nat r) fuel (n - r) m1 D1) as (m2 & E2 & D2);
      try lia.
    exists m2. split; [exact E2|]. apply Fin. exact D2.
  - assert (k = 1)%nat by lia. subst k.
    assert (Hvf1 : forall l, length l = 1%nat ->
      (fun l => match l with
                | [x] => match sf x with Some z => Some [z] | None => None end
                | _ => None
                end) l = Some (map f l)).
    { intros [|x [|y l]] Hl; try discriminate Hl. rewrite Hsf. reflexivity. }
    destruct (main_loop_spec f dst src m n Hsep _ 1%nat Hk Hvf1
                (Z.to_nat n) fuel 0 m D0) as (m1 & E1 & D1); try lia.
    assert (E : n = 0 + Z.of_nat (Z.to_nat n * 1)) by lia.
    rewrite <- E in E1, D1. rewrite E1.
    exists m1. split; [reflexivity|]. apply Fin. exact D1.
Qed.

(** Overlapping arrays, [dst] one element after [src], one element by
    iteration: [f] is applied twice to the first element. *)
Theorem array_function_overlap_refuted : forall f sf vf src m fuel,
  (forall x, sf x = Some (f x)) ->
  exists m', array_function (S (S (S fuel))) vf sf 1 (src + 1) src 2 m = Some m'
    /\ m' (src + 1 + 1) = f (f (m src)).
Proof.
  intros f sf vf src m fuel Hsf.
  unfold array_function. cbn [Nat.ltb Nat.leb main_loop Z.ltb Z.compare].
  unfold load_list. cbn [seq map Z.of_nat]. rewrite Hsf.
  change (u32 (0 + Z.of_nat 1)) with 1.
  cbn [main_loop Z.ltb Z.compare Pos.compare Pos.compare_cont].
  unfold load_list. cbn [seq map Z.of_nat]. rewrite Hsf.
  change (u32 (1 + Z.of_nat 1)) with 2.
  cbn [main_loop Z.ltb Z.compare Pos.compare Pos.compare_cont store_list].
  change (2 <? 2) with false. cbn iota.
  eexists. split; [reflexivity|].
  rewrite !Z.add_0_r. unfold store.
  rewrite !Z.eqb_refl. reflexivity.
Qed.

(** ** An array function made of a vectorized scheme *)

(** The loop over a vectorized scalar function of one argument computes the
    scalar function on every element. *)
Theorem array_of_vector_function_partial :
  forall ops is_input s k dst src n m fuel f,
  branchy s = true -> flat_stmt s = true -> tail_return s = true ->
  reads_only [0%nat] s ->
  (forall v, is_input v = true -> ~ In v (assigned s)) ->
  is_input 0%nat = true ->
  (forall o l, exists z, ops o l = Some z) ->
  (forall x, computes ops s (fun v => if Nat.eqb v 0 then Some x else None) (f x)) ->
  (1 <= k)%nat -> 0 <= n < 2 ^ 32 ->
  (dst = src \/ dst + n <= src \/ src + n <= dst) ->
  (Z.to_nat n < fuel)%nat ->
  exists m',
    array_function fuel
      (fun l => vector_implementation ops C_Code is_input s [0%nat] k k
                  (fun v => if Nat.eqb v 0 then Some l else None)
                  (fun j => match nth_error l j with
                            | Some x => Some (f x)
                            | None => None
                            end))
      (fun x => Some (f x)) k dst src n m = Some m'
    /\ (forall i, 0 <= i < n -> m' (dst + i) = f (m (src + i)))
    /\ (forall a, ~ (dst <= a < dst + n) -> m' a = m a).
Proof.
  intros ops is_input s k dst src n m fuel f
         Hb Hfl Ht Hr Hi H0 Hops Hs Hk Hn Hsep Hf.
  apply (array_function_elements f); auto.
  intros l Hl.
  set (venv := fun v => if Nat.eqb v 0 then Some l else None).
  set (cb := fun j => match nth_error l j with
                      | Some x => Some (f x) | None => None end).
  assert (Hw : well_sized [0%nat] venv k).
  { intros v [<-|[]]. exists l. split; [reflexivity | assumption]. }
  assert (Hcb : forall j, (j < k)%nat -> cb j = Some (f (nth j l 0))).
  { intros j Hj. unfold cb. rewrite (nth_error_nth' l 0) by lia. reflexivity. }
  destruct (vector_function_returns_partial ops C_Code is_input s [0%nat] k k venv
              (fun j => f (nth j l 0)) Hb Hfl Ht Hr Hi Hops Hw Hk
              (Nat.divide_refl k)) as (out & Eo).
  assert (Eq : vector_implementation ops C_Code is_input s [0%nat] k k venv cb
               = Some out).
  { rewrite <- Eo. unfold vector_implementation.
    destruct (vectorize_scheme is_input s [0%nat] k k) as [[p q]|]; [|reflexivity].
    destruct (no_scalar_fallback q); [reflexivity|].
    unfold c_wrapper. destruct (evalv ops venv p) as [a|]; [|reflexivity].
    destruct (evalv ops venv q) as [b|]; [|reflexivity].
    destruct (forallb truth b); [reflexivity|].
    change 0 with (Z.of_nat 0). change k with (0 + k)%nat at 2 4.
    rewrite !c_lanes_ocl by lia.
    assert (G : forall L a, (forall j, In j L -> (j < k)%nat) ->
      ocl_lanes L cb b a = ocl_lanes L (fun j => Some (f (nth j l 0))) b a).
    { induction L as [|j L IH]; intros a' HL; [reflexivity|].
      cbn [ocl_lanes]. destruct (nth_error b j); [|reflexivity].
      rewrite (Hcb j (HL j (or_introl eq_refl))).
      rewrite !IH by (intros; apply HL; right; assumption). reflexivity. }
    apply G. intros j Hj. apply in_seq in Hj. lia. }
  rewrite Eq.
  destruct (vector_function_lanes_partial ops C_Code is_input s [0%nat] k k venv cb
              (fun j => f (nth j l 0)) out) as [Lo Ho]; auto.
  - intros v [<-|[]]. assumption.
  - apply Nat.divide_refl.
  - intros j Hj.
    pose proof (Hs (nth j l 0)) as Hc.
    unfold computes in *.
    (* the lane is the same environment *)
    assert (Ex : forall r1 r2, (forall v, r1 v = r2 v) -> forall s o,
      run ops r1 s o -> match o with
        | Go a => exists b, run ops r2 s (Go b) /\ forall v, a v = b v
        | Ret z => run ops r2 s (Ret z) end).
    { clear. intros r1 r2 Hr s o H. revert r2 Hr.
      assert (EE : forall r1 r2 e, (forall v, r1 v = r2 v) ->
                eval ops r1 e = eval ops r2 e).
      { intros a1 a2 e Ha.
        rewrite <- (copy_nil e) at 2. symmetry. apply eval_copy.
        intros v. cbn. apply Ha. }
      induction H; intros r2 Hr.
      - exists r2. split; [apply run_node | assumption].
      - exists (upd r2 v z). split.
        + apply run_assign. rewrite <- (EE _ _ e Hr). assumption.
        + intros w. unfold upd. destruct (Nat.eqb w v); auto.
      - apply run_return. rewrite <- (EE _ _ e Hr). assumption.
      - exists r2. split; [apply run_nil | assumption].
      - destruct (IHrun1 r2 Hr) as (r3 & R3 & E3).
        specialize (IHrun2 r3 E3). destruct o.
        + destruct IHrun2 as (r4 & R4 & E4). exists r4.
          split; [eapply run_cons; eauto | assumption].
        + eapply run_cons; eauto.
      - apply run_cons_ret. apply IHrun. assumption.
      - apply run_pre_ret. apply IHrun. assumption.
      - destruct (IHrun1 r2 Hr) as (r3 & R3 & E3).
        specialize (IHrun2 r3 E3). rewrite (EE _ _ c E3) in H0.
        destruct o.
        + destruct IHrun2 as (r4 & R4 & E4). exists r4.
          split; [eapply run_then; eauto | assumption].
        + eapply run_then; eauto.
      - destruct (IHrun1 r2 Hr) as (r3 & R3 & E3).
        specialize (IHrun2 r3 E3). rewrite (EE _ _ c E3) in H0.
        destruct o.
        + destruct IHrun2 as (r4 & R4 & E4). exists r4.
          split; [eapply run_else; eauto | assumption].
        + eapply run_else; eauto.
      - destruct (IHrun r2 Hr) as (r3 & R3 & E3).
        rewrite (EE _ _ c E3) in H0. exists r3.
        split; [eapply run_no_else; eauto | assumption].
      - apply run_loop_ret. apply IHrun. assumption.
      - destruct (IHrun r2 Hr) as (r3 & R3 & E3).
        rewrite (EE _ _ c E3) in H0. exists r3.
        split; [eapply run_loop_end; eauto | assumption].
      - destruct (IHrun1 r2 Hr) as (r3 & R3 & E3).
        rewrite (EE _ _ c E3) in H0.
        eapply run_loop_body_ret; [exact R3 | exact H0 | assumption |].
        apply IHrun2. assumption.
      - destruct (IHrun1 r2 Hr) as (r3 & R3 & E3).
        rewrite (EE _ _ c E3) in H0.
        destruct (IHrun2 r3 E3) as (r4 & R4 & E4).
        specialize (IHrun3 r4 E4). destruct o.
        + destruct IHrun3 as (r5 & R5 & E5). exists r5.
          split; [eapply run_loop_next; eauto | assumption].
        + eapply run_loop_next; eauto. }
    assert (Hl2 : forall v, (fun v => if Nat.eqb v 0 then Some (nth j l 0) else None) v
                            = lane [0%nat] venv j v).
    { intros v. unfold lane, memb, venv. cbn [existsb]. rewrite orb_false_r.
      destruct (Nat.eqb_spec v 0) as [->|]; [|reflexivity].
      cbn. symmetry. apply nth_error_nth'. lia. }
    exact (Ex _ _ Hl2 _ _ Hc).
  - f_equal. apply nth_ext with (d := 0) (d' := f 0).
    { rewrite map_length. lia. }
    intros j Hj. rewrite map_nth.
    assert (Hjk : (j < k)%nat) by lia.
    pose proof (Ho j Hjk) as E.
    rewrite (nth_error_nth' out 0) in E by lia. congruence.
Qed.

(** ** Examples *)

(** operations of the examples: 0 adds, 1 multiplies, 2 compares with 0,
    3 is an external function *)
Definition ex_ops : nat -> list Z -> option Z :=
  fun o l =>
    match o, l with
    | 0%nat, [x; y] => Some (x + y)
    | 1%nat, [x; y] => Some (x * y)
    | 2%nat, [x] => Some (b2z (0 <=? x))
    | 3%nat, [x] => Some (x - 100)
    | _, _ => Some 0
    end.

(** the scheme of metalibm_functions/unit_tests/static_vectorization.py
    86-110 with a local variable *)
Definition ex_scheme : stmt :=
  SSeq [SIf (SSeq []) (EOp 2 [EOp 0 [EVar 0; ECst (-50)]]) (Some false)
    (SReturn (EVar 0))
    (Some (SSeq [SAssign 1 (EOp 1 [EVar 0; EVar 0]);
       SIf (SSeq []) (EOp 2 [EVar 0]) (Some true)
         (SReturn (EOp 0 [EVar 0; EOp 0 [EVar 1; ECst 1]]))
         (Some (SReturn (ECall 3 [EVar 1])))]))].

Example vector_function_example :
  branchy ex_scheme = true /\ flat_stmt ex_scheme = true
  /\ computes ex_ops ex_scheme (lane [0%nat] (fun _ => Some [2; -3; 60; 5]) 1) (-91)
  /\ vector_implementation ex_ops C_Code (fun v => Nat.eqb v 0) ex_scheme [0%nat]
       4 2 (fun _ => Some [2; -3; 60; 5])
       (fun j => nth_error [7; -91; 60; 31] j) = Some [7; -91; 60; 31]
  /\ vector_implementation ex_ops OpenCL_Code (fun v => Nat.eqb v 0) ex_scheme
       [0%nat] 4 4 (fun _ => Some [2; 3; 4; 5])
       (fun j => None) = Some [7; 13; 21; 31].
Proof.
  split; [reflexivity|]. split; [reflexivity|]. split.
  { apply run_cons_ret.
    eapply run_else; [apply run_nil | reflexivity | reflexivity |].
    eapply run_cons; [apply run_assign; reflexivity|].
    apply run_cons_ret.
    eapply run_else; [apply run_nil | reflexivity | reflexivity |].
    apply run_return. reflexivity. }
  split; reflexivity.
Qed.

(** the conditions and the path of the example *)
Example vector_path_example :
  masks (fst (extract ex_scheme []))
  = [EOp 2 [EVar 0]; ENot (EOp 2 [EOp 0 [EVar 0; ECst (-50)]])]
  /\ lin (fst (extract ex_scheme []))
     = Some (EOp 0 [EVar 0; EOp 0 [EOp 1 [EVar 0; EVar 0]; ECst 1]]).
Proof. split; reflexivity. Qed.

Definition ex_tail : stmt :=
  SIf (SSeq []) (EOp 2 [EVar 0]) (Some true)
    (SReturn (EOp 1 [EVar 0; EVar 0])) (Some (SReturn (ECall 3 [EVar 0]))).

Example vector_function_returns_example :
  branchy ex_tail = true /\ flat_stmt ex_tail = true
  /\ tail_return ex_tail = true /\ reads_only [0%nat] ex_tail
  /\ (forall o l, exists z, ex_ops o l = Some z).
Proof.
  split; [reflexivity|]. split; [reflexivity|]. split; [reflexivity|].
  split.
  - cbn. repeat split; intros v Hv; cbn in *; tauto.
  - intros o l. unfold ex_ops.
    destruct o as [|[|[|[|o]]]]; destruct l as [|x [|y [|z l]]]; eauto.
Qed.

Example inline_example :
  tail_return ex_tail = true /\ no_pre ex_tail = true
  /\ separate [(0%nat, EOp 0 [EVar 5; ECst 1])] ex_tail
  /\ run ex_ops (fun v => if Nat.eqb v 5 then Some 6 else None)
       (inline [(0%nat, EOp 0 [EVar 5; ECst 1])] 9 ex_tail)
       (Go (upd (fun v => if Nat.eqb v 5 then Some 6 else None) 9 49)).
Proof.
  split; [reflexivity|]. split; [reflexivity|]. split; [intros v []|].
  eapply run_then; [apply run_nil | reflexivity | reflexivity |].
  apply run_assign. reflexivity.
Qed.

(** five elements in place, two by iteration *)
Example array_function_example :
  exists m', array_function 6 (fun l => Some (map (fun x => x * x) l))
      (fun x => Some (x * x)) 2 10 10 5 (fun a => a) = Some m'
    /\ map m' [9; 10; 11; 12; 13; 14; 15] = [9; 100; 121; 144; 169; 196; 15].
Proof. eexists. split; [reflexivity|]. reflexivity. Qed.

Print Assumptions vector_path_sound_partial.
Print Assumptions vector_function_lanes_partial.
Print Assumptions vector_function_returns_partial.
Print Assumptions vector_unlikely_without_else_refuted.
Print Assumptions vector_loop_dropped_refuted.
Print Assumptions vector_input_assigned_refuted.
Print Assumptions vector_local_condition_refuted.
Print Assumptions vector_prospective_read_refuted.
Print Assumptions vector_nested_call_refuted.
Print Assumptions vector_uneven_split_refuted.
Print Assumptions inline_result_partial.
Print Assumptions inline_early_return_refuted.
Print Assumptions array_function_elements.
Print Assumptions array_function_overlap_refuted.
Print Assumptions array_of_vector_function_partial.
