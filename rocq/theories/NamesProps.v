(* Fresh names (C37) and termination of free-name requests (C38). *)
Require Import ZArith List Arith String DecimalString Decimal DecimalNat Bool Lia FinFun.
From Verif Require Import NamesModel.
Import ListNotations.
Open Scope string_scope.

(* ---- spec: names visible from a block ---- *)
Definition declared_in (t : stab) (name : string) : Prop := In name (map fst (entries t)).
Definition visible (h : heap) (m : mtab) (name : string) : Prop :=
  exists i, In i (scope m) /\ declared_in (h i) name.

Lemma numbered_inj : forall p a b, numbered p a = numbered p b -> a = b.
Proof.
  intros p a b H. unfold numbered in H.
  assert (E : NilEmpty.string_of_uint (Nat.to_uint a) = NilEmpty.string_of_uint (Nat.to_uint b)).
  { induction p; cbn in H; auto. injection H as H. auto. }
  apply (f_equal NilEmpty.uint_of_string) in E. rewrite !NilEmpty.usu in E. injection E as E.
  apply DecimalNat.Unsigned.to_uint_inj. auto.
Qed.
Lemma assoc_s_in : forall A k (l : list (string * A)), assoc_s k l = None <-> ~ In k (map fst l).
Proof.
  induction l as [|[x a] t IH]; cbn; [tauto|]. destruct (String.eqb_spec x k); subst.
  - split; [discriminate|tauto].
  - rewrite IH. tauto.
Qed.
Lemma st_free_iff : forall t n, st_free t n = true <-> ~ declared_in t n.
Proof.
  intros t n. unfold st_free, declared_in. rewrite <- (assoc_s_in nat n (entries t)). destruct (assoc_s n (entries t)); split; congruence.
Qed.
Lemma ms_free_iff : forall h m n, ms_free h m n = true <-> ~ visible h m n.
Proof.
  intros h m n. unfold ms_free, visible. rewrite forallb_forall. split.
  - intros H [i [Hi D]]. specialize (H i Hi). apply st_free_iff in H. contradiction.
  - intros H i Hi. apply st_free_iff. intros D. apply H. eauto.
Qed.

(* ---- the search ---- *)
Lemma search_spec : forall free p fuel k i, search free p fuel k = Some i -> free (numbered p i) = true /\ k <= i.
Proof.
  induction fuel as [|f IH]; intros k i H; [discriminate|]. cbn in H.
  destruct (free (numbered p k)) eqn:E; [injection H as <-; auto|]. apply IH in H. destruct H. split; auto. lia.
Qed.
Lemma search_none : forall free p fuel k, search free p fuel k = None -> forall j, k <= j < k + fuel -> free (numbered p j) = false.
Proof.
  induction fuel as [|f IH]; intros k H j Hj; [lia|]. cbn in H. destruct (free (numbered p k)) eqn:E; [discriminate|].
  destruct (Nat.eq_dec j k); [subst; auto|]. apply (IH (S k)); auto. lia.
Qed.
Lemma search_total : forall free (taken : list string), (forall n, free n = false -> In n taken) ->
  forall p fuel k, List.length taken < fuel -> exists i, search free p fuel k = Some i.
Proof.
  intros free taken HT p fuel k Hf. destruct (search free p fuel k) as [i|] eqn:E; [eauto|exfalso].
  pose proof (search_none _ _ _ _ E) as N.
  set (names := map (fun j => numbered p (k + j)) (seq 0 fuel)).
  assert (ND : NoDup names).
  { unfold names. apply Injective_map_NoDup; [|apply seq_NoDup]. intros a b H. apply numbered_inj in H. lia. }
  assert (IN : incl names taken).
  { intros n Hn. unfold names in Hn. apply in_map_iff in Hn. destruct Hn as [j [<- Hj]]. apply in_seq in Hj.
    apply HT, N. lia. }
  pose proof (NoDup_incl_length ND IN) as L. unfold names in L. rewrite map_length, seq_length in L. lia.
Qed.
Lemma ms_taken : forall h m, exists taken, List.length taken = ms_size h m /\
  forall n, ms_free h m n = false -> In n taken.
Proof.
  intros h m. exists (flat_map (fun i => map fst (entries (h i))) (scope m)). split.
  - unfold ms_size. generalize (scope m). induction l as [|i l IH]; cbn; auto.
    rewrite app_length, map_length, IH. reflexivity.
  - intros n H. apply in_flat_map.
    assert (G : forall l, forallb (fun i => st_free (h i) n) l = false -> exists i, In i l /\ st_free (h i) n = false).
    { clear. induction l as [|i l IH]; cbn; [discriminate|]. intros H. apply andb_false_iff in H. destruct H as [H|H]; eauto.
      destruct (IH H) as [j [? ?]]. eauto. }
    destruct (G _ H) as [i [Hi Hf]]. exists i. split; auto.
    destruct (in_dec string_dec n (map fst (entries (h i)))) as [D|D]; auto.
    apply (st_free_iff (h i) n) in D. congruence.
Qed.

(* ---- C37 / C38: symbol names ---- *)
(* a request always gives a name, which no table in scope declares *)
Theorem get_free_name_fresh : forall h m prefix,
  exists name m', ms_get_free h m prefix = Some (name, m') /\ ~ visible h m name /\ scope m' = scope m.
Proof.
  intros h m prefix. unfold ms_get_free. destruct (ms_free h m prefix) eqn:E.
  - eexists _, _. split; [reflexivity|]. split; [apply ms_free_iff; auto|reflexivity].
  - destruct (ms_taken h m) as [taken [L HT]].
    destruct (search_total (ms_free h m) taken HT prefix (S (ms_size h m)) (start_index (mpidx m) prefix)) as [i Hi]; [lia|].
    rewrite Hi. eexists _, _. split; [reflexivity|]. split; [|reflexivity].
    apply ms_free_iff. eapply search_spec; eauto.
Qed.
(* more iterations allowed do not change the answer: the loop has stopped *)
Theorem get_free_name_loop_stops : forall h m prefix fuel i,
  search (ms_free h m) prefix (S (ms_size h m)) (start_index (mpidx m) prefix) = Some i ->
  S (ms_size h m) <= fuel -> search (ms_free h m) prefix fuel (start_index (mpidx m) prefix) = Some i.
Proof.
  intros h m prefix fuel i. generalize (S (ms_size h m)) (start_index (mpidx m) prefix). intros n k H. revert fuel k H.
  induction n as [|n IH]; intros fuel k H L; [discriminate|]. destruct fuel as [|f]; [lia|]. cbn in *.
  destruct (ms_free h m (numbered prefix k)); auto. apply IH; auto. lia.
Qed.

Lemma set_s_names : forall A k (v : A) l n, In n (map fst (set_s k v l)) <-> n = k \/ In n (map fst l).
Proof.
  induction l as [|[x a] t IH]; intros n; cbn; [intuition|].
  destruct (String.eqb_spec x k); subst; cbn; [intuition|]. rewrite IH. intuition.
Qed.
Lemma assoc_set_s : forall A k (v : A) l n, assoc_s n (set_s k v l) = if String.eqb k n then Some v else assoc_s n l.
Proof.
  induction l as [|[x a] t IH]; intros n; cbn; [destruct (String.eqb k n); auto|].
  destruct (String.eqb_spec x k); subst; cbn.
  - destruct (String.eqb_spec k n); auto.
  - rewrite IH. destruct (String.eqb_spec x n), (String.eqb_spec k n); subst; congruence.
Qed.
Lemma assoc_set_n : forall A k (v : A) l n, assoc_n n (set_n k v l) = if Nat.eqb k n then Some v else assoc_n n l.
Proof.
  induction l as [|[x a] t IH]; intros n; cbn; [destruct (Nat.eqb k n); auto|].
  destruct (Nat.eqb_spec x k); subst; cbn.
  - destruct (Nat.eqb_spec k n); auto.
  - rewrite IH. destruct (Nat.eqb_spec x n), (Nat.eqb_spec k n); subst; congruence.
Qed.

(* ---- histories ---- *)
Inductive event :=
| EDeclare (k : nat) (name : string) (obj : nat)      (* declare_*_name *)
| EFree (k : nat) (prefix : string) (obj : nat)       (* free name, then declared *)
| ECst (prefix : string) (obj : nat)                  (* declare_cst *)
| EAsk (prefix : string).                             (* free name, not declared *)
(* names handed out and declared, in order; None: a request does not end *)
Fixpoint run (fuel : nat) (uq : string) (h : heap) (m : mtab) (es : list event) : option (list string * heap * mtab) :=
  match es with
  | [] => Some ([], h, m)
  | EDeclare k n o :: t => run fuel uq (ms_declare h m k n o) m t
  | EFree k p o :: t =>
      match ms_get_free h m p with
      | Some (n, m') =>
          match run fuel uq (ms_declare h m' k n o) m' t with
          | Some (l, h2, m2) => Some (n :: l, h2, m2) | None => None end
      | None => None
      end
  | ECst p o :: t =>
      match ms_get_free_cst fuel uq h m p with
      | Some (n, h') =>
          match run fuel uq (ms_declare h' m 0 n o) m t with
          | Some (l, h2, m2) => Some (n :: l, h2, m2) | None => None end
      | None => None
      end
  | EAsk p :: t =>
      match ms_get_free h m p with
      | Some (_, m') => run fuel uq h m' t
      | None => None
      end
  end.
Definition event_ok (m : mtab) (e : event) : Prop :=
  match e with EDeclare k _ _ | EFree k _ _ => k < List.length (own m) | _ => True end.

Lemma nth_own_scope : forall m k, k < List.length (own m) -> In (nth k (own m) 0) (scope m).
Proof. intros. unfold scope. apply in_or_app. left. apply nth_In. auto. Qed.
Lemma ms_declare_visible : forall h m k n o x, k < List.length (own m) ->
  visible (ms_declare h m k n o) m x <-> x = n \/ visible h m x.
Proof.
  intros h m k n o x Hk. pose proof (nth_own_scope m k Hk) as HI. unfold visible, ms_declare, upd. split.
  - intros [i [Hi D]]. destruct (Nat.eqb_spec i (nth k (own m) 0)).
    + subst i. unfold declared_in, st_declare in D. cbn [entries] in D. apply set_s_names in D. destruct D as [->|D]; [auto|].
      right. eauto.
    + right. eauto.
  - intros [->|[i [Hi D]]].
    + exists (nth k (own m) 0). split; auto. rewrite Nat.eqb_refl. unfold declared_in, st_declare; cbn [entries].
      apply set_s_names. auto.
    + exists i. split; auto. destruct (Nat.eqb_spec i (nth k (own m) 0)); auto. subst i.
      unfold declared_in, st_declare; cbn [entries]. apply set_s_names. auto.
Qed.
Lemma st_get_free_entries : forall uq t p n t', st_get_free uq t p = Some (n, t') -> entries t' = entries t /\ ~ declared_in t n.
Proof.
  intros uq t p n t' H. unfold st_get_free in H. destruct (st_free t (uq ++ p)) eqn:E.
  - injection H as <- <-. split; auto. apply st_free_iff; auto.
  - destruct (search _ _ _ _) as [i|] eqn:S; [|discriminate]. injection H as <- <-. split; auto.
    apply st_free_iff. eapply search_spec; eauto.
Qed.
Lemma ms_get_free_cst_visible : forall fuel uq h m p n h', ms_get_free_cst fuel uq h m p = Some (n, h') ->
  ~ visible h m n /\ (forall x, visible h' m x <-> visible h m x).
Proof.
  induction fuel as [|f IH]; intros uq h m p n h' H; [discriminate|]. cbn [ms_get_free_cst] in H.
  destruct (st_get_free uq (h (cst_id m)) p) as [[nm t]|] eqn:E; [|discriminate].
  apply st_get_free_entries in E. destruct E as [E _].
  assert (V : forall x, visible (upd h (cst_id m) t) m x <-> visible h m x).
  { intros x. unfold visible, upd. split; intros [i [Hi D]]; exists i; split; auto;
      destruct (Nat.eqb_spec i (cst_id m)); auto; subst; unfold declared_in in *; congruence. }
  destruct (ms_free _ m nm) eqn:F.
  - injection H as <- <-. split; auto. apply ms_free_iff in F. rewrite V in F. auto.
  - apply IH in H. destruct H as [A B]. split; [rewrite <- V; auto|]. intros x. rewrite B, V. reflexivity.
Qed.
Lemma scope_get_free : forall h m p n m', ms_get_free h m p = Some (n, m') ->
  own m' = own m /\ parents m' = parents m /\ ~ visible h m n.
Proof.
  intros h m p n m' H. destruct (get_free_name_fresh h m p) as [n1 [m1 [E [V _]]]]. rewrite E in H. injection H as <- <-.
  unfold ms_get_free in E. destruct (ms_free h m p); [injection E as <- <-; auto|].
  destruct (search _ _ _ _); [|discriminate]. injection E as <- <-. auto.
Qed.

(* along every history the names handed out are pairwise distinct and different
   from every name declared before *)
Theorem names_distinct : forall fuel uq es h m l h' m', Forall (event_ok m) es -> 0 < List.length (own m) ->
  run fuel uq h m es = Some (l, h', m') ->
  NoDup l /\ (forall n, In n l -> ~ visible h m n /\ visible h' m' n) /\ (forall n, visible h m n -> visible h' m' n).
Proof.
  intros fuel uq. induction es as [|e es IH]; intros h m l h' m' OK L H.
  - injection H as <- <- <-. split; [constructor|]. split; [intros ? []|auto].
  - inversion OK as [|? ? Oe Oes]; subst. destruct e as [k n o|k p o|p o|p]; cbn [run] in H.
    + destruct (IH _ _ _ _ _ Oes L H) as [A [B C]]. split; auto. split.
      * intros x Hx. destruct (B x Hx) as [V W]. split; auto. intros D. apply V. apply ms_declare_visible; auto.
      * intros x Hx. apply C. apply ms_declare_visible; auto.
    + destruct (ms_get_free h m p) as [[n m1]|] eqn:E; [|discriminate].
      destruct (run fuel uq (ms_declare h m1 k n o) m1 es) as [[[l1 h1] m2]|] eqn:R; [|discriminate]. injection H as <- <- <-.
      destruct (scope_get_free _ _ _ _ _ E) as [S1 [S2 V]].
      assert (Oes1 : Forall (event_ok m1) es).
      { eapply Forall_impl; [|exact Oes]. intros e He. unfold event_ok in *. rewrite S1. auto. }
      assert (SV : forall hh x, visible hh m1 x <-> visible hh m x).
      { intros. unfold visible, scope. rewrite S1, S2. reflexivity. }
      cbn [event_ok] in Oe. rewrite <- S1 in Oe, L.
      destruct (IH _ _ _ _ _ Oes1 L R) as [A [B C]].
      assert (DV : forall x, visible (ms_declare h m1 k n o) m1 x <-> x = n \/ visible h m x).
      { intros x. rewrite ms_declare_visible, SV by auto. reflexivity. }
      split; [|split].
      * constructor; auto. intros Hn. destruct (B n Hn) as [K _]. apply K. apply DV. auto.
      * intros x [<-|Hx]; [split; auto; apply C; apply DV; auto|]. destruct (B x Hx) as [K W]. split; auto.
        intros D. apply K. apply DV. auto.
      * intros x Hx. apply C. apply DV. auto.
    + destruct (ms_get_free_cst fuel uq h m p) as [[n h1]|] eqn:E; [|discriminate].
      destruct (run fuel uq (ms_declare h1 m 0 n o) m es) as [[[l1 h2] m2]|] eqn:R; [|discriminate]. injection H as <- <- <-.
      destruct (ms_get_free_cst_visible _ _ _ _ _ _ _ E) as [V S].
      destruct (IH _ _ _ _ _ Oes L R) as [A [B C]].
      assert (DV : forall x, visible (ms_declare h1 m 0 n o) m x <-> x = n \/ visible h m x).
      { intros x. rewrite ms_declare_visible, S by auto. reflexivity. }
      split; [|split].
      * constructor; auto. intros Hn. destruct (B n Hn) as [K _]. apply K. apply DV. auto.
      * intros x [<-|Hx]; [split; auto; apply C; apply DV; auto|]. destruct (B x Hx) as [K W]. split; auto.
        intros D. apply K. apply DV. auto.
      * intros x Hx. apply C. apply DV. auto.
    + destruct (ms_get_free h m p) as [[n m1]|] eqn:E; [|discriminate].
      destruct (scope_get_free _ _ _ _ _ E) as [S1 [S2 V]].
      assert (Oes1 : Forall (event_ok m1) es).
      { eapply Forall_impl; [|exact Oes]. intros e He. unfold event_ok in *. rewrite S1. auto. }
      assert (SV : forall hh x, visible hh m1 x <-> visible hh m x).
      { intros. unfold visible, scope. rewrite S1, S2. reflexivity. }
      rewrite <- S1 in L. destruct (IH _ _ _ _ _ Oes1 L H) as [A [B C]]. split; auto. split.
      * intros x Hx. destruct (B x Hx). rewrite SV in *. auto.
      * intros x Hx. apply C. apply SV. auto.
Qed.
(* a name asked for but not declared is handed out again *)
Theorem undeclared_name_repeats_refuted : forall h m p, ms_free h m p = true ->
  exists m', ms_get_free h m p = Some (p, m') /\ exists m'', ms_get_free h m' p = Some (p, m'').
Proof.
  intros h m p E. unfold ms_get_free. rewrite E. eexists. split; [reflexivity|].
  assert (E2 : ms_free h (mkmtab (own m) (parents m) (set_s p 0 (mpidx m))) p = true) by exact E.
  rewrite E2. eauto.
Qed.
(* declaring a fresh name keeps all other definitions, and both directions of
   the map agree on the new one *)
Theorem declare_symbol_correct : forall t name obj, ~ declared_in t name ->
  let t' := st_declare t name obj in
  assoc_s name (entries t') = Some obj /\ st_has_definition t' obj = Some name /\
  (forall n, n <> name -> assoc_s n (entries t') = assoc_s n (entries t)) /\
  (forall o, o <> obj -> st_has_definition t' o = st_has_definition t o) /\
  (NoDup (map fst (entries t)) -> NoDup (map fst (entries t'))).
Proof.
  intros t name obj H t'. subst t'. unfold st_declare, st_has_definition; cbn [entries rev_map].
  rewrite assoc_set_s, assoc_set_n, String.eqb_refl, Nat.eqb_refl.
  split; [auto|]. split; [auto|]. split; [|split].
  - intros n Hn. rewrite assoc_set_s. destruct (String.eqb_spec name n); congruence.
  - intros o Ho. rewrite assoc_set_n. destruct (Nat.eqb_spec obj o); congruence.
  - intros ND. unfold declared_in in H. revert H ND. generalize (entries t). induction l as [|[x a] l IH]; cbn; intros H ND.
    + constructor; auto.
    + destruct (String.eqb_spec x name); [subst; tauto|]. inversion ND; subst. cbn. constructor; [|apply IH; tauto].
      rewrite set_s_names. intros [->|K]; tauto.
Qed.

(* ---- C38: constant names ---- *)
(* when the prefix is used in scope but not as a constant, the loop never ends *)
Theorem get_free_cst_diverges_refuted : forall fuel uq h m p,
  ~ declared_in (h (cst_id m)) (uq ++ p) -> visible h m (uq ++ p) ->
  ms_get_free_cst fuel uq h m p = None.
Proof.
  induction fuel as [|f IH]; intros uq h m p Hc Hv; auto. cbn [ms_get_free_cst]. unfold st_get_free.
  rewrite (proj2 (st_free_iff _ _) Hc).
  set (h' := upd h (cst_id m) _).
  assert (V : visible h' m (uq ++ p)).
  { destruct Hv as [i [Hi D]]. exists i. split; auto. unfold h', upd.
    destruct (Nat.eqb_spec i (cst_id m)); auto. subst. exact D. }
  destruct (ms_free h' m (uq ++ p)) eqn:F; [apply ms_free_iff in F; contradiction|].
  apply IH; auto. unfold h', upd. rewrite Nat.eqb_refl. exact Hc.
Qed.
(* otherwise it ends *)
Lemma st_get_free_total : forall uq t p, exists n t', st_get_free uq t p = Some (n, t').
Proof.
  intros uq t p. unfold st_get_free. destruct (st_free t (uq ++ p)) eqn:E; [eauto|].
  destruct (search_total (st_free t) (map fst (entries t))) with (p := uq ++ p) (fuel := S (List.length (entries t)))
    (k := start_index (pidx t) (uq ++ p)) as [i Hi].
  - intros n Hn. destruct (in_dec string_dec n (map fst (entries t))); auto. apply (st_free_iff t n) in n0. congruence.
  - rewrite map_length. lia.
  - rewrite Hi. eauto.
Qed.
Theorem get_free_cst_ends_partial : forall uq h m p,
  declared_in (h (cst_id m)) (uq ++ p) \/ ~ visible h m (uq ++ p) ->
  exists fuel n h', ms_get_free_cst fuel uq h m p = Some (n, h') /\ ~ visible h m n.
Proof.
  intros uq h m p H.
  assert (G : forall fuel, (exists n h', ms_get_free_cst fuel uq h m p = Some (n, h')) ->
     exists fuel n h', ms_get_free_cst fuel uq h m p = Some (n, h') /\ ~ visible h m n).
  { intros fuel [n [h' E]]. exists fuel, n, h'. split; auto. eapply ms_get_free_cst_visible; eauto. }
  destruct (in_dec string_dec (uq ++ p) (map fst (entries (h (cst_id m))))) as [D|D].
  - assert (H' : declared_in (h (cst_id m)) (uq ++ p)) by exact D. clear H D. rename H' into H.
    (* numbered names: each turn tries a larger index *)
    destruct (ms_taken h m) as [taken [Lt HT]].
    assert (K : forall fuel h2, entries (h2 (cst_id m)) = entries (h (cst_id m)) ->
       (forall x, visible h2 m x <-> visible h m x) ->
       ms_get_free_cst fuel uq h2 m p = None ->
       exists is, List.length is = fuel /\ NoDup is /\ Forall (fun i => start_index (pidx (h2 (cst_id m))) (uq ++ p) <= i) is /\
         Forall (fun i => ms_free h m (numbered (uq ++ p) i) = false) is).
    { induction fuel as [|f IH]; intros h2 E2 V2 R; [exists []; repeat split; constructor|].
      cbn [ms_get_free_cst] in R. destruct (st_get_free_total uq (h2 (cst_id m)) p) as [n [t Et]]. rewrite Et in R.
      pose proof (st_get_free_entries _ _ _ _ _ Et) as [Ee _].
      unfold st_get_free in Et.
      destruct (st_free (h2 (cst_id m)) (uq ++ p)) eqn:F0.
      { apply st_free_iff in F0. unfold declared_in in *. rewrite E2 in F0. contradiction. }
      destruct (search (st_free (h2 (cst_id m))) (uq ++ p) _ _) as [i|] eqn:Es; [|discriminate]. injection Et as <- <-.
      apply search_spec in Es. destruct Es as [_ Ls].
      set (t := mkstab _ _ _) in *. set (h3 := upd h2 (cst_id m) t) in *.
      assert (V3 : forall x, visible h3 m x <-> visible h2 m x).
      { intros x. unfold visible, h3, upd. split; intros [j [Hj D]]; exists j; split; auto;
          destruct (Nat.eqb_spec j (cst_id m)); auto; subst; exact D. }
      destruct (ms_free h3 m (numbered (uq ++ p) i)) eqn:F3; [discriminate|].
      assert (F : ms_free h m (numbered (uq ++ p) i) = false).
      { destruct (ms_free h m (numbered (uq ++ p) i)) eqn:F; auto. apply ms_free_iff in F. rewrite <- V2, <- V3 in F.
        apply ms_free_iff in F. congruence. }
      destruct (IH h3) as [is [A [B [C D]]]]; auto.
      { unfold h3, upd. rewrite Nat.eqb_refl. exact E2. }
      { intros x. rewrite V3. apply V2. }
      assert (SI : start_index (pidx (h3 (cst_id m))) (uq ++ p) = S i).
      { unfold h3, upd, start_index. rewrite Nat.eqb_refl. cbn [pidx t]. rewrite assoc_set_s, String.eqb_refl. reflexivity. }
      rewrite SI in C. exists (i :: is). split; [cbn; auto|]. split; [|split; constructor; auto].
      - constructor; auto. intros Hi. rewrite Forall_forall in C. specialize (C i Hi). lia.
      - eapply Forall_impl; [|exact C]. cbn. intros. lia. }
    set (fuel := S (List.length taken)).
    destruct (ms_get_free_cst fuel uq h m p) as [[n h']|] eqn:E; [apply (G fuel); eauto|exfalso].
    destruct (K fuel h eq_refl (fun x => iff_refl _) E) as [is [A [B [_ D]]]].
    assert (ND : NoDup (map (numbered (uq ++ p)) is)).
    { apply Injective_map_NoDup; auto. intros a b. apply numbered_inj. }
    assert (IN : incl (map (numbered (uq ++ p)) is) taken).
    { intros x Hx. apply in_map_iff in Hx. destruct Hx as [i [<- Hi]]. rewrite Forall_forall in D. auto. }
    pose proof (NoDup_incl_length ND IN) as L. rewrite map_length, A in L. unfold fuel in L. lia.
  - destruct H as [H|H]; [contradiction|]. apply (G 1). cbn [ms_get_free_cst]. unfold st_get_free. rewrite (proj2 (st_free_iff _ _) D).
      set (h' := upd h (cst_id m) _). destruct (ms_free h' m (uq ++ p)) eqn:F; [eauto|exfalso].
      assert (V : ~ visible h' m (uq ++ p)).
      { intros [i [Hi Di]]. apply H. exists i. split; auto. unfold h', upd in Di.
        destruct (Nat.eqb_spec i (cst_id m)); auto. subst. exact Di. }
      apply ms_free_iff in V. congruence.
Qed.

Example names_example :
  let t0 := mkstab [("x", 1)] [(1, "x")] [] in let e := mkstab [] [] [] in
  let h := fun i => if Nat.eqb i 2 then t0 else e in
  let m := mkmtab [0; 1; 2] [3] [] in
  (exists h' m', run 5 "" h m [EFree 2 "x" 7; ECst "c" 8; EFree 2 "x" 9; ECst "c" 10] = Some (["x0"; "c"; "x1"; "c1"], h', m')) /\
  Forall (event_ok m) [EFree 2 "x" 7; ECst "c" 8; EFree 2 "x" 9; ECst "c" 10] /\
  (~ declared_in (h (cst_id m)) ("" ++ "x") /\ visible h m ("" ++ "x")).
Proof.
  cbn. split; [eexists _, _; reflexivity|]. split; [repeat constructor; cbn; lia|].
  split; [intros []|]. exists 2. cbn. auto.
Qed.

Print Assumptions get_free_name_fresh. Print Assumptions get_free_name_loop_stops. Print Assumptions names_distinct.
Print Assumptions declare_symbol_correct. Print Assumptions get_free_cst_diverges_refuted. Print Assumptions get_free_cst_ends_partial.
