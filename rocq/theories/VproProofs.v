(* Vector promotion: the pass with its memoization and levels computes the promoted graph. *)
From Coq Require Import ZArith List Bool String Arith Lia.
From Verif Require Import VproModel VproSpec.
Import ListNotations.
Open Scope string_scope.
Open Scope list_scope.

Lemma fmt_eqb_eq : forall a b, fmt_eqb a b = true <-> a = b.
Proof.
  intros [x|x] [y|y]; cbn [fmt_eqb]; rewrite ?String.eqb_eq; split; intro H; try discriminate H; congruence.
Qed.
Lemma ident_eqb_eq : forall a b, ident_eqb a b = true <-> a = b.
Proof.
  induction a; destruct b; cbn [ident_eqb]; rewrite ?Nat.eqb_eq, ?IHa; split; intro H; try discriminate H; congruence.
Qed.
Lemma key_eqb_eq : forall a b, key_eqb a b = true <-> a = b.
Proof.
  intros [f i] [g j]. unfold key_eqb. cbn [fst snd]. rewrite andb_true_iff, fmt_eqb_eq, ident_eqb_eq. split; [intros [-> ->]; reflexivity|intro H; inversion H; auto].
Qed.

Lemma node_ind' : forall P : node -> Prop,
  (forall i f x, P (NLeaf i f x)) -> (forall i f t, P (NTable i f t)) -> (forall i f v, P (NCst i f v)) ->
  (forall i o f args, Forall P args -> P (NOp i o f args)) -> forall n, P n.
Proof.
  intros P H1 H2 H3 H4. fix F 1. intros [i f x|i f t|i f v|i o f args]; [apply H1|apply H2|apply H3|].
  apply H4. induction args as [|a l IH]; constructor; [apply F|exact IH].
Qed.
Lemma tree_ind' : forall P : tree -> Prop,
  (forall f x, P (TLeaf f x)) -> (forall f t, P (TTable f t)) -> (forall f v, P (TCst f v)) ->
  (forall o x f args, Forall P args -> P (TOp o x f args)) -> forall n, P n.
Proof.
  intros P H1 H2 H3 H4. fix F 1. intros [f x|f t|f v|o x f args]; [apply H1|apply H2|apply H3|].
  apply H4. induction args as [|a l IH]; constructor; [apply F|exact IH].
Qed.

Lemma erase_fmt : forall n, tfmt (erase n) = nfmt n.
Proof. destruct n; reflexivity. Qed.

(* memoization *)
Lemma mget_mset : forall k k' n m r, mget k' (mset k n m) = Some r -> mget k' m = Some r \/ (k' = k /\ r = n).
Proof.
  intros k k' n [|l t] r H; [left; exact H|]. cbn [mset mget kassoc] in *.
  destruct (mget k' t); [left; exact H|]. destruct (key_eqb k k') eqn:E; [|left; exact H].
  apply key_eqb_eq in E. injection H as <-. right. auto.
Qed.
Lemma mget_set_new : forall k n l t, mget k t = None -> mget k (mset k n (l :: t)) = Some n.
Proof.
  intros k n l t H. cbn [mset mget kassoc]. rewrite H. rewrite (proj2 (key_eqb_eq k k) eq_refl). reflexivity.
Qed.
Lemma mset_tl : forall k n m, tl (mset k n m) = tl m.
Proof. intros k n [|l t]; reflexivity. Qed.
Lemma mset_nil : forall k n m, mset k n m = [] <-> m = [].
Proof. intros k n [|l t]; cbn [mset]; split; intro H; congruence. Qed.

Lemma prom_list_cons : forall pr ef s a t, prom_list pr ef s (a :: t) =
  match ef a with
  | None => None
  | Some fa => match pr s a fa with
               | None => None
               | Some (a', s1) => match prom_list pr ef s1 t with Some (t', s2) => Some (a' :: t', s2) | None => None end
               end
  end.
Proof. reflexivity. Qed.

Section P.
Variable table : fmt -> option fmt.
Variable supported : string -> fmt -> list fmt -> bool.
Let up := up table.
Let promoted := promoted table supported.

Lemma conv_up : forall f, conv_format table f = if has_up table f then Some (up f) else None.
Proof.
  intros [s|s]; unfold conv_format, has_up, up, VproSpec.up; [reflexivity|]. destruct (table (FNamed s)); reflexivity.
Qed.
Lemma convertible_up : forall f, convertible table f = has_up table f.
Proof. intro f. unfold convertible. rewrite conv_up. destruct (has_up table f); reflexivity. Qed.
Lemma no_up : forall f, has_up table f = false -> up f = f.
Proof.
  intros [s|s]; unfold has_up, up, VproSpec.up; [reflexivity|]. destruct (table (FNamed s)); [discriminate|reflexivity].
Qed.
Lemma conv_formats_up : forall l, forallb (has_up table) l = true -> conv_formats table l = Some (map up l).
Proof.
  induction l as [|f t IH]; [reflexivity|]. cbn [forallb conv_formats map]. rewrite andb_true_iff. intros [H1 H2].
  rewrite conv_up, H1, (IH H2). reflexivity.
Qed.
Lemma promotable_moves : forall n, promotable table supported n = moves table supported (erase n).
Proof.
  intros [i f x|i f t|i f v|i o f args]; unfold promotable; cbn [erase moves nfmt]; rewrite ?andb_false_r; auto; rewrite convertible_up.
  - rewrite conv_up. destruct (has_up table f); reflexivity.
  - assert (forallb (convertible table) (map nfmt args) = forallb (fun a => has_up table (tfmt a)) (map erase args)) as ->.
    { induction args as [|a l IH]; [reflexivity|]. cbn [map forallb]. rewrite IH, erase_fmt, convertible_up. reflexivity. }
    rewrite conv_up. destruct (has_up table f); cbn [andb]; auto. destruct (negb (never o)); cbn [andb]; auto.
    destruct (forallb (fun a => has_up table (tfmt a)) (map erase args)) eqn:E; cbn [andb]; auto.
    assert (map nfmt args = map tfmt (map erase args)) as Em by (rewrite map_map; apply map_ext; intro; symmetry; apply erase_fmt).
    rewrite conv_formats_up.
    + rewrite Em, map_map. reflexivity.
    + rewrite Em. rewrite <- E. clear E. generalize (map erase args). induction l as [|b l IH]; [reflexivity|]. cbn [map forallb]. rewrite IH. reflexivity.
Qed.

Definition expectable (n : node) (e : fmt) : Prop := e = nfmt n \/ e = up (nfmt n).

Section Coh.
Variable L : list node.
Hypothesis COH : coherent L.
Definition minv (s : st) : Prop := memo s <> [] /\
  forall e i r, mget (e, i) (memo s) = Some r -> forall n, In n L -> nid n = i -> erase r = promoted (erase n) e.

Lemma insert_erase : forall s n e, erase (fst (insert_conversion s n e)) = conv_to e (erase n) /\ memo (snd (insert_conversion s n e)) = memo s.
Proof.
  intros s n e. unfold insert_conversion, conv_to. rewrite erase_fmt. destruct (fmt_eqb (nfmt n) e); cbn [fst snd memo]; [auto|].
  split; reflexivity.
Qed.
Definition result_ok (s : st) (n : node) (e : fmt) (r : option (node * st)) : Prop :=
  exists r' s', r = Some (r', s') /\ erase r' = promoted (erase n) e /\ minv s' /\ tl (memo s') = tl (memo s).
Lemma memoize_ok : forall s n e x s0, In n L -> minv s0 -> memo s0 = memo (snd x) -> tl (memo s0) = tl (memo s) ->
  erase (fst x) = promoted (erase n) e -> result_ok s n e (Some (memoize e (nid n) x)).
Proof.
  intros s n e x s0 HL [HN HM] Em Et E. exists (fst x). eexists. split; [reflexivity|]. split; [exact E|].
  cbn [memoize fst snd memo]. split; [|rewrite mset_tl, <- Em; exact Et].
  split. { cbn [memo]. rewrite mset_nil, <- Em. exact HN. }
  cbn [memo]. intros e' i r H m Hm Ei. apply mget_mset in H. destruct H as [H|[Ek ->]].
  - rewrite <- Em in H. exact (HM _ _ _ H m Hm Ei).
  - injection Ek as -> Ek. rewrite (COH m n Hm HL) by congruence. exact E.
Qed.
Lemma in_args : forall i o f args a, In a args -> incl (nodes a) (nodes (NOp i o f args)).
Proof. intros i o f args a Ha m Hm. cbn [nodes]. right. apply in_flat_map. exists a. auto. Qed.
Lemma node_self : forall n, In n (nodes n).
Proof. destruct n; left; reflexivity. Qed.

Lemma list_ok : forall ef ff args,
  Forall (fun n => forall s e, incl (nodes n) L -> minv s -> expectable n e -> result_ok s n e (promote table supported s n e)) args ->
  (forall a, In a args -> ef a = Some (ff (nfmt a)) /\ expectable a (ff (nfmt a))) ->
  (forall a, In a args -> incl (nodes a) L) -> forall s, minv s ->
  exists l' s', prom_list (promote table supported) ef s args = Some (l', s') /\
    map erase l' = map (fun a => promoted a (ff (tfmt a))) (map erase args) /\ minv s' /\ tl (memo s') = tl (memo s).
Proof.
  intros ef ff args HF. induction HF as [|a t Ha Ht IH]; intros HE HL s HM.
  - exists [], s. cbn [prom_list map]. auto.
  - destruct (HE a (or_introl eq_refl)) as [E1 E2].
    destruct (Ha s (ff (nfmt a)) (HL a (or_introl eq_refl)) HM E2) as (a' & s1 & Ea & Er & M1 & T1).
    destruct (IH (fun b H => HE b (or_intror H)) (fun b H => HL b (or_intror H)) s1 M1) as (t' & s2 & Et & Et2 & M2 & T2).
    exists (a' :: t'), s2. split; [rewrite prom_list_cons, E1, Ea, Et; reflexivity|].
    split; [|split; [exact M2|congruence]]. cbn [map]. rewrite Er, Et2, erase_fmt. reflexivity.
Qed.

Lemma promote_ok : forall n s e, incl (nodes n) L -> minv s -> expectable n e -> result_ok s n e (promote table supported s n e).
Proof.
  induction n as [i f x|i f t|i f v|i o f args IH] using node_ind'; intros s e HL HM HE; assert (In _ L) as HIn by (apply HL; apply node_self);
  cbn [promote nid];
  (destruct (mget (e, i) (memo s)) as [r|] eqn:EG;
   [exists r, s; split; [reflexivity|]; split; [exact (proj2 HM _ _ _ EG _ HIn eq_refl)|]; split; [exact HM|reflexivity]|]);
  rewrite promotable_moves; cbn [erase].
  - cbn [moves]. destruct (fmt_eqb e f) eqn:Ef.
    + apply fmt_eqb_eq in Ef. subst e. eexists _, s. split; [reflexivity|]. split; [|auto].
      cbn [erase]. unfold promoted. cbn [VproSpec.promoted]. unfold conv_to. cbn [tfmt]. rewrite (proj2 (fmt_eqb_eq f f) eq_refl). reflexivity.
    + assert (exists g, table f = Some g) as [g Eg].
      { destruct HE as [->| ->]; cbn [nfmt] in Ef; [rewrite (proj2 (fmt_eqb_eq f f) eq_refl) in Ef; discriminate|].
        unfold up, VproSpec.up in Ef. destruct f as [q|q]; [rewrite (proj2 (fmt_eqb_eq (FTab q) _) eq_refl) in Ef; discriminate|].
        destruct (table (FNamed q)) as [g|]; [exists g; reflexivity|]. rewrite (proj2 (fmt_eqb_eq (FNamed q) _) eq_refl) in Ef. discriminate. }
      rewrite Eg. destruct (insert_erase s (NLeaf i f x) e) as [E1 E2].
      apply (memoize_ok s (NLeaf i f x) e _ s); auto.
  - cbn [moves]. apply (memoize_ok s (NTable i f t) e (NTable i f t, s) s); auto.
  - destruct (moves table supported (TCst f v)) eqn:EM.
    + assert (has_up table f = true) as HU by (cbn [moves] in EM; apply andb_true_iff in EM; tauto).
      rewrite conv_up, HU. destruct (insert_erase s (NCst (Cp i) (up f) v) e) as [E1 E2].
      apply (memoize_ok s (NCst i f v) e _ s); auto. rewrite E1. unfold promoted. cbn [VproSpec.promoted erase]. rewrite EM. reflexivity.
    + destruct (insert_erase s (NCst i f v) e) as [E1 E2].
      apply (memoize_ok s (NCst i f v) e _ s); auto. rewrite E1. unfold promoted. cbn [VproSpec.promoted erase]. rewrite EM. reflexivity.
  - assert (forall a, In a args -> incl (nodes a) L) as HA by (intros a Ha; eapply incl_tran; [apply (in_args i o f args a Ha)|exact HL]).
    destruct (moves table supported (TOp (oname o) (never o) f (map erase args))) eqn:EM.
    + pose proof EM as EM'. cbn [moves] in EM'. rewrite !andb_true_iff in EM'. destruct EM' as [[[HU _] HF] _].
      destruct (list_ok (fun a => conv_format table (nfmt a)) up args IH) with (s := s) as (l' & s1 & El & Em & M1 & T1); auto.
      { intros a Ha. rewrite conv_up. rewrite forallb_forall in HF. rewrite <- (erase_fmt a) at 1.
        rewrite (HF (erase a) (in_map erase _ _ Ha)). split; [reflexivity|right; reflexivity]. }
      rewrite El, conv_up, HU. destruct (insert_erase s1 (NOp (Cp i) o (up f) l') e) as [E1 E2].
      apply (memoize_ok s (NOp i o f args) e _ s1); auto. rewrite E1. unfold promoted. cbn [VproSpec.promoted erase]. rewrite EM, Em. reflexivity.
    + destruct (list_ok (fun a => Some (nfmt a)) (fun g => g) args IH) with (s := s) as (l' & s1 & El & Em & M1 & T1); auto.
      { intros a Ha. split; [reflexivity|left; reflexivity]. }
      rewrite El. destruct (insert_erase s1 (NOp i o f l') e) as [E1 E2].
      apply (memoize_ok s (NOp i o f args) e _ s1); auto. rewrite E1. unfold promoted. cbn [VproSpec.promoted erase]. rewrite EM, Em. reflexivity.
Qed.

Lemma mget_tl : forall k m r, mget k (tl m) = Some r -> mget k m = Some r.
Proof. intros k [|l t] r H; [discriminate|]. cbn [tl] in H. cbn [mget]. rewrite H. reflexivity. Qed.
Lemma open_inv : forall s, minv s -> minv (open_level s).
Proof.
  intros s [HN HM]. split; [discriminate|]. intros e i r H. cbn [open_level memo mget kassoc] in H.
  destruct (mget (e, i) (memo s)) eqn:E; [|discriminate]. injection H as <-. exact (HM _ _ _ E).
Qed.
Lemma close_memo : forall s s', tl (memo s') = tl (memo (open_level s)) -> memo (close_level s') = memo s.
Proof. intros s s' H. cbn [close_level memo]. rewrite H. reflexivity. Qed.
Lemma memo_inv : forall s s', memo s' = memo s -> minv s -> minv s'.
Proof. intros s s' E [HN HM]. split; [rewrite E; exact HN|]. rewrite E. exact HM. Qed.

Lemma promote_stmt_ok : forall p s, incl (stmt_nodes p) L -> minv s ->
  exists p' s', promote_stmt table supported s p = Some (p', s') /\ erase_stmt p' = promoted_stmt table supported (erase_stmt p) /\
    minv s' /\ tl (memo s') = tl (memo s).
Proof.
  assert (forall n s, incl (nodes n) L -> minv s -> result_ok s n (nfmt n) (promote table supported s n (nfmt n))) as PE.
  { intros n s Hn Hs. apply promote_ok; auto. left. reflexivity. }
  induction p as [|a IHa b IHb|x e|c a IHa b IHb|i IHi c b IHb|e]; intros s HL HM; cbn [promote_stmt erase_stmt promoted_stmt stmt_nodes] in *.
  - exists SSkip, s. auto.
  - apply incl_app_inv in HL. destruct HL as [H1 H2].
    destruct (IHa s H1 HM) as (a' & s1 & E1 & R1 & M1 & T1). rewrite E1.
    destruct (IHb s1 H2 M1) as (b' & s2 & E2 & R2 & M2 & T2). rewrite E2.
    exists (SSeq a' b'), s2. cbn [erase_stmt]. rewrite R1, R2. split; [reflexivity|]. split; [reflexivity|]. split; [exact M2|congruence].
  - apply incl_app_inv in HL. destruct HL as [H1 H2].
    destruct (PE x s H1 HM) as (x' & s1 & E1 & R1 & M1 & T1). rewrite E1.
    destruct (PE e s1 H2 M1) as (e' & s2 & E2 & R2 & M2 & T2). rewrite E2.
    exists (SAssign x' e'), s2. cbn [erase_stmt]. rewrite R1, R2, !erase_fmt. split; [reflexivity|]. split; [reflexivity|]. split; [exact M2|congruence].
  - apply incl_app_inv in HL. destruct HL as [H1 H2]. apply incl_app_inv in H2. destruct H2 as [H2 H3].
    destruct (PE c s H1 HM) as (c' & s1 & E1 & R1 & M1 & T1). rewrite E1.
    destruct (IHa (open_level s1) H2 (open_inv _ M1)) as (a' & s2 & E2 & R2 & M2 & T2). rewrite E2.
    assert (minv (close_level s2)) as M2' by (apply (memo_inv s1); [apply close_memo; exact T2|exact M1]).
    destruct (IHb (open_level (close_level s2)) H3 (open_inv _ M2')) as (b' & s3 & E3 & R3 & M3 & T3). rewrite E3.
    exists (SIf c' a' b'), (close_level s3). cbn [erase_stmt]. rewrite R1, R2, R3, !erase_fmt. split; [reflexivity|]. split; [reflexivity|].
    assert (memo (close_level s3) = memo s1) as EM by (rewrite (close_memo (close_level s2) s3 T3); apply close_memo; exact T2).
    split; [apply (memo_inv s1); [exact EM|exact M1]|]. rewrite EM. exact T1.
  - apply incl_app_inv in HL. destruct HL as [H1 H2]. apply incl_app_inv in H2. destruct H2 as [H2 H3].
    destruct (IHi s H1 HM) as (i' & s1 & E1 & R1 & M1 & T1). rewrite E1.
    destruct (PE c s1 H2 M1) as (c' & s2 & E2 & R2 & M2 & T2). rewrite E2.
    destruct (IHb (open_level s2) H3 (open_inv _ M2)) as (b' & s3 & E3 & R3 & M3 & T3). rewrite E3.
    exists (SLoop i' c' b'), (close_level s3). cbn [erase_stmt]. rewrite R1, R2, R3, !erase_fmt. split; [reflexivity|]. split; [reflexivity|].
    assert (memo (close_level s3) = memo s2) as EM by (apply close_memo; exact T3).
    split; [apply (memo_inv s2); [exact EM|exact M2]|]. rewrite EM. congruence.
  - destruct (PE e s HL HM) as (e' & s1 & E1 & R1 & M1 & T1). rewrite E1.
    exists (SReturn e'), s1. cbn [erase_stmt]. rewrite R1, erase_fmt. auto.
Qed.
Lemma init_inv : minv init_st.
Proof. split; [discriminate|]. intros e i r H. discriminate H. Qed.
End Coh.

(* ---- properties of the promoted graph ---- *)
Lemma promoted_fmt : forall t e, (forall f q, t = TTable f q -> e = f) -> tfmt (promoted t e) = e.
Proof.
  intros t e H. assert (forall u, tfmt (conv_to e u) = e) as C.
  { intro u. unfold conv_to. destruct (fmt_eqb (tfmt u) e) eqn:E; [apply fmt_eqb_eq in E; exact E|reflexivity]. }
  destruct t; try apply C. cbn. symmetry. eapply H. reflexivity.
Qed.
(* tables have table formats *)
Fixpoint tables_ok (t : tree) : Prop :=
  match t with
  | TTable f _ => exists s, f = FTab s
  | TOp _ _ _ args => (fix go l := match l with [] => True | a :: l => tables_ok a /\ go l end) args
  | _ => True
  end.
Lemma tables_args : forall o x f args, tables_ok (TOp o x f args) -> Forall tables_ok args.
Proof. intros o x f. induction args as [|a l IH]; intro H; constructor; destruct H; auto. Qed.
Lemma up_fmt : forall t, tables_ok t -> tfmt (promoted t (up (tfmt t))) = up (tfmt t).
Proof. intros t H. apply promoted_fmt. intros f q ->. destruct H as [s ->]. reflexivity. Qed.
Lemma same_fmt : forall t, tfmt (promoted t (tfmt t)) = tfmt t.
Proof. intro t. apply promoted_fmt. intros f q ->. reflexivity. Qed.

Section Val.
Context {V S : Type}.
Variable shape : fmt -> S.
Variable opsem : string -> S -> list S -> list V -> V.
Variable cst : S -> Z -> V.
Variable tab : string -> V.
Hypothesis CN : conversions_neutral opsem.
Hypothesis SH : forall f f', table f = Some f' -> shape f' = shape f.
Let value := value shape opsem cst tab.
Lemma up_shape : forall f, shape (up f) = shape f.
Proof. intros [s|s]; unfold up, VproSpec.up; [reflexivity|]. destruct (table (FNamed s)) eqn:E; [apply SH; exact E|reflexivity]. Qed.
Lemma conv_value : forall env e t, shape (tfmt t) = shape e -> value env (conv_to e t) = value env t.
Proof.
  intros env e t H. unfold conv_to. destruct (fmt_eqb (tfmt t) e); [reflexivity|].
  unfold value. cbn [VproSpec.value map]. rewrite H. apply CN.
Qed.
Lemma promoted_value : forall env t e, tables_ok t -> shape e = shape (tfmt t) -> value env (promoted t e) = value env t.
Proof.
  intros env. induction t as [f x|f q|f v|o x f args IH] using tree_ind'; intros e HT HE; cbn [tfmt] in HE.
  - apply conv_value. symmetry. exact HE.
  - reflexivity.
  - unfold promoted. cbn [VproSpec.promoted]. destruct (moves table supported (TCst f v)).
    + rewrite conv_value by (cbn [tfmt]; rewrite up_shape; auto). unfold value. cbn [VproSpec.value]. rewrite up_shape. reflexivity.
    + apply conv_value. symmetry. exact HE.
  - pose proof (tables_args _ _ _ _ HT) as HA. unfold promoted. cbn [VproSpec.promoted]. fold promoted. fold up.
    destruct (moves table supported (TOp o x f args)).
    + rewrite conv_value by (cbn [tfmt]; rewrite up_shape; auto). unfold value. cbn [VproSpec.value]. fold value. rewrite up_shape, !map_map.
      f_equal; [clear -IH HA SH|]; (induction args as [|a l IHl]; [reflexivity|]; inversion_clear IH; inversion_clear HA; cbn [map]; f_equal; auto).
      * rewrite up_fmt by assumption. apply up_shape.
      * apply H; [assumption|apply up_shape].
      * apply IHl; auto. destruct HT. assumption.
    + rewrite conv_value by (cbn [tfmt]; auto). unfold value. cbn [VproSpec.value]. fold value. rewrite !map_map.
      f_equal; [clear -IH HA SH|]; (induction args as [|a l IHl]; [reflexivity|]; inversion_clear IH; inversion_clear HA; cbn [map]; f_equal; auto).
      * rewrite same_fmt. reflexivity.
      * apply IHl; auto. destruct HT. assumption.
Qed.
End Val.
End P.
