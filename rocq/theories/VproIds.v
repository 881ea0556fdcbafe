(* Vector promotion: the objects of the promoted program, and its execution with every object
   computed once. *)
From Coq Require Import ZArith List Bool String Arith Lia.
From Verif Require Import VproModel VproSpec VproProofs.
Import ListNotations.
Open Scope string_scope.
Open Scope list_scope.

Section P.
Variable table : fmt -> option fmt.
Variable supported : string -> fmt -> list fmt -> bool.
Let up := up table.
Let promoted := promoted table supported.

Definition inplace (t : tree) : tree :=
  match t with TOp o x f args => TOp o x f (map (fun a => promoted a (tfmt a)) args) | _ => t end.
Definition moved (t : tree) : tree :=
  match t with
  | TOp o x f args => TOp o x (up f) (map (fun a => promoted a (up (tfmt a))) args)
  | TCst f v => TCst (up f) v
  | _ => t
  end.

Section Coh.
Variable L : list node.
Hypothesis COH : coherent L.
(* what an object of the result is, from its identity *)
Definition idok (C : list tree) (m : node) : Prop :=
  match nid m with
  | Id k => exists n, In n L /\ nid n = Id k /\ erase m = inplace (erase n)
  | Cp i => exists n, In n L /\ nid n = i /\ erase m = moved (erase n)
  | Cv k => nth_error C k = Some (erase m)
  end.
Definition all_ids (C : list tree) (r : node) : Prop := Forall (idok C) (nodes r).
Definition ids_inv (C : list tree) (s : st) : Prop :=
  List.length C = next s /\ forall k r, mget k (memo s) = Some r -> all_ids C r.
Hypothesis IDS : forall n, In n L -> exists k, nid n = Id k.

Lemma all_ids_mono : forall C D r, all_ids C r -> all_ids (C ++ D) r.
Proof.
  intros C D r H. eapply Forall_impl; [|exact H]. intros m Hm. unfold idok in *. destruct (nid m); auto.
  rewrite nth_error_app1; [exact Hm|]. apply nth_error_Some. congruence.
Qed.
Definition ids_res (C : list tree) (r : node) (s : st) : Prop := exists D, ids_inv (C ++ D) s /\ all_ids (C ++ D) r.

Lemma insert_ids : forall C s n e, ids_inv C s -> all_ids C n -> ids_res C (fst (insert_conversion s n e)) (snd (insert_conversion s n e)).
Proof.
  intros C s n e [HC HM] HN. unfold insert_conversion. destruct (fmt_eqb (nfmt n) e); cbn [fst snd].
  - exists []. rewrite app_nil_r. split; [split; assumption|assumption].
  - set (m := NOp (Cv (next s)) (mkop "Conversion" false) e [n]). exists [erase m]. split; [split|].
    + rewrite app_length, HC. cbn [List.length next]. lia.
    + cbn [memo]. intros k r H. apply all_ids_mono. exact (HM k r H).
    + constructor; [|cbn [nodes flat_map]; rewrite app_nil_r; apply all_ids_mono; exact HN].
      unfold idok. cbn [nid]. rewrite nth_error_app2 by lia. rewrite HC, Nat.sub_diag. reflexivity.
Qed.
Lemma memoize_ids : forall C e i x, ids_res C (fst x) (snd x) -> ids_res C (fst (memoize e i x)) (snd (memoize e i x)).
Proof.
  intros C e i x (D & [HC HM] & HN). exists D. cbn [memoize fst snd]. split; [split; [exact HC|]|exact HN].
  cbn [memo]. intros k r H. apply mget_mset in H. destruct H as [H|[_ ->]]; [exact (HM k r H)|exact HN].
Qed.
Lemma ids_trans : forall C D r s, ids_res (C ++ D) r s -> ids_res C r s.
Proof. intros C D r s (E & H). exists (D ++ E). rewrite app_assoc. exact H. Qed.

Definition goal_for (n : node) : Prop := forall s e C r s', incl (nodes n) L -> minv table supported L s -> expectable table n e ->
  ids_inv C s -> promote table supported s n e = Some (r, s') -> ids_res C r s'.

Lemma list_ids : forall ef ff args, Forall goal_for args ->
  (forall a, In a args -> ef a = Some (ff (nfmt a)) /\ expectable table a (ff (nfmt a))) ->
  (forall a, In a args -> incl (nodes a) L) ->
  forall s C l' s', minv table supported L s -> ids_inv C s -> prom_list (promote table supported) ef s args = Some (l', s') ->
  exists D, ids_inv (C ++ D) s' /\ Forall (all_ids (C ++ D)) l'.
Proof.
  intros ef ff args HF. induction HF as [|a t Ha Ht IH]; intros HE HL s C l' s' HM HI H.
  - injection H as <- <-. exists []. rewrite app_nil_r. auto.
  - destruct (HE a (or_introl eq_refl)) as [E1 E2]. rewrite prom_list_cons, E1 in H.
    destruct (promote_ok table supported L COH a s (ff (nfmt a)) (HL a (or_introl eq_refl)) HM E2) as (a' & s1 & Ea & _ & M1 & _).
    destruct (Ha s _ C a' s1 (HL a (or_introl eq_refl)) HM E2 HI Ea) as (D & HD & HN). rewrite Ea in H.
    destruct (prom_list (promote table supported) ef s1 t) as [[t' s2]|] eqn:Et; [|discriminate]. injection H as <- <-.
    destruct (IH (fun b H => HE b (or_intror H)) (fun b H => HL b (or_intror H)) s1 (C ++ D) t' s2 M1 HD Et) as (F & HF2 & HT).
    exists (D ++ F). rewrite app_assoc. split; [exact HF2|]. constructor; [apply all_ids_mono; exact HN|exact HT].
Qed.
Lemma nodes_op : forall i o f args C, idok C (NOp i o f args) -> Forall (all_ids C) args -> all_ids C (NOp i o f args).
Proof.
  intros i o f args C H HF. constructor; [exact H|]. apply Forall_forall. intros m Hm. apply in_flat_map in Hm.
  destruct Hm as (a & Ha & Hm). rewrite Forall_forall in HF. specialize (HF a Ha). unfold all_ids in HF. rewrite Forall_forall in HF. auto.
Qed.
Lemma promote_ids : forall n, goal_for n.
Proof.
  induction n as [i f x|i f t|i f v|i o f args IH] using node_ind'; intros s e C r s' HL HM HE HI H;
  assert (In _ L) as HIn by (apply HL; apply node_self); destruct (IDS _ HIn) as [k Hk]; cbn [nid] in Hk; subst i;
  cbn [promote nid] in H;
  (destruct (mget (e, Id k) (memo s)) as [r0|] eqn:EG;
   [injection H as <- <-; exists []; rewrite app_nil_r; split; [exact HI|exact (proj2 HI _ _ EG)]|]);
  rewrite promotable_moves in H; cbn [erase] in H.
  - assert (all_ids C (NLeaf (Id k) f x)) as HA by (constructor; [exists (NLeaf (Id k) f x); auto|constructor]).
    cbn [moves] in H. destruct (fmt_eqb e f); [injection H as <- <-; exists []; rewrite app_nil_r; auto|].
    destruct (table f); [|discriminate]. injection H as <- <-.
    apply (memoize_ids C e (Id k)). apply insert_ids; assumption.
  - cbn [moves] in H. injection H as <- <-. apply (memoize_ids C e (Id k) (NTable (Id k) f t, s)). exists []. rewrite app_nil_r. split; [exact HI|].
    constructor; [exists (NTable (Id k) f t); auto|constructor].
  - destruct (moves table supported (TCst f v)) eqn:EM.
    + assert (has_up table f = true) as HU by (cbn [moves] in EM; apply andb_true_iff in EM; tauto).
      rewrite conv_up, HU in H. injection H as <- <-. apply (memoize_ids C e (Id k)). apply insert_ids; [assumption|].
      constructor; [exists (NCst (Id k) f v); auto|constructor].
    + injection H as <- <-. apply (memoize_ids C e (Id k)). apply insert_ids; [assumption|].
      constructor; [exists (NCst (Id k) f v); auto|constructor].
  - assert (forall a, In a args -> incl (nodes a) L) as HA by (intros a Ha; eapply incl_tran; [apply (in_args (Id k) o f args a Ha)|exact HL]).
    assert (Forall (fun n => forall s e, incl (nodes n) L -> minv table supported L s -> expectable table n e ->
      result_ok table supported L s n e (promote table supported s n e)) args) as PO.
    { apply Forall_forall. intros a _ s0 e0. apply promote_ok. exact COH. }
    destruct (moves table supported (TOp (oname o) (never o) f (map erase args))) eqn:EM.
    + pose proof EM as EM'. cbn [moves] in EM'. rewrite !andb_true_iff in EM'. destruct EM' as [[[HU _] HF] _].
      assert (forall a, In a args -> conv_format table (nfmt a) = Some (up (nfmt a)) /\ expectable table a (up (nfmt a))) as HEx.
      { intros a Ha. rewrite conv_up. rewrite forallb_forall in HF. rewrite <- (erase_fmt a) at 1.
        rewrite (HF (erase a) (in_map erase _ _ Ha)). split; [reflexivity|right; reflexivity]. }
      destruct (list_ok table supported L (fun a => conv_format table (nfmt a)) up args PO HEx HA s HM) as (l' & s1 & El & Em & M1 & T1).
      destruct (list_ids _ up args IH HEx HA s C l' s1 HM HI El) as (D & HD & HN).
      rewrite El, conv_up, HU in H. injection H as <- <-. apply (ids_trans C D). apply (memoize_ids (C ++ D) e (Id k)). apply insert_ids; [assumption|].
      apply nodes_op; [|exact HN]. unfold idok. cbn [nid]. exists (NOp (Id k) o f args). split; [exact HIn|]. split; [reflexivity|].
      cbn [erase moved]. rewrite Em. reflexivity.
    + assert (forall a, In a args -> Some (nfmt a) = Some (nfmt a) /\ expectable table a (nfmt a)) as HEx by (intros a Ha; split; [reflexivity|left; reflexivity]).
      destruct (list_ok table supported L (fun a => Some (nfmt a)) (fun g => g) args PO HEx HA s HM) as (l' & s1 & El & Em & M1 & T1).
      destruct (list_ids _ (fun g => g) args IH HEx HA s C l' s1 HM HI El) as (D & HD & HN).
      rewrite El in H. injection H as <- <-. apply (ids_trans C D). apply (memoize_ids (C ++ D) e (Id k)). apply insert_ids; [assumption|].
      apply nodes_op; [|exact HN]. unfold idok. cbn [nid]. exists (NOp (Id k) o f args). split; [exact HIn|]. split; [reflexivity|].
      cbn [erase inplace]. rewrite Em. reflexivity.
Qed.

(* straight-line programs *)
Lemma own_leaf : forall s i f x, mget (f, i) (memo s) = None -> promote table supported s (NLeaf i f x) f = Some (NLeaf i f x, s).
Proof.
  intros s i f x H. cbn [promote nid]. rewrite H. rewrite promotable_moves. cbn [erase moves]. rewrite (proj2 (fmt_eqb_eq f f) eq_refl). reflexivity.
Qed.
Lemma block_ids : forall l s C, incl (stmt_nodes (block l)) L -> minv table supported L s -> ids_inv C s ->
  exists l' s' D, promote_stmt table supported s (block l) = Some (block l', s') /\
    plain l' = map (fun a => (fst a, promoted (snd a) (tfmt (snd a)))) (plain l) /\
    Forall (fun a => all_ids (C ++ D) (line_expr a)) l'.
Proof.
  induction l as [|[[[i f] x] e] t IH]; intros s C HL HM HI; cbn [block promote_stmt stmt_nodes] in *.
  - exists [], s, []. repeat constructor.
  - apply incl_app_inv in HL. destruct HL as [H1 H2]. apply incl_app_inv in H1. destruct H1 as [H1 H3].
    assert (expectable table (NLeaf i f x) f) as X1 by (left; reflexivity).
    destruct (promote_ok table supported L COH (NLeaf i f x) s f H1 HM X1) as (x' & s1 & E1 & R1 & M1 & _).
    destruct (promote_ids (NLeaf i f x) s f C x' s1 H1 HM X1 HI E1) as (D1 & I1 & N1).
    destruct (promote_ok table supported L COH e s1 (nfmt e) H3 M1 (or_introl eq_refl)) as (e' & s2 & E2 & R2 & M2 & _).
    destruct (promote_ids e s1 (nfmt e) (C ++ D1) e' s2 H3 M1 (or_introl eq_refl) I1 E2) as (D2 & I2 & N2).
    destruct (IH s2 ((C ++ D1) ++ D2) H2 M2 I2) as (t' & s3 & D3 & E3 & R3 & N3).
    cbn [nfmt]. rewrite E1, E2, E3.
    assert (exists j, x' = NLeaf j f x) as [j ->].
    { cbn in R1. unfold conv_to in R1. cbn [tfmt] in R1. rewrite (proj2 (fmt_eqb_eq f f) eq_refl) in R1.
      destruct x'; cbn [erase] in R1; try discriminate R1. injection R1 as -> ->. eexists. reflexivity. }
    exists ((j, f, x, e') :: t'), s3, (D1 ++ D2 ++ D3). split; [reflexivity|]. split.
    + unfold plain in *. cbn [map line_var line_expr fst snd]. rewrite R3, R2, erase_fmt. reflexivity.
    + rewrite !app_assoc. constructor; [|exact N3]. apply all_ids_mono. exact N2.
Qed.
End Coh.

(* an object is one operation: same identity, same tree *)
Definition consistent (l : list node) : Prop := forall a b, In a l -> In b l -> nid a = nid b -> erase a = erase b.
Lemma idok_consistent : forall L C l, coherent L -> Forall (idok L C) l -> consistent l.
Proof.
  intros L C l COH H a b Ha Hb E. rewrite Forall_forall in H. pose proof (H a Ha) as Ka. pose proof (H b Hb) as Kb.
  unfold idok in Ka, Kb. rewrite <- E in Kb. destruct (nid a).
  - destruct Ka as (p & P1 & P2 & P3). destruct Kb as (q & Q1 & Q2 & Q3). rewrite P3, Q3. rewrite (COH p q P1 Q1) by congruence. reflexivity.
  - destruct Ka as (p & P1 & P2 & P3). destruct Kb as (q & Q1 & Q2 & Q3). rewrite P3, Q3. rewrite (COH p q P1 Q1) by congruence. reflexivity.
  - congruence.
Qed.
End P.

Section Val.
Context {V S : Type}.
Variable shape : fmt -> S.
Variable opsem : string -> S -> list S -> list V -> V.
Variable cst : S -> Z -> V.
Variable tab : string -> V.
Let value := value shape opsem cst tab.

Lemma value_leaves : forall t env env', (forall x, In x (leaves t) -> env x = env' x) -> value env t = value env' t.
Proof.
  induction t as [f x|f q|f v|o x f args IH] using tree_ind'; intros env env' H; unfold value; cbn [VproSpec.value leaves] in *; auto.
  - apply H. left. reflexivity.
  - f_equal. clear x. induction args as [|a l IHl]; [reflexivity|]. inversion_clear IH. cbn [map flat_map] in *. f_equal.
    + apply H0. intros x Hx. apply H. apply in_or_app. auto.
    + apply IHl; auto. intros x Hx. apply H. apply in_or_app. auto.
Qed.

Variable N : list node.
Hypothesis CONS : consistent N.
(* the cache holds values of objects whose leaves have been read *)
Definition cache_ok (env : string -> V) (read : list string) (c : cache) : Prop :=
  forall i v, cfind i c = Some v -> forall n, In n N -> nid n = i -> v = value env (erase n) /\ incl (leaves (erase n)) read.
Lemma cvalue_ok : forall n env read c, incl (nodes n) N -> incl (leaves (erase n)) read -> cache_ok env read c ->
  exists c', cvalue shape opsem cst tab env c n = (value env (erase n), c') /\ cache_ok env read c'.
Proof.
  induction n as [i f x|i f t|i f v|i o f args IH] using node_ind'; intros env read c HN HR HC; cbn [cvalue erase leaves] in *;
    try (exists c; split; [reflexivity|exact HC]).
  assert (In (NOp i o f args) N) as HIn by (apply HN; apply node_self).
  destruct (cfind i c) as [v|] eqn:EC.
  - destruct (HC i v EC _ HIn eq_refl) as [-> _]. exists c. split; [reflexivity|exact HC].
  - set (go := fix go (c : cache) (l : list node) : list V * cache :=
                 match l with [] => ([], c) | a :: t => let (v, c1) := cvalue shape opsem cst tab env c a in let (vs, c2) := go c1 t in (v :: vs, c2) end).
    assert (forall l, Forall (fun n => forall env read c, incl (nodes n) N -> incl (leaves (erase n)) read -> cache_ok env read c ->
        exists c', cvalue shape opsem cst tab env c n = (value env (erase n), c') /\ cache_ok env read c') l ->
      (forall a, In a l -> incl (nodes a) N /\ incl (leaves (erase a)) read) -> forall c, cache_ok env read c ->
      exists c', go c l = (map (value env) (map erase l), c') /\ cache_ok env read c') as HG.
    { clear -HN. intros l HF. induction HF as [|a t Ha Ht IH]; intros HA c HC; [exists c; split; [reflexivity|exact HC]|].
      destruct (HA a (or_introl eq_refl)) as [A1 A2]. destruct (Ha env read c A1 A2 HC) as (c1 & E1 & C1).
      destruct (IH (fun b H => HA b (or_intror H)) c1 C1) as (c2 & E2 & C2). exists c2. cbn [go map]. fold go. rewrite E1, E2. split; [reflexivity|exact C2]. }
    destruct (HG args IH) with (c := c) as (c1 & E1 & C1).
    { intros a Ha. split.
      - eapply incl_tran; [apply (in_args i o f args a Ha)|exact HN].
      - intros x Hx. apply HR. apply in_flat_map. exists (erase a). split; [apply in_map; exact Ha|exact Hx]. }
    { exact HC. }
    change (exists c', (let (vs, c1) := go c args in
       let v := opsem (oname o) (shape f) (map (fun a => shape (nfmt a)) args) vs in (v, (i, v) :: c1)) =
       (value env (TOp (oname o) (never o) f (map erase args)), c') /\ cache_ok env read c').
    rewrite E1.
    assert (value env (TOp (oname o) (never o) f (map erase args)) =
      opsem (oname o) (shape f) (map (fun a => shape (nfmt a)) args) (map (value env) (map erase args))) as EV.
    { unfold value. cbn [VproSpec.value]. f_equal. rewrite map_map. apply map_ext. intro a. rewrite erase_fmt. reflexivity. }
    cbv zeta. rewrite <- EV. eexists. split; [reflexivity|].
    intros j v H m Hm Ej. cbn [cfind] in H. destruct (ident_eqb i j) eqn:Ei.
    + injection H as <-. apply ident_eqb_eq in Ei. assert (erase m = erase (NOp i o f args)) as -> by (apply CONS; auto; cbn [nid]; congruence).
      cbn [erase]. split; [reflexivity|]. cbn [leaves]. exact HR.
    + exact (C1 j v H m Hm Ej).
Qed.

Lemma crun_ok : forall l env read c, (forall a, In a l -> incl (nodes (line_expr a)) N) ->
  cache_ok env read c -> assigned_first read (plain l) ->
  forall x, crun shape opsem cst tab (named l) env c x = srun shape opsem cst tab (plain l) env x.
Proof.
  induction l as [|[[[i f] x] e] t IH]; intros env read c HN HC HA y; [reflexivity|].
  unfold named, plain in *. cbn [map line_var line_expr fst snd crun srun assigned_first] in *. destruct HA as [HX HA].
  destruct (cvalue_ok e env (leaves (erase e) ++ read) c) as (c' & E & C').
  { apply (HN (i, f, x, e)). left. reflexivity. }
  { apply incl_appl. apply incl_refl. }
  { intros j v H n Hn Ej. destruct (HC j v H n Hn Ej) as [K1 K2]. split; [exact K1|]. apply incl_appr. exact K2. }
  rewrite E. fold value. apply (IH _ (leaves (erase e) ++ read)).
  - intros a Ha. apply HN. right. exact Ha.
  - intros j v H n Hn Ej. destruct (C' j v H n Hn Ej) as [K1 K2]. split; [|exact K2]. rewrite K1. apply value_leaves.
    intros z Hz. unfold set_var. destruct (String.eqb z x) eqn:Ez; [|reflexivity]. apply String.eqb_eq in Ez. subst z. exfalso. apply HX. apply K2. exact Hz.
  - exact HA.
Qed.
End Val.
