(** Proofs about the vectorizer model. *)

Require Import ZArith List Bool Lia.
From Verif Require Import VecModel VecSpec.
Import ListNotations.
Open Scope Z_scope.

(** ** Induction over nested trees *)

Section ExprInd.
  Variable P : expr -> Prop.
  Hypothesis HV : forall v, P (EVar v).
  Hypothesis HC : forall c, P (ECst c).
  Hypothesis HO : forall o l, Forall P l -> P (EOp o l).
  Hypothesis HA : forall a b, P a -> P b -> P (EAnd a b).
  Hypothesis HN : forall a, P a -> P (ENot a).
  Hypothesis HF : forall f l, Forall P l -> P (ECall f l).
  Fixpoint expr_ind2 (e : expr) : P e :=
    match e with
    | EVar v => HV v
    | ECst c => HC c
    | EOp o l =>
        HO o l ((fix go l : Forall P l :=
                   match l with
                   | [] => Forall_nil P
                   | x :: r => Forall_cons x (expr_ind2 x) (go r)
                   end) l)
    | EAnd a b => HA a b (expr_ind2 a) (expr_ind2 b)
    | ENot a => HN a (expr_ind2 a)
    | ECall f l =>
        HF f l ((fix go l : Forall P l :=
                   match l with
                   | [] => Forall_nil P
                   | x :: r => Forall_cons x (expr_ind2 x) (go r)
                   end) l)
    end.
End ExprInd.

Definition on_opt {A} (P : A -> Prop) (o : option A) : Prop :=
  match o with Some x => P x | None => True end.

Section StmtInd.
  Variable P : stmt -> Prop.
  Hypothesis HN : forall e, P (SNode e).
  Hypothesis HA : forall v e, P (SAssign v e).
  Hypothesis HR : forall e, P (SReturn e).
  Hypothesis HS : forall l, Forall P l -> P (SSeq l).
  Hypothesis HI : forall pre c lk t e, P pre -> P t ->
    on_opt P e -> P (SIf pre c lk t e).
  Hypothesis HL : forall i c b, P i -> P b -> P (SLoop i c b).
  Fixpoint stmt_ind2 (s : stmt) : P s :=
    match s with
    | SNode e => HN e
    | SAssign v e => HA v e
    | SReturn e => HR e
    | SSeq l =>
        HS l ((fix go l : Forall P l :=
                 match l with
                 | [] => Forall_nil P
                 | x :: r => Forall_cons x (stmt_ind2 x) (go r)
                 end) l)
    | SIf pre c lk t e =>
        HI pre c lk t e (stmt_ind2 pre) (stmt_ind2 t)
           (match e as e0 return on_opt P e0 with
            | Some f => stmt_ind2 f
            | None => I
            end)
    | SLoop i c b => HL i c b (stmt_ind2 i) (stmt_ind2 b)
    end.
End StmtInd.

(** ** all_some *)

Lemma all_some_inv : forall A (l : list (option A)) xs,
  all_some l = Some xs -> l = map Some xs.
Proof.
  induction l as [|x l IH]; intros xs H; cbn in H.
  - injection H as <-; reflexivity.
  - destruct x as [x|]; [|discriminate].
    destruct (all_some l) as [ys|]; [|discriminate].
    injection H as <-. cbn. rewrite (IH ys eq_refl). reflexivity.
Qed.

Lemma all_some_map_Some : forall A (xs : list A),
  all_some (map Some xs) = Some xs.
Proof. induction xs as [|x xs IH]; cbn; [|rewrite IH]; reflexivity. Qed.

Lemma all_some_none : forall A (l : list (option A)),
  all_some l = None <-> In None l.
Proof.
  induction l as [|[x|] l IH]; cbn.
  - split; [discriminate | tauto].
  - destruct (all_some l); split; intros H.
    + discriminate.
    + destruct H as [H|H]; [discriminate|]. apply IH in H. discriminate.
    + right. apply IH. reflexivity.
    + reflexivity.
  - split; auto.
Qed.

Lemma all_some_map_ext : forall A B (f g : A -> option B) l,
  (forall x, In x l -> f x = g x) ->
  all_some (map f l) = all_some (map g l).
Proof. intros. f_equal. apply map_ext_in. assumption. Qed.

Lemma all_some_len : forall A (l : list (option A)) xs,
  all_some l = Some xs -> length xs = length l.
Proof.
  intros A l xs H. apply all_some_inv in H. subst. symmetry. apply map_length.
Qed.

Lemma all_some_nth : forall A B (f : A -> option B) l xs j a,
  all_some (map f l) = Some xs -> nth_error l j = Some a ->
  nth_error xs j = f a.
Proof.
  intros A B f l xs j a H Hj.
  apply all_some_inv in H.
  assert (E : nth_error (map f l) j = Some (f a)) by (apply map_nth_error; auto).
  rewrite H, nth_error_map in E.
  destruct (nth_error xs j); cbn in E; congruence.
Qed.

Lemma all_some_intro : forall A B (f : A -> option B) g l,
  (forall a, In a l -> f a = Some (g a)) -> all_some (map f l) = Some (map g l).
Proof.
  induction l as [|a l IH]; intros H; cbn; [reflexivity|].
  rewrite (H a (or_introl eq_refl)), IH; [reflexivity|].
  intros; apply H; right; assumption.
Qed.

Lemma all_some_exists : forall A B (f : A -> option B) l,
  (forall a, In a l -> exists b, f a = Some b) ->
  exists bs, all_some (map f l) = Some bs.
Proof.
  induction l as [|a l IH]; intros H; cbn; [eexists; reflexivity|].
  destruct (H a (or_introl eq_refl)) as [b ->].
  destruct IH as [bs ->]; [intros; apply H; right; assumption|].
  eexists; reflexivity.
Qed.

(** ** Substitution *)

Section Sem.
  Variable ops : nat -> list Z -> option Z.

  Definition binds (m : mapping) (r0 r : env) : Prop :=
    forall v, match lookup m v with
              | Some x => r v = eval ops r0 x
              | None => r v = r0 v
              end.

  Lemma eval_copy : forall m r0 r e,
    binds m r0 r -> eval ops r0 (copy m e) = eval ops r e.
  Proof.
    intros m r0 r e Hb.
    induction e as [v|c|o l IH|a b IHa IHb|a IHa|f l IH] using expr_ind2;
      cbn [copy eval].
    - specialize (Hb v). destruct (lookup m v); cbn [eval]; congruence.
    - reflexivity.
    - rewrite map_map.
      rewrite (all_some_map_ext _ _ _ (eval ops r) l); [reflexivity|].
      rewrite Forall_forall in IH. exact IH.
    - rewrite IHa, IHb. reflexivity.
    - rewrite IHa. reflexivity.
    - rewrite map_map.
      rewrite (all_some_map_ext _ _ _ (eval ops r) l); [reflexivity|].
      rewrite Forall_forall in IH. exact IH.
  Qed.

  Lemma binds_nil : forall r, binds [] r r.
  Proof. intros r v. cbn. reflexivity. Qed.

  Lemma binds_upd : forall m r0 r v e z,
    binds m r0 r -> eval ops r e = Some z ->
    binds ((v, copy m e) :: m) r0 (upd r v z).
  Proof.
    intros m r0 r v e z Hb He w. cbn [lookup]. unfold upd.
    rewrite Nat.eqb_sym. destruct (Nat.eqb w v).
    - rewrite (eval_copy m r0 r e Hb). auto.
    - apply Hb.
  Qed.

  Lemma copy_nil : forall e, copy [] e = e.
  Proof.
    induction e as [v|c|o l IH|a b IHa IHb|a IHa|f l IH] using expr_ind2;
      cbn [copy lookup]; try congruence.
    - f_equal. rewrite <- (map_id l) at 2. apply map_ext_in.
      rewrite Forall_forall in IH. exact IH.
    - f_equal. rewrite <- (map_id l) at 2. apply map_ext_in.
      rewrite Forall_forall in IH. exact IH.
  Qed.

  (** a value found with fewer variables is the same with more *)
  Lemma eval_mono : forall (r0 r : env) e z,
    (forall v z, r0 v = Some z -> r v = Some z) ->
    eval ops r0 e = Some z -> eval ops r e = Some z.
  Proof.
    intros r0 r e z Hm. revert z.
    assert (L : forall l, Forall (fun e => forall z, eval ops r0 e = Some z ->
                                    eval ops r e = Some z) l ->
                forall xs, all_some (map (eval ops r0) l) = Some xs ->
                           all_some (map (eval ops r) l) = Some xs).
    { induction 1 as [|x l Hx _ IH]; cbn; intros xs H; [assumption|].
      destruct (eval ops r0 x) as [y|] eqn:E; [|discriminate].
      rewrite (Hx y eq_refl).
      destruct (all_some (map (eval ops r0) l)) as [ys|]; [|discriminate].
      rewrite (IH ys eq_refl). assumption. }
    induction e as [v|c|o l IH|a b IHa IHb|a IHa|f l IH] using expr_ind2;
      intros z; cbn [eval]; auto.
    - intros H. destruct (all_some (map (eval ops r0) l)) as [xs|] eqn:E;
        [|discriminate].
      rewrite (L l IH xs E). assumption.
    - destruct (eval ops r0 a) as [x|]; [|discriminate].
      destruct (eval ops r0 b) as [y|]; [|discriminate].
      rewrite (IHa x eq_refl), (IHb y eq_refl). auto.
    - destruct (eval ops r0 a) as [x|]; [|discriminate].
      rewrite (IHa x eq_refl). auto.
    - intros H. destruct (all_some (map (eval ops r0) l)) as [xs|] eqn:E;
        [|discriminate].
      rewrite (L l IH xs E). assumption.
  Qed.

  (** ** Extraction *)

  Fixpoint seq_go (l : list stmt) (res : option expr) (ms : list expr)
    (vm : mapping) (lm : mapping) : vpath * mapping :=
    match l with
    | [] => (mkpath res ms vm false, lm)
    | x :: r =>
        let (p, lm') := extract x lm in
        let vm' := vmap p ++ vm in
        let ms' := ms ++ masks p in
        let res' := match res with Some _ => res | None => lin p end in
        if final p then (mkpath res' ms' vm' false, lm')
        else seq_go r res' ms' vm' lm'
    end.

  Lemma extract_seq : forall l lm,
    extract (SSeq l) lm = seq_go l None [] [] lm.
  Proof.
    intros l lm. cbn [extract].
    generalize (@None expr) (@nil expr) (@nil (nat * expr)).
    revert lm. induction l as [|x l IH]; intros lm res ms vm; cbn [seq_go];
      [reflexivity|].
    destruct (extract x lm) as [p lm']. destruct (final p); [reflexivity|].
    apply IH.
  Qed.

  Lemma seq_go_acc : forall l res ms vm lm,
    let a := seq_go l res ms vm lm in
    let b := seq_go l None [] [] lm in
    lin (fst a) = match res with Some _ => res | None => lin (fst b) end
    /\ masks (fst a) = ms ++ masks (fst b)
    /\ vmap (fst a) = vmap (fst b) ++ vm
    /\ snd a = snd b.
  Proof.
    induction l as [|x l IH]; intros res ms vm lm; cbn [seq_go].
    - cbn. rewrite app_nil_r. repeat split. destruct res; reflexivity.
    - destruct (extract x lm) as [p lm']. cbn [app].
      destruct (final p).
      + cbn. rewrite app_nil_r.
        repeat split.
      + destruct (IH (match res with Some _ => res | None => lin p end)
                     (ms ++ masks p) (vmap p ++ vm) lm')
          as (A1 & A2 & A3 & A4).
        destruct (IH (lin p) (masks p) (vmap p ++ []) lm')
          as (B1 & B2 & B3 & B4).
        rewrite A1, A2, A3, A4, B1, B2, B3, B4.
        rewrite app_nil_r, <- !app_assoc.
        repeat split.
        destruct res; [reflexivity|]. destruct (lin p); reflexivity.
  Qed.

  (** extraction of [x :: l] *)
  Lemma extract_cons : forall x l lm,
    let p := extract x lm in
    let q := extract (SSeq l) (snd p) in
    let a := extract (SSeq (x :: l)) lm in
    (final (fst p) = true ->
       lin (fst a) = lin (fst p) /\ masks (fst a) = masks (fst p)
       /\ vmap (fst a) = vmap (fst p) /\ snd a = snd p)
    /\ (final (fst p) = false ->
       lin (fst a) = match lin (fst p) with
                     | Some e => Some e
                     | None => lin (fst q)
                     end
       /\ masks (fst a) = masks (fst p) ++ masks (fst q)
       /\ vmap (fst a) = vmap (fst q) ++ vmap (fst p)
       /\ snd a = snd q).
  Proof.
    intros x l lm p q a. subst p q a. rewrite !extract_seq. cbn [seq_go].
    destruct (extract x lm) as [p lm'] eqn:E. cbn [fst snd].
    rewrite app_nil_r. cbn [app].
    split; intros Hf; rewrite Hf; cbn.
    - repeat split.
    - destruct (seq_go_acc l (lin p) (masks p) (vmap p) lm')
        as (A1 & A2 & A3 & A4).
      rewrite A1, A2, A3, A4. repeat split.
      destruct (lin p); reflexivity.
  Qed.

  Lemma straight_masks : forall s lm,
    straight s = true ->
    masks (fst (extract s lm)) = [] /\ lin (fst (extract s lm)) = None
    /\ final (fst (extract s lm)) = false.
  Proof.
    induction s as [e|v e|e|l IH|pre c lk t e _ _ _|i c b _ _] using stmt_ind2;
      intros lm Hs; try (cbn in Hs; discriminate Hs).
    - cbn; auto.
    - cbn; auto.
    - cbn [straight] in Hs. revert lm.
      induction IH as [|x l Hx Hl IHl]; intros lm; [cbn; auto|].
      cbn [forallb] in Hs. apply andb_true_iff in Hs as [H1 H2].
      destruct (Hx lm H1) as (Hm & Hn & Hf).
      destruct (extract_cons x l lm) as [_ HB].
      destruct (HB Hf) as (E1 & E2 & E3 & E4).
      destruct (IHl H2 (snd (extract x lm))) as (Im & In_ & If_).
      rewrite E1, E2, Hn, Hm, In_, Im. repeat split.
      rewrite extract_seq.
      assert (HF : forall l res ms vm lm,
                final (fst (seq_go l res ms vm lm)) = false).
      { clear. induction l as [|x l IH]; intros; cbn [seq_go]; [reflexivity|].
        destruct (extract x lm) as [p lm']. destruct (final p); [reflexivity|].
        apply IH. }
      apply HF.
  Qed.

  Lemma final_seq : forall l lm, final (fst (extract (SSeq l) lm)) = false.
  Proof.
    intros l lm. rewrite extract_seq.
    generalize (@None expr) (@nil expr) (@nil (nat * expr)). revert lm.
    induction l as [|x l IH]; intros; cbn [seq_go]; [reflexivity|].
    destruct (extract x lm) as [p lm']. destruct (final p); [reflexivity|].
    apply IH.
  Qed.

  (** the conditions under which the extracted path is followed *)
  Definition holds (r0 : env) (c : expr) : Prop :=
    exists y, eval ops r0 c = Some y /\ truth y = true.

  Definition keeps (r0 r : env) : Prop :=
    forall v z, r0 v = Some z -> r v = Some z.

  Lemma keeps_upd : forall r0 r v z,
    keeps r0 r -> r0 v = None -> keeps r0 (upd r v z).
  Proof.
    intros r0 r v z Hk Hv w y Hw. unfold upd.
    destruct (Nat.eqb_spec w v) as [->|]; [congruence | apply Hk; assumption].
  Qed.

  Lemma holds_true : forall r0 r c z,
    keeps r0 r -> holds r0 c -> eval ops r c = Some z -> truth z = true.
  Proof.
    intros r0 r c z Hk (y & Hy & Ht) Hz.
    apply (eval_mono r0 r c y Hk) in Hy. congruence.
  Qed.

  Lemma holds_not : forall r0 r c z,
    keeps r0 r -> holds r0 (ENot c) -> eval ops r c = Some z ->
    truth z = false.
  Proof.
    intros r0 r c z Hk (y & Hy & Ht) Hz. cbn [eval] in Hy.
    destruct (eval ops r0 c) as [x|] eqn:E; [|discriminate].
    apply (eval_mono r0 r c x Hk) in E.
    assert (x = z) by congruence. subst x.
    injection Hy as <-. destruct (truth z); [discriminate Ht | reflexivity].
  Qed.

  Lemma straight_branchy : forall s, straight s = true -> branchy s = true.
  Proof.
    induction s as [e|v e|e|l IH|pre c lk t e _ _ _|i c b _ _] using stmt_ind2;
      cbn; auto; try discriminate.
    intros H. apply forallb_forall. intros x Hx.
    rewrite forallb_forall in H. rewrite Forall_forall in IH. auto.
  Qed.

  Lemma straight_go : forall s r o,
    straight s = true -> run ops r s o -> exists r', o = Go r'.
  Proof.
    induction s as [e|v e|e|l IH|pre c lk t e _ _ _|i c b _ _] using stmt_ind2;
      intros r o Hs Hr; try (cbn in Hs; discriminate Hs).
    - inversion Hr; subst; eauto.
    - inversion Hr; subst; eauto.
    - cbn [straight] in Hs. revert r Hr.
      induction IH as [|x l Hx Hl IHl]; intros r Hr.
      + inversion Hr; subst; eauto.
      + cbn [forallb] in Hs. apply andb_true_iff in Hs as [H1 H2].
        inversion Hr; subst.
        * eapply IHl; eauto.
        * match goal with
          | H : run _ _ x (Ret _) |- _ => destruct (Hx _ _ H1 H) as [r' E]
          end. discriminate E.
  Qed.

  Lemma extract_sound : forall r s o, run ops r s o ->
    forall r0 lm,
    branchy s = true ->
    (forall v, In v (assigned s) -> r0 v = None) ->
    binds lm r0 r -> keeps r0 r ->
    Forall (holds r0) (masks (fst (extract s lm))) ->
    match o with
    | Go r' => lin (fst (extract s lm)) = None
               /\ final (fst (extract s lm)) = false
               /\ binds (snd (extract s lm)) r0 r' /\ keeps r0 r'
    | Ret z => exists e, lin (fst (extract s lm)) = Some e
                         /\ eval ops r0 e = Some z
    end.
  Proof.
    induction 1 as
      [r e | r v e z He | r e z He | r | r r' s l o Hs IHs Hl IHl
      | r s l z Hs IHs | r pre c lk t e z Hp IHp
      | r r' pre c lk t e z o Hp IHp Hc Ht Hb IHb
      | r r' pre c lk t f z o Hp IHp Hc Ht Hb IHb
      | r r' pre c lk t z Hp IHp Hc Ht
      | r init c b z Hi IHi | r r' init c b z Hi IHi Hc Ht
      | r r' init c b z y Hi IHi Hc Ht Hb IHb
      | r r' r'' init c b z o Hi IHi Hc Ht Hb IHb Hn IHn ];
      intros r0 lm Hbr Has Hbd Hk Hm; try (cbn in Hbr; discriminate Hbr).
    - cbn. auto.
    - cbn. split; [reflexivity|]. split; [reflexivity|]. split.
      + apply binds_upd; assumption.
      + apply keeps_upd; [assumption|]. apply Has. cbn. auto.
    - cbn. exists (copy lm e). split; [reflexivity|].
      rewrite (eval_copy lm r0 r e Hbd). assumption.
    - cbn. auto.
    - cbn [branchy forallb] in Hbr. apply andb_true_iff in Hbr as [Hb1 Hb2].
      destruct (extract_cons s l lm) as [HA HB].
      assert (Ha1 : forall v, In v (assigned s) -> r0 v = None)
        by (intros; apply Has; cbn [assigned map concat]; apply in_or_app; auto).
      assert (Ha2 : forall v, In v (assigned (SSeq l)) -> r0 v = None)
        by (intros; apply Has; cbn [assigned map concat]; apply in_or_app; auto).
      destruct (final (fst (extract s lm))) eqn:Ef.
      + destruct (HA eq_refl) as (E1 & E2 & E3 & E4).
        rewrite E2 in Hm.
        destruct (IHs r0 lm Hb1 Ha1 Hbd Hk Hm) as (_ & F & _). congruence.
      + destruct (HB eq_refl) as (E1 & E2 & E3 & E4).
        rewrite E2 in Hm. apply Forall_app in Hm as [Hm1 Hm2].
        destruct (IHs r0 lm Hb1 Ha1 Hbd Hk Hm1) as (L1 & F1 & B1 & K1).
        specialize (IHl r0 (snd (extract s lm)) Hb2 Ha2 B1 K1 Hm2).
        rewrite E1, L1, E4.
        destruct o as [r2|z]; [|exact IHl].
        destruct IHl as (L2 & F2 & B2 & K2).
        split; [exact L2|]. split; [apply final_seq|]. auto.
    - cbn [branchy forallb] in Hbr. apply andb_true_iff in Hbr as [Hb1 Hb2].
      destruct (extract_cons s l lm) as [HA HB].
      assert (Ha1 : forall v, In v (assigned s) -> r0 v = None)
        by (intros; apply Has; cbn [assigned map concat]; apply in_or_app; auto).
      destruct (final (fst (extract s lm))) eqn:Ef.
      + destruct (HA eq_refl) as (E1 & E2 & E3 & E4).
        rewrite E2 in Hm. rewrite E1.
        exact (IHs r0 lm Hb1 Ha1 Hbd Hk Hm).
      + destruct (HB eq_refl) as (E1 & E2 & E3 & E4).
        rewrite E2 in Hm. apply Forall_app in Hm as [Hm1 Hm2].
        destruct (IHs r0 lm Hb1 Ha1 Hbd Hk Hm1) as (e & L1 & V1).
        exists e. rewrite E1, L1. auto.
    - cbn [branchy] in Hbr. apply andb_true_iff in Hbr as [Hbr _].
      apply andb_true_iff in Hbr as [Hpre _].
      destruct (straight_go _ _ _ Hpre Hp) as [r' E]. discriminate E.
    - cbn [branchy] in Hbr. apply andb_true_iff in Hbr as [Hbr Hel].
      apply andb_true_iff in Hbr as [Hpre Hbt].
      assert (Ha1 : forall v, In v (assigned pre) -> r0 v = None)
        by (intros; apply Has; cbn [assigned]; apply in_or_app; auto).
      assert (Ha2 : forall v, In v (assigned t) -> r0 v = None)
        by (intros; apply Has; cbn [assigned]; apply in_or_app; right;
            apply in_or_app; auto).
      destruct (straight_masks pre lm Hpre) as (Pm & Pl & Pf).
      assert (Hm0 : Forall (holds r0) (masks (fst (extract pre lm))))
        by (rewrite Pm; constructor).
      destruct (IHp r0 lm (straight_branchy _ Hpre) Ha1 Hbd Hk Hm0)
        as (_ & _ & B1 & K1).
      cbn [extract] in Hm |- *.
      destruct (extract pre lm) as [pp lm1]. cbn [fst snd] in *.
      rewrite Pl in Hm |- *.
      specialize (IHb r0 lm1 Hbt Ha2 B1 K1).
      destruct lk as [[|]|].
      + destruct (extract t lm1) as [p lm2]. cbn [fst snd lin masks final] in *.
        apply Forall_app in Hm as [Hm1 _].
        specialize (IHb Hm1). destruct o; intuition.
      + destruct e as [f|]; [|discriminate].
        destruct (extract f lm1) as [p lm2]. cbn [fst snd lin masks final] in *.
        apply Forall_app in Hm as [_ Hm2].
        inversion Hm2 as [|x y Hx _]; subst.
        rewrite (holds_not r0 r' c z K1 Hx Hc) in Ht. discriminate Ht.
      + destruct (extract t lm1) as [p lm2].
        cbn [fst snd lin masks final fallback_policy app] in *.
        inversion Hm as [|x y _ Hm1]; subst.
        specialize (IHb Hm1). destruct o; intuition.
    - cbn [branchy] in Hbr. apply andb_true_iff in Hbr as [Hbr Hel].
      apply andb_true_iff in Hbr as [Hpre Hbt].
      assert (Ha1 : forall v, In v (assigned pre) -> r0 v = None)
        by (intros; apply Has; cbn [assigned]; apply in_or_app; auto).
      assert (Ha2 : forall v, In v (assigned f) -> r0 v = None)
        by (intros; apply Has; cbn [assigned]; apply in_or_app; right;
            apply in_or_app; auto).
      destruct (straight_masks pre lm Hpre) as (Pm & Pl & Pf).
      assert (Hm0 : Forall (holds r0) (masks (fst (extract pre lm))))
        by (rewrite Pm; constructor).
      destruct (IHp r0 lm (straight_branchy _ Hpre) Ha1 Hbd Hk Hm0)
        as (_ & _ & B1 & K1).
      cbn [extract] in Hm |- *.
      destruct (extract pre lm) as [pp lm1]. cbn [fst snd] in *.
      rewrite Pl in Hm |- *.
      assert (Hbf : branchy f = true) by (destruct lk as [[|]|]; exact Hel).
      specialize (IHb r0 lm1 Hbf Ha2 B1 K1).
      destruct lk as [[|]|].
      + destruct (extract t lm1) as [p lm2]. cbn [fst snd lin masks final] in *.
        apply Forall_app in Hm as [_ Hm2].
        inversion Hm2 as [|x y Hx _]; subst.
        rewrite (holds_true r0 r' c z K1 Hx Hc) in Ht. discriminate Ht.
      + destruct (extract f lm1) as [p lm2]. cbn [fst snd lin masks final] in *.
        apply Forall_app in Hm as [Hm1 _].
        specialize (IHb Hm1). destruct o; intuition.
      + destruct (extract t lm1) as [p lm2].
        cbn [fst snd lin masks final fallback_policy app] in *.
        inversion Hm as [|x y Hx _]; subst.
        rewrite (holds_true r0 r' c z K1 Hx Hc) in Ht. discriminate Ht.
    - cbn [branchy] in Hbr. apply andb_true_iff in Hbr as [Hbr Hel].
      apply andb_true_iff in Hbr as [Hpre Hbt].
      assert (Ha1 : forall v, In v (assigned pre) -> r0 v = None)
        by (intros; apply Has; cbn [assigned]; apply in_or_app; auto).
      destruct (straight_masks pre lm Hpre) as (Pm & Pl & Pf).
      assert (Hm0 : Forall (holds r0) (masks (fst (extract pre lm))))
        by (rewrite Pm; constructor).
      destruct (IHp r0 lm (straight_branchy _ Hpre) Ha1 Hbd Hk Hm0)
        as (_ & _ & B1 & K1).
      cbn [extract] in Hm |- *.
      destruct (extract pre lm) as [pp lm1]. cbn [fst snd] in *.
      rewrite Pl in Hm |- *.
      destruct lk as [[|]|]; [|discriminate|].
      + destruct (extract t lm1) as [p lm2]. cbn [fst snd lin masks final] in *.
        apply Forall_app in Hm as [_ Hm2].
        inversion Hm2 as [|x y Hx _]; subst.
        rewrite (holds_true r0 r' c z K1 Hx Hc) in Ht. discriminate Ht.
      + destruct (extract t lm1) as [p lm2].
        cbn [fst snd lin masks final fallback_policy app] in *.
        inversion Hm as [|x y Hx _]; subst.
        rewrite (holds_true r0 r' c z K1 Hx Hc) in Ht. discriminate Ht.
  Qed.

  Lemma vmap_assigned : forall s lm v e,
    In (v, e) (vmap (fst (extract s lm))) -> In v (assigned s).
  Proof.
    induction s as [e|v e|e|l IH|pre c lk t e IHp IHt IHe|i c b _ _]
      using stmt_ind2; intros lm w x H.
    - destruct H.
    - destruct H as [H|[]]. injection H as -> _. cbn; auto.
    - destruct H.
    - revert lm H. induction IH as [|y l Hy Hl IHl]; intros lm H; [destruct H|].
      cbn [assigned map concat]. apply in_or_app.
      destruct (extract_cons y l lm) as [HA HB].
      destruct (final (fst (extract y lm))) eqn:Ef.
      + destruct (HA eq_refl) as (_ & _ & E & _). rewrite E in H.
        left. eapply Hy; eauto.
      + destruct (HB eq_refl) as (_ & _ & E & _). rewrite E in H.
        apply in_app_or in H as [H|H].
        * right. eapply IHl; eauto.
        * left. eapply Hy; eauto.
    - cbn [extract] in H. cbn [assigned].
      destruct (extract pre lm) as [pp lm1] eqn:Ep.
      destruct (lin pp).
      + apply in_or_app. left. apply (IHp lm w x). rewrite Ep. assumption.
      + destruct lk as [[|]|].
        * destruct (extract t lm1) as [p lm2] eqn:Et. cbn [fst vmap] in H.
          apply in_or_app. right. apply in_or_app. left.
          apply (IHt lm1 w x). rewrite Et. assumption.
        * destruct e as [f|]; [|destruct H].
          destruct (extract f lm1) as [p lm2] eqn:Et. cbn [fst vmap] in H.
          apply in_or_app. right. apply in_or_app. right.
          apply (IHe lm1 w x). rewrite Et. assumption.
        * destruct (extract t lm1) as [p lm2] eqn:Et. cbn [fst vmap] in H.
          apply in_or_app. right. apply in_or_app. left.
          apply (IHt lm1 w x). rewrite Et. assumption.
    - destruct H.
  Qed.

  Lemma instanciate_id : forall is_input s lm e,
    (forall v, is_input v = true -> ~ In v (assigned s)) ->
    instanciate is_input (vmap (fst (extract s lm))) e = e.
  Proof.
    intros is_input s lm e H. unfold instanciate.
    replace (filter _ _) with (@nil (nat * expr)); [apply copy_nil|].
    symmetry. destruct (filter _ _) as [|[v x] l] eqn:E; [reflexivity|].
    assert (I : In (v, x) (filter (fun p => is_input (fst p))
                             (vmap (fst (extract s lm)))))
      by (rewrite E; left; reflexivity).
    apply filter_In in I as [I1 I2]. cbn in I2.
    exfalso. apply (H v I2). eapply vmap_assigned; eauto.
  Qed.

  (** ** and_merge_conditions *)

  Lemma and_merge_spec : forall fuel l r,
    l <> [] -> (length l <= fuel)%nat ->
    exists e, and_merge fuel l = Some e
      /\ (holds r e <-> Forall (holds r) l)
      /\ ((exists y, eval ops r e = Some y) <->
          Forall (fun c => exists y, eval ops r c = Some y) l).
  Proof.
    induction fuel as [|fuel IH]; intros l r Hn Hf.
    - destruct l; [congruence | cbn in Hf; lia].
    - destruct l as [|a [|b l]]; [congruence| |].
      + exists a. cbn. split; [reflexivity|].
        split; split; intros H.
        * repeat constructor; assumption.
        * inversion H; assumption.
        * repeat constructor; assumption.
        * inversion H; assumption.
      + set (L := a :: b :: l).
        assert (HL : and_merge (Datatypes.S fuel) L =
                     match and_merge fuel (firstn (Nat.div (length L) 2) L),
                           and_merge fuel (skipn (Nat.div (length L) 2) L) with
                     | Some a, Some b => Some (EAnd a b)
                     | _, _ => None
                     end) by reflexivity.
        rewrite HL. clear HL.
        set (h := Nat.div (length L) 2).
        assert (Hl : (2 <= length L)%nat) by (cbn; lia).
        assert (HfL : (length L <= Datatypes.S fuel)%nat) by exact Hf.
        clearbody L. clear Hf.
        assert (Hh : (1 <= h /\ h < length L)%nat).
        { subst h. split.
          - apply Nat.div_le_lower_bound; lia.
          - apply Nat.div_lt; lia. }
        assert (Lf : length (firstn h L) = h) by (apply firstn_length_le; lia).
        assert (Ls : length (skipn h L) = (length L - h)%nat)
          by apply skipn_length.
        destruct (IH (firstn h L) r) as (x & Ex & Hx & Dx).
        { intros E. rewrite E in Lf. cbn [length] in Lf. lia. }
        { rewrite Lf. lia. }
        destruct (IH (skipn h L) r) as (y & Ey & Hy & Dy).
        { intros E. rewrite E in Ls. cbn [length] in Ls. lia. }
        { rewrite Ls. lia. }
        rewrite Ex, Ey. exists (EAnd x y). split; [reflexivity|].
        rewrite <- (firstn_skipn h L) at 1 2.
        rewrite !Forall_app, <- Hx, <- Hy, <- Dx, <- Dy.
        unfold holds. cbn [eval]. split; split.
        * intros (w & Hw & Tw).
          destruct (eval ops r x) as [u|]; [|discriminate].
          destruct (eval ops r y) as [v|]; [|discriminate].
          injection Hw as <-.
          destruct (truth u) eqn:Tu; [|discriminate Tw].
          destruct (truth v) eqn:Tv; [|discriminate Tw].
          eauto 10.
        * intros [(u & Hu & Tu) (v & Hv & Tv)].
          rewrite Hu, Hv, Tu, Tv. eexists; split; reflexivity.
        * intros (w & Hw).
          destruct (eval ops r x) as [u|]; [|discriminate].
          destruct (eval ops r y) as [v|]; [|discriminate]. eauto.
        * intros [(u & Hu) (v & Hv)]. rewrite Hu, Hv. eauto.
  Qed.
End Sem.
