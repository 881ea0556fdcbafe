(* Proofs about the C code generator: the simulation. *)
Require Import ZArith String List Bool Arith Lia Permutation.
From Verif Require Import CgenModel CgenSpec.
Import ListNotations.
Open Scope string_scope.
Open Scope list_scope.

(* ---------- nodes ---------- *)
Lemma node_ind2 : forall (P : node -> Prop),
  (forall i l t, P (NVar i l t)) -> (forall i v, P (NCst i v)) ->
  (forall i op ff t args, (forall a, In a args -> P a) -> P (NOp i op ff t args)) -> forall n, P n.
Proof.
  intros P HV HC HO. fix IH 1. intros [i l t|i v|i op ff t args]; [apply HV|apply HC|].
  apply HO. induction args as [|a args IHa]; intros b Hb; [destruct Hb|].
  destruct Hb as [<-|Hb]; [apply IH|apply IHa; exact Hb].
Qed.
Lemma subs_self n : In n (subs n).
Proof. destruct n; left; reflexivity. Qed.
Lemma subs_op i op ff t args m : In m (subs (NOp i op ff t args)) <->
  m = NOp i op ff t args \/ exists a, In a args /\ In m (subs a).
Proof.
  cbn [subs]. split.
  - intros [H|H]; [left; symmetry; exact H|right]. apply in_concat in H as (l & Hl & Hm).
    apply in_map_iff in Hl as (a & <- & Ha). exists a; auto.
  - intros [->|(a & Ha & Hm)]; [left; reflexivity|right].
    apply in_concat. exists (subs a). split; [apply in_map; exact Ha|exact Hm].
Qed.
Lemma subs_trans n : forall m p, In m (subs n) -> In p (subs m) -> In p (subs n).
Proof.
  induction n as [i l t|i v|i op ff t args IH] using node_ind2; intros m p Hm Hp.
  - destruct Hm as [<-|[]]; exact Hp.
  - destruct Hm as [<-|[]]; exact Hp.
  - apply subs_op in Hm as [->|(a & Ha & Hm)]; [exact Hp|].
    apply subs_op. right. exists a. split; [exact Ha|]. eapply IH; eauto.
Qed.
Lemma snodes_subs s : forall n m, In n (snodes s) -> In m (subs n) -> In m (snodes s).
Proof.
  induction s; cbn [snodes]; intros n m Hn Hm; repeat rewrite in_app_iff in *;
    try solve [destruct Hn]; try solve [eapply subs_trans; eauto].
  - destruct Hn as [Hn|Hn]; [left; eapply IHs1; eauto|right; eapply IHs2; eauto].
  - destruct Hn as [Hn|Hn]; [left|right]; eapply subs_trans; eauto.
  - destruct Hn as [Hn|[Hn|Hn]]; [left; eapply subs_trans; eauto|right; left; eapply IHs1; eauto|right; right; eapply IHs2; eauto].
  - destruct Hn as [Hn|[Hn|Hn]]; [left; eapply IHs1; eauto|right; left; eapply subs_trans; eauto|right; right; eapply IHs2; eauto].
Qed.
Lemma memb_iff n l : memb n l = true <-> exists m, In m l /\ nid m = nid n.
Proof.
  unfold memb. rewrite existsb_exists. split; intros (m & Hm & E); exists m; split; auto.
  - apply Nat.eqb_eq; exact E.
  - apply Nat.eqb_eq; exact E.
Qed.
Lemma memb_in n l : In n l -> memb n l = true.
Proof. intros H. apply memb_iff. exists n; auto. Qed.
Lemma memb_app n l1 l2 : memb n (l1 ++ l2) = memb n l1 || memb n l2.
Proof. apply existsb_app. Qed.
Lemma memb_cons n m l : memb n (m :: l) = Nat.eqb (nid m) (nid n) || memb n l.
Proof. reflexivity. Qed.
Lemma reads_iff vs n : reads vs n = true <-> exists m, In m (subs n) /\ is_var m = true /\ In (nid m) vs.
Proof.
  unfold reads. rewrite existsb_exists. split.
  - intros (m & Hm & H). apply andb_true_iff in H as [H1 H2]. exists m. repeat (split; [assumption|]).
    apply existsb_exists in H2 as (x & Hx & E). apply Nat.eqb_eq in E. rewrite E; exact Hx.
  - intros (m & Hm & H1 & H2). exists m. split; [exact Hm|]. rewrite H1. cbn [andb].
    apply existsb_exists. exists (nid m). split; [exact H2|apply Nat.eqb_refl].
Qed.
Lemma reads_sub vs n m : In m (subs n) -> reads vs m = true -> reads vs n = true.
Proof.
  intros Hm H. apply reads_iff in H as (p & Hp & H). apply reads_iff. exists p.
  split; [eapply subs_trans; eauto|exact H].
Qed.
Lemma reads_app us vs n : reads (us ++ vs) n = reads us n || reads vs n.
Proof.
  apply eq_true_iff_eq. rewrite orb_true_iff, !reads_iff. split.
  - intros (m & Hm & V & H). apply in_app_iff in H as [H|H]; [left|right]; exists m; auto.
  - intros [(m & Hm & V & H)|(m & Hm & V & H)]; exists m; repeat split; auto; apply in_app_iff; auto.
Qed.
Lemma all_some_map_ext {A B} (f g : A -> option B) l :
  (forall a, In a l -> f a = g a) -> all_some (map f l) = all_some (map g l).
Proof. intros H. f_equal. apply map_ext_in. exact H. Qed.

Section Eval.
  Variable opsem : string -> list Z -> Z.
  Lemma eval_ext st1 st2 n : (forall m, In m (subs n) -> is_var m = true -> st1 (nid m) = st2 (nid m)) ->
    eval opsem st1 n = eval opsem st2 n.
  Proof.
    induction n as [i l t|i v|i op ff t args IH] using node_ind2; intros H; cbn [eval].
    - apply (H (NVar i l t)); [left; reflexivity|reflexivity].
    - reflexivity.
    - f_equal. apply all_some_map_ext. intros a Ha. apply IH; [exact Ha|].
      intros m Hm. apply H. apply subs_op. right. exists a; auto.
  Qed.
  Lemma eval_upd st i v n : reads [i] n = false -> eval opsem (upd_store st i v) n = eval opsem st n.
  Proof.
    intros H. apply eval_ext. intros m Hm V. unfold upd_store.
    destruct (Nat.eqb_spec (nid m) i) as [E|E]; [|reflexivity].
    exfalso. rewrite (proj2 (reads_iff [i] n)) in H; [discriminate|].
    exists m. repeat split; auto. left; auto.
  Qed.
  Lemma all_some_in {A} (l : list (option A)) r : all_some l = Some r -> forall o, In o l -> o <> None.
  Proof.
    revert r. induction l as [|[a|] l IH]; cbn [all_some]; intros r H o Ho; [destruct Ho| |discriminate].
    destruct (all_some l) as [r'|] eqn:E; [|discriminate]. destruct Ho as [<-|Ho]; [discriminate|]. eapply IH; eauto.
  Qed.
  Lemma eval_args st i op ff t args v : eval opsem st (NOp i op ff t args) = Some v ->
    forall a, In a args -> exists w, eval opsem st a = Some w.
  Proof.
    cbn [eval]. intros H a Ha. destruct (all_some (map (eval opsem st) args)) as [r|] eqn:E; [|discriminate].
    pose proof (all_some_in _ _ E (eval opsem st a) (in_map _ _ _ Ha)) as N.
    destruct (eval opsem st a) as [w|]; [exists w; reflexivity|congruence].
  Qed.
End Eval.

(* ---------- environments ---------- *)
Definition keys (s : scope) : list string := map fst s.
Definition shape (E : env) : list (list string) := map keys E.
Lemma slook_none x s : slook x s = None <-> ~ In x (keys s).
Proof.
  induction s as [|[y v] s IH]; cbn [slook keys map fst]; [split; [intros _ []|reflexivity]|].
  destruct (String.eqb_spec y x) as [->|N]; [split; [discriminate|intros H; destruct H; left; reflexivity]|].
  rewrite IH. unfold keys. cbn [In]. split; intros H; [intros [H1|H1]; [contradiction|exact (H H1)]|intros H1; apply H; right; exact H1].
Qed.
Lemma sset_keys x v s : keys (sset x v s) = keys s.
Proof. induction s as [|[y w] s IH]; cbn [sset]; [reflexivity|]. destruct (String.eqb y x); cbn [keys map fst]; [reflexivity|]. f_equal. exact IH. Qed.
Lemma sset_look x v s y : In x (keys s) -> slook y (sset x v s) = if String.eqb x y then Some (Some v) else slook y s.
Proof.
  induction s as [|[z w] s IH]; cbn [sset keys map fst In]; [intros []|]. intros H.
  destruct (String.eqb_spec z x) as [->|N]; cbn [slook].
  - destruct (String.eqb_spec x y); reflexivity.
  - destruct H as [H|H]; [contradiction|]. rewrite (IH H).
    destruct (String.eqb_spec z y) as [->|N2]; [|reflexivity].
    destruct (String.eqb_spec x y) as [->|]; [contradiction|reflexivity].
Qed.
Lemma eset_spec x v E : elook x E <> None -> exists E', eset x v E = Some E' /\ shape E' = shape E /\
  forall y, elook y E' = if String.eqb x y then Some (Some v) else elook y E.
Proof.
  induction E as [|s E IH]; cbn [elook eset]; [congruence|]. intros H.
  destruct (slook x s) as [r|] eqn:Es.
  - exists (sset x v s :: E). split; [reflexivity|]. split; [unfold shape; cbn [map]; rewrite sset_keys; reflexivity|].
    assert (Hin : In x (keys s)).
    { destruct (in_dec string_dec x (keys s)) as [I|I]; [exact I|]. apply slook_none in I. congruence. }
    intros y. cbn [elook]. rewrite sset_look by exact Hin. destruct (String.eqb x y); reflexivity.
  - destruct (IH H) as (E' & H1 & H2 & H3). rewrite H1. exists (s :: E'). split; [reflexivity|].
    split; [unfold shape in *; cbn [map]; rewrite H2; reflexivity|].
    intros y. cbn [elook]. rewrite H3. destruct (String.eqb_spec x y) as [<-|]; [rewrite Es; reflexivity|reflexivity].
Qed.
Lemma elook_head x s E : In x (keys s) -> elook x (s :: E) <> None.
Proof.
  intros H. cbn [elook]. destruct (slook x s) eqn:Es; [discriminate|]. apply slook_none in Es. contradiction.
Qed.
Lemma elook_skip x s E : ~ In x (keys s) -> elook x (s :: E) = elook x E.
Proof. intros H. cbn [elook]. rewrite (proj2 (slook_none x s) H). reflexivity. Qed.
Lemma fresh_scope_keys d : keys (fresh_scope d) = d.
Proof. unfold keys, fresh_scope. rewrite map_map. cbn [fst]. apply map_id. Qed.

(* ---------- the generator only extends the innermost level ---------- *)
Definition has (g : gst) (k : nat) : Prop := mlookup k (memo g) <> None.
Definition ghead (g : gst) : list string := hd [] (scopes g).
Record gext (ks : list nat) (g g' : gst) : Prop := mkgext {
  x_mtl : tl (memo g') = tl (memo g);
  x_stl : tl (scopes g') = tl (scopes g);
  x_mne : memo g' <> [];
  x_sne : scopes g' <> [];
  x_mono : forall k c, mlookup k (memo g) = Some c -> mlookup k (memo g') = Some c;
  x_keys : forall k, has g' k -> has g k \/ In k ks;
  x_incl : incl (ghead g) (ghead g');
  x_fresh : forall x, In x (ghead g') -> In x (ghead g) \/ ~ In x (concat (scopes g)) }.
Lemma gext_refl ks g : memo g <> [] -> scopes g <> [] -> gext ks g g.
Proof. intros H1 H2. constructor; auto. apply incl_refl. Qed.
Lemma concat_head g : scopes g <> [] -> concat (scopes g) = ghead g ++ concat (tl (scopes g)).
Proof. unfold ghead. destruct (scopes g) as [|l t]; [congruence|reflexivity]. Qed.
Lemma gext_trans ks g1 g2 g3 : scopes g1 <> [] -> gext ks g1 g2 -> gext ks g2 g3 -> gext ks g1 g3.
Proof.
  intros H0 [a1 a2 a3 a4 a5 a6 a7 a8] [b1 b2 b3 b4 b5 b6 b7 b8]. constructor; auto; try congruence.
  - intros k H. destruct (b6 k H) as [H1|H1]; auto.
  - eapply incl_tran; eauto.
  - intros x H. destruct (b8 x H) as [H1|H1]; [apply a8; exact H1|].
    right. intros Hc. apply H1. rewrite concat_head in * by assumption. rewrite a2.
    apply in_app_iff in Hc as [Hc|Hc]; apply in_app_iff; [left; apply a7; exact Hc|right; exact Hc].
Qed.
Lemma gext_weak ks ks' g g' : incl ks ks' -> gext ks g g' -> gext ks' g g'.
Proof. intros H [a1 a2 a3 a4 a5 a6 a7 a8]. constructor; auto. intros k Hk. destruct (a6 k Hk); auto. Qed.
Lemma mlookup_madd k c m j : mlookup j (madd k c m) = if Nat.eqb k j then Some c else mlookup j m.
Proof.
  destruct m as [|l t]; cbn [madd mlookup assoc].
  - destruct (Nat.eqb k j); reflexivity.
  - destruct (Nat.eqb k j); reflexivity.
Qed.
Lemma gext_memoize k c g : memo g <> [] -> scopes g <> [] -> mlookup k (memo g) = None -> gext [k] g (memoize k c g).
Proof.
  intros H1 H2 H3. unfold memoize. constructor; cbn [memo scopes]; auto.
  - destruct (memo g); [congruence|reflexivity].
  - destruct (memo g); discriminate.
  - intros j d Hj. rewrite mlookup_madd. destruct (Nat.eqb_spec k j) as [<-|]; congruence.
  - intros j Hj. unfold has in *. cbn [memo] in Hj. rewrite mlookup_madd in Hj.
    destruct (Nat.eqb k j) eqn:Q; [right; left; apply Nat.eqb_eq; exact Q|left; exact Hj].
  - apply incl_refl.
Qed.
Lemma ghead_declare x g : ghead (declare x g) = x :: ghead g.
Proof. unfold ghead, declare. destruct (scopes g); reflexivity. Qed.
Lemma scopes_declare x g : scopes g <> [] -> scopes (declare x g) = (x :: ghead g) :: tl (scopes g).
Proof. unfold ghead, declare. destruct (scopes g); [congruence|reflexivity]. Qed.
Lemma gext_declare x g : memo g <> [] -> scopes g <> [] -> ~ In x (concat (scopes g)) -> gext [] g (declare x g).
Proof.
  intros H1 H2 H3. constructor; try (rewrite (scopes_declare x g H2)); auto; try discriminate.
  - rewrite ghead_declare. apply incl_tl, incl_refl.
  - rewrite ghead_declare. intros y [<-|H]; auto.
Qed.
Lemma mlookup_none_some {g : gst} {k} : ~ has g k -> mlookup k (memo g) = None.
Proof. unfold has. destruct (mlookup k (memo g)); [intros H; destruct H; discriminate|reflexivity]. Qed.

(* ---------- sorted arguments ---------- *)
Lemma insert_perm order p l : Permutation (p :: l) (insert order p l).
Proof.
  induction l as [|q l IH]; cbn [insert]; [reflexivity|].
  destruct (Nat.leb _ _); [reflexivity|]. transitivity (q :: p :: l); [apply perm_swap|]. apply perm_skip, IH.
Qed.
Lemma sort_perm order l : Permutation l (sort_args order l).
Proof.
  induction l as [|p l IH]; cbn [sort_args fold_right]; [reflexivity|].
  transitivity (p :: sort_args order l); [apply perm_skip, IH|]. apply insert_perm.
Qed.
Lemma in_enum_aux (l : list node) : forall b i a, In (i, a) (combine (seq b (length l)) l) <-> exists j, i = b + j /\ nth_error l j = Some a.
Proof.
  induction l as [|x l IH]; intros b i a; cbn [length seq combine In].
  - split; [intros []|]. intros (j & _ & H). destruct j; discriminate.
  - rewrite (IH (S b)). split.
    + intros [H|(j & -> & H)]; [injection H as <- <-; exists 0; split; [lia|reflexivity]|].
      exists (S j). split; [lia|exact H].
    + intros (j & -> & H). destruct j as [|j]; [left; cbn in H; injection H as <-; f_equal; lia|].
      right. exists j. split; [lia|exact H].
Qed.
Lemma in_enum i a l : In (i, a) (enumerate l) <-> nth_error l i = Some a.
Proof.
  unfold enumerate. rewrite in_enum_aux. split; [intros (j & -> & H); exact H|intros H; exists i; auto].
Qed.
Lemma in_sorted order i a l : In (i, a) (sort_args order (enumerate l)) <-> nth_error l i = Some a.
Proof.
  rewrite <- in_enum. split; apply Permutation_in; [symmetry|]; apply sort_perm.
Qed.
Lemma assoc_in {A} k (l : list (nat * A)) a : assoc k l = Some a -> In (k, a) l.
Proof.
  induction l as [|[i b] l IH]; cbn [assoc]; [discriminate|].
  destruct (Nat.eqb_spec i k) as [->|]; [intros H; injection H as ->; left; reflexivity|right; auto].
Qed.
Lemma collect_nth rs : forall l cs, collect rs l = Some cs -> Forall2 (fun i c => In (i, c) rs) l cs.
Proof.
  induction l as [|i l IH]; cbn [collect]; intros cs H; [injection H as <-; constructor|].
  destruct (assoc i rs) as [c|] eqn:E; [|discriminate]. destruct (collect rs l) as [cs'|]; [|discriminate].
  injection H as <-. constructor; [apply assoc_in; exact E|apply IH; reflexivity].
Qed.
Lemma forall2_seq {A B} (R : A -> B -> Prop) l (cs : list B) : forall b (Q : nat -> B -> Prop),
  Forall2 Q (seq b (length l)) cs ->
  (forall j a c, nth_error l j = Some a -> Q (b + j) c -> R a c) -> Forall2 R l cs.
Proof.
  revert cs. induction l as [|x l IH]; intros cs b Q H HR; cbn [length seq] in H; inversion H; subst; constructor.
  - apply (HR 0); [reflexivity|]. rewrite Nat.add_0_r. assumption.
  - eapply (IH _ (S b) Q); [assumption|]. intros j a c Hj Hq. apply (HR (S j)); [exact Hj|].
    replace (b + S j) with (S b + j) by lia. exact Hq.
Qed.
