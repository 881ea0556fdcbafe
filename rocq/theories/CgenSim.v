(* The generated C code computes what the graph means. *)
Require Import ZArith String List Bool Arith Lia Permutation.
From Verif Require Import CgenModel CgenSpec CgenProofs.
Import ListNotations.
Open Scope string_scope.
Open Scope list_scope.

Fixpoint nsize (n : node) : nat :=
  S (match n with NOp _ _ _ _ args => list_sum (map nsize args) | _ => 0 end).
Lemma nsize_arg a args : In a args -> nsize a <= list_sum (map nsize args).
Proof.
  induction args as [|b args IH]; [intros []|]. cbn [map]. unfold list_sum. cbn [fold_right].
  fold (list_sum (map nsize args)). intros [<-|H]; [lia|]. specialize (IH H). lia.
Qed.
Lemma nsize_sub n : forall m, In m (subs n) -> nsize m <= nsize n.
Proof.
  induction n as [i l t|i v|i op ff t args IH] using node_ind2; intros m Hm.
  - destruct Hm as [<-|[]]; lia.
  - destruct Hm as [<-|[]]; lia.
  - apply subs_op in Hm as [->|(a & Ha & Hm)]; [lia|]. specialize (IH a Ha m Hm).
    cbn [nsize]. pose proof (nsize_arg a args Ha). lia.
Qed.

(* ---------- structure of generation ---------- *)
Section Struct.
  Variable pick : list string -> string -> string.
  Variable order : nat -> nat.
  Hypothesis pick_fresh : forall l p, ~ In (pick l p) l.
  Variable PN : node -> Prop.
  Hypothesis HU : forall n m, PN n -> PN m -> nid n = nid m -> n = m.
  Hypothesis HS : forall n m, PN n -> In m (subs n) -> PN m.

  Lemma below_id i op ff t args a m : PN (NOp i op ff t args) -> In a args -> In m (subs a) -> nid m <> i.
  Proof.
    intros HP Ha Hm E.
    assert (Hm' : In m (subs (NOp i op ff t args))) by (apply subs_op; right; exists a; auto).
    assert (m = NOp i op ff t args) by (apply HU; [eapply HS; eauto|exact HP|exact E]). subst m.
    apply nsize_sub in Hm. pose proof (nsize_arg a args Ha). cbn [nsize] in Hm. lia.
  Qed.

  Lemma gens_gext gen1 : (forall g n code c g', memo g <> [] -> scopes g <> [] -> PN n -> gen1 g n = Some (code, c, g') ->
      gext (map nid (subs n)) g g') ->
    forall l ks, (forall i a, In (i, a) l -> PN a /\ incl (map nid (subs a)) ks) ->
    forall g code rs g', memo g <> [] -> scopes g <> [] -> gens gen1 g l = Some (code, rs, g') -> gext ks g g'.
  Proof.
    intros HG. induction l as [|[i a] l IH]; intros ks Hk g code rs g' H1 H2 H; cbn [gens] in H.
    - injection H as <- <- <-. apply gext_refl; assumption.
    - destruct (gen1 g a) as [[[c1 v] g1]|] eqn:E1; [|discriminate].
      destruct (gens gen1 g1 l) as [[[c2 vs] g2]|] eqn:E2; [|discriminate]. injection H as <- <- <-.
      destruct (Hk i a (or_introl eq_refl)) as [Pa Ka].
      pose proof (HG _ _ _ _ _ H1 H2 Pa E1) as X1.
      apply (gext_trans ks g g1 g2 H2).
      + eapply gext_weak; [|exact X1]. exact Ka.
      + eapply IH; [|exact (x_mne _ _ _ X1)|exact (x_sne _ _ _ X1)|exact E2]. intros j b Hb. apply (Hk j b). right; exact Hb.
  Qed.
  Lemma memoize_ne k c g : memo (memoize k c g) <> [].
  Proof. unfold memoize; cbn [memo]. destruct (memo g); discriminate. Qed.
  Lemma declare_ne x g : scopes (declare x g) <> [].
  Proof. unfold declare; cbn [scopes]. destruct (scopes g); discriminate. Qed.
  Lemma gext_name x k c g : memo g <> [] -> scopes g <> [] -> ~ In x (concat (scopes g)) ->
    mlookup k (memo g) = None -> gext [k] g (memoize k c (declare x g)).
  Proof.
    intros H1 H2 H3 H4. apply (gext_trans [k] g (declare x g)); [exact H2| |].
    - apply (gext_weak []); [intros y []|]. apply gext_declare; assumption.
    - apply gext_memoize; [exact H1|apply declare_ne|exact H4].
  Qed.
  Lemma args_keys order' args ks : (forall a, In a args -> incl (map nid (subs a)) ks) ->
    forall i a, In (i, a) (sort_args order' (enumerate args)) -> incl (map nid (subs a)) ks.
  Proof. intros H i a Hia. apply in_sorted in Hia. apply nth_error_In in Hia. auto. Qed.
  Lemma gen_gext fuel : forall inl g n code c g', memo g <> [] -> scopes g <> [] -> PN n ->
    gen pick order fuel inl g n = Some (code, c, g') -> gext (map nid (subs n)) g g'.
  Proof.
    induction fuel as [|f IH]; intros inl g n code c g' H1 H2 HP H; [discriminate|]. cbn [gen] in H.
    destruct (mlookup (nid n) (memo g)) as [c0|] eqn:E0.
    { injection H as <- <- <-. apply gext_refl; assumption. }
    destruct n as [i [|] tag|i v|i op ff tag args]; cbn [nid] in E0.
    - injection H as <- <- <-. apply gext_name; auto. apply pick_fresh.
    - injection H as <- <- <-. apply gext_memoize; auto.
    - injection H as <- <- <-. apply gext_memoize; auto.
    - destruct (gens _ g _) as [[[code1 rs] g1]|] eqn:EG; [|discriminate].
      destruct (collect rs _) as [cs|]; [|discriminate].
      assert (X : gext (map nid (concat (map subs args))) g g1).
      { refine (gens_gext (gen pick order f inl) _ _ _ _ _ _ _ _ H1 H2 EG).
        - intros g0 n0 code0 c0 g0' A B G. eapply IH; eauto.
        - intros j a Hja. apply in_sorted in Hja. apply nth_error_In in Hja. split.
          + eapply HS; [exact HP|]. apply subs_op. right. exists a. split; [exact Hja|apply subs_self].
          + intros k Hk. apply in_map_iff in Hk as (m & <- & Hm). apply in_map. apply in_concat.
            exists (subs a). split; [apply in_map; exact Hja|exact Hm]. }
      assert (KI : incl (map nid (concat (map subs args))) (map nid (subs (NOp i op ff tag args))))
        by (cbn [subs map]; apply incl_tl, incl_refl).
      assert (KH : incl [i] (map nid (subs (NOp i op ff tag args)))) by (intros y [<-|[]]; left; reflexivity).
      pose proof (gext_weak _ _ _ _ KI X) as X'.
      assert (E1 : mlookup i (memo g1) = None).
      { apply mlookup_none_some. intros Hh. destruct (x_keys _ _ _ X i Hh) as [Hg|Hk]; [unfold has in Hg; congruence|].
        apply in_map_iff in Hk as (m & Em & Hm). apply in_concat in Hm as (l & Hl & Hm).
        apply in_map_iff in Hl as (a & <- & Ha). exact (below_id _ _ _ _ _ _ _ HP Ha Hm Em). }
      pose proof (x_mne _ _ _ X) as M1. pose proof (x_sne _ _ _ X) as S1.
      destruct (stored ff inl); injection H as <- <- <-; apply (gext_trans _ g g1); auto; apply (gext_weak [i]); auto.
      + apply gext_name; auto. apply pick_fresh.
      + apply gext_memoize; auto.
  Qed.

  Definition snids (s : stmt) : list nat := map nid (snodes s).
  Lemma gext_open_code ks g g' : gext ks (open_code g) g' -> memo g <> [] -> scopes g <> [] ->
    gext ks g (close_code g') /\ (forall x, In x (level_names g') -> ~ In x (concat (scopes g))) /\
    scopes (close_code g') = scopes g.
  Proof.
    intros [a1 a2 a3 a4 a5 a6 a7 a8] H1 H2. cbn [open_code memo scopes tl] in *.
    assert (ES : scopes (close_code g') = scopes g) by exact a2.
    split; [|split; [|exact ES]].
    - constructor; cbn [close_code memo]; auto; try (rewrite ES).
      + reflexivity.
      + exact H2.
      + unfold ghead. rewrite ES. apply incl_refl.
      + unfold ghead. rewrite ES. auto.
    - intros x Hx. unfold level_names in Hx. rewrite <- in_rev in Hx. destruct (a8 x Hx) as [H|H]; [destruct H|exact H].
  Qed.
  Lemma gst_eta g : g = mkg (memo g) (scopes g).
  Proof. destruct g; reflexivity. Qed.
  Lemma gext_branch ks g g' : gext ks (open_code (open_memo g)) g' ->
    close_memo (close_code g') = g /\ (forall x, In x (level_names g') -> ~ In x (concat (scopes g))).
  Proof.
    intros [a1 a2 a3 a4 a5 a6 a7 a8]. cbn [open_code open_memo memo scopes tl] in *. split.
    - unfold close_memo, close_code. cbn [memo scopes]. rewrite a1, a2. symmetry. apply gst_eta.
    - intros x Hx. unfold level_names in Hx. rewrite <- in_rev in Hx. destruct (a8 x Hx) as [H|H]; [destruct H|exact H].
  Qed.
  Lemma gen_stmt_gext fuel s : forall g code g', memo g <> [] -> scopes g <> [] -> (forall n, In n (snodes s) -> PN n) ->
    gen_stmt pick order fuel g s = Some (code, g') -> gext (snids s) g g'.
  Proof.
    unfold snids. induction s as [|s1 IH1 s2 IH2|e|v e|c t IHt e IHe|i IHi c b IHb|e];
      intros g code g' H1 H2 HP H; cbn [gen_stmt snodes] in *.
    - injection H as <- <-. apply gext_refl; assumption.
    - destruct (gen_stmt _ _ _ g s1) as [[c1 g1]|] eqn:E1; [|discriminate].
      destruct (gen_stmt _ _ _ g1 s2) as [[c2 g2]|] eqn:E2; [|discriminate]. injection H as <- <-.
      assert (X1 : gext (map nid (snodes s1)) g g1) by (eapply IH1; eauto; intros n Hn; apply HP, in_app_iff; auto).
      assert (X2 : gext (map nid (snodes s2)) g1 g2)
        by (eapply IH2; [exact (x_mne _ _ _ X1)|exact (x_sne _ _ _ X1)| |exact E2]; intros n Hn; apply HP, in_app_iff; auto).
      rewrite map_app. apply (gext_trans _ g g1 g2 H2).
      + eapply gext_weak; [|exact X1]. apply incl_appl, incl_refl.
      + eapply gext_weak; [|exact X2]. apply incl_appr, incl_refl.
    - destruct (gen _ _ _ _ g e) as [[[c1 r] g1]|] eqn:E1; [|discriminate]. injection H as <- <-.
      eapply gen_gext; [exact H1|exact H2|apply HP; apply subs_self|exact E1].
    - destruct (gen _ _ _ _ g v) as [[[c1 [x|]] g1]|] eqn:E1; [|discriminate|discriminate].
      destruct (gen _ _ _ _ g1 e) as [[[c2 r] g2]|] eqn:E2; [|discriminate]. injection H as <- <-.
      assert (X1 : gext (map nid (subs v)) g g1)
        by (eapply gen_gext; [exact H1|exact H2|apply HP, in_app_iff; left; apply subs_self|exact E1]).
      assert (X2 : gext (map nid (subs e)) g1 g2)
        by (eapply gen_gext; [exact (x_mne _ _ _ X1)|exact (x_sne _ _ _ X1)|apply HP, in_app_iff; right; apply subs_self|exact E2]).
      rewrite map_app. apply (gext_trans _ g g1 g2 H2).
      + eapply gext_weak; [|exact X1]. apply incl_appl, incl_refl.
      + eapply gext_weak; [|exact X2]. apply incl_appr, incl_refl.
    - destruct (gen _ _ _ _ g c) as [[[c0 r] g0]|] eqn:E0; [|discriminate].
      destruct (gen_stmt _ _ _ _ t) as [[c1 g1]|] eqn:E1; [|discriminate].
      destruct (gen_stmt _ _ _ _ e) as [[c2 g3]|] eqn:E2; [|discriminate]. injection H as <- <-.
      assert (X0 : gext (map nid (subs c)) g g0)
        by (eapply gen_gext; [exact H1|exact H2|apply HP, in_app_iff; left; apply subs_self|exact E0]).
      assert (X1 : gext (map nid (snodes t)) (open_code (open_memo g0)) g1).
      { eapply IHt; [discriminate|discriminate| |exact E1]. intros n Hn. apply HP. rewrite !in_app_iff; auto. }
      destruct (gext_branch _ _ _ X1) as [EB1 _]. rewrite EB1 in E2.
      assert (X2 : gext (map nid (snodes e)) (open_code (open_memo g0)) g3).
      { eapply IHe; [discriminate|discriminate| |exact E2]. intros n Hn. apply HP. rewrite !in_app_iff; auto. }
      destruct (gext_branch _ _ _ X2) as [EB2 _]. rewrite EB2.
      eapply gext_weak; [|exact X0]. rewrite map_app. apply incl_appl, incl_refl.
    - destruct (gen_stmt _ _ _ g i) as [[c0 g0]|] eqn:E0; [|discriminate].
      destruct (gen _ _ _ _ g0 c) as [[[c1 r] g1]|] eqn:E1; [|discriminate].
      destruct (gen_stmt _ _ _ _ b) as [[c2 g2]|] eqn:E2; [|discriminate]. injection H as <- <-.
      assert (X0 : gext (map nid (snodes i)) g g0) by (eapply IHi; eauto; intros n Hn; apply HP, in_app_iff; auto).
      assert (X1 : gext (map nid (subs c)) g0 g1).
      { eapply gen_gext; [exact (x_mne _ _ _ X0)|exact (x_sne _ _ _ X0)| |exact E1]. apply HP. rewrite !in_app_iff. right; left; apply subs_self. }
      assert (X2 : gext (map nid (snodes b)) (open_code g1) g2).
      { eapply IHb; [exact (x_mne _ _ _ X1)|discriminate| |exact E2]. intros n Hn. apply HP. rewrite !in_app_iff; auto. }
      destruct (gext_open_code _ _ _ X2 (x_mne _ _ _ X1) (x_sne _ _ _ X1)) as (X3 & _ & _).
      rewrite !map_app.
      apply (gext_trans _ g g0 _ H2); [eapply gext_weak; [|exact X0]; apply incl_appl, incl_refl|].
      apply (gext_trans _ g0 g1 _ (x_sne _ _ _ X0)); [eapply gext_weak; [|exact X1]; apply incl_appr, incl_appl, incl_refl|].
      eapply gext_weak; [|exact X3]. apply incl_appr, incl_appr, incl_refl.
    - destruct (gen _ _ _ _ g e) as [[[c1 r] g1]|] eqn:E1; [|discriminate]. injection H as <- <-.
      eapply gen_gext; [exact H1|exact H2|apply HP; apply subs_self|exact E1].
  Qed.
End Struct.
