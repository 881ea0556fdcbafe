(* Generation always succeeds; every operation is generated once. *)
Require Import ZArith String List Bool Arith Lia Permutation.
From Verif Require Import CgenModel CgenSpec CgenProofs CgenSim.
Import ListNotations.
Open Scope string_scope.
Open Scope list_scope.

Section Total.
  Variable pick : list string -> string -> string.
  Variable order : nat -> nat.

  Lemma assoc_some {A} k (l : list (nat * A)) : In k (map fst l) -> exists a, assoc k l = Some a.
  Proof.
    induction l as [|[i b] l IH]; cbn [map fst In assoc]; [intros []|]. intros H.
    destruct (Nat.eqb_spec i k); [eauto|]. destruct H as [H|H]; [contradiction|auto].
  Qed.
  Lemma collect_some rs l : incl l (map fst rs) -> exists cs, collect rs l = Some cs.
  Proof.
    induction l as [|i l IH]; intros H; cbn [collect]; [eauto|].
    destruct (assoc_some i rs (H i (or_introl eq_refl))) as (a & ->).
    destruct IH as (cs & ->); [intros j Hj; apply H; right; exact Hj|]. eauto.
  Qed.
  Lemma gens_some gen1 : forall l, (forall i a, In (i, a) l -> forall g, exists r, gen1 g a = Some r) ->
    forall g, exists code rs g', gens gen1 g l = Some (code, rs, g') /\ map fst rs = map fst l.
  Proof.
    induction l as [|[i a] l IH]; intros H g; cbn [gens]; [exists [], [], g; auto|].
    destruct (H i a (or_introl eq_refl) g) as ([[c v] g1] & ->).
    destruct (IH (fun j b Hb => H j b (or_intror Hb)) g1) as (code & rs & g' & -> & E).
    eexists _, _, _. split; [reflexivity|]. cbn [map fst]. f_equal. exact E.
  Qed.
  Lemma enum_fst l : map fst (enumerate l) = seq 0 (length l).
  Proof.
    unfold enumerate. generalize 0. induction l as [|a l IH]; intros b; cbn [length seq combine map fst]; [reflexivity|].
    f_equal. apply IH.
  Qed.
  Theorem gen_total fuel : forall inl g n, nsize n <= fuel -> exists r, gen pick order fuel inl g n = Some r.
  Proof.
    induction fuel as [|f IH]; intros inl g n Hn; [destruct n; cbn [nsize] in Hn; lia|]. cbn [gen].
    destruct (mlookup (nid n) (memo g)); [eauto|].
    destruct n as [i [|] tag|i v|i op ff tag args]; eauto.
    assert (HA : forall j a, In (j, a) (sort_args order (enumerate args)) -> forall g, exists r, gen pick order f inl g a = Some r).
    { intros j a Hja g0. apply IH. apply in_sorted in Hja. apply nth_error_In in Hja. pose proof (nsize_arg a args Hja).
      cbn [nsize] in Hn. lia. }
    destruct (gens_some _ _ HA g) as (code & rs & g1 & -> & E).
    destruct (collect_some rs (seq 0 (length args))) as (cs & ->).
    { rewrite E. intros j Hj. rewrite <- enum_fst in Hj. eapply Permutation_in; [|exact Hj].
      apply Permutation_map. apply sort_perm. }
    destruct (stored ff inl); eauto.
  Qed.

  (* variables are memoized as names *)
  Variable PN : node -> Prop.
  Hypothesis HU : forall n m, PN n -> PN m -> nid n = nid m -> n = m.
  Hypothesis HS : forall n m, PN n -> In m (subs n) -> PN m.
  Definition mv (g : gst) : Prop := forall l k c n, In l (memo g) -> In (k, c) l -> PN n -> is_var n = true -> nid n = k ->
    exists x, c = CV x.
  Lemma mlookup_in k m c : mlookup k m = Some c -> exists l, In l m /\ In (k, c) l.
  Proof.
    induction m as [|l m IH]; cbn [mlookup]; [discriminate|]. destruct (assoc k l) as [d|] eqn:E.
    - intros H; injection H as <-. exists l. split; [left; reflexivity|apply assoc_in; exact E].
    - intros H. destruct (IH H) as (l' & H1 & H2). exists l'. split; [right; exact H1|exact H2].
  Qed.
  Lemma mv_memoize g n c : mv g -> PN n -> (is_var n = true -> exists x, c = CV x) -> mv (memoize (nid n) c g).
  Proof.
    intros H HP HC l k d m Hl Hk Hm HV E. unfold memoize, madd in Hl. cbn [memo] in Hl.
    assert (HH : forall d', (nid n, c) = (k, d') -> exists x, d' = CV x).
    { intros d' Q. injection Q as Q1 <-. apply HC. replace n with m; [exact HV|]. apply HU; auto. congruence. }
    destruct (memo g) as [|l0 t] eqn:EM.
    - destruct Hl as [<-|[]]. destruct Hk as [Hk|[]]. apply HH. exact Hk.
    - destruct Hl as [<-|Hl].
      + destruct Hk as [Hk|Hk]; [apply HH; exact Hk|]. refine (H l0 k d m _ Hk Hm HV E). rewrite EM. left; reflexivity.
      + refine (H l k d m _ Hk Hm HV E). rewrite EM. right; exact Hl.
  Qed.
  Lemma gens_mv gen1 : (forall g n code c g', gen1 g n = Some (code, c, g') -> PN n -> mv g -> mv g') ->
    forall l, (forall i a, In (i, a) l -> PN a) -> forall g code rs g', gens gen1 g l = Some (code, rs, g') -> mv g -> mv g'.
  Proof.
    intros HG. induction l as [|[i a] l IH]; intros HL g code rs g' H HM; cbn [gens] in H.
    - injection H as <- <- <-. exact HM.
    - destruct (gen1 g a) as [[[c1 v] g1]|] eqn:E1; [|discriminate].
      destruct (gens gen1 g1 l) as [[[c2 vs] g2]|] eqn:E2; [|discriminate]. injection H as <- <- <-.
      eapply IH; [intros j b Hb; apply (HL j b); right; exact Hb|exact E2|]. eapply HG; eauto. apply (HL i a). left; reflexivity.
  Qed.
  Lemma gen_mv fuel : forall inl g n code c g', gen pick order fuel inl g n = Some (code, c, g') -> PN n -> mv g -> mv g'.
  Proof.
    induction fuel as [|f IH]; intros inl g n code c g' H HP HM; [discriminate|]. cbn [gen] in H.
    destruct (mlookup (nid n) (memo g)); [injection H as <- <- <-; exact HM|].
    destruct n as [i [|] tag|i v|i op ff tag args].
    - injection H as <- <- <-. apply (mv_memoize (declare _ g) (NVar i true tag)); [exact HM|exact HP|eauto].
    - injection H as <- <- <-. apply (mv_memoize g (NVar i false tag)); eauto.
    - injection H as <- <- <-. apply (mv_memoize g (NCst i v)); [exact HM|exact HP|discriminate].
    - destruct (gens _ g _) as [[[code1 rs] g1]|] eqn:EG; [|discriminate].
      destruct (collect rs _) as [cs|]; [|discriminate].
      assert (M1 : mv g1).
      { refine (gens_mv (gen pick order f inl) _ _ _ _ _ _ _ EG HM).
        - intros g0 n0 code0 c0 g0' G HP0 HM0. eapply IH; eauto.
        - intros j a Hja. apply in_sorted in Hja. apply nth_error_In in Hja. eapply HS; [exact HP|].
          apply subs_op. right. exists a. split; [exact Hja|apply subs_self]. }
      destruct (stored ff inl); injection H as <- <- <-.
      + apply (mv_memoize (declare _ g1) (NOp i op ff tag args)); [exact M1|exact HP|discriminate].
      + apply (mv_memoize g1 (NOp i op ff tag args)); [exact M1|exact HP|discriminate].
  Qed.
  Fixpoint targets_ok (s : stmt) : Prop :=
    match s with
    | SSeq s1 s2 => targets_ok s1 /\ targets_ok s2
    | SAssign v _ => is_var v = true
    | SIf _ t e => targets_ok t /\ targets_ok e
    | SLoop i _ b => targets_ok i /\ targets_ok b
    | _ => True
    end.
  Lemma gen_var fuel inl g v : PN v -> is_var v = true -> mv g -> 0 < fuel ->
    exists c x g', gen pick order fuel inl g v = Some (c, CV x, g').
  Proof.
    intros HP HV HM HF. destruct fuel as [|f]; [lia|]. cbn [gen].
    destruct (mlookup (nid v) (memo g)) as [c|] eqn:E.
    - apply mlookup_in in E as (l & H1 & H2). destruct (HM l _ _ v H1 H2 HP HV eq_refl) as (x & ->). eauto.
    - destruct v as [i [|] tag|?|]; try discriminate; eauto.
  Qed.
  Lemma gen_stmt_total fuel s : (forall n, In n (snodes s) -> PN n /\ nsize n <= fuel) -> targets_ok s -> 0 < fuel ->
    forall g, mv g -> exists code g', gen_stmt pick order fuel g s = Some (code, g') /\ mv g'.
  Proof.
    intros HN HT HF. induction s as [|s1 IH1 s2 IH2|e|v e|c t IHt e IHe|i IHi c b IHb|e]; intros g HM;
      cbn [gen_stmt snodes targets_ok] in *.
    - eauto.
    - destruct (IH1 (fun n Hn => HN n (proj2 (in_app_iff _ _ _) (or_introl Hn))) (proj1 HT) g HM) as (c1 & g1 & -> & M1).
      destruct (IH2 (fun n Hn => HN n (proj2 (in_app_iff _ _ _) (or_intror Hn))) (proj2 HT) g1 M1) as (c2 & g2 & -> & M2). eauto.
    - destruct (gen_total fuel false g e (proj2 (HN e (subs_self e)))) as ([[c r] g'] & E). rewrite E.
      eexists _, _. split; [reflexivity|]. eapply gen_mv; [exact E| |exact HM]. apply HN, subs_self.
    - destruct (HN v (proj2 (in_app_iff _ _ _) (or_introl (subs_self v)))) as [Pv _].
      destruct (HN e (proj2 (in_app_iff _ _ _) (or_intror (subs_self e)))) as [Pe Ne].
      destruct (gen_var fuel false g v Pv HT HM HF) as (c1 & x & g1 & E1). rewrite E1.
      pose proof (gen_mv _ _ _ _ _ _ _ E1 Pv HM) as M1.
      destruct (gen_total fuel false g1 e Ne) as ([[c r] g'] & E). rewrite E.
      eexists _, _. split; [reflexivity|]. eapply gen_mv; eauto.
    - assert (HNc : PN c /\ nsize c <= fuel) by (apply HN; rewrite !in_app_iff; left; apply subs_self).
      destruct (gen_total fuel false g c (proj2 HNc)) as ([[c0 r] g0] & E). rewrite E.
      pose proof (gen_mv _ _ _ _ _ _ _ E (proj1 HNc) HM) as M0.
      assert (MO : forall h, mv h -> mv (open_code (open_memo h))).
      { intros h Hh l k d m Hl Hk. destruct Hl as [<-|Hl]; [destruct Hk|]. apply (Hh l k d m Hl Hk). }
      assert (MC : forall h, mv h -> mv (close_memo (close_code h))).
      { intros h Hh l k d m Hl Hk. cbn [close_memo close_code memo] in Hl. apply (Hh l k d m); [|exact Hk].
        destruct (memo h); [destruct Hl|right; exact Hl]. }
      destruct (IHt (fun n Hn => HN n (proj2 (in_app_iff _ _ _) (or_intror (proj2 (in_app_iff _ _ _) (or_introl Hn))))) (proj1 HT) _ (MO g0 M0)) as (c1 & g1 & -> & M1).
      destruct (IHe (fun n Hn => HN n (proj2 (in_app_iff _ _ _) (or_intror (proj2 (in_app_iff _ _ _) (or_intror Hn))))) (proj2 HT) (open_memo (open_code (close_memo (close_code g1))))) as (c2 & g2 & -> & M2).
      { apply (MO _ (MC _ M1)). }
      eexists _, _. split; [reflexivity|]. apply MC; exact M2.
    - destruct (IHi (fun n Hn => HN n (proj2 (in_app_iff _ _ _) (or_introl Hn))) (proj1 HT) g HM) as (c0 & g0 & -> & M0).
      assert (HNc : PN c /\ nsize c <= fuel) by (apply HN; rewrite !in_app_iff; right; left; apply subs_self).
      destruct (gen_total fuel true g0 c (proj2 HNc)) as ([[c1 r] g1] & E). rewrite E.
      pose proof (gen_mv _ _ _ _ _ _ _ E (proj1 HNc) M0) as M1.
      destruct (IHb (fun n Hn => HN n (proj2 (in_app_iff _ _ _) (or_intror (proj2 (in_app_iff _ _ _) (or_intror Hn))))) (proj2 HT) (open_code g1) M1) as (c2 & g2 & -> & M2).
      eexists _, _. split; [reflexivity|exact M2].
    - destruct (gen_total fuel false g e (proj2 (HN e (subs_self e)))) as ([[c r] g'] & E). rewrite E.
      eexists _, _. split; [reflexivity|]. eapply gen_mv; [exact E| |exact HM]. apply HN, subs_self.
  Qed.

  (* ---------- sharing: each operation is assigned once ---------- *)
  Hypothesis pick_fresh : forall l p, ~ In (pick l p) l.
  Definition own_var (n : node) : bool := match n with NOp _ _ (Some false) _ _ => false | NOp _ _ _ _ _ => true | _ => false end.
  Definition closed (g : gst) : Prop := forall n m, PN n -> has g (nid n) -> In m (subs n) -> has g (nid m).
  Definition once (S : list node) (code : list cstmt) (g g' : gst) : Prop :=
    exists L, length L = length code /\ NoDup L /\
      (forall k, In k L -> ~ has g k /\ exists m, In m S /\ own_var m = true /\ nid m = k) /\
      (forall m, In m S -> own_var m = true -> has g (nid m) \/ In (nid m) L).
  Lemma has_mono ks g g' k : gext ks g g' -> has g k -> has g' k.
  Proof.
    intros X H. unfold has in *. destruct (mlookup k (memo g)) as [c|] eqn:E; [|congruence].
    rewrite (x_mono _ _ _ X _ _ E). discriminate.
  Qed.
  Definition once_gen (gen1 : gst -> node -> option (list cstmt * cval * gst)) : Prop :=
    forall g n code c g', gen1 g n = Some (code, c, g') -> memo g <> [] -> scopes g <> [] -> PN n -> closed g ->
      gext (map nid (subs n)) g g' /\ closed g' /\ (forall m, In m (subs n) -> has g' (nid m)) /\ once (subs n) code g g'.
  Lemma gens_once gen1 : once_gen gen1 -> forall l g code rs g', gens gen1 g l = Some (code, rs, g') ->
    memo g <> [] -> scopes g <> [] -> (forall i a, In (i, a) l -> PN a) -> closed g ->
    let S := concat (map (fun p => subs (snd p)) l) in
    gext (map nid S) g g' /\ closed g' /\ (forall m, In m S -> has g' (nid m)) /\ once S code g g'.
  Proof.
    intros HG. induction l as [|[i a] l IH]; intros g code rs g' H H1 H2 HL HC; cbn [gens map concat snd] in *.
    - injection H as <- <- <-. split; [apply gext_refl; assumption|]. split; [exact HC|]. split; [intros m []|].
      exists []. split; [reflexivity|]. split; [constructor|]. split; [intros k []|intros m []].
    - destruct (gen1 g a) as [[[c1 v] g1]|] eqn:E1; [|discriminate].
      destruct (gens gen1 g1 l) as [[[c2 vs] g2]|] eqn:E2; [|discriminate]. injection H as <- <- <-.
      destruct (HG _ _ _ _ _ E1 H1 H2 (HL i a (or_introl eq_refl)) HC) as (X1 & C1 & A1 & L1 & N1 & D1 & P1 & Q1).
      destruct (IH _ _ _ _ E2 (x_mne _ _ _ X1) (x_sne _ _ _ X1) (fun j b Hb => HL j b (or_intror Hb)) C1) as (X2 & C2 & A2 & L2 & N2 & D2 & P2 & Q2).
      set (S2 := concat (map (fun p => subs (snd p)) l)) in *.
      split; [|split; [exact C2|split]].
      + rewrite map_app. apply (gext_trans _ g g1 g2 H2); eapply gext_weak; [|exact X1| |exact X2]; [apply incl_appl, incl_refl|apply incl_appr, incl_refl].
      + intros m Hm. apply in_app_iff in Hm as [Hm|Hm]; [eapply has_mono; [exact X2|]; auto|auto].
      + exists (L1 ++ L2). split; [rewrite !app_length; congruence|]. split; [|split].
        * assert (HD : forall k, In k L1 -> ~ In k L2).
          { intros k K1 K2. destruct (P2 k K2) as [K3 _]. apply K3. destruct (P1 k K1) as [_ (m & Hm & _ & <-)]. apply A1; exact Hm. }
          clear - D1 D2 HD. induction D1 as [|k L1 Hk D1 IH]; cbn [app]; [exact D2|]. constructor.
          -- intros Hin. apply in_app_iff in Hin as [Hin|Hin]; [contradiction|]. exact (HD k (or_introl eq_refl) Hin).
          -- apply IH. intros j Hj. apply HD. right; exact Hj.
        * intros k Hk. apply in_app_iff in Hk as [Hk|Hk].
          -- destruct (P1 k Hk) as [K1 (m & Hm & Om & Em)]. split; [exact K1|]. exists m. split; [apply in_app_iff; left; exact Hm|auto].
          -- destruct (P2 k Hk) as [K1 (m & Hm & Om & Em)]. split; [intros Hh; apply K1; eapply has_mono; eauto|].
             exists m. split; [apply in_app_iff; right; exact Hm|auto].
        * intros m Hm Om. rewrite in_app_iff. apply in_app_iff in Hm as [Hm|Hm].
          -- destruct (Q1 m Hm Om); auto.
          -- destruct (Q2 m Hm Om) as [Hh|Hh]; [|auto]. destruct (x_keys _ _ _ X1 _ Hh) as [Hg|Hk]; [auto|].
             apply in_map_iff in Hk as (p & Ep & Hp).
             assert (p = m).
             { apply HU; [eapply HS; [exact (HL i a (or_introl eq_refl))|exact Hp]| |exact Ep].
               apply in_concat in Hm as (ll & Hll & Hm). apply in_map_iff in Hll as ([j b] & <- & Hb).
               eapply HS; [exact (HL j b (or_intror Hb))|exact Hm]. }
             subst p. destruct (Q1 m Hp Om); auto.
  Qed.
  Lemma closed_add g n c : closed g -> PN n -> (forall m, In m (subs n) -> m <> n -> has g (nid m)) -> closed (memoize (nid n) c g).
  Proof.
    intros HC HP HA p m Hp Hh Hm.
    assert (HH : forall j, has (memoize (nid n) c g) j <-> nid n = j \/ has g j).
    { intros j. unfold has, memoize; cbn [memo]. rewrite mlookup_madd. destruct (Nat.eqb_spec (nid n) j) as [Q|Q]; split; auto; [intros _; discriminate|intros [Hj|Hj]; [contradiction|exact Hj]]. }
    apply HH. apply HH in Hh as [Hh|Hh]; [|right; eapply HC; eauto].
    assert (n = p) by (apply HU; auto). subst p.
    destruct (Nat.eq_dec (nid n) (nid m)) as [E|E]; [left; exact E|right]. apply HA; [exact Hm|congruence].
  Qed.
  Lemma gen_once fuel : once_gen (gen pick order fuel false).
  Proof.
    induction fuel as [|f IH]; intros g n code c g' H H1 H2 HP HC; [discriminate|].
    pose proof (gen_gext pick order pick_fresh PN HU HS (S f) false g n code c g' H1 H2 HP H) as HX.
    cbn [gen] in H. split; [exact HX|].
    destruct (mlookup (nid n) (memo g)) as [c0|] eqn:E0.
    { injection H as <- <- <-. split; [exact HC|]. assert (HG : has g (nid n)) by (unfold has; congruence).
      split; [intros m Hm; eapply HC; eauto|]. exists []. split; [reflexivity|]. split; [constructor|]. split; [intros k []|].
      intros m Hm _. left. eapply HC; eauto. }
    assert (HH : forall c1 g1 j, has (memoize (nid n) c1 g1) j <-> nid n = j \/ has g1 j).
    { intros c1 g1 j. unfold has, memoize; cbn [memo]. rewrite mlookup_madd. destruct (Nat.eqb_spec (nid n) j) as [Q|Q]; split; auto; [intros _; discriminate|intros [Hj|Hj]; [contradiction|exact Hj]]. }
    assert (HLeaf : forall c1 g1, (forall j, has g1 j <-> has g j) -> closed g1 -> subs n = [n] -> own_var n = false ->
      closed (memoize (nid n) c1 g1) /\ (forall m, In m (subs n) -> has (memoize (nid n) c1 g1) (nid m)) /\ once (subs n) [] g (memoize (nid n) c1 g1)).
    { intros c1 g1 Hh C1 ES EO. rewrite ES. split; [|split].
      - apply closed_add; [exact C1|exact HP|]. intros m Hm Hne. rewrite ES in Hm. destruct Hm as [<-|[]]. congruence.
      - intros m [<-|[]]. apply HH. left; reflexivity.
      - exists []. split; [reflexivity|]. split; [constructor|]. split; [intros k []|]. intros m [<-|[]] Ho. congruence. }
    destruct n as [i [|] tag|i v|i op ff tag args].
    - injection H as <- <- <-. apply (HLeaf (CV _) (declare _ g)); auto; reflexivity.
    - injection H as <- <- <-. apply (HLeaf (CV tag) g); auto; reflexivity.
    - injection H as <- <- <-. apply (HLeaf (CE (ECst v)) g); auto; reflexivity.
    - destruct (gens _ g _) as [[[code1 rs] g1]|] eqn:EG; [|discriminate].
      destruct (collect rs _) as [cs|]; [|discriminate].
      assert (HL : forall j a, In (j, a) (sort_args order (enumerate args)) -> PN a).
      { intros j a Hja. apply in_sorted in Hja. apply nth_error_In in Hja. eapply HS; [exact HP|].
        apply subs_op. right. exists a. split; [exact Hja|apply subs_self]. }
      destruct (gens_once _ IH _ _ _ _ _ EG H1 H2 HL HC) as (X1 & C1 & A1 & L1 & N1 & D1 & P1 & Q1).
      set (S1 := concat (map (fun p => subs (snd p)) (sort_args order (enumerate args)))) in *.
      assert (HS1 : forall m, In m S1 <-> exists a, In a args /\ In m (subs a)).
      { intros m. unfold S1. split.
        - intros Hm. apply in_concat in Hm as (l & Hl & Hm). apply in_map_iff in Hl as ([j a] & <- & Hja).
          apply in_sorted in Hja. apply nth_error_In in Hja. exists a; auto.
        - intros (a & Ha & Hm). apply In_nth_error in Ha as (j & Hj). apply in_concat. exists (subs a). split; [|exact Hm].
          apply in_map_iff. exists (j, a). split; [reflexivity|]. apply in_sorted; exact Hj. }
      set (n := NOp i op ff tag args) in *.
      assert (HSn : forall m, In m (subs n) <-> m = n \/ In m S1).
      { intros m. unfold n. rewrite subs_op, HS1. reflexivity. }
      assert (HNi : ~ has g1 (nid n)).
      { intros Hh. destruct (x_keys _ _ _ X1 _ Hh) as [Hg|Hk]; [unfold has in Hg; congruence|].
        apply in_map_iff in Hk as (m & Em & Hm). apply HS1 in Hm as (a & Ha & Hm).
        exact (below_id PN HU HS _ _ _ _ _ _ _ HP Ha Hm Em). }
      assert (HNL : ~ In (nid n) L1).
      { intros Hk. destruct (P1 _ Hk) as [_ (m & Hm & _ & Em)]. apply HNi. rewrite <- Em. apply A1; exact Hm. }
      assert (HF : forall g2 c2, (forall j, has g2 j <-> has g1 j) -> closed g2 ->
        closed (memoize (nid n) c2 g2) /\ (forall m, In m (subs n) -> has (memoize (nid n) c2 g2) (nid m))).
      { intros g2 c2 Hj C2. split.
        - apply closed_add; [exact C2|exact HP|]. intros m Hm Hne. apply Hj. apply A1. apply HSn in Hm as [->|Hm]; [congruence|exact Hm].
        - intros m Hm. apply HH. apply HSn in Hm as [->|Hm]; [left; reflexivity|right]. apply Hj, A1, Hm. }
      assert (HO : own_var n = stored ff false) by (unfold n; destruct ff as [[|]|]; reflexivity).
      destruct (stored ff false) eqn:ES; injection H as <- <- <-.
      + destruct (HF (declare (fresh_name pick g1 tag) g1) (CV (fresh_name pick g1 tag))) as [F1 F2]; [intros j; reflexivity|exact C1|].
        split; [exact F1|]. split; [exact F2|].
        exists (nid n :: L1). split; [rewrite app_length; cbn [length]; lia|]. split; [constructor; assumption|]. split.
        * intros k [<-|Hk].
          -- split; [unfold has; congruence|]. exists n. split; [apply subs_self|auto].
          -- destruct (P1 k Hk) as [K1 (m & Hm & Om & Em)]. split; [exact K1|]. exists m. split; [apply HSn; right; exact Hm|auto].
        * intros m Hm Om. apply HSn in Hm as [->|Hm]; [right; left; reflexivity|]. destruct (Q1 m Hm Om) as [Hh|Hh]; [left; exact Hh|right; right; exact Hh].
      + destruct (HF g1 (CE (EOp op (map cget cs)))) as [F1 F2]; [intros j; reflexivity|exact C1|].
        split; [exact F1|]. split; [exact F2|].
        exists L1. split; [exact N1|]. split; [exact D1|]. split.
        * intros k Hk. destruct (P1 k Hk) as [K1 (m & Hm & Om & Em)]. split; [exact K1|]. exists m. split; [apply HSn; right; exact Hm|auto].
        * intros m Hm Om. apply HSn in Hm as [->|Hm]; [congruence|]. apply Q1; assumption.
  Qed.
End Total.
