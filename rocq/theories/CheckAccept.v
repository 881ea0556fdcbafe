(** What the generated acceptance tests accept. *)

Require Import ZArith QArith Qabs Qround List Bool Lia Lqa Qfield.
From Verif Require Import QUtil FpFormatModel FpFormatSpec FpFormatProofs
  FpFormatProofs2 FpFormatProps SpecialModel SpecialSpec CheckModel CheckSpec
  CheckProofs.
Import ListNotations.
Open Scope Z_scope.

Section Fmt.
  Variable F : fpfmt.
  Hypothesis Hok : fmt_ok F.
  Hypothesis Hs : sollya_ok F.
  Local Notation e := (esz F).
  Local Notation f := (fsz F).

  Lemma threshold_eq :
    (overflow_threshold F
     == (inject_Z (2 ^ (f + 1)) - (1 # 2)) * p2 (emax F - f))%Q.
  Proof.
    pose proof (f_pos F Hok). unfold overflow_threshold.
    rewrite <- (emax_eq F Hok).
    rewrite <- (p2_Z (f + 1)) by lia.
    setoid_replace (p2 (emax F)) with (p2 f * p2 (emax F - f))%Q
      by (rewrite <- p2_plus; replace (f + (emax F - f)) with (emax F) by lia;
          reflexivity).
    rewrite (p2_succ f).
    pose proof (p2_opp f) as O.
    setoid_replace (p2 f * p2 (emax F - f) * (2 - p2 (- f) * (1 # 2)))%Q
      with (p2 (emax F - f) * (2 * p2 f - (p2 (- f) * p2 f) * (1 # 2)))%Q by ring.
    rewrite O. ring.
  Qed.

  (** rounding to nearest overflows exactly from the threshold on *)
  Lemma overflow_iff : forall v,
    sollya_round F v = None <-> (overflow_threshold F <= Qabs v)%Q.
  Proof.
    intros v. rewrite threshold_eq. pose proof (f_pos F Hok) as Pf.
    pose proof (p2_pos (emax F - f)) as PE.
    assert (P2 : 2 <= 2 ^ f) by exact (pf_ge F Hok).
    pose proof (pf1 F Hok) as PF1.
    assert (I : (inject_Z (2 ^ (f + 1)) == 2 * inject_Z (2 ^ f))%Q)
      by (rewrite PF1, inject_Z_mult; reflexivity).
    assert (I2 : (2 <= inject_Z (2 ^ f))%Q)
      by (change 2%Q with (inject_Z 2); apply inj_le; lia).
    destruct (Qeq_dec v 0) as [E|E].
    { unfold sollya_round. rewrite (Qeq_eq_bool _ _ E). split; [discriminate|].
      intros H. exfalso. rewrite E in H. change (Qabs 0) with 0%Q in H. nra. }
    rewrite (sollya_round_unfold F Hs) by assumption. cbv zeta.
    pose proof (rnd_N F Hok v E) as NB.
    pose proof (qrne_half (v / p2 (rnd_exp F v))) as QH.
    destruct (qlog2_spec (Qabs v) (Qabs_nz v E)) as [L1 L2].
    assert (XE : rnd_exp F v = Z.max (qlog2 (Qabs v)) (emin_normal F) - f) by reflexivity.
    assert (EM : emin_normal F < emax F).
    { rewrite (emax_eq F Hok). pose proof (pe1_ge F Hok).
      unfold emin_normal, bias. lia. }
    set (L := qlog2 (Qabs v)) in *. set (x := rnd_exp F v) in *.
    pose proof (p2_pos x) as Px.
    set (w := (v / p2 x)%Q) in *.
    assert (VW : (v == w * p2 x)%Q) by (unfold w; field; lra).
    assert (AW : (Qabs v == Qabs w * p2 x)%Q).
    { rewrite VW, Qabs_Qmult. rewrite (Qabs_pos (p2 x)) by lra. reflexivity. }
    assert (Par : Z.abs (qrne w) = 2 ^ (f + 1) - 1 ->
                  (inject_Z (2 ^ (f + 1)) - (1 # 2) <= Qabs w)%Q -> False).
    { intros EN Hw. apply Qabs_Qle_condition in QH as [Q1 Q2].
      destruct (Z.le_gt_cases 0 (qrne w)) as [S|S].
      - assert (EQ : qrne w = 2 ^ (f + 1) - 1) by lia.
        rewrite EQ in *. replace (2 ^ (f + 1) - 1) with (2 ^ (f + 1) + - (1)) in * by lia.
        rewrite inject_Z_plus in *. change (inject_Z (- (1))) with (- (1))%Q in *.
        assert (W0 : (0 <= w)%Q) by lra. rewrite (Qabs_pos w W0) in Hw.
        assert (T : (w - inject_Z (2 ^ (f + 1) + - (1)) == 1 # 2)%Q).
        { rewrite inject_Z_plus. change (inject_Z (- (1))) with (- (1))%Q. lra. }
        apply qrne_tie in T. rewrite EQ in T.
        replace (Z.even (2 ^ (f + 1) + - (1))) with false in T; [lia|].
        rewrite PF1. replace (2 * 2 ^ f + - (1)) with (2 * (2 ^ f - 1) + 1) by lia.
        rewrite Z.even_add_mul_2 || idtac.
        symmetry. rewrite Z.add_comm. rewrite Z.even_add_mul_2. reflexivity.
      - assert (EQ : qrne w = - (2 ^ (f + 1)) + 1) by lia.
        rewrite EQ in *. rewrite inject_Z_plus, inject_Z_opp in *.
        change (inject_Z 1) with 1%Q in *.
        assert (W0 : (w <= 0)%Q) by lra. rewrite (Qabs_neg w W0) in Hw.
        assert (T : (w - inject_Z (- 2 ^ (f + 1)) == 1 # 2)%Q).
        { rewrite inject_Z_opp. lra. }
        apply qrne_tie in T. rewrite EQ in T.
        replace (Z.even (- 2 ^ (f + 1))) with true in T; [lia|].
        rewrite Z.even_opp, PF1. rewrite Z.even_mul. reflexivity. }
    set (N := qrne w) in *.
    assert (AR : (Qabs (inject_Z N * p2 x) == inject_Z (Z.abs N) * p2 x)%Q).
    { rewrite Qabs_Qmult. rewrite (Qabs_pos (p2 x)) by lra. reflexivity. }
    assert (NW : (inject_Z (Z.abs N) - (1 # 2) <= Qabs w <= inject_Z (Z.abs N) + (1 # 2))%Q).
    { change (inject_Z (Z.abs N)) with (Qabs (inject_Z N)).
      pose proof (Qabs_triangle_reverse (inject_Z N) w).
      pose proof (Qabs_triangle_reverse w (inject_Z N)).
      rewrite (Qabs_Qminus w (inject_Z N)) in *. split; lra. }
    assert (IFF : (p2 (emax F + 1) <= inject_Z (Z.abs N) * p2 x)%Q
                  <-> ((inject_Z (2 ^ (f + 1)) - (1 # 2)) * p2 (emax F - f) <= Qabs v)%Q).
    { assert (PE1 : (p2 (emax F + 1) == inject_Z (2 ^ (f + 1)) * p2 (emax F - f))%Q).
      { rewrite <- (p2_Z (f + 1)) by lia. rewrite <- p2_plus.
        replace (f + 1 + (emax F - f)) with (emax F + 1) by lia. reflexivity. }
      destruct (Z.lt_trichotomy L (emax F)) as [C|[C|C]].
      - assert (LX : (p2 (x + (f + 1)) <= p2 (emax F))%Q) by (apply p2_le; lia).
        assert (LM : x <= emax F - f) by lia.
        split; intros HH; exfalso.
        + assert (inject_Z (Z.abs N) * p2 x <= p2 (x + (f + 1)))%Q.
          { rewrite p2_plus, (p2_Z (f + 1)) by lia. rewrite Qmult_comm.
            apply Qmult_le_l; [lra|]. apply inj_le; lia. }
          pose proof (p2_lt (emax F) (emax F + 1) ltac:(lia)). lra.
        + pose proof (p2_le (L + 1) (emax F) ltac:(lia)).
          assert (PE0 : (p2 (emax F) == inject_Z (2 ^ f) * p2 (emax F - f))%Q).
          { rewrite <- (p2_Z f) by lia. rewrite <- p2_plus.
            replace (f + (emax F - f)) with (emax F) by lia. reflexivity. }
          rewrite I in HH. nra.
      - assert (XX : x = emax F - f) by lia. rewrite <- XX in *.
        rewrite PE1, AW. rewrite !Qmult_le_r by lra.
        split; intros HH.
        + rewrite <- Zle_Qle in HH. assert (NE : Z.abs N = 2 ^ (f + 1)) by lia.
          rewrite NE in NW. lra.
        + rewrite <- Zle_Qle.
          assert (A1 : 2 ^ (f + 1) - 1 <= Z.abs N).
          { assert (A2 : (inject_Z (2 ^ (f + 1) - 1) <= inject_Z (Z.abs N))%Q).
            { replace (2 ^ (f + 1) - 1) with (2 ^ (f + 1) + - (1)) by lia.
              rewrite inject_Z_plus. change (inject_Z (- (1))) with (- (1))%Q. lra. }
            rewrite <- Zle_Qle in A2. exact A2. }
          destruct (Z.eq_dec (Z.abs N) (2 ^ (f + 1) - 1)) as [EQ|NE]; [|lia].
          exfalso. apply Par; assumption.
      - assert (XX : x = L - f) by lia. pose proof (p2_le (emax F + 1) L ltac:(lia)) as LL.
        split; intros HH; [nra|].
        assert (L1' : (p2 L == inject_Z (2 ^ f) * p2 x)%Q).
        { rewrite <- (p2_Z f) by lia. rewrite <- p2_plus.
          replace (f + x) with L by lia. reflexivity. }
        assert (A : (inject_Z (2 ^ f) <= Qabs w)%Q).
        { rewrite L1', AW, Qmult_le_r in L1 by lra. exact L1. }
        assert (B : 2 ^ f <= Z.abs N).
        { assert (A2 : (inject_Z (2 ^ f) < inject_Z (Z.abs N + 1))%Q)
            by (rewrite inject_Z_plus; change (inject_Z 1) with 1%Q; lra).
          rewrite <- Zlt_Qlt in A2. lia. }
        apply Qle_trans with (p2 L); [exact LL|]. rewrite L1'.
        apply Qmult_le_compat_r; [apply inj_le; lia|lra]. }
    destruct (Qle_bool (p2 (emax F + 1)) (Qabs (inject_Z N * p2 x))) eqn:B.
    - apply Qle_bool_iff in B. rewrite AR in B. tauto.
    - split; [discriminate|]. intros HH. apply IFF in HH. rewrite <- AR in HH.
      apply Qle_bool_iff in HH. congruence.
  Qed.

  (** ** Rounding to nearest is unique *)

  Lemma even_zero : even_significand F 0.
  Proof.
    pose proof (f_pos F Hok). pose proof (pf_ge F Hok). pose proof (pf1 F Hok).
    pose proof (pe1_ge F Hok).
    exists 0, (2 - 2 ^ (e - 1) - f). repeat split; try lia; try reflexivity.
  Qed.

  Lemma even_comp : forall a b, (a == b)%Q -> even_significand F a -> even_significand F b.
  Proof.
    intros a b E (N & ee & H & R). exists N, ee. split; [rewrite <- E; exact H | exact R].
  Qed.

  Lemma even_opp : forall a, even_significand F a -> even_significand F (- a).
  Proof.
    intros a (N & ee & H & He & H1 & H2 & H3). exists (- N), ee.
    rewrite Z.even_opp, Z.abs_opp, inject_Z_opp.
    split; [rewrite H; ring|]. repeat split; try assumption; lia.
  Qed.

  (** two numbers with even significands are never neighbours *)
  Lemma even_between : forall a b, (a < b)%Q ->
    even_significand F a -> even_significand F b ->
    exists u, representable F u /\ (a < u < b)%Q.
  Proof.
    intros a b Hab (N1 & e1 & A1 & Ev1 & B1 & R1 & _) (N2 & e2 & A2 & Ev2 & B2 & R2 & _).
    pose proof (pf1 F Hok) as PF1.
    apply Z.even_spec in Ev1 as (h1 & ->). apply Z.even_spec in Ev2 as (h2 & ->).
    pose proof (p2_pos e1) as P1. pose proof (p2_pos e2) as P2.
    destruct (Z.le_ge_cases e1 e2) as [C|C].
    - assert (B' : (b == inject_Z (2 * h2 * 2 ^ (e2 - e1)) * p2 e1)%Q).
      { rewrite A2, (inject_Z_mult (2 * h2)), <- (p2_Z (e2 - e1)) by lia.
        rewrite <- Qmult_assoc, <- p2_plus. replace (e2 - e1 + e1) with e2 by lia.
        reflexivity. }
      exists (inject_Z (2 * h1 + 1) * p2 e1)%Q. split.
      { exists (2 * h1 + 1), e1. repeat split; try lia. }
      rewrite A1, B'. rewrite A1, B' in Hab.
      rewrite !Qmult_lt_r in * by assumption. rewrite <- !Zlt_Qlt in *.
      set (k := 2 ^ (e2 - e1)) in *. nia.
    - assert (A' : (a == inject_Z (2 * h1 * 2 ^ (e1 - e2)) * p2 e2)%Q).
      { rewrite A1, (inject_Z_mult (2 * h1)), <- (p2_Z (e1 - e2)) by lia.
        rewrite <- Qmult_assoc, <- p2_plus. replace (e1 - e2 + e2) with e1 by lia.
        reflexivity. }
      exists (inject_Z (2 * h2 - 1) * p2 e2)%Q. split.
      { exists (2 * h2 - 1), e2. repeat split; try lia. }
      rewrite A', A2. rewrite A', A2 in Hab.
      rewrite !Qmult_lt_r in * by assumption. rewrite <- !Zlt_Qlt in *.
      set (k := 2 ^ (e1 - e2)) in *. nia.
  Qed.

  Lemma nearest_even_unique : forall x a b,
    nearest F x a -> nearest F x b -> ties_even F x a -> ties_even F x b -> (a == b)%Q.
  Proof.
    assert (W : forall x a b, nearest F x a -> nearest F x b ->
      ties_even F x a -> ties_even F x b -> ~ (a < b)%Q).
    { intros x a b [Ra Na] [Rb Nb] Ta Tb Hab.
      pose proof (Na b Rb) as H1. pose proof (Nb a Ra) as H2.
      assert (EQ : (Qabs (x - b) == Qabs (x - a))%Q) by lra.
      assert (E1 : even_significand F a) by (apply (Ta b Rb); [lra | exact EQ]).
      assert (E2 : even_significand F b) by (apply (Tb a Ra); [lra | symmetry; exact EQ]).
      destruct (even_between a b Hab E1 E2) as (u & Ru & U1 & U2).
      pose proof (Na u Ru) as H3. pose proof (Nb u Ru) as H4.
      revert H1 H2 H3 H4.
      apply (Qabs_case (x - a)); apply (Qabs_case (x - b)); apply (Qabs_case (x - u));
        intros; lra. }
    intros x a b A B TA TB.
    destruct (Qlt_le_dec a b) as [H|H]; [exfalso; eapply W; [exact A|exact B|..]; eassumption|].
    destruct (Qlt_le_dec b a) as [H'|H']; [exfalso; eapply W; [exact B|exact A|..]; eassumption|].
    lra.
  Qed.

  Lemma round_ties : forall x q, sollya_round F x = Some q -> ties_even F x q.
  Proof.
    intros x q Hq u Hu NE TE.
    destruct (Qeq_dec q 0) as [Z0|Z0].
    { apply (even_comp 0); [symmetry; exact Z0 | exact even_zero]. }
    pose proof (round_nearest F Hok Hs x q Hq) as [Rq _].
    assert (RA : representable F (Qabs q)) by (apply representable_abs; assumption).
    destruct (canonical_exists F Hok _ RA (Qabs_nz q Z0)) as (N & ee & C).
    assert (Ev : Z.even N = true).
    { apply (round_tie F Hok Hs x q u Hq Hu NE) with (ee := ee); [|exact C].
      rewrite TE. lra. }
    destruct C as (C1 & C2 & C3 & C4).
    assert (EA : even_significand F (Qabs q)).
    { exists N, ee. rewrite <- (emin_sub_eq F), <- (emax_f_eq F Hok).
      rewrite Z.abs_eq by lia. repeat split; try assumption; lia. }
    destruct (Qlt_le_dec q 0) as [S|S].
    - apply (even_comp (- Qabs q)); [rewrite Qabs_neg by lra; ring|].
      apply even_opp. exact EA.
    - apply (even_comp (Qabs q)); [rewrite Qabs_pos by lra; reflexivity | exact EA].
  Qed.

  Lemma ties_comp : forall x a b, (a == b)%Q -> ties_even F x a -> ties_even F x b.
  Proof.
    intros x a b E H u Hu NE T. apply (even_comp a b E). apply (H u Hu).
    - rewrite E. exact NE.
    - rewrite E. exact T.
  Qed.

  Lemma nearest_comp : forall x a b, (a == b)%Q -> nearest F x a -> nearest F x b.
  Proof.
    intros x a b E [H1 H2]. split; [apply (representable_comp F a); assumption|].
    intros u Hu. rewrite <- E. apply H2. exact Hu.
  Qed.

  Lemma some_below : forall x q, sollya_round F x = Some q ->
    (Qabs x < overflow_threshold F)%Q.
  Proof.
    intros x q H. destruct (Qlt_le_dec (Qabs x) (overflow_threshold F)) as [|C]; [assumption|].
    apply overflow_iff in C. congruence.
  Qed.

  Lemma threshold_pos : (0 < overflow_threshold F)%Q.
  Proof.
    rewrite threshold_eq. pose proof (p2_pos (emax F - f)).
    pose proof (pf_ge F Hok). pose proof (pf1 F Hok).
    assert (2 <= inject_Z (2 ^ (f + 1)))%Q
      by (change 2%Q with (inject_Z 2); apply inj_le; lia).
    nra.
  Qed.

  (** ** Correctly rounded results *)

  Lemma cr_failure_iff : forall r ex, in_format F ex ->
    cr_failure r ex = false <-> datum_eq r ex.
  Proof.
    intros r ex Hf. unfold cr_failure, c_ne.
    destruct ex as [|t|t|q]; destruct r as [|s|s|p];
      try (cbn; intuition (congruence || discriminate || contradiction));
      try (destruct s; destruct t; cbn; intuition congruence);
      try (destruct s); try (destruct t);
      unfold c_eq; cbn [ieee_cmp same_zero_word datum_eq in_format] in *;
      rewrite ?(proj1 (Qeq_alt q q) (Qeq_refl q));
      cbn [negb andb orb];
      try (destruct (Qcompare_spec 0 q); destruct (Qcompare_spec q 0);
           try (exfalso; apply (proj2 Hf); lra); cbn; intuition (congruence || contradiction)).
    all: try (destruct (Qcompare_spec p q); destruct (Qcompare_spec q 0);
              try (exfalso; apply (proj2 Hf); lra); cbn;
              intuition (try congruence; try lra)).
    all: try (destruct (Qcompare_spec p 0); cbn; intuition congruence).
    all: try (rewrite (proj1 (Qeq_alt p p) (Qeq_refl p))); cbn; intuition congruence.
  Qed.

  Lemma zero_sign_ok : forall x, ~ (x < 0)%Q -> below_zero x = false.
  Proof.
    intros x H. unfold below_zero. apply negb_false_iff, Qle_bool_iff. lra.
  Qed.

  (** the expected value stored in the table *)
  Lemma cr_stored : forall x,
    exists d, all_cst F (check_values F CorrectlyRounded (Num x)) = Some [d]
      /\ in_format F d
      /\ match sollya_round F x with
         | Some q => finite d /\ (val d == q)%Q /\ (forall s, d = DZero s -> s = false)
         | None => d = DInf (below_zero x)
         end.
  Proof.
    intros x. cbn [check_values all_cst]. unfold round_obj.
    destruct (sollya_round F x) as [q|] eqn:R.
    - destruct (c_cst_repr F Hok Hs q) as (d & E1 & E2 & E3 & E4 & E5).
      { exact (proj1 (round_nearest F Hok Hs x q R)). }
      rewrite E1. exists d. repeat split; assumption.
    - apply overflow_iff in R. pose proof threshold_pos as T.
      unfold below_zero.
      destruct (Qle_bool x 0) eqn:S.
      + apply Qle_bool_iff in S. exists (DInf true). cbn.
        repeat split. rewrite Qabs_neg in R by assumption.
        destruct (Qle_bool 0 x) eqn:S'; [|reflexivity].
        apply Qle_bool_iff in S'. lra.
      + exists (DInf false). cbn. repeat split.
        assert (S' : (0 < x)%Q).
        { destruct (Qlt_le_dec 0 x) as [|C]; [assumption|].
          apply Qle_bool_iff in C. congruence. }
        assert (S'' : Qle_bool 0 x = true) by (apply Qle_bool_iff; lra).
        rewrite S''. reflexivity.
  Qed.

  Lemma ieee_unique : forall x d1 d2,
    in_format F d1 -> in_format F d2 ->
    ieee_rounded F x d1 -> ieee_rounded F x d2 -> datum_eq d1 d2.
  Proof.
    intros x d1 d2 F1 F2 H1 H2. pose proof threshold_pos as TP.
    destruct d1 as [|s|s|p]; destruct d2 as [|t|t|q]; cbn in *; try contradiction;
      repeat match goal with H : _ /\ _ |- _ => destruct H end; subst; try reflexivity;
      try (exfalso; lra).
    - assert (E : (0 == q)%Q) by (eapply nearest_even_unique; eassumption).
      exfalso. match goal with H : ~ (q == 0)%Q |- _ => apply H; lra end.
    - assert (E : (p == 0)%Q) by (eapply nearest_even_unique; eassumption).
      exfalso. auto.
    - eapply nearest_even_unique; eassumption.
  Qed.

  Theorem correctly_rounded_partial : forall x r,
    in_format F r ->
    ~ ((x < 0)%Q /\ nearest F x 0) ->
    accepts F CorrectlyRounded (Num x) r = Some true <-> ieee_rounded F x r.
  Proof.
    intros x r Hr Hz. unfold accepts.
    destruct (cr_stored x) as (d & -> & Hd & HM). cbn [failure_test].
    assert (ID : ieee_rounded F x d).
    { destruct (sollya_round F x) as [q|] eqn:R.
      - destruct HM as (Fd & Vd & Sd).
        pose proof (nearest_comp x q (val d) ltac:(symmetry; exact Vd)
                      (round_nearest F Hok Hs x q R)) as N.
        pose proof (ties_comp x q (val d) ltac:(symmetry; exact Vd) (round_ties x q R)) as T.
        pose proof (some_below x q R) as B.
        destruct d as [|s|s|p]; try contradiction; cbn in *; repeat split; try apply N; try assumption.
        rewrite (Sd s eq_refl). symmetry. apply zero_sign_ok. intros X. apply Hz.
        split; assumption.
      - subst d. cbn. split; [|reflexivity]. apply overflow_iff. exact R. }
    pose proof (cr_failure_iff r d Hd) as IFF.
    split.
    - intros A. assert (C : cr_failure r d = false)
        by (destruct (cr_failure r d); [discriminate | reflexivity]).
      apply IFF in C. revert ID. destruct r as [|s|s|p], d as [|t|t|q]; cbn in *;
        try contradiction; subst; try (intros; assumption).
      intros (N & B & T). repeat split; try assumption.
      + apply (nearest_comp x q p); [symmetry|]; assumption.
      + apply (nearest_comp x q p); [symmetry|]; assumption.
      + apply (ties_comp x q p); [symmetry|]; assumption.
    - intros A. pose proof (ieee_unique x r d Hr Hd A ID) as E.
      apply IFF in E. rewrite E. reflexivity.
  Qed.

  (** a negative value which rounds to zero: -0 is the right result, +0 is
      the accepted one *)
  Theorem negative_underflow_refuted : forall x,
    (x < 0)%Q -> nearest F x 0 -> (Qabs x < overflow_threshold F)%Q ->
    ieee_rounded F x (DZero true)
    /\ accepts F CorrectlyRounded (Num x) (DZero true) = Some false
    /\ ~ ieee_rounded F x (DZero false)
    /\ accepts F CorrectlyRounded (Num x) (DZero false) = Some true.
  Proof.
    intros x Hx Hn HT.
    assert (BZ : below_zero x = true).
    { unfold below_zero. apply negb_true_iff. destruct (Qle_bool 0 x) eqn:E; [|reflexivity].
      apply Qle_bool_iff in E. lra. }
    assert (T0 : ties_even F x 0) by (intros u _ _ _; exact even_zero).
    unfold accepts. destruct (cr_stored x) as (d & -> & Hd & HM). cbn [failure_test].
    destruct (sollya_round F x) as [q|] eqn:R;
      [|apply overflow_iff in R; exfalso; lra].
    destruct HM as (Fd & Vd & Sd).
    assert (Q0 : (q == 0)%Q).
    { apply (nearest_even_unique x); try assumption.
      - exact (round_nearest F Hok Hs x q R).
      - exact (round_ties x q R). }
    destruct d as [|s|s|p]; try contradiction; cbn [val in_format] in *.
    - rewrite (Sd s eq_refl). cbn [ieee_rounded]. rewrite BZ.
      split; [repeat split; try assumption; apply Hn|].
      split; [reflexivity|]. split; [intros (_ & _ & _ & C); discriminate C | reflexivity].
    - exfalso. apply (proj2 Hd). rewrite Vd. exact Q0.
  Qed.

  Theorem special_correctly_rounded : forall v r,
    special v -> accepts F CorrectlyRounded v r = Some true <-> datum_eq r (datum_of v).
  Proof.
    intros v r Hv. unfold accepts.
    assert (E : all_cst F (check_values F CorrectlyRounded v) = Some [datum_of v])
      by (destruct v; try contradiction; reflexivity).
    rewrite E. cbn [failure_test].
    assert (Hd : in_format F (datum_of v)) by (destruct v; try contradiction; exact I).
    pose proof (cr_failure_iff r _ Hd) as IFF. rewrite <- IFF.
    destruct (cr_failure r (datum_of v)); cbn; split; congruence.
  Qed.

  (** ** Bounds *)

  (** order between a result and a bound *)
  Definition ge_bound (r lo : datum) : Prop :=
    match r, lo with
    | DNaN, _ | _, DNaN => False
    | DInf false, _ | _, DInf true => True
    | DInf true, _ | _, DInf false => False
    | _, _ => (val lo <= val r)%Q
    end.

  Lemma c_ge_bound : forall r lo, c_ge r lo = true <-> ge_bound r lo.
  Proof.
    intros [|[|]|s|p] [|[|]|t|q]; unfold c_ge; cbn [ge_bound val ieee_cmp Bool.eqb];
      try (intuition congruence);
      try (destruct (Qcompare_spec 0 q)); try (destruct (Qcompare_spec p 0));
      try (destruct (Qcompare_spec p q)); split; intros; try discriminate; try reflexivity; try lra.
  Qed.

  Lemma c_le_bound : forall r hi, c_le r hi = true <-> ge_bound hi r.
  Proof.
    intros [|[|]|s|p] [|[|]|t|q]; unfold c_le; cbn [ge_bound val ieee_cmp Bool.eqb];
      try (intuition congruence);
      try (destruct (Qcompare_spec 0 q)); try (destruct (Qcompare_spec p 0));
      try (destruct (Qcompare_spec p q)); split; intros; try discriminate; try reflexivity; try lra.
  Qed.

  Lemma accepts_bounds : forall a v r lo hi,
    a <> CorrectlyRounded ->
    all_cst F (check_values F a v) = Some [lo; hi] -> lo <> DNaN -> hi <> DNaN ->
    accepts F a v r = Some true <-> (ge_bound r lo /\ ge_bound hi r).
  Proof.
    intros a v r lo hi Ha E Hl Hh. unfold accepts. rewrite E.
    assert (FT : failure_test a r [lo; hi] = Some (bounds_failure r lo hi))
      by (destruct a; congruence || reflexivity).
    rewrite FT, bounds_plain by assumption. rewrite negb_involutive.
    rewrite <- c_ge_bound, <- c_le_bound.
    destruct (c_ge r lo), (c_le r hi); cbn; split; intuition congruence.
  Qed.

  (** ** Faithful results *)

  Theorem faithful_accepts : forall x r,
    in_format F r ->
    accepts F Faithful (Num x) r = Some true <-> is_faithful F x r.
  Proof.
    intros x r Hr.
    pose proof (round_down_spec F Hok Hs x) as D.
    pose proof (round_up_spec F Hok Hs x) as U.
    pose proof (omega_repr F Hok) as OR.
    pose proof (representable_opp F _ OR) as ON.
    pose proof (omega_pos F Hok) as OP.
    assert (LO : exists lo, c_cst F (round_obj F RD x) = Some lo
      /\ ((lo = DInf true /\ forall u, representable F u -> (x < u)%Q)
          \/ (finite lo /\ representable F (val lo) /\ (val lo <= x)%Q
              /\ forall u, representable F u -> (u <= x)%Q -> (u <= val lo)%Q))).
    { destruct (round_obj F RD x) as [q| | | | | |]; try contradiction.
      - destruct D as (D1 & D2 & D3).
        destruct (c_cst_repr F Hok Hs q D1) as (d & E1 & E2 & E3 & E4 & _).
        exists d. split; [exact E1|]. right. split; [exact E2|].
        split; [apply (representable_comp F q); [symmetry|]; assumption|].
        split; [rewrite E3; exact D2|]. intros u Ru Xu. rewrite E3. auto.
      - exists (DInf true). split; [reflexivity|]. left. auto. }
    assert (HI : exists hi, c_cst F (round_obj F RU x) = Some hi
      /\ ((hi = DInf false /\ forall u, representable F u -> (u < x)%Q)
          \/ (finite hi /\ representable F (val hi) /\ (x <= val hi)%Q
              /\ forall u, representable F u -> (x <= u)%Q -> (val hi <= u)%Q))).
    { destruct (round_obj F RU x) as [q| | | | | |]; try contradiction.
      - destruct U as (D1 & D2 & D3).
        destruct (c_cst_repr F Hok Hs q D1) as (d & E1 & E2 & E3 & E4 & _).
        exists d. split; [exact E1|]. right. split; [exact E2|].
        split; [apply (representable_comp F q); [symmetry|]; assumption|].
        split; [rewrite E3; exact D2|]. intros u Ru Xu. rewrite E3. auto.
      - exists (DInf false). split; [reflexivity|]. left. auto. }
    destruct LO as (lo & EL & CL). destruct HI as (hi & EH & CH).
    rewrite (accepts_bounds Faithful (Num x) r lo hi); [|discriminate| | |].
    2:{ cbn [check_values all_cst]. rewrite EL, EH. reflexivity. }
    2:{ destruct CL as [[-> _]|[C _]]; [discriminate | apply finite_not_nan; exact C]. }
    2:{ destruct CH as [[-> _]|[C _]]; [discriminate | apply finite_not_nan; exact C]. }
    assert (RV : finite r -> representable F (val r)).
    { destruct r; cbn in *; try contradiction; intros _;
        [apply representable_0; assumption | apply Hr]. }
    assert (FIN : finite r ->
      (is_faithful F x r = forall u, representable F u ->
           ~ (x <= u < val r)%Q /\ ~ (val r < u <= x)%Q) ->
      ge_bound r lo /\ ge_bound hi r <-> is_faithful F x r).
    { intros Fr ->. specialize (RV Fr).
      assert (GL : ge_bound r lo <-> (lo = DInf true \/ (finite lo /\ (val lo <= val r)%Q))).
      { destruct lo as [|[|]|?|?]; destruct r as [|[|]|?|?]; cbn in *;
          try contradiction; intuition congruence. }
      assert (GH : ge_bound hi r <-> (hi = DInf false \/ (finite hi /\ (val r <= val hi)%Q))).
      { destruct hi as [|[|]|?|?]; destruct r as [|[|]|?|?]; cbn in *;
          try contradiction; intuition congruence. }
      rewrite GL, GH. clear GL GH. split.
      - intros [HL HH] u Ru. split; intros [U1 U2].
        + destruct CH as [[-> CH]|(C1 & C2 & C3 & C4)].
          * pose proof (CH u Ru). lra.
          * pose proof (C4 u Ru U1). destruct HH as [-> |[_ HH]]; [contradiction | lra].
        + destruct CL as [[-> CL]|(C1 & C2 & C3 & C4)].
          * pose proof (CL u Ru). lra.
          * pose proof (C4 u Ru U2). destruct HL as [-> |[_ HL]]; [contradiction | lra].
      - intros H. split.
        + destruct CL as [[-> CL]|(C1 & C2 & C3 & C4)]; [auto|]. right. split; [exact C1|].
          destruct (Qlt_le_dec (val r) (val lo)) as [C|C]; [|exact C].
          exfalso. apply (proj2 (H (val lo) C2)). split; assumption.
        + destruct CH as [[-> CH]|(C1 & C2 & C3 & C4)]; [auto|]. right. split; [exact C1|].
          destruct (Qlt_le_dec (val hi) (val r)) as [C|C]; [|exact C].
          exfalso. apply (proj1 (H (val hi) C2)). split; assumption. }
    destruct r as [|[|]|s|p].
    - cbn. tauto.
    - (* -inf *) cbn [ge_bound is_faithful].
      destruct CL as [[-> CL]|(C1 & C2 & C3 & C4)].
      + split; [intros _; exact CL|]. intros _. split; [exact I|].
        destruct hi as [|[|]|?|?]; cbn; auto.
        destruct CH as [[C _]|[C _]]; [discriminate | contradiction].
      + split.
        * destruct lo as [|[|]|?|?]; cbn in *; try contradiction; tauto.
        * intros H. pose proof (H (val lo) C2). lra.
    - (* +inf *) cbn [ge_bound is_faithful].
      destruct CH as [[-> CH]|(C1 & C2 & C3 & C4)].
      + split; [intros _; exact CH|]. intros _. split; [|exact I].
        destruct lo as [|[|]|?|?]; cbn; auto.
        destruct CL as [[C _]|[C _]]; [discriminate | contradiction].
      + split.
        * destruct hi as [|[|]|?|?]; cbn in *; try contradiction; tauto.
        * intros H. pose proof (H (val hi) C2). lra.
    - apply FIN; [exact I | reflexivity].
    - apply FIN; [exact I | reflexivity].
  Qed.

End Fmt.
