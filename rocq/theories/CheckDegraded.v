(** Results accepted under a degraded accuracy; special values; units in the
    last place. *)

Require Import ZArith QArith Qabs Qround List Bool Lia Lqa Qfield.
From Verif Require Import QUtil FpFormatModel FpFormatSpec FpFormatProofs
  FpFormatProofs2 FpFormatProps SpecialModel SpecialSpec CheckModel CheckSpec
  CheckProofs CheckAccept.
Import ListNotations.
Open Scope Z_scope.

Definition degraded (a : accuracy) : Prop :=
  match a with DegradedAbsolute _ | DegradedRelative _ => True | _ => False end.

Lemma goal_nonneg : forall a c, (0 <= error_goal a c)%Q.
Proof. intros [| |g|g] c; cbn [error_goal]; try apply Qabs_nonneg; lra. Qed.

Section Fmt.
  Variable F : fpfmt.
  Hypothesis Hok : fmt_ok F.
  Hypothesis Hs : sollya_ok F.
  Local Notation e := (esz F).
  Local Notation f := (fsz F).

  Lemma bound_stored : forall v, exists d,
    c_cst F (fp_saturate F v) = Some d
    /\ (((get_omega F < v)%Q /\ d = DInf false)
        \/ ((v < - get_omega F)%Q /\ d = DInf true)
        \/ ((Qabs v <= get_omega F)%Q /\ finite d /\ nearest F v (val d))).
  Proof.
    intros v. unfold fp_saturate. pose proof (omega_pos F Hok) as OP.
    destruct (Qle_bool (Qabs v) (get_omega F)) eqn:B; cbn [negb].
    - apply Qle_bool_iff in B.
      destruct (c_cst_near F Hok Hs v B) as (d & E1 & E2 & E3).
      exists d. split; [exact E1|]. right; right. auto.
    - assert (B' : (get_omega F < Qabs v)%Q).
      { destruct (Qlt_le_dec (get_omega F) (Qabs v)) as [|C]; [assumption|].
        apply Qle_bool_iff in C. congruence. }
      destruct (Qle_bool v 0) eqn:S; cbn [negb].
      + apply Qle_bool_iff in S. exists (DInf true). split; [reflexivity|].
        right; left. rewrite Qabs_neg in B' by assumption. split; [lra | reflexivity].
      + assert (S' : (0 < v)%Q).
        { destruct (Qlt_le_dec 0 v) as [|C]; [assumption|].
          apply Qle_bool_iff in C. congruence. }
        exists (DInf false). split; [reflexivity|]. left.
        rewrite Qabs_pos in B' by lra. auto.
  Qed.

  Lemma degraded_stored : forall a x c, degraded a -> sollya_round F x = Some c ->
    exists lo hi,
      all_cst F (check_values F a (Num x)) = Some [lo; hi]
      /\ (((c - error_goal a c < - get_omega F)%Q /\ lo = DInf true)
          \/ (finite lo /\ nearest F (c - error_goal a c) (val lo)))
      /\ (((get_omega F < c + error_goal a c)%Q /\ hi = DInf false)
          \/ (finite hi /\ nearest F (c + error_goal a c) (val hi))).
  Proof.
    intros a x c Ha R.
    destruct (bound_stored (c - error_goal a c)) as (lo & EL & CL).
    destruct (bound_stored (c + error_goal a c)) as (hi & EH & CH).
    pose proof (goal_nonneg a c) as G.
    pose proof (round_nearest F Hok Hs x c R) as [Rc _].
    pose proof (omega_max F Hok c Rc) as OM. apply Qabs_Qle_condition in OM.
    exists lo, hi. split; [|split].
    - assert (CV : check_values F a (Num x)
        = [fp_saturate F (c - error_goal a c); fp_saturate F (c + error_goal a c)]).
      { destruct a; try contradiction; cbn [check_values]; unfold degraded_bounds, round_obj;
          rewrite R; reflexivity. }
      rewrite CV. cbn [all_cst]. rewrite EL, EH. reflexivity.
    - destruct CL as [[C _]|[C|(_ & C)]]; [exfalso; lra | left; exact C | right; exact C].
    - destruct CH as [C|[[C _]|(_ & C)]]; [left; exact C | exfalso; lra | right; exact C].
  Qed.

  Lemma degraded_accepts : forall a x c r, degraded a -> sollya_round F x = Some c ->
    exists lo hi,
      (accepts F a (Num x) r = Some true <-> ge_bound r lo /\ ge_bound hi r)
      /\ (((c - error_goal a c < - get_omega F)%Q /\ lo = DInf true)
          \/ (finite lo /\ nearest F (c - error_goal a c) (val lo)))
      /\ (((get_omega F < c + error_goal a c)%Q /\ hi = DInf false)
          \/ (finite hi /\ nearest F (c + error_goal a c) (val hi))).
  Proof.
    intros a x c r Ha R. destruct (degraded_stored a x c Ha R) as (lo & hi & E & CL & CH).
    exists lo, hi. split; [|split; assumption].
    apply accepts_bounds; [intros ->; contradiction|exact E| |].
    - destruct CL as [[_ ->]|[C _]]; [discriminate | apply finite_not_nan; exact C].
    - destruct CH as [[_ ->]|[C _]]; [discriminate | apply finite_not_nan; exact C].
  Qed.

  Lemma finite_repr : forall r, in_format F r -> finite r -> representable F (val r).
  Proof.
    intros [|s|s|q] H Hf; try contradiction; cbn;
      [apply representable_0; assumption | apply H].
  Qed.

  Lemma ge_bound_finite : forall r lo, finite r -> finite lo ->
    ge_bound r lo <-> (val lo <= val r)%Q.
  Proof. intros [|[|]|?|?] [|[|]|?|?] H H'; try contradiction; cbn [ge_bound]; tauto. Qed.

  (** every result within the goal of the correctly rounded value passes *)
  Theorem degraded_complete : forall a x c r,
    degraded a -> sollya_round F x = Some c ->
    in_format F r -> finite r ->
    (Qabs (val r - c) <= error_goal a c)%Q ->
    accepts F a (Num x) r = Some true.
  Proof.
    intros a x c r Ha R Hr Fr B.
    destruct (degraded_accepts a x c r Ha R) as (lo & hi & IFF & CL & CH).
    pose proof (finite_repr r Hr Fr) as Rr. apply IFF.
    apply Qabs_Qle_condition in B as [B1 B2]. split.
    - destruct CL as [[_ ->]|[Fl [_ Nl]]].
      + destruct r; try contradiction; exact I.
      + apply ge_bound_finite; try assumption. pose proof (Nl _ Rr) as H.
        destruct (Qlt_le_dec (val r) (val lo)) as [C|C]; [exfalso|exact C].
        revert H. apply (Qabs_case (c - error_goal a c - val lo));
          apply (Qabs_case (c - error_goal a c - val r)); intros; lra.
    - destruct CH as [[_ ->]|[Fl [_ Nl]]].
      + destruct r; try contradiction; exact I.
      + apply ge_bound_finite; try assumption. pose proof (Nl _ Rr) as H.
        destruct (Qlt_le_dec (val hi) (val r)) as [C|C]; [exfalso|exact C].
        revert H. apply (Qabs_case (c + error_goal a c - val hi));
          apply (Qabs_case (c + error_goal a c - val r)); intros; lra.
  Qed.

  (** a finite result which passes is within the goal of the correctly
      rounded value, or the number nearest to a bound *)
  Theorem degraded_sound_partial : forall a x c r,
    degraded a -> sollya_round F x = Some c ->
    in_format F r -> finite r ->
    accepts F a (Num x) r = Some true ->
    ((c - error_goal a c <= val r)%Q \/ nearest F (c - error_goal a c) (val r))
    /\ ((val r <= c + error_goal a c)%Q \/ nearest F (c + error_goal a c) (val r)).
  Proof.
    intros a x c r Ha R Hr Fr A.
    destruct (degraded_accepts a x c r Ha R) as (lo & hi & IFF & CL & CH).
    pose proof (finite_repr r Hr Fr) as Rr. destruct (proj1 IFF A) as [A1 A2].
    pose proof (omega_max F Hok _ Rr) as OM. apply Qabs_Qle_condition in OM. split.
    - destruct CL as [[C ->]|[Fl Nl]]; [left; lra|].
      rewrite (ge_bound_finite r lo Fr Fl) in A1.
      destruct (Qlt_le_dec (val r) (c - error_goal a c)) as [C|C]; [right|left; exact C].
      apply (nearest_comp F _ (val lo)); [|exact Nl].
      destruct Nl as [_ Nl]. pose proof (Nl _ Rr) as H. revert H.
      apply (Qabs_case (c - error_goal a c - val lo));
        apply (Qabs_case (c - error_goal a c - val r)); intros; lra.
    - destruct CH as [[C ->]|[Fl Nl]]; [left; lra|].
      rewrite (ge_bound_finite hi r Fl Fr) in A2.
      destruct (Qlt_le_dec (c + error_goal a c) (val r)) as [C|C]; [right|left; exact C].
      apply (nearest_comp F _ (val hi)); [|exact Nl].
      destruct Nl as [_ Nl]. pose proof (Nl _ Rr) as H. revert H.
      apply (Qabs_case (c + error_goal a c - val hi));
        apply (Qabs_case (c + error_goal a c - val r)); intros; lra.
  Qed.

  Theorem degraded_infinite : forall a x c,
    degraded a -> sollya_round F x = Some c ->
    (accepts F a (Num x) (DInf false) = Some true
     <-> (get_omega F < c + error_goal a c)%Q)
    /\ (accepts F a (Num x) (DInf true) = Some true
        <-> (c - error_goal a c < - get_omega F)%Q)
    /\ accepts F a (Num x) DNaN = Some false.
  Proof.
    intros a x c Ha R. destruct (degraded_stored a x c Ha R) as (lo & hi & E & CL & CH).
    pose proof (omega_repr F Hok) as OR. pose proof (omega_pos F Hok) as OP.
    pose proof (representable_opp F _ OR) as ON.
    assert (NL : lo <> DNaN).
    { destruct CL as [[_ ->]|[C _]]; [discriminate | apply finite_not_nan; exact C]. }
    assert (NH : hi <> DNaN).
    { destruct CH as [[_ ->]|[C _]]; [discriminate | apply finite_not_nan; exact C]. }
    assert (NC : a <> CorrectlyRounded) by (intros ->; contradiction).
    assert (SH : (get_omega F < c + error_goal a c)%Q -> hi = DInf false).
    { intros H. destruct CH as [[_ C]|[Fh [Rh Nh]]]; [exact C|].
      (* the saturation writes an infinity *)
      exfalso.
      destruct (bound_stored (c + error_goal a c)) as (d & Ed & Cd).
      assert (CV : check_values F a (Num x)
        = [fp_saturate F (c - error_goal a c); fp_saturate F (c + error_goal a c)]).
      { destruct a; try contradiction; cbn [check_values]; unfold degraded_bounds, round_obj;
          rewrite R; reflexivity. }
      rewrite CV in E. cbn [all_cst] in E. rewrite Ed in E.
      destruct (c_cst F (fp_saturate F (c - error_goal a c))); [|discriminate].
      injection E as _ <-.
      destruct Cd as [[_ ->]|[[C ->]|(C & _)]]; try contradiction.
      apply Qabs_Qle_condition in C. lra. }
    assert (SL : (c - error_goal a c < - get_omega F)%Q -> lo = DInf true).
    { intros H. destruct CL as [[_ C]|[Fh [Rh Nh]]]; [exact C|].
      exfalso.
      destruct (bound_stored (c - error_goal a c)) as (d & Ed & Cd).
      assert (CV : check_values F a (Num x)
        = [fp_saturate F (c - error_goal a c); fp_saturate F (c + error_goal a c)]).
      { destruct a; try contradiction; cbn [check_values]; unfold degraded_bounds, round_obj;
          rewrite R; reflexivity. }
      rewrite CV in E. cbn [all_cst] in E. rewrite Ed in E.
      destruct (c_cst F (fp_saturate F (c + error_goal a c))); [|discriminate].
      injection E as <- _.
      destruct Cd as [[_ ->]|[[C ->]|(C & _)]]; try contradiction.
      apply Qabs_Qle_condition in C. lra. }
    split; [|split].
    - rewrite (accepts_bounds F a (Num x) (DInf false) lo hi NC E NL NH). split.
      + intros [_ H]. destruct CH as [[C _]|[Fh _]]; [exact C|].
        destruct hi; try contradiction.
      + intros H. rewrite (SH H). split; [|exact I].
        destruct lo as [|[|]|?|?]; cbn; auto.
    - rewrite (accepts_bounds F a (Num x) (DInf true) lo hi NC E NL NH). split.
      + intros [H _]. destruct CL as [[C _]|[Fh _]]; [exact C|].
        destruct lo; try contradiction.
      + intros H. rewrite (SL H). split; [exact I|].
        destruct hi as [|[|]|?|?]; cbn; auto.
    - unfold accepts. rewrite E.
      assert (FT : failure_test a DNaN [lo; hi] = Some (bounds_failure DNaN lo hi))
        by (destruct a; congruence || reflexivity).
      rewrite FT, bounds_plain by assumption. reflexivity.
  Qed.

  (** an exact value which overflows: the infinity, whatever the goal *)
  Theorem degraded_overflow : forall a x r,
    degraded a -> (overflow_threshold F <= Qabs x)%Q ->
    accepts F a (Num x) r = Some true <-> r = DInf (below_zero x).
  Proof.
    intros a x r Ha T. apply (overflow_iff F Hok Hs) in T as R.
    destruct (cr_stored F Hok Hs x) as (d & E & _ & HM). rewrite R in HM.
    cbn [check_values all_cst] in E.
    destruct (c_cst F (round_obj F RN x)) as [d'|] eqn:C; [|discriminate].
    injection E as ->.
    rewrite (accepts_bounds F a (Num x) r d d).
    - subst d. destruct (below_zero x); destruct r as [|[|]|?|?]; cbn; intuition congruence.
    - intros ->; contradiction.
    - assert (CV : check_values F a (Num x) = [round_obj F RN x; round_obj F RN x]).
      { destruct a; try contradiction; cbn [check_values]; unfold degraded_bounds, round_obj;
          rewrite R; destruct (Qle_bool x 0); reflexivity. }
      rewrite CV. cbn [all_cst]. rewrite C. reflexivity.
    - subst d; discriminate.
    - subst d; discriminate.
  Qed.

  (** the goal is counted from the correctly rounded value: the latter
      passes even if farther than the goal from the exact value *)
  Theorem degraded_exceeds_goal_refuted : forall a x c,
    degraded a -> sollya_round F x = Some c -> ~ (c == 0)%Q ->
    (error_goal a c < Qabs (c - x))%Q ->
    accepts F a (Num x) (DFin c) = Some true
    /\ (error_goal a c < Qabs (val (DFin c) - x))%Q.
  Proof.
    intros a x c Ha R Nz H. split; [|exact H].
    apply (degraded_complete a x c); try assumption; try exact I.
    - split; [exact (proj1 (round_nearest F Hok Hs x c R)) | exact Nz].
    - cbn [val]. assert (E : (c - c == 0)%Q) by ring. rewrite E. apply goal_nonneg.
  Qed.

  (** and a result within the goal of the exact value may be rejected *)
  Theorem degraded_misses_goal_refuted : forall j,
    emin_subnormal F <= j <= - f - 3 ->
    let x := (- (1) + p2 j)%Q in
    (Qabs (val (DFin (p2 j)) - x) <= error_goal (DegradedAbsolute 1) (- (1)))%Q
    /\ in_format F (DFin (p2 j))
    /\ (exists c, sollya_round F x = Some c /\ (c == - (1))%Q)
    /\ accepts F (DegradedAbsolute 1) (Num x) (DFin (p2 j)) = Some false.
  Proof.
    intros j Hj x. pose proof (f_pos F Hok) as Pf. pose proof (p2_pos j) as Pj.
    pose proof (pe1_ge F Hok) as PE. pose proof (pf_ge F Hok) as PF.
    pose proof (pf1 F Hok) as PF1.
    assert (J4 : (p2 j <= (1 # 4) * p2 (- f - 1))%Q).
    { apply Qle_trans with (p2 (- f - 3)); [apply p2_le; lia|].
      replace (- f - 1) with (- f - 3 + 2) by lia. rewrite p2_plus.
      change (p2 2) with 4%Q. lra. }
    assert (F1 : (p2 (- f - 1) <= 1 # 4)%Q).
    { apply Qle_trans with (p2 (- (2))); [apply p2_le; lia|]. vm_compute. discriminate. }
    assert (Ax : (Qabs x == 1 - p2 j)%Q).
    { unfold x. rewrite Qabs_neg by lra. ring. }
    assert (Xnz : ~ (x == 0)%Q) by (unfold x; lra).
    assert (LX : qlog2 (Qabs x) = -1).
    { apply qlog2_unique; rewrite Ax; change (p2 (-1)) with (1 # 2)%Q;
        change (p2 (-1 + 1)) with 1%Q; lra. }
    assert (EX : rnd_exp F x = -1 - f).
    { unfold rnd_exp. rewrite LX. unfold emin_normal, emin_subnormal in *. lia. }
    assert (SR : exists c, sollya_round F x = Some c /\ (c == - (1))%Q).
    { rewrite (sollya_round_unfold F Hs) by assumption. cbv zeta. rewrite EX.
      assert (W : qrne (x / p2 (-1 - f)) = - 2 ^ (f + 1)).
      { pose proof (qrne_half (x / p2 (-1 - f))) as QH.
        set (w := (x / p2 (-1 - f))%Q) in *. set (n := qrne w) in *.
        assert (Ew : (w == - inject_Z (2 ^ (f + 1)) + p2 (j + f + 1))%Q).
        { unfold w, x. rewrite <- (p2_Z (f + 1)) by lia.
          setoid_replace (p2 j) with (p2 (j + f + 1) * p2 (-1 - f))%Q
            by (rewrite <- p2_plus; replace (j + f + 1 + (-1 - f)) with j by lia; reflexivity).
          pose proof (p2_opp (f + 1)) as O. replace (- (f + 1)) with (-1 - f) in O by lia.
          pose proof (p2_pos (-1 - f)) as P. pose proof (p2_pos (f + 1)) as P'.
          setoid_replace (- (1) + p2 (j + f + 1) * p2 (-1 - f))%Q
            with ((- p2 (f + 1) + p2 (j + f + 1)) * p2 (-1 - f))%Q
            by (rewrite <- O; ring).
          field. lra. }
        assert (Sm : (0 < p2 (j + f + 1) <= 1 # 4)%Q).
        { split; [apply p2_pos|]. change (1 # 4)%Q with (p2 (-2)). apply p2_le. lia. }
        apply Qabs_Qle_condition in QH. clearbody w n.
        assert (B1 : (inject_Z (- 2 ^ (f + 1) - 1) < inject_Z n)%Q).
        { unfold Zminus. rewrite inject_Z_plus, inject_Z_opp.
          change (inject_Z (- (1))) with (- (1))%Q. lra. }
        assert (B2 : (inject_Z n < inject_Z (- 2 ^ (f + 1) + 1))%Q).
        { rewrite inject_Z_plus, inject_Z_opp. change (inject_Z 1) with 1%Q. lra. }
        rewrite <- Zlt_Qlt in B1, B2. lia. }
      rewrite W.
      assert (V : (inject_Z (- 2 ^ (f + 1)) * p2 (-1 - f) == - (1))%Q).
      { rewrite inject_Z_opp, <- (p2_Z (f + 1)) by lia.
        pose proof (p2_opp (f + 1)) as O. replace (- (f + 1)) with (-1 - f) in O by lia.
        setoid_replace (- p2 (f + 1) * p2 (-1 - f))%Q with (- (p2 (-1 - f) * p2 (f + 1)))%Q by ring.
        rewrite O. reflexivity. }
      destruct (Qle_bool _ _) eqn:B.
      - exfalso. apply Qle_bool_iff in B. rewrite V in B.
        change (Qabs (- (1))) with 1%Q in B.
        assert (C : (1 < p2 (emax F + 1))%Q).
        { change 1%Q with (p2 0). apply p2_lt. rewrite (emax_eq F Hok). lia. }
        lra.
      - eexists. split; [reflexivity | exact V]. }
    assert (RJ : representable F (p2 j)).
    { exists 1, j. rewrite <- (emin_sub_eq F), <- (emax_f_eq F Hok).
      rewrite (emax_eq F Hok). cbn [Z.abs]. repeat split; try lia. ring. }
    assert (IF : in_format F (DFin (p2 j))) by (split; [exact RJ | lra]).
    split; [|split; [exact IF|split; [exact SR|]]].
    { cbn [val error_goal]. change (Qabs 1) with 1%Q.
      assert (Z : (p2 j - x == 1)%Q) by (unfold x; ring). rewrite Z. discriminate. }
    destruct SR as (c & Rc & Ec).
    assert (Hd : degraded (DegradedAbsolute 1)) by exact I.
    destruct (degraded_accepts _ x c (DFin (p2 j)) Hd Rc) as (lo & hi & IFF & CL & CH).
    assert (G : (c + error_goal (DegradedAbsolute 1) c == 0)%Q).
    { cbn [error_goal]. change (Qabs 1) with 1%Q. rewrite Ec. reflexivity. }
    assert (NA : accepts F (DegradedAbsolute 1) (Num x) (DFin (p2 j)) <> Some true).
    { intros A0. destruct (proj1 IFF A0) as [_ A].
      destruct CH as [[C _]|[Fh [Rh Nh]]].
      { pose proof (omega_pos F Hok). lra. }
      rewrite (ge_bound_finite hi (DFin (p2 j)) Fh I) in A.
      pose proof (Nh 0%Q (representable_0 F Hok)) as H.
      assert (Hh : (Qabs (0 - val hi) <= Qabs (0 - 0))%Q).
      { rewrite <- G at 1. eapply Qle_trans; [exact H|]. rewrite G. lra. }
      change (Qabs (0 - 0)) with 0%Q in Hh. cbn [val] in A.
      revert Hh. apply (Qabs_case (0 - val hi)); intros; lra. }
    destruct (degraded_stored _ x c Hd Rc) as (lo' & hi' & E & _).
    revert NA. unfold accepts. rewrite E. cbn [failure_test].
    destruct (bounds_failure _ _ _); cbn; congruence.
  Qed.

  (** special exact values: a zero result of either sign is accepted *)
  Theorem special_bounds : forall a v r,
    a <> CorrectlyRounded -> special v -> in_format F r ->
    accepts F a v r = Some true
    <-> (datum_eq r (datum_of v)
         \/ (exists s t, r = DZero s /\ datum_of v = DZero t)).
  Proof.
    intros a v r Ha Hv Hr. unfold accepts.
    assert (E : all_cst F (check_values F a v) = Some [datum_of v; datum_of v]).
    { destruct a; try congruence; destruct v; try contradiction; reflexivity. }
    rewrite E.
    assert (FT : failure_test a r [datum_of v; datum_of v]
                 = Some (bounds_failure r (datum_of v) (datum_of v)))
      by (destruct a; congruence || reflexivity).
    rewrite FT. clear E FT.
    destruct r as [|s|s|q].
    - destruct v; try contradiction; cbn; intuition (try congruence);
        match goal with H : exists _ _, _ |- _ => destruct H as (? & ? & ? & ?) end; congruence.
    - destruct s, v; try contradiction; cbn; intuition (try congruence);
        match goal with H : exists _ _, _ |- _ => destruct H as (? & ? & ? & ?) end; congruence.
    - destruct s, v; try contradiction; cbn; intuition (try congruence);
        try (right; eexists; eexists; split; reflexivity);
        match goal with H : exists _ _, _ |- _ => destruct H as (? & ? & ? & ?) end; congruence.
    - destruct Hr as [_ Nz].
      assert (L : bounds_failure (DFin q) (datum_of v) (datum_of v) = true).
      { destruct v; try contradiction; cbn [datum_of]; unfold bounds_failure, c_ge, c_le, c_ne, c_eq;
          cbn [ieee_cmp]; rewrite ?(proj1 (Qeq_alt q q) (Qeq_refl q)); try reflexivity;
          destruct (Qcompare_spec q 0); try contradiction; reflexivity. }
      rewrite L. cbn [negb]. split; [discriminate|].
      intros [H|(s & t & H & _)]; [|discriminate].
      destruct v; contradiction.
  Qed.

  Lemma accepts_is_decided : forall a x r, exists b, accepts F a (Num x) r = Some b.
  Proof.
    intros a x r.
    destruct (sollya_round F x) as [c|] eqn:R.
    - destruct a as [| |g|g].
      + destruct (cr_stored F Hok Hs x) as (d & E & _). unfold accepts. rewrite E. eexists; reflexivity.
      + pose proof (round_down_spec F Hok Hs x) as D.
        pose proof (round_up_spec F Hok Hs x) as U. unfold accepts. cbn [check_values all_cst].
        destruct (round_obj F RD x) as [q| | | | | |]; try contradiction;
        destruct (round_obj F RU x) as [q'| | | | | |]; try contradiction;
        try destruct (c_cst_repr F Hok Hs q (proj1 D)) as (d & -> & _);
        try destruct (c_cst_repr F Hok Hs q' (proj1 U)) as (d' & -> & _);
        cbn; eexists; reflexivity.
      + destruct (degraded_stored (DegradedAbsolute g) x c I R) as (lo & hi & E & _).
        unfold accepts. rewrite E. eexists; reflexivity.
      + destruct (degraded_stored (DegradedRelative g) x c I R) as (lo & hi & E & _).
        unfold accepts. rewrite E. eexists; reflexivity.
    - destruct a as [| |g|g].
      + destruct (cr_stored F Hok Hs x) as (d & E & _). unfold accepts. rewrite E. eexists; reflexivity.
      + pose proof (round_down_spec F Hok Hs x) as D.
        pose proof (round_up_spec F Hok Hs x) as U. unfold accepts. cbn [check_values all_cst].
        destruct (round_obj F RD x) as [q| | | | | |]; try contradiction;
        destruct (round_obj F RU x) as [q'| | | | | |]; try contradiction;
        try destruct (c_cst_repr F Hok Hs q (proj1 D)) as (d & -> & _);
        try destruct (c_cst_repr F Hok Hs q' (proj1 U)) as (d' & -> & _);
        cbn; eexists; reflexivity.
      + unfold accepts. cbn [check_values]. unfold degraded_bounds, round_obj. rewrite R.
        destruct (Qle_bool x 0); eexists; reflexivity.
      + unfold accepts. cbn [check_values]. unfold degraded_bounds, round_obj. rewrite R.
        destruct (Qle_bool x 0); eexists; reflexivity.
  Qed.
End Fmt.
