(** Units in the last place, neighbours, search of a threshold. *)

Require Import ZArith QArith Qabs Qround List Bool Lia Lqa Qfield.
From Verif Require Import QUtil FpFormatModel FpFormatSpec FpFormatProofs
  FpFormatProofs2 FpFormatProps SpecialModel SpecialSpec CheckModel CheckSpec
  CheckProofs.
Open Scope Z_scope.

Lemma Qeq_bool_comp : forall a b c d, (a == c)%Q -> (b == d)%Q ->
  Qeq_bool a b = Qeq_bool c d.
Proof.
  intros a b c d H1 H2. destruct (Qeq_bool c d) eqn:E.
  - apply Qeq_bool_iff in E. apply Qeq_bool_iff. rewrite H1, H2. exact E.
  - apply Qeq_bool_neq in E. destruct (Qeq_bool a b) eqn:E'; [|reflexivity].
    apply Qeq_bool_iff in E'. exfalso. apply E. rewrite <- H1, <- H2. exact E'.
Qed.

Lemma not_le_bool : forall v, (0 < v)%Q -> Qle_bool v 0 = false.
Proof.
  intros v H. destruct (Qle_bool v 0) eqn:E; [|reflexivity].
  apply Qle_bool_iff in E. lra.
Qed.

Section Fmt.
  Variable F : fpfmt.
  Hypothesis Hok : fmt_ok F.
  Hypothesis Hs : sollya_ok F.
  Local Notation e := (esz F).
  Local Notation f := (fsz F).

  (** exponent of the unit in the last place *)
  Lemma ulp_power : forall v k, (v == p2 k)%Q -> ulp F v = p2 (k - f - 1).
  Proof.
    intros v k E. pose proof (p2_pos k) as P. unfold ulp, ceil_log2.
    assert (A : (Qabs v == p2 k)%Q) by (rewrite E; apply Qabs_pos; lra).
    assert (L : qlog2 (Qabs v) = k).
    { apply qlog2_unique; rewrite A; [lra | apply p2_lt; lia]. }
    rewrite L. rewrite (Qeq_eq_bool _ _ A). f_equal. lia.
  Qed.

  Lemma ulp_between : forall v k, (p2 k < v)%Q -> (v < p2 (k + 1))%Q ->
    ulp F v = p2 (k - f).
  Proof.
    intros v k H1 H2. pose proof (p2_pos k) as P. unfold ulp, ceil_log2.
    assert (A : (Qabs v == v)%Q) by (apply Qabs_pos; lra).
    assert (L : qlog2 (Qabs v) = k).
    { apply qlog2_unique; rewrite A; lra. }
    rewrite L. destruct (Qeq_bool (Qabs v) (p2 k)) eqn:B.
    - apply Qeq_bool_iff in B. lra.
    - f_equal. lia.
  Qed.

  Lemma canonical_binade : forall v N ee, canonical F v N ee -> 2 ^ f < N ->
    (p2 (f + ee) < v)%Q /\ (v < p2 (f + ee + 1))%Q.
  Proof.
    intros v N ee (E & B & _ & _) H. pose proof (f_pos F Hok). pose proof (p2_pos ee) as P.
    rewrite E. replace (f + ee + 1) with (f + 1 + ee) by lia.
    rewrite !p2_plus, (p2_Z f) by lia. rewrite (p2_Z 1) by lia.
    setoid_replace (inject_Z (2 ^ f) * inject_Z (2 ^ 1) * p2 ee)%Q
      with (inject_Z (2 ^ (f + 1)) * p2 ee)%Q
      by (rewrite Z.pow_add_r, inject_Z_mult by lia; reflexivity).
    split; apply Qmult_lt_r; try assumption; apply inj_lt; lia.
  Qed.

  Lemma canonical_succ : forall v N ee, canonical F v N ee ->
    (N + 1 < 2 ^ (f + 1) \/ ee < emax F - f) ->
    2 ^ f <= N \/ ee = emin_subnormal F ->
    successor F v (v + p2 ee).
  Proof.
    intros v N ee C Hn _. pose proof C as (E & B & X & _). pose proof (p2_pos ee) as P.
    pose proof (f_pos F Hok). pose proof (pf1 F Hok) as PF1. pose proof (pf_ge F Hok).
    pose proof (canonical_pos F _ _ _ C) as V.
    assert (EX : rnd_exp F v = ee).
    { unfold rnd_exp.
      assert (A : qlog2 (Qabs v) = qlog2 v).
      { assert (Av : (Qabs v == v)%Q) by (apply Qabs_pos; lra).
        destruct (qlog2_spec v V) as [L1 L2]. apply qlog2_unique; rewrite Av; assumption. }
      rewrite A. exact (canonical_exp F Hok _ _ _ C). }
    split; [|split].
    - destruct (Z.eq_dec (N + 1) (2 ^ (f + 1))) as [EN|NE].
      + exists (2 ^ f), (ee + 1).
        rewrite <- (emin_sub_eq F), <- (emax_f_eq F Hok).
        split; [lia|]. split; [lia|]. rewrite E, p2_succ.
        replace N with (2 ^ (f + 1) + - (1)) by lia.
        rewrite inject_Z_plus, PF1, inject_Z_mult. change (inject_Z (- (1))) with (- (1))%Q.
        change (inject_Z 2) with 2%Q. ring.
      + exists (N + 1), ee. rewrite <- (emin_sub_eq F), <- (emax_f_eq F Hok).
        split; [lia|]. split; [lia|]. rewrite E, inject_Z_plus.
        change (inject_Z 1) with 1%Q. ring.
    - lra.
    - intros u Ru Hu.
      destruct (repr_grid F Hok v u ltac:(lra) Ru) as [[k Hk]|[H1 H2]].
      + rewrite EX in Hk. rewrite Hk, E in Hu. rewrite Hk, E.
        rewrite Qmult_lt_r in Hu by assumption. rewrite <- Zlt_Qlt in Hu.
        setoid_replace (inject_Z N * p2 ee + p2 ee)%Q with (inject_Z (N + 1) * p2 ee)%Q
          by (rewrite inject_Z_plus; change (inject_Z 1) with 1%Q; ring).
        apply Qmult_le_compat_r; [apply inj_le; lia | lra].
      + exfalso. rewrite (Qabs_pos v) in H2 by lra. pose proof (Qle_Qabs u). lra.
  Qed.

  Lemma successor_comp : forall v w w', (w == w')%Q -> successor F v w -> successor F v w'.
  Proof.
    intros v w w' E (A & B & C). split; [apply (representable_comp F w); assumption|].
    split; [rewrite <- E; exact B|]. intros u Hu Hv. rewrite <- E. apply C; assumption.
  Qed.

  (** a normal number which is not a power of two: its neighbours *)
  Theorem fp_next_partial : forall v N ee,
    canonical F v N ee -> 2 ^ f < N ->
    (N + 1 < 2 ^ (f + 1) \/ ee < emax F - f) ->
    exists w, fp_next F v = Some w /\ successor F v w.
  Proof.
    intros v N ee C HN HO. pose proof (canonical_binade v N ee C HN) as [B1 B2].
    pose proof (canonical_pos F _ _ _ C) as V.
    assert (U : ulp F v = p2 ee).
    { rewrite (ulp_between v (f + ee) B1 B2). f_equal. lia. }
    assert (S : successor F v (v + p2 ee)).
    { eapply canonical_succ; [exact C | exact HO | left; lia]. }
    unfold fp_next. rewrite (not_le_bool v V), U.
    destruct (round_id F Hok Hs _ (proj1 S)) as (w & -> & E).
    exists w. split; [reflexivity|]. apply (successor_comp v (v + p2 ee)); [symmetry; exact E | exact S].
  Qed.

  Theorem fp_previous_partial : forall v N ee,
    canonical F v N ee -> 2 ^ f < N \/ (N = 2 ^ f /\ emin_subnormal F < ee) ->
    exists w, fp_previous F v = Some w /\ successor F w v.
  Proof.
    intros v N ee C HN. pose proof (canonical_pos F _ _ _ C) as V.
    pose proof C as (E & B & X & _).
    pose proof (f_pos F Hok) as Pf. pose proof (pf1 F Hok) as PF1. pose proof (pf_ge F Hok) as PFg.
    assert (G : exists N' ee', canonical F (v - p2 ee') N' ee' /\ ulp F v = p2 ee'
      /\ (N' + 1 < 2 ^ (f + 1) \/ ee' < emax F - f)
      /\ (2 ^ f <= N' \/ ee' = emin_subnormal F)).
    { destruct HN as [HN|[HN HE]].
      - pose proof (canonical_binade v N ee C HN) as [B1 B2].
        exists (N - 1), ee. split; [|split; [|split]].
        + split; [|split; [lia|split; [exact X | left; lia]]].
          rewrite E. unfold Zminus. rewrite inject_Z_plus.
          change (inject_Z (- (1))) with (- (1))%Q. ring.
        + rewrite (ulp_between v (f + ee) B1 B2). f_equal. lia.
        + left. lia.
        + left. lia.
      - exists (2 ^ (f + 1) - 1), (ee - 1). split; [|split; [|split]].
        + split; [|split; [lia|split; [lia | left; lia]]].
          rewrite E, HN. replace ee with (ee - 1 + 1) at 1 by lia. rewrite p2_succ.
          unfold Zminus at 3. rewrite inject_Z_plus, PF1, inject_Z_mult.
          change (inject_Z (- (1))) with (- (1))%Q. change (inject_Z 2) with 2%Q. ring.
        + rewrite (ulp_power v (f + ee)).
          * f_equal. lia.
          * rewrite E, HN. rewrite p2_plus, (p2_Z f) by lia. reflexivity.
        + right. lia.
        + left. lia. }
    destruct G as (N' & ee' & C' & U & HO & HM).
    pose proof (canonical_succ _ _ _ C' HO HM) as S.
    unfold fp_previous. rewrite (not_le_bool v V), U.
    destruct (round_id F Hok Hs (v - p2 ee')) as (w & -> & Ew).
    { exact (canonical_representable F Hok _ _ _ C'). }
    exists w. split; [reflexivity|].
    destruct S as (S1 & S2 & S3). split; [apply (representable_comp F (v - p2 ee' + p2 ee')); [ring | exact S1]|].
    split; [rewrite Ew; lra|].
    intros u Ru Hu. rewrite Ew in Hu. pose proof (S3 u Ru Hu) as S4. lra.
  Qed.

  (** a normal power of two is returned as its own successor *)
  Theorem fp_next_power_refuted : forall v k,
    (v == p2 k)%Q -> emin_normal F <= k <= emax F ->
    exists w, fp_next F v = Some w /\ (w == v)%Q.
  Proof.
    intros v k E Hk. pose proof (p2_pos k) as P. pose proof (f_pos F Hok) as Pf.
    unfold fp_next. rewrite not_le_bool by lra. rewrite (ulp_power v k E).
    pose proof (p2_pos (k - f - 1)) as Pu.
    assert (UK : (p2 (k - f - 1) < p2 k)%Q) by (apply p2_lt; lia).
    rewrite (sollya_round_unfold F Hs) by lra. cbv zeta.
    assert (EX : rnd_exp F (v + p2 (k - f - 1)) = k - f).
    { unfold rnd_exp.
      assert (L : qlog2 (Qabs (v + p2 (k - f - 1))) = k).
      { apply qlog2_unique; rewrite Qabs_pos by lra; [lra|]. rewrite p2_succ. lra. }
      rewrite L. lia. }
    rewrite EX.
    assert (W : qrne ((v + p2 (k - f - 1)) / p2 (k - f)) = 2 ^ f).
    { assert (T : ((v + p2 (k - f - 1)) / p2 (k - f) - inject_Z (2 ^ f) == 1 # 2)%Q).
      { rewrite E. rewrite <- (p2_Z f) by lia. pose proof (p2_pos (k - f)).
        setoid_replace (p2 k) with (p2 f * p2 (k - f))%Q
          by (rewrite <- p2_plus; replace (f + (k - f)) with k by lia; reflexivity).
        setoid_replace (p2 (k - f)) with (2 * p2 (k - f - 1))%Q
          by (rewrite <- p2_succ; replace (k - f - 1 + 1) with (k - f) by lia; reflexivity).
        field. lra. }
      rewrite (qrne_tie _ _ T).
      replace (Z.even (2 ^ f)) with true; [reflexivity|].
      symmetry. apply Z.even_spec. exists (2 ^ (f - 1)). rewrite <- Z.pow_succ_r by lia.
      f_equal. lia. }
    rewrite W.
    assert (R : (inject_Z (2 ^ f) * p2 (k - f) == p2 k)%Q).
    { rewrite <- (p2_Z f) by lia. rewrite <- p2_plus. replace (f + (k - f)) with k by lia.
      reflexivity. }
    destruct (Qle_bool _ _) eqn:B.
    - exfalso. apply Qle_bool_iff in B. rewrite R, Qabs_pos in B by lra.
      pose proof (p2_lt k (emax F + 1) ltac:(lia)). lra.
    - eexists. split; [reflexivity|]. rewrite R, E. reflexivity.
  Qed.

  (** so is a small subnormal number *)
  Theorem fp_next_subnormal_refuted : forall v N,
    (v == inject_Z N * p2 (emin_subnormal F))%Q -> 1 <= N <= 2 ^ (f - 1) ->
    exists w, fp_next F v = Some w /\ (w == v)%Q.
  Proof.
    intros v N E HN. set (q := emin_subnormal F) in *. pose proof (p2_pos q) as P.
    pose proof (f_pos F Hok) as Pf. pose proof (pe1_ge F Hok) as PE.
    assert (HF : 2 ^ f = 2 * 2 ^ (f - 1)).
    { rewrite <- Z.pow_succ_r by lia. f_equal. lia. }
    assert (IN : (1 <= inject_Z N <= inject_Z (2 ^ (f - 1)))%Q).
    { change 1%Q with (inject_Z 1). split; apply inj_le; lia. }
    assert (V : (0 < v)%Q) by (rewrite E; nra).
    assert (VU : (v <= p2 (f - 1 + q))%Q).
    { rewrite E, p2_plus, (p2_Z (f - 1)) by lia. apply Qmult_le_compat_r; lra. }
    assert (U : (0 < ulp F v <= (1 # 4) * p2 q)%Q).
    { unfold ulp. split; [apply p2_pos|].
      assert (Av : (Qabs v == v)%Q) by (apply Qabs_pos; lra).
      assert (CL : ceil_log2 (Qabs v) <= f - 1 + q).
      { unfold ceil_log2. destruct (qlog2_spec (Qabs v)) as [L1 L2]; [rewrite Av; exact V|].
        set (L := qlog2 (Qabs v)) in *. clearbody L. rewrite Av in L1, L2.
        destruct (Qeq_bool (Qabs v) (p2 (L))) eqn:B.
        - assert (p2 (L) < p2 (f - 1 + q + 1))%Q.
          { pose proof (p2_lt (f - 1 + q) (f - 1 + q + 1) ltac:(lia)). lra. }
          assert (L < f - 1 + q + 1) by (apply p2_lt_inv; assumption). lia.
        - apply Qeq_bool_neq in B. rewrite Av in B.
          assert (p2 (L) < p2 (f - 1 + q))%Q.
          { destruct (Qlt_le_dec (p2 (L)) v) as [|C]; [lra|].
            exfalso. apply B. lra. }
          assert (L < f - 1 + q) by (apply p2_lt_inv; assumption). lia. }
      apply Qle_trans with (p2 (q - 2)); [apply p2_le; lia|].
      replace q with (q - 2 + 2) at 2 by lia. rewrite (p2_plus (q - 2) 2).
      change (p2 2) with 4%Q. lra. }
    unfold fp_next. rewrite not_le_bool by assumption. set (u := ulp F v) in *. clearbody u.
    assert (NZ : ~ (v + u == 0)%Q) by lra.
    rewrite (sollya_round_unfold F Hs) by assumption. cbv zeta.
    assert (AV : (Qabs (v + u) == v + u)%Q) by (apply Qabs_pos; lra).
    assert (BD : (v + u < p2 (f + q))%Q).
    { apply Qlt_le_trans with (p2 (f - 1 + q) + p2 q)%Q; [lra|].
      rewrite !p2_plus, (p2_Z f), (p2_Z (f - 1)) by lia. rewrite HF, inject_Z_mult.
      change (inject_Z 2) with 2%Q.
      assert (1 <= inject_Z (2 ^ (f - 1)))%Q.
      { change 1%Q with (inject_Z 1). apply inj_le. pose proof (pow2_pos (f - 1) ltac:(lia)). lia. }
      nra. }
    assert (EX : rnd_exp F (v + u) = q).
    { unfold rnd_exp. destruct (qlog2_spec (Qabs (v + u))) as [L1 _]; [rewrite AV; lra|].
      set (L := qlog2 (Qabs (v + u))) in *. clearbody L. rewrite AV in L1.
      assert (L < f + q) by (apply p2_lt_inv; lra).
      unfold q, emin_subnormal, emin_normal in *. lia. }
    rewrite EX.
    assert (W : qrne ((v + u) / p2 q) = N).
    { pose proof (qrne_half ((v + u) / p2 q)) as QH. apply Qabs_Qle_condition in QH.
      assert (D : (0 <= (v + u) / p2 q - inject_Z N <= 1 # 4)%Q).
      { setoid_replace ((v + u) / p2 q - inject_Z N)%Q with (u / p2 q)%Q
          by (rewrite E; field; lra).
        split; [apply Qle_shift_div_l; lra | apply Qle_shift_div_r; lra]. }
      set (n := qrne ((v + u) / p2 q)) in *. clearbody n.
      assert (B1 : (inject_Z (N - 1) < inject_Z n)%Q).
      { unfold Zminus. rewrite inject_Z_plus. change (inject_Z (- (1))) with (- (1))%Q. lra. }
      assert (B2 : (inject_Z n < inject_Z (N + 1))%Q).
      { rewrite inject_Z_plus. change (inject_Z 1) with 1%Q. lra. }
      rewrite <- Zlt_Qlt in B1, B2. lia. }
    rewrite W.
    destruct (Qle_bool _ _) eqn:B.
    - exfalso. apply Qle_bool_iff in B. rewrite <- E, Qabs_pos in B by lra.
      assert (p2 (f - 1 + q) < p2 (emax F + 1))%Q.
      { apply p2_lt. rewrite (emax_eq F Hok). unfold q, emin_subnormal, bias. lia. }
      lra.
    - eexists. split; [reflexivity|]. rewrite E. reflexivity.
  Qed.

  (** ** Errors in ulps *)

  (** an error of [k] units in the last place of a normal number is reported
      as something between [k] and [2 k] units *)
  Theorem rel_error_to_ulp_partial : forall v k err,
    (0 < v)%Q -> (0 <= k)%Q ->
    (Qabs err * v == k * p2 (qlog2 v - f))%Q ->
    (k <= rel_error_to_ulp F err <= 2 * k)%Q.
  Proof.
    intros v k err V K H. unfold rel_error_to_ulp.
    rewrite (ulp_power 1 0) by reflexivity.
    destruct (qlog2_spec v V) as [L1 L2]. set (L := qlog2 v) in *.
    pose proof (p2_pos L) as PL. pose proof (p2_pos (- f - 1)) as PU.
    replace (0 - f - 1) with (- f - 1) by lia.
    assert (EP : (p2 (L - f) == 2 * p2 L * p2 (- f - 1))%Q).
    { replace (L - f) with (L + (- f - 1) + 1) by lia. rewrite p2_succ, p2_plus. ring. }
    rewrite p2_succ in L2. rewrite EP in H.
    assert (A : (Qabs err == k * (2 * p2 L * p2 (- f - 1)) / v)%Q).
    { rewrite <- H. field. lra. }
    rewrite A.
    setoid_replace (k * (2 * p2 L * p2 (- f - 1)) / v / p2 (- f - 1))%Q
      with (k * (2 * p2 L) / v)%Q by (field; split; lra).
    split; [apply Qle_shift_div_l; [exact V|nra] | apply Qle_shift_div_r; [exact V|nra]].
  Qed.

  (** around a power of two the report is twice the error: the distance from
      1 to its successor counts as two units *)
  Theorem rel_error_to_ulp_refuted : forall v m k err,
    (v == p2 m)%Q -> (0 <= k)%Q ->
    (Qabs err * v == k * p2 (m - f))%Q ->
    (rel_error_to_ulp F err == 2 * k)%Q.
  Proof.
    intros v m k err E K H. unfold rel_error_to_ulp.
    rewrite (ulp_power 1 0) by reflexivity.
    pose proof (p2_pos m) as PL. pose proof (p2_pos (- f - 1)) as PU.
    replace (0 - f - 1) with (- f - 1) by lia.
    assert (EP : (p2 (m - f) == 2 * p2 m * p2 (- f - 1))%Q).
    { replace (m - f) with (m + (- f - 1) + 1) by lia. rewrite p2_succ, p2_plus. ring. }
    rewrite EP, E in H.
    assert (A : (Qabs err == k * 2 * p2 (- f - 1))%Q).
    { apply (Qmult_inj_r _ _ (p2 m)); [lra|]. rewrite H. ring. }
    rewrite A. field. lra.
  Qed.

  (** ** Search of a threshold *)

  Definition respects_eq (ge : Q -> bool) : Prop :=
    forall a b, (a == b)%Q -> ge a = ge b.

  (** the returned point is the one just below: its image does not reach the
      limit, the image of its computed successor does *)
  Theorem search_threshold_result : forall fuel ge l r y,
    respects_eq ge -> ge l = false -> ge r = true ->
    search_threshold fuel F ge l r = Some y ->
    ge y = false /\ exists w, fp_next F y = Some w /\ ge w = true.
  Proof.
    induction fuel as [|fuel IH]; intros ge l r y Hp Hl Hr H; cbn [search_threshold] in H;
      [discriminate|].
    destruct (Qeq_bool l r) eqn:E.
    { apply Qeq_bool_iff in E. rewrite (Hp _ _ E) in Hl. congruence. }
    destruct (fp_next F l) as [w|] eqn:Fn; [|discriminate].
    destruct (Qeq_bool w r) eqn:E2.
    - injection H as <-. split; [exact Hl|]. exists w. split; [exact Fn|].
      apply Qeq_bool_iff in E2. rewrite (Hp _ _ E2). exact Hr.
    - destruct (round_obj F RU ((l + r) / 2)) as [mid| | | | | |]; try discriminate.
      destruct (ge mid) eqn:G; eapply IH; eassumption.
  Qed.

  Lemma next_after_power : forall k u, emin_normal F <= k <= emax F ->
    representable F u -> (p2 k < u)%Q -> (p2 k + p2 (k - f) <= u)%Q.
  Proof.
    intros k u Hk Ru Hu. pose proof (p2_pos k) as P. pose proof (f_pos F Hok) as Pf.
    pose proof (pf1 F Hok) as PF1. pose proof (pf_ge F Hok).
    assert (C : canonical F (p2 k) (2 ^ f) (k - f)).
    { split; [rewrite <- (p2_Z f) by lia; rewrite <- p2_plus; replace (f + (k - f)) with k by lia;
              reflexivity|].
      split; [lia|]. split; [unfold emin_subnormal, emin_normal in *; lia | left; lia]. }
    assert (S : successor F (p2 k) (p2 k + p2 (k - f))).
    { eapply canonical_succ; [exact C | left; lia | left; lia]. }
    apply S; assumption.
  Qed.

  (** a threshold just above a power of two: the search never ends *)
  Theorem search_threshold_power_refuted : forall fuel ge k l r,
    respects_eq ge -> emin_normal F <= k <= emax F ->
    (l == p2 k)%Q -> (r == p2 k + p2 (k - f))%Q -> ge r = true ->
    search_threshold fuel F ge l r = None.
  Proof.
    induction fuel as [|fuel IH]; intros ge k l r Hp Hk El Er Hr; [reflexivity|].
    cbn [search_threshold]. pose proof (p2_pos k) as P. pose proof (p2_pos (k - f)) as Pu.
    pose proof (f_pos F Hok) as Pf. pose proof (pf1 F Hok) as PF1. pose proof (pf_ge F Hok).
    destruct (Qeq_bool l r) eqn:E; [apply Qeq_bool_iff in E; lra|].
    destruct (fp_next_power_refuted l k El Hk) as (w & -> & Ew).
    destruct (Qeq_bool w r) eqn:E2; [apply Qeq_bool_iff in E2; lra|].
    pose proof (round_up_spec F Hok Hs ((l + r) / 2)) as RUS.
    assert (Rr : representable F r).
    { exists (2 ^ f + 1), (k - f). rewrite <- (emin_sub_eq F), <- (emax_f_eq F Hok).
      split; [lia|]. split; [unfold emin_subnormal, emin_normal in *; lia|].
      rewrite Er, inject_Z_plus, <- (p2_Z f) by lia. change (inject_Z 1) with 1%Q.
      setoid_replace (p2 k) with (p2 f * p2 (k - f))%Q
        by (rewrite <- p2_plus; replace (f + (k - f)) with k by lia; reflexivity).
      ring. }
    assert (HM : ((l + r) / 2 == p2 k + (1 # 2) * p2 (k - f))%Q).
    { rewrite El, Er. field. }
    destruct (round_obj F RU ((l + r) / 2)) as [mid| | | | | |]; try reflexivity.
    destruct RUS as (R1 & R2 & R3). rewrite HM in R2.
    assert (ML : (mid <= r)%Q) by (apply R3; [exact Rr|]; rewrite HM, Er; lra).
    assert (MG : (p2 k + p2 (k - f) <= mid)%Q).
    { apply next_after_power; [exact Hk | exact R1 | lra]. }
    assert (EM : (mid == r)%Q) by lra.
    rewrite (Hp _ _ EM), Hr. apply IH with (k := k); try assumption; [lra|].
    rewrite (Hp _ _ EM). exact Hr.
  Qed.
End Fmt.
