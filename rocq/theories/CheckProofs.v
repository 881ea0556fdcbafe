(** Directed roundings, stored constants, comparisons. *)

Require Import ZArith QArith Qabs Qround List Bool Lia Lqa Qfield.
From Verif Require Import QUtil FpFormatModel FpFormatSpec FpFormatProofs
  FpFormatProofs2 FpFormatProps SpecialModel SpecialSpec CheckModel CheckSpec.
Import ListNotations.
Open Scope Z_scope.

Lemma Qfloor_le_iff : forall q k, (inject_Z k <= q)%Q <-> k <= Qfloor q.
Proof.
  intros q k. split; intros H.
  - rewrite <- (Qfloor_Z k). apply Qfloor_resp_le. exact H.
  - eapply Qle_trans; [|apply Qfloor_le]. rewrite <- Zle_Qle. exact H.
Qed.

Section Fmt.
  Variable F : fpfmt.
  Hypothesis Hok : fmt_ok F.
  Hypothesis Hs : sollya_ok F.
  Local Notation e := (esz F).
  Local Notation f := (fsz F).

  Lemma grid_unfold : forall k v, ~ (v == 0)%Q ->
    grid_round F k v
    = (inject_Z (k (v / p2 (rnd_exp F v))) * p2 (rnd_exp F v))%Q.
  Proof.
    intros k v H. unfold grid_round.
    destruct (Qeq_bool v 0) eqn:X; [apply Qeq_bool_eq in X; contradiction|].
    unfold rnd_exp. rewrite Hs. replace (f + 1 - 1) with f by lia. reflexivity.
  Qed.

  (** a number of the format is a multiple of the quantum of [v], or [v] is
      in a larger binade *)
  Lemma repr_grid : forall v u, ~ (v == 0)%Q -> representable F u ->
    (exists k, (u == inject_Z k * p2 (rnd_exp F v))%Q)
    \/ ((Qabs u < p2 (f + rnd_exp F v))%Q
        /\ (p2 (f + rnd_exp F v) <= Qabs v)%Q).
  Proof.
    intros v u Hv (m & w & Hm & Hw & Hu). rewrite <- emin_sub_eq in Hw.
    pose proof (f_pos F Hok). set (x := rnd_exp F v).
    destruct (Z.le_gt_cases x w).
    - left. exists (m * 2 ^ (w - x)).
      rewrite Hu, inject_Z_mult, <- (p2_Z (w - x)) by lia.
      rewrite <- Qmult_assoc, <- p2_plus. replace (w - x + x) with w by lia.
      reflexivity.
    - right.
      assert (HL : qlog2 (Qabs v) = f + x).
      { unfold x, rnd_exp in *. unfold emin_subnormal, emin_normal in *. lia. }
      destruct (qlog2_spec (Qabs v) (Qabs_nz v Hv)) as [L1 L2].
      rewrite HL in L1. split; [|exact L1].
      rewrite Hu, Qabs_Qmult. rewrite (Qabs_pos (p2 w)) by (apply Qlt_le_weak, p2_pos).
      change (Qabs (inject_Z m)) with (inject_Z (Z.abs m)).
      apply Qlt_le_trans with (p2 (f + 1 + w)); [|apply p2_le; lia].
      rewrite p2_plus, (p2_Z (f + 1)) by lia.
      apply Qmult_lt_r; [apply p2_pos|apply inj_lt; lia].
  Qed.

  Lemma floor_below : forall v, (grid_round F Qfloor v <= v)%Q.
  Proof.
    intros v. destruct (Qeq_dec v 0) as [E|E].
    - unfold grid_round. rewrite (Qeq_eq_bool _ _ E). lra.
    - rewrite grid_unfold by assumption. pose proof (p2_pos (rnd_exp F v)) as P.
      pose proof (Qfloor_le (v / p2 (rnd_exp F v))) as H.
      apply (Qmult_le_compat_r _ _ (p2 (rnd_exp F v))) in H; [|lra].
      setoid_replace (v / p2 (rnd_exp F v) * p2 (rnd_exp F v))%Q with v in H
        by (field; lra). exact H.
  Qed.

  Lemma floor_largest : forall v u, representable F u -> (u <= v)%Q ->
    (u <= grid_round F Qfloor v)%Q.
  Proof.
    intros v u Hu Huv. destruct (Qeq_dec v 0) as [E|E].
    - unfold grid_round. rewrite (Qeq_eq_bool _ _ E). lra.
    - rewrite grid_unfold by assumption.
      pose proof (p2_pos (rnd_exp F v)) as P. pose proof (f_pos F Hok) as Pf.
      set (x := rnd_exp F v) in *.
      destruct (repr_grid v u E Hu) as [[k Hk]|[H1 H2]].
      + fold x in Hk. rewrite Hk. apply Qmult_le_compat_r; [|lra].
        rewrite <- Zle_Qle. apply Qfloor_le_iff.
        apply Qle_shift_div_l; [assumption|]. rewrite <- Hk. exact Huv.
      + fold x in H1, H2. destruct (Qlt_le_dec 0 v) as [V|V].
        * rewrite (Qabs_pos v) in H2 by lra.
          apply Qle_trans with (p2 (f + x)).
          { apply Qlt_le_weak. eapply Qle_lt_trans; [apply Qle_Qabs | exact H1]. }
          rewrite p2_plus, (p2_Z f) in * by lia.
          apply Qmult_le_compat_r; [|lra]. rewrite <- Zle_Qle.
          apply Qfloor_le_iff. apply Qle_shift_div_l; assumption.
        * exfalso. rewrite (Qabs_neg v) in H2 by lra.
          rewrite (Qabs_neg u) in H1 by lra. lra.
  Qed.

  Lemma grid_sign : forall v, (0 <= v)%Q -> (0 <= grid_round F Qfloor v)%Q.
  Proof. intros v H. apply floor_largest; [apply representable_0; assumption | exact H]. Qed.

  Lemma ceil_floor : forall v,
    (grid_round F Qceiling v == - grid_round F Qfloor (- v))%Q.
  Proof.
    intros v. destruct (Qeq_dec v 0) as [E|E].
    - unfold grid_round. rewrite (Qeq_eq_bool _ _ E).
      assert (E' : (- v == 0)%Q) by lra. rewrite (Qeq_eq_bool _ _ E'). reflexivity.
    - assert (E' : ~ (- v == 0)%Q) by lra.
      rewrite !grid_unfold by assumption.
      assert (X : rnd_exp F (- v) = rnd_exp F v).
      { unfold rnd_exp. f_equal. f_equal.
        assert (A : (Qabs (- v) == Qabs v)%Q) by apply Qabs_opp.
        destruct (qlog2_spec (Qabs v) (Qabs_nz v E)) as [L1 L2].
        apply qlog2_unique; rewrite A; assumption. }
      rewrite X. unfold Qceiling. rewrite inject_Z_opp.
      assert (Y : Qfloor (- (v / p2 (rnd_exp F v))) = Qfloor (- v / p2 (rnd_exp F v))).
      { assert (A : (- (v / p2 (rnd_exp F v)) == - v / p2 (rnd_exp F v))%Q)
          by (field; apply p2_nz).
        rewrite A. reflexivity. }
      rewrite Y. ring.
  Qed.

  (** a point of the grid below the overflow threshold is a number *)
  Lemma grid_repr : forall v N, ~ (v == 0)%Q ->
    Z.abs N <= 2 ^ (f + 1) ->
    (N = 0 \/ rnd_exp F v <= emax F - f \/ 2 ^ f <= Z.abs N) ->
    (Qabs (inject_Z N * p2 (rnd_exp F v)) < p2 (emax F + 1))%Q ->
    representable F (inject_Z N * p2 (rnd_exp F v))%Q.
  Proof.
    intros v N E0 NB Hc B'. set (x := rnd_exp F v) in *.
    pose proof (rnd_exp_ge F v) as XG. fold x in XG.
    pose proof (f_pos F Hok). pose proof (pf_ge F Hok). pose proof (p2_pos x) as Px.
    rewrite Qabs_Qmult in B'. rewrite (Qabs_pos (p2 x)) in B' by lra.
    change (Qabs (inject_Z N)) with (inject_Z (Z.abs N)) in B'.
    destruct (Z.eq_dec (Z.abs N) (2 ^ (f + 1))) as [EN|EN].
    - assert (Hx : x + (f + 1) < emax F + 1).
      { apply p2_lt_inv. rewrite p2_plus, (p2_Z (f + 1)) by lia.
        rewrite <- EN. rewrite Qmult_comm. exact B'. }
      exists (Z.sgn N * 2 ^ f), (x + 1).
      rewrite <- emin_sub_eq, <- (emax_f_eq F Hok). rewrite (pf1 F Hok) in *.
      split; [nia|]. split; [lia|].
      rewrite p2_succ. rewrite inject_Z_mult.
      assert (EN2 : N = Z.sgn N * (2 * 2 ^ f))
        by (rewrite <- EN; rewrite Z.mul_comm; rewrite Z.abs_sgn; lia).
      rewrite EN2 at 1. rewrite !inject_Z_mult. ring.
    - destruct Hc as [N0|Hc].
      { rewrite N0. apply (representable_comp F 0); [ring|].
        apply representable_0; assumption. }
      assert (Hx : x <= emax F - f).
      { destruct Hc as [Hc|Hc]; [exact Hc|].
        destruct (Z.le_gt_cases x (emax F - f)) as [|G]; [assumption|]. exfalso.
        assert (HH : (p2 (emax F + 1) <= p2 (f + x))%Q) by (apply p2_le; lia).
        rewrite (p2_plus f x), (p2_Z f) in HH by lia.
        assert (inject_Z (2 ^ f) * p2 x <= inject_Z (Z.abs N) * p2 x)%Q
          by (apply Qmult_le_compat_r; [apply inj_le; lia|lra]).
        lra. }
      exists N, x. rewrite <- emin_sub_eq, <- (emax_f_eq F Hok). repeat split; try lia.
  Qed.

  Lemma omega_max : forall u, representable F u -> (Qabs u <= get_omega F)%Q.
  Proof.
    intros u (m & w & Hm & Hw & Hu).
    rewrite (omega_eq F Hok), Hu, Qabs_Qmult.
    rewrite (Qabs_pos (p2 w)) by (apply Qlt_le_weak, p2_pos).
    change (Qabs (inject_Z m)) with (inject_Z (Z.abs m)).
    rewrite <- (emax_f_eq F Hok) in Hw.
    apply scaled_le; lia.
  Qed.

  Lemma omega_repr : representable F (get_omega F).
  Proof. exact (canonical_representable F Hok _ _ _ (omega_canonical F Hok)). Qed.

  Lemma omega_below : (get_omega F < p2 (emax F + 1))%Q.
  Proof. exact (omega_lt F Hok _ _ _ (omega_canonical F Hok)). Qed.

  Lemma omega_pos : (0 < get_omega F)%Q.
  Proof. exact (canonical_pos F _ _ _ (omega_canonical F Hok)). Qed.

  Lemma floor_repr : forall v,
    (Qabs (grid_round F Qfloor v) < p2 (emax F + 1))%Q ->
    representable F (grid_round F Qfloor v).
  Proof.
    intros v B. destruct (Qeq_dec v 0) as [E|E].
    - unfold grid_round. rewrite (Qeq_eq_bool _ _ E). apply representable_0; assumption.
    - rewrite grid_unfold in * by assumption.
      pose proof (p2_pos (rnd_exp F v)) as P. pose proof (f_pos F Hok) as Pf.
      pose proof (rnd_bound F v E) as RB.
      set (x := rnd_exp F v) in *. set (N := Qfloor (v / p2 x)) in *.
      rewrite p2_plus, (p2_Z (f + 1)) in RB by lia.
      apply Qabs_Qlt_condition in RB as [R1 R2].
      assert (NB : - 2 ^ (f + 1) <= N < 2 ^ (f + 1)).
      { split.
        - apply Qfloor_le_iff. apply Qle_shift_div_l; [assumption|].
          rewrite inject_Z_opp. lra.
        - rewrite Zlt_Qlt. eapply Qle_lt_trans; [apply Qfloor_le|].
          apply Qlt_shift_div_r; [assumption|]. lra. }
      apply grid_repr; try assumption; [lia|]. fold x.
      destruct (Z.le_gt_cases x (emax F - f)) as [L|L]; [auto|]. right; right.
      assert (HL : qlog2 (Qabs v) = f + x).
      { pose proof (emax_eq F Hok). pose proof (pe1_ge F Hok).
        assert (EN : emin_normal F = 2 - 2 ^ (e - 1)) by (unfold emin_normal, bias; lia).
        unfold x, rnd_exp in *. lia. }
      destruct (qlog2_spec (Qabs v) (Qabs_nz v E)) as [L1 _].
      rewrite HL, p2_plus, (p2_Z f) in L1 by lia.
      destruct (Qlt_le_dec 0 v) as [V|V].
      + rewrite Qabs_pos in L1 by lra.
        assert (2 ^ f <= N); [|lia]. apply Qfloor_le_iff.
        apply Qle_shift_div_l; assumption.
      + rewrite Qabs_neg in L1 by lra.
        assert (N <= - 2 ^ f); [|lia]. rewrite Zle_Qle.
        eapply Qle_trans; [apply Qfloor_le|]. apply Qle_shift_div_r; [assumption|].
        rewrite inject_Z_opp. lra.
  Qed.

  (** ** Directed roundings *)

  Lemma round_down_spec : forall v,
    match round_obj F RD v with
    | Num q => representable F q /\ (q <= v)%Q
               /\ forall u, representable F u -> (u <= v)%Q -> (u <= q)%Q
    | MInf => forall u, representable F u -> (v < u)%Q
    | _ => False
    end.
  Proof.
    intros v. unfold round_obj. cbv zeta.
    pose proof (floor_below v) as Fb. pose proof (floor_largest v) as Fl.
    pose proof (floor_repr v) as Fr.
    set (r := grid_round F Qfloor v) in *. clearbody r.
    pose proof omega_below as OB. pose proof omega_pos as OP.
    destruct (Qle_bool (p2 (emax F + 1)) (Qabs r)) eqn:B.
    - apply Qle_bool_iff in B. destruct (Qle_bool r 0) eqn:S.
      + apply Qle_bool_iff in S. rewrite Qabs_neg in B by assumption.
        intros u Hu. destruct (Qlt_le_dec v u) as [|C]; [assumption|]. exfalso.
        pose proof (Fl u Hu C). pose proof (omega_max u Hu) as OM.
        apply Qabs_Qle_condition in OM. lra.
      + assert (S' : (0 < r)%Q).
        { destruct (Qlt_le_dec 0 r) as [|C]; [assumption|].
          apply Qle_bool_iff in C. congruence. }
        rewrite Qabs_pos in B by lra.
        split; [exact omega_repr|]. split; [lra|].
        intros u Hu _. pose proof (omega_max u Hu) as OM.
        apply Qabs_Qle_condition in OM. lra.
    - split; [|split; assumption]. apply Fr.
      destruct (Qlt_le_dec (Qabs r) (p2 (emax F + 1))) as [|C]; [assumption|].
      apply Qle_bool_iff in C. congruence.
  Qed.

  Lemma round_up_spec : forall v,
    match round_obj F RU v with
    | Num q => representable F q /\ (v <= q)%Q
               /\ forall u, representable F u -> (v <= u)%Q -> (q <= u)%Q
    | PInf => forall u, representable F u -> (u < v)%Q
    | _ => False
    end.
  Proof.
    intros v. unfold round_obj. cbv zeta.
    pose proof (ceil_floor v) as CF.
    pose proof (floor_below (- v)) as Fb. pose proof (floor_largest (- v)) as Fl.
    pose proof (floor_repr (- v)) as Fr.
    set (r := grid_round F Qceiling v) in *.
    set (s := grid_round F Qfloor (- v)) in *. clearbody r s.
    pose proof omega_below as OB. pose proof omega_pos as OP.
    assert (AB : (Qabs r == Qabs s)%Q) by (rewrite CF; apply Qabs_opp).
    assert (Fl' : forall u, representable F u -> (v <= u)%Q -> (r <= u)%Q).
    { intros u Hu Huv. pose proof (Fl (- u)%Q (representable_opp F _ Hu)). lra. }
    destruct (Qle_bool (p2 (emax F + 1)) (Qabs r)) eqn:B.
    - apply Qle_bool_iff in B. destruct (Qle_bool r 0) eqn:S.
      + apply Qle_bool_iff in S. rewrite Qabs_neg in B by assumption.
        split; [apply representable_opp; exact omega_repr|]. split; [lra|].
        intros u Hu _. pose proof (omega_max u Hu) as OM.
        apply Qabs_Qle_condition in OM. lra.
      + assert (S' : (0 < r)%Q).
        { destruct (Qlt_le_dec 0 r) as [|C]; [assumption|].
          apply Qle_bool_iff in C. congruence. }
        rewrite Qabs_pos in B by lra.
        intros u Hu. destruct (Qlt_le_dec u v) as [|C]; [assumption|]. exfalso.
        pose proof (Fl' u Hu C). pose proof (omega_max u Hu) as OM.
        apply Qabs_Qle_condition in OM. lra.
    - split.
      + apply (representable_comp F (- s)); [lra|]. apply representable_opp. apply Fr.
        rewrite <- AB.
        destruct (Qlt_le_dec (Qabs r) (p2 (emax F + 1))) as [|C]; [assumption|].
        apply Qle_bool_iff in C. congruence.
      + split; [lra | exact Fl'].
  Qed.

  (** ** Constants *)

  Lemma c_cst_repr : forall q, representable F q ->
    exists d, c_cst F (Num q) = Some d /\ finite d /\ (val d == q)%Q
      /\ in_format F d
      /\ (forall s, d = DZero s -> s = false).
  Proof.
    intros q Hq. unfold c_cst.
    destruct (Qeq_bool q 0) eqn:E.
    - apply Qeq_bool_iff in E. exists (DZero false). cbn. rewrite E.
      repeat split; try reflexivity; auto. intros s H. congruence.
    - apply Qeq_bool_neq in E.
      destruct (round_id F Hok Hs q Hq) as (r & -> & Er).
      destruct (Qeq_bool r 0) eqn:E'.
      { apply Qeq_bool_iff in E'. exfalso. apply E. rewrite <- Er. exact E'. }
      apply Qeq_bool_neq in E'.
      exists (DFin r). cbn. repeat split; auto.
      + apply (representable_comp F q); [symmetry; exact Er | exact Hq].
      + intros s H. discriminate H.
  Qed.

  (** a constant in the range of the format: the nearest number *)
  Lemma c_cst_near : forall q, (Qabs q <= get_omega F)%Q ->
    exists d, c_cst F (Num q) = Some d /\ finite d /\ nearest F q (val d).
  Proof.
    intros q Hq. unfold c_cst.
    destruct (Qeq_bool q 0) eqn:E.
    - apply Qeq_bool_iff in E. exists (DZero false). split; [reflexivity|].
      split; [exact I|]. cbn [val]. split; [apply representable_0; assumption|].
      intros u _. rewrite E. change (Qabs (0 - 0)) with 0%Q. apply Qabs_nonneg.
    - destruct (round_below_omega F Hok Hs q Hq) as (r & Er). rewrite Er.
      pose proof (round_nearest F Hok Hs q r Er) as N.
      destruct (Qeq_bool r 0) eqn:E'.
      + apply Qeq_bool_iff in E'. exists (DZero false). split; [reflexivity|].
        split; [exact I|]. cbn [val]. destruct N as [N1 N2].
        split; [apply (representable_comp F r); assumption|].
        intros u Hu. rewrite <- E'. apply N2. exact Hu.
      + exists (DFin r). repeat split; try exact I; apply N.
  Qed.
End Fmt.

(** ** Comparisons *)

Lemma cmp_finite : forall a b, finite a -> finite b ->
  ieee_cmp a b = Some (Qcompare (val a) (val b)).
Proof. intros [|s|s|p] [|t|t|q] Ha Hb; try contradiction; reflexivity. Qed.

Lemma c_le_finite : forall a b, finite a -> finite b ->
  c_le a b = true <-> (val a <= val b)%Q.
Proof.
  intros a b Ha Hb. unfold c_le. rewrite cmp_finite by assumption.
  destruct (Qcompare_spec (val a) (val b)); split; intros H';
    try reflexivity; try discriminate; lra.
Qed.

Lemma c_ge_finite : forall a b, finite a -> finite b ->
  c_ge a b = true <-> (val b <= val a)%Q.
Proof.
  intros a b Ha Hb. unfold c_ge. rewrite cmp_finite by assumption.
  destruct (Qcompare_spec (val a) (val b)); split; intros H';
    try reflexivity; try discriminate; lra.
Qed.

Lemma c_eq_refl : forall d, d <> DNaN -> c_eq d d = true.
Proof.
  intros [|s|s|q] H; try congruence; unfold c_eq; cbn [ieee_cmp].
  - rewrite Bool.eqb_reflx. reflexivity.
  - reflexivity.
  - rewrite (proj1 (Qeq_alt q q)); reflexivity.
Qed.

Lemma finite_not_nan : forall d, finite d -> d <> DNaN.
Proof. intros d H E. subst d. exact H. Qed.

(** no NaN among the bounds: the interval test *)
Lemma bounds_plain : forall r lo hi, lo <> DNaN -> hi <> DNaN ->
  bounds_failure r lo hi = negb (c_ge r lo && c_le r hi).
Proof.
  intros r lo hi Hl Hh. unfold bounds_failure, c_ne.
  rewrite !c_eq_refl by assumption. cbn [negb orb andb].
  rewrite orb_false_r. reflexivity.
Qed.
