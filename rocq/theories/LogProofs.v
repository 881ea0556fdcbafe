(* Accuracy of the logarithm. *)
From Coq Require Import ZArith QArith Qabs Lia Bool List Reals Qreals Lra.
From Verif Require Import QUtil FpFormatModel RoundSpec RoundProofs RealUtil DivModel DivProofs DivScheme DivProps LimbModel LogModel LogSpec LogLimb LogReduce LogCore.
Open Scope R_scope.

Lemma ln_le : forall x y, 0 < x -> x <= y -> ln x <= ln y.
Proof. intros x y Hx [H| ->]; [left; apply ln_increasing; auto|lra]. Qed.
Lemma exp_le : forall x y, x <= y -> exp x <= exp y.
Proof. intros x y [H| ->]; [left; apply exp_increasing; auto|lra]. Qed.
Lemma ln_p2 : forall e, ln (Q2R (p2 e)) = IZR e * ln 2.
Proof. intros. rewrite p2_exp. apply ln_exp. Qed.

(* logarithms of significands *)
Lemma ln_upper : ln (182 / 128) <= 0.353.
Proof.
  rewrite <- (ln_exp 0.353). apply ln_le; [lra|]. 
  pose proof (exp_taylor 8 0.353) as H. rewrite (Rabs_pos_eq 0.353) in H by lra. specialize (H ltac:(lra)). rewrite expT_8 in H. apply Rabs_le_inv in H. lra.
Qed.
Lemma ln_lower : - (353 / 1000) <= ln (181 / 256).
Proof.
  rewrite <- (ln_exp (- (353 / 1000))). apply ln_le; [apply exp_pos|]. rewrite exp_Ropp. replace (353 / 1000) with 0.353 by lra.
  pose proof (exp_taylor 8 0.353) as H. rewrite (Rabs_pos_eq 0.353) in H by lra. specialize (H ltac:(lra)). rewrite expT_8 in H. apply Rabs_le_inv in H.
  assert (1.42 <= exp 0.353) by lra. assert (/ exp 0.353 <= / 1.42) by (apply Rinv_le_contravar; lra). lra.
Qed.

(* a number close to x is rounded close to x *)
Lemma rnd_within : forall p rnd e V x E, (1 <= p)%Z -> nearest_in (mkF p None) rnd ->
  Q2R (p2 e) <= Rabs x -> Rabs x < Q2R (p2 (e + 1)) -> Rabs (Q2R V - x) <= E -> E <= Q2R (p2 (e - p)) ->
  Rabs (Q2R (rnd V) - x) <= Q2R (p2 (e - p)) + E.
Proof.
  intros p rnd e V x E Hp Hr L H B BE. set (F := mkF p None) in *.
  destruct (Qlt_le_dec (p2 (e + 1)) (Qabs V)) as [G|G].
  - assert (In : inF F (p2 (e + 1))).
    { exists 1%Z, (e + 1)%Z. split; [ring|]. split; [|exact I]. cbn [prec F]. change (Z.abs 1) with (2 ^ 0)%Z. apply Z.pow_le_mono_r; lia. }
    assert (In' : inF F (- p2 (e + 1))%Q) by (apply (inF_opp F); auto).
    pose proof (rnd_near F rnd Hr V _ In) as N1. pose proof (rnd_near F rnd Hr V _ In') as N2.
    apply Qabs_R in N1, N2. rewrite Q2R_abs, !Q2R_minus in N1, N2. rewrite Q2R_opp in N2.
    apply Qlt_Rlt in G. rewrite Q2R_abs in G.
    set (P := Q2R (p2 (e + 1))) in *. set (v := Q2R V) in *. set (r := Q2R (rnd V)) in *.
    clear - N1 N2 G B BE H. unfold Rabs in *. repeat destruct Rcase_abs in *; lra.
  - pose proof (rnd_half F Hp rnd Hr (e + 1 - p) V I) as N. cbn [prec F] in N. replace (p + (e + 1 - p))%Z with (e + 1)%Z in N by ring.
    specialize (N G). replace (e + 1 - p - 1)%Z with (e - p)%Z in N by ring. apply Qabs_R in N. rewrite Q2R_minus in N.
    apply Rabs_le_inv in N, B. apply Rabs_le. lra.
Qed.

(* every nonzero real number is in a binade *)
Lemma binade_R : forall x, x <> 0 -> exists e, Q2R (p2 e) <= Rabs x < Q2R (p2 (e + 1)).
Proof.
  intros x Hx. pose proof (Rabs_pos_lt x Hx) as P. set (y := Rabs x) in *. clearbody y. clear x Hx.
  pose proof ln2_num_bounds as L.
  exists (Int_part (ln y / ln 2)). destruct (base_Int_part (ln y / ln 2)) as [A B]. set (z := Int_part _) in *. clearbody z.
  rewrite !p2_exp, plus_IZR. rewrite <- (exp_ln y P). set (l := ln y) in *. clearbody l.
  assert (E : l = l / ln 2 * ln 2) by (field; lra). set (q := l / ln 2) in *. clearbody q. subst l. split.
  - apply exp_le. apply Rmult_le_compat_r; lra.
  - apply exp_increasing. apply Rmult_lt_compat_r; lra.
Qed.

Section Acc.
Variables p hs : Z.
Hypothesis Hp : (12 <= p)%Z.
Hypothesis Hhs : (10 <= hs <= p)%Z.
Notation F := (mkF p None).
Variable rnd : Q -> Q.
Hypothesis Hr : nearest_in F rnd.
Notation U := (Q2R (p2 (- p))).
Variable poly : Q -> Q.
Variable delta : R.
Hypothesis Hpoly : log_poly F delta poly.
Hypothesis Hdelta : 0 <= delta <= U / 8.
Variable c : log_cst.
Hypothesis Hinv : table_ok (265 # 32768) (c_inv c) = true.
Hypothesis Hl2 : two_words hs F (c_log2_hi c, c_log2_lo c) (ln 2).
Hypothesis Htab : log_tables hs F (fun i => nth (Z.to_nat i) (c_inv c) 0%Q) (load (c_log c)) (load (c_log_tho c)).
Hypothesis Hsq : ((181 # 128) <= c_sqrt2 c <= 182 # 128)%Q.

Definition ltho (v : Q) : Z := if Qle_bool (mant_of v) (c_sqrt2 c) then 0%Z else 1%Z.

(* the reduced logarithm is the rounding of a number close to the logarithm *)
Theorem reduced_log_error : forall f v k, inF F v -> (0 < v)%Q -> k = (qlog2 v + f + ltho v)%Z -> (Z.abs k <= 2 ^ (p - hs))%Z ->
  exists V, reduced_log p rnd (fun v => v) poly c f v = rnd V
  /\ Rabs (Q2R V - (ln (Q2R v) + IZR f * ln 2)) <= U * (0.0088 * Rabs (IZR k) + 0.0118)
  /\ (k <> 0%Z -> 0.3401 * Rabs (IZR k) <= Rabs (ln (Q2R v) + IZR f * ln 2))
  /\ (table_index (mant_of v) = 0%Z -> k = 0%Z ->
      ln (Q2R v) + IZR f * ln 2 = ln (Q2R (mant_of v)) /\
      Rabs (Q2R V - ln (Q2R (mant_of v))) <= (64 * (U * U) + delta) * (Q2R (mant_of v) - 1)).
Proof.
  intros f v k Iv Pv Ek Bk. unfold reduced_log, reduced_log_split.
  destruct (mant_of_range v Pv) as (M1 & M2 & Ev). pose proof (inF_shift p (- qlog2 v) v Iv) as Im. fold (mant_of v) in Im.
  unfold ltho in Ek. set (m := mant_of v) in *. clearbody m. set (e := qlog2 v) in *. clearbody e.
  destruct (one_two m M1 M2) as (Q1 & Q2 & Q3 & Nm).
  destruct (index_range m Nm) as (Ri & Li & Ui). rewrite Q3 in Li, Ui.
  destruct (reduced_argument p Hp c Hinv m M1 M2) as (A1 & A2 & A3 & A4). pose proof (arg_red_entry p Hp c Hinv m M1 M2) as Ae.
  set (a := arg_red p (fun v => v) c m) in *.
  pose proof (w_small p hs Hhs) as W. pose proof (U_small p Hp) as US. set (w := Q2R (p2 (- hs - 1))) in *.
  pose proof ln2_num_bounds as L2.
  (* the reduced argument *)
  unfold red_vx. fold a. set (rs := (a * m + - (1))%Q).
  assert (Ers : (rs == a * m - 1)%Q) by (unfold rs; ring).
  assert (Brs : Rabs (Q2R rs) <= 265 / 32768).
  { rewrite (Qeq_eqR _ _ Ers). apply Qabs_R in A1. replace (265 / 32768) with (Q2R (265 # 32768)) by (unfold Q2R; cbn [Qnum Qden]; lra). exact A1. }
  assert (Brd : Rabs (Q2R (rnd rs) - Q2R rs) <= U * Rabs (Q2R rs)).
  { pose proof (rnd_rel F ltac:(cbn [prec]; lia) rnd Hr rs eq_refl) as H. apply Qabs_R in H. rewrite Q2R_minus, Q2R_mult, Q2R_abs in H. exact H. }
  assert (Bu : U * Rabs (Q2R rs) <= U * (265 / 32768)) by (apply Rmult_le_compat_l; lra).
  assert (Bu' : U * Rabs (Q2R rs) <= / 4096 * Rabs (Q2R rs)) by (apply Rmult_le_compat_r; [apply Rabs_pos|lra]).
  assert (Br : Rabs (Q2R (rnd rs)) <= 0.0081).
  { apply Rabs_le_inv in Brs, Brd. apply Rabs_le. lra. }
  pose proof (Rabs_le_inv _ _ Br) as Br'. pose proof (Rabs_le_inv _ _ Brs) as Brs'.
  (* real values *)
  assert (Rm : 1 <= Q2R m < 2).
  { split; [rewrite <- Q2R_1; apply Qle_Rle; auto|]. replace 2 with (Q2R 2) by (unfold Q2R; cbn [Qnum Qden]; lra). apply Qlt_Rlt; auto. }
  assert (Ra : 0 < Q2R a <= 1).
  { split; [rewrite <- Q2R_0; apply Qlt_Rlt; auto|rewrite <- Q2R_1; apply Qle_Rle; auto]. }
  assert (E1 : 1 + Q2R rs = Q2R a * Q2R m) by (rewrite (Qeq_eqR _ _ Ers), Q2R_minus, Q2R_mult, Q2R_1; ring).
  assert (Elv : ln (Q2R v) = IZR e * ln 2 + ln (Q2R m)).
  { rewrite (Qeq_eqR _ _ Ev), Q2R_mult, ln_mult by (try apply p2R_pos; lra). rewrite ln_p2. reflexivity. }
  assert (Eln : ln (1 + Q2R rs) = ln (Q2R a) + ln (Q2R m)) by (rewrite E1, ln_mult; lra).
  assert (La : - 0.7016 <= ln (Q2R a) <= 0).
  { assert (Y : 0.4959 <= Q2R a).
    { assert (Q2R a * Q2R m <= Q2R a * 2) by (apply Rmult_le_compat_l; lra). lra. }
    split; [|rewrite <- ln_1; apply ln_le; lra]. pose proof (ln_ge_inv (2 * Q2R a) ltac:(lra)) as G. rewrite ln_mult in G by lra.
    assert (/ (2 * Q2R a) <= / (2 * 0.4959)) by (apply Rinv_le_contravar; lra). lra. }
  (* the exponent *)
  set (tc := negb (Qle_bool m (c_sqrt2 c))).
  assert (Ek' : k = (e + f + (if tc then 1 else 0))%Z) by (rewrite Ek; unfold tc; destruct (Qle_bool m (c_sqrt2 c)); reflexivity). clear Ek.
  set (corr := o_add (rounded_ops rnd) (rnd (inject_Z (e + f))) (if tc then 1%Q else 0%Q)).
  assert (Pk : (2 ^ (p - hs) + 1 <= 2 ^ p)%Z).
  { pose proof (Z.pow_le_mono_r 2 (p - hs) (p - 1) ltac:(lia) ltac:(lia)). pose proof (Z.pow_pos_nonneg 2 (p - 1) ltac:(lia) ltac:(lia)).
    replace (2 ^ p)%Z with (2 * 2 ^ (p - 1))%Z; [lia|]. rewrite <- Z.pow_succ_r by lia. f_equal. lia. }
  assert (Ec : (corr == inject_Z k)%Q).
  { unfold corr. cbn [rounded_ops o_add].
    assert (Ii : forall z, (Z.abs z <= 2 ^ p)%Z -> inF F (inject_Z z)).
    { intros z Hz. exists z, 0%Z. split; [rewrite p2_0; ring|]. split; [exact Hz|exact I]. }
    assert (G1 : (rnd (inject_Z (e + f)) == inject_Z (e + f))%Q) by (apply (rnd_id F rnd Hr); apply Ii; destruct tc; lia).
    assert (G2 : (rnd (inject_Z (e + f)) + (if tc then 1 else 0) == inject_Z k)%Q).
    { rewrite G1, Ek'. rewrite (inject_Z_plus (e + f)). destruct tc; reflexivity. }
    eapply Qeq_trans; [apply (rnd_comp F rnd Hr); exact G2|]. apply (rnd_id F rnd Hr). apply Ii. lia. }
  (* the table *)
  set (i := table_index m) in *.
  set (Lg := if tc then ln (2 * Q2R a) else ln (Q2R a)).
  set (hi := if tc then fst (load (c_log_tho c) i) else fst (load (c_log c) i)).
  set (lo := if tc then snd (load (c_log_tho c) i) else snd (load (c_log c) i)).
  assert (ET : ln (Q2R v) + IZR f * ln 2 = IZR k * ln 2 + ln (1 + Q2R rs) - Lg).
  { rewrite Elv, Ek', Eln, plus_IZR, plus_IZR. unfold Lg. destruct tc; [rewrite ln_mult by lra|]; lra. }
  assert (Hsq' : 181 / 128 <= Q2R (c_sqrt2 c) <= 182 / 128).
  { destruct Hsq as [S1 S2]. apply Qle_Rle in S1, S2.
    replace (181 / 128) with (Q2R (181 # 128)) by (unfold Q2R; cbn [Qnum Qden]; lra). replace (182 / 128) with (Q2R (182 # 128)) by (unfold Q2R; cbn [Qnum Qden]; lra). auto. }
  assert (Em : Rabs (ln (1 + Q2R rs) - Lg) <= 0.353).
  { rewrite Eln. unfold Lg, tc. destruct (Qle_bool m (c_sqrt2 c)) eqn:S; cbn [negb].
    - apply Qle_bool_iff in S. apply Qle_Rle in S. replace (ln (Q2R a) + ln (Q2R m) - ln (Q2R a)) with (ln (Q2R m)) by ring.
      assert (0 <= ln (Q2R m)) by (rewrite <- ln_1; apply ln_le; lra). rewrite Rabs_pos_eq by auto.
      eapply Rle_trans; [|exact ln_upper]. apply ln_le; lra.
    - apply Qle_false in S. apply Qlt_Rlt in S. rewrite (ln_mult 2) by lra.
      replace (ln (Q2R a) + ln (Q2R m) - (ln 2 + ln (Q2R a))) with (ln (Q2R m) - ln 2) by ring.
      assert (X : ln (Q2R m) - ln 2 = ln (Q2R m / 2)) by (unfold Rdiv; rewrite ln_mult, ln_Rinv; lra).
      rewrite X. apply Rabs_le. split.
      + eapply Rle_trans; [exact ln_lower|]. apply ln_le; lra.
      + assert (ln (Q2R m / 2) <= ln 1) by (apply ln_le; lra). rewrite ln_1 in H. lra. }
  assert (HTab : inF F hi /\ inF F lo /\ Rabs (Q2R hi) <= 2 /\ Rabs (Q2R lo) <= w /\ Rabs (Q2R hi + Q2R lo - Lg) <= U * w
     /\ (i = 0%Z -> tc = false /\ hi = 0%Q /\ lo = 0%Q /\ Lg = 0)).
  { destruct Htab as [T0 T1]. destruct (Z.eq_dec i 0) as [Zi|Zi].
    - destruct (A4 Zi) as [Ea Um].
      assert (Tc : tc = false).
      { unfold tc. apply negb_false_iff. apply Qle_bool_iff. apply Qlt_le_weak. eapply Qlt_le_trans; [exact Um|]. eapply Qle_trans; [|apply Hsq]. discriminate. }
      unfold hi, lo, Lg. rewrite Tc, Zi, T0, Ea. cbn [fst snd]. rewrite Q2R_0, Q2R_1, ln_1.
      assert (Iz : inF F 0%Q) by (apply inF_0; cbn [prec]; lia).
      split; auto. split; auto. assert (0 <= U * w) by (apply Rmult_le_pos; lra).
      replace (0 + 0 - 0) with 0 by ring. rewrite Rabs_R0. repeat split; lra.
    - specialize (T1 i ltac:(lia)). assert (Eb : Z.eqb i 0 = false) by (apply Z.eqb_neq; auto). rewrite Eb in Ae.
      rewrite <- (Qeq_eqR _ _ Ae) in T1.
      assert (G : forall vv x, two_words hs F vv x -> Rabs x <= 1 -> inF F (fst vv) /\ inF F (snd vv) /\ Rabs (Q2R (fst vv)) <= 2 /\ Rabs (Q2R (snd vv)) <= w /\ Rabs (Q2R (fst vv) + Q2R (snd vv) - x) <= U * w).
      { intros vv x Hv Bx. destruct (two_words_bounds p hs Hp Hhs vv x Hv Bx) as (G1 & _ & G2 & G3 & G4 & G5). fold w in G3, G4, G5.
        split; auto. split; auto. split; [|auto]. apply Rabs_le_inv in G3, Bx. apply Rabs_le. lra. }
      assert (X : inF F hi /\ inF F lo /\ Rabs (Q2R hi) <= 2 /\ Rabs (Q2R lo) <= w /\ Rabs (Q2R hi + Q2R lo - Lg) <= U * w).
      { unfold hi, lo, Lg. destruct tc.
        - apply G; [apply T1|]. rewrite ln_mult by lra. apply Rabs_le. lra.
        - apply G; [apply T1|]. apply Rabs_le. lra. }
      destruct X as (X1 & X2 & X3 & X4 & X5). split; auto. split; auto. split; auto. split; auto. split; auto. intros; contradiction. }
  clearbody hi lo.
  destruct HTab as (Ih & Il & Bh & Bl & Be & H0).
  assert (Bk2 : k <> 0%Z -> 0.3401 * Rabs (IZR k) <= Rabs (ln (Q2R v) + IZR f * ln 2)).
  { intros Nk. rewrite ET. assert (K1 : 1 <= Rabs (IZR k)).
    { rewrite <- abs_IZR. apply (IZR_le 1). lia. }
    assert (K2 : Rabs (IZR k * ln 2) = Rabs (IZR k) * ln 2) by (rewrite Rabs_mult, (Rabs_pos_eq (ln 2)); lra).
    pose proof (Rabs_triang_inv (IZR k * ln 2) (- (ln (1 + Q2R rs) - Lg))) as T. rewrite Rabs_Ropp in T.
    replace (IZR k * ln 2 - - (ln (1 + Q2R rs) - Lg)) with (IZR k * ln 2 + ln (1 + Q2R rs) - Lg) in T by ring.
    assert (Rabs (IZR k) * 0.6931 <= Rabs (IZR k) * ln 2) by (apply Rmult_le_compat_l; lra). lra. }
  clearbody a. destruct (Z.eq_dec i 0) as [Zi|Zi].
  - destruct (A4 Zi) as [Ea Um]. destruct (H0 Zi) as (Tc & Eh & El & EL).
    assert (Ex : (rnd rs == rs)%Q).
    { apply (rnd_id F rnd Hr). apply (inF_comp F (m - 1)%Q); [unfold rs; rewrite Ea; ring|].
      apply (sterbenz F); cbn [prec]; [lia|auto| | |].
      - exists 1%Z, 0%Z. split; [reflexivity|]. split; [|exact I]. cbn [prec]. change (Z.abs 1) with (2 ^ 0)%Z. apply Z.pow_le_mono_r; lia.
      - apply Rle_Qle. rewrite Q2R_mult, Q2R_1. replace (Q2R 2) with 2 by (unfold Q2R; cbn [Qnum Qden]; lra). lra.
      - apply Qle_trans with 2%Q; [apply Qlt_le_weak; auto|]. discriminate. }
    destruct (log_core p hs Hp Hhs rnd Hr poly c (rnd rs) corr k hi lo delta 0 0 0 0 (Q2R rs) Lg Hpoly Hl2) as (V & EV & BV).
    1: apply (rnd_inF F rnd Hr). 1: lra. 1: exact Ec. 1: exact Bk. 1: exact Ih. 1: exact Il.
    1: rewrite Eh, Q2R_0, Rabs_R0; lra. 1: rewrite El, Q2R_0, Rabs_R0; lra. 1: rewrite Eh, El, EL, Q2R_0; rewrite Rabs_pos_eq; lra.
    1: rewrite (Qeq_eqR _ _ Ex), Rminus_diag_eq, Rabs_R0; lra. 1: lra. 1: lra.
    fold w in BV. exists V. split; auto. rewrite <- ET in BV.
    assert (Ux : U * U <= / 4096 * U) by (apply Rmult_le_compat_r; lra).
    assert (Uk : 0 <= U * Rabs (IZR k)) by (apply Rmult_le_pos; [lra|apply Rabs_pos]).
    assert (Uk2 : U * Rabs (IZR k) * (12 * U + 12 * w) <= U * Rabs (IZR k) * 0.0088) by (apply Rmult_le_compat_l; lra).
    assert (Rr : (64 * (U * U) + delta) * Rabs (Q2R (rnd rs)) <= (64 * (/ 4096 * U) + U / 8) * 0.0081).
    { assert (0 <= U * U) by (apply Rmult_le_pos; lra). apply Rmult_le_compat; [lra|apply Rabs_pos|lra|auto]. }
    split; [|split; [auto|]].
    + eapply Rle_trans; [exact BV|]. lra.
    + intros _ Zk. assert (K0 : IZR k = 0) by (rewrite Zk; reflexivity). rewrite K0, Rabs_R0 in BV.
      assert (E0 : ln (Q2R v) + IZR f * ln 2 = ln (Q2R m)).
      { rewrite ET, K0, EL, E1, Ea, Q2R_1. replace (1 * Q2R m) with (Q2R m) by ring. ring. }
      split; auto. rewrite E0 in BV.
      assert (Er : Rabs (Q2R (rnd rs)) = Q2R m - 1).
      { rewrite (Qeq_eqR _ _ Ex). rewrite (Qeq_eqR _ _ Ers), Ea, Q2R_minus, Q2R_mult, Q2R_1. rewrite Rabs_pos_eq; lra. }
      rewrite Er in BV. lra.
  - destruct (log_core p hs Hp Hhs rnd Hr poly c (rnd rs) corr k hi lo delta (U * (265 / 32768)) (U * w) w 2 (Q2R rs) Lg Hpoly Hl2) as (V & EV & BV).
    1: apply (rnd_inF F rnd Hr). 1: lra. 1: exact Ec. 1: exact Bk. 1: exact Ih. 1: exact Il. 1: exact Bh. 1: exact Bl. 1: exact Be.
    1: lra. 1: lra. 1: lra.
    fold w in BV. exists V. split; auto. rewrite <- ET in BV.
    assert (Ux : U * U <= / 4096 * U) by (apply Rmult_le_compat_r; lra).
    assert (Uw : U * w <= U * / 2048) by (apply Rmult_le_compat_l; lra).
    assert (Uk : 0 <= U * Rabs (IZR k)) by (apply Rmult_le_pos; [lra|apply Rabs_pos]).
    assert (Uk2 : U * Rabs (IZR k) * (12 * U + 12 * w) <= U * Rabs (IZR k) * 0.0088) by (apply Rmult_le_compat_l; lra).
    assert (Rr : (64 * (U * U) + delta) * Rabs (Q2R (rnd rs)) <= (64 * (/ 4096 * U) + U / 8) * 0.0081).
    { assert (0 <= U * U) by (apply Rmult_le_pos; lra). apply Rmult_le_compat; [lra|apply Rabs_pos|lra|auto]. }
    split; [|split; [auto|]].
    + eapply Rle_trans; [exact BV|]. lra.
    + intros X. contradiction.
Qed.
End Acc.
