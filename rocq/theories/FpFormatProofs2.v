(* Lemmas for the floating-point format properties: encoding, rounding order,
   nearest rounding. *)
From Coq Require Import ZArith QArith Qabs Qround Bool Lia Lqa Qfield.
From Verif Require Import QUtil FpFormatModel FpFormatSpec FpFormatProofs.
Open Scope Z_scope.

Section Fmt.
Variable F : fpfmt.
Hypothesis Hok : fmt_ok F.
Hypothesis Hs : sollya_ok F.
Local Notation e := (esz F).
Local Notation f := (fsz F).

Lemma representable_abs : forall v, representable F v -> representable F (Qabs v).
Proof.
  intros v R. destruct (Qlt_le_dec 0 v).
  - apply (representable_comp F v); auto. rewrite Qabs_pos by lra. reflexivity.
  - apply (representable_comp F (- v)); [|apply representable_opp; auto]. rewrite Qabs_neg by lra. reflexivity.
Qed.

Lemma canonical_comp : forall a b N ee, (a == b)%Q -> canonical F a N ee -> canonical F b N ee.
Proof. intros a b N ee H (A & B). split; [rewrite <- H; auto|auto]. Qed.

Definition neg_part (r : Q) : Z := if Qle_bool 0 r then 0 else 2 ^ (e + f).

Lemma num_coding_round : forall v r, sollya_round F v = Some r ->
  num_coding F v = Some (Z.lor (mag_code F (Qabs r)) (Z.shiftl (if Qle_bool 0 r then 0 else 1) (f + e))).
Proof.
  intros v r H. unfold num_coding. rewrite H. unfold mag_code.
  destruct (Qeq_bool (Qabs r) 0); [reflexivity|].
  destruct (qlog2 (Qabs r) <? emin_normal F); reflexivity.
Qed.

Lemma num_coding_nz : forall v r, sollya_round F v = Some r -> ~ (r == 0)%Q ->
  exists N ee, canonical F (Qabs r) N ee /\ num_coding F v = Some (neg_part r + can_code F N ee).
Proof.
  intros v r H Hr. rewrite (num_coding_round _ _ H).
  pose proof (round_representable F Hok Hs _ _ H) as R.
  destruct (canonical_exists F Hok _ (representable_abs _ R) (Qabs_nz r Hr)) as (N & ee & C).
  exists N, ee. split; auto. rewrite (mag_code_canonical F Hok _ _ _ C).
  pose proof (can_code_bounds F Hok _ _ _ C). pose proof (e_pos F Hok). pose proof (f_pos F Hok).
  pose proof (pf_ge F Hok).
  f_equal. rewrite lor_shift_add; [|lia|].
  - unfold neg_part. replace (f + e) with (e + f) by lia. destruct (Qle_bool 0 r); ring.
  - split; [lia|]. replace (f + e) with (e + f) by lia. rewrite (p_ef F Hok). nia.
Qed.

Lemma num_coding_z : forall v r, sollya_round F v = Some r -> (r == 0)%Q -> num_coding F v = Some 0.
Proof.
  intros v r H Hr. rewrite (num_coding_round _ _ H). unfold mag_code.
  assert (Qeq_bool (Qabs r) 0 = true) as ->. { apply Qeq_eq_bool. rewrite Hr. reflexivity. }
  assert (Qle_bool 0 r = true) as ->. { apply Qle_bool_iff. lra. }
  cbn [Z.lor]. rewrite !Z.shiftl_0_l. reflexivity.
Qed.

Lemma decode_code : forall r N ee, ~ (r == 0)%Q -> canonical F (Qabs r) N ee ->
  exists q, get_value_from_integer_coding F (neg_part r + can_code F N ee) = Num q /\ (q == r)%Q.
Proof.
  intros r N ee Hr C. unfold neg_part.
  destruct (Qle_bool 0 r) eqn:B.
  - apply Qle_bool_iff in B.
    destruct (decode_can F Hok _ _ _ false C) as (q & A1 & A2). cbv iota in A1, A2.
    exists q. split; auto. rewrite A2, Qabs_pos by lra. ring.
  - assert (r < 0)%Q. { destruct (Qlt_le_dec r 0); auto. apply Qle_bool_iff in q. congruence. }
    destruct (decode_can F Hok _ _ _ true C) as (q & A1 & A2). cbv iota in A1, A2.
    exists q. split; auto. rewrite A2, Qabs_neg by lra. ring.
Qed.

Lemma neg_part_range : forall r N ee v, canonical F v N ee ->
  0 <= neg_part r + can_code F N ee < 2 ^ (1 + e + f).
Proof.
  intros r N ee v C. pose proof (can_code_bounds F Hok _ _ _ C). rewrite (p_1ef F Hok).
  unfold neg_part. pose proof (pf_ge F Hok). rewrite (p_ef F Hok).
  destruct (Qle_bool 0 r); nia.
Qed.

(* a finite nonzero code is the code of its canonical form *)
Lemma fields_canonical : forall c s E M, has_fields F c s E M -> E < 2 ^ e - 1 -> (E <> 0 \/ M <> 0) ->
  exists v N ee, canonical F v N ee /\ c = (if s then 2 ^ (e + f) else 0) + can_code F N ee
   /\ N = (if E =? 0 then M else 2 ^ f + M) /\ ee = emin_subnormal F + (if E =? 0 then 0 else E - 1).
Proof.
  intros c s E M (Hc & HE & HM) HL NZ.
  pose proof (pf_ge F Hok). pose proof (pe_half F Hok). pose proof (f_pos F Hok).
  pose proof (emax_f_eq F Hok). pose proof (emin_sub_eq F). pose proof (pe1_ge F Hok).
  set (N := if E =? 0 then M else 2 ^ f + M).
  set (ee := emin_subnormal F + (if E =? 0 then 0 else E - 1)).
  exists (inject_Z N * p2 ee)%Q, N, ee. 
  assert (C : canonical F (inject_Z N * p2 ee) N ee).
  { unfold canonical. rewrite (pf1 F Hok). split; [reflexivity|]. unfold N, ee.
    destruct (Z.eqb_spec E 0); repeat split; try lia. }
  split; auto. split; [|split; reflexivity].
  rewrite Hc. unfold can_code, N, ee. destruct (Z.eqb_spec E 0) as [->|]; ring.
Qed.

Lemma even_can : forall v N ee, canonical F v N ee -> Z.even (can_code F N ee) = Z.even N.
Proof.
  intros v N ee C. unfold can_code. rewrite Z.even_add, Z.even_mul.
  rewrite (pf_half F Hok). rewrite (Z.even_mul 2). cbn [Z.even]. cbn [orb]. rewrite orb_true_r.
  destruct (Z.even N); reflexivity.
Qed.

(* order *)
Lemma canonical_lt : forall a b N ee N' ee', canonical F a N ee -> canonical F b N' ee' ->
  (a < b)%Q -> can_code F N ee < can_code F N' ee'.
Proof.
  intros a b N ee N' ee' C C' L.
  pose proof (canonical_exp F Hok _ _ _ C) as X. pose proof (canonical_exp F Hok _ _ _ C') as X'.
  pose proof (canonical_pos F _ _ _ C) as P. pose proof (canonical_pos F _ _ _ C') as P'.
  assert (qlog2 a <= qlog2 b).
  { destruct (qlog2_spec a P). destruct (qlog2_spec b P').
    assert (qlog2 a < qlog2 b + 1); [|lia]. apply p2_lt_inv. lra. }
  pose proof C as (Hv & HN & Hee & Hc). pose proof C' as (Hv' & HN' & Hee' & Hc').
  unfold can_code. rewrite (pf1 F Hok) in *. pose proof (pf_ge F Hok).
  destruct (Z.eq_dec ee ee') as [<-|NE].
  - assert (N < N'); [|lia]. rewrite Zlt_Qlt. apply (Qmult_lt_r _ _ (p2 ee)); [apply p2_pos|].
    rewrite <- Hv, <- Hv'. auto.
  - assert (ee < ee') by lia. destruct Hc' as [Hc'|Hc']; [|lia]. nia.
Qed.

(* rounding is monotone on non-negative values *)
Lemma qlog2_mono : forall a b, (0 < a)%Q -> (a <= b)%Q -> qlog2 a <= qlog2 b.
Proof.
  intros a b P L. destruct (qlog2_spec a P). destruct (qlog2_spec b ltac:(lra)).
  assert (qlog2 a < qlog2 b + 1); [|lia]. apply p2_lt_inv. lra.
Qed.

Lemma rnd_exp_pos : forall v, (0 < v)%Q -> rnd_exp F v = Z.max (qlog2 v) (emin_normal F) - f.
Proof.
  intros v P. unfold rnd_exp. destruct (qlog2_spec v P) as [A B].
  rewrite (qlog2_unique (Qabs v) (qlog2 v)); auto; rewrite Qabs_pos by lra; auto.
Qed.

Lemma round_some_unfold : forall v r, ~ (v == 0)%Q -> sollya_round F v = Some r ->
  r = (inject_Z (qrne (v / p2 (rnd_exp F v))) * p2 (rnd_exp F v))%Q.
Proof.
  intros v r H. rewrite (sollya_round_unfold F Hs) by auto. cbv zeta.
  destruct (Qle_bool _ _); congruence.
Qed.

Lemma rnd_upper : forall v, (0 < v)%Q -> qrne (v / p2 (rnd_exp F v)) <= 2 ^ (f + 1).
Proof.
  intros v P. pose proof (rnd_N F Hok v ltac:(lra)). lia.
Qed.

Lemma rnd_nonneg : forall v, (0 <= v)%Q -> 0 <= qrne (v / p2 (rnd_exp F v)).
Proof.
  intros v P. apply qrne_bounds_int_l. apply Qle_shift_div_l; [apply p2_pos|].
  change (inject_Z 0) with 0%Q. lra.
Qed.

Lemma round_zero : forall v, (v == 0)%Q -> sollya_round F v = Some 0%Q.
Proof. intros v H. unfold sollya_round. rewrite (Qeq_eq_bool _ _ H). reflexivity. Qed.

Lemma round_nonneg : forall v r, (0 <= v)%Q -> sollya_round F v = Some r -> (0 <= r)%Q.
Proof.
  intros v r P H. destruct (Qeq_dec v 0) as [E0|E0].
  - rewrite (round_zero v E0) in H. injection H as <-. lra.
  - rewrite (round_some_unfold _ _ E0 H). apply Qmult_le_0_compat; [|apply Qlt_le_weak, p2_pos].
    change 0%Q with (inject_Z 0). apply inj_le, rnd_nonneg; auto.
Qed.

Lemma round_mono : forall a b ra rb, (0 <= a)%Q -> (a <= b)%Q ->
  sollya_round F a = Some ra -> sollya_round F b = Some rb -> (ra <= rb)%Q.
Proof.
  intros a b ra rb P L Ha Hb. pose proof (f_pos F Hok).
  destruct (Qeq_dec a 0) as [E0|E0].
  - rewrite (round_zero a E0) in Ha. injection Ha as <-. apply (round_nonneg b); auto. lra.
  - assert (Pa : (0 < a)%Q) by lra. assert (Pb : (0 < b)%Q) by lra.
    rewrite (round_some_unfold _ _ E0 Ha). rewrite (round_some_unfold b rb) by (auto; lra).
    pose proof (qlog2_mono a b Pa L) as LM.
    set (x := rnd_exp F a). set (y := rnd_exp F b).
    assert (XY : x <= y) by (unfold x, y; rewrite !rnd_exp_pos by lra; lia).
    destruct (Z.eq_dec x y) as [EQ|NE].
    + rewrite EQ. apply Qmult_le_compat_r; [|apply Qlt_le_weak, p2_pos].
      apply inj_le. apply qrne_mono. unfold Qdiv. apply Qmult_le_compat_r; auto.
      apply Qlt_le_weak, Qinv_lt_0_compat, p2_pos.
    + assert (U : (inject_Z (qrne (a / p2 x)) * p2 x <= p2 (f + 1 + x))%Q).
      { rewrite p2_plus, (p2_Z (f + 1)) by lia. apply Qmult_le_compat_r; [|apply Qlt_le_weak, p2_pos].
        apply inj_le. apply rnd_upper; auto. }
      assert (W : (p2 (f + y) <= inject_Z (qrne (b / p2 y)) * p2 y)%Q).
      { rewrite p2_plus, (p2_Z f) by lia. apply Qmult_le_compat_r; [|apply Qlt_le_weak, p2_pos].
        apply inj_le. apply qrne_bounds_int_l. apply Qle_shift_div_l; [apply p2_pos|].
        rewrite <- p2_Z by lia. rewrite <- p2_plus.
        destruct (qlog2_spec b Pb) as [LB _].
        replace (f + y) with (qlog2 b); auto.
        unfold x, y in *. rewrite !rnd_exp_pos in * by lra. lia. }
      pose proof (p2_le (f + 1 + x) (f + y) ltac:(lia)). lra.
Qed.

(* nearest: every representable u is no closer to v than the rounding of v *)
Lemma int_nearest : forall q k, (Qabs (q - inject_Z (qrne q)) <= Qabs (q - inject_Z k))%Q.
Proof.
  intros q k. pose proof (qrne_half q) as H.
  rewrite Qabs_Qminus in H.
  destruct (Z.eq_dec k (qrne q)) as [->|NE]; [lra|].
  assert (1 <= Qabs (inject_Z k - inject_Z (qrne q)))%Q.
  { assert (Z1 : 1 <= Z.abs (k - qrne q)) by lia.
    change 1%Q with (inject_Z 1). apply inj_le in Z1.
    replace (inject_Z (Z.abs (k - qrne q))) with (Qabs (inject_Z (k - qrne q))) in Z1 by reflexivity.
    unfold Z.sub in Z1. rewrite inject_Z_plus, inject_Z_opp in Z1. exact Z1. }
  assert (T : (Qabs (inject_Z k - inject_Z (qrne q)) <= Qabs (q - inject_Z (qrne q)) + Qabs (q - inject_Z k))%Q).
  { rewrite (Qabs_Qminus q (inject_Z k)).
    rewrite Qplus_comm. eapply Qle_trans; [|apply Qabs_triangle].
    apply Qle_lteq. right. apply Qabs_wd. ring. }
  lra.
Qed.

Lemma Qabs_scale : forall a k p, (0 < p)%Q -> (Qabs (a - inject_Z k * p) == Qabs (a / p - inject_Z k) * p)%Q.
Proof.
  intros a k p P. transitivity (Qabs (a / p - inject_Z k) * Qabs p)%Q.
  - rewrite <- Qabs_Qmult. apply Qabs_wd. field. intro; lra.
  - rewrite (Qabs_pos p) by lra. reflexivity.
Qed.

(* a representable number that is not a multiple of the rounding quantum is
   strictly farther than a multiple of it *)
Lemma repr_multiple : forall v u, ~ (v == 0)%Q -> representable F u ->
  (exists k, (u == inject_Z k * p2 (rnd_exp F v))%Q) \/
  (exists k, (Qabs (v - inject_Z k * p2 (rnd_exp F v)) < Qabs (v - u))%Q).
Proof.
  intros v u Hv (m & w & Hm & Hw & Hu). rewrite <- emin_sub_eq in Hw.
  pose proof (f_pos F Hok). set (x := rnd_exp F v).
  destruct (Z.le_gt_cases x w).
  - left. exists (m * 2 ^ (w - x)). rewrite Hu, inject_Z_mult, <- (p2_Z (w - x)) by lia.
    rewrite <- Qmult_assoc, <- p2_plus. replace (w - x + x) with w by lia. reflexivity.
  - right.
    assert (HL : qlog2 (Qabs v) = f + x).
    { unfold x, rnd_exp in *. unfold emin_subnormal, emin_normal in *. lia. }
    destruct (qlog2_spec (Qabs v) (Qabs_nz v Hv)) as [L1 L2]. rewrite HL in L1.
    assert (LU : (Qabs u < p2 (f + x))%Q).
    { rewrite Hu, Qabs_Qmult. rewrite (Qabs_pos (p2 w)) by (apply Qlt_le_weak, p2_pos).
      change (Qabs (inject_Z m)) with (inject_Z (Z.abs m)).
      apply Qlt_le_trans with (p2 (f + 1 + w)); [|apply p2_le; lia].
      rewrite p2_plus, (p2_Z (f + 1)) by lia. apply Qmult_lt_r; [apply p2_pos|apply inj_lt; lia]. }
    rewrite p2_plus, (p2_Z f) in L1, LU by lia.
    apply Qabs_Qlt_condition in LU.
    destruct (Qlt_le_dec 0 v) as [V|V].
    + exists (2 ^ f). rewrite Qabs_pos in L1 by lra.
      rewrite (Qabs_pos (v - inject_Z (2 ^ f) * p2 x)) by lra.
      eapply Qlt_le_trans; [|apply Qle_Qabs]. lra.
    + exists (- 2 ^ f). rewrite Qabs_neg in L1 by lra. rewrite inject_Z_opp.
      rewrite (Qabs_neg (v - - inject_Z (2 ^ f) * p2 x)) by lra.
      rewrite Qabs_Qminus. eapply Qlt_le_trans; [|apply Qle_Qabs]. lra.
Qed.

Lemma round_nearest : forall v r, sollya_round F v = Some r -> nearest F v r.
Proof.
  intros v r H. split; [eapply round_representable; eauto|]. intros u Ru.
  destruct (Qeq_dec v 0) as [E0|E0].
  - rewrite (round_zero v E0) in H. injection H as <-.
    rewrite E0. apply Qabs_nonneg.
  - rewrite (round_some_unfold _ _ E0 H). pose proof (p2_pos (rnd_exp F v)) as P.
    assert (N : forall k, (Qabs (v - inject_Z (qrne (v / p2 (rnd_exp F v))) * p2 (rnd_exp F v))
                 <= Qabs (v - inject_Z k * p2 (rnd_exp F v)))%Q).
    { intros k. rewrite !Qabs_scale by auto. apply Qmult_le_compat_r; [apply int_nearest|lra]. }
    destruct (repr_multiple v u E0 Ru) as [[k Hk]|[k Hk]].
    + rewrite Hk. apply N.
    + specialize (N k). lra.
Qed.

(* ties *)
Lemma int_tie : forall q k, k <> qrne q -> (Qabs (q - inject_Z k) <= Qabs (q - inject_Z (qrne q)))%Q ->
  Z.even (qrne q) = true.
Proof.
  intros q k NE L. pose proof (qrne_half q) as H. rewrite Qabs_Qminus in H.
  pose proof (int_nearest q k) as NN.
  assert (Hk : (Qabs (q - inject_Z k) <= 1 # 2)%Q) by lra.
  apply Qabs_Qle_condition in H. apply Qabs_Qle_condition in Hk.
  assert (D : k = qrne q + 1 \/ k = qrne q - 1).
  { assert (inject_Z k <= inject_Z (qrne q + 1))%Q by (rewrite inject_Z_plus; change (inject_Z 1) with 1%Q; lra).
    assert (inject_Z (qrne q - 1) <= inject_Z k)%Q by (unfold Z.sub; rewrite inject_Z_plus, inject_Z_opp; change (inject_Z 1) with 1%Q; lra).
    rewrite <- Zle_Qle in *. lia. }
  destruct D as [D|D]; rewrite D in Hk.
  - rewrite inject_Z_plus in Hk. change (inject_Z 1) with 1%Q in Hk.
    assert (T : (q - inject_Z (qrne q) == 1 # 2)%Q) by lra.
    pose proof (qrne_tie _ _ T) as R. destruct (Z.even (qrne q)) eqn:Ev; auto. lia.
  - unfold Z.sub in Hk. rewrite inject_Z_plus, inject_Z_opp in Hk. change (inject_Z 1) with 1%Q in Hk.
    assert (T : (q - inject_Z (qrne q - 1) == 1 # 2)%Q).
    { unfold Z.sub; rewrite inject_Z_plus, inject_Z_opp; change (inject_Z 1) with 1%Q. lra. }
    pose proof (qrne_tie _ _ T) as R.
    destruct (Z.even (qrne q - 1)) eqn:Ev; [lia|].
    rewrite Z.even_sub in Ev. cbn [Z.even] in Ev. destruct (Z.even (qrne q)); auto. 
Qed.

Lemma round_tie : forall v r u, sollya_round F v = Some r -> representable F u -> ~ (u == r)%Q ->
  (Qabs (v - u) <= Qabs (v - r))%Q ->
  forall N ee, canonical F (Qabs r) N ee -> Z.even N = true.
Proof.
  intros v r u H Ru NE L N ee C.
  destruct (Qeq_dec v 0) as [E0|E0].
  - exfalso. rewrite (round_zero v E0) in H. injection H as <-.
    pose proof (canonical_pos F _ _ _ C) as P. change (Qabs 0) with 0%Q in P. lra.
  - pose proof (round_some_unfold _ _ E0 H) as Er. pose proof (p2_pos (rnd_exp F v)) as P.
    pose proof (round_nearest _ _ H) as [_ NR].
    set (x := rnd_exp F v) in *. set (K := qrne (v / p2 x)) in *.
    assert (KE : Z.even K = true).
    { destruct (repr_multiple v u E0 Ru) as [[k Hk]|[k Hk]].
      - fold x in Hk. apply (int_tie (v / p2 x) k).
        + intro C2. apply NE. rewrite Hk, C2, Er. reflexivity.
        + rewrite Hk, Er in L. rewrite !Qabs_scale in L by auto.
          apply Qmult_le_r in L; auto.
      - fold x in Hk. exfalso.
        assert (Qabs (v - r) <= Qabs (v - inject_Z k * p2 x))%Q; [|lra].
        rewrite Er, !Qabs_scale by auto. apply Qmult_le_compat_r; [apply int_nearest|lra]. }
    (* relate N with K *)
    pose proof (rnd_N F Hok v E0) as NB. fold x K in NB.
    pose proof (f_pos F Hok). pose proof (pf_ge F Hok).
    assert (AE : (Qabs r == inject_Z (Z.abs K) * p2 x)%Q).
    { rewrite Er, Qabs_Qmult, (Qabs_pos (p2 x)) by lra. reflexivity. }
    destruct C as (Hv & HN & Hee & Hc).
    assert (EQ : (inject_Z N * p2 ee == inject_Z (Z.abs K) * p2 x)%Q) by (rewrite <- Hv; auto).
    assert (EK : Z.even (Z.abs K) = true) by (destruct K; auto).
    destruct (Z.le_gt_cases x ee).
    + (* Z.abs K = N * 2^(ee-x), and N full unless equal *)
      destruct (Z.eq_dec x ee) as [<-|NEx].
      * assert (N = Z.abs K); [|congruence].
        assert (inject_Z N == inject_Z (Z.abs K))%Q by (apply (Qmult_inj_r _ _ (p2 x)); [apply p2_nz|auto]).
        unfold Qeq in *; cbn in *; lia.
      * assert (EZ : Z.abs K = N * 2 ^ (ee - x)).
        { assert (Q1 : (inject_Z (Z.abs K) == inject_Z (N * 2 ^ (ee - x)))%Q).
          { apply (Qmult_inj_r _ _ (p2 x)); [apply p2_nz|].
            rewrite <- EQ, inject_Z_mult, <- (p2_Z (ee - x)) by lia.
            rewrite <- Qmult_assoc, <- p2_plus. replace (ee - x + x) with ee by lia. reflexivity. }
          unfold Qeq in Q1; cbn in Q1; lia. }
        pose proof (rnd_exp_ge F v) as XG. fold x in XG.
        destruct Hc as [Hc|Hc]; [|lia].
        rewrite (pf1 F Hok) in NB.
        assert (2 <= 2 ^ (ee - x)) by (change 2 with (2 ^ 1) at 1; apply Z.pow_le_mono_r; lia).
        assert (N = 2 ^ f) by nia. subst N.
        rewrite (pf_half F Hok). rewrite Z.even_mul. reflexivity.
    + (* ee < x : N = |K| * 2^(x-ee) *)
      assert (EZ : N = Z.abs K * 2 ^ (x - ee)).
      { assert (Q1 : (inject_Z N == inject_Z (Z.abs K * 2 ^ (x - ee)))%Q).
        { apply (Qmult_inj_r _ _ (p2 ee)); [apply p2_nz|].
          rewrite EQ, inject_Z_mult, <- (p2_Z (x - ee)) by lia.
          rewrite <- Qmult_assoc, <- p2_plus. replace (x - ee + ee) with x by lia. reflexivity. }
        unfold Qeq in Q1; cbn in Q1; lia. }
      rewrite EZ, Z.even_mul, EK. reflexivity.
Qed.

(* magnitudes up to omega never overflow *)
Lemma omega_eq : (get_omega F == inject_Z (2 ^ (f + 1) - 1) * p2 (emax F - f))%Q.
Proof.
  pose proof (f_pos F Hok). unfold get_omega.
  replace (emax F) with ((emax F - f) + f) at 1 by lia. rewrite p2_plus.
  unfold Z.sub at 2. rewrite inject_Z_plus, inject_Z_opp, <- p2_Z by lia. change (inject_Z 1) with 1%Q.
  rewrite p2_succ. pose proof (p2_opp f) as PO.
  transitivity (p2 (emax F - f) * (2 * p2 f - (p2 (- f) * p2 f)))%Q; [ring|].
  rewrite PO. ring.
Qed.

Lemma omega_canonical : canonical F (get_omega F) (2 ^ (f + 1) - 1) (emax F - f).
Proof.
  pose proof (f_pos F Hok). pose proof (pf_ge F Hok). pose proof (pf1 F Hok).
  pose proof (pe1_ge F Hok). pose proof (emin_sub_eq F). pose proof (emax_f_eq F Hok).
  split; [apply omega_eq|]. repeat split; lia.
Qed.

Lemma round_below_omega : forall v, (Qabs v <= get_omega F)%Q -> exists r, sollya_round F v = Some r.
Proof.
  intros v L. destruct (Qeq_dec v 0) as [E0|E0]; [exists 0%Q; apply round_zero; auto|].
  rewrite (sollya_round_unfold F Hs) by auto. cbv zeta.
  destruct (Qle_bool _ _) eqn:B; [exfalso|eauto]. apply Qle_bool_iff in B.
  set (x := rnd_exp F v) in *. pose proof (p2_pos x) as P.
  pose proof omega_canonical as OC. pose proof (omega_lt F Hok _ _ _ OC) as OL.
  pose proof (f_pos F Hok).
  (* omega is a multiple of p2 x : exponent of |v| at most that of omega *)
  assert (XE : x <= emax F - f).
  { pose proof (canonical_exp F Hok _ _ _ OC) as CE.
    pose proof (qlog2_mono (Qabs v) (get_omega F) (Qabs_nz v E0) L).
    unfold x, rnd_exp. lia. }
  set (K := (2 ^ (f + 1) - 1) * 2 ^ (emax F - f - x)).
  assert (OK : (get_omega F == inject_Z K * p2 x)%Q).
  { unfold K. rewrite omega_eq, inject_Z_mult, <- (p2_Z (emax F - f - x)) by lia.
    rewrite <- Qmult_assoc, <- p2_plus. replace (emax F - f - x + x) with (emax F - f) by lia. reflexivity. }
  assert (BK : Z.abs (qrne (v / p2 x)) <= K).
  { rewrite OK in L. apply Qabs_Qle_condition in L. destruct L as [L1 L2].
    assert (qrne (v / p2 x) <= K) by (apply qrne_bounds_int, Qle_shift_div_r; auto).
    assert (- K <= qrne (v / p2 x)); [|lia].
    apply qrne_bounds_int_l, Qle_shift_div_l; auto. rewrite inject_Z_opp. lra. }
  rewrite Qabs_Qmult, (Qabs_pos (p2 x)) in B by lra.
  change (Qabs (inject_Z (qrne (v / p2 x)))) with (inject_Z (Z.abs (qrne (v / p2 x)))) in B.
  assert (inject_Z (Z.abs (qrne (v / p2 x))) * p2 x <= inject_Z K * p2 x)%Q by (apply Qmult_le_compat_r; [apply inj_le; auto|lra]).
  lra.
Qed.
End Fmt.
