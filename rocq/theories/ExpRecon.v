(* Multiplication by the power of two in the exponential. *)
From Coq Require Import ZArith QArith Qabs Qround Bool Lia Lqa.
From Verif Require Import QUtil FpFormatModel FpFormatSpec FpFormatProofs FpFormatProofs2 FpFormatProps RoundSpec RoundProofs RoundRne PowModel ExpModel.
Open Scope Z_scope.

Lemma sollya_round_comp : forall G a b, (a == b)%Q -> sollya_round G a = sollya_round G b.
Proof.
  intros G a b E. unfold sollya_round.
  destruct (Qeq_bool a 0) eqn:Ea; destruct (Qeq_bool b 0) eqn:Eb; auto.
  - apply Qeq_bool_iff in Ea. apply Qeq_bool_neq in Eb. exfalso. apply Eb. rewrite <- E. auto.
  - apply Qeq_bool_iff in Eb. apply Qeq_bool_neq in Ea. exfalso. apply Ea. rewrite E. auto.
  - apply Qeq_bool_neq in Ea.
    assert (L : qlog2 (Qabs a) = qlog2 (Qabs b)).
    { apply qlog2_comp; [apply Qabs_nz; auto|apply Qabs_wd; auto]. }
    rewrite L.
    set (e := Z.max (qlog2 (Qabs b)) (emin_normal G) - (sprec G - 1)).
    assert (Q : qrne (a / p2 e) = qrne (b / p2 e)) by (apply qrne_comp; rewrite E; reflexivity).
    rewrite Q. reflexivity.
Qed.

(* the rounding of a format, and its overflow *)
Lemma sollya_round_cases : forall G v,
  (exists r, sollya_round G v = Some r /\ (r == rne (fmt_of G) v)%Q /\ (Qabs (rne (fmt_of G) v) < p2 (emax G + 1))%Q)
  \/ (sollya_round G v = None /\ (p2 (emax G + 1) <= Qabs (rne (fmt_of G) v))%Q).
Proof.
  intros G v. destruct (sollya_round G v) as [r|] eqn:S.
  - left. exists r. split; auto. pose proof (sollya_round_rne G v r S) as R. split; auto.
    rewrite <- R. revert S. unfold sollya_round. destruct (Qeq_bool v 0).
    + intros S. injection S as <-. cbn. apply p2_pos.
    + destruct (Qle_bool _ _) eqn:L; [discriminate|]. intros S. injection S as <-.
      apply Qnot_le_lt. intros C. apply Qle_bool_iff in C. congruence.
  - right. split; auto. revert S. unfold sollya_round, rne. destruct (Qeq_bool v 0) eqn:E; [discriminate|].
    assert (R : rexp (fmt_of G) v = Z.max (qlog2 (Qabs v)) (emin_normal G) - (sprec G - 1)).
    { unfold rexp, fmt_of; cbn [emin prec]. lia. }
    rewrite R. destruct (Qle_bool _ _) eqn:L; [|discriminate]. intros _. apply Qle_bool_iff in L. auto.
Qed.

Section Recon.
Variable G : fpfmt.
Hypothesis Hok : fmt_ok G.
Hypothesis Hso : sollya_ok G.
Hypothesis Hf3 : 3 <= fsz G.
Hypothesis Hwide : 2 * fsz G <= - emin_normal G.
Let F := fmt_of G.
Let em := emin_normal G - (sprec G - 1).

Lemma F_prec : 1 <= prec F.
Proof. unfold F, fmt_of; cbn [prec]. rewrite Hso. lia. Qed.

Lemma emax_emin : emax G = 1 - emin_normal G.
Proof. rewrite emax_eq by auto. unfold emin_normal, bias. lia. Qed.

Lemma round_in : forall v, inF F v -> (Qabs v < p2 (emax G + 1))%Q ->
  exists r, sollya_round G v = Some r /\ (r == v)%Q.
Proof.
  intros v I B. pose proof (rnd_id F (rne F) (rne_nearest F F_prec) v I) as E.
  destruct (sollya_round_cases G v) as [(r & S & R & _)|[_ C]].
  - exists r. split; auto. rewrite R. exact E.
  - exfalso. fold F in C. rewrite E in C. lra.
Qed.

Lemma exp_ins_val : forall k, emin_normal G <= k <= emax G -> exists q, exp_ins G k = Num q /\ (q == p2 k)%Q.
Proof.
  clear Hwide. intros k Hk. unfold exp_ins. rewrite Z.mod_small; [apply fp_exponent_insertion; auto|].
  unfold exp_insertion, bit_size. rewrite Z.shiftl_mul_pow2 by lia.
  rewrite emax_eq in Hk by auto. unfold emin_normal, bias in *.
  pose proof (pe_half G Hok). pose proof (pe1_ge G Hok). pose proof (pf_ge G Hok). pose proof (e_pos G Hok).
  rewrite !Z.pow_add_r by lia. change (2 ^ 1) with 2. nia.
Qed.

Lemma f_mul_num : forall a b, (0 < a)%Q -> (0 < b)%Q -> f_mul G (Num a) (Num b) = datum (sollya_round G (a * b)%Q) false.
Proof.
  intros a b Ha Hb. unfold f_mul, f_neg.
  assert (A : Qle_bool 0 a = true) by (apply Qle_bool_iff; lra).
  assert (B : Qle_bool 0 b = true) by (apply Qle_bool_iff; lra). rewrite A, B. reflexivity.
Qed.

(* scaling of a significand that stays in the normal range *)
Lemma scaled_in : forall q k, inF F q -> (p2 (-1) <= q)%Q -> (q < 2)%Q -> emin_normal G + 1 <= k -> inF F (p2 k * q).
Proof.
  intros q k I L U Hk. pose proof F_prec as Hp1.
  assert (M : mult (- fsz G - 1) q).
  { destruct (Qlt_le_dec (p2 (-1)) q) as [C|C].
    - apply (inF_big F Hp1 _ _ I). unfold F, fmt_of; cbn [prec]. rewrite Hso.
      replace (fsz G + 1 + (- fsz G - 1) - 1) with (-1) by lia. rewrite Qabs_pos; [auto|]. pose proof (p2_pos (-1)). lra.
    - apply (mult_comp _ (p2 (-1))); [apply Qle_antisym; auto|]. apply mult_p2. lia. }
  assert (U2 : (q <= inject_Z (2 ^ (fsz G + 2) - 1) * p2 (- fsz G - 1))%Q).
  { apply mult_lt_le; auto. replace (2 ^ (fsz G + 2) - 1 + 1) with (2 ^ (fsz G + 2)) by lia.
    rewrite p2_prec by lia. replace (fsz G + 2 + (- fsz G - 1)) with 1 by lia. rewrite (p2_Z 1) by lia. exact U. }
  (* either at most 1, or a multiple of the coarser unit *)
  destruct (Qlt_le_dec 1 q) as [C|C].
  - assert (M2 : mult (- fsz G) q).
    { apply (inF_big F Hp1 _ _ I). unfold F, fmt_of; cbn [prec]. rewrite Hso.
      replace (fsz G + 1 + - fsz G - 1) with 0 by lia. rewrite p2_0, Qabs_pos; lra. }
    apply (inF_intro F Hp1 (k - fsz G)).
    + destruct M2 as [j Hj]. exists j. rewrite Hj. replace (k - fsz G) with (k + - fsz G) by lia. rewrite p2_plus. ring.
    + unfold exp_ok, F, fmt_of; cbn [emin]. rewrite Hso. lia.
    + unfold F, fmt_of; cbn [prec]. rewrite Hso. replace (fsz G + 1 + (k - fsz G)) with (k + 1) by lia.
      rewrite p2_succ. pose proof (p2_pos k). rewrite Qabs_pos; nra.
  - apply (inF_intro F Hp1 (k - fsz G - 1)).
    + destruct M as [j Hj]. exists j. rewrite Hj. replace (k - fsz G - 1) with (k + (- fsz G - 1)) by lia. rewrite p2_plus. ring.
    + unfold exp_ok, F, fmt_of; cbn [emin]. rewrite Hso. lia.
    + unfold F, fmt_of; cbn [prec]. rewrite Hso. replace (fsz G + 1 + (k - fsz G - 1)) with k by lia.
      pose proof (p2_pos k). pose proof (p2_pos (-1)). rewrite Qabs_pos; nra.
Qed.

(* an exact scaling followed by a multiplication *)
Lemma two_steps : forall q a b, inF F q -> (p2 (-1) <= q)%Q -> (q < 2)%Q ->
  emin_normal G + 1 <= a <= emax G - 1 -> emin_normal G <= b <= emax G ->
  f_mul G (f_mul G (exp_ins G a) (Num q)) (exp_ins G b) = datum (sollya_round G (p2 (a + b) * q)) false.
Proof.
  intros q a b I L U Ha Hb. pose proof (p2_pos (-1)) as P1. pose proof (p2_pos a) as Pa. pose proof (p2_pos b) as Pb.
  destruct (exp_ins_val a) as (qa & Ea & Va); [lia|]. destruct (exp_ins_val b) as (qb & Eb & Vb); [lia|].
  rewrite Ea, Eb. rewrite f_mul_num by lra.
  rewrite (sollya_round_comp G (qa * q) (p2 a * q)) by (rewrite Va; reflexivity).
  destruct (round_in (p2 a * q)) as (r & S & R).
  - apply scaled_in; auto. lia.
  - rewrite Qabs_pos by nra. apply Qlt_le_trans with (p2 (a + 1)); [rewrite p2_succ; nra|apply p2_le; lia].
  - rewrite S. cbn [datum]. assert (Pr : (0 < r)%Q) by (rewrite R; nra).
    destruct (Qeq_bool r 0) eqn:Z; [apply Qeq_bool_iff in Z; lra|].
    rewrite f_mul_num by lra. f_equal. apply sollya_round_comp. rewrite R, Vb, p2_plus. ring.
Qed.

(* the three paths give the same single rounding of 2^k times the polynomial *)
Theorem exp_result_round : forall k poly, inF F poly -> (p2 (-1) <= poly)%Q -> (poly < 2)%Q ->
  emin_subnormal G - 2 <= k <= emax G + 2 ->
  exp_result G k poly = datum (sollya_round G (p2 k * poly)) false.
Proof.
  intros k poly I L U Hk. pose proof emax_emin as EE. pose proof (p2_pos (-1)).
  assert (Es : emin_subnormal G = emin_normal G - fsz G) by (unfold emin_subnormal, emin_normal; lia).
  unfold exp_result. destruct (Z.ltb_spec (emax G) k) as [C|C].
  - cbn [orb negb]. unfold overflow_exp_offset. set (off := (2 * emax G - fsz G) / 2).
    assert (Ho : 2 * off <= 2 * emax G - fsz G < 2 * off + 2).
    { pose proof (Z.div_mod (2 * emax G - fsz G) 2). pose proof (Z.mod_pos_bound (2 * emax G - fsz G) 2). fold off in H0. lia. }
    rewrite two_steps by (auto; lia). replace (k - off + off) with k by lia.
    destruct (sollya_round_cases G (p2 k * poly)) as [(r & S & _)|[S _]]; rewrite S; cbn [datum].
    + destruct (Qeq_bool r 0); reflexivity.
    + reflexivity.
  - destruct (Z.leb_spec k (emin_normal G)) as [D|D]; cbn [orb negb].
    + unfold underflow_exp_offset. rewrite two_steps by (auto; lia).
      replace (k + 2 * fsz G + - (2 * fsz G)) with k by lia. reflexivity.
    + destruct (exp_ins_val k) as (q & E & V); [lia|]. rewrite E. rewrite f_mul_num; [|rewrite V; apply p2_pos|lra].
      f_equal. apply sollya_round_comp. rewrite V. reflexivity.
Qed.
End Recon.
