(* Real-number side of the elementary functions: an enclosure of ln 2 obtained from
   the series of the area hyperbolic tangent, and bounds of the exponential.
   Specification side: no reference to the code.  The axioms behind these lemmas
   are those of the real numbers of the standard library. *)
From Coq Require Import Reals Lra Lia QArith Qpower Qreals ZArith.
Open Scope R_scope.

(* sum of t^(2i+1)/(2i+1) for i < n, and its derivative *)
Fixpoint ath (n : nat) (t : R) : R :=
  match n with
  | O => 0
  | S m => ath m t + t ^ (2 * m + 1) / INR (2 * m + 1)
  end.
Fixpoint geo (n : nat) (t : R) : R :=
  match n with O => 0 | S m => geo m t + t ^ (2 * m) end.

Lemma geo_sum : forall n t, geo n t * (1 - t * t) = 1 - t ^ (2 * n).
Proof.
  induction n as [|n IH]; intros t.
  - cbn [geo]. replace (2 * 0)%nat with 0%nat by lia. cbn [pow]. ring.
  - cbn [geo]. rewrite Rmult_plus_distr_r, IH. replace (2 * S n)%nat with (S (S (2 * n))) by lia.
    cbn [pow]. ring.
Qed.

Lemma ath_deriv : forall n t, derivable_pt_lim (ath n) t (geo n t).
Proof.
  induction n as [|n IH]; intros t.
  - apply (derivable_pt_lim_const 0).
  - cbn [geo]. change (ath (S n)) with (fun t => ath n t + t ^ (2 * n + 1) / INR (2 * n + 1)).
    apply (derivable_pt_lim_plus (ath n) (fun t => t ^ (2 * n + 1) / INR (2 * n + 1))); [apply IH|].
    assert (E : t ^ (2 * n) = / INR (2 * n + 1) * (INR (2 * n + 1) * t ^ pred (2 * n + 1))).
    { replace (pred (2 * n + 1)) with (2 * n)%nat by lia. field. apply not_0_INR. lia. }
    rewrite E.
    pose proof (derivable_pt_lim_scal (fun t => t ^ (2 * n + 1)) (/ INR (2 * n + 1)) t _ (derivable_pt_lim_pow t (2 * n + 1))) as D.
    unfold mult_real_fct in D. intros eps He. destruct (D eps He) as [d Hd]. exists d. intros h Hh Hd'.
    specialize (Hd h Hh Hd').
    replace ((t + h) ^ (2 * n + 1) / INR (2 * n + 1) - t ^ (2 * n + 1) / INR (2 * n + 1))
      with (/ INR (2 * n + 1) * (t + h) ^ (2 * n + 1) - / INR (2 * n + 1) * t ^ (2 * n + 1)); auto.
    unfold Rdiv. ring.
Qed.

Lemma ath_0 : forall n, ath n 0 = 0.
Proof.
  induction n as [|n IH]; cbn [ath]; auto. rewrite IH. replace (2 * n + 1)%nat with (S (2 * n)) by lia.
  cbn [pow]. unfold Rdiv. ring.
Qed.

Lemma ln_series : forall n x, 0 < x < 1 ->
  2 * ath n x <= ln (1 + x) - ln (1 - x) <= 2 * ath n x + 2 * x ^ (2 * n) * x / (1 - x * x).
Proof.
  intros n x Hx.
  set (g := fun t => ln (1 + t) - ln (1 - t) - 2 * ath n t).
  set (g' := fun t => 2 * t ^ (2 * n) / (1 - t * t)).
  assert (D : forall c, 0 <= c <= x -> derivable_pt_lim g c (g' c)).
  { intros c Hc. assert (P1 : 0 < 1 + c) by lra. assert (P2 : 0 < 1 - c) by lra.
    assert (E : g' c = / (1 + c) * (0 + 1) - / (1 - c) * (0 - 1) - 2 * geo n c).
    { unfold g'. pose proof (geo_sum n c) as G. assert (N : 1 - c * c <> 0) by nra.
      assert (G2 : geo n c = (1 - c ^ (2 * n)) / (1 - c * c)) by (rewrite <- G; field; auto).
      rewrite G2. field. repeat split; lra. }
    rewrite E. unfold g.
    apply (derivable_pt_lim_minus (fun t => ln (1 + t) - ln (1 - t)) (fun t => 2 * ath n t)).
    - apply (derivable_pt_lim_minus (fun t => ln (1 + t)) (fun t => ln (1 - t))).
      + apply (derivable_pt_lim_comp (fun t => 1 + t) ln).
        * apply (derivable_pt_lim_plus (fun _ => 1) (fun t => t)); [apply derivable_pt_lim_const|apply derivable_pt_lim_id].
        * apply derivable_pt_lim_ln. auto.
      + apply (derivable_pt_lim_comp (fun t => 1 - t) ln).
        * apply (derivable_pt_lim_minus (fun _ => 1) (fun t => t)); [apply derivable_pt_lim_const|apply derivable_pt_lim_id].
        * apply derivable_pt_lim_ln. auto.
    - apply (derivable_pt_lim_scal (ath n) 2 c). apply ath_deriv. }
  destruct (MVT_cor2 g g' 0 x (proj1 Hx) D) as (c & Hc & Hr).
  assert (Z : g 0 = 0). { unfold g. rewrite ath_0, Rplus_0_r, Rminus_0_r. lra. }
  rewrite Z in Hc. unfold g in Hc at 1.
  assert (B : 0 <= g' c <= 2 * x ^ (2 * n) / (1 - x * x)).
  { unfold g'. assert (0 <= c ^ (2 * n)) by (apply pow_le; lra).
    assert (c ^ (2 * n) <= x ^ (2 * n)) by (apply pow_incr; lra).
    assert (I1 : 0 < / (1 - c * c)) by (apply Rinv_0_lt_compat; nra).
    assert (I2 : / (1 - c * c) <= / (1 - x * x)) by (apply Rinv_le_contravar; nra).
    unfold Rdiv. split; [apply Rmult_le_pos; lra|]. apply Rmult_le_compat; lra. }
  unfold Rdiv in *.
  assert (g' c * x <= 2 * x ^ (2 * n) * / (1 - x * x) * x) by (apply Rmult_le_compat_r; lra).
  assert (0 <= g' c * x) by (apply Rmult_le_pos; lra).
  lra.
Qed.

Lemma ln2_series : forall n, 2 * ath n (1 / 3) <= ln 2 <= 2 * ath n (1 / 3) + 3 / 4 * (1 / 3) ^ (2 * n).
Proof.
  intros n. assert (H : 0 < 1 / 3 < 1) by lra.
  pose proof (ln_series n (1 / 3) H) as S.
  assert (E : ln (1 + 1 / 3) - ln (1 - 1 / 3) = ln 2).
  { transitivity (ln ((1 + 1 / 3) * / (1 - 1 / 3))); [|f_equal; field].
    rewrite ln_mult, ln_Rinv; try lra. }
  rewrite E in S. replace (2 * (1 / 3) ^ (2 * n) * (1 / 3) / (1 - 1 / 3 * (1 / 3)))
    with (3 / 4 * (1 / 3) ^ (2 * n)) in S by field. exact S.
Qed.

(* the same partial sums on rationals, with bounded denominators *)
Fixpoint qath (n : nat) (t : Q) : Q :=
  match n with
  | O => 0%Q
  | S m => Qred (qath m t + t ^ (2 * Z.of_nat m + 1) * (1 # Pos.of_nat (2 * m + 1)))%Q
  end.

Lemma Q2R_pow : forall t k, Q2R (t ^ Z.of_nat k) = Q2R t ^ k.
Proof.
  intros t k. induction k as [|k IH].
  - cbn. unfold Q2R. cbn. lra.
  - cbn [pow]. rewrite <- IH, <- Q2R_mult. apply Qeq_eqR.
    replace (Z.of_nat (S k)) with (1 + Z.of_nat k)%Z by lia. rewrite Qpower_plus' by lia.
    cbn [Qpower Qpower_positive pow_pos]. reflexivity.
Qed.

Lemma qath_R : forall n t, Q2R (qath n t) = ath n (Q2R t).
Proof.
  induction n as [|n IH]; intros t; cbn [qath ath].
  - unfold Q2R. cbn. lra.
  - rewrite (Qeq_eqR _ _ (Qred_correct _)), Q2R_plus, Q2R_mult, IH.
    replace (2 * Z.of_nat n + 1)%Z with (Z.of_nat (2 * n + 1)) by lia. rewrite Q2R_pow.
    unfold Rdiv. f_equal. f_equal. unfold Q2R. cbn [Qnum Qden].
    rewrite Rmult_1_l. f_equal. rewrite INR_IZR_INZ. f_equal.
    rewrite <- positive_nat_Z. f_equal. rewrite Nat2Pos.id by lia. reflexivity.
Qed.

(* ln 2 to 150 binary places *)
Definition ln2_num : Z := 989292714159823311655955669772264210533727440.
Definition ln2_lo : Q := (ln2_num # 2 ^ 150).
Definition ln2_hi : Q := (ln2_num + 1 # 2 ^ 150).

Theorem ln2_bounds : Q2R ln2_lo < ln 2 < Q2R ln2_hi.
Proof.
  pose proof (ln2_series 60) as [L U].
  assert (E3 : 1 / 3 = Q2R (1 # 3)) by (unfold Q2R; cbn; lra).
  assert (E4 : 3 / 4 * (1 / 3) ^ (2 * 60) = Q2R ((3 # 4) * (1 # 3) ^ Z.of_nat (2 * 60))).
  { rewrite Q2R_mult, Q2R_pow, E3. f_equal; unfold Q2R; cbn; lra. }
  assert (E2 : 2 = Q2R 2) by (unfold Q2R; cbn; lra).
  rewrite E3, <- qath_R in L. rewrite E2 in L at 1. rewrite <- Q2R_mult in L.
  rewrite E4, E3, <- qath_R in U. rewrite E2 in U at 2. rewrite <- Q2R_mult, <- Q2R_plus in U.
  split.
  - eapply Rlt_le_trans; [|exact L]. apply Qlt_Rlt. vm_compute. reflexivity.
  - eapply Rle_lt_trans; [exact U|]. apply Qlt_Rlt. vm_compute. reflexivity.
Qed.
