(* Series of the logarithm. *)
From Coq Require Import ZArith Lia Reals Lra.
From Verif Require Import RealUtil.
Open Scope R_scope.

Fixpoint lnT (n : nat) (t : R) : R :=
  match n with O => 0 | S m => lnT m t + (-1) ^ m / INR (S m) * t ^ S m end.
Fixpoint geo (n : nat) (t : R) : R :=
  match n with O => 0 | S m => geo m t + (- t) ^ m end.

Lemma geo_sum : forall n t, (1 + t) * geo n t = 1 - (- t) ^ n.
Proof. induction n as [|n IH]; intros t; cbn [geo pow]; [ring|]. rewrite Rmult_plus_distr_l, IH. ring. Qed.

Lemma lnT_deriv : forall n t, derivable_pt_lim (lnT n) t (geo n t).
Proof.
  induction n as [|n IH]; intros t.
  - cbn [geo]. apply (derivable_pt_lim_const 0).
  - cbn [geo]. change (lnT (S n)) with (fun t => lnT n t + (-1) ^ n / INR (S n) * t ^ S n).
    apply (derivable_pt_lim_plus (lnT n) (fun t => (-1) ^ n / INR (S n) * t ^ S n)); [apply IH|].
    replace ((- t) ^ n) with ((-1) ^ n / INR (S n) * (INR (S n) * t ^ pred (S n))).
    + apply (derivable_pt_lim_scal (fun t => t ^ S n)). apply derivable_pt_lim_pow.
    + cbn [pred]. replace (- t) with ((-1) * t) by ring. rewrite Rpow_mult_distr. field. apply not_0_INR. lia.
Qed.

Lemma lnT_0 : forall n, lnT n 0 = 0.
Proof. induction n as [|n IH]; [reflexivity|]. cbn [lnT pow]. rewrite IH. ring. Qed.

Lemma ln_taylor : forall n t, Rabs t <= 1 / 2 -> Rabs (ln (1 + t) - lnT n t) <= 2 * Rabs t ^ S n.
Proof.
  intros n t Ht. set (g := fun t => ln (1 + t) - lnT n t). set (g' := fun t => / (1 + t) - geo n t).
  assert (D : forall c, Rabs c <= 1 / 2 -> derivable_pt_lim g c (g' c)).
  { intros c Hc. apply Rabs_le_inv in Hc.
    apply (derivable_pt_lim_minus (fun t => ln (1 + t)) (lnT n)); [|apply lnT_deriv].
    replace (/ (1 + c)) with (/ (1 + c) * 1) by ring.
    apply (derivable_pt_lim_comp (fun t => 1 + t) ln).
    - assert (X : derivable_pt_lim (fun t => 1 + t) c (0 + 1)).
      { apply (derivable_pt_lim_plus (fun _ => 1) (fun t => t)); [apply derivable_pt_lim_const|apply derivable_pt_lim_id]. }
      rewrite Rplus_0_l in X. exact X.
    - apply derivable_pt_lim_ln. lra. }
  assert (G0 : g 0 = 0) by (unfold g; rewrite Rplus_0_r, ln_1, lnT_0; ring).
  assert (B : forall c, Rabs c <= Rabs t -> Rabs (g' c) <= 2 * Rabs t ^ n).
  { intros c Hc. pose proof (Rabs_le_inv c (1 / 2) ltac:(lra)) as Hc'.
    assert (E : g' c = / (1 + c) * (- c) ^ n).
    { unfold g'. assert (geo n c = / (1 + c) * (1 - (- c) ^ n)) by (rewrite <- geo_sum; field; lra). rewrite H. ring. }
    rewrite E, Rabs_mult, <- RPow_abs, Rabs_Ropp. apply Rmult_le_compat.
    - apply Rabs_pos.
    - apply pow_le. apply Rabs_pos.
    - rewrite Rabs_pos_eq; [|left; apply Rinv_0_lt_compat; lra]. replace 2 with (/ (1 / 2)) by lra. apply Rinv_le_contravar; lra.
    - apply pow_incr. split; [apply Rabs_pos|auto]. }
  change (Rabs (g t) <= 2 * Rabs t ^ S n).
  assert (M : exists c, g t = t * g' c /\ Rabs c <= Rabs t).
  { destruct (Rtotal_order t 0) as [L|[->|L]].
    - destruct (MVT_cor2 g g' t 0 L) as (c & E & Hc).
      { intros c Hc. apply D. rewrite Rabs_left1 by lra. rewrite Rabs_left in Ht; lra. }
      exists c. rewrite G0 in E. split; [lra|]. rewrite !Rabs_left; lra.
    - exists 0. rewrite G0. split; [ring|lra].
    - destruct (MVT_cor2 g g' 0 t L) as (c & E & Hc).
      { intros c Hc. apply D. rewrite Rabs_pos_eq by lra. rewrite Rabs_pos_eq in Ht; lra. }
      exists c. rewrite G0 in E. split; [lra|]. rewrite !Rabs_pos_eq; lra. }
  destruct M as (c & E & Hc). rewrite E, Rabs_mult. cbn [pow]. specialize (B c Hc).
  pose proof (Rabs_pos t). pose proof (Rmult_le_compat_l _ _ _ H B). lra.
Qed.
