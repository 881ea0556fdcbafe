(* Round to nearest, ties to even, is a nearest_in rounding, and it is the
   rounding of the formats of the code as long as nothing overflows. *)
From Coq Require Import ZArith QArith Qround Qabs Lia Lqa Setoid.
From Verif Require Import QUtil FpFormatModel FpFormatProofs FpFormatProofs2 RoundSpec RoundProofs.
Open Scope Z_scope.

(* exponent of the last digit kept *)
Definition rexp (F : fmt) (x : Q) : Z :=
  let e := qlog2 (Qabs x) - prec F + 1 in
  match emin F with None => e | Some k => Z.max e k end.

Definition rne (F : fmt) (x : Q) : Q :=
  if Qeq_bool x 0 then 0%Q else (inject_Z (qrne (x / p2 (rexp F x))) * p2 (rexp F x))%Q.

Lemma qlog2_comp : forall a b, (0 < a)%Q -> (a == b)%Q -> qlog2 a = qlog2 b.
Proof.
  intros a b H E. destruct (qlog2_spec a H) as [H1 H2].
  symmetry. apply qlog2_unique; rewrite <- E; auto.
Qed.

Theorem rne_nearest : forall F, 1 <= prec F -> nearest_in F (rne F).
Proof.
  intros F Hp. split; [|split].
  - intros x y E. unfold rne.
    destruct (Qeq_bool x 0) eqn:Ex; destruct (Qeq_bool y 0) eqn:Ey.
    + reflexivity.
    + exfalso. apply Qeq_bool_iff in Ex. apply Qeq_bool_neq in Ey. apply Ey. rewrite <- E. auto.
    + exfalso. apply Qeq_bool_neq in Ex. apply Qeq_bool_iff in Ey. apply Ex. rewrite E. auto.
    + assert (R : rexp F x = rexp F y).
      { unfold rexp. rewrite (qlog2_comp (Qabs x) (Qabs y)); [reflexivity| |apply Qabs_wd; auto].
        apply Qabs_nz. apply Qeq_bool_neq; auto. }
      rewrite R. rewrite (qrne_comp (x / p2 (rexp F y)) (y / p2 (rexp F y))); [reflexivity|].
      rewrite E. reflexivity.
  - intros x. unfold rne. destruct (Qeq_bool x 0) eqn:Ex; [apply inF_0; auto|].
    apply Qeq_bool_neq in Ex. pose proof (Qabs_nz x Ex) as Px.
    destruct (qlog2_spec _ Px) as [L1 L2].
    exists (qrne (x / p2 (rexp F x))), (rexp F x). split; [reflexivity|]. split.
    2:{ unfold exp_ok, rexp. destruct (emin F); lia. }
    assert (Hle : qlog2 (Qabs x) + 1 <= prec F + rexp F x) by (unfold rexp; destruct (emin F); lia).
    pose proof (p2_le _ _ Hle) as L3. pose proof (p2_pos (rexp F x)) as Pe.
    assert (B : (Qabs (x / p2 (rexp F x)) <= inject_Z (2 ^ prec F))%Q).
    { apply (Qmult_lt_0_le_reg_r _ _ (p2 (rexp F x))); auto. rewrite <- Qabs_mul_pos by auto.
      rewrite p2_prec by lia. setoid_replace (x / p2 (rexp F x) * p2 (rexp F x))%Q with x by (field; apply p2_nz). lra. }
    apply Qabs_le_iff in B. destruct B as [B1 B2]. rewrite <- inject_Z_opp in B1.
    apply qrne_bounds_int_l in B1. apply qrne_bounds_int in B2. lia.
  - intros x f Hf. unfold rne. destruct (Qeq_bool x 0) eqn:Ex.
    { apply Qeq_bool_iff in Ex. rewrite Ex at 1. setoid_replace (0 - 0)%Q with 0%Q by ring. apply Qabs_nonneg. }
    apply Qeq_bool_neq in Ex. pose proof (Qabs_nz x Ex) as Px.
    destruct (qlog2_spec _ Px) as [L1 L2]. set (e := rexp F x). pose proof (p2_pos e) as Pe.
    assert (N : forall k, (Qabs (inject_Z (qrne (x / p2 e)) * p2 e - x) <= Qabs (inject_Z k * p2 e - x))%Q).
    { intros k. rewrite !(Qabs_Qminus _ x). rewrite !Qabs_scale by auto.
      apply Qmult_le_compat_r; [apply int_nearest|lra]. }
    destruct (inF_elim F Hp f Hf) as (g & M & O & B).
    destruct (Z.le_gt_cases e g) as [C|C].
    + destruct (mult_le _ _ _ C M) as [k Hk]. specialize (N k). rewrite <- Hk in N. exact N.
    + assert (He : e = qlog2 (Qabs x) - prec F + 1).
      { unfold e, rexp, exp_ok in *. destruct (emin F); lia. }
      assert (Hg : (Qabs f <= p2 (qlog2 (Qabs x)))%Q).
      { eapply Qle_trans; [exact B|]. apply p2_le. lia. }
      assert (Hl : (inject_Z (2 ^ (prec F - 1)) * p2 e == p2 (qlog2 (Qabs x)))%Q).
      { rewrite p2_prec by lia. replace (prec F - 1 + e) with (qlog2 (Qabs x)) by lia. reflexivity. }
      destruct (Qlt_le_dec x 0).
      * specialize (N (- 2 ^ (prec F - 1))). rewrite inject_Z_opp in N.
        setoid_replace (- inject_Z (2 ^ (prec F - 1)) * p2 e)%Q with (- p2 (qlog2 (Qabs x)))%Q in N by (rewrite <- Hl; ring).
        set (l := p2 (qlog2 (Qabs x))) in *. clearbody l. qabs_lra.
      * specialize (N (2 ^ (prec F - 1))). rewrite Hl in N.
        set (l := p2 (qlog2 (Qabs x))) in *. clearbody l. qabs_lra.
Qed.

(* the format of RoundSpec behind a format of the code *)
Definition fmt_of (G : fpfmt) : fmt := mkF (sprec G) (Some (emin_normal G - (sprec G - 1))).

Theorem sollya_round_rne : forall G v r, sollya_round G v = Some r -> (r == rne (fmt_of G) v)%Q.
Proof.
  intros G v r. unfold sollya_round, rne.
  destruct (Qeq_bool v 0) eqn:E; [intros H; injection H as <-; reflexivity|].
  assert (R : rexp (fmt_of G) v = Z.max (qlog2 (Qabs v)) (emin_normal G) - (sprec G - 1)).
  { unfold rexp, fmt_of; cbn [emin prec]. lia. }
  rewrite R. destruct (Qle_bool _ _); [discriminate|]. intros H; injection H as <-. reflexivity.
Qed.
