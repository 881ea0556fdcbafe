(* One Newton iteration of the cubic root on the real numbers, with the errors
   of its operations. *)
From Coq Require Import ZArith Lia Reals Lra.
From Verif Require Import RealUtil.
Open Scope R_scope.

Lemma abs_mul_le : forall a b A B, Rabs a <= A -> Rabs b <= B -> Rabs (a * b) <= A * B.
Proof. intros a b A B Ha Hb. rewrite Rabs_mult. apply Rmult_le_compat; auto using Rabs_pos. Qed.
Lemma abs_add_le : forall a b A B, Rabs a <= A -> Rabs b <= B -> Rabs (a + b) <= A + B.
Proof. intros a b A B Ha Hb. eapply Rle_trans; [apply Rabs_triang|lra]. Qed.

(* product of perturbations *)
Lemma pert_mul : forall a b A B, Rabs a <= A -> Rabs b <= B -> Rabs ((1 + a) * (1 + b) - 1) <= A + B + A * B.
Proof.
  intros a b A B Ha Hb. replace ((1 + a) * (1 + b) - 1) with (a + b + a * b) by ring.
  apply abs_add_le; [apply abs_add_le; auto|apply abs_mul_le; auto].
Qed.

Section Newton.
Variables (U c e d1 d2 d3 d4 d5 d6 : R).
Hypothesis HU : 0 < U <= / 4096.
Hypothesis He : Rabs e <= 1 / 100.
Hypothesis H1 : Rabs d1 <= U.
Hypothesis H2 : Rabs d2 <= U.
Hypothesis H3 : Rabs d3 <= U.
Hypothesis H4 : Rabs d4 <= U / 32.
Hypothesis H5 : Rabs d5 <= U.
Hypothesis H6 : Rabs d6 <= U.

(* the perturbed iteration, relative to the root *)
Let t := 1 + e.
Let df := 1 - t * t * t * ((1 + d1) * (1 + d2) * (1 + d3)) + d4.
Let v := t + t * (1 / 3) * ((1 + d5) * (1 + d6)) * df.

Lemma pert3 : Rabs ((1 + d1) * (1 + d2) * (1 + d3) - 1) <= 3.001 * U.
Proof.
  pose proof (pert_mul d1 d2 U U H1 H2) as P. set (a := (1 + d1) * (1 + d2) - 1) in *.
  assert (UU : U * U <= / 4096 * U) by (apply Rmult_le_compat_r; lra).
  assert (Pa : Rabs a <= 2.0003 * U) by lra.
  pose proof (pert_mul a d3 _ U Pa H3) as P2. replace ((1 + d1) * (1 + d2) * (1 + d3)) with ((1 + a) * (1 + d3)) by (unfold a; ring).
  eapply Rle_trans; [exact P2|]. lra.
Qed.
Lemma pert2 : Rabs ((1 + d5) * (1 + d6) - 1) <= 2.0003 * U.
Proof.
  pose proof (pert_mul d5 d6 U U H5 H6) as P.
  assert (UU : U * U <= / 4096 * U) by (apply Rmult_le_compat_r; lra). lra.
Qed.

Lemma df_small : Rabs (df - d4) <= 3.04 * Rabs e + 3.1 * U.
Proof.
  pose proof pert3 as P. set (th := (1 + d1) * (1 + d2) * (1 + d3) - 1) in *.
  replace (df - d4) with (- (e * (3 + 3 * e + e * e)) + - (t * t * t * th)) by (unfold df, th, t; ring).
  pose proof (Rabs_pos e) as E0.
  assert (T1 : Rabs (3 + 3 * e + e * e) <= 3.04) by (apply Rabs_le_inv in He; apply Rabs_le; split; nra).
  assert (T2 : Rabs (t * t * t) <= 1.0304).
  { unfold t. apply Rabs_le_inv in He. assert (0.98 <= (1 + e) * (1 + e) <= 1.0201) by nra. apply Rabs_le; split; nra. }
  apply Rle_trans with (Rabs e * 3.04 + 1.0304 * (3.001 * U)); [|lra].
  apply abs_add_le; rewrite Rabs_Ropp; apply abs_mul_le; auto; lra.
Qed.
Lemma df_abs : Rabs (df - d4) <= / 16 /\ Rabs df <= / 16.
Proof. pose proof df_small as D. split; [lra|]. replace df with ((df - d4) + d4) by ring. eapply Rle_trans; [apply abs_add_le; [exact D|exact H4]|]. lra. Qed.

Theorem newton_real : Rabs (v - 1) <= 2.03 * (e * e) + U * (1.02 + 8 * Rabs e).
Proof.
  pose proof pert3 as P. pose proof pert2 as P2. pose proof df_small as D. pose proof (Rabs_pos e) as E0.
  set (th := (1 + d1) * (1 + d2) * (1 + d3) - 1) in *. set (ph := (1 + d5) * (1 + d6) - 1) in *.
  assert (E : v - 1 = - (e * e * (6 + 4 * e + e * e) / 3) + t * (1 / 3) * (- (t * t * t * th) + d4 + ph * df)).
  { unfold v, df. replace ((1 + d1) * (1 + d2) * (1 + d3)) with (1 + th) by (unfold th; ring).
    replace ((1 + d5) * (1 + d6)) with (1 + ph) by (unfold ph; ring). unfold t. field. }
  rewrite E. clear E.
  assert (Dd : Rabs df <= 3.04 * Rabs e + 3.2 * U).
  { replace df with ((df - d4) + d4) by ring. eapply Rle_trans; [apply abs_add_le; [exact D|exact H4]|]. lra. }
  assert (Et : Rabs t <= 1 + Rabs e) by (unfold t; eapply Rle_trans; [apply Rabs_triang|]; rewrite Rabs_R1; lra).
  assert (Q : Rabs (t * t * t) <= 1 + 3.04 * Rabs e).
  { rewrite !Rabs_mult. set (a := Rabs e) in *. set (b := Rabs t) in *. assert (B0 : 0 <= b) by (unfold b; apply Rabs_pos). clearbody a b.
    assert (b * b <= (1 + a) * (1 + a)) by (apply Rmult_le_compat; auto). assert (b * b * b <= (1 + a) * (1 + a) * (1 + a)) by (apply Rmult_le_compat; auto; apply Rmult_le_pos; auto).
    assert (a * a <= 1 / 100 * a) by (apply Rmult_le_compat_r; lra). nra. }
  assert (M : Rabs (- (t * t * t * th) + d4 + ph * df) <= (1 + 3.04 * Rabs e) * (3.001 * U) + U / 32 + 2.0003 * U * (3.04 * Rabs e + 3.2 * U)).
  { apply abs_add_le; [apply abs_add_le; [rewrite Rabs_Ropp|]|]; auto; apply abs_mul_le; auto. }
  assert (M2 : Rabs (- (t * t * t * th) + d4 + ph * df) <= U * (3.0345 + 15.3 * Rabs e)).
  { eapply Rle_trans; [exact M|]. assert (UU : U * U <= / 4096 * U) by (apply Rmult_le_compat_r; lra).
    assert (0 <= U * Rabs e) by (apply Rmult_le_pos; lra). lra. }
  assert (B : Rabs (e * e * (6 + 4 * e + e * e) / 3) <= 2.03 * (e * e)).
  { assert (0 <= e * e) by nra. apply Rabs_le_inv in He. assert (5.9 <= 6 + 4 * e + e * e <= 6.05) by nra. rewrite Rabs_pos_eq by nra. nra. }
  apply Rle_trans with (2.03 * (e * e) + (1 + Rabs e) * (1 / 3) * (U * (3.0345 + 15.3 * Rabs e))).
  - apply abs_add_le; [rewrite Rabs_Ropp; exact B|]. apply abs_mul_le; auto. rewrite Rabs_mult. rewrite (Rabs_pos_eq (1 / 3)) by lra. lra.
  - set (a := Rabs e) in *. clearbody a. assert (a * a <= 1 / 100 * a) by (apply Rmult_le_compat_r; lra).
    assert (X : (1 + a) * (1 / 3) * (3.0345 + 15.3 * a) <= 1.02 + 8 * a) by nra.
    assert (U * ((1 + a) * (1 / 3) * (3.0345 + 15.3 * a)) <= U * (1.02 + 8 * a)) by (apply Rmult_le_compat_l; lra). lra.
Qed.

Theorem newton_round : forall d, Rabs d <= U -> Rabs (v * (1 + d) - 1) <= 2.04 * (e * e) + 2.11 * U.
Proof.
  intros d Hd. pose proof newton_real as N. pose proof (Rabs_pos e) as E0.
  assert (Ee : e * e <= 1 / 100 * Rabs e) by (replace (e * e) with (Rabs e * Rabs e) by (rewrite <- Rabs_mult; apply Rabs_pos_eq; nra); apply Rmult_le_compat_r; lra).
  assert (Ee0 : 0 <= e * e) by nra.
  replace (v * (1 + d) - 1) with ((v - 1) + (d + (v - 1) * d)) by ring.
  assert (Nb : Rabs (v - 1) <= 0.001).
  { eapply Rle_trans; [exact N|]. assert (U * (1.02 + 8 * Rabs e) <= / 4096 * 1.1) by (apply Rmult_le_compat; lra). lra. }
  assert (UE : U * Rabs e <= U * (1 / 100)) by (apply Rmult_le_compat_l; lra).
  eapply Rle_trans; [apply abs_add_le; [exact N|apply abs_add_le; [exact Hd|apply abs_mul_le; [exact N|exact Hd]]]|].
  set (k := 2.03 * (e * e) + U * (1.02 + 8 * Rabs e)) in *. assert (K0 : 0 <= k <= 0.002).
  { split; [unfold k; apply Rplus_le_le_0_compat; [lra|apply Rmult_le_pos; lra]|].
    unfold k. assert (U * (1.02 + 8 * Rabs e) <= / 4096 * 1.1) by (apply Rmult_le_compat; lra). lra. }
  assert (k * U <= 0.002 * U) by (apply Rmult_le_compat_r; lra). unfold k in *. lra.
Qed.
End Newton.
