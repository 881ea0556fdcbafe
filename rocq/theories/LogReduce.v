(* The argument reduction of the logarithm. *)
From Coq Require Import ZArith QArith Qabs Qround Lia Lqa List Bool.
From Verif Require Import QUtil FpFormatModel RoundSpec RoundProofs RoundRne DivModel DivCore DivProofs DivProps DivScheme LogModel.
Open Scope Q_scope.

Lemma mant_of_range : forall v, 0 < v -> 1 <= mant_of v /\ mant_of v < 2 /\ v == p2 (qlog2 v) * mant_of v.
Proof.
  intros v Hv. unfold mant_of. destruct (qlog2_spec v Hv) as [A B]. set (e := qlog2 v) in *. clearbody e.
  pose proof (p2_pos (- e)) as P. assert (E : p2 e * p2 (- e) == 1) by (rewrite <- p2_plus; replace (e + - e)%Z with 0%Z by lia; apply p2_0).
  split; [|split].
  - apply (Qle_trans _ (p2 e * p2 (- e))); [rewrite E; lra|]. apply Qmult_le_compat_r; lra.
  - apply (Qlt_le_trans _ (p2 (e + 1) * p2 (- e))); [apply Qmult_lt_r; auto|]. rewrite p2_succ. setoid_replace (2 * p2 e * p2 (- e)) with (2 * (p2 e * p2 (- e))) by ring. rewrite E. lra.
  - setoid_replace (p2 e * (v * p2 (- e))) with (p2 e * p2 (- e) * v) by ring. rewrite E. ring.
Qed.

Lemma inF_shift : forall p e x, inF (mkF p None) x -> inF (mkF p None) (x * p2 e).
Proof.
  intros p e x (m & f & E & B & _). exists m, (f + e)%Z. split; [rewrite E, p2_plus; ring|]. split; auto. exact I.
Qed.

Lemma one_two : forall m, 1 <= m -> m < 2 -> qlog2 (Qabs m) = 0%Z /\ qlog2 m = 0%Z /\ mant m == m /\ ~ m == 0.
Proof.
  intros m A B. assert (E1 : qlog2 m = 0%Z) by (apply qlog2_unique; [rewrite p2_0; auto|change (p2 (0 + 1)) with 2; auto]).
  assert (E : qlog2 (Qabs m) = 0%Z).
  { apply qlog2_unique; rewrite Qabs_pos by lra; [rewrite p2_0; auto|change (p2 (0 + 1)) with 2; auto]. }
  split; auto. split; auto. split; [unfold mant; rewrite E, Qabs_pos by lra; change (- 0)%Z with 0%Z; rewrite p2_0; ring|lra].
Qed.

(* the seed of a significand is the entry of the table *)
Lemma seed_entry : forall t m, 1 <= m -> m < 2 ->
  reciprocal_seed t (fun v => v) m == nth (Z.to_nat (table_index m)) t 0.
Proof.
  intros t m A B. destruct (one_two m A B) as (E1 & E2 & E3 & N). unfold reciprocal_seed. rewrite E1. change (- 0)%Z with 0%Z. rewrite p2_0.
  destruct (Qle_bool 0 m) eqn:S; [ring|]. apply Qle_false in S. lra.
Qed.

(* clearing the last bit changes no number of 9 digits at most 1 *)
Theorem clear_last_entry : forall p k x, (12 <= p)%Z -> x == inject_Z k * p2 (- 9) -> 0 < x -> x <= 1 -> clear_last p x == x.
Proof.
  intros p k x Hp E H0 H1. unfold clear_last. destruct (qlog2_spec x H0) as [A B]. set (q := qlog2 x) in *. clearbody q.
  assert (Hq : (q <= 0)%Z).
  { assert (W : p2 q < p2 1) by (change (p2 1) with 2; lra).
    destruct (Z_le_gt_dec q 0); auto. pose proof (p2_le 1 q ltac:(lia)). lra. }
  assert (Ex : x * p2 (p - 2 - q) == inject_Z (k * 2 ^ (p - 11 - q))).
  { rewrite E, inject_Z_mult, <- p2_Z by lia. setoid_replace (inject_Z k * p2 (- 9) * p2 (p - 2 - q)) with (inject_Z k * (p2 (- 9) * p2 (p - 2 - q))) by ring.
    rewrite <- p2_plus. replace (- 9 + (p - 2 - q))%Z with (p - 11 - q)%Z by lia. reflexivity. }
  rewrite (Qfloor_comp _ _ Ex), Qfloor_Z, <- Ex. setoid_replace (x * p2 (p - 2 - q) * p2 (q + 2 - p)) with (x * (p2 (p - 2 - q) * p2 (q + 2 - p))) by ring.
  rewrite <- p2_plus. replace (p - 2 - q + (q + 2 - p))%Z with 0%Z by lia. rewrite p2_0. ring.
Qed.

Section Red.
Variable p : Z.
Hypothesis Hp : (12 <= p)%Z.
Variable c : log_cst.
Hypothesis Ht : table_ok (265 # 32768) (c_inv c) = true.

Lemma arg_red_entry : forall m, 1 <= m -> m < 2 ->
  arg_red p (fun v => v) c m == (if Z.eqb (table_index m) 0 then 1 else nth (Z.to_nat (table_index m)) (c_inv c) 0).
Proof.
  intros m A B. unfold arg_red. destruct (Z.eqb_spec (table_index m) 0) as [Z|Z]; [reflexivity|].
  destruct (one_two m A B) as (E1 & E2 & E3 & N). pose proof (seed_entry (c_inv c) m A B) as S.
  destruct (entry_bound _ _ m Ht N) as (B0 & (k & Ek) & B1 & B2). set (x := nth _ (c_inv c) 0) in *. clearbody x. rewrite E3 in B0.
  set (s := reciprocal_seed _ _ m) in *. clearbody s.
  assert (P : 0 < x).
  { destruct (Qlt_le_dec 0 x); auto. assert (x == 0) by lra. rewrite H in B0. setoid_replace (1 - m * 0) with 1 in B0 by ring. exfalso; apply (Qle_not_lt _ _ B0); reflexivity. }
  rewrite (clear_last_entry p k s Hp); [exact S|rewrite S; exact Ek|lra|lra].
Qed.

(* the reduced argument *)
Theorem reduced_argument : forall m, 1 <= m -> m < 2 ->
  Qabs (arg_red p (fun v => v) c m * m - 1) <= 265 # 32768 /\ 0 < arg_red p (fun v => v) c m /\ arg_red p (fun v => v) c m <= 1
  /\ (table_index m = 0%Z -> arg_red p (fun v => v) c m = 1 /\ m < 1 + (1 # 128)).
Proof.
  intros m A B. destruct (one_two m A B) as (E1 & E2 & E3 & N).
  destruct (entry_bound _ _ m Ht N) as (B0 & _ & B1 & B2). rewrite E3 in B0.
  destruct (index_range m N) as (R & L & U). rewrite E3 in L, U.
  assert (Z0 : table_index m = 0%Z -> arg_red p (fun v => v) c m = 1 /\ m < 1 + (1 # 128)).
  { intros Z. split; [unfold arg_red; rewrite Z; reflexivity|]. rewrite Z in U. change (inject_Z (0 + 1) / 128) with (1 # 128) in U. exact U. }
  pose proof (arg_red_entry m A B) as E. destruct (Z.eqb_spec (table_index m) 0) as [Z|Z].
  - destruct (Z0 Z) as [E0 Um]. rewrite E0. split; [|split; [reflexivity|split; [lra|auto]]].
    apply Qabs_case; intros; lra.
  - set (x := nth _ (c_inv c) 0) in *. clearbody x.
    assert (P : 0 < x).
    { destruct (Qlt_le_dec 0 x); auto. assert (Ex : x == 0) by lra. rewrite Ex in B0. setoid_replace (1 - m * 0) with 1 in B0 by ring. exfalso; apply (Qle_not_lt _ _ B0); reflexivity. }
    split; [|split; [rewrite E; auto|split; [rewrite E; auto|auto]]].
    rewrite E. setoid_replace (x * m - 1) with (- (1 - m * x)) by ring. rewrite Qabs_opp. exact B0.
Qed.
End Red.
