(* Properties of the logarithm. *)
From Coq Require Import ZArith QArith Qabs Qround Lia Bool List Reals Qreals Lra.
From Verif Require Import QUtil FpFormatModel SpecialModel RoundSpec RoundProofs RoundRne RealUtil DivModel DivProofs DivScheme DivProps LimbModel PowModel LogModel LogSpec LogLimb LogReduce LogCore LogProofs LogDouble.
Open Scope R_scope.

(* ---- special data ---- *)
Theorem log_special : forall p rnd conv poly c emin v r,
  ieee_log_special v = Some r -> log_scheme p rnd conv poly c emin v = r.
Proof.
  intros p rnd conv poly c emin v r H. destruct v as [x| | | | | |]; cbn [ieee_log_special] in H; try (injection H as <-; reflexivity).
  destruct (Qlt_le_dec x 0) as [L|L]; [|discriminate]. injection H as <-. unfold log_scheme. cbn [t_neg].
  assert (E : Qle_bool 0 x = false) by (destruct (Qle_bool 0 x) eqn:E; auto; apply Qle_bool_iff in E; exfalso; apply (Qle_not_lt _ _ E); auto).
  rewrite E. reflexivity.
Qed.

(* ---- the value of the scheme on positive numbers ---- *)
Lemma table_index_comp : forall a b, (0 < a)%Q -> (a == b)%Q -> table_index a = table_index b.
Proof.
  intros a b H E. unfold table_index. assert (E' : (Qabs a == Qabs b)%Q) by (rewrite E; reflexivity).
  assert (P : (0 < Qabs a)%Q) by (rewrite Qabs_pos; [auto|apply Qlt_le_weak; auto]).
  rewrite (qlog2_comp _ _ P E'). apply Qfloor_comp. rewrite E'. reflexivity.
Qed.

Lemma scheme_value : forall p rnd conv poly c emin x, (1 <= p)%Z -> nearest_in (mkF p None) rnd -> inF (mkF p None) x -> (0 < x)%Q ->
  exists f v, log_scheme p rnd conv poly c emin (Num x) = of_value (reduced_log p rnd conv poly c f v)
  /\ inF (mkF p None) v /\ (v == x * p2 (- f))%Q /\ (qlog2 v + f = qlog2 x)%Z /\ (mant_of v == mant_of x)%Q.
Proof.
  intros p rnd conv poly c emin x Hp Hr Ix Px. unfold log_scheme. cbn [t_neg t_inf t_pinf t_minf t_nan t_subnormal t_zero value orb].
  assert (E : Qle_bool 0 x = true) by (apply Qle_bool_iff; apply Qlt_le_weak; auto). rewrite E. cbn [negb].
  destruct (Qle_bool (p2 emin) (Qabs x)) eqn:S; cbn [negb].
  - exists 0%Z, x. split; [reflexivity|]. split; auto. split; [change (- 0)%Z with 0%Z; rewrite p2_0; ring|]. split; [lia|reflexivity].
  - exists (-100)%Z, (rnd (x * p2 100)%Q). split; [reflexivity|]. split; [apply (rnd_inF _ rnd Hr)|].
    assert (Ev : (rnd (x * p2 100) == x * p2 100)%Q) by (apply (rnd_id _ rnd Hr); apply inF_shift; auto).
    split; [exact Ev|]. set (v := rnd (x * p2 100)%Q) in *. clearbody v.
    destruct (qlog2_spec x Px) as [A B].
    assert (Q : qlog2 v = (qlog2 x + 100)%Z).
    { apply qlog2_unique; rewrite Ev.
      - rewrite p2_plus. apply Qmult_le_compat_r; [auto|]. apply Qlt_le_weak, p2_pos.
      - replace (qlog2 x + 100 + 1)%Z with (qlog2 x + 1 + 100)%Z by lia. rewrite (p2_plus (qlog2 x + 1)). apply Qmult_lt_r; [apply p2_pos|auto]. }
    split; [lia|]. unfold mant_of. rewrite Q, Ev. rewrite <- Qmult_assoc, <- p2_plus. replace (100 + - (qlog2 x + 100))%Z with (- qlog2 x)%Z by lia. reflexivity.
Qed.

Lemma value_of_value : forall q, (value (of_value q) == q)%Q.
Proof.
  intros q. unfold of_value. destruct (Qeq_bool q 0) eqn:E; cbn [value]; [|reflexivity]. apply Qeq_bool_iff in E. symmetry. exact E.
Qed.

Section Acc.
Variables p hs : Z.
Hypothesis Hp : (12 <= p)%Z.
Hypothesis Hhs0 : (10 <= hs < p)%Z.
Lemma Hhs : (10 <= hs <= p)%Z. Proof. clear - Hhs0; lia. Qed.
Notation F := (mkF p None).
Variable rnd : Q -> Q.
Hypothesis Hr : nearest_in F rnd.
Notation U := (Q2R (p2 (- p))).
Variable poly : Q -> Q.
Variable delta : R.
Hypothesis Hpoly : log_poly F delta poly.
Hypothesis Hdelta : 0 <= delta <= U / 8.
Variable c : log_cst.
Hypothesis Hinv : table_ok (265 # 32768) (c_inv c) = true.
Hypothesis Hl2 : two_words hs F (c_log2_hi c, c_log2_lo c) (ln 2).
Hypothesis Htab : log_tables hs F (fun i => nth (Z.to_nat i) (c_inv c) 0%Q) (load (c_log c)) (load (c_log_tho c)).
Hypothesis Hsq : ((181 # 128) <= c_sqrt2 c <= 182 # 128)%Q.
Variable emin : Z.
Notation logv x := (value (log_scheme p rnd (fun v => v) poly c emin (Num x))).

Lemma scheme_error : forall x k, inF F x -> (0 < x)%Q -> (Z.abs (qlog2 x) < 2 ^ (p - hs))%Z -> k = (qlog2 x + ltho c x)%Z ->
  exists V, (logv x == rnd V)%Q
  /\ Rabs (Q2R V - ln (Q2R x)) <= U * (0.0088 * Rabs (IZR k) + 0.0118)
  /\ (k <> 0%Z -> 0.3401 * Rabs (IZR k) <= Rabs (ln (Q2R x)))
  /\ (table_index (mant_of x) = 0%Z -> k = 0%Z ->
      Rabs (Q2R V - ln (Q2R x)) <= (64 * (U * U) + delta) * (Q2R (mant_of x) - 1)).
Proof.
  intros x k Ix Px Bx Ek. destruct (scheme_value p rnd (fun v => v) poly c emin x ltac:(lia) Hr Ix Px) as (f & v & Es & Iv & Ev & Eq & Em).
  rewrite Es. assert (Pv : (0 < v)%Q) by (rewrite Ev; apply Qmult_lt_0_compat; [auto|apply p2_pos]).
  assert (Et : ltho c v = ltho c x).
  { unfold ltho. assert (X : forall a b, (a == b)%Q -> Qle_bool a (c_sqrt2 c) = Qle_bool b (c_sqrt2 c)) by (intros a b E; rewrite E; reflexivity).
    rewrite (X _ _ Em). reflexivity. }
  assert (Bt : (0 <= ltho c x <= 1)%Z) by (unfold ltho; destruct Qle_bool; lia).
  destruct (mant_of_range x Px) as (M1 & _).
  assert (Ei : table_index (mant_of v) = table_index (mant_of x)).
  { apply table_index_comp; [|exact Em]. rewrite Em. apply Qlt_le_trans with 1%Q; [reflexivity|auto]. }
  assert (El : ln (Q2R v) + IZR f * ln 2 = ln (Q2R x)).
  { rewrite (Qeq_eqR _ _ Ev), Q2R_mult, ln_mult; [|rewrite <- Q2R_0; apply Qlt_Rlt; auto|apply p2R_pos]. rewrite ln_p2, opp_IZR. ring. }
  destruct (reduced_log_error p hs Hp Hhs rnd Hr poly delta Hpoly Hdelta c Hinv Hl2 Htab Hsq f v k Iv Pv) as (V & EV & B1 & B2 & B3).
  { rewrite Et. lia. } { lia. }
  exists V. split; [rewrite value_of_value, EV; reflexivity|]. rewrite El in B1, B2, B3. split; auto. split; auto.
  intros Zi Zk. rewrite <- Ei in Zi. destruct (B3 Zi Zk) as [E1 B4]. rewrite <- E1 in B4. rewrite <- (Qeq_eqR _ _ Em). exact B4.
Qed.

(* exponent zero: between half the constant and the constant *)
Lemma exponent_zero : forall x, (0 < x)%Q -> ((qlog2 x + ltho c x)%Z = 0%Z <-> (c_sqrt2 c < 2 * x /\ x <= c_sqrt2 c)%Q).
Proof.
  intros x Px. destruct (mant_of_range x Px) as (M1 & M2 & E). unfold ltho. set (m := mant_of x) in *. clearbody m. set (e := qlog2 x) in *. clearbody e.
  destruct Hsq as [S1 S2]. set (s := c_sqrt2 c) in *.
  apply Qle_Rle in M1, S1, S2. apply Qlt_Rlt in M2. apply Qeq_eqR in E. rewrite Q2R_mult in E.
  replace (Q2R (181 # 128)) with (181 / 128) in S1 by (unfold Q2R; cbn [Qnum Qden]; lra).
  replace (Q2R (182 # 128)) with (182 / 128) in S2 by (unfold Q2R; cbn [Qnum Qden]; lra).
  rewrite Q2R_1 in M1. replace (Q2R 2) with 2 in M2 by (unfold Q2R; cbn [Qnum Qden]; lra).
  assert (X : (s < 2 * x /\ x <= s)%Q <-> Q2R s < 2 * Q2R x /\ Q2R x <= Q2R s).
  { replace 2 with (Q2R 2) by (unfold Q2R; cbn [Qnum Qden]; lra). rewrite <- Q2R_mult. split; intros [A B]; (split; [first [apply Qlt_Rlt; exact A|apply Rlt_Qlt; exact A]|first [apply Qle_Rle; exact B|apply Rle_Qle; exact B]]). }
  rewrite X. clear X.
  assert (D : (e <= -2 \/ e = -1 \/ e = 0 \/ 1 <= e)%Z) by lia.
  assert (Y1 : Q2R (p2 (-2)) = 1 / 4) by (unfold Q2R; cbn; lra). assert (Y2 : Q2R (p2 (-1)) = 1 / 2) by (unfold Q2R; cbn; lra).
  assert (Y3 : Q2R (p2 1) = 2) by (unfold Q2R; cbn; lra).
  destruct (Qle_bool m s) eqn:L; [apply Qle_bool_iff in L; apply Qle_Rle in L|apply Qle_false in L; apply Qlt_Rlt in L];
    destruct D as [D|[->|[->|D]]].
  - pose proof (p2R_le e (-2) D). split; [lia|]. intros [A B]. assert (Q2R (p2 e) * Q2R m <= 1 / 4 * Q2R m) by (apply Rmult_le_compat_r; lra). lra.
  - rewrite Y2 in E. split; [lia|]. lra.
  - rewrite p2R_0 in E. split; [|lia]. lra.
  - pose proof (p2R_le 1 e D). split; [lia|]. intros [A B]. assert (2 * Q2R m <= Q2R (p2 e) * Q2R m) by (apply Rmult_le_compat_r; lra). lra.
  - pose proof (p2R_le e (-2) D). split; [lia|]. intros [A B]. assert (Q2R (p2 e) * Q2R m <= 1 / 4 * Q2R m) by (apply Rmult_le_compat_r; lra). lra.
  - rewrite Y2 in E. split; [|lia]. lra.
  - rewrite p2R_0 in E. split; [lia|]. lra.
  - pose proof (p2R_le 1 e D). split; [lia|]. intros [A B]. assert (2 * Q2R m <= Q2R (p2 e) * Q2R m) by (apply Rmult_le_compat_r; lra). lra.
Qed.

Lemma U_bin : forall e, U * Q2R (p2 (e + 1)) = Q2R (p2 (e + 1 - p)).
Proof. intros. rewrite <- p2R_plus. f_equal. f_equal. lia. Qed.
Lemma half_bin : forall e, Q2R (p2 (e - p)) = 1 / 2 * Q2R (p2 (e + 1 - p)).
Proof. intros. replace (e + 1 - p)%Z with (1 + (e - p))%Z by lia. rewrite p2R_plus, (p2R_Z 1) by lia. change (2 ^ 1)%Z with 2%Z. lra. Qed.

Lemma within_of : forall V x E q, (q == rnd V)%Q -> x <> 0 -> Rabs (Q2R V - x) <= E * (U * Rabs x) -> 0 <= E <= 1 / 2 ->
  within p (1 / 2 + E) 0 q x.
Proof.
  intros V x E q Eq Nx B HE. destruct (binade_R x Nx) as (e & L & H). exists e. split; auto.
  pose proof (U_small p Hp) as US. pose proof (U_bin e) as Ue. pose proof (half_bin e) as He.
  pose proof (p2R_pos (e + 1 - p)) as Pe.
  assert (B' : Rabs (Q2R V - x) <= E * Q2R (p2 (e + 1 - p))).
  { eapply Rle_trans; [exact B|]. apply Rmult_le_compat_l; [lra|]. rewrite <- Ue. apply Rmult_le_compat_l; lra. }
  assert (BE : E * Q2R (p2 (e + 1 - p)) <= Q2R (p2 (e - p))) by (rewrite He; apply Rmult_le_compat_r; lra).
  pose proof (rnd_within p rnd e V x _ ltac:(lia) Hr L H B' BE) as R. rewrite (Qeq_eqR _ _ Eq). rewrite He in R. lra.
Qed.

(* away from one: 9/16 of a unit in the last place *)
Theorem log_far : forall x, inF F x -> (0 < x)%Q -> (Z.abs (qlog2 x) < 2 ^ (p - hs))%Z -> (2 * x <= c_sqrt2 c \/ c_sqrt2 c < x)%Q ->
  within p (9 / 16) 0 (logv x) (ln (Q2R x)).
Proof.
  intros x Ix Px Bx Out. destruct (scheme_error x _ Ix Px Bx eq_refl) as (V & EV & B1 & B2 & _).
  set (k := (qlog2 x + ltho c x)%Z) in *.
  assert (Nk : k <> 0%Z).
  { intros Z. apply (exponent_zero x Px) in Z. destruct Z as [Z1 Z2]. destruct Out as [O|O]; [apply (Qle_not_lt _ _ O); auto|apply (Qle_not_lt _ _ Z2); auto]. }
  specialize (B2 Nk). pose proof (U_small p Hp) as US.
  assert (K1 : 1 <= Rabs (IZR k)) by (rewrite <- abs_IZR; apply (IZR_le 1); lia).
  replace (9 / 16) with (1 / 2 + 1 / 16) by lra. apply (within_of V); auto; [intros Z; rewrite Z, Rabs_R0 in B2; lra| |lra].
  eapply Rle_trans; [exact B1|]. replace (1 / 16 * (U * Rabs (ln (Q2R x)))) with (U * (1 / 16 * Rabs (ln (Q2R x)))) by ring.
  apply Rmult_le_compat_l; lra.
Qed.

(* around one: relative error of half a unit and absolute error of a small
   part of a unit of 1 *)
Theorem log_around_one : forall x, inF F x -> (c_sqrt2 c < 2 * x)%Q -> (x <= c_sqrt2 c)%Q ->
  Rabs (Q2R (logv x) - ln (Q2R x)) <= U * Rabs (ln (Q2R x)) + U / 80.
Proof.
  intros x Ix L H. assert (Px : (0 < x)%Q).
  { apply Rlt_Qlt. rewrite Q2R_0. apply Qlt_Rlt in L. rewrite Q2R_mult in L. replace (Q2R 2) with 2 in L by (unfold Q2R; cbn [Qnum Qden]; lra).
    destruct Hsq as [S1 _]. apply Qle_Rle in S1. replace (Q2R (181 # 128)) with (181 / 128) in S1 by (unfold Q2R; cbn [Qnum Qden]; lra). lra. }
  assert (Zk : (qlog2 x + ltho c x)%Z = 0%Z) by (apply (exponent_zero x Px); auto).
  assert (Bx : (Z.abs (qlog2 x) < 2 ^ (p - hs))%Z).
  { assert (Bt : (0 <= ltho c x <= 1)%Z) by (unfold ltho; destruct Qle_bool; lia).
    pose proof (Z.pow_le_mono_r 2 1 (p - hs) ltac:(lia) ltac:(lia)). lia. }
  destruct (scheme_error x _ Ix Px Bx eq_refl) as (V & EV & B1 & _). rewrite Zk in B1. rewrite Rabs_R0 in B1.
  pose proof (U_small p Hp) as US.
  pose proof (rnd_rel F ltac:(cbn [prec]; lia) rnd Hr V eq_refl) as N. apply Qabs_R in N. rewrite Q2R_minus, Q2R_mult, Q2R_abs in N. cbn [prec] in N.
  rewrite (Qeq_eqR _ _ EV). set (t := ln (Q2R x)) in *.
  assert (BV : Rabs (Q2R V) <= Rabs t + U * 0.0118).
  { pose proof (Rabs_triang t (Q2R V - t)) as T. replace (t + (Q2R V - t)) with (Q2R V) in T by ring. lra. }
  assert (BU : U * Rabs (Q2R V) <= U * (Rabs t + U * 0.0118)) by (apply Rmult_le_compat_l; lra).
  assert (UU : U * U <= / 4096 * U) by (apply Rmult_le_compat_r; lra).
  pose proof (Rabs_triang (Q2R (rnd V) - Q2R V) (Q2R V - t)) as T. replace (Q2R (rnd V) - Q2R V + (Q2R V - t)) with (Q2R (rnd V) - t) in T by ring. lra.
Qed.

(* just above one: 2/3 of a unit in the last place *)
Theorem log_above_one : forall x, inF F x -> (1 < x)%Q -> (x < 129 # 128)%Q -> within p (2 / 3) 0 (logv x) (ln (Q2R x)).
Proof.
  intros x Ix L H. assert (Px : (0 < x)%Q) by (apply Qlt_trans with 1%Q; [reflexivity|auto]).
  assert (E0 : qlog2 x = 0%Z).
  { apply qlog2_unique; [rewrite p2_0; apply Qlt_le_weak; auto|]. change (p2 (0 + 1)) with 2%Q. apply Qlt_trans with (129 # 128)%Q; [auto|reflexivity]. }
  assert (Em : (mant_of x == x)%Q) by (unfold mant_of; rewrite E0; change (- 0)%Z with 0%Z; rewrite p2_0; ring).
  assert (Zk : (qlog2 x + ltho c x)%Z = 0%Z).
  { apply (exponent_zero x Px). destruct Hsq as [S1 S2]. split.
    - apply Qle_lt_trans with (182 # 128)%Q; auto. apply Qlt_trans with (2 * 1)%Q; [reflexivity|]. apply Qmult_lt_l; [reflexivity|auto].
    - apply Qle_trans with (181 # 128)%Q; auto. apply Qlt_le_weak. apply Qlt_trans with (129 # 128)%Q; [auto|reflexivity]. }
  assert (Bx : (Z.abs (qlog2 x) < 2 ^ (p - hs))%Z) by (rewrite E0; apply Z.pow_pos_nonneg; lia).
  assert (Ei : table_index (mant_of x) = 0%Z).
  { rewrite (table_index_comp _ x); [|rewrite Em; auto|exact Em]. unfold table_index.
    assert (Ax : (Qabs x == x)%Q) by (apply Qabs_pos; apply Qlt_le_weak; auto).
    assert (PA : (0 < Qabs x)%Q) by (rewrite Ax; exact Px). assert (Q0 : qlog2 (Qabs x) = 0%Z) by (rewrite (qlog2_comp _ _ PA Ax); auto). rewrite Q0.
    assert (E : ((Qabs x / p2 0 - 1) * 128 == (x - 1) * 128)%Q) by (rewrite Ax, p2_0; field). rewrite (Qfloor_comp _ _ E).
    pose proof (Qfloor_le ((x - 1) * 128)) as A. pose proof (Qlt_floor ((x - 1) * 128)) as B. set (z := Qfloor _) in *. clearbody z.
    apply Qle_Rle in A. apply Qlt_Rlt in B, L, H. rewrite !Q2R_mult, !Q2R_minus, Q2R_Z, Q2R_1 in A, B. rewrite Q2R_1 in L.
    replace (Q2R 128) with 128 in A, B by (unfold Q2R; cbn [Qnum Qden]; lra). replace (Q2R (129 # 128)) with (129 / 128) in H by (unfold Q2R; cbn [Qnum Qden]; lra).
    assert (A1 : IZR z < IZR 1) by (lra). assert (B1 : IZR 0 < IZR (z + 1)) by lra. apply lt_IZR in A1, B1. lia. }
  destruct (scheme_error x _ Ix Px Bx eq_refl) as (V & EV & _ & _ & B3). specialize (B3 Ei Zk). rewrite (Qeq_eqR _ _ Em) in B3.
  pose proof (U_small p Hp) as US. apply Qlt_Rlt in L, H. rewrite Q2R_1 in L. replace (Q2R (129 # 128)) with (129 / 128) in H by (unfold Q2R; cbn [Qnum Qden]; lra).
  pose proof (ln_ge_inv (Q2R x) ltac:(lra)) as G. set (xr := Q2R x) in *.
  assert (G' : (xr - 1) * (128 / 129) <= ln xr).
  { eapply Rle_trans; [|exact G]. replace (1 - / xr) with ((xr - 1) * / xr) by (field; lra). apply Rmult_le_compat_l; [lra|].
    replace (128 / 129) with (/ (129 / 128)) by lra. apply Rinv_le_contravar; lra. }
  replace (2 / 3) with (1 / 2 + 1 / 6) by lra. apply (within_of V); auto; [lra| |lra].
  rewrite (Rabs_pos_eq (ln xr)) by lra. eapply Rle_trans; [exact B3|].
  assert (UU : U * U <= / 4096 * U) by (apply Rmult_le_compat_r; lra).
  assert (D : (64 * (U * U) + delta) * (xr - 1) <= (U * (9 / 64)) * (xr - 1)) by (apply Rmult_le_compat_r; lra).
  assert (D2 : U * ((xr - 1) * (128 / 129)) <= U * ln xr) by (apply Rmult_le_compat_l; lra). 
  assert (0 <= U * (xr - 1)) by (apply Rmult_le_pos; lra). lra.
Qed.

(* the logarithm of one *)
Theorem log_one : log_scheme p rnd (fun v => v) poly c emin (Num 1) = PZero.
Proof.
  assert (Ix : inF F 1%Q).
  { exists 1%Z, 0%Z. split; [reflexivity|]. split; [|exact I]. cbn [prec]. change (Z.abs 1) with (2 ^ 0)%Z. apply Z.pow_le_mono_r; lia. }
  assert (Zk : (qlog2 1 + ltho c 1)%Z = 0%Z).
  { apply (exponent_zero 1%Q); [reflexivity|]. destruct Hsq as [S1 S2]. split.
    - apply Qle_lt_trans with (182 # 128)%Q; auto. reflexivity.
    - apply Qle_trans with (181 # 128)%Q; auto. discriminate. }
  destruct (scheme_error 1%Q _ Ix eq_refl ltac:(apply Z.pow_pos_nonneg; lia) eq_refl) as (V & EV & _ & _ & B3). specialize (B3 eq_refl Zk).
  replace (Q2R (mant_of 1)) with 1 in B3 by (unfold Q2R; cbn; lra). rewrite Q2R_1, ln_1 in B3.
  replace ((64 * (U * U) + delta) * (1 - 1)) with 0 in B3 by ring. apply Rabs_le_inv in B3.
  assert (EV0 : (V == 0)%Q) by (apply eqR_Qeq; rewrite Q2R_0; lra).
  assert (E0 : (rnd V == 0)%Q).
  { eapply Qeq_trans; [apply (rnd_comp F rnd Hr); exact EV0|]. apply (rnd_id F rnd Hr). apply inF_0. cbn [prec]. lia. }
  rewrite E0 in EV. destruct (scheme_value p rnd (fun v => v) poly c emin 1%Q ltac:(lia) Hr Ix eq_refl) as (f & v & Es & _).
  rewrite Es in *. set (r := reduced_log _ _ _ _ _ _ _) in *. clearbody r. rewrite value_of_value in EV.
  unfold of_value. apply Qeq_bool_iff in EV. rewrite EV. reflexivity.
Qed.
End Acc.
