(* Accuracy of the cubic root. *)
From Coq Require Import ZArith QArith Qabs Qround Bool List Lia Reals Qreals Lra.
From Verif Require Import QUtil FpFormatModel FpFormatSpec FpFormatProofs RoundSpec RoundProofs RoundRne RealUtil LogCore LogProofs PowModel.
From Verif Require Import ExpModel ExpRecon ExpProofs Exp2Model Exp2Proofs CbrtModel CbrtSpec CbrtReal.
Open Scope Z_scope.

(* binary16, binary32 and binary64 *)
Definition cbrt_fmt (G : fpfmt) : Prop :=
  fmt_ok G /\ sollya_ok G /\ 11 <= fsz G <= 52 /\ emin_normal G <= - 14.

Section Cbrt.
Variable G : fpfmt.
Hypothesis HG : cbrt_fmt G.
Let F := fmt_of G.
Let rnd := rne F.
Let p := fsz G + 1.
Let Hok : fmt_ok G. Proof. apply HG. Qed.
Let Hso : sollya_ok G. Proof. apply HG. Qed.
Let Hf : 11 <= fsz G. Proof. destruct HG as (_ & _ & H & _). lia. Qed.
Let He : emin_normal G <= - 14. Proof. apply HG. Qed.
Let EF : F = mkF p (Some (emin_normal G - fsz G)). Proof. apply EF; auto. Qed.
Let Hp1 : 1 <= prec F. Proof. rewrite EF. cbn [prec]. unfold p. lia. Qed.
Let Hr : nearest_in F rnd. Proof. apply rne_nearest; exact Hp1. Qed.
Let Hemax : emax G = 1 - emin_normal G. Proof. apply emax_emin; auto. Qed.
Local Notation U := (Q2R (p2 (- p))).
Local Notation small := (Q2R (p2 (emin_normal G))).
Local Notation big := (Q2R (p2 (emax G))).
Open Scope R_scope.

Lemma U_b : 0 < U <= / 4096.
Proof.
  split; [apply p2R_pos|]. assert (L : Q2R (p2 (- p)) <= Q2R (p2 (- (12)))) by (apply p2R_le; unfold p; lia).
  rewrite (p2R_neg 12) in L by lia. change (2 ^ 12)%Z with 4096%Z in L. exact L.
Qed.

Lemma rnd_nearestR : forall q, nearestR F (rnd q) (Q2R q).
Proof.
  intros q. split; [apply (rnd_inF F rnd Hr)|]. intros f If. pose proof (rnd_near F rnd Hr q f If) as N. apply Qle_Rle in N.
  rewrite !Q2R_abs, !Q2R_minus in N. exact N.
Qed.
Lemma nearestR_rel : forall q x, nearestR F q x -> small <= Rabs x -> Rabs (Q2R q - x) <= U * Rabs x.
Proof.
  intros q x N B. assert (Nz : x <> 0). { intros ->. rewrite Rabs_R0 in B. pose proof (p2R_pos (emin_normal G)). lra. }
  destruct (binade_R x Nz) as (e & L & H). assert (Ee : (emin_normal G <= e)%Z).
  { destruct (Z_le_gt_dec (emin_normal G) e); auto. exfalso. assert (Q2R (p2 (e + 1)) <= small) by (apply p2R_le; lia). lra. }
  pose proof (nearestR_half F (e + 1 - p) q x Hp1 N) as X. rewrite EF in X. cbn [prec exp_ok emin] in X.
  eapply Rle_trans; [apply X; [unfold p; lia|]|].
  - replace (p + (e + 1 - p))%Z with (e + 1)%Z by lia. lra.
  - replace (e + 1 - p - 1)%Z with (- p + e)%Z by lia. rewrite p2R_plus. apply Rmult_le_compat_l; [left; apply p2R_pos|exact L].
Qed.
(* as a relative perturbation *)
Lemma nearestR_pert : forall q x, nearestR F q x -> small <= Rabs x -> exists d, Rabs d <= U /\ Q2R q = x * (1 + d).
Proof.
  intros q x N B. pose proof (nearestR_rel q x N B) as R. assert (Px : 0 < Rabs x) by (pose proof (p2R_pos (emin_normal G)); lra).
  assert (Nz : x <> 0) by (intros ->; rewrite Rabs_R0 in Px; lra).
  exists ((Q2R q - x) / x). split; [|field; auto]. unfold Rdiv. rewrite Rabs_mult, Rabs_inv.
  apply Rmult_le_reg_r with (Rabs x); auto. rewrite Rmult_assoc, Rinv_l by lra. lra.
Qed.
Lemma nearestR_sixteenth : forall q x, nearestR F q x -> Rabs x <= / 16 -> Rabs (Q2R q - x) <= U / 32.
Proof.
  intros q x N B. pose proof (nearestR_half F (- 4 - p) q x Hp1 N) as X. rewrite EF in X. cbn [prec exp_ok emin] in X.
  replace (p + (- 4 - p))%Z with (- (4))%Z in X by lia. rewrite (p2R_neg 4) in X by lia. change (IZR (2 ^ 4)) with 16 in X.
  eapply Rle_trans; [apply X; [unfold p; lia|exact B]|]. replace (- 4 - p - 1)%Z with (- p - 5)%Z by lia. rewrite p2R_sub by lia. change (IZR (2 ^ 5)) with 32. lra.
Qed.

(* a finite datum of real value x *)
Definition rep (v : fpv) (x : R) : Prop := exists q, fin v q /\ inF F q /\ Q2R q = x.

Lemma in_range : forall q, Rabs (Q2R q) <= big -> (Qabs (rnd q) < p2 (emax G + 1))%Q.
Proof.
  intros q B. apply Qle_lt_trans with (p2 (emax G)); [|apply p2_lt; lia].
  assert (I : inF F (p2 (emax G))).
  { rewrite EF. exists 1%Z, (emax G). split; [ring|]. cbn [prec exp_ok emin]. split; [|lia]. change (Z.abs 1) with (2 ^ 0)%Z. apply Z.pow_le_mono_r; unfold p; lia. }
  apply (rnd_abs_le_F F Hp1 rnd Hr); auto. apply Rle_Qle. rewrite Q2R_abs. exact B.
Qed.

Lemma mul_rep : forall a b x y, rep a x -> rep b y -> Rabs (x * y) <= big -> exists q, rep (f_mul G a b) (Q2R q) /\ nearestR F q (x * y).
Proof.
  intros a b x y (qa & Fa & Ia & Ea) (qb & Fb & Ib & Eb) B. exists (rnd (qa * qb)%Q). rewrite <- Ea, <- Eb, <- Q2R_mult in *.
  split; [|apply rnd_nearestR]. exists (rnd (qa * qb)%Q). split; [|split; [apply (rnd_inF F rnd Hr)|reflexivity]].
  apply (f_mul_fin G Hso Hf); auto. apply in_range. exact B.
Qed.

Lemma fma_rep : forall a b c x y z, rep a x -> rep b y -> rep c z -> Rabs (x * y + z) <= big ->
  exists q, rep (f_fma G a b c) (Q2R q) /\ nearestR F q (x * y + z).
Proof.
  intros a b c x y z (qa & (ra & Fa & Ra) & Ia & Ea) (qb & (rb & Fb & Rb) & Ib & Eb) (qc & (rc & Fc & Rc) & Ic & Ec) B.
  set (s := (ra * rb + rc)%Q). assert (Es : Q2R s = x * y + z).
  { unfold s. rewrite Q2R_plus, Q2R_mult, (Qeq_eqR _ _ Ra), (Qeq_eqR _ _ Rb), (Qeq_eqR _ _ Rc), Ea, Eb, Ec. reflexivity. }
  rewrite <- Es in *. exists (rnd s). split; [|apply rnd_nearestR].
  exists (rnd s). split; [|split; [apply (rnd_inF F rnd Hr)|reflexivity]].
  assert (K : f_fma G a b c = if Qeq_bool s 0 then f_zero ((t_zero a || t_zero b) && t_zero c && xorb (f_neg a) (f_neg b) && f_neg c) else datum (sollya_round G s) (negb (Qle_bool 0 s))).
  { unfold s. destruct a; inversion Fa; subst; destruct b; inversion Fb; subst; destruct c; inversion Fc; subst; reflexivity. }
  rewrite K. destruct (Qeq_bool s 0) eqn:Z.
  - apply Qeq_bool_iff in Z. exists 0%Q. split; [unfold f_zero; destruct (_ && _); reflexivity|].
    symmetry. rewrite (rnd_comp F rnd Hr s 0 Z). apply (rnd_id F rnd Hr). apply inF_0. exact Hp1.
  - apply datum_fin. apply in_range. exact B.
Qed.

Lemma rep_opp : forall a x, rep a x -> rep (f_opp a) (- x).
Proof.
  intros a x (qa & (ra & Fa & Ra) & Ia & Ea). exists (- qa)%Q. split; [|split; [apply (inF_opp F Hp1); auto|rewrite Q2R_opp, Ea; reflexivity]].
  destruct a; inversion Fa; subst; (eexists; split; [reflexivity|rewrite <- Ra; try reflexivity]).
Qed.

Lemma rep_num : forall q, inF F q -> rep (Num q) (Q2R q).
Proof. intros q I. exists q. split; [exists q; split; reflexivity|split; auto]. Qed.

Lemma one_in : inF F 1.
Proof.
  rewrite EF. exists 1%Z, 0%Z. split; [reflexivity|]. cbn [prec exp_ok emin]. split; [|lia].
  change (Z.abs 1) with (2 ^ 0)%Z. apply Z.pow_le_mono_r; unfold p; lia.
Qed.

Lemma div_rep : forall q, ~ (q == 0)%Q -> / Rabs (Q2R q) <= big -> exists r, rep (f_div G (Num 1) (Num q)) (Q2R r) /\ nearestR F r (/ Q2R q).
Proof.
  intros q Nz B. exists (rnd (1 / q)%Q). assert (E : Q2R (1 / q) = / Q2R q) by (rewrite Q2R_div, Q2R_1 by auto; unfold Rdiv; ring).
  split; [|rewrite <- E; apply rnd_nearestR]. exists (rnd (1 / q)%Q). split; [|split; [apply (rnd_inF F rnd Hr)|reflexivity]].
  unfold f_div. cbn [t_nan t_inf t_pinf t_minf t_zero orb f_q]. apply datum_fin. apply in_range. rewrite E, Rabs_inv. exact B.
Qed.

(* ---- one iteration ---- *)
Section Iter.
Variables (third : Q) (A c : R) (vinv : fpv) (iv : R).
Hypothesis Hthird : nearestR F third (1 / 3).
Hypothesis Hc : cube_root A c.
Hypothesis HA : 2 * small <= A <= / small.
Hypothesis Hinv : rep vinv iv.
Hypothesis Hiv : exists d, Rabs d <= U /\ iv = / A * (1 + d).

Let sm : 0 < small <= / 16384.
Proof.
  split; [apply p2R_pos|]. assert (L : Q2R (p2 (emin_normal G)) <= Q2R (p2 (- (14)))) by (apply p2R_le; lia).
  rewrite (p2R_neg 14) in L by lia. exact L.
Qed.
Let bg : big = 2 * / small.
Proof.
  rewrite Hemax. replace (1 - emin_normal G)%Z with (1 + - emin_normal G)%Z by lia. rewrite p2R_plus. replace (Q2R (p2 1)) with 2 by (unfold Q2R; cbn; lra). f_equal.
  pose proof (p2R_plus (emin_normal G) (- emin_normal G)) as P. replace (emin_normal G + - emin_normal G)%Z with 0%Z in P by lia. rewrite p2R_0 in P.
  apply Rmult_eq_reg_l with small; [|lra]. rewrite Rinv_r by lra. lra.
Qed.
Let isb : 16384 <= / small.
Proof. replace 16384 with (/ / 16384) by lra. apply Rinv_le_contravar; lra. Qed.

(* the powers of the root are far from the ends of the range *)
Lemma root_range : 32 * small <= c <= / small /\ 4 * small <= c * c <= / small.
Proof.
  destruct Hc as [Pc E]. destruct (Rle_lt_dec c (1 / 4)) as [L|L].
  - assert (c * c <= 1 / 16) by nra. assert (c * c * c <= 1 / 16 * c) by (apply Rmult_le_compat_r; lra).
    assert (c * c * c <= c * c * (1 / 4)) by (apply Rmult_le_compat_l; nra). split; split; lra.
  - destruct (Rle_lt_dec c 1) as [L1|L1].
    + assert (1 / 16 <= c * c <= 1) by nra. lra.
    + assert (1 <= c * c) by nra. assert (c <= c * c) by nra. assert (c * c <= c * c * c) by nra. lra.
Qed.

Lemma third_pert : exists d, Rabs d <= U /\ Q2R third = 1 / 3 * (1 + d).
Proof. apply nearestR_pert; auto. rewrite Rabs_pos_eq; lra. Qed.

Lemma newton_step : forall a e, rep a (c * (1 + e)) -> Rabs e <= 1 / 100 ->
  exists q w, rep (newton G third vinv a) (Q2R q) /\ nearestR F q (c * w)
    /\ Rabs (w - 1) <= 2.03 * (e * e) + U * (1.02 + 8 * Rabs e)
    /\ exists e', Q2R q = c * (1 + e') /\ Rabs e' <= 2.04 * (e * e) + 2.11 * U.
Proof.
  intros a e Ra Be. set (x := c * (1 + e)) in *. destruct Hc as [Pc EA]. pose proof root_range as [[R1 R2] [R3 R4]]. pose proof U_b as UB.
  pose proof (Rabs_le_inv _ _ Be) as Be'.
  assert (T2 : 0.98 <= (1 + e) * (1 + e) <= 1.03) by nra.
  assert (X2 : 0.98 * (c * c) <= x * x <= 1.03 * (c * c)).
  { replace (x * x) with ((1 + e) * (1 + e) * (c * c)) by (unfold x; ring). assert (0 < c * c) by (apply Rmult_lt_0_compat; auto). split; apply Rmult_le_compat_r; lra. }
  destruct (mul_rep a a x x Ra Ra) as (q2 & Rq2 & N2); [rewrite Rabs_pos_eq; lra|].
  destruct (nearestR_pert _ _ N2) as (d1 & D1 & E2); [rewrite Rabs_pos_eq; lra|].
  assert (D1' := Rabs_le_inv _ _ D1).
  assert (T3 : 0.96 <= (1 + e) * (1 + e) * (1 + e) * (1 + d1) <= 1.06).
  { assert (0.969 <= (1 + e) * (1 + e) * (1 + e) <= 1.041) by nra. nra. }
  assert (X3 : 0.96 * A <= x * Q2R q2 <= 1.06 * A).
  { rewrite E2. replace (x * (x * x * (1 + d1))) with ((1 + e) * (1 + e) * (1 + e) * (1 + d1) * A) by (rewrite <- EA; unfold x; ring).
    split; apply Rmult_le_compat_r; lra. }
  destruct (mul_rep a _ x _ Ra Rq2) as (q3 & Rq3 & N3); [rewrite Rabs_pos_eq; lra|].
  destruct (nearestR_pert _ _ N3) as (d2 & D2 & E3); [rewrite Rabs_pos_eq; lra|].
  destruct Hiv as (d3 & D3 & E4).
  set (df := 1 - (1 + e) * (1 + e) * (1 + e) * ((1 + d1) * (1 + d2) * (1 + d3)) + 0).
  assert (Edf : - Q2R q3 * iv + 1 = df).
  { unfold df. rewrite E3, E2, E4. unfold x. replace (c * (1 + e) * (c * (1 + e) * (c * (1 + e)) * (1 + d1)) * (1 + d2))
      with (A * ((1 + e) * (1 + e) * (1 + e) * (1 + d1) * (1 + d2))) by (rewrite <- EA; ring).
    field. lra. }
  pose proof (df_abs U e d1 d2 d3 0 UB Be D1 D2 D3 ltac:(rewrite Rabs_R0; lra)) as [_ Bdf].
  change (Rabs df <= / 16) in Bdf.
  pose proof (rep_num 1 one_in) as R1'. rewrite Q2R_1 in R1'.
  destruct (fma_rep _ _ _ _ _ _ (rep_opp _ _ Rq3) Hinv R1') as (qd & Rqd & Nd); [rewrite Edf; lra|]. rewrite Edf in Nd.
  pose proof (nearestR_sixteenth _ _ Nd Bdf) as D4. set (d4 := Q2R qd - df) in *.
  destruct third_pert as (d5 & D5 & E5). assert (D5' := Rabs_le_inv _ _ D5).
  assert (It : rep (Num third) (Q2R third)) by (apply rep_num; apply Hthird).
  assert (X4 : 0.3 * c <= x * Q2R third <= 0.4 * c).
  { rewrite E5. replace (x * (1 / 3 * (1 + d5))) with (1 / 3 * ((1 + e) * (1 + d5)) * c) by (unfold x; ring).
    assert (0.98 <= (1 + e) * (1 + d5) <= 1.02) by nra. split; apply Rmult_le_compat_r; lra. }
  destruct (mul_rep a _ x _ Ra It) as (qt & Rqt & Nt); [rewrite Rabs_pos_eq; lra|].
  destruct (nearestR_pert _ _ Nt) as (d6 & D6 & E6); [rewrite Rabs_pos_eq; lra|].
  set (w := (1 + e) + (1 + e) * (1 / 3) * ((1 + d5) * (1 + d6)) * (1 - (1 + e) * (1 + e) * (1 + e) * ((1 + d1) * (1 + d2) * (1 + d3)) + d4)).
  assert (Ew : Q2R qt * Q2R qd + x = c * w).
  { replace (Q2R qd) with (df + d4) by (unfold d4; ring). rewrite E6, E5. unfold w, df, x. ring. }
  pose proof (newton_real U e d1 d2 d3 d4 d5 d6 UB Be D1 D2 D3 D4 D5 D6) as W. cbv zeta in W. fold w in W.
  pose proof (Rabs_pos e) as E0.
  assert (UE : U * (1.02 + 8 * Rabs e) <= / 4096 * 1.1) by (apply Rmult_le_compat; lra).
  assert (W' : 0.99 <= w <= 1.01) by (apply Rabs_le_inv in W; assert (0 <= e * e <= 0.0001) by nra; lra).
  assert (X5 : 0.99 * c <= c * w <= 1.01 * c) by (split; rewrite (Rmult_comm c w); apply Rmult_le_compat_r; lra).
  destruct (fma_rep _ _ _ _ _ _ Rqt Rqd Ra) as (q & Rq & N); [rewrite Ew, Rabs_pos_eq; lra|]. rewrite Ew in N.
  exists q, w. split; [exact Rq|]. split; [exact N|]. split; [exact W|].
  destruct (nearestR_pert _ _ N) as (d & D & E); [rewrite Rabs_pos_eq; lra|].
  exists (w * (1 + d) - 1). split; [rewrite E; ring|].
  apply (newton_round U e d1 d2 d3 d4 d5 d6 UB Be D1 D2 D3 D4 D5 D6 d D).
Qed.
End Iter.
End Cbrt.
