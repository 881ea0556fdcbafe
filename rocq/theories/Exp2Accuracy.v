(* Accuracy of the function 2^x. *)
From Coq Require Import ZArith QArith Qabs Qround Bool List Lia Reals Qreals Lra.
From Verif Require Import QUtil FpFormatModel FpFormatSpec FpFormatProofs RoundSpec RoundProofs RoundRne RealLn2 RealUtil PowModel.
From Verif Require Import ExpModel ExpSpec ExpReduce ExpRecon ExpProofs Exp2Model Exp2Proofs.
Open Scope R_scope.

(* 2^t *)
Definition pow2 (t : R) : R := exp (t * ln 2).

Lemma pow2_plus : forall a b, pow2 (a + b) = pow2 a * pow2 b.
Proof. intros a b. unfold pow2. rewrite Rmult_plus_distr_r. apply exp_plus. Qed.
Lemma pow2_Z : forall k, pow2 (IZR k) = Q2R (p2 k).
Proof. intros k. unfold pow2. symmetry. apply p2_exp. Qed.
Lemma pow2_pos : forall t, 0 < pow2 t.
Proof. intros t. apply exp_pos. Qed.
Lemma pow2_lt : forall a b, a < b -> pow2 a < pow2 b.
Proof. intros a b H. apply exp_increasing. destruct ln2_num_bounds. nra. Qed.
Lemma pow2_le : forall a b, a <= b -> pow2 a <= pow2 b.
Proof. intros a b [H|H]; [left; apply pow2_lt; auto|subst; right; reflexivity]. Qed.
Lemma pow2_lt_inv : forall a b, pow2 a < pow2 b -> a < b.
Proof. intros a b H. destruct (Rlt_le_dec a b) as [L|L]; auto. apply pow2_le in L. lra. Qed.

(* near zero *)
Lemma pow2_small : forall r, Rabs r <= 1 / 16 -> Rabs (pow2 r - 1) <= 0.0445.
Proof.
  intros r Hr. destruct ln2_num_bounds as [A B]. set (t := r * ln 2).
  assert (Ht : Rabs t <= 0.043325). { unfold t. rewrite Rabs_mult, (Rabs_pos_eq (ln 2)) by lra. pose proof (Rabs_pos r). nra. }
  pose proof (exp_taylor 3 t) as T. unfold pow2. fold t.
  assert (Ht2 : Rabs t <= 1 / 2) by lra. specialize (T Ht2).
  assert (E3 : expT 3 t = 1 + t + t * t / 2).
  { cbn [expT]. rewrite !INR_IZR_INZ. change (Z.of_nat (fact 0)) with 1%Z. change (Z.of_nat (fact 1)) with 1%Z. change (Z.of_nat (fact 2)) with 2%Z. field. }
  rewrite E3 in T.
  assert (T3 : 2 * Rabs t ^ 3 <= 0.000163).
  { pose proof (Rabs_pos t). assert (Rabs t ^ 3 <= 0.043325 ^ 3) by (apply pow_incr; lra). lra. }
  apply Rabs_le_inv in T. apply Rabs_le_inv in Ht. apply Rabs_le. assert (0 <= t * t <= 0.00188) by nra. lra.
Qed.

Lemma pow2_tiny : forall r u, 0 <= u <= / 4096 -> Rabs r <= u -> Rabs (pow2 r - 1) <= 0.694 * u.
Proof.
  intros r u Hu Hr. destruct ln2_num_bounds as [A B]. set (t := r * ln 2).
  assert (Ht : Rabs t <= 0.6932 * u). { unfold t. rewrite Rabs_mult, (Rabs_pos_eq (ln 2)) by lra. pose proof (Rabs_pos r). nra. }
  pose proof (exp_taylor 2 t) as T. unfold pow2. fold t.
  assert (Ht2 : Rabs t <= 1 / 2) by lra. specialize (T Ht2).
  assert (E2 : expT 2 t = 1 + t).
  { cbn [expT]. rewrite !INR_IZR_INZ. change (Z.of_nat (fact 0)) with 1%Z. change (Z.of_nat (fact 1)) with 1%Z. field. }
  rewrite E2 in T.
  assert (T3 : 2 * Rabs t ^ 2 <= 0.0003 * u).
  { pose proof (Rabs_pos t). cbn [pow]. nra. }
  apply Rabs_le_inv in T. apply Rabs_le_inv in Ht. apply Rabs_le. lra.
Qed.

Lemma pow2_8 : forall i, (0 <= i <= 8)%Z -> 1 <= pow2 (IZR i / 8) <= 2 /\ ((i < 8)%Z -> pow2 (IZR i / 8) <= 15 / 8).
Proof.
  intros i Hi.
  assert (Z8 : 0 <= IZR i <= 8) by (split; apply IZR_le; lia).
  assert (P0 : pow2 0 = 1) by (unfold pow2; rewrite Rmult_0_l; apply exp_0).
  assert (P1 : pow2 1 = 2) by (rewrite pow2_Z; rewrite (p2R_Z 1) by lia; reflexivity).
  split; [rewrite <- P0, <- P1; split; apply pow2_le; lra|].
  intros L. assert (Z7 : IZR i <= 7) by (apply IZR_le; lia).
  apply Rle_trans with (pow2 (7 / 8)); [apply pow2_le; lra|].
  destruct (Rle_lt_dec (pow2 (7 / 8)) (15 / 8)) as [|C]; auto. exfalso.
  assert (E : pow2 (7 / 8) ^ 8 = 128).
  { transitivity (pow2 (7/8+(7/8+(7/8+(7/8+(7/8+(7/8+(7/8+7/8)))))))); [rewrite !pow2_plus; ring|].
    match goal with |- pow2 ?a = _ => replace a with (IZR 7) by lra end. rewrite pow2_Z, p2R_Z by lia. reflexivity. }
  assert (H : (15 / 8) ^ 8 <= pow2 (7 / 8) ^ 8) by (apply pow_incr; lra). rewrite E in H. lra.
Qed.

(* the errors add up *)
Lemma core : forall H kp t8 rho eps pl A D E, 0 < kp -> 1 <= t8 <= 2 -> Rabs (rho - 1) <= 0.0445 -> Rabs (eps - 1) <= E ->
  Rabs (pl - (rho - 1)) <= D -> D <= 0.0005 -> Rabs (H - kp * t8) <= A ->
  Rabs (H * (1 + pl) - kp * t8 * rho * eps) <= 1.046 * A + 2 * kp * D + 2.1 * kp * E.
Proof.
  intros H kp t8 rho eps pl A D E Hk Ht Hr He Hd Hd2 HA.
  replace (H * (1 + pl) - kp * t8 * rho * eps) with ((H - kp * t8) * (1 + pl) + kp * t8 * (pl - (rho - 1)) + - (kp * t8 * rho * (eps - 1))) by ring.
  assert (B1 : Rabs ((H - kp * t8) * (1 + pl)) <= 1.046 * A).
  { rewrite Rabs_mult. assert (Rabs (1 + pl) <= 1.046) by (apply Rabs_le; apply Rabs_le_inv in Hr; apply Rabs_le_inv in Hd; lra).
    pose proof (Rabs_pos (H - kp * t8)). pose proof (Rabs_pos (1 + pl)). nra. }
  assert (B2 : Rabs (kp * t8 * (pl - (rho - 1))) <= 2 * kp * D).
  { rewrite Rabs_mult, (Rabs_pos_eq (kp * t8)) by nra. pose proof (Rabs_pos (pl - (rho - 1))).
    apply Rmult_le_compat; try nra. }
  assert (B3 : Rabs (- (kp * t8 * rho * (eps - 1))) <= 2.1 * kp * E).
  { rewrite Rabs_Ropp, Rabs_mult. apply Rabs_le_inv in Hr. rewrite (Rabs_pos_eq (kp * t8 * rho)) by (apply Rmult_le_pos; nra).
    apply Rmult_le_compat; auto using Rabs_pos; [apply Rmult_le_pos; nra|].
    replace (kp * t8 * rho) with (kp * (t8 * rho)) by ring. replace (2.1 * kp) with (kp * 2.1) by ring.
    apply Rmult_le_compat_l; nra. }
  eapply Rle_trans; [apply Rabs_triang|]. eapply Rle_trans; [apply Rplus_le_compat_r, Rabs_triang|]. lra.
Qed.

(* the table: nearest numbers to 2^(i/8), with an error of at most eta *)
Definition tab_ok (G : fpfmt) (tab : list Q) (eta : R) : Prop :=
  forall i, (0 <= i <= 8)%Z -> exists h, load tab i = Some h /\
    nearestR (fmt_of G) h (pow2 (IZR i / 8)) /\ Rabs (Q2R h - pow2 (IZR i / 8)) <= eta.
(* the polynomial: within delta of 2^r - 1 *)
Definition pl_ok (G : fpfmt) (pl : Q -> Q) (delta : R) : Prop :=
  forall r, inF (fmt_of G) r -> Rabs (Q2R r) <= 1 / 16 -> Rabs (Q2R (pl r) - (pow2 (Q2R r) - 1)) <= delta.
Definition exp2_fmt_ok (G : fpfmt) : Prop :=
  fmt_ok G /\ sollya_ok G /\ (11 <= fsz G)%Z /\ (fsz G + 5 <= - emin_normal G)%Z.

Lemma floorR : forall x, IZR (Qfloor x) <= Q2R x < IZR (Qfloor x) + 1.
Proof.
  intros x. pose proof (Qfloor_le x) as A. pose proof (Qlt_floor x) as B. apply Qle_Rle in A. apply Qlt_Rlt in B.
  rewrite Q2R_Z in A. rewrite Q2R_Z, plus_IZR in B. lra.
Qed.

Lemma binade_floor : forall x E, binade (pow2 (Q2R x)) E -> E = Qfloor x.
Proof.
  intros x E [A B]. pose proof (floorR x) as [C D]. rewrite <- pow2_Z in A, B.
  apply pow2_lt_inv in B. rewrite plus_IZR in B.
  assert (A2 : IZR E <= Q2R x). { destruct (Rle_lt_dec (IZR E) (Q2R x)) as [|N]; auto. apply pow2_lt in N. lra. }
  assert (E < Qfloor x + 1)%Z by (apply lt_IZR; rewrite plus_IZR; lra).
  assert (Qfloor x < E + 1)%Z by (apply lt_IZR; rewrite plus_IZR; lra). lia.
Qed.

Section Acc.
Variables (G : fpfmt) (tab : list Q) (pl : Q -> Q) (eta delta : R).
Hypothesis Hfmt : exp2_fmt_ok G.
Let F := fmt_of G.
Let rnd := rne F.
Let p := (fsz G + 1)%Z.
Let em := (emin_normal G - fsz G)%Z.
Let u := Q2R (p2 (- p)).
Hypothesis Htab : tab_ok G tab eta.
Hypothesis Hpl : pl_ok G pl delta.
Hypothesis Heta : 0 <= eta <= u.
Hypothesis Hdelta : 0 <= delta <= u / 8.
Variable x : Q.
Hypothesis Hx : inF F x.
Let k := Qfloor x.
Let i := r_hi rnd x.
Let r := r_lo rnd x.
Let kp := Q2R (p2 k).

Let Hok : fmt_ok G. Proof. exact (proj1 Hfmt). Qed.
Let Hso : sollya_ok G. Proof. exact (proj1 (proj2 Hfmt)). Qed.
Let Hf : (11 <= fsz G)%Z. Proof. exact (proj1 (proj2 (proj2 Hfmt))). Qed.
Let Hw : (fsz G + 5 <= - emin_normal G)%Z. Proof. exact (proj2 (proj2 (proj2 Hfmt))). Qed.
Let EF : F = mkF p (Some em). Proof. apply EF; auto. Qed.
Let Hp : (12 <= p)%Z. Proof. unfold p. lia. Qed.
Let Hem : (em <= - p - 4)%Z. Proof. unfold em, p. lia. Qed.
Let Hp1 : (1 <= prec F)%Z. Proof. rewrite EF. cbn [prec]. lia. Qed.
Let HrF : nearest_in F rnd. Proof. apply rne_nearest. exact Hp1. Qed.
Let Hr : nearest_in (mkF p (Some em)) rnd. Proof. rewrite <- EF. exact HrF. Qed.
Let HxF : inF (mkF p (Some em)) x. Proof. rewrite <- EF. exact Hx. Qed.

Let Pk : 0 < kp. Proof. apply p2R_pos. Qed.
Let Hu : 0 < u <= / 4096.
Proof.
  unfold u. split; [apply p2R_pos|]. eapply Rle_trans; [apply (p2R_le _ (-12)); lia|].
  pose proof (p2R_neg 12 ltac:(lia)) as E. change (- (12))%Z with (-12)%Z in E. rewrite E. right. reflexivity.
Qed.

Lemma i_range : (0 <= i <= 8)%Z.
Proof. exact (r_hi_range p em rnd Hr Hp Hem x). Qed.

Lemma r_small : Rabs (Q2R r) <= 1 / 16.
Proof.
  destruct (r_lo_exact p em rnd Hr Hp Hem x) as [_ B]. apply Qle_Rle in B. rewrite Q2R_abs in B. fold r in B.
  replace (Q2R (1 # 16)) with (1 / 16) in B by (unfold Q2R; cbn [Qnum Qden]; lra). exact B.
Qed.

Lemma r_in : inF F r.
Proof. unfold r, r_lo. apply (rnd_inF F rnd HrF). Qed.

(* the error of the fraction *)
Definition e := Q2R x - IZR k - Q2R (vx_r rnd x).
Lemma e_small : Rabs e <= u / 2.
Proof.
  pose proof (vx_r_err p em rnd Hr Hp Hem x) as E. apply Qle_Rle in E. rewrite Q2R_abs, Q2R_minus, Q2R_minus, Q2R_Z in E.
  unfold e. rewrite <- Rabs_Ropp.
  replace (- (Q2R x - IZR k - Q2R (vx_r rnd x))) with (Q2R (vx_r rnd x) - (Q2R x - IZR (Qfloor x))) by (unfold k; ring).
  eapply Rle_trans; [exact E|]. rewrite (p2R_sub (- p) 1) by lia. fold u. change (IZR (2 ^ 1)) with 2. lra.
Qed.
Lemma e_zero : (0 <= x)%Q \/ (x <= - (1 # 2))%Q -> e = 0.
Proof.
  intros H. pose proof (vx_r_exact p em rnd Hr Hp Hem x HxF H) as E. apply Qeq_eqR in E.
  rewrite Q2R_minus, Q2R_Z in E. unfold e. rewrite E. unfold k. ring.
Qed.

Lemma split_pow : pow2 (Q2R x) = kp * pow2 (IZR i / 8) * pow2 (Q2R r) * pow2 e.
Proof.
  destruct (r_lo_exact p em rnd Hr Hp Hem x) as [E _]. apply Qeq_eqR in E. rewrite Q2R_minus, Q2R_mult, Q2R_Z in E. fold r i in E.
  replace (Q2R (1 # 8)) with (/ 8) in E by (unfold Q2R; cbn [Qnum Qden]; lra).
  unfold kp. rewrite <- pow2_Z, <- !pow2_plus. f_equal. unfold e. rewrite E. field.
Qed.

(* the table entry *)
Lemma entry : exists hi, load tab (clamp i) = Some hi /\ inF F hi /\ (1 <= hi <= 2)%Q
  /\ Rabs (Q2R hi - pow2 (IZR i / 8)) <= eta /\ ((i < 8)%Z -> (hi <= 15 # 8)%Q) /\ (i = 8%Z -> (hi == 2)%Q).
Proof.
  pose proof i_range as HI. destruct (Htab i HI) as (h & L & [IN N] & B). exists h.
  split; [unfold i; rewrite (clamp_id p em rnd Hr Hp Hem x); exact L|].
  destruct (pow2_8 i HI) as [[T1 T2] T3].
  assert (D : forall a j, (em <= j)%Z -> (Z.abs a <= 2 ^ 11)%Z -> inF F (inject_Z a * p2 j)) by (apply dy_in; auto).
  assert (I1 : inF F 1) by (apply (inF_comp F (inject_Z 1 * p2 0)); [reflexivity|apply D; [lia|cbn; lia]]).
  assert (I2 : inF F 2) by (apply (inF_comp F (inject_Z 2 * p2 0)); [reflexivity|apply D; [lia|cbn; lia]]).
  assert (I15 : inF F (15 # 8)) by (apply (inF_comp F (inject_Z 15 * p2 (-3))); [reflexivity|apply D; [lia|cbn; lia]]).
  pose proof (N 1%Q I1) as N1. pose proof (N 2%Q I2) as N2. pose proof (N (15 # 8)%Q I15) as N15.
  rewrite Q2R_1 in N1. replace (Q2R 2) with 2 in N2 by (unfold Q2R; cbn [Qnum Qden]; lra).
  replace (Q2R (15 # 8)) with (15 / 8) in N15 by (unfold Q2R; cbn [Qnum Qden]; lra).
  rewrite (Rabs_left1 (1 - _)) in N1 by lra. apply Rabs_le_inv in N1.
  rewrite (Rabs_pos_eq (2 - _)) in N2 by lra. apply Rabs_le_inv in N2.
  split; [exact IN|]. split; [|split; [exact B|split]].
  - split; apply Rle_Qle; rewrite ?Q2R_1; [lra|]. replace (Q2R 2) with 2 by (unfold Q2R; cbn [Qnum Qden]; lra). lra.
  - intros L8. specialize (T3 L8). rewrite (Rabs_pos_eq (15 / 8 - _)) in N15 by lra. apply Rabs_le_inv in N15.
    apply Rle_Qle. replace (Q2R (15 # 8)) with (15 / 8) by (unfold Q2R; cbn [Qnum Qden]; lra). lra.
  - intros E8. apply eqR_Qeq. replace (Q2R 2) with 2 by (unfold Q2R; cbn [Qnum Qden]; lra).
    assert (P : pow2 (IZR i / 8) = 2).
    { rewrite E8. replace (8 / 8) with 1 by lra. rewrite (pow2_Z 1), (p2R_Z 1) by lia. reflexivity. }
    rewrite P in *. replace (2 - 2) with 0 in * by ring. lra.
Qed.

Lemma pl_acc : Rabs (Q2R (pl r) - (pow2 (Q2R r) - 1)) <= delta /\ (Qabs (pl r) <= 3 # 64)%Q /\ (i = 8%Z -> Q2R (pl r) <= delta).
Proof.
  pose proof (Hpl r r_in r_small) as A. pose proof (pow2_small _ r_small) as B. split; [exact A|]. split.
  - apply Rle_Qle. rewrite Q2R_abs. replace (Q2R (3 # 64)) with (3 / 64) by (unfold Q2R; cbn [Qnum Qden]; lra).
    apply Rabs_le_inv in A. apply Rabs_le_inv in B. apply Rabs_le. lra.
  - intros E8. destruct (r_lo_exact p em rnd Hr Hp Hem x) as [E _]. apply Qeq_eqR in E. rewrite Q2R_minus, Q2R_mult, Q2R_Z in E. fold r i in E.
    replace (Q2R (1 # 8)) with (/ 8) in E by (unfold Q2R; cbn [Qnum Qden]; lra).
    destruct (vx_r_range p em rnd Hr Hp Hem x) as [_ V]. apply Qle_Rle in V. rewrite Q2R_1 in V. rewrite E8 in E.
    assert (R0 : Q2R r <= 0) by lra. apply pow2_le in R0.
    assert (P0 : pow2 0 = 1) by (unfold pow2; rewrite Rmult_0_l; apply exp_0).
    apply Rabs_le_inv in A. lra.
Qed.

Lemma halfR : forall ee v, (em <= ee)%Z -> Rabs (Q2R v) <= Q2R (p2 (p + ee)) -> Rabs (Q2R (rnd v) - Q2R v) <= Q2R (p2 ee) / 2.
Proof.
  intros ee v He Hv.
  assert (H : (Qabs (rnd v - v) <= p2 (ee - 1))%Q).
  { apply (rnd_half F Hp1 rnd HrF); [rewrite EF; unfold exp_ok; cbn [emin]; exact He|].
    apply Rle_Qle. rewrite Q2R_abs, EF. exact Hv. }
  apply Qle_Rle in H. rewrite Q2R_abs, Q2R_minus, (p2R_sub ee 1) in H by lia. exact H.
Qed.
Lemma nearR : forall v f, inF F f -> Rabs (Q2R (rnd v) - Q2R v) <= Rabs (Q2R f - Q2R v).
Proof.
  intros v f Hf'. pose proof (rnd_near F rnd HrF v f Hf') as H. apply Qle_Rle in H. rewrite !Q2R_abs, !Q2R_minus in H. exact H.
Qed.

(* ---- normal results ---- *)
Section Std.
Hypothesis Hk : (emin_normal G <= k)%Z.
Variable hi : Q.
Hypothesis Ih : inF F hi.
Hypothesis Bh : (1 <= hi <= 2)%Q.
Hypothesis Eh : Rabs (Q2R hi - pow2 (IZR i / 8)) <= eta.
Hypothesis Sh : (i < 8)%Z -> (hi <= 15 # 8)%Q.
Hypothesis Th : i = 8%Z -> (hi == 2)%Q.
Let h := (hi * p2 k)%Q.
Let P := rnd (h * pl r).
Let v := (P + h)%Q.
Let U := 2 * kp * u.

Let hR : Q2R h = Q2R hi * kp. Proof. unfold h. rewrite Q2R_mult. reflexivity. Qed.
Let hiR : 1 <= Q2R hi <= 2.
Proof. destruct Bh as [A B]. apply Qle_Rle in A, B. rewrite Q2R_1 in A. replace (Q2R 2) with 2 in B by (unfold Q2R; cbn [Qnum Qden]; lra). lra. Qed.

Lemma U_eq : U = Q2R (p2 (k - fsz G)).
Proof.
  unfold U, kp, u. replace (k - fsz G)%Z with (k + (1 + - p))%Z by (unfold p; lia). rewrite p2R_plus, p2R_plus, (p2R_Z 1) by lia.
  change (IZR (2 ^ 1)) with 2. ring.
Qed.

Lemma prod_err : Rabs (Q2R P - Q2R h * Q2R (pl r)) <= Q2R (p2 (Z.max (k - 3 - p) em)) / 2.
Proof.
  rewrite <- Q2R_mult. apply halfR; [lia|].
  eapply Rle_trans; [|apply (p2R_le (k - 3)); lia]. rewrite (p2R_sub k 3) by lia. fold kp. change (IZR (2 ^ 3)) with 8.
  destruct pl_acc as (_ & B & _). apply Qle_Rle in B. rewrite Q2R_abs in B. replace (Q2R (3 # 64)) with (3 / 64) in B by (unfold Q2R; cbn [Qnum Qden]; lra).
  rewrite Q2R_mult, Rabs_mult, hR, (Rabs_pos_eq (Q2R hi * kp)) by nra. pose proof (Rabs_pos (Q2R (pl r))).
  apply Rle_trans with ((2 * kp) * (3 / 64)); [apply Rmult_le_compat; nra|lra].
Qed.

Lemma prod_twice : Rabs (Q2R P) <= 2 * Rabs (Q2R h * Q2R (pl r)).
Proof.
  assert (I0 : inF F 0) by (apply inF_0; exact Hp1).
  pose proof (nearR (h * pl r) 0 I0) as N. rewrite Q2R_0, Q2R_mult in N. fold P in N.
  replace (0 - Q2R h * Q2R (pl r)) with (- (Q2R h * Q2R (pl r))) in N by ring. rewrite Rabs_Ropp in N.
  pose proof (Rabs_triang (Q2R P - Q2R h * Q2R (pl r)) (Q2R h * Q2R (pl r))) as T.
  replace (Q2R P - Q2R h * Q2R (pl r) + Q2R h * Q2R (pl r)) with (Q2R P) in T by ring. lra.
Qed.

(* above 2^(k+1) the sum is so close to it that little is lost *)
Lemma sum_over : 2 * kp < Q2R v -> Rabs (Q2R (rnd v) - Q2R v) <= U / 4.
Proof.
  intros C. destruct pl_acc as (A & B & C8). unfold v in *. rewrite Q2R_plus, hR in C.
  destruct (Z.eq_dec i 8) as [E8|N8].
  - specialize (C8 E8). pose proof (Qeq_eqR _ _ (Th E8)) as H2. replace (Q2R 2) with 2 in H2 by (unfold Q2R; cbn [Qnum Qden]; lra).
    assert (I2 : inF F (p2 (k + 1))).
    { apply (inF_comp F (inject_Z 1 * p2 (k + 1))); [change (inject_Z 1) with 1%Q; ring|]. apply dy_in; auto; [lia|cbn; lia]. }
    eapply Rle_trans; [apply (nearR _ _ I2)|]. rewrite Q2R_plus, hR, p2R_plus, (p2R_Z 1) by lia. change (IZR (2 ^ 1)) with 2. fold kp.
    rewrite H2. rewrite H2 in C. replace (kp * 2 - (Q2R P + 2 * kp)) with (- Q2R P) by ring. rewrite Rabs_Ropp.
    pose proof prod_twice as PT. rewrite hR, H2 in PT.
    assert (PP : 0 < Q2R P) by lra.
    assert (0 <= Q2R (pl r)).
    { destruct (Rle_lt_dec 0 (Q2R (pl r))) as [|N]; auto. exfalso.
      assert (Q2R P <= 0); [|lra]. rewrite <- Q2R_0. apply Qle_Rle. unfold P. apply (rnd_le_F F rnd HrF); [apply inF_0; exact Hp1|].
      apply Rle_Qle. rewrite Q2R_mult, Q2R_0, hR, H2. nra. }
    rewrite (Rabs_pos_eq (2 * kp * Q2R (pl r))) in PT by nra. unfold U. nra.
  - exfalso. assert (L8 : (i < 8)%Z) by (pose proof i_range; lia). specialize (Sh L8). apply Qle_Rle in Sh.
    replace (Q2R (15 # 8)) with (15 / 8) in Sh by (unfold Q2R; cbn [Qnum Qden]; lra).
    apply Qle_Rle in B. rewrite Q2R_abs in B. replace (Q2R (3 # 64)) with (3 / 64) in B by (unfold Q2R; cbn [Qnum Qden]; lra).
    pose proof prod_err as PE. rewrite hR in PE.
    assert (X : Q2R (p2 (Z.max (k - 3 - p) em)) <= kp / 32).
    { unfold kp. replace 32 with (IZR (2 ^ 5)) by reflexivity. rewrite <- (p2R_sub k 5) by lia. apply p2R_le. unfold em, p in *. lia. }
    apply Rabs_le_inv in PE. apply Rabs_le_inv in B. assert (Q2R hi * kp * Q2R (pl r) <= 15 / 8 * kp * (3 / 64)).
    { apply Rle_trans with (Q2R hi * kp * (3 / 64)); [apply Rmult_le_compat_l; nra|nra]. }
    nra.
Qed.

Lemma v_pos : 0 <= Q2R v.
Proof.
  unfold v. rewrite Q2R_plus, hR. pose proof prod_twice as PT. rewrite hR in PT. destruct pl_acc as (_ & B & _).
  apply Qle_Rle in B. rewrite Q2R_abs in B. replace (Q2R (3 # 64)) with (3 / 64) in B by (unfold Q2R; cbn [Qnum Qden]; lra).
  rewrite Rabs_mult, (Rabs_pos_eq (Q2R hi * kp)) in PT by nra. pose proof (Rabs_pos (Q2R (pl r))). 
  assert (Q2R hi * kp * Rabs (Q2R (pl r)) <= Q2R hi * kp * (3 / 64)) by (apply Rmult_le_compat_l; nra).
  apply Rabs_le_inv in PT. nra.
Qed.

Lemma sum_err : Rabs (Q2R (rnd v) - Q2R v) <= U / 2.
Proof.
  destruct (Rle_lt_dec (Q2R v) (2 * kp)) as [L|L]; [|pose proof (sum_over L); unfold U in *; nra].
  rewrite U_eq. apply halfR; [unfold em; lia|]. rewrite Rabs_pos_eq by apply v_pos.
  replace (p + (k - fsz G))%Z with (k + 1)%Z by (unfold p; lia). rewrite p2R_plus, (p2R_Z 1) by lia. change (IZR (2 ^ 1)) with 2. fold kp. lra.
Qed.

Lemma roundings : Rabs (Q2R P - Q2R h * Q2R (pl r)) + Rabs (Q2R (rnd v) - Q2R v) <= 3 / 4 * U
  /\ ((emin_normal G + 4 <= k)%Z -> Rabs (Q2R P - Q2R h * Q2R (pl r)) + Rabs (Q2R (rnd v) - Q2R v) <= 17 / 32 * U).
Proof.
  pose proof prod_err as PE. pose proof sum_err as SE. pose proof U_eq as UE.
  assert (E5 : Q2R (p2 (k - 3 - p)) = U / 16).
  { rewrite UE. replace (k - 3 - p)%Z with (k - fsz G - 4)%Z by (unfold p; lia). rewrite (p2R_sub (k - fsz G) 4) by lia. reflexivity. }
  split.
  - destruct (Z.eq_dec k (emin_normal G)) as [K|K].
    + assert (PE2 : Q2R (p2 (Z.max (k - 3 - p) em)) = U).
      { rewrite UE. do 2 f_equal. unfold em, p. lia. }
      rewrite PE2 in PE.
      assert (SE2 : Rabs (Q2R (rnd v) - Q2R v) <= U / 4); [|lra].
      destruct (Rle_lt_dec (Q2R v) (2 * kp)) as [L|L]; [|apply sum_over; exact L].
      assert (IV : inF F v).
      { apply (inF_intro F Hp1 em).
        - unfold v. apply mult_plus.
          + destruct (inF_elim F Hp1 P (rnd_inF F rnd HrF _)) as (f & M & O & _). apply (mult_le f); auto.
            rewrite EF in O. unfold exp_ok in O; cbn [emin] in O. exact O.
          + assert (IH : inF F h) by (apply hi_scaled; auto).
            destruct (inF_elim F Hp1 h IH) as (f & M & O & _). apply (mult_le f); auto.
            rewrite EF in O. unfold exp_ok in O; cbn [emin] in O. exact O.
        - rewrite EF. unfold exp_ok; cbn [emin]. lia.
        - apply Rle_Qle. rewrite Q2R_abs, Rabs_pos_eq by apply v_pos. rewrite EF. cbn [prec].
          replace (p + em)%Z with (k + 1)%Z by (unfold p, em; lia). rewrite p2R_plus, (p2R_Z 1) by lia. change (IZR (2 ^ 1)) with 2. fold kp. lra. }
      pose proof (Qeq_eqR _ _ (rnd_id F rnd HrF v IV)) as E. rewrite E. unfold Rminus. rewrite Rplus_opp_r, Rabs_R0. unfold U. nra.
    + assert (X : Q2R (p2 (Z.max (k - 3 - p) em)) <= U / 2).
      { rewrite UE. replace (U / 2) with (U / IZR (2 ^ 1)) by reflexivity.
        replace (Q2R (p2 (k - fsz G)) / 2) with (Q2R (p2 (k - fsz G)) / IZR (2 ^ 1)) by reflexivity.
        rewrite <- (p2R_sub (k - fsz G) 1) by lia. apply p2R_le. unfold em, p. lia. }
      lra.
  - intros K. replace (Z.max (k - 3 - p) em) with (k - 3 - p)%Z in PE by (unfold em, p; lia). rewrite E5 in PE. lra.
Qed.

Lemma std_err : forall Ee, Rabs (pow2 e - 1) <= Ee ->
  Rabs (Q2R (rnd v) - pow2 (Q2R x)) <= 1.046 * (kp * eta) + 2 * kp * delta + 2.1 * kp * Ee
    + (Rabs (Q2R P - Q2R h * Q2R (pl r)) + Rabs (Q2R (rnd v) - Q2R v)).
Proof.
  intros Ee HE. destruct pl_acc as (A & _ & _). destruct (pow2_8 i i_range) as [T8 _].
  assert (C : Rabs (Q2R h * (1 + Q2R (pl r)) - kp * pow2 (IZR i / 8) * pow2 (Q2R r) * pow2 e) <= 1.046 * (kp * eta) + 2 * kp * delta + 2.1 * kp * Ee).
  { apply core; auto; [apply pow2_small, r_small|lra|].
    rewrite hR. replace (Q2R hi * kp - kp * pow2 (IZR i / 8)) with (kp * (Q2R hi - pow2 (IZR i / 8))) by ring.
    rewrite Rabs_mult, (Rabs_pos_eq kp) by lra. apply Rmult_le_compat_l; lra. }
  rewrite split_pow.
  replace (Q2R (rnd v) - kp * pow2 (IZR i / 8) * pow2 (Q2R r) * pow2 e) with
    ((Q2R (rnd v) - Q2R v) + ((Q2R P - Q2R h * Q2R (pl r)) + (Q2R h * (1 + Q2R (pl r)) - kp * pow2 (IZR i / 8) * pow2 (Q2R r) * pow2 e)))
    by (unfold v; rewrite Q2R_plus; ring).
  eapply Rle_trans; [apply Rabs_triang|]. eapply Rle_trans; [apply Rplus_le_compat_l, Rabs_triang|]. lra.
Qed.
End Std.

(* ---- subnormal results ---- *)
Section Sub.
Hypothesis Hk : (em <= k < emin_normal G)%Z.
Variable hi : Q.
Hypothesis Bh : (1 <= hi <= 2)%Q.
Hypothesis Eh : Rabs (Q2R hi - pow2 (IZR i / 8)) <= eta.
Let h := rnd (hi * p2 k).
Let P := rnd (h * pl r).
Let v := (P + h)%Q.
Let U := Q2R (p2 em).

Let kU : kp * u <= U / 4.
Proof.
  unfold kp, u. rewrite <- p2R_plus. unfold U. replace (Q2R (p2 em) / 4) with (Q2R (p2 em) / IZR (2 ^ 2)) by reflexivity.
  rewrite <- (p2R_sub em 2) by lia. apply p2R_le. unfold em, p in *. lia.
Qed.

Lemma h_err : Rabs (Q2R h - kp * pow2 (IZR i / 8)) <= 3 / 4 * U.
Proof.
  assert (A : Rabs (Q2R h - Q2R (hi * p2 k)) <= U / 2).
  { apply halfR; [lia|]. rewrite Q2R_mult. fold kp. destruct Bh as [B1 B2]. apply Qle_Rle in B1, B2. rewrite Q2R_1 in B1.
    replace (Q2R 2) with 2 in B2 by (unfold Q2R; cbn [Qnum Qden]; lra). rewrite Rabs_pos_eq by nra.
    apply Rle_trans with (Q2R (p2 (k + 1))); [|apply p2R_le; unfold em, p in *; lia].
    rewrite p2R_plus, (p2R_Z 1) by lia. change (IZR (2 ^ 1)) with 2. fold kp. nra. }
  rewrite Q2R_mult in A. fold kp in A.
  replace (Q2R h - kp * pow2 (IZR i / 8)) with ((Q2R h - Q2R hi * kp) + kp * (Q2R hi - pow2 (IZR i / 8))) by ring.
  eapply Rle_trans; [apply Rabs_triang|]. rewrite Rabs_mult, (Rabs_pos_eq kp) by lra.
  assert (kp * Rabs (Q2R hi - pow2 (IZR i / 8)) <= kp * u) by (apply Rmult_le_compat_l; lra). lra.
Qed.

Lemma sub_err : (x <= - (1 # 2))%Q -> Rabs (Q2R (rnd v) - pow2 (Q2R x)) <= 1.36 * U.
Proof.
  intros Hneg. pose proof h_err as HE. destruct pl_acc as (A & B & _). destruct (pow2_8 i i_range) as [T8 _].
  assert (B1 : Rabs (Q2R h) <= Q2R (p2 (k + 1))).
  { rewrite <- Q2R_abs. apply Qle_Rle. apply (rnd_abs_le_F F Hp1 rnd HrF).
    - apply (inF_comp F (inject_Z 1 * p2 (k + 1))); [change (inject_Z 1) with 1%Q; ring|]. apply dy_in; auto; [lia|cbn; lia].
    - rewrite p2_plus. change (p2 1) with 2%Q. pose proof (p2_pos k) as PP. apply Rle_Qle. rewrite Q2R_abs, !Q2R_mult. fold kp.
      destruct Bh as [C1 C2]. apply Qle_Rle in C1, C2. rewrite Q2R_1 in C1. replace (Q2R 2) with 2 in * by (unfold Q2R; cbn [Qnum Qden]; lra).
      rewrite Rabs_pos_eq by nra. nra. }
  apply Qle_Rle in B. rewrite Q2R_abs in B. replace (Q2R (3 # 64)) with (3 / 64) in B by (unfold Q2R; cbn [Qnum Qden]; lra).
  assert (PE : Rabs (Q2R P - Q2R h * Q2R (pl r)) <= U / 2).
  { rewrite <- Q2R_mult. apply halfR; [lia|]. rewrite Q2R_mult, Rabs_mult.
    apply Rle_trans with (Q2R (p2 (k + 1))); [|apply p2R_le; unfold em, p in *; lia].
    pose proof (Rabs_pos (Q2R h)). pose proof (Rabs_pos (Q2R (pl r))). pose proof (p2R_pos (k + 1)). nra. }
  assert (EV : Q2R (rnd v) = Q2R v).
  { apply Qeq_eqR. apply (rnd_id F rnd HrF).
    assert (M : forall w, mult em (rnd w)).
    { intros w. destruct (inF_elim F Hp1 _ (rnd_inF F rnd HrF w)) as (f & M & O & _). apply (mult_le f); auto.
      rewrite EF in O. unfold exp_ok in O; cbn [emin] in O. exact O. }
    apply (inF_intro F Hp1 em).
    - apply mult_plus; apply M.
    - rewrite EF. unfold exp_ok; cbn [emin]. lia.
    - apply Rle_Qle. rewrite Q2R_abs. unfold v. rewrite Q2R_plus. rewrite EF. cbn [prec].
      apply Rle_trans with (Q2R (p2 (k + 2))); [|apply p2R_le; unfold em, p in *; lia].
      assert (PB : Rabs (Q2R P) <= Q2R (p2 (k + 1))).
      { rewrite <- Q2R_abs. apply Qle_Rle. apply (rnd_abs_le_F F Hp1 rnd HrF).
        - apply (inF_comp F (inject_Z 1 * p2 (k + 1))); [change (inject_Z 1) with 1%Q; ring|]. apply dy_in; auto; [lia|cbn; lia].
        - apply Rle_Qle. rewrite Q2R_abs, Q2R_mult, Rabs_mult. pose proof (Rabs_pos (Q2R h)). pose proof (Rabs_pos (Q2R (pl r))). pose proof (p2R_pos (k + 1)). nra. }
      eapply Rle_trans; [apply Rabs_triang|]. replace (k + 2)%Z with (k + 1 + 1)%Z by lia. rewrite (p2R_plus (k + 1) 1), (p2R_Z 1) by lia.
      change (IZR (2 ^ 1)) with 2. lra. }
  assert (C : Rabs (Q2R h * (1 + Q2R (pl r)) - kp * pow2 (IZR i / 8) * pow2 (Q2R r) * pow2 e) <= 1.046 * (3 / 4 * U) + 2 * kp * delta + 2.1 * kp * 0).
  { apply core; auto; [apply pow2_small, r_small| |lra].
    rewrite e_zero by (right; exact Hneg). unfold pow2. rewrite Rmult_0_l, exp_0. unfold Rminus. rewrite Rplus_opp_r, Rabs_R0. lra. }
  rewrite split_pow, EV.
  replace (Q2R v - kp * pow2 (IZR i / 8) * pow2 (Q2R r) * pow2 e) with
    ((Q2R P - Q2R h * Q2R (pl r)) + (Q2R h * (1 + Q2R (pl r)) - kp * pow2 (IZR i / 8) * pow2 (Q2R r) * pow2 e))
    by (unfold v; rewrite Q2R_plus; ring).
  eapply Rle_trans; [apply Rabs_triang|].
  assert (kp * delta <= U / 32). { apply Rle_trans with (kp * (u / 8)); [apply Rmult_le_compat_l; lra|]. lra. }
  assert (0 < U) by apply p2R_pos. lra.
Qed.
End Sub.

(* ---- the function on a finite number ---- *)
Theorem exp2_num_std : (IZR (emin_normal G) <= Q2R x)%R -> Q2R x < IZR (emax G + 1) - 1 / 16 ->
  exists q v, exp2_num G tab pl x = Some v /\ fval v = Some q
    /\ Rabs (Q2R q - pow2 (Q2R x)) <= 1.6 * ulpR G k
    /\ ((emin_normal G + 4 <= k)%Z -> (0 <= x)%Q \/ (x <= - (1 # 2))%Q ->
        Rabs (Q2R q - pow2 (Q2R x)) <= 1.046 * (kp * eta) + 2 * kp * delta + 17 / 32 * ulpR G k).
Proof.
  intros L Ub. pose proof (floorR x) as KS. fold k in KS. pose proof (emax_emin G Hok) as EM.
  assert (Hk : (emin_normal G <= k)%Z).
  { assert (emin_normal G < k + 1)%Z; [|lia]. apply lt_IZR. rewrite plus_IZR. lra. }
  assert (Hk2 : (k <= emax G)%Z).
  { assert (k < emax G + 1)%Z; [|lia]. apply lt_IZR. lra. }
  destruct entry as (hi & EL & Ih & Bh & Eh & Sh & Th). destruct pl_acc as (_ & Bp & _).
  assert (OV : (k < emax G)%Z \/ (hi <= 15 # 8)%Q).
  { destruct (Z.eq_dec k (emax G)) as [K|K]; [right|left; lia]. apply Sh.
    assert (X : ~ i = 8%Z); [|pose proof i_range; lia]. intros E8.
    pose proof (qrne_half (vx_r rnd x * inject_Z 8)) as N. assert (RE : r_hi rnd x = qrne (vx_r rnd x * inject_Z 8)) by (apply (r_hi_eq p em); auto). rewrite <- RE in N. fold i in N. rewrite E8 in N.
    apply Qle_Rle in N. rewrite Q2R_abs, Q2R_minus, Q2R_mult, Q2R_Z in N. replace (Q2R (1 # 2)) with (1 / 2) in N by (unfold Q2R; cbn [Qnum Qden]; lra).
    assert (X0 : (0 <= x)%Q). { apply Rle_Qle. rewrite Q2R_0. assert (0 <= IZR k) by (apply IZR_le; lia). lra. }
    pose proof (e_zero (or_introl X0)) as EZ. unfold e in EZ. apply Rabs_le_inv in N. rewrite K in *. rewrite plus_IZR in Ub. lra. }
  destruct (std_value G Hok Hso Hf hi (pl r) Ih Bh Bp k (conj Hk Hk2) OV) as (q & V & EQ). fold F rnd in EQ.
  exists q. eexists. split; [|split; [exact V|]].
  - unfold exp2_num. fold F rnd i r k.
    assert (Q1 : Qle_bool (inject_Z (emax G + 1)) x = false).
    { apply Bool.not_true_iff_false. intros C. apply Qle_bool_iff in C. apply Qle_Rle in C. rewrite Q2R_Z in C. lra. }
    assert (Q2 : Qle_bool (inject_Z (emin_normal G)) x = true) by (apply Qle_bool_iff, Rle_Qle; rewrite Q2R_Z; lra).
    rewrite Q1, Q2, EL. reflexivity.
  - apply Qeq_eqR in EQ. rewrite EQ.
    pose proof (roundings Hk hi Ih Bh Sh Th) as [R1 R2].
    assert (UE : ulpR G k = 2 * kp * u).
    { rewrite U_eq. unfold ulpR. replace (Z.max k (emin_normal G)) with k by lia. reflexivity. }
    pose proof Hu as U0. pose proof Pk as K0.
    assert (KE : kp * eta <= kp * u) by (apply Rmult_le_compat_l; lra).
    assert (KD : kp * delta <= kp * (u / 8)) by (apply Rmult_le_compat_l; lra).
    assert (EX : e = 0 -> Rabs (pow2 e - 1) <= 0).
    { intros Z. rewrite Z. unfold pow2. rewrite Rmult_0_l, exp_0. unfold Rminus. rewrite Rplus_opp_r, Rabs_R0. lra. }
    split.
    + destruct (Z.le_gt_cases (emin_normal G + 4) k) as [C4|C4].
      * specialize (R2 C4). pose proof (std_err hi Eh (0.694 * (u / 2))) as SE.
        eapply Rle_trans; [apply SE; apply pow2_tiny; [lra|apply e_small]|]. rewrite UE. nra.
      * assert (XN : (x <= - (1 # 2))%Q).
        { apply Rle_Qle. rewrite Q2R_opp. replace (Q2R (1 # 2)) with (1 / 2) by (unfold Q2R; cbn [Qnum Qden]; lra).
          assert (IZR k <= IZR (-2)) by (apply IZR_le; lia). lra. }
        pose proof (std_err hi Eh 0 (EX (e_zero (or_intror XN)))) as SE.
        eapply Rle_trans; [apply SE|]. rewrite UE. nra.
    + intros C4 XX. specialize (R2 C4). pose proof (std_err hi Eh 0 (EX (e_zero XX))) as SE.
      eapply Rle_trans; [apply SE|]. rewrite UE. lra.
Qed.

Theorem exp2_num_sub : IZR (emin_subnormal G) < Q2R x < IZR (emin_normal G) ->
  exists q v, exp2_num G tab pl x = Some v /\ fval v = Some q /\ Rabs (Q2R q - pow2 (Q2R x)) <= 1.36 * ulpR G k.
Proof.
  intros [L Ub]. pose proof (floorR x) as KS. fold k in KS. pose proof (emax_emin G Hok) as EM.
  assert (ES : emin_subnormal G = em) by (unfold emin_subnormal, em, emin_normal; lia). rewrite ES in L.
  assert (Hk : (em <= k)%Z).
  { assert (em < k + 1)%Z; [|lia]. apply lt_IZR. rewrite plus_IZR. lra. }
  assert (Hk2 : (k < emin_normal G)%Z) by (apply lt_IZR; lra).
  destruct entry as (hi & EL & Ih & Bh & Eh & Sh & Th). destruct pl_acc as (_ & Bp & _).
  destruct (sub_value G Hok Hso Hf Hw hi (pl r) Ih Bh Bp k (conj Hk Hk2)) as (q & V & EQ). fold F rnd in EQ.
  exists q. eexists. split; [|split; [exact V|]].
  - unfold exp2_num. fold F rnd i r k.
    assert (Q1 : Qle_bool (inject_Z (emax G + 1)) x = false).
    { apply Bool.not_true_iff_false. intros C. apply Qle_bool_iff in C. apply Qle_Rle in C. rewrite Q2R_Z in C.
      assert (IZR (emin_normal G) <= IZR (emax G + 1)) by (apply IZR_le; lia). lra. }
    assert (Q2 : Qle_bool (inject_Z (emin_normal G)) x = false).
    { apply Bool.not_true_iff_false. intros C. apply Qle_bool_iff in C. apply Qle_Rle in C. rewrite Q2R_Z in C. lra. }
    assert (Q3 : Qle_bool x (inject_Z (emin_subnormal G)) = false).
    { apply Bool.not_true_iff_false. intros C. apply Qle_bool_iff in C. apply Qle_Rle in C. rewrite Q2R_Z, ES in C. lra. }
    rewrite Q1, Q2, Q3, EL. reflexivity.
  - apply Qeq_eqR in EQ. rewrite EQ. unfold ulpR. replace (Z.max k (emin_normal G) - fsz G)%Z with em by (unfold em; lia).
    apply sub_err; auto. apply Rle_Qle. rewrite Q2R_opp. replace (Q2R (1 # 2)) with (1 / 2) by (unfold Q2R; cbn [Qnum Qden]; lra).
    assert (IZR (emin_normal G) <= IZR (-2)) by (apply IZR_le; lia). lra.
Qed.
End Acc.
