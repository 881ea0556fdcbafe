(* The cubic root outside of the positive normal numbers: sign of the iterates,
   infinities, inverses that overflow. *)
From Coq Require Import ZArith QArith Qabs Qround Bool List Lia Reals Qreals Lra.
From Verif Require Import QUtil FpFormatModel FpFormatSpec FpFormatProofs RoundSpec RoundProofs RoundRne RealUtil LogCore LogProofs PowModel.
From Verif Require Import ExpModel ExpRecon ExpProofs Exp2Model Exp2Proofs CbrtModel CbrtSpec CbrtReal CbrtProofs CbrtAcc.
Open Scope Z_scope.

Lemma f_neg_ge : forall q, (0 <= q)%Q -> f_neg (Num q) = false.
Proof. intros q H. cbn [f_neg]. apply Qle_bool_iff in H. rewrite H. reflexivity. Qed.
Lemma f_neg_lt : forall q, (q < 0)%Q -> f_neg (Num q) = true.
Proof. intros q H. cbn [f_neg]. destruct (Qle_bool 0 q) eqn:E; auto. apply Qle_bool_iff in E. exfalso. apply (Qlt_not_le _ _ H E). Qed.

Lemma iterate_fix : forall n f v, f v = v -> iterate n f v = v.
Proof. induction n as [|n IH]; intros f v H; [reflexivity|]. cbn [iterate]. rewrite H. apply IH, H. Qed.

Lemma f_mul_qnan : forall G a, f_mul G a QNaN = QNaN.
Proof. intros G [q| | | | | |]; reflexivity. Qed.
Lemma newton_qnan : forall G third inv, newton G third inv QNaN = QNaN.
Proof. intros. reflexivity. Qed.
Lemma fma_qnan2 : forall G a c, f_fma G a QNaN c = QNaN.
Proof. intros G a c. unfold f_fma. cbn [t_nan]. rewrite orb_true_r. reflexivity. Qed.
Lemma newton_inv_qnan : forall G third a, newton G third QNaN a = QNaN.
Proof. intros. unfold newton. rewrite fma_qnan2. apply fma_qnan2. Qed.

Section Special.
Variable G : fpfmt.
Hypothesis HG : cbrt_fmt G.
Let F := fmt_of G.
Let rnd := rne F.
Let p := fsz G + 1.
Let Hok : fmt_ok G. Proof. apply HG. Qed.
Let Hso : sollya_ok G. Proof. apply HG. Qed.
Let Hf : 11 <= fsz G <= 52. Proof. apply HG. Qed.
Let He : emin_normal G <= - 14. Proof. apply HG. Qed.
Let EF : F = mkF p (Some (emin_normal G - fsz G)). Proof. apply EF; auto. Qed.
Let Hp1 : 1 <= prec F. Proof. rewrite EF. cbn [prec]. unfold p. lia. Qed.
Let Hr : nearest_in F rnd. Proof. apply rne_nearest; exact Hp1. Qed.
Let Hemax : emax G = 1 - emin_normal G. Proof. apply emax_emin; auto. Qed.
Local Notation U := (Q2R (p2 (- p))).
Local Notation small := (Q2R (p2 (emin_normal G))).

Lemma inF_p2 : forall e, emin_normal G - fsz G <= e -> inF F (p2 e).
Proof.
  intros e H. rewrite EF. exists 1, e. split; [ring|]. cbn [prec exp_ok emin]. split; [|lia].
  change (Z.abs 1) with (2 ^ 0). apply Z.pow_le_mono_r; unfold p; lia.
Qed.

(* +infinity or a number that is at least L *)
Definition atleast (L : Q) (v : fpv) : Prop := v = PInf \/ exists q, v = Num q /\ (L <= q)%Q.

Lemma datum_ge : forall L s, inF F L -> (0 < L)%Q -> (L <= s)%Q -> atleast L (datum (sollya_round G s) false).
Proof.
  intros L s IL PL H. destruct (sollya_round_cases G s) as [(r & S & R & _)|[S C]]; rewrite S.
  - assert (Lr : (L <= r)%Q) by (rewrite R; apply (rnd_ge_F F rnd Hr); auto).
    unfold datum. destruct (Qeq_bool r 0) eqn:E; [|right; exists r; auto].
    apply Qeq_bool_iff in E. exfalso. rewrite E in Lr. apply (Qlt_not_le _ _ PL Lr).
  - left. reflexivity.
Qed.

Lemma mul_ge : forall L a b v w, inF F L -> (0 < L)%Q -> (0 < a)%Q -> (0 < b)%Q -> (L <= a * b)%Q -> atleast a v -> atleast b w -> atleast L (f_mul G v w).
Proof.
  intros L a b v w IL PL Pa Pb H [->|(x & -> & Hx)] [->|(y & -> & Hy)]; unfold f_mul.
  - left. reflexivity.
  - rewrite f_neg_ge by (apply Qle_trans with b; auto; apply Qlt_le_weak; auto). left. reflexivity.
  - rewrite f_neg_ge by (apply Qle_trans with a; auto; apply Qlt_le_weak; auto). left. reflexivity.
  - rewrite (f_neg_ge x) by (apply Qlt_le_weak; apply (Qlt_le_trans _ a); auto). rewrite (f_neg_ge y) by (apply Qlt_le_weak; apply (Qlt_le_trans _ b); auto). cbn [xorb]. apply datum_ge; auto.
    apply Qle_trans with (a * b)%Q; auto. apply Qmult_le_compat_nonneg; split; auto; apply Qlt_le_weak; auto.
Qed.

Lemma fma_ge : forall L a b c v w z, inF F L -> (0 < L)%Q -> (0 < a)%Q -> (0 < b)%Q -> (0 < c)%Q -> (L <= a * b + c)%Q ->
  atleast a v -> atleast b w -> atleast c z -> atleast L (f_fma G v w z).
Proof.
  intros L a b c v w z IL PL Pa Pb Pc H Av Aw Az.
  assert (P : forall d u, (0 < d)%Q -> atleast d u -> t_nan u = false /\ t_zero u = false /\ f_neg u = false).
  { intros d u Pd [->|(x & -> & Hx)]; [auto|]. split; [reflexivity|]. split; [reflexivity|]. apply f_neg_ge. apply Qlt_le_weak. eapply Qlt_le_trans; eassumption. }
  destruct (P a v Pa Av) as (V1 & V2 & V3), (P b w Pb Aw) as (W1 & W2 & W3), (P c z Pc Az) as (Z1 & Z2 & Z3).
  unfold f_fma. rewrite V1, V2, V3, W1, W2, W3, Z1, Z3. cbn [orb xorb andb]. rewrite !andb_false_r. cbn [orb].
  destruct Av as [->|(x & -> & Hx)]; [left; reflexivity|]. destruct Aw as [->|(y & -> & Hy)]; [left; reflexivity|].
  destruct Az as [->|(t & -> & Ht)]; [left; reflexivity|]. cbn [t_inf t_pinf t_minf orb f_q].
  assert (S : (L <= x * y + t)%Q).
  { apply Qle_trans with (a * b + c)%Q; auto. apply Qplus_le_compat; auto. apply Qmult_le_compat_nonneg; split; auto; apply Qlt_le_weak; auto. }
  destruct (Qeq_bool (x * y + t) 0) eqn:E.
  { apply Qeq_bool_iff in E. exfalso. rewrite E in S. apply (Qlt_not_le _ _ PL S). }
  assert (N : Qle_bool 0 (x * y + t) = true) by (apply Qle_bool_iff; apply Qle_trans with L; auto; apply Qlt_le_weak; auto).
  rewrite N. apply datum_ge; auto.
Qed.

(* a product that overflows *)
Lemma mul_over : forall x y, (0 <= x)%Q -> (0 <= y)%Q -> (p2 (emax G + 1) <= x * y)%Q -> f_mul G (Num x) (Num y) = PInf.
Proof.
  intros x y Hx Hy H. unfold f_mul. rewrite !f_neg_ge by auto. cbn [xorb].
  destruct (sollya_round_cases G (x * y)) as [(r & S & R & C)|[S C]]; rewrite S; [exfalso|reflexivity].
  assert (p2 (emax G + 1) <= rnd (x * y))%Q by (apply (rnd_ge_F F rnd Hr); auto; apply inF_p2; lia).
  pose proof (Qle_Qabs (rnd (x * y))) as A. apply (Qlt_not_le _ _ C). eapply Qle_trans; eassumption.
Qed.

(* the product of two nonnegative data, one at least being finite *)
Definition nonneg (v : fpv) : Prop := v = PInf \/ v = PZero \/ exists q, v = Num q /\ (0 < q)%Q.
Lemma datum_nonneg : forall s, (0 <= s)%Q -> nonneg (datum (sollya_round G s) false).
Proof.
  intros s H. destruct (sollya_round_cases G s) as [(r & S & R & _)|[S C]]; rewrite S; [|left; reflexivity].
  assert (Lr : (0 <= r)%Q) by (rewrite R; apply (rnd_ge_F F rnd Hr); auto; apply inF_0; exact Hp1).
  unfold datum. destruct (Qeq_bool r 0) eqn:E; [right; left; reflexivity|]. right. right. exists r. split; auto.
  apply Qle_lteq in Lr. destruct Lr as [|Z]; auto. symmetry in Z. apply Qeq_bool_iff in Z. congruence.
Qed.
Lemma mul_nonneg : forall x w, (0 < x)%Q -> nonneg w -> nonneg (f_mul G (Num x) w).
Proof.
  intros x w Px [->|[->|(y & -> & Py)]]; unfold f_mul; rewrite (f_neg_ge x) by (apply Qlt_le_weak; auto).
  - left. reflexivity.
  - right. left. reflexivity.
  - rewrite f_neg_ge by (apply Qlt_le_weak; auto). cbn [xorb]. apply datum_nonneg. apply Qmult_le_0_compat; apply Qlt_le_weak; auto.
Qed.

Lemma one_ge : atleast 1 (Num 1).
Proof. right. exists 1%Q. split; [reflexivity|apply Qle_refl]. Qed.

(* for a negative inverse the difference is at least one *)
Lemma diff_ge : forall t w, nonneg t -> (w < 0)%Q -> atleast 1 (f_fma G (f_opp t) (Num w) (Num 1)).
Proof.
  intros t w Ht Hw. unfold f_fma. rewrite (f_neg_lt w Hw).
  destruct Ht as [->|[->|(q & -> & Pq)]]; cbn [f_opp t_nan t_inf t_pinf t_minf t_zero orb andb f_neg xorb f_q]; [left; reflexivity| |].
  - destruct (Qeq_bool (0 * w + 1) 0) eqn:E; [apply Qeq_bool_iff in E; exfalso; apply Qeq_eqR in E; rewrite Q2R_plus, Q2R_mult, Q2R_1, Q2R_0 in E; lra|].
    assert (S : (1 <= 0 * w + 1)%Q) by (apply Rle_Qle; rewrite Q2R_plus, Q2R_mult, Q2R_1, Q2R_0; lra).
    assert (N : Qle_bool 0 (0 * w + 1) = true) by (apply Qle_bool_iff; apply Qle_trans with 1%Q; auto; discriminate). rewrite N.
    apply datum_ge; auto; [apply (inF_p2 0); lia|reflexivity].
  - assert (S : (1 <= - q * w + 1)%Q).
    { apply Rle_Qle. rewrite Q2R_plus, Q2R_mult, Q2R_opp, Q2R_1. apply Qlt_Rlt in Hw, Pq. rewrite Q2R_0 in Hw, Pq. nra. }
    destruct (Qeq_bool (- q * w + 1) 0) eqn:E; [apply Qeq_bool_iff in E; exfalso; rewrite E in S; apply Qle_bool_iff in S; discriminate|].
    assert (N : Qle_bool 0 (- q * w + 1) = true) by (apply Qle_bool_iff; apply Qle_trans with 1%Q; auto; discriminate). rewrite N.
    apply datum_ge; auto; [apply (inF_p2 0); lia|reflexivity].
Qed.

Section Steps.
Variable third : Q.
Hypothesis Hthird : nearestR F third (1 / 3).
Lemma third_b : (1 # 4 <= third)%Q.
Proof.
  destruct (third_pert G HG third Hthird) as (d & D & E). apply Rabs_le_inv in D. pose proof (U_b G HG) as UB.
  apply Rle_Qle. rewrite E. replace (Q2R (1 # 4)) with (1 / 4)%R by (unfold Q2R; cbn; lra). fold p in D, UB. lra.
Qed.
Lemma third_ge : atleast (1 # 4) (Num third).
Proof. right. exists third. split; [reflexivity|apply third_b]. Qed.
Let P4 : (0 < 1 # 4)%Q. Proof. reflexivity. Qed.

Lemma third_mul : forall L v, inF F L -> (0 < L)%Q -> atleast (4 * L) v -> atleast L (f_mul G v (Num third)).
Proof.
  intros L v IL PL A. apply (mul_ge L (4 * L) (1 # 4)); auto.
  - apply Qmult_lt_0_compat; [reflexivity|auto].
  - setoid_replace (4 * L * (1 # 4))%Q with L by ring. apply Qle_refl.
  - apply third_ge.
Qed.

(* a negative inverse: the iterates do not decrease *)
Lemma newton_neg : forall L w v, inF F L -> inF F (4 * L) -> (0 < L)%Q -> (w < 0)%Q -> atleast (4 * L) v -> atleast (4 * L) (newton G third (Num w) v).
Proof.
  intros L w v IL IL4 PL Hw Av. unfold newton. assert (PL4 : (0 < 4 * L)%Q) by (apply Qmult_lt_0_compat; [reflexivity|auto]).
  apply (fma_ge _ L 1 (4 * L)); auto; try reflexivity.
  - apply Rle_Qle. apply Qlt_Rlt in PL. rewrite Q2R_plus, !Q2R_mult, Q2R_1 in *. rewrite Q2R_0 in PL. lra.
  - apply third_mul; auto.
  - apply diff_ge; auto. destruct Av as [->|(q & -> & Hq)]; [left; reflexivity|].
    assert (Pq : (0 < q)%Q) by (eapply Qlt_le_trans; eassumption). apply mul_nonneg; auto. apply mul_nonneg; auto. right. right. exists q. auto.
Qed.
Lemma iterate_neg : forall n L w v, inF F L -> inF F (4 * L) -> (0 < L)%Q -> (w < 0)%Q -> atleast (4 * L) v -> atleast (4 * L) (iterate n (newton G third (Num w)) v).
Proof. induction n as [|n IH]; intros L w v IL IL4 PL Hw Av; [exact Av|]. cbn [iterate]. apply IH; auto. apply newton_neg; auto. Qed.

(* an infinite inverse *)
Lemma newton_minf_pinf : newton G third MInf PInf = PInf.
Proof. unfold newton, f_mul, f_fma. rewrite (f_neg_ge third) by (eapply Qle_trans; [|apply third_b]; discriminate). reflexivity. Qed.
Lemma newton_pinf_minf : newton G third PInf MInf = MInf.
Proof. unfold newton, f_mul, f_fma. rewrite (f_neg_ge third) by (eapply Qle_trans; [|apply third_b]; discriminate). reflexivity. Qed.

Lemma newton_inf : forall L q t (neg : bool), inF F L -> (0 < L)%Q -> (4 * L <= q)%Q -> f_mul G (Num q) (f_mul G (Num q) (Num q)) = Num t -> (0 < t)%Q ->
  newton G third (if neg then MInf else PInf) (Num q) = if neg then PInf else MInf.
Proof.
  intros L q t neg IL PL Hq Et Pt. unfold newton. rewrite Et. cbn [f_opp].
  assert (A : atleast L (f_mul G (Num q) (Num third))) by (apply third_mul; auto; right; exists q; auto).
  assert (Pq : (0 < q)%Q) by (eapply Qlt_le_trans; [|exact Hq]; apply Qmult_lt_0_compat; [reflexivity|auto]).
  assert (Nt : (- t < 0)%Q) by (apply Rlt_Qlt; apply Qlt_Rlt in Pt; rewrite Q2R_opp, Q2R_0 in *; lra).
  assert (E : f_fma G (Num (- t)) (if neg then MInf else PInf) (Num 1) = if neg then PInf else MInf).
  { unfold f_fma. rewrite (f_neg_lt _ Nt). destruct neg; reflexivity. }
  rewrite E. unfold f_fma. destruct A as [->|(x & -> & Hx)].
  - destruct neg; reflexivity.
  - rewrite (f_neg_ge x) by (apply Qlt_le_weak; apply (Qlt_le_trans _ L); auto). destruct neg; reflexivity.
Qed.
End Steps.
End Special.
