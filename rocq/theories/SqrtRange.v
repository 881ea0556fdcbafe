(* The square root computation in a format with bounded exponents: for
   operands from 2^(em+2p) on, where 2^em is the smallest positive number, its
   operations have a relative error, and give the same results as with
   unbounded exponents up to 2^(-em-p). *)
From Coq Require Import ZArith QArith Qround Qabs List Bool Lia Lqa Setoid.
From Verif Require Import QUtil RoundSpec RoundProofs RoundRne SqrtModel SqrtSpec SqrtErr SqrtCore DivRange.
From Verif Require DivProofs FpFormatProofs FpFormatProofs2.
Import ListNotations.
Open Scope Z_scope.

Section Range.
Variables (p em : Z) (rnd : Q -> Q).
Notation F := (mkF p (Some em)).
Notation u := (p2 (- p)).
Hypothesis Hp : 12 <= p.
Hypothesis Hem : em + 2 * p + 5 <= 0.
Hypothesis Hr : nearest_in F rnd.

Let Hp1 : 1 <= prec F. Proof. cbn [prec]. lia. Qed.

Lemma okF : forall e, em <= e -> exp_ok F e.
Proof. intros e H. unfold exp_ok. cbn [emin]. exact H. Qed.
Lemma su12 : (4096 * u <= 1)%Q.
Proof. pose proof (p2_le (- p) (-12) ltac:(lia)) as H. change (p2 (-12)) with (1 # 4096)%Q in H. lra. Qed.
Lemma su0 : (0 <= u)%Q. Proof. pose proof (p2_pos (- p)); lra. Qed.

Definition ok (x : Q) : Prop := mult em x \/ (p2 (em + p - 1) <= Qabs x)%Q.

Lemma ok_comp : forall x y, (x == y)%Q -> ok x -> ok y.
Proof.
  intros x y E [H|H]; [left; apply (mult_comp _ x); auto|right].
  rewrite <- E. exact H.
Qed.

Lemma ok_rel : forall x, ok x -> relerr u x (rnd x).
Proof.
  intros x H. unfold relerr. destruct (Qlt_le_dec (Qabs x) (p2 (em + p - 1))) as [L|L].
  - destruct H as [H|H]; [|lra].
    assert (Fx : inF F x).
    { apply (inF_intro F Hp1 em); auto; [apply okF; lia|]. cbn [prec].
      pose proof (p2_le (em + p - 1) (p + em) ltac:(lia)). lra. }
    rewrite (rnd_id F rnd Hr x Fx). setoid_replace (x - x)%Q with 0%Q by ring. change (Qabs 0) with 0%Q.
    apply Qmult_le_0_compat; [apply su0|apply Qabs_nonneg].
  - assert (P : (0 < Qabs x)%Q) by (pose proof (p2_pos (em + p - 1)); lra).
    destruct (qlog2_spec _ P) as [Q1 Q2]. set (e := qlog2 (Qabs x)) in *.
    assert (He : em + p - 1 <= e).
    { assert (em + p - 1 < e + 1); [|lia]. apply p2_lt_inv. lra. }
    pose proof (rnd_half F Hp1 rnd Hr (e + 1 - p) x (okF (e + 1 - p) ltac:(lia))) as H1. cbn [prec] in H1.
    replace (p + (e + 1 - p)) with (e + 1) in H1 by lia. specialize (H1 (Qlt_le_weak _ _ Q2)).
    eapply Qle_trans; [exact H1|]. replace (e + 1 - p - 1) with (- p + e) by lia. rewrite p2_plus.
    apply DivProofs.mle; [apply su0|auto].
Qed.

Lemma half_F : forall x, inF F x -> (p2 (p + em) < x)%Q -> inF F ((1 # 2) * x).
Proof.
  intros x Fx L. pose proof (p2_pos (p + em)) as P. destruct (inF_elim F Hp1 x Fx) as (e & Mx & Ox & Bx). cbn [prec] in Bx.
  unfold exp_ok in Ox. cbn [emin] in Ox.
  assert (He : em + 1 <= e).
  { destruct (Z.eq_dec e em) as [->|]; [|lia]. rewrite Qabs_pos in Bx by lra. lra. }
  assert (E : (p2 e == 2 * p2 (e - 1))%Q) by (rewrite <- p2_succ; replace (e - 1 + 1) with e by lia; reflexivity).
  apply (inF_intro F Hp1 (e - 1)).
  - destruct Mx as [k Hk]. exists k. rewrite Hk, E. ring.
  - apply okF. lia.
  - cbn [prec]. assert (E2 : (p2 (p + e) == 2 * p2 (p + (e - 1)))%Q) by (rewrite <- p2_succ; replace (p + (e - 1) + 1) with (p + e) by lia; reflexivity).
    rewrite Qabs_pos in * by lra. lra.
Qed.

Lemma mult_of_big : forall e x, inF F x -> (p2 (p + e - 1) < x)%Q -> mult e x.
Proof.
  intros e x Fx H. apply (inF_big F Hp1); auto. cbn [prec]. rewrite Qabs_pos; auto. pose proof (p2_pos (p + e - 1)); lra.
Qed.

Section Op.
Variable v : Q.
Hypothesis Fv : inF F v.
Hypothesis Vlo : (p2 (em + 2 * p) <= v)%Q.
Hypothesis Vhi : (v <= p2 (- em - p + 3))%Q.

Lemma v_pos : (0 < v)%Q. Proof. pose proof (p2_pos (em + 2 * p)). lra. Qed.

Lemma big_root : forall x e, (0 < x)%Q -> (v <= 8 * (x * x))%Q -> 2 * e + 3 <= em + 2 * p -> (p2 e <= x)%Q.
Proof.
  intros x e P H He. destruct (Qlt_le_dec x (p2 e)) as [L|L]; [exfalso|auto].
  assert (x * x < p2 e * p2 e)%Q by (apply sq_lt_mono; lra).
  assert (E : (8 * (p2 e * p2 e) == p2 (2 * e + 3))%Q).
  { replace (2 * e + 3) with (3 + (e + e)) by lia. rewrite !p2_plus. reflexivity. }
  pose proof (p2_le _ _ He). lra.
Qed.
Lemma big_inv : forall x e, (0 < x)%Q -> (1 <= 8 * (v * x * x))%Q -> 2 * e - em - p + 6 <= 0 -> (p2 e <= x)%Q.
Proof.
  intros x e P H He. destruct (Qlt_le_dec x (p2 e)) as [L|L]; [exfalso|auto].
  pose proof v_pos as Pv.
  assert (x * x < p2 e * p2 e)%Q by (apply sq_lt_mono; lra).
  assert (X : (v * (x * x) < v * (p2 e * p2 e))%Q) by (apply Qmult_lt_l; auto).
  assert (Y : (v * (p2 e * p2 e) <= p2 (- em - p + 3) * (p2 e * p2 e))%Q).
  { apply Qmult_le_compat_r; auto. apply Qmult_le_0_compat; pose proof (p2_pos e); lra. }
  assert (E : (8 * (p2 (- em - p + 3) * (p2 e * p2 e)) == p2 (2 * e - em - p + 6))%Q).
  { replace (2 * e - em - p + 6) with (3 + (- em - p + 3 + (e + e))) by lia. rewrite !p2_plus. reflexivity. }
  pose proof (p2_le _ 0 He) as Z. rewrite p2_0 in Z. lra.
Qed.

Lemma R1 : forall x, (0 < x)%Q -> (v <= 8 * (x * x))%Q -> ok x.
Proof.
  intros x P H. right. rewrite Qabs_pos by lra. apply big_root; auto. lia.
Qed.
Lemma R3 : forall x, (0 < x)%Q -> (1 <= 8 * (v * x * x))%Q -> ok x.
Proof.
  intros x P H. right. rewrite Qabs_pos by lra. apply big_inv; auto. lia.
Qed.
Lemma v_mult : mult em v.
Proof.
  destruct (inF_elim F Hp1 v Fv) as (e & Mv & Ov & _). apply (mult_le e); auto.
Qed.
Lemma half_mult : mult em (1 # 2).
Proof.
  apply (mult_comp _ (p2 (-1))); [reflexivity|]. apply mult_p2. lia.
Qed.
Lemma R2 : forall s, inF F s -> (0 < s)%Q -> (3 * v <= 4 * (s * s))%Q -> ok (- s * s + v).
Proof.
  intros s Fs Ps H. left. apply mult_plus; [|apply v_mult].
  set (k := (em + 1) / 2). assert (Hk : em <= 2 * k <= em + 1) by (unfold k; pose proof (Z.div_mod (em + 1) 2 ltac:(lia)); pose proof (Z.mod_pos_bound (em + 1) 2 ltac:(lia)); lia).
  assert (Ms : mult k s).
  { apply mult_of_big; auto. destruct (Qlt_le_dec (p2 (p + k - 1)) s) as [|L]; [assumption|exfalso].
    assert (s * s <= p2 (p + k - 1) * p2 (p + k - 1))%Q by (apply sq_le_mono; lra).
    assert (E : (p2 (p + k - 1) * p2 (p + k - 1) == p2 (2 * p + 2 * k - 2))%Q).
    { rewrite <- p2_plus. replace (p + k - 1 + (p + k - 1)) with (2 * p + 2 * k - 2) by lia. reflexivity. }
    pose proof (p2_le (2 * p + 2 * k - 2) (em + 2 * p - 1) ltac:(lia)) as L2.
    assert (E2 : (p2 (em + 2 * p) == 2 * p2 (em + 2 * p - 1))%Q) by (rewrite <- p2_succ; replace (em + 2 * p - 1 + 1) with (em + 2 * p) by lia; reflexivity).
    pose proof (p2_pos (em + 2 * p - 1)). lra. }
  apply (mult_le (k + k)); [lia|]. apply (mult_comp _ (- (s * s))); [ring|]. apply mult_opp. apply mult_mul; auto.
Qed.
Lemma R5 : inF F ((1 # 2) * v) /\ (rnd ((1 # 2) * v) == (1 # 2) * v)%Q.
Proof.
  assert (H : inF F ((1 # 2) * v)).
  { apply half_F; auto. pose proof (p2_lt (p + em) (em + 2 * p) ltac:(lia)). lra. }
  split; auto. apply (rnd_id F rnd Hr); auto.
Qed.

Lemma R4 : forall y, inF F y -> (0 < y)%Q -> (Qabs (1 - v * y * y) <= 1 # 16)%Q ->
  relerr ((9 # 2) * u) (y * y) (rnd (y * y))
  /\ ok (- ((1 # 2) * v) * rnd (y * y) + (1 # 2))
  /\ ok (- rnd (y * ((1 # 2) * v)) * y + (1 # 2))
  /\ ok ((1 # 2) * y) /\ (rnd ((1 # 2) * y) == (1 # 2) * y)%Q.
Proof.
  intros y Fy Py He. apply Qabs_le_iff in He. destruct He as [E1 E2].
  pose proof v_pos as Pv. pose proof su12 as U. pose proof (p2_pos (- p)) as Pu.
  assert (Py2 : (0 < y * y)%Q) by (apply Qmult_lt_0_compat; auto).
  assert (A : relerr ((9 # 2) * u) (y * y) (rnd (y * y))).
  { destruct (Qlt_le_dec (y * y) (p2 (em + p - 1))) as [L|L].
    - pose proof (rnd_half F Hp1 rnd Hr em (y * y) (okF em ltac:(lia))) as H. cbn [prec] in H.
      rewrite (Qabs_pos (y * y)) in H by lra.
      specialize (H ltac:(pose proof (p2_le (em + p - 1) (p + em) ltac:(lia)); lra)).
      unfold relerr. rewrite (Qabs_pos (y * y)) by lra. eapply Qle_trans; [exact H|].
      assert (X : (v * (y * y) <= p2 (- em - p + 3) * (y * y))%Q) by (apply Qmult_le_compat_r; lra).
      assert (J : (p2 (em + p - 3) * p2 (- em - p + 3) == 1)%Q).
      { rewrite <- p2_plus. replace (em + p - 3 + (- em - p + 3)) with 0 by lia. apply p2_0. }
      assert (Y : ((15 # 16) * p2 (em + p - 3) <= y * y)%Q).
      { pose proof (p2_pos (em + p - 3)) as Pq.
        assert (Z : (p2 (em + p - 3) * (15 # 16) <= p2 (em + p - 3) * (p2 (- em - p + 3) * (y * y)))%Q) by (apply DivProofs.mle; lra).
        rewrite Qmult_assoc, J in Z. lra. }
      assert (K : (u * p2 (em + p - 3) == (1 # 4) * p2 (em - 1))%Q).
      { change (1 # 4)%Q with (p2 (-2)). rewrite <- !p2_plus. replace (- p + (em + p - 3)) with (-2 + (em - 1)) by lia. reflexivity. }
      assert (W : (u * ((15 # 16) * p2 (em + p - 3)) <= u * (y * y))%Q) by (apply DivProofs.mle; lra).
      pose proof (p2_pos (em - 1)). lra.
    - apply (relerr_weak u); [lra|]. apply ok_rel. right. rewrite Qabs_pos by lra. exact L. }
  split; [exact A|].
  assert (Ky : ok ((1 # 2) * y)) by (apply R3; lra).
  assert (By : (p2 (p + em) < y)%Q).
  { apply (Qlt_le_trans _ (p2 (p + em + 1))); [apply p2_lt; lia|]. apply big_inv; auto; lra || lia. }
  assert (K5 : ok (y * ((1 # 2) * v))).
  { apply R1; [repeat apply Qmult_lt_0_compat; auto; lra|].
    assert (Z : (v * (15 # 16) <= v * (v * y * y))%Q) by (apply DivProofs.mle; lra). lra. }
  split; [|split].
  - left. apply mult_plus; [|apply half_mult].
    destruct (qlog2_spec v Pv) as [L1 L2]. set (ev := qlog2 v) in *.
    assert (Mv : mult (ev - p) v).
    { apply mult_of_big; auto. replace (p + (ev - p) - 1) with (ev - 1) by lia.
      pose proof (p2_lt (ev - 1) ev ltac:(lia)). lra. }
    assert (Mh : mult (ev - p - 1) ((1 # 2) * v)).
    { destruct Mv as [k Hk]. exists k. rewrite Hk.
      assert (E : (p2 (ev - p) == 2 * p2 (ev - p - 1))%Q) by (rewrite <- p2_succ; replace (ev - p - 1 + 1) with (ev - p) by lia; reflexivity).
      rewrite E. ring. }
    assert (Sq : ((7 # 8) <= v * rnd (y * y))%Q).
    { unfold relerr in A. rewrite (Qabs_pos (y * y)) in A by lra. apply Qabs_le_iff in A. destruct A as [A1 _].
      assert (B : ((1 - (9 # 2) * u) * (y * y) <= rnd (y * y))%Q) by lra.
      assert (C : ((15 # 16) * (y * y) <= rnd (y * y))%Q).
      { eapply Qle_trans; [|exact B]. apply Qmult_le_compat_r; lra. }
      assert (D : (v * ((15 # 16) * (y * y)) <= v * rnd (y * y))%Q) by (apply DivProofs.mle; lra). lra. }
    assert (Ms : mult (- ev - 1 - p) (rnd (y * y))).
    { apply mult_of_big; [apply (rnd_inF F rnd Hr)|]. replace (p + (- ev - 1 - p) - 1) with (- ev - 2) by lia.
      destruct (Qlt_le_dec (p2 (- ev - 2)) (rnd (y * y))) as [|L]; [assumption|exfalso].
      assert (X : (v * rnd (y * y) <= v * p2 (- ev - 2))%Q) by (apply DivProofs.mle; lra).
      assert (Y : (v * p2 (- ev - 2) < p2 (ev + 1) * p2 (- ev - 2))%Q) by (apply Qmult_lt_r; [apply p2_pos|auto]).
      rewrite <- p2_plus in Y. replace (ev + 1 + (- ev - 2)) with (-1) in Y by lia. change (p2 (-1)) with (1 # 2)%Q in Y. lra. }
    apply (mult_le (ev - p - 1 + (- ev - 1 - p))); [lia|].
    apply (mult_comp _ (- ((1 # 2) * v * rnd (y * y)))); [ring|]. apply mult_opp. apply mult_mul; auto.
  - left. apply mult_plus; [|apply half_mult].
    destruct (qlog2_spec y Py) as [L1 L2]. set (ey := qlog2 y) in *.
    assert (My : mult (ey - p) y).
    { apply mult_of_big; auto. replace (p + (ey - p) - 1) with (ey - 1) by lia.
      pose proof (p2_lt (ey - 1) ey ltac:(lia)). lra. }
    set (t5 := rnd (y * ((1 # 2) * v))).
    assert (T : ((7 # 16) <= t5 * y)%Q).
    { pose proof (ok_rel _ K5) as A5. fold t5 in A5. unfold relerr in A5.
      assert (P5 : (0 < y * ((1 # 2) * v))%Q) by (apply Qmult_lt_0_compat; lra).
      rewrite (Qabs_pos (y * ((1 # 2) * v))) in A5 by lra. apply Qabs_le_iff in A5. destruct A5 as [A1 _].
      assert (B : ((1 - u) * (y * ((1 # 2) * v)) <= t5)%Q) by lra.
      assert (C : ((31 # 32) * (y * ((1 # 2) * v)) <= t5)%Q).
      { eapply Qle_trans; [|exact B]. apply Qmult_le_compat_r; lra. }
      assert (D : ((31 # 32) * (y * ((1 # 2) * v)) * y <= t5 * y)%Q) by (apply Qmult_le_compat_r; lra). lra. }
    assert (Mt : mult (- ey - 2 - p) t5).
    { apply mult_of_big; [apply (rnd_inF F rnd Hr)|]. replace (p + (- ey - 2 - p) - 1) with (- ey - 3) by lia.
      destruct (Qlt_le_dec (p2 (- ey - 3)) t5) as [|L]; [assumption|exfalso].
      assert (X : (t5 * y <= p2 (- ey - 3) * y)%Q) by (apply Qmult_le_compat_r; lra).
      assert (Y : (p2 (- ey - 3) * y < p2 (- ey - 3) * p2 (ey + 1))%Q) by (apply Qmult_lt_l; [apply p2_pos|auto]).
      rewrite <- p2_plus in Y. replace (- ey - 3 + (ey + 1)) with (-2) in Y by lia. change (p2 (-2)) with (1 # 4)%Q in Y. lra. }
    apply (mult_le (- ey - 2 - p + (ey - p))); [lia|].
    apply (mult_comp _ (- (t5 * y))); [ring|]. apply mult_opp. apply mult_mul; auto.
  - split; [exact Ky|]. apply (rnd_id F rnd Hr). apply half_F; auto.
Qed.

(* no square is subnormal *)
Lemma Rsq : (v <= p2 (- em - p))%Q -> squares_ok v (inF F) ok.
Proof.
  intros Vhi2 y Fy Py He. apply Qabs_le_iff in He. destruct He as [E1 E2]. pose proof v_pos as Pv.
  right. assert (Py2 : (0 < y * y)%Q) by (apply Qmult_lt_0_compat; auto). rewrite Qabs_pos by lra.
  assert (X : (v * (y * y) <= p2 (- em - p) * (y * y))%Q) by (apply Qmult_le_compat_r; lra).
  assert (J : (p2 (em + p - 1) * p2 (- em - p) == 1 # 2)%Q).
  { rewrite <- p2_plus. replace (em + p - 1 + (- em - p)) with (-1) by lia. reflexivity. }
  pose proof (p2_pos (em + p - 1)) as Pq.
  assert (Z : (p2 (em + p - 1) * (15 # 16) <= p2 (em + p - 1) * (p2 (- em - p) * (y * y)))%Q) by (apply DivProofs.mle; lra).
  rewrite Qmult_assoc, J in Z. lra.
Qed.
End Op.
End Range.

(* scaling with unbounded exponents *)
Lemma rne_inf_scale : forall p k x, 1 <= p -> (rne (mkF p None) (p2 k * x) == p2 k * rne (mkF p None) x)%Q.
Proof.
  intros p k x Hp. pose proof (p2_pos k) as Pk. unfold rne.
  destruct (Qeq_bool x 0) eqn:E.
  - apply Qeq_bool_iff in E. assert (E2 : Qeq_bool (p2 k * x) 0 = true) by (apply Qeq_bool_iff; rewrite E; ring).
    rewrite E2. ring.
  - apply Qeq_bool_neq in E.
    assert (E2 : Qeq_bool (p2 k * x) 0 = false).
    { destruct (Qeq_bool (p2 k * x) 0) eqn:E3; auto. apply Qeq_bool_iff in E3. exfalso. apply E.
      apply Qmult_integral in E3. destruct E3 as [E3|]; auto. rewrite E3 in Pk. lra. }
    rewrite E2.
    assert (Px : (0 < Qabs x)%Q) by (destruct (Qlt_le_dec 0 (Qabs x)); auto; exfalso; apply E; apply Qabs_le_iff in q; lra).
    destruct (qlog2_spec _ Px) as [L1 L2].
    assert (Ab : (Qabs (p2 k * x) == Qabs x * p2 k)%Q) by (rewrite Qmult_comm; apply Qabs_mul_pos; auto).
    assert (L : qlog2 (Qabs (p2 k * x)) = qlog2 (Qabs x) + k).
    { apply qlog2_unique; rewrite Ab.
      - rewrite p2_plus. apply Qmult_le_compat_r; lra.
      - replace (qlog2 (Qabs x) + k + 1) with (qlog2 (Qabs x) + 1 + k) by lia. rewrite (p2_plus _ k). apply Qmult_lt_r; auto. }
    assert (R : rexp (mkF p None) (p2 k * x) = rexp (mkF p None) x + k) by (unfold rexp; cbn [emin prec]; rewrite L; lia).
    rewrite R. rewrite (qrne_comp (p2 k * x / p2 (rexp (mkF p None) x + k)) (x / p2 (rexp (mkF p None) x))).
    + rewrite p2_plus. ring.
    + rewrite p2_plus. field. split; apply p2_nz.
Qed.
